(** * Number theory: the two moduli, primality of the Goldilocks prime, Fermat.

    [p] is the Goldilocks prime (goldilocks/base.go:33, [goldilocks.Modulus()]),
    [r] the order of the BN254 scalar field, the native field of the circuit
    (goldilocks/base.go uses gnark over [ecc.BN254]). *)
From Coq Require Import ZArith Znumtheory Zpow_facts Lia List Bool Permutation.
Import ListNotations.
Open Scope Z_scope.

Definition p : Z := 18446744069414584321.            (* 2^64 - 2^32 + 1 *)
Definition r : Z :=
  21888242871839275222246405745257275088548364400416034343698204186575808495617.

Lemma p_eq : p = 2 ^ 64 - 2 ^ 32 + 1. Proof. reflexivity. Qed.
Lemma p_pos : 0 < p. Proof. reflexivity. Qed.
Lemma p_gt1 : 1 < p. Proof. reflexivity. Qed.
Lemma r_pos : 0 < r. Proof. reflexivity. Qed.
Lemma p_lt_r : p < r. Proof. reflexivity. Qed.

(** Fast modular power. *)
Fixpoint powm_pos (m b : Z) (e : positive) : Z :=
  match e with
  | xH => b mod m
  | xO e' => let s := powm_pos m b e' in (s * s) mod m
  | xI e' => let s := powm_pos m b e' in ((s * s) mod m * b) mod m
  end.
Definition powm (m b e : Z) : Z :=
  match e with Zpos e' => powm_pos m b e' | _ => 1 mod m end.

Lemma powm_pos_spec m b e : 0 < m -> powm_pos m b e = (b ^ Zpos e) mod m.
Proof.
  intros Hm; induction e as [e IH|e IH|]; cbn [powm_pos].
  - rewrite IH. replace (Z.pos e~1) with (Z.pos e + Z.pos e + 1) by lia.
    rewrite !Z.pow_add_r by lia. rewrite Z.pow_1_r.
    rewrite Z.mul_mod_idemp_l by lia. rewrite <- (Z.mul_mod_idemp_l (b ^ Z.pos e * b ^ Z.pos e)) by lia.
    rewrite (Z.mul_mod (b ^ Z.pos e)) by lia. now rewrite Z.mul_mod_idemp_l by lia.
  - rewrite IH. replace (Z.pos e~0) with (Z.pos e + Z.pos e) by lia.
    rewrite !Z.pow_add_r by lia. rewrite (Z.mul_mod (b ^ Z.pos e)) by lia. reflexivity.
  - now rewrite Z.pow_1_r.
Qed.

Lemma powm_spec m b e : 0 < m -> 0 <= e -> powm m b e = (b ^ e) mod m.
Proof.
  intros Hm He; destruct e; cbn [powm]; [reflexivity| |lia].
  now apply powm_pos_spec.
Qed.

(** ** Primality of [p] by a Proth/Pocklington argument: a prime divisor [q] of
    [p] has at least [2^32] distinct non-zero residues (the powers of
    [7^(2^32-1)]), so [q > 2^32] and [q*q > p]. *)

Definition g32 : Z := powm p 7 (2 ^ 32 - 1).

Lemma g32_half : powm p g32 (2 ^ 31) = p - 1.
Proof. vm_compute. reflexivity. Qed.

Lemma mod_mod_div a q m : 0 < q -> 0 < m -> (q | m) -> (a mod m) mod q = a mod q.
Proof. intros Hq Hm Hd. symmetry. apply Zmod_div_mod; assumption. Qed.

Lemma odd_part (n : nat) : forall i, 0 < i < 2 ^ Z.of_nat (S n) ->
  exists j m, 0 <= j /\ 0 <= m /\ i * 2 ^ j = 2 ^ Z.of_nat n * (2 * m + 1).
Proof.
  induction n as [|n IH]; intros i Hi.
  - exists 0, 0. change (2 ^ Z.of_nat 1) with 2 in Hi. change (2 ^ Z.of_nat 0) with 1. lia.
  - rewrite Nat2Z.inj_succ, Z.pow_succ_r in Hi by lia.
    destruct (Z.Even_or_Odd i) as [[h Hh]|[h Hh]].
    + destruct (IH h) as (j & m & Hj & Hm & E); [lia|]. exists j, m. repeat split; auto.
      rewrite Nat2Z.inj_succ, Z.pow_succ_r by lia. subst i.
      replace (2 * h * 2 ^ j) with (2 * (h * 2 ^ j)) by ring. rewrite E. ring.
    + exists (Z.of_nat (S n)), h. repeat split; [lia|lia|]. subst i. ring.
Qed.

(** Powers of [b] with [b^(2^n) = -1 (mod q)], [q > 2], are distinct from 1. *)
Lemma pow_ne_1 q b (n : nat) i :
  2 < q -> (b ^ (2 ^ Z.of_nat n)) mod q = q - 1 -> 0 < i < 2 ^ Z.of_nat (S n) ->
  (b ^ i) mod q <> 1.
Proof.
  intros Hq Hb Hi H1.
  destruct (odd_part n i Hi) as (j & m & Hj & Hm & E).
  assert (A : (b ^ (i * 2 ^ j)) mod q = 1).
  { rewrite Z.pow_mul_r by (try lia; apply Z.pow_nonneg; lia).
    rewrite Zpower_mod by lia. rewrite H1, Z.pow_1_l by (apply Z.pow_nonneg; lia).
    apply Z.mod_small; lia. }
  rewrite E in A.
  assert (B : (b ^ (2 ^ Z.of_nat n * (2 * m + 1))) mod q = q - 1).
  { rewrite Z.pow_mul_r by (try lia; apply Z.pow_nonneg; lia).
    rewrite Zpower_mod by lia. rewrite Hb.
    replace (q - 1) with ((-1) + 1 * q) at 1 by ring.
    rewrite (Zpower_mod (-1 + 1 * q)) by lia. rewrite Z.mod_add by lia.
    rewrite <- Zpower_mod by lia.
    rewrite Z.pow_add_r, Z.pow_mul_r, Z.pow_1_r by lia.
    change ((-1) ^ 2) with 1. rewrite Z.pow_1_l by lia.
    replace (1 * -1) with ((q - 1) + (-1) * q) by ring.
    rewrite Z.mod_add by lia. apply Z.mod_small; lia. }
  lia.
Qed.

(** A prime [q] not dividing [c] cancels [c]. *)
Lemma mul_cancel_mod q a b c :
  prime q -> (c mod q) <> 0 -> (a * c) mod q = (b * c) mod q -> a mod q = b mod q.
Proof.
  intros Hq Hc H. assert (q > 1) by (destruct Hq; lia).
  assert (D : (q | (a - b) * c)).
  { apply Z.mod_divide; [lia|]. replace ((a - b) * c) with (a * c - b * c) by ring.
    rewrite Zminus_mod, H, Z.sub_diag. apply Z.mod_0_l; lia. }
  apply prime_mult in D; [|exact Hq]. destruct D as [D|D].
  - apply Z.mod_divide in D; [|lia].
    replace a with ((a - b) + b) by ring. rewrite Z.add_mod, D by lia.
    rewrite Z.add_0_l. apply Z.mod_mod; lia.
  - apply Z.mod_divide in D; [|lia]. contradiction.
Qed.

Lemma pow_mod_nz q b i : prime q -> 0 <= i -> b mod q <> 0 -> (b ^ i) mod q <> 0.
Proof.
  intros Hq Hi Hb. assert (q > 1) by (destruct Hq; lia).
  revert Hi. apply natlike_ind with (P := fun i => (b ^ i) mod q <> 0).
  - rewrite Z.pow_0_r, Z.mod_small by lia. lia.
  - intros x Hx IH E. rewrite Z.pow_succ_r in E by lia.
    assert (D : (q | b * b ^ x)) by (apply Z.mod_divide; [lia|exact E]).
    apply prime_mult in D; [|exact Hq].
    destruct D as [D|D]; apply Z.mod_divide in D; try lia; contradiction.
Qed.

Definition Zseq (a : Z) (n : nat) : list Z := map (fun i => a + Z.of_nat i) (seq 0 n).

Lemma in_Zseq a n x : In x (Zseq a n) <-> a <= x < a + Z.of_nat n.
Proof.
  unfold Zseq. rewrite in_map_iff. split.
  - intros (i & <- & Hi). apply in_seq in Hi. lia.
  - intros H. exists (Z.to_nat (x - a)). split; [lia|]. apply in_seq. lia.
Qed.

Lemma NoDup_map_inj {A B} (f : A -> B) l :
  (forall x y, In x l -> In y l -> f x = f y -> x = y) -> NoDup l -> NoDup (map f l).
Proof.
  intros Hinj Hnd; induction Hnd as [|x l Hx Hnd IH]; cbn [map]; constructor.
  - intros Hin. apply in_map_iff in Hin. destruct Hin as (y & E & Hy).
    apply Hx. rewrite <- (Hinj y x); auto using in_eq, in_cons.
  - apply IH. intros a b Ha Hb. apply Hinj; auto using in_cons.
Qed.

Lemma NoDup_Zseq a n : NoDup (Zseq a n).
Proof. apply NoDup_map_inj; [intros; lia|apply seq_NoDup]. Qed.

Lemma length_Zseq a n : length (Zseq a n) = n.
Proof. unfold Zseq. now rewrite map_length, seq_length. Qed.

Lemma many_powers q b (n : nat) :
  prime q -> 2 < q -> (b ^ (2 ^ Z.of_nat n)) mod q = q - 1 -> 2 ^ Z.of_nat (S n) < q.
Proof.
  intros Hq H2 Hb.
  assert (Hbnz : b mod q <> 0).
  { intros E. rewrite Zpower_mod, E, Z.pow_0_l in Hb by (try apply Z.pow_pos_nonneg; lia).
    rewrite Z.mod_0_l in Hb; lia. }
  set (N := Z.to_nat (2 ^ Z.of_nat (S n))).
  assert (HN : Z.of_nat N = 2 ^ Z.of_nat (S n)) by (apply Z2Nat.id, Z.pow_nonneg; lia).
  pose proof (NoDup_incl_length (l := map (fun i => (b ^ i) mod q) (Zseq 0 N))
                (l' := Zseq 1 (Z.to_nat (q - 1)))) as L.
  rewrite map_length, !length_Zseq in L.
  enough (N <= Z.to_nat (q - 1))%nat by lia.
  apply L; clear L.
  - apply NoDup_map_inj; [|apply NoDup_Zseq].
    assert (W : forall i j, 0 <= i -> i < j -> j < 2 ^ Z.of_nat (S n) ->
                 (b ^ i) mod q = (b ^ j) mod q -> False).
    { intros i j Hi Hij Hj E.
      apply (pow_ne_1 q b n (j - i)); [lia|exact Hb|lia|].
      replace 1 with (1 mod q) by (apply Z.mod_small; lia).
      apply mul_cancel_mod with (c := b ^ i); [exact Hq|apply pow_mod_nz; auto|].
      rewrite <- Z.pow_add_r by lia. replace (j - i + i) with j by ring.
      now rewrite Z.mul_1_l. }
    intros x y Hx Hy E. apply in_Zseq in Hx, Hy.
    destruct (Z.lt_trichotomy x y) as [H|[H|H]]; [exfalso|exact H|exfalso].
    + apply (W x y); lia.
    + apply (W y x); lia.
  - intros x Hx. apply in_map_iff in Hx. destruct Hx as (i & <- & Hi).
    apply in_Zseq in Hi. apply in_Zseq.
    pose proof (Z.mod_pos_bound (b ^ i) q ltac:(lia)).
    pose proof (pow_mod_nz q b i Hq ltac:(lia) Hbnz). lia.
Qed.

(** Every integer above 1 has a prime divisor, and a composite one has a prime
    divisor whose square does not exceed it. *)
Lemma prime_divisor : forall n, 1 < n -> exists q, prime q /\ (q | n).
Proof.
  assert (W := Zlt_0_ind (fun n => 1 < n -> exists q, prime q /\ (q | n))).
  intros n Hn. apply W; [|lia|exact Hn]. clear W Hn n.
  intros n IH _ Hn. destruct (prime_dec n) as [P|NP].
  - exists n. split; [exact P|apply Z.divide_refl].
  - destruct (not_prime_divide n ltac:(lia) NP) as (m & Hm & D).
    destruct (IH m) as (q & Pq & Dq); [lia|lia|].
    exists q. split; [exact Pq|]. eapply Z.divide_trans; eauto.
Qed.

Lemma prime_by_sqrt n :
  1 < n -> (forall q, prime q -> (q | n) -> n < q * q) -> prime n.
Proof.
  intros Hn H. destruct (prime_dec n) as [P|NP]; [exact P|exfalso].
  destruct (not_prime_divide n ltac:(lia) NP) as (m & Hm & D).
  destruct D as [k Hk].
  assert (1 < k) by nia. assert (k < n) by nia.
  destruct (prime_divisor m ltac:(lia)) as (q & Pq & Dq).
  destruct (prime_divisor k ltac:(lia)) as (q' & Pq' & Dq').
  assert (Hq : n < q * q). { apply H; [exact Pq|]. subst n. now apply Z.divide_mul_r. }
  assert (Hq' : n < q' * q'). { apply H; [exact Pq'|]. subst n. now apply Z.divide_mul_l. }
  assert (q <= m) by (apply Z.divide_pos_le; [lia|exact Dq]).
  assert (q' <= k) by (apply Z.divide_pos_le; [lia|exact Dq']).
  assert (q > 1) by (destruct Pq; lia). assert (q' > 1) by (destruct Pq'; lia).
  assert (A : q * q' <= n) by nia.
  assert (B : n * n < (q * q) * (q' * q')) by (apply Z.mul_lt_mono_nonneg; lia).
  assert (C : (q * q') * (q * q') <= n * n) by (apply Z.mul_le_mono_nonneg; nia).
  lia.
Qed.

Lemma g32_exists : exists b e, e = 2 ^ Z.of_nat 31 /\ (b ^ e) mod p = p - 1.
Proof.
  assert (W : forall b e, 0 <= e -> powm p b e = p - 1 -> (b ^ e) mod p = p - 1).
  { intros b e He H. rewrite <- powm_spec; [exact H|exact p_pos|exact He]. }
  exists g32, (2 ^ 31). split; [reflexivity|].
  apply W; [discriminate|exact g32_half].
Qed.

Theorem p_prime : prime p.
Proof.
  destruct g32_exists as (b & e & He & F).
  apply prime_by_sqrt; [reflexivity|]. intros q Pq Dq.
  assert (Hq1 : q > 1) by (destruct Pq; lia).
  assert (H2 : 2 < q).
  { enough (q <> 2) by lia. intros ->. apply Z.mod_divide in Dq; [|lia].
    revert Dq. vm_compute. discriminate. }
  assert (E : (b ^ e) mod q = q - 1).
  { assert (G := mod_mod_div (b ^ e) q p ltac:(lia) p_pos Dq).
    rewrite F in G. rewrite <- G. clear F G.
    destruct Dq as [k Hk]. rewrite Hk. replace (k * q - 1) with ((q - 1) + (k - 1) * q) by ring.
    rewrite Z.mod_add by lia. apply Z.mod_small; lia. }
  assert (H := many_powers q b 31 Pq H2). rewrite <- He in H.
  specialize (H E). change (2 ^ Z.of_nat 32) with 4294967296 in H.
  assert (p < 4294967297 * 4294967297) by reflexivity. clear F E. nia.
Qed.

(** ** Fermat's little theorem. *)
Definition prodm (q : Z) (l : list Z) : Z := fold_right (fun x acc => (x * acc) mod q) (1 mod q) l.

Lemma prodm_perm q l l' : 0 < q -> Permutation l l' -> prodm q l = prodm q l'.
Proof.
  intros Hq H; induction H as [|x l l' H IH|x y l|l l' l'' H1 IH1 H2 IH2]; cbn [prodm fold_right].
  - reflexivity.
  - unfold prodm in IH. now rewrite IH.
  - rewrite !Z.mul_mod_idemp_r by lia. f_equal. ring.
  - congruence.
Qed.

Lemma prodm_map_mul q a l : 0 < q ->
  prodm q (map (fun i => (i * a) mod q) l) = (prodm q l * a ^ Z.of_nat (length l)) mod q.
Proof.
  intros Hq; induction l as [|x l IH].
  - cbn. rewrite Z.mul_1_r. symmetry. apply Z.mod_mod; lia.
  - cbn [map length]. unfold prodm in *. cbn [fold_right]. rewrite IH.
    rewrite Nat2Z.inj_succ, Z.pow_succ_r by lia.
    rewrite Z.mul_mod_idemp_r, Z.mul_mod_idemp_l by lia.
    rewrite (Z.mul_mod_idemp_l (x * _)) by lia. f_equal. ring.
Qed.

Lemma prodm_nz q l : prime q -> (forall x, In x l -> x mod q <> 0) -> prodm q l <> 0.
Proof.
  intros Hq; assert (q > 1) by (destruct Hq; lia).
  induction l as [|x l IH]; intros Hl; unfold prodm in *; cbn [fold_right].
  - rewrite Z.mod_small by lia. lia.
  - intros E. assert (D : (q | x * fold_right (fun x acc => (x * acc) mod q) (1 mod q) l))
      by (apply Z.mod_divide; [lia|exact E]).
    apply prime_mult in D; [|exact Hq]. destruct D as [D|D]; apply Z.mod_divide in D; try lia.
    + apply (Hl x); auto using in_eq.
    + apply IH; [intros; apply Hl; now apply in_cons|].
      destruct l as [|y l]; cbn [fold_right] in *; rewrite Z.mod_mod in D by lia; exact D.
Qed.

Theorem fermat q a : prime q -> a mod q <> 0 -> (a ^ (q - 1)) mod q = 1.
Proof.
  intros Hq Ha. assert (Hq1 : q > 1) by (destruct Hq; lia).
  set (l := Zseq 1 (Z.to_nat (q - 1))).
  assert (Hlen : Z.of_nat (length l) = q - 1) by (unfold l; rewrite length_Zseq; lia).
  assert (Hl : forall x, In x l <-> 1 <= x < q) by (intros x; unfold l; rewrite in_Zseq; lia).
  assert (Hperm : Permutation (map (fun i => (i * a) mod q) l) l).
  { apply NoDup_Permutation_bis.
    - apply NoDup_map_inj; [|apply NoDup_Zseq].
      intros x y Hx Hy E. apply Hl in Hx, Hy.
      apply mul_cancel_mod in E; [|exact Hq|exact Ha].
      rewrite !Z.mod_small in E by lia. exact E.
    - now rewrite map_length.
    - intros x Hx. apply in_map_iff in Hx. destruct Hx as (y & <- & Hy). apply Hl in Hy.
      apply Hl. pose proof (Z.mod_pos_bound (y * a) q ltac:(lia)).
      enough ((y * a) mod q <> 0) by lia. intros E.
      assert (D : (q | y * a)) by (apply Z.mod_divide; [lia|exact E]).
      apply prime_mult in D; [|exact Hq]. destruct D as [D|D]; apply Z.mod_divide in D; try lia.
      rewrite Z.mod_small in D by lia. lia. }
  pose proof (prodm_perm q _ _ ltac:(lia) Hperm) as E.
  rewrite prodm_map_mul, Hlen in E by lia.
  assert (Hnz : prodm q l <> 0).
  { apply prodm_nz; [exact Hq|]. intros x Hx. apply Hl in Hx. rewrite Z.mod_small by lia. lia. }
  assert (Hred : prodm q l mod q = prodm q l).
  { unfold prodm. destruct l; cbn [fold_right]; apply Z.mod_mod; lia. }

  transitivity (1 mod q); [|apply Z.mod_small; lia].
  apply mul_cancel_mod with (c := prodm q l); [exact Hq|now rewrite Hred|].
  rewrite Z.mul_1_l, Hred, Z.mul_comm. exact E.
Qed.

Lemma fermat_p a : a mod p <> 0 -> (a ^ (p - 1)) mod p = 1.
Proof. apply fermat, p_prime. Qed.
