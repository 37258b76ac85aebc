(** * Pocklington's criterion, and the primality of the order r of the BN254 scalar field. *)
From Coq Require Import ZArith Znumtheory Zpow_facts Lia List Bool.
From Verif Require Import Zp.
Import ListNotations.
Open Scope Z_scope.

(** ** Orders *)
Lemma pow_mod_1 d b m k : 1 < d -> 0 <= m -> 0 <= k -> b ^ m mod d = 1 -> b ^ (m * k) mod d = 1.
Proof. intros Hd Hm Hk H. rewrite Z.pow_mul_r by assumption. rewrite Zpower_mod by lia. rewrite H, Z.pow_1_l by lia. apply Z.mod_small. lia. Qed.
Lemma pow_gcd d b : 1 < d -> forall n, 0 <= n -> forall m, 0 <= m -> b ^ m mod d = 1 -> b ^ n mod d = 1 -> b ^ Z.gcd n m mod d = 1.
Proof.
  intros Hd. apply (Zlt_0_ind (fun n => forall m, 0 <= m -> b ^ m mod d = 1 -> b ^ n mod d = 1 -> b ^ Z.gcd n m mod d = 1)).
  intros n IH Hn m Hm Em En. destruct (Z.eq_dec n 0) as [->|N0].
  - rewrite Z.gcd_0_l, Z.abs_eq by exact Hm. exact Em.
  - rewrite <- Z.gcd_mod by exact N0. pose proof (Z.mod_pos_bound m n ltac:(lia)) as B. apply IH; [exact B|exact Hn|exact En|].
    rewrite (Z.div_mod m n N0) in Em. assert (0 <= m / n) by (apply Z.div_pos; lia). rewrite Z.pow_add_r in Em by nia.
    rewrite Z.mul_mod, (pow_mod_1 d b n (m / n) Hd Hn ltac:(apply Z.div_pos; lia) En), Z.mul_1_l, Z.mod_mod in Em by lia. exact Em.
Qed.
Lemma divisor_of_power q e g : prime q -> 0 <= e -> 0 < g -> (g | q ^ (e + 1)) -> g <> q ^ (e + 1) -> (g | q ^ e).
Proof.
  intros Hq He Hg [h E] N. pose proof (prime_ge_2 q Hq) as Q2. assert (P : 0 < q ^ (e + 1)) by (apply Z.pow_pos_nonneg; lia).
  assert (1 < h) by (clear - Hg E N P; destruct (Z.eq_dec h 1) as [->|]; [lia|]; set (Q := q ^ (e + 1)) in *; nia). destruct (prime_divisor h ltac:(lia)) as (t & Pt & [h' Dt]).
  assert (t = q) as ->.
  { apply (prime_power_prime t q (e + 1)); [lia|exact Pt|exact Hq|]. exists (h' * g). rewrite E, Dt. ring. }
  exists h'. rewrite Z.pow_add_r, Z.pow_1_r in E by lia. apply (Z.mul_cancel_r _ _ q); [lia|]. rewrite E, Dt. ring.
Qed.
Lemma order_divides d b q e : prime d -> prime q -> 0 <= e -> b ^ (q ^ (e + 1)) mod d = 1 -> b ^ (q ^ e) mod d <> 1 -> (q ^ (e + 1) | d - 1).
Proof.
  intros Hd Hq He E N. pose proof (prime_ge_2 d Hd) as D2. pose proof (prime_ge_2 q Hq) as Q2. assert (P : 0 < q ^ (e + 1)) by (apply Z.pow_pos_nonneg; lia).
  assert (Bz : b mod d <> 0).
  { intros B. rewrite Zpower_mod, B, Z.pow_0_l in E by lia. rewrite Z.mod_0_l in E by lia. discriminate E. }
  pose proof (pow_gcd d b ltac:(lia) (q ^ (e + 1)) ltac:(lia) (d - 1) ltac:(lia) (fermat d b Hd Bz) E) as G.
  destruct (Z.eq_dec (Z.gcd (q ^ (e + 1)) (d - 1)) (q ^ (e + 1))) as [EQ|NE]; [rewrite <- EQ; apply Z.gcd_divide_r|].
  exfalso. apply N. assert (GP : 0 < Z.gcd (q ^ (e + 1)) (d - 1)).
  { pose proof (Z.gcd_nonneg (q ^ (e + 1)) (d - 1)). assert (Z.gcd (q ^ (e + 1)) (d - 1) <> 0); [|lia]. intros Z. apply Z.gcd_eq_0_l in Z. lia. }
  destruct (divisor_of_power q e _ Hq He GP (Z.gcd_divide_l _ _) NE) as [k K]. rewrite K, Z.mul_comm. apply pow_mod_1; [lia|lia| |exact G].
  assert (0 < q ^ e) by (apply Z.pow_pos_nonneg; lia). nia.
Qed.

(** ** The criterion: [fs] is a list of prime factors q of N - 1 with exponents e + 1 *)
Definition parts (fs : list (Z * Z)) : list Z := map (fun f => fst f ^ (snd f + 1)) fs.
Definition prodz (l : list Z) : Z := fold_right Z.mul 1 l.
Fixpoint coprime (l : list Z) : bool := match l with [] => true | x :: l' => (Z.gcd x (prodz l') =? 1) && coprime l' end.
Definition certificate (N a : Z) (fs : list (Z * Z)) : bool :=
  let F := prodz (parts fs) in
  (1 <? N) && ((N - 1) mod F =? 0) && (N <? F * F) && (0 <? F) && coprime (parts fs) && (powm N a (N - 1) =? 1) &&
  forallb (fun f => (0 <=? snd f) && (Z.gcd (powm N a ((N - 1) / fst f) - 1) N =? 1)) fs.
Lemma prodz_divides l : coprime l = true -> forall m, (forall x, In x l -> (x | m)) -> (prodz l | m).
Proof.
  induction l as [|x l IH]; intros C m H; cbn [prodz fold_right]; [apply Z.divide_1_l|]. cbn [coprime] in C. apply andb_prop in C. destruct C as [C1 C2]. apply Z.eqb_eq in C1.
  destruct (IH C2 m (fun y Hy => H y (or_intror Hy))) as [k K]. fold (prodz l). assert (D : (x | k)).
  { apply (Z.gauss x (prodz l) k); [|exact C1]. rewrite Z.mul_comm, <- K. apply H. now left. }
  destruct D as [j J]. exists j. rewrite K, J. ring.
Qed.
Lemma in_prodz x l : In x l -> (x | prodz l).
Proof. induction l as [|y l IH]; intros []; cbn [prodz fold_right]; [subst; apply Z.divide_factor_l|]. apply Z.divide_mul_r. now apply IH. Qed.
Theorem pocklington N a fs : Forall (fun f => prime (fst f)) fs -> certificate N a fs = true -> prime N.
Proof.
  intros HP C. unfold certificate in C. rewrite !andb_true_iff in C. destruct C as ((((((C1 & C2) & C3) & C4) & C5) & C6) & C7).
  apply Z.ltb_lt in C1, C3, C4. apply Z.eqb_eq in C2, C6. set (F := prodz (parts fs)) in *.
  rewrite powm_spec in C6 by lia. apply prime_by_sqrt; [exact C1|]. intros d Pd Dd. pose proof (prime_ge_2 d Pd) as D2.
  assert (FD : (F | d - 1)).
  { apply prodz_divides; [exact C5|]. intros x Hx. unfold parts in Hx. apply in_map_iff in Hx. destruct Hx as ([q e] & <- & Hf). cbn [fst snd].
    pose proof (proj1 (Forall_forall _ _) HP _ Hf) as Pq. cbn [fst] in Pq. pose proof (proj1 (forallb_forall _ _) C7 _ Hf) as B. cbn [fst snd] in B. apply andb_prop in B. destruct B as [B1 B2]. apply Z.leb_le in B1. apply Z.eqb_eq in B2.
    pose proof (prime_ge_2 q Pq) as Q2. assert (P : 0 < q ^ e) by (apply Z.pow_pos_nonneg; lia).
    assert (QF : (q ^ (e + 1) | N - 1)).
    { apply Z.divide_trans with F; [apply in_prodz; apply in_map_iff; exists (q, e); now split|]. apply Z.mod_divide; lia. }
    destruct QF as [k K]. rewrite Z.pow_add_r, Z.pow_1_r in K by lia. assert (K0 : 0 <= k) by nia.
    assert (DV : (N - 1) / q = k * q ^ e) by (rewrite K, Z.mul_assoc; apply Z.div_mul; lia). rewrite DV, powm_spec in B2 by nia.
    assert (MD : forall x, x mod N = 1 -> x mod d = 1).
    { intros x E. rewrite <- (mod_mod_div x d N) by (try assumption; lia). rewrite E. apply Z.mod_small. lia. }
    apply (order_divides d (a ^ k) q e Pd Pq B1).
    - apply MD. rewrite <- Z.pow_mul_r by (lia || (apply Z.pow_nonneg; lia)). rewrite Z.pow_add_r, Z.pow_1_r by lia. now rewrite <- K.
    - rewrite <- Z.pow_mul_r by lia. intros E. assert (DG : (d | Z.gcd (a ^ (k * q ^ e) mod N - 1) N)).
      { apply Z.gcd_greatest; [|exact Dd]. apply Z.mod_divide; [lia|]. rewrite Zminus_mod, mod_mod_div by (try assumption; lia). rewrite E, (Z.mod_small 1) by lia. reflexivity. }
      rewrite B2 in DG. apply Z.divide_1_r_nonneg in DG; lia. }
  destruct FD as [k K]. clearbody F. clear - K C3 C4 D2. assert (1 <= k) by nia. assert (F < d) by nia. nia.
Qed.

(** small primes by trial division *)
Definition trial (n : Z) : bool := (1 <? n) && forallb (fun k => negb (n mod (Z.of_nat k) =? 0)) (seq 2 (Z.to_nat (Z.sqrt n) - 1)).
Lemma trial_prime n : trial n = true -> prime n.
Proof.
  intros H. unfold trial in H. apply andb_prop in H. destruct H as [H1 H2]. apply Z.ltb_lt in H1. apply prime_by_sqrt; [exact H1|].
  intros q Pq Dq. pose proof (prime_ge_2 q Pq) as Q2. destruct (Z_lt_dec n (q * q)) as [L|L]; [exact L|exfalso].
  assert (S : q <= Z.sqrt n) by (rewrite <- (Z.sqrt_square q) by lia; apply Z.sqrt_le_mono; lia).
  assert (I : In (Z.to_nat q) (seq 2 (Z.to_nat (Z.sqrt n) - 1))) by (apply in_seq; lia).
  apply (proj1 (forallb_forall _ _) H2) in I. rewrite Z2Nat.id in I by lia. apply (proj2 (Z.mod_divide n q ltac:(lia))) in Dq. rewrite Dq in I. discriminate I.
Qed.

(** ** The chain of certificates *)
Lemma prime_2 : prime 2.
Proof. apply trial_prime. vm_compute. reflexivity. Qed.
Lemma prime_5 : prime 5.
Proof. apply trial_prime. vm_compute. reflexivity. Qed.
Lemma prime_93001 : prime 93001.
Proof.
  apply (pocklington 93001 7 [(2, 2); (5, 2)]); [|vm_compute; reflexivity].
  repeat (apply Forall_cons || apply Forall_nil); cbn [fst]; exact prime_2 || exact prime_5.
Qed.
Lemma prime_12048837557 : prime 12048837557.
Proof.
  apply (pocklington 12048837557 2 [(2, 1); (93001, 0)]); [|vm_compute; reflexivity].
  repeat (apply Forall_cons || apply Forall_nil); cbn [fst]; exact prime_2 || exact prime_93001.
Qed.
Lemma prime_5156902474397 : prime 5156902474397.
Proof.
  apply (pocklington 5156902474397 2 [(12048837557, 0)]); [|vm_compute; reflexivity].
  repeat (apply Forall_cons || apply Forall_nil); cbn [fst]; exact prime_12048837557.
Qed.
Lemma prime_1670836401704629 : prime 1670836401704629.
Proof.
  apply (pocklington 1670836401704629 2 [(5156902474397, 0)]); [|vm_compute; reflexivity].
  repeat (apply Forall_cons || apply Forall_nil); cbn [fst]; exact prime_5156902474397.
Qed.
Lemma prime_229 : prime 229.
Proof. apply trial_prime. vm_compute. reflexivity. Qed.
Lemma prime_853 : prime 853.
Proof. apply trial_prime. vm_compute. reflexivity. Qed.
Lemma prime_639533339 : prime 639533339.
Proof.
  apply (pocklington 639533339 2 [(229, 0); (853, 0)]); [|vm_compute; reflexivity].
  repeat (apply Forall_cons || apply Forall_nil); cbn [fst]; exact prime_229 || exact prime_853.
Qed.
Lemma prime_65865678001877903 : prime 65865678001877903.
Proof.
  apply (pocklington 65865678001877903 2 [(639533339, 0)]); [|vm_compute; reflexivity].
  repeat (apply Forall_cons || apply Forall_nil); cbn [fst]; exact prime_639533339.
Qed.
Lemma prime_13818364434197438864469338081 : prime 13818364434197438864469338081.
Proof.
  apply (pocklington 13818364434197438864469338081 2 [(65865678001877903, 0)]); [|vm_compute; reflexivity].
  repeat (apply Forall_cons || apply Forall_nil); cbn [fst]; exact prime_65865678001877903.
Qed.
Lemma prime_r : prime r.
Proof.
  apply (pocklington r 2 [(1670836401704629, 0); (13818364434197438864469338081, 0)]); [|vm_compute; reflexivity].
  repeat (apply Forall_cons || apply Forall_nil); cbn [fst]; exact prime_1670836401704629 || exact prime_13818364434197438864469338081.
Qed.
