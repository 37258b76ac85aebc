(** * Words close to low degree polynomials: lemmas for the soundness error of FRI.

    The lemmas of FriSound ask for agreement at all positions.  Here the words may differ from
    polynomials at a few positions, other ones for every challenge, and nothing is lost from one
    reduction to the next: enough challenges leave one for which every agreement comes from the
    committed word itself. *)
From Coq Require Import String.
From Coq Require Import ZArith NArith Arith Lia List Bool.
From Verif Require Import Zp GF Circuit Goldilocks GLProofs ExtProofs BN254 BN254Hash Types Challenger Fri Poly Roots FriMerkle FriEval FriQuery FriTop FriFacts Honest FriSound FriRewind FriExtract FriCurve.
Import ListNotations.
Open Scope Z_scope.
Local Opaque PoseidonBN HashOrNoop TwoToOne.

(** ** Counting *)
(** the positions common to two lists *)
Definition common (n : nat) (l l' : list Z) : list Z := filter (fun i => member l i && member l' i) (all_indices n).
Lemma common_in n l l' i : In i (common n l l') <-> below n i /\ In i l /\ In i l'.
Proof. unfold common. rewrite filter_In, all_indices_in, andb_true_iff, !member_in. tauto. Qed.
Lemma common_positions_of n l l' : positions_of n (common n l l').
Proof. apply filter_positions. Qed.
Lemma filter_and_length {A} (f g : A -> bool) l : (length (filter f l) + length (filter g l) <= length (filter (fun x => f x && g x) l) + length l)%nat.
Proof. induction l as [|a l IH]; [cbn; lia|]. cbn [filter]. destruct (f a), (g a); cbn [andb length]; lia. Qed.
Lemma common_length n l l' : positions_of n l -> positions_of n l' -> (length l + length l' <= length (common n l l') + 2 ^ n)%nat.
Proof.
  intros H H'. pose proof (filter_member n l H). pose proof (filter_member n l' H').
  pose proof (filter_and_length (member l) (member l') (all_indices n)) as A. rewrite all_indices_length in A. unfold common. lia.
Qed.
(** the cosets met by a list of positions *)
Definition image (n j : nat) (G : list Z) : list Z := filter (fun t => existsb (fun i => i / 16 ^ Z.of_nat j =? t) G) (all_indices (n - 4 * j)).
Lemma below_image n j i : (4 * j <= n)%nat -> below n i -> below (n - 4 * j) (i / 16 ^ Z.of_nat j).
Proof.
  intros Hj [H1 H2]. rewrite pow16_Z. unfold below. split; [apply Z.div_pos; lia|]. apply Z.div_lt_upper_bound; [lia|].
  rewrite <- Z.pow_add_r by lia. replace (Z.of_nat (4 * j) + Z.of_nat (n - 4 * j)) with (Z.of_nat n) by lia. exact H2.
Qed.
Lemma image_in n j G t : (4 * j <= n)%nat -> positions_of n G -> In t (image n j G) <-> at_layer G j t.
Proof.
  intros Hj [_ R]. rewrite Forall_forall in R. unfold image, at_layer. rewrite filter_In, all_indices_in, existsb_exists. split.
  - intros (_ & i & Hi & E). exists i. split; [exact Hi|now apply Z.eqb_eq].
  - intros (i & Hi & <-). split; [apply below_image; [exact Hj|now apply R]|]. exists i. split; [exact Hi|apply Z.eqb_refl].
Qed.
Lemma image_positions n j G : positions_of (n - 4 * j) (image n j G).
Proof.
  split; [apply NoDup_filter, all_indices_positions|]. apply Forall_forall. intros t Ht. apply filter_In in Ht. now apply all_indices_in.
Qed.
Lemma image_length n j G : (4 * j <= n)%nat -> positions_of n G -> (length G <= 16 ^ j * length (image n j G))%nat.
Proof.
  intros Hj HG.
  assert (I : incl G (flat_map (fun t => map (fun c => t * 16 ^ Z.of_nat j + Z.of_nat c) (seq 0 (16 ^ j))) (image n j G))).
  { intros i Hi. apply in_flat_map. exists (i / 16 ^ Z.of_nat j). split; [apply image_in; try assumption; now exists i|].
    pose proof (Z.mod_pos_bound i (16 ^ Z.of_nat j) ltac:(lia)) as M.
    apply in_map_iff. exists (Z.to_nat (i mod 16 ^ Z.of_nat j)). split.
    - rewrite Z2Nat.id by lia. rewrite (Z.div_mod i (16 ^ Z.of_nat j)) at 3 by lia. ring.
    - apply in_seq. split; [lia|]. cbn [Nat.add]. apply Nat2Z.inj_lt. rewrite Z2Nat.id by lia.
      rewrite Nat2Z.inj_pow. change (Z.of_nat 16) with 16. lia. }
  apply (NoDup_incl_length (proj1 HG)) in I. etransitivity; [exact I|]. rewrite Nat.mul_comm. apply flat_map_le. intros t _. now rewrite map_length, seq_length.
Qed.

(** ** One reduction *)
Definition agree_value (s : GF) (n : nat) (t : Z) (ys ys' : list K) (b : K) : bool :=
  if K_eq_dec (coset_value s n t ys b) (coset_value s n t ys' b) then true else false.
Lemma coset_value_ext s n t ys ys' b : (forall j, (j < 16)%nat -> nth j ys k0 = nth j ys' k0) -> coset_value s n t ys b = coset_value s n t ys' b.
Proof.
  intros H. unfold coset_value, kbary, bary. f_equal. apply map_ext_in. intros j Hj. apply in_seq in Hj. rewrite coset_points_length in Hj. rewrite H by lia. reflexivity.
Qed.
(** two different lists of sixteen values have the same interpolated value at 15 points at most *)
Lemma agree_few s n t ys ys' bs : s <> 0%GF -> (4 <= n)%nat -> (n <= TWO_ADICITY)%nat -> NoDup bs ->
  (15 < length (filter (agree_value s n t ys ys') bs))%nat -> forall j, (j < 16)%nat -> nth j ys k0 = nth j ys' k0.
Proof.
  intros Hs H4 Hn ND L j Hj. rewrite <- !(coset_value_at s n t) by assumption.
  assert (DG : forall l, kdeg 16 (coset_value s n t l)).
  { intros l. rewrite <- (coset_points_length s n t). apply (bary_deg k0 k1 kadd kmul ksub kopp K_ring). }
  destruct (kdeg_sub 16 _ _ (DG ys) (DG ys')) as (c & Lc & Ec). apply ksub_eq0. etransitivity; [exact (Ec _)|].
  apply (kfew_roots (filter (agree_value s n t ys ys') bs)); [now apply NoDup_filter|lia|].
  intros x Hx. apply filter_In in Hx. destruct Hx as [_ Hx]. unfold agree_value in Hx.
  etransitivity; [symmetry; exact (Ec x)|]. cbn beta. apply ksub_eq0. destruct (K_eq_dec _ _) as [E|]; [exact E|discriminate Hx].
Qed.
(** the sixteen values of a polynomial on a coset *)
Definition values_of (s : GF) (n : nat) (P : list K) (t : Z) : list K := map (kpeval P) (coset_points s n t).
Lemma values_of_nth s n P t j : (j < 16)%nat -> nth j (values_of s n P t) k0 = kpeval P (emb (dom s n (16 * t + Z.of_nat j))).
Proof.
  intros Hj. unfold values_of. rewrite (nth_map_lt _ _ _ _ k0) by now rewrite coset_points_length.
  unfold coset_points. rewrite (nth_map_lt _ _ _ _ O), seq_nth by (rewrite ?seq_length; lia). reflexivity.
Qed.
(** the fold of a polynomial *)
Lemma fold_poly s n P M b : s <> 0%GF -> (4 <= n)%nat -> (n <= TWO_ADICITY)%nat -> (length P <= 16 * M)%nat ->
  exists f, (length f <= M)%nat /\ forall t, coset_value s n t (values_of s n P t) b = kpeval f (emb (dom (s ^ 16)%GF (n - 4) t)).
Proof.
  intros Hs H4 Hn LP. set (P' := P ++ repeat k0 (16 * M - length P)).
  assert (EP : forall x, kpeval P' x = kpeval P x).
  { intros x. unfold P'. rewrite kpeval_app. assert (Z : kpeval (repeat k0 (16 * M - length P)) x = k0).
    { generalize (16 * M - length P)%nat. unfold kpeval. induction n0 as [|q IH]; [reflexivity|]. cbn [repeat peval]. rewrite IH. ring. }
    rewrite Z. ring. }
  assert (LP' : length P' = (16 * M)%nat) by (unfold P'; rewrite app_length, repeat_length; lia).
  assert (L16 : (length P' / 16 = M)%nat) by (rewrite LP', Nat.mul_comm; apply Nat.div_mul; lia).
  exists (fold16 P' b). split; [rewrite fold16_length; lia|]. intros t.
  assert (EV : values_of s n P t = map injK (evals_at s n P' t)).
  { apply (nth_ext _ _ k0 k0); [unfold values_of; now rewrite !map_length, coset_points_length, evals_length|].
    intros j Hj. unfold values_of in Hj. rewrite map_length, coset_points_length in Hj.
    rewrite values_of_nth by exact Hj. rewrite (nth_map_lt _ _ _ _ no_qe) by now rewrite evals_length. rewrite evals_nth by exact Hj. now rewrite EP. }
  rewrite EV. pose proof (honest_interpolant s n P' (16 * t) H4 Hn) as HI.
  rewrite (Z.mul_comm 16 t), Z.div_mul in HI by lia. rewrite (Z.mul_comm t 16) in HI.
  rewrite <- (coset_value_interpolant s n t _ _ b Hs H4 Hn (evals_length s n P' t) (HI ltac:(rewrite LP', Nat.mul_comm; apply Nat.mod_mul; lia))).
  rewrite L16, rows_eval. unfold fold16. now rewrite L16.
Qed.
(** the committed word agrees with the polynomial on the coset t *)
Definition agree_coset (s : GF) (n : nat) (P : list K) (E : Z -> list K) (t : Z) : bool :=
  forallb (fun j => if K_eq_dec (nth j (E t) k0) (kpeval P (emb (dom s n (16 * t + Z.of_nat j)))) then true else false) (seq 0 16).
Lemma agree_coset_spec s n P E t : agree_coset s n P E t = true <->
  forall j, (j < 16)%nat -> nth j (E t) k0 = kpeval P (emb (dom s n (16 * t + Z.of_nat j))).
Proof.
  unfold agree_coset. rewrite forallb_forall. split; intros H j Hj.
  - specialize (H j ltac:(apply in_seq; lia)). destruct (K_eq_dec _ _) as [E'|]; [exact E'|discriminate H].
  - apply in_seq in Hj. specialize (H j ltac:(lia)). destruct (K_eq_dec _ _) as [_|N]; [reflexivity|contradiction].
Qed.
Lemma choice_positions {B} (d : B) (R : Z -> B -> Prop) l : (forall a, In a l -> exists q, R a q) -> exists f, (forall a, In a l -> R a (f a)) /\ forall a, ~ In a l -> f a = d.
Proof.
  induction l as [|a l IH]; intros H; [exists (fun _ => d); split; [intros a []|reflexivity]|].
  destruct (IH (fun b Hb => H b (or_intror Hb))) as (f & F1 & F2). destruct (H a (in_eq _ _)) as (q & Hq).
  exists (fun b => if Z.eqb b a then q else f b). split.
  - intros b Hb. destruct (Z.eqb_spec b a) as [->|N]; [exact Hq|]. destruct Hb as [E|Hb]; [now destruct N|now apply F1].
  - intros b Hb. destruct (Z.eqb_spec b a) as [->|N]; [destruct Hb; now left|]. apply F2. intros X. apply Hb. now right.
Qed.
(** the number of challenges asked for by curve_agreement *)
Lemma enough_challenges N m e t : (1 <= N)%nat -> (2 * e + m <= N)%nat -> ((m + 1) * (t * e) + S t <= S (t * (N * N)))%nat.
Proof.
  intros HN H. assert (X : ((m + 1) * e + 1 <= N * N)%nat).
  { destruct e as [|e]; [nia|]. assert (m + 1 <= N - 1)%nat by lia. assert (S e <= N)%nat by lia.
    assert ((m + 1) * S e <= (N - 1) * N)%nat by (apply Nat.mul_le_mono; assumption). rewrite Nat.mul_sub_distr_r in *. nia. }
  assert (Y : (t * ((m + 1) * e + 1) <= t * (N * N))%nat) by now apply Nat.mul_le_mono_l.
  rewrite Nat.mul_add_distr_l, Nat.mul_1_r in Y. assert (Z : ((m + 1) * (t * e) = t * ((m + 1) * e))%nat) by ring. lia.
Qed.
(** a polynomial in the challenge, from polynomials for its coefficients *)
Lemma curve_of (U : nat -> list K) t (v : list K) b x : length v = t -> (forall j, (j < t)%nat -> nth j v k0 = kpeval (U j) x) ->
  kpeval v b = kpeval (lincomb (map (fun j => ((b ^ N.of_nat j)%K, U j)) (seq 0 t))) x.
Proof.
  intros L H. rewrite lincomb_eval, map_map. cbn [fst snd].
  assert (E : v = map (fun j => kpeval (U j) x) (seq 0 t)).
  { apply (nth_ext _ _ k0 k0); [now rewrite map_length, seq_length|]. intros j Hj. rewrite L in Hj.
    rewrite (nth_map_lt _ _ _ _ O), seq_nth by (rewrite ?seq_length; lia). now apply H. }
  rewrite E, (kpeval_seq (fun j => kpeval (U j) x)). f_equal. apply map_ext. intros j. now rewrite Nat.sub_0_r.
Qed.
Lemma coset_value_deg s n t ys : kdeg 16 (coset_value s n t ys).
Proof.
  rewrite <- (coset_points_length s n t). apply (bary_deg k0 k1 kadd kmul ksub kopp K_ring).
Qed.
Lemma fold_prox s n (E : Z -> list K) bs (q : K -> list K) (L : K -> list Z) M e :
  s <> 0%GF -> (4 <= n)%nat -> (n <= TWO_ADICITY)%nat -> NoDup bs -> (15 * (2 ^ (n - 4) * 2 ^ (n - 4)) < length bs)%nat ->
  (forall b, In b bs -> (length (q b) <= M)%nat /\ positions_of (n - 4) (L b) /\ (2 ^ (n - 4) <= length (L b) + e)%nat /\
     forall t, In t (L b) -> coset_value s n t (E t) b = kpeval (q b) (emb (dom (s ^ 16)%GF (n - 4) t))) ->
  (2 * e + M <= 2 ^ (n - 4))%nat ->
  exists b P, In b bs /\ (length P <= 16 * M)%nat /\
    forall i, In (i / 16) (L b) -> nth (Z.to_nat (i mod 16)) (E (i / 16)) k0 = kpeval P (emb (dom s n i)).
Proof.
  intros Hs H4 Hn ND LB H He.
  assert (P2 : (1 <= 2 ^ (n - 4))%nat) by (pose proof (Nat.pow_nonzero 2 (n - 4)); lia).
  pose proof (enough_challenges (2 ^ (n - 4)) M e 15 P2 He) as EC.
  set (b16 := firstn 16 bs).
  assert (L16 : length b16 = 16%nat) by (unfold b16; rewrite firstn_length; lia).
  assert (I16 : forall b, In b b16 -> In b bs) by (intros b Hb; now apply in_firstn in Hb).
  assert (N16 : NoDup b16) by now apply nodup_firstn.
  (* the coefficients of the interpolants are the words of a curve *)
  destruct (choice_positions (repeat k0 16) (fun t c => length c = 16%nat /\ forall b, coset_value s n t (E t) b = kpeval c b) (all_indices (n - 4))) as (u & Hu & Hd).
  { intros t _. destruct (coset_value_deg s n t (E t)) as (c & Lc & Ec). exists (paddl kadd c (repeat k0 16)). split.
    - assert (G : forall (c : list K) k, (length c <= k)%nat -> length (paddl kadd c (repeat k0 k)) = k).
      { clear. induction c as [|x c IH]; intros [|k] L; cbn [length repeat paddl] in *; try lia; [cbn; now rewrite repeat_length|]. now rewrite IH by lia. }
      now apply G.
    - intros b. rewrite kpaddl'. assert (Z : forall k, kpeval (repeat k0 k) b = k0) by (clear; induction k as [|k IH]; unfold kpeval in *; cbn [repeat peval]; [reflexivity|rewrite IH; ring]).
      rewrite Z. etransitivity; [exact (Ec b)|]. unfold kpeval. ring. }
  assert (Lu : forall t, length (u t) = 16%nat).
  { intros t. destruct (in_dec Z.eq_dec t (all_indices (n - 4))) as [I|I]; [now apply Hu|rewrite Hd by exact I; reflexivity]. }
  assert (Eu : forall t b, below (n - 4) t -> coset_value s n t (E t) b = kpeval (u t) b) by (intros t b Ht; now apply Hu, all_indices_in).
  destruct (curve_agreement (s ^ 16)%GF (n - 4) u 16 bs q L M e) as (U & C & HC & LC & LU & EU); try assumption; [now apply gpow16_nz|lia|lia|lia| |].
  { intros b Hb. destruct (H b Hb) as (A1 & A2 & A3 & A4). repeat (split; [assumption|]). intros t Ht. rewrite <- Eu; [now apply A4|]. destruct A2 as [_ R]. rewrite Forall_forall in R. now apply R. }
  (* a polynomial for these cosets *)
  assert (BC : forall t, In t C -> below (n - 4) t) by (destruct HC as [_ R]; rewrite Forall_forall in R; exact R).
  destruct (fold_sound (fun i => In (i / 16) C) s n E b16 (fun b => lincomb (map (fun j => ((b ^ N.of_nat j)%K, U j)) (seq 0 16))) M Hs H4 Hn N16 L16) as (P & LP & EP).
  { intros b Hb. apply lincomb_length. apply Forall_forall. intros ac Hac. apply in_map_iff in Hac. destruct Hac as (j & <- & _). apply LU. }
  { intros b t Hb (i & Hi & <-). rewrite Eu by now apply BC. apply (curve_of U 16 (u (i / 16)) b); [apply Lu|]. intros j _. now apply EU. }
  (* the challenges that agree with it on a coset on which the word differs from it *)
  set (bad := filter (fun t => negb (agree_coset s n P E t)) (all_indices (n - 4))).
  set (ex := flat_map (fun t => filter (agree_value s n t (E t) (values_of s n P t)) bs) bad).
  assert (Lex : (length ex <= 15 * 2 ^ (n - 4))%nat).
  { etransitivity; [apply (flat_map_le _ 15)|].
    - intros t Ht. apply filter_In in Ht. destruct Ht as [_ Ht]. apply negb_true_iff in Ht. apply Nat.nlt_ge. intros X.
      assert (A : agree_coset s n P E t = true); [|congruence]. apply agree_coset_spec. intros j Hj.
      rewrite <- values_of_nth by exact Hj. now apply (agree_few s n t (E t) (values_of s n P t) bs).
    - rewrite Nat.mul_comm. apply Nat.mul_le_mono_l. rewrite <- (all_indices_length (n - 4)).
      apply NoDup_incl_length; [apply NoDup_filter, all_indices_positions|]. intros t Ht. now apply filter_In in Ht. }
  assert (LB' : (length ex < length bs)%nat) by nia.
  destruct (one_left bs ex ND LB') as (b & Hb & Nb). exists b, P. split; [exact Hb|]. split; [exact LP|].
  destruct (H b Hb) as (Lq & HL & CL & Eq). destruct (fold_poly s n P M b Hs H4 Hn LP) as (f & Lf & Ef).
  (* the fold agrees with that of the polynomial *)
  assert (QF : forall x, kpeval (q b) x = kpeval f x).
  { pose proof (common_length (n - 4) C (L b) HC HL) as CC.
    apply (kpeval_same_on (s ^ 16)%GF (n - 4) (common (n - 4) C (L b))); [now apply gpow16_nz|lia|apply common_positions_of|lia|lia|].
    intros t Ht. apply common_in in Ht. destruct Ht as (Rt & Ct & Lt).
    rewrite <- Eq by exact Lt. rewrite <- Ef.
    apply coset_value_ext. intros j Hj. rewrite values_of_nth by exact Hj.
    assert (D16 : (16 * t + Z.of_nat j) / 16 = t) by (rewrite Z.add_comm, (Z.mul_comm 16), Z.div_add, Z.div_small by lia; lia).
    assert (M16 : (16 * t + Z.of_nat j) mod 16 = Z.of_nat j) by (rewrite Z.add_comm, (Z.mul_comm 16), Z.mod_add, Z.mod_small by lia; lia).
    rewrite <- EP by (rewrite D16; exact Ct). rewrite D16, M16, Nat2Z.id. reflexivity. }
  intros i Hi. pose proof (Z.mod_pos_bound i 16 ltac:(lia)) as Rm. set (t := i / 16) in *. set (j := Z.to_nat (i mod 16)).
  assert (Et : i = 16 * t + Z.of_nat j) by (unfold t, j; rewrite Z2Nat.id by lia; apply Z.div_mod; lia).
  destruct (agree_coset s n P E t) eqn:A.
  - rewrite (proj1 (agree_coset_spec s n P E t) A j ltac:(unfold j; lia)). now rewrite <- Et.
  - exfalso. apply Nb. apply in_flat_map. exists t. split.
    + apply filter_In. split; [|now rewrite A]. apply all_indices_in. destruct HL as [_ R]. rewrite Forall_forall in R. now apply R.
    + apply filter_In. split; [exact Hb|]. unfold agree_value. rewrite Eq, Ef, QF by exact Hi. now destruct (K_eq_dec _ _).
Qed.

(** ** Separating the combined polynomials *)
Definition agree_at (U : nat -> list K) (T : nat) (x : K) (v : list K) : bool :=
  forallb (fun j => if K_eq_dec (nth j v k0) (kpeval (U j) x) then true else false) (seq 0 T).
Lemma agree_at_spec U T x v : agree_at U T x v = true <-> forall j, (j < T)%nat -> nth j v k0 = kpeval (U j) x.
Proof.
  unfold agree_at. rewrite forallb_forall. split; intros H j Hj.
  - specialize (H j ltac:(apply in_seq; lia)). destruct (K_eq_dec _ _) as [E'|]; [exact E'|discriminate H].
  - apply in_seq in Hj. specialize (H j ltac:(lia)). destruct (K_eq_dec _ _) as [_|N]; [reflexivity|contradiction].
Qed.
Definition equal_at (v v' : list K) (a : K) : bool := if K_eq_dec (kpeval v a) (kpeval v' a) then true else false.
Lemma batch_prox s n (u : Z -> list K) T al (P : K -> list K) (L : K -> list Z) m e :
  s <> 0%GF -> (n <= TWO_ADICITY)%nat -> NoDup al -> (forall i, length (u i) = T) -> ((T - 1) * (2 ^ n * 2 ^ n) < length al)%nat ->
  (forall a, In a al -> (length (P a) <= m)%nat /\ positions_of n (L a) /\ (2 ^ n <= length (L a) + e)%nat /\
     forall i, In i (L a) -> kpeval (u i) a = kpeval (P a) (emb (dom s n i))) ->
  (2 * e + m <= 2 ^ n)%nat ->
  exists a, In a al /\ forall j, exists f, (length f <= m)%nat /\ forall i, In i (L a) -> nth j (u i) k0 = kpeval f (emb (dom s n i)).
Proof.
  intros Hs Hn ND Lu LA H He.
  assert (P2 : (1 <= 2 ^ n)%nat) by (pose proof (Nat.pow_nonzero 2 n); lia).
  destruct (Nat.eq_dec T 0) as [T0|TP].
  { destruct al as [|a al]; [cbn [length] in LA; lia|]. exists a. split; [now left|]. intros j. exists []. split; [cbn; lia|]. intros i _. rewrite nth_overflow by (rewrite Lu; lia). reflexivity. }
  pose proof (enough_challenges (2 ^ n) m e (T - 1) P2 He) as EC. replace (S (T - 1)) with T in EC by lia.
  destruct (curve_agreement s n u T al P L m e) as (U & C & HC & LC & LU & EU); try assumption; [lia|lia|].
  set (Uv := fun i => map (fun j => kpeval (U j) (emb (dom s n i))) (seq 0 T)).
  assert (LUv : forall i, length (Uv i) = T) by (intros i; unfold Uv; now rewrite map_length, seq_length).
  assert (NUv : forall i j, (j < T)%nat -> nth j (Uv i) k0 = kpeval (U j) (emb (dom s n i))).
  { intros i j Hj. unfold Uv. rewrite (nth_map_lt _ _ _ _ O), seq_nth by (rewrite ?seq_length; lia). reflexivity. }
  set (bad := filter (fun i => negb (agree_at U T (emb (dom s n i)) (u i))) (all_indices n)).
  set (ex := flat_map (fun i => filter (equal_at (u i) (Uv i)) al) bad).
  assert (Lex : (length ex <= (T - 1) * 2 ^ n)%nat).
  { etransitivity; [apply (flat_map_le _ (T - 1))|].
    - intros i Hi. apply filter_In in Hi. destruct Hi as [_ Hi]. apply negb_true_iff in Hi. apply Nat.nlt_ge. intros X.
      assert (A : agree_at U T (emb (dom s n i)) (u i) = true); [|congruence]. apply agree_at_spec. intros j Hj. rewrite <- NUv by exact Hj.
      assert (Z : nth j (paddl kadd (u i) (pscale kmul (- (1))%K (Uv i))) k0 = k0).
      { apply (zero_coeffs _ (filter (equal_at (u i) (Uv i)) al)); [now apply NoDup_filter| |].
        - etransitivity; [apply (paddl_len _ _ _ T); [rewrite Lu; lia|unfold pscale; rewrite map_length, LUv; lia]|lia].
        - intros x Hx. apply filter_In in Hx. destruct Hx as [_ Hx]. unfold equal_at in Hx. rewrite kpaddl', kpscale'.
          destruct (K_eq_dec _ _) as [E|]; [rewrite E; ring|discriminate Hx]. }
      rewrite nth_paddl, nth_pscale in Z. apply ksub_eq0. eapply eq_trans; [|exact Z]. ring.
    - rewrite Nat.mul_comm. apply Nat.mul_le_mono_l. rewrite <- (all_indices_length n).
      apply NoDup_incl_length; [apply NoDup_filter, all_indices_positions|]. intros t Ht. now apply filter_In in Ht. }
  assert (LA' : (length ex < length al)%nat) by nia.
  destruct (one_left al ex ND LA') as (a & Ha & Na). exists a. split; [exact Ha|].
  destruct (H a Ha) as (Lq & HL & CL & Eq).
  (* the combination of the polynomials *)
  set (f := lincomb (map (fun j => ((a ^ N.of_nat j)%K, U j)) (seq 0 T))).
  assert (Lf : (length f <= m)%nat).
  { apply lincomb_length. apply Forall_forall. intros ac Hac. apply in_map_iff in Hac. destruct Hac as (j & <- & _). apply LU. }
  assert (Ef : forall i, kpeval (Uv i) a = kpeval f (emb (dom s n i))) by (intros i; apply curve_of; [apply LUv|apply NUv]).
  assert (QF : forall x, kpeval (P a) x = kpeval f x).
  { pose proof (common_length n C (L a) HC HL) as CC.
    apply (kpeval_same_on s n (common n C (L a))); [exact Hs|exact Hn|apply common_positions_of|lia|lia|].
    intros i Hi. apply common_in in Hi. destruct Hi as (Ri & Ci & Li). rewrite <- Eq by exact Li. apply curve_of; [apply Lu|]. intros j _. now apply EU. }
  intros j. destruct (Nat.lt_ge_cases j T) as [Hj|Hj].
  - exists (U j). split; [apply LU|]. intros i Hi. destruct (agree_at U T (emb (dom s n i)) (u i)) eqn:A.
    + now apply (proj1 (agree_at_spec _ _ _ _) A).
    + exfalso. apply Na. apply in_flat_map. exists i. split.
      * apply filter_In. split; [|now rewrite A]. apply all_indices_in. destruct HL as [_ R]. rewrite Forall_forall in R. now apply R.
      * apply filter_In. split; [exact Ha|]. unfold equal_at. rewrite Eq, Ef, QF by exact Hi. now destruct (K_eq_dec _ _).
  - exists []. split; [cbn; lia|]. intros i _. rewrite nth_overflow by (rewrite Lu; lia). reflexivity.
Qed.
