(** * Properties C01-C05 and C10-C16: base field, extension field and algebra.

    Only statements, one-line proofs from the lemma files, non-vacuity examples
    and [Print Assumptions]. *)
From Coq Require Import String.
From Coq Require Import ZArith Lia List Bool.
From Verif Require Import Zp GF Circuit Goldilocks GLProofs ExtProofs.
Import ListNotations.
Open Scope Z_scope.

(** C01: satisfiable iff canonical, and then the honest solver succeeds. *)
Theorem C01_range_check x :
  (sat (RangeCheck x) <-> 0 <= x < p) /\ (0 <= x < p -> run (RangeCheck x) = Done tt).
Proof. exact (conj (enforces_sat _ _ _ (range_check_correct x)) (enforces_run _ _ _ (range_check_correct x))). Qed.
Example C01_top : run (RangeCheck (p - 1)) = Done tt. Proof. vm_compute. reflexivity. Qed.
Example C01_bad : run (RangeCheck p) = HintFailed. Proof. vm_compute. reflexivity. Qed.
(** the prover overriding the honest hint with the limbs of p still fails *)
Example C01_bad_override : exec (RangeCheck p) [Some [2 ^ 32 - 1; 1]] = Unsat.
Proof. vm_compute. reflexivity. Qed.

(** C02 *)
Lemma with_rep3 (Q : Z -> Z -> Z -> Prop) :
  (forall a b c : GF, Q (rep a) (rep b) (rep c)) ->
  forall a b c, 0 <= a < p -> 0 <= b < p -> 0 <= c < p -> Q a b c.
Proof.
  intros H a b c Ha Hb Hc.
  destruct (canon_rep_exists a Ha) as [a' <-], (canon_rep_exists b Hb) as [b' <-],
    (canon_rep_exists c Hc) as [c' <-]. apply H.
Qed.

Lemma rep_muladd a b c : rep (a * b + c)%GF = (rep a * rep b + rep c) mod p.
Proof. unfold gadd, gmul. rewrite !rep_inj. now rewrite Zplus_mod_idemp_l. Qed.

Theorem C02_base_arithmetic a b c :
  0 <= a < p -> 0 <= b < p -> 0 <= c < p ->
  computes (Add a b) ((a + b) mod p) /\
  computes (Sub a b) ((a - b) mod p) /\
  computes (Mul a b) ((a * b) mod p) /\
  computes (MulAdd a b c) ((a * b + c) mod p).
Proof.
  revert a b c. apply with_rep3. intros a b c. split; [|split; [|split]].
  - exact (gadd_correct a b).
  - exact (gsub_correct a b).
  - exact (gmul_correct a b).
  - exact (computes_eq _ _ _ (muladd_correct a b c) (rep_muladd a b c)).
Qed.
Example C02_case : run (MulAdd (p - 1) (p - 1) (p - 1)) = Done 0. Proof. vm_compute. reflexivity. Qed.
Example C02_case_sub : run (Sub 3 5) = Done (p - 2). Proof. vm_compute. reflexivity. Qed.

(** C03 *)
Theorem C03_reduce x :
  0 <= x < r ->
  (sat (Reduce x) <-> x < 2 ^ 144 * p) /\
  (x < 2 ^ 144 * p -> run (Reduce x) = Done (x mod p)) /\
  (forall m, reach (Reduce x) m -> m = x mod p).
Proof.
  intros H. split; [exact (enforces_sat _ _ _ (reduce_correct x H))|].
  split; [exact (enforces_run _ _ _ (reduce_correct x H))|].
  intros m R. exact (proj2 (enforces_sound _ _ _ _ (reduce_correct x H) R)).
Qed.
(** in particular every value below 2^207 is reduced *)
Corollary C03_reduce_below x : 0 <= x < 2 ^ 207 -> computes (Reduce x) (x mod p).
Proof.
  intros H. assert (0 <= x < r) as Hr by (split; [apply H|]; eapply Z.lt_trans; [apply H|reflexivity]).
  eapply enforces_iff; [exact (reduce_correct x Hr)|]. split; auto. intros _.
  eapply Z.lt_trans; [apply H|reflexivity].
Qed.
Example C03_case : run (Reduce (12345 * p * p + 77)) = Done 77. Proof. vm_compute. reflexivity. Qed.
Example C03_unsat : run (Reduce (2 ^ 144 * p)) = Unsat. Proof. vm_compute. reflexivity. Qed.

(** C04: the full statement is false of the model: width 192 (used by the
    Poseidon S-box) leaves several remainders possible. *)
Theorem C04_width_192_refuted :
  exists x m, 0 <= x < r /\ reach (ReduceWithMaxBits x 192) m /\ m <> x mod p.
Proof.
  exists 1, (r mod p + 1). split; [split; reflexivity || discriminate|]. split; [|vm_compute; discriminate].
  apply (proj2 (reduce_reach 1 192 (r mod p + 1) ltac:(split; reflexivity || discriminate))).
  split; [split; vm_compute; congruence|].
  exists (r / p). repeat split; try reflexivity; vm_compute; congruence.
Qed.

(** exactly the widths up to 189 are sound *)
Theorem C04_reduce_with_max_bits_partial n :
  0 <= n ->
  (n <= 189 <->
   forall x m, 0 <= x < r -> reach (ReduceWithMaxBits x n) m -> m = x mod p).
Proof.
  intros Hn. split.
  - intros H x m Hx R.
    assert (2 ^ n * p <= r) as Hs.
    { apply Z.le_trans with (2 ^ 189 * p); [|vm_compute; discriminate].
      apply Z.mul_le_mono_nonneg_r; [apply Z.lt_le_incl, p_pos|]. apply Z.pow_le_mono_r; lia. }
    exact (proj2 (enforces_sound _ _ _ _ (reduce_with_max_bits_sound x n Hx Hs) R)).
  - intros H. destruct (Z_le_gt_dec n 189) as [L|G]; [exact L|exfalso].
    assert (0 <= 1 < r) as H1 by (split; reflexivity || discriminate).
    specialize (H 1 (r mod p + 1) H1).
    apply (proj1 (Z.eqb_neq (r mod p + 1) (1 mod p)) eq_refl), H.
    apply (proj2 (reduce_reach 1 n (r mod p + 1) H1)).
    split; [split; vm_compute; congruence|].
    exists (r / p). split; [|split; vm_compute; reflexivity].
    split; [vm_compute; discriminate|].
    apply Z.lt_le_trans with (2 ^ 190); [vm_compute; reflexivity|apply Z.pow_le_mono_r; lia].
Qed.
(** and the solver succeeds whenever the quotient fits *)
Theorem C04_complete x n :
  0 <= x < r -> x / p < 2 ^ n -> run (ReduceWithMaxBits x n) = Done (x mod p).
Proof. exact (reduce_run x n). Qed.
Example C04_case : run (ReduceWithMaxBits (p * p + 5) 189) = Done 5 /\ run (ReduceWithMaxBits (p * p + 5) 63) = Unsat.
Proof. vm_compute. split; reflexivity. Qed.

(** C05 *)
Theorem C05_inverse x :
  0 <= x < p ->
  (exists y, run (Inverse x) = Done (y, if x =? 0 then 0 else 1)) /\
  (forall y h, reach (Inverse x) (y, h) ->
     0 <= y < p /\ (x = 0 -> h = 0) /\ (x <> 0 -> h = 1 /\ (x * y) mod p = 1)).
Proof.
  intros Hx. destruct (canon_rep_exists x Hx) as [a <-].
  assert (E : geqb a g0 = (rep a =? 0)) by reflexivity.
  split.
  - exists (rep (ginv a)). rewrite inverse_run, E. now destruct (rep a =? 0).
  - intros y h R. apply inverse_correct in R. destruct R as (b & -> & -> & HI).
    rewrite E. split; [apply rep_range|]. split.
    + intros H. now rewrite H.
    + intros H. assert (Ha : a <> g0) by (intros ->; now apply H).
      apply Z.eqb_neq in H. rewrite H. split; [reflexivity|].
      rewrite (HI Ha). change (rep (a * ginv a)%GF = rep g1). f_equal.
      transitivity (ginv a * a)%GF; [ring|now apply ginv_l].
Qed.
(** for 0 the returned "inverse" is not constrained at all *)
Theorem C05_inverse_of_zero_is_free y : 0 <= y < p -> reach (Inverse 0) (y, 0).
Proof. intros H. destruct (canon_rep_exists y H) as [a <-]. exact (inverse_zero_free a). Qed.
Example C05_case : run (Inverse 2) = Done ((p + 1) / 2, 1). Proof. vm_compute. reflexivity. Qed.

(** C10 *)
Theorem C10_extension_arithmetic (a b c : K) (s : GF) :
  computes (AddExtension (repK a) (repK b)) (repK (a + b)%K) /\
  computes (SubExtension (repK a) (repK b)) (repK (a - b)%K) /\
  computes (MulExtension (repK a) (repK b)) (repK (a * b)%K) /\
  computes (MulAddExtension (repK a) (repK b) (repK c)) (repK (a * b + c)%K) /\
  computes (SubMulExtension (repK a) (repK b) (repK c)) (repK ((a - b) * c)%K) /\
  computes (ScalarMulExtension (repK a) (rep s)) (repK (a * emb s)%K).
Proof.
  exact (conj (add_ext_correct a b) (conj (sub_ext_correct a b) (conj (mul_ext_correct a b)
        (conj (muladd_ext_correct a b c) (conj (submul_ext_correct a b c) (scalarmul_ext_correct a s)))))).
Qed.
(** the ring is GF(p)[X]/(X^2-7) and it is a field *)
Theorem C10_is_field :
  field_theory k0 k1 kadd kmul ksub kopp kdiv kinv eq /\ (kX * kX = emb g7)%K /\
  (forall a : K, a = (emb (fst a) + emb (snd a) * kX)%K).
Proof.
  split; [exact K_field|]. split; [now apply K_eq; apply GF_eq|].
  intros [a b]. apply K_eq; unfold kadd, kmul, emb, kX; cbn [fst snd]; ring.
Qed.
(** quadratic_extension_test.go: a sample product *)
Example C10_case :
  run (MulExtension (4994088319481652598, 16489566008211790727) (3797605683985595697, 13424401189265534004))
  = Done (15052319864161058789, 16841416332519902625).
Proof. vm_compute. reflexivity. Qed.

(** C11 *)
Theorem C11_extension_inverse (a b : K) :
  enforces (InverseExtension (repK b)) (b <> k0) (repK (kinv b), 1) /\
  enforces (DivExtension (repK a) (repK b)) (b <> k0) (repK (a / b)%K, 1).
Proof. exact (conj (inverse_ext_correct b) (div_ext_correct a b)). Qed.
Example C11_case :
  run (DivExtension (4994088319481652598, 16489566008211790727) (7166004739148609569, 14655965871663555016))
  = Done ((15052319864161058789, 16841416332519902625), 1).
Proof. vm_compute. reflexivity. Qed.

(** C12 *)
Theorem C12_exponentiation (a : K) (e : N) : computes (ExpExtension (repK a) e) (repK (a ^ e)%K).
Proof. exact (exp_ext_correct a e). Qed.
Example C12_case : run (ExpExtension (0, 1) 6) = Done (343, 0). Proof. vm_compute. reflexivity. Qed.

(** C13: the specification [powers_sum] is the Horner value; here as explicit sum *)
Fixpoint sum_powers (i : N) (terms : list K) (s : K) : K :=
  match terms with [] => k0 | t :: ts => (t * s ^ i + sum_powers (N.succ i) ts s)%K end.
Lemma sum_powers_horner terms s : forall i, sum_powers i terms s = (s ^ i * powers_sum terms s)%K.
Proof.
  induction terms as [|t ts IH]; intros i; cbn [sum_powers powers_sum].
  - ring.
  - rewrite IH, kpow_succ. ring.
Qed.
Theorem C13_reduce_with_powers (terms : list K) (s : K) :
  computes (ReduceWithPowers (map repK terms) (repK s)) (repK (sum_powers 0 terms s)).
Proof.
  eapply computes_eq; [exact (reduce_with_powers_correct terms s)|].
  rewrite sum_powers_horner, kpow_0. f_equal. ring.
Qed.
Theorem C13_reduce_extension x y :
  0 <= x < 2 ^ 144 * p -> 0 <= y < 2 ^ 144 * p ->
  computes (ReduceExtension (x, y)) (x mod p, y mod p).
Proof.
  intros Hx Hy. unfold ReduceExtension; cbn [fst snd].
  assert (L : forall z, 0 <= z < 2 ^ 144 * p -> 0 <= z < r).
  { intros z Hz. split; [apply Hz|]. eapply Z.lt_le_trans; [apply Hz|]. vm_compute. discriminate. }
  eapply computes_bind; [eapply enforces_iff; [exact (reduce_correct x (L x Hx))|tauto]|].
  eapply computes_bind; [eapply enforces_iff; [exact (reduce_correct y (L y Hy))|tauto]|].
  apply computes_ret.
Qed.
Example C13_case : run (ReduceWithPowers [(1, 0); (2, 0); (3, 0)] (10, 0)) = Done (321, 0).
Proof. vm_compute. reflexivity. Qed.

(** C14: [2^70] pairs are more than any Go slice can hold *)
Fixpoint dot (pairs : list (K * K)) : K :=
  match pairs with [] => k0 | (a, b) :: l => (a * b + dot l)%K end.
Lemma inner_spec_dot c pairs : forall s, inner_spec c s pairs = (s + emb c * dot pairs)%K.
Proof.
  unfold inner_spec. induction pairs as [|[a b] l IH]; intros s; cbn [fold_left dot].
  - ring.
  - rewrite IH. cbn [fst snd]. ring.
Qed.
Theorem C14_inner_product (c : GF) (s : K) (pairs : list (K * K)) :
  Z.of_nat (length pairs) <= 2 ^ 70 ->
  computes (InnerProductExtension (rep c) (repK s) (map (fun ab => (repK (fst ab), repK (snd ab))) pairs))
           (repK (s + emb c * dot pairs)%K).
Proof. intros H. rewrite <- inner_spec_dot. exact (inner_correct c s pairs H). Qed.
Example C14_case :
  run (InnerProductExtension 2 (5, 6) [((1, 2), (3, 4)); ((10, 0), (0, 1))]) = Done (123, 46).
Proof. vm_compute. reflexivity. Qed.

(** C15 *)
Theorem C15_selection (x y z w : QE) (b0 b1 : bool) (a : K) :
  IsZero (repK a) = (if keqb a k0 then 1 else 0) /\
  computes (Lookup (Z.b2z b0) x y) (if b0 then y else x) /\
  computes (Lookup2 (Z.b2z b0) (Z.b2z b1) x y z w)
           (nth (Nat.b2n b0 + 2 * Nat.b2n b1) [x; y; z; w] x) /\
  enforces (AssertIsEqualExtension x y) (x = y) tt /\
  enforces (RangeCheckQE x) ((0 <= fst x < p) /\ (0 <= snd x < p)) tt.
Proof.
  split; [rewrite iszero_correct; now destruct (keqb a k0)|].
  split; [exact (lookup_correct b0 x y)|]. split.
  - eapply computes_eq; [exact (lookup2_correct b0 b1 x y z w)|]. now destruct b0, b1.
  - split; [exact (assert_eq_ext_correct x y)|exact (range_check_qe_correct x)].
Qed.
(** selectors that are not boolean are rejected *)
Theorem C15_selector_boolean (b0 b1 : Z) (x y z w : QE) :
  (sat (Lookup b0 x y) -> b0 = 0 \/ b0 = 1) /\
  (sat (Lookup2 b0 b1 x y z w) -> (b0 = 0 \/ b0 = 1) /\ (b1 = 0 \/ b1 = 1)).
Proof.
  assert (L : forall b x y v, reach (Lookup b x y) v -> b = 0 \/ b = 1).
  { intros b x' y' v R. unfold Lookup in R. apply reach_bind in R. destruct R as (c0 & R & _).
    destruct R as [B _]. now apply is_bool_iff. }
  split.
  - intros [v R]. eapply L, R.
  - intros [v R]. unfold Lookup2 in R. apply reach_bind in R. destruct R as (c0 & R0 & R).
    apply reach_bind in R. destruct R as (c1 & R1 & R). split; eapply L; eassumption.
Qed.
Example C15_case : run (Lookup2 1 0 (1, 1) (2, 2) (3, 3) (4, 4)) = Done (2, 2).
Proof. vm_compute. reflexivity. Qed.

(** C16: [KA] is K[Y]/(Y^2-7), a commutative ring *)
Theorem C16_algebra (a b : KA) (s : K) :
  computes (AddExtensionAlgebra (repA a) (repA b)) (repA (a + b)%KA) /\
  computes (SubExtensionAlgebra (repA a) (repA b)) (repA (a - b)%KA) /\
  computes (MulExtensionAlgebra (repA a) (repA b)) (repA (a * b)%KA) /\
  computes (ScalarMulExtensionAlgebra (repK s) (repA b)) (repA (aemb s * b)%KA).
Proof.
  exact (conj (add_alg_correct a b) (conj (sub_alg_correct a b)
        (conj (mul_alg_correct a b) (scalar_alg_correct s b)))).
Qed.
Theorem C16_is_ring :
  ring_theory ka0 ka1 aadd amul asub aopp eq /\
  (((k0, k1) : KA) * (k0, k1) = aemb (emb g7))%KA /\
  (forall x y, aemb (x + y)%K = (aemb x + aemb y)%KA /\ aemb (x * y)%K = (aemb x * aemb y)%KA) /\
  (forall x y, aemb x = aemb y -> x = y).
Proof.
  split; [exact KA_ring|]. split; [|split].
  - apply KA_eq; unfold amul, aemb; cbn [fst snd]; ring.
  - intros x y. split; apply KA_eq; unfold amul, aadd, aemb; cbn [fst snd]; ring.
  - intros x y H. now injection H.
Qed.
Example C16_case :
  run (MulExtensionAlgebra ((1, 2), (3, 4)) ((5, 6), (7, 8))) = Done ((1804, 380), (302, 60)).
Proof. vm_compute. reflexivity. Qed.

Print Assumptions C01_range_check.
Print Assumptions C02_base_arithmetic.
Print Assumptions C03_reduce.
Print Assumptions C03_reduce_below.
Print Assumptions C04_width_192_refuted.
Print Assumptions C04_reduce_with_max_bits_partial.
Print Assumptions C04_complete.
Print Assumptions C05_inverse.
Print Assumptions C05_inverse_of_zero_is_free.
Print Assumptions C10_extension_arithmetic.
Print Assumptions C10_is_field.
Print Assumptions C11_extension_inverse.
Print Assumptions C12_exponentiation.
Print Assumptions C13_reduce_with_powers.
Print Assumptions C13_reduce_extension.
Print Assumptions C14_inner_product.
Print Assumptions C15_selection.
Print Assumptions C15_selector_boolean.
Print Assumptions C16_algebra.
Print Assumptions C16_is_ring.
