(** * Correctness of the quadratic extension and extension algebra operations. *)
From Coq Require Import String.
From Coq Require Import ZArith NArith Lia List Bool.
From Verif Require Import Zp GF Circuit Goldilocks GLProofs.
Import ListNotations.
Open Scope Z_scope.

Definition repK (a : K) : QE := (rep (fst a), rep (snd a)).
Lemma repK_inj a b : repK a = repK b -> a = b.
Proof. unfold repK. intros H. injection H as H1 H2. apply K_eq; now apply GF_eq. Qed.
Lemma repK_0 : repK k0 = ZeroExtension. Proof. reflexivity. Qed.
Lemma repK_1 : repK k1 = OneExtension. Proof. reflexivity. Qed.
Lemma repK_emb a : repK (emb a) = ToQuadraticExtension (rep a). Proof. reflexivity. Qed.

Definition lzK (x : QE) (B : Z) (a : K) : Prop := lz (fst x) B (fst a) /\ lz (snd x) B (snd a).

Lemma lzK_rep a : lzK (repK a) (p - 1) a.
Proof. split; apply lz_rep. Qed.
Lemma lzK_weaken x B C a : lzK x B a -> B <= C -> lzK x C a.
Proof. intros [H1 H2] HB. split; eapply lz_weaken; eauto. Qed.
Lemma lzK_add x y B C a b :
  lzK x B a -> lzK y C b -> B + C < r -> lzK (AddExtensionNoReduce x y) (B + C) (a + b)%K.
Proof. intros [X1 X2] [Y1 Y2] H. split; now apply lz_add. Qed.

Lemma lz_negone : lz NegOne (p - 1) (- (1))%GF.
Proof. rewrite NegOne_rep. apply lz_rep. Qed.
Lemma lz_sub x y B C a b :
  lz x B a -> lz y C b -> B + C * (p - 1) < r -> 0 <= B ->
  lz (SubNoReduce x y) (B + C * (p - 1)) (a - b)%GF.
Proof.
  intros X Y H HB. replace (a - b)%GF with (a + b * (- (1)))%GF by ring.
  unfold SubNoReduce. apply lz_add; [exact X| |exact H]. apply lz_mul; [exact Y|apply lz_negone|lia].
Qed.
Lemma lzK_sub x y B C a b :
  lzK x B a -> lzK y C b -> B + C * (p - 1) < r -> 0 <= B ->
  lzK (SubExtensionNoReduce x y) (B + C * (p - 1)) (a - b)%K.
Proof. intros [X1 X2] [Y1 Y2] H HB. split; now apply lz_sub. Qed.

Lemma lz_W : lz W 7 g7.
Proof. split; [unfold W; lia|]. now apply GF_eq. Qed.

Lemma lzK_mul x y B C a b :
  lzK x B a -> lzK y C b -> 8 * B * C < r -> 1 <= C -> lzK (MulExtensionNoReduce x y) (8 * B * C) (a * b)%K.
Proof.
  intros [X1 X2] [Y1 Y2] H HC.
  assert (HB : 0 <= B) by (destruct X1; lia).
  assert (HBC : 0 <= B * C) by nia.
  assert (P00 := lz_mul _ _ _ _ _ _ X1 Y1 ltac:(nia)).
  assert (P01 := lz_mul _ _ _ _ _ _ X1 Y2 ltac:(nia)).
  assert (P10 := lz_mul _ _ _ _ _ _ X2 Y1 ltac:(nia)).
  assert (P7 := lz_mul _ _ _ _ _ _ lz_W X2 ltac:(nia)).
  assert (P11 := lz_mul _ _ _ _ _ _ P7 Y2 ltac:(nia)).
  split; unfold MulExtensionNoReduce, MulNoReduce, AddNoReduce, kmul; cbn [fst snd].
  - eapply lz_weaken; [|apply Z.eq_le_incl; instantiate (1 := B * C + 7 * B * C); ring].
    replace (g7 * (snd a * snd b))%GF with (g7 * snd a * snd b)%GF by ring.
    apply lz_add; [exact P00|exact P11|nia].
  - eapply lz_weaken; [apply lz_add; [exact P01|exact P10|nia]|nia].
Qed.

Lemma computes_reduceK x B a : lzK x B a -> B < 2 ^ 144 * p -> computes (ReduceExtension x) (repK a).
Proof.
  intros [H1 H2] HB. unfold ReduceExtension.
  eapply computes_bind; [eapply computes_reduce; eauto|].
  eapply computes_bind; [eapply computes_reduce; eauto|]. apply computes_ret.
Qed.

Lemma add_ext_correct a b : computes (AddExtension (repK a) (repK b)) (repK (a + b)%K).
Proof.
  unfold AddExtension. eapply computes_bind; [apply gadd_correct|].
  eapply computes_bind; [apply gadd_correct|]. apply computes_ret.
Qed.
Lemma sub_ext_correct a b : computes (SubExtension (repK a) (repK b)) (repK (a - b)%K).
Proof.
  unfold SubExtension. eapply computes_bind; [apply gsub_correct|].
  eapply computes_bind; [apply gsub_correct|]. apply computes_ret.
Qed.
Lemma mul_ext_correct a b : computes (MulExtension (repK a) (repK b)) (repK (a * b)%K).
Proof.
  unfold MulExtension. eapply computes_reduceK; [apply lzK_mul; try apply lzK_rep|]; vm_compute; congruence.
Qed.
Lemma muladd_ext_correct a b c :
  computes (MulAddExtension (repK a) (repK b) (repK c)) (repK (a * b + c)%K).
Proof.
  unfold MulAddExtension, MulAddExtensionNoReduce.
  eapply computes_reduceK; [apply lzK_add; [apply lzK_mul; try apply lzK_rep|apply lzK_rep|]|]; vm_compute; congruence.
Qed.
Lemma submul_ext_correct a b c :
  computes (SubMulExtension (repK a) (repK b) (repK c)) (repK ((a - b) * c)%K).
Proof.
  unfold SubMulExtension.
  eapply computes_reduceK; [apply lzK_mul; [apply lzK_sub; try apply lzK_rep|apply lzK_rep| |]|]; vm_compute; congruence.
Qed.
Definition kscale (a : K) (c : GF) : K := (fst a * c, snd a * c)%GF.
Lemma kscale_emb a c : kscale a c = (a * emb c)%K.
Proof. apply K_eq; unfold kscale, kmul, emb; cbn [fst snd]; ring. Qed.
Lemma scalarmul_ext_correct a c :
  computes (ScalarMulExtension (repK a) (rep c)) (repK (a * emb c)%K).
Proof.
  rewrite <- kscale_emb. unfold ScalarMulExtension.
  eapply computes_bind; [apply gmul_correct|]. eapply computes_bind; [apply gmul_correct|].
  apply computes_ret.
Qed.

(** ** Inner products *)
Definition inner_spec (c : GF) (s : K) (pairs : list (K * K)) : K :=
  fold_left (fun acc ab => (acc + emb c * (fst ab * snd ab))%K) pairs s.

Definition rep2 (ab : K * K) : QE * QE := (repK (fst ab), repK (snd ab)).

Lemma inner_fold c pairs : forall x B s,
  lzK x B s -> B + Z.of_nat (length pairs) * (8 * (p - 1) * (p - 1)) < 2 ^ 144 * p ->
  exists y, computes (foldM (fun acc ab =>
        mul <- ScalarMulExtension (fst ab) (rep c);;
        Ret (MulAddExtensionNoReduce mul (snd ab) acc)) x (map rep2 pairs)) y /\
    lzK y (B + Z.of_nat (length pairs) * (8 * (p - 1) * (p - 1))) (inner_spec c s pairs).
Proof.
  assert (Hr : 2 ^ 144 * p < r) by (vm_compute; reflexivity).
  induction pairs as [|[a b] pairs IH]; intros x B s Hx HB.
  - exists x. split; [apply computes_ret|]. cbn [length] in *. eapply lzK_weaken; [exact Hx|lia].
  - cbn [length] in HB. rewrite Nat2Z.inj_succ in HB.
    set (M := 8 * (p - 1) * (p - 1)) in *.
    assert (HM : 0 < M) by reflexivity.
    assert (HMr : 8 * (p - 1) * (p - 1) < r) by reflexivity.
    assert (Hy : lzK (MulAddExtensionNoReduce (repK (a * emb c)%K) (repK b) x) (M + B)
                 ((a * emb c) * b + s)%K).
    { unfold MulAddExtensionNoReduce. apply lzK_add; [apply lzK_mul; try apply lzK_rep|exact Hx|].
      - exact HMr. - vm_compute; congruence. - unfold M in *; nia. }
    destruct (IH _ _ _ Hy ltac:(nia)) as (y & Hy1 & Hy2).
    exists y. split.
    + cbn [map foldM rep2 fst snd]. eapply computes_bind; [|exact Hy1].
      eapply computes_bind; [apply scalarmul_ext_correct|]. apply computes_ret.
    + eapply lzK_weaken.
      * unfold inner_spec in *. cbn [fold_left fst snd].
        replace (s + emb c * (a * b))%K with (a * emb c * b + s)%K by ring. exact Hy2.
      * cbn [length]. rewrite Nat2Z.inj_succ. nia.
Qed.

Lemma inner_correct c s pairs :
  Z.of_nat (length pairs) <= 2 ^ 70 ->
  computes (InnerProductExtension (rep c) (repK s) (map rep2 pairs)) (repK (inner_spec c s pairs)).
Proof.
  intros Hlen.
  assert (HB : p - 1 + Z.of_nat (length pairs) * (8 * (p - 1) * (p - 1)) < 2 ^ 144 * p).
  { assert (HM : p - 1 + 2 ^ 70 * (8 * (p - 1) * (p - 1)) < 2 ^ 144 * p) by reflexivity.
    set (M := 8 * (p - 1) * (p - 1)) in *. assert (0 < M) by reflexivity. nia. }
  destruct (inner_fold c pairs (repK s) (p - 1) s (lzK_rep s) HB) as (y & H1 & H2).
  unfold InnerProductExtension. eapply computes_bind; [exact H1|].
  eapply computes_reduceK; [exact H2|exact HB].
Qed.

(** ** IsZero, inversion, division *)
Lemma iszero_correct a : IsZero (repK a) = Z.b2z (keqb a k0).
Proof.
  unfold IsZero, keqb, geqb, repK. cbn [fst snd]. rewrite !b2z_is_zero.
  change (rep (fst k0)) with 0. change (rep (snd k0)) with 0.
  destruct (rep (fst a) =? 0), (rep (snd a) =? 0); reflexivity.
Qed.

Lemma dth_root_rep : DTH_ROOT = rep (- (1))%GF. Proof. reflexivity. Qed.

Lemma inverse_ext_correct a :
  enforces (InverseExtension (repK a)) (a <> k0) (repK (kinv a), 1).
Proof.
  unfold InverseExtension.
  eapply enforces_iff with (P := a <> k0 /\ True); [|tauto].
  eapply enforces_bind.
  - eapply enforces_iff; [apply enforces_assert_eq|]. rewrite iszero_correct.
    split.
    + intros E Ha. apply keqb_eq in Ha. rewrite Ha in E. discriminate.
    + intros Ha. destruct (keqb a k0) eqn:E; [|reflexivity]. now apply keqb_eq in E.
  - intros Ha. assert (Hn : knorm a <> g0) by (intros H; now apply Ha, knorm_0).
    cbn [repK fst snd]. rewrite dth_root_rep.
    eapply computes_bind; [apply gmul_correct|].
    eapply computes_bind.
    { change (rep (fst a), rep (snd a * - (1))%GF) with (repK (fst a, snd a * - (1))%GF).
      apply mul_ext_correct. }
    assert (E : fst (repK ((fst a, snd a * - (1))%GF * a)%K) = rep (knorm a)).
    { unfold repK. cbn [fst]. f_equal. unfold kmul, knorm. cbn [fst snd]. ring. }
    rewrite E. eapply computes_bind; [apply inverse_nz; exact Hn|].
    cbn beta iota. eapply computes_bind.
    { change (rep (fst a), rep (snd a * - (1))%GF) with (repK (fst a, snd a * - (1))%GF).
      apply scalarmul_ext_correct. }
    eapply computes_eq; [apply computes_ret|]. f_equal. f_equal.
    rewrite <- kscale_emb. apply K_eq; unfold kscale, kinv; cbn [fst snd]; ring.
Qed.

Lemma div_ext_correct a b :
  enforces (DivExtension (repK a) (repK b)) (b <> k0) (repK (a / b)%K, 1).
Proof.
  unfold DivExtension.
  eapply enforces_iff with (P := b <> k0 /\ True); [|tauto].
  eapply enforces_bind; [apply inverse_ext_correct|]. intros Hb. cbn beta iota.
  eapply computes_bind; [apply mul_ext_correct|]. apply computes_ret.
Qed.

(** ** Exponentiation *)
Definition exp_pure (e : N) (st : K * K) (i : nat) : K * K :=
  let c := if Nat.eqb i 0 then fst st else (fst st * fst st)%K in
  (c, if N.testbit e (N.of_nat i) then (snd st * c)%K else snd st).

Lemma exp_step_correct e st i :
  computes (exp_step e (rep2 st) i) (rep2 (exp_pure e st i)).
Proof.
  destruct st as [c d]. unfold exp_step, rep2, exp_pure. cbn [fst snd].
  eapply computes_bind with (a := repK (if Nat.eqb i 0 then c else (c * c)%K)).
  - destruct (Nat.eqb i 0); [apply computes_ret|apply mul_ext_correct].
  - eapply computes_bind.
    + instantiate (1 := repK (if N.testbit e (N.of_nat i) then (d * (if Nat.eqb i 0 then c else (c * c)%K))%K else d)).
      destruct (N.testbit e (N.of_nat i)); [apply mul_ext_correct|apply computes_ret].
    + apply computes_ret.
Qed.

Lemma N_mod_pow2_succ e n :
  (e mod 2 ^ N.of_nat (S n) = e mod 2 ^ N.of_nat n + (if N.testbit e (N.of_nat n) then 2 ^ N.of_nat n else 0))%N.
Proof.
  assert (Hp : (2 ^ N.of_nat n <> 0)%N) by (apply N.pow_nonzero; discriminate).
  rewrite Nat2N.inj_succ, N.pow_succ_r', (N.mul_comm 2).
  rewrite N.mod_mul_r by (try exact Hp; discriminate). f_equal.
  rewrite N.testbit_eqb.
  assert (H : (e / 2 ^ N.of_nat n mod 2 < 2)%N) by (apply N.mod_lt; discriminate).
  revert H. generalize ((e / 2 ^ N.of_nat n) mod 2)%N as m. generalize (2 ^ N.of_nat n)%N as q.
  intros q m H. destruct (N.eqb_spec m 1) as [->|E]; [lia|].
  assert (m = 0)%N as -> by lia. lia.
Qed.

Lemma exp_pure_inv e a n :
  (let st := fold_left (exp_pure e) (seq 0 (S n)) (a, 1) in
   fst st = a ^ (2 ^ N.of_nat n) /\ snd st = a ^ (e mod 2 ^ N.of_nat (S n)))%K.
Proof.
  cbv zeta. induction n as [|n [IH1 IH2]].
  - cbn [seq fold_left exp_pure Nat.eqb fst snd]. rewrite (N_mod_pow2_succ e 0).
    change (2 ^ N.of_nat 0)%N with 1%N. rewrite N.mod_1_r, N.add_0_l. split; [reflexivity|].
    destruct (N.testbit e (N.of_nat 0)); [rewrite kpow_1; ring|reflexivity].
  - rewrite seq_S, fold_left_app. cbn [fold_left]. rewrite Nat.add_0_l.
    set (st := fold_left (exp_pure e) (seq 0 (S n)) (a, 1%K)) in *.
    unfold exp_pure. change (Nat.eqb (S n) 0) with false. cbv iota. cbn [fst snd].
    assert (Hc : (fst st * fst st = a ^ 2 ^ N.of_nat (S n))%K).
    { rewrite IH1, Nat2N.inj_succ, N.pow_succ_r'.
      replace (2 * 2 ^ N.of_nat n)%N with (2 ^ N.of_nat n + 2 ^ N.of_nat n)%N by lia.
      now rewrite kpow_add. }
    rewrite Hc. split; [reflexivity|].
    rewrite (N_mod_pow2_succ e (S n)), IH2.
    destruct (N.testbit e (N.of_nat (S n))); [now rewrite kpow_add|now rewrite N.add_0_r].
Qed.

Lemma size_nat_bound e : (e < 2 ^ N.of_nat (N.size_nat e))%N.
Proof.
  destruct e as [|q]; [reflexivity|]. cbn [N.size_nat].
  replace (N.of_nat (Pos.size_nat q)) with (N.size (N.pos q)).
  - apply N.size_gt.
  - cbn [N.size]. induction q as [q IH|q IH|]; cbn [Pos.size Pos.size_nat]; try reflexivity;
      rewrite Nat2N.inj_succ, <- IH; reflexivity.
Qed.

Lemma exp_ext_correct a e : computes (ExpExtension (repK a) e) (repK (a ^ e)%K).
Proof.
  unfold ExpExtension.
  destruct (N.eqb_spec e 0) as [->|H0]; [apply computes_ret|].
  destruct (N.eqb_spec e 1) as [->|H1]; [apply computes_ret|].
  destruct (N.eqb_spec e 2) as [->|H2].
  { eapply computes_eq; [apply mul_ext_correct|]. replace (a ^ 2)%K with (a * a)%K by ring. reflexivity. }
  eapply computes_bind with (a := rep2 (fold_left (exp_pure e) (seq 0 (N.size_nat e)) (a, 1%K))).
  - change (repK a, OneExtension) with (rep2 (a, 1%K)).
    rewrite <- (map_id (seq 0 (N.size_nat e))) at 1.
    apply (computes_foldM (exp_step e) rep2 (fun i => i) (exp_pure e)).
    intros acc i _. apply exp_step_correct.
  - destruct (N.size_nat e) as [|n] eqn:E.
    { exfalso. pose proof (size_nat_bound e) as Hb. rewrite E in Hb. cbn in Hb. lia. }
    destruct (exp_pure_inv e a n) as [_ I2].
    eapply computes_eq; [apply computes_ret|]. cbn [rep2 snd]. rewrite I2.
    rewrite N.mod_small; [reflexivity|]. rewrite <- E. apply size_nat_bound.
Qed.

(** ** ReduceWithPowers *)
Fixpoint powers_sum (terms : list K) (s : K) : K :=
  match terms with [] => 0%K | t :: ts => (t + s * powers_sum ts s)%K end.

Lemma fold_right_rev_left {A B} (f : B -> A -> B) l acc :
  fold_left f (rev l) acc = fold_right (fun x a => f a x) acc l.
Proof. rewrite <- (rev_involutive l) at 2. now rewrite fold_left_rev_right. Qed.

Lemma reduce_with_powers_correct terms s :
  computes (ReduceWithPowers (map repK terms) (repK s)) (repK (powers_sum terms s)).
Proof.
  unfold ReduceWithPowers. rewrite <- map_rev. rewrite <- repK_0.
  eapply computes_eq.
  - apply (computes_foldM _ repK repK (fun acc t => (acc * s + t)%K)).
    intros acc t _.
    eapply computes_reduceK; [apply lzK_add; [apply lzK_mul; try apply lzK_rep|apply lzK_rep|]|]; vm_compute; congruence.
  - f_equal. rewrite fold_right_rev_left.
    induction terms as [|t ts IH]; cbn [fold_right powers_sum]; [reflexivity|]. rewrite IH. ring.
Qed.

(** The usual formula. *)
Lemma powers_sum_app l1 l2 s :
  powers_sum (l1 ++ l2) s = (powers_sum l1 s + s ^ N.of_nat (length l1) * powers_sum l2 s)%K.
Proof.
  induction l1 as [|t l1 IH]; cbn [app powers_sum length].
  - change (N.of_nat 0) with 0%N. rewrite kpow_0. ring.
  - rewrite IH, Nat2N.inj_succ, kpow_succ. ring.
Qed.

(** ** Lookup *)
Lemma lookup_correct (b : bool) x y : computes (Lookup (Z.b2z b) x y) (if b then y else x).
Proof.
  unfold Lookup. eapply computes_bind; [apply computes_select|].
  eapply computes_bind; [apply computes_select|].
  eapply computes_eq; [apply computes_ret|]. destruct b, x, y; reflexivity.
Qed.
Lemma lookup2_correct (b0 b1 : bool) x0 x1 x2 x3 :
  computes (Lookup2 (Z.b2z b0) (Z.b2z b1) x0 x1 x2 x3)
           (if b1 then (if b0 then x3 else x2) else (if b0 then x1 else x0)).
Proof.
  unfold Lookup2. eapply computes_bind; [apply lookup_correct|].
  eapply computes_bind; [apply lookup_correct|].
  eapply computes_eq; [apply lookup_correct|]. destruct b0, b1; reflexivity.
Qed.
Lemma assert_eq_ext_correct (a b : QE) : enforces (AssertIsEqualExtension a b) (a = b) tt.
Proof.
  unfold AssertIsEqualExtension, AssertIsEqual. eapply enforces_iff.
  - eapply enforces_bind; [apply enforces_assert_eq|]. intros _. apply enforces_assert_eq.
  - destruct a, b; cbn [fst snd]. split; [now intros [-> ->]|now intros [= -> ->]].
Qed.
Lemma assert_eq_ext_K a b : enforces (AssertIsEqualExtension (repK a) (repK b)) (a = b) tt.
Proof.
  eapply enforces_iff; [apply assert_eq_ext_correct|].
  split; [apply repK_inj|now intros ->].
Qed.
Lemma range_check_qe_correct x :
  enforces (RangeCheckQE x) ((0 <= fst x < p) /\ (0 <= snd x < p)) tt.
Proof.
  unfold RangeCheckQE. eapply enforces_bind; [apply range_check_correct|].
  intros _. apply range_check_correct.
Qed.

(** ** The extension algebra K[Y]/(Y^2-7) *)
Definition KA : Set := (K * K)%type.
Definition ka0 : KA := (k0, k0).
Definition ka1 : KA := (k1, k0).
Definition aadd (a b : KA) : KA := (fst a + fst b, snd a + snd b)%K.
Definition asub (a b : KA) : KA := (fst a - fst b, snd a - snd b)%K.
Definition aopp (a : KA) : KA := (- fst a, - snd a)%K.
Definition amul (a b : KA) : KA :=
  (fst a * fst b + emb g7 * (snd a * snd b), fst a * snd b + snd a * fst b)%K.
Definition aemb (x : K) : KA := (x, k0).
Declare Scope KA_scope.
Delimit Scope KA_scope with KA.
Bind Scope KA_scope with KA.
Notation "0" := ka0 : KA_scope.
Notation "1" := ka1 : KA_scope.
Infix "+" := aadd : KA_scope.
Infix "*" := amul : KA_scope.
Infix "-" := asub : KA_scope.
Notation "- a" := (aopp a) : KA_scope.
Lemma KA_eq (a b : KA) : fst a = fst b -> snd a = snd b -> a = b.
Proof. destruct a, b; cbn; congruence. Qed.
Lemma KA_ring : ring_theory ka0 ka1 aadd amul asub aopp eq.
Proof.
  constructor; intros; apply KA_eq; unfold aadd, amul, asub, aopp, ka0, ka1; cbn [fst snd]; ring.
Qed.
Add Ring KAring : KA_ring.

Definition repA (a : KA) : QEA := (repK (fst a), repK (snd a)).
Lemma repA_inj a b : repA a = repA b -> a = b.
Proof. unfold repA. intros [= H1 H2]. apply KA_eq; apply repK_inj; unfold repK; congruence. Qed.
Lemma repA_0 : repA ka0 = ZeroExtensionAlgebra. Proof. reflexivity. Qed.
Lemma repA_1 : repA ka1 = OneExtensionAlgebra. Proof. reflexivity. Qed.

Lemma add_alg_correct a b : computes (AddExtensionAlgebra (repA a) (repA b)) (repA (a + b)%KA).
Proof.
  unfold AddExtensionAlgebra. eapply computes_bind; [apply add_ext_correct|].
  eapply computes_bind; [apply add_ext_correct|]. apply computes_ret.
Qed.
Lemma sub_alg_correct a b : computes (SubExtensionAlgebra (repA a) (repA b)) (repA (a - b)%KA).
Proof.
  unfold SubExtensionAlgebra. eapply computes_bind; [apply sub_ext_correct|].
  eapply computes_bind; [apply sub_ext_correct|]. apply computes_ret.
Qed.
Lemma scalar_alg_correct a b : computes (ScalarMulExtensionAlgebra (repK a) (repA b)) (repA (aemb a * b)%KA).
Proof.
  unfold ScalarMulExtensionAlgebra. eapply computes_bind; [apply mul_ext_correct|].
  eapply computes_bind; [apply mul_ext_correct|].
  eapply computes_eq; [apply computes_ret|]. unfold repA, amul, aemb. cbn [fst snd].
  f_equal; f_equal; ring.
Qed.
Lemma W_rep : W = rep g7. Proof. reflexivity. Qed.
Lemma One_rep : One = rep g1. Proof. reflexivity. Qed.
Lemma mul_alg_correct a b : computes (MulExtensionAlgebra (repA a) (repA b)) (repA (a * b)%KA).
Proof.
  destruct a as [x y], b as [z t].
  unfold MulExtensionAlgebra, repA. cbn [fst snd]. rewrite W_rep, One_rep, <- repK_0.
  eapply computes_bind; [apply (inner_correct g7 k0 [(y, t)]); vm_compute; congruence|].
  eapply computes_bind; [apply (inner_correct g1 _ [(x, z)]); vm_compute; congruence|].
  eapply computes_bind; [apply (inner_correct g7 k0 []); vm_compute; congruence|].
  eapply computes_bind; [apply (inner_correct g1 _ [(x, t); (y, z)]); vm_compute; congruence|].
  eapply computes_eq; [apply computes_ret|].
  unfold inner_spec, amul. cbn [fold_left fst snd]. rewrite emb_1. f_equal; f_equal; ring.
Qed.

(** ** Partial interpolation *)
Definition interp_step (point : KA) (st : KA * KA) (it : KA * GF * GF) : KA * KA :=
  let '(ev, pr) := st in
  let '(v, x, w) := it in
  let term := (point - aemb (emb x))%KA in
  ((ev * term + (aemb (emb w) * v) * pr)%KA, (pr * term)%KA).
Definition repA2 (st : KA * KA) : QEA * QEA := (repA (fst st), repA (snd st)).
Definition repItem (it : KA * GF * GF) : QEA * Z * Z :=
  (repA (fst (fst it)), rep (snd (fst it)), rep (snd it)).

Lemma partial_step_correct point st it :
  computes (partial_interpolate_step (repA point) (repA2 st) (repItem it))
           (repA2 (interp_step point st it)).
Proof.
  destruct st as [ev pr], it as [[v x] w].
  unfold partial_interpolate_step, repA2, repItem, interp_step. cbn [fst snd].
  change (ToQuadraticExtensionAlgebra (ToQuadraticExtension (rep x))) with (repA (aemb (emb x))).
  change (ToQuadraticExtension (rep w)) with (repK (emb w)).
  eapply computes_bind; [apply sub_alg_correct|].
  eapply computes_bind; [apply scalar_alg_correct|].
  eapply computes_bind; [apply mul_alg_correct|].
  eapply computes_bind; [apply mul_alg_correct|].
  eapply computes_bind; [apply add_alg_correct|].
  eapply computes_bind; [apply mul_alg_correct|].
  apply computes_ret.
Qed.

Lemma combine_map {A B C D} (f : A -> C) (g : B -> D) la lb :
  combine (map f la) (map g lb) = map (fun ab => (f (fst ab), g (snd ab))) (combine la lb).
Proof.
  revert lb; induction la as [|a la IH]; intros [|b lb]; cbn [combine map]; try reflexivity.
  now rewrite IH.
Qed.

Lemma partial_interpolate_correct domain values weights point ev pr :
  length domain = length values -> length weights = length values -> values <> [] ->
  computes (PartialInterpolateExtAlgebra (map rep domain) (map repA values) (map rep weights)
              (repA point) (repA ev) (repA pr))
           (repA2 (fold_left (interp_step point) (combine (combine values domain) weights) (ev, pr))).
Proof.
  intros Hd Hw Hv. unfold PartialInterpolateExtAlgebra. rewrite !map_length, Hd, Hw, Nat.eqb_refl.
  cbn [negb]. destruct (Nat.eqb_spec (length values) 0) as [E|_].
  { destruct values; [congruence|discriminate]. }
  rewrite !combine_map. rewrite map_ext with (g := repItem) by (intros [[? ?] ?]; reflexivity).
  change (repA ev, repA pr) with (repA2 (ev, pr)).
  apply computes_foldM. intros acc it _. apply partial_step_correct.
Qed.
