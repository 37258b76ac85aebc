(** * The layout of the wires. *)
From Coq Require Import String.
From Coq Require Import ZArith NArith Lia List Bool.
From Verif Require Import Zp Circuit Goldilocks PoseidonGLConst PoseidonGL Types Challenger Fri Gates Wires WiresProofs.
Import ListNotations.
Open Scope Z_scope.
Open Scope circ_scope.

(** the wires a gate takes, as in plonky2 (num_wires) *)
Definition numWires (g : Gate) : nat :=
  match g with
  | ArithmeticGate n => 4 * n
  | ArithmeticExtensionGate n => 8 * n
  | BaseSumGate n _ => 1 + n
  | ConstantGate n => n
  | CosetInterpolationGate s d _ => 1 + 2 * 2 ^ s + 4 + 4 * ((2 ^ s - 2) / (d - 1)) + 2
  | ExponentiationGate n => 2 + 2 * n
  | MultiplicationExtensionGate n => 6 * n
  | NoopGate => 0
  | PoseidonGate => 135
  | PoseidonMdsGate => 48
  | PublicInputGate => 4
  | RandomAccessGate b c x => (2 + 2 ^ b) * c + x + b * c
  | ReducingExtensionGate n => 6 + 2 * n + 2 * (n - 1)
  | ReducingGate n => 6 + n + 2 * (n - 1)
  end%nat.

(** z, z+1, ..., k numbers *)
Definition from (z : Z) (k : nat) : list Z := map (fun i => z + Z.of_nat i) (seq 0 k).
Lemma from_S z k : from z (S k) = z :: from (z + 1) k.
Proof.
  unfold from. cbn [seq map]. f_equal; [lia|]. rewrite <- seq_shift, map_map. apply map_ext. intros a. lia.
Qed.
Lemma from_app z a b : from z a ++ from (z + Z.of_nat a) b = from z (a + b).
Proof.
  revert z. induction a as [|a IH]; intros z; [cbn [from seq map app Nat.add]; now rewrite Z.add_0_r|].
  rewrite from_S. cbn [app Nat.add]. rewrite from_S. f_equal. rewrite <- IH. f_equal. f_equal. lia.
Qed.
Lemma from_nat k : from 0 k = map Z.of_nat (seq 0 k).
Proof. unfold from. apply map_ext. intros a. lia. Qed.
Lemma wires_of_from a b : wires_of (a, b) = from a (Z.to_nat (b - a)).
Proof. reflexivity. Qed.

Lemma mapM_ret {A B} (f : A -> circ B) (h : A -> B) l : (forall x, In x l -> f x = Ret (h x)) -> mapM f l = Ret (map h l).
Proof.
  induction l as [|x l IH]; intros H; [reflexivity|]. cbn [mapM map]. rewrite (H x (in_eq _ _)). cbn [bind].
  rewrite IH; [reflexivity|]. intros; apply H; now apply in_cons.
Qed.
Lemma each_from n f z k : (forall i, (i < n)%nat -> f (Z.of_nat i) = Ret (from (z + Z.of_nat (i * k)) k)) ->
  each n f = Ret (from z (n * k)).
Proof.
  intros H. unfold each. rewrite (mapM_ret _ (fun i => from (z + Z.of_nat (i * k)) k)).
  - cbn [bind]. f_equal. clear. induction n as [|n IH]; [reflexivity|].
    rewrite seq_S, map_app, concat_app, IH. cbn [map concat Nat.add]. rewrite app_nil_r.
    rewrite from_app. f_equal. lia.
  - intros i Hi. apply in_seq in Hi. apply H. lia.
Qed.
Lemma single_from c z : c = Ret z -> single c = Ret (from z 1).
Proof. intros ->. cbn. unfold from. cbn. now rewrite Z.add_0_r. Qed.
Lemma ranged_from c a b k : c = Ret (a, b) -> b = a + Z.of_nat k -> ranged c = Ret (from a k).
Proof. intros -> ->. unfold ranged. cbn [bind]. rewrite wires_of_from. do 2 f_equal. lia. Qed.
Lemma all_cons c l z j k : c = Ret (from z j) -> all l = Ret (from (z + Z.of_nat j) k) -> all (c :: l) = Ret (from z (j + k)).
Proof. intros H1 H2. cbn [all]. rewrite H1, H2. cbn [bind]. now rewrite from_app. Qed.
Lemma all_nil z : @all Z [] = Ret (from z 0).
Proof. reflexivity. Qed.

Ltac plain t :=
  lazymatch t with
  | context [add64 _ _] => fail | context [mul64 _ _] => fail | context [sub64 _ _] => fail | _ => idtac
  end.
Ltac small := repeat match goal with
  | |- context [add64 ?x ?y] => plain x; plain y; rewrite (add64_small x y) by lia
  | |- context [mul64 ?x ?y] => plain x; plain y; rewrite (mul64_small x y) by lia
  | |- context [sub64 ?x ?y] => plain x; plain y; rewrite (sub64_small x y) by lia
  end.
Ltac guarded := repeat match goal with
  | |- context [?a <=? ?b] => rewrite (proj2 (Z.leb_gt a b)) by lia
  end; cbn [panic_if bind].
Lemma ret_from z z' k k' : z = z' -> k = k' -> Ret (from z k) = Ret (from z' k').
Proof. now intros -> ->. Qed.

Lemma cons_eq {A} (a b : A) l m : a = b -> l = m -> a :: l = b :: m.
Proof. now intros -> ->. Qed.
Ltac listed := unfold from; cbn [seq map app]; repeat (apply cons_eq; [lia|]); reflexivity.
Ltac spans := unfold wires_of;
  repeat match goal with |- context [Z.to_nat (?b - ?a)] => replace (Z.to_nat (b - a)) with 2%nat by lia end.

Lemma layout_arithmetic n : Z.of_nat (4 * n) <= 2 ^ 64 -> layout (ArithmeticGate n) = Ret (from 0 (n * 4)).
Proof.
  intros H. cbn [layout]. apply each_from. intros i Hi.
  unfold A_WireIthMultiplicand0, A_WireIthMultiplicand1, A_WireIthAddend, A_WireIthOutput. small.
  apply f_equal. listed.
Qed.

(** an end of range that is 2^64 wraps to 0; the last range of a layout of exactly 2^64 wires is
    excluded by a strict bound *)
Lemma layout_arithmetic_ext n : Z.of_nat (8 * n) < 2 ^ 64 -> layout (ArithmeticExtensionGate n) = Ret (from 0 (n * 8)).
Proof.
  intros H. cbn [layout]. apply each_from. intros i Hi.
  unfold AE_wiresIthMultiplicand0, AE_wiresIthMultiplicand1, AE_wiresIthAddend, AE_wiresIthOutput, D64. small.
  spans. apply f_equal. listed.
Qed.
Lemma layout_mul_ext n : Z.of_nat (6 * n) < 2 ^ 64 -> layout (MultiplicationExtensionGate n) = Ret (from 0 (n * 6)).
Proof.
  intros H. cbn [layout]. apply each_from. intros i Hi.
  unfold ME_wiresIthMultiplicand0, ME_wiresIthMultiplicand1, ME_wiresIthOutput, D64. small.
  spans. apply f_equal. listed.
Qed.
Lemma layout_base_sum n b : Z.of_nat (1 + n) < 2 ^ 64 -> layout (BaseSumGate n b) = Ret (from 0 (1 + n)).
Proof.
  intros H. cbn [layout Nat.add]. rewrite from_S. unfold BASESUM_GATE_WIRE_SUM, BS_limbs, BASESUM_GATE_START_LIMBS, from.
  apply f_equal, cons_eq; [reflexivity|]. apply map_ext_in. intros i Hi. apply in_seq in Hi. small. lia.
Qed.
Lemma layout_constant n : layout (ConstantGate n) = Ret (from 0 (n * 1)).
Proof.
  cbn [layout]. apply each_from. intros i Hi. unfold C_WireOutput. guarded. apply single_from. f_equal. lia.
Qed.
Lemma layout_exponentiation n : Z.of_nat (2 + 2 * n) < 2 ^ 64 -> layout (ExponentiationGate n) = Ret (from 0 (1 + (n * 1 + (1 + (n * 1 + 0))))).
Proof.
  intros H. cbn [layout]. unfold E_wireBase, E_wireOutput. small.
  apply all_cons; [reflexivity|]. apply all_cons.
  { apply each_from. intros i Hi. unfold E_wirePowerBit. guarded. small. apply single_from. f_equal. lia. }
  apply all_cons. { apply f_equal. listed. }
  apply all_cons; [|apply all_nil].
  apply each_from. intros i Hi. unfold E_wireIntermediateValue. guarded. small. apply single_from. f_equal. lia.
Qed.
Lemma layout_accs n start s : start = s -> 0 <= s -> s + 2 * Z.of_nat (n - 1) < 2 ^ 64 ->
  each (n - 1) (fun i => ranged (R_wiresAccs (Z.of_nat n) start i)) = Ret (from s ((n - 1) * 2)).
Proof.
  intros -> H0 H. apply each_from. intros i Hi. unfold R_wiresAccs, D64. guarded. rewrite (sub64_small (Z.of_nat n) 1) by lia.
  rewrite (proj2 (Z.eqb_neq (Z.of_nat i) (Z.of_nat n - 1))) by lia. small.
  erewrite ranged_from; [apply ret_from; [|reflexivity]|reflexivity|]; lia.
Qed.
Lemma reducing_prefix : wires_of R_wiresOutput = from 0 2 /\ wires_of R_wiresAlpha = from 2 2 /\ wires_of R_wiresOldAcc = from 4 2.
Proof. repeat split. Qed.
Lemma layout_reducing_ext n : Z.of_nat (6 + 2 * n + 2 * (n - 1)) < 2 ^ 64 ->
  layout (ReducingExtensionGate n) = Ret (from 0 (2 + (2 + (2 + (n * 2 + ((n - 1) * 2 + 0)))))).
Proof.
  intros H. cbn [layout]. destruct reducing_prefix as (-> & -> & ->).
  apply all_cons; [reflexivity|]. apply all_cons; [reflexivity|]. apply all_cons; [reflexivity|]. apply all_cons.
  { apply each_from. intros i Hi. unfold RE_wiresCoeff, START_COEFFS, D64. small. spans. apply f_equal. listed. }
  apply all_cons; [|apply all_nil]. apply layout_accs; [|lia|lia]. unfold RE_startAccs, START_COEFFS, D64. small. lia.
Qed.
Lemma layout_reducing n : Z.of_nat (6 + n + 2 * (n - 1)) < 2 ^ 64 ->
  layout (ReducingGate n) = Ret (from 0 (2 + (2 + (2 + (n + ((n - 1) * 2 + 0)))))).
Proof.
  intros H. cbn [layout]. destruct reducing_prefix as (-> & -> & ->).
  apply all_cons; [reflexivity|]. apply all_cons; [reflexivity|]. apply all_cons; [reflexivity|]. apply all_cons.
  { unfold R_wiresCoeff, START_COEFFS. small. rewrite wires_of_from. apply ret_from; [reflexivity|lia]. }
  apply all_cons; [|apply all_nil]. apply layout_accs; [|lia|lia]. unfold R_startAccs, START_COEFFS. small. lia.
Qed.
Lemma layout_random_access b c x : (b < 64)%nat -> Z.of_nat ((2 + 2 ^ b) * c + x + b * c) < 2 ^ 64 ->
  layout (RandomAccessGate b c x) = Ret (from 0 (c * (1 + (1 + (2 ^ b * 1 + 0))) + (x * 1 + (c * (b * 1) + 0)))).
Proof.
  intros Hb H. cbn [layout]. pose proof (shl1_vec b) as V. unfold vecSize in V. rewrite (proj2 (Nat.ltb_lt b 64)) in V by lia.
  unfold RA_vecSize at 1. rewrite V, Nat2Z.id. set (v := (2 ^ b)%nat) in *. clearbody v.
  assert (Hv : (c > 0)%nat -> Z.of_nat v < 2 ^ 64) by (intros; nia).
  assert (Hcopy : forall i, (i < c)%nat -> (2 + Z.of_nat v) * Z.of_nat i + 2 + Z.of_nat v <= Z.of_nat ((2 + v) * c)) by (intros i Hi; nia).
  assert (Hbit : forall i, (i < c)%nat -> Z.of_nat i * Z.of_nat b + Z.of_nat b <= Z.of_nat (b * c)) by (intros i Hi; nia).
  apply all_cons.
  { apply each_from. intros i Hi. specialize (Hv ltac:(lia)). specialize (Hcopy i Hi).
    assert (Hp : 0 <= (2 + Z.of_nat v) * Z.of_nat i) by nia. set (P := (2 + Z.of_nat v) * Z.of_nat i) in *.
    assert (E1 : ((2 + shl1 (Z.of_nat b)) * Z.of_nat i)%u64 = P).
    { rewrite V, (add64_small 2) by lia. apply mul64_small. fold P. lia. }
    assert (E2 : 0 + Z.of_nat (i * (1 + (1 + (v * 1 + 0)))) = P) by (unfold P; nia). rewrite E2. clearbody P.
    apply all_cons.
    { unfold RA_WireAccessIndex, RA_vecSize. guarded. rewrite E1. now apply single_from. }
    apply all_cons.
    { unfold RA_WireClaimedElement, RA_vecSize. guarded. rewrite E1. small. now apply single_from. }
    apply all_cons; [|apply all_nil]. apply each_from. intros j Hj. unfold RA_WireListItem, RA_vecSize. rewrite V. guarded.
    rewrite <- V, E1. small. apply single_from. f_equal. lia. }
  assert (S0 : RA_startExtraConstants (Z.of_nat b) (Z.of_nat c) = Z.of_nat ((2 + v) * c)).
  { unfold RA_startExtraConstants, RA_vecSize. rewrite V. destruct (Nat.eq_dec c 0) as [->|Hc].
    - unfold mul64. now rewrite Z.mul_0_r, Nat.mul_0_r.
    - specialize (Hv ltac:(lia)). rewrite (add64_small 2) by lia. rewrite mul64_small by nia. nia. }
  apply all_cons.
  { apply each_from. intros i Hi. unfold RA_wireExtraConstant. guarded. rewrite S0. rewrite add64_small by lia.
    apply single_from. f_equal. nia. }
  apply all_cons; [|apply all_nil]. apply each_from. intros i Hi. apply each_from. intros j Hj. unfold RA_WireBit, RA_NumRoutedWires.
  rewrite S0. guarded. specialize (Hbit i Hi). assert (Hq : 0 <= Z.of_nat i * Z.of_nat b) by nia.
  rewrite (mul64_small (Z.of_nat i)) by lia. small. apply single_from. f_equal. nia.
Qed.
Lemma layout_coset s d ws : (1 <= s < 64)%nat -> (2 <= d)%nat -> Z.of_nat d < 2 ^ 64 ->
  Z.of_nat (1 + 2 * 2 ^ s + 4 + 4 * ((2 ^ s - 2) / (d - 1)) + 2) < 2 ^ 64 ->
  layout (CosetInterpolationGate s d ws) =
    Ret (from 0 (1 + (2 ^ s * 2 + (2 + (2 + ((2 ^ s - 2) / (d - 1) * 2 + ((2 ^ s - 2) / (d - 1) * 2 + (2 + 0)))))))).
Proof.
  intros Hs Hd Hd' H. pose proof (shl1_vec s) as V. unfold vecSize in V. rewrite (proj2 (Nat.ltb_lt s 64)) in V by lia.
  assert (V2 : (2 <= 2 ^ s)%nat) by (apply (Nat.pow_le_mono_r 2 1 s); lia).
  set (v := (2 ^ s)%nat) in *. clearbody v. set (ni := Nat.div (v - 2) (d - 1)) in *.
  assert (Eni : CI_numIntermediates (Z.of_nat s) (Z.of_nat d) = Ret (Z.of_nat ni)).
  { unfold CI_numIntermediates, CI_numPoints. rewrite V. small.
    rewrite (proj2 (Z.eqb_neq (Z.of_nat d - 1) 0)) by lia. cbn [panic_if bind]. f_equal.
    unfold ni. rewrite Nat2Z.inj_div. f_equal; lia. }
  clearbody ni. cbn [layout]. rewrite Eni. cbn [bind]. unfold CI_numPoints. rewrite V, !Nat2Z.id.
  assert (E1 : CI_startEvaluationPoint (Z.of_nat s) = Z.of_nat (1 + v * 2)).
  { unfold CI_startEvaluationPoint, CI_startValues, CI_numPoints, D64. rewrite V. small. lia. }
  assert (E2 : CI_startEvaluationValue (Z.of_nat s) = Z.of_nat (1 + v * 2 + 2)).
  { unfold CI_startEvaluationValue, D64. rewrite E1. small. lia. }
  assert (E3 : CI_startIntermediates (Z.of_nat s) = Z.of_nat (1 + v * 2 + 2 + 2)).
  { unfold CI_startIntermediates, D64. rewrite E2. small. lia. }
  apply all_cons; [reflexivity|]. apply all_cons.
  { apply each_from. intros i Hi. unfold CI_wiresValue, CI_numPoints, CI_startValues, D64. rewrite V. guarded. cbv zeta. small.
    erewrite ranged_from; [apply ret_from; [|reflexivity]|reflexivity|]; lia. }
  apply all_cons.
  { unfold CI_wiresEvaluationPoint, D64. rewrite E1. small. rewrite wires_of_from. apply ret_from; lia. }
  apply all_cons.
  { unfold CI_wiresEvaluationValue, D64. rewrite E2. small. rewrite wires_of_from. apply ret_from; lia. }
  apply all_cons.
  { apply each_from. intros i Hi. unfold CI_wiresIntermediateEval, D64. rewrite Eni, E3. cbn [bind]. guarded. cbv zeta. small.
    erewrite ranged_from; [apply ret_from; [|reflexivity]|reflexivity|]; lia. }
  apply all_cons.
  { apply each_from. intros i Hi. unfold CI_wiresIntermediateProd, D64. rewrite Eni, E3. cbn [bind]. guarded. cbv zeta. small.
    erewrite ranged_from; [apply ret_from; [|reflexivity]|reflexivity|]; lia. }
  apply all_cons; [|apply all_nil].
  unfold CI_wiresShiftedEvaluationPoint, D64. rewrite Eni, E3. cbn [bind]. cbv zeta. small.
  erewrite ranged_from; [apply ret_from; [|reflexivity]|reflexivity|]; lia.
Qed.

(** 64 or more bits make the size of the table (of the subgroup) zero *)
Definition bits_ok (g : Gate) : Prop :=
  match g with
  | CosetInterpolationGate s _ _ => (1 <= s < 64)%nat
  | RandomAccessGate b _ _ => (b < 64)%nat
  | _ => True
  end.
Lemma layout_all g : parameters_ok g -> bits_ok g -> Z.of_nat (numWires g) < 2 ^ 64 ->
  layout g = Ret (map Z.of_nat (seq 0 (numWires g))).
Proof.
  rewrite <- from_nat. destruct g as [n|n|n b|n|s d ws|n|n| | | | |b c x|n|n]; cbn [parameters_ok bits_ok numWires]; intros Hp Hb H.
  - rewrite layout_arithmetic by lia. apply ret_from; lia.
  - rewrite layout_arithmetic_ext by lia. apply ret_from; lia.
  - now apply layout_base_sum.
  - rewrite layout_constant. apply ret_from; lia.
  - rewrite layout_coset by (try exact H; lia). apply ret_from; lia.
  - rewrite layout_exponentiation by lia. apply ret_from; lia.
  - rewrite layout_mul_ext by lia. apply ret_from; lia.
  - reflexivity.
  - reflexivity.
  - reflexivity.
  - reflexivity.
  - rewrite layout_random_access by (try exact H; lia). apply ret_from; [reflexivity|]. nia.
  - rewrite layout_reducing_ext by lia. apply ret_from; lia.
  - rewrite layout_reducing by lia. apply ret_from; lia.
Qed.

(** ** A gate reads all its wires *)
Section reads.
Variable vars : EvaluationVars.
Let L := length (localWires vars).

Lemma dead_local2 m k : (L < k)%nat -> k = (m + 2)%nat -> dead (GetLocalExtAlgebra vars (m, k)).
Proof.
  intros H ->. unfold GetLocalExtAlgebra. cbn [fst snd]. apply dead_r. intros _ _. apply dead_r. intros w _.
  apply dead_l. apply dead_nth. unfold L in *. lia.
Qed.
Ltac pass := apply dead_r; intros ? _.

Lemma reads_all g : (L < numWires g)%nat -> dead (EvalUnfiltered g vars).
Proof.
  destruct g as [n|n|n b|n|s d ws|n|n| | | | |b c x|n|n]; cbn [numWires EvalUnfiltered]; intros H; unfold L in H.
  - do 2 pass. apply (dead_mapM _ _ (n - 1)%nat); [apply in_seq; lia|]. unfold arithmetic_op. do 3 pass. apply dead_l, dead_nth. lia.
  - do 2 pass. apply dead_l. apply (dead_mapM _ _ (n - 1)%nat); [apply in_seq; lia|]. unfold arithmetic_ext_op, D. do 3 pass.
    apply dead_l, dead_local2; unfold L; lia.
  - destruct (Nat.eq_dec n 0) as [->|Hn]; [apply dead_l, dead_nth; lia|]. pass. apply dead_l.
    apply (dead_mapM _ _ (n - 1)%nat); [apply in_seq; lia|]. apply dead_nth. lia.
  - apply (dead_mapM _ _ (n - 1)%nat); [apply in_seq; lia|]. pass. apply dead_l, dead_nth. lia.
  - unfold eval_coset_interpolation. cbv zeta. destruct (Nat.le_gt_cases 64 s) as [Hs|Hs].
    { unfold vecSize. rewrite (proj2 (Nat.ltb_ge s 64)) by lia. apply dead_l, dead_panic. }
    unfold vecSize, numIntermediates, D. rewrite (proj2 (Nat.ltb_lt s 64)) by lia. do 4 pass. apply dead_l, dead_local2; unfold L; lia.
  - unfold eval_exponentiation. do 1 pass. destruct (Nat.eq_dec n 0) as [->|Hn].
    + do 3 pass. cbn [seq mapM bind]. apply dead_l, dead_panic.
    + pass. apply dead_l. apply (dead_mapM _ _ (n - 1)%nat); [apply in_seq; lia|]. apply dead_nth. lia.
  - pass. apply dead_l. apply (dead_mapM _ _ (n - 1)%nat); [apply in_seq; lia|]. unfold mul_ext_op, D. do 2 pass.
    apply dead_l, dead_local2; unfold L; lia.
  - lia.
  - unfold eval_poseidon. cbv zeta. do 7 pass. pass. match goal with |- dead (let '(_, _) := ?st in _) => destruct st as [st1 cs1] end.
    do 3 pass. apply dead_l.
    match goal with |- dead (foldM ?f ?a ?l) => change l with ([(26, Some START_FULL_1); (27, Some (START_FULL_1 + 12)); (28, Some (START_FULL_1 + 24))] ++ [(29, Some (START_FULL_1 + 36))])%nat end.
    cbn [app foldM]. do 3 pass. apply dead_l. match goal with |- dead (gate_full_round _ ?st _) => destruct st as [st2 cs2] end.
    unfold gate_full_round. pass. apply dead_l. unfold check_wires. apply dead_l.
    apply (dead_mapM _ _ 11%nat); [apply in_seq; lia|]. apply dead_nth.
    unfold START_FULL_1, START_PARTIAL, START_FULL_0, START_DELTA. lia.
  - unfold eval_poseidon_mds. pass. apply dead_r. intros outs Ro. apply reach_mapM_length in Ro. rewrite seq_length in Ro. apply dead_l.
    destruct (nth_error outs 11) as [o|] eqn:E; [|apply nth_error_None in E; lia].
    apply (dead_mapM _ _ (o, 11%nat)).
    + do 11 (destruct outs as [|? outs]; [discriminate E|]). destruct outs as [|o' outs]; [discriminate E|].
      cbn in E. injection E as ->. cbn. do 11 right. now left.
    + cbn [fst snd]. apply dead_l, dead_local2; unfold L, D; lia.
  - apply (dead_mapM _ _ 3%nat); [apply in_seq; lia|]. pass. apply dead_l, dead_nth. lia.
  - unfold eval_random_access. destruct (Nat.eq_dec c 0) as [->|Hc].
    { pass. apply dead_l. apply (dead_mapM _ _ (x - 1)%nat); [apply in_seq; lia|]. pass. apply dead_l, dead_nth. lia. }
    destruct (Nat.le_gt_cases 64 b) as [Hb|Hb].
    { apply dead_l. apply (dead_mapM _ _ (c - 1)%nat); [apply in_seq; lia|]. unfold random_access_copy. cbv zeta.
      unfold vecSize. rewrite (proj2 (Nat.ltb_ge b 64)) by lia. cbn [seq mapM bind]. do 6 pass.
      apply dead_r. intros items R.
      assert (F : forall bits y, reach (foldM (fun items b => fold_pairs b items) [] bits) y -> y = []).
      { induction bits as [|z bits IH]; intros y; cbn [foldM]; [now intros <-|]. cbn [fold_pairs bind]. apply IH. }
      apply F in R. subst items. cbn. apply dead_panic. }
    unfold random_access_copy, vecSize. cbv zeta. rewrite (proj2 (Nat.ltb_lt b 64)) by lia.
    pose proof (Nat.pow_nonzero 2 b ltac:(lia)) as Hv. set (v := (2 ^ b)%nat) in *. clearbody v.
    destruct (Nat.le_gt_cases ((2 + v) * c) (length (localWires vars))) as [H1|H1].
    2: { apply dead_l. apply (dead_mapM _ _ (c - 1)%nat); [apply in_seq; lia|]. pass. apply dead_l.
         apply (dead_mapM _ _ (v - 1)%nat); [apply in_seq; lia|]. apply dead_nth. nia. }
    destruct (Nat.le_gt_cases ((2 + v) * c + x) (length (localWires vars))) as [H2|H2].
    2: { pass. apply dead_l. apply (dead_mapM _ _ (x - 1)%nat); [apply in_seq; lia|]. pass. apply dead_l, dead_nth. lia. }
    apply dead_l. apply (dead_mapM _ _ (c - 1)%nat); [apply in_seq; lia|]. do 3 pass. apply dead_l.
    apply (dead_mapM _ _ (b - 1)%nat); [apply in_seq; nia|]. apply dead_nth. nia.
  - unfold eval_reducing_ext, D. destruct (Nat.le_gt_cases 6 (length (localWires vars))) as [H6|H6].
    2: { pass. apply dead_l, dead_local2; unfold L; lia. }
    do 2 pass. destruct (Nat.le_gt_cases (6 + 2 * n) (length (localWires vars))) as [H1|H1].
    2: { apply dead_l. apply (dead_mapM _ _ (n - 1)%nat); [apply in_seq; lia|]. apply dead_local2; unfold L; lia. }
    pass. apply dead_l. apply (dead_mapM _ _ (n - 2)%nat); [apply in_seq; lia|]. unfold wiresAccs, D.
    rewrite (proj2 (Nat.eqb_neq (n - 2) (n - 1))) by lia. apply dead_local2; unfold L; lia.
  - unfold eval_reducing, D. destruct (Nat.le_gt_cases 6 (length (localWires vars))) as [H6|H6].
    2: { pass. apply dead_l, dead_local2; unfold L; lia. }
    do 2 pass. destruct (Nat.le_gt_cases (6 + n) (length (localWires vars))) as [H1|H1].
    2: { apply dead_l. apply (dead_mapM _ _ (n - 1)%nat); [apply in_seq; lia|]. apply dead_nth; lia. }
    pass. apply dead_l. apply (dead_mapM _ _ (n - 2)%nat); [apply in_seq; lia|]. unfold wiresAccs, D.
    rewrite (proj2 (Nat.eqb_neq (n - 2) (n - 1))) by lia. apply dead_local2; unfold L; lia.
Qed.
End reads.
