(** * Widths of the range checks of the verifier circuit.

    One lemma per function of the model: the requests it can issue are of the widths 32
    (limbs of RangeCheck), 144 (Reduce), w (the S-box, 192 in the code) and 64 minus the
    number of proof-of-work bits.  [P] is any predicate that holds of these. *)
From Coq Require Import String Ascii.
From Coq Require Import ZArith Lia List Bool Permutation.
From Verif Require Import Zp Circuit Goldilocks PoseidonGL BN254 Types Challenger Fri Gates Plonk GateIds Verifier
  RangeModes RangeProofs.
Import ListNotations.
Open Scope Z_scope.

Section Widths.
Variable P : Z -> Prop.
Hypothesis P32 : P 32.
Hypothesis P144 : P 144.
Variable w0 : Z.
Hypothesis Pw : P w0.
Notation W := (all_widths P).

Lemma W_bind {A B} (c : circ A) (f : A -> circ B) : W c -> (forall v, W (f v)) -> W (bind c f).
Proof. apply all_widths_bind. Qed.
Lemma W_mapM {A B} (f : A -> circ B) l : (forall x, W (f x)) -> W (mapM f l).
Proof. intros H. induction l as [|x l IH]; cbn [mapM]; [exact I|]. apply W_bind; [apply H|intros y]. apply W_bind; [exact IH|intros; exact I]. Qed.
Lemma W_foldM {A B} (f : B -> A -> circ B) l : (forall b x, W (f b x)) -> forall acc, W (foldM f acc l).
Proof. intros H. induction l as [|x l IH]; intros acc; cbn [foldM]; [exact I|]. apply W_bind; [apply H|intros y; apply IH]. Qed.
Lemma W_iterM {A} (f : A -> circ unit) l : (forall x, W (f x)) -> W (iterM f l).
Proof. intros H. induction l as [|x l IH]; cbn [iterM]; [exact I|]. apply W_bind; [apply H|intros _; exact IH]. Qed.
Lemma W_repeatM {B} n (f : B -> circ B) : (forall x, W (f x)) -> forall acc, W (repeatM n f acc).
Proof. intros H. induction n as [|n IH]; intros acc; cbn [repeatM]; [exact I|]. apply W_bind; [apply H|intros y; apply IH]. Qed.
Lemma W_range x n : P n -> W (range_ x n).
Proof. intros H. split; [exact H|exact I]. Qed.

Create HintDb wd discriminated.
Hint Constants Opaque : wd.
Ltac wd :=
  cbv zeta;
  repeat match goal with
  | |- forall _, _ => intros
  | |- True => exact I
  | |- W (Ret _) => exact I
  | |- W (Panic _) => exact I
  | |- W (Assert _ _) => cbn [all_widths]
  | |- W (Hint _ _ _) => cbn [all_widths]
  | |- W (bind _ _) => apply W_bind
  | |- W (mapM _ _) => apply W_mapM
  | |- W (foldM _ _ _) => apply W_foldM
  | |- W (iterM _ _) => apply W_iterM
  | |- W (repeatM _ _ _) => apply W_repeatM
  | |- W (range_ _ _) => apply W_range; (assumption || exact P32 || exact P144)
  | |- W (if ?b then _ else _) => destruct b
  | |- W (let (_, _) := ?x in _) => destruct x
  | |- W (match ?x with _ => _ end) => destruct x
  | |- W _ => solve [auto with wd nocore]
  end.

(** Circuit.v *)
Lemma W_assert_ (b : bool) : W (Circuit.assert_ b).
Proof. unfold Circuit.assert_. wd. Qed.
Local Hint Resolve W_assert_ : wd.
Lemma W_hint_ (h : option (list Z)) (n : nat) : W (Circuit.hint_ h n).
Proof. unfold Circuit.hint_. wd. Qed.
Local Hint Resolve W_hint_ : wd.
Lemma W_of_opt {A} (msg : string) (o : option A) : W (Circuit.of_opt msg o).
Proof. unfold Circuit.of_opt. wd. Qed.
Local Hint Resolve W_of_opt : wd.
Lemma W_api_assert_eq (a b : Z) : W (Circuit.api_assert_eq a b).
Proof. unfold Circuit.api_assert_eq. wd. Qed.
Local Hint Resolve W_api_assert_eq : wd.
Lemma W_api_assert_bool (b : Z) : W (Circuit.api_assert_bool b).
Proof. unfold Circuit.api_assert_bool. wd. Qed.
Local Hint Resolve W_api_assert_bool : wd.
Lemma W_api_select (b i1 i2 : Z) : W (Circuit.api_select b i1 i2).
Proof. unfold Circuit.api_select. wd. Qed.
Local Hint Resolve W_api_select : wd.
Lemma W_api_lookup2 (b0 b1 i0 i1 i2 i3 : Z) : W (Circuit.api_lookup2 b0 b1 i0 i1 i2 i3).
Proof. unfold Circuit.api_lookup2. wd. Qed.
Local Hint Resolve W_api_lookup2 : wd.
Lemma W_api_to_binary (x : Z) (n : nat) : W (Circuit.api_to_binary x n).
Proof. unfold Circuit.api_to_binary. wd. Qed.
Local Hint Resolve W_api_to_binary : wd.
Lemma W_api_from_binary (l : list Z) : W (Circuit.api_from_binary l).
Proof. unfold Circuit.api_from_binary. wd. Qed.
Local Hint Resolve W_api_from_binary : wd.
(** Goldilocks.v *)
Lemma W_nth_ {A} (l : list A) (i : nat) : W (Goldilocks.nth_ l i).
Proof. unfold Goldilocks.nth_. wd. Qed.
Local Hint Resolve W_nth_ : wd.
Lemma W_RangeCheck (x : Z) : W (Goldilocks.RangeCheck x).
Proof. unfold Goldilocks.RangeCheck. wd. Qed.
Local Hint Resolve W_RangeCheck : wd.
Lemma W_RangeCheckWithMaxBits x n : P n -> W (RangeCheckWithMaxBits x n).
Proof. apply W_range. Qed.
Lemma W_AssertIsEqual (x y : Z) : W (Goldilocks.AssertIsEqual x y).
Proof. unfold Goldilocks.AssertIsEqual. wd. Qed.
Local Hint Resolve W_AssertIsEqual : wd.
Lemma W_MulAdd (a b c : Z) : W (Goldilocks.MulAdd a b c).
Proof. unfold Goldilocks.MulAdd. wd. Qed.
Local Hint Resolve W_MulAdd : wd.
Lemma W_Add (a b : Z) : W (Goldilocks.Add a b).
Proof. unfold Goldilocks.Add. wd. Qed.
Local Hint Resolve W_Add : wd.
Lemma W_Sub (a b : Z) : W (Goldilocks.Sub a b).
Proof. unfold Goldilocks.Sub. wd. Qed.
Local Hint Resolve W_Sub : wd.
Lemma W_Mul (a b : Z) : W (Goldilocks.Mul a b).
Proof. unfold Goldilocks.Mul. wd. Qed.
Local Hint Resolve W_Mul : wd.
Lemma W_ReduceWithMaxBits x n : P n -> W (ReduceWithMaxBits x n).
Proof. intros H. unfold ReduceWithMaxBits. wd. Qed.
Local Hint Resolve W_ReduceWithMaxBits Pw P144 : wd.
Lemma W_Reduce (x : Z) : W (Goldilocks.Reduce x).
Proof. unfold Goldilocks.Reduce. wd. Qed.
Local Hint Resolve W_Reduce : wd.
Lemma W_Inverse (x : Z) : W (Goldilocks.Inverse x).
Proof. unfold Goldilocks.Inverse. wd. Qed.
Local Hint Resolve W_Inverse : wd.
Lemma W_PrimitiveRootOfUnity (nLog : nat) : W (Goldilocks.PrimitiveRootOfUnity nLog).
Proof. unfold Goldilocks.PrimitiveRootOfUnity. wd. Qed.
Local Hint Resolve W_PrimitiveRootOfUnity : wd.
Lemma W_TwoAdicSubgroup (nLog : nat) : W (Goldilocks.TwoAdicSubgroup nLog).
Proof. unfold Goldilocks.TwoAdicSubgroup. wd. Qed.
Local Hint Resolve W_TwoAdicSubgroup : wd.
Lemma W_AddExtension (a b : QE) : W (Goldilocks.AddExtension a b).
Proof. unfold Goldilocks.AddExtension. wd. Qed.
Local Hint Resolve W_AddExtension : wd.
Lemma W_SubExtension (a b : QE) : W (Goldilocks.SubExtension a b).
Proof. unfold Goldilocks.SubExtension. wd. Qed.
Local Hint Resolve W_SubExtension : wd.
Lemma W_ReduceExtension (x : QE) : W (Goldilocks.ReduceExtension x).
Proof. unfold Goldilocks.ReduceExtension. wd. Qed.
Local Hint Resolve W_ReduceExtension : wd.
Lemma W_MulExtension (a b : QE) : W (Goldilocks.MulExtension a b).
Proof. unfold Goldilocks.MulExtension. wd. Qed.
Local Hint Resolve W_MulExtension : wd.
Lemma W_MulAddExtension (a b c : QE) : W (Goldilocks.MulAddExtension a b c).
Proof. unfold Goldilocks.MulAddExtension. wd. Qed.
Local Hint Resolve W_MulAddExtension : wd.
Lemma W_SubMulExtension (a b c : QE) : W (Goldilocks.SubMulExtension a b c).
Proof. unfold Goldilocks.SubMulExtension. wd. Qed.
Local Hint Resolve W_SubMulExtension : wd.
Lemma W_ScalarMulExtension (a : QE) (b : Z) : W (Goldilocks.ScalarMulExtension a b).
Proof. unfold Goldilocks.ScalarMulExtension. wd. Qed.
Local Hint Resolve W_ScalarMulExtension : wd.
Lemma W_InnerProductExtension (constant : Z) (startingAcc : QE) (pairs : list (QE * QE)) : W (Goldilocks.InnerProductExtension constant startingAcc pairs).
Proof. unfold Goldilocks.InnerProductExtension. wd. Qed.
Local Hint Resolve W_InnerProductExtension : wd.
Lemma W_InverseExtension (a : QE) : W (Goldilocks.InverseExtension a).
Proof. unfold Goldilocks.InverseExtension. wd. Qed.
Local Hint Resolve W_InverseExtension : wd.
Lemma W_DivExtension (a b : QE) : W (Goldilocks.DivExtension a b).
Proof. unfold Goldilocks.DivExtension. wd. Qed.
Local Hint Resolve W_DivExtension : wd.
Lemma W_exp_step (exponent : N) (st : QE * QE) (i : nat) : W (Goldilocks.exp_step exponent st i).
Proof. unfold Goldilocks.exp_step. wd. Qed.
Local Hint Resolve W_exp_step : wd.
Lemma W_ExpExtension (a : QE) (exponent : N) : W (Goldilocks.ExpExtension a exponent).
Proof. unfold Goldilocks.ExpExtension. wd. Qed.
Local Hint Resolve W_ExpExtension : wd.
Lemma W_ReduceWithPowers (terms : list QE) (scalar : QE) : W (Goldilocks.ReduceWithPowers terms scalar).
Proof. unfold Goldilocks.ReduceWithPowers. wd. Qed.
Local Hint Resolve W_ReduceWithPowers : wd.
Lemma W_Lookup (b : Z) (x y : QE) : W (Goldilocks.Lookup b x y).
Proof. unfold Goldilocks.Lookup. wd. Qed.
Local Hint Resolve W_Lookup : wd.
Lemma W_Lookup2 (b0 b1 : Z) (qe0 qe1 qe2 qe3 : QE) : W (Goldilocks.Lookup2 b0 b1 qe0 qe1 qe2 qe3).
Proof. unfold Goldilocks.Lookup2. wd. Qed.
Local Hint Resolve W_Lookup2 : wd.
Lemma W_AssertIsEqualExtension (a b : QE) : W (Goldilocks.AssertIsEqualExtension a b).
Proof. unfold Goldilocks.AssertIsEqualExtension. wd. Qed.
Local Hint Resolve W_AssertIsEqualExtension : wd.
Lemma W_RangeCheckQE (a : QE) : W (Goldilocks.RangeCheckQE a).
Proof. unfold Goldilocks.RangeCheckQE. wd. Qed.
Local Hint Resolve W_RangeCheckQE : wd.
Lemma W_AddExtensionAlgebra (a b : QEA) : W (Goldilocks.AddExtensionAlgebra a b).
Proof. unfold Goldilocks.AddExtensionAlgebra. wd. Qed.
Local Hint Resolve W_AddExtensionAlgebra : wd.
Lemma W_SubExtensionAlgebra (a b : QEA) : W (Goldilocks.SubExtensionAlgebra a b).
Proof. unfold Goldilocks.SubExtensionAlgebra. wd. Qed.
Local Hint Resolve W_SubExtensionAlgebra : wd.
Lemma W_MulExtensionAlgebra (a b : QEA) : W (Goldilocks.MulExtensionAlgebra a b).
Proof. unfold Goldilocks.MulExtensionAlgebra. wd. Qed.
Local Hint Resolve W_MulExtensionAlgebra : wd.
Lemma W_ScalarMulExtensionAlgebra (a : QE) (b : QEA) : W (Goldilocks.ScalarMulExtensionAlgebra a b).
Proof. unfold Goldilocks.ScalarMulExtensionAlgebra. wd. Qed.
Local Hint Resolve W_ScalarMulExtensionAlgebra : wd.
Lemma W_partial_interpolate_step (point : QEA) (st : QEA * QEA) (it : QEA * Z * Z) : W (Goldilocks.partial_interpolate_step point st it).
Proof. unfold Goldilocks.partial_interpolate_step. wd. Qed.
Local Hint Resolve W_partial_interpolate_step : wd.
Lemma W_PartialInterpolateExtAlgebra (domain : list Z) (values : list QEA) (barycentricWeights : list Z) (point initialEval initialPartialProd : QEA) : W (Goldilocks.PartialInterpolateExtAlgebra domain values barycentricWeights point initialEval initialPartialProd).
Proof. unfold Goldilocks.PartialInterpolateExtAlgebra. wd. Qed.
Local Hint Resolve W_PartialInterpolateExtAlgebra : wd.
(** PoseidonGL.v *)
Lemma W_constantLayer (state : list Z) (roundCounter : nat) : W (PoseidonGL.constantLayer state roundCounter).
Proof. unfold PoseidonGL.constantLayer. wd. Qed.
Local Hint Resolve W_constantLayer : wd.
Lemma W_sBoxMonomial (x : Z) : W (PoseidonGL.sBoxMonomial w0 x).
Proof. unfold PoseidonGL.sBoxMonomial. wd. Qed.
Local Hint Resolve W_sBoxMonomial : wd.
Lemma W_sBoxLayer (state : list Z) : W (PoseidonGL.sBoxLayer w0 state).
Proof. unfold PoseidonGL.sBoxLayer. wd. Qed.
Local Hint Resolve W_sBoxLayer : wd.
Lemma W_mdsRowShf (r : nat) (v : list Z) : W (PoseidonGL.mdsRowShf r v).
Proof. unfold PoseidonGL.mdsRowShf. wd. Qed.
Local Hint Resolve W_mdsRowShf : wd.
Lemma W_mdsLayer (state : list Z) : W (PoseidonGL.mdsLayer state).
Proof. unfold PoseidonGL.mdsLayer. wd. Qed.
Local Hint Resolve W_mdsLayer : wd.
Lemma W_fullRounds (state : list Z) (roundCounter : nat) : W (PoseidonGL.fullRounds w0 state roundCounter).
Proof. unfold PoseidonGL.fullRounds. wd. Qed.
Local Hint Resolve W_fullRounds : wd.
Lemma W_partialFirstConstantLayer (state : list Z) : W (PoseidonGL.partialFirstConstantLayer state).
Proof. unfold PoseidonGL.partialFirstConstantLayer. wd. Qed.
Local Hint Resolve W_partialFirstConstantLayer : wd.
Lemma W_mdsPartialLayerInit (state : list Z) : W (PoseidonGL.mdsPartialLayerInit state).
Proof. unfold PoseidonGL.mdsPartialLayerInit. wd. Qed.
Local Hint Resolve W_mdsPartialLayerInit : wd.
Lemma W_mdsPartialLayerFast (state : list Z) (r : nat) : W (PoseidonGL.mdsPartialLayerFast state r).
Proof. unfold PoseidonGL.mdsPartialLayerFast. wd. Qed.
Local Hint Resolve W_mdsPartialLayerFast : wd.
Lemma W_partialRounds (state : list Z) : W (PoseidonGL.partialRounds w0 state).
Proof. unfold PoseidonGL.partialRounds. wd. Qed.
Local Hint Resolve W_partialRounds : wd.
Lemma W_Poseidon_w (input : list Z) : W (PoseidonGL.Poseidon_w w0 input).
Proof. unfold PoseidonGL.Poseidon_w. wd. Qed.
Local Hint Resolve W_Poseidon_w : wd.
Lemma W_absorb : forall (fuel : nat) (state input : list Z), W (PoseidonGL.absorb w0 fuel state input).
Proof. fix IH 1. intros fuel state input. destruct fuel; cbn [PoseidonGL.absorb]; wd; apply IH. Qed.
Local Hint Resolve W_absorb : wd.
Lemma W_squeeze : forall (fuel : nat) (state : list Z) (n : nat), W (PoseidonGL.squeeze w0 fuel state n).
Proof. fix IH 1. intros fuel state n. destruct fuel; cbn [PoseidonGL.squeeze]; wd; apply IH. Qed.
Local Hint Resolve W_squeeze : wd.
Lemma W_HashNToMNoPad_w (input : list Z) (nbOutputs : nat) : W (PoseidonGL.HashNToMNoPad_w w0 input nbOutputs).
Proof. unfold PoseidonGL.HashNToMNoPad_w. wd. Qed.
Local Hint Resolve W_HashNToMNoPad_w : wd.
Lemma W_HashNoPad_w (input : list Z) : W (PoseidonGL.HashNoPad_w w0 input).
Proof. unfold PoseidonGL.HashNoPad_w. wd. Qed.
Local Hint Resolve W_HashNoPad_w : wd.
Lemma W_ConstantLayerExtension (state : list QE) (roundCounter : nat) : W (PoseidonGL.ConstantLayerExtension state roundCounter).
Proof. unfold PoseidonGL.ConstantLayerExtension. wd. Qed.
Local Hint Resolve W_ConstantLayerExtension : wd.
Lemma W_SBoxMonomialExtension (x : QE) : W (PoseidonGL.SBoxMonomialExtension x).
Proof. unfold PoseidonGL.SBoxMonomialExtension. wd. Qed.
Local Hint Resolve W_SBoxMonomialExtension : wd.
Lemma W_SBoxLayerExtension (state : list QE) : W (PoseidonGL.SBoxLayerExtension state).
Proof. unfold PoseidonGL.SBoxLayerExtension. wd. Qed.
Local Hint Resolve W_SBoxLayerExtension : wd.
Lemma W_MdsRowShfExtension (r : nat) (v : list QE) : W (PoseidonGL.MdsRowShfExtension r v).
Proof. unfold PoseidonGL.MdsRowShfExtension. wd. Qed.
Local Hint Resolve W_MdsRowShfExtension : wd.
Lemma W_MdsLayerExtension (state : list QE) : W (PoseidonGL.MdsLayerExtension state).
Proof. unfold PoseidonGL.MdsLayerExtension. wd. Qed.
Local Hint Resolve W_MdsLayerExtension : wd.
Lemma W_PartialFirstConstantLayerExtension (state : list QE) : W (PoseidonGL.PartialFirstConstantLayerExtension state).
Proof. unfold PoseidonGL.PartialFirstConstantLayerExtension. wd. Qed.
Local Hint Resolve W_PartialFirstConstantLayerExtension : wd.
Lemma W_MdsPartialLayerInitExtension (state : list QE) : W (PoseidonGL.MdsPartialLayerInitExtension state).
Proof. unfold PoseidonGL.MdsPartialLayerInitExtension. wd. Qed.
Local Hint Resolve W_MdsPartialLayerInitExtension : wd.
Lemma W_MdsPartialLayerFastExtension (state : list QE) (r : nat) : W (PoseidonGL.MdsPartialLayerFastExtension state r).
Proof. unfold PoseidonGL.MdsPartialLayerFastExtension. wd. Qed.
Local Hint Resolve W_MdsPartialLayerFastExtension : wd.
(** BN254.v *)
Lemma W_ToVec (hash : Z) : W (BN254.ToVec hash).
Proof. unfold BN254.ToVec. wd. Qed.
Local Hint Resolve W_ToVec : wd.
(** Types.v *)
Lemma W_FinalPolyLen (p : FriParams) : W (Types.FinalPolyLen p).
Proof. unfold Types.FinalPolyLen. wd. Qed.
Local Hint Resolve W_FinalPolyLen : wd.
(** Challenger.v *)
Lemma W_duplexing (c : chal) : W (Challenger.duplexing w0 c).
Proof. unfold Challenger.duplexing. wd. Qed.
Local Hint Resolve W_duplexing : wd.
Lemma W_ObserveElement (c : chal) (element : Z) : W (Challenger.ObserveElement w0 c element).
Proof. unfold Challenger.ObserveElement. wd. Qed.
Local Hint Resolve W_ObserveElement : wd.
Lemma W_ObserveElements (c : chal) (elements : list Z) : W (Challenger.ObserveElements w0 c elements).
Proof. unfold Challenger.ObserveElements. wd. Qed.
Local Hint Resolve W_ObserveElements : wd.
Lemma W_ObserveHash (c : chal) (hash : list Z) : W (Challenger.ObserveHash w0 c hash).
Proof. unfold Challenger.ObserveHash. wd. Qed.
Local Hint Resolve W_ObserveHash : wd.
Lemma W_ObserveBN254Hash (c : chal) (hash : Z) : W (Challenger.ObserveBN254Hash w0 c hash).
Proof. unfold Challenger.ObserveBN254Hash. wd. Qed.
Local Hint Resolve W_ObserveBN254Hash : wd.
Lemma W_ObserveCap (c : chal) (cap : FriMerkleCap) : W (Challenger.ObserveCap w0 c cap).
Proof. unfold Challenger.ObserveCap. wd. Qed.
Local Hint Resolve W_ObserveCap : wd.
Lemma W_ObserveExtensionElement (c : chal) (element : QE) : W (Challenger.ObserveExtensionElement w0 c element).
Proof. unfold Challenger.ObserveExtensionElement. wd. Qed.
Local Hint Resolve W_ObserveExtensionElement : wd.
Lemma W_ObserveExtensionElements (c : chal) (elements : list QE) : W (Challenger.ObserveExtensionElements w0 c elements).
Proof. unfold Challenger.ObserveExtensionElements. wd. Qed.
Local Hint Resolve W_ObserveExtensionElements : wd.
Lemma W_ObserveOpenings (c : chal) (openings : list (list QE)) : W (Challenger.ObserveOpenings w0 c openings).
Proof. unfold Challenger.ObserveOpenings. wd. Qed.
Local Hint Resolve W_ObserveOpenings : wd.
Lemma W_GetChallenge (c : chal) : W (Challenger.GetChallenge w0 c).
Proof. unfold Challenger.GetChallenge. wd. Qed.
Local Hint Resolve W_GetChallenge : wd.
Lemma W_GetNChallenges : forall (c : chal) (n : nat), W (Challenger.GetNChallenges w0 c n).
Proof. fix IH 2. intros c n. destruct n; cbn [Challenger.GetNChallenges]; wd; apply IH. Qed.
Local Hint Resolve W_GetNChallenges : wd.
Lemma W_GetExtensionChallenge (c : chal) : W (Challenger.GetExtensionChallenge w0 c).
Proof. unfold Challenger.GetExtensionChallenge. wd. Qed.
Local Hint Resolve W_GetExtensionChallenge : wd.
Lemma W_GetHash (c : chal) : W (Challenger.GetHash w0 c).
Proof. unfold Challenger.GetHash. wd. Qed.
Local Hint Resolve W_GetHash : wd.
Lemma W_getBetas : forall (c : chal) (caps : list FriMerkleCap), W (Challenger.getBetas w0 c caps).
Proof. fix IH 2. intros c caps. destruct caps; cbn [Challenger.getBetas]; wd; apply IH. Qed.
Local Hint Resolve W_getBetas : wd.
Lemma W_GetFriChallenges (c : chal) (commitPhaseMerkleCaps : list FriMerkleCap) (finalPoly : list QE) (powWitness : Z) (config : FriConfig) : W (Challenger.GetFriChallenges w0 c commitPhaseMerkleCaps finalPoly powWitness config).
Proof. unfold Challenger.GetFriChallenges. wd. Qed.
Local Hint Resolve W_GetFriChallenges : wd.
Lemma W_GetChallenges (commonData : CommonCircuitData) (proof : Proof_) (publicInputsHash : list Z) (verifierData : VerifierOnlyCircuitData) : W (Challenger.GetChallenges w0 commonData proof publicInputsHash verifierData).
Proof. unfold Challenger.GetChallenges. wd. Qed.
Local Hint Resolve W_GetChallenges : wd.
(** Fri.v *)
Lemma W_slice_from {A} (l : list A) (n : nat) : W (Fri.slice_from l n).
Proof. unfold Fri.slice_from. wd. Qed.
Local Hint Resolve W_slice_from : wd.
Lemma W_slice_to {A} (l : list A) (n : nat) : W (Fri.slice_to l n).
Proof. unfold Fri.slice_to. wd. Qed.
Local Hint Resolve W_slice_to : wd.
Lemma W_panic_if (b : bool) (msg : string) : W (Fri.panic_if b msg).
Proof. unfold Fri.panic_if. wd. Qed.
Local Hint Resolve W_panic_if : wd.
Lemma W_assertNoncanonicalIndicesOK (friParams : FriParams) : W (Fri.assertNoncanonicalIndicesOK friParams).
Proof. unfold Fri.assertNoncanonicalIndicesOK. wd. Qed.
Local Hint Resolve W_assertNoncanonicalIndicesOK : wd.
Lemma W_validateInitial (params : FriParams) (instance : InstanceInfo) (queryRound : FriQueryRound) : W (Fri.validateInitial params instance queryRound).
Proof. unfold Fri.validateInitial. wd. Qed.
Local Hint Resolve W_validateInitial : wd.
Lemma W_validateSteps (params : FriParams) (queryRound : FriQueryRound) : W (Fri.validateSteps params queryRound).
Proof. unfold Fri.validateSteps. wd. Qed.
Local Hint Resolve W_validateSteps : wd.
Lemma W_validateFriProofShape (proof : FriProof) (instance : InstanceInfo) (params : FriParams) : W (Fri.validateFriProofShape proof instance params).
Proof. unfold Fri.validateFriProofShape. wd. Qed.
Local Hint Resolve W_validateFriProofShape : wd.
Lemma W_GetInstance (c : CommonCircuitData) (zeta : QE) : W (Fri.GetInstance c zeta).
Proof. unfold Fri.GetInstance. wd. Qed.
Local Hint Resolve W_GetInstance : wd.
Lemma W_assertLeadingZeros powWitness friConfig : P (64 - Z.of_nat (ProofOfWorkBits friConfig)) ->
  W (assertLeadingZeros powWitness friConfig).
Proof. apply W_range. Qed.
Local Hint Resolve W_assertLeadingZeros : wd.
Lemma W_fromOpeningsAndAlpha (openings : list (list QE)) (alpha : QE) : W (Fri.fromOpeningsAndAlpha openings alpha).
Proof. unfold Fri.fromOpeningsAndAlpha. wd. Qed.
Local Hint Resolve W_fromOpeningsAndAlpha : wd.
Lemma W_merkle_step (leafIndexBits : list Z) (currentDigest : Z) (is : nat * Z) : W (Fri.merkle_step leafIndexBits currentDigest is).
Proof. unfold Fri.merkle_step. wd. Qed.
Local Hint Resolve W_merkle_step : wd.
Lemma W_verifyMerkleProofToCapWithCapIndex (leafData : list Z) (leafIndexBits capIndexBits : list Z) (merkleCap : FriMerkleCap) (siblings : list Z) : W (Fri.verifyMerkleProofToCapWithCapIndex leafData leafIndexBits capIndexBits merkleCap siblings).
Proof. unfold Fri.verifyMerkleProofToCapWithCapIndex. wd. Qed.
Local Hint Resolve W_verifyMerkleProofToCapWithCapIndex : wd.
Lemma W_verifyInitialProof (xIndexBits : list Z) (proof : list FriEvalProof) (initialMerkleCaps : list FriMerkleCap) (capIndexBits : list Z) : W (Fri.verifyInitialProof xIndexBits proof initialMerkleCaps capIndexBits).
Proof. unfold Fri.verifyInitialProof. wd. Qed.
Local Hint Resolve W_verifyInitialProof : wd.
Lemma W_exp_bits_step (base : Z) (product : Z) (ib : nat * Z) : W (Fri.exp_bits_step base product ib).
Proof. unfold Fri.exp_bits_step. wd. Qed.
Local Hint Resolve W_exp_bits_step : wd.
Lemma W_expFromBitsConstBase (base : Z) (exponentBits : list Z) : W (Fri.expFromBitsConstBase base exponentBits).
Proof. unfold Fri.expFromBitsConstBase. wd. Qed.
Local Hint Resolve W_expFromBitsConstBase : wd.
Lemma W_calculateSubgroupX (xIndexBits : list Z) (nLog : nat) : W (Fri.calculateSubgroupX xIndexBits nLog).
Proof. unfold Fri.calculateSubgroupX. wd. Qed.
Local Hint Resolve W_calculateSubgroupX : wd.
Lemma W_combine_step (proof : list FriEvalProof) (friAlpha subgroupX_QE : QE) (sum : QE) (bo : BatchInfo * QE) : W (Fri.combine_step proof friAlpha subgroupX_QE sum bo).
Proof. unfold Fri.combine_step. wd. Qed.
Local Hint Resolve W_combine_step : wd.
Lemma W_friCombineInitial (instance : InstanceInfo) (proof : list FriEvalProof) (friAlpha subgroupX_QE : QE) (precomputedReducedEval : list QE) : W (Fri.friCombineInitial instance proof friAlpha subgroupX_QE precomputedReducedEval).
Proof. unfold Fri.friCombineInitial. wd. Qed.
Local Hint Resolve W_friCombineInitial : wd.
Lemma W_finalPolyEval (finalPoly : list QE) (point : QE) : W (Fri.finalPolyEval finalPoly point).
Proof. unfold Fri.finalPolyEval. wd. Qed.
Local Hint Resolve W_finalPolyEval : wd.
Lemma W_interpolate_step (x : QE) (st : QE * Z) (pt : QE * QE * QE) : W (Fri.interpolate_step x st pt).
Proof. unfold Fri.interpolate_step. wd. Qed.
Local Hint Resolve W_interpolate_step : wd.
Lemma W_interpolate (x : QE) (xPoints yPoints barycentricWeights : list QE) : W (Fri.interpolate x xPoints yPoints barycentricWeights).
Proof. unfold Fri.interpolate. wd. Qed.
Local Hint Resolve W_interpolate : wd.
Lemma W_set_nth {A} (l : list A) (i : nat) (x : A) : W (Fri.set_nth l i x).
Proof. unfold Fri.set_nth. wd. Qed.
Local Hint Resolve W_set_nth : wd.
Lemma W_next_points : forall (x g_F : QE) (n : nat), W (Fri.next_points x g_F n).
Proof. fix IH 3. intros x g_F n. destruct n; cbn [Fri.next_points]; wd; apply IH. Qed.
Local Hint Resolve W_next_points : wd.
Lemma W_bary_weight (xPoints : list QE) (i : nat) : W (Fri.bary_weight xPoints i).
Proof. unfold Fri.bary_weight. wd. Qed.
Local Hint Resolve W_bary_weight : wd.
Lemma W_computeEvaluation (x : Z) (xIndexWithinCosetBits : list Z) (arityBits : nat) (evals : list QE) (beta : QE) : W (Fri.computeEvaluation x xIndexWithinCosetBits arityBits evals beta).
Proof. unfold Fri.computeEvaluation. wd. Qed.
Local Hint Resolve W_computeEvaluation : wd.
Lemma W_query_step (challenges : FriChallenges) (proof : FriProof) (roundProof : FriQueryRound) (capIndexBits : list Z) (st : QE * Z * list Z) (ia : nat * nat) : W (Fri.query_step challenges proof roundProof capIndexBits st ia).
Proof. unfold Fri.query_step. wd. Qed.
Local Hint Resolve W_query_step : wd.
Lemma W_verifyQueryRound (friParams : FriParams) (instance : InstanceInfo) (challenges : FriChallenges) (precomputedReducedEval : list QE) (initialMerkleCaps : list FriMerkleCap) (proof : FriProof) (xIndex : Z) (nLog : nat) (roundProof : FriQueryRound) : W (Fri.verifyQueryRound friParams instance challenges precomputedReducedEval initialMerkleCaps proof xIndex nLog roundProof).
Proof. unfold Fri.verifyQueryRound. wd. Qed.
Local Hint Resolve W_verifyQueryRound : wd.
Lemma W_VerifyFriProof friParams instance openings friChallenges initialMerkleCaps friProof :
  P (64 - Z.of_nat (ProofOfWorkBits (fp_Config friParams))) ->
  W (VerifyFriProof friParams instance openings friChallenges initialMerkleCaps friProof).
Proof. intros H. unfold VerifyFriProof. wd. Qed.
Local Hint Resolve W_VerifyFriProof : wd.
(** Gates.v *)
Lemma W_RemovePrefix (e : EvaluationVars) (numSelectors : nat) : W (Gates.RemovePrefix e numSelectors).
Proof. unfold Gates.RemovePrefix. wd. Qed.
Local Hint Resolve W_RemovePrefix : wd.
Lemma W_GetLocalExtAlgebra (e : EvaluationVars) (wireRange : nat * nat) : W (Gates.GetLocalExtAlgebra e wireRange).
Proof. unfold Gates.GetLocalExtAlgebra. wd. Qed.
Local Hint Resolve W_GetLocalExtAlgebra : wd.
Lemma W_arithmetic_op (vars : EvaluationVars) (const0 const1 : QE) (i : nat) : W (Gates.arithmetic_op vars const0 const1 i).
Proof. unfold Gates.arithmetic_op. wd. Qed.
Local Hint Resolve W_arithmetic_op : wd.
Lemma W_eval_arithmetic (numOps : nat) (vars : EvaluationVars) : W (Gates.eval_arithmetic numOps vars).
Proof. unfold Gates.eval_arithmetic. wd. Qed.
Local Hint Resolve W_eval_arithmetic : wd.
Lemma W_arithmetic_ext_op (vars : EvaluationVars) (const0 const1 : QE) (i : nat) : W (Gates.arithmetic_ext_op vars const0 const1 i).
Proof. unfold Gates.arithmetic_ext_op. wd. Qed.
Local Hint Resolve W_arithmetic_ext_op : wd.
Lemma W_eval_arithmetic_ext (numOps : nat) (vars : EvaluationVars) : W (Gates.eval_arithmetic_ext numOps vars).
Proof. unfold Gates.eval_arithmetic_ext. wd. Qed.
Local Hint Resolve W_eval_arithmetic_ext : wd.
Lemma W_mul_ext_op (vars : EvaluationVars) (const0 : QE) (i : nat) : W (Gates.mul_ext_op vars const0 i).
Proof. unfold Gates.mul_ext_op. wd. Qed.
Local Hint Resolve W_mul_ext_op : wd.
Lemma W_eval_mul_ext (numOps : nat) (vars : EvaluationVars) : W (Gates.eval_mul_ext numOps vars).
Proof. unfold Gates.eval_mul_ext. wd. Qed.
Local Hint Resolve W_eval_mul_ext : wd.
Lemma W_limb_check (base : nat) (limb : QE) : W (Gates.limb_check base limb).
Proof. unfold Gates.limb_check. wd. Qed.
Local Hint Resolve W_limb_check : wd.
Lemma W_eval_base_sum (numLimbs base : nat) (vars : EvaluationVars) : W (Gates.eval_base_sum numLimbs base vars).
Proof. unfold Gates.eval_base_sum. wd. Qed.
Local Hint Resolve W_eval_base_sum : wd.
Lemma W_eval_constant (numConsts : nat) (vars : EvaluationVars) : W (Gates.eval_constant numConsts vars).
Proof. unfold Gates.eval_constant. wd. Qed.
Local Hint Resolve W_eval_constant : wd.
Lemma W_eval_public_input (vars : EvaluationVars) : W (Gates.eval_public_input vars).
Proof. unfold Gates.eval_public_input. wd. Qed.
Local Hint Resolve W_eval_public_input : wd.
Lemma W_exp_gate_step (numPowerBits : nat) (base : QE) (powerBits intermediateValues : list QE) (i : nat) : W (Gates.exp_gate_step numPowerBits base powerBits intermediateValues i).
Proof. unfold Gates.exp_gate_step. wd. Qed.
Local Hint Resolve W_exp_gate_step : wd.
Lemma W_eval_exponentiation (numPowerBits : nat) (vars : EvaluationVars) : W (Gates.eval_exponentiation numPowerBits vars).
Proof. unfold Gates.eval_exponentiation. wd. Qed.
Local Hint Resolve W_eval_exponentiation : wd.
Lemma W_fold_pairs : forall (b : QE) (listItems : list QE), W (Gates.fold_pairs b listItems).
Proof. fix IH 2. intros b listItems. destruct listItems as [|? [|? ?]]; cbn [Gates.fold_pairs]; wd; apply IH. Qed.
Local Hint Resolve W_fold_pairs : wd.
Lemma W_random_access_copy (bits numCopies numExtraConstants : nat) (vars : EvaluationVars) (copy : nat) : W (Gates.random_access_copy bits numCopies numExtraConstants vars copy).
Proof. unfold Gates.random_access_copy. wd. Qed.
Local Hint Resolve W_random_access_copy : wd.
Lemma W_eval_random_access (bits numCopies numExtraConstants : nat) (vars : EvaluationVars) : W (Gates.eval_random_access bits numCopies numExtraConstants vars).
Proof. unfold Gates.eval_random_access. wd. Qed.
Local Hint Resolve W_eval_random_access : wd.
Lemma W_reducing_loop : forall (alpha acc : QEA) (coeffs accs : list QEA), W (Gates.reducing_loop alpha acc coeffs accs).
Proof. fix IH 3. intros alpha acc coeffs accs. destruct coeffs, accs; cbn [Gates.reducing_loop]; wd; apply IH. Qed.
Local Hint Resolve W_reducing_loop : wd.
Lemma W_eval_reducing (numCoeffs : nat) (vars : EvaluationVars) : W (Gates.eval_reducing numCoeffs vars).
Proof. unfold Gates.eval_reducing. wd. Qed.
Local Hint Resolve W_eval_reducing : wd.
Lemma W_eval_reducing_ext (numCoeffs : nat) (vars : EvaluationVars) : W (Gates.eval_reducing_ext numCoeffs vars).
Proof. unfold Gates.eval_reducing_ext. wd. Qed.
Local Hint Resolve W_eval_reducing_ext : wd.
Lemma W_slice {A} (l : list A) (a b : nat) : W (Gates.slice l a b).
Proof. unfold Gates.slice. wd. Qed.
Local Hint Resolve W_slice : wd.
Lemma W_coset_step (numPoints degree startIntermediates : nat) (domain : list Z) (values : list QEA) (weights : list Z) (point : QEA) (vars : EvaluationVars) (st : QEA * QEA * list QE) (i : nat) : W (Gates.coset_step numPoints degree startIntermediates domain values weights point vars st i).
Proof. unfold Gates.coset_step. wd. Qed.
Local Hint Resolve W_coset_step : wd.
Lemma W_eval_coset_interpolation (subgroupBits degree : nat) (weights : list Z) (vars : EvaluationVars) : W (Gates.eval_coset_interpolation subgroupBits degree weights vars).
Proof. unfold Gates.eval_coset_interpolation. wd. Qed.
Local Hint Resolve W_eval_coset_interpolation : wd.
Lemma W_check_wires (wires state : list QE) (start : nat) : W (Gates.check_wires wires state start).
Proof. unfold Gates.check_wires. wd. Qed.
Local Hint Resolve W_check_wires : wd.
Lemma W_gate_full_round (wires : list QE) (st : list QE * list QE) (kr : nat * option nat) : W (Gates.gate_full_round wires st kr).
Proof. unfold Gates.gate_full_round. wd. Qed.
Local Hint Resolve W_gate_full_round : wd.
Lemma W_gate_partial_round (wires : list QE) (st : list QE * list QE) (r : nat) : W (Gates.gate_partial_round wires st r).
Proof. unfold Gates.gate_partial_round. wd. Qed.
Local Hint Resolve W_gate_partial_round : wd.
Lemma W_eval_poseidon (vars : EvaluationVars) : W (Gates.eval_poseidon vars).
Proof. unfold Gates.eval_poseidon. wd. Qed.
Local Hint Resolve W_eval_poseidon : wd.
Lemma W_mdsRowShfAlgebra (r : nat) (v : list QEA) : W (Gates.mdsRowShfAlgebra r v).
Proof. unfold Gates.mdsRowShfAlgebra. wd. Qed.
Local Hint Resolve W_mdsRowShfAlgebra : wd.
Lemma W_eval_poseidon_mds (vars : EvaluationVars) : W (Gates.eval_poseidon_mds vars).
Proof. unfold Gates.eval_poseidon_mds. wd. Qed.
Local Hint Resolve W_eval_poseidon_mds : wd.
Lemma W_EvalUnfiltered (g : Gate) (vars : EvaluationVars) : W (Gates.EvalUnfiltered g vars).
Proof. unfold Gates.EvalUnfiltered. wd. Qed.
Local Hint Resolve W_EvalUnfiltered : wd.
Lemma W_computeFilter (row : nat) (groupRange : nat * nat) (s : QE) (manySelector : bool) : W (Gates.computeFilter row groupRange s manySelector).
Proof. unfold Gates.computeFilter. wd. Qed.
Local Hint Resolve W_computeFilter : wd.
Lemma W_evalFiltered (gate : Gate) (vars : EvaluationVars) (row selectorIndex : nat) (groupRange : nat * nat) (numSelectors : nat) : W (Gates.evalFiltered gate vars row selectorIndex groupRange numSelectors).
Proof. unfold Gates.evalFiltered. wd. Qed.
Local Hint Resolve W_evalFiltered : wd.
Lemma W_add_constraints : forall (constraints gateConstraints : list QE), W (Gates.add_constraints constraints gateConstraints).
Proof. fix IH 2. intros constraints gateConstraints. destruct gateConstraints; cbn [Gates.add_constraints]; wd; apply IH. Qed.
Local Hint Resolve W_add_constraints : wd.
Lemma W_EvaluateGateConstraints (gates : list Gate) (numGateConstraints : nat) (info : SelectorsInfo) (vars : EvaluationVars) : W (Gates.EvaluateGateConstraints gates numGateConstraints info vars).
Proof. unfold Gates.EvaluateGateConstraints. wd. Qed.
Local Hint Resolve W_EvaluateGateConstraints : wd.
(** Plonk.v *)
Lemma W_expPowerOf2Extension (cd : CommonCircuitData) (x : QE) : W (Plonk.expPowerOf2Extension cd x).
Proof. unfold Plonk.expPowerOf2Extension. wd. Qed.
Local Hint Resolve W_expPowerOf2Extension : wd.
Lemma W_evalL0 (cd : CommonCircuitData) (x xPowN : QE) : W (Plonk.evalL0 cd x xPowN).
Proof. unfold Plonk.evalL0. wd. Qed.
Local Hint Resolve W_evalL0 : wd.
Lemma W_chunk_products (numerators denominators : list QE) (q i : nat) : W (Plonk.chunk_products numerators denominators q i).
Proof. unfold Plonk.chunk_products. wd. Qed.
Local Hint Resolve W_chunk_products : wd.
Lemma W_checkPartialProducts (cd : CommonCircuitData) (numerators denominators : list QE) (challengeNum : nat) (o : OpeningSet) : W (Plonk.checkPartialProducts cd numerators denominators challengeNum o).
Proof. unfold Plonk.checkPartialProducts. wd. Qed.
Local Hint Resolve W_checkPartialProducts : wd.
Lemma W_wire_terms (pc : ProofChallenges) (o : OpeningSet) (sIDs : list QE) (i j : nat) : W (Plonk.wire_terms pc o sIDs i j).
Proof. unfold Plonk.wire_terms. wd. Qed.
Local Hint Resolve W_wire_terms : wd.
Lemma W_challenge_terms (cd : CommonCircuitData) (pc : ProofChallenges) (o : OpeningSet) (sIDs : list QE) (l0Zeta : QE) (i : nat) : W (Plonk.challenge_terms cd pc o sIDs l0Zeta i).
Proof. unfold Plonk.challenge_terms. wd. Qed.
Local Hint Resolve W_challenge_terms : wd.
Lemma W_evalVanishingPoly (cd : CommonCircuitData) (gates : list Gate) (vars : EvaluationVars) (pc : ProofChallenges) (o : OpeningSet) (zetaPowN : QE) : W (Plonk.evalVanishingPoly cd gates vars pc o zetaPowN).
Proof. unfold Plonk.evalVanishingPoly. wd. Qed.
Local Hint Resolve W_evalVanishingPoly : wd.
Lemma W_PlonkVerify (cd : CommonCircuitData) (gates : list Gate) (pc : ProofChallenges) (o : OpeningSet) (publicInputsHash : list Z) : W (Plonk.PlonkVerify cd gates pc o publicInputsHash).
Proof. unfold Plonk.PlonkVerify. wd. Qed.
Local Hint Resolve W_PlonkVerify : wd.
(** GateIds.v *)
Lemma W_field (name msg : string) (ps : params) : W (GateIds.field name msg ps).
Proof. unfold GateIds.field. wd. Qed.
Local Hint Resolve W_field : wd.
Lemma W_number (parse : list ascii -> option Z) (msg : string) (s : list ascii) : W (GateIds.number parse msg s).
Proof. unfold GateIds.number. wd. Qed.
Local Hint Resolve W_number : wd.
Lemma W_deserialize1 (name : string) (mk : nat -> Gate) (ps : params) : W (GateIds.deserialize1 name mk ps).
Proof. unfold GateIds.deserialize1. wd. Qed.
Local Hint Resolve W_deserialize1 : wd.
Lemma W_deserializeBaseSumGate (ps : params) : W (GateIds.deserializeBaseSumGate ps).
Proof. unfold GateIds.deserializeBaseSumGate. wd. Qed.
Local Hint Resolve W_deserializeBaseSumGate : wd.
Lemma W_deserializeCosetInterpolationGate (ps : params) : W (GateIds.deserializeCosetInterpolationGate ps).
Proof. unfold GateIds.deserializeCosetInterpolationGate. wd. Qed.
Local Hint Resolve W_deserializeCosetInterpolationGate : wd.
Lemma W_deserializeExponentiationGate (ps : params) : W (GateIds.deserializeExponentiationGate ps).
Proof. unfold GateIds.deserializeExponentiationGate. wd. Qed.
Local Hint Resolve W_deserializeExponentiationGate : wd.
Lemma W_deserializeRandomAccessGate (ps : params) : W (GateIds.deserializeRandomAccessGate ps).
Proof. unfold GateIds.deserializeRandomAccessGate. wd. Qed.
Local Hint Resolve W_deserializeRandomAccessGate : wd.
Lemma W_GateInstanceFromId order gateId : (forall h ps, In h order -> W (snd h ps)) -> W (GateInstanceFromId order gateId).
Proof.
  induction order as [|[rx f] order IH]; intros H; cbn [GateInstanceFromId]; [exact I|].
  destruct (find rx (chars gateId)) as [ps|]; [exact (H (rx, f) ps (or_introl eq_refl))|].
  apply IH. intros h ps Hh. apply H. now right.
Qed.
Lemma W_handlers h ps : In h gateRegexHandlers -> W (snd h ps).
Proof.
  unfold gateRegexHandlers. cbn [In]. intros H.
  repeat (destruct H as [<-|H]; [cbn [snd]; wd|]). destruct H.
Qed.
Lemma W_createdGates orders gateIds : (forall i, Permutation (orders i) gateRegexHandlers) -> W (createdGates orders gateIds).
Proof.
  intros H. unfold createdGates. apply W_mapM. intros [i id]. apply W_GateInstanceFromId.
  intros h ps Hh. apply W_handlers. exact (Permutation_in _ (H _) Hh).
Qed.
(** Verifier.v *)
Lemma W_GetPublicInputsHash (publicInputs : list Z) : W (Verifier.GetPublicInputsHash w0 publicInputs).
Proof. unfold Verifier.GetPublicInputsHash. wd. Qed.
Local Hint Resolve W_GetPublicInputsHash : wd.
Lemma W_rangeCheckOpenings (o : OpeningSet) : W (Verifier.rangeCheckOpenings o).
Proof. unfold Verifier.rangeCheckOpenings. wd. Qed.
Local Hint Resolve W_rangeCheckOpenings : wd.
Lemma W_rangeCheckRound (queryRound : FriQueryRound) : W (Verifier.rangeCheckRound queryRound).
Proof. unfold Verifier.rangeCheckRound. wd. Qed.
Local Hint Resolve W_rangeCheckRound : wd.
Lemma W_rangeCheckProof (proof : Proof_) : W (Verifier.rangeCheckProof proof).
Proof. unfold Verifier.rangeCheckProof. wd. Qed.
Local Hint Resolve W_rangeCheckProof : wd.
Lemma W_Verify commonData gates proof publicInputs verifierData :
  P (64 - Z.of_nat (ProofOfWorkBits (fp_Config (cd_FriParams commonData)))) ->
  W (Verify w0 commonData gates proof publicInputs verifierData).
Proof. intros H. unfold Verify. wd. Qed.
Local Hint Resolve W_Verify : wd.
Lemma W_Define orders commonData proof publicInputs verifierData :
  (forall i, Permutation (orders i) gateRegexHandlers) ->
  P (64 - Z.of_nat (ProofOfWorkBits (fp_Config (cd_FriParams commonData)))) ->
  W (Define orders w0 commonData proof publicInputs verifierData).
Proof.
  intros HO H. unfold Define, NewVerifierChip. apply W_bind; [now apply W_createdGates|]. intros gates. now apply W_Verify.
Qed.

End Widths.
