(** * Model of plonk/gates/*.go: gate constraint evaluation.

    Gate parameters and wire positions are [nat]; the position functions in 64-bit
    arithmetic are in Wires, and C73 shows that they give the same results.
    Wires and constants are indexed with [nth_]: an index out of range panics. *)
From Coq Require Import String.
From Coq Require Import ZArith NArith Lia List Bool.
From Verif Require Import Zp Circuit Goldilocks PoseidonGLConst PoseidonGL Types Challenger Fri.
Import ListNotations.
Open Scope Z_scope.
Open Scope circ_scope.

(** plonk/gates/vars.go:8-12 *)
Record EvaluationVars := mkEvaluationVars {
  localConstants : list QE; localWires : list QE; publicInputsHash : list Z }.
(** plonk/gates/vars.go:26-28 *)
Definition RemovePrefix (e : EvaluationVars) (numSelectors : nat) : circ EvaluationVars :=
  lc <- slice_from (localConstants e) numSelectors;;
  Ret (mkEvaluationVars lc (localWires e) (publicInputsHash e)).
(** gl.D, quadratic_extension.go *)
Definition D : nat := 2.
(** plonk/gates/vars.go:30-42 *)
Definition GetLocalExtAlgebra (e : EvaluationVars) (wireRange : nat * nat) : circ QEA :=
  panic_if (negb (Nat.eqb (snd wireRange - fst wireRange) D)) "Range must be of size D";;;
  w0 <- nth_ (localWires e) (fst wireRange);;
  w1 <- nth_ (localWires e) (fst wireRange + 1);;
  Ret (w0, w1).
(** the two entries of an algebra element appended to the constraints *)
Definition limbs2 (x : QEA) : list QE := [fst x; snd x].

(** plonk/gates/gates.go:10-18 (the interface) and its implementations *)
Inductive Gate : Set :=
| ArithmeticGate (numOps : nat)
| ArithmeticExtensionGate (numOps : nat)
| BaseSumGate (numLimbs base : nat)
| ConstantGate (numConsts : nat)
| CosetInterpolationGate (subgroupBits degree : nat) (barycentricWeights : list Z)
| ExponentiationGate (numPowerBits : nat)
| MultiplicationExtensionGate (numOps : nat)
| NoopGate
| PoseidonGate
| PoseidonMdsGate
| PublicInputGate
| RandomAccessGate (bits numCopies numExtraConstants : nat)
| ReducingExtensionGate (numCoeffs : nat)
| ReducingGate (numCoeffs : nat).

(** plonk/gates/arithmetic_gate.go:60-84, one operation, with
    the wire indices of plonk/gates/arithmetic_gate.go:44-46 and following *)
Definition arithmetic_op (vars : EvaluationVars) (const0 const1 : QE) (i : nat) : circ QE :=
  multiplicand0 <- nth_ (localWires vars) (4 * i);;
  multiplicand1 <- nth_ (localWires vars) (4 * i + 1);;
  addend <- nth_ (localWires vars) (4 * i + 2);;
  output <- nth_ (localWires vars) (4 * i + 3);;
  m <- MulExtension multiplicand0 multiplicand1;;
  m <- MulExtension m const0;;
  a <- MulExtension addend const1;;
  computedOutput <- AddExtension m a;;
  SubExtension output computedOutput.
(** plonk/gates/arithmetic_gate.go:60-84 *)
Definition eval_arithmetic (numOps : nat) (vars : EvaluationVars) : circ (list QE) :=
  const0 <- nth_ (localConstants vars) 0;;
  const1 <- nth_ (localConstants vars) 1;;
  mapM (arithmetic_op vars const0 const1) (seq 0 numOps).

(** plonk/gates/arithmetic_extension_gate.go:59-86, one
    operation, with the ranges of plonk/gates/arithmetic_extension_gate.go:43-45 and following *)
Definition arithmetic_ext_op (vars : EvaluationVars) (const0 const1 : QE) (i : nat) : circ (list QE) :=
  multiplicand0 <- GetLocalExtAlgebra vars (4 * D * i, 4 * D * i + D)%nat;;
  multiplicand1 <- GetLocalExtAlgebra vars (4 * D * i + D, 4 * D * i + 2 * D)%nat;;
  addend <- GetLocalExtAlgebra vars (4 * D * i + 2 * D, 4 * D * i + 3 * D)%nat;;
  output <- GetLocalExtAlgebra vars (4 * D * i + 3 * D, 4 * D * i + 4 * D)%nat;;
  mul <- MulExtensionAlgebra multiplicand0 multiplicand1;;
  scaled_mul <- ScalarMulExtensionAlgebra const0 mul;;
  computed_output <- ScalarMulExtensionAlgebra const1 addend;;
  computed_output <- AddExtensionAlgebra computed_output scaled_mul;;
  diff <- SubExtensionAlgebra output computed_output;;
  Ret (limbs2 diff).
(** plonk/gates/arithmetic_extension_gate.go:59-86 *)
Definition eval_arithmetic_ext (numOps : nat) (vars : EvaluationVars) : circ (list QE) :=
  const0 <- nth_ (localConstants vars) 0;;
  const1 <- nth_ (localConstants vars) 1;;
  cs <- mapM (arithmetic_ext_op vars const0 const1) (seq 0 numOps);;
  Ret (concat cs).

(** plonk/gates/multiplication_extension_gate.go:55-76,
    one operation, with the ranges of plonk/gates/multiplication_extension_gate.go:43-45 and following *)
Definition mul_ext_op (vars : EvaluationVars) (const0 : QE) (i : nat) : circ (list QE) :=
  multiplicand0 <- GetLocalExtAlgebra vars (3 * D * i, 3 * D * i + D)%nat;;
  multiplicand1 <- GetLocalExtAlgebra vars (3 * D * i + D, 3 * D * i + 2 * D)%nat;;
  output <- GetLocalExtAlgebra vars (3 * D * i + 2 * D, 3 * D * i + 3 * D)%nat;;
  mul <- MulExtensionAlgebra multiplicand0 multiplicand1;;
  computed_output <- ScalarMulExtensionAlgebra const0 mul;;
  diff <- SubExtensionAlgebra output computed_output;;
  Ret (limbs2 diff).
(** plonk/gates/multiplication_extension_gate.go:55-76 *)
Definition eval_mul_ext (numOps : nat) (vars : EvaluationVars) : circ (list QE) :=
  const0 <- nth_ (localConstants vars) 0;;
  cs <- mapM (mul_ext_op vars const0) (seq 0 numOps);;
  Ret (concat cs).

(** plonk/gates/base_sum_gate.go:66-96: product over the digits *)
Definition limb_check (base : nat) (limb : QE) : circ QE :=
  foldM (fun acc i => difference <- SubExtension limb (Z.of_nat i, Zero);; MulExtension acc difference)
        OneExtension (seq 0 base).
(** plonk/gates/base_sum_gate.go:66-96, plonk/gates/base_sum_gate.go:57-64 *)
Definition eval_base_sum (numLimbs base : nat) (vars : EvaluationVars) : circ (list QE) :=
  sum <- nth_ (localWires vars) 0;;
  limbs <- mapM (fun i => nth_ (localWires vars) (1 + i)) (seq 0 numLimbs);;
  let baseQe := (Z.of_nat base, Zero) in
  computedSum <- ReduceWithPowers limbs baseQe;;
  c <- SubExtension computedSum sum;;
  cs <- mapM (limb_check base) limbs;;
  Ret (c :: cs).

(** plonk/gates/constant_gate.go:57-69 *)
Definition eval_constant (numConsts : nat) (vars : EvaluationVars) : circ (list QE) :=
  mapM (fun i => c <- nth_ (localConstants vars) i;; w <- nth_ (localWires vars) i;; SubExtension c w) (seq 0 numConsts).

(** plonk/gates/public_input_gate.go:32-51 *)
Definition eval_public_input (vars : EvaluationVars) : circ (list QE) :=
  mapM (fun i => hash_part <- nth_ (publicInputsHash vars) i;;
                 w <- nth_ (localWires vars) i;;
                 SubExtension w (hash_part, Zero)) (seq 0 4).

(** plonk/gates/exponentiation_gate.go:80-128, one step *)
Definition exp_gate_step (numPowerBits : nat) (base : QE) (powerBits intermediateValues : list QE) (i : nat) : circ QE :=
  prevIntermediateValue <- (if Nat.eqb i 0 then Ret OneExtension
                            else v <- nth_ intermediateValues (i - 1);; MulExtension v v);;
  curBit <- nth_ powerBits (numPowerBits - i - 1);;
  tmp <- MulExtension curBit OneExtension;;
  tmp <- SubExtension tmp OneExtension;;
  mulBy <- MulExtension curBit base;;
  mulBy <- SubExtension mulBy tmp;;
  diff <- MulExtension prevIntermediateValue mulBy;;
  v <- nth_ intermediateValues i;;
  SubExtension diff v.
(** plonk/gates/exponentiation_gate.go:80-128; wire indices of
    plonk/gates/exponentiation_gate.go:62-67 and following.  For numPowerBits = 0 the
    index numPowerBits-1 wraps around and panics. *)
Definition eval_exponentiation (numPowerBits : nat) (vars : EvaluationVars) : circ (list QE) :=
  base <- nth_ (localWires vars) 0;;
  powerBits <- mapM (fun i => nth_ (localWires vars) (1 + i)) (seq 0 numPowerBits);;
  intermediateValues <- mapM (fun i => nth_ (localWires vars) (2 + numPowerBits + i)) (seq 0 numPowerBits);;
  output <- nth_ (localWires vars) (1 + numPowerBits);;
  cs <- mapM (exp_gate_step numPowerBits base powerBits intermediateValues) (seq 0 numPowerBits);;
  panic_if (Nat.eqb numPowerBits 0) "index out of range";;;
  last <- nth_ intermediateValues (numPowerBits - 1);;
  outputDiff <- SubExtension output last;;
  Ret (cs ++ [outputDiff]).

(** plonk/gates/random_access_gate.go:131-190, the loop "i += 2";
    a list of odd length makes the index i+1 panic *)
Fixpoint fold_pairs (b : QE) (listItems : list QE) : circ (list QE) :=
  match listItems with
  | [] => Ret []
  | [_] => Panic "index out of range"
  | x :: y :: rest =>
      diff <- SubExtension y x;;
      mul <- MulExtension b diff;;
      add <- AddExtension x mul;;
      t <- fold_pairs b rest;;
      Ret (add :: t)
  end.
(** plonk/gates/random_access_gate.go:74-76; 1 << bits in uint64 (0 from 64 on) *)
Definition vecSize (bits : nat) : nat := if Nat.ltb bits 64 then 2 ^ bits else 0.
(** plonk/gates/random_access_gate.go:131-190, one copy; wire indices of
    plonk/gates/random_access_gate.go:78-83 and following *)
Definition random_access_copy (bits numCopies numExtraConstants : nat) (vars : EvaluationVars) (copy : nat) : circ (list QE) :=
  let wires := localWires vars in
  let startExtraConstants := ((2 + vecSize bits) * numCopies)%nat in
  let numRoutedWires := (startExtraConstants + numExtraConstants)%nat in
  accessIndex <- nth_ wires ((2 + vecSize bits) * copy);;
  listItems <- mapM (fun i => nth_ wires ((2 + vecSize bits) * copy + 2 + i)) (seq 0 (vecSize bits));;
  claimedElement <- nth_ wires ((2 + vecSize bits) * copy + 1);;
  bitWires <- mapM (fun i => nth_ wires (numRoutedWires + copy * bits + i)) (seq 0 bits);;
  cs <- mapM (fun b => bSquared <- MulExtension b b;; SubExtension bSquared b) bitWires;;
  reconstructedIndex <- ReduceWithPowers bitWires (2, Zero);;
  c <- SubExtension reconstructedIndex accessIndex;;
  listItems <- foldM (fun items b => fold_pairs b items) listItems bitWires;;
  panic_if (negb (Nat.eqb (length listItems) 1)) "listItems(len) != 1";;;
  item <- nth_ listItems 0;;
  d <- SubExtension item claimedElement;;
  Ret (cs ++ [c; d]).
(** plonk/gates/random_access_gate.go:131-190 *)
Definition eval_random_access (bits numCopies numExtraConstants : nat) (vars : EvaluationVars) : circ (list QE) :=
  cs <- mapM (random_access_copy bits numCopies numExtraConstants vars) (seq 0 numCopies);;
  es <- mapM (fun i => c <- nth_ (localConstants vars) i;;
                       w <- nth_ (localWires vars) ((2 + vecSize bits) * numCopies + i);;
                       SubExtension c w) (seq 0 numExtraConstants);;
  Ret (concat cs ++ es).

(** plonk/gates/reducing_gate.go:77-110 and
    plonk/gates/reducing_extension_gate.go:77-109, the final loop *)
Fixpoint reducing_loop (alpha acc : QEA) (coeffs accs : list QEA) : circ (list QE) :=
  match coeffs, accs with
  | coeff :: coeffs', a :: accs' =>
      tmp <- MulExtensionAlgebra acc alpha;;
      tmp <- AddExtensionAlgebra tmp coeff;;
      tmp <- SubExtensionAlgebra tmp a;;
      rest <- reducing_loop alpha a coeffs' accs';;
      Ret (limbs2 tmp ++ rest)
  | _, _ => Ret []
  end.
(** plonk/gates/reducing_gate.go:65-75 with start = startAccs *)
Definition wiresAccs (numCoeffs start i : nat) : nat * nat :=
  if Nat.eqb i (numCoeffs - 1) then (0, D)%nat else (start + D * i, start + D * (i + 1))%nat.
(** plonk/gates/reducing_gate.go:77-110 *)
Definition eval_reducing (numCoeffs : nat) (vars : EvaluationVars) : circ (list QE) :=
  alpha <- GetLocalExtAlgebra vars (D, 2 * D)%nat;;
  oldAcc <- GetLocalExtAlgebra vars (2 * D, 3 * D)%nat;;
  coeffs <- mapM (fun i => nth_ (localWires vars) (3 * D + i)) (seq 0 numCoeffs);;
  accs <- mapM (fun i => GetLocalExtAlgebra vars (wiresAccs numCoeffs (3 * D + numCoeffs) i)) (seq 0 numCoeffs);;
  reducing_loop alpha oldAcc (map ToQuadraticExtensionAlgebra coeffs) accs.
(** plonk/gates/reducing_extension_gate.go:77-109 *)
Definition eval_reducing_ext (numCoeffs : nat) (vars : EvaluationVars) : circ (list QE) :=
  alpha <- GetLocalExtAlgebra vars (D, 2 * D)%nat;;
  oldAcc <- GetLocalExtAlgebra vars (2 * D, 3 * D)%nat;;
  coeffs <- mapM (fun i => GetLocalExtAlgebra vars (3 * D + D * i, 3 * D + D * (i + 1))%nat) (seq 0 numCoeffs);;
  accs <- mapM (fun i => GetLocalExtAlgebra vars (wiresAccs numCoeffs (3 * D + numCoeffs * D) i)) (seq 0 numCoeffs);;
  reducing_loop alpha oldAcc coeffs accs.

(** plonk/gates/coset_interpolation_gate.go:123-125 *)
Definition numIntermediates (numPoints degree : nat) : nat := Nat.div (numPoints - 2) (degree - 1).
(** plonk/gates/coset_interpolation_gate.go:151-226, the slices
    [startIndex, endIndex) of the points after the first degree ones *)
Definition slice {A} (l : list A) (a b : nat) : circ (list A) :=
  l' <- slice_to l b;; slice_from l' a.
(** plonk/gates/coset_interpolation_gate.go:151-226, the loop;
    the state is (computedEval, computedProd, constraints so far) *)
Definition coset_step (numPoints degree startIntermediates : nat) (domain : list Z) (values : list QEA) (weights : list Z)
    (point : QEA) (vars : EvaluationVars) (st : QEA * QEA * list QE) (i : nat) : circ (QEA * QEA * list QE) :=
  let '(computedEval, computedProd, constraints) := st in
  let ni := numIntermediates numPoints degree in
  intermediateEval <- GetLocalExtAlgebra vars (startIntermediates + D * i, startIntermediates + D * i + D)%nat;;
  intermediateProd <- GetLocalExtAlgebra vars (startIntermediates + D * (ni + i), startIntermediates + D * (ni + i) + D)%nat;;
  evalDiff <- SubExtensionAlgebra intermediateEval computedEval;;
  prodDiff <- SubExtensionAlgebra intermediateProd computedProd;;
  let startIndex := (1 + (degree - 1) * (i + 1))%nat in
  let endIndex := Nat.min (startIndex + degree - 1) numPoints in
  d <- slice domain startIndex endIndex;;
  v <- slice values startIndex endIndex;;
  w <- slice weights startIndex endIndex;;
  '(e, pr) <- PartialInterpolateExtAlgebra d v w point intermediateEval intermediateProd;;
  Ret (e, pr, constraints ++ limbs2 evalDiff ++ limbs2 prodDiff).
(** plonk/gates/coset_interpolation_gate.go:151-226; wire positions of
    plonk/gates/coset_interpolation_gate.go:86-88 and following.  Fewer than two
    points make numPoints-2 wrap around and a degree above the number of points
    reslices domain, values and weights beyond their length; both are rendered as a
    panic; so is a degree below two, which divides by zero or wraps around (the parser
    rejects it). *)
Definition eval_coset_interpolation (subgroupBits degree : nat) (weights : list Z) (vars : EvaluationVars) : circ (list QE) :=
  let numPoints := vecSize subgroupBits in
  panic_if (Nat.ltb numPoints 2) "numPoints - 2 wraps around";;;
  panic_if (Nat.ltb degree 2) "degree - 1 is zero or wraps around";;;
  let startEvaluationPoint := (1 + numPoints * D)%nat in
  let startEvaluationValue := (startEvaluationPoint + D)%nat in
  let startIntermediates := (startEvaluationValue + D)%nat in
  let ni := numIntermediates numPoints degree in
  shift <- nth_ (localWires vars) 0;;
  evaluationPoint <- GetLocalExtAlgebra vars (startEvaluationPoint, startEvaluationPoint + D)%nat;;
  shiftedEvaluationPoint <- GetLocalExtAlgebra vars (startIntermediates + D * 2 * ni, startIntermediates + D * 2 * ni + D)%nat;;
  negShift <- ScalarMulExtension shift NegOne;;
  tmp <- ScalarMulExtensionAlgebra negShift shiftedEvaluationPoint;;
  tmp <- AddExtensionAlgebra tmp evaluationPoint;;
  domain <- TwoAdicSubgroup subgroupBits;;
  values <- mapM (fun i => GetLocalExtAlgebra vars (1 + i * D, 1 + i * D + D)%nat) (seq 0 numPoints);;
  d <- slice_to domain degree;;
  v <- slice_to values degree;;
  w <- slice_to weights degree;;
  '(e, pr) <- PartialInterpolateExtAlgebra d v w shiftedEvaluationPoint ZeroExtensionAlgebra OneExtensionAlgebra;;
  '(e, _, constraints) <- foldM (coset_step numPoints degree startIntermediates domain values weights shiftedEvaluationPoint vars)
                                (e, pr, limbs2 tmp) (seq 0 ni);;
  evaluationValue <- GetLocalExtAlgebra vars (startEvaluationValue, startEvaluationValue + D)%nat;;
  evalDiff <- SubExtensionAlgebra evaluationValue e;;
  Ret (constraints ++ limbs2 evalDiff).

(** plonk/gates/poseidon_gate.go:29-31 and following, START_DELTA etc. *)
Definition START_DELTA : nat := 2 * 12 + 1.
Definition START_FULL_0 : nat := START_DELTA + 4.
Definition START_PARTIAL : nat := START_FULL_0 + 3 * 12.
Definition START_FULL_1 : nat := START_PARTIAL + 22.
(** plonk/gates/poseidon_gate.go:92-181: compare the state with the
    twelve wires from [start] on, and continue with those *)
Definition check_wires (wires state : list QE) (start : nat) : circ (list QE * list QE) :=
  sBoxIns <- mapM (fun i => nth_ wires (start + i)) (seq 0 12);;
  cs <- mapM (fun si : QE * QE => SubExtension (fst si) (snd si)) (combine state sBoxIns);;
  Ret (sBoxIns, cs).
(** plonk/gates/poseidon_gate.go:92-181, a full round; [start = None] when the
    S-box inputs are not wires (first round) *)
Definition gate_full_round (wires : list QE) (st : list QE * list QE) (kr : nat * option nat) : circ (list QE * list QE) :=
  let '(state, constraints) := st in
  let '(roundCounter, start) := kr in
  state <- ConstantLayerExtension state roundCounter;;
  '(state, cs) <- match start with Some s => check_wires wires state s | None => Ret (state, []) end;;
  state <- SBoxLayerExtension state;;
  state <- MdsLayerExtension state;;
  Ret (state, constraints ++ cs).
(** plonk/gates/poseidon_gate.go:92-181, a partial round *)
Definition gate_partial_round (wires : list QE) (st : list QE * list QE) (r : nat) : circ (list QE * list QE) :=
  let '(state, constraints) := st in
  sBoxIn <- nth_ wires (START_PARTIAL + r);;
  c <- SubExtension (atE state 0) sBoxIn;;
  s0 <- SBoxMonomialExtension sBoxIn;;
  s0 <- (if Nat.ltb r 21 then AddExtension s0 (at_ FAST_PARTIAL_ROUND_CONSTANTS r, Zero) else Ret s0);;
  state <- MdsPartialLayerFastExtension (s0 :: tl state) r;;
  Ret (state, constraints ++ [c]).
(** plonk/gates/poseidon_gate.go:92-181; the two halves of the swapped
    input are computed one after the other instead of interleaved *)
Definition eval_poseidon (vars : EvaluationVars) : circ (list QE) :=
  let wires := localWires vars in
  swap <- nth_ wires 24;;
  swapMinusOne <- SubExtension swap OneExtension;;
  c <- MulExtension swap swapMinusOne;;
  cs <- mapM (fun i =>
          inputLhs <- nth_ wires i;;
          inputRhs <- nth_ wires (i + 4);;
          deltaI <- nth_ wires (START_DELTA + i);;
          diff <- SubExtension inputRhs inputLhs;;
          expectedDeltaI <- MulExtension swap diff;;
          SubExtension expectedDeltaI deltaI) (seq 0 4);;
  lhs <- mapM (fun i => deltaI <- nth_ wires (START_DELTA + i);; inputLhs <- nth_ wires i;; AddExtension inputLhs deltaI) (seq 0 4);;
  rhs <- mapM (fun i => deltaI <- nth_ wires (START_DELTA + i);; inputRhs <- nth_ wires (i + 4);; SubExtension inputRhs deltaI) (seq 0 4);;
  rest <- mapM (fun i => nth_ wires i) (seq 8 4);;
  st <- foldM (gate_full_round wires) (lhs ++ rhs ++ rest, c :: cs)
          [(0, None); (1, Some START_FULL_0); (2, Some (START_FULL_0 + 12)); (3, Some (START_FULL_0 + 24))]%nat;;
  let '(state, constraints) := st in
  state <- PartialFirstConstantLayerExtension state;;
  state <- MdsPartialLayerInitExtension state;;
  st <- foldM (gate_partial_round wires) (state, constraints) (seq 0 22);;
  st <- foldM (gate_full_round wires) st
          [(26, Some START_FULL_1); (27, Some (START_FULL_1 + 12)); (28, Some (START_FULL_1 + 24)); (29, Some (START_FULL_1 + 36))]%nat;;
  let '(state, constraints) := st in
  outs <- mapM (fun si : QE * nat => o <- nth_ wires (12 + snd si);; SubExtension (fst si) o) (combine state (seq 0 12));;
  Ret (constraints ++ outs).

(** plonk/gates/poseidon_mds_gate.go:43-63 *)
Definition mdsRowShfAlgebra (r : nat) (v : list QEA) : circ QEA :=
  res <- foldM (fun res i =>
           x <- nth_ v ((i + r) mod 12);;
           t <- ScalarMulExtensionAlgebra (at_ MDS_MATRIX_CIRC i, Zero) x;;
           AddExtensionAlgebra res t) ZeroExtensionAlgebra (seq 0 12);;
  x <- nth_ v r;;
  t <- ScalarMulExtensionAlgebra (at_ MDS_MATRIX_DIAG r, Zero) x;;
  AddExtensionAlgebra res t.
(** plonk/gates/poseidon_mds_gate.go:76-99, plonk/gates/poseidon_mds_gate.go:65-74 *)
Definition eval_poseidon_mds (vars : EvaluationVars) : circ (list QE) :=
  inputs <- mapM (fun i => GetLocalExtAlgebra vars (i * D, (i + 1) * D)%nat) (seq 0 12);;
  computed_outputs <- mapM (fun r => mdsRowShfAlgebra r inputs) (seq 0 12);;
  cs <- mapM (fun oi : QEA * nat =>
          output <- GetLocalExtAlgebra vars ((12 + snd oi) * D, (12 + snd oi + 1) * D)%nat;;
          diff <- SubExtensionAlgebra output (fst oi);;
          Ret (limbs2 diff)) (combine computed_outputs (seq 0 12));;
  Ret (concat cs).

(** dispatch on the gate *)
Definition EvalUnfiltered (g : Gate) (vars : EvaluationVars) : circ (list QE) :=
  match g with
  | ArithmeticGate n => eval_arithmetic n vars
  | ArithmeticExtensionGate n => eval_arithmetic_ext n vars
  | BaseSumGate n b => eval_base_sum n b vars
  | ConstantGate n => eval_constant n vars
  | CosetInterpolationGate s d w => eval_coset_interpolation s d w vars
  | ExponentiationGate n => eval_exponentiation n vars
  | MultiplicationExtensionGate n => eval_mul_ext n vars
  | NoopGate => Ret []
  | PoseidonGate => eval_poseidon vars
  | PoseidonMdsGate => eval_poseidon_mds vars
  | PublicInputGate => eval_public_input vars
  | RandomAccessGate b c e => eval_random_access b c e vars
  | ReducingExtensionGate n => eval_reducing_ext n vars
  | ReducingGate n => eval_reducing n vars
  end.

(** ** evaluate_gates.go *)
(** plonk/gates/types.go:3 *)
Definition UNUSED_SELECTOR : Z := 2 ^ 32 - 1.
(** plonk/gates/evaluate_gates.go:33-55 *)
Definition computeFilter (row : nat) (groupRange : nat * nat) (s : QE) (manySelector : bool) : circ QE :=
  product <- foldM (fun product i =>
               if Nat.eqb i row then Ret product
               else t <- SubExtension (Z.of_nat i, Zero) s;; MulExtension product t)
             OneExtension (seq (fst groupRange) (snd groupRange - fst groupRange));;
  if manySelector then t <- SubExtension (UNUSED_SELECTOR, Zero) s;; MulExtension product t else Ret product.
(** plonk/gates/evaluate_gates.go:57-75 *)
Definition evalFiltered (gate : Gate) (vars : EvaluationVars) (row selectorIndex : nat) (groupRange : nat * nat)
    (numSelectors : nat) : circ (list QE) :=
  s <- nth_ (localConstants vars) selectorIndex;;
  filter <- computeFilter row groupRange s (Nat.ltb 1 numSelectors);;
  vars <- RemovePrefix vars numSelectors;;
  unfiltered <- EvalUnfiltered gate vars;;
  mapM (fun u => MulExtension u filter) unfiltered.
(** plonk/gates/evaluate_gates.go:77-105, adding the constraints of
    one gate to the sums *)
Fixpoint add_constraints (constraints gateConstraints : list QE) {struct gateConstraints} : circ (list QE) :=
  match gateConstraints with
  | [] => Ret constraints
  | c :: gs =>
      match constraints with
      | [] => Panic "num_constraints() gave too low of a number"
      | a :: rest => s <- AddExtension a c;; t <- add_constraints rest gs;; Ret (s :: t)
      end
  end.
(** plonk/gates/evaluate_gates.go:77-105 *)
Definition EvaluateGateConstraints (gates : list Gate) (numGateConstraints : nat) (info : SelectorsInfo)
    (vars : EvaluationVars) : circ (list QE) :=
  foldM (fun constraints (ig : nat * Gate) =>
    selectorIndex <- nth_ (selectorIndices info) (fst ig);;
    group <- nth_ (groups info) selectorIndex;;
    gateConstraints <- evalFiltered (snd ig) vars (fst ig) selectorIndex group (NumSelectors info);;
    add_constraints constraints gateConstraints)
    (repeat ZeroExtension numGateConstraints) (combine (seq 0 (length gates)) gates).
