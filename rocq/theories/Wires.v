(** * Model of the wire positions of plonk/gates/*.go, in 64-bit arithmetic.

    In Gates the positions are natural numbers written out in the evaluation functions.
    Here the position functions of the code are modelled one by one: they compute with
    uint64, so that sums, products and differences wrap around, and they panic on bad
    arguments.  The evaluation functions are those of Gates with these functions for the
    positions.  A loop "for i := uint64(0); i < n; i++" goes over [seq 0 n].

    A range whose end wraps around is empty, and then vars.GetLocalExtAlgebra returns two
    variables that were never set.  [unset] is what such a variable is taken for; the
    theorems hold whatever it is. *)
From Coq Require Import String.
From Coq Require Import ZArith NArith Lia List Bool.
From Verif Require Import Zp Circuit Goldilocks PoseidonGLConst PoseidonGL Types Challenger Fri Gates.
Import ListNotations.
Open Scope Z_scope.
Open Scope circ_scope.

(** Go's uint64 *)
Definition u64 (x : Z) : Z := x mod 2 ^ 64.
Definition add64 (x y : Z) : Z := u64 (x + y).
Definition sub64 (x y : Z) : Z := u64 (x - y).
Definition mul64 (x y : Z) : Z := u64 (x * y).
Declare Scope u64_scope.
Delimit Scope u64_scope with u64.
Arguments add64 (x y)%u64_scope.
Arguments sub64 (x y)%u64_scope.
Arguments mul64 (x y)%u64_scope.
Infix "+" := add64 : u64_scope.
Infix "-" := sub64 : u64_scope.
Infix "*" := mul64 : u64_scope.
(** 1 << b for a uint64 constant 1 *)
Definition shl1 (b : Z) : Z := if b <? 64 then 2 ^ b else 0.

(** indexing a slice with a uint64 *)
Definition index {A} (l : list A) (i : Z) : circ A := nth_ l (Z.to_nat i).
(** plonk/gates/types.go (Range), start and end *)
Definition Range64 : Set := (Z * Z)%type.
(** gl.D *)
Definition D64 : Z := 2.
(** poseidon.SPONGE_WIDTH, HALF_N_FULL_ROUNDS, N_PARTIAL_ROUNDS *)
Definition WIDTH64 : Z := 12.
Definition HALF64 : Z := 4.
Definition PARTIAL64 : Z := 22.

(** plonk/gates/vars.go:30-42 *)
Definition GetLocalExtAlgebra64 (unset : QE) (e : EvaluationVars) (wireRange : Range64) : circ QEA :=
  let '(start, end_) := wireRange in
  panic_if (negb (sub64 end_ start =? D64)) "Range must be of size D";;;
  if start <? end_ then
    w0 <- index (localWires e) start;;
    w1 <- index (localWires e) (start + 1);;
    Ret (w0, w1)
  else Ret (unset, unset).

(** ** ArithmeticGate *)
(** plonk/gates/arithmetic_gate.go:44-46 *)
Definition A_WireIthMultiplicand0 (i : Z) : Z := (4 * i)%u64.
(** plonk/gates/arithmetic_gate.go:48-50 *)
Definition A_WireIthMultiplicand1 (i : Z) : Z := (4 * i + 1)%u64.
(** plonk/gates/arithmetic_gate.go:52-54 *)
Definition A_WireIthAddend (i : Z) : Z := (4 * i + 2)%u64.
(** plonk/gates/arithmetic_gate.go:56-58 *)
Definition A_WireIthOutput (i : Z) : Z := (4 * i + 3)%u64.
(** plonk/gates/arithmetic_gate.go:60-84, one operation *)
Definition arithmetic_op64 (vars : EvaluationVars) (const0 const1 : QE) (n : nat) : circ QE :=
  let i := Z.of_nat n in
  multiplicand0 <- index (localWires vars) (A_WireIthMultiplicand0 i);;
  multiplicand1 <- index (localWires vars) (A_WireIthMultiplicand1 i);;
  addend <- index (localWires vars) (A_WireIthAddend i);;
  output <- index (localWires vars) (A_WireIthOutput i);;
  m <- MulExtension multiplicand0 multiplicand1;;
  m <- MulExtension m const0;;
  a <- MulExtension addend const1;;
  computedOutput <- AddExtension m a;;
  SubExtension output computedOutput.
(** plonk/gates/arithmetic_gate.go:60-84 *)
Definition eval_arithmetic64 (numOps : nat) (vars : EvaluationVars) : circ (list QE) :=
  const0 <- nth_ (localConstants vars) 0;;
  const1 <- nth_ (localConstants vars) 1;;
  mapM (arithmetic_op64 vars const0 const1) (seq 0 numOps).

(** ** ArithmeticExtensionGate *)
(** plonk/gates/arithmetic_extension_gate.go:43-45; constants are folded: 4*gl.D is 8 *)
Definition AE_wiresIthMultiplicand0 (i : Z) : Range64 := (8 * i, 8 * i + D64)%u64.
(** plonk/gates/arithmetic_extension_gate.go:47-49 *)
Definition AE_wiresIthMultiplicand1 (i : Z) : Range64 := (8 * i + D64, 8 * i + 2 * D64)%u64.
(** plonk/gates/arithmetic_extension_gate.go:51-53 *)
Definition AE_wiresIthAddend (i : Z) : Range64 := (8 * i + 2 * D64, 8 * i + 3 * D64)%u64.
(** plonk/gates/arithmetic_extension_gate.go:55-57 *)
Definition AE_wiresIthOutput (i : Z) : Range64 := (8 * i + 3 * D64, 8 * i + 4 * D64)%u64.
(** plonk/gates/arithmetic_extension_gate.go:59-86, one operation *)
Definition arithmetic_ext_op64 (unset : QE) (vars : EvaluationVars) (const0 const1 : QE) (n : nat) : circ (list QE) :=
  let i := Z.of_nat n in
  multiplicand0 <- GetLocalExtAlgebra64 unset vars (AE_wiresIthMultiplicand0 i);;
  multiplicand1 <- GetLocalExtAlgebra64 unset vars (AE_wiresIthMultiplicand1 i);;
  addend <- GetLocalExtAlgebra64 unset vars (AE_wiresIthAddend i);;
  output <- GetLocalExtAlgebra64 unset vars (AE_wiresIthOutput i);;
  mul <- MulExtensionAlgebra multiplicand0 multiplicand1;;
  scaled_mul <- ScalarMulExtensionAlgebra const0 mul;;
  computed_output <- ScalarMulExtensionAlgebra const1 addend;;
  computed_output <- AddExtensionAlgebra computed_output scaled_mul;;
  diff <- SubExtensionAlgebra output computed_output;;
  Ret (limbs2 diff).
(** plonk/gates/arithmetic_extension_gate.go:59-86 *)
Definition eval_arithmetic_ext64 (unset : QE) (numOps : nat) (vars : EvaluationVars) : circ (list QE) :=
  const0 <- nth_ (localConstants vars) 0;;
  const1 <- nth_ (localConstants vars) 1;;
  cs <- mapM (arithmetic_ext_op64 unset vars const0 const1) (seq 0 numOps);;
  Ret (concat cs).

(** ** MultiplicationExtensionGate *)
(** plonk/gates/multiplication_extension_gate.go:43-45; 3*gl.D is 6 *)
Definition ME_wiresIthMultiplicand0 (i : Z) : Range64 := (6 * i, 6 * i + D64)%u64.
(** plonk/gates/multiplication_extension_gate.go:47-49 *)
Definition ME_wiresIthMultiplicand1 (i : Z) : Range64 := (6 * i + D64, 6 * i + 2 * D64)%u64.
(** plonk/gates/multiplication_extension_gate.go:51-53 *)
Definition ME_wiresIthOutput (i : Z) : Range64 := (6 * i + 2 * D64, 6 * i + 3 * D64)%u64.
(** plonk/gates/multiplication_extension_gate.go:55-76, one operation *)
Definition mul_ext_op64 (unset : QE) (vars : EvaluationVars) (const0 : QE) (n : nat) : circ (list QE) :=
  let i := Z.of_nat n in
  multiplicand0 <- GetLocalExtAlgebra64 unset vars (ME_wiresIthMultiplicand0 i);;
  multiplicand1 <- GetLocalExtAlgebra64 unset vars (ME_wiresIthMultiplicand1 i);;
  output <- GetLocalExtAlgebra64 unset vars (ME_wiresIthOutput i);;
  mul <- MulExtensionAlgebra multiplicand0 multiplicand1;;
  computed_output <- ScalarMulExtensionAlgebra const0 mul;;
  diff <- SubExtensionAlgebra output computed_output;;
  Ret (limbs2 diff).
(** plonk/gates/multiplication_extension_gate.go:55-76 *)
Definition eval_mul_ext64 (unset : QE) (numOps : nat) (vars : EvaluationVars) : circ (list QE) :=
  const0 <- nth_ (localConstants vars) 0;;
  cs <- mapM (mul_ext_op64 unset vars const0) (seq 0 numOps);;
  Ret (concat cs).

(** ** BaseSumGate *)
(** plonk/gates/base_sum_gate.go:36-39 *)
Definition BASESUM_GATE_WIRE_SUM : Z := 0.
Definition BASESUM_GATE_START_LIMBS : Z := 1.
(** plonk/gates/base_sum_gate.go:57-64 *)
Definition BS_limbs (numLimbs : nat) : list Z :=
  map (fun i => (BASESUM_GATE_START_LIMBS + Z.of_nat i)%u64) (seq 0 numLimbs).
(** plonk/gates/base_sum_gate.go:66-96 *)
Definition eval_base_sum64 (numLimbs base : nat) (vars : EvaluationVars) : circ (list QE) :=
  sum <- index (localWires vars) BASESUM_GATE_WIRE_SUM;;
  limbs <- mapM (fun limbIdx => index (localWires vars) limbIdx) (BS_limbs numLimbs);;
  let baseQe := (Z.of_nat base, Zero) in
  computedSum <- ReduceWithPowers limbs baseQe;;
  c <- SubExtension computedSum sum;;
  cs <- mapM (limb_check base) limbs;;
  Ret (c :: cs).

(** ** ConstantGate *)
(** plonk/gates/constant_gate.go:43-48 *)
Definition C_ConstInput (numConsts i : Z) : circ Z :=
  panic_if (numConsts <=? i) "Invalid constant index";;; Ret i.
(** plonk/gates/constant_gate.go:50-55 *)
Definition C_WireOutput (numConsts i : Z) : circ Z :=
  panic_if (numConsts <=? i) "Invalid wire index";;; Ret i.
(** plonk/gates/constant_gate.go:57-69 *)
Definition eval_constant64 (numConsts : nat) (vars : EvaluationVars) : circ (list QE) :=
  mapM (fun n => k <- C_ConstInput (Z.of_nat numConsts) (Z.of_nat n);;
                 c <- index (localConstants vars) k;;
                 j <- C_WireOutput (Z.of_nat numConsts) (Z.of_nat n);;
                 w <- index (localWires vars) j;;
                 SubExtension c w) (seq 0 numConsts).

(** ** PublicInputGate *)
(** plonk/gates/public_input_gate.go:28-30 *)
Definition WiresPublicInputsHash : list Z := [0; 1; 2; 3].
(** plonk/gates/public_input_gate.go:32-51 *)
Definition eval_public_input64 (vars : EvaluationVars) : circ (list QE) :=
  mapM (fun i => wire <- nth_ WiresPublicInputsHash i;;
                 hash_part <- nth_ (publicInputsHash vars) i;;
                 w <- index (localWires vars) wire;;
                 SubExtension w (hash_part, Zero)) (seq 0 (length WiresPublicInputsHash)).

(** ** ExponentiationGate *)
(** plonk/gates/exponentiation_gate.go:57-59 *)
Definition E_wireBase : Z := 0.
(** plonk/gates/exponentiation_gate.go:62-67 *)
Definition E_wirePowerBit (numPowerBits i : Z) : circ Z :=
  panic_if (numPowerBits <=? i) "Invalid power bit index";;; Ret (1 + i)%u64.
(** plonk/gates/exponentiation_gate.go:69-71 *)
Definition E_wireOutput (numPowerBits : Z) : Z := (1 + numPowerBits)%u64.
(** plonk/gates/exponentiation_gate.go:73-78 *)
Definition E_wireIntermediateValue (numPowerBits i : Z) : circ Z :=
  panic_if (numPowerBits <=? i) "Invalid intermediate value index";;; Ret (2 + numPowerBits + i)%u64.
(** plonk/gates/exponentiation_gate.go:80-128, one step *)
Definition exp_gate_step64 (numPowerBits : Z) (base : QE) (powerBits intermediateValues : list QE) (n : nat) : circ QE :=
  let i := Z.of_nat n in
  prevIntermediateValue <- (if i =? 0 then Ret OneExtension
                            else v <- index intermediateValues (i - 1)%u64;; MulExtension v v);;
  curBit <- index powerBits (numPowerBits - i - 1)%u64;;
  tmp <- MulExtension curBit OneExtension;;
  tmp <- SubExtension tmp OneExtension;;
  mulBy <- MulExtension curBit base;;
  mulBy <- SubExtension mulBy tmp;;
  diff <- MulExtension prevIntermediateValue mulBy;;
  v <- index intermediateValues i;;
  SubExtension diff v.
(** plonk/gates/exponentiation_gate.go:80-128 *)
Definition eval_exponentiation64 (n : nat) (vars : EvaluationVars) : circ (list QE) :=
  let numPowerBits := Z.of_nat n in
  base <- index (localWires vars) E_wireBase;;
  powerBits <- mapM (fun i => k <- E_wirePowerBit numPowerBits (Z.of_nat i);; index (localWires vars) k) (seq 0 n);;
  intermediateValues <- mapM (fun i => k <- E_wireIntermediateValue numPowerBits (Z.of_nat i);; index (localWires vars) k) (seq 0 n);;
  output <- index (localWires vars) (E_wireOutput numPowerBits);;
  cs <- mapM (exp_gate_step64 numPowerBits base powerBits intermediateValues) (seq 0 n);;
  last <- index intermediateValues (numPowerBits - 1)%u64;;
  outputDiff <- SubExtension output last;;
  Ret (cs ++ [outputDiff]).

(** ** RandomAccessGate *)
(** plonk/gates/random_access_gate.go:74-76 *)
Definition RA_vecSize (bits : Z) : Z := shl1 bits.
(** plonk/gates/random_access_gate.go:78-83 *)
Definition RA_WireAccessIndex (bits numCopies copy : Z) : circ Z :=
  panic_if (numCopies <=? copy) "RandomAccessGate.WireAccessIndex called with copy >= num_copies";;;
  Ret ((2 + RA_vecSize bits) * copy)%u64.
(** plonk/gates/random_access_gate.go:85-91 *)
Definition RA_WireClaimedElement (bits numCopies copy : Z) : circ Z :=
  panic_if (numCopies <=? copy) "RandomAccessGate.WireClaimedElement called with copy >= num_copies";;;
  Ret ((2 + RA_vecSize bits) * copy + 1)%u64.
(** plonk/gates/random_access_gate.go:93-102 *)
Definition RA_WireListItem (bits numCopies i copy : Z) : circ Z :=
  panic_if (RA_vecSize bits <=? i) "RandomAccessGate.WireListItem called with i >= vec_size";;;
  panic_if (numCopies <=? copy) "RandomAccessGate.WireListItem called with copy >= num_copies";;;
  Ret ((2 + RA_vecSize bits) * copy + 2 + i)%u64.
(** plonk/gates/random_access_gate.go:104-106 *)
Definition RA_startExtraConstants (bits numCopies : Z) : Z := ((2 + RA_vecSize bits) * numCopies)%u64.
(** plonk/gates/random_access_gate.go:108-114 *)
Definition RA_wireExtraConstant (bits numCopies numExtraConstants i : Z) : circ Z :=
  panic_if (numExtraConstants <=? i) "RandomAccessGate.wireExtraConstant called with i >= num_extra_constants";;;
  Ret (RA_startExtraConstants bits numCopies + i)%u64.
(** plonk/gates/random_access_gate.go:116-118 *)
Definition RA_NumRoutedWires (bits numCopies numExtraConstants : Z) : Z :=
  (RA_startExtraConstants bits numCopies + numExtraConstants)%u64.
(** plonk/gates/random_access_gate.go:120-129 *)
Definition RA_WireBit (bits numCopies numExtraConstants i copy : Z) : circ Z :=
  panic_if (bits <=? i) "RandomAccessGate.WireBit called with i >= bits";;;
  panic_if (numCopies <=? copy) "RandomAccessGate.WireBit called with copy >= num_copies";;;
  Ret (RA_NumRoutedWires bits numCopies numExtraConstants + copy * bits + i)%u64.
(** plonk/gates/random_access_gate.go:131-190, one copy *)
Definition random_access_copy64 (bits numCopies numExtraConstants : nat) (vars : EvaluationVars) (copy : nat) : circ (list QE) :=
  let wires := localWires vars in
  let '(b, n, x, c) := (Z.of_nat bits, Z.of_nat numCopies, Z.of_nat numExtraConstants, Z.of_nat copy) in
  k <- RA_WireAccessIndex b n c;;
  accessIndex <- index wires k;;
  listItems <- mapM (fun i => k <- RA_WireListItem b n (Z.of_nat i) c;; index wires k) (seq 0 (Z.to_nat (RA_vecSize b)));;
  k <- RA_WireClaimedElement b n c;;
  claimedElement <- index wires k;;
  bitWires <- mapM (fun i => k <- RA_WireBit b n x (Z.of_nat i) c;; index wires k) (seq 0 bits);;
  cs <- mapM (fun b => bSquared <- MulExtension b b;; SubExtension bSquared b) bitWires;;
  reconstructedIndex <- ReduceWithPowers bitWires (2, Zero);;
  c <- SubExtension reconstructedIndex accessIndex;;
  listItems <- foldM (fun items b => fold_pairs b items) listItems bitWires;;
  panic_if (negb (Nat.eqb (length listItems) 1)) "listItems(len) != 1";;;
  item <- nth_ listItems 0;;
  d <- SubExtension item claimedElement;;
  Ret (cs ++ [c; d]).
(** plonk/gates/random_access_gate.go:131-190 *)
Definition eval_random_access64 (bits numCopies numExtraConstants : nat) (vars : EvaluationVars) : circ (list QE) :=
  cs <- mapM (random_access_copy64 bits numCopies numExtraConstants vars) (seq 0 numCopies);;
  es <- mapM (fun i => c <- index (localConstants vars) (Z.of_nat i);;
                       k <- RA_wireExtraConstant (Z.of_nat bits) (Z.of_nat numCopies) (Z.of_nat numExtraConstants) (Z.of_nat i);;
                       w <- index (localWires vars) k;;
                       SubExtension c w) (seq 0 numExtraConstants);;
  Ret (concat cs ++ es).

(** ** ReducingGate and ReducingExtensionGate *)
(** plonk/gates/reducing_gate.go:33 and plonk/gates/reducing_extension_gate.go:33 *)
Definition START_COEFFS : Z := 6.
(** plonk/gates/reducing_gate.go:45-47 and plonk/gates/reducing_extension_gate.go:45-47 *)
Definition R_wiresOutput : Range64 := (0, D64).
(** plonk/gates/reducing_gate.go:49-51 and plonk/gates/reducing_extension_gate.go:49-51 *)
Definition R_wiresAlpha : Range64 := (D64, 2 * D64)%u64.
(** plonk/gates/reducing_gate.go:53-55 and plonk/gates/reducing_extension_gate.go:53-55 *)
Definition R_wiresOldAcc : Range64 := (2 * D64, 3 * D64)%u64.
(** plonk/gates/reducing_gate.go:57-59 *)
Definition R_wiresCoeff (numCoeffs : Z) : Range64 := (START_COEFFS, START_COEFFS + numCoeffs)%u64.
(** plonk/gates/reducing_gate.go:61-63 *)
Definition R_startAccs (numCoeffs : Z) : Z := (START_COEFFS + numCoeffs)%u64.
(** plonk/gates/reducing_gate.go:65-75 and plonk/gates/reducing_extension_gate.go:65-75, with
    start = startAccs() *)
Definition R_wiresAccs (numCoeffs start i : Z) : circ Range64 :=
  panic_if (numCoeffs <=? i) "Accumulator index out of bounds";;;
  if i =? (numCoeffs - 1)%u64 then Ret R_wiresOutput
  else Ret (start + D64 * i, start + D64 * (i + 1))%u64.
(** plonk/gates/reducing_extension_gate.go:57-59 *)
Definition RE_wiresCoeff (i : Z) : Range64 := (START_COEFFS + D64 * i, START_COEFFS + D64 * (i + 1))%u64.
(** plonk/gates/reducing_extension_gate.go:61-63 *)
Definition RE_startAccs (numCoeffs : Z) : Z := (START_COEFFS + numCoeffs * D64)%u64.
(** plonk/gates/reducing_gate.go:77-110; "for i := start; i < end; i++" *)
Definition eval_reducing64 (unset : QE) (n : nat) (vars : EvaluationVars) : circ (list QE) :=
  let numCoeffs := Z.of_nat n in
  alpha <- GetLocalExtAlgebra64 unset vars R_wiresAlpha;;
  oldAcc <- GetLocalExtAlgebra64 unset vars R_wiresOldAcc;;
  let '(start, end_) := R_wiresCoeff numCoeffs in
  coeffs <- mapM (fun i => index (localWires vars) (Z.of_nat i)) (seq (Z.to_nat start) (Z.to_nat end_ - Z.to_nat start));;
  accs <- mapM (fun i => rg <- R_wiresAccs numCoeffs (R_startAccs numCoeffs) (Z.of_nat i);;
                         GetLocalExtAlgebra64 unset vars rg) (seq 0 n);;
  (if Nat.ltb (length coeffs) n then Panic "index out of range"
   else reducing_loop alpha oldAcc (map ToQuadraticExtensionAlgebra coeffs) accs).
(** plonk/gates/reducing_extension_gate.go:77-109 *)
Definition eval_reducing_ext64 (unset : QE) (n : nat) (vars : EvaluationVars) : circ (list QE) :=
  let numCoeffs := Z.of_nat n in
  alpha <- GetLocalExtAlgebra64 unset vars R_wiresAlpha;;
  oldAcc <- GetLocalExtAlgebra64 unset vars R_wiresOldAcc;;
  coeffs <- mapM (fun i => GetLocalExtAlgebra64 unset vars (RE_wiresCoeff (Z.of_nat i))) (seq 0 n);;
  accs <- mapM (fun i => rg <- R_wiresAccs numCoeffs (RE_startAccs numCoeffs) (Z.of_nat i);;
                         GetLocalExtAlgebra64 unset vars rg) (seq 0 n);;
  reducing_loop alpha oldAcc coeffs accs.

(** ** CosetInterpolationGate *)
(** plonk/gates/coset_interpolation_gate.go:77-79 *)
Definition CI_numPoints (subgroupBits : Z) : Z := shl1 subgroupBits.
(** plonk/gates/coset_interpolation_gate.go:82-84 *)
Definition CI_wireShift : Z := 0.
(** plonk/gates/coset_interpolation_gate.go:86-88 *)
Definition CI_startValues : Z := 1.
(** plonk/gates/coset_interpolation_gate.go:91-97 *)
Definition CI_wiresValue (subgroupBits i : Z) : circ Range64 :=
  panic_if (CI_numPoints subgroupBits <=? i) "Invalid point index";;;
  let start := (CI_startValues + i * D64)%u64 in Ret (start, start + D64)%u64.
(** plonk/gates/coset_interpolation_gate.go:99-101 *)
Definition CI_startEvaluationPoint (subgroupBits : Z) : Z := (CI_startValues + CI_numPoints subgroupBits * D64)%u64.
(** plonk/gates/coset_interpolation_gate.go:104-107 *)
Definition CI_wiresEvaluationPoint (subgroupBits : Z) : Range64 :=
  let start := CI_startEvaluationPoint subgroupBits in (start, start + D64)%u64.
(** plonk/gates/coset_interpolation_gate.go:109-111 *)
Definition CI_startEvaluationValue (subgroupBits : Z) : Z := (CI_startEvaluationPoint subgroupBits + D64)%u64.
(** plonk/gates/coset_interpolation_gate.go:114-117 *)
Definition CI_wiresEvaluationValue (subgroupBits : Z) : Range64 :=
  let start := CI_startEvaluationValue subgroupBits in (start, start + D64)%u64.
(** plonk/gates/coset_interpolation_gate.go:119-121 *)
Definition CI_startIntermediates (subgroupBits : Z) : Z := (CI_startEvaluationValue subgroupBits + D64)%u64.
(** plonk/gates/coset_interpolation_gate.go:123-125; division by zero panics *)
Definition CI_numIntermediates (subgroupBits degree : Z) : circ Z :=
  panic_if ((degree - 1)%u64 =? 0) "integer divide by zero";;;
  Ret ((CI_numPoints subgroupBits - 2)%u64 / (degree - 1)%u64).
(** plonk/gates/coset_interpolation_gate.go:128-134 *)
Definition CI_wiresIntermediateEval (subgroupBits degree i : Z) : circ Range64 :=
  ni <- CI_numIntermediates subgroupBits degree;;
  panic_if (ni <=? i) "Invalid intermediate index";;;
  let start := (CI_startIntermediates subgroupBits + D64 * i)%u64 in Ret (start, start + D64)%u64.
(** plonk/gates/coset_interpolation_gate.go:137-143 *)
Definition CI_wiresIntermediateProd (subgroupBits degree i : Z) : circ Range64 :=
  ni <- CI_numIntermediates subgroupBits degree;;
  panic_if (ni <=? i) "Invalid intermediate index";;;
  let start := (CI_startIntermediates subgroupBits + D64 * (ni + i))%u64 in Ret (start, start + D64)%u64.
(** plonk/gates/coset_interpolation_gate.go:146-149; gl.D*2 is the constant 4 *)
Definition CI_wiresShiftedEvaluationPoint (subgroupBits degree : Z) : circ Range64 :=
  ni <- CI_numIntermediates subgroupBits degree;;
  let start := (CI_startIntermediates subgroupBits + 4 * ni)%u64 in Ret (start, start + D64)%u64.
(** l[a:b] with uint64 bounds; simplified as in Gates: the capacity of l is its length *)
Definition slice64 {A} (l : list A) (a b : Z) : circ (list A) := slice l (Z.to_nat a) (Z.to_nat b).
(** plonk/gates/coset_interpolation_gate.go:151-226, the loop *)
Definition coset_step64 (unset : QE) (subgroupBits degree : Z) (domain : list Z) (values : list QEA) (weights : list Z)
    (point : QEA) (vars : EvaluationVars) (st : QEA * QEA * list QE) (n : nat) : circ (QEA * QEA * list QE) :=
  let '(computedEval, computedProd, constraints) := st in
  let i := Z.of_nat n in
  rg <- CI_wiresIntermediateEval subgroupBits degree i;;
  intermediateEval <- GetLocalExtAlgebra64 unset vars rg;;
  rg <- CI_wiresIntermediateProd subgroupBits degree i;;
  intermediateProd <- GetLocalExtAlgebra64 unset vars rg;;
  evalDiff <- SubExtensionAlgebra intermediateEval computedEval;;
  prodDiff <- SubExtensionAlgebra intermediateProd computedProd;;
  let startIndex := (1 + (degree - 1) * (i + 1))%u64 in
  let endIndex := (startIndex + degree - 1)%u64 in
  let endIndex := if CI_numPoints subgroupBits <? endIndex then CI_numPoints subgroupBits else endIndex in
  d <- slice64 domain startIndex endIndex;;
  v <- slice64 values startIndex endIndex;;
  w <- slice64 weights startIndex endIndex;;
  '(e, pr) <- PartialInterpolateExtAlgebra d v w point intermediateEval intermediateProd;;
  Ret (e, pr, constraints ++ limbs2 evalDiff ++ limbs2 prodDiff).
(** plonk/gates/coset_interpolation_gate.go:151-226 *)
Definition eval_coset_interpolation64 (unset : QE) (subgroupBits degree : nat) (weights : list Z) (vars : EvaluationVars) : circ (list QE) :=
  let s := Z.of_nat subgroupBits in
  let d64 := Z.of_nat degree in
  shift <- index (localWires vars) CI_wireShift;;
  evaluationPoint <- GetLocalExtAlgebra64 unset vars (CI_wiresEvaluationPoint s);;
  rg <- CI_wiresShiftedEvaluationPoint s d64;;
  shiftedEvaluationPoint <- GetLocalExtAlgebra64 unset vars rg;;
  negShift <- ScalarMulExtension shift NegOne;;
  tmp <- ScalarMulExtensionAlgebra negShift shiftedEvaluationPoint;;
  tmp <- AddExtensionAlgebra tmp evaluationPoint;;
  domain <- TwoAdicSubgroup subgroupBits;;
  values <- mapM (fun i => rg <- CI_wiresValue s (Z.of_nat i);; GetLocalExtAlgebra64 unset vars rg) (seq 0 (Z.to_nat (CI_numPoints s)));;
  d <- slice_to domain degree;;
  v <- slice_to values degree;;
  w <- slice_to weights degree;;
  '(e, pr) <- PartialInterpolateExtAlgebra d v w shiftedEvaluationPoint ZeroExtensionAlgebra OneExtensionAlgebra;;
  ni <- CI_numIntermediates s d64;;
  '(e, _, constraints) <- foldM (coset_step64 unset s d64 domain values weights shiftedEvaluationPoint vars)
                                (e, pr, limbs2 tmp) (seq 0 (Z.to_nat ni));;
  evaluationValue <- GetLocalExtAlgebra64 unset vars (CI_wiresEvaluationValue s);;
  evalDiff <- SubExtensionAlgebra evaluationValue e;;
  Ret (constraints ++ limbs2 evalDiff).

(** ** PoseidonGate *)
(** plonk/gates/poseidon_gate.go:29-31 *)
Definition P_WireInput (i : Z) : Z := i.
(** plonk/gates/poseidon_gate.go:33-35 *)
Definition P_WireOutput (i : Z) : Z := (WIDTH64 + i)%u64.
(** plonk/gates/poseidon_gate.go:37-39 *)
Definition P_WireSwap : Z := (2 * WIDTH64)%u64.
(** plonk/gates/poseidon_gate.go:41 *)
Definition P_START_DELTA : Z := 2 * WIDTH64 + 1.
(** plonk/gates/poseidon_gate.go:43-48 *)
Definition P_WireDelta (i : Z) : circ Z :=
  panic_if (4 <=? i) "Delta index out of range";;; Ret (P_START_DELTA + i)%u64.
(** plonk/gates/poseidon_gate.go:50 *)
Definition P_START_FULL_0 : Z := P_START_DELTA + 4.
(** plonk/gates/poseidon_gate.go:52-64 *)
Definition P_WireFullSBox0 (round i : Z) : circ Z :=
  panic_if (round =? 0) "First-round S-box inputs are not stored as wires";;;
  panic_if (HALF64 <=? round) "S-box input round out of range";;;
  panic_if (WIDTH64 <=? i) "S-box input index out of range";;;
  Ret (P_START_FULL_0 + (round - 1) * WIDTH64 + i)%u64.
(** plonk/gates/poseidon_gate.go:66 *)
Definition P_START_PARTIAL : Z := P_START_FULL_0 + (HALF64 - 1) * WIDTH64.
(** plonk/gates/poseidon_gate.go:68-73 *)
Definition P_WirePartialSBox (round : Z) : circ Z :=
  panic_if (PARTIAL64 <=? round) "S-box input round out of range";;; Ret (P_START_PARTIAL + round)%u64.
(** plonk/gates/poseidon_gate.go:75 *)
Definition P_START_FULL_1 : Z := P_START_PARTIAL + PARTIAL64.
(** plonk/gates/poseidon_gate.go:77-86 *)
Definition P_WireFullSBox1 (round i : Z) : circ Z :=
  panic_if (HALF64 <=? round) "S-box input round out of range";;;
  panic_if (WIDTH64 <=? i) "S-box input index out of range";;;
  Ret (P_START_FULL_1 + round * WIDTH64 + i)%u64.
(** plonk/gates/poseidon_gate.go:88-90 *)
Definition P_WiresEnd : Z := (P_START_FULL_1 + HALF64 * WIDTH64)%u64.
(** plonk/gates/poseidon_gate.go:92-181: compare the state with the twelve S-box wires of a
    round, and continue with those *)
Definition check_wires64 (wires state : list QE) (wire : Z -> circ Z) : circ (list QE * list QE) :=
  sBoxIns <- mapM (fun i => k <- wire (Z.of_nat i);; index wires k) (seq 0 12);;
  cs <- mapM (fun si : QE * QE => SubExtension (fst si) (snd si)) (combine state sBoxIns);;
  Ret (sBoxIns, cs).
(** plonk/gates/poseidon_gate.go:92-181, a full round *)
Definition gate_full_round64 (wires : list QE) (st : list QE * list QE) (kr : nat * option (Z -> circ Z)) : circ (list QE * list QE) :=
  let '(state, constraints) := st in
  let '(roundCounter, wire) := kr in
  state <- ConstantLayerExtension state roundCounter;;
  '(state, cs) <- match wire with Some f => check_wires64 wires state f | None => Ret (state, []) end;;
  state <- SBoxLayerExtension state;;
  state <- MdsLayerExtension state;;
  Ret (state, constraints ++ cs).
(** plonk/gates/poseidon_gate.go:92-181, a partial round *)
Definition gate_partial_round64 (wires : list QE) (st : list QE * list QE) (r : nat) : circ (list QE * list QE) :=
  let '(state, constraints) := st in
  k <- P_WirePartialSBox (Z.of_nat r);;
  sBoxIn <- index wires k;;
  c <- SubExtension (atE state 0) sBoxIn;;
  s0 <- SBoxMonomialExtension sBoxIn;;
  s0 <- (if Nat.ltb r 21 then AddExtension s0 (at_ FAST_PARTIAL_ROUND_CONSTANTS r, Zero) else Ret s0);;
  state <- MdsPartialLayerFastExtension (s0 :: tl state) r;;
  Ret (state, constraints ++ [c]).
(** plonk/gates/poseidon_gate.go:92-181 *)
Definition eval_poseidon64 (vars : EvaluationVars) : circ (list QE) :=
  let wires := localWires vars in
  swap <- index wires P_WireSwap;;
  swapMinusOne <- SubExtension swap OneExtension;;
  c <- MulExtension swap swapMinusOne;;
  cs <- mapM (fun n =>
          let i := Z.of_nat n in
          inputLhs <- index wires (P_WireInput i);;
          inputRhs <- index wires (P_WireInput (i + 4)%u64);;
          k <- P_WireDelta i;;
          deltaI <- index wires k;;
          diff <- SubExtension inputRhs inputLhs;;
          expectedDeltaI <- MulExtension swap diff;;
          SubExtension expectedDeltaI deltaI) (seq 0 4);;
  lhs <- mapM (fun n => let i := Z.of_nat n in
                        k <- P_WireDelta i;; deltaI <- index wires k;;
                        inputLhs <- index wires (P_WireInput i);; AddExtension inputLhs deltaI) (seq 0 4);;
  rhs <- mapM (fun n => let i := Z.of_nat n in
                        k <- P_WireDelta i;; deltaI <- index wires k;;
                        inputRhs <- index wires (P_WireInput (i + 4)%u64);; SubExtension inputRhs deltaI) (seq 0 4);;
  rest <- mapM (fun i => index wires (P_WireInput (Z.of_nat i))) (seq 8 4);;
  st <- foldM (gate_full_round64 wires) (lhs ++ rhs ++ rest, c :: cs)
          [(0, None); (1, Some (P_WireFullSBox0 1)); (2, Some (P_WireFullSBox0 2)); (3, Some (P_WireFullSBox0 3))]%nat;;
  let '(state, constraints) := st in
  state <- PartialFirstConstantLayerExtension state;;
  state <- MdsPartialLayerInitExtension state;;
  st <- foldM (gate_partial_round64 wires) (state, constraints) (seq 0 22);;
  st <- foldM (gate_full_round64 wires) st
          [(26, Some (P_WireFullSBox1 0)); (27, Some (P_WireFullSBox1 1));
           (28, Some (P_WireFullSBox1 2)); (29, Some (P_WireFullSBox1 3))]%nat;;
  let '(state, constraints) := st in
  outs <- mapM (fun si : QE * nat => o <- index wires (P_WireOutput (Z.of_nat (snd si)));; SubExtension (fst si) o) (combine state (seq 0 12));;
  Ret (constraints ++ outs).

(** ** PoseidonMdsGate *)
(** plonk/gates/poseidon_mds_gate.go:29-34 *)
Definition PM_WireInput (i : Z) : circ Range64 :=
  panic_if (WIDTH64 <=? i) "Input less than sponge width";;; Ret (i * D64, (i + 1) * D64)%u64.
(** plonk/gates/poseidon_mds_gate.go:36-41 *)
Definition PM_WireOutput (i : Z) : circ Range64 :=
  panic_if (WIDTH64 <=? i) "Input less than sponge width";;; Ret ((WIDTH64 + i) * D64, (WIDTH64 + i + 1) * D64)%u64.
(** plonk/gates/poseidon_mds_gate.go:76-99, plonk/gates/poseidon_mds_gate.go:65-74 *)
Definition eval_poseidon_mds64 (unset : QE) (vars : EvaluationVars) : circ (list QE) :=
  inputs <- mapM (fun i => rg <- PM_WireInput (Z.of_nat i);; GetLocalExtAlgebra64 unset vars rg) (seq 0 12);;
  computed_outputs <- mapM (fun r => mdsRowShfAlgebra r inputs) (seq 0 12);;
  cs <- mapM (fun oi : QEA * nat =>
          rg <- PM_WireOutput (Z.of_nat (snd oi));;
          output <- GetLocalExtAlgebra64 unset vars rg;;
          diff <- SubExtensionAlgebra output (fst oi);;
          Ret (limbs2 diff)) (combine computed_outputs (seq 0 12));;
  Ret (concat cs).

(** dispatch on the gate *)
Definition EvalUnfiltered64 (unset : QE) (g : Gate) (vars : EvaluationVars) : circ (list QE) :=
  match g with
  | ArithmeticGate n => eval_arithmetic64 n vars
  | ArithmeticExtensionGate n => eval_arithmetic_ext64 unset n vars
  | BaseSumGate n b => eval_base_sum64 n b vars
  | ConstantGate n => eval_constant64 n vars
  | CosetInterpolationGate s d w => eval_coset_interpolation64 unset s d w vars
  | ExponentiationGate n => eval_exponentiation64 n vars
  | MultiplicationExtensionGate n => eval_mul_ext64 unset n vars
  | NoopGate => Ret []
  | PoseidonGate => eval_poseidon64 vars
  | PoseidonMdsGate => eval_poseidon_mds64 unset vars
  | PublicInputGate => eval_public_input64 vars
  | RandomAccessGate b c e => eval_random_access64 b c e vars
  | ReducingExtensionGate n => eval_reducing_ext64 unset n vars
  | ReducingGate n => eval_reducing64 unset n vars
  end.

(** plonk/gates/evaluate_gates.go:57-75 *)
Definition evalFiltered64 (unset : QE) (gate : Gate) (vars : EvaluationVars) (row selectorIndex : nat) (groupRange : nat * nat)
    (numSelectors : nat) : circ (list QE) :=
  s <- nth_ (localConstants vars) selectorIndex;;
  filter <- computeFilter row groupRange s (Nat.ltb 1 numSelectors);;
  vars <- RemovePrefix vars numSelectors;;
  unfiltered <- EvalUnfiltered64 unset gate vars;;
  mapM (fun u => MulExtension u filter) unfiltered.
(** plonk/gates/evaluate_gates.go:77-105 *)
Definition EvaluateGateConstraints64 (unset : QE) (gates : list Gate) (numGateConstraints : nat) (info : SelectorsInfo)
    (vars : EvaluationVars) : circ (list QE) :=
  foldM (fun constraints (ig : nat * Gate) =>
    selectorIndex <- nth_ (selectorIndices info) (fst ig);;
    group <- nth_ (groups info) selectorIndex;;
    gateConstraints <- evalFiltered64 unset (snd ig) vars (fst ig) selectorIndex group (NumSelectors info);;
    add_constraints constraints gateConstraints)
    (repeat ZeroExtension numGateConstraints) (combine (seq 0 (length gates)) gates).

(** ** The wires of a gate, role by role, as the functions above return them *)
(** the wires of a range *)
Definition wires_of (rg : Range64) : list Z :=
  let '(start, end_) := rg in map (fun k => start + Z.of_nat k) (seq 0 (Z.to_nat (end_ - start))).
Definition each {A} (n : nat) (f : Z -> circ (list A)) : circ (list A) :=
  ls <- mapM (fun i => f (Z.of_nat i)) (seq 0 n);; Ret (concat ls).
Definition single (c : circ Z) : circ (list Z) := k <- c;; Ret [k].
Definition ranged (c : circ Range64) : circ (list Z) := rg <- c;; Ret (wires_of rg).
Fixpoint all {A} (l : list (circ (list A))) : circ (list A) :=
  match l with [] => Ret [] | c :: l' => x <- c;; y <- all l';; Ret (x ++ y) end.
Definition layout (g : Gate) : circ (list Z) :=
  match g with
  | ArithmeticGate n =>
      each n (fun i => Ret [A_WireIthMultiplicand0 i; A_WireIthMultiplicand1 i; A_WireIthAddend i; A_WireIthOutput i])
  | ArithmeticExtensionGate n =>
      each n (fun i => Ret (wires_of (AE_wiresIthMultiplicand0 i) ++ wires_of (AE_wiresIthMultiplicand1 i) ++
                            wires_of (AE_wiresIthAddend i) ++ wires_of (AE_wiresIthOutput i)))
  | BaseSumGate n _ => Ret (BASESUM_GATE_WIRE_SUM :: BS_limbs n)
  | ConstantGate n => each n (fun i => single (C_WireOutput (Z.of_nat n) i))
  | CosetInterpolationGate s d _ =>
      let '(s, d) := (Z.of_nat s, Z.of_nat d) in
      ni <- CI_numIntermediates s d;;
      all [Ret [CI_wireShift]; each (Z.to_nat (CI_numPoints s)) (fun i => ranged (CI_wiresValue s i));
           Ret (wires_of (CI_wiresEvaluationPoint s)); Ret (wires_of (CI_wiresEvaluationValue s));
           each (Z.to_nat ni) (fun i => ranged (CI_wiresIntermediateEval s d i));
           each (Z.to_nat ni) (fun i => ranged (CI_wiresIntermediateProd s d i));
           ranged (CI_wiresShiftedEvaluationPoint s d)]
  | ExponentiationGate n =>
      all [Ret [E_wireBase]; each n (fun i => single (E_wirePowerBit (Z.of_nat n) i)); Ret [E_wireOutput (Z.of_nat n)];
           each n (fun i => single (E_wireIntermediateValue (Z.of_nat n) i))]
  | MultiplicationExtensionGate n =>
      each n (fun i => Ret (wires_of (ME_wiresIthMultiplicand0 i) ++ wires_of (ME_wiresIthMultiplicand1 i) ++
                            wires_of (ME_wiresIthOutput i)))
  | NoopGate => Ret []
  | PoseidonGate =>
      all [each 12 (fun i => Ret [P_WireInput i]); each 12 (fun i => Ret [P_WireOutput i]); Ret [P_WireSwap];
           each 4 (fun i => single (P_WireDelta i));
           each 3 (fun r => each 12 (fun i => single (P_WireFullSBox0 (r + 1) i)));
           each 22 (fun r => single (P_WirePartialSBox r));
           each 4 (fun r => each 12 (fun i => single (P_WireFullSBox1 r i)))]
  | PoseidonMdsGate => all [each 12 (fun i => ranged (PM_WireInput i)); each 12 (fun i => ranged (PM_WireOutput i))]
  | PublicInputGate => Ret WiresPublicInputsHash
  | RandomAccessGate b c x =>
      let '(zb, zc, zx) := (Z.of_nat b, Z.of_nat c, Z.of_nat x) in
      all [each c (fun copy => all [single (RA_WireAccessIndex zb zc copy); single (RA_WireClaimedElement zb zc copy);
                                    each (Z.to_nat (RA_vecSize zb)) (fun i => single (RA_WireListItem zb zc i copy))]);
           each x (fun i => single (RA_wireExtraConstant zb zc zx i));
           each c (fun copy => each b (fun i => single (RA_WireBit zb zc zx i copy)))]
  | ReducingExtensionGate n =>
      all [Ret (wires_of R_wiresOutput); Ret (wires_of R_wiresAlpha); Ret (wires_of R_wiresOldAcc);
           each n (fun i => Ret (wires_of (RE_wiresCoeff i)));
           each (n - 1) (fun i => ranged (R_wiresAccs (Z.of_nat n) (RE_startAccs (Z.of_nat n)) i))]
  | ReducingGate n =>
      all [Ret (wires_of R_wiresOutput); Ret (wires_of R_wiresAlpha); Ret (wires_of R_wiresOldAcc);
           Ret (wires_of (R_wiresCoeff (Z.of_nat n)));
           each (n - 1) (fun i => ranged (R_wiresAccs (Z.of_nat n) (R_startAccs (Z.of_nat n)) i))]
  end.
