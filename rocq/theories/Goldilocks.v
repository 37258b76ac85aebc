(** * Model of goldilocks/base.go, quadratic_extension.go and
      quadratic_extension_algebra.go.

    A [Variable] (base.go:62-64) is its limb value, an integer in [0, r). *)
From Coq Require Import String.
From Coq Require Import ZArith Lia List Bool.
From Verif Require Import Zp Circuit.
Import ListNotations.
Open Scope Z_scope.
Open Scope circ_scope.

(** Constants, base.go:32-51; quadratic_extension.go:9-10. *)
Definition MULTIPLICATIVE_GROUP_GENERATOR : Z := 7.
Definition TWO_ADICITY : nat := 32.
Definition POWER_OF_TWO_GENERATOR : Z := 1753635133440165772.
Definition MODULUS : Z := 18446744069414584321.
Definition RANGE_CHECK_NB_BITS : Z := 144.
Definition EXPECTED_OPTIMAL_BASEWIDTH : Z := 16.
Definition W : Z := 7.
Definition DTH_ROOT : Z := 18446744069414584320.
(** base.go:73-75 *)
Definition Zero : Z := 0.
(** base.go:78-80 *)
Definition One : Z := 1.
(** base.go:83-85 *)
Definition NegOne : Z := MODULUS - 1.

Definition nth_ {A} (l : list A) (i : nat) : circ A := of_opt "index out of range" (nth_error l i).

(** base.go:339-359; the solver reports an error when the input is not in the field. *)
Definition SplitLimbsHint (x : Z) : option (list Z) :=
  if MODULUS <=? x then None else Some [x / 2 ^ 32; x mod 2 ^ 32].

(** base.go:362-400 *)
Definition RangeCheck (x : Z) : circ unit :=
  result <- hint_ (SplitLimbsHint x) 2;;
  mostSigLimb <- nth_ result 0;;
  leastSigLimb <- nth_ result 1;;
  api_assert_eq (api_add (api_mul mostSigLimb (2 ^ 32)) leastSigLimb) x;;;
  range_ mostSigLimb 32;;;
  range_ leastSigLimb 32;;;
  let shouldCheck := api_is_zero (api_sub mostSigLimb (2 ^ 32 - 1)) in
  sel <- api_select shouldCheck leastSigLimb 0;;
  api_assert_eq sel 0.

(** base.go:403-405.  The Go parameter is a uint64 converted to int. *)
Definition RangeCheckWithMaxBits (x : Z) (maxNbBits : Z) : circ unit := range_ x maxNbBits.

(** base.go:407-409 *)
Definition AssertIsEqual (x y : Z) : circ unit := api_assert_eq x y.

(** base.go:223-243; a hint function that panics makes solving fail. *)
Definition MulAddHint (a b c : Z) : option (list Z) :=
  if (MODULUS <=? a) || (MODULUS <=? b) || (MODULUS <=? c) then None
  else let sum := a * b + c in Some [sum / MODULUS; Z.rem sum MODULUS].

(** base.go:196-213 *)
Definition MulAdd (a b c : Z) : circ Z :=
  result <- hint_ (MulAddHint a b c) 2;;
  quotient <- nth_ result 0;;
  remainder <- nth_ result 1;;
  let cLimbCopy := api_mul c 1 in
  let lhs := api_mulacc cLimbCopy a b in
  let rhs := api_mulacc remainder MODULUS quotient in
  api_assert_eq lhs rhs;;;
  RangeCheck quotient;;;
  RangeCheck remainder;;;
  Ret remainder.

(** base.go:162-164 *)
Definition Add (a b : Z) : circ Z := MulAdd a 1 b.
(** base.go:168-170 *)
Definition AddNoReduce (a b : Z) : Z := api_add a b.
(** base.go:173-175 *)
Definition Sub (a b : Z) : circ Z := MulAdd b NegOne a.
(** base.go:179-181 *)
Definition SubNoReduce (a b : Z) : Z := api_add a (api_mul b NegOne).
(** base.go:184-186 *)
Definition Mul (a b : Z) : circ Z := MulAdd a b Zero.
(** base.go:190-192 *)
Definition MulNoReduce (a b : Z) : Z := api_mul a b.
(** base.go:217-220 *)
Definition MulAddNoReduce (a b c : Z) : Z := api_mulacc (api_mul c 1) a b.

(** base.go:284-294 *)
Definition ReduceHint (x : Z) : option (list Z) := Some [x / MODULUS; Z.rem x MODULUS].

(** base.go:259-281 *)
Definition ReduceWithMaxBits (x : Z) (maxNbBits : Z) : circ Z :=
  result <- hint_ (ReduceHint x) 2;;
  quotient <- nth_ result 0;;
  range_ quotient maxNbBits;;;
  remainder <- nth_ result 1;;
  RangeCheck remainder;;;
  api_assert_eq x (api_add (api_mul quotient MODULUS) remainder);;;
  Ret remainder.

(** base.go:246-256 *)
Definition Reduce (x : Z) : circ Z := ReduceWithMaxBits x RANGE_CHECK_NB_BITS.

(** base.go:316-336.  [goldilocks.Element.Inverse] of gnark-crypto (0 for 0) is
    rendered as the power p-2. *)
Definition InverseHint (x : Z) : option (list Z) :=
  if MODULUS <=? x then None else Some [powm MODULUS x (MODULUS - 2)].

(** base.go:297-313 *)
Definition Inverse (x : Z) : circ (Z * Z) :=
  result <- hint_ (InverseHint x) 1;;
  inverse <- nth_ result 0;;
  let isZero := api_is_zero x in
  let hasInv := api_sub 1 isZero in
  RangeCheck inverse;;;
  product <- Mul inverse x;;
  productToCheck <- api_select hasInv product 1;;
  api_assert_eq productToCheck 1;;;
  Ret (inverse, hasInv).

(** base.go:445-454; computes on [goldilocks.Element] constants, not on variables. *)
Definition PrimitiveRootOfUnity (nLog : nat) : circ Z :=
  if Nat.ltb TWO_ADICITY nLog then Panic "nLog is greater than TWO_ADICITY"
  else Ret (Nat.iter (TWO_ADICITY - nLog) (fun res => (res * res) mod MODULUS) POWER_OF_TWO_GENERATOR).

(** base.go:456-471: each new entry is the last one times the root. *)
Fixpoint subgroup_from (x g : Z) (n : nat) : list Z :=
  match n with O => [x] | S n' => x :: subgroup_from ((x * g) mod MODULUS) g n' end.
(** base.go:456-471 *)
Definition TwoAdicSubgroup (nLog : nat) : circ (list Z) :=
  if Nat.ltb TWO_ADICITY nLog then Panic "nLog is greater than GOLDILOCKS_TWO_ADICITY"
  else rootOfUnity <- PrimitiveRootOfUnity nLog;;
       Ret (subgroup_from 1 rootOfUnity (2 ^ nLog - 1)).

(** ** quadratic_extension.go *)
Definition QE : Set := (Z * Z)%type.
(** quadratic_extension.go:18-20 *)
Definition ToQuadraticExtension (x : Z) : QE := (x, Zero).
(** quadratic_extension.go:22-24 *)
Definition ZeroExtension : QE := ToQuadraticExtension Zero.
(** quadratic_extension.go:26-28 *)
Definition OneExtension : QE := ToQuadraticExtension One.

(** quadratic_extension.go:31-35 *)
Definition AddExtension (a b : QE) : circ QE :=
  c0 <- Add (fst a) (fst b);; c1 <- Add (snd a) (snd b);; Ret (c0, c1).
(** quadratic_extension.go:38-42 *)
Definition AddExtensionNoReduce (a b : QE) : QE :=
  (AddNoReduce (fst a) (fst b), AddNoReduce (snd a) (snd b)).
(** quadratic_extension.go:45-49 *)
Definition SubExtension (a b : QE) : circ QE :=
  c0 <- Sub (fst a) (fst b);; c1 <- Sub (snd a) (snd b);; Ret (c0, c1).
(** quadratic_extension.go:52-56 *)
Definition SubExtensionNoReduce (a b : QE) : QE :=
  (SubNoReduce (fst a) (fst b), SubNoReduce (snd a) (snd b)).

(** quadratic_extension.go:172-174 *)
Definition ReduceExtension (x : QE) : circ QE :=
  c0 <- Reduce (fst x);; c1 <- Reduce (snd x);; Ret (c0, c1).

(** quadratic_extension.go:65-71 *)
Definition MulExtensionNoReduce (a b : QE) : QE :=
  let c0o0 := MulNoReduce (fst a) (fst b) in
  let c0o1 := MulNoReduce (MulNoReduce W (snd a)) (snd b) in
  let c0 := AddNoReduce c0o0 c0o1 in
  let c1 := AddNoReduce (MulNoReduce (fst a) (snd b)) (MulNoReduce (snd a) (fst b)) in
  (c0, c1).

(** quadratic_extension.go:59-62 *)
Definition MulExtension (a b : QE) : circ QE := ReduceExtension (MulExtensionNoReduce a b).

(** quadratic_extension.go:81-85 *)
Definition MulAddExtensionNoReduce (a b c : QE) : QE :=
  AddExtensionNoReduce (MulExtensionNoReduce a b) c.
(** quadratic_extension.go:75-79 *)
Definition MulAddExtension (a b c : QE) : circ QE := ReduceExtension (MulAddExtensionNoReduce a b c).

(** quadratic_extension.go:89-93 *)
Definition SubMulExtension (a b c : QE) : circ QE :=
  ReduceExtension (MulExtensionNoReduce (SubExtensionNoReduce a b) c).

(** quadratic_extension.go:96-104 *)
Definition ScalarMulExtension (a : QE) (b : Z) : circ QE :=
  c0 <- Mul (fst a) b;; c1 <- Mul (snd a) b;; Ret (c0, c1).

(** quadratic_extension.go:107-120 *)
Definition InnerProductExtension (constant : Z) (startingAcc : QE) (pairs : list (QE * QE)) : circ QE :=
  acc <- foldM (fun acc ab =>
                  mul <- ScalarMulExtension (fst ab) constant;;
                  Ret (MulAddExtensionNoReduce mul (snd ab) acc)) startingAcc pairs;;
  ReduceExtension acc.

(** quadratic_extension.go:196-200 *)
Definition IsZero (x : QE) : Z := api_mul (api_is_zero (fst x)) (api_is_zero (snd x)).

(** quadratic_extension.go:123-134 *)
Definition InverseExtension (a : QE) : circ (QE * Z) :=
  let aIsZero := IsZero a in
  api_assert_eq aIsZero 0;;;
  a1 <- Mul (snd a) DTH_ROOT;;
  let aPowRMinus1 := (fst a, a1) in
  aPowR <- MulExtension aPowRMinus1 a;;
  '(aPowRInv, hasInv) <- Inverse (fst aPowR);;
  res <- ScalarMulExtension aPowRMinus1 aPowRInv;;
  Ret (res, hasInv).

(** quadratic_extension.go:137-140 *)
Definition DivExtension (a b : QE) : circ (QE * Z) :=
  '(bInv, hasInv) <- InverseExtension b;;
  res <- MulExtension a bInv;;
  Ret (res, hasInv).

(** quadratic_extension.go:144-168; [N.size] is [bits.Len64]. *)
Definition exp_step (exponent : N) (st : QE * QE) (i : nat) : circ (QE * QE) :=
  let '(current, product) := st in
  current' <- (if Nat.eqb i 0 then Ret current else MulExtension current current);;
  product' <- (if N.testbit exponent (N.of_nat i) then MulExtension product current' else Ret product);;
  Ret (current', product').
(** quadratic_extension.go:143-170 *)
Definition ExpExtension (a : QE) (exponent : N) : circ QE :=
  if (exponent =? 0)%N then Ret OneExtension
  else if (exponent =? 1)%N then Ret a
  else if (exponent =? 2)%N then MulExtension a a
  else
    '(_, product) <- foldM (exp_step exponent) (a, OneExtension) (seq 0 (N.size_nat exponent));;
    Ret product.

(** quadratic_extension.go:177-193 *)
Definition ReduceWithPowers (terms : list QE) (scalar : QE) : circ QE :=
  foldM (fun sum t => ReduceExtension (AddExtensionNoReduce (MulExtensionNoReduce sum scalar) t))
        ZeroExtension (rev terms).

(** quadratic_extension.go:203-210 *)
Definition Lookup (b : Z) (x y : QE) : circ QE :=
  c0 <- api_select b (fst y) (fst x);;
  c1 <- api_select b (snd y) (snd x);;
  Ret (c0, c1).
(** quadratic_extension.go:213-221 *)
Definition Lookup2 (b0 b1 : Z) (qe0 qe1 qe2 qe3 : QE) : circ QE :=
  c0 <- Lookup b0 qe0 qe1;;
  c1 <- Lookup b0 qe2 qe3;;
  Lookup b1 c0 c1.

(** quadratic_extension.go:224-230 *)
Definition AssertIsEqualExtension (a b : QE) : circ unit :=
  AssertIsEqual (fst a) (fst b);;; AssertIsEqual (snd a) (snd b).
(** quadratic_extension.go:232-235 *)
Definition RangeCheckQE (a : QE) : circ unit := RangeCheck (fst a);;; RangeCheck (snd a).

(** ** quadratic_extension_algebra.go (D = 2) *)
Definition QEA : Set := (QE * QE)%type.
(** quadratic_extension_algebra.go:16-18 *)
Definition ToQuadraticExtensionAlgebra (x : QE) : QEA := (x, ZeroExtension).
(** quadratic_extension_algebra.go:20-22 *)
Definition ZeroExtensionAlgebra : QEA := ToQuadraticExtensionAlgebra ZeroExtension.
(** quadratic_extension_algebra.go:24-26 *)
Definition OneExtensionAlgebra : QEA := ToQuadraticExtensionAlgebra OneExtension.
(** quadratic_extension_algebra.go:28-37 *)
Definition AddExtensionAlgebra (a b : QEA) : circ QEA :=
  s0 <- AddExtension (fst a) (fst b);; s1 <- AddExtension (snd a) (snd b);; Ret (s0, s1).
(** quadratic_extension_algebra.go:39-48 *)
Definition SubExtensionAlgebra (a b : QEA) : circ QEA :=
  s0 <- SubExtension (fst a) (fst b);; s1 <- SubExtension (snd a) (snd b);; Ret (s0, s1).
(** quadratic_extension_algebra.go:50-75, with the two loops over i, j < D = 2
    unrolled: inner[0] = (a0,b0), inner[1] = (a0,b1),(a1,b0), innerW[0] = (a1,b1),
    innerW[1] empty. *)
Definition MulExtensionAlgebra (a b : QEA) : circ QEA :=
  acc0 <- InnerProductExtension W ZeroExtension [(snd a, snd b)];;
  product0 <- InnerProductExtension One acc0 [(fst a, fst b)];;
  acc1 <- InnerProductExtension W ZeroExtension [];;
  product1 <- InnerProductExtension One acc1 [(fst a, snd b); (snd a, fst b)];;
  Ret (product0, product1).
(** quadratic_extension_algebra.go:77-86 *)
Definition ScalarMulExtensionAlgebra (a : QE) (b : QEA) : circ QEA :=
  p0 <- MulExtension a (fst b);; p1 <- MulExtension a (snd b);; Ret (p0, p1).

(** quadratic_extension_algebra.go:90-127.  [domain] and [weights] are field
    constants ([goldilocks.Element]); [NewVariable(x)] of an element is taken to
    be its canonical integer. *)
Definition partial_interpolate_step (point : QEA) (st : QEA * QEA) (it : QEA * Z * Z) : circ (QEA * QEA) :=
  let '(newEval, newPartialProd) := st in
  let '(val, x, w) := it in
  let xQEAlgebra := ToQuadraticExtensionAlgebra (ToQuadraticExtension x) in
  let weight := ToQuadraticExtension w in
  term <- SubExtensionAlgebra point xQEAlgebra;;
  weightedVal <- ScalarMulExtensionAlgebra weight val;;
  newEval1 <- MulExtensionAlgebra newEval term;;
  tmp <- MulExtensionAlgebra weightedVal newPartialProd;;
  newEval2 <- AddExtensionAlgebra newEval1 tmp;;
  newPartialProd' <- MulExtensionAlgebra newPartialProd term;;
  Ret (newEval2, newPartialProd').
(** quadratic_extension_algebra.go:88-125 *)
Definition PartialInterpolateExtAlgebra (domain : list Z) (values : list QEA)
    (barycentricWeights : list Z) (point initialEval initialPartialProd : QEA) : circ (QEA * QEA) :=
  let n := length values in
  if Nat.eqb n 0 then Panic "Cannot interpolate with no values"
  else if negb (Nat.eqb n (length domain)) then Panic "Domain and values must have the same length"
  else if negb (Nat.eqb n (length barycentricWeights))
       then Panic "Domain and barycentric weights must have the same length"
  else foldM (partial_interpolate_step point) (initialEval, initialPartialProd)
             (combine (combine values domain) barycentricWeights).
