(** * Model of fri/fri.go and fri/fri_utils.go.

    Go slices that are indexed or resliced become [nth_], [slice_from], [slice_to]:
    an index out of range is a run-time panic while the circuit is being defined.
    [goldilocks.Element] constants are canonical integers. *)
From Coq Require Import String.
From Coq Require Import ZArith Lia List Bool.
From Verif Require Import Zp Circuit Goldilocks BN254 Types Challenger.
Import ListNotations.
Open Scope Z_scope.
Open Scope circ_scope.

(** Go [l[n:]] *)
Definition slice_from {A} (l : list A) (n : nat) : circ (list A) :=
  if Nat.leb n (length l) then Ret (skipn n l) else Panic "slice bounds out of range".
(** Go [l[:n]] (for slices without spare capacity) *)
Definition slice_to {A} (l : list A) (n : nat) : circ (list A) :=
  if Nat.leb n (length l) then Ret (firstn n l) else Panic "slice bounds out of range".
(** Go [if cond { panic(msg) }] *)
Definition panic_if (b : bool) (msg : string) : circ unit := if b then Panic msg else Ret tt.

(** ** fri_utils.go *)
(** fri/fri_utils.go:11-14 and fri/vars.go:5-8: (OracleIndex, PolynomialInfo) pairs *)
Record BatchInfo := mkBatchInfo { Point : QE; Polynomials : list (nat * nat) }.
(** fri/fri_utils.go:16-19 *)
Record OracleInfo := mkOracleInfo { NumPolys : nat; Blinding : bool }.
(** fri/vars.go:10-13 *)
Record InstanceInfo := mkInstanceInfo { Oracles : list OracleInfo; Batches : list BatchInfo }.

(** fri/fri_utils.go:46-57 *)
Definition polynomialInfoFromRange (oracleIdx startPolyIdx endPolyIdx : nat) : list (nat * nat) :=
  map (fun i => (oracleIdx, i)) (seq startPolyIdx (endPolyIdx - startPolyIdx)).
(** fri/fri_utils.go:60-67 (the upper bound is included) *)
Definition sigmasRange (c : CommonCircuitData) : list nat :=
  seq (cd_NumConstants c) (NumRoutedWires (cd_Config c) + 1).
(** fri/fri_utils.go:69-72 *)
Definition numPreprocessedPolys (c : CommonCircuitData) : nat := last (sigmasRange c) O.
(** fri/fri_utils.go:74-76 *)
Definition numZSPartialProductsPolys (c : CommonCircuitData) : nat :=
  NumChallenges (cd_Config c) * (1 + NumPartialProducts c).
(** fri/fri_utils.go:78-80 *)
Definition numQuotientPolys (c : CommonCircuitData) : nat := NumChallenges (cd_Config c) * QuotientDegreeFactor c.
(** fri/fri_utils.go:82-89 *)
Definition friPreprocessedPolys c := polynomialInfoFromRange 0 0 (numPreprocessedPolys c).
(** fri/fri_utils.go:91-94 *)
Definition friWirePolys c := polynomialInfoFromRange 1 0 (NumWires (cd_Config c)).
(** fri/fri_utils.go:96-103 *)
Definition friZSPartialProductsPolys c := polynomialInfoFromRange 2 0 (numZSPartialProductsPolys c).
(** fri/fri_utils.go:105-112 *)
Definition friQuotientPolys c := polynomialInfoFromRange 3 0 (numQuotientPolys c).
(** fri/fri_utils.go:114-121 *)
Definition friZSPolys c := polynomialInfoFromRange 2 0 (NumChallenges (cd_Config c)).
(** fri/fri_utils.go:123-142, with the blinding flags of lines 26-44 *)
Definition friOracles (c : CommonCircuitData) : list OracleInfo :=
  [mkOracleInfo (numPreprocessedPolys c) false; mkOracleInfo (NumWires (cd_Config c)) true;
   mkOracleInfo (numZSPartialProductsPolys c) true; mkOracleInfo (numQuotientPolys c) true].
(** fri/fri_utils.go:144-152 *)
Definition friAllPolys (c : CommonCircuitData) : list (nat * nat) :=
  friPreprocessedPolys c ++ friWirePolys c ++ friZSPartialProductsPolys c ++ friQuotientPolys c.

(** fri/fri_utils.go:156-163.  The test is done in float64:
    (2^32-1)/p >= (1/2^RateBits) * 1e-5, where 1 << RateBits is a uint64 that is 0 from 64
    on (then the rate is +Inf and the test is false).  The model compares the rational
    numbers; they differ by a factor of at least 1.3 for every RateBits, so float rounding
    does not matter. *)
Definition assertNoncanonicalIndicesOK (friParams : FriParams) : circ unit :=
  let rateBits := RateBits (fp_Config friParams) in
  panic_if (Nat.ltb rateBits 64 && (MODULUS <=? (2 ^ 32 - 1) * 2 ^ Z.of_nat rateBits * 100000))
    "A non-negligible portion of field elements are in the range that permits non-canonical encodings.".

(** fri/fri_utils.go:167-228, the loop over the initial tree proofs of a query round *)
Definition validateInitial (params : FriParams) (instance : InstanceInfo) (queryRound : FriQueryRound) : circ unit :=
  let capHeight := CapHeight (fp_Config params) in
  panic_if (negb (Nat.eqb (length (InitialTreesProof queryRound)) (length (Oracles instance))))
    "eval proofs length is not equal to instance oracles length";;;
  iterM (fun eo : FriEvalProof * OracleInfo =>
    let (evalProof, oracle) := eo in
    let salt_size := if Blinding oracle && Hiding params then 4%nat else O in
    panic_if (negb (Nat.eqb (length (Elements evalProof)) (NumPolys oracle + salt_size)))
      "eval proof leaf length doesn't match oracle info";;;
    panic_if (negb (Nat.eqb (length (ep_Siblings evalProof) + capHeight) (LdeBits params)))
      "length of merkle proof + capHeight doesn't match lde_bits from params")
    (combine (InitialTreesProof queryRound) (Oracles instance)).
(** fri/fri_utils.go:167-228, the loop over the steps of a query round; codewordLenBits is an
    int and may become negative *)
Definition validateSteps (params : FriParams) (queryRound : FriQueryRound) : circ unit :=
  panic_if (negb (Nat.eqb (length (Steps queryRound)) (length (ReductionArityBits params))))
    "length of steps != params.reduction_arity_bits";;;
  _ <- foldM (fun codewordLenBits (sa : FriQueryStep * nat) =>
    let (step, arityBits) := sa in
    let codewordLenBits := codewordLenBits - Z.of_nat arityBits in
    panic_if (negb (Z.of_nat (length (Evals step)) =? shl_int (Z.of_nat arityBits))) "len evals doesn't match arity";;;
    panic_if (negb (Z.of_nat (length (st_Siblings step) + CapHeight (fp_Config params)) =? codewordLenBits))
      "len merkleProof doesn't match codewordLenBits";;;
    Ret codewordLenBits) (Z.of_nat (LdeBits params)) (combine (Steps queryRound) (ReductionArityBits params));;
  Ret tt.
(** fri/fri_utils.go:167-228 *)
Definition validateFriProofShape (proof : FriProof) (instance : InstanceInfo) (params : FriParams) : circ unit :=
  iterM (fun cap : FriMerkleCap =>
    panic_if (negb (shl_int (Z.of_nat (CapHeight (fp_Config params))) =? Z.of_nat (length cap)))
      "config cap_height does not match commit_phase_merkle_caps") (CommitPhaseMerkleCaps proof);;;
  iterM (fun queryRound => validateInitial params instance queryRound;;; validateSteps params queryRound)
    (QueryRoundProofs proof);;;
  finalPolyLen <- FinalPolyLen params;;
  panic_if (negb (Z.of_nat (length (FinalPoly proof)) =? finalPolyLen)) "len finalPoly doesn't match params FinalPolyLen".

(** ** fri.go *)
(** fri/fri.go:40-61 *)
Definition GetInstance (c : CommonCircuitData) (zeta : QE) : circ InstanceInfo :=
  let zetaBatch := mkBatchInfo zeta (friAllPolys c) in
  g <- PrimitiveRootOfUnity (cd_DegreeBits c);;
  zetaNext <- MulExtension (ToQuadraticExtension g) zeta;;
  let zetaNextBatch := mkBatchInfo zetaNext (friZSPolys c) in
  Ret (mkInstanceInfo (friOracles c) [zetaBatch; zetaNextBatch]).

(** fri/fri.go:75-80.  64 - ProofOfWorkBits is a uint64 that wraps around when
    ProofOfWorkBits > 64 and is then converted to a negative int (base.go:403-405), hence a
    signed number here. *)
Definition assertLeadingZeros (powWitness : Z) (friConfig : FriConfig) : circ unit :=
  RangeCheckWithMaxBits powWitness (64 - Z.of_nat (ProofOfWorkBits friConfig)).

(** fri/fri.go:82-95 *)
Definition fromOpeningsAndAlpha (openings : list (list QE)) (alpha : QE) : circ (list QE) :=
  mapM (fun batch => ReduceWithPowers batch alpha) openings.

(** fri/fri.go:97-144, one iteration of the loop over the siblings *)
Definition merkle_step (leafIndexBits : list Z) (currentDigest : Z) (is : nat * Z) : circ Z :=
  let (i, sibling) := is in
  bit <- nth_ leafIndexBits i;;
  input2 <- api_select bit sibling currentDigest;;
  input3 <- api_select bit currentDigest sibling;;
  Ret (nth 0 (PoseidonBN [0; 0; input2; input3]) 0).
(** fri/fri.go:97-144 *)
Definition verifyMerkleProofToCapWithCapIndex (leafData : list Z) (leafIndexBits capIndexBits : list Z)
    (merkleCap : FriMerkleCap) (siblings : list Z) : circ unit :=
  currentDigest <- foldM (merkle_step leafIndexBits) (HashOrNoop leafData) (combine (seq 0 (length siblings)) siblings);;
  panic_if (negb (Nat.eqb (length capIndexBits) 4) || negb (Nat.eqb (length merkleCap) 16))
    "capIndexBits length should be 4 and the merkleCap length should be 16.";;;
  b0 <- nth_ capIndexBits 0;;
  b1 <- nth_ capIndexBits 1;;
  b2 <- nth_ capIndexBits 2;;
  b3 <- nth_ capIndexBits 3;;
  leafLookups <- mapM (fun i =>
    c0 <- nth_ merkleCap (i * 4);;
    c1 <- nth_ merkleCap (i * 4 + 1);;
    c2 <- nth_ merkleCap (i * 4 + 2);;
    c3 <- nth_ merkleCap (i * 4 + 3);;
    api_lookup2 b0 b1 c0 c1 c2 c3) (seq 0 4);;
  l0 <- nth_ leafLookups 0;;
  l1 <- nth_ leafLookups 1;;
  l2 <- nth_ leafLookups 2;;
  l3 <- nth_ leafLookups 3;;
  merkleCapEntry <- api_lookup2 b2 b3 l0 l1 l2 l3;;
  api_assert_eq currentDigest merkleCapEntry.

(** fri/fri.go:146-157 *)
Definition verifyInitialProof (xIndexBits : list Z) (proof : list FriEvalProof)
    (initialMerkleCaps : list FriMerkleCap) (capIndexBits : list Z) : circ unit :=
  panic_if (negb (Nat.eqb (length proof) (length initialMerkleCaps)))
    "length of eval proofs in fri proof should equal length of initial merkle caps";;;
  iterM (fun pc : FriEvalProof * FriMerkleCap =>
    verifyMerkleProofToCapWithCapIndex (Elements (fst pc)) xIndexBits capIndexBits (snd pc) (ep_Siblings (fst pc)))
    (combine proof initialMerkleCaps).

(** fri/fri.go:159-185.  [base] is an element constant; [basePow.Exp(base, 2^i)] is
    rendered by [powm]; the int64 1 << i is exact for i < 63, which covers every call (at
    most 32 bits, because of PrimitiveRootOfUnity).  basePow.Uint64()-1 wraps in uint64. *)
Definition exp_bits_step (base : Z) (product : Z) (ib : nat * Z) : circ Z :=
  let (i, bit) := ib in
  let basePow := powm MODULUS base (2 ^ Z.of_nat i) in
  let basePowVariable := (basePow - 1) mod 2 ^ 64 in
  m1 <- Mul basePowVariable product;;
  m2 <- Mul m1 bit;;
  Add m2 product.
(** fri/fri.go:159-185 *)
Definition expFromBitsConstBase (base : Z) (exponentBits : list Z) : circ Z :=
  foldM (exp_bits_step base) One (combine (seq 0 (length exponentBits)) exponentBits).

(** fri/fri.go:187-206 *)
Definition calculateSubgroupX (xIndexBits : list Z) (nLog : nat) : circ Z :=
  let g := MULTIPLICATIVE_GROUP_GENERATOR in
  base <- PrimitiveRootOfUnity nLog;;
  let xIndexBitsRev := rev xIndexBits in
  product <- expFromBitsConstBase base xIndexBitsRev;;
  Mul g product.

(** fri/fri.go:208-251, one batch *)
Definition combine_step (proof : list FriEvalProof) (friAlpha subgroupX_QE : QE) (sum : QE) (bo : BatchInfo * QE) : circ QE :=
  let (batch, reducedOpenings) := bo in
  let point := Point batch in
  evals <- mapM (fun polynomial : nat * nat =>
             ep <- nth_ proof (fst polynomial);;
             e <- nth_ (Elements ep) (snd polynomial);;
             Ret (e, Zero)) (Polynomials batch);;
  reducedEvals <- ReduceWithPowers evals friAlpha;;
  let numerator := SubExtensionNoReduce reducedEvals reducedOpenings in
  denominator <- SubExtension subgroupX_QE point;;
  ap <- ExpExtension friAlpha (N.of_nat (length evals));;
  sum <- MulExtension ap sum;;
  '(inv, hasInv) <- InverseExtension denominator;;
  api_assert_eq hasInv 1;;;
  MulAddExtension numerator inv sum.
(** fri/fri.go:208-251 *)
Definition friCombineInitial (instance : InstanceInfo) (proof : list FriEvalProof) (friAlpha subgroupX_QE : QE)
    (precomputedReducedEval : list QE) : circ QE :=
  panic_if (negb (Nat.eqb (length (Batches instance)) (length precomputedReducedEval)))
    "len(openings) != len(precomputedReducedEval)";;;
  foldM (combine_step proof friAlpha subgroupX_QE) ZeroExtension (combine (Batches instance) precomputedReducedEval).

(** fri/fri.go:253-259 *)
Definition finalPolyEval (finalPoly : list QE) (point : QE) : circ QE :=
  foldM (fun ret coeff => MulAddExtension ret point coeff) ZeroExtension (rev finalPoly).

(** fri/fri.go:261-312, the body of the loop with the divisions *)
Definition interpolate_step (x : QE) (st : QE * Z) (pt : QE * QE * QE) : circ (QE * Z) :=
  let '(sum, lookupFromPoints) := st in
  let '(xPoint, yPoint, weight) := pt in
  d <- SubExtension x xPoint;;
  '(quotient, hasQuotient) <- DivExtension weight d;;
  let lookupFromPoints := api_mul hasQuotient lookupFromPoints in
  m <- MulExtension yPoint quotient;;
  sum <- AddExtension m sum;;
  Ret (sum, lookupFromPoints).
(** fri/fri.go:261-312 *)
Definition interpolate (x : QE) (xPoints yPoints barycentricWeights : list QE) : circ QE :=
  panic_if (negb (Nat.eqb (length xPoints) (length yPoints)) || negb (Nat.eqb (length xPoints) (length barycentricWeights)))
    "length of xPoints, yPoints, and barycentricWeights are inconsistent";;;
  lX <- foldM (fun lX xPoint => SubMulExtension x xPoint lX) OneExtension xPoints;;
  '(sum, lookupFromPoints) <- foldM (interpolate_step x) (ZeroExtension, 1)
                                (combine (combine xPoints yPoints) barycentricWeights);;
  interpolation <- MulExtension lX sum;;
  lookupVal <- foldM (fun lookupVal (xy : QE * QE) =>
                 d <- SubExtension x (fst xy);;
                 Lookup (IsZero d) lookupVal (snd xy)) ZeroExtension (combine xPoints yPoints);;
  Lookup lookupFromPoints lookupVal interpolation.

(** [bits.Reverse8(i) >> (8 - n)] for i < 2^n: the n low bits of i in reverse order *)
Fixpoint rev_bits (n : nat) (i : nat) : nat :=
  match n with O => O | S n' => (Nat.modulo i 2) * 2 ^ n' + rev_bits n' (Nat.div i 2) end.
Definition reverse8_shift (arityBits i : nat) : nat := Nat.div (rev_bits 8 i) (2 ^ (8 - arityBits)).
(** Go [l[i] = x] *)
Definition set_nth {A} (l : list A) (i : nat) (x : A) : circ (list A) :=
  if Nat.ltb i (length l) then Ret (firstn i l ++ x :: skipn (S i) l) else Panic "index out of range".

(** fri/fri.go:314-384, the loop xPoints[i] = xPoints[i-1] * g *)
Fixpoint next_points (x g_F : QE) (n : nat) : circ (list QE) :=
  match n with O => Ret [] | S n' => y <- MulExtension x g_F;; l <- next_points y g_F n';; Ret (y :: l) end.
(** fri/fri.go:314-384, the barycentric weight of point i *)
Definition bary_weight (xPoints : list QE) (i : nat) : circ QE :=
  xi <- nth_ xPoints i;;
  w <- foldM (fun w j => if Nat.eqb i j then Ret w else xj <- nth_ xPoints j;; SubMulExtension xi xj w)
         OneExtension (seq 0 (length xPoints));;
  '(inv, hasInv) <- InverseExtension w;;
  api_assert_eq hasInv 1;;;
  Ret inv.
(** fri/fri.go:314-384.  For arityBits = 8 the loop "for i := uint8(0); i <= 255; i++"
    never ends, which is rendered as a panic. *)
Definition computeEvaluation (x : Z) (xIndexWithinCosetBits : list Z) (arityBits : nat) (evals : list QE) (beta : QE) : circ QE :=
  panic_if (negb (Z.of_nat (length evals) =? shl_int (Z.of_nat arityBits))) "len(evals) != arity";;;
  panic_if (Nat.ltb 8 arityBits) "currently assuming that arityBits is <= 8";;;
  g <- PrimitiveRootOfUnity arityBits;;
  let gInv := powm MODULUS g (Z.of_nat (length evals) - 1) in
  panic_if (Nat.eqb arityBits 8) "endless loop: uint8 counter never exceeds 255";;;
  permutedEvals <- foldM (fun acc (ie : nat * QE) => set_nth acc (reverse8_shift arityBits (fst ie)) (snd ie))
                     (repeat ZeroExtension (length evals)) (combine (seq 0 (length evals)) evals);;
  let revXIndexWithinCosetBits := rev xIndexWithinCosetBits in
  start <- expFromBitsConstBase gInv revXIndexWithinCosetBits;;
  cosetStart <- Mul start x;;
  let g_F := ToQuadraticExtension g in
  rest <- next_points (cosetStart, Zero) g_F (length evals - 1);;
  let xPoints := (cosetStart, Zero) :: rest in
  barycentricWeights <- mapM (bary_weight xPoints) (seq 0 (length xPoints));;
  interpolate beta xPoints permutedEvals barycentricWeights.

(** fri/fri.go:386-498, one reduction step; the state is (oldEval, subgroupX, xIndexBits) *)
Definition query_step (challenges : FriChallenges) (proof : FriProof) (roundProof : FriQueryRound) (capIndexBits : list Z)
    (st : QE * Z * list Z) (ia : nat * nat) : circ (QE * Z * list Z) :=
  let '(oldEval, subgroupX, xIndexBits) := st in
  let '(i, arityBits) := ia in
  step <- nth_ (Steps roundProof) i;;
  let evals := Evals step in
  cosetIndexBits <- slice_from xIndexBits arityBits;;
  xIndexWithinCosetBits <- slice_to xIndexBits arityBits;;
  panic_if (negb (Nat.eqb arityBits 4)) "assuming arity bits is 4";;;
  b0 <- nth_ xIndexWithinCosetBits 0;;
  b1 <- nth_ xIndexWithinCosetBits 1;;
  leafLookups <- mapM (fun i =>
    e0 <- nth_ evals (i * 4);;
    e1 <- nth_ evals (i * 4 + 1);;
    e2 <- nth_ evals (i * 4 + 2);;
    e3 <- nth_ evals (i * 4 + 3);;
    Lookup2 b0 b1 e0 e1 e2 e3) (seq 0 4);;
  b2 <- nth_ xIndexWithinCosetBits 2;;
  b3 <- nth_ xIndexWithinCosetBits 3;;
  l0 <- nth_ leafLookups 0;;
  l1 <- nth_ leafLookups 1;;
  l2 <- nth_ leafLookups 2;;
  l3 <- nth_ leafLookups 3;;
  newEval <- Lookup2 b2 b3 l0 l1 l2 l3;;
  AssertIsEqual (fst newEval) (fst oldEval);;;
  AssertIsEqual (snd newEval) (snd oldEval);;;
  beta <- nth_ (FriBetas challenges) i;;
  oldEval <- computeEvaluation subgroupX xIndexWithinCosetBits arityBits evals beta;;
  let fieldEvals := flat_map (fun e : QE => [fst e; snd e]) evals in
  cap <- nth_ (CommitPhaseMerkleCaps proof) i;;
  verifyMerkleProofToCapWithCapIndex fieldEvals cosetIndexBits capIndexBits cap (st_Siblings step);;;
  subgroupX <- repeatM arityBits (fun x => Mul x x) subgroupX;;
  Ret (oldEval, subgroupX, cosetIndexBits).

(** fri/fri.go:386-498.  The parameter n is not used. *)
Definition verifyQueryRound (friParams : FriParams) (instance : InstanceInfo) (challenges : FriChallenges)
    (precomputedReducedEval : list QE) (initialMerkleCaps : list FriMerkleCap) (proof : FriProof)
    (xIndex : Z) (nLog : nat) (roundProof : FriQueryRound) : circ unit :=
  assertNoncanonicalIndicesOK friParams;;;
  xIndex <- Reduce xIndex;;
  bits <- api_to_binary xIndex 64;;
  xIndexBits <- slice_to bits (fp_DegreeBits friParams + RateBits (fp_Config friParams));;
  panic_if (Nat.ltb (length xIndexBits) (CapHeight (fp_Config friParams))) "slice bounds out of range";;;
  capIndexBits <- slice_from xIndexBits (length xIndexBits - CapHeight (fp_Config friParams));;
  verifyInitialProof xIndexBits (InitialTreesProof roundProof) initialMerkleCaps capIndexBits;;;
  subgroupX <- calculateSubgroupX xIndexBits nLog;;
  oldEval <- friCombineInitial instance (InitialTreesProof roundProof) (FriAlpha challenges)
               (ToQuadraticExtension subgroupX) precomputedReducedEval;;
  '(oldEval, subgroupX, _) <- foldM (query_step challenges proof roundProof capIndexBits) (oldEval, subgroupX, xIndexBits)
       (combine (seq 0 (length (ReductionArityBits friParams))) (ReductionArityBits friParams));;
  finalEval <- finalPolyEval (FinalPoly proof) (ToQuadraticExtension subgroupX);;
  AssertIsEqual (fst oldEval) (fst finalEval);;;
  AssertIsEqual (snd oldEval) (snd finalEval).

(** fri/fri.go:500-548 *)
Definition VerifyFriProof (friParams : FriParams) (instance : InstanceInfo) (openings : list (list QE))
    (friChallenges : FriChallenges) (initialMerkleCaps : list FriMerkleCap) (friProof : FriProof) : circ unit :=
  validateFriProofShape friProof instance friParams;;;
  assertLeadingZeros (FriPowResponse friChallenges) (fp_Config friParams);;;
  panic_if (negb (Nat.eqb (NumQueryRounds (fp_Config friParams)) (length (QueryRoundProofs friProof))))
    "Number of query rounds does not match config.";;;
  precomputedReducedEvals <- fromOpeningsAndAlpha openings (FriAlpha friChallenges);;
  let nLog := (fp_DegreeBits friParams + RateBits (fp_Config friParams))%nat in
  panic_if (negb (Nat.eqb (length (FriQueryIndices friChallenges)) (length (QueryRoundProofs friProof))))
    "Number of query indices should equal number of query round proofs";;;
  iterM (fun xr : Z * FriQueryRound =>
    verifyQueryRound friParams instance friChallenges precomputedReducedEvals initialMerkleCaps friProof
      (fst xr) nLog (snd xr)) (combine (FriQueryIndices friChallenges) (QueryRoundProofs friProof)).
