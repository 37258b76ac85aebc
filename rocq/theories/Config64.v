(** * Model of the arithmetic on configuration values, in 64-bit arithmetic.

    In Types, Fri, Plonk and Verifier the configuration values are natural numbers that do not
    overflow.  The code computes with uint64 and int: sums and products wrap around, and
    conversions change the sign.  Here are the functions of the code that compute with
    configuration values, with this arithmetic; the rest is that of the other files.

    [M] is the largest number of elements that a slice can have: [make] with more elements
    panics, and so does an append to a slice that is that long (in Go both are run-time panics,
    or the program is out of memory). *)
From Coq Require Import String.
From Coq Require Import ZArith NArith Lia List Bool.
From Verif Require Import Zp Circuit Goldilocks PoseidonGL Types Challenger Fri Gates Plonk Verifier Wires.
Import ListNotations.
Open Scope Z_scope.
Open Scope circ_scope.

(** Go's conversion to int, and the wrap-around of int *)
Definition i64 (x : Z) : Z := (x + 2 ^ 63) mod 2 ^ 64 - 2 ^ 63.

(** ** types/types.go *)
(** types/types.go:28-34 *)
Definition TotalArities64 (p : FriParams) : Z :=
  fold_left (fun res b => i64 (res + i64 (Z.of_nat b))) (ReductionArityBits p) 0.
(** types/types.go:46-48 before the conversion; also fri/fri.go:402 and 523 *)
Definition nLog64 (p : FriParams) : Z := add64 (Z.of_nat (fp_DegreeBits p)) (Z.of_nat (RateBits (fp_Config p))).
(** types/types.go:46-48 *)
Definition LdeBits64 (p : FriParams) : Z := i64 (nLog64 p).
(** types/types.go:54-56 *)
Definition FinalPolyBits64 (p : FriParams) : Z := i64 (i64 (Z.of_nat (fp_DegreeBits p)) - TotalArities64 p).
(** types/types.go:58-60 *)
Definition FinalPolyLen64 (p : FriParams) : circ Z :=
  if FinalPolyBits64 p <? 0 then Panic "negative shift amount" else Ret (shl_int (FinalPolyBits64 p)).

(** slicing with ints or uint64s; a negative int is out of range *)
Definition slice_int {A} (l : list A) (a b : Z) : circ (list A) :=
  panic_if ((a <? 0) || (b <? 0)) "slice bounds out of range";;;
  slice l (Z.to_nat a) (Z.to_nat b).
Definition make_ (M : Z) (n : Z) : circ unit := panic_if (M <? n) "makeslice: len out of range".

(** ** fri/fri_utils.go *)
(** fri/fri_utils.go:46-57, called with startPolyIdx = 0 *)
Definition polynomialInfoFromRange64 (M : Z) (oracleIdx : nat) (endPolyIdx : Z) : circ (list (nat * nat)) :=
  panic_if (M <? endPolyIdx) "growslice: len out of range";;;
  Ret (map (fun i => (oracleIdx, i)) (seq 0 (Z.to_nat endPolyIdx))).
(** fri/fri_utils.go:60-72: the last element of the range.  The loop condition i <= end always
    holds if end is the largest uint64; then the slice grows until it is too long. *)
Definition numPreprocessedPolys64 (M : Z) (c : CommonCircuitData) : circ Z :=
  let start := Z.of_nat (cd_NumConstants c) in
  let end_ := add64 start (Z.of_nat (NumRoutedWires (cd_Config c))) in
  panic_if ((end_ =? 2 ^ 64 - 1) || (M <? end_ - start + 1)) "growslice: len out of range";;;
  panic_if (end_ <? start) "index out of range [-1]";;;
  Ret end_.
(** fri/fri_utils.go:74-76 *)
Definition numZSPartialProductsPolys64 (c : CommonCircuitData) : Z :=
  mul64 (Z.of_nat (NumChallenges (cd_Config c))) (add64 1 (Z.of_nat (NumPartialProducts c))).
(** fri/fri_utils.go:78-80 *)
Definition numQuotientPolys64 (c : CommonCircuitData) : Z :=
  mul64 (Z.of_nat (NumChallenges (cd_Config c))) (Z.of_nat (QuotientDegreeFactor c)).
(** fri/fri_utils.go:123-142 *)
Definition friOracles64 (M : Z) (c : CommonCircuitData) : circ (list OracleInfo) :=
  numPreprocessed <- numPreprocessedPolys64 M c;;
  Ret [mkOracleInfo (Z.to_nat numPreprocessed) false; mkOracleInfo (NumWires (cd_Config c)) true;
       mkOracleInfo (Z.to_nat (numZSPartialProductsPolys64 c)) true; mkOracleInfo (Z.to_nat (numQuotientPolys64 c)) true].
(** fri/fri_utils.go:144-152, with 82-112.  The list of all polynomials may be longer than M. *)
Definition friAllPolys64 (M : Z) (c : CommonCircuitData) : circ (list (nat * nat)) :=
  numPreprocessed <- numPreprocessedPolys64 M c;;
  preprocessed <- polynomialInfoFromRange64 M 0 numPreprocessed;;
  wires <- polynomialInfoFromRange64 M 1 (Z.of_nat (NumWires (cd_Config c)));;
  zs <- polynomialInfoFromRange64 M 2 (numZSPartialProductsPolys64 c);;
  quotient <- polynomialInfoFromRange64 M 3 (numQuotientPolys64 c);;
  Ret (preprocessed ++ wires ++ zs ++ quotient).
(** fri/fri.go:40-61, with fri/fri_utils.go:114-121 *)
Definition GetInstance64 (M : Z) (c : CommonCircuitData) (zeta : QE) : circ InstanceInfo :=
  allPolys <- friAllPolys64 M c;;
  g <- PrimitiveRootOfUnity (cd_DegreeBits c);;
  zetaNext <- MulExtension (ToQuadraticExtension g) zeta;;
  zsPolys <- polynomialInfoFromRange64 M 2 (Z.of_nat (NumChallenges (cd_Config c)));;
  oracles <- friOracles64 M c;;
  Ret (mkInstanceInfo oracles [mkBatchInfo zeta allPolys; mkBatchInfo zetaNext zsPolys]).

(** fri/fri_utils.go:167-228, the loop over the initial tree proofs of a query round *)
Definition validateInitial64 (params : FriParams) (instance : InstanceInfo) (queryRound : FriQueryRound) : circ unit :=
  let capHeight := Z.of_nat (CapHeight (fp_Config params)) in
  panic_if (negb (Nat.eqb (length (InitialTreesProof queryRound)) (length (Oracles instance))))
    "eval proofs length is not equal to instance oracles length";;;
  iterM (fun eo : FriEvalProof * OracleInfo =>
    let (evalProof, oracle) := eo in
    let salt_size := if Blinding oracle && Hiding params then 4 else 0 in
    panic_if (negb (Z.of_nat (length (Elements evalProof)) =? i64 (i64 (Z.of_nat (NumPolys oracle)) + salt_size)))
      "eval proof leaf length doesn't match oracle info";;;
    panic_if (negb (i64 (Z.of_nat (length (ep_Siblings evalProof)) + i64 capHeight) =? LdeBits64 params))
      "length of merkle proof + capHeight doesn't match lde_bits from params")
    (combine (InitialTreesProof queryRound) (Oracles instance)).
(** fri/fri_utils.go:167-228, the loop over the steps of a query round *)
Definition validateSteps64 (params : FriParams) (queryRound : FriQueryRound) : circ unit :=
  let capHeight := Z.of_nat (CapHeight (fp_Config params)) in
  panic_if (negb (Nat.eqb (length (Steps queryRound)) (length (ReductionArityBits params))))
    "length of steps != params.reduction_arity_bits";;;
  _ <- foldM (fun codewordLenBits (sa : FriQueryStep * nat) =>
    let (step, arityBits) := sa in
    let codewordLenBits := i64 (codewordLenBits - i64 (Z.of_nat arityBits)) in
    panic_if (negb (Z.of_nat (length (Evals step)) =? shl_int (Z.of_nat arityBits))) "len evals doesn't match arity";;;
    panic_if (negb (i64 (Z.of_nat (length (st_Siblings step)) + i64 capHeight) =? codewordLenBits))
      "len merkleProof doesn't match codewordLenBits";;;
    Ret codewordLenBits) (LdeBits64 params) (combine (Steps queryRound) (ReductionArityBits params));;
  Ret tt.
(** fri/fri_utils.go:167-228 *)
Definition validateFriProofShape64 (proof : FriProof) (instance : InstanceInfo) (params : FriParams) : circ unit :=
  iterM (fun cap : FriMerkleCap =>
    panic_if (negb (shl_int (Z.of_nat (CapHeight (fp_Config params))) =? Z.of_nat (length cap)))
      "config cap_height does not match commit_phase_merkle_caps") (CommitPhaseMerkleCaps proof);;;
  iterM (fun queryRound => validateInitial64 params instance queryRound;;; validateSteps64 params queryRound)
    (QueryRoundProofs proof);;;
  finalPolyLen <- FinalPolyLen64 params;;
  panic_if (negb (Z.of_nat (length (FinalPoly proof)) =? finalPolyLen)) "len finalPoly doesn't match params FinalPolyLen".

(** ** fri/fri.go *)
(** fri/fri.go:75-80, with goldilocks/base.go:403-405 *)
Definition assertLeadingZeros64 (powWitness : Z) (friConfig : FriConfig) : circ unit :=
  RangeCheckWithMaxBits powWitness (i64 (sub64 64 (Z.of_nat (ProofOfWorkBits friConfig)))).
(** fri/fri.go:386-498 *)
Definition verifyQueryRound64 (friParams : FriParams) (instance : InstanceInfo) (challenges : FriChallenges)
    (precomputedReducedEval : list QE) (initialMerkleCaps : list FriMerkleCap) (proof : FriProof)
    (xIndex : Z) (nLog : Z) (roundProof : FriQueryRound) : circ unit :=
  assertNoncanonicalIndicesOK friParams;;;
  xIndex <- Reduce xIndex;;
  bits <- api_to_binary xIndex 64;;
  xIndexBits <- slice_to bits (Z.to_nat (nLog64 friParams));;
  let n := Z.of_nat (length xIndexBits) in
  capIndexBits <- slice_int xIndexBits (i64 (n - i64 (Z.of_nat (CapHeight (fp_Config friParams))))) n;;
  verifyInitialProof xIndexBits (InitialTreesProof roundProof) initialMerkleCaps capIndexBits;;;
  subgroupX <- calculateSubgroupX xIndexBits (Z.to_nat nLog);;
  oldEval <- friCombineInitial instance (InitialTreesProof roundProof) (FriAlpha challenges)
               (ToQuadraticExtension subgroupX) precomputedReducedEval;;
  '(oldEval, subgroupX, _) <- foldM (query_step challenges proof roundProof capIndexBits) (oldEval, subgroupX, xIndexBits)
       (combine (seq 0 (length (ReductionArityBits friParams))) (ReductionArityBits friParams));;
  finalEval <- finalPolyEval (FinalPoly proof) (ToQuadraticExtension subgroupX);;
  AssertIsEqual (fst oldEval) (fst finalEval);;;
  AssertIsEqual (snd oldEval) (snd finalEval).
(** fri/fri.go:500-548 *)
Definition VerifyFriProof64 (friParams : FriParams) (instance : InstanceInfo) (openings : list (list QE))
    (friChallenges : FriChallenges) (initialMerkleCaps : list FriMerkleCap) (friProof : FriProof) : circ unit :=
  validateFriProofShape64 friProof instance friParams;;;
  assertLeadingZeros64 (FriPowResponse friChallenges) (fp_Config friParams);;;
  panic_if (negb (i64 (Z.of_nat (NumQueryRounds (fp_Config friParams))) =? Z.of_nat (length (QueryRoundProofs friProof))))
    "Number of query rounds does not match config.";;;
  precomputedReducedEvals <- fromOpeningsAndAlpha openings (FriAlpha friChallenges);;
  let nLog := nLog64 friParams in
  panic_if (negb (Nat.eqb (length (FriQueryIndices friChallenges)) (length (QueryRoundProofs friProof))))
    "Number of query indices should equal number of query round proofs";;;
  iterM (fun xr : Z * FriQueryRound =>
    verifyQueryRound64 friParams instance friChallenges precomputedReducedEvals initialMerkleCaps friProof
      (fst xr) nLog (snd xr)) (combine (FriQueryIndices friChallenges) (QueryRoundProofs friProof)).

(** ** plonk/plonk.go *)
(** plonk/plonk.go:85-119, products of chunk n *)
Definition chunk_products64 (numerators denominators : list QE) (q : nat) (n : nat) : circ (QE * QE) :=
  let ppStartIdx := mul64 (Z.of_nat n) (Z.of_nat q) in
  n0 <- index numerators ppStartIdx;;
  d0 <- index denominators ppStartIdx;;
  foldM (fun st j =>
           n <- index numerators (add64 ppStartIdx (Z.of_nat j));;
           numeProduct <- MulExtension (fst st) n;;
           d <- index denominators (add64 ppStartIdx (Z.of_nat j));;
           denoProduct <- MulExtension (snd st) d;;
           Ret (numeProduct, denoProduct)) (n0, d0) (seq 1 (q - 1)).
(** plonk/plonk.go:85-119 *)
Definition checkPartialProducts64 (M : Z) (cd : CommonCircuitData) (numerators denominators : list QE) (challengeNum : nat) (o : OpeningSet) : circ (list QE) :=
  let numPartProds := Z.of_nat (NumPartialProducts cd) in
  let c := Z.of_nat challengeNum in
  make_ M (add64 numPartProds 2);;;
  z <- nth_ (PlonkZs o) challengeNum;;
  pp <- slice_int (PartialProducts o) (mul64 c numPartProds) (mul64 (add64 c 1) numPartProds);;
  zNext <- nth_ (PlonkZsNext o) challengeNum;;
  make_ M numPartProds;;;
  let productAccs := z :: pp ++ [zNext] in
  mapM (fun i =>
          '(numeProduct, denoProduct) <- chunk_products64 numerators denominators (QuotientDegreeFactor cd) i;;
          acc <- nth_ productAccs i;;
          l <- MulExtension acc numeProduct;;
          accNext <- index productAccs (add64 (Z.of_nat i) 1);;
          r_ <- MulExtension accNext denoProduct;;
          SubExtension l r_) (seq 0 (NumPartialProducts cd + 1)).
(** plonk/plonk.go:121-207, the z1 term and the partial product terms of challenge i *)
Definition challenge_terms64 (M : Z) (cd : CommonCircuitData) (pc : ProofChallenges) (o : OpeningSet) (sIDs : list QE) (l0Zeta : QE) (i : nat) : circ (QE * list QE) :=
  z <- nth_ (PlonkZs o) i;;
  zm1 <- SubExtension z OneExtension;;
  z1_term <- MulExtension l0Zeta zm1;;
  make_ M (Z.of_nat (NumRoutedWires (cd_Config cd)));;;
  nds <- mapM (wire_terms pc o sIDs i) (seq 0 (NumRoutedWires (cd_Config cd)));;
  checks <- checkPartialProducts64 M cd (map fst nds) (map snd nds) i o;;
  Ret (z1_term, checks).
(** plonk/plonk.go:121-207; plonk/gates/evaluate_gates.go:79 makes the slice of the constraints *)
Definition evalVanishingPoly64 (M : Z) (unset : QE) (cd : CommonCircuitData) (gates : list Gate) (vars : EvaluationVars) (pc : ProofChallenges) (o : OpeningSet) (zetaPowN : QE) : circ (list QE) :=
  make_ M (Z.of_nat (NumGateConstraints cd));;;
  constraintTerms <- EvaluateGateConstraints64 unset gates (NumGateConstraints cd) (cd_SelectorsInfo cd) vars;;
  make_ M (Z.of_nat (NumRoutedWires (cd_Config cd)));;;
  sIDs <- mapM (fun i => k <- nth_ (KIs cd) i;; ScalarMulExtension (PlonkZeta pc) k) (seq 0 (NumRoutedWires (cd_Config cd)));;
  l0Zeta <- evalL0 cd (PlonkZeta pc) zetaPowN;;
  let numChallenges := NumChallenges (cd_Config cd) in
  make_ M (Z.of_nat numChallenges);;;
  make_ M (mul64 (Z.of_nat numChallenges) (Z.of_nat (NumPartialProducts cd)));;;
  terms <- mapM (challenge_terms64 M cd pc o sIDs l0Zeta) (seq 0 numChallenges);;
  let vanishingTerms := map fst terms ++ concat (map snd terms) ++ constraintTerms in
  foldM (fun reducedValues term =>
           mapM (fun j =>
                   reduced <- nth_ reducedValues j;;
                   alpha <- nth_ (PlonkAlphas pc) j;;
                   t <- ScalarMulExtension reduced alpha;;
                   AddExtension term t) (seq 0 numChallenges))
        (repeat ZeroExtension numChallenges) (rev vanishingTerms).
(** plonk/plonk.go:209-250 *)
Definition PlonkVerify64 (M : Z) (unset : QE) (cd : CommonCircuitData) (gates : list Gate) (pc : ProofChallenges) (o : OpeningSet) (publicInputsHash : list Z) : circ unit :=
  zetaPowN <- expPowerOf2Extension cd (PlonkZeta pc);;
  vanishingPolysZeta <- evalVanishingPoly64 M unset cd gates (mkEvaluationVars (Constants o) (Types.Wires o) publicInputsHash) pc o zetaPowN;;
  zHZeta <- SubExtension zetaPowN OneExtension;;
  iterM (fun iv =>
           let q := i64 (Z.of_nat (QuotientDegreeFactor cd)) in
           let start := i64 (Z.of_nat (fst iv) * q) in
           chunk <- slice_int (QuotientPolys o) start (i64 (start + q));;
           q <- ReduceWithPowers chunk zetaPowN;;
           prod <- MulExtension zHZeta q;;
           AssertIsEqualExtension (snd iv) prod)
        (combine (seq 0 (length vanishingPolysZeta)) vanishingPolysZeta).

(** ** challenger/challenger.go and verifier/verifier.go *)
(** challenger/challenger.go:100-106 *)
Definition GetNChallenges64 (M w : Z) (c : chal) (n : nat) : circ (list Z * chal) :=
  make_ M (Z.of_nat n);;;
  GetNChallenges w c n.
(** challenger/challenger.go:117-144 *)
Definition GetFriChallenges64 (M w : Z) (c : chal) (commitPhaseMerkleCaps : list FriMerkleCap)
    (finalPoly : list QE) (powWitness : Z) (config : FriConfig) : circ (FriChallenges * chal) :=
  let numFriQueries := NumQueryRounds config in
  '(friAlpha, c) <- GetExtensionChallenge w c;;
  '(friBetas, c) <- getBetas w c commitPhaseMerkleCaps;;
  c <- ObserveExtensionElements w c finalPoly;;
  c <- ObserveElement w c powWitness;;
  '(friPowResponse, c) <- GetChallenge w c;;
  '(friQueryIndices, c) <- GetNChallenges64 M w c numFriQueries;;
  Ret (mkFriChallenges friAlpha friBetas friPowResponse friQueryIndices, c).
(** verifier/verifier.go:45-82 *)
Definition GetChallenges64 (M w : Z) (commonData : CommonCircuitData) (proof : Proof_)
    (publicInputsHash : list Z) (verifierData : VerifierOnlyCircuitData) : circ ProofChallenges :=
  let config := cd_Config commonData in
  let numChallenges := NumChallenges config in
  let c := NewChip in
  let circuitDigest := CircuitDigest verifierData in
  c <- ObserveBN254Hash w c circuitDigest;;
  c <- ObserveHash w c publicInputsHash;;
  c <- ObserveCap w c (WiresCap proof);;
  '(plonkBetas, c) <- GetNChallenges64 M w c numChallenges;;
  '(plonkGammas, c) <- GetNChallenges64 M w c numChallenges;;
  c <- ObserveCap w c (PlonkZsPartialProductsCap proof);;
  '(plonkAlphas, c) <- GetNChallenges64 M w c numChallenges;;
  c <- ObserveCap w c (QuotientPolysCap proof);;
  '(plonkZeta, c) <- GetExtensionChallenge w c;;
  c <- ObserveOpenings w c (ToOpenings (Openings proof));;
  '(friChallenges, c) <- GetFriChallenges64 M w c (CommitPhaseMerkleCaps (OpeningProof proof))
                           (FinalPoly (OpeningProof proof)) (PowWitness (OpeningProof proof))
                           (cc_FriConfig config);;
  Ret (mkProofChallenges plonkBetas plonkGammas plonkAlphas plonkZeta friChallenges).
(** verifier/verifier.go:143-172 *)
Definition Verify64 (M : Z) (unset : QE) (w : Z) (commonData : CommonCircuitData) (gates : list Gate) (proof : Proof_)
    (publicInputs : list Z) (verifierData : VerifierOnlyCircuitData) : circ unit :=
  rangeCheckProof proof;;;
  publicInputsHash <- GetPublicInputsHash w publicInputs;;
  proofChallenges <- GetChallenges64 M w commonData proof publicInputsHash verifierData;;
  PlonkVerify64 M unset commonData gates proofChallenges (Openings proof) publicInputsHash;;;
  let initialMerkleCaps :=
    [ConstantSigmasCap verifierData; WiresCap proof; PlonkZsPartialProductsCap proof; QuotientPolysCap proof] in
  instance <- GetInstance64 M commonData (PlonkZeta proofChallenges);;
  VerifyFriProof64 (cd_FriParams commonData) instance (ToOpenings (Openings proof))
    (pc_FriChallenges proofChallenges) initialMerkleCaps (OpeningProof proof).
(** verifier/util.go:19-24 *)
Definition Define64 (M : Z) (unset : QE) (orders : nat -> list GateIds.handler) (w : Z) (commonData : CommonCircuitData) (proof : Proof_)
    (publicInputs : list Z) (verifierData : VerifierOnlyCircuitData) : circ unit :=
  gates <- NewVerifierChip orders commonData;;
  Verify64 M unset w commonData gates proof publicInputs verifierData.
