(** * Model of plonk/plonk.go.

    The gates made from the gate ids (plonk.go:28-31) are a parameter here. *)
From Coq Require Import String.
From Coq Require Import ZArith List Bool.
From Verif Require Import Zp Circuit Goldilocks Types Fri Gates.
Import ListNotations.
Open Scope Z_scope.
Open Scope circ_scope.

(** plonk/plonk.go:27-53: DEGREE, the [int] 1 << DegreeBits as a field element *)
Definition DEGREE (cd : CommonCircuitData) : Z := shl_int (Z.of_nat (cd_DegreeBits cd)) mod r.

(** plonk/plonk.go:55-61 *)
Definition expPowerOf2Extension (cd : CommonCircuitData) (x : QE) : circ QE :=
  repeatM (cd_DegreeBits cd) (fun x => MulExtension x x) x.

(** plonk/plonk.go:63-83; DEGREE_QE is DEGREE with a zero second limb *)
Definition evalL0 (cd : CommonCircuitData) (x xPowN : QE) : circ QE :=
  evalZeroPoly <- SubExtension xPowN OneExtension;;
  nx <- ScalarMulExtension x (DEGREE cd);;
  denominator <- SubExtension nx (DEGREE cd, Zero);;
  '(quotient, hasQuotient) <- DivExtension evalZeroPoly denominator;;
  api_assert_eq hasQuotient 1;;;
  Ret quotient.

(** plonk/plonk.go:85-119, products of chunk i: numerators and
    denominators number i*q, ..., i*q+q-1 (just i*q if q = 0) *)
Definition chunk_products (numerators denominators : list QE) (q i : nat) : circ (QE * QE) :=
  let ppStartIdx := (i * q)%nat in
  n0 <- nth_ numerators ppStartIdx;;
  d0 <- nth_ denominators ppStartIdx;;
  foldM (fun st j =>
           n <- nth_ numerators (ppStartIdx + j);;
           numeProduct <- MulExtension (fst st) n;;
           d <- nth_ denominators (ppStartIdx + j);;
           denoProduct <- MulExtension (snd st) d;;
           Ret (numeProduct, denoProduct)) (n0, d0) (seq 1 (q - 1)).
(** plonk/plonk.go:85-119.  Slicing past the length but within the capacity
    of PartialProducts is taken to panic as well (the elements there are nil variables). *)
Definition checkPartialProducts (cd : CommonCircuitData) (numerators denominators : list QE) (challengeNum : nat) (o : OpeningSet) : circ (list QE) :=
  let numPartProds := NumPartialProducts cd in
  z <- nth_ (PlonkZs o) challengeNum;;
  pp <- slice (PartialProducts o) (challengeNum * numPartProds) ((challengeNum + 1) * numPartProds);;
  zNext <- nth_ (PlonkZsNext o) challengeNum;;
  let productAccs := z :: pp ++ [zNext] in
  mapM (fun i =>
          '(numeProduct, denoProduct) <- chunk_products numerators denominators (QuotientDegreeFactor cd) i;;
          acc <- nth_ productAccs i;;
          l <- MulExtension acc numeProduct;;
          accNext <- nth_ productAccs (i + 1);;
          r_ <- MulExtension accNext denoProduct;;
          SubExtension l r_) (seq 0 (numPartProds + 1)).

(** plonk/plonk.go:121-207, numerator and denominator of wire j for challenge i *)
Definition wire_terms (pc : ProofChallenges) (o : OpeningSet) (sIDs : list QE) (i j : nat) : circ (QE * QE) :=
  w <- nth_ (Wires o) j;;
  gamma <- nth_ (PlonkGammas pc) i;;
  wireValuePlusGamma <- AddExtension w (gamma, Zero);;
  beta <- nth_ (PlonkBetas pc) i;;
  sid <- nth_ sIDs j;;
  bs <- MulExtension (beta, Zero) sid;;
  numerator <- AddExtension bs wireValuePlusGamma;;
  sigma <- nth_ (PlonkSigmas o) j;;
  bs' <- MulExtension (beta, Zero) sigma;;
  denominator <- AddExtension bs' wireValuePlusGamma;;
  Ret (numerator, denominator).
(** plonk/plonk.go:121-207, the z1 term and the partial product terms of challenge i *)
Definition challenge_terms (cd : CommonCircuitData) (pc : ProofChallenges) (o : OpeningSet) (sIDs : list QE) (l0Zeta : QE) (i : nat) : circ (QE * list QE) :=
  z <- nth_ (PlonkZs o) i;;
  zm1 <- SubExtension z OneExtension;;
  z1_term <- MulExtension l0Zeta zm1;;
  nds <- mapM (wire_terms pc o sIDs i) (seq 0 (NumRoutedWires (cd_Config cd)));;
  checks <- checkPartialProducts cd (map fst nds) (map snd nds) i o;;
  Ret (z1_term, checks).
(** plonk/plonk.go:121-207 *)
Definition evalVanishingPoly (cd : CommonCircuitData) (gates : list Gate) (vars : EvaluationVars) (pc : ProofChallenges) (o : OpeningSet) (zetaPowN : QE) : circ (list QE) :=
  constraintTerms <- EvaluateGateConstraints gates (NumGateConstraints cd) (cd_SelectorsInfo cd) vars;;
  sIDs <- mapM (fun i => k <- nth_ (KIs cd) i;; ScalarMulExtension (PlonkZeta pc) k) (seq 0 (NumRoutedWires (cd_Config cd)));;
  l0Zeta <- evalL0 cd (PlonkZeta pc) zetaPowN;;
  let numChallenges := NumChallenges (cd_Config cd) in
  terms <- mapM (challenge_terms cd pc o sIDs l0Zeta) (seq 0 numChallenges);;
  let vanishingTerms := map fst terms ++ concat (map snd terms) ++ constraintTerms in
  foldM (fun reducedValues term =>
           mapM (fun j =>
                   reduced <- nth_ reducedValues j;;
                   alpha <- nth_ (PlonkAlphas pc) j;;
                   t <- ScalarMulExtension reduced alpha;;
                   AddExtension term t) (seq 0 numChallenges))
        (repeat ZeroExtension numChallenges) (rev vanishingTerms).

(** plonk/plonk.go:209-250 *)
Definition PlonkVerify (cd : CommonCircuitData) (gates : list Gate) (pc : ProofChallenges) (o : OpeningSet) (publicInputsHash : list Z) : circ unit :=
  zetaPowN <- expPowerOf2Extension cd (PlonkZeta pc);;
  vanishingPolysZeta <- evalVanishingPoly cd gates (mkEvaluationVars (Constants o) (Wires o) publicInputsHash) pc o zetaPowN;;
  zHZeta <- SubExtension zetaPowN OneExtension;;
  iterM (fun iv =>
           let start := (fst iv * QuotientDegreeFactor cd)%nat in
           chunk <- slice (QuotientPolys o) start (start + QuotientDegreeFactor cd);;
           q <- ReduceWithPowers chunk zetaPowN;;
           prod <- MulExtension zHZeta q;;
           AssertIsEqualExtension (snd iv) prod)
        (combine (seq 0 (length vanishingPolysZeta)) vanishingPolysZeta).
