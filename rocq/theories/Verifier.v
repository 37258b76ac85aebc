(** * The verifier circuit: verifier/verifier.go and verifier/util.go.

    [w] is the number of bits to which the quotient hint of the S-box is checked, as in
    PoseidonGL.v; the code has w = 192.  The chips that the constructor stores are
    stateless in the model; what the constructor computes is the list of gates, and what it
    can do is panic. *)
From Coq Require Import String.
From Coq Require Import ZArith List.
From Verif Require Import Circuit Goldilocks PoseidonGL Types Challenger Fri Gates Plonk GateIds.
Import ListNotations.
Open Scope Z_scope.

(** verifier/verifier.go:24-39 with plonk/plonk.go:27-53.  [orders i] is the order in which Go
    iterates over the map of gate parsers for the i-th identifier. *)
Definition NewVerifierChip (orders : nat -> list handler) (commonCircuitData : CommonCircuitData) : circ (list Gate) :=
  createdGates orders (GateIds commonCircuitData).

(** verifier/verifier.go:41-43 *)
Definition GetPublicInputsHash (w : Z) (publicInputs : list Z) : circ (list Z) := HashNoPad_w w publicInputs.

(** verifier/verifier.go:84-141 *)
Definition rangeCheckOpenings (o : OpeningSet) : circ unit :=
  iterM RangeCheckQE (Constants o);;;
  iterM RangeCheckQE (PlonkSigmas o);;;
  iterM RangeCheckQE (Wires o);;;
  iterM RangeCheckQE (PlonkZs o);;;
  iterM RangeCheckQE (PlonkZsNext o);;;
  iterM RangeCheckQE (PartialProducts o);;;
  iterM RangeCheckQE (QuotientPolys o).
Definition rangeCheckRound (queryRound : FriQueryRound) : circ unit :=
  iterM (fun evalsProof => iterM RangeCheck (Elements evalsProof)) (InitialTreesProof queryRound);;;
  iterM (fun queryStep => iterM RangeCheckQE (Evals queryStep)) (Steps queryRound).
Definition rangeCheckProof (proof : Proof_) : circ unit :=
  rangeCheckOpenings (Openings proof);;;
  iterM rangeCheckRound (QueryRoundProofs (OpeningProof proof));;;
  iterM RangeCheckQE (FinalPoly (OpeningProof proof));;;
  RangeCheck (PowWitness (OpeningProof proof)).

(** verifier/verifier.go:143-172 *)
Definition Verify (w : Z) (commonData : CommonCircuitData) (gates : list Gate) (proof : Proof_)
    (publicInputs : list Z) (verifierData : VerifierOnlyCircuitData) : circ unit :=
  rangeCheckProof proof;;;
  publicInputsHash <- GetPublicInputsHash w publicInputs;;
  proofChallenges <- GetChallenges w commonData proof publicInputsHash verifierData;;
  PlonkVerify commonData gates proofChallenges (Openings proof) publicInputsHash;;;
  let initialMerkleCaps :=
    [ConstantSigmasCap verifierData; WiresCap proof; PlonkZsPartialProductsCap proof; QuotientPolysCap proof] in
  instance <- GetInstance commonData (PlonkZeta proofChallenges);;
  VerifyFriProof (cd_FriParams commonData) instance (ToOpenings (Openings proof))
    (pc_FriChallenges proofChallenges) initialMerkleCaps (OpeningProof proof).

(** verifier/util.go:19-24.  The struct tags (lines 11-13) make the public inputs public
    and keep the proof and the verifier data out of the witness, so that gnark takes the
    values in the struct as constants of the circuit; the model has values in either case. *)
Definition Define (orders : nat -> list handler) (w : Z) (commonData : CommonCircuitData) (proof : Proof_)
    (publicInputs : list Z) (verifierData : VerifierOnlyCircuitData) : circ unit :=
  gates <- NewVerifierChip orders commonData;;
  Verify w commonData gates proof publicInputs verifierData.
