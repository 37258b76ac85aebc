(** * Configuration and proof data: types/types.go, variables/*.go, plonk/gates/types.go.

    Go [uint64] configuration fields are [nat] (sums and
    products that overflow 64 bits are in Wires and Config64).  Circuit variables
    are their values in [0, r), as in Goldilocks.v. *)
From Coq Require Import String.
From Coq Require Import ZArith List Bool.
From Verif Require Import Zp Circuit Goldilocks.
Import ListNotations.
Open Scope Z_scope.

(** types/types.go:7-15 *)
Record FriConfig := mkFriConfig {
  RateBits : nat; CapHeight : nat; ProofOfWorkBits : nat; NumQueryRounds : nat }.
(** types/types.go:21-26 *)
Record FriParams := mkFriParams {
  fp_Config : FriConfig; Hiding : bool; fp_DegreeBits : nat; ReductionArityBits : list nat }.
(** types/types.go:28-34; sums beyond 64 bits are in Config64 *)
Definition TotalArities (p : FriParams) : nat := list_sum (ReductionArityBits p).
(** types/types.go:46-48 *)
Definition LdeBits (p : FriParams) : nat := fp_DegreeBits p + RateBits (fp_Config p).
(** types/types.go:54-56; can be negative *)
Definition FinalPolyBits (p : FriParams) : Z := Z.of_nat (fp_DegreeBits p) - Z.of_nat (TotalArities p).
(** Go's [1 << n] in type [int]: 64-bit two's complement; the caller deals with n < 0 *)
Definition shl_int (n : Z) : Z :=
  if n <? 63 then 2 ^ n else if n =? 63 then - 2 ^ 63 else 0.
(** types/types.go:58-60; shifting by a negative amount panics *)
Definition FinalPolyLen (p : FriParams) : circ Z :=
  if FinalPolyBits p <? 0 then Panic "negative shift amount" else Ret (shl_int (FinalPolyBits p)).

(** types/types.go:62-72 *)
Record CircuitConfig := mkCircuitConfig {
  NumWires : nat; NumRoutedWires : nat; cc_NumConstants : nat; UseBaseArithmeticGate : bool;
  SecurityBits : nat; NumChallenges : nat; ZeroKnowledge : bool; MaxQuotientDegreeFactor : nat;
  cc_FriConfig : FriConfig }.
(** plonk/gates/types.go:5-13: selector index of every gate, and the groups [start, end) *)
Record SelectorsInfo := mkSelectorsInfo {
  selectorIndices : list nat; groups : list (nat * nat) }.
(** plonk/gates/types.go:34-36 *)
Definition NumSelectors (s : SelectorsInfo) : nat := length (groups s).
(** types/types.go:74-86.  The embedded FriParams is the field [cd_FriParams]; the
    struct has a [DegreeBits] field of its own, which shadows the embedded one. *)
Record CommonCircuitData := mkCommonCircuitData {
  cd_Config : CircuitConfig; cd_FriParams : FriParams; GateIds : list string;
  cd_SelectorsInfo : SelectorsInfo; cd_DegreeBits : nat; QuotientDegreeFactor : nat;
  NumGateConstraints : nat; cd_NumConstants : nat; NumPublicInputs : nat; KIs : list Z;
  NumPartialProducts : nat }.

(** variables/fri.go:16, a cap is a list of BN254 digests *)
Definition FriMerkleCap : Set := list Z.
(** variables/fri.go:30-33; the Merkle proof is its list of siblings (22-24) *)
Record FriEvalProof := mkFriEvalProof { Elements : list Z; ep_Siblings : list Z }.
(** variables/fri.go:47-50 *)
Record FriQueryStep := mkFriQueryStep { Evals : list QE; st_Siblings : list Z }.
(** variables/fri.go:59-62; FriInitialTreeProof (39-41) is its list of EvalsProofs *)
Record FriQueryRound := mkFriQueryRound { InitialTreesProof : list FriEvalProof; Steps : list FriQueryStep }.
(** variables/fri.go:68-73; PolynomialCoeffs (8-10) is its list of coefficients *)
Record FriProof := mkFriProof {
  CommitPhaseMerkleCaps : list FriMerkleCap; QueryRoundProofs : list FriQueryRound;
  FinalPoly : list QE; PowWitness : Z }.
(** variables/fri.go:75-80 *)
Record FriChallenges := mkFriChallenges {
  FriAlpha : QE; FriBetas : list QE; FriPowResponse : Z; FriQueryIndices : list Z }.
(** variables/plonk.go:5-13 *)
Record OpeningSet := mkOpeningSet {
  Constants : list QE; PlonkSigmas : list QE; Wires : list QE; PlonkZs : list QE;
  PlonkZsNext : list QE; PartialProducts : list QE; QuotientPolys : list QE }.
(** variables/plonk.go:15-21 *)
Record ProofChallenges := mkProofChallenges {
  PlonkBetas : list Z; PlonkGammas : list Z; PlonkAlphas : list Z; PlonkZeta : QE;
  pc_FriChallenges : FriChallenges }.
(** variables/circuit.go:8-14 *)
Record Proof_ := mkProof {
  WiresCap : FriMerkleCap; PlonkZsPartialProductsCap : FriMerkleCap; QuotientPolysCap : FriMerkleCap;
  Openings : OpeningSet; OpeningProof : FriProof }.
(** variables/circuit.go:21-24 *)
Record VerifierOnlyCircuitData := mkVerifierOnlyCircuitData {
  ConstantSigmasCap : FriMerkleCap; CircuitDigest : Z }.
