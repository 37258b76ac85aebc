(** * Model of challenger/challenger.go and of GetChallenges (verifier/verifier.go).

    The chip is mutated in place in Go; here every function takes the chip state and
    returns the new one.  Functions that use the Goldilocks permutation take its S-box
    width [w] as a parameter; the code has [w = SBOX_BITS = 192]
    (poseidon/goldilocks.go, see PoseidonGL.v). *)
From Coq Require Import String.
From Coq Require Import ZArith List Bool.
From Verif Require Import Zp Circuit Goldilocks PoseidonGL BN254 Types.
Import ListNotations.
Open Scope Z_scope.
Open Scope circ_scope.

(** challenger/challenger.go:14-21 *)
Record chal := mkChal { spongeState : list Z; inputBuffer : list Z; outputBuffer : list Z }.

(** challenger/challenger.go:23-40 *)
Definition NewChip : chal := mkChal (repeat Zero SPONGE_WIDTH) [] [].

(** challenger/challenger.go:146-166.  The inputs overwrite the first lanes. *)
Definition duplexing (w : Z) (c : chal) : circ chal :=
  if Nat.ltb SPONGE_RATE (length (inputBuffer c)) then Panic "something went wrong" else
  xs <- mapM Reduce (inputBuffer c);;
  s <- Poseidon_w w (xs ++ skipn (length xs) (spongeState c));;
  Ret (mkChal s [] (firstn SPONGE_RATE s)).

(** challenger/challenger.go:42-49 *)
Definition ObserveElement (w : Z) (c : chal) (element : Z) : circ chal :=
  let c := mkChal (spongeState c) (inputBuffer c ++ [element]) [] in
  if Nat.eqb (length (inputBuffer c)) SPONGE_RATE then duplexing w c else Ret c.

(** challenger/challenger.go:51-55 *)
Definition ObserveElements (w : Z) (c : chal) (elements : list Z) : circ chal :=
  foldM (ObserveElement w) c elements.

(** challenger/challenger.go:57-60; ToVec (poseidon/goldilocks.go) is the identity *)
Definition ObserveHash (w : Z) (c : chal) (hash : list Z) : circ chal := ObserveElements w c hash.

(** challenger/challenger.go:62-65 *)
Definition ObserveBN254Hash (w : Z) (c : chal) (hash : Z) : circ chal :=
  elements <- ToVec hash;; ObserveElements w c elements.

(** challenger/challenger.go:67-71 *)
Definition ObserveCap (w : Z) (c : chal) (cap : FriMerkleCap) : circ chal :=
  foldM (ObserveBN254Hash w) c cap.

(** challenger/challenger.go:73-75 *)
Definition ObserveExtensionElement (w : Z) (c : chal) (element : QE) : circ chal :=
  ObserveElements w c [fst element; snd element].

(** challenger/challenger.go:77-81 *)
Definition ObserveExtensionElements (w : Z) (c : chal) (elements : list QE) : circ chal :=
  foldM (ObserveExtensionElement w) c elements.

(** challenger/challenger.go:83-87; an [Openings] (fri/vars.go:19-21) is the
    list of the values of its batches *)
Definition ObserveOpenings (w : Z) (c : chal) (openings : list (list QE)) : circ chal :=
  foldM (ObserveExtensionElements w) c openings.

(** challenger/challenger.go:89-98 *)
Definition GetChallenge (w : Z) (c : chal) : circ (Z * chal) :=
  c <- (if negb (Nat.eqb (length (inputBuffer c)) 0) || Nat.eqb (length (outputBuffer c)) 0
        then duplexing w c else Ret c);;
  challenge <- nth_ (outputBuffer c) (length (outputBuffer c) - 1);;
  Ret (challenge, mkChal (spongeState c) (inputBuffer c)
                         (firstn (length (outputBuffer c) - 1) (outputBuffer c))).

(** challenger/challenger.go:100-106 *)
Fixpoint GetNChallenges (w : Z) (c : chal) (n : nat) : circ (list Z * chal) :=
  match n with
  | O => Ret ([], c)
  | S n' => '(x, c) <- GetChallenge w c;; '(xs, c) <- GetNChallenges w c n';; Ret (x :: xs, c)
  end.

(** challenger/challenger.go:108-111 *)
Definition GetExtensionChallenge (w : Z) (c : chal) : circ (QE * chal) :=
  '(values, c) <- GetNChallenges w c 2;;
  v0 <- nth_ values 0;; v1 <- nth_ values 1;;
  Ret ((v0, v1), c).

(** challenger/challenger.go:113-115 *)
Definition GetHash (w : Z) (c : chal) : circ (list Z * chal) := GetNChallenges w c 4.

(** the loop over the commit phase caps, challenger/challenger.go:126-130 *)
Fixpoint getBetas (w : Z) (c : chal) (caps : list FriMerkleCap) : circ (list QE * chal) :=
  match caps with
  | [] => Ret ([], c)
  | cap :: caps' =>
      c <- ObserveCap w c cap;;
      '(b, c) <- GetExtensionChallenge w c;;
      '(bs, c) <- getBetas w c caps';;
      Ret (b :: bs, c)
  end.

(** challenger/challenger.go:117-144 *)
Definition GetFriChallenges (w : Z) (c : chal) (commitPhaseMerkleCaps : list FriMerkleCap)
    (finalPoly : list QE) (powWitness : Z) (config : FriConfig) : circ (FriChallenges * chal) :=
  let numFriQueries := NumQueryRounds config in
  '(friAlpha, c) <- GetExtensionChallenge w c;;
  '(friBetas, c) <- getBetas w c commitPhaseMerkleCaps;;
  c <- ObserveExtensionElements w c finalPoly;;
  c <- ObserveElement w c powWitness;;
  '(friPowResponse, c) <- GetChallenge w c;;
  '(friQueryIndices, c) <- GetNChallenges w c numFriQueries;;
  Ret (mkFriChallenges friAlpha friBetas friPowResponse friQueryIndices, c).

(** fri/fri.go:63-73.  [append(values, ...)] writes into the spare capacity of the slice [c.Constants]; that this
    changes nothing is C71 (GoSlice.v, Prop_GoSlice.v). *)
Definition ToOpenings (c : OpeningSet) : list (list QE) :=
  [Constants c ++ PlonkSigmas c ++ Wires c ++ PlonkZs c ++ PartialProducts c ++ QuotientPolys c;
   PlonkZsNext c].

(** verifier/verifier.go:45-82 *)
Definition GetChallenges (w : Z) (commonData : CommonCircuitData) (proof : Proof_)
    (publicInputsHash : list Z) (verifierData : VerifierOnlyCircuitData) : circ ProofChallenges :=
  let config := cd_Config commonData in
  let numChallenges := NumChallenges config in
  let c := NewChip in
  let circuitDigest := CircuitDigest verifierData in
  c <- ObserveBN254Hash w c circuitDigest;;
  c <- ObserveHash w c publicInputsHash;;
  c <- ObserveCap w c (WiresCap proof);;
  '(plonkBetas, c) <- GetNChallenges w c numChallenges;;
  '(plonkGammas, c) <- GetNChallenges w c numChallenges;;
  c <- ObserveCap w c (PlonkZsPartialProductsCap proof);;
  '(plonkAlphas, c) <- GetNChallenges w c numChallenges;;
  c <- ObserveCap w c (QuotientPolysCap proof);;
  '(plonkZeta, c) <- GetExtensionChallenge w c;;
  c <- ObserveOpenings w c (ToOpenings (Openings proof));;
  '(friChallenges, c) <- GetFriChallenges w c (CommitPhaseMerkleCaps (OpeningProof proof))
                           (FinalPoly (OpeningProof proof)) (PowWitness (OpeningProof proof))
                           (cc_FriConfig config);;
  Ret (mkProofChallenges plonkBetas plonkGammas plonkAlphas plonkZeta friChallenges).
