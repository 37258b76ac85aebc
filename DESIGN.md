# Design of the formal model of gnark-plonky2-verifier

## 1. What is modelled

The Go code builds a gnark circuit: it calls `frontend.API` methods, asks the
solver for *hints* (values the prover is free to choose) and adds constraints.
The security question is always the same: which values can the circuit's
variables take in *some* assignment that meets every constraint, and does the
honest solver find one?

The model is a deep enough embedding to answer it:

* `Circuit.v`: a free monad `circ A` with constructors for returning a value,
  asking for hint outputs (with the honest hint's answer, or its error),
  asserting a boolean condition on field values, range-checking to a number of
  bits, and panicking at definition time.  Circuit variables are represented by
  their value in a given assignment, an integer in `[0, r)` (r = BN254 scalar
  field order).  Two semantics:
  * `reach c a`: some choice of hint outputs in `[0, r)` satisfies every
    constraint met, and the circuit's result is then `a` (malicious prover);
  * `run c`: the outcome with the honest hint functions
    (`Done a`, `Panicked`, `HintFailed`, `Unsat`).
* Every Go function of the verifier becomes one Gallina function in that monad,
  named after it and citing file and lines.
* Specifications are separate: plain functions over the mathematical field
  `GF` = Z/pZ (p = 2^64-2^32+1, proved prime) and `K` = GF[X]/(X^2-7), plain
  lists, polynomials.  Nothing in a specification mentions the monad or the
  model's helpers.
* The typical theorem is `enforces c P a`: the honest run ends in `Done a` if
  `P`, and every `reach`able result implies `P` and equals `a`.  This is
  completeness, soundness and determinism in one statement.

## 2. Trusted base

* Coq 8.16.1's kernel (including `vm_compute`).
* Axioms: see section 5 (the list printed by `Print Assumptions` for each
  theorem in the `Prop_*.v` files).  None are declared by this development.
* My reading of the Go code (the code is not run here).  Test vectors from the
  repository's own tests are evaluated against the model as `Example`s.
  The vectors of `gates_test.go` are replayed by `validation/gates_vectors.py`
  (too slow for coqchk to be part of the build).
  `validation/testdata.py` extracts the whole model to OCaml and runs it on the proofs in
  /repo/testdata, from the JSON files to the last constraint: both are accepted, the challenges of
  decode_block are those asserted in `fri_test.go`, and every proof with one number changed is rejected.
  It also counts the range checks: 624689 and 653875, the numbers of C89.
* gnark's contract: `Add, Mul, Sub, MulAcc, Neg, Select, Lookup2, IsZero,
  ToBinary, FromBinary, AssertIsEqual, AssertIsBoolean, NewHint`, the builder's
  `Defer` order and `rangecheck.New(api).Check(v, n)` (v < 2^n) behave as
  documented, over the BN254 scalar field.  `ToBinary(x, n)` returns the bits
  of a canonical value (gnark >= 0.9.0 adds the modulus check for full width).
  The range checking side of gnark is spelled out as a state machine in
  `RangeModes.v`: `Defer` appends a callback, callbacks run in order after
  definition, `rangecheck.New` returns the api itself, one shared committing
  checker per compiler or the plain checker; the committing checker decomposes
  into limbs of its own optimal width and panics on late requests.  That a limb
  looked up in its table is in the table (the log-derivative argument) is trusted.
  The mutexes of `goldilocks.New` are taken to make its operations atomic.
* Circuit values are immutable.  Only `MulAcc` may overwrite an expression (its
  first argument); that no function of /repo reads such an expression again is C70
  (`Alias.v`), with one exception, `MulAdd`, where the rule of gnark v0.9.1 is trusted:
  in place only if the sum fits, and `NewHint` returns slices of capacity one.
* A Go slice is the list of its elements.  The only place in /repo where `append` can write
  into an array somebody else holds is `ToOpenings`; C71 (`GoSlice.v`) treats it with arrays and
  capacities.
* The lexical part of `encoding/json` (bytes to a JSON value; also that two keys
  are the same to it if equal up to ASCII case).  The assignment of JSON values to Go
  structs is modelled in `Deser.v`.
* gnark's walk over circuit structs (which leaves become variables, in which order) and its use by
  `Compile` and `NewWitness`, as written down in `Schema.v`.
* Not modelled: gnark's compilers and the Groth16/PLONK back ends, the ignition and kzg libraries (`benchmark.go` and `trusted_setup` are modelled over arbitrary such libraries), logging and profiling.

## 3. Files (rocq/theories)

Listed in dependency order.  `Prop_*.v` hold the property theorems, with a concrete
case beside each; the others hold the model, the specifications and the lemmas.

| file | content |
|------|---------|
| Zp.v | Number theory: the two moduli, primality of the Goldilocks prime, Fermat. |
| GF.v | The Goldilocks field GF(p) and its quadratic extension K = GF(p)[X]/(X^2-7). |
| Circuit.v | Circuits as a free monad, with malicious-prover and honest-solver semantics. |
| Goldilocks.v | Model of goldilocks/base.go, quadratic_extension.go and quadratic_extension_algebra.go. |
| GLProofs.v | Correctness of the goldilocks chip (base field part). |
| ExtProofs.v | Correctness of the quadratic extension and extension algebra operations. |
| PoseidonGLConst.v | Generated from /repo/poseidon/goldilocks_constants.go (data only). |
| LinAlg.v | Vectors over a commutative ring R, matrices over GF acting through a ring homomorphism [phi : GF -> R]. Plain lists. |
| Sparse.v | Partial rounds with sparse matrices are the textbook partial rounds. |
| PoseidonSpec.v | Specification: the textbook Poseidon permutation of plonky2 (width 12, 4+22+4 rounds, x^7), generic in a commutative ring R over GF and in the S-box relation; and the proof that the sparse-matrix ("fa |
| PoseidonGL.v | Model of poseidon/goldilocks.go. |
| PoseidonGLProofs.v | The Goldilocks Poseidon circuit refines the textbook permutation. |
| Sponge.v | Specification of the overwrite-mode sponge and the proofs about HashNToMNoPad and HashNoPad (poseidon/goldilocks.go). |
| PoseidonExt.v | The extension-field Poseidon layers (used by the gates) compute the layer maps of the textbook permutation over K. |
| Prop_Base.v | Properties C01-C05 and C10-C16: base field, extension field and algebra. |
| Prop_Poseidon.v | Properties C18-C21: Goldilocks Poseidon, the sponge, the extension layers. |
| BN254Const.v | Constants of the BN254 Poseidon, transcribed from poseidon/bn254_constants.go:12-540 (every SetString call, in index order). |
| Fr.v | The BN254 scalar field Z/r as a ring with Leibniz equality. |
| BN254Spec.v | Specification: the Hades permutation of the Poseidon paper over the BN254 scalar field, width 4, S-box x^5, 4 + 56 + 4 rounds, with round constants and Cauchy MDS matrix generated by the Grain LFSR as |
| BN254.v | Model of poseidon/bn254.go. |
| BN254Proofs.v | The BN254 Poseidon of bn254.go is the textbook permutation. |
| BN254Hash.v | Packing, hashing and digests over BN254: proofs. |
| Prop_BN254.v | Properties C22-C25: BN254 Poseidon, packing and digests. |
| DenP.v | Circuits whose only non-determinism is the Goldilocks Poseidon permutation. |
| Types.v | Configuration and proof data: types/types.go, variables/*.go, plonk/gates/types.go. |
| Challenger.v | Model of challenger/challenger.go and of GetChallenges (verifier/verifier.go). |
| ChallengerProofs.v | The Fiat-Shamir challenger as an abstract machine, and the proof that the circuits of challenger/challenger.go implement it. |
| ChallengerPhases.v | The challenger as a duplex sponge: phases (absorb, then squeeze), and the history of an arbitrary sequence of operations. |
| Transcript.v | GetChallenges (verifier/verifier.go): the whole Fiat-Shamir transcript. |
| ChallengerTop.v | Arbitrary sequences of challenger operations: driver, totality, normal form. |
| Prop_Challenger.v | Properties C26-C28: the Fiat-Shamir challenger. |
| Poly.v | Polynomials over a commutative ring: root counting and barycentric interpolation. |
| Roots.v | Roots of unity in GF (goldilocks/base.go:444-471): orders, subgroups, root counting. |
| Interp.v | Partial barycentric interpolation over the extension algebra: proofs for C17. |
| Prop_Interp.v | Properties C09 and C17: roots of unity, partial interpolation. |
| Fri.v | Model of fri/fri.go and fri/fri_utils.go. |
| FriMerkle.v | Merkle paths, query points (fri/fri.go): specification and proofs. |
| FriEval.v | Interpolation and combination in FRI (fri/fri.go): proofs. |
| FriQuery.v | FRI query rounds (fri/fri.go): specification and proofs. |
| FriTop.v | FRI: shape checks, one query round, the whole proof (fri/fri.go, fri/fri_utils.go). |
| FriFacts.v | Further facts about the FRI verifier used by the statements of Prop_Fri. |
| Prop_Fri.v | Properties C29-C38: Merkle proofs, query points, interpolation, the FRI verifier. |
| Gates.v | Model of plonk/gates/*.go: gate constraint evaluation. |
| GateProofs.v | The gates compute the following polynomials of their wires and constants. |
| GateCoset.v | The coset interpolation gate. |
| GatePoseidon.v | The Poseidon gate and the Poseidon MDS gate. |
| GateFilter.v | Gate filters and the sum over all gates (evaluate_gates.go). |
| GateAll.v | Every gate: when its wires and constants suffice, and how many constraints it has. |
| Prop_Gates.v | Properties C41-C50: filters, the sum over all gates, the gates. |
| Plonk.v | Model of plonk/plonk.go. |
| PlonkProofs.v | Plonk verification: what the vanishing polynomial check enforces. |
| Prop_Plonk.v | Properties C39 and C40: partial products, the vanishing polynomial. |
| GateIds.v | Model of the gate id parser: plonk/gates/gates.go and the regular expressions and deserialize functions of plonk/gates/*_gate.go. |
| GateIdProofs.v | Gate ids: what the regular expressions match, unambiguity. |
| GateIdText.v | Gate ids: the texts describing gates, and the proofs for C51. |
| Prop_GateIds.v | Property C51: gate identifiers are parsed unambiguously. |
| Verifier.v | The verifier circuit: verifier/verifier.go and verifier/util.go. |
| VerifierProofs.v | Proofs about the verifier circuit |
| Prop_Verifier.v | Properties C52-C54: the verifier circuit. |
| Malleable.v | What a prover gains from the S-box width 192. |
| Prop_Malleable.v | Properties C19, C20, C26, C28 and C52 at the S-box width of the code. |
| Prop_Forgery.v | Property C52: the full statement is false of the code. |
| RangeModes.v | Model of the range checking machinery of the chip: the selection of the range checker, the registry of chips, the collection of requests and their deferred hand-over to gnark, and the cost model (gold |
| RangeProofs.v | Lemmas about RangeModes.v |
| Prop_Range.v | Properties C06, C07, C08, C57: range checker modes, deferred requests, the chip registry and the cost model. |
| Widths.v | Widths of the range checks of the verifier circuit. |
| Prop_Modes.v | Property C06 (and C07) for the verifier circuit: what [Define] enforces once its range check requests have gone through the chip. |
| Deser.v | Model of types/deserialize.go, types/common_data.go, variables/deserialize.go and the array conversions of goldilocks/utils.go: from a JSON value to the data of the verifier. |
| DeserProofs.v | What plonky2 writes, and the proof that the loader reads it back. |
| Prop_Deser.v | Loading of proofs and verification keys (C55). See properties.jsonl. |
| Prop_Config.v | Circuit configurations (C56). See properties.jsonl. |
| Honest.v | The honest FRI prover: polynomials, their codewords, Merkle trees and folds. |
| Prop_Honest.v | Property C58: the FRI verifier accepts every honest proof. |
| FriSound.v | Soundness of the FRI verifier by rewinding: lemmas. |
| FriRewind.v | Soundness of the FRI verifier by rewinding: a prover's answers. |
| FriExtract.v | Soundness of the FRI verifier by rewinding: extraction of the committed polynomials. |
| Prop_FriSound.v | Property C59: a prover who answers every query has committed to low degree polynomials that open to the claimed values. |
| GateDegree.v | The degree of every gate constraint as a polynomial in wires and constants. |
| PlonkSound.v | Soundness of the Plonk check: the vanishing polynomial over polynomials. |
| PlonkRows.v | Soundness of the Plonk check: rows, gates and copy constraints. |
| PlonkCopy.v | Equal grand products for enough beta and gamma: the copy constraints hold. |
| Prop_GateDegree.v | Property C60: the degree of the constraints of every gate. |
| Prop_PlonkSound.v | Property C61: soundness of the Plonk check for committed polynomials. |
| VerifierSound.v | Soundness of the whole verifier by rewinding: the polynomials of different runs are the same. |
| Prop_VerifierSound.v | Property C62: a prover who convinces the verifier in all rewound runs knows a satisfying assignment. |
| GateBase.v | Gate constraints of base field wires and constants lie in the base field. |
| ProverPoly.v | Polynomials of the prover: interpolation over the base field, division by X^n - 1. |
| PlonkProver.v | The honest Plonk prover: grand products, partial products and quotients over the base field. |
| Complete.v | The honest prover of the whole system: its proof satisfies the relation checked by the circuit. |
| Prop_Complete.v | Properties C63 and C64: the verifier accepts the honest proof of every satisfying assignment. |
| TrustedSetup.v | Model of trusted_setup/trusted_setup.go: the SRS of the Aztec Ignition ceremony. |
| Prop_TrustedSetup.v | Property C65: the SRS comes from a chain of contributions that was checked link by link. |
| Benchmark.v | Model of benchmark.go: the command that proves the verifier circuit with gnark. |
| Prop_Benchmark.v | Property C66: what a successful run of the benchmark command means. |
| Prop_Resplit.v | Property C67: the lengths of the lists of openings matter, and the code does not check them. |
| Pocklington.v | Pocklington's criterion, and the primality of the order r of the BN254 scalar field. |
| PoseidonPerm.v | Both Poseidon permutations are permutations: the S-boxes and the matrices have inverses. |
| Prop_PoseidonPerm.v | Property C68: the two Poseidon permutations of the code are bijections. |
| Binding.v | What the state of the challenger determines: the elements observed so far, up to collisions of the sponge. |
| Prop_Binding.v | Property C69: the challenges bind the proof. |
| Alias.v | gnark's [MulAcc] may overwrite its first argument. |
| Prop_Alias.v | Property C70: MulAcc never changes an expression that is still needed. |
| GoSlice.v | Slices of Go: [append] writes into the spare capacity of its first argument. |
| Prop_GoSlice.v | Property C71: appending to the slice of an opening set changes no opening. |
| Schema.v | Which values of a circuit struct become variables: gnark's schema, and verifier/util.go. |
| SchemaProofs.v | The walk over a circuit struct: what it collects and what it assigns. |
| Prop_Schema.v | Property C72: what the example circuit proves. |
| Wires.v | Model of the wire positions of plonk/gates/*.go, in 64-bit arithmetic. |
| WiresProofs.v | 64-bit wire positions against the positions of Gates. |
| WiresLayout.v | The layout of the wires. |
| Prop_Wires.v | C73: the positions of the wires of a gate, computed with uint64. |
| Config64.v | Model of the arithmetic on configuration values, in 64-bit arithmetic. |
| Config64Proofs.v | 64-bit configuration arithmetic against the natural numbers of the other files. |
| Prop_Config64.v | C74: the arithmetic on configuration values, in 64 bits. |
| FriForge.v | The FRI prover that lies: what passes when the queries stay within a set of positions. |
| Prop_FriForge.v | C75: what a lying FRI prover achieves: the soundness error is at least rate^queries. |
| ForgeAll.v | A lying prover against the whole verifier: any openings, any leaves, no witness. |
| Prop_ForgeAll.v | C76: the soundness error of the whole verifier is at least rate^queries, and 1 for rate 1. |
| Uniform.v | The circuit does not depend on the values of its inputs. |
| UniformAll.v | The circuit does not depend on the values of its inputs: challenger, fri, gates, plonk, verifier. |
| Prop_Uniform.v | C77: the circuit is the same for all proofs, public inputs and verifier data of one shape. |
| Prop_Key.v | C78: what an accepted proof says about the verification key |
| Prop_FriQuery.v | Property C79: acceptance at more than 2^DegreeBits query positions is enough to extract the polynomials. |
| FriCurve.v | Correlated agreement along a curve. |
| FriProx.v | Words close to low degree polynomials: lemmas for the soundness error of FRI. |
| FriError.v | The soundness error of the FRI verifier: a prover that is not always accepted. |
| Game.v | Counting the runs a prover wins. |
| Prop_FriError.v | Property C80: an upper bound for the soundness error of the FRI verifier. |
| VerifierError.v | Soundness of the whole verifier from the number of runs a prover wins: the polynomials. |
| Prop_VerifierError.v | Property C81: an upper bound for the soundness error of the whole verifier. |
| Prop_VerifierPow.v | Property C82: the proof of work multiplies the soundness bound. |
| PoseidonFast.v | A fast way to compute the Goldilocks Poseidon permutation of PoseidonSpec, for examples. |
| ForgeSbox.v | The lying prover of ForgeAll with a choice of digits for the last S-boxes. |
| ForgeFast.v | Fast ways to compute the transcripts of Complete and ForgeSbox, for examples. |
| Prop_ForgeSbox.v | C83: the circuit accepts a false statement. |
| Prop_ForgeGame.v | C83, the interactive protocol: the false statement is accepted in at most one run in 2^39. |
| RandomOracle.v | Protocols made non-interactive with a random oracle. |
| FiatShamir.v | The challenges of the verifier from a random oracle: the tree of transcripts. |
| Prop_FiatShamir.v | Property C84: the soundness error with the challenges from a random oracle. |
| SpongeOracle.v | The duplex sponge as the oracle of the game of C84. |
| Prop_SpongeOracle.v | Property C85: the verifier of the code is the verifier of C84, with the sponge as the oracle. |
| TestData.v | The circuits of /repo/testdata: the files, the data they stand for, and the gates |
| Prop_TestData.v | Property C86: the theorems about the verifier, for the circuits of /repo/testdata. |
| Prop_Shape.v | Property C87: the circuit compiled for one proof is, in every mode of range checking, the circuit for all proofs of the same shape. |
| Requests.v | How many range checks the verifier circuit asks for, at least. |
| Prop_Requests.v | Property C88: the committing range checker works for the verifier circuit. |
| Census.v | The number of requests of the circuits of testdata, counted. |
| Prop_Census.v | Property C89: the size of the circuits of testdata, and that they compile, without assumptions about the number of range checks. |
| Repair.v | The requests of the circuits of testdata, for an arbitrary width of the S-box. |
| Prop_Repair.v | Property C90: the range check on the S-box, with a width for which it is enough. |

## 4. Plan per property

| id | modelled | proof |
|----|----------|-------|
| C01 | RangeCheck with free hi/lo hints | case split on hi = 2^32-1; lia |
| C02 | MulAdd with free quotient/remainder | no wrap mod r, uniqueness of Euclidean division |
| C03 | Reduce (144 bits) | same |
| C04 | ReduceWithMaxBits for every width | sound iff 2^n*p <= r roughly; refutation witness for 192, partial theorem for n <= 189 |
| C05 | Inverse | field lemma; the value for x = 0 is unconstrained: recorded |
| C06 | three interpretations of Range nodes | equivalence COMMIT/BITDECOMP; NATIVE refuted |
| C07 | collected list + optimalWidth + panics | induction over requests |
| C08 | registry state machine | invariant over histories |
| C09 | root computation by repeated squaring | order argument, root counting of x^(2^n)-1 |
| C10-C16 | one function each | enforces lemmas composed |
| C17 | PartialInterpolateExtAlgebra | invariant over fold; Lagrange uniqueness |
| C18 | full optimised permutation | matrix identities by vm_compute, lifted by linearity |
| C19 | same with free hints | refuted through C04; relational soundness; partial with sound width |
| C20 | sponge loops | induction on chunks; divergence for m = 0 recorded |
| C21 | extension layers | ring identities |
| C22 | BN254 permutation | sparse factorisation checked by vm_compute, lifted |
| C23-C25 | packing, ToVec, TwoToOne | digit arithmetic |
| C26-C28 | challenger state machine, GetChallenges | refinement to pure sponge |
| C29 | Merkle path | induction on path; collision extraction |
| C30-C38 | FRI functions | enforces lemmas, polynomials |
| C39-C42 | plonk.go, evaluate_gates.go | telescoping; filters |
| C43-C50 | each gate's EvalUnfiltered | iff between vanishing and relation |
| C51 | id strings, regex searches | string lemmas over all parameters and orders |
| C52-C54 | Verify | composition |
| C55 | `Deser.v`: struct decoding, readers, conversions | specification relations; every reader decodes exactly them |
| C56 | `ReadCommonCircuitData` and the checks of `Define` | refinement; counterexample for inconsistent settings |
| C57 | cost model | fold minimum |
| C58 | honest prover in `Honest.v` (polynomials, codewords, Merkle trees, folds) | through C34; induction over the reductions |
| C59 | provers as functions of the challenges, accepted transcripts of `VerifyFriProof` in `FriExtract.v` | C34 for each run, Merkle binding (C29), interpolation in each reduction (`FriSound.v`), induction over the reductions (`FriRewind.v`), Vandermonde argument for alpha |
| C60 | the gates of C41-C50 | calculus of degrees (`GateDegree.v`) over the closed forms of C43-C50 |
| C61 | `PlonkVerify` on openings of polynomials (`PlonkSound.v`, `PlonkRows.v`) | C40 for each run, degree bound of the vanishing polynomial (C60), few-roots argument for zeta and alpha, telescoping over the rows, few-roots and pigeonhole for gamma and beta (`PlonkCopy.v`) |
| C62 | `Verify` with the challenges as an argument (`VerifyWith`, linked to `Verify` by C62_link) | C59 after every zeta, Merkle binding across runs for each oracle, uniqueness of polynomials on the domain, C37 for the layout of the openings, C61 for rows and copies (`VerifierSound.v`) |
| C63 | `VerifyWith` (linked to `Verify` by C62_link); the prover is specified in `PlonkProver.v` and `Complete.v` | interpolation and division by X^n - 1 (`ProverPoly.v`), gate constraints of base field polynomials are in the base field (`GateBase.v`), degree bound C60, permutation argument, C58 for FRI |
| C64 | `Define` of the example circuit with `GetPublicInputsHash`, `GetChallenges`, `Verify` | `fiat_shamir_ok`: the duplex sponge phases of C28 for the recursively defined session; C52_honest, C63 |
| C65 | `TrustedSetup.v`; the ignition and kzg libraries are records of arbitrary functions; the swapped buffers are a store of two cells | invariant of the loop over the manifest: the current cell holds the contribution before the index |
| C66 | `Benchmark.v`; gnark and the file readers are a record of arbitrary functions; prints and files are a list of events | inversion of the sequence of calls |
| C67 | `VerifyWith`, as in C62 | the honest prover of C63 for the circuit with moved borders, committed with the original borders; FRI completeness C58; for the refutation a concrete strategy and uniqueness of polynomials on the domain |
| C68 | `Poseidon`, `PoseidonBN` | inverse exponents by Fermat, with r proved prime by a Pocklington certificate; inverse matrices checked by computation |
| C69 | `GetChallenges`, `ObserveElement`, `GetChallenge` | induction over the calls with the bijectivity of the permutation (C68); injectivity of the digit decomposition and of the concatenation for fixed lengths |
| C70 | all functions that call `MulAcc` | programs over references; simulation of an ownership semantics by slices; induction over the loops with a frame condition |
| C71 | `append`, `ToOpenings`, `DeserializeOpeningSet` over windows into arrays | frame lemma for append, induction over the appends |
| C72 | gnark's walk over tagged structs, the Go structs of proof, openings and verifier data | induction over nested values, injectivity of the struct encoding, a concrete pair of proofs |
| C73 | all position functions of the gates, in 64-bit arithmetic, with their panics | refinement of the unbounded model by case analysis on where the parameters wrap, arithmetic on ranges |
| C74 | every function that computes with configuration values, in the arithmetic of Go | refinement: a result of either version implies the values are small (slices, roots of unity, shape checks), small values do not wrap |
| C75 | VerifyFriProof; the lying prover as specification | Newton interpolation through the queried positions, honest folding of the interpolant, correctness of the verifier, counting of tuples |
| C76 | Define, Verify; the lying prover as specification | quotient openings solved from the equation at zeta, Newton interpolation of the combined leaves, C52 for the transcript, counting of tuples |
| C77 | every function of the verifier | relational (two-run) simulation of the free monad, one lemma per function |
| C78 | the verifier | C52 and C34, determinism of the transcript, pigeonhole |
| C79 | as C59 and C62 | the lemmas of C59 and C62 relative to a set of positions; interpolation through 2^DegreeBits points (C75) for the tightness |
| C80 | as C59 | bivariate interpolation (Polishchuk-Spielman) for correlated agreement along curves, a counting game on trees of challenges, the extraction of C59 at the positions that are left |
| C81 | as C62 | the counting game of C80 in front of the Plonk challenges; the polynomials of different runs agree at more than 2^DegreeBits positions, so they do not depend on the challenges drawn later; then C62's argument |
| C82 | as C81 | C81 for the runs with a fixed response; accepted responses are counted through their integers |
| C83 | Define at width 192, the prover of C76 with moved outputs | C52_exact and C76; the transcript of the concrete proof is evaluated with a fast implementation of Poseidon that is proved equal to the specification |
| C84 | VerifyWith after drawn challenges, the order of the transcript; the sponge is an oracle | general bound for protocols with a tree of challenges (RandomOracle.v), the tree gives the coins of C81's extraction |
| C85 | Define and VerifyWith; the sponge as a function of the messages | the phases of C28 are functions, so the transcript answered by them is unique |
| C86 | the JSON values of the files, ReadCommonCircuitData, GateInstanceFromId, Define | computation discharges the hypotheses of the general theorems |
| C87 | Define and everything below it, the schema walk, the range checker's deferred part; the BN254 hashes are pure functions in the model | the simulation of C77, the cost functions depend on the multiset of the widths |
| C88 | Define, the chip's range checkers, the cost functions | lower bound on the trace by amortised counting over the sponge, then the cost functions are compared |
| C89 | Define for the configurations of testdata | the requests of a placeholder are counted by lazy evaluation in the kernel; C77 carries the count over to all inputs of the shape |
| C90 | Define with a parameter for the width 192 | the count of C89 evaluated with a variable for the width, the width theorems of C06, C85 for the widths 128-189 |

## 5. Assumptions listed by `Print Assumptions`

`Closed under the global context` (no axiom at all):

* Prop_Base: C01_range_check, C02_base_arithmetic, C03_reduce, C03_reduce_below, C04_width_192_refuted, C04_reduce_with_max_bits_partial, C04_complete, C05_inverse, C05_inverse_of_zero_is_free, C10_extension_arithmetic, C10_is_field, C11_extension_inverse, C12_exponentiation, C13_reduce_with_powers, C13_reduce_extension, C14_inner_product, C15_selection, C15_selector_boolean, C16_algebra, C16_is_ring
* Prop_Poseidon: C18_poseidon_textbook, C18_spec_rounds, C19_single_output_refuted, C19_exact_outputs, C19_single_output_partial, C20_sponge_honest, C20_output_count, C20_blocks, C20_hash_no_pad, C20_unique_partial, C20_exact_outputs, C20_zero_outputs, C20_length_extension_collision, C21_extension_layers, C21_mds_entries, C21_embedded
* Prop_BN254: C22_poseidon_textbook, C22_round_constants, C23_hash_no_pad, C23_packing_injective, C23_noop, C23_collision, C23_or_noop_collision, C23_any_length_refuted, C23_append_zero, C23_append_zero_hash, C24_digits, C24_canonical, C24_injective, C24_value, C25_two_to_one, C25_range, C25_collision, C25_swap
* Prop_Challenger: C26_normal_form, C26_duplex_exact, C26_duplex_honest, C26_duplex_partial, C26_grouping_elements, C26_grouping_cap, C26_grouping_extension, C26_grouping_openings, C27_no_stale, C27_no_stale_circuit, C28_transcript_exact, C28_transcript_honest, C28_transcript_partial
* Prop_Interp: C09_order, C17_interpolates
* Prop_Fri: C29_exact, C29_only_height_4, C29_binding, C30_pow, C30_leading_zeros, C31_exp_from_bits, C31_bitrev, C31_query_point, C31_distinct, C32_interpolates, C32_exists, C32_arity, C33_combination, C33_two_batches, C34_fri, C35_shape, C35_no_check_skipped, C36_final_poly, C36_kpeval, C37_instance, C37_complete, C37_openings, C38_unique, C38_slices, C38_index
* Prop_Gates: C41_filter_value, C41_filter_zero, C41_selects, C41_unused, C42_sum, C42_aborts, C43_arithmetic, C43_arithmetic_extension, C43_multiplication_extension, C44_base_sum, C45_exponentiation, C45_bits_unchecked, C46_random_access, C47_reducing, C47_reducing_extension, C48_coset_interpolation, C49_poseidon_gate, C49_base_field, C49_complete, C49_mds_gate, C50_constant, C50_public_input, C50_noop
* Prop_Plonk: C39_checks, C39_telescope, C39_ignores_rest, C39_panics, C40_vanishing, C40_lagrange
* Prop_GateIds: C51_parse, C51_unambiguous, C51_sound, C51_unknown, C51_circuit, C51_all_strings_refuted, C51_exact_refuted, C51_Id, C51_Id_refuted
* Prop_Verifier: C53_verify, C53_exact, C52_honest, C52_exact, C52_verify_partial, C54_residues, C54_too_large, C54_plus_p, C54_collision, C54_append_zero
* Prop_Malleable: C19_malleable, C20_malleable, C26_malleable, C26_duplex_refuted, C28_zeta_malleable, C28_pow_malleable
* Prop_Forgery: C52_forgery, C52_verify_refuted
* Prop_Range: C57_counts, C57_first_minimum, C57_multiset, C57_monotone, C07_exact, C07_deferred, C07_constraint, C07_unaligned, C07_small_panics, C07_foreign_panics, C07_scs_refuted, C08_registry, C08_same_chip, C08_isolated, C06_bits, C06_commit, C06_partial, C06_native, C06_native_RangeCheck, C06_native_MulAdd, C06_refuted
* Prop_Modes: C06_widths, C06_define_bits, C06_define_commit, C07_pow_panics, C52_bits, C52_bits_forgery
* Prop_Deser: C55_proof, C55_verifier_data, C55_writable, C55_lossless, C55_digest_mod, C55_coordinates, C55_u64
* Prop_Config: C56_read, C56_hiding, C56_read_degree, C56_consistent, C56_unused, C56_no_queries, C56_missing, C56_refuted
* Prop_Honest: C58_fri_complete, C58_tree, C58_fold, C58_fold_at_0
* Prop_FriSound: C59_fri_sound, C59_fold, C59_batch, C59_unique, C59_honest
* Prop_GateDegree: C60_gate_degree, C60_filtered
* Prop_PlonkSound: C61_rows, C61_gates, C61_copy, C61_labels
* Prop_VerifierSound: C62_link, C62_sound
* Prop_Complete: C63_complete, C63_causal, C63_few_bad, C63_strategy, C64_transcript, C64_complete
* Prop_TrustedSetup: C65_eval, C65_chain, C65_unchecked
* Prop_Benchmark: C66_plonk, C66_groth16, C66_dummy, C66_dummy_save_refuted
* Prop_Resplit: C67_resplit, C67_refuted
* Prop_PoseidonPerm: C68_goldilocks, C68_bn254, C68_constraints_refuted, C68_ex
* Prop_Binding: C69_sponge, C69_fiat_shamir, C69_lengths_refuted, C69_canonical_refuted, C69_sponge_ex, C69_fiat_shamir_ex
* Prop_Alias: C70_any_implementation, C70_HashNoPad, C70_HashOrNoop, C70_TwoToOne, C70_Poseidon, C70_MulAddNoReduce, C70_fits, C70_ladd, C70_MulAdd, C70_MulAdd_refuted, C70_partialRounds_refuted
* Prop_GoSlice: C71_ToOpenings, C71_verifier, C71_shared_refuted
* Prop_Schema: C72_variables, C72_compiled, C72_ignored, C72_key_fixed, C72_untagged, C72_refuted, C72_any_proof_refuted
* Prop_Wires: C73_gate, C73_constraints, C73_layout, C73_ends, C73_reads, C73_wrap_refuted
* Prop_Config64: C74_fields, C74_verifier, C74_rate_refuted, C74_pow_refuted, C74_rounds_refuted
* Prop_FriForge: C75_forge, C75_error, C75_rate_one
* Prop_ForgeAll: C76_forge, C76_causal, C76_error, C76_transcript, C76_rate_one, C76_unsatisfiable
* Prop_Uniform: C77_layout, C77_system, C77_no_panic, C77_panic, C77_permutation
* Prop_Key: C78_fri, C78_key, C78_prover, C78_free_entry
* Prop_FriQuery: C79_fri, C79_runs, C79_verifier, C79_majority, C79_tight
* Prop_FriError: C80_extract, C80_far, C80_false_opening, C80_cheat, C80_honest
* Prop_VerifierError: C81_extract, C81_error, C81_fraction, C81_testdata
* Prop_VerifierPow: C82_pow, C82_count, C82_testdata
* Prop_ForgeSbox: C83_transcript, C83_sound_refuted
* Prop_ForgeGame: C83_interactive
* Prop_FiatShamir: C84_oracle, C84_probability, C84_testdata
* Prop_SpongeOracle: C85_honest, C85_transcript, C85_game
* Prop_TestData: C86_files, C86_data, C86_rows, C86_coset, C86_complete, C86_accepts, C86_oracle
* Prop_Shape: C87_schema, C87_requests, C87_compile
* Prop_Requests: C88_requests, C88_compiles, C88_commit, C88_modes_agree, C88_once, C88_test, C88_exact, C88_complete
* Prop_Census: C89_checked, C89_census, C89_panics, C89_shape, C89_no_panic, C89_requests, C89_accepts, C89_exact, C89_complete
* Prop_Repair: C90_sharp, C90_widths, C90_bits, C90_commit, C90_any, C90_forgery, C90_requests, C90_panics, C90_repaired, C90_keeps, C90_complete

No theorem depends on any axiom.
