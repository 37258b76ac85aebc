{"id": "C01", "title": "RangeCheck accepts exactly canonical field elements", "statement": "A circuit that calls RangeCheck on a variable has a satisfying assignment if and only if the value of that variable lies in [0, p), p = 2^64-2^32+1, and the honest solver then succeeds.", "quantifier": "every value in [0, r) of the variable and every choice of hint outputs", "why_tests_cant": "A test fixes one honest witness; the claim is about every witness a malicious prover may substitute for the hint outputs.", "anchors": ["goldilocks/base.go: RangeCheck, SplitLimbsHint"]}
{"id": "C02", "title": "MulAdd, Add, Sub, Mul compute in GF(p), uniquely and canonically", "statement": "For canonical operands the solver of Add/Sub/Mul/MulAdd always succeeds, and every satisfying assignment gives the result variable the unique canonical representative of a+b, a-b, a*b, a*b+c in GF(p).", "quantifier": "all canonical operands and all prover-chosen quotients and remainders", "why_tests_cant": "A test fixes one honest witness; the claim is about every witness a malicious prover may substitute for the hint outputs.", "anchors": ["goldilocks/base.go: Add, Sub, Mul, MulAdd, MulAddHint"]}
{"id": "C03", "title": "Reduce returns the canonical residue", "statement": "For any variable whose value is below 2^208 - p (in particular any sum of a few thousand products of canonical elements) Reduce is satisfiable iff the value is below 2^144*p, and then its result is uniquely the value mod p.", "quantifier": "all values in [0, r) and all prover-chosen quotients", "why_tests_cant": "A test fixes one honest witness; the claim is about every witness a malicious prover may substitute for the hint outputs.", "anchors": ["goldilocks/base.go: Reduce, ReduceWithMaxBits, ReduceHint"]}
{"id": "C04", "title": "ReduceWithMaxBits is sound for every width the code uses", "statement": "ReduceWithMaxBits(x, n) has a single possible result, x mod p, for every n passed by the code base (144 and 192).", "quantifier": "all x in [0, r), all prover-chosen quotients, all widths n", "why_tests_cant": "A test fixes one honest witness; the claim is about every witness a malicious prover may substitute for the hint outputs.", "anchors": ["goldilocks/base.go: ReduceWithMaxBits", "poseidon/goldilocks.go: sBoxMonomial"]}
{"id": "C05", "title": "Inverse returns the inverse or reports that none exists", "statement": "For canonical x, every satisfying assignment of Inverse has hasInv = 1 and result = x^-1 if x is non-zero, and hasInv = 0 if x = 0; the solver always succeeds.", "quantifier": "all canonical x and all prover-chosen inverse hints", "why_tests_cant": "A test fixes one honest witness; the claim is about every witness a malicious prover may substitute for the hint outputs.", "anchors": ["goldilocks/base.go: Inverse, InverseHint"]}
{"id": "C06", "title": "Every range checker mode enforces the same range constraints", "statement": "A circuit accepts the same assignments whichever range checker the chip selected (native, commit based, bit decomposition), provided compilation succeeds.", "quantifier": "all circuits built from chip operations, all three modes, all assignments", "why_tests_cant": "Tests run the test engine with one builder type; the other modes use other code paths and adversarial witnesses are not tried.", "anchors": ["goldilocks/base.go: rangeCheckerCheck, checkCollected, RangeCheckWithMaxBits", "goldilocks/range_checker_utils.go: gnarkRangeCheckerSelector"]}
{"id": "C07", "title": "Deferred range checks are all carried out or compilation aborts", "statement": "In commit mode, if compilation ends without panic then every width check requested during circuit definition has been handed to the committing range checker with a width that is a multiple of the selected base width 16, and the base width minimises the cost function over 2..17.", "quantifier": "every sequence of range check requests (values and widths)", "why_tests_cant": "The number and widths of the requests depend on the circuit; the optimal width is a function of the entire multiset.", "anchors": ["goldilocks/base.go: checkCollected, rangeCheckerCheck", "goldilocks/range_checker_utils.go: optimalWidth, getOptimalBasewidth, nbR1CSConstraints, nbPLONKConstraints"]}
{"id": "C08", "title": "One chip per API and no lost deferred checks", "statement": "For every sequence of New(api) calls and range check requests, all calls with the same api return the same chip, chips of different apis never share requests, the verification of collected requests is deferred exactly once per api and sees every request of that api.", "quantifier": "every interleaving of New calls and check requests on any number of apis", "why_tests_cant": "Interleavings of several apis and repeated New calls are unbounded in number.", "anchors": ["goldilocks/base.go: New, poseidonChips, mutex, checkCollected"]}
{"id": "C09", "title": "Roots of unity and subgroups", "statement": "PrimitiveRootOfUnity(n) has multiplicative order exactly 2^n for n in 0..32 and panics above; TwoAdicSubgroup(n) lists the 2^n distinct powers, i.e. exactly the solutions of x^(2^n) = 1 in GF(p).", "quantifier": "all n and all elements of GF(p)", "why_tests_cant": "The input space is of size 2^64 and larger; a finite set of vectors says nothing about the remaining inputs.", "anchors": ["goldilocks/base.go: PrimitiveRootOfUnity, TwoAdicSubgroup"]}
{"id": "C10", "title": "Extension field arithmetic", "statement": "AddExtension, SubExtension, MulExtension, MulAddExtension, SubMulExtension, ScalarMulExtension compute +, -, *, a*b+c, (a-b)*c and scalar product in GF(p)[X]/(X^2-7) for canonical inputs, with unique canonical results, and this ring is a field.", "quantifier": "all canonical operands and all hint choices", "why_tests_cant": "A test fixes one honest witness; the claim is about every witness a malicious prover may substitute for the hint outputs.", "anchors": ["goldilocks/quadratic_extension.go: AddExtension, SubExtension, MulExtension, MulAddExtension, SubMulExtension, ScalarMulExtension"]}
{"id": "C11", "title": "Extension inversion and division", "statement": "InverseExtension(x) is satisfiable iff x is non-zero and then yields x^-1; DivExtension(a,b) is satisfiable iff b is non-zero and then yields a/b.", "quantifier": "all canonical operands and all hint choices", "why_tests_cant": "A test fixes one honest witness; the claim is about every witness a malicious prover may substitute for the hint outputs.", "anchors": ["goldilocks/quadratic_extension.go: InverseExtension, DivExtension"]}
{"id": "C12", "title": "Extension exponentiation", "statement": "ExpExtension(a, n) yields a^n for every exponent, including 0, 1, 2.", "quantifier": "all canonical a and all uint64 exponents", "why_tests_cant": "2^64 exponents and 2^128 bases.", "anchors": ["goldilocks/quadratic_extension.go: ExpExtension"]}
{"id": "C13", "title": "Polynomial reduction with powers", "statement": "ReduceWithPowers(terms, s) yields sum_i terms[i]*s^i for lists of any length, ReduceExtension reduces both limbs to canonical form.", "quantifier": "all lists of canonical extension elements of any length, all scalars", "why_tests_cant": "Unbounded list length and field-sized inputs.", "anchors": ["goldilocks/quadratic_extension.go: ReduceWithPowers, ReduceExtension"]}
{"id": "C14", "title": "Inner products", "statement": "InnerProductExtension(c, s, pairs) yields s + c*sum a_i*b_i for every number of pairs.", "quantifier": "all lists of pairs of canonical elements, all constants below p", "why_tests_cant": "Unbounded list length and field-sized inputs.", "anchors": ["goldilocks/quadratic_extension.go: InnerProductExtension"]}
{"id": "C15", "title": "Selection gadgets", "statement": "IsZero returns 1 iff both limbs are zero; Lookup and Lookup2 return the entry selected by the boolean index bits and no other; AssertIsEqualExtension holds iff both limbs agree.", "quantifier": "all values and all boolean selectors", "why_tests_cant": "The input space is of size 2^64 and larger; a finite set of vectors says nothing about the remaining inputs.", "anchors": ["goldilocks/quadratic_extension.go: IsZero, Lookup, Lookup2, AssertIsEqualExtension"]}
{"id": "C16", "title": "Extension algebra arithmetic", "statement": "AddExtensionAlgebra, SubExtensionAlgebra, MulExtensionAlgebra, ScalarMulExtensionAlgebra compute in K[Y]/(Y^2-7), a commutative ring containing K.", "quantifier": "all canonical operands and hint choices", "why_tests_cant": "A test fixes one honest witness; the claim is about every witness a malicious prover may substitute for the hint outputs.", "anchors": ["goldilocks/quadratic_extension_algebra.go"]}
{"id": "C17", "title": "Partial barycentric interpolation", "statement": "PartialInterpolateExtAlgebra applied to consecutive chunks and finished with the vanishing factor yields the value at the point of the unique low degree interpolant; each step realises eval' = eval*(x-x_i) + w_i*v_i*prod, prod' = prod*(x-x_i).", "quantifier": "all domains with distinct points, all values, all points, any chunking", "why_tests_cant": "Any number of points and field-sized values.", "anchors": ["goldilocks/quadratic_extension_algebra.go: PartialInterpolateExtAlgebra"]}
{"id": "C18", "title": "Goldilocks Poseidon equals the textbook permutation", "statement": "For every canonical state the honest execution of Poseidon succeeds and yields the textbook Poseidon permutation (constant addition, x^7 S-box, circulant-plus-diagonal MDS; 4+22+4 rounds), although the code uses the fast partial rounds.", "quantifier": "all 12-element states over GF(p)", "why_tests_cant": "2^768 states; the test suite has a single all-zero vector.", "anchors": ["poseidon/goldilocks.go: Poseidon, fullRounds, partialRounds", "poseidon/goldilocks_constants.go"]}
{"id": "C19", "title": "Goldilocks Poseidon has a single satisfying output", "statement": "For a fixed input state, all satisfying assignments of Poseidon give the same output state (the constraint system is deterministic in its inputs).", "quantifier": "all canonical states and all prover-chosen hints", "why_tests_cant": "A test fixes one honest witness; the claim is about every witness a malicious prover may substitute for the hint outputs.", "anchors": ["poseidon/goldilocks.go: Poseidon, sBoxMonomial", "goldilocks/base.go: ReduceWithMaxBits"]}
{"id": "C20", "title": "Sponge hashing of arbitrary length inputs", "statement": "HashNToMNoPad(input, m) is the overwrite-mode sponge of rate 8 for every input length and every m >= 1, returning exactly m elements; HashNoPad first reduces inputs mod p so it depends only on the residues.", "quantifier": "all lists of inputs of any length, all output counts", "why_tests_cant": "Unbounded length and field-sized inputs.", "anchors": ["poseidon/goldilocks.go: HashNToMNoPad, HashNoPad"]}
{"id": "C21", "title": "Extension versions of the Poseidon layers", "statement": "ConstantLayerExtension, SBoxLayerExtension, SBoxMonomialExtension, MdsLayerExtension, PartialFirstConstantLayerExtension, MdsPartialLayerInitExtension and MdsPartialLayerFastExtension compute over K the same layer maps as the base field permutation; in particular they agree on embedded base field elements.", "quantifier": "all states over K", "why_tests_cant": "The input space is of size 2^64 and larger; a finite set of vectors says nothing about the remaining inputs.", "anchors": ["poseidon/goldilocks.go: *Extension methods"]}
{"id": "C22", "title": "BN254 Poseidon equals the textbook permutation", "statement": "The optimised BN254 Poseidon (sparse matrices in the partial rounds) computes, for every state, the unoptimised Hades permutation with x^5 S-box on the first lane in 56 partial rounds and on all lanes in 8 full rounds, with round constants and MDS matrix given explicitly.", "quantifier": "all 4-element states over the BN254 scalar field", "why_tests_cant": "2^1016 states.", "anchors": ["poseidon/bn254.go: Poseidon, fullRounds, partialRounds", "poseidon/bn254_constants.go"]}
{"id": "C23", "title": "Packing of Goldilocks elements into BN254 hashes", "statement": "HashNoPad/HashOrNoop pack three canonical Goldilocks elements per BN254 lane injectively for a fixed length; hence two different equal-length canonical inputs never produce the same packed sponge input.", "quantifier": "all canonical inputs of any fixed length", "why_tests_cant": "The input space is of size 2^64 and larger; a finite set of vectors says nothing about the remaining inputs.", "anchors": ["poseidon/bn254.go: HashNoPad, HashOrNoop"]}
{"id": "C24", "title": "ToVec decomposes a digest injectively into canonical elements", "statement": "ToVec of a BN254 digest yields exactly the base-2^56 digits of its canonical value; they are canonical Goldilocks elements, and different digests give different vectors.", "quantifier": "all values in [0, r)", "why_tests_cant": "The input space is of size 2^64 and larger; a finite set of vectors says nothing about the remaining inputs.", "anchors": ["poseidon/bn254.go: ToVec"]}
{"id": "C25", "title": "Two-to-one compression", "statement": "TwoToOne(l, r) is lane 0 of the permutation of [0,0,l,r], always succeeds and is deterministic; it is not a symmetric function of its arguments by construction of the state.", "quantifier": "all pairs of values in [0, r)", "why_tests_cant": "The input space is of size 2^64 and larger; a finite set of vectors says nothing about the remaining inputs.", "anchors": ["poseidon/bn254.go: TwoToOne"]}
{"id": "C26", "title": "Challenger refines an overwrite duplex sponge", "statement": "Any sequence of Observe*/Get* calls returns the outputs of the duplex sponge specification: absorb in blocks of 8 by overwriting, permute, squeeze from lane 7 downwards; results do not depend on how elements are grouped into calls.", "quantifier": "every finite sequence of observe and squeeze operations", "why_tests_cant": "Unbounded histories of interleaved operations.", "anchors": ["challenger/challenger.go: ObserveElement, ObserveElements, ObserveHash, ObserveBN254Hash, ObserveCap, ObserveExtensionElement(s), ObserveOpenings, GetChallenge, GetNChallenges, GetExtensionChallenge, duplexing"]}
{"id": "C27", "title": "No stale challenges", "statement": "After observing any element, the next challenge is an output of a permutation whose absorbed transcript contains that element; no output computed before the observation is ever returned after it, and no permutation output lane is returned twice.", "quantifier": "every finite sequence of observe and squeeze operations", "why_tests_cant": "Unbounded histories of interleaved operations.", "anchors": ["challenger/challenger.go: ObserveElement, GetChallenge"]}
{"id": "C28", "title": "Fiat-Shamir transcript order", "statement": "GetChallenges derives each challenge from a transcript that contains, in order, circuit digest, public input hash, wires cap (betas, gammas), permutation cap (alphas), quotient cap (zeta), all openings, FRI caps (betas), final polynomial and proof-of-work witness (query indices).", "quantifier": "all proofs and circuit parameters", "why_tests_cant": "The claim relates every field of every proof to every later challenge.", "anchors": ["verifier/verifier.go: GetChallenges", "challenger/challenger.go: GetFriChallenges"]}
{"id": "C29", "title": "Merkle path verification is exact and binding", "statement": "verifyMerkleProofToCapWithCapIndex is satisfiable iff folding the leaf hash with the siblings in the order given by the index bits gives the cap entry selected by the cap index bits; two accepted different leaves at the same position yield an explicit hash collision.", "quantifier": "all trees, leaf sizes, path lengths, index bits and caps", "why_tests_cant": "Unbounded depth and adversarial proofs.", "anchors": ["fri/fri.go: verifyMerkleProofToCapWithCapIndex, verifyInitialProof"]}
{"id": "C30", "title": "Proof of work check", "statement": "assertLeadingZeros is satisfiable iff the response is below 2^(64-PoWBits), i.e. its 64-bit representation has at least PoWBits leading zeros.", "quantifier": "all canonical responses and all PoW difficulties up to 64", "why_tests_cant": "A test fixes one honest witness; the claim is about every witness a malicious prover may substitute for the hint outputs.", "anchors": ["fri/fri.go: assertLeadingZeros"]}
{"id": "C31", "title": "Query point computation", "statement": "expFromBitsConstBase(g, bits) = g^(sum bits_i 2^i); the query point is the coset generator 7 times the primitive 2^n-th root raised to the bit-reversed query index; different indices give different points.", "quantifier": "all bit vectors of any length up to 32", "why_tests_cant": "2^32 indices for each size.", "anchors": ["fri/fri.go: expFromBitsConstBase, calculateSubgroupX"]}
{"id": "C32", "title": "FRI fold evaluation is polynomial interpolation", "statement": "computeEvaluation returns the value at beta of the unique polynomial of degree < 16 that takes the given 16 evaluations on the coset of the query point, evaluations being listed in bit-reversed order, for every beta for which the circuit is satisfiable; it is unsatisfiable exactly when beta is one of the 16 points.", "quantifier": "all coset positions, evaluations and challenges", "why_tests_cant": "The input space is of size 2^64 and larger; a finite set of vectors says nothing about the remaining inputs.", "anchors": ["fri/fri.go: computeEvaluation, interpolate"]}
{"id": "C33", "title": "Initial FRI combination", "statement": "friCombineInitial returns sum over batches of alpha^(shift) * (sum_i alpha^i (f_i(x) - o_i)) / (x - z_b) for the leaf values and claimed openings, and is unsatisfiable iff x equals some z_b.", "quantifier": "all leaves, openings, challenges and number of polynomials", "why_tests_cant": "Unbounded number of polynomials, field-sized values.", "anchors": ["fri/fri.go: friCombineInitial, fromOpeningsAndAlpha"]}
{"id": "C34", "title": "FRI verification is the conjunction of all its checks", "statement": "VerifyFriProof is satisfiable iff the proof of work holds and for every query all four initial Merkle proofs, for each reduction step the consistency of the folded value with the opened coset entry and the Merkle proof of that coset, and finally the equality with the final polynomial hold.", "quantifier": "all proofs, challenges and numbers of queries/reductions", "why_tests_cant": "A test proof is honest; each dropped check must be shown to matter for every proof.", "anchors": ["fri/fri.go: VerifyFriProof, verifyQueryRound"]}
{"id": "C35", "title": "Shape validation", "statement": "If circuit construction for a FRI proof does not abort then all list lengths in the proof used by verification agree with the circuit parameters, so no check is skipped because of a short list.", "quantifier": "all proof shapes", "why_tests_cant": "Shapes are unbounded nested lists.", "anchors": ["fri/fri_utils.go: validateFriProofShape", "fri/fri.go: VerifyFriProof"]}
{"id": "C36", "title": "Final polynomial evaluation", "statement": "finalPolyEval returns the value of the final polynomial (coefficients low to high) at the point, for any number of coefficients, including none.", "quantifier": "all coefficient lists and points", "why_tests_cant": "Unbounded length and field-sized inputs.", "anchors": ["fri/fri.go: finalPolyEval"]}
{"id": "C37", "title": "Openings line up with committed polynomials", "statement": "GetInstance and ToOpenings list polynomials and opening values in the same order and number: constants, sigmas, wires, Zs, partial products, quotient chunks at zeta and Zs at g*zeta, so that each claimed opening is checked against the column it names.", "quantifier": "all circuit configurations", "why_tests_cant": "Configurations are unbounded.", "anchors": ["fri/fri_utils.go: GetInstance and fri*Polys helpers, ToOpenings", "plonk/gates"]}
{"id": "C38", "title": "Query index bits are canonical", "statement": "The bits used for a query are the unique binary representation of the canonical challenge value, so a prover cannot choose another index for the same challenge; only the low n bits are used and the prescribed top bits select the cap entry.", "quantifier": "all canonical challenge values, all prover-supplied bit strings", "why_tests_cant": "A test fixes one honest witness; the claim is about every witness a malicious prover may substitute for the hint outputs.", "anchors": ["fri/fri.go: verifyQueryRound, assertNoncanonicalIndicesOK"]}
{"id": "C39", "title": "Partial product checks telescope", "statement": "The constraints returned by checkPartialProducts all vanish iff each chunk's accumulated numerator times previous partial product equals denominator times next one; together they imply Z(x)*prod(numerators) = Z(gx)*prod(denominators) for the wires covered.", "quantifier": "all numbers of routed wires, chunk sizes and values", "why_tests_cant": "Unbounded number of wires, field-sized values.", "anchors": ["plonk/plonk.go: checkPartialProducts"]}
{"id": "C40", "title": "Vanishing polynomial check", "statement": "Plonk Verify is satisfiable iff for each challenge index i, sum_j alpha_i^j * term_j(zeta) = Z_H(zeta) * sum_k zeta^(k*n) * quotient_chunk_{i,k}, where the terms are the boundary terms, the partial product terms and the gate constraints, and zeta is not in the subgroup/1 where the circuit divides.", "quantifier": "all openings and challenges", "why_tests_cant": "The input space is of size 2^64 and larger; a finite set of vectors says nothing about the remaining inputs.", "anchors": ["plonk/plonk.go: Verify, evalVanishingPoly, evalL0, expPowerOf2Extension"]}
{"id": "C41", "title": "Gate filters select exactly one gate per group", "statement": "For a selector value that is the index of a gate of the group the filters of all other gates of that group are zero and that of the gate itself is non-zero; for the unused-selector value none vanishes by accident in a way that skips the constraint of another group.", "quantifier": "all selector groups and all selector values", "why_tests_cant": "Groups and indices are unbounded.", "anchors": ["plonk/gates/evaluate_gates.go: computeFilter, evalFiltered"]}
{"id": "C42", "title": "Gate constraints are summed position-wise with their filters", "statement": "EvaluateGateConstraints returns a vector of NumGateConstraints entries whose j-th entry is sum over gates g of filter_g * constraint_{g,j}, and aborts if some gate has more constraints.", "quantifier": "all lists of gates, selector layouts and openings", "why_tests_cant": "Unbounded number of gates.", "anchors": ["plonk/gates/evaluate_gates.go: EvaluateGateConstraints"]}
{"id": "C43", "title": "Arithmetic gates", "statement": "All constraints of ArithmeticGate, ArithmeticExtensionGate, MultiplicationExtensionGate vanish iff for every operation output = c0*x*y + c1*z (respectively c0*x*y), the number of constraints being the declared one.", "quantifier": "all wire values and numbers of operations", "why_tests_cant": "Unbounded numbers of operations, field-sized wires.", "anchors": ["plonk/gates/arithmetic_gate.go", "plonk/gates/arithmetic_extension_gate.go", "plonk/gates/multiplication_extension_gate.go"]}
{"id": "C44", "title": "Base sum gate", "statement": "On base field wires all constraints of BaseSumGate vanish iff every limb is in {0..B-1} and the sum wire equals sum limb_i*B^i.", "quantifier": "all wire values, limb counts and bases", "why_tests_cant": "The input space is of size 2^64 and larger; a finite set of vectors says nothing about the remaining inputs.", "anchors": ["plonk/gates/base_sum_gate.go"]}
{"id": "C45", "title": "Exponentiation gate", "statement": "With boolean power bits all constraints of ExponentiationGate vanish iff the intermediate values are those of square and multiply and the output is base^(power).", "quantifier": "all wire values and numbers of bits", "why_tests_cant": "The input space is of size 2^64 and larger; a finite set of vectors says nothing about the remaining inputs.", "anchors": ["plonk/gates/exponentiation_gate.go"]}
{"id": "C46", "title": "Random access gate", "statement": "All constraints of RandomAccessGate vanish iff for each copy the bit wires are boolean, they encode the access index and the claimed element is the list element at that index, and the extra constants match.", "quantifier": "all wire values, list sizes and numbers of copies", "why_tests_cant": "The input space is of size 2^64 and larger; a finite set of vectors says nothing about the remaining inputs.", "anchors": ["plonk/gates/random_access_gate.go"]}
{"id": "C47", "title": "Reducing gates", "statement": "All constraints of ReducingGate and ReducingExtensionGate vanish iff the accumulators are those of Horner evaluation and the output is old_acc*alpha^n + sum coeff_i*alpha^(n-1-i).", "quantifier": "all wire values and numbers of coefficients", "why_tests_cant": "The input space is of size 2^64 and larger; a finite set of vectors says nothing about the remaining inputs.", "anchors": ["plonk/gates/reducing_gate.go", "plonk/gates/reducing_extension_gate.go"]}
{"id": "C48", "title": "Coset interpolation gate", "statement": "All constraints of CosetInterpolationGate vanish iff shift*shifted_point = evaluation point and the output is the value at shifted_point of the interpolant of the values over the subgroup.", "quantifier": "all wire values, subgroup sizes and degrees", "why_tests_cant": "The input space is of size 2^64 and larger; a finite set of vectors says nothing about the remaining inputs.", "anchors": ["plonk/gates/coset_interpolation_gate.go"]}
{"id": "C49", "title": "Poseidon gates", "statement": "All constraints of PoseidonGate vanish iff the swap wire is boolean, the deltas and the S-box input wires are those of the permutation and the outputs are the Poseidon permutation of the (swapped) inputs; those of PoseidonMdsGate iff the outputs are the MDS image of the inputs.", "quantifier": "all wire values", "why_tests_cant": "The input space is of size 2^64 and larger; a finite set of vectors says nothing about the remaining inputs.", "anchors": ["plonk/gates/poseidon_gate.go", "plonk/gates/poseidon_mds_gate.go"]}
{"id": "C50", "title": "Constant, public input and noop gates", "statement": "ConstantGate constraints vanish iff wire_i = constant_i for every i; PublicInputGate constraints vanish iff the first four wires are the public input hash; NoopGate has none.", "quantifier": "all wire values", "why_tests_cant": "The input space is of size 2^64 and larger; a finite set of vectors says nothing about the remaining inputs.", "anchors": ["plonk/gates/constant_gate.go", "plonk/gates/public_input_gate.go", "plonk/gates/noop_gate.go"]}
{"id": "C51", "title": "Gate identifiers are parsed unambiguously", "statement": "For every gate id string produced by plonky2 for a supported gate GateInstanceFromId returns that gate with those parameters whatever the iteration order of the handler table; strings matching no handler abort.", "quantifier": "all parameter values, all iteration orders of the map, all strings", "why_tests_cant": "Map iteration order is random and the id strings are unbounded.", "anchors": ["plonk/gates/gates.go: GateInstanceFromId, gateRegexHandlers", "plonk/gates/*_gate.go: deserialize functions, Id"]}
{"id": "C52", "title": "End-to-end verification", "statement": "The circuit defined by Verify is satisfiable for a proof, public inputs and verifier data iff the plonky2 verification relation holds: challenges derived from the transcript, vanishing identity at zeta and all FRI checks.", "quantifier": "all proofs, public inputs, verifier data and all hint choices", "why_tests_cant": "A test fixes one honest witness; the claim is about every witness a malicious prover may substitute for the hint outputs.", "anchors": ["verifier/verifier.go: Verify"]}
{"id": "C53", "title": "All prover-supplied field elements are range checked", "statement": "In every satisfying assignment of Verify every Goldilocks element of the proof (openings, leaf elements, evaluations, final polynomial, PoW witness) is canonical.", "quantifier": "all proofs and all hint choices", "why_tests_cant": "A test fixes one honest witness; the claim is about every witness a malicious prover may substitute for the hint outputs.", "anchors": ["verifier/verifier.go: rangeCheckProof"]}
{"id": "C54", "title": "Public inputs are bound by the proof up to residues", "statement": "The verification outcome depends on public inputs only through their residues mod p; a value and the value plus p are interchangeable unless the caller range checks them, and two public input vectors with different residues of equal length and equal hash exhibit a collision of the sponge.", "quantifier": "all public input vectors", "why_tests_cant": "The input space is of size 2^64 and larger; a finite set of vectors says nothing about the remaining inputs.", "anchors": ["verifier/verifier.go: GetPublicInputsHash", "poseidon/goldilocks.go: HashNoPad"]}
{"id": "C55", "title": "Deserialisation preserves every value and position", "statement": "DeserializeProofWithPublicInputs and DeserializeVerifierOnlyCircuitData map each field of the JSON structures to the variable of the same meaning, in order and without loss.", "quantifier": "all well-formed raw proofs", "why_tests_cant": "Unbounded nested structures.", "anchors": ["variables/deserialize.go", "goldilocks/utils.go", "types/types.go"]}
{"id": "C56", "title": "Configuration consistency", "statement": "ReadCommonCircuitData-derived parameters obey the equations used by the verifier (LDE bits, cap height, number of queries, partial products); an inconsistent configuration aborts rather than weakening verification.", "quantifier": "all circuit configurations", "why_tests_cant": "Configurations are unbounded.", "anchors": ["types/common_data.go", "fri/fri.go: VerifyFriProof", "plonk/plonk.go: checkPartialProducts"]}
{"id": "C57", "title": "Cost model of the range checker is monotone and bounded", "statement": "The cost functions used to choose the base width count, for each width, table rows, limbs, and decompositions; the width returned is in 2..17 and the first minimum.", "quantifier": "every multiset of requested widths", "why_tests_cant": "Unbounded multiset of requests.", "anchors": ["goldilocks/range_checker_utils.go"]}
{"id": "C58", "title": "FRI completeness", "statement": "For all polynomials of degree < 2^DegreeBits, opening points and challenges, the values, Merkle caps, sibling lists, folds and final polynomial of an honest prover make the FRI verifier circuit satisfiable with the honest hints; the only conditions on the challenges are the proof of work and that no division by zero occurs.", "quantifier": "all polynomials, salts, opening points, challenges, query indices, numbers of reductions", "why_tests_cant": "The space of polynomials and challenges is infinite for practical purposes; tests replay a few recorded proofs.", "anchors": ["fri/fri.go: VerifyFriProof", "fri/fri.go: verifyQueryRound", "fri/fri.go: friCombineInitial", "fri/fri.go: computeEvaluation"]}
{"id": "C59", "title": "FRI soundness by rewinding", "statement": "Any prover that VerifyFriProof accepts for enough challenges (as many distinct alphas as opened values, sixteen distinct betas in every reduction, every query index), without a collision among the states hashed, has committed to polynomials over the base field with at most 2^DegreeBits + 1 coefficients: all leaves it opens are their values and all claimed openings are their values at the opening points.", "quantifier": "all provers (commitments as functions of the earlier challenges), parameters, numbers of reductions, oracles, opening points, challenge trees", "why_tests_cant": "Soundness quantifies over all provers and all challenges; a test can only show that particular bad proofs are rejected.", "anchors": ["fri/fri.go: VerifyFriProof", "fri/fri.go: verifyQueryRound", "fri/fri.go: friCombineInitial", "fri/fri.go: computeEvaluation", "fri/fri.go: verifyMerkleProofToCapWithCapIndex"]}
{"id": "C60", "title": "Degrees of the gate constraints", "statement": "If the wires and constants are polynomials in x with at most M+1 coefficients then every constraint of every gate type is a polynomial in x with at most d*M+1 coefficients, where d is the degree of the gate (3 for the arithmetic gates, the base for BaseSumGate, 7 for PoseidonGate, bits+1 for RandomAccessGate, ...); the filtered sum over all gates has degree at most M times the largest gate degree plus the size of its group minus one, plus one if there are several groups.", "quantifier": "all gates of the 14 types and all their parameters, all polynomials, all selector layouts", "why_tests_cant": "A degree bound is a statement about the constraint as a polynomial; tests evaluate it at single points.", "anchors": ["plonk/gates/*_gate.go: EvalUnfiltered", "plonk/gates/evaluate_gates.go: EvaluateGateConstraints", "plonk/gates/evaluate_gates.go: computeFilter"]}
{"id": "C61", "title": "Soundness of the Plonk check for committed polynomials", "statement": "If PlonkVerify accepts the openings of polynomials of degree at most 2^DegreeBits (constants, sigmas, wires; Z and partial products chosen after betas and gammas; quotients chosen after alphas) for enough zetas, alphas, gammas and betas, then in every row g^k the constraints of the gate named by the selectors vanish, and any two routed wires (among the first (NumPartialProducts+1)*QuotientDegreeFactor) linked by the sigmas have the same value.", "quantifier": "all circuits (common data, gates, k_i), all committed polynomials, all trees of challenges of the stated sizes", "why_tests_cant": "Soundness quantifies over all provers, all circuits and all challenges.", "anchors": ["plonk/plonk.go: Verify", "plonk/plonk.go: evalVanishingPoly", "plonk/plonk.go: checkPartialProducts", "plonk/plonk.go: evalL0", "plonk/gates/evaluate_gates.go: EvaluateGateConstraints"]}
{"id": "C62", "title": "Soundness of the whole verifier by rewinding", "statement": "Let a prover, an arbitrary strategy that commits to wires, then (knowing betas and gammas) to Z and partial products, then (knowing alphas) to quotients, then (knowing zeta) sends openings and plays FRI, be accepted by the verifier in all runs of a tree of challenges of explicit size, without a collision of the permutation among the hashed states. Then there are polynomials of degree at most 2^DegreeBits over the base field, the same in all runs, whose values are the leaves behind the cap of the verifier data and the wires cap; their values on the subgroup satisfy, row by row, the constraints of the gates named by the selectors (with the hash of the public inputs) and the copy constraints.", "quantifier": "all circuits, all verifier data, all prover strategies, all trees of challenges of the stated sizes", "why_tests_cant": "Soundness quantifies over all provers and all challenges.", "anchors": ["verifier/verifier.go: Verify", "verifier/verifier.go: rangeCheckProof", "plonk/plonk.go: Verify", "fri/fri.go: VerifyFriProof", "fri/fri_utils.go: friAllPolys", "fri/fri.go: GetInstance", "fri/fri.go: ToOpenings"]}
{"id": "C63", "title": "Completeness of the whole verifier", "statement": "For every circuit and every satisfying assignment (polynomials of degree < 2^DegreeBits whose values in each row satisfy the constraints of the gate named by the selectors and whose routed cells are equal along the sigmas, a permutation of the labels) there is an honest proof: grand products, partial products, quotients, openings and FRI proof computed from the challenges. The verifier with these challenges accepts it, for all challenges for which the prover does not divide by zero and the proof of work is done. Every message depends only on the challenges drawn before it; for each beta at most one gamma per cell is excluded; so the prover is a strategy in the sense of C62.", "quantifier": "all circuits of the stated shape, all satisfying assignments, all salts, all challenges but the excluded ones", "why_tests_cant": "A test runs the verifier on the few proofs that plonky2 has produced for fixed circuits; acceptance for all circuits and witnesses is out of reach.", "anchors": ["verifier/verifier.go: Verify", "verifier/verifier.go: rangeCheckProof", "plonk/plonk.go: Verify", "plonk/plonk.go: evalVanishingPoly", "fri/fri.go: VerifyFriProof", "fri/fri.go: GetInstance"]}
{"id": "C64", "title": "The circuit accepts the honest Fiat-Shamir proof", "statement": "The prover of C63 that draws its own challenges by hashing its messages with the Goldilocks Poseidon sponge obtains the challenges that the transcript of the verifier gives for the proof it ends up with; and the honest solver of the outer circuit (Define) completes on this proof, its public inputs and the verifier data, unless the challenges are excluded ones.", "quantifier": "all circuits of the stated shape, all satisfying assignments, all public inputs, salts and witnesses for the proof of work", "why_tests_cant": "A test covers the transcripts of a few recorded proofs.", "anchors": ["verifier/verifier.go: Verify", "verifier/verifier.go: GetPublicInputsHash", "verifier/verifier.go: GetChallenges", "challenger/challenger.go: GetChallenge"]}
{"id": "C65", "title": "The trusted setup download accepts exactly a chain of contributions", "statement": "The polynomial evaluated by the final check is the value of the random polynomial at the point. The download of the Ignition ceremony succeeds exactly if every contribution from startIdx on can be fetched and follows its predecessor, and the point powers of the last contribution pass the pairing check and can be written; the file holds the powers of the last contribution. Contributions before startIdx have no influence: their validity is not checked.", "quantifier": "all manifests, all start indices, all libraries for the ceremony files, the pairing and the file system", "why_tests_cant": "The download needs the network and a 174 participant ceremony; a test sees one honest chain and no broken ones.", "anchors": ["trusted_setup/trusted_setup.go: DownloadAndSaveAztecIgnitionSrs", "trusted_setup/trusted_setup.go: sanityCheck", "trusted_setup/trusted_setup.go: eval", "trusted_setup/trusted_setup.go: randomPolynomial"]}
{"id": "C66", "title": "A successful benchmark run has verified the proof it prints", "statement": "If the benchmark command succeeds with plonk, or with groth16 and a real setup, then the proof was made from the witness of the named files with the keys of the compiled circuit, the back end accepted it for the public part of that witness, and only afterwards the bytes (plonk) or the eight big endian 32 byte words (groth16) of that proof are printed. With groth16 and the dummy setup nothing is verified, and with saving of artifacts the command always panics on the nil verifying key.", "quantifier": "all back ends, all circuit names, flags and files", "why_tests_cant": "The command needs minutes to hours per run, and every combination of flags and failing library calls is needed.", "anchors": ["benchmark.go: main", "benchmark.go: runBenchmark", "benchmark.go: plonkProof", "benchmark.go: groth16Proof"]}
{"id": "C67", "title": "The lengths of the opening lists must be right: the code does not check them", "statement": "The FRI part of the verifier sees only the concatenation of the opening lists, the Plonk part only the separate lists. If the circuit in which the first m sigmas count as constants and the first m wires as sigmas is satisfied, then the verifier of the original circuit with its own verifier data accepts a proof. There is an unsatisfiable circuit with an unused wire for which such a prover is accepted for all challenges: C62 becomes false when its hypothesis on the lengths is dropped.", "quantifier": "all circuits, all m, all challenges but the excluded ones", "why_tests_cant": "The recorded proofs all have the right lengths.", "anchors": ["fri/fri.go: ToOpenings", "plonk/plonk.go: evalVanishingPoly", "verifier/verifier.go: Verify", "variables/circuit.go: OpeningSet"]}
{"id": "C68", "title": "Both Poseidon permutations are bijections", "statement": "The Goldilocks permutation computed by Poseidon on twelve canonical elements and the BN254 permutation computed by Poseidon on four field elements are bijections: different states have different images and every state is an image. The constraints of the Goldilocks permutation, with the S-box width of the code, do not have this property: a cheating prover can take two different states to the same image.", "quantifier": "all states", "why_tests_cant": "The test vectors cover a handful of states.", "anchors": ["poseidon/goldilocks.go: Poseidon", "poseidon/bn254.go: Poseidon", "poseidon/goldilocks.go: sBoxMonomial"]}
{"id": "C69", "title": "The challenges bind everything the prover sent before the queries", "statement": "Two clients of the challenger that make the same sequence of calls and end with the same sponge state and the same pending inputs have observed the same elements modulo p, or their states had, at some earlier point, different values with the same capacity. Consequently two proofs of the same shape with canonical elements for which GetChallenges returns the same challenges agree in the circuit digest, the public inputs hash, the caps, the openings, the commit-phase caps, the final polynomial and the proof-of-work witness, unless the sponge states collided in the capacity or in the rate. Both hypotheses are needed: without the lengths of the opening lists, and without canonical values, different proofs get the same challenges.", "quantifier": "all sequences of calls, all proofs, all circuits with at least 7 query rounds", "why_tests_cant": "A missing Observe call, or an observation that is overwritten before it is absorbed, does not change whether honest proofs are accepted when prover and verifier agree; tests compare challenges with one recorded proof.", "anchors": ["verifier/verifier.go: GetChallenges", "challenger/challenger.go: duplexing", "challenger/challenger.go: ObserveElement", "challenger/challenger.go: GetChallenge", "challenger/challenger.go: GetFriChallenges"]}
{"id": "C70", "title": "MulAcc never changes an expression that is still needed", "statement": "gnark documents that MulAcc(a, b, c) may overwrite a. A program that never reads an expression after giving it to MulAcc as first argument computes the same values in every implementation of MulAcc, and leaves every other expression alone. Poseidon, HashNoPad, HashOrNoop and TwoToOne over BN254 and MulAddNoReduce are such programs, for all inputs, also when the caller passes the same expression several times; none of them changes an expression of the caller. MulAdd is not: it range checks and returns the remainder after MulAcc. It is correct because the expressions returned by NewHint have room for one term and the sum has two; an implementation of MulAcc that had room would make MulAdd return wrong values.", "quantifier": "all inputs, all behaviours of MulAcc within its contract, all sharing between the arguments", "why_tests_cant": "Whether MulAcc writes in place depends on the capacity of slices, hence on how the expressions were made; a test sees one such history, and the test engine of gnark never writes in place.", "anchors": ["goldilocks/base.go: MulAdd", "goldilocks/base.go: MulAddNoReduce", "poseidon/bn254.go: HashNoPad", "poseidon/bn254.go: HashOrNoop", "poseidon/bn254.go: partialRounds", "poseidon/bn254.go: mix"]}
{"id": "C71", "title": "Appending to a slice of the opening set changes no opening", "statement": "ToOpenings appends to the slice Constants of its argument, which has spare capacity because the deserialiser builds it element by element. Whatever capacities the runtime chooses, an opening set made by DeserializeOpeningSet is left unchanged by ToOpenings, and both calls of the verifier (for the challenges and for FRI) return Constants, PlonkSigmas, Wires, PlonkZs, PartialProducts and QuotientPolys in this order, and PlonkZsNext. More generally this holds for every opening set none of whose slices lies in the spare capacity of Constants; for slices that share an array it fails.", "quantifier": "all opening sets, all arrays and windows, all growth policies of append", "why_tests_cant": "Whether append writes in place depends on the growth policy of the Go runtime and on the number of constants of the circuit.", "anchors": ["fri/fri.go: ToOpenings", "variables/deserialize.go: DeserializeOpeningSet", "goldilocks/utils.go: Uint64ArrayToQuadraticExtensionArray", "verifier/verifier.go: GetChallenges", "verifier/verifier.go: Verify"]}
{"id": "C72", "title": "The example circuit is a verifier for one fixed proof", "statement": "The only variables of the circuit compiled from ExampleVerifierCircuit are its public inputs, in order; the secret witness is empty. A witness satisfies the compiled circuit exactly if it has as many public inputs as the circuit and the verifier accepts them with the proof and the verifier data the circuit was compiled with. Proof, verifier data and common data of the assignment are ignored: the circuit cannot be solved for another valid proof of the same inner circuit, and it is solved with assignments whose proof is invalid. Without the two tags gnark:\"-\" the circuit would check the proof of the assignment.", "quantifier": "all circuit values, all assignments, all provers", "why_tests_cant": "verifier_test.go and benchmark.go use the same proof for the circuit and for the assignment, so they cannot see which of the two is checked.", "anchors": ["verifier/util.go: ExampleVerifierCircuit", "verifier/util.go: Define", "variables/circuit.go: Proof", "variables/fri.go", "variables/plonk.go", "benchmark.go: runBenchmark"]}
{"id": "C73", "title": "Wire positions computed with uint64 are the intended ones", "statement": "For every gate a gate string can name, evaluating its constraints with wire positions computed in wrapping 64-bit arithmetic has the same results as with unbounded arithmetic, as long as there are fewer than 2^31 wires and constants; so has evaluating the constraints of a whole circuit. The roles of a gate take the wires 0, 1, 2, ... one after the other, without overlap or gap, if their number fits in 64 bits (for larger parameters the first index bit of a random access gate can sit on the wire of the index). A gate reads all its wires: with fewer wires opened there is no result.", "quantifier": "all gate strings, all parameters, all wires and constants, all provers", "why_tests_cant": "Tests use a handful of gates with small parameters; overlapping or wrapped positions only show for particular parameters.", "anchors": ["plonk/gates/random_access_gate.go: WireBit", "plonk/gates/coset_interpolation_gate.go: wiresIntermediateProd", "plonk/gates/poseidon_gate.go: WireFullSBox0", "plonk/gates/reducing_gate.go: wiresAccs", "plonk/gates/vars.go: GetLocalExtAlgebra", "plonk/gates/exponentiation_gate.go: wireIntermediateValue"]}
{"id": "C74", "title": "Configuration arithmetic in 64 bits", "statement": "For every configuration read from a file and every proof with at least one query round and slices of fewer than 2^31 elements, the verifier circuit computed with wrapping uint64 and int arithmetic has the same results as the one computed with unbounded numbers, as long as DegreeBits + RateBits < 2^64 and ProofOfWorkBits <= 2^63 + 64 (and the slice of gate constraints can be allocated). Both bounds are needed: with RateBits = 2^64 - 1 the domain is smaller than the number of coefficients and the FRI verifier accepts a wrong opening; with ProofOfWorkBits = 2^64 - 1 the proof-of-work check accepts every response.", "quantifier": "all JSON files, all proofs, all provers, all slice limits between 2^32 and 2^60", "why_tests_cant": "Wrap-around only happens for configuration values near 2^63 or 2^64, which no test file contains.", "anchors": ["types/types.go: LdeBits", "types/types.go: TotalArities", "fri/fri_utils.go: assertNoncanonicalIndicesOK", "fri/fri_utils.go: numPreprocessedPolys", "fri/fri.go: assertLeadingZeros", "fri/fri.go: verifyQueryRound", "plonk/plonk.go: checkPartialProducts", "plonk/plonk.go: Verify"]}
{"id": "C75", "title": "The FRI soundness error is at least rate^queries, and is 1 for rate 1", "statement": "For all leaves of the oracle trees (values of polynomials or not), all claimed openings, all parameters the verifier accepts and all alpha there are a polynomial c and at least (2^DegreeBits)^rounds of the (2^LdeBits)^rounds tuples of query positions such that the proof made from c is accepted for all betas off the domains and all indices in the tuples. With RateBits = 0, which is not rejected, it is accepted for all query indices.", "quantifier": "all parameters, leaves, openings, alphas, betas, sets of positions", "why_tests_cant": "A test runs one forged proof with one set of challenges; the fraction of accepted challenges is out of reach.", "anchors": ["fri/fri.go: VerifyFriProof", "fri/fri.go: verifyQueryRound", "fri/fri_utils.go: assertNoncanonicalIndicesOK", "types/types.go: LdeBits"]}
{"id": "C76", "title": "The soundness error of the whole verifier is at least rate^queries, and is 1 for rate 1", "statement": "For every circuit (satisfiable or not), all public inputs, all leaves of the four oracles and all openings except the quotients, there is a proof which respects the order of the challenges and is accepted for all challenges whose query positions fall into a given set of at most 2^DegreeBits positions, so for at least (2^DegreeBits)^rounds of the (2^LdeBits)^rounds tuples of positions. Likewise for the circuit with its own transcript. With RateBits = 0 all query indices are accepted; an unsatisfiable circuit is accepted with the true verifier data.", "quantifier": "all circuit data, public inputs, leaves, openings, challenges, sets of positions", "why_tests_cant": "A test runs one forged proof with one set of challenges; that the fraction of accepted challenges has this size for every circuit is out of reach.", "anchors": ["verifier/verifier.go: Verify", "plonk/plonk.go: Verify", "fri/fri.go: VerifyFriProof", "challenger/challenger.go: GetFriChallenges"]}
{"id": "C77", "title": "The circuit depends on the shape of its inputs only, not on their values", "statement": "For one circuit data, any two triples of proof, public inputs and verifier data whose slices have the same lengths make the verifier issue the same hints, constraints, range checks (with the same widths) and panics in the same order, whatever the hint answers are. Hence there is one constraint system per shape: a fixed list of hints with fixed sizes and a fixed number of constraints, and inputs are accepted exactly if answers of those sizes satisfy all of them. If inputs of one shape are accepted, the definition panics for no inputs of that shape, and if it panics for some, none of that shape is accepted. The Goldilocks permutation costs 1650 hints, 3430 constraints and 2410 range checks for every input.", "quantifier": "all circuit data, S-box widths, proofs, public inputs, verifier data of equal shape, all hint answers", "why_tests_cant": "A test compiles one circuit for one placeholder; that no code path branches on a value or panics for another proof of the same shape is a statement about all pairs of inputs.", "anchors": ["verifier/util.go: Define", "verifier/verifier.go: Verify", "plonk/plonk.go: Verify", "fri/fri.go: VerifyFriProof", "challenger/challenger.go", "goldilocks/base.go", "poseidon/goldilocks.go"]}
{"id": "C78", "title": "An accepted proof binds only the cap entries of the key that its queries end in", "statement": "Given an accepted proof, another key with the same digest is accepted with it exactly if its cap agrees with that of the first in every entry given by the top four bits of a query index of the transcript. With fewer than 16 query rounds there is always an entry that can be replaced by any value. The same holds for the other initial caps of the FRI verifier when the challenges are kept. For an arbitrary prover, keys that agree wherever a query of a possible transcript ends are interchangeable.", "quantifier": "all circuit data of a sound layout, proofs, public inputs, digests and pairs of caps; for C78_prover all hint answers", "why_tests_cant": "A test verifies with one key; which of the other 2^254 values per entry would also be accepted depends on the queries of that proof.", "anchors": ["verifier/verifier.go: GetChallenges, Verify", "fri/fri.go: verifyMerkleProofToCapWithCapIndex, verifyInitialProof, verifyQueryRound"]}
{"id": "C79", "title": "Acceptance at more than 2^DegreeBits query positions in all runs is enough to extract the polynomials; 2^DegreeBits are not enough", "statement": "As C59, but the prover need only be accepted, in all the rewound runs, at the query positions of some list of more than 2^DegreeBits positions: the leaves at these positions are values of polynomials over the base field with the claimed openings. The same follows if in each run the prover misses at most e positions, other ones in other runs, with e times the number of runs less than 2^LdeBits - 2^DegreeBits. For the whole verifier the conclusion of C62 follows if the lists of positions after different challenges share more than 2^DegreeBits positions, for instance if each has more than half of 2^LdeBits + 2^DegreeBits. With exactly 2^DegreeBits positions, for all parameters and all such lists, there is a prover who is accepted at them for all folding challenges off the domains although no polynomial explains the leaves and the opening.", "quantifier": "all parameters, strategies, commitments, lists of positions, trees of challenges", "why_tests_cant": "The statement is about all provers and about what must exist behind their commitments; a test sees one proof.", "anchors": ["fri/fri.go: VerifyFriProof, verifyQueryRound, computeEvaluation, friCombineInitial", "verifier/verifier.go: Verify", "plonk/plonk.go: Verify"]}
{"id": "C80", "title": "An upper bound for the soundness error of the FRI verifier, up to the unique decoding radius", "statement": "A prover is any strategy: commit phase caps and final polynomial as functions of the challenges drawn before them, and a transcript for every batching challenge, every sequence of k folding challenges and every tuple of q query positions; N = 2^LdeBits, T is the number of opened values, challenges come from a set of Q elements, and 2e + 2^DegreeBits < N. If VerifyFriProof accepts more than Q^(k+1) (N-e-1)^q + T N^2 Q^k N^q of the Q^(k+1) N^q runs, then the committed leaves at all but e positions are values of polynomials over the base field with at most 2^DegreeBits + 1 coefficients whose values at the opening points are the claimed ones. So a prover that has committed to words far from such polynomials, or to polynomials with a false claimed value, is accepted with probability at most (1 - (e+1)/N)^q + T N^2 / Q. For all committed tables and claimed values there is a prover that wins all runs with positions in any given set of 2^DegreeBits positions, and an honest prover wins all runs.", "quantifier": "all parameters, strategies, commitments, openings, sets of challenges, sets of winning runs, e", "why_tests_cant": "The statement bounds the success of all provers over all challenges; a test sees one prover and one sequence of challenges.", "anchors": ["fri/fri.go: VerifyFriProof, verifyQueryRound, computeEvaluation, friCombineInitial, verifyInitialProof, fromOpeningsAndAlpha"]}
{"id": "C81", "title": "An upper bound for the soundness error of the whole verifier", "statement": "A prover is any strategy: caps, openings, commit phase caps, final polynomial and answers as functions of the challenges drawn before them. A run draws NumChallenges betas, gammas and alphas from a set of Qg elements of the field, zeta, the FRI alpha and the k folding challenges from a set of Q elements of the extension, and q query positions out of N = 2^LdeBits. Let 2e + 2^DegreeBits < N. If VerifyWith accepts more than a fraction ((N-e-1)/N)^q + T N^2 / Q + E 2^DegreeBits / Q + (2 cells / Qg)^NumChallenges + (terms / Qg)^NumChallenges of all runs (T opened values, E the degree of the constraints, cells = 2^DegreeBits (NumPartialProducts+1) QuotientDegreeFactor), and the runs do not hash two inputs with equal digests, then the leaves at all but e positions are values of polynomials over the base field whose rows satisfy every gate named by the selectors and every copy constraint. If the verifier data is the Merkle cap of given constants and permutation, and no assignment of the wires satisfies their rows, then the prover wins at most this fraction. With the parameters of testdata/decode_block and testdata/step and challenges from the whole fields it is at most (9/16)^28 + 2^-86, which is below 2^-23.", "quantifier": "all circuits (parameters, gates, selectors), strategies, public input hashes, verifier data, sets of challenges, sets of winning runs, e", "why_tests_cant": "The statement bounds the success of all provers over all challenges; a test sees one prover and one sequence of challenges.", "anchors": ["verifier/verifier.go: VerifyWith", "plonk/plonk.go: Verify", "fri/fri.go: VerifyFriProof", "plonk/gates/*: EvalUnfiltered"]}
{"id": "C82", "title": "The proof of work multiplies the soundness bound", "statement": "Runs as in C81 that also draw the response to the proof of work from a set of Qg field elements; the prover may choose its messages and answers knowing the response. If the statement is false (as in C81), the prover wins at most as many runs as the bound of C81 times the number of elements below 2^(64-ProofOfWorkBits), which is at most 2^(64-ProofOfWorkBits). With the parameters of testdata/decode_block and testdata/step (28 queries, 16 bits of proof of work) and challenges from the whole fields this is less than one run in 2^39.", "quantifier": "all circuits, strategies (also depending on the response), public input hashes, verifier data, sets of challenges, sets of winning runs, e", "why_tests_cant": "The statement bounds the success of all provers over all challenges; a test sees one prover and one sequence of challenges.", "anchors": ["fri/fri.go: assertLeadingZeros", "fri/fri.go: VerifyFriProof", "challenger/challenger.go: GetFriChallenges", "verifier/verifier.go: VerifyWith"]}
{"id": "C83", "title": "The verifier circuit accepts a false statement", "statement": "There is a circuit that no wire values satisfy and a proof for which the verifier circuit of the code, with the true verifier data of that circuit, has a satisfying assignment; the security parameters are those of plonky2's standard configuration (2 challenges, rate 1/8, 28 queries, 16 bits of proof of work). With an S-box quotient of 128 to 189 bits instead of 192 the same proof is rejected. In general: for every circuit, satisfiable or not, every public inputs, leaves and openings, and every choice of the digits 0..5 of Malleable in the permutations that produce the proof-of-work response and the query indices, if the indices so obtained fall into a set of at most 2^DegreeBits positions, the circuit is satisfiable. If instead the challenges, the response and the positions are drawn at random, every prover gets this false statement accepted in at most one run in 2^39, without any assumption on the hash function.", "quantifier": "general part: all circuits, public inputs, leaves, openings, sets of positions, digits, witnesses, orders of the gate handlers; the unsatisfiable circuit: all wire values, public input hashes and orders; interactive: all provers", "why_tests_cant": "Tests run the honest solver, which always takes the digits 0; the false proof needs other values of the hints.", "anchors": ["poseidon/goldilocks.go: sBoxMonomial", "goldilocks/base.go: ReduceWithMaxBits", "challenger/challenger.go: GetFriChallenges", "fri/fri.go: VerifyFriProof", "verifier/verifier.go: Verify"]}
{"id": "C84", "title": "Soundness of the non-interactive verifier in the random oracle model", "statement": "Let the challenges come from a random oracle that is asked with everything absorbed before, each uniform in its set. Whoever asks the oracle at most q times, adaptively, and then outputs the hash of some public inputs and a proof, convinces the verifier of a false statement (no wire values satisfy the circuit with these public inputs) with probability at most (q + 5 + number of foldings) * eps, where eps bounds, for every challenge, the fraction of bad values: (2 cells / p)^2 for the betas and gammas, (terms / p)^2 for the alphas, E * 2^DegreeBits / p^2 for zeta, (t-1) * N^2 / p^2 for the FRI alpha, 15 * N_j^2 / p^2 for the folding challenges, accepted responses / p * (1 - e/N)^queries for the proof of work and the queries. With the parameters of the test data: at most (q + 7) / 2^39.", "quantifier": "all circuits of the supported gates, adversaries, numbers of oracle questions, statements (chosen by the adversary), finite sets of challenges, radii e in the unique decoding range, sets without collisions of the Merkle hash", "why_tests_cant": "A statement on the probability over all oracles, for all adversaries; also false statements that are hard to prove are never tried by tests.", "anchors": ["verifier/verifier.go: GetChallenges", "verifier/verifier.go: Verify", "challenger/challenger.go: GetFriChallenges", "fri/fri.go: VerifyFriProof", "plonk/plonk.go: Verify"]}
{"id": "C85", "title": "The verifier circuit is the verifier of the game, with the sponge as its oracle", "statement": "The challenges of the circuit are the answers of one function of the messages sent before: circuit digest, hash of the public inputs and wires cap; partial products cap; quotient cap; openings; each cap of the commit phase; final polynomial and proof-of-work witness. The honest solver of the circuit completes on a proof, and for S-box widths up to 189 a satisfying assignment exists, exactly if the transcript of the messages of the proof with the answers of this function convinces the verifier of the random-oracle game (C84). So an adversary of that game that is given the answers of the sponge wins exactly if the circuit accepts its proof and the statement is false.", "quantifier": "all circuits, proofs of the right shape, public inputs, verifier data; all adversaries that end with a proof; widths 128-189 for arbitrary provers, 192 for the honest solver", "why_tests_cant": "Equality of two acceptance predicates on all proofs; a test only shows that an honest proof is accepted.", "anchors": ["verifier/verifier.go: GetChallenges", "verifier/verifier.go: Verify", "challenger/challenger.go: GetFriChallenges", "challenger/challenger.go: GetChallenge"]}
{"id": "C86", "title": "The theorems about the verifier apply to the circuits of the repository", "statement": "The files of testdata/decode_block and testdata/step, as read by the code, give the common data, gates and keys stated. These data meet the hypotheses of C52, C61, C64, C81, C84 and C85: shape and layout, every gate constraint of degree at most 9 with its filter, FRI parameters, labels k_i g^k pairwise different, coset weights barycentric (two of them are not reduced in the files). So for these circuits: the honest prover's proof is accepted for every satisfying assignment and lucky transcript; the circuit accepts a proof of these dimensions exactly if its transcript convinces the verifier; an adversary with q oracle questions convinces it of a false statement with probability at most (q + 7) / 2^39.", "quantifier": "both test circuits; all polynomials, assignments, public inputs, proofs of these dimensions, adversaries; widths 128-189 for arbitrary provers, 192 for the honest solver", "why_tests_cant": "The tests check one proof per circuit; the claims are about all proofs and all adversaries for the circuit.", "anchors": ["testdata/decode_block/common_circuit_data.json", "testdata/step/common_circuit_data.json", "types/common_data.go: ReadCommonCircuitData", "plonk/gates/gates.go: GateInstanceFromId", "verifier/verifier.go: Verify"]}
{"id": "C87", "title": "Compiled with one proof, the circuit is the one for all proofs of its shape, in every mode of range checking", "statement": "gnark compiles with a placeholder and proves with other values. Two structs pass the schema walk with the same tree exactly if all their slices have the same lengths (the shape of C77). For two witnesses of the same shape and the same common data, the range checks asked for have the same widths in the same order; so the deferred part of the compilation, which chooses the limb width from all requests and may panic, does the same for both in every mode of range checking: both panic, or both emit constraints of the same kinds, limb sizes and widths.", "quantifier": "all witnesses, all pairs of proofs of one shape, all iteration orders of the gate map, all hint outputs, all builders and values of the environment variable", "why_tests_cant": "A test compiles with the same files as it proves with; whether some value changes the circuit can only be seen by quantifying over values.", "anchors": ["verifier/util.go: ExampleVerifierCircuit", "verifier/verifier.go: Verify", "goldilocks/base.go: checkCollected", "goldilocks/range_checker_utils.go: getOptimalBasewidth"]}
{"id": "C88", "title": "With the committing range checker the circuit compiles and enforces the range checks", "statement": "Defining the verifier circuit asks for at least 1834 range checks for every eight field elements of the openings. With 148 openings or more this makes 16 the optimal limb width, so the deferred check of the chip does not panic and emits 16 bit limbs for every request, exactly if the bits of the proof of work are a multiple of 16. The constraint system with the committing checker then accepts exactly what bit decomposition accepts and what Circuit.v says. The circuits of testdata have 259 and 260 openings and 16 bits.", "quantifier": "all proofs, public inputs, keys and hint outputs; common data with less than 64 proof of work bits; builders that commit and do not reveal their frontend type; fewer than 2^50 requests", "why_tests_cant": "Which limb width gnark chooses depends on the number of requests of the whole circuit; unit tests of the chip set a flag to avoid this code, and each compilation tests one circuit.", "anchors": ["goldilocks/base.go: checkCollected", "goldilocks/base.go: RangeCheckWithMaxBits", "goldilocks/range_checker_utils.go: getOptimalBasewidth", "verifier/verifier.go: Verify", "challenger/challenger.go: ObserveOpenings"]}
{"id": "C89", "title": "The size of the circuits of testdata; they compile and accept in both modes of range checking", "statement": "For the circuits of testdata and every proof with their dimensions: the definition does not panic; it asks for exactly 428653 hints, 923062 equations and 480616 + 1 + 114572 + 29500 = 624689 range checks of 32, 48, 144 and 192 bits (decode_block), and 448677, 965270 and 502464 + 1 + 119786 + 31624 = 653875 (step), for all values and all answers of the hints. Only the numbers of openings, FRI commitments and public inputs need to be assumed: the sizes of the caps, the key and the query rounds are checked by the code, whose definition goes through without a panic exactly for these sizes, so that inputs for which the equations have a solution have them. Hence the limb width of the committing checker is 16 and the two constraint systems accept exactly what Circuit.v says, with no assumption about the number of requests, and the proof of an honest prover satisfies both.", "quantifier": "all proofs, public inputs, keys, hint outputs of these dimensions, all iteration orders of the gate map, all builders of the two kinds", "why_tests_cant": "A compilation counts the constraints for one input; that the count, and the absence of panics, is the same for all values is a statement about all of them.", "anchors": ["testdata/decode_block/common_circuit_data.json", "testdata/step/common_circuit_data.json", "verifier/verifier.go: Verify", "fri/fri_utils.go: validateFriProofShape", "goldilocks/base.go: checkCollected"]}
{"id": "C90", "title": "The width of the range check in the S-box is all that separates the test circuits from plonky2's verifier", "statement": "The S-box bounds its quotients by 2^192, which makes the permutation ambiguous (C19, C52, C83). From 128 bits on, the permutation has exactly one output for the widths up to 189, and from 190 on for every state a second one that differs in all elements. If 192 is replaced by 128, 144, 160 or 176 and nothing else is changed, then for the circuits of testdata, every proof of their dimensions, every key and every prover, the constraint system with the committing range checker and that with bit decomposition accept exactly the proofs whose transcript convinces the verifier (C85). The number of range checks is the same, the proofs of honest provers satisfy the repaired systems, and a width that is no multiple of 16 does not compile with the committing checker.", "quantifier": "all widths, proofs, public inputs, keys, hint outputs, iteration orders of the gate map, builders of the two kinds", "why_tests_cant": "Tests with honest witnesses pass with 192 and with 176; that no prover can do better than the honest one is a statement about all witnesses.", "anchors": ["poseidon/goldilocks.go: sBoxMonomial", "goldilocks/base.go: ReduceWithMaxBits", "goldilocks/base.go: checkCollected", "verifier/verifier.go: Verify"]}
