{
 "claims": [
  {
   "property": "C01",
   "status": "proved",
   "theorems": [
    "C01_range_check"
   ],
   "note": "satisfiable iff canonical, honest solver succeeds"
  },
  {
   "property": "C02",
   "status": "proved",
   "theorems": [
    "C02_base_arithmetic"
   ],
   "note": ""
  },
  {
   "property": "C03",
   "status": "proved",
   "theorems": [
    "C03_reduce",
    "C03_reduce_below"
   ],
   "note": ""
  },
  {
   "property": "C04",
   "status": "partial",
   "theorems": [
    "C04_width_192_refuted",
    "C04_reduce_with_max_bits_partial",
    "C04_complete"
   ],
   "note": "the full statement is false of the code: width 192 (S-box) is unsound; proved: sound exactly for widths up to 189"
  },
  {
   "property": "C05",
   "status": "proved",
   "theorems": [
    "C05_inverse",
    "C05_inverse_of_zero_is_free"
   ],
   "note": "the value returned for 0 is unconstrained (also proved)"
  },
  {
   "property": "C06",
   "status": "partial",
   "theorems": [
    "C06_bits",
    "C06_commit",
    "C06_partial",
    "C06_native",
    "C06_native_RangeCheck",
    "C06_native_MulAdd",
    "C06_refuted",
    "C06_widths",
    "C06_define_bits",
    "C06_define_commit"
   ],
   "note": "False as stated (C06_refuted): the switch in rangeCheckerCheck does nothing in the native case, so that mode enforces no range. Commit and bit decomposition agree (C06_partial); for the whole verifier circuit bit decomposition enforces exactly the model (C06_define_bits)."
  },
  {
   "property": "C07",
   "status": "proved",
   "theorems": [
    "C07_exact",
    "C07_deferred",
    "C07_constraint",
    "C07_unaligned",
    "C07_small_panics",
    "C07_foreign_panics",
    "C07_scs_refuted",
    "C07_pow_panics"
   ],
   "note": "That a request handed over is enforced as a range of its width is shown for widths up to 253 (C07_constraint). For widths of 272 and more with a PLONK builder the chip and gnark disagree about the base width (C07_scs_refuted); the verifier issues no such request (C06_widths)."
  },
  {
   "property": "C08",
   "status": "proved",
   "theorems": [
    "C08_registry",
    "C08_same_chip",
    "C08_isolated"
   ],
   "note": "The mutexes are taken to make each operation atomic."
  },
  {
   "property": "C09",
   "status": "proved",
   "theorems": [
    "C09_order",
    "C09_panics",
    "C09_subgroup"
   ],
   "note": ""
  },
  {
   "property": "C10",
   "status": "proved",
   "theorems": [
    "C10_extension_arithmetic",
    "C10_is_field"
   ],
   "note": ""
  },
  {
   "property": "C11",
   "status": "proved",
   "theorems": [
    "C11_extension_inverse"
   ],
   "note": ""
  },
  {
   "property": "C12",
   "status": "proved",
   "theorems": [
    "C12_exponentiation"
   ],
   "note": ""
  },
  {
   "property": "C13",
   "status": "proved",
   "theorems": [
    "C13_reduce_with_powers",
    "C13_reduce_extension"
   ],
   "note": ""
  },
  {
   "property": "C14",
   "status": "proved",
   "theorems": [
    "C14_inner_product"
   ],
   "note": "length up to 2^70, more than a Go slice can hold"
  },
  {
   "property": "C15",
   "status": "proved",
   "theorems": [
    "C15_selection",
    "C15_selector_boolean"
   ],
   "note": ""
  },
  {
   "property": "C16",
   "status": "proved",
   "theorems": [
    "C16_algebra",
    "C16_is_ring"
   ],
   "note": ""
  },
  {
   "property": "C17",
   "status": "proved",
   "theorems": [
    "C17_interpolates",
    "C17_interpolant",
    "C17_empty"
   ],
   "note": ""
  },
  {
   "property": "C18",
   "status": "proved",
   "theorems": [
    "C18_poseidon_textbook",
    "C18_spec_rounds"
   ],
   "note": ""
  },
  {
   "property": "C19",
   "status": "partial",
   "theorems": [
    "C19_single_output_refuted",
    "C19_malleable",
    "C19_exact_outputs",
    "C19_single_output_partial"
   ],
   "note": "false of the code, for every state (C19_malleable), because the S-box reduces with width 192; the exact output set is characterised, and uniqueness is proved for widths 128..189"
  },
  {
   "property": "C20",
   "status": "proved",
   "theorems": [
    "C20_sponge_honest",
    "C20_output_count",
    "C20_blocks",
    "C20_hash_no_pad",
    "C20_exact_outputs",
    "C20_malleable",
    "C20_unique_partial",
    "C20_zero_outputs",
    "C20_length_extension_collision"
   ],
   "note": "the sponge mode is exact relative to the permutation circuit (C20_exact_outputs); uniqueness of the output inherits the C19 defect"
  },
  {
   "property": "C21",
   "status": "proved",
   "theorems": [
    "C21_extension_layers",
    "C21_mds_entries",
    "C21_embedded"
   ],
   "note": ""
  },
  {
   "property": "C22",
   "status": "proved",
   "theorems": [
    "C22_poseidon_textbook",
    "C22_round_constants"
   ],
   "note": "PoseidonBN equals the Hades permutation for every state; constants shown to be the Grain LFSR output and a Cauchy matrix."
  },
  {
   "property": "C23",
   "status": "proved",
   "theorems": [
    "C23_hash_no_pad",
    "C23_packing_injective",
    "C23_noop",
    "C23_collision",
    "C23_or_noop_collision",
    "C23_any_length_refuted",
    "C23_append_zero",
    "C23_append_zero_hash"
   ],
   "note": "Injective for a fixed length; across lengths it is refuted (appending a zero limb)."
  },
  {
   "property": "C24",
   "status": "proved",
   "theorems": [
    "C24_digits",
    "C24_canonical",
    "C24_injective",
    "C24_value"
   ],
   "note": "Uses the gnark contract that ToBinary without a bit count yields the bits of the canonical value."
  },
  {
   "property": "C25",
   "status": "proved",
   "theorems": [
    "C25_two_to_one",
    "C25_range",
    "C25_collision",
    "C25_swap"
   ],
   "note": "Asymmetry is shown as: swapping different arguments gives a different result or an explicit lane-0 collision of the permutation."
  },
  {
   "property": "C26",
   "status": "partial",
   "theorems": [
    "C26_normal_form",
    "C26_duplex_exact",
    "C26_duplex_honest",
    "C26_duplex_partial",
    "C26_malleable",
    "C26_duplex_refuted",
    "C26_grouping_elements",
    "C26_grouping_cap",
    "C26_grouping_extension",
    "C26_grouping_openings"
   ],
   "note": "Exact refinement to the duplex sponge over the relation enforced by the permutation circuit; honest runs give the textbook sponge. A malicious prover is bound to the textbook sponge only for sound S-box widths; at the width 192 of the code this is refuted: from any absorbing state a prover reaches a challenge of its choice (C26_malleable, C26_duplex_refuted)."
  },
  {
   "property": "C27",
   "status": "proved",
   "theorems": [
    "C27_no_stale",
    "C27_no_stale_circuit"
   ],
   "note": "For every operation sequence and any permutation relation."
  },
  {
   "property": "C28",
   "status": "partial",
   "theorems": [
    "C28_transcript_exact",
    "C28_transcript_honest",
    "C28_zeta_malleable",
    "C28_pow_malleable",
    "C28_transcript_partial"
   ],
   "note": "Order and content of the transcript are exact for all proofs; equality with the textbook permutation for a malicious prover needs a sound S-box width (C19)."
  },
  {
   "property": "C29",
   "status": "proved",
   "theorems": [
    "C29_exact",
    "C29_only_height_4",
    "C29_binding"
   ],
   "note": "The code only supports caps of 16 entries (proved). The collision is between two states met while hashing the two leaves and paths."
  },
  {
   "property": "C30",
   "status": "proved",
   "theorems": [
    "C30_pow",
    "C30_leading_zeros"
   ],
   "note": "More than 64 bits: never satisfiable."
  },
  {
   "property": "C31",
   "status": "proved",
   "theorems": [
    "C31_exp_from_bits",
    "C31_bitrev",
    "C31_query_point",
    "C31_distinct"
   ],
   "note": ""
  },
  {
   "property": "C32",
   "status": "proved",
   "theorems": [
    "C32_interpolates",
    "C32_exists",
    "C32_arity"
   ],
   "note": "For every arity up to 2^7; 2^8 loops forever in the code and larger panics."
  },
  {
   "property": "C33",
   "status": "proved",
   "theorems": [
    "C33_combination",
    "C33_two_batches"
   ],
   "note": ""
  },
  {
   "property": "C34",
   "status": "proved",
   "theorems": [
    "C34_fri"
   ],
   "note": "Exact: satisfiable iff fri_ok; honest solver succeeds then. Elements of the proof are assumed canonical (enforced by rangeCheckProof)."
  },
  {
   "property": "C35",
   "status": "proved",
   "theorems": [
    "C35_shape",
    "C35_no_check_skipped"
   ],
   "note": "The number of commit phase caps is not compared by the shape check; too few makes the circuit definition panic, extra ones are not used by the queries."
  },
  {
   "property": "C36",
   "status": "proved",
   "theorems": [
    "C36_final_poly",
    "C36_kpeval"
   ],
   "note": ""
  },
  {
   "property": "C37",
   "status": "proved",
   "theorems": [
    "C37_instance",
    "C37_complete",
    "C37_openings"
   ],
   "note": ""
  },
  {
   "property": "C38",
   "status": "proved",
   "theorems": [
    "C38_unique",
    "C38_slices",
    "C38_index"
   ],
   "note": ""
  },
  {
   "property": "C39",
   "status": "proved",
   "theorems": [
    "C39_checks",
    "C39_telescope",
    "C39_ignores_rest",
    "C39_panics"
   ],
   "note": "Wires beyond (NumPartialProducts+1)*QuotientDegreeFactor are not covered (C39_ignores_rest); too few make the circuit definition panic."
  },
  {
   "property": "C40",
   "status": "proved",
   "theorems": [
    "C40_vanishing",
    "C40_lagrange"
   ],
   "note": "The list of gates is a parameter; DegreeBits at most 62."
  },
  {
   "property": "C41",
   "status": "proved",
   "theorems": [
    "C41_filter_value",
    "C41_filter_zero",
    "C41_selects",
    "C41_unused"
   ],
   "note": "With a single group the unused value selects every gate of it (C41_unused)."
  },
  {
   "property": "C42",
   "status": "proved",
   "theorems": [
    "C42_sum",
    "C42_aborts"
   ],
   "note": "For all gate lists whose gates fit the wires and constants; the filters and the gate outputs are those of the model functions."
  },
  {
   "property": "C43",
   "status": "proved",
   "theorems": [
    "C43_arithmetic",
    "C43_arithmetic_extension",
    "C43_multiplication_extension"
   ],
   "note": ""
  },
  {
   "property": "C44",
   "status": "proved",
   "theorems": [
    "C44_base_sum"
   ],
   "note": "Over the extension field, hence also for base field wires."
  },
  {
   "property": "C45",
   "status": "proved",
   "theorems": [
    "C45_exponentiation",
    "C45_bits_unchecked"
   ],
   "note": "The gate itself does not make the power wires boolean (C45_bits_unchecked), as in plonky2."
  },
  {
   "property": "C46",
   "status": "proved",
   "theorems": [
    "C46_random_access"
   ],
   "note": ""
  },
  {
   "property": "C47",
   "status": "proved",
   "theorems": [
    "C47_reducing",
    "C47_reducing_extension"
   ],
   "note": ""
  },
  {
   "property": "C48",
   "status": "proved",
   "theorems": [
    "C48_coset_interpolation"
   ],
   "note": "The weights are gate parameters; the theorem assumes they are the barycentric ones."
  },
  {
   "property": "C49",
   "status": "proved",
   "theorems": [
    "C49_poseidon_gate",
    "C49_base_field",
    "C49_complete",
    "C49_mds_gate"
   ],
   "note": ""
  },
  {
   "property": "C50",
   "status": "proved",
   "theorems": [
    "C50_constant",
    "C50_public_input",
    "C50_noop"
   ],
   "note": ""
  },
  {
   "property": "C51",
   "status": "proved",
   "theorems": [
    "C51_parse",
    "C51_unambiguous",
    "C51_sound",
    "C51_unknown",
    "C51_circuit",
    "C51_all_strings_refuted",
    "C51_exact_refuted",
    "C51_Id",
    "C51_Id_refuted"
   ],
   "note": "The regular expressions are not anchored, so unambiguity holds for the identifiers but not for all strings (C51_all_strings_refuted, C51_exact_refuted); Id of three gates is not parsed back (C51_Id_refuted)."
  },
  {
   "property": "C52",
   "status": "partial",
   "theorems": [
    "C52_honest",
    "C52_exact",
    "C52_verify_partial",
    "C52_verify_refuted",
    "C52_forgery",
    "C52_bits",
    "C52_bits_forgery"
   ],
   "note": "The full statement is false of the code (C52_verify_refuted): the S-box range checks of width 192 admit wrong hashes. It holds of the honest prover (C52_honest), of circuits whose S-box checks are at most 189 bits wide (C52_verify_partial), and in the exact form with the reachable permutation outputs (C52_exact)."
  },
  {
   "property": "C53",
   "status": "proved",
   "theorems": [
    "C53_verify",
    "C53_exact"
   ],
   "note": ""
  },
  {
   "property": "C54",
   "status": "proved",
   "theorems": [
    "C54_residues",
    "C54_too_large",
    "C54_plus_p",
    "C54_collision",
    "C54_append_zero"
   ],
   "note": "Public inputs are bound modulo p, and by their residues only up to an explicit Poseidon collision; the count is not bound (C54_append_zero)."
  },
  {
   "property": "C55",
   "status": "proved",
   "theorems": [
    "C55_proof",
    "C55_verifier_data",
    "C55_writable",
    "C55_lossless",
    "C55_digest_mod",
    "C55_coordinates",
    "C55_u64"
   ],
   "note": "From the lexed JSON value to the circuit variables, for files in any member order. Malformed files: surplus coordinates are dropped, digests are reduced modulo r, missing members read as zero (examples in Prop_Deser.v)."
  },
  {
   "property": "C56",
   "status": "partial",
   "theorems": [
    "C56_read",
    "C56_hiding",
    "C56_read_degree",
    "C56_consistent",
    "C56_unused",
    "C56_no_queries",
    "C56_missing",
    "C56_refuted"
   ],
   "note": "The equations are enforced (C56_consistent). That every inconsistency aborts is false (C56_refuted): Config.FriConfig, SecurityBits and NumPublicInputs are never compared with what is used, and missing members such as proof_of_work_bits read as zero. For values whose sums overflow 64 bits see C74: there RateBits is not bounded."
  },
  {
   "property": "C57",
   "status": "proved",
   "theorems": [
    "C57_counts",
    "C57_first_minimum",
    "C57_multiset",
    "C57_monotone"
   ],
   "note": "Go ints are taken not to overflow; C57_first_minimum bounds the requests so that they do not."
  },
  {
   "property": "C58",
   "status": "proved",
   "theorems": [
    "C58_fri_complete",
    "C58_tree",
    "C58_fold",
    "C58_fold_at_0"
   ],
   "note": "The honest prover (Honest.v) is a specification; plonky2 itself is not in /repo."
  },
  {
   "property": "C59",
   "status": "proved",
   "theorems": [
    "C59_fri_sound",
    "C59_fold",
    "C59_batch",
    "C59_unique",
    "C59_honest"
   ],
   "note": "Rewinding statement with exact answers on the whole domain: no probability and no proximity bound for provers that answer only some indices. The degree bound is 2^DegreeBits, not 2^DegreeBits - 1: the verifier checks quotients (f - o)/(X - z) of degree < 2^DegreeBits."
  },
  {
   "property": "C60",
   "status": "proved",
   "theorems": [
    "C60_gate_degree",
    "C60_filtered"
   ],
   "note": "Upper bounds; the examples show that they are reached by ArithmeticGate and BaseSumGate."
  },
  {
   "property": "C61",
   "status": "proved",
   "theorems": [
    "C61_rows",
    "C61_gates",
    "C61_copy",
    "C61_labels"
   ],
   "note": "Rewinding statement over openings that are values of polynomials; C59 supplies those polynomials from FRI. No probability. Distinct labels k_j g^k are a property of the verification key and are a hypothesis of the last part of C61_copy (C61_labels gives a sufficient condition)."
  },
  {
   "property": "C62",
   "status": "proved",
   "theorems": [
    "C62_link",
    "C62_sound"
   ],
   "note": "Rewinding statement: a list of runs that must all be accepted, no probability. Challenges are inputs (the Fiat-Shamir hash is C28; with the S-box width of the code it is malleable, see C19). The lengths of the opening lists are a hypothesis since the code does not check them."
  },
  {
   "property": "C63",
   "status": "proved",
   "theorems": [
    "C63_complete",
    "C63_causal",
    "C63_few_bad",
    "C63_strategy"
   ],
   "note": "The honest prover is a specification (plonky2 is not part of the repository). Excluded challenges: a zero denominator of the grand product, zeta = 1, FRI points hitting zeta, g zeta or a folding challenge."
  },
  {
   "property": "C64",
   "status": "proved",
   "theorems": [
    "C64_transcript",
    "C64_complete"
   ],
   "note": "That the challenges of a transcript are not the excluded ones is a hypothesis (lucky); C63_few_bad bounds the exceptions. The example discharges all other hypotheses."
  },
  {
   "property": "C65",
   "status": "proved",
   "theorems": [
    "C65_eval",
    "C65_chain",
    "C65_unchecked"
   ],
   "note": "The ignition and kzg libraries are arbitrary functions. C65_unchecked is a finding: with startIdx 174 only the links of the last contributions are checked."
  },
  {
   "property": "C66",
   "status": "proved",
   "theorems": [
    "C66_plonk",
    "C66_groth16",
    "C66_dummy",
    "C66_dummy_save_refuted"
   ],
   "note": "gnark is arbitrary functions. C66_dummy_save_refuted is a finding: groth16 with dummy and saving always panics."
  },
  {
   "property": "C67",
   "status": "proved",
   "theorems": [
    "C67_resplit",
    "C67_refuted"
   ],
   "note": "A finding: plonky2 validates the shape of the proof, this verifier does not. In gnark the lengths are those of the assignment with which the circuit is compiled, so whoever compiles must use a proof of the right shape."
  },
  {
   "property": "C68",
   "status": "proved",
   "theorems": [
    "C68_goldilocks",
    "C68_bn254",
    "C68_constraints_refuted"
   ],
   "note": "the code run by an honest prover; C68_constraints_refuted shows the same statement fails for the constraints with width 192"
  },
  {
   "property": "C69",
   "status": "proved",
   "theorems": [
    "C69_sponge",
    "C69_fiat_shamir",
    "C69_lengths_refuted",
    "C69_canonical_refuted"
   ],
   "note": "for the code run by an honest solver; collisions are exhibited, not assumed away; the two refutations show the hypotheses on lengths and canonical values are needed"
  },
  {
   "property": "C70",
   "status": "proved",
   "theorems": [
    "C70_any_implementation",
    "C70_HashNoPad",
    "C70_HashOrNoop",
    "C70_TwoToOne",
    "C70_Poseidon",
    "C70_MulAddNoReduce",
    "C70_fits",
    "C70_ladd",
    "C70_MulAdd",
    "C70_MulAdd_refuted",
    "C70_partialRounds_refuted"
   ],
   "note": "MulAdd breaks the documented contract of MulAcc (C70_MulAdd_refuted) and is safe only by the capacity rule of gnark v0.9.1 (C70_MulAdd, C70_fits)"
  },
  {
   "property": "C71",
   "status": "proved",
   "theorems": [
    "C71_ToOpenings",
    "C71_verifier",
    "C71_shared_refuted"
   ],
   "note": "for all growth policies; C71_shared_refuted shows that the hypothesis on shared arrays is needed"
  },
  {
   "property": "C72",
   "status": "proved",
   "theorems": [
    "C72_variables",
    "C72_compiled",
    "C72_ignored",
    "C72_key_fixed",
    "C72_untagged",
    "C72_refuted",
    "C72_any_proof_refuted"
   ],
   "note": "the two refutations show that the compiled circuit does not check the proof of the assignment; the contract of the walk of gnark is trusted"
  },
  {
   "property": "C73",
   "status": "proved",
   "theorems": [
    "C73_gate",
    "C73_constraints",
    "C73_layout",
    "C73_ends",
    "C73_reads",
    "C73_wrap_refuted"
   ],
   "note": "The results of a run are compared, not which panic or unsatisfied constraint ends a run without a result. C73_wrap_refuted shows that the bound on the number of wires in C73_layout is needed."
  },
  {
   "property": "C74",
   "status": "proved",
   "theorems": [
    "C74_fields",
    "C74_verifier",
    "C74_rate_refuted",
    "C74_pow_refuted",
    "C74_rounds_refuted"
   ],
   "note": "C74_verifier is the equivalence; the three _refuted theorems show that its bounds on RateBits and ProofOfWorkBits and the query round are needed."
  },
  {
   "property": "C75",
   "status": "proved",
   "theorems": [
    "C75_forge",
    "C75_error",
    "C75_rate_one"
   ],
   "note": "The lower bound on the soundness error; with rate 1 it is 1."
  },
  {
   "property": "C76",
   "status": "proved",
   "theorems": [
    "C76_forge",
    "C76_causal",
    "C76_error",
    "C76_transcript",
    "C76_rate_one",
    "C76_unsatisfiable"
   ],
   "note": "For the transcript the conditions on the challenges (no division by zero, proof of work done, queries within the set) are hypotheses; C76_ex shows challenges meeting them. This is why C62 needs RateBits >= 1."
  },
  {
   "property": "C77",
   "status": "proved",
   "theorems": [
    "C77_layout",
    "C77_system",
    "C77_no_panic",
    "C77_panic",
    "C77_permutation"
   ],
   "note": "Two-run simulation for every function of the verifier up to Define; the map order of the gate parsers is the same in both runs (C51 shows it does not matter for real identifiers)."
  },
  {
   "property": "C78",
   "status": "proved",
   "theorems": [
    "C78_fri",
    "C78_key",
    "C78_prover",
    "C78_free_entry"
   ],
   "note": "The digest is in the transcript but is never compared with the cap. On the two proofs in /repo/testdata three and two of the 16 entries are free (validation/testdata.py)."
  },
  {
   "property": "C79",
   "status": "proved",
   "theorems": [
    "C79_fri",
    "C79_runs",
    "C79_verifier",
    "C79_majority",
    "C79_tight"
   ],
   "note": "Generalises C59 and C62, which are now corollaries; C79_tight shows that the number of positions in C79_fri is best possible."
  },
  {
   "property": "C80",
   "status": "proved",
   "theorems": [
    "C80_extract",
    "C80_far",
    "C80_false_opening",
    "C80_cheat",
    "C80_honest"
   ],
   "note": "Unique decoding radius; collisions of the Poseidon hash are excluded by hypothesis, among the inputs that the winning runs hash. The query positions are tuples of N^q; for the transcript they come from the hash (C30). With the parameters of the test data (rate 1/8, 28 queries) the first term is about (9/16)^28 = 2^-23.2."
  },
  {
   "property": "C81",
   "status": "proved",
   "theorems": [
    "C81_extract",
    "C81_error",
    "C81_fraction",
    "C81_testdata"
   ],
   "note": "Unique decoding radius, interactive challenges: the transcript is not in this statement, nor the proof of work (16 bits in the test data). The security_bits = 100 of the test data rely on a conjecture on FRI beyond this radius."
  },
  {
   "property": "C82",
   "status": "proved",
   "theorems": [
    "C82_pow",
    "C82_count",
    "C82_testdata"
   ],
   "note": "Interactive: a prover that tries many witnesses against a hash function (grinding) is not in this statement; each try is a run."
  },
  {
   "property": "C83",
   "status": "proved",
   "theorems": [
    "C83_transcript",
    "C83_sound_refuted",
    "C83_interactive"
   ],
   "note": "the statement that accepted proofs are proofs of true statements is refuted for the S-box width 192 of the code; general form in C83_transcript; C83_interactive: with drawn challenges the same false statement is accepted in at most one run in 2^39"
  },
  {
   "property": "C84",
   "status": "proved",
   "theorems": [
    "C84_oracle",
    "C84_probability",
    "C84_testdata"
   ],
   "note": "The sponge of the challenger is idealised: a random oracle with uniform challenges. The Merkle hash is not: S is a fixed set of inputs without collisions, and an accepted proof counts only if its Merkle verification hashes inputs in S. Unique decoding radius. C83 shows that the sponge of the code, with S-boxes of width 192, is not such an oracle."
  },
  {
   "property": "C85",
   "status": "proved",
   "theorems": [
    "C85_honest",
    "C85_transcript",
    "C85_game"
   ],
   "note": "For an arbitrary prover the widths 128-189 of the S-box quotient; with the width 192 of the code the challenges of the circuit are not a function of the messages (C68, C83). The number of caps of the commit phase is assumed to be the number of foldings: it is fixed when the circuit is compiled, but the code does not check it."
  },
  {
   "property": "C86",
   "status": "proved",
   "theorems": [
    "C86_files",
    "C86_data",
    "C86_rows",
    "C86_coset",
    "C86_complete",
    "C86_accepts",
    "C86_oracle"
   ],
   "note": "The data of both test circuits are in TestData.v; the proofs in testdata are not. That the cap in the key is that of some polynomials remains a hypothesis of C86_oracle."
  },
  {
   "property": "C87",
   "status": "proved",
   "theorems": [
    "C87_schema",
    "C87_requests",
    "C87_compile"
   ],
   "note": "The hashes over BN254 are pure functions in the model: they do not branch on values, which is seen from their text only."
  },
  {
   "property": "C88",
   "status": "proved",
   "theorems": [
    "C88_requests",
    "C88_compiles",
    "C88_commit",
    "C88_modes_agree",
    "C88_once",
    "C88_test",
    "C88_exact",
    "C88_complete"
   ],
   "note": "That there are fewer than 2^50 requests is a hypothesis (for more, the cost functions of gnark can overflow); by C88_once one trace for one proof of the shape is enough to know it; for the circuits of testdata C89 proves it."
  },
  {
   "property": "C89",
   "status": "proved",
   "theorems": [
    "C89_shape",
    "C89_checked",
    "C89_census",
    "C89_panics",
    "C89_no_panic",
    "C89_requests",
    "C89_accepts",
    "C89_exact",
    "C89_complete"
   ],
   "note": "Equations are those of the model: the BN254 hashes and the bit decompositions of the range checks are not counted. The number of public inputs is that of the circuit (0 and 36)."
  },
  {
   "property": "C90",
   "status": "proved",
   "theorems": [
    "C90_sharp",
    "C90_widths",
    "C90_bits",
    "C90_commit",
    "C90_any",
    "C90_forgery",
    "C90_requests",
    "C90_panics",
    "C90_repaired",
    "C90_keeps",
    "C90_complete"
   ],
   "note": "About a change of the code (the width in poseidon/goldilocks.go:141 and :144), not the code as it is; for the code as it is see C52 and C83."
  }
 ]
}