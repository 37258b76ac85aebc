(** * Model of types/deserialize.go, types/common_data.go, variables/deserialize.go and the
      array conversions of goldilocks/utils.go: from a JSON value to the data of the verifier.

    The text of a JSON file is lexed by encoding/json; the model starts from the value tree.
    What encoding/json does with a tree and a Go type is modelled from its documentation: the
    members of an object are taken in order, a member is decoded into the field whose name
    equals its key up to case, unknown keys are skipped, a missing or null member leaves the
    field as it is (zero at first), a value of the wrong type is an error, and so is a number
    that is not a uint64 literal.  Simplified: letter case is that of ASCII, and when a key
    occurs twice the elements of the second array do not inherit from those of the first. *)
From Coq Require Import String Ascii.
From Coq Require Import ZArith NArith List Bool.
From Verif Require Import Zp Circuit Goldilocks Types.
Import ListNotations.
Open Scope Z_scope.

(** [JUint] is a number literal consisting of digits, [JNumber] any other number *)
Inductive json :=
| JNull
| JBool (b : bool)
| JUint (n : Z)
| JNumber
| JStr (s : string)
| JArr (l : list json)
| JObj (l : list (string * json)).

Definition lower (c : ascii) : ascii :=
  let n := N_of_ascii c in if (65 <=? n)%N && (n <=? 90)%N then ascii_of_N (n + 32) else c.
Fixpoint foldName (s : string) : string :=
  match s with EmptyString => EmptyString | String c s' => String (lower c) (foldName s') end.

(** ** Decoders: value and old contents to new contents, [None] an error *)
Definition dec_u64 (j : json) (old : Z) : option Z :=
  match j with
  | JNull => Some old
  | JUint n => if (0 <=? n) && (n <? 2 ^ 64) then Some n else None
  | _ => None
  end.
Definition dec_bool (j : json) (old : bool) : option bool :=
  match j with JNull => Some old | JBool b => Some b | _ => None end.
Definition dec_string (j : json) (old : string) : option string :=
  match j with JNull => Some old | JStr s => Some s | _ => None end.
Fixpoint mapO {A B} (f : A -> option B) (l : list A) : option (list B) :=
  match l with
  | [] => Some []
  | x :: l' => match f x with
               | Some y => match mapO f l' with Some ys => Some (y :: ys) | None => None end
               | None => None
               end
  end.
(** null makes a nil slice *)
Definition dec_list {A} (zero : A) (d : json -> A -> option A) (j : json) (old : list A) : option (list A) :=
  match j with
  | JNull => Some []
  | JArr l => mapO (fun x => d x zero) l
  | _ => None
  end.
(** a field of the struct type T: its name, how to read and replace it, its decoder *)
Inductive fieldOf (T : Type) :=
| Field_ (F : Type) (name : string) (get : T -> F) (set : F -> T -> T) (d : json -> F -> option F).
Arguments Field_ {T}.
Notation Field := (Field_ _).
Definition field_name {T} (f : fieldOf T) : string := match f with Field_ _ n _ _ _ => n end.
Definition field_dec {T} (f : fieldOf T) (j : json) (t : T) : option T :=
  match f with
  | Field_ F _ get set d => match d j (get t) with Some x => Some (set x t) | None => None end
  end.
Fixpoint findField {T} (k : string) (fs : list (fieldOf T)) : option (fieldOf T) :=
  match fs with
  | [] => None
  | f :: fs' => if String.eqb (foldName (field_name f)) (foldName k) then Some f else findField k fs'
  end.
Fixpoint dec_members {T} (fs : list (fieldOf T)) (ms : list (string * json)) (t : T) : option T :=
  match ms with
  | [] => Some t
  | (k, v) :: ms' =>
      match findField k fs with
      | None => dec_members fs ms' t
      | Some f => match field_dec f v t with Some t' => dec_members fs ms' t' | None => None end
      end
  end.
Definition dec_obj {T} (fs : list (fieldOf T)) (j : json) (t : T) : option T :=
  match j with
  | JNull => Some t
  | JObj ms => dec_members fs ms t
  | _ => None
  end.

(** ** The raw structs; a struct with one field is its field *)
(** types/deserialize.go:14-22 *)
Record RawOpenings := mkRawOpenings {
  ro_Constants : list (list Z);
  ro_PlonkSigmas : list (list Z);
  ro_Wires : list (list Z);
  ro_PlonkZs : list (list Z);
  ro_PlonkZsNext : list (list Z);
  ro_PartialProducts : list (list Z);
  ro_QuotientPolys : list (list Z) }.
Definition zero_RawOpenings : RawOpenings := mkRawOpenings [] [] [] [] [] [] [].
Definition fields_RawOpenings : list (fieldOf RawOpenings) := [
  Field "constants" ro_Constants (fun x t => mkRawOpenings x (ro_PlonkSigmas t) (ro_Wires t) (ro_PlonkZs t) (ro_PlonkZsNext t) (ro_PartialProducts t) (ro_QuotientPolys t))
    (dec_list [] (dec_list 0 dec_u64));
  Field "plonk_sigmas" ro_PlonkSigmas (fun x t => mkRawOpenings (ro_Constants t) x (ro_Wires t) (ro_PlonkZs t) (ro_PlonkZsNext t) (ro_PartialProducts t) (ro_QuotientPolys t))
    (dec_list [] (dec_list 0 dec_u64));
  Field "wires" ro_Wires (fun x t => mkRawOpenings (ro_Constants t) (ro_PlonkSigmas t) x (ro_PlonkZs t) (ro_PlonkZsNext t) (ro_PartialProducts t) (ro_QuotientPolys t))
    (dec_list [] (dec_list 0 dec_u64));
  Field "plonk_zs" ro_PlonkZs (fun x t => mkRawOpenings (ro_Constants t) (ro_PlonkSigmas t) (ro_Wires t) x (ro_PlonkZsNext t) (ro_PartialProducts t) (ro_QuotientPolys t))
    (dec_list [] (dec_list 0 dec_u64));
  Field "plonk_zs_next" ro_PlonkZsNext (fun x t => mkRawOpenings (ro_Constants t) (ro_PlonkSigmas t) (ro_Wires t) (ro_PlonkZs t) x (ro_PartialProducts t) (ro_QuotientPolys t))
    (dec_list [] (dec_list 0 dec_u64));
  Field "partial_products" ro_PartialProducts (fun x t => mkRawOpenings (ro_Constants t) (ro_PlonkSigmas t) (ro_Wires t) (ro_PlonkZs t) (ro_PlonkZsNext t) x (ro_QuotientPolys t))
    (dec_list [] (dec_list 0 dec_u64));
  Field "quotient_polys" ro_QuotientPolys (fun x t => mkRawOpenings (ro_Constants t) (ro_PlonkSigmas t) (ro_Wires t) (ro_PlonkZs t) (ro_PlonkZsNext t) (ro_PartialProducts t) x)
    (dec_list [] (dec_list 0 dec_u64))].
Definition dec_RawOpenings : json -> RawOpenings -> option RawOpenings := dec_obj fields_RawOpenings.

(** types/deserialize.go:45-48 and 54-56; the Merkle proof is its list of hashes *)
Record RawEvalProof := mkRawEvalProof { re_LeafElements : list Z; re_Hash : list string }.
Definition zero_RawEvalProof : RawEvalProof := mkRawEvalProof [] [].
(** types/deserialize.go:58-72: the hashes are replaced, not merged *)
Definition dec_MerkleProof (j : json) : option (list string) :=
  dec_obj [Field "Siblings" (fun x => x) (fun x _ => x) (dec_list EmptyString dec_string)] j [].
(** types/deserialize.go:50-52.  Decoding an array into a slice of two pointers: missing or null
    elements leave the field as it is, further elements are decoded into nothing. *)
Definition dec_EvalProof (j : json) (e : RawEvalProof) : option RawEvalProof :=
  match j with
  | JNull => Some e
  | JArr l =>
      match (match nth 0 l JNull with JNull => Some (re_LeafElements e) | v => dec_list 0 dec_u64 v (re_LeafElements e) end) with
      | Some leaf =>
          match (match nth 1 l JNull with JNull => Some (re_Hash e) | v => dec_MerkleProof v end) with
          | Some hash => Some (mkRawEvalProof leaf hash)
          | None => None
          end
      | None => None
      end
  | _ => None
  end.
(** types/deserialize.go:29-34 *)
Record RawStep := mkRawStep {
  rs_Evals : list (list Z);
  rs_Siblings : list string }.
Definition zero_RawStep : RawStep := mkRawStep [] [].
Definition fields_RawStep : list (fieldOf RawStep) := [
  Field "evals" rs_Evals (fun x t => mkRawStep x (rs_Siblings t))
    (dec_list [] (dec_list 0 dec_u64));
  Field "merkle_proof" rs_Siblings (fun x t => mkRawStep (rs_Evals t) x)
    (dec_obj [Field "siblings" (fun x => x) (fun x _ => x) (dec_list EmptyString dec_string)])].
Definition dec_RawStep : json -> RawStep -> option RawStep := dec_obj fields_RawStep.

(** types/deserialize.go:25-35 *)
Record RawQueryRound := mkRawQueryRound {
  rq_EvalsProofs : list RawEvalProof;
  rq_Steps : list RawStep }.
Definition zero_RawQueryRound : RawQueryRound := mkRawQueryRound [] [].
Definition fields_RawQueryRound : list (fieldOf RawQueryRound) := [
  Field "initial_trees_proof" rq_EvalsProofs (fun x t => mkRawQueryRound x (rq_Steps t))
    (dec_obj [Field "evals_proofs" (fun x => x) (fun x _ => x) (dec_list zero_RawEvalProof dec_EvalProof)]);
  Field "steps" rq_Steps (fun x t => mkRawQueryRound (rq_EvalsProofs t) x)
    (dec_list zero_RawStep dec_RawStep)].
Definition dec_RawQueryRound : json -> RawQueryRound -> option RawQueryRound := dec_obj fields_RawQueryRound.

(** types/deserialize.go:23-40 *)
Record RawFriProof := mkRawFriProof {
  rf_CommitPhaseMerkleCaps : list (list string);
  rf_QueryRoundProofs : list RawQueryRound;
  rf_Coeffs : list (list Z);
  rf_PowWitness : Z }.
Definition zero_RawFriProof : RawFriProof := mkRawFriProof [] [] [] 0.
Definition fields_RawFriProof : list (fieldOf RawFriProof) := [
  Field "commit_phase_merkle_caps" rf_CommitPhaseMerkleCaps (fun x t => mkRawFriProof x (rf_QueryRoundProofs t) (rf_Coeffs t) (rf_PowWitness t))
    (dec_list [] (dec_list EmptyString dec_string));
  Field "query_round_proofs" rf_QueryRoundProofs (fun x t => mkRawFriProof (rf_CommitPhaseMerkleCaps t) x (rf_Coeffs t) (rf_PowWitness t))
    (dec_list zero_RawQueryRound dec_RawQueryRound);
  Field "final_poly" rf_Coeffs (fun x t => mkRawFriProof (rf_CommitPhaseMerkleCaps t) (rf_QueryRoundProofs t) x (rf_PowWitness t))
    (dec_obj [Field "coeffs" (fun x => x) (fun x _ => x) (dec_list [] (dec_list 0 dec_u64))]);
  Field "pow_witness" rf_PowWitness (fun x t => mkRawFriProof (rf_CommitPhaseMerkleCaps t) (rf_QueryRoundProofs t) (rf_Coeffs t) x)
    dec_u64].
Definition dec_RawFriProof : json -> RawFriProof -> option RawFriProof := dec_obj fields_RawFriProof.

(** types/deserialize.go:10-41 *)
Record RawProof := mkRawProof {
  rp_WiresCap : list string;
  rp_PlonkZsPartialProductsCap : list string;
  rp_QuotientPolysCap : list string;
  rp_Openings : RawOpenings;
  rp_OpeningProof : RawFriProof }.
Definition zero_RawProof : RawProof := mkRawProof [] [] [] zero_RawOpenings zero_RawFriProof.
Definition fields_RawProof : list (fieldOf RawProof) := [
  Field "wires_cap" rp_WiresCap (fun x t => mkRawProof x (rp_PlonkZsPartialProductsCap t) (rp_QuotientPolysCap t) (rp_Openings t) (rp_OpeningProof t))
    (dec_list EmptyString dec_string);
  Field "plonk_zs_partial_products_cap" rp_PlonkZsPartialProductsCap (fun x t => mkRawProof (rp_WiresCap t) x (rp_QuotientPolysCap t) (rp_Openings t) (rp_OpeningProof t))
    (dec_list EmptyString dec_string);
  Field "quotient_polys_cap" rp_QuotientPolysCap (fun x t => mkRawProof (rp_WiresCap t) (rp_PlonkZsPartialProductsCap t) x (rp_Openings t) (rp_OpeningProof t))
    (dec_list EmptyString dec_string);
  Field "openings" rp_Openings (fun x t => mkRawProof (rp_WiresCap t) (rp_PlonkZsPartialProductsCap t) (rp_QuotientPolysCap t) x (rp_OpeningProof t))
    dec_RawOpenings;
  Field "opening_proof" rp_OpeningProof (fun x t => mkRawProof (rp_WiresCap t) (rp_PlonkZsPartialProductsCap t) (rp_QuotientPolysCap t) (rp_Openings t) x)
    dec_RawFriProof].
Definition dec_RawProof : json -> RawProof -> option RawProof := dec_obj fields_RawProof.

(** types/deserialize.go:9-43 [ProofWithPublicInputsRaw] *)
Record RawProofWithPis := mkRawProofWithPis {
  rw_Proof : RawProof;
  rw_PublicInputs : list Z }.
Definition zero_RawProofWithPis : RawProofWithPis := mkRawProofWithPis zero_RawProof [].
Definition fields_RawProofWithPis : list (fieldOf RawProofWithPis) := [
  Field "proof" rw_Proof (fun x t => mkRawProofWithPis x (rw_PublicInputs t))
    dec_RawProof;
  Field "public_inputs" rw_PublicInputs (fun x t => mkRawProofWithPis (rw_Proof t) x)
    (dec_list 0 dec_u64)].
Definition dec_RawProofWithPis : json -> RawProofWithPis -> option RawProofWithPis := dec_obj fields_RawProofWithPis.

(** types/deserialize.go:87-90 [VerifierOnlyCircuitDataRaw] *)
Record RawVerifierOnly := mkRawVerifierOnly {
  rv_ConstantsSigmasCap : list string;
  rv_CircuitDigest : string }.
Definition zero_RawVerifierOnly : RawVerifierOnly := mkRawVerifierOnly [] EmptyString.
Definition fields_RawVerifierOnly : list (fieldOf RawVerifierOnly) := [
  Field "constants_sigmas_cap" rv_ConstantsSigmasCap (fun x t => mkRawVerifierOnly x (rv_CircuitDigest t))
    (dec_list EmptyString dec_string);
  Field "circuit_digest" rv_CircuitDigest (fun x t => mkRawVerifierOnly (rv_ConstantsSigmasCap t) x)
    dec_string].
Definition dec_RawVerifierOnly : json -> RawVerifierOnly -> option RawVerifierOnly := dec_obj fields_RawVerifierOnly.

(** types/common_data.go:21-29 and 32-40 *)
Record RawFriConfig := mkRawFriConfig {
  rc_RateBits : Z;
  rc_CapHeight : Z;
  rc_ProofOfWorkBits : Z;
  rc_ConstantArityBits : list Z;
  rc_NumQueryRounds : Z }.
Definition zero_RawFriConfig : RawFriConfig := mkRawFriConfig 0 0 0 [] 0.
Definition fields_RawFriConfig : list (fieldOf RawFriConfig) := [
  Field "rate_bits" rc_RateBits (fun x t => mkRawFriConfig x (rc_CapHeight t) (rc_ProofOfWorkBits t) (rc_ConstantArityBits t) (rc_NumQueryRounds t))
    dec_u64;
  Field "cap_height" rc_CapHeight (fun x t => mkRawFriConfig (rc_RateBits t) x (rc_ProofOfWorkBits t) (rc_ConstantArityBits t) (rc_NumQueryRounds t))
    dec_u64;
  Field "proof_of_work_bits" rc_ProofOfWorkBits (fun x t => mkRawFriConfig (rc_RateBits t) (rc_CapHeight t) x (rc_ConstantArityBits t) (rc_NumQueryRounds t))
    dec_u64;
  Field "reduction_strategy" rc_ConstantArityBits (fun x t => mkRawFriConfig (rc_RateBits t) (rc_CapHeight t) (rc_ProofOfWorkBits t) x (rc_NumQueryRounds t))
    (dec_obj [Field "ConstantArityBits" (fun x => x) (fun x _ => x) (dec_list 0 dec_u64)]);
  Field "num_query_rounds" rc_NumQueryRounds (fun x t => mkRawFriConfig (rc_RateBits t) (rc_CapHeight t) (rc_ProofOfWorkBits t) (rc_ConstantArityBits t) x)
    dec_u64].
Definition dec_RawFriConfig : json -> RawFriConfig -> option RawFriConfig := dec_obj fields_RawFriConfig.

(** types/common_data.go:12-30 *)
Record RawConfig := mkRawConfig {
  rg_NumWires : Z;
  rg_NumRoutedWires : Z;
  rg_NumConstants : Z;
  rg_UseBaseArithmeticGate : bool;
  rg_SecurityBits : Z;
  rg_NumChallenges : Z;
  rg_ZeroKnowledge : bool;
  rg_MaxQuotientDegreeFactor : Z;
  rg_FriConfig : RawFriConfig }.
Definition zero_RawConfig : RawConfig := mkRawConfig 0 0 0 false 0 0 false 0 zero_RawFriConfig.
Definition fields_RawConfig : list (fieldOf RawConfig) := [
  Field "num_wires" rg_NumWires (fun x t => mkRawConfig x (rg_NumRoutedWires t) (rg_NumConstants t) (rg_UseBaseArithmeticGate t) (rg_SecurityBits t) (rg_NumChallenges t) (rg_ZeroKnowledge t) (rg_MaxQuotientDegreeFactor t) (rg_FriConfig t))
    dec_u64;
  Field "num_routed_wires" rg_NumRoutedWires (fun x t => mkRawConfig (rg_NumWires t) x (rg_NumConstants t) (rg_UseBaseArithmeticGate t) (rg_SecurityBits t) (rg_NumChallenges t) (rg_ZeroKnowledge t) (rg_MaxQuotientDegreeFactor t) (rg_FriConfig t))
    dec_u64;
  Field "num_constants" rg_NumConstants (fun x t => mkRawConfig (rg_NumWires t) (rg_NumRoutedWires t) x (rg_UseBaseArithmeticGate t) (rg_SecurityBits t) (rg_NumChallenges t) (rg_ZeroKnowledge t) (rg_MaxQuotientDegreeFactor t) (rg_FriConfig t))
    dec_u64;
  Field "use_base_arithmetic_gate" rg_UseBaseArithmeticGate (fun x t => mkRawConfig (rg_NumWires t) (rg_NumRoutedWires t) (rg_NumConstants t) x (rg_SecurityBits t) (rg_NumChallenges t) (rg_ZeroKnowledge t) (rg_MaxQuotientDegreeFactor t) (rg_FriConfig t))
    dec_bool;
  Field "security_bits" rg_SecurityBits (fun x t => mkRawConfig (rg_NumWires t) (rg_NumRoutedWires t) (rg_NumConstants t) (rg_UseBaseArithmeticGate t) x (rg_NumChallenges t) (rg_ZeroKnowledge t) (rg_MaxQuotientDegreeFactor t) (rg_FriConfig t))
    dec_u64;
  Field "num_challenges" rg_NumChallenges (fun x t => mkRawConfig (rg_NumWires t) (rg_NumRoutedWires t) (rg_NumConstants t) (rg_UseBaseArithmeticGate t) (rg_SecurityBits t) x (rg_ZeroKnowledge t) (rg_MaxQuotientDegreeFactor t) (rg_FriConfig t))
    dec_u64;
  Field "zero_knowledge" rg_ZeroKnowledge (fun x t => mkRawConfig (rg_NumWires t) (rg_NumRoutedWires t) (rg_NumConstants t) (rg_UseBaseArithmeticGate t) (rg_SecurityBits t) (rg_NumChallenges t) x (rg_MaxQuotientDegreeFactor t) (rg_FriConfig t))
    dec_bool;
  Field "max_quotient_degree_factor" rg_MaxQuotientDegreeFactor (fun x t => mkRawConfig (rg_NumWires t) (rg_NumRoutedWires t) (rg_NumConstants t) (rg_UseBaseArithmeticGate t) (rg_SecurityBits t) (rg_NumChallenges t) (rg_ZeroKnowledge t) x (rg_FriConfig t))
    dec_u64;
  Field "fri_config" rg_FriConfig (fun x t => mkRawConfig (rg_NumWires t) (rg_NumRoutedWires t) (rg_NumConstants t) (rg_UseBaseArithmeticGate t) (rg_SecurityBits t) (rg_NumChallenges t) (rg_ZeroKnowledge t) (rg_MaxQuotientDegreeFactor t) x)
    dec_RawFriConfig].
Definition dec_RawConfig : json -> RawConfig -> option RawConfig := dec_obj fields_RawConfig.

(** types/common_data.go:31-44 *)
Record RawFriParams := mkRawFriParams {
  ra_Config : RawFriConfig;
  ra_Hiding : bool;
  ra_DegreeBits : Z;
  ra_ReductionArityBits : list Z }.
Definition zero_RawFriParams : RawFriParams := mkRawFriParams zero_RawFriConfig false 0 [].
Definition fields_RawFriParams : list (fieldOf RawFriParams) := [
  Field "config" ra_Config (fun x t => mkRawFriParams x (ra_Hiding t) (ra_DegreeBits t) (ra_ReductionArityBits t))
    dec_RawFriConfig;
  Field "hiding" ra_Hiding (fun x t => mkRawFriParams (ra_Config t) x (ra_DegreeBits t) (ra_ReductionArityBits t))
    dec_bool;
  Field "degree_bits" ra_DegreeBits (fun x t => mkRawFriParams (ra_Config t) (ra_Hiding t) x (ra_ReductionArityBits t))
    dec_u64;
  Field "reduction_arity_bits" ra_ReductionArityBits (fun x t => mkRawFriParams (ra_Config t) (ra_Hiding t) (ra_DegreeBits t) x)
    (dec_list 0 dec_u64)].
Definition dec_RawFriParams : json -> RawFriParams -> option RawFriParams := dec_obj fields_RawFriParams.

(** types/common_data.go:48-51 *)
Record RawGroup := mkRawGroup {
  ru_Start : Z;
  ru_End : Z }.
Definition zero_RawGroup : RawGroup := mkRawGroup 0 0.
Definition fields_RawGroup : list (fieldOf RawGroup) := [
  Field "start" ru_Start (fun x t => mkRawGroup x (ru_End t))
    dec_u64;
  Field "end" ru_End (fun x t => mkRawGroup (ru_Start t) x)
    dec_u64].
Definition dec_RawGroup : json -> RawGroup -> option RawGroup := dec_obj fields_RawGroup.

(** types/common_data.go:46-52 *)
Record RawSelectorsInfo := mkRawSelectorsInfo {
  ri_SelectorIndices : list Z;
  ri_Groups : list RawGroup }.
Definition zero_RawSelectorsInfo : RawSelectorsInfo := mkRawSelectorsInfo [] [].
Definition fields_RawSelectorsInfo : list (fieldOf RawSelectorsInfo) := [
  Field "selector_indices" ri_SelectorIndices (fun x t => mkRawSelectorsInfo x (ri_Groups t))
    (dec_list 0 dec_u64);
  Field "groups" ri_Groups (fun x t => mkRawSelectorsInfo (ri_SelectorIndices t) x)
    (dec_list zero_RawGroup dec_RawGroup)].
Definition dec_RawSelectorsInfo : json -> RawSelectorsInfo -> option RawSelectorsInfo := dec_obj fields_RawSelectorsInfo.

(** types/common_data.go:11-59 [CommonCircuitDataRaw] *)
Record RawCommon := mkRawCommon {
  rm_Config : RawConfig;
  rm_FriParams : RawFriParams;
  rm_Gates : list string;
  rm_SelectorsInfo : RawSelectorsInfo;
  rm_QuotientDegreeFactor : Z;
  rm_NumGateConstraints : Z;
  rm_NumConstants : Z;
  rm_NumPublicInputs : Z;
  rm_KIs : list Z;
  rm_NumPartialProducts : Z }.
Definition zero_RawCommon : RawCommon := mkRawCommon zero_RawConfig zero_RawFriParams [] zero_RawSelectorsInfo 0 0 0 0 [] 0.
Definition fields_RawCommon : list (fieldOf RawCommon) := [
  Field "config" rm_Config (fun x t => mkRawCommon x (rm_FriParams t) (rm_Gates t) (rm_SelectorsInfo t) (rm_QuotientDegreeFactor t) (rm_NumGateConstraints t) (rm_NumConstants t) (rm_NumPublicInputs t) (rm_KIs t) (rm_NumPartialProducts t))
    dec_RawConfig;
  Field "fri_params" rm_FriParams (fun x t => mkRawCommon (rm_Config t) x (rm_Gates t) (rm_SelectorsInfo t) (rm_QuotientDegreeFactor t) (rm_NumGateConstraints t) (rm_NumConstants t) (rm_NumPublicInputs t) (rm_KIs t) (rm_NumPartialProducts t))
    dec_RawFriParams;
  Field "gates" rm_Gates (fun x t => mkRawCommon (rm_Config t) (rm_FriParams t) x (rm_SelectorsInfo t) (rm_QuotientDegreeFactor t) (rm_NumGateConstraints t) (rm_NumConstants t) (rm_NumPublicInputs t) (rm_KIs t) (rm_NumPartialProducts t))
    (dec_list EmptyString dec_string);
  Field "selectors_info" rm_SelectorsInfo (fun x t => mkRawCommon (rm_Config t) (rm_FriParams t) (rm_Gates t) x (rm_QuotientDegreeFactor t) (rm_NumGateConstraints t) (rm_NumConstants t) (rm_NumPublicInputs t) (rm_KIs t) (rm_NumPartialProducts t))
    dec_RawSelectorsInfo;
  Field "quotient_degree_factor" rm_QuotientDegreeFactor (fun x t => mkRawCommon (rm_Config t) (rm_FriParams t) (rm_Gates t) (rm_SelectorsInfo t) x (rm_NumGateConstraints t) (rm_NumConstants t) (rm_NumPublicInputs t) (rm_KIs t) (rm_NumPartialProducts t))
    dec_u64;
  Field "num_gate_constraints" rm_NumGateConstraints (fun x t => mkRawCommon (rm_Config t) (rm_FriParams t) (rm_Gates t) (rm_SelectorsInfo t) (rm_QuotientDegreeFactor t) x (rm_NumConstants t) (rm_NumPublicInputs t) (rm_KIs t) (rm_NumPartialProducts t))
    dec_u64;
  Field "num_constants" rm_NumConstants (fun x t => mkRawCommon (rm_Config t) (rm_FriParams t) (rm_Gates t) (rm_SelectorsInfo t) (rm_QuotientDegreeFactor t) (rm_NumGateConstraints t) x (rm_NumPublicInputs t) (rm_KIs t) (rm_NumPartialProducts t))
    dec_u64;
  Field "num_public_inputs" rm_NumPublicInputs (fun x t => mkRawCommon (rm_Config t) (rm_FriParams t) (rm_Gates t) (rm_SelectorsInfo t) (rm_QuotientDegreeFactor t) (rm_NumGateConstraints t) (rm_NumConstants t) x (rm_KIs t) (rm_NumPartialProducts t))
    dec_u64;
  Field "k_is" rm_KIs (fun x t => mkRawCommon (rm_Config t) (rm_FriParams t) (rm_Gates t) (rm_SelectorsInfo t) (rm_QuotientDegreeFactor t) (rm_NumGateConstraints t) (rm_NumConstants t) (rm_NumPublicInputs t) x (rm_NumPartialProducts t))
    (dec_list 0 dec_u64);
  Field "num_partial_products" rm_NumPartialProducts (fun x t => mkRawCommon (rm_Config t) (rm_FriParams t) (rm_Gates t) (rm_SelectorsInfo t) (rm_QuotientDegreeFactor t) (rm_NumGateConstraints t) (rm_NumConstants t) (rm_NumPublicInputs t) (rm_KIs t) x)
    dec_u64].
Definition dec_RawCommon : json -> RawCommon -> option RawCommon := dec_obj fields_RawCommon.


(** ** Reading; [None] is a panic *)
(** types/deserialize.go:92-108, from the lexed file *)
Definition ReadProofWithPublicInputs (j : json) : option RawProofWithPis := dec_RawProofWithPis j zero_RawProofWithPis.
(** types/deserialize.go:110-126 *)
Definition ReadVerifierOnlyCircuitData (j : json) : option RawVerifierOnly := dec_RawVerifierOnly j zero_RawVerifierOnly.

(** types/common_data.go:101-112 with plonk/gates/types.go:15-32: the two slices have equal lengths *)
Definition NewSelectorsInfo (selectorIndices groupStarts groupEnds : list Z) : option SelectorsInfo :=
  if Nat.eqb (length groupStarts) (length groupEnds)
  then Some (mkSelectorsInfo (map Z.to_nat selectorIndices)
               (map (fun se => (Z.to_nat (fst se), Z.to_nat (snd se))) (combine groupStarts groupEnds)))
  else None.
(** types/common_data.go:86-89 and 93-96 *)
Definition friConfig (raw : RawFriConfig) : FriConfig :=
  mkFriConfig (Z.to_nat (rc_RateBits raw)) (Z.to_nat (rc_CapHeight raw)) (Z.to_nat (rc_ProofOfWorkBits raw))
    (Z.to_nat (rc_NumQueryRounds raw)).
(** types/common_data.go:76-126, after the file has been decoded.  FriParams.Hiding is not
    assigned and stays false. *)
Definition commonData (raw : RawCommon) : option CommonCircuitData :=
  let c := rm_Config raw in
  let config := mkCircuitConfig (Z.to_nat (rg_NumWires c)) (Z.to_nat (rg_NumRoutedWires c)) (Z.to_nat (rg_NumConstants c))
    (rg_UseBaseArithmeticGate c) (Z.to_nat (rg_SecurityBits c)) (Z.to_nat (rg_NumChallenges c)) (rg_ZeroKnowledge c)
    (Z.to_nat (rg_MaxQuotientDegreeFactor c)) (friConfig (rg_FriConfig c)) in
  let f := rm_FriParams raw in
  let params := mkFriParams (friConfig (ra_Config f)) false (Z.to_nat (ra_DegreeBits f)) (map Z.to_nat (ra_ReductionArityBits f)) in
  let s := rm_SelectorsInfo raw in
  match NewSelectorsInfo (ri_SelectorIndices s) (map ru_Start (ri_Groups s)) (map ru_End (ri_Groups s)) with
  | None => None
  | Some selectors =>
      if ra_Hiding f then None
      else Some (mkCommonCircuitData config params (rm_Gates raw) selectors (Z.to_nat (ra_DegreeBits f))
             (Z.to_nat (rm_QuotientDegreeFactor raw)) (Z.to_nat (rm_NumGateConstraints raw)) (Z.to_nat (rm_NumConstants raw))
             (Z.to_nat (rm_NumPublicInputs raw)) (rm_KIs raw) (Z.to_nat (rm_NumPartialProducts raw)))
  end.
(** types/common_data.go:61-127 *)
Definition ReadCommonCircuitData (j : json) : option CommonCircuitData :=
  match dec_RawCommon j zero_RawCommon with Some raw => commonData raw | None => None end.

(** ** Variables *)
(** big.Int.SetString(s, 10): an optional sign and digits *)
Definition isDigit (c : ascii) : bool := let n := N_of_ascii c in (48 <=? n)%N && (n <=? 57)%N.
Fixpoint digits (acc : Z) (s : string) : option Z :=
  match s with
  | EmptyString => Some acc
  | String c s' => if isDigit c then digits (10 * acc + (Z.of_N (N_of_ascii c) - 48)) s' else None
  end.
Definition unsigned (s : string) : option Z := match s with EmptyString => None | _ => digits 0 s end.
Definition SetString (s : string) : option Z :=
  match s with
  | String "-" s' => option_map Z.opp (unsigned s')
  | String "+" s' => unsigned s'
  | _ => unsigned s
  end.
(** frontend.Variable of a big.Int: gnark reduces modulo the field order.  When SetString fails
    the code ignores it and stores a nil pointer, at which gnark panics when the variable is
    used; here that is [None] at once. *)
Definition hashVariable (s : string) : option Z := option_map (fun z => z mod r) (SetString s).
(** variables/deserialize.go:12-20 *)
Definition DeserializeMerkleCap (raw : list string) : option FriMerkleCap := mapO hashVariable raw.
(** variables/deserialize.go:53-63 *)
Definition StringArrayToHashBN254Array (raw : list string) : option (list Z) := mapO hashVariable raw.
(** goldilocks/utils.go:28-34 *)
Definition Uint64ArrayToVariableArray (input : list Z) : list Z := input.
(** goldilocks/utils.go:40-46; an index out of range panics, elements after the second are ignored *)
Definition Uint64ArrayToQuadraticExtensionArray (input : list (list Z)) : option (list QE) :=
  mapO (fun e => match e with a :: b :: _ => Some (a, b) | _ => None end) input.

Notation "'do' x <- a ; b" := (match a with Some x => b | None => None end) (at level 200, x pattern, a at level 100, b at level 200).

(** variables/deserialize.go:33-51 *)
Definition DeserializeOpeningSet (raw : RawOpenings) : option OpeningSet :=
  do constants <- Uint64ArrayToQuadraticExtensionArray (ro_Constants raw);
  do sigmas <- Uint64ArrayToQuadraticExtensionArray (ro_PlonkSigmas raw);
  do wires <- Uint64ArrayToQuadraticExtensionArray (ro_Wires raw);
  do zs <- Uint64ArrayToQuadraticExtensionArray (ro_PlonkZs raw);
  do zsNext <- Uint64ArrayToQuadraticExtensionArray (ro_PlonkZsNext raw);
  do partialProducts <- Uint64ArrayToQuadraticExtensionArray (ro_PartialProducts raw);
  do quotientPolys <- Uint64ArrayToQuadraticExtensionArray (ro_QuotientPolys raw);
  Some (mkOpeningSet constants sigmas wires zs zsNext partialProducts quotientPolys).
(** variables/deserialize.go:96-101 *)
Definition deserializeEvalProof (raw : RawEvalProof) : option FriEvalProof :=
  do siblings <- StringArrayToHashBN254Array (re_Hash raw);
  Some (mkFriEvalProof (Uint64ArrayToVariableArray (re_LeafElements raw)) siblings).
(** variables/deserialize.go:103-108 *)
Definition deserializeStep (raw : RawStep) : option FriQueryStep :=
  do evals <- Uint64ArrayToQuadraticExtensionArray (rs_Evals raw);
  do siblings <- StringArrayToHashBN254Array (rs_Siblings raw);
  Some (mkFriQueryStep evals siblings).
(** variables/deserialize.go:95-109 *)
Definition deserializeRound (raw : RawQueryRound) : option FriQueryRound :=
  do evals <- mapO deserializeEvalProof (rq_EvalsProofs raw);
  do steps <- mapO deserializeStep (rq_Steps raw);
  Some (mkFriQueryRound evals steps).
(** variables/deserialize.go:65-112 *)
Definition DeserializeFriProof (raw : RawFriProof) : option FriProof :=
  do coeffs <- Uint64ArrayToQuadraticExtensionArray (rf_Coeffs raw);
  do caps <- mapO StringArrayToHashBN254Array (rf_CommitPhaseMerkleCaps raw);
  do rounds <- mapO deserializeRound (rf_QueryRoundProofs raw);
  Some (mkFriProof caps rounds coeffs (rf_PowWitness raw)).
(** variables/deserialize.go:114-147 *)
Definition DeserializeProofWithPublicInputs (raw : RawProofWithPis) : option (Proof_ * list Z) :=
  let proof := rw_Proof raw in
  do wiresCap <- DeserializeMerkleCap (rp_WiresCap proof);
  do zsCap <- DeserializeMerkleCap (rp_PlonkZsPartialProductsCap proof);
  do quotientCap <- DeserializeMerkleCap (rp_QuotientPolysCap proof);
  do openings <- DeserializeOpeningSet (rp_Openings proof);
  do openingProof <- DeserializeFriProof (rp_OpeningProof proof);
  Some (mkProof wiresCap zsCap quotientCap openings openingProof, Uint64ArrayToVariableArray (rw_PublicInputs raw)).
(** variables/deserialize.go:149-156 *)
Definition DeserializeVerifierOnlyCircuitData (raw : RawVerifierOnly) : option VerifierOnlyCircuitData :=
  do cap <- DeserializeMerkleCap (rv_ConstantsSigmasCap raw);
  do digest <- hashVariable (rv_CircuitDigest raw);
  Some (mkVerifierOnlyCircuitData cap digest).

(** what a caller does with the two files *)
Definition loadProof (j : json) : option (Proof_ * list Z) :=
  do raw <- ReadProofWithPublicInputs j; DeserializeProofWithPublicInputs raw.
Definition loadVerifierData (j : json) : option VerifierOnlyCircuitData :=
  do raw <- ReadVerifierOnlyCircuitData j; DeserializeVerifierOnlyCircuitData raw.
