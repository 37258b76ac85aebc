(** * What plonky2 writes, and the proof that the loader reads it back.

    The specification relates a JSON value to the data it denotes.  Objects may carry
    their members in any order, with further members that the loader does not know,
    provided that no two keys are equal up to case. *)
From Coq Require Import String Ascii.
From Coq Require Import ZArith NArith Lia List Bool Arith.
From Verif Require Import Zp Circuit Goldilocks Types Deser.
Import ListNotations.
Open Scope Z_scope.

(** ** Specification *)
(** two keys that Go does not distinguish: equal up to the case of ASCII letters *)
Definition same_letter (a b : ascii) : Prop :=
  let x := N_of_ascii a in let y := N_of_ascii b in
  x = y \/ (65 <= x <= 90 /\ y = x + 32)%N \/ (65 <= y <= 90 /\ x = y + 32)%N.
Fixpoint same_key (s t : string) : Prop :=
  match s, t with
  | EmptyString, EmptyString => True
  | String a s', String b t' => same_letter a b /\ same_key s' t'
  | _, _ => False
  end.
Definition distinct_keys (ms : list (string * json)) : Prop :=
  ForallOrdPairs (fun a b => ~ same_key (fst a) (fst b)) ms.
Definition is_object (j : json) (members : list (string * (json -> Prop))) : Prop :=
  exists ms, j = JObj ms /\ distinct_keys ms /\ Forall (fun m => exists v, In (fst m, v) ms /\ snd m v) members.
Definition is_array {A} (R : json -> A -> Prop) (j : json) (l : list A) : Prop :=
  exists js, j = JArr js /\ Forall2 R js l.
Definition is_u64 (j : json) (z : Z) : Prop := j = JUint z /\ 0 <= z < 2 ^ 64.
Definition is_nat (j : json) (n : nat) : Prop := is_u64 j (Z.of_nat n).
Definition is_bool (j : json) (b : bool) : Prop := j = JBool b.
Definition is_string (j : json) (s : string) : Prop := j = JStr s.
(** decimal notation: every character is a digit and counts by its place *)
Fixpoint place_value (s : string) : Z :=
  match s with
  | EmptyString => 0
  | String c s' => (Z.of_N (N_of_ascii c) - 48) * 10 ^ Z.of_nat (String.length s') + place_value s'
  end.
Fixpoint all_digits (s : string) : Prop :=
  match s with EmptyString => True | String c s' => (48 <= N_of_ascii c <= 57)%N /\ all_digits s' end.
Definition decimal (s : string) (z : Z) : Prop := s <> EmptyString /\ all_digits s /\ z = place_value s.
(** a BN254 digest is written as a string *)
Definition is_digest (j : json) (z : Z) : Prop := exists s, j = JStr s /\ decimal s z /\ 0 <= z < r.
(** an extension field element is a pair *)
Definition is_qe (j : json) (x : QE) : Prop := is_array is_u64 j [fst x; snd x].
Definition is_cap : json -> FriMerkleCap -> Prop := is_array is_digest.
Definition is_openings (j : json) (o : OpeningSet) : Prop := is_object j [
  ("constants"%string, fun v => is_array is_qe v (Constants o));
  ("plonk_sigmas"%string, fun v => is_array is_qe v (PlonkSigmas o));
  ("wires"%string, fun v => is_array is_qe v (Wires o));
  ("plonk_zs"%string, fun v => is_array is_qe v (PlonkZs o));
  ("plonk_zs_next"%string, fun v => is_array is_qe v (PlonkZsNext o));
  ("partial_products"%string, fun v => is_array is_qe v (PartialProducts o));
  ("quotient_polys"%string, fun v => is_array is_qe v (QuotientPolys o))].
(** leaf elements and Merkle proof as a pair *)
Definition is_eval_proof (j : json) (e : FriEvalProof) : Prop := exists a b, j = JArr [a; b] /\
  is_array is_u64 a (Elements e) /\ is_object b [("siblings"%string, fun v => is_array is_digest v (ep_Siblings e))].
Definition is_step (j : json) (s : FriQueryStep) : Prop := is_object j [
  ("evals"%string, fun v => is_array is_qe v (Evals s));
  ("merkle_proof"%string, fun v => is_object v [("siblings"%string, fun v => is_array is_digest v (st_Siblings s))])].
Definition is_round (j : json) (q : FriQueryRound) : Prop := is_object j [
  ("initial_trees_proof"%string, fun v => is_object v [("evals_proofs"%string, fun v => is_array is_eval_proof v (InitialTreesProof q))]);
  ("steps"%string, fun v => is_array is_step v (Steps q))].
Definition is_fri_proof (j : json) (f : FriProof) : Prop := is_object j [
  ("commit_phase_merkle_caps"%string, fun v => is_array is_cap v (CommitPhaseMerkleCaps f));
  ("query_round_proofs"%string, fun v => is_array is_round v (QueryRoundProofs f));
  ("final_poly"%string, fun v => is_object v [("coeffs"%string, fun v => is_array is_qe v (FinalPoly f))]);
  ("pow_witness"%string, fun v => is_u64 v (PowWitness f))].
Definition is_proof (j : json) (p : Proof_) : Prop := is_object j [
  ("wires_cap"%string, fun v => is_cap v (WiresCap p));
  ("plonk_zs_partial_products_cap"%string, fun v => is_cap v (PlonkZsPartialProductsCap p));
  ("quotient_polys_cap"%string, fun v => is_cap v (QuotientPolysCap p));
  ("openings"%string, fun v => is_openings v (Openings p));
  ("opening_proof"%string, fun v => is_fri_proof v (OpeningProof p))].
Definition is_proof_with_pis (j : json) (x : Proof_ * list Z) : Prop := is_object j [
  ("proof"%string, fun v => is_proof v (fst x));
  ("public_inputs"%string, fun v => is_array is_u64 v (snd x))].
Definition is_verifier_data (j : json) (d : VerifierOnlyCircuitData) : Prop := is_object j [
  ("constants_sigmas_cap"%string, fun v => is_cap v (ConstantSigmasCap d));
  ("circuit_digest"%string, fun v => is_digest v (CircuitDigest d))].
Definition is_fri_config (j : json) (c : FriConfig) : Prop := is_object j [
  ("rate_bits"%string, fun v => is_nat v (RateBits c));
  ("cap_height"%string, fun v => is_nat v (CapHeight c));
  ("proof_of_work_bits"%string, fun v => is_nat v (ProofOfWorkBits c));
  ("reduction_strategy"%string, fun v => exists l, is_object v [("ConstantArityBits"%string, fun v => is_array is_u64 v l)]);
  ("num_query_rounds"%string, fun v => is_nat v (NumQueryRounds c))].
Definition is_config (j : json) (c : CircuitConfig) : Prop := is_object j [
  ("num_wires"%string, fun v => is_nat v (NumWires c));
  ("num_routed_wires"%string, fun v => is_nat v (NumRoutedWires c));
  ("num_constants"%string, fun v => is_nat v (cc_NumConstants c));
  ("use_base_arithmetic_gate"%string, fun v => is_bool v (UseBaseArithmeticGate c));
  ("security_bits"%string, fun v => is_nat v (SecurityBits c));
  ("num_challenges"%string, fun v => is_nat v (NumChallenges c));
  ("zero_knowledge"%string, fun v => is_bool v (ZeroKnowledge c));
  ("max_quotient_degree_factor"%string, fun v => is_nat v (MaxQuotientDegreeFactor c));
  ("fri_config"%string, fun v => is_fri_config v (cc_FriConfig c))].
Definition is_fri_params (j : json) (f : FriParams) : Prop := is_object j [
  ("config"%string, fun v => is_fri_config v (fp_Config f));
  ("hiding"%string, fun v => is_bool v (Hiding f));
  ("degree_bits"%string, fun v => is_nat v (fp_DegreeBits f));
  ("reduction_arity_bits"%string, fun v => is_array is_nat v (ReductionArityBits f))].
Definition is_group (j : json) (g : nat * nat) : Prop := is_object j [
  ("start"%string, fun v => is_nat v (fst g)); ("end"%string, fun v => is_nat v (snd g))].
Definition is_selectors (j : json) (s : SelectorsInfo) : Prop := is_object j [
  ("selector_indices"%string, fun v => is_array is_nat v (selectorIndices s));
  ("groups"%string, fun v => is_array is_group v (groups s))].
(** the file has one [degree_bits], inside [fri_params] *)
Definition is_common_data (j : json) (c : CommonCircuitData) : Prop := is_object j [
  ("config"%string, fun v => is_config v (cd_Config c));
  ("fri_params"%string, fun v => is_fri_params v (cd_FriParams c));
  ("gates"%string, fun v => is_array is_string v (GateIds c));
  ("selectors_info"%string, fun v => is_selectors v (cd_SelectorsInfo c));
  ("quotient_degree_factor"%string, fun v => is_nat v (QuotientDegreeFactor c));
  ("num_gate_constraints"%string, fun v => is_nat v (NumGateConstraints c));
  ("num_constants"%string, fun v => is_nat v (cd_NumConstants c));
  ("num_public_inputs"%string, fun v => is_nat v (NumPublicInputs c));
  ("k_is"%string, fun v => is_array is_u64 v (KIs c));
  ("num_partial_products"%string, fun v => is_nat v (NumPartialProducts c))].

(** ** Keys *)
Lemma lower_code c : N_of_ascii (lower c) = let n := N_of_ascii c in if ((65 <=? n) && (n <=? 90))%N then (n + 32)%N else n.
Proof.
  unfold lower. cbv zeta. destruct ((65 <=? N_of_ascii c) && (N_of_ascii c <=? 90))%N eqn:E; [|reflexivity].
  apply andb_prop in E. destruct E as [_ E]. apply N.leb_le in E. apply N_ascii_embedding. lia.
Qed.
Lemma lower_inj a b : lower a = lower b <-> same_letter a b.
Proof.
  unfold same_letter. cbv zeta. assert (X : lower a = lower b <-> N_of_ascii (lower a) = N_of_ascii (lower b)).
  { split; [congruence|]. intros E. rewrite <- (ascii_N_embedding (lower a)), <- (ascii_N_embedding (lower b)). congruence. }
  rewrite X, !lower_code. cbv zeta. generalize (N_of_ascii a) (N_of_ascii b). intros x y.
  destruct (N.leb_spec 65 x), (N.leb_spec x 90), (N.leb_spec 65 y), (N.leb_spec y 90); cbn [andb]; lia.
Qed.
Lemma foldName_inj s : forall t, foldName s = foldName t <-> same_key s t.
Proof.
  induction s as [|a s IH]; intros [|b t]; cbn [foldName same_key].
  - tauto.
  - split; [discriminate|tauto].
  - split; [discriminate|tauto].
  - rewrite <- lower_inj, <- IH. split; [intros E; injection E as -> ->; auto|intros [-> ->]; reflexivity].
Qed.

(** ** Objects *)
Section Objects.
  Context {T : Type}.
  (** after decoding value [v] field [f] of [t] is that of [u] *)
  Definition decodes (f : fieldOf T) (v : json) (t u : T) : Prop :=
    match f with Field_ F _ get _ d => d v (get t) = Some (get u) end.
  Definition agrees (f : fieldOf T) (t u : T) : Prop := match f with Field_ F _ get _ _ => get t = get u end.
  (** [f] reads what was written, and other fields are left alone *)
  Definition lens (f : fieldOf T) : Prop := match f with Field_ F _ get set _ => forall x t, get (set x t) = x end.
  Definition apart (f g : fieldOf T) : Prop :=
    match f, g with Field_ F _ getf _ _, Field_ G _ _ setg _ => forall x t, getf (setg x t) = getf t end.
  Record struct_ok (fs : list (fieldOf T)) : Prop := {
    so_lens : forall f, In f fs -> lens f;
    so_apart : forall i k f g, nth_error fs i = Some f -> nth_error fs k = Some g -> i <> k -> apart f g;
    so_names : NoDup (map (fun f => foldName (field_name f)) fs);
    so_ext : forall t u, (forall f, In f fs -> agrees f t u) -> t = u }.

  Context (fs : list (fieldOf T)) (OK : struct_ok fs).

  Lemma findField_some k f : findField k fs = Some f -> In f fs /\ foldName (field_name f) = foldName k.
  Proof.
    clear OK. induction fs as [|g l IH]; cbn [findField]; [discriminate|].
    destruct (String.eqb_spec (foldName (field_name g)) (foldName k)) as [E|E].
    - intros X. injection X as ->. split; [now left|exact E].
    - intros X. destruct (IH X). split; [now right|assumption].
  Qed.
  Lemma findField_in f : In f fs -> forall k, foldName k = foldName (field_name f) -> findField k fs = Some f.
  Proof.
    pose proof (so_names _ OK) as N. clear OK. revert N. induction fs as [|g l IH]; intros N H k E; [destruct H|]. cbn [findField]. destruct H as [->|H].
    - rewrite E, String.eqb_refl. reflexivity.
    - inversion N as [|? ? X N']; subst. destruct (String.eqb_spec (foldName (field_name g)) (foldName k)) as [Q|Q]; [|now apply IH].
      exfalso. apply X. apply in_map_iff. exists f. split; [congruence|assumption].
  Qed.
  Lemma names_inj f g : In f fs -> In g fs -> foldName (field_name f) = foldName (field_name g) -> f = g.
  Proof.
    intros Hf Hg E. assert (X : findField (field_name g) fs = Some f) by (apply findField_in; auto).
    rewrite (findField_in g Hg _ eq_refl) in X. congruence.
  Qed.
  Lemma apart_in f g : In f fs -> In g fs -> f <> g -> apart f g.
  Proof.
    intros Hf Hg N. destruct (In_nth_error _ _ Hf) as [i Hi]. destruct (In_nth_error _ _ Hg) as [k Hk].
    apply (so_apart _ OK i k f g Hi Hk). intros ->. congruence.
  Qed.
  Definition matches (f : fieldOf T) (ms : list (string * json)) : Prop := Exists (fun m => same_key (fst m) (field_name f)) ms.

  Lemma dec_members_spec want : forall ms t, distinct_keys ms ->
    (forall k v f, In (k, v) ms -> findField k fs = Some f -> decodes f v t want) ->
    exists t', dec_members fs ms t = Some t' /\
      forall f, In f fs -> (matches f ms -> agrees f t' want) /\ (~ matches f ms -> agrees f t' t).
  Proof.
    induction ms as [|[k v] ms IH]; intros t D H; cbn [dec_members].
    - exists t. split; [reflexivity|]. intros f _. split; [intros M; inversion M|]. intros _. destruct f. reflexivity.
    - inversion D as [|? ? Dk D']; subst. rewrite Forall_forall in Dk.
      destruct (findField k fs) as [f|] eqn:E.
      + destruct (findField_some _ _ E) as [Hf Nf].
        assert (S : exists t1, field_dec f v t = Some t1 /\ agrees f t1 want /\ forall g, In g fs -> g <> f -> agrees g t1 t).
        { pose proof (H k v f (or_introl eq_refl) E) as Df. pose proof (so_lens _ OK f Hf) as L.
          destruct f as [F n get set d]. cbn [decodes] in Df. cbn [field_dec]. rewrite Df. eexists. split; [reflexivity|].
          split; [apply L|]. intros g Hg Ng. pose proof (apart_in g _ Hg Hf Ng) as A. destruct g as [G n' get' set' d']. apply A. }
        destruct S as (t1 & -> & A1 & A2).
        destruct (IH t1 D') as (t' & -> & R).
        { intros k' v' g I G. destruct (findField_some _ _ G) as [Hg Ng].
          assert (NE : g <> f).
          { intros ->. apply (Dk _ I). cbn [fst]. apply foldName_inj. congruence. }
          pose proof (H k' v' g (or_intror I) G) as Dg. pose proof (A2 g Hg NE) as Ag.
          destruct g as [G' n' get' set' d']. cbn [decodes agrees] in *. now rewrite Ag. }
        exists t'. split; [reflexivity|]. intros g Hg. destruct (R g Hg) as [R1 R2].
        assert (NM : forall m, In m ms -> same_key (fst m) (field_name f) -> False).
        { intros m I Q. apply (Dk m I). cbn [fst]. apply foldName_inj. apply foldName_inj in Q. rewrite Q. now symmetry. }
        split.
        * intros M. inversion M as [? ? Q|? ? Q]; subst; [|now apply R1].
          cbn [fst] in Q. apply foldName_inj in Q. assert (g = f) by (apply names_inj; auto; congruence). subst g.
          assert (X : ~ matches f ms) by (intros X; apply Exists_exists in X; destruct X as (m & I & Q'); exact (NM m I Q')).
          specialize (R2 X). destruct f as [F n get set d]. cbn [agrees] in *. congruence.
        * intros NX. assert (Q : ~ matches g ms) by (intros Q; apply NX; now right). specialize (R2 Q).
          assert (NE : g <> f) by (intros ->; apply NX; left; cbn [fst]; apply foldName_inj; congruence).
          specialize (A2 g Hg NE). destruct g as [G n get set d]. cbn [agrees] in *. congruence.
      + destruct (IH t D') as (t' & -> & R); [intros k' v' g I; apply H; now right|].
        exists t'. split; [reflexivity|]. intros g Hg. destruct (R g Hg) as [R1 R2].
        assert (NK : ~ same_key k (field_name g)).
        { intros Q. apply foldName_inj in Q. rewrite (findField_in g Hg k Q) in E. discriminate. }
        split; [intros M; apply R1; inversion M as [? ? Q|]; subst; [now destruct NK|assumption]|].
        intros NM. apply R2. intros M. apply NM. now right.
  Qed.

  (** every field has a member that decodes to the field of [want] *)
  Lemma dec_obj_spec ms want t : distinct_keys ms ->
    (forall f, In f fs -> exists k v, In (k, v) ms /\ same_key k (field_name f) /\ decodes f v t want) ->
    dec_obj fs (JObj ms) t = Some want.
  Proof.
    intros D H. cbn [dec_obj]. destruct (dec_members_spec want ms t D) as (t' & -> & R).
    - intros k v f I E. destruct (findField_some _ _ E) as [Hf Nf]. destruct (H f Hf) as (k' & v' & I' & Q & Df).
      assert (X : (k, v) = (k', v')).
      { clear - D I I' Q Nf. apply foldName_inj in Q. assert (E : foldName k = foldName k') by congruence. clear Nf Q.
        induction ms as [|m l IH]; [destruct I|]. inversion D as [|? ? Dk D']; subst. rewrite Forall_forall in Dk.
        destruct I as [->|I], I' as [->|I']; [reflexivity| | |auto]; exfalso.
        - apply (Dk _ I'). cbn [fst]. now apply foldName_inj.
        - apply (Dk _ I). cbn [fst]. apply foldName_inj. congruence. }
      injection X as <- <-. exact Df.
    - f_equal. apply (so_ext _ OK). intros f Hf. destruct (R f Hf) as [R1 _]. apply R1.
      destruct (H f Hf) as (k & v & I & Q & _). apply Exists_exists. exists (k, v). auto.
  Qed.
End Objects.

Lemma same_key_refl s : same_key s s.
Proof. apply foldName_inj. reflexivity. Qed.

(** ** Arrays and scalars: a decoder [d] followed by a conversion [g] reads [R] *)
Definition reads {A B} (R : json -> B -> Prop) (zero : A) (d : json -> A -> option A) (g : A -> option B) : Prop :=
  forall j x, R j x -> exists a, d j zero = Some a /\ g a = Some x.
Lemma reads_array {A B} (R : json -> B -> Prop) zero (d : json -> A -> option A) g :
  reads R zero d g -> reads (is_array R) [] (dec_list zero d) (mapO g).
Proof.
  intros H j l (js & -> & F). cbn [dec_list]. induction F as [|j x js l Hj F (as_ & IH1 & IH2)]; [exists []; auto|].
  destruct (H j x Hj) as (a & E1 & E2). exists (a :: as_). cbn [mapO]. now rewrite E1, IH1, E2, IH2.
Qed.
Lemma reads_u64 : reads is_u64 0 dec_u64 Some.
Proof.
  intros j z [-> H]. exists z. cbn [dec_u64]. destruct (Z.leb_spec 0 z), (Z.ltb_spec z (2 ^ 64)); try lia. auto.
Qed.
Lemma reads_nat : reads is_nat 0 dec_u64 (fun z => Some (Z.to_nat z)).
Proof. intros j n H. destruct (reads_u64 j _ H) as (a & E1 & E2). injection E2 as ->. exists (Z.of_nat n). now rewrite Nat2Z.id. Qed.
Lemma reads_bool : reads is_bool false dec_bool Some.
Proof. intros j b ->. exists b. auto. Qed.
Lemma reads_string : reads is_string EmptyString dec_string Some.
Proof. intros j s ->. exists s. auto. Qed.
Lemma mapO_some {A} (l : list A) : mapO Some l = Some l.
Proof. induction l as [|x l IH]; [reflexivity|]. cbn [mapO]. now rewrite IH. Qed.
Lemma mapO_map {A B} (f : A -> B) (l : list A) : mapO (fun x => Some (f x)) l = Some (map f l).
Proof. induction l as [|x l IH]; [reflexivity|]. cbn [mapO map]. now rewrite IH. Qed.
Lemma digits_value s : forall acc, all_digits s -> digits acc s = Some (acc * 10 ^ Z.of_nat (String.length s) + place_value s).
Proof.
  induction s as [|c s IH]; intros acc H; cbn [digits all_digits place_value String.length] in *; [f_equal; lia|].
  destruct H as [H1 H2]. unfold isDigit. cbv zeta.
  destruct (N.leb_spec 48 (N_of_ascii c)), (N.leb_spec (N_of_ascii c) 57); try lia. cbn [andb].
  rewrite IH by assumption. f_equal. rewrite Nat2Z.inj_succ, Z.pow_succ_r by lia. ring.
Qed.
Lemma SetString_decimal s z : decimal s z -> SetString s = Some z.
Proof.
  intros (N & D & ->). assert (U : unsigned s = Some (place_value s)).
  { unfold unsigned. destruct s as [|c s]; [congruence|]. rewrite digits_value by assumption. f_equal. }
  destruct s as [|c s]; [congruence|]. assert (Q : forall X Y, (match c with "-"%char => X | "+"%char => Y | _ => unsigned (String c s) end = unsigned (String c s)) \/ ~ (48 <= N_of_ascii c <= 57)%N).
  { intros X Y. destruct c as [b0 b1 b2 b3 b4 b5 b6 b7]. destruct b0, b1, b2, b3, b4, b5, b6, b7; auto; right; cbn; lia. }
  unfold SetString. destruct (Q (option_map Z.opp (unsigned s)) (unsigned s)) as [E|E]; [now rewrite E|].
  destruct D as [D _]. contradiction.
Qed.
Lemma reads_digest : reads is_digest EmptyString dec_string hashVariable.
Proof.
  intros j z (s & -> & D & H). exists s. split; [reflexivity|]. unfold hashVariable. rewrite (SetString_decimal s z D).
  cbn [option_map]. now rewrite Z.mod_small.
Qed.
Lemma reads_qe : reads is_qe [] (dec_list 0 dec_u64) (fun e => match e with a :: b :: _ => Some (a, b) | _ => None end).
Proof.
  intros j [a b] H. destruct (reads_array _ _ _ _ reads_u64 j _ H) as (l & E1 & E2). exists l. split; [exact E1|].
  rewrite mapO_some in E2. injection E2 as ->. reflexivity.
Qed.
Definition reads_qes : reads (is_array is_qe) [] (dec_list [] (dec_list 0 dec_u64)) Uint64ArrayToQuadraticExtensionArray := reads_array _ _ _ _ reads_qe.
Definition reads_digests : reads (is_array is_digest) [] (dec_list EmptyString dec_string) (mapO hashVariable) := reads_array _ _ _ _ reads_digest.
Lemma reads_u64s : reads (is_array is_u64) [] (dec_list 0 dec_u64) Some.
Proof. intros j l H. destruct (reads_array _ _ _ _ reads_u64 j l H) as (x & E1 & E2). rewrite mapO_some in E2. exists x. auto. Qed.
Lemma reads_nats : reads (is_array is_nat) [] (dec_list 0 dec_u64) (fun l => Some (map Z.to_nat l)).
Proof. intros j l H. destruct (reads_array _ _ _ _ reads_nat j l H) as (x & E1 & E2). rewrite mapO_map in E2. exists x. auto. Qed.
Lemma reads_strings : reads (is_array is_string) [] (dec_list EmptyString dec_string) Some.
Proof. intros j l H. destruct (reads_array _ _ _ _ reads_string j l H) as (x & E1 & E2). rewrite mapO_some in E2. exists x. auto. Qed.

(** ** Structs *)
Lemma struct_one {T} name (d : json -> T -> option T) : struct_ok [Field name (fun x => x) (fun x _ => x) d].
Proof.
  split.
  - intros f [<-|[]]. intros ? ?; reflexivity.
  - intros [|i] [|k] f g Hi Hk N; try (destruct i; discriminate Hi); try (destruct k; discriminate Hk). congruence.
  - repeat constructor. intros [].
  - intros t u H. exact (H _ (or_introl eq_refl)).
Qed.
Ltac pick H := match type of H with
  | forall f, In f (?a :: ?l) -> @?P f => pose proof (H a (or_introl eq_refl)); assert (forall f, In f l -> P f) by (intros ? ?; apply H; right; assumption); clear H
  end.
Ltac struct :=
  split;
  [ intros f Hf; repeat (destruct Hf as [<-|Hf]; [intros ? ?; reflexivity|]); destruct Hf
  | intros i k f g Hi Hk N;
    repeat (destruct i as [|i]; [injection Hi as <-; repeat (destruct k as [|k]; [injection Hk as <-; (congruence || (intros ? []; reflexivity))|]); destruct k; discriminate Hk|]);
    destruct i; discriminate Hi
  | apply (NoDup_count_occ' string_dec); intros x Hx; repeat (destruct Hx as [<-|Hx]; [vm_compute; reflexivity|]); destruct Hx
  | intros [] [] H; repeat (match goal with H : forall f, In f (_ :: _) -> _ |- _ => pick H end); cbn [agrees] in *; cbn in *; congruence ].
Lemma ok_Openings : struct_ok fields_RawOpenings. Proof. unfold fields_RawOpenings. struct. Qed.
Lemma ok_Step : struct_ok fields_RawStep. Proof. unfold fields_RawStep. struct. Qed.
Lemma ok_QueryRound : struct_ok fields_RawQueryRound. Proof. unfold fields_RawQueryRound. struct. Qed.
Lemma ok_FriProof : struct_ok fields_RawFriProof. Proof. unfold fields_RawFriProof. struct. Qed.
Lemma ok_Proof : struct_ok fields_RawProof. Proof. unfold fields_RawProof. struct. Qed.
Lemma ok_ProofWithPis : struct_ok fields_RawProofWithPis. Proof. unfold fields_RawProofWithPis. struct. Qed.
Lemma ok_VerifierOnly : struct_ok fields_RawVerifierOnly. Proof. unfold fields_RawVerifierOnly. struct. Qed.
Lemma ok_FriConfig : struct_ok fields_RawFriConfig. Proof. unfold fields_RawFriConfig. struct. Qed.
Lemma ok_Config : struct_ok fields_RawConfig. Proof. unfold fields_RawConfig. struct. Qed.
Lemma ok_FriParams : struct_ok fields_RawFriParams. Proof. unfold fields_RawFriParams. struct. Qed.
Lemma ok_Group : struct_ok fields_RawGroup. Proof. unfold fields_RawGroup. struct. Qed.
Lemma ok_SelectorsInfo : struct_ok fields_RawSelectorsInfo. Proof. unfold fields_RawSelectorsInfo. struct. Qed.
Lemma ok_Common : struct_ok fields_RawCommon. Proof. unfold fields_RawCommon. struct. Qed.

(** ** Structs are read *)
Ltac members F := repeat (apply Forall_cons_iff in F; let v := fresh "v" in let I := fresh "I" in let P := fresh "P" in destruct F as [(v & I & P) F]); cbn [fst snd] in *; clear F.
Ltac field D := match goal with I : In (?k, ?v) _ |- _ =>
  exists k, v; split; [exact I|split; [exact (same_key_refl k)|cbn [decodes]; assumption]] end.
Ltac fields ok D := apply (dec_obj_spec _ ok _ _ _ D);
  let f := fresh in let Hf := fresh in intros f Hf; repeat (destruct Hf as [<-|Hf]; [field D|]); destruct Hf.
Ltac read H P a E G := destruct (H _ _ P) as (a & E & G).

Lemma reads_one {A B} (R : json -> B -> Prop) name k zero (d : json -> A -> option A) g :
  same_key k name -> reads R zero d g ->
  reads (fun j x => is_object j [(k, fun v => R v x)]) zero (dec_obj [Field name (fun x => x) (fun x _ => x) d]) g.
Proof.
  intros N H j x O. pose proof O as (ms & -> & D & F). members F. read H P a E G. exists a. split; [|exact G].
  apply (dec_obj_spec _ (struct_one name d) _ _ _ D). intros f [<-|[]]. exists k, v. split; [exact I|]. split; [exact N|exact E].
Qed.

Lemma reads_openings : reads is_openings zero_RawOpenings dec_RawOpenings DeserializeOpeningSet.
Proof.
  intros j o (ms & -> & D & F). members F.
  read reads_qes P a E G. read reads_qes P0 a0 E0 G0. read reads_qes P1 a1 E1 G1. read reads_qes P2 a2 E2 G2.
  read reads_qes P3 a3 E3 G3. read reads_qes P4 a4 E4 G4. read reads_qes P5 a5 E5 G5.
  exists (mkRawOpenings a a0 a1 a2 a3 a4 a5). split; [fields ok_Openings D|].
  unfold DeserializeOpeningSet. cbn [ro_Constants ro_PlonkSigmas ro_Wires ro_PlonkZs ro_PlonkZsNext ro_PartialProducts ro_QuotientPolys].
  rewrite G, G0, G1, G2, G3, G4, G5. now destruct o.
Qed.
Lemma siblings_key : same_key "siblings" "Siblings".
Proof. apply foldName_inj. reflexivity. Qed.
Lemma reads_eval_proof : reads is_eval_proof zero_RawEvalProof dec_EvalProof deserializeEvalProof.
Proof.
  intros j e (x & y & -> & A & B). read reads_u64s A a E G. injection G as ->.
  read (reads_one _ "Siblings" "siblings" _ _ _ siblings_key reads_digests) B b E' G'.
  exists (mkRawEvalProof (Elements e) b). split.
  - cbn [dec_EvalProof nth zero_RawEvalProof re_LeafElements re_Hash]. destruct A as (js & -> & _). cbn [nth]. rewrite E.
    destruct B as (ms & -> & _). unfold dec_MerkleProof. now rewrite E'.
  - unfold deserializeEvalProof, StringArrayToHashBN254Array. cbn [re_Hash re_LeafElements]. rewrite G'. now destruct e.
Qed.
Lemma reads_step : reads is_step zero_RawStep dec_RawStep deserializeStep.
Proof.
  intros j s (ms & -> & D & F). members F. read reads_qes P a E G.
  read (reads_one _ "siblings" "siblings" _ _ _ (same_key_refl _) reads_digests) P0 b E0 G0.
  exists (mkRawStep a b). split; [fields ok_Step D|].
  unfold deserializeStep, StringArrayToHashBN254Array. cbn [rs_Evals rs_Siblings]. rewrite G, G0. now destruct s.
Qed.
Lemma reads_round : reads is_round zero_RawQueryRound dec_RawQueryRound deserializeRound.
Proof.
  intros j q (ms & -> & D & F). members F.
  read (reads_one _ "evals_proofs" "evals_proofs" _ _ _ (same_key_refl _) (reads_array _ _ _ _ reads_eval_proof)) P a E G.
  read (reads_array _ _ _ _ reads_step) P0 b E0 G0.
  exists (mkRawQueryRound a b). split; [fields ok_QueryRound D|].
  unfold deserializeRound. cbn [rq_EvalsProofs rq_Steps]. rewrite G, G0. now destruct q.
Qed.
Lemma reads_fri_proof : reads is_fri_proof zero_RawFriProof dec_RawFriProof DeserializeFriProof.
Proof.
  intros j f (ms & -> & D & F). members F.
  read (reads_array _ _ _ _ reads_digests) P a E G. read (reads_array _ _ _ _ reads_round) P0 a0 E0 G0.
  read (reads_one _ "coeffs" "coeffs" _ _ _ (same_key_refl _) reads_qes) P1 a1 E1 G1. read reads_u64 P2 a2 E2 G2. injection G2 as ->.
  exists (mkRawFriProof a a0 a1 (PowWitness f)). split; [fields ok_FriProof D|].
  unfold DeserializeFriProof. cbn [rf_CommitPhaseMerkleCaps rf_QueryRoundProofs rf_Coeffs rf_PowWitness].
  change (mapO StringArrayToHashBN254Array a) with (mapO (mapO hashVariable) a). rewrite G, G0, G1. now destruct f.
Qed.
Lemma reads_proof_with_pis : reads is_proof_with_pis zero_RawProofWithPis dec_RawProofWithPis DeserializeProofWithPublicInputs.
Proof.
  intros j [p pis] (ms & -> & D & F). members F. destruct P as (ms' & -> & D' & F). members F.
  read reads_digests P a E G. read reads_digests P1 a1 E1 G1. read reads_digests P2 a2 E2 G2.
  read reads_openings P3 a3 E3 G3. read reads_fri_proof P4 a4 E4 G4. read reads_u64s P0 a5 E5 G5. injection G5 as ->.
  assert (X : dec_RawProof (JObj ms') zero_RawProof = Some (mkRawProof a a1 a2 a3 a4)) by fields ok_Proof D'.
  exists (mkRawProofWithPis (mkRawProof a a1 a2 a3 a4) pis). split; [clear - X E5 I I0 D; fields ok_ProofWithPis D|].
  unfold DeserializeProofWithPublicInputs, DeserializeMerkleCap.
  cbn [rw_Proof rw_PublicInputs rp_WiresCap rp_PlonkZsPartialProductsCap rp_QuotientPolysCap rp_Openings rp_OpeningProof].
  rewrite G, G1, G2, G3, G4. now destruct p.
Qed.
Lemma reads_verifier_data : reads is_verifier_data zero_RawVerifierOnly dec_RawVerifierOnly DeserializeVerifierOnlyCircuitData.
Proof.
  intros j d (ms & -> & D & F). members F. read reads_digests P a E G. read reads_digest P0 a0 E0 G0.
  exists (mkRawVerifierOnly a a0). split; [fields ok_VerifierOnly D|].
  unfold DeserializeVerifierOnlyCircuitData, DeserializeMerkleCap. cbn [rv_ConstantsSigmasCap rv_CircuitDigest]. rewrite G, G0. now destruct d.
Qed.

Lemma reads_fri_config : reads is_fri_config zero_RawFriConfig dec_RawFriConfig (fun raw => Some (friConfig raw)).
Proof.
  intros j c (ms & -> & D & F). members F.
  read reads_nat P a E G. read reads_nat P0 a0 E0 G0. read reads_nat P1 a1 E1 G1. destruct P2 as [l P2].
  read (reads_one _ "ConstantArityBits" "ConstantArityBits" _ _ _ (same_key_refl _) reads_u64s) P2 a2 E2 G2. read reads_nat P3 a3 E3 G3.
  exists (mkRawFriConfig a a0 a1 a2 a3). split; [fields ok_FriConfig D|].
  unfold friConfig. cbn [rc_RateBits rc_CapHeight rc_ProofOfWorkBits rc_NumQueryRounds].
  injection G as ->. injection G0 as ->. injection G1 as ->. injection G3 as ->. now destruct c.
Qed.
Definition config (c : RawConfig) : CircuitConfig :=
  mkCircuitConfig (Z.to_nat (rg_NumWires c)) (Z.to_nat (rg_NumRoutedWires c)) (Z.to_nat (rg_NumConstants c))
    (rg_UseBaseArithmeticGate c) (Z.to_nat (rg_SecurityBits c)) (Z.to_nat (rg_NumChallenges c)) (rg_ZeroKnowledge c)
    (Z.to_nat (rg_MaxQuotientDegreeFactor c)) (friConfig (rg_FriConfig c)).
Lemma reads_config : reads is_config zero_RawConfig dec_RawConfig (fun raw => Some (config raw)).
Proof.
  intros j c (ms & -> & D & F). members F.
  read reads_nat P a E G. read reads_nat P0 a0 E0 G0. read reads_nat P1 a1 E1 G1. read reads_bool P2 a2 E2 G2.
  read reads_nat P3 a3 E3 G3. read reads_nat P4 a4 E4 G4. read reads_bool P5 a5 E5 G5. read reads_nat P6 a6 E6 G6.
  read reads_fri_config P7 a7 E7 G7.
  exists (mkRawConfig a a0 a1 a2 a3 a4 a5 a6 a7). split; [fields ok_Config D|].
  unfold config. cbn [rg_NumWires rg_NumRoutedWires rg_NumConstants rg_UseBaseArithmeticGate rg_SecurityBits rg_NumChallenges rg_ZeroKnowledge rg_MaxQuotientDegreeFactor rg_FriConfig].
  injection G as ->. injection G0 as ->. injection G1 as ->. injection G2 as ->. injection G3 as ->.
  injection G4 as ->. injection G5 as ->. injection G6 as ->. apply (f_equal (fun o => match o with Some x => x | None => cc_FriConfig c end)) in G7.
  cbv beta iota in G7. rewrite G7. now destruct c.
Qed.
Definition friParams (f : RawFriParams) : FriParams :=
  mkFriParams (friConfig (ra_Config f)) (ra_Hiding f) (Z.to_nat (ra_DegreeBits f)) (map Z.to_nat (ra_ReductionArityBits f)).
Lemma reads_fri_params : reads is_fri_params zero_RawFriParams dec_RawFriParams (fun raw => Some (friParams raw)).
Proof.
  intros j f (ms & -> & D & F). members F.
  read reads_fri_config P a E G. read reads_bool P0 a0 E0 G0. read reads_nat P1 a1 E1 G1. read reads_nats P2 a2 E2 G2.
  exists (mkRawFriParams a a0 a1 a2). split; [fields ok_FriParams D|].
  unfold friParams. cbn [ra_Config ra_Hiding ra_DegreeBits ra_ReductionArityBits].
  apply (f_equal (fun o => match o with Some x => x | None => fp_Config f end)) in G. cbv beta iota in G. rewrite G.
  injection G0 as ->. injection G1 as ->. injection G2 as ->. now destruct f.
Qed.
Definition group (g : RawGroup) : nat * nat := (Z.to_nat (ru_Start g), Z.to_nat (ru_End g)).
Lemma reads_group : reads is_group zero_RawGroup dec_RawGroup (fun raw => Some (group raw)).
Proof.
  intros j [x y] (ms & -> & D & F). members F. read reads_nat P a E G. read reads_nat P0 a0 E0 G0.
  exists (mkRawGroup a a0). split; [fields ok_Group D|]. unfold group. cbn [ru_Start ru_End].
  injection G as ->. injection G0 as ->. reflexivity.
Qed.
Definition selectors (s : RawSelectorsInfo) : SelectorsInfo := mkSelectorsInfo (map Z.to_nat (ri_SelectorIndices s)) (map group (ri_Groups s)).
Lemma reads_selectors : reads is_selectors zero_RawSelectorsInfo dec_RawSelectorsInfo (fun raw => Some (selectors raw)).
Proof.
  intros j s (ms & -> & D & F). members F. read reads_nats P a E G. read (reads_array _ _ _ _ reads_group) P0 a0 E0 G0.
  exists (mkRawSelectorsInfo a a0). split; [fields ok_SelectorsInfo D|]. unfold selectors. cbn [ri_SelectorIndices ri_Groups].
  rewrite mapO_map in G0. injection G as ->. injection G0 as ->. now destruct s.
Qed.
Lemma NewSelectorsInfo_eq s :
  NewSelectorsInfo (ri_SelectorIndices s) (map ru_Start (ri_Groups s)) (map ru_End (ri_Groups s)) = Some (selectors s).
Proof.
  unfold NewSelectorsInfo, selectors. rewrite !map_length, Nat.eqb_refl. do 2 f_equal.
  induction (ri_Groups s) as [|g l IH]; [reflexivity|]. cbn [map combine]. now rewrite IH.
Qed.
Lemma reads_common j c : is_common_data j c ->
  ReadCommonCircuitData j = if Hiding (cd_FriParams c) then None else
    Some (mkCommonCircuitData (cd_Config c) (cd_FriParams c) (GateIds c) (cd_SelectorsInfo c) (fp_DegreeBits (cd_FriParams c))
      (QuotientDegreeFactor c) (NumGateConstraints c) (cd_NumConstants c) (NumPublicInputs c) (KIs c) (NumPartialProducts c)).
Proof.
  intros (ms & -> & D & F). members F.
  read reads_config P a E G. read reads_fri_params P0 a0 E0 G0. read reads_strings P1 a1 E1 G1. read reads_selectors P2 a2 E2 G2.
  read reads_nat P3 a3 E3 G3. read reads_nat P4 a4 E4 G4. read reads_nat P5 a5 E5 G5. read reads_nat P6 a6 E6 G6.
  read reads_u64s P7 a7 E7 G7. read reads_nat P8 a8 E8 G8.
  assert (X : dec_RawCommon (JObj ms) zero_RawCommon = Some (mkRawCommon a a0 a1 a2 a3 a4 a5 a6 a7 a8)) by fields ok_Common D.
  unfold ReadCommonCircuitData. rewrite X. unfold commonData. cbv zeta.
  cbn [rm_Config rm_FriParams rm_Gates rm_SelectorsInfo rm_QuotientDegreeFactor rm_NumGateConstraints rm_NumConstants rm_NumPublicInputs rm_KIs rm_NumPartialProducts].
  rewrite NewSelectorsInfo_eq.
  change (mkCircuitConfig (Z.to_nat (rg_NumWires a)) (Z.to_nat (rg_NumRoutedWires a)) (Z.to_nat (rg_NumConstants a))
    (rg_UseBaseArithmeticGate a) (Z.to_nat (rg_SecurityBits a)) (Z.to_nat (rg_NumChallenges a)) (rg_ZeroKnowledge a)
    (Z.to_nat (rg_MaxQuotientDegreeFactor a)) (friConfig (rg_FriConfig a))) with (config a).
  apply (f_equal (fun o => match o with Some x => x | None => cd_Config c end)) in G. cbv beta iota in G. rewrite G.
  apply (f_equal (fun o => match o with Some x => x | None => cd_FriParams c end)) in G0. cbv beta iota in G0.
  apply (f_equal (fun o => match o with Some x => x | None => cd_SelectorsInfo c end)) in G2. cbv beta iota in G2. rewrite G2.
  rewrite <- G0. cbn [Hiding friParams]. destruct (ra_Hiding a0) eqn:Hh; [reflexivity|].
  cbn [fp_DegreeBits friParams]. unfold friParams. rewrite Hh.
  injection G1 as ->. injection G3 as ->. injection G4 as ->. injection G5 as ->. injection G6 as ->. injection G7 as ->. injection G8 as ->.
  reflexivity.
Qed.
