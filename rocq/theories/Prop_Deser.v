(** * Loading of proofs and verification keys (C55).  See properties.jsonl. *)
From Coq Require Import String Ascii.
From Coq Require Import ZArith NArith Lia List Bool Arith.
From Verif Require Import Zp Circuit Goldilocks Types Deser DeserProofs.
Import ListNotations.
Open Scope Z_scope.

(** ** C55 *)
(** A file that says [p] and [pis] is loaded as [p] and [pis]: every field, in order, none lost. *)
Theorem C55_proof : forall j p pis, is_proof_with_pis j (p, pis) -> loadProof j = Some (p, pis).
Proof.
  intros j p pis H. destruct (reads_proof_with_pis j _ H) as (raw & E & G).
  unfold loadProof, ReadProofWithPublicInputs. now rewrite E.
Qed.
Theorem C55_verifier_data : forall j d, is_verifier_data j d -> loadVerifierData j = Some d.
Proof.
  intros j d H. destruct (reads_verifier_data j _ H) as (raw & E & G).
  unfold loadVerifierData, ReadVerifierOnlyCircuitData. now rewrite E.
Qed.

(** The hypothesis is met for every proof: whatever its shape, if the Goldilocks elements fit a
    uint64 and the digests are below r then some file says it. *)
Definition u64 (z : Z) : Prop := 0 <= z < 2 ^ 64.
Definition u64_pair (x : QE) : Prop := u64 (fst x) /\ u64 (snd x).
Definition field_element (z : Z) : Prop := 0 <= z < r.
Definition writable_openings (o : OpeningSet) : Prop :=
  Forall u64_pair (Constants o) /\ Forall u64_pair (PlonkSigmas o) /\ Forall u64_pair (Wires o) /\ Forall u64_pair (PlonkZs o) /\
  Forall u64_pair (PlonkZsNext o) /\ Forall u64_pair (PartialProducts o) /\ Forall u64_pair (QuotientPolys o).
Definition writable_round (q : FriQueryRound) : Prop :=
  Forall (fun e => Forall u64 (Elements e) /\ Forall field_element (ep_Siblings e)) (InitialTreesProof q) /\
  Forall (fun s => Forall u64_pair (Evals s) /\ Forall field_element (st_Siblings s)) (Steps q).
Definition writable (p : Proof_) (pis : list Z) : Prop :=
  Forall field_element (WiresCap p) /\ Forall field_element (PlonkZsPartialProductsCap p) /\ Forall field_element (QuotientPolysCap p) /\
  writable_openings (Openings p) /\
  Forall (Forall field_element) (CommitPhaseMerkleCaps (OpeningProof p)) /\ Forall writable_round (QueryRoundProofs (OpeningProof p)) /\
  Forall u64_pair (FinalPoly (OpeningProof p)) /\ u64 (PowWitness (OpeningProof p)) /\ Forall u64 pis.

Lemma write_array {A} (R : json -> A -> Prop) l : Forall (fun x => exists j, R j x) l -> exists j, is_array R j l.
Proof.
  intros F. assert (X : exists js, Forall2 R js l).
  { induction F as [|x l (j & Hj) F (js & IH)]; [exists []; constructor|exists (j :: js); now constructor]. }
  destruct X as [js X]. exists (JArr js), js. auto.
Qed.
Lemma write_u64 z : u64 z -> exists j, is_u64 j z.
Proof. intros H. exists (JUint z). split; auto. Qed.
Lemma write_qe x : u64_pair x -> exists j, is_qe j x.
Proof. intros [A B]. apply write_array. constructor; [now apply write_u64|constructor; [now apply write_u64|constructor]]. Qed.
(** appending a digit *)
Lemma place_app s c : place_value (s ++ String c "") = 10 * place_value s + (Z.of_N (N_of_ascii c) - 48).
Proof.
  induction s as [|a s IH]; cbn [append place_value String.length]; [change (10 ^ Z.of_nat 0) with 1; lia|].
  rewrite IH. replace (String.length (s ++ String c "")) with (S (String.length s)).
  - rewrite Nat2Z.inj_succ, Z.pow_succ_r by lia. ring.
  - clear. induction s as [|b s IH]; cbn [append String.length]; [reflexivity|now rewrite IH].
Qed.
Lemma digits_app s c : all_digits s -> (48 <= N_of_ascii c <= 57)%N -> all_digits (s ++ String c "").
Proof. induction s as [|a s IH]; cbn [append all_digits]; [tauto|intros [A B] C; auto]. Qed.
Lemma digit_char z : 0 <= z < 10 -> exists c, (48 <= N_of_ascii c <= 57)%N /\ Z.of_N (N_of_ascii c) - 48 = z.
Proof.
  intros H. exists (ascii_of_N (Z.to_N (z + 48))). rewrite N_ascii_embedding by lia. lia.
Qed.
Lemma write_decimal : forall z, 0 <= z -> exists s, decimal s z.
Proof.
  intros z H. pattern z. apply (Z_lt_induction (fun z => 0 <= z -> exists s, decimal s z)); [|lia|lia].
  - clear. intros z IH H. destruct (digit_char (z mod 10)) as (c & C1 & C2); [apply Z.mod_pos_bound; lia|].
    destruct (Z_lt_ge_dec z 10) as [S|S].
    + exists (String c ""). rewrite Z.mod_small in C2 by lia. split; [discriminate|]. cbn [all_digits place_value String.length].
      change (10 ^ Z.of_nat 0) with 1. split; [auto|lia].
    + destruct (IH (z / 10)) as (s & N & D & V); [split; [apply Z.div_pos; lia|apply Z.div_lt; lia]|apply Z.div_pos; lia|].
      exists (s ++ String c "")%string. split; [destruct s; discriminate|]. split; [now apply digits_app|].
      rewrite place_app, C2, <- V. apply Z.div_mod. lia.
Qed.
Lemma write_digest z : field_element z -> exists j, is_digest j z.
Proof. intros H. destruct (write_decimal z) as [s S]; [destruct H; assumption|]. exists (JStr s), s. auto. Qed.
Lemma write_u64s l : Forall u64 l -> exists j, is_array is_u64 j l.
Proof. intros F. apply write_array. eapply Forall_impl; [|exact F]. exact write_u64. Qed.
Lemma write_qes l : Forall u64_pair l -> exists j, is_array is_qe j l.
Proof. intros F. apply write_array. eapply Forall_impl; [|exact F]. exact write_qe. Qed.
Lemma write_digests l : Forall field_element l -> exists j, is_array is_digest j l.
Proof. intros F. apply write_array. eapply Forall_impl; [|exact F]. exact write_digest. Qed.
Lemma write_object members : NoDup (map (fun m => foldName (fst m)) members) -> Forall (fun m : string * (json -> Prop) => exists v, snd m v) members ->
  exists j, is_object j members.
Proof.
  intros N F. assert (X : exists ms, map fst ms = map fst members /\ Forall (fun m => exists v, In (fst m, v) ms /\ snd m v) members).
  { clear N. induction F as [|[k P] l (v & V) F (ms & E & IH)]; [exists []; split; constructor|].
    exists ((k, v) :: ms). split; [cbn [map fst]; now rewrite E|]. constructor; [exists v; split; [now left|exact V]|].
    eapply Forall_impl; [|exact IH]. intros m (w & I & Q). exists w. split; [now right|exact Q]. }
  destruct X as (ms & E & X). exists (JObj ms), ms. split; [reflexivity|]. split; [|exact X].
  assert (E' : map (fun m => foldName (fst m)) ms = map (fun m => foldName (fst m)) members).
  { rewrite <- (map_map fst foldName ms), <- (map_map fst foldName members). now rewrite E. }
  rewrite <- E' in N. clear - N. unfold distinct_keys. induction ms as [|m l IH]; constructor; inversion N as [|? ? Q N']; subst; auto.
  rewrite Forall_forall. intros x I S. apply Q. apply foldName_inj in S. apply in_map_iff. exists x. auto.
Qed.
Ltac keys := apply (NoDup_count_occ' string_dec); let x := fresh in let H := fresh in intros x H; repeat (destruct H as [<-|H]; [reflexivity|]); destruct H.
Ltac writes := apply write_object; [keys|repeat apply Forall_cons; try apply Forall_nil; cbn [fst snd];
  first [now apply write_qes|now apply write_digests|now apply write_u64s|now apply write_u64|idtac]].
Lemma write_eval_proof e : Forall u64 (Elements e) -> Forall field_element (ep_Siblings e) -> exists j, is_eval_proof j e.
Proof.
  intros A B. destruct (write_u64s _ A) as [a Ha].
  assert (X : exists b, is_object b [("siblings"%string, fun v => is_array is_digest v (ep_Siblings e))]) by writes.
  destruct X as [b Hb]. exists (JArr [a; b]), a, b. auto.
Qed.
Lemma write_step s : Forall u64_pair (Evals s) -> Forall field_element (st_Siblings s) -> exists j, is_step j s.
Proof. intros A B. unfold is_step. writes. writes. Qed.
Lemma write_round q : writable_round q -> exists j, is_round j q.
Proof.
  intros [A B]. unfold is_round. writes.
  - writes. apply write_array. eapply Forall_impl; [|exact A]. cbv beta. intros e []. now apply write_eval_proof.
  - apply write_array. eapply Forall_impl; [|exact B]. cbv beta. intros s []. now apply write_step.
Qed.
Theorem C55_writable : forall p pis, writable p pis -> exists j, is_proof_with_pis j (p, pis).
Proof.
  intros p pis (A1 & A2 & A3 & (O1 & O2 & O3 & O4 & O5 & O6 & O7) & A4 & A5 & A6 & A7 & A8).
  unfold is_proof_with_pis. cbn [fst snd]. writes. unfold is_proof, is_cap. writes.
  - unfold is_openings. writes.
  - unfold is_fri_proof, is_cap. writes.
    + apply write_array. eapply Forall_impl; [|exact A4]. exact write_digests.
    + apply write_array. eapply Forall_impl; [|exact A5]. exact write_round.
    + writes.
Qed.
(** Two different proofs are never written the same way. *)
Theorem C55_lossless : forall j p pis p' pis', is_proof_with_pis j (p, pis) -> is_proof_with_pis j (p', pis') -> p = p' /\ pis = pis'.
Proof. intros j p pis p' pis' H H'. apply C55_proof in H, H'. rewrite H in H'. injection H' as -> ->. auto. Qed.

(** *** Files that do not have this form *)
(** Keys are recognised in any case, members in any order, unknown members are skipped, as in
    this verification key. *)
Definition key_json : json := JObj [
  ("Circuit_Digest"%string, JStr "07"); ("note"%string, JBool true);
  ("constants_sigmas_cap"%string, JArr [JStr "21888242871839275222246405745257275088548364400416034343698204186575808495616"; JStr "12"])].
Example C55_key_ex : loadVerifierData key_json = Some (mkVerifierOnlyCircuitData [r - 1; 12] 7).
Proof. vm_compute. reflexivity. Qed.
(** Digests beyond the field are taken modulo r, whatever their size. *)
Theorem C55_digest_mod : forall s z, decimal s z -> hashVariable s = Some (z mod r) /\ hashVariable (String "-" s) = Some (- z mod r).
Proof.
  intros s z D. unfold hashVariable. rewrite (SetString_decimal s z D). split; [reflexivity|].
  assert (U : unsigned s = Some z).
  { destruct D as (N & D & ->). unfold unsigned. destruct s as [|c s]; [congruence|]. now rewrite digits_value by assumption. }
  unfold SetString. rewrite U. reflexivity.
Qed.
(** so the value that is loaded does not determine the string *)
Example C55_digest_alias : hashVariable "5" = hashVariable "21888242871839275222246405745257275088548364400416034343698204186575808495622".
Proof. vm_compute. reflexivity. Qed.
(** An element of an extension with more than two coordinates is cut off, with fewer is a panic. *)
Theorem C55_coordinates : forall l e, Uint64ArrayToQuadraticExtensionArray l = Some e ->
  Forall2 (fun x y => exists rest, x = fst y :: snd y :: rest) l e.
Proof.
  induction l as [|x l IH]; intros e H; cbn in H; [injection H as <-; constructor|].
  destruct x as [|a [|b rest]]; try discriminate. destruct (mapO _ l) as [e'|] eqn:E; [|discriminate].
  injection H as <-. constructor; [exists rest; reflexivity|]. apply IH. exact E.
Qed.
Example C55_third_ex : Uint64ArrayToQuadraticExtensionArray [[1; 2; 3]; [4; 5]] = Some [(1, 2); (4, 5)].
Proof. reflexivity. Qed.
Example C55_short_ex : Uint64ArrayToQuadraticExtensionArray [[1; 2]; [4]] = None.
Proof. reflexivity. Qed.
(** Missing members are no error: an empty object is a proof with nothing in it. *)
Example C55_missing_ex : loadProof (JObj []) = Some (mkProof [] [] [] (mkOpeningSet [] [] [] [] [] [] []) (mkFriProof [] [] [] 0), []).
Proof. reflexivity. Qed.
(** Numbers beyond 64 bits and negative or fractional numbers are refused. *)
Theorem C55_u64 : forall j z z', dec_u64 j z = Some z' -> j = JNull /\ z' = z \/ j = JUint z' /\ 0 <= z' < 2 ^ 64.
Proof.
  intros [| | z0 | | | | ] z z'; cbn [dec_u64]; try discriminate; [intros E; injection E as ->; auto|].
  destruct (Z.leb_spec 0 z0), (Z.ltb_spec z0 (2 ^ 64)); cbn [andb]; try discriminate. intros E. injection E as ->. right. auto.
Qed.

(** a proof in the format of the test data, with one query round, and a member order of its own *)
Definition proof_json : json := JObj [
  ("public_inputs"%string, JArr [JUint 18446744069414584320; JUint 7]);
  ("proof"%string, JObj [
    ("wires_cap"%string, JArr [JStr "11"; JStr "12"]);
    ("plonk_zs_partial_products_cap"%string, JArr [JStr "21"]);
    ("quotient_polys_cap"%string, JArr [JStr "31"]);
    ("openings"%string, JObj [
      ("constants"%string, JArr [JArr [JUint 1; JUint 2]; JArr [JUint 3; JUint 4]]);
      ("plonk_sigmas"%string, JArr [JArr [JUint 5; JUint 6]]);
      ("wires"%string, JArr [JArr [JUint 7; JUint 8]]);
      ("plonk_zs"%string, JArr [JArr [JUint 9; JUint 10]]);
      ("plonk_zs_next"%string, JArr [JArr [JUint 11; JUint 12]]);
      ("partial_products"%string, JArr [JArr [JUint 13; JUint 14]]);
      ("quotient_polys"%string, JArr [JArr [JUint 15; JUint 16]])]);
    ("opening_proof"%string, JObj [
      ("commit_phase_merkle_caps"%string, JArr [JArr [JStr "41"; JStr "42"]]);
      ("query_round_proofs"%string, JArr [JObj [
        ("initial_trees_proof"%string, JObj [("evals_proofs"%string, JArr [
          JArr [JArr [JUint 51; JUint 52]; JObj [("siblings"%string, JArr [JStr "53"])]];
          JArr [JArr [JUint 54]; JObj [("siblings"%string, JArr [JStr "55"])]]])]);
        ("steps"%string, JArr [JObj [
          ("evals"%string, JArr [JArr [JUint 61; JUint 62]]);
          ("merkle_proof"%string, JObj [("siblings"%string, JArr [JStr "63"])])]])]]);
      ("final_poly"%string, JObj [("coeffs"%string, JArr [JArr [JUint 71; JUint 72]])]);
      ("pow_witness"%string, JUint 81)])])].
Definition proof_value : Proof_ :=
  mkProof [11; 12] [21] [31]
    (mkOpeningSet [(1, 2); (3, 4)] [(5, 6)] [(7, 8)] [(9, 10)] [(11, 12)] [(13, 14)] [(15, 16)])
    (mkFriProof [[41; 42]] [mkFriQueryRound [mkFriEvalProof [51; 52] [53]; mkFriEvalProof [54] [55]] [mkFriQueryStep [(61, 62)] [63]]]
      [(71, 72)] 81).
Example C55_proof_ex : loadProof proof_json = Some (proof_value, [p - 1; 7]).
Proof. vm_compute. reflexivity. Qed.

Example C55_writable_ex : writable proof_value [p - 1; 7].
Proof.
  unfold writable, writable_openings, writable_round, u64_pair, u64, field_element.
  repeat (apply Forall_cons || apply Forall_nil || split); vm_compute; congruence.
Qed.

Print Assumptions C55_proof.
Print Assumptions C55_verifier_data.
Print Assumptions C55_writable.
Print Assumptions C55_lossless.
Print Assumptions C55_digest_mod.
Print Assumptions C55_coordinates.
Print Assumptions C55_u64.
