(** * The lying prover of ForgeAll with a choice of digits for the last S-boxes.

    The S-box width 192 of the code (poseidon/goldilocks.go:137-145) lets the prover move the
    outputs of every permutation by multiples of r (Malleable.v).  This prover uses it in the
    last phase of the transcript only, where the response to the proof of work and the query
    indices are drawn: nothing is sent after them that enters the transcript. *)
From Coq Require Import String.
From Coq Require Import ZArith NArith Lia List Bool Ring Field Permutation.
From Verif Require Import Zp GF Circuit Goldilocks GLProofs ExtProofs PoseidonSpec Sponge DenP ChallengerProofs ChallengerPhases ChallengerTop Transcript Prop_Poseidon Prop_Challenger PoseidonGL PoseidonGLProofs BN254 BN254Hash Types Challenger Fri Poly Roots Interp FriMerkle FriEval FriQuery FriTop FriFacts Honest FriForge FriSound FriRewind FriExtract Prop_FriSound Prop_Fri
  Gates GateProofs GateCoset GateFilter GateAll GateDegree GateBase Prop_Gates Plonk PlonkProofs Prop_Plonk PlonkSound PlonkRows PlonkCopy Prop_PlonkSound Verifier VerifierProofs Prop_BN254 Malleable Prop_Verifier Prop_Forgery VerifierSound Prop_VerifierSound ProverPoly PlonkProver Complete ForgeAll.
Import ListNotations.
Open Scope Z_scope.
Local Opaque PoseidonBN HashOrNoop TwoToOne.

(** [ds]: the digits of the permutations, in order; none when the list is exhausted *)
Definition next (ds : list (list Z)) : list Z := match ds with [] => repeat 0 12 | d :: _ => d end.
Fixpoint absorb_moved (ds : list (list Z)) (cs : list (list GF)) (s : list GF) : list GF * list (list Z) :=
  match cs with [] => (s, ds) | c :: cs' => absorb_moved (tl ds) cs' (forge (overwrite c s) (next ds)) end.
Fixpoint squeeze_moved (ds : list (list Z)) (k : nat) (s : list GF) : list GF * list GF :=
  match k with O => (rev (firstn 8 s), s) | S k' => let (bl, s') := squeeze_moved (tl ds) k' (forge s (next ds)) in (rev (firstn 8 s) ++ bl, s') end.
Definition ask_moved (ds : list (list Z)) (xs : list Z) (m : nat) (s : list GF) : list GF * list GF :=
  let (st, ds') := absorb_moved ds (chunks 8 (map inj xs)) s in
  let (bl, s') := squeeze_moved ds' ((m - 1) / 8) st in (firstn m bl, s').

Lemma next_ok ds : Forall digits ds -> digits (next ds).
Proof. intros H. destruct ds as [|d ds]; [|now inversion H]. split; [reflexivity|]. cbn [next repeat]. repeat constructor; lia. Qed.
Lemma tl_ok ds : Forall digits ds -> Forall digits (tl ds).
Proof. destruct 1; [constructor|assumption]. Qed.
Lemma absorb_moved_rel cs : forall ds s, Forall digits ds ->
  chainR (fun c s t => permw 192 (overwrite c s) t) cs s (fst (absorb_moved ds cs s)) /\ Forall digits (snd (absorb_moved ds cs s)).
Proof.
  induction cs as [|c cs IH]; intros ds s H; cbn [absorb_moved chainR fst snd]; [now split|].
  destruct (IH (tl ds) (forge (overwrite c s) (next ds)) (tl_ok _ H)) as [A B]. split; [|exact B].
  eexists. split; [apply perm_forge, next_ok, H|exact A].
Qed.
Lemma squeeze_moved_rel k : forall ds s, Forall digits ds -> squeezeR (permw 192) k s (fst (squeeze_moved ds k s)) (snd (squeeze_moved ds k s)).
Proof.
  induction k as [|k IH]; intros ds s H; cbn [squeeze_moved squeezeR]; [now split|].
  specialize (IH (tl ds) (forge s (next ds)) (tl_ok _ H)). destruct (squeeze_moved (tl ds) k _) as [bl s']. cbn [fst snd] in *.
  exists (forge s (next ds)), bl. split; [apply perm_forge, next_ok, H|]. now split.
Qed.
(** whatever the digits, the circuit cannot tell *)
Lemma ask_moved_phase ds xs m s : Forall digits ds -> phase (permw 192) xs m s (fst (ask_moved ds xs m s)) (snd (ask_moved ds xs m s)).
Proof.
  intros H. unfold ask_moved. destruct (absorb_moved_rel (chunks 8 (map inj xs)) ds s H) as [A B]. destruct (absorb_moved _ _ _) as [st ds']. cbn [fst snd] in *.
  pose proof (squeeze_moved_rel ((m - 1) / 8) ds' st B) as Q. destruct (squeeze_moved _ _ _) as [bl s']. cbn [fst snd] in *.
  exists st, bl. split; [exact A|]. split; [exact Q|reflexivity].
Qed.

Lemma draw_phases_sub rest yss k : forall s n c st, phases (permw 192) rest (snd (draw_betas k s n c st)) yss ->
  phases (permw 192) (map (fun cap => (cap_elems cap, 2%nat)) (commit_caps s n c (map qeK (fst (draw_betas k s n c st)))) ++ rest) st (fst (draw_betas k s n c st) ++ yss).
Proof.
  assert (W : sub pgraph (permw 192)) by (apply pgraph_sub; lia).
  induction k as [|k IH]; intros s n c st H; [exact H|]. cbn [draw_betas] in *.
  pose proof (phase_mono _ _ _ _ _ _ _ W (ask_phase (cap_elems (cap_of (coset_digest s n c) (n - 8))) 2 st)) as A. destruct (ask _ 2 st) as [y st1]. cbn [fst snd] in A.
  specialize (IH (s ^ 16)%GF (n - 4)%nat (fold16 c (qeK y)) st1). destruct (draw_betas k _ _ _ st1) as [ys st2]. cbn [fst snd] in *.
  cbn [map commit_caps app phases]. exists y, st1, (ys ++ yss). split; [exact A|]. split; [exact (IH H)|reflexivity].
Qed.

Section Moved.
  Context (cd : CommonCircuitData) (gates : list Gate) (h : list GF) (leaves : nat -> Z -> list Z) (o : chalK -> opensK) (S : list Z) (ds : list (list Z)).
  Notation params := (cd_FriParams cd).
  Notation nc := (NumChallenges (cd_Config cd)).
  Notation n := (LdeBits (cd_FriParams cd)).
  (** [forged_session] of ForgeAll up to the last phase *)
  Definition moved_session (digest witness : Z) : session :=
    let caps := forged_caps leaves 4 n in
    let (y1, s1) := ask (digits56 digest ++ map rep h ++ cap_elems (nth 1 caps [])) (nc + nc) (repeat g0 12) in
    let (betas, gammas) := (firstn nc y1, skipn nc y1) in
    let (alphas, s2) := ask (cap_elems (nth 2 caps [])) nc s1 in
    let (y3, s3) := ask (cap_elems (nth 3 caps [])) 2 s2 in
    let c := mkChalK betas gammas alphas (qeK y3) in
    let (y4, s4) := ask (openings_elems (repO (forged_opens cd gates h o c))) 2 s3 in
    let word := forged_word cd gates h leaves o S c (qeK y4) in
    let (ys, s5) := draw_betas (length (ReductionArityBits params)) g7 n word s4 in
    let (y5, _) := ask_moved ds (flat_map qe_list (map repK (commit_final word (map qeK ys))) ++ [witness]) (1 + NumQueryRounds (cc_FriConfig (cd_Config cd))) s5 in
    mkSession c (qeK y4) (map qeK ys) (hd g0 y5) (tl y5).

  Context (HD : forgeable cd gates) (HO : forall c, opens_sized cd (o c)) (HM : Forall digits ds).
  Lemma moved_session_ok digest witness (V := moved_session digest witness) :
    transcript_gives cd (forged_session_proof cd gates h leaves o S witness V) (map rep h) (forged_data cd leaves digest) (permw 192)
      (repC (v_chal V) (fc_of (v_alpha V) (v_fri_betas V) (v_pow V) (v_indices V))) /\
    length (c_betas (v_chal V)) = nc /\ length (c_gammas (v_chal V)) = nc /\ length (c_alphas (v_chal V)) = nc /\
    length (v_fri_betas V) = length (ReductionArityBits params) /\ length (v_indices V) = NumQueryRounds (cc_FriConfig (cd_Config cd)).
  Proof.
    assert (HT : transcript_shape nc (forged_session_proof cd gates h leaves o S witness V)) by exact (shape_transcript cd gates _ (proj1 HD) (forged_shape cd gates h leaves o S HD HO _ _ _ _ _)).
    assert (W : sub pgraph (permw 192)) by (apply pgraph_sub; lia).
    subst V. unfold moved_session in *.
    pose proof (phase_mono _ _ _ _ _ _ _ W (ask_phase (digits56 digest ++ map rep h ++ cap_elems (nth 1 (forged_caps leaves 4 n) [])) (nc + nc) (repeat g0 12))) as P1.
    destruct (ask _ (nc + nc) (repeat g0 12)) as [y1 s1]. cbn [fst snd] in P1.
    pose proof (phase_mono _ _ _ _ _ _ _ W (ask_phase (cap_elems (nth 2 (forged_caps leaves 4 n) [])) nc s1)) as P2.
    destruct (ask _ nc s1) as [y2 s2]. cbn [fst snd] in P2.
    pose proof (phase_mono _ _ _ _ _ _ _ W (ask_phase (cap_elems (nth 3 (forged_caps leaves 4 n) [])) 2 s2)) as P3.
    destruct (ask _ 2 s2) as [y3 s3]. cbn [fst snd] in P3.
    set (c := mkChalK (firstn nc y1) (skipn nc y1) y2 (qeK y3)) in *.
    pose proof (phase_mono _ _ _ _ _ _ _ W (ask_phase (openings_elems (repO (forged_opens cd gates h o c))) 2 s3)) as P4.
    destruct (ask _ 2 s3) as [y4 s4]. cbn [fst snd] in P4.
    set (word := forged_word cd gates h leaves o S c (qeK y4)) in *.
    pose proof (fun rest yss => draw_phases_sub rest yss (length (ReductionArityBits params)) g7 n word s4) as P5.
    pose proof (draw_length (length (ReductionArityBits params)) g7 n word s4) as L5.
    destruct (draw_betas _ g7 n word s4) as [ys s5]. cbn [fst snd] in P5, L5.
    pose proof (ask_moved_phase ds (flat_map qe_list (map repK (commit_final word (map qeK ys))) ++ [witness]) (1 + NumQueryRounds (cc_FriConfig (cd_Config cd))) s5 HM) as P6.
    destruct (ask_moved _ _ _ s5) as [y5 s6]. cbn [fst snd] in P6. cbn [v_chal v_alpha v_fri_betas v_pow v_indices] in *.
    unfold forged_session_proof in *. cbn [v_chal v_alpha v_fri_betas v_pow v_indices] in *.
    set (pr := forged_proof cd gates h leaves o S c (qeK y4) (map qeK ys) (tl y5) witness) in *.
    assert (PH : phases (permw 192) (transcript_phases nc (NumQueryRounds (cc_FriConfig (cd_Config cd))) (CircuitDigest (forged_data cd leaves digest)) (map rep h) pr) zeros12 ([y1; y2; y3; y4] ++ ys ++ [y5])).
    { unfold transcript_phases. cbn [app phases]. exists y1, s1. eexists. split; [exact P1|]. split; [|reflexivity].
      exists y2, s2. eexists. split; [exact P2|]. split; [|reflexivity]. exists y3, s3. eexists. split; [exact P3|]. split; [|reflexivity].
      exists y4, s4. eexists. split; [exact P4|]. split; [|reflexivity]. apply P5. exists y5, s6, []. split; [exact P6|]. now split. }
    destruct (transcript_split (permw 192) _ _ _ _ _ _ (okP_permw 192) HT PH) as (z1 & z2 & z3 & z4 & bs & z5 & E & Lc & L1 & L2 & L3 & L4 & Lb & L6).
    cbn [app] in E. injection E as <- <- <- <- E. apply app_inj_tail in E. destruct E as [<- <-].
    split.
    - exists y1, y2, y3, y4, ys, y5. split; [exact PH|]. split; [exact Lc|].
      unfold repC, fc_of, c. cbn [PlonkBetas PlonkGammas PlonkAlphas PlonkZeta pc_FriChallenges FriAlpha FriBetas FriPowResponse FriQueryIndices c_betas c_gammas c_alphas c_zeta].
      rewrite <- !toQE_repK, <- map_toQE by assumption. repeat split; reflexivity.
    - unfold c. cbn [c_betas c_gammas c_alphas]. rewrite firstn_length, skipn_length, map_length. repeat split; try lia. destruct y5; cbn [length tl] in *; lia.
  Qed.
End Moved.
