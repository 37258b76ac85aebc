(** * C76: the soundness error of the whole verifier is at least rate^queries, and 1 for rate 1. *)
From Coq Require Import String.
From Coq Require Import ZArith NArith Lia List Bool Ring Permutation.
From Verif Require Import Zp GF Circuit Goldilocks GLProofs ExtProofs PoseidonSpec Sponge DenP ChallengerProofs ChallengerPhases Transcript Prop_Poseidon Prop_Challenger PoseidonGLProofs BN254 BN254Hash Types Challenger Fri Poly Roots Interp FriMerkle FriEval FriQuery FriTop FriFacts Honest FriForge Prop_FriForge FriSound FriRewind FriExtract Prop_FriSound Prop_Fri
  Gates GateProofs GateCoset GateFilter GateAll GateDegree GateBase Prop_Gates GateIds GateIdText Prop_GateIds Plonk PlonkProofs Prop_Plonk PlonkSound PlonkRows PlonkCopy Prop_PlonkSound Verifier VerifierProofs Prop_BN254 Prop_Verifier Prop_Forgery VerifierSound Prop_VerifierSound ProverPoly PlonkProver Complete Prop_Complete ForgeAll.
Import ListNotations.
Open Scope Z_scope.
Local Opaque PoseidonBN HashOrNoop TwoToOne.

(** ** Interactive
    For any circuit, satisfiable or not, any public input hash, any leaves of the four oracles
    (those of the first give the verifier data), any openings [o] except the quotients, and any
    set S of at most 2^DegreeBits positions: the proof of ForgeAll.v is accepted for all
    challenges whose queries fall into S ([hit]). *)
Theorem C76_forge : forall cd gates h leaves o S digest c alpha betas pow indices witness,
  forgeable cd gates -> leaves_ok leaves (cd_FriParams cd) (friOracles cd) -> (forall c, opens_sized cd (o c)) -> positions cd S -> length h = 4%nat ->
  sized cd c betas indices -> hit cd S c betas pow indices -> canonZ witness ->
  run (VerifyWith cd gates (forged_proof cd gates h leaves o S c alpha betas indices witness) (map rep h) (repC c (fc_of alpha betas pow indices))
        (forged_data cd leaves digest)) = Done tt.
Proof.
  intros cd gates h leaves o S digest c alpha betas pow indices witness HD HL HO HS Lh (L1 & L2 & L3 & L4 & L5) HH Hw.
  destruct (forged_fri_ok cd gates h leaves o S HD HL HS c alpha betas pow indices witness L4 L5 HH Hw) as [CP FO].
  pose proof (forged_plonk cd gates h o c ltac:(destruct HD as ((X & _) & _); lia) (proj1 HH)) as PO.
  set (pr := forged_proof cd gates h leaves o S c alpha betas indices witness) in *. set (vd := forged_data cd leaves digest).
  assert (EO : injO (Openings pr) = forged_opens cd gates h o c) by (unfold pr, forged_proof; cbn [Openings]; apply injO_repO).
  unfold VerifyWith. rewrite run_bind, (proj1 (range_proof_correct pr) CP). rewrite run_bind.
  pose proof (plonk_part cd gates pr (proj1 HD) (forged_shape cd gates h leaves o S HD HO c alpha betas indices witness) h c (fc_of alpha betas pow indices) (proj1 CP) Lh L1 L2 L3) as PP.
  rewrite EO in PP. rewrite (proj1 PP PO).
  pose proof (fri_part cd gates pr vd (proj1 HD) (c_zeta c) alpha betas pow indices (proj1 CP) (proj1 (proj2 CP))) as FP. rewrite EO in FP.
  exact (proj1 FP FO).
Qed.
Print Assumptions C76_forge.

(** The prover is as causal as the honest one of C63: the caps of the oracles depend on no
    challenge, the openings on those up to zeta, the caps of FRI on alpha and the betas before
    them, the final polynomial on all betas. *)
Theorem C76_causal : forall cd gates h leaves o S c alpha betas betas' indices indices' witness witness' c',
  let P := forged_proof cd gates h leaves o S c alpha betas indices witness in
  let P' := forged_proof cd gates h leaves o S c alpha betas' indices' witness' in
  let P'' := forged_proof cd gates h leaves o S c' alpha betas' indices' witness' in
  (WiresCap P = WiresCap P'' /\ PlonkZsPartialProductsCap P = PlonkZsPartialProductsCap P'' /\ QuotientPolysCap P = QuotientPolysCap P'') /\
  Openings P = Openings P' /\
  (forall j, (j < length betas)%nat -> (j < length betas')%nat -> firstn j betas = firstn j betas' ->
     nth j (CommitPhaseMerkleCaps (OpeningProof P)) [] = nth j (CommitPhaseMerkleCaps (OpeningProof P')) []) /\
  (betas = betas' -> FinalPoly (OpeningProof P) = FinalPoly (OpeningProof P')).
Proof.
  intros. split; [repeat split|]. split; [reflexivity|]. unfold P, P', forged_proof, forged_fri. cbn [OpeningProof CommitPhaseMerkleCaps FinalPoly].
  split; [intros j; apply commit_caps_prefix|now intros <-].
Qed.
Print Assumptions C76_causal.

(** ** The soundness error
    Of the (2^LdeBits)^rounds tuples of query positions at least (2^DegreeBits)^rounds are
    accepted. *)
Lemma first_positions cd : (LdeBits (cd_FriParams cd) <= 32)%nat ->
  let S := map Z.of_nat (seq 0 (2 ^ fp_DegreeBits (cd_FriParams cd))) in
  positions cd S /\ length S = (2 ^ fp_DegreeBits (cd_FriParams cd))%nat /\
  forall i, In i S <-> 0 <= i < 2 ^ Z.of_nat (fp_DegreeBits (cd_FriParams cd)).
Proof.
  intros Hn S.
  assert (I : forall i, In i S <-> 0 <= i < 2 ^ Z.of_nat (fp_DegreeBits (cd_FriParams cd))).
  { intros i. unfold S. rewrite in_map_iff. rewrite <- pow2_nat_Z. split.
    - intros (j & <- & Hj). apply in_seq in Hj. lia.
    - intros R. exists (Z.to_nat i). split; [lia|]. apply in_seq. lia. }
  assert (L : length S = (2 ^ fp_DegreeBits (cd_FriParams cd))%nat) by (unfold S; now rewrite map_length, seq_length).
  split; [|split; [exact L|exact I]]. split; [|split; [|lia]].
  - unfold S. generalize (seq_NoDup (2 ^ fp_DegreeBits (cd_FriParams cd)) 0). generalize (seq 0 (2 ^ fp_DegreeBits (cd_FriParams cd))). intros l H.
    induction H as [|x l Hx H IH]; cbn [map]; constructor; [|exact IH]. intros J. apply in_map_iff in J. destruct J as (y & Ey & Hy).
    apply Nat2Z.inj in Ey. now subst.
  - apply Forall_forall. intros i Hi. apply I in Hi. split; [lia|]. apply Z.lt_le_trans with (1 := proj2 Hi). apply Z.pow_le_mono_r; [lia|]. unfold LdeBits. lia.
Qed.
Theorem C76_error : forall cd gates h leaves o digest,
  forgeable cd gates -> leaves_ok leaves (cd_FriParams cd) (friOracles cd) -> (forall c, opens_sized cd (o c)) -> length h = 4%nat ->
  let n := LdeBits (cd_FriParams cd) in
  let rounds := NumQueryRounds (fp_Config (cd_FriParams cd)) in
  exists (S : list Z) (good : list (list Z)),
    NoDup good /\ length good = ((2 ^ fp_DegreeBits (cd_FriParams cd)) ^ rounds)%nat /\
    Forall (fun t => length t = rounds /\ Forall (fun i => 0 <= i < 2 ^ Z.of_nat n) t) good /\
    forall c alpha betas pow indices witness,
      sized cd c betas indices -> canonZ witness -> zeta_n cd c <> k1 -> betas_off g7 n betas ->
      rep pow < 2 ^ (64 - Z.of_nat (ProofOfWorkBits (fp_Config (cd_FriParams cd)))) ->
      (forall i, 0 <= i < 2 ^ Z.of_nat n -> emb (dom g7 n i) <> c_zeta c /\ emb (dom g7 n i) <> (emb (root (cd_DegreeBits cd)) * c_zeta c)%K) ->
      In (map (fun x => rep x mod 2 ^ Z.of_nat n) indices) good ->
      run (VerifyWith cd gates (forged_proof cd gates h leaves o S c alpha betas indices witness) (map rep h) (repC c (fc_of alpha betas pow indices)) (forged_data cd leaves digest)) = Done tt.
Proof.
  intros cd gates h leaves o digest HD HL HO Lh n rounds. pose proof HD as (_ & _ & _ & (_ & _ & _ & _ & _ & Hn)).
  destruct (first_positions cd ltac:(lia)) as (PS & LS & IS). set (S := map Z.of_nat (seq 0 (2 ^ fp_DegreeBits (cd_FriParams cd)))) in *.
  exists S, (tuples rounds S). split; [apply tuples_nodup, PS|]. split; [now rewrite tuples_length, LS|].
  pose proof (proj1 (proj2 PS)) as RS. rewrite Forall_forall in RS. split.
  - apply Forall_forall. intros t Ht. apply in_tuples in Ht. destruct Ht as [L F]. split; [exact L|]. rewrite Forall_forall in *. intros i Hi. apply RS, F, Hi.
  - intros c alpha betas pow indices witness SZ Hw Hz Hb Hp Hoff Hin. apply in_tuples in Hin. destruct Hin as [L F].
    apply C76_forge; try assumption. split; [exact Hz|]. split; [exact Hb|]. split; [exact Hp|]. split.
    + intros i Hi. apply Hoff, RS, Hi.
    + rewrite Forall_forall in *. intros x Hx. apply F. apply in_map_iff. now exists x.
Qed.
Print Assumptions C76_error.

(** ** The circuit itself, with the transcript of the forged proof *)
Theorem C76_transcript : forall orders cd gates pis leaves o S digest witness,
  (forall i, Permutation (orders i) gateRegexHandlers) -> Forall2 gate_text gates (map str (GateIds cd)) ->
  forgeable cd gates -> leaves_ok leaves (cd_FriParams cd) (friOracles cd) -> (forall c, opens_sized cd (o c)) -> positions cd S ->
  NumQueryRounds (cc_FriConfig (cd_Config cd)) = NumQueryRounds (fp_Config (cd_FriParams cd)) ->
  Forall reducible pis -> Forall inr_ pis -> inr_ digest -> canonZ witness ->
  let h := sponge g0 poseidon (map inj pis) 4 in
  let V := forged_session cd gates h leaves o S digest witness in
  hit cd S (v_chal V) (v_fri_betas V) (v_pow V) (v_indices V) ->
  run (Define orders 192 cd (forged_session_proof cd gates h leaves o S witness V) pis (forged_data cd leaves digest)) = Done tt.
Proof.
  intros orders cd gates pis leaves o S digest witness HO HG HD HL HU HS EQ Rp Np Nd Hw h V HH.
  set (pr := forged_session_proof cd gates h leaves o S witness V). set (vd := forged_data cd leaves digest).
  pose proof (forged_shape cd gates h leaves o S HD HU (v_chal V) (v_alpha V) (v_fri_betas V) (v_indices V) witness : proof_shape cd gates pr) as SH.
  pose proof (forged_native cd gates h leaves o S (v_chal V) (v_alpha V) (v_fri_betas V) (v_indices V) witness pis digest Np Nd : native pr pis vd) as NA.
  apply (C52_honest orders cd gates pr pis vd HO HG (proj1 HD) SH NA).
  destruct (forged_session_ok cd gates h leaves o S HD HU digest witness) as (TG & L1 & L2 & L3 & L4 & L5).
  fold V in TG, L1, L2, L3, L4, L5. fold pr in TG. rewrite EQ in L5.
  destruct (forged_fri_ok cd gates h leaves o S HD HL HS (v_chal V) (v_alpha V) (v_fri_betas V) (v_pow V) (v_indices V) witness L4 L5 HH Hw) as [CP FO].
  pose proof (forged_plonk cd gates h o (v_chal V) ltac:(destruct HD as ((X & _) & _); lia) (proj1 HH)) as PO.
  assert (EO : injO (Openings pr) = forged_opens cd gates h o (v_chal V)) by (unfold pr, forged_session_proof, forged_proof; cbn [Openings]; apply injO_repO).
  split; [exact CP|]. split; [exact Rp|]. exists h, (v_chal V), (v_alpha V), (v_fri_betas V), (v_pow V), (v_indices V).
  split; [apply sponge_graph_is|]. split; [exact TG|]. rewrite EO. split; [exact PO|exact FO].
Qed.
Print Assumptions C76_transcript.

(** ** Rate 1
    With RateBits = 0 the set S can be the whole domain, and the query indices do not matter: all
    public inputs, and all circuits, are accepted. *)
Theorem C76_rate_one : forall orders cd gates pis leaves o digest witness,
  (forall i, Permutation (orders i) gateRegexHandlers) -> Forall2 gate_text gates (map str (GateIds cd)) ->
  forgeable cd gates -> RateBits (fp_Config (cd_FriParams cd)) = 0%nat -> leaves_ok leaves (cd_FriParams cd) (friOracles cd) -> (forall c, opens_sized cd (o c)) ->
  NumQueryRounds (cc_FriConfig (cd_Config cd)) = NumQueryRounds (fp_Config (cd_FriParams cd)) ->
  Forall reducible pis -> Forall inr_ pis -> inr_ digest -> canonZ witness ->
  let n := LdeBits (cd_FriParams cd) in
  let h := sponge g0 poseidon (map inj pis) 4 in
  let S := map Z.of_nat (seq 0 (2 ^ n)) in
  let V := forged_session cd gates h leaves o S digest witness in
  zeta_n cd (v_chal V) <> k1 -> betas_off g7 n (v_fri_betas V) -> rep (v_pow V) < 2 ^ (64 - Z.of_nat (ProofOfWorkBits (fp_Config (cd_FriParams cd)))) ->
  (forall i, 0 <= i < 2 ^ Z.of_nat n -> emb (dom g7 n i) <> c_zeta (v_chal V) /\ emb (dom g7 n i) <> (emb (root (cd_DegreeBits cd)) * c_zeta (v_chal V))%K) ->
  run (Define orders 192 cd (forged_session_proof cd gates h leaves o S witness V) pis (forged_data cd leaves digest)) = Done tt.
Proof.
  intros orders cd gates pis leaves o digest witness HO HG HD HR HL HU EQ Rp Np Nd Hw n h S V Hz Hb Hp Hoff.
  pose proof HD as (_ & _ & _ & (_ & _ & _ & _ & _ & Hn)).
  assert (E : n = fp_DegreeBits (cd_FriParams cd)) by (unfold n, LdeBits; lia).
  destruct (first_positions cd ltac:(lia)) as (PS & LS & IS). rewrite <- E in PS, LS, IS. fold S in PS, LS, IS.
  apply C76_transcript; try assumption. split; [exact Hz|]. split; [exact Hb|]. split; [exact Hp|]. split.
  - intros i Hi. apply Hoff. now apply IS.
  - apply Forall_forall. intros x _. apply IS. apply Z.mod_pos_bound. lia.
Qed.
Print Assumptions C76_rate_one.

(** ** An unsatisfiable circuit
    Sixteen rows, in each a ConstantGate with the constants 0 and 1 on two wires that a copy
    constraint makes equal; rate 1, two query rounds. *)
Definition cd76 : CommonCircuitData :=
  mkCommonCircuitData (mkCircuitConfig 2 2 2 false 100 1 true 2 (mkFriConfig 0 4 0 2))
    (mkFriParams (mkFriConfig 0 4 0 2) true 4 []) ["ConstantGate { num_consts: 2 }"%string] (mkSelectorsInfo [O] [(0, 1)%nat]) 4 2 2 3 0 [1; 7] 0.
Definition g76 : list Gate := [ConstantGate 2].
Definition cs76 : list (list GF) := [[]; [g0]; [g1]].
Definition sigmas76 : list (list GF) := [[g0; inj 7]; [g0; inj 1]].
Definition leaves76 (o : nat) (i : Z) : list Z :=
  match o with
  | O => honest_leaf [cs76 ++ sigmas76] (fun _ _ => []) 4 0 i
  | 1%nat | 3%nat => repeat 0 6
  | _ => repeat 0 5
  end.
Definition o76 (c : chalK) : opensK := mkOpensK [k0; k0; k0] [k0; k0] [k0; k0] [k0] [k0] [] [].
Lemma shape76 : circuit_shape cd76 g76.
Proof.
  split; [split; [repeat constructor; vm_compute; congruence|cbn; lia]|]. split; [|repeat constructor].
  split; [cbn; lia|]. intros i Hi. destruct i as [|i]; [|cbn in Hi; lia]. cbn. unfold p. lia.
Qed.
Lemma forgeable76 : forgeable cd76 g76.
Proof.
  split; [exact shape76|]. split; [cbn; lia|]. split; [constructor; [cbn; lia|constructor]|]. repeat split; cbn; lia.
Qed.
Lemma leaves_ok76 : leaves_ok leaves76 (cd_FriParams cd76) (friOracles cd76).
Proof.
  intros o i Ho. cbn [friOracles length] in Ho. cbv zeta.
  destruct o as [|o].
  2:{ destruct o as [|[|[|o]]]; [| | |lia]; (split; [reflexivity|]); cbn [leaves76 repeat]; repeat constructor; vm_compute; congruence. }
  cbn [leaves76]. unfold honest_leaf. split; [rewrite app_length, map_length; reflexivity|]. rewrite app_nil_r. apply Forall_forall. intros v Hv. apply in_map_iff in Hv. destruct Hv as (f & <- & _). apply rep_range.
Qed.
Lemma data76 digest : forged_data cd76 leaves76 digest = mkVerifierOnlyCircuitData (constants_cap cd76 cs76 sigmas76 (fun _ _ => [])) digest.
Proof. reflexivity. Qed.
Lemma unsatisfiable76 h ws : length h = 4%nat -> ~ satisfying cd76 g76 h cs76 sigmas76 ws.
Proof.
  intros Lh ((_ & _ & L3) & _ & GA & _ & CO). destruct ws as [|w0 [|w1 [|w2 ws]]]; try discriminate L3.
  destruct (GA 0%nat ltac:(cbn; lia)) as (j & (Hj & _) & C). assert (j = O) as -> by (cbn in Hj; lia).
  assert (D : computes (EvalUnfiltered (nth 0 g76 NoopGate) (mkvars (skipn (length (groups (cd_SelectorsInfo cd76))) (map emb (grow cd76 cs76 0))) (map emb (grow cd76 [w0; w1] 0)) h))
    (map repK (gate_k (nth 0 g76 NoopGate) (skipn (length (groups (cd_SelectorsInfo cd76))) (map emb (grow cd76 cs76 0))) (map emb (grow cd76 [w0; w1] 0)) h))).
  { apply gate_computes; [cbn; lia|exact Lh]. }
  pose proof (computes_functional _ _ _ C D) as E. clear C D.
  assert (W : gcell cd76 [w0; w1] (0, 0)%nat = gcell cd76 [w0; w1] (0, 1)%nat).
  { apply CO; [apply in_cells; cbn; lia|apply in_cells; cbn; lia|]. unfold gcell, label. cbn [fst snd sigmas76 nth KIs cd76].
    generalize (root (cd_DegreeBits cd76) ^ N.of_nat 0)%GF. intros x. unfold gpeval. cbn [peval]. ring. }
  unfold gcell in W. cbn [fst snd nth] in W.
  cbn [nth g76 gate_k num_constraints repeat seq map] in E. unfold wire, grow, cs76 in E. cbn [map skipn length groups cd_SelectorsInfo cd76 nth] in E.
  rewrite W in E. set (v := gpeval w1 _) in *. unfold gpeval in E. cbn [peval] in E.
  pose proof (f_equal (fun l => nth 0 l (repK k0)) E) as E1. pose proof (f_equal (fun l => nth 1 l (repK k0)) E) as E2. cbn [nth] in E1, E2.
  change (0, 0) with (repK k0) in E1, E2. apply repK_inj in E1, E2. apply (f_equal fst) in E1, E2.
  assert (F : forall a b, fst (emb a - emb b)%K = (a - b)%GF) by reflexivity. rewrite F in E1, E2.
  change (fst k0) with g0 in E1, E2. revert E1 E2. generalize (root (cd_DegreeBits cd76) ^ N.of_nat 0)%GF, v. clear. intros x v E1 E2.
  assert (Z : g1 = g0).
  { transitivity ((g1 + x * g0 - v) - (g0 + x * g0 - v))%GF; [ring|]. rewrite <- E1, <- E2. ring. }
  apply (f_equal rep) in Z. discriminate Z.
Qed.
Theorem C76_unsatisfiable : forall h digest c alpha pow indices witness, length h = 4%nat ->
  (forall ws, ~ satisfying cd76 g76 h cs76 sigmas76 ws) /\
  (sized cd76 c [] indices -> canonZ witness -> (c_zeta c ^ 16)%K <> k1 ->
   (forall i, 0 <= i < 16 -> emb (dom g7 4 i) <> c_zeta c /\ emb (dom g7 4 i) <> (emb (root 4) * c_zeta c)%K) ->
   run (VerifyWith cd76 g76 (forged_proof cd76 g76 h leaves76 o76 (map Z.of_nat (seq 0 16)) c alpha [] indices witness) (map rep h)
     (repC c (fc_of alpha [] pow indices)) (mkVerifierOnlyCircuitData (constants_cap cd76 cs76 sigmas76 (fun _ _ => [])) digest)) = Done tt).
Proof.
  intros h digest c alpha pow indices witness Lh. split; [intros ws; now apply unsatisfiable76|]. intros SZ Hw Hz Hoff. rewrite <- data76.
  destruct (first_positions cd76 ltac:(cbn; lia)) as (PS & LS & IS). change (2 ^ fp_DegreeBits (cd_FriParams cd76))%nat with 16%nat in *.
  apply C76_forge; try assumption; [exact forgeable76|exact leaves_ok76|intros c'; repeat split|].
  split; [exact Hz|]. split; [exact I|]. split; [|split].
  - change (2 ^ (64 - Z.of_nat (ProofOfWorkBits (fp_Config (cd_FriParams cd76))))) with (2 ^ 64). apply Z.lt_trans with p; [apply rep_range|reflexivity].
  - intros i Hi. apply Hoff. apply IS in Hi. exact Hi.
  - apply Forall_forall. intros x _. apply IS. apply Z.mod_pos_bound. reflexivity.
Qed.
Print Assumptions C76_unsatisfiable.

(** such challenges: zeta = 11 + X *)
Example C76_ex : forall alpha digest, run (VerifyWith cd76 g76 (forged_proof cd76 g76 h61 leaves76 o76 (map Z.of_nat (seq 0 16)) c63 alpha [] [inj 77; inj 200] 6) (map rep h61)
    (repC c63 (fc_of alpha [] (inj 13) [inj 77; inj 200])) (mkVerifierOnlyCircuitData (constants_cap cd76 cs76 sigmas76 (fun _ _ => [])) digest)) = Done tt.
Proof.
  intros alpha digest. assert (NE : forall x a b, rep b <> 0 -> emb x <> (a, b)) by (intros x a b Hb E; injection E as _ E; apply Hb; now rewrite <- E).
  apply C76_unsatisfiable; [reflexivity|repeat split|split; [lia|reflexivity]| |].
  - assert (B : Z.eqb (rep (snd (c_zeta c63 ^ 16)%K)) 0 = false) by (vm_compute; reflexivity). intros E. rewrite E in B. discriminate B.
  - intros i _. split; [apply NE; vm_compute; discriminate|]. unfold c63. cbn [c_zeta]. intros E.
    assert (E2 : g0 = (root 4 * g1)%GF) by (apply (f_equal snd) in E; now rewrite snd_emb_mul in E).
    apply (f_equal rep) in E2. vm_compute in E2. discriminate E2.
Qed.
