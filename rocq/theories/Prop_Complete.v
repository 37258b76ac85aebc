(** * Properties C63 and C64: the verifier accepts the honest proof of every satisfying assignment. *)
From Coq Require Import String.
From Coq Require Import ZArith NArith Lia List Bool Ring Permutation.
From Verif Require Import Zp GF Circuit Goldilocks GLProofs ExtProofs PoseidonSpec Sponge DenP ChallengerProofs ChallengerPhases Transcript Prop_Poseidon Prop_Challenger PoseidonGLProofs BN254 BN254Hash Types Challenger Fri Poly Roots Interp FriMerkle FriEval FriQuery FriTop FriFacts Honest FriSound FriRewind FriExtract Prop_FriSound Prop_Fri
  Gates GateProofs GateCoset GateFilter GateAll GateDegree GateBase Prop_Gates GateIds GateIdText Prop_GateIds Plonk PlonkProofs Prop_Plonk PlonkSound PlonkRows PlonkCopy Prop_PlonkSound Verifier VerifierProofs Prop_BN254 Prop_Verifier Prop_Forgery VerifierSound Prop_VerifierSound ProverPoly PlonkProver Complete.
Import ListNotations.
Open Scope Z_scope.
Local Opaque PoseidonBN HashOrNoop TwoToOne.

(** ** C63
    Given polynomials [cs], [sigmas], [ws] that satisfy the circuit ([satisfying]), the prover
    of Complete.v computes grand products, partial products and quotients for the challenges
    that it is given and opens everything with FRI ([sent_proof]).  [VerifyWith], which is
    Verify with the challenges given (C62_link), accepts for all challenges for which no
    division by zero occurs and the proof of work is done. *)
Theorem C63_complete : forall cd gates h cs sigmas ws salts digest c alpha betas pow indices witness,
  provable cd gates salts -> length h = 4%nat -> satisfying cd gates h cs sigmas ws ->
  sized cd c betas indices -> lucky cd sigmas ws c betas pow indices -> canonZ witness ->
  run (VerifyWith cd gates (sent_proof cd gates h cs sigmas ws salts c alpha betas indices witness) (map rep h) (repC c (fc_of alpha betas pow indices))
        (mkVerifierOnlyCircuitData (constants_cap cd cs sigmas salts) digest)) = Done tt.
Proof.
  intros cd gates h cs sigmas ws salts digest c alpha betas pow indices witness HP Lh HS SZ LK Hw.
  destruct (sent_fri_ok cd gates h cs sigmas ws salts HP HS Lh c alpha betas pow indices witness SZ LK Hw) as [CP FO].
  pose proof SZ as (L1 & L2 & L3 & L4 & L5). pose proof LK as (GB & Z1 & _).
  pose proof (sent_plonk cd gates h cs sigmas ws salts HP HS Lh c L1 L2 L3 GB Z1) as PO.
  set (pr := sent_proof cd gates h cs sigmas ws salts c alpha betas indices witness) in *. set (vd := mkVerifierOnlyCircuitData _ digest).
  assert (EO : injO (Openings pr) = sent_opens cd gates h cs sigmas ws c) by (unfold pr, sent_proof; cbn [Openings]; apply injO_repO).
  unfold VerifyWith. rewrite run_bind, (proj1 (range_proof_correct pr) CP). rewrite run_bind.
  pose proof (plonk_part cd gates pr (proj1 (proj1 HP)) (sent_proof_shape cd gates h cs sigmas ws salts HP HS Lh c alpha betas indices witness) h c (fc_of alpha betas pow indices) (proj1 CP) Lh L1 L2 L3) as PP.
  rewrite EO in PP. rewrite (proj1 PP PO).
  pose proof (fri_part cd gates pr vd (proj1 (proj1 HP)) (c_zeta c) alpha betas pow indices (proj1 CP) (proj1 (proj2 CP))) as FP. rewrite EO in FP.
  exact (proj1 FP FO).
Qed.
Print Assumptions C63_complete.

(** What the prover sends depends only on the challenges drawn before: the wires on none, the
    products on betas and gammas, the quotients on alphas too, the openings on zeta too; then
    each cap of FRI on the folding challenges before it, the final polynomial on all of them. *)
Lemma commit_caps_prefix j : forall s n w bs bs', (j < length bs)%nat -> (j < length bs')%nat -> firstn j bs = firstn j bs' ->
  nth j (commit_caps s n w bs) [] = nth j (commit_caps s n w bs') [].
Proof.
  induction j as [|j IH]; intros s n w [|b bs] [|b' bs'] L L' E; cbn [length] in L, L'; try lia; [reflexivity|].
  cbn [firstn] in E. injection E as -> E. cbn [commit_caps nth]. apply IH; [lia|lia|exact E].
Qed.
Theorem C63_causal : forall cd gates h cs sigmas ws salts c c' alpha alpha' betas betas' indices indices' witness witness',
  let P := sent_proof cd gates h cs sigmas ws salts c alpha betas indices witness in
  let P' := sent_proof cd gates h cs sigmas ws salts c' alpha' betas' indices' witness' in
  WiresCap P = WiresCap P' /\
  (c_betas c = c_betas c' -> c_gammas c = c_gammas c' -> PlonkZsPartialProductsCap P = PlonkZsPartialProductsCap P' /\
   (c_alphas c = c_alphas c' -> QuotientPolysCap P = QuotientPolysCap P' /\
    (c_zeta c = c_zeta c' -> Openings P = Openings P' /\
     (alpha = alpha' ->
      (forall j, (j < length betas)%nat -> (j < length betas')%nat -> firstn j betas = firstn j betas' ->
         nth j (CommitPhaseMerkleCaps (OpeningProof P)) [] = nth j (CommitPhaseMerkleCaps (OpeningProof P')) []) /\
      (betas = betas' -> FinalPoly (OpeningProof P) = FinalPoly (OpeningProof P')))))).
Proof.
  intros cd gates h cs sigmas ws salts [b g a z] [b' g' a' z'] alpha alpha' betas betas' indices indices' witness witness' P P'.
  split; [reflexivity|]. cbn [c_betas c_gammas c_alphas c_zeta]. intros <- <-. split; [reflexivity|]. intros <-. split; [reflexivity|]. intros <-. split; [reflexivity|]. intros <-.
  unfold P, P', sent_proof, sent_fri, honest_fri. cbn [OpeningProof CommitPhaseMerkleCaps FinalPoly]. split; [|now intros <-].
  intros j. apply commit_caps_prefix.
Qed.
Print Assumptions C63_causal.

(** The exception for gamma is small: for each beta at most one value per cell. *)
Theorem C63_few_bad : forall cd sigmas ws, exists bad : GF -> list GF, (forall b, length (bad b) = length (cells cd)) /\
  forall betas gammas, good_betas cd sigmas ws betas gammas <-> forall i, (i < NumChallenges (cd_Config cd))%nat -> ~ In (nth i gammas g0) (bad (nth i betas g0)).
Proof.
  intros cd sigmas ws. exists (fun b => map (fun c => g0 - (gcell cd ws c + b * gcell cd sigmas c))%GF (cells cd)). split; [intros b; apply map_length|].
  intros betas gammas. split.
  - intros H i Hi I. apply in_map_iff in I. destruct I as (c & E & Hc). apply (H i c Hi Hc). rewrite <- E. ring.
  - intros H i c Hi Hc E. apply (H i Hi). apply in_map_iff. exists c. split; [|exact Hc].
    transitivity (nth i gammas g0 - (gcell cd ws c + nth i betas g0 * gcell cd sigmas c + nth i gammas g0))%GF; [ring|]. rewrite E. ring.
Qed.
Print Assumptions C63_few_bad.

(** So the hypothesis of C62 on acceptance is met by a strategy, for every satisfiable circuit. *)
Theorem C63_strategy : forall cd gates h cs sigmas ws salts digest,
  provable cd gates salts -> length h = 4%nat -> satisfying cd gates h cs sigmas ws -> (1 <= NumQueryRounds (fp_Config (cd_FriParams cd)))%nat ->
  exists P : strategy, forall c alpha betas i,
    let indices := repeat (inj i) (NumQueryRounds (fp_Config (cd_FriParams cd))) in
    sized cd c betas indices -> lucky cd sigmas ws c betas g0 indices -> 0 <= i < 2 ^ Z.of_nat (LdeBits (cd_FriParams cd)) ->
    openings_shape cd (s_opens P c) /\
    wins cd gates h (mkVerifierOnlyCircuitData (constants_cap cd cs sigmas salts) digest) P c alpha betas i.
Proof.
  intros cd gates h cs sigmas ws salts digest HP Lh HS Hq.
  pose (caps c := sent_caps cd gates h cs sigmas ws salts c).
  pose (word c alpha := honest_codeword (sent_tables cd gates h cs sigmas ws c) (cd_FriParams cd) alpha (fri_points cd (c_zeta c))).
  exists (mkStrategy (nth 1 (caps (mkChalK [] [] [] k0)) []) (fun b g => nth 2 (caps (mkChalK b g [] k0)) []) (fun b g a => nth 3 (caps (mkChalK b g a k0)) [])
    (fun c => repO (sent_opens cd gates h cs sigmas ws c)) (fun c alpha => honest_cap g7 (LdeBits (cd_FriParams cd)) (word c alpha))
    (fun c alpha betas => map repK (commit_final (word c alpha) betas))
    (fun c alpha betas i => mkTranscript (sent_fri cd gates h cs sigmas ws salts c alpha betas (repeat (inj i) (NumQueryRounds (fp_Config (cd_FriParams cd)))) 0) g0
       (repeat (inj i) (NumQueryRounds (fp_Config (cd_FriParams cd)))))).
  intros c alpha betas i indices SZ LK Hi. split.
  - cbn [s_opens]. destruct HS as ((L1 & L2 & L3) & _). unfold openings_shape, sent_opens, opened, repO.
    cbn [o_cs o_sigmas o_ws o_zs o_zsn o_pps o_qs Constants PlonkSigmas Wires PlonkZs PlonkZsNext PartialProducts QuotientPolys].
    unfold cols. rewrite !map_length, hz_length, hp_length, hq_length. repeat split; try assumption; lia.
  - assert (Ri : rep (inj i) mod 2 ^ Z.of_nat (LdeBits (cd_FriParams cd)) = i).
    { destruct HP as (_ & _ & _ & _ & (_ & _ & _ & _ & _ & Hn) & _). rewrite rep_inj_small; [now apply Z.mod_small|]. split; [lia|]. apply Z.lt_trans with (2 ^ 33); [|reflexivity].
      apply Z.lt_le_trans with (2 ^ Z.of_nat (LdeBits (cd_FriParams cd))); [lia|]. apply Z.pow_le_mono_r; lia. }
    unfold wins. cbv zeta. cbn [s_answer s_cap s_final t_proof t_pow t_indices]. split; [|split; [reflexivity|split; [|split]]].
    + unfold word. rewrite honest_caps_along. reflexivity.
    + destruct (NumQueryRounds (fp_Config (cd_FriParams cd))) as [|k]; [lia|]. cbn [repeat]. exists (inj i), (repeat (inj i) k). split; [reflexivity|exact Ri].
    + unfold first_round. cbn [t_proof]. unfold sent_fri, honest_fri. cbn [QueryRoundProofs].
      destruct (NumQueryRounds (fp_Config (cd_FriParams cd))) as [|k]; [lia|]. cbn [repeat map hd]. apply honest_siblings.
    + exists tt. apply run_reach. destruct c as [b g a z].
      exact (C63_complete cd gates h cs sigmas ws salts digest (mkChalK b g a z) alpha betas g0 indices 0 HP Lh HS SZ LK ltac:(split; [lia|reflexivity])).
Qed.
Print Assumptions C63_strategy.

(** ** Example: sixteen rows, in each an ArithmeticGate computing 3 x y + 5 z with x = y = X and
    z = 1, where the wires x and y are connected; one partial product, two quotient chunks,
    one reduction, two query rounds, salts of four nines. *)
Definition cd63 : CommonCircuitData :=
  mkCommonCircuitData (mkCircuitConfig 4 4 2 false 100 1 true 2 (mkFriConfig 4 4 0 2))
    (mkFriParams (mkFriConfig 4 4 0 2) true 4 [4%nat]) ["ArithmeticGate { num_ops: 1 }"%string] (mkSelectorsInfo [O] [(0, 1)%nat]) 4 2 1 3 0 [1; 7; 49; 343] 1.
Definition g63 : list Gate := [ArithmeticGate 1].
Definition cs63 : list (list GF) := [[]; [inj 3]; [inj 5]].
Definition sigmas63 : list (list GF) := [[g0; inj 7]; [g0; inj 1]; [g0; inj 49]; [g0; inj 343]].
Definition ws63 : list (list GF) := [[g0; g1]; [g0; g1]; [g1]; [inj 5; g0; inj 3]].
Definition salts63 (o : nat) (_ : Z) : list Z := match o with O => [] | S _ => repeat 9 4 end.
Lemma NoDup_inj {A B} (f : A -> B) (l : list A) : NoDup (map f l) -> forall x y, In x l -> In y l -> f x = f y -> x = y.
Proof.
  induction l as [|a l IH]; intros N x y Ix Iy E; [destruct Ix|]. cbn [map] in N. inversion N as [|? ? N1 N2]; subst.
  destruct Ix as [<-|Ix], Iy as [<-|Iy]; [reflexivity| | |now apply IH].
  - exfalso. apply N1. rewrite E. now apply in_map.
  - exfalso. apply N1. rewrite <- E. now apply in_map.
Qed.
Definition swap63 (c : nat * nat) : nat * nat := (fst c, nth (snd c) [1; 0; 2; 3]%nat O).
Lemma cells63 k j : In (k, j) (cells cd63) -> (j = 0 \/ j = 1 \/ j = 2 \/ j = 3)%nat.
Proof. intros I. apply in_prod_iff in I. destruct I as [_ I]. apply in_seq in I. cbn in I. lia. Qed.
Lemma sigma63 c : In c (cells cd63) -> gcell cd63 sigmas63 c = label cd63 (swap63 c).
Proof.
  destruct c as [k j]. intros I. apply cells63 in I. unfold gcell, label, swap63. cbn [fst snd]. generalize (root (cd_DegreeBits cd63) ^ N.of_nat k)%GF. intros x.
  destruct I as [->|[->|[->| ->]]]; cbn [sigmas63 nth KIs cd63]; unfold gpeval; cbn [peval]; ring.
Qed.
Lemma swap_cells : Permutation (map swap63 (cells cd63)) (cells cd63).
Proof.
  unfold cells. change ((NumPartialProducts cd63 + 1) * QuotientDegreeFactor cd63)%nat with 4%nat. generalize (seq 0 (2 ^ cd_DegreeBits cd63)). intros l.
  induction l as [|k l IH]; [constructor|]. cbn [list_prod seq map app]. unfold swap63 at 1 2 3 4. cbn [fst snd nth].
  eapply perm_trans; [apply perm_swap|]. do 4 apply perm_skip. exact IH.
Qed.
Lemma labels63 s t : In s (cells cd63) -> In t (cells cd63) -> label cd63 s = label cd63 t -> s = t.
Proof.
  intros Is It E. assert (N : NoDup (map (cell_label cd63 (map inj (KIs cd63))) (cells cd63))).
  { apply C61_labels; [cbn; lia|]. intros j j' Hj Hj'. cbn in Hj, Hj'. split.
    - destruct j as [|[|[|[|j]]]]; try lia; intros X; apply (f_equal rep) in X; vm_compute in X; discriminate X.
    - destruct j as [|[|[|[|j]]]], j' as [|[|[|[|j']]]]; try lia; intros X; apply (f_equal rep) in X; vm_compute in X; discriminate X. }
  apply (NoDup_inj _ _ N); [exact Is|exact It|]. now rewrite <- !label_emb, E.
Qed.
Lemma shape63 : circuit_shape cd63 g63.
Proof.
  split; [split; [repeat constructor; vm_compute; congruence|cbn; lia]|]. split; [|repeat constructor].
  split; [cbn; lia|]. intros i Hi. destruct i as [|i]; [|cbn in Hi; lia]. cbn. unfold p. lia.
Qed.
Lemma provable63 : provable cd63 g63 salts63.
Proof.
  split; [|split; [|split; [|split; [|split]]]].
  - split; [exact shape63|]. split; [reflexivity|]. split; [cbn; lia|]. split; [cbn; lia|]. repeat constructor.
  - split; [cbn; lia|]. intros [|j] Hj; [|cbn in Hj; lia]. cbn. lia.
  - cbn. lia.
  - vm_compute. congruence.
  - repeat split; cbn; lia.
  - intros o i _. destruct o as [|o]; (split; [reflexivity|]); cbn [salts63 repeat]; repeat constructor; vm_compute; congruence.
Qed.
Lemma satisfying63 h : length h = 4%nat -> satisfying cd63 g63 h cs63 sigmas63 ws63.
Proof.
  intros Lh. split; [repeat split|]. split; [repeat constructor; cbn; lia|]. split; [|split].
  - intros k Hk. exists O. split.
    + split; [cbn; lia|]. split; [cbn; lia|]. split; [cbn; lia|]. intros i Hi. destruct i as [|i]; [|cbn in Hi; lia].
      unfold grow. cbn [map cs63]. unfold gpeval. cbn [peval]. cbn. unfold kz. now rewrite <- g0_inj.
    + unfold grow. generalize (root (cd_DegreeBits cd63) ^ N.of_nat k)%GF. intros x.
      match goal with |- computes (EvalUnfiltered ?g (mkvars ?cs ?ws ?hh)) ?r => assert (C := gate_computes g cs ws hh); assert (E : map repK (gate_k g cs ws hh) = r) end.
      { cbn [nth g63 gate_k num_constraints repeat seq map]. unfold wire, cs63, ws63. cbn [map skipn length groups cd_SelectorsInfo cd63 nth Nat.mul Nat.add].
        unfold gpeval. cbn [peval]. change (0, 0) with (repK k0). do 2 f_equal. change k0 with (emb g0).
        unfold arith_k, wire. cbn [nth Nat.add Nat.mul]. rewrite <- ?emb_mul, <- ?emb_add, <- ?emb_mul, <- ?emb_sub. f_equal. ring. }
      rewrite <- E. apply C; [|exact Lh]. cbn. lia.
  - eapply perm_trans; [|apply Permutation_map; exact swap_cells]. rewrite map_map. erewrite map_ext_in; [apply Permutation_refl|]. intros c Hc. cbv beta. now apply sigma63.
  - intros s t Is It E. rewrite sigma63 in E by exact It. apply labels63 in E; [|apply (Permutation_in _ swap_cells), in_map, It|exact Is]. subst s.
    destruct t as [k j]. apply cells63 in It. unfold swap63. cbn [fst snd]. unfold gcell. cbn [fst snd].
    destruct It as [->|[->|[->| ->]]]; reflexivity.
Qed.
Definition c63 : chalK := mkChalK [inj 2] [inj 1001] [inj 5] (inj 11, g1).
Lemma snd_emb_mul r a b : snd (emb r * (a, b))%K = (r * b)%GF.
Proof. unfold kmul, emb. cbn [fst snd]. ring. Qed.
Lemma lucky63 : sized cd63 c63 [(g0, g1)] [inj 77; inj 200] /\ lucky cd63 sigmas63 ws63 c63 [(g0, g1)] (inj 13) [inj 77; inj 200].
Proof.
  assert (NE : forall x a b, rep b <> 0 -> emb x <> (a, b)) by (intros x a b Hb E; injection E as _ E; apply Hb; now rewrite <- E).
  split; [repeat split|]. split; [|split; [|split; [|split]]].
  - assert (B : forallb (fun c => negb (Z.eqb (rep (gcell cd63 ws63 c + inj 2 * gcell cd63 sigmas63 c + inj 1001)%GF) 0)) (cells cd63) = true) by (vm_compute; reflexivity).
    intros i c Hi Hc E. destruct i as [|i]; [|cbn in Hi; lia]. cbn [c63 c_betas c_gammas nth] in E. apply (proj1 (forallb_forall _ _) B) in Hc. rewrite E in Hc. discriminate Hc.
  - intros E. injection E as _ E. discriminate E.
  - split; [|exact I]. intros i E. symmetry in E. revert E. apply NE. vm_compute. discriminate.
  - vm_compute. reflexivity.
  - intros x _ y. split; [apply NE; vm_compute; discriminate|]. unfold y, c63. cbn [c_zeta]. intros E.
    assert (E2 : g0 = (root 4 * g1)%GF) by (apply (f_equal snd) in E; now rewrite snd_emb_mul in E).
    apply (f_equal rep) in E2. vm_compute in E2. discriminate E2.
Qed.
Example C63_ex : forall alpha digest, run (VerifyWith cd63 g63 (sent_proof cd63 g63 h61 cs63 sigmas63 ws63 salts63 c63 alpha [(g0, g1)] [inj 77; inj 200] 6) (map rep h61)
    (repC c63 (fc_of alpha [(g0, g1)] (inj 13) [inj 77; inj 200])) (mkVerifierOnlyCircuitData (constants_cap cd63 cs63 sigmas63 salts63) digest)) = Done tt.
Proof.
  intros alpha digest. destruct lucky63 as (SZ & LK).
  apply C63_complete; [exact provable63|reflexivity|now apply satisfying63|exact SZ|exact LK|split; [lia|reflexivity]].
Qed.

(** ** C64
    The same with the challenges of the transcript: [fiat_shamir] (Complete.v) commits, hashes
    what it has committed to, draws the next challenges, and so on.  The honest solver of the
    circuit completes on this proof, the public inputs and the verifier data. *)
Theorem C64_transcript : forall cd gates h cs sigmas ws salts vd witness,
  let S := fiat_shamir cd gates h cs sigmas ws salts (CircuitDigest vd) witness in
  let pr := session_proof cd gates h cs sigmas ws salts witness S in
  transcript_shape (NumChallenges (cd_Config cd)) pr ->
  transcript_gives cd pr (map rep h) vd pgraph (repC (v_chal S) (fc_of (v_alpha S) (v_fri_betas S) (v_pow S) (v_indices S))).
Proof. intros cd gates h cs sigmas ws salts vd witness S pr HT. exact (proj1 (fiat_shamir_ok cd gates h cs sigmas ws salts (CircuitDigest vd) witness vd eq_refl HT)). Qed.
Print Assumptions C64_transcript.
Theorem C64_complete : forall orders cd gates pis cs sigmas ws salts digest witness,
  (forall i, Permutation (orders i) gateRegexHandlers) -> Forall2 gate_text gates (map str (GateIds cd)) ->
  provable cd gates salts -> NumQueryRounds (cc_FriConfig (cd_Config cd)) = NumQueryRounds (fp_Config (cd_FriParams cd)) ->
  Forall reducible pis -> Forall inr_ pis -> inr_ digest -> canonZ witness ->
  let h := sponge g0 poseidon (map inj pis) 4 in
  satisfying cd gates h cs sigmas ws ->
  let S := fiat_shamir cd gates h cs sigmas ws salts digest witness in
  lucky cd sigmas ws (v_chal S) (v_fri_betas S) (v_pow S) (v_indices S) ->
  run (Define orders 192 cd (session_proof cd gates h cs sigmas ws salts witness S) pis (mkVerifierOnlyCircuitData (constants_cap cd cs sigmas salts) digest)) = Done tt.
Proof.
  intros orders cd gates pis cs sigmas ws salts digest witness HO HG HP EQ Rp Np Nd Hw h HS S LK.
  assert (Lh : length h = 4%nat) by (apply C20_output_count; lia).
  set (pr := session_proof cd gates h cs sigmas ws salts witness S). set (vd := mkVerifierOnlyCircuitData _ digest).
  pose proof (sent_proof_shape cd gates h cs sigmas ws salts HP HS Lh (v_chal S) (v_alpha S) (v_fri_betas S) (v_indices S) witness : proof_shape cd gates pr) as SH.
  pose proof (sent_native cd gates h cs sigmas ws salts (v_chal S) (v_alpha S) (v_fri_betas S) (v_indices S) witness pis digest Np Nd : native pr pis vd) as NA.
  apply (C52_honest orders cd gates pr pis vd HO HG (proj1 (proj1 HP)) SH NA).
  destruct (fiat_shamir_ok cd gates h cs sigmas ws salts digest witness vd eq_refl (shape_transcript cd gates pr (proj1 (proj1 HP)) SH)) as (TG & L1 & L2 & L3 & L4 & L5).
  fold S in TG, L1, L2, L3, L4, L5. fold pr in TG.
  assert (SZ : sized cd (v_chal S) (v_fri_betas S) (v_indices S)) by (unfold sized; rewrite <- EQ; auto).
  destruct (sent_fri_ok cd gates h cs sigmas ws salts HP HS Lh (v_chal S) (v_alpha S) (v_fri_betas S) (v_pow S) (v_indices S) witness SZ LK Hw) as [CP FO].
  destruct LK as (GB & Z1 & _). pose proof (sent_plonk cd gates h cs sigmas ws salts HP HS Lh (v_chal S) L1 L2 L3 GB Z1) as PO.
  assert (EO : injO (Openings pr) = sent_opens cd gates h cs sigmas ws (v_chal S)) by (unfold pr, session_proof, sent_proof; cbn [Openings]; apply injO_repO).
  split; [exact CP|]. split; [exact Rp|]. exists h, (v_chal S), (v_alpha S), (v_fri_betas S), (v_pow S), (v_indices S).
  split; [apply sponge_graph_is|]. split; [exact TG|]. rewrite EO. split; [exact PO|exact FO].
Qed.
Print Assumptions C64_complete.

(** ** Example: the circuit of C62_ex without public inputs; what is left is that the transcript is lucky *)
Lemma provable62 : provable cd62 g62 (fun _ _ => []).
Proof.
  split; [|split; [|split; [|split; [|split]]]].
  - split; [exact shape62_data|]. split; [reflexivity|]. split; [cbn; lia|]. split; [cbn; lia|]. repeat constructor.
  - split; [cbn; lia|]. intros [|j] Hj; [|cbn in Hj; lia]. cbn. lia.
  - cbn. lia.
  - vm_compute. congruence.
  - repeat split; cbn; lia.
  - intros o i _. split; [|constructor]. cbn. now rewrite Bool.andb_false_r.
Qed.
Lemma label62 c : In c (cells cd62) -> gcell cd62 sigmas62 c = label cd62 c.
Proof.
  destruct c as [k j]. intros I. apply in_prod_iff in I. destruct I as [_ I]. apply in_seq in I. cbn in I. assert (j = O) as -> by lia.
  unfold gcell, label. cbn [fst snd]. generalize (root (cd_DegreeBits cd62) ^ N.of_nat k)%GF. intros x. cbn [sigmas62 nth KIs cd62]. unfold gpeval. cbn [peval]. replace (inj 1) with g1 by (apply GF_eq; reflexivity). ring.
Qed.
Lemma satisfying62 h : length h = 4%nat -> satisfying cd62 g62 h cs62 sigmas62 ws62.
Proof.
  intros Lh. split; [repeat split|]. split; [repeat constructor; cbn; lia|]. split; [|split].
  - intros k Hk. exists O. split.
    + split; [cbn; lia|]. split; [cbn; lia|]. split; [cbn; lia|]. intros i Hi. destruct i as [|i]; [|cbn in Hi; lia].
      unfold grow. cbn [map cs62]. unfold gpeval. cbn [peval]. cbn. unfold kz. now rewrite <- g0_inj.
    + unfold grow. generalize (root (cd_DegreeBits cd62) ^ N.of_nat k)%GF. intros x.
      match goal with |- computes (EvalUnfiltered ?g (mkvars ?cs ?ws ?hh)) ?r => assert (C := gate_computes g cs ws hh); assert (E : map repK (gate_k g cs ws hh) = r) end.
      { cbn [nth g62 gate_k num_constraints repeat seq map]. unfold wire, cs62, ws62. cbn [map skipn length groups cd_SelectorsInfo cd62 nth Nat.mul Nat.add].
        unfold gpeval. cbn [peval]. change (0, 0) with (repK k0). do 2 f_equal. ring. }
      rewrite <- E. apply C; [|exact Lh]. cbn. lia.
  - erewrite map_ext_in; [apply Permutation_refl|]. exact label62.
  - intros s t Is It E. rewrite label62 in E by exact It. f_equal. 
    assert (N : NoDup (map (cell_label cd62 (map inj (KIs cd62))) (cells cd62))).
    { apply C61_labels; [cbn; lia|]. intros j j' Hj Hj'. cbn in Hj, Hj'. split; [|lia].
      destruct j as [|j]; try lia; intros X; apply (f_equal rep) in X; vm_compute in X; discriminate X. }
    apply (NoDup_inj _ _ N); [exact It|exact Is|]. now rewrite <- !label_emb, E.
Qed.
Lemma text62 : Forall2 gate_text g62 (map str (GateIds cd62)).
Proof.
  constructor; [|constructor]. apply (t_constant 1 (str "1")). split; [|reflexivity]. split; [discriminate|]. split; [|reflexivity].
  intros c [<-|[]]. vm_compute. split; discriminate.
Qed.
Example C64_ex : let h := sponge g0 poseidon [] 4 in let S := fiat_shamir cd62 g62 h cs62 sigmas62 ws62 (fun _ _ => []) 5 0 in
  lucky cd62 sigmas62 ws62 (v_chal S) (v_fri_betas S) (v_pow S) (v_indices S) ->
  run (Define (fun _ => gateRegexHandlers) 192 cd62 (session_proof cd62 g62 h cs62 sigmas62 ws62 (fun _ _ => []) 0 S) []
        (mkVerifierOnlyCircuitData (constants_cap cd62 cs62 sigmas62 (fun _ _ => [])) 5)) = Done tt.
Proof.
  apply (C64_complete (fun _ => gateRegexHandlers) cd62 g62 [] cs62 sigmas62 ws62 (fun _ _ => []) 5 0).
  - intros _. apply Permutation_refl.
  - exact text62.
  - exact provable62.
  - reflexivity.
  - constructor.
  - constructor.
  - split; [lia|reflexivity].
  - split; [lia|reflexivity].
  - apply satisfying62. apply C20_output_count. lia.
Qed.
