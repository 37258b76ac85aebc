(** * A lying prover against the whole verifier: any openings, any leaves, no witness.

    Like Honest and FriForge this is the prover's side, of which /repo contains nothing, in the
    data types of variables/. *)
From Coq Require Import String.
From Coq Require Import ZArith NArith Lia List Bool Ring Field Permutation.
From Verif Require Import Zp GF Circuit Goldilocks GLProofs ExtProofs PoseidonSpec Sponge DenP ChallengerProofs ChallengerPhases Transcript Prop_Poseidon Prop_Challenger PoseidonGLProofs BN254 BN254Hash Types Challenger Fri Poly Roots Interp FriMerkle FriEval FriQuery FriTop FriFacts Honest FriForge FriSound FriRewind FriExtract Prop_FriSound Prop_Fri
  Gates GateProofs GateCoset GateFilter GateAll GateDegree GateBase Prop_Gates Plonk PlonkProofs Prop_Plonk PlonkSound PlonkRows PlonkCopy Prop_PlonkSound Verifier VerifierProofs Prop_BN254 Prop_Verifier Prop_Forgery VerifierSound Prop_VerifierSound ProverPoly PlonkProver Complete.
Import ListNotations.
Open Scope Z_scope.
Local Opaque PoseidonBN HashOrNoop TwoToOne.

(** ** The polynomial through given points, by Newton's formula *)
Definition times_root (x : K) (d : list K) : list K := paddl kadd (k0 :: d) (pscale kmul (k0 - x)%K d).
Fixpoint newton (l : list (K * K)) : list K * list K :=
  match l with
  | [] => ([], [k1])
  | (x, y) :: l' => let (c, d) := newton l' in (paddl kadd c (pscale kmul ((y - kpeval c x) / kpeval d x)%K d), times_root x d)
  end.
Lemma kpeval_times x d z : kpeval (times_root x d) z = ((z - x) * kpeval d z)%K.
Proof. unfold times_root. rewrite kpaddl, kpscale. unfold kpeval at 1. cbn [peval]. fold (kpeval d z). ring. Qed.
Lemma newton_ok l : NoDup (map fst l) -> let (c, d) := newton l in
  (length c <= length l /\ length d <= S (length l))%nat /\ (forall x y, In (x, y) l -> kpeval c x = y) /\
  forall z, kpeval d z = k0 <-> In z (map fst l).
Proof.
  induction l as [|[x0 y0] l IH]; intros H; cbn [newton].
  - split; [split; reflexivity|]. split; [intros x y []|]. intros z. cbn [map In]. split; [|tauto].
    unfold kpeval. cbn [peval]. intros E. apply k1_neq_k0. transitivity (k1 + z * k0)%K; [ring|exact E].
  - cbn [map fst] in H. inversion H as [|? ? Hn Hd]; subst. specialize (IH Hd). destruct (newton l) as [c d]. destruct IH as ((Lc & Ld) & Ec & Ed).
    assert (Hz : kpeval d x0 <> k0) by (rewrite Ed; exact Hn). split; [split|split].
    + cbn [length]. apply paddl_len; [lia|]. unfold pscale. rewrite map_length. lia.
    + cbn [length]. unfold times_root. apply paddl_len; [cbn [length]; lia|]. unfold pscale. rewrite map_length. lia.
    + intros x y I. rewrite kpaddl, kpscale. destruct I as [I|I].
      * injection I as <- <-. field. exact Hz.
      * rewrite (proj2 (Ed x) (in_map fst l (x, y) I)), (Ec x y I). ring.
    + intros z. rewrite kpeval_times. cbn [map fst In]. split.
      * intros E. apply kmul_eq0 in E. destruct E as [E|E]; [left; symmetry; now apply ksub_eq0|right; now apply Ed].
      * intros [<-|I]; [ring|]. rewrite (proj2 (Ed z) I). ring.
Qed.

(** ** Openings that satisfy the equation at zeta *)
Lemma weighted_head x n z : weighted (x :: repeat k0 n) z = x.
Proof.
  unfold weighted. cbn [length]. rewrite repeat_length.
  assert (Z : forall l, ksum (map (fun j => nth j (x :: repeat k0 n) k0 * z ^ N.of_nat j)%K (map S l)) = k0).
  { induction l as [|j l IH]; cbn [map]; [reflexivity|]. match goal with |- ksum (?a :: ?t) = _ => change (ksum (a :: t)) with (a + ksum t)%K end. rewrite IH. cbn [nth].
    replace (nth j (repeat k0 n) k0) with k0 by (symmetry; clear; revert j; induction n as [|n IH]; intros [|j]; cbn; auto). ring. }
  cbn [seq map]. match goal with |- ksum (?a :: ?t) = _ => change (ksum (a :: t)) with (a + ksum t)%K end. rewrite <- seq_shift, Z.
  change (N.of_nat 0) with 0%N. rewrite kpow_0. cbn [nth]. ring.
Qed.
Lemma chunk_concat q (f : nat -> list K) : (forall i, length (f i) = q) -> forall n a i, (i < n)%nat ->
  chunk q i (flat_map f (seq a n)) = f (a + i)%nat.
Proof.
  intros L. unfold chunk. induction n as [|n IH]; intros a i Hi; [lia|]. cbn [seq flat_map]. destruct i as [|i].
  - cbn [Nat.mul skipn]. rewrite firstn_app, (L a), Nat.sub_diag, firstn_O, app_nil_r, <- (L a), firstn_all, Nat.add_0_r. reflexivity.
  - rewrite skipn_app, skipn_all2 by (rewrite (L a); cbn [Nat.mul]; lia). cbn [app]. rewrite (L a). replace (S i * q - q)%nat with (i * q)%nat by (cbn [Nat.mul]; lia).
    rewrite IH by lia. f_equal. lia.
Qed.
Lemma flat_map_len q (f : nat -> list K) : (forall i, length (f i) = q) -> forall l, length (flat_map f l) = (length l * q)%nat.
Proof. intros L. induction l as [|a l IH]; cbn [flat_map length]; [reflexivity|]. rewrite app_length, L, IH. reflexivity. Qed.

Section ForgeAll.
  (** [o]: the claimed openings for given challenges; the quotients among them are replaced.
      [leaves]: the leaves of the four oracles.  [S]: the positions where the queries should fall. *)
  Context (cd : CommonCircuitData) (gates : list Gate) (h : list GF) (leaves : nat -> Z -> list Z) (o : chalK -> opensK) (S : list Z).
  Notation params := (cd_FriParams cd).
  Notation nc := (NumChallenges (cd_Config cd)).
  Notation q := (QuotientDegreeFactor cd).
  Notation n := (LdeBits (cd_FriParams cd)).
  (** the quotient that makes the equation of challenge i true, as the first chunk *)
  Definition forged_quotient (c : chalK) (i : nat) : list K :=
    (weighted (vanishing_terms cd (map inj (KIs cd)) c (o c) (gate_sums cd gates (o c) h)) (emb (nth i (c_alphas c) g0)) / (zeta_n cd c - k1))%K :: repeat k0 (q - 1).
  Definition forged_opens (c : chalK) : opensK :=
    mkOpensK (o_cs (o c)) (o_sigmas (o c)) (o_ws (o c)) (o_zs (o c)) (o_zsn (o c)) (o_pps (o c)) (flat_map (forged_quotient c) (seq 0 nc)).
  Lemma forged_plonk c : (1 <= q)%nat -> zeta_n cd c <> k1 -> plonk_ok cd gates (forged_opens c) h c.
  Proof.
    intros Hq Hz. split.
    - intros E. apply Hz. unfold zeta_n. rewrite E. apply kpow_1_l.
    - intros i Hi. cbn [forged_opens o_qs]. rewrite (chunk_concat q); [|intros j; unfold forged_quotient; cbn [length]; rewrite repeat_length; lia|exact Hi].
      cbn [Nat.add]. unfold forged_quotient. rewrite weighted_head.
      change (vanishing_terms cd (map inj (KIs cd)) c (forged_opens c) (gate_sums cd gates (forged_opens c) h)) with (vanishing_terms cd (map inj (KIs cd)) c (o c) (gate_sums cd gates (o c) h)).
      generalize (weighted (vanishing_terms cd (map inj (KIs cd)) c (o c) (gate_sums cd gates (o c) h)) (emb (nth i (c_alphas c) g0))). intros v.
      field. intros E. apply Hz. now apply ksub_eq0.
  Qed.

  (** the codeword that is folded: through the combined leaves at the positions of S *)
  Definition forged_value (c : chalK) (alpha : K) (i : Z) : K :=
    combined (forged_trees leaves 4 n i) alpha (emb (dom g7 n i)) (fri_batches alpha (fri_points cd (c_zeta c)) (fri_values (forged_opens c))).
  Definition forged_word (c : chalK) (alpha : K) : list K :=
    pad (2 ^ fp_DegreeBits params) (fst (newton (map (fun i => (emb (dom g7 n i), forged_value c alpha i)) S))).
  Definition forged_proof (c : chalK) (alpha : K) (betas : list K) (indices : list GF) (witness : Z) : Proof_ :=
    let caps := forged_caps leaves 4 n in
    mkProof (nth 1 caps []) (nth 2 caps []) (nth 3 caps []) (repO (forged_opens c)) (forged_fri leaves 4 params (forged_word c alpha) betas indices witness).
  (** the verifier data with the cap of the first oracle *)
  Definition forged_data (digest : Z) : VerifierOnlyCircuitData := mkVerifierOnlyCircuitData (nth 0 (forged_caps leaves 4 n) []) digest.

  (** Which circuits: as in C62, but the rate may be 1 and nothing is said of satisfiability *)
  Definition forgeable : Prop :=
    circuit_shape cd gates /\ (length (groups (cd_SelectorsInfo cd)) <= cd_NumConstants cd /\ NumRoutedWires (cd_Config cd) <= NumWires (cd_Config cd))%nat /\
    Forall (fits (cd_NumConstants cd - length (groups (cd_SelectorsInfo cd))) (NumWires (cd_Config cd))) gates /\
    honest_params params (length (ReductionArityBits params)).
  (** Which openings: the right numbers of them *)
  Definition opens_sized (a : opensK) : Prop :=
    length (o_cs a) = cd_NumConstants cd /\ length (o_sigmas a) = NumRoutedWires (cd_Config cd) /\ length (o_ws a) = NumWires (cd_Config cd) /\
    length (o_zs a) = nc /\ length (o_zsn a) = nc /\ length (o_pps a) = (nc * NumPartialProducts cd)%nat.
  (** Which positions: at most 2^DegreeBits *)
  Definition positions : Prop := NoDup S /\ Forall (fun i => 0 <= i < 2 ^ Z.of_nat n) S /\ (length S <= 2 ^ fp_DegreeBits params)%nat.
  (** Which challenges: no division by zero, the proof of work is done, the queries fall into S *)
  Definition hit (c : chalK) (betas : list K) (pow : GF) (indices : list GF) : Prop :=
    zeta_n cd c <> k1 /\ betas_off g7 n betas /\ rep pow < 2 ^ (64 - Z.of_nat (ProofOfWorkBits (fp_Config params))) /\
    (forall i, In i S -> emb (dom g7 n i) <> c_zeta c /\ emb (dom g7 n i) <> (emb (root (cd_DegreeBits cd)) * c_zeta c)%K) /\
    Forall (fun x => In (rep x mod 2 ^ Z.of_nat n) S) indices.

  Context (HD : forgeable) (HL : leaves_ok leaves params (friOracles cd)) (HO : forall c, opens_sized (o c)) (HS : positions).
  Lemma forged_word_ok c alpha : length (forged_word c alpha) = (2 ^ fp_DegreeBits params)%nat /\
    forall i, In i S -> kpeval (forged_word c alpha) (emb (dom g7 n i)) = forged_value c alpha i.
  Proof.
    destruct HS as (ND & RS & LS). destruct HD as (_ & _ & _ & (_ & _ & _ & _ & _ & Hn)).
    unfold forged_word. generalize (forged_value c alpha). intros f.
    pose proof (newton_ok (map (fun i => (emb (dom g7 n i), f i)) S)) as N.
    destruct (newton _) as [w d]. cbn [fst]. destruct N as ((Lw & _) & Ew & _).
    - rewrite map_map. cbn [fst]. rewrite Forall_forall in RS. clear - Hn ND RS. induction ND as [|i S Hi ND IH]; cbn [map]; [constructor|].
      constructor; [|apply IH; intros j Hj; apply RS; now right]. intros I. apply in_map_iff in I. destruct I as (j & E & Hj).
      apply (f_equal fst) in E. cbn [emb fst] in E. apply (query_point_inj n) in E; [now subst|unfold TWO_ADICITY; lia|apply RS; now right|apply RS; now left].
    - rewrite map_length in Lw. split; [apply pad_length; lia|]. intros i Hi. rewrite pad_eval. apply Ew. apply in_map_iff. now exists i.
  Qed.
  Lemma opens_exist c : FriForge.polys_exist (friOracles cd) (flat_map snd (fri_points cd (c_zeta c))).
  Proof.
    apply Forall_forall. intros op Hop. unfold fri_points, Prop_Fri.layout in Hop. cbn [flat_map snd fst] in Hop. rewrite app_nil_r in Hop.
    rewrite !in_app_iff, !in_map_iff in Hop. unfold friOracles. unfold numPreprocessedPolys, sigmasRange, numZSPartialProductsPolys, numQuotientPolys. rewrite last_seq.
    repeat (destruct Hop as [Hop|Hop]); destruct Hop as (j & <- & Hj); apply in_seq in Hj; cbn [fst snd nth length NumPolys]; nia.
  Qed.
  Lemma forged_qs_len c : (1 <= q)%nat -> length (flat_map (forged_quotient c) (seq 0 nc)) = (nc * q)%nat.
  Proof. intros Hq. rewrite (flat_map_len q), seq_length; [reflexivity|]. intros j. unfold forged_quotient. cbn [length]. rewrite repeat_length. lia. Qed.
  Lemma forged_fri_ok c alpha betas pow indices witness :
    length betas = length (ReductionArityBits params) -> length indices = NumQueryRounds (fp_Config params) -> hit c betas pow indices -> canonZ witness ->
    let pr := forged_proof c alpha betas indices witness in
    canon_proof pr /\
    fri_ok params (friOracles cd) (fri_points cd (c_zeta c)) (fri_values (forged_opens c)) alpha betas pow indices
      [ConstantSigmasCap (forged_data 0); WiresCap pr; PlonkZsPartialProductsCap pr; QuotientPolysCap pr] (OpeningProof pr).
  Proof.
    intros Lb Li (Hz & Hb & Hp & Hoff & Hin) Hw pr. destruct HD as (_ & _ & _ & HF). rewrite <- Lb in HF. destruct (forged_word_ok c alpha) as [Lw Ew].
    rewrite Forall_forall in Hin.
    destruct (forged_ok leaves params (friOracles cd) (fri_points cd (c_zeta c)) (fri_values (forged_opens c)) alpha betas pow indices witness (forged_word c alpha) HF HL (opens_exist c) Lw Hb) as [CF FO].
    - intros x Hx. cbv zeta. apply Ew. now apply Hin.
    - intros x z polys Hx Hzp. destruct (Hoff _ (Hin x Hx)) as [O1 O2]. unfold fri_points in Hzp. destruct Hzp as [E|[E|[]]]; injection E as <- _; assumption.
    - exact Li.
    - exact Hp.
    - split; [|exact FO]. split; [apply canon_repO|]. split; [exact CF|exact Hw].
  Qed.
  Lemma forged_shape c alpha betas indices witness : proof_shape cd gates (forged_proof c alpha betas indices witness).
  Proof.
    destruct HD as (((C1 & C2 & C3 & C4 & C5 & C6) & C7 & C8) & (R1 & R2) & R3 & _). destruct (HO c) as (L1 & L2 & L3 & L4 & L5 & L6).
    split; [|split; [discriminate|split; [discriminate|]]].
    - unfold opening_lengths. cbn [forged_proof Openings repO forged_opens o_cs o_sigmas o_ws o_zs o_zsn o_pps o_qs Constants PlonkSigmas Types.Wires PlonkZs PlonkZsNext PartialProducts QuotientPolys].
      rewrite !map_length, L1, L2, L3, L4, L5, L6, forged_qs_len by exact C4. split; [repeat split; lia|exact R3].
    - cbn [forged_proof OpeningProof forged_fri CommitPhaseMerkleCaps]. eapply Forall_impl; [|apply caps_shape]. intros cap Hc ->. discriminate Hc.
  Qed.
  Lemma forged_native c alpha betas indices witness pis digest : Forall inr_ pis -> inr_ digest ->
    native (forged_proof c alpha betas indices witness) pis (forged_data digest).
  Proof.
    intros Hp Hg. split; [exact Hp|]. split; [exact Hg|]. cbn [forged_proof WiresCap PlonkZsPartialProductsCap QuotientPolysCap OpeningProof].
    assert (D : forall a, Forall inr_ (cap_of (forged_digest leaves a) (n - 4))) by (intros a; apply cap_range; intros i; apply HashOrNoop_range).
    split; [exact (D 1%nat)|]. split; [exact (D 2%nat)|]. split; [exact (D 3%nat)|].
    cbn [forged_fri CommitPhaseMerkleCaps]. generalize g7, n, (forged_word c alpha).
    induction betas as [|b bs IH]; intros s m w; cbn [commit_caps]; constructor; [|apply IH]. apply cap_range. intros i. apply HashOrNoop_range.
  Qed.

  (** ** Fiat-Shamir: the prover computes its own challenges, as in [fiat_shamir] of Complete *)
  Definition forged_session (digest witness : Z) : session :=
    let caps := forged_caps leaves 4 n in
    let (y1, s1) := ask (digits56 digest ++ map rep h ++ cap_elems (nth 1 caps [])) (nc + nc) (repeat g0 12) in
    let (betas, gammas) := (firstn nc y1, skipn nc y1) in
    let (alphas, s2) := ask (cap_elems (nth 2 caps [])) nc s1 in
    let (y3, s3) := ask (cap_elems (nth 3 caps [])) 2 s2 in
    let c := mkChalK betas gammas alphas (qeK y3) in
    let (y4, s4) := ask (openings_elems (repO (forged_opens c))) 2 s3 in
    let word := forged_word c (qeK y4) in
    let (ys, s5) := draw_betas (length (ReductionArityBits params)) g7 n word s4 in
    let (y5, _) := ask (flat_map qe_list (map repK (commit_final word (map qeK ys))) ++ [witness]) (1 + NumQueryRounds (cc_FriConfig (cd_Config cd))) s5 in
    mkSession c (qeK y4) (map qeK ys) (hd g0 y5) (tl y5).
  Definition forged_session_proof (witness : Z) (V : session) : Proof_ := forged_proof (v_chal V) (v_alpha V) (v_fri_betas V) (v_indices V) witness.
  Lemma forged_session_ok digest witness (V := forged_session digest witness) :
    transcript_gives cd (forged_session_proof witness V) (map rep h) (forged_data digest) pgraph (repC (v_chal V) (fc_of (v_alpha V) (v_fri_betas V) (v_pow V) (v_indices V))) /\
    length (c_betas (v_chal V)) = nc /\ length (c_gammas (v_chal V)) = nc /\ length (c_alphas (v_chal V)) = nc /\
    length (v_fri_betas V) = length (ReductionArityBits params) /\ length (v_indices V) = NumQueryRounds (cc_FriConfig (cd_Config cd)).
  Proof.
    assert (HT : transcript_shape nc (forged_session_proof witness V)) by exact (shape_transcript cd gates _ (proj1 HD) (forged_shape _ _ _ _ _)).
    subst V. unfold forged_session in *.
    pose proof (ask_phase (digits56 digest ++ map rep h ++ cap_elems (nth 1 (forged_caps leaves 4 n) [])) (nc + nc) (repeat g0 12)) as P1.
    destruct (ask _ (nc + nc) (repeat g0 12)) as [y1 s1]. cbn [fst snd] in P1.
    pose proof (ask_phase (cap_elems (nth 2 (forged_caps leaves 4 n) [])) nc s1) as P2.
    destruct (ask _ nc s1) as [y2 s2]. cbn [fst snd] in P2.
    pose proof (ask_phase (cap_elems (nth 3 (forged_caps leaves 4 n) [])) 2 s2) as P3.
    destruct (ask _ 2 s2) as [y3 s3]. cbn [fst snd] in P3.
    set (c := mkChalK (firstn nc y1) (skipn nc y1) y2 (qeK y3)) in *.
    pose proof (ask_phase (openings_elems (repO (forged_opens c))) 2 s3) as P4.
    destruct (ask _ 2 s3) as [y4 s4]. cbn [fst snd] in P4.
    set (word := forged_word c (qeK y4)) in *.
    pose proof (fun rest yss => draw_phases rest yss (length (ReductionArityBits params)) g7 n word s4) as P5.
    pose proof (draw_length (length (ReductionArityBits params)) g7 n word s4) as L5.
    destruct (draw_betas _ g7 n word s4) as [ys s5]. cbn [fst snd] in P5, L5.
    pose proof (ask_phase (flat_map qe_list (map repK (commit_final word (map qeK ys))) ++ [witness]) (1 + NumQueryRounds (cc_FriConfig (cd_Config cd))) s5) as P6.
    destruct (ask _ _ s5) as [y5 s6]. cbn [fst snd] in P6. cbn [v_chal v_alpha v_fri_betas v_pow v_indices] in *.
    unfold forged_session_proof in *. cbn [v_chal v_alpha v_fri_betas v_pow v_indices] in *.
    set (pr := forged_proof c (qeK y4) (map qeK ys) (tl y5) witness) in *.
    assert (PH : phases pgraph (transcript_phases nc (NumQueryRounds (cc_FriConfig (cd_Config cd))) (CircuitDigest (forged_data digest)) (map rep h) pr) zeros12 ([y1; y2; y3; y4] ++ ys ++ [y5])).
    { unfold transcript_phases. cbn [app phases]. exists y1, s1. eexists. split; [exact P1|]. split; [|reflexivity].
      exists y2, s2. eexists. split; [exact P2|]. split; [|reflexivity]. exists y3, s3. eexists. split; [exact P3|]. split; [|reflexivity].
      exists y4, s4. eexists. split; [exact P4|]. split; [|reflexivity]. apply P5. exists y5, s6, []. split; [exact P6|]. now split. }
    destruct (transcript_split pgraph _ _ _ _ _ _ okP_pgraph HT PH) as (z1 & z2 & z3 & z4 & bs & z5 & E & Lc & L1 & L2 & L3 & L4 & Lb & L6).
    cbn [app] in E. injection E as <- <- <- <- E. apply app_inj_tail in E. destruct E as [<- <-].
    split.
    - exists y1, y2, y3, y4, ys, y5. split; [exact PH|]. split; [exact Lc|].
      unfold repC, fc_of, c. cbn [PlonkBetas PlonkGammas PlonkAlphas PlonkZeta pc_FriChallenges FriAlpha FriBetas FriPowResponse FriQueryIndices c_betas c_gammas c_alphas c_zeta].
      rewrite <- !toQE_repK, <- map_toQE by assumption. repeat split; reflexivity.
    - unfold c. cbn [c_betas c_gammas c_alphas]. rewrite firstn_length, skipn_length, map_length. repeat split; try lia. destruct y5; cbn [length tl] in *; lia.
  Qed.
End ForgeAll.
