(** * Property C67: the lengths of the lists of openings matter, and the code does not check them. *)
From Coq Require Import String.
From Coq Require Import ZArith NArith Lia List Bool Ring Permutation.
From Verif Require Import Zp GF Circuit Goldilocks GLProofs ExtProofs PoseidonSpec Sponge DenP ChallengerProofs ChallengerPhases Transcript Prop_Poseidon Prop_Challenger PoseidonGLProofs BN254 BN254Hash Types Challenger Fri Poly Roots Interp FriMerkle FriEval FriQuery FriTop FriFacts Honest FriSound FriRewind FriExtract Prop_FriSound Prop_Fri
  Gates GateProofs GateCoset GateFilter GateAll GateDegree GateBase Prop_Gates Plonk PlonkProofs Prop_Plonk PlonkSound PlonkRows PlonkCopy Prop_PlonkSound Verifier VerifierProofs Prop_BN254 Prop_Verifier Prop_Forgery VerifierSound Prop_VerifierSound ProverPoly PlonkProver Complete Prop_Complete.
Import ListNotations.
Open Scope Z_scope.
Local Opaque PoseidonBN HashOrNoop TwoToOne.

(** ** C67
    fri/fri.go:63-74 makes one list of the openings, the constants, sigmas, wires, ... one after
    the other; plonk/plonk.go:121-206 uses the lists as they are in the proof.  Nothing compares their lengths with CommonCircuitData.  Move the borders by m:
    the first m sigmas are counted as constants, the first m wires as sigmas. *)
Definition resplit (m : nat) (cd : CommonCircuitData) : CommonCircuitData :=
  let k := cd_Config cd in
  mkCommonCircuitData (mkCircuitConfig (NumWires k - m) (NumRoutedWires k) (cc_NumConstants k) (UseBaseArithmeticGate k) (SecurityBits k) (NumChallenges k) (ZeroKnowledge k) (MaxQuotientDegreeFactor k) (cc_FriConfig k))
    (cd_FriParams cd) (GateIds cd) (cd_SelectorsInfo cd) (cd_DegreeBits cd) (QuotientDegreeFactor cd) (NumGateConstraints cd) (cd_NumConstants cd + m) (NumPublicInputs cd) (KIs cd) (NumPartialProducts cd).
Section Resplit.
  Context (m : nat) (cd : CommonCircuitData) (gates : list Gate) (h : list GF) (cs sigmas ws : list (list GF)) (salts : nat -> Z -> list Z).
  Definition cs_ : list (list GF) := cs ++ firstn m sigmas.
  Definition sigmas_ : list (list GF) := skipn m sigmas ++ firstn m ws.
  Definition ws_ : list (list GF) := skipn m ws.
  (** the products and quotients are those of the circuit with the moved borders *)
  Notation sub_zs c := (hz (resplit m cd) (map inj (KIs cd)) sigmas_ ws_ (c_betas c) (c_gammas c)).
  Notation sub_pps c := (hp (resplit m cd) (map inj (KIs cd)) sigmas_ ws_ (c_betas c) (c_gammas c)).
  Notation sub_qs c := (hq (resplit m cd) gates (map inj (KIs cd)) h cs_ sigmas_ ws_ (c_betas c) (c_gammas c) (c_alphas c)).
  (** the commitments have the borders of the circuit *)
  Definition moved_tables (c : chalK) : list (list (list GF)) := [cs ++ sigmas; ws; sub_zs c ++ sub_pps c; sub_qs c].
  Definition moved_opens (c : chalK) : opensK := sent_opens (resplit m cd) gates h cs_ sigmas_ ws_ c.
  Definition moved_caps (c : chalK) : list FriMerkleCap := honest_caps (moved_tables c) salts (LdeBits (cd_FriParams cd)).
  Definition moved_proof (c : chalK) (alpha : K) (betas : list K) (indices : list GF) (witness : Z) : Proof_ :=
    mkProof (nth 1 (moved_caps c) []) (nth 2 (moved_caps c) []) (nth 3 (moved_caps c) []) (repO (moved_opens c))
      (honest_fri (moved_tables c) salts (cd_FriParams cd) (fri_points cd (c_zeta c)) alpha betas indices witness).

  Context (HP : provable (resplit m cd) gates salts) (HS : satisfying (resplit m cd) gates h cs_ sigmas_ ws_) (Lh : length h = 4%nat).
  Context (L1 : length cs = cd_NumConstants cd) (L2 : length sigmas = NumRoutedWires (cd_Config cd)) (L3 : length ws = NumWires (cd_Config cd)).
  Lemma same_list : cs_ ++ sigmas_ ++ ws_ = cs ++ sigmas ++ ws.
  Proof. unfold cs_, sigmas_, ws_. rewrite <- !app_assoc, (app_assoc (firstn m sigmas)), !firstn_skipn. reflexivity. Qed.
  Notation L4 c := (hz_length (resplit m cd) (map inj (KIs cd)) sigmas_ ws_ (c_betas c) (c_gammas c)).
  Notation L5 c := (hp_length (resplit m cd) (map inj (KIs cd)) sigmas_ ws_ (c_betas c) (c_gammas c)).
  Notation L6 c := (hq_length (resplit m cd) gates (map inj (KIs cd)) h cs_ sigmas_ ws_ (c_betas c) (c_gammas c) (c_alphas c)).
  Lemma moved_openings c : open_batches (moved_tables c) (fri_points cd (c_zeta c)) = fri_values (moved_opens c).
  Proof.
    unfold open_batches, fri_points. cbn [map fst snd]. unfold fri_values, moved_opens, sent_opens, opened. cbn [o_cs o_sigmas o_ws o_zs o_zsn o_pps o_qs].
    rewrite (app_assoc (map _ (cols sigmas_))), (app_assoc (map _ (cols cs_))), <- (map_app _ (cols sigmas_)), <- (map_app _ (cols cs_)).
    replace (cols cs_ ++ cols sigmas_ ++ cols ws_) with (cols cs ++ cols sigmas ++ cols ws) by (unfold cols; rewrite <- !map_app; now rewrite same_list).
    unfold Prop_Fri.layout. cbn [fst snd]. rewrite !map_app, !map_map. unfold poly_of, moved_tables. cbn [fst snd nth].
    pose proof (L4 c) as L4. pose proof (L5 c) as L5. pose proof (L6 c) as L6. change (NumChallenges (cd_Config (resplit m cd))) with (NumChallenges (cd_Config cd)) in L4, L5, L6.
    change (NumPartialProducts (resplit m cd)) with (NumPartialProducts cd) in L5. change (QuotientDegreeFactor (resplit m cd)) with (QuotientDegreeFactor cd) in L6.
    change (KIs (resplit m cd)) with (KIs cd). change (cd_DegreeBits (resplit m cd)) with (cd_DegreeBits cd).
    pose proof (fun z => seg_polys [] cs sigmas z) as S1. pose proof (fun z => seg_polys_last cs sigmas z) as S2. pose proof (fun z => seg_polys_last [] ws z) as S3.
    pose proof (fun z => seg_polys [] (sub_zs c) (sub_pps c) z) as S4. pose proof (fun z => seg_polys_last (sub_zs c) (sub_pps c) z) as S5. pose proof (fun z => seg_polys_last [] (sub_qs c) z) as S6.
    cbn [app length] in S1, S2, S3, S4, S5, S6.
    rewrite L1 in S1, S2. rewrite L2 in S2. rewrite L3 in S3. rewrite L4 in S4, S5. rewrite L5 in S5. rewrite L6 in S6.
    rewrite S1, S2, S3, S4, S5, S6, S4. now rewrite <- !app_assoc.
  Qed.
  Lemma moved_in c : Forall (poly_in (moved_tables c)) (flat_map snd (fri_points cd (c_zeta c))).
  Proof.
    apply Forall_forall. intros op Hop. unfold fri_points, Prop_Fri.layout in Hop. cbn [flat_map snd fst] in Hop. rewrite app_nil_r in Hop.
    unfold poly_in, moved_tables. rewrite !in_app_iff, !in_map_iff in Hop.
    pose proof (L4 c) as L4. pose proof (L5 c) as L5. pose proof (L6 c) as L6. change (NumChallenges (cd_Config (resplit m cd))) with (NumChallenges (cd_Config cd)) in L4, L5, L6.
    change (NumPartialProducts (resplit m cd)) with (NumPartialProducts cd) in L5. change (QuotientDegreeFactor (resplit m cd)) with (QuotientDegreeFactor cd) in L6.
    repeat (destruct Hop as [Hop|Hop]); destruct Hop as (j & <- & Hj); apply in_seq in Hj; cbn [fst snd nth length]; rewrite ?app_length; lia.
  Qed.
  Lemma moved_tables_ok c : honest_tables (cd_FriParams cd) (friOracles cd) (moved_tables c) salts.
  Proof.
    destruct HS as (_ & B & _). rewrite same_list in B. change (cd_DegreeBits (resplit m cd)) with (cd_DegreeBits cd) in B.
    destruct HP as ((_ & Ed & _) & _ & _ & _ & _ & Hs). rewrite !Forall_app in B. destruct B as (B1 & B2 & B3).
    change (fp_DegreeBits (cd_FriParams cd) = cd_DegreeBits cd) in Ed.
    split; [reflexivity|]. rewrite Ed. split.
    - unfold moved_tables. repeat (apply Forall_cons || apply Forall_nil); rewrite ?Forall_app; repeat split; try assumption; [exact (hz_small (resplit m cd) _ _ _ _ _)|exact (hp_small (resplit m cd) _ _ _ _ _)|exact (hq_small (resplit m cd) _ _ _ _ _ _ _ _ _)].
    - intros o Ho. cbn [friOracles length] in Ho. cbv zeta. split.
      + pose proof (L4 c) as L4. pose proof (L5 c) as L5. pose proof (L6 c) as L6. change (NumChallenges (cd_Config (resplit m cd))) with (NumChallenges (cd_Config cd)) in L4, L5, L6.
        change (NumPartialProducts (resplit m cd)) with (NumPartialProducts cd) in L5. change (QuotientDegreeFactor (resplit m cd)) with (QuotientDegreeFactor cd) in L6.
        destruct o as [|[|[|[|o]]]]; try lia; unfold moved_tables, friOracles; cbn [nth NumPolys]; rewrite ?app_length.
        * unfold numPreprocessedPolys, sigmasRange. rewrite last_seq. lia.
        * exact L3.
        * rewrite L4, L5. unfold numZSPartialProductsPolys. lia.
        * rewrite L6. unfold numQuotientPolys. lia.
      + intros i. destruct (Hs o i Ho) as [S1 S2]. split; [|exact S2]. rewrite S1. destruct o as [|[|[|[|o]]]]; try lia; reflexivity.
  Qed.
  Lemma moved_lengths c alpha betas indices witness : opening_lengths cd gates (Openings (moved_proof c alpha betas indices witness)).
  Proof. exact (sent_lengths (resplit m cd) gates h cs_ sigmas_ ws_ salts HP HS Lh c alpha betas indices witness). Qed.
  Lemma moved_shape c alpha betas indices witness : proof_shape cd gates (moved_proof c alpha betas indices witness).
  Proof.
    split; [apply moved_lengths|]. split; [discriminate|]. split; [discriminate|]. cbn [moved_proof OpeningProof honest_fri CommitPhaseMerkleCaps].
    eapply Forall_impl; [|apply caps_shape]. intros cap Hc ->. discriminate Hc.
  Qed.
End Resplit.

(** If the circuit with the moved borders is satisfied, then the verifier of the original one,
    with its own verifier data, accepts a proof. *)
Theorem C67_resplit : forall m cd gates h cs sigmas ws salts digest c alpha betas pow indices witness,
  let cs' := cs ++ firstn m sigmas in let sigmas' := skipn m sigmas ++ firstn m ws in let ws' := skipn m ws in
  length cs = cd_NumConstants cd -> length sigmas = NumRoutedWires (cd_Config cd) -> length ws = NumWires (cd_Config cd) ->
  provable (resplit m cd) gates salts -> length h = 4%nat -> satisfying (resplit m cd) gates h cs' sigmas' ws' ->
  sized cd c betas indices -> lucky (resplit m cd) sigmas' ws' c betas pow indices -> canonZ witness ->
  run (VerifyWith cd gates (moved_proof m cd gates h cs sigmas ws salts c alpha betas indices witness) (map rep h) (repC c (fc_of alpha betas pow indices))
        (mkVerifierOnlyCircuitData (constants_cap cd cs sigmas salts) digest)) = Done tt.
Proof.
  intros m cd gates h cs sigmas ws salts digest c alpha betas pow indices witness cs' sigmas' ws' L1 L2 L3 HP Lh HS SZ LK Hw.
  pose proof SZ as (B1 & B2 & B3 & Lb & LI). pose proof LK as (GB & Z1 & BO & PW & OFF).
  pose proof (sent_plonk (resplit m cd) gates h cs' sigmas' ws' salts HP HS Lh c B1 B2 B3 GB Z1) as PO.
  change (plonk_ok cd gates (moved_opens m cd gates h cs sigmas ws c) h c) in PO.
  assert (CS : circuit_shape cd gates) by exact (proj1 (proj1 HP)).
  pose proof HP as (_ & _ & _ & _ & HF & _). change (cd_FriParams (resplit m cd)) with (cd_FriParams cd) in *. rewrite <- Lb in HF.
  destruct (honest_fri_ok (cd_FriParams cd) (friOracles cd) (moved_tables m cd gates h cs sigmas ws c) salts (fri_points cd (c_zeta c)) alpha betas pow indices witness HF
    (moved_tables_ok m cd gates h cs sigmas ws salts HP HS Lh L1 L2 L3 c) (moved_in m cd gates h cs sigmas ws Lh L1 L2 L3 c) BO) as [CF FO].
  { intros x z polys Hx Hz. destruct (OFF x Hx) as [O1 O2]. unfold fri_points in Hz. destruct Hz as [Hz|[Hz|[]]]; injection Hz as <- _; assumption. }
  { exact LI. }
  { exact PW. }
  rewrite (moved_openings m cd gates h cs sigmas ws L1 L2 L3 c) in FO.
  set (pr := moved_proof m cd gates h cs sigmas ws salts c alpha betas indices witness) in *. set (vd := mkVerifierOnlyCircuitData _ digest).
  assert (CP : canon_proof pr) by (split; [apply canon_repO|split; [exact CF|exact Hw]]).
  assert (EO : injO (Openings pr) = moved_opens m cd gates h cs sigmas ws c) by (unfold pr, moved_proof; cbn [Openings]; apply injO_repO).
  unfold VerifyWith. rewrite run_bind, (proj1 (range_proof_correct pr) CP). rewrite run_bind.
  pose proof (plonk_part cd gates pr CS (moved_shape m cd gates h cs sigmas ws salts HP HS Lh c alpha betas indices witness) h c (fc_of alpha betas pow indices) (proj1 CP) Lh B1 B2 B3) as PP.
  rewrite EO in PP. rewrite (proj1 PP PO).
  pose proof (fri_part cd gates pr vd CS (c_zeta c) alpha betas pow indices (proj1 CP) (proj1 (proj2 CP))) as FP. rewrite EO in FP.
  exact (proj1 FP FO).
Qed.
Print Assumptions C67_resplit.

(** ** C62 is false without its hypothesis on the lengths
    Eight rows with ConstantGates for the constants 4 + 6X; the sigmas connect every row to
    the next one, so the circuit cannot be satisfied.  There is one unused wire.  The prover
    commits to the wires X and 4 + 6X and opens the first one as a sigma. *)
Definition cd67 : CommonCircuitData :=
  mkCommonCircuitData (mkCircuitConfig 2 1 1 false 100 1 false 1 (mkFriConfig 1 4 0 1))
    (mkFriParams (mkFriConfig 1 4 0 1) false 3 []) ["ConstantGate { num_consts: 1 }"%string] (mkSelectorsInfo [O] [(0, 1)%nat]) 3 1 1 2 0 [1] 0.
Definition cs67 : list (list GF) := [[]; [inj 4; inj 6]].
Definition sigmas67 : list (list GF) := [[g0; root 3]].
Definition ws67 : list (list GF) := [[g0; g1]; [inj 4; inj 6]].
Definition tables67 : list (list (list GF)) := [cs67 ++ sigmas67; ws67; [[g1]]; [[]]].
Definition o67 (z : K) : opensK := opened cd67 (cols (cs67 ++ sigmas67)) (cols [[g0; g1]]) (cols [[inj 4; inj 6]]) (cols [[g1]]) [] (cols [[]]) z.
Definition vd67 : VerifierOnlyCircuitData := mkVerifierOnlyCircuitData (nth 0 (honest_caps tables67 (fun _ _ => []) 4) []) 0.
Definition T67 : coins := mkCoins (singles 9) (fun _ => singles 9) (fun _ _ => singles 3) (fun _ _ _ => map (fun a => (a, g1)) (small_ints 17))
  (fun _ => map emb (small_ints 8)) (fun _ _ _ => []).
Definition P67 : strategy :=
  let caps := honest_caps tables67 (fun _ _ => []) 4 in
  let word c alpha := honest_codeword tables67 (cd_FriParams cd67) alpha (fri_points cd67 (c_zeta c)) in
  mkStrategy (nth 1 caps []) (fun _ _ => nth 2 caps []) (fun _ _ _ => nth 3 caps []) (fun c => repO (o67 (c_zeta c)))
    (fun c alpha => honest_cap g7 4 (word c alpha)) (fun c alpha betas => map repK (commit_final (word c alpha) betas))
    (fun c alpha betas i => mkTranscript (honest_fri tables67 (fun _ _ => []) (cd_FriParams cd67) (fri_points cd67 (c_zeta c)) alpha betas (repeat (inj i) 1) 0) g0 (repeat (inj i) 1)).
Lemma shape67 b g a z : plonk_shape cd67 g62 [g1] (mkChalK [b] [g] [a] z) (o67 z) h61.
Proof.
  unfold plonk_shape. split; [|split].
  - split; [vm_compute; reflexivity|cbn; lia].
  - cbn. lia.
  - split; [split; [cbn; lia|]|].
    + intros i Hi. destruct i as [|i]; [|cbn in Hi; lia]. cbn. unfold p. lia.
    + split; [cbn; lia|]. split; [reflexivity|]. split; [|repeat constructor]. constructor; [|constructor]. split; cbn; lia.
Qed.
Lemma tms67 b g z : tms cd67 g62 [g1] h61 [b] [g] (emb (root 3)) (cols (cs67 ++ sigmas67)) (cols [[g0; g1]]) (cols [[inj 4; inj 6]]) (cols [[g1]]) [] z = [k0; k0; k0].
Proof.
  unfold sigmas67. generalize (root 3). intros r. unfold tms. generalize (L0 cd67 z). intros l.
  change (NumChallenges (cd_Config cd67)) with 1%nat. cbn [seq map concat app].
  unfold v_pps. change (NumPartialProducts cd67) with 0%nat. change (QuotientDegreeFactor cd67) with 1%nat. change (NumRoutedWires (cd_Config cd67)) with 1%nat.
  cbn [seq map Nat.add app]. unfold pp_k, accs_k, seg, chunk_prod, opn, opens_at, evals, cols. cbn [o_zs o_zsn o_pps map nth app skipn firstn Nat.mul Nat.add seq Nat.max].
  unfold v_num, v_den, v_beta, v_gamma, chal. cbn [c_betas c_gammas c_zeta o_ws o_sigmas nth map].
  unfold gcons. change (NumGateConstraints cd67) with 1%nat. unfold gate_outs, evals, g62. cbn [map seq total gate_k].
  unfold wire, flt, filter_k, kprod, cs67. change (ns (cd_SelectorsInfo cd67)) with 1%nat. cbn [Nat.ltb Nat.leb].
  cbn [map seq nth skipn Nat.mul Nat.add fold_right app]. unfold kpeval. cbn [peval].
  change (emb g1) with k1. change (emb g0) with k0.
  f_equal; [ring|]. f_equal; [ring|]. f_equal. ring.
Qed.
Lemma plonk67 b g a z fc : snd z = g1 -> sat (PlonkVerify cd67 g62 (repC (mkChalK [b] [g] [a] z) fc) (repO (o67 z)) (map rep h61)).
Proof.
  intros Hz. change (o67 z) with (opens_at (emb (root (cd_DegreeBits cd67))) (cols (cs67 ++ sigmas67)) (cols [[g0; g1]]) (cols [[inj 4; inj 6]]) (cols [[g1]]) [] (cols [[]]) z).
  apply (proj2 (verify_equation cd67 g62 [g1] h61 [b] [g] [a] (emb (root (cd_DegreeBits cd67))) (cols (cs67 ++ sigmas67)) (cols [[g0; g1]]) (cols [[inj 4; inj 6]]) (cols [[g1]]) [] (cols [[]]) fc z (shape67 b g a z))).
  split.
  - intros ->. apply (f_equal rep) in Hz. vm_compute in Hz. discriminate Hz.
  - intros i Hi. change (cd_DegreeBits cd67) with 3%nat. rewrite (tms67 b g z). unfold quot, seg, evals. destruct i as [|i]; [|cbn in Hi; lia].
    change (QuotientDegreeFactor cd67) with 1%nat. cbn [Nat.mul Nat.add firstn skipn map powers_sum cols]. unfold kpeval. cbn [peval]. ring.
Qed.
Lemma data67 : sound_data cd67 g62.
Proof.
  split; [|split; [reflexivity|]; split; [cbn; lia|]; split; [cbn; lia|]; constructor; [|constructor]; split; cbn; lia].
  split; [split; [repeat constructor; vm_compute; congruence|cbn; lia]|]. split; [|repeat constructor].
  split; [cbn; lia|]. intros i Hi. destruct i as [|i]; [|cbn in Hi; lia]. cbn. unfold p. lia.
Qed.
Lemma wins67 c alpha betas i : drawn T67 c -> drawn_fri cd67 T67 c alpha betas i -> wins cd67 g62 h61 vd67 P67 c alpha betas i.
Proof.
  intros (D1 & D2 & D3 & D4) (Ia & Lb & _ & Hi). destruct betas as [|b' betas]; [|discriminate Lb]. destruct c as [b g a z]. cbn [c_betas c_gammas c_alphas c_zeta T67 k_betas k_gammas k_alphas k_zetas] in D1, D2, D3, D4.
  apply in_map_iff in D1, D2, D3, D4. destruct D1 as (b0 & <- & _), D2 as (g0' & <- & _), D3 as (a0 & <- & _), D4 as (z0 & <- & _). set (z := (z0, g1) : K).
  assert (NZ : forall a : GF, rep a <> 0 -> a <> g0) by (intros x H E; apply H; now rewrite E).
  assert (OFF : forall x y : GF, y <> g0 -> emb x <> (emb y * z)%K).
  { intros x y Hy E. apply Hy. apply (f_equal snd) in E. unfold emb, kmul, z in E. cbn [fst snd] in E. rewrite E. ring. }
  assert (AC : accepted (cd_FriParams cd67) (friOracles cd67) (fri_points cd67 z) (open_batches tables67 (fri_points cd67 z)) (honest_caps tables67 (fun _ _ => []) 4) alpha []
    (caps_along (honest_cap g7 4 (honest_codeword tables67 (cd_FriParams cd67) alpha (fri_points cd67 z))) [] [])
    (map repK (commit_final (honest_codeword tables67 (cd_FriParams cd67) alpha (fri_points cd67 z)) [])) i
    (mkTranscript (honest_fri tables67 (fun _ _ => []) (cd_FriParams cd67) (fri_points cd67 z) alpha [] (repeat (inj i) 1) 0) g0 (repeat (inj i) 1))).
  { apply (C59_honest (cd_FriParams cd67) (friOracles cd67) tables67 (fun _ _ => []) (fri_points cd67 z) alpha [] g0 0 i).
    - unfold honest_params. cbn. repeat split; lia.
    - split; [reflexivity|]. split.
      + repeat (apply Forall_cons || apply Forall_nil); vm_compute; lia.
      + intros o Ho. cbn [friOracles length] in Ho. split; [destruct o as [|[|[|[|o]]]]; try lia; reflexivity|]. intros j. split; [destruct o as [|[|[|[|o]]]]; try lia; reflexivity|apply Forall_nil].
    - discriminate.
    - repeat (apply Forall_cons || apply Forall_nil); split; vm_compute; lia.
    - exact I.
    - cbn. lia.
    - exact Hi.
    - intros z' polys Hz. destruct Hz as [Hz|[Hz|[]]]; apply (f_equal fst) in Hz; cbn [fst] in Hz; subst z'.
      + replace z with (emb g1 * z)%K by (change (emb g1) with k1; ring). apply OFF. apply NZ. vm_compute. discriminate.
      + apply OFF. apply NZ. vm_compute. discriminate.
    - vm_compute. reflexivity. }
  destruct AC as (A1 & A2 & A3 & A4 & A5 & A6). unfold wins. cbv zeta.
  split; [exact A1|]. split; [exact A2|]. split; [exact A3|]. split; [exact A5|].
  set (t := s_answer P67 _ alpha [] i) in *.
  set (pr := proof_of P67 (mkChalK [b0] [g0'] [a0] z) t).
  assert (C1 : canon_openings (Openings pr)) by apply canon_repO.
  apply (with_sat cd67 g62 pr).
  - split; [exact C1|]. split; [exact A4|]. split; vm_compute; congruence.
  - apply plonk67. reflexivity.
  - apply (enforces_sat _ _ _ (fri_part cd67 g62 pr vd67 (proj1 data67) z alpha [] (t_pow t) (t_indices t) C1 A4)).
    apply (enforces_sat _ _ _ (verify_fri_correct (cd_FriParams cd67) (friOracles cd67) (fri_points cd67 z) (fri_values (injO (Openings pr))) alpha [] (t_pow t) (t_indices t)
      [ConstantSigmasCap vd67; WiresCap pr; PlonkZsPartialProductsCap pr; QuotientPolysCap pr] (OpeningProof pr) A4 ltac:(discriminate) eq_refl)).
    change (Openings pr) with (repO (o67 z)). rewrite injO_repO. exact A6.
Qed.
Lemma enough67 : enough cd67 2 0 T67.
Proof.
  unfold enough, T67. cbn [k_betas k_gammas k_alphas k_zetas k_fri_alphas k_fri_betas].
  assert (L1 : forall m b, In b (singles m) -> length b = 1%nat) by (intros m b H; apply in_map_iff in H; destruct H as (x & <- & _); reflexivity).
  repeat match goal with |- _ /\ _ => split end.
  - apply singles_NoDup. lia.
  - rewrite singles_length. cbn. lia.
  - intros b Hb. split; [now apply (L1 9%nat)|]. split; [apply singles_NoDup; lia|]. rewrite singles_length. cbn. lia.
  - intros b g Hb Hg. split; [now apply (L1 9%nat)|]. split; [cbn; lia|]. split; [apply singles_NoDup; lia|]. rewrite singles_length. cbn. lia.
  - intros b g a Hb Hg Ha. split; [now apply (L1 3%nat)|]. split.
    + apply NoDup_map_in; [intros x y _ _ E; now injection E|]. apply small_ints_NoDup. lia.
    + rewrite map_length. unfold small_ints. rewrite map_length, seq_length. cbn. lia.
  - intros c Hc. split; [apply NoDup_map_in; [intros x y _ _; apply emb_inj|apply small_ints_NoDup; lia]|]. split.
    + rewrite map_length. unfold small_ints. rewrite map_length, seq_length. reflexivity.
    + intros alpha pre _ H. cbn in H. lia.
Qed.
(** a polynomial with the values of a short one on the domain is that one *)
Lemma on_domain f q : (length f <= 9)%nat -> (length q <= 9)%nat -> (forall i, 0 <= i < 16 -> rep (gpeval f (dom g7 4 i)) = rep (gpeval q (dom g7 4 i))) -> forall x, gpeval f x = gpeval q x.
Proof.
  intros Lf Lq H x. apply emb_inj. rewrite <- !kpeval_emb.
  apply (kpeval_same 4 (all_indices 4)); [unfold TWO_ADICITY; lia|apply all_indices_positions|rewrite map_length; cbn; lia|rewrite map_length; cbn; lia|].
  intros i Hi. rewrite !kpeval_emb. f_equal. apply GF_eq. apply H. exact (proj1 (all_indices_in 4 i) Hi).
Qed.
Theorem C67_refuted : exists cd gates h vd T P E e,
  sound_data cd gates /\ degree_bound cd gates E /\ enough cd E e T /\ length h = 4%nat /\
  (forall c alpha betas i, drawn T c -> drawn_fri cd T c alpha betas i -> wins cd gates h vd P c alpha betas i) /\
  no_collision (hashed cd T P) /\
  ~ exists cs sigmas ws : list (list GF),
    (length cs = cd_NumConstants cd /\ length sigmas = NumRoutedWires (cd_Config cd) /\ length ws = NumWires (cd_Config cd)) /\
    Forall (fun f => length f <= 2 ^ cd_DegreeBits cd + 1)%nat (cs ++ sigmas ++ ws) /\
    (forall c alpha betas i, drawn T c -> drawn_fri cd T c alpha betas i ->
       let trees := InitialTreesProof (first_round (s_answer P c alpha betas i)) in
       let values ps := map (fun f => rep (gpeval f (dom g7 (LdeBits (cd_FriParams cd)) i))) ps in
       firstn (cd_NumConstants cd + NumRoutedWires (cd_Config cd)) (Elements (nth 0 trees no_eval)) = values (cs ++ sigmas)) /\
    (forall k j, selects (cd_SelectorsInfo cd) (length gates) (map emb (grow cd cs k)) j ->
       computes (EvalUnfiltered (nth j gates NoopGate) (mkvars (skipn (length (groups (cd_SelectorsInfo cd))) (map emb (grow cd cs k))) (map emb (grow cd ws k)) h))
                (repeat (0, 0) (num_constraints (nth j gates NoopGate)))) /\
    (NoDup (map (cell_label cd (map inj (KIs cd))) (cells cd)) ->
     forall s t, In s (cells cd) -> In t (cells cd) ->
       gcell cd sigmas t = (nth (snd s) (map inj (KIs cd)) g0 * root (cd_DegreeBits cd) ^ N.of_nat (fst s))%GF -> gcell cd ws t = gcell cd ws s).
Proof.
  exists cd67, g62, h61, vd67, T67, P67, 2%nat, 0%nat.
  split; [exact data67|]. split; [split; [cbn; lia|]; intros [|j] Hj; [|cbn in Hj; lia]; cbn; lia|]. split; [exact enough67|]. split; [reflexivity|]. split; [exact wins67|].
  split; [intros a b (c & alpha & betas & i & _ & (_ & Lb & _) & Ha); exfalso; destruct betas as [|b' betas]; [|discriminate Lb]; exact Ha|].
  intros (cs & sigmas & ws & (L1 & L2 & L3) & LF & LV & GA & CO).
  destruct cs as [|c0 [|c1 [|? ?]]]; try discriminate L1. destruct sigmas as [|s0 [|? ?]]; try discriminate L2. destruct ws as [|w0 [|w1 [|? ?]]]; try discriminate L3.
  set (c := mkChalK [inj 2] [inj 2] [inj 2] (inj 2, g1)).
  assert (I2 : forall m, (1 <= m)%nat -> In (inj 2) (small_ints m)).
  { intros m Hm. apply in_map_iff. exists O. split; [reflexivity|]. apply in_seq. lia. }
  assert (D : drawn T67 c).
  { unfold drawn, c, T67. cbn [c_betas c_gammas c_alphas c_zeta k_betas k_gammas k_alphas k_zetas]. unfold singles.
    repeat split; [apply (in_map (fun a => [a])), I2; lia|apply (in_map (fun a => [a])), I2; lia|apply (in_map (fun a => [a])), I2; lia|apply (in_map (fun a => (a, g1))), I2; lia]. }
  assert (V : forall i, 0 <= i < 16 -> map (fun f => rep (gpeval f (dom g7 4 i))) [[]; [inj 4; inj 6]; [g0; root 3]] = map (fun f => rep (gpeval f (dom g7 4 i))) [c0; c1; s0]).
  { intros i Hi. assert (R : drawn_fri cd67 T67 c (emb (inj 2)) [] i).
    { split; [apply in_map, I2; lia|]. split; [reflexivity|]. split; [exact I|exact Hi]. }
    pose proof (LV c (emb (inj 2)) [] i D R) as E. cbv zeta in E. etransitivity; [|exact E].
    assert (Ri : rep (inj i) mod 2 ^ Z.of_nat 4 = i).
    { rewrite rep_inj_small by (unfold p; lia). change (2 ^ Z.of_nat 4) with 16. now apply Z.mod_small. }
    transitivity (map (fun f => rep (gpeval f (dom g7 4 (rep (inj i) mod 2 ^ Z.of_nat 4)))) [[]; [inj 4; inj 6]; [g0; root 3]]); [now rewrite Ri|reflexivity]. }
  clear LV. cbn [app] in LF. change (2 ^ cd_DegreeBits cd67 + 1)%nat with 9%nat in LF.
  inversion_clear LF as [|? ? F0 LF']. inversion_clear LF' as [|? ? F1 LF'']. inversion_clear LF'' as [|? ? F2 _].
  cbn [map] in V.
  assert (V0 : forall x, gpeval c0 x = gpeval [] x) by (apply on_domain; [exact F0|cbn; lia|]; intros i Hi; pose proof (V i Hi) as E; symmetry; exact (f_equal (fun l => nth 0 l 0) E)).
  assert (V1 : forall x, gpeval c1 x = gpeval [inj 4; inj 6] x) by (apply on_domain; [exact F1|cbn; lia|]; intros i Hi; pose proof (V i Hi) as E; symmetry; exact (f_equal (fun l => nth 1 l 0) E)).
  assert (V2 : forall x, gpeval s0 x = gpeval [g0; root 3] x) by (apply on_domain; [exact F2|cbn; lia|]; intros i Hi; pose proof (V i Hi) as E; symmetry; exact (f_equal (fun l => nth 2 l 0) E)).
  clear V. 
  assert (W : forall k, gpeval w0 (root 3 ^ N.of_nat k)%GF = (inj 4 + inj 6 * (root 3 ^ N.of_nat k))%GF).
  { intros k. pose proof (GA k 0%nat) as G. unfold grow in G. change (cd_DegreeBits cd67) with 3%nat in G. revert G. generalize (root 3 ^ N.of_nat k)%GF. intros x G. cbn [map] in G. rewrite V0, V1 in G.
    match type of G with _ -> computes (EvalUnfiltered ?g (mkvars ?cs ?ws ?hh)) ?r => assert (C := gate_computes g cs ws hh) end.
    assert (S : selects (cd_SelectorsInfo cd67) (length g62) [emb (gpeval [] x); emb (gpeval [inj 4; inj 6] x)] 0%nat).
    { split; [cbn; lia|]. split; [cbn; lia|]. split; [cbn; lia|]. intros i Hi. destruct i as [|i]; [|cbn in Hi; lia]. unfold gpeval. cbn [peval]. cbn. unfold kz. now rewrite <- g0_inj. }
    specialize (G S). match type of C with ?A -> ?B -> _ => assert (A1 : A) by (split; cbn; lia); specialize (C A1 eq_refl) end.
    pose proof (computes_functional _ _ _ G C) as Q. cbn [nth g62 gate_k num_constraints repeat seq map skipn length groups cd_SelectorsInfo cd67] in Q. unfold wire in Q. cbn [nth Nat.add Nat.mul] in Q.
    apply (f_equal (hd (0, 0))) in Q. cbn [hd] in Q. change (0, 0) with (repK k0) in Q. apply repK_inj in Q. unfold gpeval in Q. cbn [peval] in Q. rewrite <- ?emb_sub in Q. change k0 with (emb g0) in Q. apply emb_inj in Q.
    fold (gpeval w0 x) in Q. transitivity (inj 4 + inj 6 * x - g0)%GF; [|ring]. rewrite Q. ring. }
  assert (X := CO). specialize (X ltac:(apply C61_labels; [cbn; lia|]; intros j j' Hj Hj'; cbn in Hj, Hj'; split; [destruct j; [|lia]; intros X'; apply (f_equal rep) in X'; vm_compute in X'; discriminate X'|lia])).
  specialize (X (1, 0)%nat (0, 0)%nat ltac:(vm_compute; tauto) ltac:(vm_compute; tauto)).
  unfold gcell in X. cbn [fst snd nth] in X. change (cd_DegreeBits cd67) with 3%nat in X. rewrite V2, !W in X. unfold gpeval in X. cbn [peval] in X.
  assert (Y : (inj 4 + inj 6 * root 3 ^ N.of_nat 0)%GF = (inj 4 + inj 6 * root 3 ^ N.of_nat 1)%GF) by (apply X; apply GF_eq; vm_compute; reflexivity).
  apply (f_equal rep) in Y. vm_compute in Y. discriminate Y.
Qed.
Print Assumptions C67_refuted.

(** ** Example for C67_resplit: the same circuit, which has no satisfying assignment *)
Lemma resplit67 h : length h = 4%nat -> satisfying (resplit 1 cd67) g62 h (cs67 ++ sigmas67) [[g0; g1]] [[inj 4; inj 6]].
Proof.
  intros Lh. destruct (satisfying62 h Lh) as (_ & _ & _ & PE & CO).
  split; [repeat split|]. split; [repeat constructor; cbn; lia|]. split; [|split; [exact PE|exact CO]].
  intros k Hk. exists O. split.
  - split; [cbn; lia|]. split; [cbn; lia|]. split; [cbn; lia|]. intros i Hi. destruct i as [|i]; [|cbn in Hi; lia].
    unfold grow. cbn [map cs67 app sigmas67]. unfold gpeval. cbn [peval nth]. cbn [selector_of cd_SelectorsInfo resplit cd67 selectorIndices nth]. rewrite g0_inj. reflexivity.
  - unfold grow. unfold sigmas67. generalize (root 3) (root (cd_DegreeBits (resplit 1 cd67)) ^ N.of_nat k)%GF. intros r x.
    match goal with |- computes (EvalUnfiltered ?g (mkvars ?cs ?ws ?hh)) ?r => assert (C := gate_computes g cs ws hh); assert (E : map repK (gate_k g cs ws hh) = r) end.
    { cbn [nth g62 gate_k num_constraints repeat seq map]. unfold wire, cs67. cbn [map app skipn length groups cd_SelectorsInfo resplit cd67 nth Nat.mul Nat.add].
      unfold gpeval. cbn [peval]. change (0, 0) with (repK k0). do 2 f_equal. ring. }
    rewrite <- E. apply C; [|exact Lh]. cbn. lia.
Qed.
Lemma provable67 : provable (resplit 1 cd67) g62 (fun _ _ => []).
Proof.
  split; [|split; [|split; [|split; [|split]]]].
  - split; [exact (proj1 data67)|]. split; [reflexivity|]. split; [cbn; lia|]. split; [cbn; lia|]. constructor; [|constructor]. split; cbn; lia.
  - split; [cbn; lia|]. intros [|j] Hj; [|cbn in Hj; lia]. cbn. lia.
  - cbn. lia.
  - vm_compute. congruence.
  - repeat split; cbn; lia.
  - intros o i _. split; [|constructor]. cbn. now rewrite Bool.andb_false_r.
Qed.
Definition c67 : chalK := mkChalK [inj 2] [inj 1001] [inj 5] (inj 11, g1).
Lemma lucky67 : lucky (resplit 1 cd67) [[g0; g1]] [[inj 4; inj 6]] c67 [] (inj 13) [inj 77].
Proof.
  assert (NE : forall x a b, rep b <> 0 -> emb x <> (a, b)) by (intros x a b Hb E; injection E as _ E; apply Hb; now rewrite <- E).
  split; [|split; [|split; [|split]]].
  - assert (B : forallb (fun c => negb (Z.eqb (rep (gcell (resplit 1 cd67) [[inj 4; inj 6]] c + inj 2 * gcell (resplit 1 cd67) [[g0; g1]] c + inj 1001)%GF) 0)) (cells (resplit 1 cd67)) = true) by (vm_compute; reflexivity).
    intros i c Hi Hc E. destruct i as [|i]; [|cbn in Hi; lia]. cbn [c67 c_betas c_gammas nth] in E. apply (proj1 (forallb_forall _ _) B) in Hc. rewrite E in Hc. discriminate Hc.
  - intros E. injection E as _ E. discriminate E.
  - exact I.
  - vm_compute. reflexivity.
  - intros x _ y. split; [apply NE; vm_compute; discriminate|]. unfold y, c67. cbn [c_zeta]. intros E.
    assert (E2 : g0 = (root 3 * g1)%GF) by (apply (f_equal snd) in E; now rewrite snd_emb_mul in E).
    apply (f_equal rep) in E2. vm_compute in E2. discriminate E2.
Qed.
Example C67_ex : forall alpha digest,
  run (VerifyWith cd67 g62 (moved_proof 1 cd67 g62 h61 cs67 sigmas67 ws67 (fun _ _ => []) c67 alpha [] [inj 77] 6) (map rep h61) (repC c67 (fc_of alpha [] (inj 13) [inj 77]))
    (mkVerifierOnlyCircuitData (constants_cap cd67 cs67 sigmas67 (fun _ _ => [])) digest)) = Done tt /\
  forall ws, ~ satisfying cd67 g62 h61 cs67 sigmas67 ws.
Proof.
  intros alpha digest. split.
  - apply C67_resplit; [reflexivity|reflexivity|reflexivity|exact provable67|reflexivity|exact (resplit67 h61 eq_refl)|repeat split|exact lucky67|split; [lia|reflexivity]].
  - intros ws ((_ & _ & L3) & _ & GA & _ & CO). destruct ws as [|w0 [|w1 [|? ?]]]; try discriminate L3.
    assert (W : forall k, (k < 8)%nat -> gpeval w0 (root 3 ^ N.of_nat k)%GF = (inj 4 + inj 6 * (root 3 ^ N.of_nat k))%GF).
    { intros k Hk. destruct (GA k Hk) as (j & Sj & G). destruct j as [|j]; [|destruct Sj as (Sj & _); cbn in Sj; lia]. unfold grow in G. change (cd_DegreeBits cd67) with 3%nat in G. revert G. generalize (root 3 ^ N.of_nat k)%GF. intros x G. cbn [map cs67] in G.
      match type of G with computes (EvalUnfiltered ?g (mkvars ?cs ?ws ?hh)) ?r => assert (C := gate_computes g cs ws hh) end.
      match type of C with ?A -> ?B -> _ => assert (A1 : A) by (split; cbn; lia); specialize (C A1 eq_refl) end.
      pose proof (computes_functional _ _ _ G C) as Q. cbn [nth g62 gate_k num_constraints repeat seq map skipn length groups cd_SelectorsInfo cd67] in Q. unfold wire in Q. cbn [nth Nat.add Nat.mul] in Q.
      apply (f_equal (hd (0, 0))) in Q. cbn [hd] in Q. change (0, 0) with (repK k0) in Q. apply repK_inj in Q. unfold gpeval in Q. cbn [peval] in Q. rewrite <- ?emb_sub in Q. change k0 with (emb g0) in Q. apply emb_inj in Q.
      fold (gpeval w0 x) in Q. transitivity (inj 4 + inj 6 * x - g0)%GF; [|ring]. rewrite Q. ring. }
    specialize (CO (1, 0)%nat (0, 0)%nat ltac:(vm_compute; tauto) ltac:(vm_compute; tauto)).
    unfold gcell in CO. cbn [fst snd nth] in CO. change (cd_DegreeBits cd67) with 3%nat in CO. rewrite !W in CO by lia.
    assert (Y : (inj 4 + inj 6 * root 3 ^ N.of_nat 0)%GF = (inj 4 + inj 6 * root 3 ^ N.of_nat 1)%GF) by (apply CO; apply GF_eq; vm_compute; reflexivity).
    apply (f_equal rep) in Y. vm_compute in Y. discriminate Y.
Qed.
