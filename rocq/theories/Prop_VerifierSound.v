(** * Property C62: a prover who convinces the verifier in all rewound runs knows a satisfying assignment. *)
From Coq Require Import String.
From Coq Require Import ZArith NArith Lia List Bool Ring.
From Verif Require Import Zp GF Circuit Goldilocks GLProofs ExtProofs PoseidonGLProofs BN254 BN254Hash Types Challenger Fri Poly Roots Interp FriMerkle FriEval FriQuery FriTop FriFacts Honest FriSound FriRewind FriExtract Prop_FriSound Prop_Fri
  Gates GateProofs GateCoset GateFilter GateAll GateDegree Prop_Gates Plonk PlonkProofs Prop_Plonk PlonkSound PlonkRows PlonkCopy Prop_PlonkSound Verifier VerifierProofs VerifierSound.
Import ListNotations.
Open Scope Z_scope.
Local Opaque PoseidonBN HashOrNoop TwoToOne.

(** ** C62
    [VerifyWith] is Verify without the computation of the hash of the public inputs and of the challenges. *)
Theorem C62_link : forall w cd gates pr pis vd, sat (Verify w cd gates pr pis vd) <->
  exists h ch, reach (GetPublicInputsHash w pis) h /\ reach (GetChallenges w cd pr h vd) ch /\ sat (VerifyWith cd gates pr h ch vd).
Proof.
  intros w cd gates pr pis vd. unfold Verify, VerifyWith. split.
  - intros [u R]. apply reach_bind in R. destruct R as (u1 & R1 & R). apply reach_bind in R. destruct R as (h & R2 & R). apply reach_bind in R. destruct R as (ch & R3 & R).
    exists h, ch. split; [exact R2|]. split; [exact R3|]. exists u. apply reach_bind. exists u1. now split.
  - intros (h & ch & R2 & R3 & u & R). apply reach_bind in R. destruct R as (u1 & R1 & R). exists u. apply reach_bind. exists u1. split; [exact R1|].
    apply reach_bind. exists h. split; [exact R2|]. apply reach_bind. exists ch. now split.
Qed.
Print Assumptions C62_link.

(** the value in row k, column j; the row k *)
Definition gcell (cd : CommonCircuitData) (ps : list (list GF)) (c : nat * nat) : GF := gpeval (nth (snd c) ps []) (root (cd_DegreeBits cd) ^ N.of_nat (fst c))%GF.
Definition grow (cd : CommonCircuitData) (ps : list (list GF)) (k : nat) : list GF := map (fun f => gpeval f (root (cd_DegreeBits cd) ^ N.of_nat k)%GF) ps.
Lemma at_row_cols cd ps k : at_row cd (cols ps) k = map emb (grow cd ps k).
Proof. unfold at_row, cols, grow, row_point. rewrite !map_map. apply map_ext. intros f. apply kpeval_emb. Qed.
Lemma cell_value_cols cd ps c : cell_value cd (cols ps) c = emb (gcell cd ps c).
Proof.
  unfold cell_value, cols, gcell, row_point. change (@nil K) with (map emb []). rewrite (map_nth (map emb)). apply kpeval_emb.
Qed.

(** The general form: the prover need only be accepted at the query indices of the lists G. *)
Theorem verifier_extract : forall cd gates h vd T G P E e,
  sound_data cd gates -> degree_bound cd gates E -> enough cd E e T -> length h = 4%nat ->
  (forall c, drawn T c -> openings_shape cd (s_opens P c)) ->
  overlapping cd T G ->
  (forall c alpha betas i, drawn T c -> drawn_on cd T G c alpha betas i -> wins cd gates h vd P c alpha betas i) ->
  no_collision (hashed_on cd T G P) ->
  exists cs sigmas ws : list (list GF),
    (length cs = cd_NumConstants cd /\ length sigmas = NumRoutedWires (cd_Config cd) /\ length ws = NumWires (cd_Config cd)) /\
    Forall (fun f => length f <= 2 ^ cd_DegreeBits cd + 1)%nat (cs ++ sigmas ++ ws) /\
    (forall c alpha betas i, drawn T c -> drawn_on cd T G c alpha betas i ->
       let trees := InitialTreesProof (first_round (s_answer P c alpha betas i)) in
       let values ps := map (fun f => rep (gpeval f (dom g7 (LdeBits (cd_FriParams cd)) i))) ps in
       firstn (cd_NumConstants cd + NumRoutedWires (cd_Config cd)) (Elements (nth 0 trees no_eval)) = values (cs ++ sigmas) /\
       firstn (NumWires (cd_Config cd)) (Elements (nth 1 trees no_eval)) = values ws) /\
    (forall k j, selects (cd_SelectorsInfo cd) (length gates) (map emb (grow cd cs k)) j ->
       computes (EvalUnfiltered (nth j gates NoopGate) (mkvars (skipn (length (groups (cd_SelectorsInfo cd))) (map emb (grow cd cs k))) (map emb (grow cd ws k)) h))
                (repeat (0, 0) (num_constraints (nth j gates NoopGate)))) /\
    (NoDup (map (cell_label cd (map inj (KIs cd))) (cells cd)) ->
     forall s t, In s (cells cd) -> In t (cells cd) ->
       gcell cd sigmas t = (nth (snd s) (map inj (KIs cd)) g0 * root (cd_DegreeBits cd) ^ N.of_nat (fst s))%GF -> gcell cd ws t = gcell cd ws s).
Proof.
  intros cd gates h vd T G P E e SD DB EN Lh HO OV WIN NC.
  destruct (first_challenges cd h T E e EN Lh) as (c0 & D0).
  destruct (polys_exist cd gates h vd T G P E e SD EN Lh HO OV WIN NC c0 D0) as (F0 & HF0).
  exists (f_cs cd F0), (f_sigmas cd F0), (f_ws cd F0).
  pose proof (rewound cd gates h vd T G P E e SD EN Lh HO OV WIN NC c0 F0 D0 HF0) as RW.
  pose proof (col_bounded cd T G P c0 F0 _ _ _ HF0 (in_cs cd)) as B1.
  pose proof (col_bounded cd T G P c0 F0 _ _ _ HF0 (in_sigmas cd)) as B2.
  pose proof (col_bounded cd T G P c0 F0 _ _ _ HF0 (in_ws cd)) as B3.
  assert (Hd : (cd_DegreeBits cd <= 32)%nat) by apply SD.
  assert (UN : forall l, small cd (cols l) -> Forall (fun f => length f <= 2 ^ cd_DegreeBits cd + 1)%nat l).
  { intros l Hl. unfold small, cols in Hl. rewrite Forall_map in Hl. eapply Forall_impl; [|exact Hl]. intros f Hf. cbn beta in Hf. now rewrite map_length in Hf. }
  pose proof EN as ((NB & LB) & EG & EA & _).
  assert (He : (e < NumChallenges (cd_Config cd))%nat).
  { destruct D0 as (D1 & D2 & _). apply (EA _ _ D1 D2). }
  split; [unfold f_cs, f_sigmas, f_ws, col; now rewrite !map_length, !seq_length|].
  split; [rewrite !Forall_app; auto|]. split; [|split].
  - intros c alpha betas i D R. cbv zeta.
    destruct (accepted_round _ _ _ _ _ _ _ _ _ _ _ (oracles_nil cd) (two_batches cd P c) (win_accepted cd gates h vd T G P SD WIN c alpha betas i D R)) as (_ & _ & (Q1 & Q2 & _) & _).
    set (tr := InitialTreesProof (first_round (s_answer P c alpha betas i))) in *.
    assert (FN : forall m (l : list Z), (m <= length l)%nat -> firstn m l = map (fun j => nth j l 0) (seq 0 m)).
    { intros m l. revert m. induction l as [|x l IH]; intros [|m] Hm; try reflexivity; [cbn in Hm; lia|]. cbn [firstn seq map nth]. f_equal.
      rewrite <- seq_shift, map_map. apply IH. cbn in Hm. lia. }
    destruct tr as [|e0 [|e1 tr']] eqn:Et; [discriminate Q1|discriminate Q1|]. unfold friOracles in Q2. cbn [combine] in Q2.
    inversion Q2 as [|? ? [Q3 _] Q2']; subst. inversion Q2' as [|? ? [Q4 _] _]; subst. cbn [fst snd NumPolys Blinding andb] in Q3, Q4. clear Q2 Q2'. cbn [nth].
    assert (LV : forall o s m, (o < 2)%nat -> (forall j, (s <= j < s + m)%nat -> In (o, j) (fst (Prop_Fri.layout cd))) ->
      map (fun j => nth j (Elements (nth o (e0 :: e1 :: tr') no_eval)) 0) (seq s m) = map (fun f => rep (gpeval f (dom g7 (LdeBits (cd_FriParams cd)) i))) (col F0 o s m)).
    { intros o s m Ho Hin. rewrite <- Et. exact (leaves_are cd gates h vd T G P E e SD EN Lh HO OV WIN NC c0 F0 c alpha betas i o s m D0 HF0 D R Ho Hin). }
    split.
    + rewrite FN by (rewrite Q3; unfold numPreprocessedPolys, sigmasRange; rewrite last_seq; lia). rewrite seq_app, !map_app. f_equal; [exact (LV 0%nat _ _ ltac:(lia) (in_cs cd))|].
      exact (LV 0%nat _ _ ltac:(lia) (in_sigmas cd)).
    + rewrite FN by (rewrite Q4; lia). exact (LV 1%nat _ _ ltac:(lia) (in_ws cd)).
  - intros k j. rewrite <- !at_row_cols. destruct D0 as (D1 & D2 & _). destruct (RW _ _ D1 D2) as (zs & pps & B4 & B5 & HA). destruct (EA _ _ D1 D2) as (_ & MA).
    exact (C61_gates cd gates (map inj (KIs cd)) h _ _ _ _ _ zs pps E e _ B1 B2 B3 B4 B5 DB MA Hd HA k j).
  - intros NL s t Hs Ht Est. apply emb_inj. rewrite <- !cell_value_cols.
    apply (C61_copy cd gates (map inj (KIs cd)) h (cols (f_cs cd F0)) (cols (f_sigmas cd F0)) (cols (f_ws cd F0)) E e e (k_betas T) (k_gammas T) B1 B2 B3 DB Hd He NB LB); try assumption.
    + intros b Hb. destruct (EG b Hb) as (_ & G1 & G2). now split.
    + intros b g Hb Hg. destruct (RW b g Hb Hg) as (zs & pps & B4 & B5 & HA). destruct (EA b g Hb Hg) as (_ & MA). exists zs, pps, (k_alphas T b g). auto.
    + rewrite cell_value_cols, Est. unfold cell_label, row_point. now rewrite emb_mul.
Qed.
(** The prover is an arbitrary strategy.  Run it with all the challenges of the lists [T]: more
    betas and gammas than there are cells, as many alphas as terms, more than E * 2^DegreeBits
    points zeta, the challenges of C59 for FRI, every query index.  If it is accepted in all
    these runs, with the public inputs hashed to h, and no two of the states hashed by the
    Merkle verification collide, then there are polynomials over the base field, the same in
    all the runs, whose values are the leaves behind the cap of the verifier data and the cap
    of the wires; the rows that they take on the subgroup satisfy the constraints of the gates
    named by the selectors, and the copy constraints. *)
Theorem C62_sound : forall cd gates h vd T P E e,
  sound_data cd gates -> degree_bound cd gates E -> enough cd E e T -> length h = 4%nat ->
  (forall c, drawn T c -> openings_shape cd (s_opens P c)) ->
  (forall c alpha betas i, drawn T c -> drawn_fri cd T c alpha betas i -> wins cd gates h vd P c alpha betas i) ->
  no_collision (hashed cd T P) ->
  exists cs sigmas ws : list (list GF),
    (length cs = cd_NumConstants cd /\ length sigmas = NumRoutedWires (cd_Config cd) /\ length ws = NumWires (cd_Config cd)) /\
    Forall (fun f => length f <= 2 ^ cd_DegreeBits cd + 1)%nat (cs ++ sigmas ++ ws) /\
    (forall c alpha betas i, drawn T c -> drawn_fri cd T c alpha betas i ->
       let trees := InitialTreesProof (first_round (s_answer P c alpha betas i)) in
       let values ps := map (fun f => rep (gpeval f (dom g7 (LdeBits (cd_FriParams cd)) i))) ps in
       firstn (cd_NumConstants cd + NumRoutedWires (cd_Config cd)) (Elements (nth 0 trees no_eval)) = values (cs ++ sigmas) /\
       firstn (NumWires (cd_Config cd)) (Elements (nth 1 trees no_eval)) = values ws) /\
    (forall k j, selects (cd_SelectorsInfo cd) (length gates) (map emb (grow cd cs k)) j ->
       computes (EvalUnfiltered (nth j gates NoopGate) (mkvars (skipn (length (groups (cd_SelectorsInfo cd))) (map emb (grow cd cs k))) (map emb (grow cd ws k)) h))
                (repeat (0, 0) (num_constraints (nth j gates NoopGate)))) /\
    (NoDup (map (cell_label cd (map inj (KIs cd))) (cells cd)) ->
     forall s t, In s (cells cd) -> In t (cells cd) ->
       gcell cd sigmas t = (nth (snd s) (map inj (KIs cd)) g0 * root (cd_DegreeBits cd) ^ N.of_nat (fst s))%GF -> gcell cd ws t = gcell cd ws s).
Proof.
  intros cd gates h vd T P E e SD DB EN Lh HO WIN NC. set (n := LdeBits (cd_FriParams cd)).
  assert (DR : forall c alpha betas i, drawn_on cd T (fun _ => all_indices n) c alpha betas i <-> drawn_fri cd T c alpha betas i).
  { intros c alpha betas i. unfold drawn_on, drawn_fri. rewrite all_indices_in. reflexivity. }
  destruct (verifier_extract cd gates h vd T (fun _ => all_indices n) P E e SD DB EN Lh HO) as (cs & sigmas & ws & HL & HB & LV & HR).
  - split; [intros c _; apply all_indices_positions|]. intros c c' _ _. exists (all_indices n). split; [apply all_indices_positions|].
    split; [apply incl_refl|]. split; [apply incl_refl|]. rewrite all_indices_length. apply Nat.pow_lt_mono_r; [lia|].
    destruct SD as (_ & Ed & Hr & _). unfold n, LdeBits. lia.
  - intros c alpha betas i D R. apply WIN; [exact D|]. now apply DR.
  - intros a b (c & alpha & betas & i & D & R & Ha) (c' & alpha' & betas' & i' & D' & R' & Hb). apply DR in R, R'.
    apply NC; [exists c, alpha, betas, i; tauto|exists c', alpha', betas', i'; tauto].
  - exists cs, sigmas, ws. split; [exact HL|]. split; [exact HB|]. split; [|exact HR]. intros c alpha betas i D R. apply LV; [exact D|]. now apply DR.
Qed.
Print Assumptions C62_sound.

(** ** Example: eight rows, in each a ConstantGate; the constant, and so the wire, is 4 + 6X; sigma = X, Z = 1, the quotient is 0.
    The honest prover of C58 is accepted for all challenges; there are no collisions since nothing is hashed. *)
Definition cd62 : CommonCircuitData :=
  mkCommonCircuitData (mkCircuitConfig 1 1 1 false 100 1 false 1 (mkFriConfig 1 4 0 1))
    (mkFriParams (mkFriConfig 1 4 0 1) false 3 []) ["ConstantGate { num_consts: 1 }"%string] (mkSelectorsInfo [O] [(0, 1)%nat]) 3 1 1 2 0 [1] 0.
Definition g62 : list Gate := [ConstantGate 1].
Definition cs62 : list (list GF) := [[]; [inj 4; inj 6]].
Definition sigmas62 : list (list GF) := [[g0; g1]].
Definition ws62 : list (list GF) := [[inj 4; inj 6]].
Definition tables62 : list (list (list GF)) := [cs62 ++ sigmas62; ws62; [[g1]]; [[]]].
Definition o62 (z : K) : opensK := opened cd62 (cols cs62) (cols sigmas62) (cols ws62) (cols [[g1]]) [] (cols [[]]) z.
Definition vd62 : VerifierOnlyCircuitData := mkVerifierOnlyCircuitData (nth 0 (honest_caps tables62 (fun _ _ => []) 4) []) 0.
Definition T62 : coins := mkCoins (singles 9) (fun _ => singles 9) (fun _ _ => singles 3) (fun _ _ _ => map (fun a => (a, g1)) (small_ints 17))
  (fun _ => map emb (small_ints 7)) (fun _ _ _ => []).
Definition P62 : strategy :=
  let caps := honest_caps tables62 (fun _ _ => []) 4 in
  let word c alpha := honest_codeword tables62 (cd_FriParams cd62) alpha (fri_points cd62 (c_zeta c)) in
  mkStrategy (nth 1 caps []) (fun _ _ => nth 2 caps []) (fun _ _ _ => nth 3 caps []) (fun c => repO (o62 (c_zeta c)))
    (fun c alpha => honest_cap g7 4 (word c alpha)) (fun c alpha betas => map repK (commit_final (word c alpha) betas))
    (fun c alpha betas i => mkTranscript (honest_fri tables62 (fun _ _ => []) (cd_FriParams cd62) (fri_points cd62 (c_zeta c)) alpha betas (repeat (inj i) 1) 0) g0 (repeat (inj i) 1)).
Lemma shape62 b g a z : plonk_shape cd62 g62 [g1] (mkChalK [b] [g] [a] z) (o62 z) h61.
Proof.
  unfold plonk_shape. split; [|split].
  - split; [vm_compute; reflexivity|cbn; lia].
  - cbn. lia.
  - split; [split; [cbn; lia|]|].
    + intros i Hi. destruct i as [|i]; [|cbn in Hi; lia]. cbn. unfold p. lia.
    + split; [cbn; lia|]. split; [reflexivity|]. split; repeat constructor.
Qed.
Lemma tms62 b g z : tms cd62 g62 [g1] h61 [b] [g] (emb (root 3)) (cols cs62) (cols sigmas62) (cols ws62) (cols [[g1]]) [] z = [k0; k0; k0].
Proof.
  unfold tms. generalize (L0 cd62 z). intros l.
  change (NumChallenges (cd_Config cd62)) with 1%nat. cbn [seq map concat app].
  unfold v_pps. change (NumPartialProducts cd62) with 0%nat. change (QuotientDegreeFactor cd62) with 1%nat. change (NumRoutedWires (cd_Config cd62)) with 1%nat.
  cbn [seq map Nat.add app]. unfold pp_k, accs_k, seg, chunk_prod, opn, opens_at, evals, cols. cbn [o_zs o_zsn o_pps map nth app skipn firstn Nat.mul Nat.add seq Nat.max].
  unfold v_num, v_den, v_beta, v_gamma, chal. cbn [c_betas c_gammas c_zeta o_ws o_sigmas nth map ws62 sigmas62].
  unfold gcons. change (NumGateConstraints cd62) with 1%nat. unfold gate_outs, evals, g62. cbn [map seq total gate_k].
  unfold wire, flt, filter_k, kprod, ws62, cs62. change (ns (cd_SelectorsInfo cd62)) with 1%nat. cbn [Nat.ltb Nat.leb].
  cbn [map seq nth skipn Nat.mul Nat.add fold_right]. unfold kpeval. cbn [peval].
  change (emb g1) with k1. change (emb g0) with k0.
  f_equal; [ring|]. f_equal; [ring|]. f_equal. ring.
Qed.
Lemma plonk62 b g a z fc : snd z = g1 -> sat (PlonkVerify cd62 g62 (repC (mkChalK [b] [g] [a] z) fc) (repO (o62 z)) (map rep h61)).
Proof.
  intros Hz. change (o62 z) with (opens_at (emb (root (cd_DegreeBits cd62))) (cols cs62) (cols sigmas62) (cols ws62) (cols [[g1]]) [] (cols [[]]) z).
  apply (proj2 (verify_equation cd62 g62 [g1] h61 [b] [g] [a] (emb (root (cd_DegreeBits cd62))) (cols cs62) (cols sigmas62) (cols ws62) (cols [[g1]]) [] (cols [[]]) fc z (shape62 b g a z))).
  split.
  - intros ->. apply (f_equal rep) in Hz. vm_compute in Hz. discriminate Hz.
  - intros i Hi. change (cd_DegreeBits cd62) with 3%nat. rewrite (tms62 b g z). unfold quot, seg, evals. destruct i as [|i]; [|cbn in Hi; lia].
    change (QuotientDegreeFactor cd62) with 1%nat. cbn [Nat.mul Nat.add firstn skipn map powers_sum cols]. unfold kpeval. cbn [peval]. ring.
Qed.
Lemma with_sat cd gates pr h ch vd : canon_proof pr -> sat (PlonkVerify cd gates ch (Openings pr) h) ->
  sat (instance <- GetInstance cd (PlonkZeta ch);;
       VerifyFriProof (cd_FriParams cd) instance (ToOpenings (Openings pr)) (pc_FriChallenges ch)
         [ConstantSigmasCap vd; WiresCap pr; PlonkZsPartialProductsCap pr; QuotientPolysCap pr] (OpeningProof pr)) ->
  sat (VerifyWith cd gates pr h ch vd).
Proof.
  intros C [u1 R1] [u2 R2]. exists u2. unfold VerifyWith. apply reach_bind. exists tt. split; [apply run_reach; now apply (proj1 (range_proof_correct pr))|].
  apply reach_bind. exists u1. now split.
Qed.
Lemma canon_repO o : canon_openings (repO o).
Proof.
  assert (C : forall l, Forall canonQE (map repK l)) by (intros l; apply Forall_map, Forall_forall; intros x _; apply canonQE_repK).
  unfold canon_openings, repO. cbn [Constants PlonkSigmas Wires PlonkZs PlonkZsNext PartialProducts QuotientPolys]. repeat split; apply C.
Qed.
Lemma injO_repO o : injO (repO o) = o.
Proof.
  assert (C : forall l, map injK (map repK l) = l) by (intros l; rewrite map_map; rewrite <- (map_id l) at 2; apply map_ext; intros; apply injK_repK).
  destruct o as [a1 a2 a3 a4 a5 a6 a7]. unfold injO, repO. cbn [Constants PlonkSigmas Wires PlonkZs PlonkZsNext PartialProducts QuotientPolys o_cs o_sigmas o_ws o_zs o_zsn o_pps o_qs]. now rewrite !C.
Qed.
Lemma shape62_data : circuit_shape cd62 g62.
Proof.
  split; [split; [repeat constructor; vm_compute; congruence|cbn; lia]|]. split; [|repeat constructor].
  split; [cbn; lia|]. intros i Hi. destruct i as [|i]; [|cbn in Hi; lia]. cbn. unfold p. lia.
Qed.
Lemma wins62 c alpha betas i : drawn T62 c -> drawn_fri cd62 T62 c alpha betas i -> wins cd62 g62 h61 vd62 P62 c alpha betas i.
Proof.
  intros (D1 & D2 & D3 & D4) (Ia & Lb & _ & Hi). destruct betas as [|b' betas]; [|discriminate Lb]. destruct c as [b g a z]. cbn [c_betas c_gammas c_alphas c_zeta T62 k_betas k_gammas k_alphas k_zetas] in D1, D2, D3, D4.
  apply in_map_iff in D1, D2, D3, D4. destruct D1 as (b0 & <- & _), D2 as (g0' & <- & _), D3 as (a0 & <- & _), D4 as (z0 & <- & _). set (z := (z0, g1) : K).
  assert (NZ : forall a : GF, rep a <> 0 -> a <> g0) by (intros x H E; apply H; now rewrite E).
  assert (OFF : forall x y : GF, y <> g0 -> emb x <> (emb y * z)%K).
  { intros x y Hy E. apply Hy. apply (f_equal snd) in E. unfold emb, kmul, z in E. cbn [fst snd] in E. rewrite E. ring. }
  assert (AC : accepted (cd_FriParams cd62) (friOracles cd62) (fri_points cd62 z) (open_batches tables62 (fri_points cd62 z)) (honest_caps tables62 (fun _ _ => []) 4) alpha []
    (caps_along (honest_cap g7 4 (honest_codeword tables62 (cd_FriParams cd62) alpha (fri_points cd62 z))) [] [])
    (map repK (commit_final (honest_codeword tables62 (cd_FriParams cd62) alpha (fri_points cd62 z)) [])) i
    (mkTranscript (honest_fri tables62 (fun _ _ => []) (cd_FriParams cd62) (fri_points cd62 z) alpha [] (repeat (inj i) 1) 0) g0 (repeat (inj i) 1))).
  { apply (C59_honest (cd_FriParams cd62) (friOracles cd62) tables62 (fun _ _ => []) (fri_points cd62 z) alpha [] g0 0 i).
    - unfold honest_params. cbn. repeat split; lia.
    - split; [reflexivity|]. split.
      + repeat (apply Forall_cons || apply Forall_nil); vm_compute; lia.
      + intros o Ho. cbn [friOracles length] in Ho. split; [destruct o as [|[|[|[|o]]]]; try lia; reflexivity|]. intros j. split; [destruct o as [|[|[|[|o]]]]; try lia; reflexivity|apply Forall_nil].
    - discriminate.
    - repeat (apply Forall_cons || apply Forall_nil); split; vm_compute; lia.
    - exact I.
    - cbn. lia.
    - exact Hi.
    - intros z' polys Hz. destruct Hz as [Hz|[Hz|[]]]; apply (f_equal fst) in Hz; cbn [fst] in Hz; subst z'.
      + replace z with (emb g1 * z)%K by (change (emb g1) with k1; ring). apply OFF. apply NZ. vm_compute. discriminate.
      + apply OFF. apply NZ. vm_compute. discriminate.
    - vm_compute. reflexivity. }
  destruct AC as (A1 & A2 & A3 & A4 & A5 & A6). unfold wins. cbv zeta.
  split; [exact A1|]. split; [exact A2|]. split; [exact A3|]. split; [exact A5|].
  set (t := s_answer P62 _ alpha [] i) in *.
  set (pr := proof_of P62 (mkChalK [b0] [g0'] [a0] z) t).
  assert (C1 : canon_openings (Openings pr)) by apply canon_repO.
  apply (with_sat cd62 g62 pr).
  - split; [exact C1|]. split; [exact A4|]. split; vm_compute; congruence.
  - apply plonk62. reflexivity.
  - apply (enforces_sat _ _ _ (fri_part cd62 g62 pr vd62 shape62_data z alpha [] (t_pow t) (t_indices t) C1 A4)).
    apply (enforces_sat _ _ _ (verify_fri_correct (cd_FriParams cd62) (friOracles cd62) (fri_points cd62 z) (fri_values (injO (Openings pr))) alpha [] (t_pow t) (t_indices t)
      [ConstantSigmasCap vd62; WiresCap pr; PlonkZsPartialProductsCap pr; QuotientPolysCap pr] (OpeningProof pr) A4 ltac:(discriminate) eq_refl)).
    change (Openings pr) with (repO (o62 z)). rewrite injO_repO. exact A6.
Qed.
Lemma ints_of m x : In x (small_ints m) -> exists k, (k < m)%nat /\ x = inj (Z.of_nat k + 2).
Proof. intros H. apply in_map_iff in H. destruct H as (k & <- & Hk). apply in_seq in Hk. exists k. split; [lia|reflexivity]. Qed.
Lemma enough62 : enough cd62 2 0 T62.
Proof.
  unfold enough, T62. cbn [k_betas k_gammas k_alphas k_zetas k_fri_alphas k_fri_betas].
  assert (L1 : forall m b, In b (singles m) -> length b = 1%nat) by (intros m b H; apply in_map_iff in H; destruct H as (x & <- & _); reflexivity).
  repeat match goal with |- _ /\ _ => split end.
  - apply singles_NoDup. lia.
  - rewrite singles_length. cbn. lia.
  - intros b Hb. split; [now apply (L1 9%nat)|]. split; [apply singles_NoDup; lia|]. rewrite singles_length. cbn. lia.
  - intros b g Hb Hg. split; [now apply (L1 9%nat)|]. split; [cbn; lia|]. split; [apply singles_NoDup; lia|]. rewrite singles_length. cbn. lia.
  - intros b g a Hb Hg Ha. split; [now apply (L1 3%nat)|]. split.
    + apply NoDup_map_in; [intros x y _ _ E; now injection E|]. apply small_ints_NoDup. lia.
    + rewrite map_length. unfold small_ints. rewrite map_length, seq_length. cbn. lia.
  - intros c Hc. split; [apply NoDup_map_in; [intros x y _ _; apply emb_inj|apply small_ints_NoDup; lia]|]. split.
    + rewrite map_length. unfold small_ints. rewrite map_length, seq_length. reflexivity.
    + intros alpha pre _ H. cbn in H. lia.
Qed.
Example C62_ex : exists cs sigmas ws : list (list GF), length ws = 1%nat /\
  (forall i, 0 <= i < 16 -> rep (gpeval (nth 0 ws []) (dom g7 4 i)) = rep (inj 4 + inj 6 * dom g7 4 i)%GF) /\
  forall k j, selects (cd_SelectorsInfo cd62) 1 (map emb (grow cd62 cs k)) j ->
    computes (EvalUnfiltered (nth j g62 NoopGate) (mkvars (skipn 1 (map emb (grow cd62 cs k))) (map emb (grow cd62 ws k)) h61))
             (repeat (0, 0) (num_constraints (nth j g62 NoopGate))).
Proof.
  destruct (C62_sound cd62 g62 h61 vd62 T62 P62 2 0) as (cs & sigmas & ws & (L1 & L2 & L3) & _ & LV & GA & _).
  - split; [exact shape62_data|]. split; [reflexivity|]. split; [cbn; lia|]. split; [cbn; lia|]. repeat constructor.
  - split; [cbn; lia|]. intros [|j] Hj; [|cbn in Hj; lia]. cbn. lia.
  - exact enough62.
  - reflexivity.
  - intros c _. vm_compute. repeat split; reflexivity.
  - exact wins62.
  - intros a b (c & alpha & betas & i & _ & (_ & Lb & _) & Ha). exfalso. destruct betas as [|b' betas]; [|discriminate Lb]. exact Ha.
  - exists cs, sigmas, ws. split; [exact L3|]. split; [|exact GA]. intros i Hi.
    set (c := mkChalK [inj 2] [inj 2] [inj 2] (inj 2, g1)).
    assert (I2 : forall m, (1 <= m)%nat -> In (inj 2) (small_ints m)).
    { intros m Hm. apply in_map_iff. exists O. split; [reflexivity|]. apply in_seq. lia. }
    assert (D : drawn T62 c).
    { unfold drawn, c, T62. cbn [c_betas c_gammas c_alphas c_zeta k_betas k_gammas k_alphas k_zetas]. unfold singles.
      repeat split; [apply (in_map (fun a => [a])), I2; lia|apply (in_map (fun a => [a])), I2; lia|apply (in_map (fun a => [a])), I2; lia|apply (in_map (fun a => (a, g1))), I2; lia]. }
    assert (R : drawn_fri cd62 T62 c (emb (inj 2)) [] i).
    { split; [apply in_map, I2; lia|]. split; [reflexivity|]. split; [exact I|exact Hi]. }
    destruct (LV c (emb (inj 2)) [] i D R) as [_ E]. destruct ws as [|w [|? ?]]; try discriminate L3. cbn [map nth] in E. cbn [nth].
    apply (f_equal (fun l => nth 0 l 0)) in E. cbn [nth] in E. etransitivity; [symmetry; exact E|].
    change (rep (gpeval [inj 4; inj 6] (dom g7 4 (rep (inj i) mod 2 ^ Z.of_nat 4))) = rep (inj 4 + inj 6 * dom g7 4 i)%GF).
    rewrite rep_inj_small by (unfold p; lia). change (2 ^ Z.of_nat 4) with 16. rewrite Z.mod_small by exact Hi. f_equal. unfold gpeval. cbn [peval]. ring.
Qed.
