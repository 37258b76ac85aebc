(** * The honest prover of the whole system: its proof satisfies the relation checked by the circuit. *)
From Coq Require Import String.
From Coq Require Import ZArith NArith Lia List Bool Ring Permutation.
From Verif Require Import Zp GF Circuit Goldilocks GLProofs ExtProofs PoseidonSpec Sponge DenP ChallengerProofs ChallengerPhases Transcript Prop_Poseidon Prop_Challenger PoseidonGLProofs BN254 BN254Hash Types Challenger Fri Poly Roots Interp FriMerkle FriEval FriQuery FriTop FriFacts Honest FriSound FriRewind FriExtract Prop_FriSound Prop_Fri
  Gates GateProofs GateCoset GateFilter GateAll GateDegree GateBase Prop_Gates Plonk PlonkProofs Prop_Plonk PlonkSound PlonkRows PlonkCopy Prop_PlonkSound Verifier VerifierProofs Prop_BN254 Prop_Verifier Prop_Forgery VerifierSound Prop_VerifierSound ProverPoly PlonkProver.
Import ListNotations.
Open Scope Z_scope.
Local Opaque PoseidonBN HashOrNoop TwoToOne.

(** ** What the prover knows *)
(** the label of a cell: k_j g^k *)
Definition label (cd : CommonCircuitData) (c : nat * nat) : GF := (inj (nth (snd c) (KIs cd) 0%Z) * root (cd_DegreeBits cd) ^ N.of_nat (fst c))%GF.
(** [cs], [sigmas] and [ws] are polynomials of degree < 2^DegreeBits whose values in the rows
    satisfy the circuit: in every row the selectors name a gate and its constraints are zero;
    the values of the sigmas are a permutation of the labels, and a cell carrying the label of
    another one has the same value. *)
Definition satisfying (cd : CommonCircuitData) (gates : list Gate) (h : list GF) (cs sigmas ws : list (list GF)) : Prop :=
  (length cs = cd_NumConstants cd /\ length sigmas = NumRoutedWires (cd_Config cd) /\ length ws = NumWires (cd_Config cd)) /\
  Forall (fun f => length f <= 2 ^ cd_DegreeBits cd)%nat (cs ++ sigmas ++ ws) /\
  (forall k, (k < 2 ^ cd_DegreeBits cd)%nat -> exists j, selects (cd_SelectorsInfo cd) (length gates) (map emb (grow cd cs k)) j /\
     computes (EvalUnfiltered (nth j gates NoopGate) (mkvars (skipn (length (groups (cd_SelectorsInfo cd))) (map emb (grow cd cs k))) (map emb (grow cd ws k)) h))
              (repeat (0, 0) (num_constraints (nth j gates NoopGate)))) /\
  Permutation (map (gcell cd sigmas) (cells cd)) (map (label cd) (cells cd)) /\
  (forall s t, In s (cells cd) -> In t (cells cd) -> gcell cd sigmas t = label cd s -> gcell cd ws t = gcell cd ws s).

(** ** What it sends for given challenges *)
Section Sent.
  Context (cd : CommonCircuitData) (gates : list Gate) (h : list GF) (cs sigmas ws : list (list GF)) (salts : nat -> Z -> list Z).
  Notation zs c := (hz cd (map inj (KIs cd)) sigmas ws (c_betas c) (c_gammas c)).
  Notation pps c := (hp cd (map inj (KIs cd)) sigmas ws (c_betas c) (c_gammas c)).
  Notation qs c := (hq cd gates (map inj (KIs cd)) h cs sigmas ws (c_betas c) (c_gammas c) (c_alphas c)).
  (** the four oracles *)
  Definition sent_tables (c : chalK) : list (list (list GF)) := [cs ++ sigmas; ws; zs c ++ pps c; qs c].
  Definition sent_opens (c : chalK) : opensK := opened cd (cols cs) (cols sigmas) (cols ws) (cols (zs c)) (cols (pps c)) (cols (qs c)) (c_zeta c).
  Definition sent_caps (c : chalK) : list FriMerkleCap := honest_caps (sent_tables c) salts (LdeBits (cd_FriParams cd)).
  Definition sent_fri (c : chalK) (alpha : K) (betas : list K) (indices : list GF) (witness : Z) : FriProof :=
    honest_fri (sent_tables c) salts (cd_FriParams cd) (fri_points cd (c_zeta c)) alpha betas indices witness.
  Definition sent_proof (c : chalK) (alpha : K) (betas : list K) (indices : list GF) (witness : Z) : Proof_ :=
    mkProof (nth 1 (sent_caps c) []) (nth 2 (sent_caps c) []) (nth 3 (sent_caps c) []) (repO (sent_opens c)) (sent_fri c alpha betas indices witness).
End Sent.
(** the cap of the first oracle, which is part of the verifier data *)
Definition constants_cap (cd : CommonCircuitData) (cs sigmas : list (list GF)) (salts : nat -> Z -> list Z) : FriMerkleCap :=
  nth 0 (honest_caps [cs ++ sigmas] salts (LdeBits (cd_FriParams cd))) [].

(** ** Which challenges it can answer *)
(** no denominator of the grand products is zero *)
Definition good_betas (cd : CommonCircuitData) (sigmas ws : list (list GF)) (betas gammas : list GF) : Prop :=
  forall i c, (i < NumChallenges (cd_Config cd))%nat -> In c (cells cd) ->
    (gcell cd ws c + nth i betas g0 * gcell cd sigmas c + nth i gammas g0)%GF <> g0.
(** the points divided by are not zero, the proof of work is done *)
Definition lucky (cd : CommonCircuitData) (sigmas ws : list (list GF)) (c : chalK) (betas : list K) (pow : GF) (indices : list GF) : Prop :=
  let n := LdeBits (cd_FriParams cd) in
  good_betas cd sigmas ws (c_betas c) (c_gammas c) /\ c_zeta c <> k1 /\ betas_off g7 n betas /\
  rep pow < 2 ^ (64 - Z.of_nat (ProofOfWorkBits (fp_Config (cd_FriParams cd)))) /\
  (forall x, In x indices -> let y := emb (dom g7 n (rep x mod 2 ^ Z.of_nat n)) in y <> c_zeta c /\ y <> (emb (root (cd_DegreeBits cd)) * c_zeta c)%K).
(** the right numbers of challenges *)
Definition sized (cd : CommonCircuitData) (c : chalK) (betas : list K) (indices : list GF) : Prop :=
  let nc := NumChallenges (cd_Config cd) in
  length (c_betas c) = nc /\ length (c_gammas c) = nc /\ length (c_alphas c) = nc /\
  length betas = length (ReductionArityBits (cd_FriParams cd)) /\ length indices = NumQueryRounds (fp_Config (cd_FriParams cd)).
(** ** Which circuits: the data of C62, reductions by 16, gates within the degree, salts of the right length *)
Definition provable (cd : CommonCircuitData) (gates : list Gate) (salts : nat -> Z -> list Z) : Prop :=
  sound_data cd gates /\ degree_bound cd gates (QuotientDegreeFactor cd + 1) /\ (1 <= cd_DegreeBits cd)%nat /\
  Z.of_nat (QuotientDegreeFactor cd + 1) * 2 ^ Z.of_nat (cd_DegreeBits cd) <= p /\
  honest_params (cd_FriParams cd) (length (ReductionArityBits (cd_FriParams cd))) /\
  forall o i, (o < 4)%nat -> length (salts o i) = (if (1 <=? o)%nat && Hiding (cd_FriParams cd) then 4 else 0)%nat /\ Forall canonZ (salts o i).

(** ** The grand product *)
Lemma label_emb cd c : emb (label cd c) = cell_label cd (map inj (KIs cd)) c.
Proof.
  unfold label, cell_label, row_point. rewrite emb_mul. do 2 f_equal. rewrite g0_inj. symmetry. apply map_nth.
Qed.
Lemma in_cells cd k j : In (k, j) (cells cd) <-> (k < 2 ^ cd_DegreeBits cd /\ j < (NumPartialProducts cd + 1) * QuotientDegreeFactor cd)%nat.
Proof. unfold cells. rewrite in_prod_iff, !in_seq. lia. Qed.
Section Grand.
  Context (cd : CommonCircuitData) (sigmas ws : list (list GF)).
  Context (HP : Permutation (map (gcell cd sigmas) (cells cd)) (map (label cd) (cells cd))).
  Context (HW : forall s t, In s (cells cd) -> In t (cells cd) -> gcell cd sigmas t = label cd s -> gcell cd ws t = gcell cd ws s).
  Lemma copies_well s s' : In s (cells cd) -> In s' (cells cd) -> label cd s = label cd s' -> gcell cd ws s = gcell cd ws s'.
  Proof.
    intros Hs Hs' E. assert (I : In (label cd s) (map (gcell cd sigmas) (cells cd))).
    { apply (Permutation_in _ (Permutation_sym HP)). now apply in_map. }
    apply in_map_iff in I. destruct I as (t & Et & Ht). rewrite <- (HW s t Hs Ht Et). apply HW; congruence.
  Qed.
  (** the value that belongs to a label *)
  Definition by_label (x : GF) : GF := match find (fun s => geqb (label cd s) x) (cells cd) with Some s => gcell cd ws s | None => g0 end.
  Lemma by_label_is s x : In s (cells cd) -> label cd s = x -> by_label x = gcell cd ws s.
  Proof.
    intros Hs E. unfold by_label. destruct (find _ (cells cd)) as [s'|] eqn:F.
    - apply find_some in F. destruct F as [I B]. apply geqb_eq in B. apply copies_well; congruence.
    - exfalso. pose proof (find_none _ _ F s Hs) as N. cbn beta in N. rewrite (proj2 (geqb_eq _ _) E) in N. discriminate.
  Qed.
  Lemma products_equal b g : gprod (map (fun c => gcell cd ws c + b * label cd c + g)%GF (cells cd)) = gprod (map (fun c => gcell cd ws c + b * gcell cd sigmas c + g)%GF (cells cd)).
  Proof.
    transitivity (gprod (map (fun x => by_label x + b * x + g)%GF (map (label cd) (cells cd)))).
    - rewrite map_map. apply f_equal, map_ext_in. intros s Hs. now rewrite (by_label_is s _ Hs eq_refl).
    - rewrite <- (gprod_perm _ _ (Permutation_map (fun x => by_label x + b * x + g)%GF HP)), map_map. apply f_equal, map_ext_in. intros t Ht.
      assert (I : In (gcell cd sigmas t) (map (label cd) (cells cd))) by (apply (Permutation_in _ HP); now apply in_map).
      apply in_map_iff in I. destruct I as (s & Es & Hs). rewrite (by_label_is s _ Hs Es). rewrite (HW s t Hs Ht (eq_sym Es)). reflexivity.
  Qed.
  Notation kis := (map inj (KIs cd)).
  Lemma pnum_cell b g c : pnum cd kis ws b g (fst c) (snd c) = (gcell cd ws c + b * label cd c + g)%GF.
  Proof. unfold pnum, gcell, label, pt. rewrite g0_inj, map_nth. reflexivity. Qed.
  Lemma pden_cell b g c : pden cd sigmas ws b g (fst c) (snd c) = (gcell cd ws c + b * gcell cd sigmas c + g)%GF.
  Proof. reflexivity. Qed.
  Lemma zval_one b g : (forall c, In c (cells cd) -> (gcell cd ws c + b * gcell cd sigmas c + g)%GF <> g0) -> zval cd kis sigmas ws b g (2 ^ cd_DegreeBits cd) = g1.
  Proof.
    intros NZ. unfold zval, ratio.
    rewrite <- (gprod_cells (fun c => pnum cd kis ws b g (fst c) (snd c) * ginv (pden cd sigmas ws b g (fst c) (snd c)))%GF). fold (cells cd).
    pose proof (gprod_ratio (fun c => pnum cd kis ws b g (fst c) (snd c)) (fun c => pden cd sigmas ws b g (fst c) (snd c)) (cells cd)) as R.
    cbv beta in R. specialize (R NZ). set (X := gprod (map (fun x => (pnum cd kis ws b g (fst x) (snd x) * ginv (pden cd sigmas ws b g (fst x) (snd x)))%GF) (cells cd))) in *.
    assert (D : gprod (map (fun c => pden cd sigmas ws b g (fst c) (snd c)) (cells cd)) <> g0).
    { apply gprod_nz. intros y Hy. apply in_map_iff in Hy. destruct Hy as (c & <- & Hc). now apply NZ. }
    rewrite (map_ext _ _ (pnum_cell b g)), products_equal in R.
    change (map (fun c => (gcell cd ws c + b * gcell cd sigmas c + g)%GF) (cells cd)) with (map (fun c => pden cd sigmas ws b g (fst c) (snd c)) (cells cd)) in R.
    set (Y := gprod (map (fun c => pden cd sigmas ws b g (fst c) (snd c)) (cells cd))) in *.
    pose proof (ginv_l Y D) as I. transitivity (X * (ginv Y * Y))%GF; [rewrite I; ring|]. transitivity (X * Y * ginv Y)%GF; [ring|]. rewrite R.
    transitivity (ginv Y * Y)%GF; [ring|exact I].
  Qed.
End Grand.

(** ** The gates *)
Lemma selected_zero cd gates o h j : let info := cd_SelectorsInfo cd in
  Prop_Gates.layout info (length gates) -> (length (groups info) <= length (o_cs o))%nat -> length h = 4%nat ->
  Forall (fits (length (o_cs o) - length (groups info)) (length (o_ws o))) gates ->
  selects info (length gates) (o_cs o) j ->
  computes (EvalUnfiltered (nth j gates NoopGate) (mkvars (skipn (length (groups info)) (o_cs o)) (o_ws o) h)) (repeat (0, 0) (num_constraints (nth j gates NoopGate))) ->
  forall t, In t (gate_sums cd gates o h) -> t = k0.
Proof.
  intros info HL Hn Hh HF (Hj & Gj & Hs & Sel) C t Ht. unfold gate_sums in Ht. apply in_map_iff in Ht. destruct Ht as (m & <- & _). unfold gate_sum. fold info.
  rewrite (ksum_single _ _ j Hj).
  - assert (Fg : fits (length (skipn (length (groups info)) (o_cs o))) (length (o_ws o)) (nth j gates NoopGate)).
    { rewrite skipn_length. apply (proj1 (Forall_forall _ _) HF). now apply nth_In. }
    pose proof (computes_functional _ _ _ C (gate_computes _ _ _ _ Fg Hh)) as Q.
    assert (Z : nth m (gate_k (nth j gates NoopGate) (skipn (length (groups info)) (o_cs o)) (o_ws o) h) k0 = k0).
    { apply repK_inj. rewrite <- (map_nth repK), <- Q. change (repK k0) with ZeroExtension. generalize (num_constraints (nth j gates NoopGate)). clear.
      intros l. revert m. induction l as [|l IH]; intros [|m]; cbn [repeat nth]; try reflexivity. apply IH. }
    rewrite Z. ring.
  - intros i Hi Nij. assert (Z : row_filter info (o_cs o) i = k0); [|rewrite Z; ring]. rewrite row_filter_k.
    destruct (proj2 HL i Hi) as [S1 S2]. destruct (group_of info i) as [a b] eqn:Eg. cbn [snd] in S2.
    apply filter_zero. rewrite (Sel i Hi). destruct (Nat.eqb_spec (selector_of info i) (selector_of info j)) as [Es|Es].
    + left. exists j. assert (Eg' : group_of info j = (a, b)) by (unfold group_of in *; now rewrite <- Es).
      rewrite Eg' in Gj. cbn [fst snd] in Gj. split; [exact Gj|]. split; [intros E; apply Nij; now symmetry|reflexivity].
    + right. split; [|reflexivity]. apply Nat.ltb_lt. destruct (proj2 HL j Hj) as [T1 _]. lia.
Qed.

(** ** The openings are the values that FRI expects *)
Lemma seg_polys (a b c : list (list GF)) z :
  map (fun j => kpeval (map emb (nth j (a ++ b ++ c) [])) z) (seq (length a) (length b)) = map (fun f => kpeval f z) (cols b).
Proof.
  unfold cols. rewrite map_map. apply (nth_ext _ _ k0 k0); [now rewrite !map_length, seq_length|]. rewrite map_length, seq_length. intros i Hi.
  rewrite (nth_map_lt _ _ _ _ 0%nat) by (now rewrite seq_length). rewrite seq_nth by exact Hi. rewrite (nth_map_lt _ _ _ _ []) by exact Hi.
  rewrite app_nth2 by lia. replace (length a + i - length a)%nat with i by lia. now rewrite app_nth1 by exact Hi.
Qed.
Lemma seg_polys_last (a b : list (list GF)) z :
  map (fun j => kpeval (map emb (nth j (a ++ b) [])) z) (seq (length a) (length b)) = map (fun f => kpeval f z) (cols b).
Proof. rewrite <- (seg_polys a b [] z). now rewrite app_nil_r. Qed.
Section Accept.
  Context (cd : CommonCircuitData) (gates : list Gate) (h : list GF) (cs sigmas ws : list (list GF)) (salts : nat -> Z -> list Z).
  Context (HP : provable cd gates salts) (HS : satisfying cd gates h cs sigmas ws) (Lh : length h = 4%nat).
  Notation params := (cd_FriParams cd).
  Notation nc := (NumChallenges (cd_Config cd)).
  Notation zs c := (hz cd (map inj (KIs cd)) sigmas ws (c_betas c) (c_gammas c)).
  Notation pps c := (hp cd (map inj (KIs cd)) sigmas ws (c_betas c) (c_gammas c)).
  Notation qs c := (hq cd gates (map inj (KIs cd)) h cs sigmas ws (c_betas c) (c_gammas c) (c_alphas c)).
  Notation tables c := (sent_tables cd gates h cs sigmas ws c).
  Notation opens c := (sent_opens cd gates h cs sigmas ws c).
  Notation caps c := (sent_caps cd gates h cs sigmas ws salts c).
  Notation sent := (sent_proof cd gates h cs sigmas ws salts).

  Lemma sent_openings c : open_batches (tables c) (fri_points cd (c_zeta c)) = fri_values (opens c).
  Proof.
    destruct HS as ((L1 & L2 & L3) & _). unfold open_batches, fri_points. cbn [map fst snd]. unfold fri_values, sent_opens, opened. cbn [o_cs o_sigmas o_ws o_zs o_zsn o_pps o_qs].
    unfold Prop_Fri.layout. cbn [fst snd]. rewrite !map_app, !map_map. unfold poly_of, sent_tables. cbn [fst snd nth].
    pose proof (hz_length cd (map inj (KIs cd)) sigmas ws (c_betas c) (c_gammas c)) as L4.
    pose proof (hp_length cd (map inj (KIs cd)) sigmas ws (c_betas c) (c_gammas c)) as L5.
    pose proof (hq_length cd gates (map inj (KIs cd)) h cs sigmas ws (c_betas c) (c_gammas c) (c_alphas c)) as L6.
    pose proof (fun z => seg_polys [] cs sigmas z) as S1. pose proof (fun z => seg_polys_last cs sigmas z) as S2. pose proof (fun z => seg_polys_last [] ws z) as S3.
    pose proof (fun z => seg_polys [] (zs c) (pps c) z) as S4. pose proof (fun z => seg_polys_last (zs c) (pps c) z) as S5. pose proof (fun z => seg_polys_last [] (qs c) z) as S6.
    cbn [app length] in S1, S2, S3, S4, S5, S6.
    rewrite L1 in S1, S2. rewrite L2 in S2. rewrite L3 in S3. rewrite L4 in S4, S5. rewrite L5 in S5. rewrite L6 in S6.
    now rewrite S1, S2, S3, S4, S5, S6, S4.
  Qed.
  Lemma sent_in c : Forall (poly_in (tables c)) (flat_map snd (fri_points cd (c_zeta c))).
  Proof.
    destruct HS as ((L1 & L2 & L3) & _). apply Forall_forall. intros op Hop. unfold fri_points, Prop_Fri.layout in Hop. cbn [flat_map snd fst] in Hop. rewrite app_nil_r in Hop.
    unfold poly_in, sent_tables. rewrite !in_app_iff, !in_map_iff in Hop.
    pose proof (hz_length cd (map inj (KIs cd)) sigmas ws (c_betas c) (c_gammas c)) as L4.
    pose proof (hp_length cd (map inj (KIs cd)) sigmas ws (c_betas c) (c_gammas c)) as L5.
    pose proof (hq_length cd gates (map inj (KIs cd)) h cs sigmas ws (c_betas c) (c_gammas c) (c_alphas c)) as L6.
    repeat (destruct Hop as [Hop|Hop]); destruct Hop as (j & <- & Hj); apply in_seq in Hj; cbn [fst snd nth length]; rewrite ?app_length; lia.
  Qed.
  Lemma sent_tables_ok c : honest_tables params (friOracles cd) (tables c) salts.
  Proof.
    destruct HS as ((L1 & L2 & L3) & B & _). destruct HP as ((_ & Ed & _) & _ & _ & _ & _ & Hs). rewrite !Forall_app in B. destruct B as (B1 & B2 & B3).
    split; [reflexivity|]. rewrite Ed. split.
    - unfold sent_tables. repeat (apply Forall_cons || apply Forall_nil); rewrite ?Forall_app; repeat split; try assumption; [apply hz_small|apply hp_small|apply hq_small].
    - intros o Ho. cbn [friOracles length] in Ho. cbv zeta. split.
      + pose proof (hz_length cd (map inj (KIs cd)) sigmas ws (c_betas c) (c_gammas c)) as L4.
        pose proof (hp_length cd (map inj (KIs cd)) sigmas ws (c_betas c) (c_gammas c)) as L5.
        pose proof (hq_length cd gates (map inj (KIs cd)) h cs sigmas ws (c_betas c) (c_gammas c) (c_alphas c)) as L6.
        destruct o as [|[|[|[|o]]]]; try lia; unfold sent_tables, friOracles; cbn [nth NumPolys]; rewrite ?app_length.
        * unfold numPreprocessedPolys, sigmasRange. rewrite last_seq. lia.
        * exact L3.
        * rewrite L4, L5. unfold numZSPartialProductsPolys. lia.
        * rewrite L6. unfold numQuotientPolys. lia.
      + intros i. destruct (Hs o i Ho) as [S1 S2]. split; [|exact S2]. rewrite S1. destruct o as [|[|[|[|o]]]]; try lia; reflexivity.
  Qed.
  Lemma sent_shape c (B : length (c_betas c) = nc) (G : length (c_gammas c) = nc) (A : length (c_alphas c) = nc) :
    plonk_shape cd gates (map inj (KIs cd)) c (opens c) h.
  Proof.
    destruct HS as ((L1 & L2 & L3) & _). destruct HP as ((((C1 & C2 & C3 & C4 & C5 & C6) & C7 & C8) & _ & _ & (R1 & R2) & R3) & _).
    unfold plonk_shape, sent_opens, opened. cbn [o_cs o_sigmas o_ws o_zs o_zsn o_pps o_qs]. unfold cols. rewrite !map_length, B, G, A, L1, L2, L3, hz_length, hp_length, hq_length.
    split; [|split].
    - split; [now apply map_rep_inj|]. repeat split; try assumption; lia.
    - repeat split; lia.
    - repeat (split; [assumption|]). assumption.
  Qed.
  Lemma sent_plonk c : length (c_betas c) = nc -> length (c_gammas c) = nc -> length (c_alphas c) = nc ->
    good_betas cd sigmas ws (c_betas c) (c_gammas c) -> c_zeta c <> k1 -> plonk_ok cd gates (opens c) h c.
  Proof.
    intros B G A GB Z1. pose proof (sent_shape c B G A) as S.
    pose proof HP as ((((C1 & C2 & C3 & C4 & C5 & C6) & C7 & C8) & _ & _ & (R1 & R2) & R3) & DB & D1 & SZ & _).
    destruct HS as ((L1 & L2 & L3) & BD & GA & PE & CO). rewrite !Forall_app in BD. destruct BD as (B1 & B2 & B3).
    assert (GC : forall k, (k < 2 ^ cd_DegreeBits cd)%nat -> forall t, In t (gcons cd gates h (cols cs) (cols ws) (row (cd_DegreeBits cd) k)) -> t = k0).
    { intros k Hk t Ht. destruct (GA k Hk) as (j & Hj & Cj).
      pose (o := mkOpensK (map emb (grow cd cs k)) [] (map emb (grow cd ws k)) [] [] [] []).
      assert (Eg : gcons cd gates h (cols cs) (cols ws) (row (cd_DegreeBits cd) k) = gate_sums cd gates o h).
      { apply gate_sums_computes; unfold o; cbn [o_cs o_ws]; unfold grow; rewrite ?map_length, ?L1, ?L3; try assumption.
        fold (grow cd cs k) (grow cd ws k). rewrite <- !at_row_cols.
        apply (gcons_computes cd gates (map inj (KIs cd)) h c (opens_at (emb (root (cd_DegreeBits cd))) (cols cs) (cols sigmas) (cols ws) (cols (zs c)) (cols (pps c)) (cols (qs c)) (row (cd_DegreeBits cd) k))); [|reflexivity|reflexivity].
        destruct c as [cb cg ca z]. exact (shape_at _ _ _ _ _ _ _ _ _ _ _ _ _ _ z _ S). }
      rewrite Eg in Ht. revert t Ht. apply (selected_zero cd gates o h j); unfold o; cbn [o_cs o_ws]; unfold grow; rewrite ?map_length, ?L1, ?L3; assumption. }
    assert (SA : sat (PlonkVerify cd gates (repC c (fc_of k0 [] g0 [])) (repO (opens c)) (map rep h))).
    { destruct c as [cb cg ca z]. cbn [c_betas c_gammas c_alphas c_zeta] in *.
      apply (verify_equation cd gates (map inj (KIs cd)) h cb cg ca (emb (root (cd_DegreeBits cd))) (cols cs) (cols sigmas) (cols ws) _ _ _ (fc_of k0 [] g0 []) z S).
      split; [exact Z1|]. intros i Hi.
      apply (prover_equation cd gates (map inj (KIs cd)) h cs sigmas ws) with (nw := NumWires (cd_Config cd)) (ncs := (cd_NumConstants cd - length (groups (cd_SelectorsInfo cd)))%nat); try assumption.
      - intros ch k j Hc Hk Hj. exact (GB ch (k, j) Hc (proj2 (in_cells cd k j) (conj Hk Hj))).
      - intros ch Hc. apply zval_one; try assumption. intros x Hx. now apply GB.
      - rewrite Nat2Z.inj_mul, pow2_nat_Z. exact SZ.
      - now apply bound_filter. }
    destruct (C40_vanishing cd gates (map inj (KIs cd)) c (fc_of k0 [] g0 []) (opens c) h S) as (gc & G1 & G2 & G3).
    destruct S as (_ & _ & S1 & S2 & S3 & S4 & S5).
    rewrite (gate_sums_computes cd gates (opens c) h gc S1 S2 S3 S4 S5 G1) in G3. exact (proj1 (enforces_sat _ _ _ G3) SA).
  Qed.
  Lemma caps4 c : ConstantSigmasCap (mkVerifierOnlyCircuitData (constants_cap cd cs sigmas salts) 0) :: [nth 1 (caps c) []; nth 2 (caps c) []; nth 3 (caps c) []] = honest_caps (tables c) salts (LdeBits params).
  Proof. reflexivity. Qed.
  Lemma sent_fri_ok c alpha betas pow indices witness : sized cd c betas indices -> lucky cd sigmas ws c betas pow indices -> canonZ witness ->
    canon_proof (sent c alpha betas indices witness) /\
    fri_ok params (friOracles cd) (fri_points cd (c_zeta c)) (fri_values (opens c)) alpha betas pow indices
      [constants_cap cd cs sigmas salts; WiresCap (sent c alpha betas indices witness); PlonkZsPartialProductsCap (sent c alpha betas indices witness); QuotientPolysCap (sent c alpha betas indices witness)]
      (OpeningProof (sent c alpha betas indices witness)).
  Proof.
    intros (_ & _ & _ & Lb & LI) (_ & _ & BO & PW & OFF) Hw. destruct HP as (_ & _ & _ & _ & HF & _). rewrite <- Lb in HF.
    destruct (honest_fri_ok params (friOracles cd) (tables c) salts (fri_points cd (c_zeta c)) alpha betas pow indices witness HF (sent_tables_ok c) (sent_in c) BO) as [CF FO].
    - intros x z polys Hx Hz. destruct (OFF x Hx) as [O1 O2]. unfold fri_points in Hz. destruct Hz as [Hz|[Hz|[]]]; injection Hz as <- _; assumption.
    - exact LI.
    - exact PW.
    - rewrite sent_openings in FO. split; [|exact FO]. split; [apply canon_repO|]. split; [exact CF|exact Hw].
  Qed.
  Lemma sent_lengths c alpha betas indices witness : opening_lengths cd gates (Openings (sent c alpha betas indices witness)).
  Proof.
    destruct HS as ((L1 & L2 & L3) & _). destruct HP as ((((C1 & C2 & C3 & C4 & C5 & C6) & C7 & C8) & _ & _ & (R1 & R2) & R3) & _).
    unfold opening_lengths. cbn [sent_proof Openings]. unfold sent_opens, opened, repO. cbn [o_cs o_sigmas o_ws o_zs o_zsn o_pps o_qs Constants PlonkSigmas Wires PlonkZs PlonkZsNext PartialProducts QuotientPolys].
    unfold cols. rewrite !map_length, hz_length, hp_length, hq_length, L1, L2, L3. split; [repeat split; lia|exact R3].
  Qed.
  Lemma sent_proof_shape c alpha betas indices witness : proof_shape cd gates (sent c alpha betas indices witness).
  Proof.
    split; [apply sent_lengths|]. split; [discriminate|]. split; [discriminate|]. cbn [sent_proof OpeningProof sent_fri honest_fri CommitPhaseMerkleCaps].
    eapply Forall_impl; [|apply caps_shape]. intros cap Hc ->. discriminate Hc.
  Qed.
  Lemma layer_range k : forall L j, (forall i, inr_ (L i)) -> inr_ (layer L k j).
  Proof. induction k as [|k IH]; intros L j H; cbn [layer]; [apply H|]. apply IH. intros i. unfold up. now apply C25_range. Qed.
  Lemma cap_range L k : (forall i, inr_ (L i)) -> Forall inr_ (cap_of L k).
  Proof. intros H. unfold cap_of. apply Forall_map, Forall_forall. intros j _. now apply layer_range. Qed.
  Lemma sent_native c alpha betas indices witness pis digest : Forall inr_ pis -> inr_ digest ->
    native (sent c alpha betas indices witness) pis (mkVerifierOnlyCircuitData (constants_cap cd cs sigmas salts) digest).
  Proof.
    intros Hp Hg. split; [exact Hp|]. split; [exact Hg|]. cbn [sent_proof WiresCap PlonkZsPartialProductsCap QuotientPolysCap OpeningProof].
    assert (D : forall o, Forall inr_ (cap_of (leaf_digest (tables c) salts (LdeBits params) o) (LdeBits params - 4))) by (intros o; apply cap_range; intros i; apply HashOrNoop_range).
    split; [exact (D 1%nat)|]. split; [exact (D 2%nat)|]. split; [exact (D 3%nat)|].
    cbn [sent_fri honest_fri CommitPhaseMerkleCaps]. generalize g7, (LdeBits params), (honest_codeword (tables c) params alpha (fri_points cd (c_zeta c))).
    induction betas as [|b bs IH]; intros s n w; cbn [commit_caps]; constructor; [|apply IH]. apply cap_range. intros i. apply HashOrNoop_range.
  Qed.
End Accept.

(** ** Fiat-Shamir: the prover computes its own challenges *)
Fixpoint squeeze_st (k : nat) (s : list GF) : list GF * list GF :=
  match k with O => (rev (firstn 8 s), s) | S k' => let (bl, s') := squeeze_st k' (poseidon s) in (rev (firstn 8 s) ++ bl, s') end.
(** absorb xs, then draw m challenges: the challenges and the new state *)
Definition ask (xs : list Z) (m : nat) (s : list GF) : list GF * list GF :=
  let (bl, s') := squeeze_st ((m - 1) / 8) (absorb_fn poseidon (map inj xs) s) in (firstn m bl, s').
Lemma squeeze_st_rel k : forall s, squeezeR pgraph k s (fst (squeeze_st k s)) (snd (squeeze_st k s)).
Proof.
  induction k as [|k IH]; intros s; cbn [squeeze_st squeezeR]; [now split|]. specialize (IH (poseidon s)). destruct (squeeze_st k (poseidon s)) as [bl s']. cbn [fst snd] in *.
  exists (poseidon s), bl. split; [reflexivity|]. now split.
Qed.
Lemma ask_phase xs m s : phase pgraph xs m s (fst (ask xs m s)) (snd (ask xs m s)).
Proof.
  unfold ask. pose proof (squeeze_st_rel ((m - 1) / 8) (absorb_fn poseidon (map inj xs) s)) as H. destruct (squeeze_st _ _) as [bl s']. cbn [fst snd] in *.
  eexists _, bl. split; [apply absorb_fn_rel|]. now split.
Qed.
(** the commit phase of FRI: the cap of the codeword c, then its beta *)
Fixpoint draw_betas (k : nat) (s : GF) (n : nat) (c : list K) (st : list GF) : list (list GF) * list GF :=
  match k with
  | O => ([], st)
  | S k' => let (y, st1) := ask (cap_elems (cap_of (coset_digest s n c) (n - 8))) 2 st in
            let (ys, st2) := draw_betas k' (s ^ 16)%GF (n - 4) (fold16 c (qeK y)) st1 in (y :: ys, st2)
  end.
Lemma draw_phases rest yss k : forall s n c st, phases pgraph rest (snd (draw_betas k s n c st)) yss ->
  phases pgraph (map (fun cap => (cap_elems cap, 2%nat)) (commit_caps s n c (map qeK (fst (draw_betas k s n c st)))) ++ rest) st (fst (draw_betas k s n c st) ++ yss).
Proof.
  induction k as [|k IH]; intros s n c st H; [exact H|]. cbn [draw_betas] in *.
  pose proof (ask_phase (cap_elems (cap_of (coset_digest s n c) (n - 8))) 2 st) as A. destruct (ask _ 2 st) as [y st1]. cbn [fst snd] in A.
  specialize (IH (s ^ 16)%GF (n - 4)%nat (fold16 c (qeK y)) st1). destruct (draw_betas k _ _ _ st1) as [ys st2]. cbn [fst snd] in *.
  cbn [map commit_caps app phases]. exists y, st1, (ys ++ yss). split; [exact A|]. split; [exact (IH H)|reflexivity].
Qed.
Lemma draw_length k : forall s n c st, length (fst (draw_betas k s n c st)) = k.
Proof.
  induction k as [|k IH]; intros s n c st; [reflexivity|]. cbn [draw_betas]. destruct (ask _ 2 st) as [y st1].
  specialize (IH (s ^ 16)%GF (n - 4)%nat (fold16 c (qeK y)) st1). destruct (draw_betas k _ _ _ st1) as [ys st2]. cbn [fst length] in *. now rewrite IH.
Qed.
Record session := mkSession { v_chal : chalK; v_alpha : K; v_fri_betas : list K; v_pow : GF; v_indices : list GF }.
Section FiatShamir.
  Context (cd : CommonCircuitData) (gates : list Gate) (h : list GF) (cs sigmas ws : list (list GF)) (salts : nat -> Z -> list Z) (digest witness : Z).
  Notation nc := (NumChallenges (cd_Config cd)).
  Notation params := (cd_FriParams cd).
  Notation caps := (sent_caps cd gates h cs sigmas ws salts).
  (** every commitment is made from the challenges drawn before *)
  Definition fiat_shamir : session :=
    let (y1, s1) := ask (digits56 digest ++ map rep h ++ cap_elems (nth 1 (caps (mkChalK [] [] [] k0)) [])) (nc + nc) (repeat g0 12) in
    let (betas, gammas) := (firstn nc y1, skipn nc y1) in
    let (alphas, s2) := ask (cap_elems (nth 2 (caps (mkChalK betas gammas [] k0)) [])) nc s1 in
    let (y3, s3) := ask (cap_elems (nth 3 (caps (mkChalK betas gammas alphas k0)) [])) 2 s2 in
    let c := mkChalK betas gammas alphas (qeK y3) in
    let (y4, s4) := ask (openings_elems (repO (sent_opens cd gates h cs sigmas ws c))) 2 s3 in
    let word := honest_codeword (sent_tables cd gates h cs sigmas ws c) params (qeK y4) (fri_points cd (c_zeta c)) in
    let (ys, s5) := draw_betas (length (ReductionArityBits params)) g7 (LdeBits params) word s4 in
    let (y5, _) := ask (flat_map qe_list (map repK (commit_final word (map qeK ys))) ++ [witness]) (1 + NumQueryRounds (cc_FriConfig (cd_Config cd))) s5 in
    mkSession c (qeK y4) (map qeK ys) (hd g0 y5) (tl y5).
  Definition session_proof (S : session) : Proof_ := sent_proof cd gates h cs sigmas ws salts (v_chal S) (v_alpha S) (v_fri_betas S) (v_indices S) witness.
  Lemma fiat_shamir_ok vd (S := fiat_shamir) : CircuitDigest vd = digest -> transcript_shape nc (session_proof S) ->
    transcript_gives cd (session_proof S) (map rep h) vd pgraph (repC (v_chal S) (fc_of (v_alpha S) (v_fri_betas S) (v_pow S) (v_indices S))) /\
    length (c_betas (v_chal S)) = nc /\ length (c_gammas (v_chal S)) = nc /\ length (c_alphas (v_chal S)) = nc /\
    length (v_fri_betas S) = length (ReductionArityBits params) /\ length (v_indices S) = NumQueryRounds (cc_FriConfig (cd_Config cd)).
  Proof.
    intros Hd HT. subst S. unfold fiat_shamir in *.
    pose proof (ask_phase (digits56 digest ++ map rep h ++ cap_elems (nth 1 (caps (mkChalK [] [] [] k0)) [])) (nc + nc) (repeat g0 12)) as P1.
    destruct (ask _ (nc + nc) (repeat g0 12)) as [y1 s1]. cbn [fst snd] in P1.
    pose proof (ask_phase (cap_elems (nth 2 (caps (mkChalK (firstn nc y1) (skipn nc y1) [] k0)) [])) nc s1) as P2.
    destruct (ask _ nc s1) as [y2 s2]. cbn [fst snd] in P2.
    pose proof (ask_phase (cap_elems (nth 3 (caps (mkChalK (firstn nc y1) (skipn nc y1) y2 k0)) [])) 2 s2) as P3.
    destruct (ask _ 2 s2) as [y3 s3]. cbn [fst snd] in P3.
    set (c := mkChalK (firstn nc y1) (skipn nc y1) y2 (qeK y3)) in *.
    pose proof (ask_phase (openings_elems (repO (sent_opens cd gates h cs sigmas ws c))) 2 s3) as P4.
    destruct (ask _ 2 s3) as [y4 s4]. cbn [fst snd] in P4.
    set (word := honest_codeword (sent_tables cd gates h cs sigmas ws c) params (qeK y4) (fri_points cd (c_zeta c))) in *.
    pose proof (fun rest yss => draw_phases rest yss (length (ReductionArityBits params)) g7 (LdeBits params) word s4) as P5.
    pose proof (draw_length (length (ReductionArityBits params)) g7 (LdeBits params) word s4) as L5.
    destruct (draw_betas _ g7 (LdeBits params) word s4) as [ys s5]. cbn [fst snd] in P5, L5.
    pose proof (ask_phase (flat_map qe_list (map repK (commit_final word (map qeK ys))) ++ [witness]) (1 + NumQueryRounds (cc_FriConfig (cd_Config cd))) s5) as P6.
    destruct (ask _ _ s5) as [y5 s6]. cbn [fst snd] in P6. cbn [v_chal v_alpha v_fri_betas v_pow v_indices] in *.
    unfold session_proof in *. cbn [v_chal v_alpha v_fri_betas v_pow v_indices] in *.
    set (pr := sent_proof cd gates h cs sigmas ws salts c (qeK y4) (map qeK ys) (tl y5) witness) in *.
    assert (PH : phases pgraph (transcript_phases nc (NumQueryRounds (cc_FriConfig (cd_Config cd))) (CircuitDigest vd) (map rep h) pr) zeros12 ([y1; y2; y3; y4] ++ ys ++ [y5])).
    { rewrite Hd. unfold transcript_phases. cbn [app phases]. exists y1, s1. eexists. split; [exact P1|]. split; [|reflexivity].
      exists y2, s2. eexists. split; [exact P2|]. split; [|reflexivity]. exists y3, s3. eexists. split; [exact P3|]. split; [|reflexivity].
      exists y4, s4. eexists. split; [exact P4|]. split; [|reflexivity]. apply P5. exists y5, s6, []. split; [exact P6|]. now split. }
    destruct (transcript_split pgraph _ _ _ _ _ _ okP_pgraph HT PH) as (z1 & z2 & z3 & z4 & bs & z5 & E & Lc & L1 & L2 & L3 & L4 & Lb & L6).
    cbn [app] in E. injection E as <- <- <- <- E. apply app_inj_tail in E. destruct E as [<- <-].
    split.
    - exists y1, y2, y3, y4, ys, y5. split; [exact PH|]. split; [exact Lc|].
      unfold repC, fc_of, c. cbn [PlonkBetas PlonkGammas PlonkAlphas PlonkZeta pc_FriChallenges FriAlpha FriBetas FriPowResponse FriQueryIndices c_betas c_gammas c_alphas c_zeta].
      rewrite <- !toQE_repK, <- map_toQE by assumption. repeat split; reflexivity.
    - unfold c. cbn [c_betas c_gammas c_alphas]. rewrite firstn_length, skipn_length, map_length. repeat split; try lia. destruct y5; cbn [length tl] in *; lia.
  Qed.
End FiatShamir.
