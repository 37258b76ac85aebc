(** * Proofs about the verifier circuit *)
From Coq Require Import String.
From Coq Require Import ZArith NArith Lia List Bool.
From Verif Require Import Zp GF Circuit Goldilocks GLProofs ExtProofs PoseidonSpec PoseidonGL PoseidonGLProofs Sponge DenP
  Types Challenger ChallengerProofs ChallengerPhases Transcript Prop_Challenger Roots Fri FriMerkle FriEval FriQuery FriTop Prop_Fri
  Gates GateProofs GateFilter GateAll Prop_Gates Plonk PlonkProofs Prop_Plonk Verifier.
Import ListNotations.
Open Scope Z_scope.

(** ** Range checks *)
Definition canon_openings (o : OpeningSet) : Prop :=
  Forall canonQE (Constants o) /\ Forall canonQE (PlonkSigmas o) /\ Forall canonQE (Wires o) /\ Forall canonQE (PlonkZs o) /\
  Forall canonQE (PlonkZsNext o) /\ Forall canonQE (PartialProducts o) /\ Forall canonQE (QuotientPolys o).
Definition canon_proof (pr : Proof_) : Prop :=
  canon_openings (Openings pr) /\ canon_fri (OpeningProof pr) /\ canonZ (PowWitness (OpeningProof pr)).

Lemma iter_qe l : enforces (iterM RangeCheckQE l) (Forall canonQE l) tt.
Proof. apply enforces_iterM. intros x _. apply range_check_qe_correct. Qed.
Lemma range_openings_correct o : enforces (rangeCheckOpenings o) (canon_openings o) tt.
Proof.
  unfold rangeCheckOpenings, canon_openings.
  repeat (eapply enforces_bind; [apply iter_qe|intros _]). apply iter_qe.
Qed.
Lemma range_round_correct q : enforces (rangeCheckRound q) (canon_round q) tt.
Proof.
  unfold rangeCheckRound, canon_round, canon_leaves. eapply enforces_bind.
  - apply enforces_iterM. intros e _. apply enforces_iterM. intros x _. apply range_check_correct.
  - intros _. apply enforces_iterM. intros e _. apply iter_qe.
Qed.
Lemma range_proof_correct pr : enforces (rangeCheckProof pr) (canon_proof pr) tt.
Proof.
  unfold rangeCheckProof, canon_proof, canon_fri. eapply enforces_iff.
  - eapply enforces_bind; [apply range_openings_correct|]. intros _.
    eapply enforces_bind; [apply enforces_iterM; intros q _; apply range_round_correct|]. intros _.
    eapply enforces_bind; [apply iter_qe|]. intros _. apply range_check_correct.
  - unfold canonZ. tauto.
Qed.

(** ** Public inputs *)
Lemma reduce_all input : Forall (fun x => 0 <= x < r) input ->
  enforces (mapM Reduce input) (Forall reducible input) (map rep (map inj input)).
Proof.
  intros H. rewrite map_map. eapply enforces_iff.
  - apply (enforces_mapM _ (fun x => rep (inj x)) (fun x => x < 2 ^ 144 * p)). intros x Hx.
    rewrite Forall_forall in H. eapply enforces_eq; [apply reduce_correct, H, Hx|]. now rewrite rep_inj.
  - split; intros F; apply Forall_forall; intros x Hx; rewrite Forall_forall in F, H; specialize (F x Hx); specialize (H x Hx); unfold reducible in *; lia.
Qed.
Lemma sponge_graph input n h : sponge_rel g0 pgraph input n h -> h = sponge g0 poseidon input n.
Proof.
  unfold sponge_rel, sponge. intros (st & bl & A & S & ->). apply f_equal.
  assert (E : st = absorb_fn poseidon input (repeat g0 12)).
  { unfold absorb_rel, absorb_fn in *. revert A. generalize (repeat g0 12). induction (chunks 8 input) as [|c l IH]; intros s; cbn [chainR fold_left]; [now intros ->|].
    intros (u & -> & C). now apply IH. }
  subst st. revert S. generalize (absorb_fn poseidon input (repeat g0 12)). revert bl.
  induction ((n - 1) / 8)%nat as [|k IH]; intros bl s; cbn [squeeze_rel squeeze_fn]; [now intros ->|].
  intros (s' & o & -> & S & ->). apply f_equal. now apply IH.
Qed.
Lemma sponge_graph_is input n : sponge_rel g0 pgraph input n (sponge g0 poseidon input n).
Proof.
  unfold sponge_rel, sponge. exists (absorb_fn poseidon input (repeat g0 12)). eexists. split; [|split; [|reflexivity]].
  - unfold absorb_rel, absorb_fn. generalize (repeat g0 12). induction (chunks 8 input) as [|c l IH]; intros s; cbn [chainR fold_left]; [reflexivity|].
    eexists. split; [reflexivity|apply IH].
  - generalize (absorb_fn poseidon input (repeat g0 12)). induction ((n - 1) / 8)%nat as [|k IH]; intros s; cbn [squeeze_rel squeeze_fn]; [reflexivity|].
    eexists _, _. split; [reflexivity|]. split; [apply IH|reflexivity].
Qed.
Lemma public_inputs_denP w pis : 128 <= w -> Forall (fun x => 0 <= x < r) pis ->
  denP w (map rep) (GetPublicInputsHash w pis) (fun P h => Forall reducible pis /\ sponge_rel g0 P (map inj pis) 4 h).
Proof.
  intros Hw H. pose proof (reduce_all pis H) as E. unfold GetPublicInputsHash. split.
  - intros h (HR & Hh). apply sponge_graph in Hh. subst h. exact (denR_run _ _ _ _ _ (hash_no_pad_denR w pis HR) Hw).
  - intros z. split.
    + intros R. assert (HR : Forall reducible pis).
      { unfold HashNoPad_w in R. apply reach_bind in R. destruct R as (v & R & _). apply (enforces_sound _ _ _ _ E) in R. apply R. }
      apply (proj1 (denR_reach _ _ _ _ _ z (hash_no_pad_denR w pis HR))) in R. destruct R as (h & -> & Hh). exists h. auto.
    + intros (h & -> & HR & Hh). apply (proj2 (denR_reach _ _ _ _ _ _ (hash_no_pad_denR w pis HR))). exists h. auto.
Qed.
Lemma squeeze4_len (P : permr) s bl : squeeze_rel P ((4 - 1) / 8) s bl -> length s = 12%nat -> length (firstn 4 bl) = 4%nat.
Proof. change ((4 - 1) / 8)%nat with O. cbn [squeeze_rel]. intros -> L. rewrite !firstn_length, L. reflexivity. Qed.
Lemma sponge4_len w P input h : P = pgraph \/ P = permw w -> sponge_rel g0 P input 4 h -> length h = 4%nat.
Proof.
  intros HP (st & bl & A & S & ->). apply (squeeze4_len P st bl S).
  unfold absorb_rel in A. clear S bl. revert A. assert (L : length (repeat g0 12) = 12%nat) by reflexivity. revert L.
  generalize (repeat g0 12). induction (chunks 8 input) as [|c l IH]; intros s L; cbn [chainR].
  - now intros ->.
  - intros (u & Hu & C). apply (IH u); [|exact C]. eapply (perm_len w P); eassumption.
Qed.

(** ** The challenges as field elements *)
Lemma okP_of w P : P = pgraph \/ P = permw w -> okP P.
Proof. intros [-> | ->]; [apply okP_pgraph|apply okP_permw]. Qed.
Definition fc_of (alpha : K) (betas : list K) (pow : GF) (indices : list GF) : FriChallenges :=
  mkFriChallenges (repK alpha) (map repK betas) (rep pow) (map rep indices).
Definition qeK (l : list GF) : K := (nth 0 l g0, nth 1 l g0).
Lemma toQE_repK l : length l = 2%nat -> toQE l = repK (qeK l).
Proof. destruct l as [|a [|b [|? ?]]]; try discriminate. reflexivity. Qed.
Lemma map_toQE ls : Forall (fun b => length b = 2%nat) ls -> map toQE ls = map repK (map qeK ls).
Proof. induction 1 as [|x l H F IH]; [reflexivity|]. cbn [map]. now rewrite IH, toQE_repK. Qed.

(** every transcript gives challenges of this form, with the expected numbers of elements *)
Lemma transcript_field w cd pr pih vd P ch : P = pgraph \/ P = permw w -> transcript_shape (NumChallenges (cd_Config cd)) pr ->
  transcript_gives cd pr pih vd P ch ->
  exists c alpha betas pow indices, ch = repC c (fc_of alpha betas pow indices) /\
    length (c_betas c) = NumChallenges (cd_Config cd) /\ length (c_gammas c) = NumChallenges (cd_Config cd) /\
    length (c_alphas c) = NumChallenges (cd_Config cd).
Proof.
  intros HP HS (y1 & y2 & y3 & y4 & bs & y5 & H & Lb & E1 & E2 & E3 & E4 & E5 & E6 & E7 & E8).
  destruct (transcript_split P _ _ _ _ _ _ (okP_of w P HP) HS H) as (z1 & z2 & z3 & z4 & cs & z5 & E & Lc & L1 & L2 & L3 & L4 & L5 & L6).
  cbn [app] in E. injection E as <- <- <- <- E. apply app_inj_tail in E. destruct E as [<- <-].
  exists (mkChalK (firstn (NumChallenges (cd_Config cd)) y1) (skipn (NumChallenges (cd_Config cd)) y1) y2 (qeK y3)), (qeK y4), (map qeK bs), (hd g0 y5), (tl y5).
  split; [|cbn [c_betas c_gammas c_alphas]; rewrite firstn_length, skipn_length; lia].
  destruct ch as [b g a z [fa fb fp fq]].
  cbn [PlonkBetas PlonkGammas PlonkAlphas PlonkZeta pc_FriChallenges FriAlpha FriBetas FriPowResponse FriQueryIndices] in *.
  subst. unfold repC, fc_of. cbn [c_betas c_gammas c_alphas c_zeta]. rewrite <- map_toQE, <- !toQE_repK by assumption. reflexivity.
Qed.
Lemma repC_inj c c' a b p i a' b' p' i' : repC c (fc_of a b p i) = repC c' (fc_of a' b' p' i') -> c = c' /\ a = a' /\ b = b' /\ p = p' /\ i = i'.
Proof.
  assert (MR : forall l l' : list GF, map rep l = map rep l' -> l = l').
  { induction l as [|x l IH]; intros [|y l'] E; try discriminate E; [reflexivity|]. cbn [map] in E. injection E as E1 E2. f_equal; [now apply GF_eq|auto]. }
  assert (MK : forall l l' : list K, map repK l = map repK l' -> l = l').
  { induction l as [|x l IH]; intros [|y l'] E; try discriminate E; [reflexivity|]. cbn [map] in E.
    pose proof (f_equal (hd (repK x)) E) as E1. pose proof (f_equal (@tl _) E) as E2. cbn [hd tl] in E1, E2.
    f_equal; [now apply repK_inj|auto]. }
  destruct c as [b1 g1 a1 z1], c' as [b2 g2 a2 z2]. unfold repC, fc_of. cbn [c_betas c_gammas c_alphas c_zeta]. intros E.
  pose proof (f_equal PlonkBetas E) as X1. pose proof (f_equal PlonkGammas E) as X2. pose proof (f_equal PlonkAlphas E) as X3.
  pose proof (f_equal PlonkZeta E) as X4. pose proof (f_equal (fun c => FriAlpha (pc_FriChallenges c)) E) as X5.
  pose proof (f_equal (fun c => FriBetas (pc_FriChallenges c)) E) as X6. pose proof (f_equal (fun c => FriPowResponse (pc_FriChallenges c)) E) as X7.
  pose proof (f_equal (fun c => FriQueryIndices (pc_FriChallenges c)) E) as X8.
  cbn [PlonkBetas PlonkGammas PlonkAlphas PlonkZeta pc_FriChallenges FriAlpha FriBetas FriPowResponse FriQueryIndices] in *.
  apply MR in X1, X2, X3, X8. apply repK_inj in X4, X5. apply MK in X6. apply GF_eq in X7. subst. auto.
Qed.

(** ** Openings as field elements *)
Definition injO (o : OpeningSet) : opensK :=
  mkOpensK (map injK (Constants o)) (map injK (PlonkSigmas o)) (map injK (Wires o)) (map injK (PlonkZs o))
           (map injK (PlonkZsNext o)) (map injK (PartialProducts o)) (map injK (QuotientPolys o)).
Lemma repO_injO o : canon_openings o -> repO (injO o) = o.
Proof.
  destruct o as [a b c d e f g]. intros (H1 & H2 & H3 & H4 & H5 & H6 & H7). unfold repO, injO.
  cbn [Constants PlonkSigmas Wires PlonkZs PlonkZsNext PartialProducts QuotientPolys o_cs o_sigmas o_ws o_zs o_zsn o_pps o_qs] in *.
  now rewrite !map_repK_injK by assumption.
Qed.
Lemma canon_reducible x : canonZ x -> reducible x.
Proof. unfold canonZ, reducible. intros H. pose proof p_pos. assert (1 < 2 ^ 144) by (vm_compute; reflexivity). nia. Qed.
Lemma canonQE_reducible l : Forall canonQE l -> Forall reducible (flat_map qe_list l).
Proof.
  induction 1 as [|x l [H1 H2] F IH]; [constructor|]. destruct x as [a b]. cbn [flat_map qe_list fst snd app] in *.
  repeat constructor; try (now apply canon_reducible). exact IH.
Qed.

(** ** The relation checked by the circuit *)
(** filter of gate i: product over the other gates of its group, and over the value for
    "unused" if there are several groups *)
Definition row_filter (info : SelectorsInfo) (cs : list K) (i : nat) : K :=
  let s := nth (selector_of info i) cs k0 in
  let (a, b) := group_of info i in
  (kprod (map (fun j => kz (Z.of_nat j) - s)%K (filter (fun j => negb (Nat.eqb j i)) (seq a (b - a)))) *
   (if Nat.ltb 1 (length (groups info)) then kz (2 ^ 32 - 1) - s else k1))%K.
(** [gate_k g] is the list of constraint polynomials of gate g, see C43-C50 *)
Definition gate_sum (info : SelectorsInfo) (gates : list Gate) (cs ws : list K) (h : list GF) (j : nat) : K :=
  ksum (map (fun i => row_filter info cs i * nth j (gate_k (nth i gates NoopGate) (skipn (length (groups info)) cs) ws h) k0)%K (seq 0 (length gates))).
Definition gate_sums (cd : CommonCircuitData) (gates : list Gate) (o : opensK) (h : list GF) : list K :=
  map (gate_sum (cd_SelectorsInfo cd) gates (o_cs o) (o_ws o) h) (seq 0 (NumGateConstraints cd)).

(** the vanishing identity at zeta *)
Definition plonk_ok (cd : CommonCircuitData) (gates : list Gate) (o : opensK) (h : list GF) (c : chalK) : Prop :=
  c_zeta c <> k1 /\
  forall i, (i < NumChallenges (cd_Config cd))%nat ->
    weighted (vanishing_terms cd (map inj (KIs cd)) c o (gate_sums cd gates o h)) (emb (nth i (c_alphas c) g0)) =
    ((zeta_n cd c - k1) * weighted (chunk (QuotientDegreeFactor cd) i (o_qs o)) (zeta_n cd c))%K.

(** FRI: two batches, opened at zeta and at g zeta *)
Definition fri_points (cd : CommonCircuitData) (zeta : K) : list (K * list (nat * nat)) :=
  [(zeta, fst (Prop_Fri.layout cd)); ((emb (root (cd_DegreeBits cd)) * zeta)%K, snd (Prop_Fri.layout cd))].
Definition fri_values (o : opensK) : list (list K) := [o_cs o ++ o_sigmas o ++ o_ws o ++ o_zs o ++ o_pps o ++ o_qs o; o_zsn o].

Definition accepts (cd : CommonCircuitData) (gates : list Gate) (pr : Proof_) (pis : list Z) (vd : VerifierOnlyCircuitData) (P : permr) : Prop :=
  canon_proof pr /\ Forall reducible pis /\
  exists h c alpha betas pow indices,
    sponge_rel g0 P (map inj pis) 4 h /\
    transcript_gives cd pr (map rep h) vd P (repC c (fc_of alpha betas pow indices)) /\
    plonk_ok cd gates (injO (Openings pr)) h c /\
    fri_ok (cd_FriParams cd) (friOracles cd) (fri_points cd (c_zeta c)) (fri_values (injO (Openings pr))) alpha betas pow indices
      [ConstantSigmasCap vd; WiresCap pr; PlonkZsPartialProductsCap pr; QuotientPolysCap pr] (OpeningProof pr).

(** ** What is assumed of the circuit data and of the lengths of the lists in the proof *)
Definition circuit_shape (cd : CommonCircuitData) (gates : list Gate) : Prop :=
  let nrw := NumRoutedWires (cd_Config cd) in let nc := NumChallenges (cd_Config cd) in
  let npp := NumPartialProducts cd in let q := QuotientDegreeFactor cd in
  (Forall canonZ (KIs cd) /\ nrw <= length (KIs cd) /\ cd_DegreeBits cd <= 32 /\ 1 <= q /\ (npp + 1) * q <= nrw /\ 1 <= nc)%nat /\
  Prop_Gates.layout (cd_SelectorsInfo cd) (length gates) /\ Forall (fun g => (num_constraints g <= NumGateConstraints cd)%nat) gates.
Definition opening_lengths (cd : CommonCircuitData) (gates : list Gate) (o : OpeningSet) : Prop :=
  let nrw := NumRoutedWires (cd_Config cd) in let nc := NumChallenges (cd_Config cd) in
  let npp := NumPartialProducts cd in let q := QuotientDegreeFactor cd in let sel := length (groups (cd_SelectorsInfo cd)) in
  (nrw <= length (PlonkSigmas o) /\ nrw <= length (Wires o) /\ nc <= length (PlonkZs o) /\ nc <= length (PlonkZsNext o) /\
   nc * npp <= length (PartialProducts o) /\ nc * q <= length (QuotientPolys o) /\ sel <= length (Constants o))%nat /\
  Forall (fits (length (Constants o) - sel) (length (Wires o))) gates.
Definition proof_shape (cd : CommonCircuitData) (gates : list Gate) (pr : Proof_) : Prop :=
  opening_lengths cd gates (Openings pr) /\
  PlonkZsPartialProductsCap pr <> [] /\ QuotientPolysCap pr <> [] /\ Forall (fun c => c <> []) (CommitPhaseMerkleCaps (OpeningProof pr)).
(** all inputs of the circuit are elements of the native field *)
Definition native (pr : Proof_) (pis : list Z) (vd : VerifierOnlyCircuitData) : Prop :=
  Forall inr_ pis /\ inr_ (CircuitDigest vd) /\ Forall inr_ (WiresCap pr) /\ Forall inr_ (PlonkZsPartialProductsCap pr) /\
  Forall inr_ (QuotientPolysCap pr) /\ Forall (Forall inr_) (CommitPhaseMerkleCaps (OpeningProof pr)).

Lemma row_filter_k info cs i : row_filter info cs i = filter_k i (group_of info i) (nth (selector_of info i) cs k0) (Nat.ltb 1 (length (groups info))).
Proof. unfold row_filter, filter_k, others_of. now destruct (group_of info i). Qed.
Lemma gate_sums_computes cd gates o h gate_cons : Prop_Gates.layout (cd_SelectorsInfo cd) (length gates) ->
  (length (groups (cd_SelectorsInfo cd)) <= length (o_cs o))%nat -> length h = 4%nat ->
  Forall (fits (length (o_cs o) - length (groups (cd_SelectorsInfo cd))) (length (o_ws o))) gates ->
  Forall (fun g => (num_constraints g <= NumGateConstraints cd)%nat) gates ->
  computes (EvaluateGateConstraints gates (NumGateConstraints cd) (cd_SelectorsInfo cd) (mkvars (o_cs o) (o_ws o) h)) (map repK gate_cons) ->
  gate_cons = gate_sums cd gates o h.
Proof.
  intros HL Hn Hh HF HN HC.
  destruct (C42_sum gates (NumGateConstraints cd) (cd_SelectorsInfo cd) (o_cs o) (o_ws o) h HL Hn Hh HF HN) as (outs & fs & res & H1 & H2 & H3 & H4 & H5 & H6).
  assert (U : forall a b : list K, map repK a = map repK b -> a = b).
  { induction a as [|x a IH]; intros [|y b] E; try discriminate E; [reflexivity|]. cbn [map] in E.
    pose proof (f_equal (hd (repK x)) E) as E1. pose proof (f_equal (@tl _) E) as E2. cbn [hd tl] in E1, E2. f_equal; [now apply repK_inj|auto]. }
  assert (D : forall (c : circ (list QE)) a b, computes c (map repK a) -> computes c (map repK b) -> a = b).
  { intros c a b A B. apply U. pose proof (computes_run _ _ B) as R. apply run_reach in R. exact (eq_sym (computes_reach _ _ _ A R)). }
  transitivity res; [eapply D; eassumption|]. apply (nth_ext _ _ k0 k0).
  - unfold gate_sums. now rewrite map_length, seq_length.
  - rewrite H5. intros j Hj. rewrite (H6 j Hj). unfold gate_sums. rewrite (nth_map_lt _ _ _ _ 0%nat), seq_nth by (rewrite ?seq_length; exact Hj).
    cbn [Nat.add]. unfold gate_sum. apply f_equal. apply map_ext_in. intros i Hi. apply in_seq in Hi.
    assert (Hi' : (i < length gates)%nat) by lia.
    f_equal.
    + apply repK_inj. rewrite row_filter_k. pose proof (H3 i Hi') as F.
      assert (F' : computes (computeFilter i (group_of (cd_SelectorsInfo cd) i) (repK (nth (selector_of (cd_SelectorsInfo cd) i) (o_cs o) k0)) (Nat.ltb 1 (length (groups (cd_SelectorsInfo cd)))))
                            (repK (filter_k i (group_of (cd_SelectorsInfo cd) i) (nth (selector_of (cd_SelectorsInfo cd) i) (o_cs o) k0) (Nat.ltb 1 (length (groups (cd_SelectorsInfo cd))))))).
      { apply filter_computes. apply HL. exact Hi'. }
      pose proof (computes_run _ _ F) as R. apply run_reach in R. exact (computes_reach _ _ _ F' R).
    + f_equal. pose proof (gates_k_ok (o_cs o) (o_ws o) h (cd_SelectorsInfo cd) gates HF Hh) as G. unfold gates_ok in G.
      assert (X : outs = map (fun g => gate_k g (skipn (ns (cd_SelectorsInfo cd)) (o_cs o)) (o_ws o) h) gates).
      { clear - H1 G D. revert outs H1. induction gates as [|g gs IH]; intros outs H1; inversion H1; subst; [reflexivity|].
        cbn [map] in *. inversion G; subst. f_equal; [eapply D; eassumption|]. now apply IH. }
      rewrite X, (nth_map_lt _ _ _ _ NoopGate) by exact Hi'. reflexivity.
Qed.

Lemma map_rep_inj l : Forall canonZ l -> l = map rep (map inj l).
Proof. induction 1 as [|x l H F IH]; [reflexivity|]. cbn [map]. rewrite <- IH, rep_inj_small by exact H. reflexivity. Qed.

Section Verify.
  Context (w : Z) (cd : CommonCircuitData) (gates : list Gate) (pr : Proof_) (pis : list Z) (vd : VerifierOnlyCircuitData).
  Context (Hw : 128 <= w) (HC : circuit_shape cd gates) (HS : proof_shape cd gates pr) (HN : native pr pis vd).
  Let o := injO (Openings pr).

  Lemma plonk_part h c fc : canon_openings (Openings pr) -> length h = 4%nat ->
    length (c_betas c) = NumChallenges (cd_Config cd) -> length (c_gammas c) = NumChallenges (cd_Config cd) ->
    length (c_alphas c) = NumChallenges (cd_Config cd) ->
    enforces (PlonkVerify cd gates (repC c fc) (Openings pr) (map rep h)) (plonk_ok cd gates o h c) tt.
  Proof.
    intros Hc Lh L1 L2 L3. destruct HC as ((C1 & C2 & C3 & C4 & C5 & C6) & C7 & C8).
    destruct HS as (((O1 & O2 & O3 & O4 & O5 & O6 & O7) & O8) & _).
    rewrite <- (repO_injO _ Hc). fold o.
    assert (S : plonk_shape cd gates (map inj (KIs cd)) c o h).
    { unfold plonk_shape, o, injO. cbn [o_cs o_sigmas o_ws o_zs o_zsn o_pps o_qs]. rewrite !map_length, L1, L2, L3.
      split; [|split].
      - split; [now apply map_rep_inj|]. repeat split; try assumption. lia.
      - repeat split; try assumption; lia.
      - repeat (split; [assumption|]). assumption. }
    destruct (C40_vanishing cd gates (map inj (KIs cd)) c fc o h S) as (gc & G1 & G2 & G3).
    destruct S as (_ & _ & S1 & S2 & S3 & S4 & S5).
    rewrite (gate_sums_computes cd gates o h gc S1 S2 S3 S4 S5 G1) in G3. exact G3.
  Qed.

  Lemma fri_part zeta alpha betas pow indices : canon_openings (Openings pr) -> canon_fri (OpeningProof pr) ->
    enforces (instance <- GetInstance cd (repK zeta);;
              VerifyFriProof (cd_FriParams cd) instance (ToOpenings (Openings pr)) (fc_of alpha betas pow indices)
                [ConstantSigmasCap vd; WiresCap pr; PlonkZsPartialProductsCap pr; QuotientPolysCap pr] (OpeningProof pr))
      (fri_ok (cd_FriParams cd) (friOracles cd) (fri_points cd zeta) (fri_values o) alpha betas pow indices
        [ConstantSigmasCap vd; WiresCap pr; PlonkZsPartialProductsCap pr; QuotientPolysCap pr] (OpeningProof pr)) tt.
  Proof.
    intros Hc Hf. destruct HC as ((C1 & C2 & C3 & C4 & C5 & C6) & _).
    destruct (C37_instance cd zeta C3) as (g & Hg & HI).
    assert (E : g = root (cd_DegreeBits cd)).
    { apply GF_eq. pose proof (root_computes _ C3) as R. pose proof (computes_run _ _ R) as R'. apply run_reach in R'. exact (eq_sym (computes_reach _ _ _ Hg R')). }
    subst g. eapply computes_enforces_bind; [exact HI|].
    assert (T : ToOpenings (Openings pr) = map (map repK) (fri_values o)).
    { rewrite <- (repO_injO _ Hc) at 1. fold o. unfold ToOpenings, repO, fri_values. cbn [Constants PlonkSigmas Wires PlonkZs PlonkZsNext PartialProducts QuotientPolys map].
      now rewrite !map_app. }
    rewrite T. unfold fc_of. apply (verify_fri_correct _ _ (fri_points cd zeta)); [exact Hf|discriminate|reflexivity].
  Qed.

  Definition rest_ok (h : list GF) (ch : ProofChallenges) : Prop :=
    exists c alpha betas pow indices, ch = repC c (fc_of alpha betas pow indices) /\ plonk_ok cd gates o h c /\
      fri_ok (cd_FriParams cd) (friOracles cd) (fri_points cd (c_zeta c)) (fri_values o) alpha betas pow indices
        [ConstantSigmasCap vd; WiresCap pr; PlonkZsPartialProductsCap pr; QuotientPolysCap pr] (OpeningProof pr).

  Lemma shape_transcript : transcript_shape (NumChallenges (cd_Config cd)) pr.
  Proof.
    destruct HS as (((O1 & O2 & O3 & O4 & O5 & O6 & O7) & O8) & S1 & S2 & S3). destruct HC as ((C1 & C2 & C3 & C4 & C5 & C6) & _).
    unfold transcript_shape. repeat (split; [assumption|]). split; [|assumption].
    intros E. apply (f_equal (@length Z)) in E. unfold openings_elems in E. rewrite app_length in E.
    assert (L : forall l, length (flat_map qe_list l) = (2 * length l)%nat).
    { induction l as [|[a b] l IH]; [reflexivity|]. cbn [flat_map qe_list app length]. rewrite IH. lia. }
    rewrite !L in E. cbn [length] in E. lia.
  Qed.
  Lemma ok_transcript h : canon_proof pr -> transcript_ok (CircuitDigest vd) (map rep h) pr.
  Proof.
    intros ((A1 & A2 & A3 & A4 & A5 & A6 & A7) & (B1 & B2) & B3). destruct HN as (N1 & N2 & N3 & N4 & N5 & N6).
    assert (H1 : Forall reducible (map rep h)).
    { apply Forall_map. apply Forall_forall. intros x _. apply canon_reducible, rep_range. }
    assert (H2 : Forall reducible (openings_elems (Openings pr))).
    { unfold openings_elems. apply Forall_app. split; apply canonQE_reducible; [|assumption]. rewrite !Forall_app. auto 8. }
    unfold transcript_ok. auto 10 using canonQE_reducible, canon_reducible.
  Qed.

  Lemma challenges_denP h : canon_proof pr ->
    denP w (fun ch => ch) (GetChallenges w cd pr (map rep h) vd) (fun P ch => transcript_gives cd pr (map rep h) vd P ch).
  Proof.
    intros Hp. pose proof (ok_transcript h Hp) as OK. pose proof shape_transcript as SH. split.
    - intros ch H. apply (transcript_gives_mops cd pr (map rep h) vd SH pgraph ch okP_pgraph) in H. destruct H as (ys & -> & M).
      exact (denP_run _ _ _ _ ys (get_challenges_chf w cd pr (map rep h) vd Hw OK) M).
    - intros z. rewrite (C28_transcript_exact w cd pr (map rep h) vd Hw OK SH z). split.
      + intros H. exists z. auto.
      + intros (y & -> & H). exact H.
  Qed.

  Theorem verify_denP : denP w (fun _ : unit => tt) (Verify w cd gates pr pis vd) (fun P _ => accepts cd gates pr pis vd P).
  Proof.
    eapply denP_iff2.
    - unfold Verify. eapply denP_enforces_bind; [apply range_proof_correct|]. intros Hp.
      eapply (denP_bind w (map rep) _ _ _ _ (fun P h _ => exists ch, transcript_gives cd pr (map rep h) vd P ch /\ rest_ok h ch)).
      { apply public_inputs_denP; [exact Hw|apply HN]. }
      intros h Hh.
      assert (Lh : length h = 4%nat) by (destruct Hh as [[_ Hh]|[_ Hh]]; [refine (sponge4_len w _ _ _ _ Hh); now left|refine (sponge4_len w _ _ _ _ Hh); now right]).
      eapply (denP_bind w (fun ch => ch) _ _ _ _ (fun _ ch _ => rest_ok h ch)); [now apply challenges_denP|].
      intros ch Hch.
      assert (F : exists c alpha betas pow indices, ch = repC c (fc_of alpha betas pow indices) /\
        length (c_betas c) = NumChallenges (cd_Config cd) /\ length (c_gammas c) = NumChallenges (cd_Config cd) /\
        length (c_alphas c) = NumChallenges (cd_Config cd)).
      { destruct Hch as [Hch|Hch]; [refine (transcript_field w _ _ _ _ _ _ _ shape_transcript Hch); now left|refine (transcript_field w _ _ _ _ _ _ _ shape_transcript Hch); now right]. }
      destruct F as (c & alpha & betas & pow & indices & E & L1 & L2 & L3). subst ch.
      destruct Hp as (P1 & P2 & P3).
      eapply denP_iff; [apply (denP_enforces w (fun _ : unit => tt) _ (plonk_ok cd gates o h c /\
          fri_ok (cd_FriParams cd) (friOracles cd) (fri_points cd (c_zeta c)) (fri_values o) alpha betas pow indices
            [ConstantSigmasCap vd; WiresCap pr; PlonkZsPartialProductsCap pr; QuotientPolysCap pr] (OpeningProof pr)) tt)|].
      + eapply enforces_bind; [now apply plonk_part|]. intros _. cbv zeta. now apply fri_part.
      + intros _ []. split.
        * intros [[H1 H2] _]. exists c, alpha, betas, pow, indices. auto.
        * intros (c' & a' & b' & p' & i' & E & H1 & H2). apply repC_inj in E. destruct E as (<- & <- & <- & <- & <-). auto.
    - intros P x _. cbn beta. unfold accepts. split.
      + intros (Hp & h & (Hr & Hh) & ch & Ht & c & alpha & betas & pow & indices & -> & H1 & H2).
        split; [exact Hp|]. split; [exact Hr|]. exists h, c, alpha, betas, pow, indices. auto.
      + intros (Hp & Hr & h & c & alpha & betas & pow & indices & Hh & Ht & H1 & H2).
        split; [exact Hp|]. exists h. split; [auto|]. eexists. split; [exact Ht|]. exists c, alpha, betas, pow, indices. auto.
  Qed.
End Verify.
