(** * Properties C26-C28: the Fiat-Shamir challenger.

    [P : permr] below is a relation between sponge states.  [pgraph] is the graph of the
    textbook Poseidon permutation; [permw w] is the relation that the permutation circuit
    with S-box width [w] enforces (C19_exact_outputs); the code has w = 192. *)
From Coq Require Import String.
From Coq Require Import ZArith Lia List Bool.
From Verif Require Import Zp GF Circuit Goldilocks PoseidonSpec PoseidonGL PoseidonGLProofs Sponge DenP BN254 BN254Hash Types
  Challenger ChallengerProofs ChallengerPhases Transcript ChallengerTop Prop_Poseidon Prop_BN254.
Import ListNotations.
Open Scope Z_scope.
Open Scope circ_scope.

(** ** C26 *)
(** Every sequence of ObserveElement / GetChallenge calls has the shape: [k] challenges,
    then phases (observe at least one element, then draw at least one challenge), then
    observations. *)
Theorem C26_normal_form ops : exists k l xs, Forall phase_ok l /\ ops = asks k ++ phase_ops l ++ observes xs.
Proof. apply normal_form. Qed.

(** For every such sequence on a new chip, the challenges that a satisfying assignment
    can give are exactly those of the duplex sponge [duplex_spec]. *)
Theorem C26_duplex_exact w k l xs : 128 <= w -> Forall phase_ok l ->
  let ops := asks k ++ phase_ops l ++ observes xs in
  Forall op_ok ops ->
  forall out, (exists c, reach (drive w NewChip ops) (out, c)) <->
              exists ys, out = map rep ys /\ duplex_spec (permw w) k l ys.
Proof.
  intros Hw Hl ops Hok out. change NewChip with (rc cst0).
  pose proof (drive_chg w ops Hw Hok cst0 inv0) as [_ H2]. split.
  - intros (c & R). apply H2 in R. destruct R as ([ys t] & E & M). cbn [fst snd] in *.
    exists ys. split; [now injection E|]. apply (duplex_mops (permw w) k l xs); auto using okP_permw, totalP_permw.
    fold ops. eauto.
  - intros (ys & -> & D). apply (duplex_mops (permw w) k l xs) in D; auto using okP_permw, totalP_permw.
    destruct D as (t & M). exists (rc t). apply H2. exists (ys, t). auto.
Qed.
(** The honest solver succeeds on every sequence and returns the challenges of the
    duplex sponge of the textbook permutation, which are unique. *)
Theorem C26_duplex_honest w k l xs : 128 <= w -> Forall phase_ok l ->
  let ops := asks k ++ phase_ops l ++ observes xs in
  Forall op_ok ops ->
  exists ys c, run (drive w NewChip ops) = Done (map rep ys, c) /\
               forall ys', duplex_spec pgraph k l ys' <-> ys' = ys.
Proof.
  intros Hw Hl ops Hok. change NewChip with (rc cst0).
  pose proof (drive_chg w ops Hw Hok cst0 inv0) as [H1 _].
  destruct (mops_total pgraph okP_pgraph totalP_pgraph ops cst0 inv0 Hok) as (ys & t & M).
  exists ys, (rc t). split; [exact (H1 (ys, t) M)|]. intros ys'.
  rewrite <- (duplex_mops pgraph k l xs ys'); auto using okP_pgraph, totalP_pgraph. fold ops. split.
  - intros (t' & M'). eapply mops_fun; eauto.
  - intros ->. eauto.
Qed.
(** For the S-box widths for which the permutation circuit is sound, any satisfying
    assignment gives the challenges of the textbook duplex sponge.  Missing for the full
    claim: the width 192 of the code, where C19 is refuted. *)
Theorem C26_duplex_partial w k l xs : 128 <= w <= 189 -> Forall phase_ok l ->
  let ops := asks k ++ phase_ops l ++ observes xs in
  Forall op_ok ops ->
  forall out c, reach (drive w NewChip ops) (out, c) -> exists ys, out = map rep ys /\ duplex_spec pgraph k l ys.
Proof.
  intros Hw Hl ops Hok out c R. change NewChip with (rc cst0) in R.
  pose proof (drive_chg w ops ltac:(lia) Hok cst0 inv0) as [_ H2].
  apply H2 in R. destruct R as ([ys t] & E & M). cbn [fst snd] in *.
  exists ys. split; [now injection E|]. apply (duplex_mops pgraph k l xs); auto using okP_pgraph, totalP_pgraph.
  exists t. apply (mops_ext _ _ (permw_pgraph w Hw)). exact M.
Qed.

(** Grouping: the other entry points are the same as observing their elements one by one,
    whatever the state of the chip. *)
Lemma foldM_app {A B} (f : B -> A -> circ B) l1 l2 : forall acc z,
  reach (foldM f acc (l1 ++ l2)) z <-> exists u, reach (foldM f acc l1) u /\ reach (foldM f u l2) z.
Proof.
  induction l1 as [|x l1 IH]; intros acc z; cbn [app foldM].
  - cbn [reach]. split; [intros H; exists acc; auto|intros (u & <- & H); exact H].
  - rewrite reach_bind. split.
    + intros (a & Ra & R). apply IH in R. destruct R as (u & R1 & R2). exists u. split; [|exact R2].
      apply reach_bind. eauto.
    + intros (u & R1 & R2). apply reach_bind in R1. destruct R1 as (a & Ra & R1). exists a. split; [exact Ra|].
      apply IH. eauto.
Qed.
Lemma foldM_flat {A B C} (f : B -> A -> circ B) (g : C -> list A) (h : B -> C -> circ B) l : 
  (forall acc c z, In c l -> (reach (h acc c) z <-> reach (foldM f acc (g c)) z)) ->
  forall acc z, reach (foldM h acc l) z <-> reach (foldM f acc (flat_map g l)) z.
Proof.
  induction l as [|c l IH]; intros H acc z; cbn [foldM flat_map]; [reflexivity|].
  rewrite foldM_app, reach_bind. split; intros (u & R1 & R2); exists u.
  - split; [apply H; [apply in_eq|exact R1]|]. apply IH; [intros; apply H; auto using in_cons|exact R2].
  - split; [apply H; [apply in_eq|exact R1]|]. apply IH; [intros; apply H; auto using in_cons|exact R2].
Qed.
Theorem C26_grouping_elements w c xs ys z :
  reach (ObserveElements w c (xs ++ ys)) z <->
  exists d, reach (ObserveElements w c xs) d /\ reach (ObserveElements w d ys) z.
Proof. apply foldM_app. Qed.
Theorem C26_grouping_cap w c cap z : Forall (fun h => 0 <= h < r) cap ->
  (reach (ObserveCap w c cap) z <-> reach (ObserveElements w c (flat_map digits56 cap)) z).
Proof.
  intros Hc. apply foldM_flat. intros acc h y Hh. rewrite Forall_forall in Hc. specialize (Hc h Hh).
  unfold ObserveBN254Hash. rewrite reach_bind. split.
  - intros (l & R1 & R2). apply (computes_reach _ _ _ (ToVec_digits h Hc)) in R1. now subst.
  - intros R. exists (digits56 h). split; [|exact R]. apply run_reach, computes_run, ToVec_digits, Hc.
Qed.
Theorem C26_grouping_extension w c l z :
  reach (ObserveExtensionElements w c l) z <->
  reach (ObserveElements w c (flat_map (fun a => [fst a; snd a]) l)) z.
Proof. apply foldM_flat. reflexivity. Qed.
Theorem C26_grouping_openings w c l z :
  reach (ObserveOpenings w c l) z <->
  reach (ObserveElements w c (flat_map (fun a => [fst a; snd a]) (concat l))) z.
Proof.
  assert (E : flat_map (fun a : QE => [fst a; snd a]) (concat l) = flat_map (flat_map (fun a : QE => [fst a; snd a])) l).
  { induction l as [|x l IH]; [reflexivity|]. cbn [flat_map concat]. rewrite flat_map_app, IH. reflexivity. }
  fold QE. rewrite E.
  exact (foldM_flat (ObserveElement w) (flat_map (fun a : QE => [fst a; snd a])) (ObserveExtensionElements w) l
    (fun acc c0 z0 _ => C26_grouping_extension w acc c0 z0) c z).
Qed.

(** a case: no observation at all; the first challenge is lane 7 of the permutation of zeros *)
Example C26_first_challenge : exists c, run (GetChallenge 192 NewChip) = Done (2047012902665707362, c).
Proof.
  destruct (get_chg 192 ltac:(lia) cst0 inv0) as [H _].
  assert (M : mops pgraph (asks 1) cst0 [nth 7 (poseidon (repeat g0 12)) g0] (fresh (poseidon (repeat g0 12)) 7)).
  { apply ensure_asks; [lia|apply okP_pgraph|]. exists (fresh (poseidon (repeat g0 12)) 8).
    split; [exists (poseidon (repeat g0 12)); split; reflexivity|].
    apply asks_pop; [apply poseidon_len|lia|]. rewrite rev_firstn_succ by (rewrite poseidon_len; lia). split; reflexivity. }
  eexists. etransitivity; [exact (H (_, _) M)|]. cbn [fst snd hd].
  apply (f_equal (@Done (Z * chal))). apply (f_equal2 pair); [|reflexivity].
  rewrite <- (map_nth rep). rewrite C18_zero. reflexivity.
Qed.
(** a case with leading challenges, three phases (the second absorbs more than one block,
    the third draws more than one block) and trailing observations *)
Example C26_case : let l := [([5], 1%nat); ([1;2;3;4;5;6;7;8;9], 2%nat); ([p - 1], 9%nat)] in
  Forall phase_ok l /\ Forall op_ok (asks 3 ++ phase_ops l ++ observes [7; 2 ^ 100]).
Proof.
  split.
  - repeat (apply Forall_cons; [split; cbn [fst snd]; [discriminate|lia]|]). apply Forall_nil.
  - cbn. repeat (apply Forall_cons; [first [exact I | split; vm_compute; congruence]|]). apply Forall_nil.
Qed.

(** ** C27 *)
(** In every run of every sequence of operations, whatever the permutation is, there is a
    history of blocks of observed elements and of states after each block such that the
    g-th challenge is a lane below 8 of a state, the blocks absorbed up to that state are
    exactly all elements observed before the challenge was drawn, and no lane of a state
    is used twice. *)
Theorem C27_no_stale P ops ys t : okP P -> mops P ops cst0 ys t ->
  exists blocks states idx,
    history P (repeat g0 12) blocks states /\
    Forall (fun b => (length b <= 8)%nat) blocks /\
    length idx = length ys /\ NoDup idx /\
    forall g, (g < length ys)%nat -> let '(k, i) := nth g idx (O, O) in
      (k < length states)%nat /\ (i < 8)%nat /\
      nth g ys g0 = nth i (nth k states []) g0 /\
      concat (firstn (S k) blocks) = observed_before ops g.
Proof.
  intros HP H. destruct (run_history P HP ops ys t H) as (blocks & states & idx & A1 & A2 & A3 & A4 & A5 & _).
  exists blocks, states, idx. rewrite (mops_len _ _ _ _ _ H). repeat (split; [assumption|]).
  intros g Hg. destruct (A4 g Hg) as (B1 & B2 & B3 & B4). destruct (nth g idx (O, O)) as [k i]. auto.
Qed.
(** the same for the circuits of the code *)
Theorem C27_no_stale_circuit w ops out c : 128 <= w -> Forall op_ok ops -> reach (drive w NewChip ops) (out, c) ->
  exists blocks states idx,
    history (permw w) (repeat g0 12) blocks states /\
    Forall (fun b => (length b <= 8)%nat) blocks /\
    length idx = length out /\ NoDup idx /\
    forall g, (g < length out)%nat -> let '(k, i) := nth g idx (O, O) in
      (k < length states)%nat /\ (i < 8)%nat /\
      nth g out 0 = rep (nth i (nth k states []) g0) /\
      concat (firstn (S k) blocks) = observed_before ops g.
Proof.
  intros Hw Hok R. change NewChip with (rc cst0) in R.
  apply (drive_chg w ops Hw Hok cst0 inv0) in R. destruct R as ([ys t] & E & M). cbn [fst snd] in *. injection E as -> ->.
  destruct (C27_no_stale (permw w) ops ys t (okP_permw w) M) as (bl & st & idx & A1 & A2 & A3 & A4 & A5).
  exists bl, st, idx. rewrite map_length. repeat (split; [assumption|]).
  intros g Hg. specialize (A5 g Hg). destruct (nth g idx (O, O)) as [k i]. destruct A5 as (B1 & B2 & B3 & B4).
  repeat (split; [assumption|]). split; [|exact B4]. rewrite <- B3. change 0 with (rep g0). apply map_nth.
Qed.
(** what [observed_before] is on an example *)
Example C27_observed_before : observed_before [OObs 1; OGet; OObs 2; OObs 3; OGet; OGet; OObs 4] 1 = [1; 2; 3].
Proof. reflexivity. Qed.
Example C27_case : exists out c, reach (drive 192 NewChip [OObs 1; OGet; OObs 2; OGet]) (out, c).
Proof.
  assert (Hok : Forall op_ok [OObs 1; OGet; OObs 2; OGet]).
  { repeat (apply Forall_cons; [first [exact I | split; vm_compute; congruence]|]). apply Forall_nil. }
  destruct (mops_total pgraph okP_pgraph totalP_pgraph _ cst0 inv0 Hok) as (ys & t & M).
  exists (map rep ys), (rc t). apply run_reach. exact (proj1 (drive_chg 192 _ ltac:(lia) Hok cst0 inv0) (ys, t) M).
Qed.

(** ** C28 *)
(** [transcript_phases] (Transcript.v) is the list of phases: digest, public input hash and
    wires cap, then betas and gammas; permutation cap, then alphas; quotient cap, then
    zeta; all openings, then the FRI alpha; each FRI cap, then its beta; final polynomial
    and proof-of-work witness, then the proof-of-work response and the query indices. *)
Lemma toQEs_concat bs : Forall (fun b => length b = 2%nat) bs -> toQEs (length bs) (concat bs) = map toQE bs.
Proof.
  induction 1 as [|b bs Hb _ IH]; [reflexivity|]. cbn [length concat toQEs map].
  rewrite <- Hb, firstn_app, firstn_all, Nat.sub_diag, skipn_app, skipn_all, Nat.sub_diag.
  cbn [firstn skipn app]. rewrite app_nil_r, IH. reflexivity.
Qed.
Lemma phases_app P l1 : forall l2 s yss,
  phases P (l1 ++ l2) s yss -> exists ys1 ys2 s', phases P l1 s ys1 /\ phases P l2 s' ys2 /\ yss = ys1 ++ ys2.
Proof.
  induction l1 as [|[xs m] l1 IH]; intros l2 s yss; cbn [app phases].
  - intros H. exists [], yss, s. auto.
  - intros (ys & s' & yss' & H1 & H2 & ->). destruct (IH _ _ _ H2) as (a & b & s2 & A & B & ->).
    exists (ys :: a), b, s2. split; [eauto 6|auto].
Qed.
Lemma phases_lens P : okP P -> forall l s yss, Forall phase_ok l -> phases P l s yss -> map (@length GF) yss = map snd l.
Proof.
  intros HP. induction l as [|[xs m] l IH]; intros s yss Hok; cbn [phases map snd].
  - intros ->. reflexivity.
  - intros (ys & s' & yss' & H1 & H2 & ->). inversion Hok as [|? ? [O1 O2] O3]; subst. cbn [fst snd] in *.
    cbn [map]. rewrite (IH _ _ O3 H2). f_equal. eapply phase_len; eauto.
Qed.
Definition transcript_shape (nc : nat) (pr : Proof_) : Prop :=
  (1 <= nc)%nat /\ PlonkZsPartialProductsCap pr <> [] /\ QuotientPolysCap pr <> [] /\
  openings_elems (Openings pr) <> [] /\ Forall (fun c => c <> []) (CommitPhaseMerkleCaps (OpeningProof pr)).
Lemma transcript_phases_ok nc nq digest pih pr : transcript_shape nc pr -> Forall phase_ok (transcript_phases nc nq digest pih pr).
Proof.
  intros (S1 & S2 & S3 & S4 & S5). unfold transcript_phases. cbn [app].
  assert (N : forall c : FriMerkleCap, c <> [] -> cap_elems c <> []).
  { intros [|h c] H; [congruence|]. unfold cap_elems. cbn [flat_map]. unfold digits56. discriminate. }
  repeat (constructor; [split; cbn [fst snd]; [auto; unfold digits56; discriminate|lia]|]).
  apply Forall_app. split.
  - apply Forall_map. eapply Forall_impl; [|exact S5]. intros c Hc. split; cbn [fst snd]; [auto|lia].
  - constructor; [|constructor]. split; cbn [fst snd]; [|lia]. intros E. apply app_eq_nil in E. destruct E; discriminate.
Qed.
Definition zeros12 : list GF := repeat g0 12.

Lemma cut1 {A} (a b : list A) n : length a = n -> firstn n (a ++ b) = a /\ skipn n (a ++ b) = b.
Proof.
  intros <-. rewrite firstn_app, firstn_all, Nat.sub_diag, skipn_app, skipn_all, Nat.sub_diag.
  cbn [firstn skipn app]. rewrite app_nil_r. auto.
Qed.
Lemma challenges_of_parts nc nq y1 y2 y3 y4 bs y5 : length y1 = (nc + nc)%nat -> length y2 = nc -> length y3 = 2%nat ->
  length y4 = 2%nat -> Forall (fun b => length b = 2%nat) bs -> length y5 = (1 + nq)%nat ->
  challenges_of nc (length bs) nq (y1 ++ y2 ++ y3 ++ y4 ++ concat bs ++ y5) =
  mkProofChallenges (map rep (firstn nc y1)) (map rep (skipn nc y1)) (map rep y2) (toQE y3)
    (mkFriChallenges (toQE y4) (map toQE bs) (rep (hd g0 y5)) (map rep (tl y5))).
Proof.
  intros L1 L2 L3 L4 Lb L5. rewrite <- (firstn_skipn nc y1) at 1. rewrite <- app_assoc.
  set (a := firstn nc y1). set (b := skipn nc y1).
  assert (La : length a = nc) by (unfold a; rewrite firstn_length; lia).
  assert (Lb' : length b = nc) by (unfold b; rewrite skipn_length; lia).
  assert (Lbs : length (concat bs) = (2 * length bs)%nat).
  { clear -Lb. induction Lb as [|x l Hx _ IH]; [reflexivity|]. cbn [concat length]. rewrite app_length, IH, Hx. lia. }
  unfold challenges_of.
  destruct (cut1 a (b ++ y2 ++ y3 ++ y4 ++ concat bs ++ y5) nc La) as [-> ->].
  destruct (cut1 b (y2 ++ y3 ++ y4 ++ concat bs ++ y5) nc Lb') as [-> ->].
  destruct (cut1 y2 (y3 ++ y4 ++ concat bs ++ y5) nc L2) as [-> ->].
  destruct (cut1 y3 (y4 ++ concat bs ++ y5) 2 L3) as [-> ->].
  rewrite (firstn_all2 (n := (2 + 2 * length bs + (1 + nq))%nat)) by (rewrite !app_length; lia).
  unfold fri_of.
  destruct (cut1 y4 (concat bs ++ y5) 2 L4) as [-> ->].
  destruct (cut1 (concat bs) y5 (2 * length bs) Lbs) as [-> ->].
  rewrite toQEs_concat by exact Lb.
  destruct y5 as [|x y5]; [cbn in L5; lia|]. cbn [firstn hd skipn tl].
  rewrite firstn_all2 by (cbn in L5; lia). reflexivity.
Qed.

(** shape of the outputs of the transcript phases *)
Lemma transcript_split P nc nq digest pih pr yss : okP P -> transcript_shape nc pr ->
  phases P (transcript_phases nc nq digest pih pr) zeros12 yss ->
  exists y1 y2 y3 y4 bs y5, yss = [y1; y2; y3; y4] ++ bs ++ [y5] /\
    length bs = length (CommitPhaseMerkleCaps (OpeningProof pr)) /\
    length y1 = (nc + nc)%nat /\ length y2 = nc /\ length y3 = 2%nat /\ length y4 = 2%nat /\
    Forall (fun b => length b = 2%nat) bs /\ length y5 = (1 + nq)%nat.
Proof.
  intros HP HS H. pose proof (phases_lens P HP _ _ _ (transcript_phases_ok nc nq digest pih pr HS) H) as L.
  unfold transcript_phases in L. cbn [app map snd] in L.
  destruct yss as [|y1 yss]; [discriminate L|]. destruct yss as [|y2 yss]; [discriminate L|].
  destruct yss as [|y3 yss]; [discriminate L|]. destruct yss as [|y4 yss]; [discriminate L|].
  cbn [map] in L. injection L as L1 L2 L3 L4 L5. rewrite map_app in L5. cbn [map snd] in L5.
  assert (Ne : yss <> []). { intros ->. destruct (map snd _) in L5; discriminate L5. }
  destruct (exists_last Ne) as (bs & y5 & ->). rewrite map_app in L5. cbn [map] in L5.
  apply app_inj_tail in L5. destruct L5 as [L5 L6]. rewrite map_map in L5. cbn [snd] in L5.
  exists y1, y2, y3, y4, bs, y5. split; [reflexivity|].
  split. { apply (f_equal (@length nat)) in L5. now rewrite !map_length in L5. }
  repeat (split; [assumption|]). split; [|exact L6].
  apply Forall_forall. intros b Hb. apply (in_map (@length GF)) in Hb. rewrite L5 in Hb.
  apply in_map_iff in Hb. destruct Hb as (c & E & _). now rewrite <- E.
Qed.

Section C28.
  Context (w : Z) (cd : CommonCircuitData) (pr : Proof_) (pih : list Z) (vd : VerifierOnlyCircuitData).
  Let nc := NumChallenges (cd_Config cd).
  Let nq := NumQueryRounds (cc_FriConfig (cd_Config cd)).
  (** the challenges [ch] are those of the transcript, for the permutation relation [P] *)
  Definition transcript_gives (P : permr) (ch : ProofChallenges) : Prop :=
    exists y1 y2 y3 y4 bs y5,
      phases P (transcript_phases nc nq (CircuitDigest vd) pih pr) zeros12 ([y1; y2; y3; y4] ++ bs ++ [y5]) /\
      length bs = length (CommitPhaseMerkleCaps (OpeningProof pr)) /\
      PlonkBetas ch = map rep (firstn nc y1) /\ PlonkGammas ch = map rep (skipn nc y1) /\
      PlonkAlphas ch = map rep y2 /\ PlonkZeta ch = toQE y3 /\
      FriAlpha (pc_FriChallenges ch) = toQE y4 /\ FriBetas (pc_FriChallenges ch) = map toQE bs /\
      FriPowResponse (pc_FriChallenges ch) = rep (hd g0 y5) /\
      FriQueryIndices (pc_FriChallenges ch) = map rep (tl y5).
  Context (Hw : 128 <= w) (Hok : transcript_ok (CircuitDigest vd) pih pr) (HS : transcript_shape nc pr).

  Lemma transcript_gives_mops P ch : okP P ->
    (transcript_gives P ch <-> exists ys, ch = challenges_of nc (length (CommitPhaseMerkleCaps (OpeningProof pr))) nq ys /\
       exists t, mops P (transcript_ops nc nq (CircuitDigest vd) pih pr) cst0 ys t).
  Proof.
    intros HP. split.
    - intros (y1 & y2 & y3 & y4 & bs & y5 & H & Lb & E1 & E2 & E3 & E4 & E5 & E6 & E7 & E8).
      destruct (transcript_split P nc nq _ _ _ _ HP HS H) as (z1 & z2 & z3 & z4 & cs & z5 & E & Lc & L1 & L2 & L3 & L4 & L5 & L6).
      cbn [app] in E. injection E as <- <- <- <- E. apply app_inj_tail in E. destruct E as [<- <-].
      exists (y1 ++ y2 ++ y3 ++ y4 ++ concat bs ++ y5). split.
      + rewrite <- Lb, challenges_of_parts by auto. destruct ch as [b g a z [fa fb fp fq]].
        cbn [PlonkBetas PlonkGammas PlonkAlphas PlonkZeta pc_FriChallenges FriAlpha FriBetas FriPowResponse FriQueryIndices] in *.
        subst. reflexivity.
      + rewrite transcript_phase_ops. apply phases_mops; auto; [now apply transcript_phases_ok|].
        eexists. split; [exact H|]. cbn [app concat]. rewrite concat_app. cbn [concat]. now rewrite app_nil_r.
    - intros (ys & -> & M). rewrite transcript_phase_ops in M. apply phases_mops in M; auto; [|now apply transcript_phases_ok].
      destruct M as (yss & H & ->).
      destruct (transcript_split P nc nq _ _ _ _ HP HS H) as (y1 & y2 & y3 & y4 & bs & y5 & -> & Lc & L1 & L2 & L3 & L4 & L5 & L6).
      exists y1, y2, y3, y4, bs, y5. split; [exact H|]. split; [exact Lc|].
      cbn [app concat]. rewrite concat_app. cbn [concat]. rewrite app_nil_r, <- Lc, challenges_of_parts by auto.
      cbn [PlonkBetas PlonkGammas PlonkAlphas PlonkZeta pc_FriChallenges FriAlpha FriBetas FriPowResponse FriQueryIndices].
      repeat split.
  Qed.
  (** exactly the challenges of the transcript can be reached *)
  Theorem C28_transcript_exact ch : reach (GetChallenges w cd pr pih vd) ch <-> transcript_gives (permw w) ch.
  Proof.
    rewrite (denP_reach _ _ _ _ ch (get_challenges_chf w cd pr pih vd Hw Hok)).
    rewrite (transcript_gives_mops (permw w) ch (okP_permw w)). reflexivity.
  Qed.
  (** the honest solver obtains the challenges of the textbook transcript, which are unique *)
  Theorem C28_transcript_honest :
    exists ch, run (GetChallenges w cd pr pih vd) = Done ch /\ forall ch', transcript_gives pgraph ch' <-> ch' = ch.
  Proof.
    assert (OK : Forall op_ok (transcript_ops nc nq (CircuitDigest vd) pih pr)).
    { destruct Hok as (D1 & D2 & D3 & D4 & D5 & D6 & D7 & D8 & D9). unfold transcript_ops.
      rewrite !observes_app, !Forall_app. repeat (split; auto using ok_asks, ok_observes, cap_reducible, digits56_reducible, ok_fri_ops). }
    destruct (mops_total pgraph okP_pgraph totalP_pgraph _ cst0 inv0 OK) as (ys & t & M).
    exists (challenges_of nc (length (CommitPhaseMerkleCaps (OpeningProof pr))) nq ys). split.
    - apply (denP_run _ _ _ _ ys (get_challenges_chf w cd pr pih vd Hw Hok)). fold nc nq. eauto.
    - intros ch'. rewrite (transcript_gives_mops pgraph ch' okP_pgraph). split.
      + intros (ys' & -> & t' & M'). destruct (mops_fun _ _ _ _ _ _ M M') as [-> _]. reflexivity.
      + intros ->. eauto.
  Qed.
End C28.
(** Missing for the full claim about a malicious prover: the S-box width 192 of the code. *)
Theorem C28_transcript_partial w cd pr pih vd ch : 128 <= w <= 189 -> transcript_ok (CircuitDigest vd) pih pr ->
  transcript_shape (NumChallenges (cd_Config cd)) pr ->
  (reach (GetChallenges w cd pr pih vd) ch <-> transcript_gives cd pr pih vd pgraph ch).
Proof.
  intros Hw Hok HS. rewrite C28_transcript_exact by (auto; lia).
  rewrite !transcript_gives_mops by auto using okP_pgraph, okP_permw.
  split; intros (ys & -> & t & M); exists ys; (split; [reflexivity|]); exists t; eapply mops_ext; eauto.
  - intros s u. symmetry. now apply permw_pgraph.
  - now apply permw_pgraph.
Qed.
(** a proof with one element in each cap and one opening meets the hypotheses *)
Example C28_case :
  let pr := mkProof [1] [2] [3] (mkOpeningSet [(1, 2)] [] [] [] [(3, 4)] [] [])
              (mkFriProof [[5]; [6]] [] [(7, 8)] 9) in
  transcript_ok 10 [1; 2; 3; 4] pr /\ transcript_shape 2 pr.
Proof.
  split; unfold transcript_ok, transcript_shape, openings_elems; cbn; repeat split; repeat constructor;
    unfold inr_, reducible; try (split; vm_compute; congruence); try discriminate; try lia; vm_compute; congruence.
Qed.

Print Assumptions C26_normal_form.
Print Assumptions C26_duplex_exact.
Print Assumptions C26_duplex_honest.
Print Assumptions C26_duplex_partial.
Print Assumptions C26_grouping_elements.
Print Assumptions C26_grouping_cap.
Print Assumptions C26_grouping_extension.
Print Assumptions C26_grouping_openings.
Print Assumptions C27_no_stale.
Print Assumptions C27_no_stale_circuit.
Print Assumptions C28_transcript_exact.
Print Assumptions C28_transcript_honest.
Print Assumptions C28_transcript_partial.
