(** * Property C79: acceptance at more than 2^DegreeBits query positions is enough to extract the polynomials. *)
From Coq Require Import String.
From Coq Require Import ZArith NArith Lia List Bool.
From Verif Require Import Zp GF Circuit Goldilocks GLProofs ExtProofs PoseidonGLProofs BN254 BN254Hash Types Challenger Fri Poly Roots Interp FriMerkle FriEval FriQuery FriTop FriFacts Honest FriSound FriRewind FriExtract FriForge Prop_FriSound Prop_FriForge Prop_Fri
  Gates GateProofs GateCoset GateFilter GateAll GateDegree Prop_Gates Plonk PlonkProofs Prop_Plonk PlonkSound PlonkRows PlonkCopy Prop_PlonkSound Verifier VerifierProofs VerifierSound Prop_VerifierSound.
Import ListNotations.
Open Scope Z_scope.
Local Opaque PoseidonBN HashOrNoop TwoToOne.

(** ** C79
    C59 asks for acceptance at every index of the domain.  Here the prover is accepted, in all
    the runs, at the query indices of a list G; elsewhere the answers are arbitrary.  If G has
    more than 2^DegreeBits indices the leaves at these indices are values of polynomials over
    the base field with at most 2^DegreeBits + 1 coefficients, and the claimed openings are
    their values. *)
Theorem C79_fri : forall params oracles points openings initialCaps
    (alphas : list K) (B : K -> list K -> list K) (cap : K -> list K -> FriMerkleCap) (final : K -> list K -> list QE) (ans : K -> list K -> Z -> transcript) (G : list Z),
  let n := LdeBits params in let k := length (ReductionArityBits params) in
  oracles <> [] -> NoDup G -> Forall (fun i => 0 <= i < 2 ^ Z.of_nat n) G -> (2 ^ fp_DegreeBits params < length G)%nat ->
  Forall2 (fun b os => length os = length (snd b)) points openings ->
  NoDup alphas -> length alphas = length (flat_map snd points) ->
  (forall alpha pre, In alpha alphas -> (length pre < k)%nat -> NoDup (B alpha pre) /\ length (B alpha pre) = 16%nat) ->
  (forall alpha betas i, In alpha alphas -> length betas = k -> in_tree (B alpha) [] betas -> In i G ->
     accepted params oracles points openings initialCaps alpha betas (caps_along (cap alpha) [] betas) (final alpha betas) i (ans alpha betas i)) ->
  no_collision (fun a => exists alpha betas i, In alpha alphas /\ length betas = k /\ in_tree (B alpha) [] betas /\ In i G /\
     In a (round_inputs (first_round (ans alpha betas i)) i)) ->
  exists F : nat * nat -> list GF, forall z polys os op o, In ((z, polys), os) (combine points openings) -> In (op, o) (combine polys os) ->
    (length (F op) <= 2 ^ fp_DegreeBits params + 1)%nat /\
    kpeval (map emb (F op)) z = o /\
    forall alpha betas i, In alpha alphas -> length betas = k -> in_tree (B alpha) [] betas -> In i G ->
      nth (snd op) (Elements (nth (fst op) (InitialTreesProof (first_round (ans alpha betas i))) no_eval)) 0 = rep (gpeval (F op) (dom g7 n i)).
Proof. intros params oracles points openings initialCaps alphas B cap final ans G n k Hor ND R. apply fri_extract; [exact Hor|split; [exact ND|exact R]]. Qed.
Print Assumptions C79_fri.

(** ** Counting
    all the sequences of folding challenges of a tree *)
Fixpoint tree_paths (B : list K -> list K) (k : nat) (pre : list K) : list (list K) :=
  match k with O => [[]] | S k' => flat_map (fun b => map (cons b) (tree_paths B k' (pre ++ [b]))) (B pre) end.
Lemma tree_paths_in B k : forall pre betas, length betas = k -> in_tree B pre betas -> In betas (tree_paths B k pre).
Proof.
  induction k as [|k IH]; intros pre [|b betas] L T; try discriminate L; [now left|]. cbn [tree_paths in_tree] in *. destruct T as [Hb T].
  apply in_flat_map. exists b. split; [exact Hb|]. apply in_map. apply IH; [now injection L|exact T].
Qed.
Lemma flat_map_bound {A C} (f : A -> list C) m l : (forall a, In a l -> (length (f a) <= m)%nat) -> (length (flat_map f l) <= length l * m)%nat.
Proof.
  induction l as [|a l IH]; intros H; cbn [flat_map length]; [lia|]. rewrite app_length. pose proof (H a (in_eq _ _)).
  assert (length (flat_map f l) <= length l * m)%nat by (apply IH; intros; apply H; now right). lia.
Qed.
Lemma tree_paths_length B k : forall m pre, (length pre + k <= m)%nat -> (forall q, (length q < m)%nat -> length (B q) = 16%nat) -> (length (tree_paths B k pre) <= 16 ^ k)%nat.
Proof.
  induction k as [|k IH]; intros m pre L H; cbn [tree_paths Nat.pow]; [cbn; lia|].
  pose proof (H pre ltac:(lia)) as HB. change (16 * 16 ^ k)%nat with (16 * (16 ^ k))%nat. rewrite <- HB at 1. apply flat_map_bound. intros b _. rewrite map_length. apply (IH m); [rewrite app_length; cbn [length]; lia|exact H].
Qed.
Definition without (l bad : list Z) : list Z := filter (fun i => negb (existsb (Z.eqb i) bad)) l.
Lemma without_in l bad i : In i (without l bad) <-> In i l /\ ~ In i bad.
Proof.
  unfold without. rewrite filter_In, negb_true_iff. split; intros [H1 H2]; (split; [exact H1|]).
  - intros Hb. assert (T : existsb (Z.eqb i) bad = true) by (apply existsb_exists; exists i; split; [exact Hb|apply Z.eqb_refl]). congruence.
  - destruct (existsb (Z.eqb i) bad) eqn:X; [|reflexivity]. apply existsb_exists in X. destruct X as (j & Hj & E). apply Z.eqb_eq in E. now subst.
Qed.
Lemma without_length l bad : NoDup l -> (length l <= length (without l bad) + length bad)%nat.
Proof.
  intros ND. assert (I : incl l (without l bad ++ bad)).
  { intros i Hi. apply in_or_app. destruct (in_dec Z.eq_dec i bad) as [Hb|Hb]; [now right|left]. now apply without_in. }
  pose proof (NoDup_incl_length ND I) as L. now rewrite app_length in L.
Qed.

(** a prover who misses at most e positions in each of the runs (other positions in other runs,
    chosen by the prover) with e times the number of runs less than 2^LdeBits - 2^DegreeBits *)
Theorem C79_runs : forall params oracles points openings initialCaps
    (alphas : list K) (B : K -> list K -> list K) (cap : K -> list K -> FriMerkleCap) (final : K -> list K -> list QE) (ans : K -> list K -> Z -> transcript)
    (missed : K -> list K -> list Z) (e : nat),
  let n := LdeBits params in let k := length (ReductionArityBits params) in
  oracles <> [] ->
  Forall2 (fun b os => length os = length (snd b)) points openings ->
  NoDup alphas -> length alphas = length (flat_map snd points) ->
  (forall alpha pre, In alpha alphas -> (length pre < k)%nat -> NoDup (B alpha pre) /\ length (B alpha pre) = 16%nat) ->
  (forall alpha betas, length (missed alpha betas) <= e)%nat ->
  (length alphas * 16 ^ k * e + 2 ^ fp_DegreeBits params < 2 ^ n)%nat ->
  (forall alpha betas i, In alpha alphas -> length betas = k -> in_tree (B alpha) [] betas -> 0 <= i < 2 ^ Z.of_nat n -> ~ In i (missed alpha betas) ->
     accepted params oracles points openings initialCaps alpha betas (caps_along (cap alpha) [] betas) (final alpha betas) i (ans alpha betas i)) ->
  no_collision (fun a => exists alpha betas i, In alpha alphas /\ length betas = k /\ in_tree (B alpha) [] betas /\ (0 <= i < 2 ^ Z.of_nat n /\ ~ In i (missed alpha betas)) /\
     In a (round_inputs (first_round (ans alpha betas i)) i)) ->
  exists (F : nat * nat -> list GF) (G : list Z), NoDup G /\ Forall (fun i => 0 <= i < 2 ^ Z.of_nat n) G /\ (2 ^ n <= length G + length alphas * 16 ^ k * e)%nat /\
    forall z polys os op o, In ((z, polys), os) (combine points openings) -> In (op, o) (combine polys os) ->
    (length (F op) <= 2 ^ fp_DegreeBits params + 1)%nat /\
    kpeval (map emb (F op)) z = o /\
    forall alpha betas i, In alpha alphas -> length betas = k -> in_tree (B alpha) [] betas -> In i G ->
      nth (snd op) (Elements (nth (fst op) (InitialTreesProof (first_round (ans alpha betas i))) no_eval)) 0 = rep (gpeval (F op) (dom g7 n i)).
Proof.
  intros params oracles points openings initialCaps alphas B cap final ans missed e n k Hor F2 ND La HB Hm Hc HA NC.
  set (bad := flat_map (fun alpha => flat_map (missed alpha) (tree_paths (B alpha) k [])) alphas).
  assert (Lbad : (length bad <= length alphas * 16 ^ k * e)%nat).
  { unfold bad. rewrite <- Nat.mul_assoc. apply flat_map_bound. intros alpha Ha.
    apply Nat.le_trans with (length (tree_paths (B alpha) k []) * e)%nat; [apply flat_map_bound; intros; apply Hm|].
    apply Nat.mul_le_mono_r. apply (tree_paths_length (B alpha) k k []); [cbn; lia|]. intros q Hq. now apply HB. }
  set (G := without (all_indices n) bad).
  pose proof (without_length (all_indices n) bad (proj1 (all_indices_positions n))) as LG. fold G in LG. rewrite all_indices_length in LG.
  assert (NG : NoDup G) by (apply NoDup_filter, all_indices_positions).
  assert (IG : forall i, In i G -> 0 <= i < 2 ^ Z.of_nat n) by (intros i Hi; apply without_in in Hi; now apply all_indices_in).
  assert (OK : forall alpha betas i, In alpha alphas -> length betas = k -> in_tree (B alpha) [] betas -> In i G -> ~ In i (missed alpha betas)).
  { intros alpha betas i Ia Lb Tb Hi Hx. apply without_in in Hi. apply (proj2 Hi). apply in_flat_map. exists alpha. split; [exact Ia|].
    apply in_flat_map. exists betas. split; [now apply tree_paths_in|exact Hx]. }
  destruct (C79_fri params oracles points openings initialCaps alphas B cap final ans G) as (F & HF); try assumption.
  - apply Forall_forall. exact IG.
  - lia.
  - intros alpha betas i Ia Lb Tb Hi. apply HA; try assumption; [now apply IG|now apply OK].
  - intros a b (alpha & betas & i & Ia & Lb & Tb & Ri & Ha) (alpha' & betas' & i' & Ia' & Lb' & Tb' & Ri' & Hb).
    apply NC; [exists alpha, betas, i|exists alpha', betas', i']; repeat (split; [assumption|]); (split; [split; [now apply IG|now apply OK]|assumption]).
  - exists F, G. split; [exact NG|]. split; [apply Forall_forall; exact IG|]. split; [lia|]. exact HF.
Qed.
Print Assumptions C79_runs.

(** ** The whole verifier
    As C62, with the query indices of lists G that may depend on the challenges up to zeta, any
    two of which share more than 2^DegreeBits positions; so if the list is always the same, or if
    each has more than half of 2^LdeBits + 2^DegreeBits positions. *)
Definition extracted (cd : CommonCircuitData) (gates : list Gate) (h : list GF) (T : coins) (G : chalK -> list Z) (P : strategy) (cs sigmas ws : list (list GF)) : Prop :=
  (length cs = cd_NumConstants cd /\ length sigmas = NumRoutedWires (cd_Config cd) /\ length ws = NumWires (cd_Config cd)) /\
  Forall (fun f => length f <= 2 ^ cd_DegreeBits cd + 1)%nat (cs ++ sigmas ++ ws) /\
  (forall c alpha betas i, drawn T c -> drawn_on cd T G c alpha betas i ->
     let trees := InitialTreesProof (first_round (s_answer P c alpha betas i)) in
     let values ps := map (fun f => rep (gpeval f (dom g7 (LdeBits (cd_FriParams cd)) i))) ps in
     firstn (cd_NumConstants cd + NumRoutedWires (cd_Config cd)) (Elements (nth 0 trees no_eval)) = values (cs ++ sigmas) /\
     firstn (NumWires (cd_Config cd)) (Elements (nth 1 trees no_eval)) = values ws) /\
  (forall k j, selects (cd_SelectorsInfo cd) (length gates) (map emb (grow cd cs k)) j ->
     computes (EvalUnfiltered (nth j gates NoopGate) (mkvars (skipn (length (groups (cd_SelectorsInfo cd))) (map emb (grow cd cs k))) (map emb (grow cd ws k)) h))
              (repeat (0, 0) (num_constraints (nth j gates NoopGate)))) /\
  (NoDup (map (cell_label cd (map inj (KIs cd))) (cells cd)) ->
   forall s t, In s (cells cd) -> In t (cells cd) ->
     gcell cd sigmas t = (nth (snd s) (map inj (KIs cd)) g0 * root (cd_DegreeBits cd) ^ N.of_nat (fst s))%GF -> gcell cd ws t = gcell cd ws s).
Theorem C79_verifier : forall cd gates h vd T G P E e,
  sound_data cd gates -> degree_bound cd gates E -> enough cd E e T -> length h = 4%nat ->
  (forall c, drawn T c -> openings_shape cd (s_opens P c)) ->
  (forall c, drawn T c -> NoDup (G c) /\ Forall (fun i => 0 <= i < 2 ^ Z.of_nat (LdeBits (cd_FriParams cd))) (G c)) ->
  (forall c c', drawn T c -> drawn T c' -> exists I, NoDup I /\ incl I (G c) /\ incl I (G c') /\ (2 ^ cd_DegreeBits cd < length I)%nat) ->
  (forall c alpha betas i, drawn T c -> drawn_on cd T G c alpha betas i -> wins cd gates h vd P c alpha betas i) ->
  no_collision (hashed_on cd T G P) ->
  exists cs sigmas ws, extracted cd gates h T G P cs sigmas ws.
Proof.
  intros cd gates h vd T G P E e SD DB EN Lh HO H1 H2 WIN NC. exact (verifier_extract cd gates h vd T G P E e SD DB EN Lh HO (conj H1 H2) WIN NC).
Qed.
Print Assumptions C79_verifier.

Lemma common_positions n l l' : NoDup l -> NoDup l' -> Forall (below n) l -> Forall (below n) l' -> let I := filter (fun i => existsb (Z.eqb i) l') l in
  NoDup I /\ incl I l /\ incl I l' /\ (length l + length l' <= length I + 2 ^ n)%nat.
Proof.
  intros N N' R R' I. assert (HI : forall i, In i I <-> In i l /\ In i l').
  { intros i. unfold I. rewrite filter_In, existsb_exists. split.
    - intros (H & j & Hj & E). apply Z.eqb_eq in E. now subst.
    - intros [H H']. split; [exact H|]. exists i. split; [exact H'|apply Z.eqb_refl]. }
  assert (NI : NoDup I) by now apply NoDup_filter.
  split; [exact NI|]. split; [intros i Hi; now apply HI|]. split; [intros i Hi; now apply HI|].
  set (J := without l l').
  assert (LJ : (length l <= length I + length J)%nat).
  { rewrite <- app_length. apply NoDup_incl_length; [exact N|]. intros i Hi. apply in_or_app. destruct (in_dec Z.eq_dec i l') as [H|H]; [left; now apply HI|right; now apply without_in]. }
  assert (LA : (length (J ++ l') <= 2 ^ n)%nat).
  { rewrite <- (all_indices_length n). apply NoDup_incl_length.
    - assert (NJ : NoDup J) by now apply NoDup_filter. assert (DJ : forall i, In i J -> ~ In i l') by (intros i Hi; now apply without_in in Hi).
      clearbody J. clear - NJ DJ N'. induction NJ as [|a J Ha NJ IH]; [exact N'|]. cbn [app]. constructor; [|apply IH; intros i Hi; apply DJ; now right].
      intros H. apply in_app_or in H. destruct H as [H|H]; [contradiction|]. exact (DJ a (in_eq _ _) H).
    - rewrite Forall_forall in R, R'. intros i Hi. apply all_indices_in. apply in_app_or in Hi. destruct Hi as [Hi|Hi]; [apply without_in in Hi; now apply R|now apply R']. }
  rewrite app_length in LA. lia.
Qed.
Theorem C79_majority : forall cd gates h vd T G P E e,
  sound_data cd gates -> degree_bound cd gates E -> enough cd E e T -> length h = 4%nat ->
  (forall c, drawn T c -> openings_shape cd (s_opens P c)) ->
  (forall c, drawn T c -> NoDup (G c) /\ Forall (fun i => 0 <= i < 2 ^ Z.of_nat (LdeBits (cd_FriParams cd))) (G c) /\
     (2 ^ LdeBits (cd_FriParams cd) + 2 ^ cd_DegreeBits cd < 2 * length (G c))%nat) ->
  (forall c alpha betas i, drawn T c -> drawn_on cd T G c alpha betas i -> wins cd gates h vd P c alpha betas i) ->
  no_collision (hashed_on cd T G P) ->
  exists cs sigmas ws, extracted cd gates h T G P cs sigmas ws.
Proof.
  intros cd gates h vd T G P E e SD DB EN Lh HO H WIN NC. apply (C79_verifier cd gates h vd T G P E e); try assumption.
  - intros c D. destruct (H c D) as (N & R & _). now split.
  - intros c c' D D'. destruct (H c D) as (N & R & L). destruct (H c' D') as (N' & R' & L').
    destruct (common_positions (LdeBits (cd_FriParams cd)) (G c) (G c') N N' R R') as (NI & I1 & I2 & LI).
    exists (filter (fun i => existsb (Z.eqb i) (G c')) (G c)). split; [exact NI|]. split; [exact I1|]. split; [exact I2|]. lia.
Qed.
Print Assumptions C79_majority.

(** ** 2^DegreeBits positions are not enough
    With one fewer position than in C79_fri a prover is accepted in all runs although no
    polynomial explains the leaves and the opening: one word that is 0 everywhere, opened at z to
    X times the product of the z - x over the positions x. *)
Definition zero_leaves (o : nat) (i : Z) : list Z := [0].
Definition points_at (n : nat) (G : list Z) : list K := map (fun i => emb (dom g7 n i)) G.
Lemma forged_siblings leaves m n c betas i : siblings_ok (mkFriQueryRound (forged_trees leaves m n i) (commit_steps g7 n c betas i)).
Proof.
  unfold siblings_ok. cbn [InitialTreesProof Steps]. split.
  - unfold forged_trees. apply Forall_forall. intros e He. apply in_map_iff in He. destruct He as (o & <- & _). cbn [ep_Siblings].
    apply path_range. intros j. apply HashOrNoop_range.
  - generalize g7, n, c, i. induction betas as [|b betas IH]; intros s n' c' i'; cbn [commit_steps]; constructor.
    + cbn [st_Siblings]. apply path_range. intros j. apply HashOrNoop_range.
    + apply IH.
Qed.
Lemma prodsub_emb x l : kprodsub (emb x) (map emb l) = emb (prodsub g1 gmul gsub x l).
Proof.
  unfold kprodsub. induction l as [|a l IH]; cbn [map prodsub]; [reflexivity|]. rewrite IH. unfold emb, kmul, ksub. cbn [fst snd]. f_equal; ring.
Qed.
(** no polynomial of 2^DegreeBits + 1 coefficients in the base field is 0 at the positions and has this value at z *)
Lemma no_polynomial n G z (F : list GF) : (n <= TWO_ADICITY)%nat -> positions_of n G -> snd z <> g0 -> (length F <= length G + 1)%nat ->
  (forall i, In i G -> gpeval F (dom g7 n i) = g0) -> kpeval (map emb F) z <> (kX * kprodsub z (points_at n G))%K.
Proof.
  intros Hn HG Hz LF H0 E.
  set (c := (gpeval F g0 * ginv (prodsub g1 gmul gsub g0 (map (dom g7 n) G)))%GF).
  assert (EP : points_at n G = map emb (map (dom g7 n) G)) by (unfold points_at; now rewrite map_map).
  assert (N0 : ~ In (emb g0) (points_at n G)).
  { intros I. unfold points_at in I. apply in_map_iff in I. destruct I as (i & Ei & _). apply emb_inj in Ei. exact (dom_nz g7 n i g7_nz Hn Ei). }
  assert (Nz : kprodsub z (points_at n G) <> k0).
  { apply FriEval.kprodsub_nz. intros I. unfold points_at in I. apply in_map_iff in I. destruct I as (i & Ei & _). apply Hz. now rewrite <- Ei. }
  assert (NZ0 : prodsub g1 gmul gsub g0 (map (dom g7 n) G) <> g0).
  { intros X. pose proof (FriEval.kprodsub_nz _ _ N0) as Y. rewrite EP, prodsub_emb, X in Y. apply Y. reflexivity. }
  destruct (prodsub_deg k0 k1 kadd kmul ksub kopp K_ring (points_at n G)) as (d & Ld & Ed).
  assert (Ed' : forall x, kprodsub x (points_at n G) = kpeval d x) by exact Ed.
  assert (LP : length (points_at n G) = length G) by (unfold points_at; apply map_length). rewrite LP in Ld.
  assert (Zr : forall x, kpeval (paddl kadd (map emb F) (pscale kmul (- emb c)%K d)) x = k0).
  { apply (kfew_roots (emb g0 :: points_at n G)).
    - constructor; [exact N0|]. now apply positions_nodup.
    - cbn [length]. rewrite LP. apply paddl_len; [rewrite map_length; lia|]. unfold pscale. rewrite map_length. lia.
    - intros x [<-|Hx]; rewrite kpaddl', kpscale', <- Ed'.
      + rewrite kpeval_emb, EP, prodsub_emb. unfold c.
        transitivity (emb (gpeval F g0 - gpeval F g0 * (ginv (prodsub g1 gmul gsub g0 (map (dom g7 n) G)) * prodsub g1 gmul gsub g0 (map (dom g7 n) G)))%GF).
        * unfold emb, kadd, kmul, kopp. cbn [fst snd]. f_equal; ring.
        * rewrite ginv_l by exact NZ0. change k0 with (emb g0). f_equal. ring.
      + unfold kprodsub. rewrite (prodsub_zero k0 k1 kadd kmul ksub kopp K_ring _ x Hx).
        unfold points_at in Hx. apply in_map_iff in Hx. destruct Hx as (i & <- & Hi). rewrite kpeval_emb, H0 by exact Hi. change (emb g0) with k0. ring. }
  specialize (Zr z). rewrite kpaddl', kpscale', <- Ed', E in Zr.
  assert (Q : ((kX - emb c) * kprodsub z (points_at n G) = 0)%K) by (rewrite <- Zr; ring).
  apply kmul_eq0 in Q. destruct Q as [Q|Q]; [|contradiction]. apply (f_equal snd) in Q. vm_compute in Q. discriminate Q.
Qed.
Theorem C79_tight : forall params (k : nat) alpha z (G : list Z),
  (RateBits (fp_Config params) <= 15)%nat -> CapHeight (fp_Config params) = 4%nat -> (ProofOfWorkBits (fp_Config params) <= 64)%nat ->
  ReductionArityBits params = repeat 4%nat k -> (4 * k <= fp_DegreeBits params)%nat -> (4 * k + 4 <= LdeBits params <= 32)%nat -> (1 <= NumQueryRounds (fp_Config params))%nat ->
  NoDup G -> Forall (fun i => 0 <= i < 2 ^ Z.of_nat (LdeBits params)) G -> length G = (2 ^ fp_DegreeBits params)%nat -> snd z <> g0 ->
  let oracles := [mkOracleInfo 1 false] in let points := [(z, [(0, 0)%nat])] in
  exists (o : K) (initialCaps : list FriMerkleCap) (cap : list K -> FriMerkleCap) (final : list K -> list QE) (ans : list K -> Z -> transcript),
    (forall betas i, length betas = k -> betas_off g7 (LdeBits params) betas -> In i G ->
       accepted params oracles points [[o]] initialCaps alpha betas (caps_along cap [] betas) (final betas) i (ans betas i)) /\
    forall betas, ~ exists F : list GF, (length F <= 2 ^ fp_DegreeBits params + 1)%nat /\ kpeval (map emb F) z = o /\
      forall i, In i G -> nth 0 (Elements (nth 0 (InitialTreesProof (first_round (ans betas i))) no_eval)) 0 = rep (gpeval F (dom g7 (LdeBits params) i)).
Proof.
  intros params k alpha z G H1 H2 H3 H4 H5 H6 Hq ND HR LG Hz oracles points. set (n := LdeBits params) in *.
  set (o := (kX * kprodsub z (points_at n G))%K).
  destruct (forged_codeword params (fun i => combined (forged_trees zero_leaves (length oracles) n i) alpha
    (emb (dom g7 n i)) (fri_batches alpha points [[o]])) G) as (c & Lc & Ec); try assumption; [fold n; unfold TWO_ADICITY; lia|lia|].
  fold n in Ec.
  set (indices := fun i => repeat (inj i) (NumQueryRounds (fp_Config params))).
  exists o, (forged_caps zero_leaves (length oracles) n), (honest_cap g7 n c), (fun betas => map repK (commit_final c betas)),
    (fun betas i => mkTranscript (forged_fri zero_leaves (length oracles) params c betas (indices i) 0) g0 (indices i)).
  assert (RI : forall i, In i G -> rep (inj i) mod 2 ^ Z.of_nat n = i).
  { intros i Hi. rewrite Forall_forall in HR. specialize (HR i Hi).
    rewrite rep_inj_small; [now apply Z.mod_small|]. split; [lia|]. apply Z.lt_trans with (2 ^ 33); [|reflexivity].
    apply Z.lt_le_trans with (2 ^ Z.of_nat n); [lia|]. apply Z.pow_le_mono_r; lia. }
  assert (FR : forall betas i, In i G -> first_round (mkTranscript (forged_fri zero_leaves (length oracles) params c betas (indices i) 0) g0 (indices i)) =
     mkFriQueryRound (forged_trees zero_leaves (length oracles) n i) (commit_steps g7 n c betas i)).
  { intros betas i Hi. unfold first_round. cbn [t_proof]. unfold forged_fri. cbn [QueryRoundProofs]. unfold indices.
    destruct (NumQueryRounds (fp_Config params)) as [|q]; [lia|]. cbn [repeat map hd]. fold n. rewrite (RI i Hi). reflexivity. }
  split.
  - intros betas i Lb Hb Hi.
    assert (Hin : forall x, In x (indices i) -> x = inj i) by (intros x Hx; now apply repeat_spec in Hx).
    destruct (forged_ok zero_leaves params oracles points [[o]] alpha betas g0 (indices i) 0 c) as [C OK].
    + unfold honest_params. rewrite Lb. fold n. tauto.
    + intros o' j Ho. destruct o' as [|o']; [|cbn in Ho; lia]. split; [reflexivity|]. repeat constructor. lia.
    + repeat constructor.
    + exact Lc.
    + exact Hb.
    + intros x Hx. cbv zeta. rewrite (Hin x Hx). fold n. rewrite (RI i Hi). now apply Ec.
    + intros x z' polys _ [Ez|[]] X. injection Ez as <- _. apply Hz. now rewrite <- X.
    + apply repeat_length.
    + change (rep g0) with 0. apply Z.pow_pos_nonneg; lia.
    + fold n in OK. unfold accepted. rewrite honest_caps_along. cbn [t_proof t_pow t_indices].
      split; [reflexivity|]. split; [reflexivity|]. split; [|split; [exact C|split]].
      * unfold indices. destruct (NumQueryRounds (fp_Config params)) as [|q]; [lia|]. cbn [repeat]. exists (inj i), (repeat (inj i) q). split; [reflexivity|]. fold n. now apply RI.
      * rewrite FR by exact Hi. apply forged_siblings.
      * apply (enforces_sat _ _ _ (verify_fri_correct params oracles points [[o]] alpha betas g0 (indices i)
          (forged_caps zero_leaves (length oracles) n) _ C ltac:(discriminate) eq_refl)). exact OK.
  - intros betas (F & LF & EF & HF). revert EF. apply (no_polynomial n G z F); [unfold TWO_ADICITY; lia|split; assumption|exact Hz|lia|].
    intros i Hi. specialize (HF i Hi). rewrite FR in HF by exact Hi. cbn [InitialTreesProof] in HF.
    apply GF_eq. rewrite <- HF. reflexivity.
Qed.
Print Assumptions C79_tight.

(** ** Examples *)
(** the prover of C59_ex, who answers at the first nine of the sixteen positions only: nine is
    one more than 2^DegreeBits *)
Definition nothing79 : transcript := mkTranscript (mkFriProof [] [] [] 0) g0 [].
Definition ex79_ans (alpha : K) (betas : list K) (i : Z) : transcript := if i <? 9 then ex59_ans alpha betas i else nothing79.
Lemma range79 m i : In i (map Z.of_nat (seq 0 m)) <-> 0 <= i < Z.of_nat m.
Proof.
  rewrite in_map_iff. split.
  - intros (j & <- & Hj). apply in_seq in Hj. lia.
  - intros Hi. exists (Z.to_nat i). split; [lia|]. apply in_seq. lia.
Qed.
Lemma nodup79 m : NoDup (map Z.of_nat (seq 0 m)).
Proof. apply NoDup_map_in; [intros a b _ _; apply Nat2Z.inj|apply seq_NoDup]. Qed.
Example C79_ex : exists F : nat * nat -> list GF,
  kpeval (map emb (F (0, 0)%nat)) kX = (emb (inj 4) + emb (inj 6) * kX)%K /\
  forall i, 0 <= i < 9 -> nth 1 (Elements (nth 0 (InitialTreesProof (first_round (ex79_ans k1 [] i))) no_eval)) 0 = rep (gpeval (F (0, 1)%nat) (dom g7 4 i)).
Proof.
  assert (N : forall x z, snd z <> g0 -> emb x <> z) by (intros x z H E; apply H; now rewrite <- E).
  assert (NZ : forall a : GF, rep a <> 0 -> a <> g0) by (intros a H E; apply H; now rewrite E).
  destruct (C79_fri ex59_params ex59_oracles ex59_points (open_batches ex59_tables ex59_points) (honest_caps ex59_tables (fun _ _ => []) 4)
    ex59_alphas (fun _ _ => []) (fun alpha => honest_cap g7 4 (honest_codeword ex59_tables ex59_params alpha ex59_points))
    (fun alpha betas => map repK (commit_final (honest_codeword ex59_tables ex59_params alpha ex59_points) betas)) ex79_ans (map Z.of_nat (seq 0 9))) as (F & HF).
  - discriminate.
  - apply nodup79.
  - apply Forall_forall. intros i Hi. apply range79 in Hi. change (2 ^ Z.of_nat (LdeBits ex59_params)) with 16. lia.
  - rewrite map_length, seq_length. cbn. lia.
  - repeat constructor.
  - assert (D : NoDup (map repK ex59_alphas)).
    { vm_compute. repeat (apply NoDup_cons; [intros H; repeat (destruct H as [H|H]; [discriminate H|]); exact H|]). apply NoDup_nil. }
    eapply NoDup_map_inv. exact D.
  - reflexivity.
  - intros alpha pre _ H. cbn in H. lia.
  - intros alpha betas i _ Lb _ Hi. destruct betas as [|b betas]; [|discriminate Lb]. apply range79 in Hi.
    unfold ex79_ans. rewrite (proj2 (Z.ltb_lt i 9)) by lia.
    apply (C59_honest ex59_params ex59_oracles ex59_tables (fun _ _ => []) ex59_points alpha [] g0 0 i).
    + unfold honest_params. cbn. repeat split; lia.
    + split; [reflexivity|]. split.
      * repeat (apply Forall_cons || apply Forall_nil); vm_compute; lia.
      * intros o Ho. cbn [ex59_oracles length] in Ho. destruct o as [|o]; [|lia]. split; [reflexivity|]. intros j. split; [reflexivity|apply Forall_nil].
    + discriminate.
    + repeat (apply Forall_cons || apply Forall_nil); split; vm_compute; lia.
    + exact I.
    + cbn. lia.
    + change (2 ^ Z.of_nat (LdeBits ex59_params)) with 16. lia.
    + intros z polys Hz. apply N. destruct Hz as [Hz|[Hz|[]]]; apply (f_equal fst) in Hz; cbn [fst] in Hz; subst z; apply NZ; vm_compute; discriminate.
    + vm_compute. reflexivity.
  - intros a b (alpha & betas & i & _ & Lb & _ & Hi & Ha). exfalso. destruct betas as [|b' betas]; [|discriminate Lb]. apply range79 in Hi.
    unfold ex79_ans in Ha. rewrite (proj2 (Z.ltb_lt i 9)) in Ha by lia. exact Ha.
  - exists F. split.
    + destruct (HF kX [(0, 0); (0, 1)]%nat (map (fun op => kpeval (poly_of ex59_tables op) kX) [(0, 0); (0, 1)]%nat) (0, 0)%nat
        (kpeval (poly_of ex59_tables (0, 0)%nat) kX)) as (_ & E & _); [now left|now left|].
      rewrite E. unfold poly_of, ex59_tables, kpeval. cbn [nth fst snd map peval]. ring.
    + intros i Hi. destruct (HF kX [(0, 0); (0, 1)]%nat (map (fun op => kpeval (poly_of ex59_tables op) kX) [(0, 0); (0, 1)]%nat) (0, 1)%nat
        (kpeval (poly_of ex59_tables (0, 1)%nat) kX)) as (_ & _ & E); [now left|right; now left|].
      apply (E k1 [] i); [now left|reflexivity|exact I|now apply range79].
Qed.

(** the prover of C62_ex, who answers at the first thirteen of the sixteen positions only *)
Definition P79 : strategy :=
  mkStrategy (s_wires P62) (s_zs P62) (s_quotients P62) (s_opens P62) (s_cap P62) (s_final P62)
    (fun c alpha betas i => if i <? 13 then s_answer P62 c alpha betas i else nothing79).
Definition G79 (c : chalK) : list Z := map Z.of_nat (seq 0 13).
Example C79_ex_verifier : exists cs sigmas ws, extracted cd62 g62 h61 T62 G79 P79 cs sigmas ws.
Proof.
  assert (DR : forall c alpha betas i, drawn_on cd62 T62 G79 c alpha betas i -> drawn_fri cd62 T62 c alpha betas i /\ i < 13).
  { intros c alpha betas i (H1 & H2 & H3 & H4). apply range79 in H4. split; [|lia]. split; [exact H1|]. split; [exact H2|]. split; [exact H3|].
    change (2 ^ Z.of_nat (LdeBits (cd_FriParams cd62))) with 16. lia. }
  apply (C79_majority cd62 g62 h61 vd62 T62 G79 P79 2 0).
  - split; [exact shape62_data|]. split; [reflexivity|]. split; [cbn; lia|]. split; [cbn; lia|]. repeat constructor.
  - split; [cbn; lia|]. intros [|j] Hj; [|cbn in Hj; lia]. cbn. lia.
  - exact enough62.
  - reflexivity.
  - intros c _. vm_compute. repeat split; reflexivity.
  - intros c _. split; [apply nodup79|]. split; [|unfold G79; rewrite map_length, seq_length; cbn; lia].
    apply Forall_forall. intros i Hi. apply range79 in Hi. change (2 ^ Z.of_nat (LdeBits (cd_FriParams cd62))) with 16. lia.
  - intros c alpha betas i D R. apply DR in R. destruct R as [R L]. pose proof (wins62 c alpha betas i D R) as W. unfold wins in *.
    cbn [P79 s_answer s_cap s_final]. rewrite (proj2 (Z.ltb_lt i 13) L). exact W.
  - intros a b (c & alpha & betas & i & _ & R & Ha). exfalso. pose proof (proj2 (DR _ _ _ _ R)) as L. destruct R as (_ & Lb & _).
    destruct betas as [|b' betas]; [|discriminate Lb]. cbn [P79 s_answer] in Ha. rewrite (proj2 (Z.ltb_lt i 13) L) in Ha. exact Ha.
Qed.

(** parameters for C79_tight: with these nothing is hashed, so that all hypotheses of C79_fri hold but the one on the number of positions *)
Example C79_ex_tight : exists (o : K) (initialCaps : list FriMerkleCap) (cap : list K -> FriMerkleCap) (final : list K -> list QE) (ans : list K -> Z -> transcript),
  (forall i, 0 <= i < 8 -> accepted ex59_params [mkOracleInfo 1 false] [(kX, [(0, 0)%nat])] [[o]] initialCaps k1 [] (caps_along cap [] []) (final []) i (ans [] i)) /\
  ~ exists F : list GF, (length F <= 9)%nat /\ kpeval (map emb F) kX = o /\
      forall i, 0 <= i < 8 -> nth 0 (Elements (nth 0 (InitialTreesProof (first_round (ans [] i))) no_eval)) 0 = rep (gpeval F (dom g7 4 i)).
Proof.
  destruct (C79_tight ex59_params 0 k1 kX (map Z.of_nat (seq 0 8))) as (o & caps & cap & final & ans & H1 & H2); try (cbn; lia); try reflexivity.
  - apply nodup79.
  - apply Forall_forall. intros i Hi. apply range79 in Hi. change (2 ^ Z.of_nat (LdeBits ex59_params)) with 16. lia.
  - intros E. apply (f_equal rep) in E. vm_compute in E. discriminate E.
  - exists o, caps, cap, final, ans. split.
    + intros i Hi. apply H1; [reflexivity|exact I|]. apply range79. exact Hi.
    + intros (F & L & E & HF). apply (H2 []). exists F. split; [exact L|]. split; [exact E|]. intros i Hi. apply HF. apply range79 in Hi. exact Hi.
Qed.
