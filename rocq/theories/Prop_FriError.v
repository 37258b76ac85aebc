(** * Property C80: an upper bound for the soundness error of the FRI verifier. *)
From Coq Require Import String.
From Coq Require Import ZArith NArith Arith Lia List Bool.
From Verif Require Import Zp GF Circuit Goldilocks GLProofs ExtProofs BN254 BN254Hash Types Challenger Fri Poly Roots FriMerkle FriEval FriQuery FriTop FriFacts Honest FriSound FriRewind FriExtract FriForge Prop_FriSound Prop_FriQuery FriCurve FriProx FriError Game.
Import ListNotations.
Open Scope Z_scope.
Local Opaque PoseidonBN HashOrNoop TwoToOne.

(** ** C80
    The prover is any strategy: caps and final polynomial as functions of the challenges drawn
    before them, and a transcript for every batching challenge, every sequence of folding
    challenges and every tuple of query positions.  It wins the run (alpha, betas, positions) if
    VerifyFriProof (fri/fri.go:500-552) accepts the transcript. *)
Definition won (params : FriParams) (oracles : list OracleInfo) (points : list (K * list (nat * nat))) (openings : list (list K))
    (initialCaps : list FriMerkleCap) (cap : K -> list K -> FriMerkleCap) (final : K -> list K -> list QE)
    (ans : K -> list K -> list Z -> transcript) (alpha : K) (betas : list K) (positions : list Z) : Prop :=
  let t := ans alpha betas positions in
  CommitPhaseMerkleCaps (t_proof t) = caps_along (cap alpha) [] betas /\ FinalPoly (t_proof t) = final alpha betas /\
  map (fun x => rep x mod 2 ^ Z.of_nat (LdeBits params)) (t_indices t) = positions /\
  canon_fri (t_proof t) /\ Forall siblings_ok (QueryRoundProofs (t_proof t)) /\
  sat (VerifyFriProof params
      (mkInstanceInfo oracles (map (fun b => mkBatchInfo (repK (fst b)) (snd b)) points)) (map (map repK) openings)
      (mkFriChallenges (repK alpha) (map repK betas) (rep (t_pow t)) (map rep (t_indices t))) initialCaps (t_proof t)).
(** in the run, [round] is the answer to the query at i *)
Definition opens (ans : K -> list K -> list Z -> transcript) (alpha : K) (betas : list K) (positions : list Z) (i : Z) (round : FriQueryRound) : Prop :=
  In (i, round) (combine positions (QueryRoundProofs (t_proof (ans alpha betas positions)))).

Lemma in_combine_map {A B C} (f : A -> B) (l : list A) : forall (m : list C) b c, In (b, c) (combine (map f l) m) -> exists a, In (a, c) (combine l m) /\ f a = b.
Proof.
  induction l as [|a l IH]; intros [|c' m] b c H; cbn [map combine] in *; try (destruct H; fail). destruct H as [E|H].
  - injection E as <- <-. exists a. split; [now left|reflexivity].
  - destruct (IH m b c H) as (a' & Ha & E). exists a'. split; [now right|exact E].
Qed.
Lemma in_combine_some {A B} (l : list A) : forall (m : list B) a, length l = length m -> In a l -> exists b, In (a, b) (combine l m).
Proof.
  induction l as [|a' l IH]; intros [|b m] a L H; try discriminate L; [destruct H|]. destruct H as [->|H]; [exists b; now left|].
  destruct (IH m a ltac:(now injection L) H) as (b' & Hb). exists b'. now right.
Qed.
Lemma won_answered params oracles points openings initialCaps cap final ans alpha betas is i round :
  won params oracles points openings initialCaps cap final ans alpha betas is -> opens ans alpha betas is i round ->
  answered params oracles points openings initialCaps alpha betas (caps_along (cap alpha) [] betas) (final alpha betas) i round.
Proof.
  intros (Ec & Ef & Ei & Hc & Hs & SAT) Ho. unfold opens in Ho. exists (ans alpha betas is). split; [exact Ec|]. split; [exact Ef|]. split; [|split; [exact Hc|split; [|exact SAT]]].
  - rewrite <- Ei in Ho at 1. apply in_combine_map in Ho. destruct Ho as (x & Hx & Ex). exists x. now split.
  - rewrite Forall_forall in Hs. apply Hs. now apply in_combine_r in Ho.
Qed.
Lemma won_lengths params oracles points openings initialCaps cap final ans alpha betas is : oracles <> [] -> length points = length openings ->
  won params oracles points openings initialCaps cap final ans alpha betas is ->
  length is = NumQueryRounds (fp_Config params) /\ length (QueryRoundProofs (t_proof (ans alpha betas is))) = NumQueryRounds (fp_Config params).
Proof.
  intros Hor Lp (Ec & Ef & Ei & Hc & Hs & SAT). set (t := ans alpha betas is) in *.
  apply (enforces_sat _ _ _ (verify_fri_correct params oracles points openings alpha betas (t_pow t) (t_indices t) initialCaps (t_proof t) Hc Hor Lp)) in SAT.
  destruct SAT as (_ & _ & _ & L1 & L2 & _). rewrite <- Ei, map_length. lia.
Qed.
Lemma thresholds_sum n k : (4 * k <= n)%nat ->
  (list_sum (map (fun j => 15 * (2 ^ (n - 4 * S j) * 2 ^ (n - 4 * S j))) (seq 0 k)) + 2 ^ (n - 4 * k) * 2 ^ (n - 4 * k) <= 2 ^ n * 2 ^ n)%nat.
Proof.
  induction k as [|k IH]; intros H; [cbn [seq map list_sum fold_right]; rewrite Nat.mul_0_r, Nat.sub_0_r; reflexivity|].
  rewrite seq_S, map_app, list_sum_app. cbn [map list_sum fold_right Nat.add]. specialize (IH ltac:(lia)).
  replace (n - 4 * k)%nat with (4 + (n - 4 * S k))%nat in IH by lia. rewrite Nat.pow_add_r in IH. change (2 ^ 4)%nat with 16%nat in IH. nia.
Qed.
Lemma in_tree_along Br alpha : forall q pre, in_tree (fun p => Br (alpha :: p)) pre q <-> along Br (alpha :: pre) q.
Proof. induction q as [|b q IH]; intros pre; cbn [in_tree along]; [tauto|]. rewrite IH. cbn [app]. tauto. Qed.
Lemma elements_nth p1 p2 k : map Elements p1 = map Elements p2 -> Elements (nth k p1 no_eval) = Elements (nth k p2 no_eval).
Proof. intros E. rewrite <- !(map_nth Elements). change (Elements no_eval) with (@nil Z). now rewrite E. Qed.

Theorem C80_extract : forall params oracles points openings initialCaps
    (cap : K -> list K -> FriMerkleCap) (final : K -> list K -> list QE) (ans : K -> list K -> list Z -> transcript)
    (coins : list K) (wins : list (K * list K * list Z)) (e : nat),
  let n := LdeBits params in let k := length (ReductionArityBits params) in let q := NumQueryRounds (fp_Config params) in
  let T := length (flat_map snd points) in let Q := length coins in
  oracles <> [] -> Forall2 (fun b os => length os = length (snd b)) points openings -> (1 <= T)%nat ->
  (2 * e + 2 ^ fp_DegreeBits params < 2 ^ n)%nat ->
  NoDup coins -> NoDup wins ->
  (forall alpha betas positions, In (alpha, betas, positions) wins ->
     In alpha coins /\ length betas = k /\ Forall (fun b => In b coins) betas /\
     won params oracles points openings initialCaps cap final ans alpha betas positions) ->
  no_collision (fun a => exists alpha betas positions i round, In (alpha, betas, positions) wins /\ opens ans alpha betas positions i round /\
     In a (round_inputs round i)) ->
  (Q ^ (k + 1) * (2 ^ n - e - 1) ^ q + T * (2 ^ n * 2 ^ n) * Q ^ k * (2 ^ n) ^ q < length wins)%nat ->
  exists (F : nat * nat -> list GF) (G : list Z), NoDup G /\ Forall (fun i => 0 <= i < 2 ^ Z.of_nat n) G /\ (2 ^ n <= length G + e)%nat /\
    (forall i, In i G -> exists alpha betas positions round, In (alpha, betas, positions) wins /\ opens ans alpha betas positions i round) /\
    forall z polys os op o, In ((z, polys), os) (combine points openings) -> In (op, o) (combine polys os) ->
    (length (F op) <= 2 ^ fp_DegreeBits params + 1)%nat /\
    kpeval (map emb (F op)) z = o /\
    forall alpha betas positions i round, In (alpha, betas, positions) wins -> In i G -> opens ans alpha betas positions i round ->
      nth (snd op) (Elements (nth (fst op) (InitialTreesProof round) no_eval)) 0 = rep (gpeval (F op) (dom g7 n i)).
Proof.
  intros params oracles points openings initialCaps cap final ans coins wins e n k q T Q Hor F2 HT He NDc NDw HW NC HL.
  assert (Lp : length points = length openings) by (clear - F2; induction F2; cbn [length]; congruence).
  set (S := fun a => exists alpha betas positions i round, _) in NC.
  assert (P2 : (1 <= 2 ^ n)%nat) by (pose proof (Nat.pow_nonzero 2 n); lia).
  set (ws := map (fun w : K * list K * list Z => (fst (fst w) :: snd (fst w), snd w)) wins).
  assert (INW : forall alpha betas is, In (alpha :: betas, is) ws <-> In (alpha, betas, is) wins).
  { intros alpha betas is. unfold ws. rewrite in_map_iff. split.
    - intros ([[a b] i] & E & H). cbn [fst snd] in E. now injection E as -> -> ->.
    - intros H. exists (alpha, betas, is). now split. }
  assert (NDs : NoDup ws).
  { unfold ws. apply NoDup_map_in; [|exact NDw]. intros [[a b] i] [[a' b'] i'] _ _ E. cbn [fst snd] in E. now injection E as -> -> ->. }
  assert (Lws : length ws = length wins) by (unfold ws; apply map_length).
  set (thr := ((T - 1) * (2 ^ n * 2 ^ n))%nat :: map (fun j => (15 * (2 ^ (n - 4 * Datatypes.S j) * 2 ^ (n - 4 * Datatypes.S j)))%nat) (seq 0 k)).
  set (ls := map (pair coins) thr).
  set (C := ((2 ^ n - e - 1) ^ q)%nat). set (all := tuples q (all_indices n)).
  assert (Lthr : length thr = Datatypes.S k) by (unfold thr; cbn [length]; now rewrite map_length, seq_length).
  assert (Lls : length ls = Datatypes.S k) by (unfold ls; now rewrite map_length).
  assert (Lall : length all = ((2 ^ n) ^ q)%nat) by (unfold all; now rewrite tuples_length, all_indices_length).
  assert (RUN : Forall (run_of all ls) ws).
  { apply Forall_forall. intros [p y] Hp. unfold ws in Hp. apply in_map_iff in Hp. destruct Hp as ([[alpha betas] is] & E & H). cbn [fst snd] in E. injection E as <- <-.
    destruct (HW alpha betas is H) as (Ha & Lb & Hb & Won). split; cbn [fst snd].
    - unfold ls, thr. cbn [map]. constructor; [exact Ha|]. clear - Lb Hb. assert (L : length betas = length (map (fun j => (15 * (2 ^ (n - 4 * Datatypes.S j) * 2 ^ (n - 4 * Datatypes.S j)))%nat) (seq 0 k))) by (now rewrite map_length, seq_length).
      revert L. generalize (map (fun j => (15 * (2 ^ (n - 4 * Datatypes.S j) * 2 ^ (n - 4 * Datatypes.S j)))%nat) (seq 0 k)). clear Lb. induction Hb as [|b betas Hb _ IH]; intros [|t l] L; try discriminate L; cbn [map]; constructor; [exact Hb|].
      apply IH. now injection L.
    - apply tuples_in. split; [now apply (won_lengths _ _ _ _ _ _ _ _ _ _ _ Hor Lp Won)|]. destruct Won as (_ & _ & Ei & _). rewrite <- Ei. apply Forall_forall. intros i Hi.
      apply in_map_iff in Hi. destruct Hi as (x & <- & _). apply all_indices_in. apply Z.mod_pos_bound. lia. }
  (* one winning run gives the parameters *)
  assert (W0 : exists w, In w wins) by (clear - HL; destruct wins as [|w l]; [cbn [length] in HL; lia|exists w; now left]).
  destruct W0 as ([[alpha0 betas0] is0] & W0). destruct (HW _ _ _ W0) as (Ca & _ & _ & Won0).
  assert (Qp : (1 <= Q)%nat) by (unfold Q; destruct coins; [destruct Ca|cbn [length]; lia]).
  destruct (Nat.eq_dec q 0) as [q0|qp].
  { exfalso. pose proof (full_bound K_eq_dec all ls ws NDs RUN) as FB. unfold ls in FB. rewrite full_uniform, Lthr, Lall, Lws in FB. fold Q in FB.
    rewrite q0 in FB, HL. rewrite !Nat.pow_0_r in *. replace (k + 1)%nat with (Datatypes.S k) in HL by lia. lia. }
  destruct (won_lengths _ _ _ _ _ _ _ _ _ _ _ Hor Lp Won0) as [Li0 Lr0]. fold q in Li0, Lr0.
  assert (I0 : exists i0, In i0 is0) by (destruct is0 as [|i l]; [cbn [length] in Li0; lia|exists i; now left]). destruct I0 as (i0 & I0).
  destruct (in_combine_some is0 (QueryRoundProofs (t_proof (ans alpha0 betas0 is0))) i0 ltac:(lia) I0) as (round0 & R0).
  destruct (answered_round _ _ _ _ _ _ _ _ _ _ _ Hor Lp (won_answered _ _ _ _ _ _ _ _ _ _ _ _ _ Won0 R0)) as (_ & _ & _ & _ & Hn & _ & _ & Hkd & _).
  fold n in Hn. fold k in Hkd. assert (Hkn : (4 * k <= n)%nat) by (unfold n, LdeBits; lia).
  (* the game is good *)
  destruct (good K_eq_dec C ls ws) eqn:GOOD.
  2:{ exfalso. pose proof (not_good K_eq_dec C all ls ws NDs RUN GOOD) as NG. rewrite Lws in NG.
      pose proof (bound_uniform C all coins thr) as BU. fold ls Q in BU. rewrite Lthr, Lall in BU.
      pose proof (thresholds_sum n k Hkn) as TS.
      assert (SUM : (list_sum thr <= T * (2 ^ n * 2 ^ n))%nat).
      { unfold thr. cbn [list_sum fold_right]. unfold list_sum in TS. assert (E : (T * (2 ^ n * 2 ^ n) = (T - 1) * (2 ^ n * 2 ^ n) + 2 ^ n * 2 ^ n)%nat) by (rewrite <- (Nat.mul_1_l (2 ^ n * 2 ^ n)) at 3; rewrite <- Nat.mul_add_distr_r; f_equal; lia). lia. }
      assert (X : (Q * length wins <= Q ^ Datatypes.S (Datatypes.S k) * C + T * (2 ^ n * 2 ^ n) * Q ^ Datatypes.S k * (2 ^ n) ^ q)%nat).
      { eapply Nat.le_trans; [apply Nat.mul_le_mono_l; exact NG|]. rewrite BU. apply Nat.add_le_mono_l. apply Nat.mul_le_mono_r, Nat.mul_le_mono_r. exact SUM. }
      assert (Y : (Q ^ Datatypes.S (Datatypes.S k) * C + T * (2 ^ n * 2 ^ n) * Q ^ Datatypes.S k * (2 ^ n) ^ q = Q * (Q ^ (k + 1) * (2 ^ n - e - 1) ^ q + T * (2 ^ n * 2 ^ n) * Q ^ k * (2 ^ n) ^ q))%nat).
      { fold C. replace (k + 1)%nat with (Datatypes.S k) by lia. cbn [Nat.pow]. ring. }
      rewrite Y in X. apply Nat.mul_le_mono_pos_l in X; lia. }
  (* positions and answers at the leaves of the tree *)
  set (Br := branches K_eq_dec C ls ws).
  set (A := fun alpha betas => nodup Z.eq_dec (concat (map snd (subs K_eq_dec (alpha :: betas) ws)))).
  assert (LEAF : forall alpha betas p y, length betas = k -> In (p, y) (subs K_eq_dec (alpha :: betas) ws) -> p = [] /\ In (alpha, betas, y) wins).
  { intros alpha betas p y Lb H. apply subs_in in H. cbn [app] in H. apply INW in H. destruct (HW _ _ _ H) as (_ & L & _).
    rewrite app_length in L. destruct p as [|b p]; [|cbn [length] in L; lia]. rewrite app_nil_r in H. now split. }
  assert (INA : forall alpha betas i, length betas = k -> In i (A alpha betas) -> exists is, In (alpha, betas, is) wins /\ In i is /\ In ([], is) (subs K_eq_dec (alpha :: betas) ws)).
  { intros alpha betas i Lb H. unfold A in H. apply nodup_In, in_concat in H. destruct H as (is & H & Hi). apply in_map_iff in H. destruct H as ([p y] & E & H). cbn [snd] in E. subst y.
    destruct (LEAF alpha betas p is Lb H) as [-> Hw]. exists is. now repeat split. }
  set (round := fun alpha betas i =>
    match find (fun w : list K * list Z => member (snd w) i) (subs K_eq_dec (alpha :: betas) ws) with
    | Some w => match find (fun ir : Z * FriQueryRound => fst ir =? i) (combine (snd w) (QueryRoundProofs (t_proof (ans alpha betas (snd w))))) with
                | Some ir => snd ir | None => no_round end
    | None => no_round end).
  assert (ROUND : forall alpha betas i, length betas = k -> In i (A alpha betas) -> exists is, In (alpha, betas, is) wins /\ opens ans alpha betas is i (round alpha betas i)).
  { intros alpha betas i Lb H. destruct (INA alpha betas i Lb H) as (is & Hw & Hi & Hs). unfold round.
    destruct (find _ (subs _ _ _)) as [[p y]|] eqn:Fi.
    2:{ exfalso. pose proof (find_none _ _ Fi _ Hs) as N. cbn [snd] in N. apply member_in in Hi. congruence. }
    apply find_some in Fi. destruct Fi as [F1 E1]. cbn [snd] in *. apply member_in in E1. destruct (LEAF alpha betas p y Lb F1) as [_ Hy].
    exists y. split; [exact Hy|]. destruct (HW _ _ _ Hy) as (_ & _ & _ & Won). destruct (won_lengths _ _ _ _ _ _ _ _ _ _ _ Hor Lp Won) as [Ly Lr].
    destruct (in_combine_some y (QueryRoundProofs (t_proof (ans alpha betas y))) i ltac:(lia) E1) as (r & Hr).
    destruct (find _ (combine _ _)) as [[i' r']|] eqn:Fr.
    - apply find_some in Fr. destruct Fr as [F2' E2]. cbn [fst snd] in *. apply Z.eqb_eq in E2. subst i'. exact F2'.
    - exfalso. pose proof (find_none _ _ Fr _ Hr) as N. cbn [fst] in N. apply Z.eqb_neq in N. now apply N. }
  assert (TREE : forall alpha pre, In alpha (Br []) -> in_tree (fun p => Br (alpha :: p)) [] pre -> along Br [] (alpha :: pre)).
  { intros alpha pre Ia Tp. cbn [along app]. split; [exact Ia|]. now apply in_tree_along in Tp. }
  assert (PA : forall alpha betas, In alpha (Br []) -> length betas = k -> in_tree (fun p => Br (alpha :: p)) [] betas -> positions_of n (A alpha betas) /\ (2 ^ n <= length (A alpha betas) + e)%nat).
  { intros alpha betas Ia Lb Tb. split.
    - split; [apply NoDup_nodup|]. apply Forall_forall. intros i Hi. destruct (INA alpha betas i Lb Hi) as (is & Hw & Hi' & _).
      destruct (HW _ _ _ Hw) as (_ & _ & _ & Won). destruct Won as (_ & _ & Ei & _). rewrite <- Ei in Hi'. apply in_map_iff in Hi'. destruct Hi' as (x & <- & _). apply Z.mod_pos_bound. fold n. lia.
    - pose proof (good_leaf K_eq_dec C ls ws (alpha :: betas) GOOD ltac:(cbn [length]; lia) (TREE alpha betas Ia Tb)) as GL.
      assert (M : (2 ^ n - e - 1 < length (A alpha betas))%nat); [|lia].
      apply (many_positions Z.eq_dec q).
      + apply snd_nodup; [now apply subs_nodup|]. intros [p y] Hp. now destruct (LEAF alpha betas p y Lb Hp).
      + apply Forall_forall. intros is His. apply in_map_iff in His. destruct His as ([p y] & <- & Hp). cbn [snd]. destruct (LEAF alpha betas p y Lb Hp) as [_ Hy].
        destruct (HW _ _ _ Hy) as (_ & _ & _ & Won). now apply (won_lengths _ _ _ _ _ _ _ _ _ _ _ Hor Lp Won).
      + rewrite map_length. exact GL. }
  assert (NDl : Forall (fun l : list K * nat => NoDup (fst l)) ls).
  { unfold ls. apply Forall_forall. intros l Hl. apply in_map_iff in Hl. destruct Hl as (t & <- & _). exact NDc. }
  destruct (fri_prox params oracles points openings initialCaps (Br []) (fun alpha pre => Br (alpha :: pre)) cap final A round e) as (alpha & betas & Ia & Lb & Tb & F & HF); try assumption.
  - now apply branches_nodup.
  - pose proof (good_branches K_eq_dec C ls ws [] ltac:(cbn [length]; lia) GOOD) as GB. exact GB.
  - fold k n. intros alpha pre Ia Lpre Tpre. split; [now apply branches_nodup|].
    pose proof (good_along K_eq_dec C ls ws (alpha :: pre) [] GOOD (TREE alpha pre Ia Tpre)) as GA. cbn [app] in GA.
    pose proof (good_branches K_eq_dec C ls ws (alpha :: pre) ltac:(cbn [length]; lia) GA) as GB. fold Br in GB. cbn [length] in GB.
    eapply Nat.le_lt_trans; [|exact GB]. unfold ls, thr. cbn [map nth]. rewrite map_map.
    rewrite (nth_map_lt _ _ _ _ O) by (rewrite seq_length; lia). rewrite seq_nth by lia. cbn [snd Nat.add]. lia.
  - fold k. intros alpha betas i Ia Lb Tb Ri. destruct (ROUND alpha betas i Lb Ri) as (is & Hw & Ho). destruct (HW _ _ _ Hw) as (_ & _ & _ & Won).
    exact (won_answered _ _ _ _ _ _ _ _ _ _ _ _ _ Won Ho).
  - fold k. intros a b (alpha & betas & i & _ & Lb & _ & Ri & Ha) (alpha' & betas' & i' & _ & Lb' & _ & Ri' & Hb).
    destruct (ROUND alpha betas i Lb Ri) as (is & Hw & Ho). destruct (ROUND alpha' betas' i' Lb' Ri') as (is' & Hw' & Ho').
    apply NC; [exists alpha, betas, is, i, (round alpha betas i)|exists alpha', betas', is', i', (round alpha' betas' i')]; repeat split; assumption.
  - fold k in Lb. fold k n in HF.
    exists F, (A alpha betas). destruct (PA alpha betas Ia Lb Tb) as [[NDA RA] LA]. split; [exact NDA|]. split; [exact RA|]. split; [exact LA|]. split.
    { intros i Hi. destruct (ROUND alpha betas i Lb Hi) as (is & Hw & Ho). exists alpha, betas, is, (round alpha betas i). now split. }
    intros z polys os op o H1 H2. destruct (HF z polys os op o H1 H2) as (LF & EZ & EF). split; [exact LF|]. split; [exact EZ|].
    intros alpha' betas' is' i round' Hw' Hi Ho'. rewrite <- (EF i Hi).
    destruct (ROUND alpha betas i Lb Hi) as (is & Hw & Ho). destruct (HW _ _ _ Hw) as (_ & _ & _ & Won). destruct (HW _ _ _ Hw') as (_ & _ & _ & Won').
    destruct (answered_round _ _ _ _ _ _ _ _ _ _ _ Hor Lp (won_answered _ _ _ _ _ _ _ _ _ _ _ _ _ Won Ho)) as ((C1 & _) & (I1 & _) & Sh1 & _ & _ & _ & _ & _ & O1 & _).
    destruct (answered_round _ _ _ _ _ _ _ _ _ _ _ Hor Lp (won_answered _ _ _ _ _ _ _ _ _ _ _ _ _ Won' Ho')) as ((C2 & _) & (I2 & _) & Sh2 & _ & _ & _ & _ & _ & O2 & _).
    f_equal. apply elements_nth. symmetry. apply (initial_unique S i _ initialCaps NC _ _ O1 O2); try assumption.
    + intros a Ha. exists alpha, betas, is, i, (round alpha betas i). repeat (split; [assumption|]). apply in_or_app. now left.
    + intros a Ha. exists alpha', betas', is', i, round'. repeat (split; [assumption|]). apply in_or_app. now left.
    + eapply shapes_agree; eassumption.
Qed.
Print Assumptions C80_extract.

(** So a prover that has committed to words far from polynomials with the claimed values is
    accepted rarely: W is the committed table, and no polynomials with the claimed values agree
    with it, all at the same positions, at 2^n - e positions. *)
Theorem C80_far : forall params oracles points openings initialCaps
    (cap : K -> list K -> FriMerkleCap) (final : K -> list K -> list QE) (ans : K -> list K -> list Z -> transcript)
    (coins : list K) (wins : list (K * list K * list Z)) (e : nat) (W : nat * nat -> Z -> Z),
  let n := LdeBits params in let k := length (ReductionArityBits params) in let q := NumQueryRounds (fp_Config params) in
  let T := length (flat_map snd points) in let Q := length coins in
  oracles <> [] -> Forall2 (fun b os => length os = length (snd b)) points openings -> (1 <= T)%nat ->
  (2 * e + 2 ^ fp_DegreeBits params < 2 ^ n)%nat ->
  NoDup coins -> NoDup wins ->
  (forall alpha betas positions, In (alpha, betas, positions) wins ->
     In alpha coins /\ length betas = k /\ Forall (fun b => In b coins) betas /\
     won params oracles points openings initialCaps cap final ans alpha betas positions) ->
  no_collision (fun a => exists alpha betas positions i round, In (alpha, betas, positions) wins /\ opens ans alpha betas positions i round /\
     In a (round_inputs round i)) ->
  (forall alpha betas positions i round op, In (alpha, betas, positions) wins -> opens ans alpha betas positions i round -> In op (flat_map snd points) ->
     nth (snd op) (Elements (nth (fst op) (InitialTreesProof round) no_eval)) 0 = W op i) ->
  (forall (F : nat * nat -> list GF) (G : list Z), NoDup G -> Forall (fun i => 0 <= i < 2 ^ Z.of_nat n) G ->
     (forall z polys os op o, In ((z, polys), os) (combine points openings) -> In (op, o) (combine polys os) ->
        (length (F op) <= 2 ^ fp_DegreeBits params + 1)%nat /\ kpeval (map emb (F op)) z = o /\ forall i, In i G -> W op i = rep (gpeval (F op) (dom g7 n i))) ->
     (length G + e < 2 ^ n)%nat) ->
  (length wins <= Q ^ (k + 1) * (2 ^ n - e - 1) ^ q + T * (2 ^ n * 2 ^ n) * Q ^ k * (2 ^ n) ^ q)%nat.
Proof.
  intros params oracles points openings initialCaps cap final ans coins wins e W n k q T Q Hor F2 HT He NDc NDw HW NC HWd FAR.
  apply Nat.nlt_ge. intros L.
  destruct (C80_extract params oracles points openings initialCaps cap final ans coins wins e Hor F2 HT He NDc NDw HW NC L) as (F & G & NDG & RG & LG & OG & HF).
  apply (Nat.lt_irrefl (2 ^ n)). eapply Nat.le_lt_trans; [exact LG|]. apply (FAR F G NDG RG).
  intros z polys os op o H1 H2. destruct (HF z polys os op o H1 H2) as (A1 & A2 & A3). split; [exact A1|]. split; [exact A2|].
  intros i Hi. destruct (OG i Hi) as (alpha & betas & is & round & Hw & Ho). etransitivity; [symmetry; apply (HWd _ _ _ _ _ op Hw Ho)|exact (A3 _ _ _ _ _ Hw Hi Ho)].
  apply in_flat_map. exists (z, polys). split; [now apply in_combine_l in H1|]. now apply in_combine_l in H2.
Qed.
Print Assumptions C80_far.

(** In particular if the words are polynomials and one claimed value is wrong. *)
Theorem C80_false_opening : forall params oracles points openings initialCaps
    (cap : K -> list K -> FriMerkleCap) (final : K -> list K -> list QE) (ans : K -> list K -> list Z -> transcript)
    (coins : list K) (wins : list (K * list K * list Z)) (e : nat) (P : nat * nat -> list GF) z polys os op o,
  let n := LdeBits params in let k := length (ReductionArityBits params) in let q := NumQueryRounds (fp_Config params) in
  let T := length (flat_map snd points) in let Q := length coins in
  oracles <> [] -> Forall2 (fun b os => length os = length (snd b)) points openings ->
  (2 * e + 2 ^ fp_DegreeBits params < 2 ^ n)%nat ->
  NoDup coins -> NoDup wins ->
  (forall alpha betas positions, In (alpha, betas, positions) wins ->
     In alpha coins /\ length betas = k /\ Forall (fun b => In b coins) betas /\
     won params oracles points openings initialCaps cap final ans alpha betas positions) ->
  no_collision (fun a => exists alpha betas positions i round, In (alpha, betas, positions) wins /\ opens ans alpha betas positions i round /\
     In a (round_inputs round i)) ->
  (n <= 32)%nat -> (length (P op) <= 2 ^ fp_DegreeBits params + 1)%nat ->
  (forall alpha betas positions i round op', In (alpha, betas, positions) wins -> opens ans alpha betas positions i round -> In op' (flat_map snd points) ->
     nth (snd op') (Elements (nth (fst op') (InitialTreesProof round) no_eval)) 0 = rep (gpeval (P op') (dom g7 n i))) ->
  In ((z, polys), os) (combine points openings) -> In (op, o) (combine polys os) -> kpeval (map emb (P op)) z <> o ->
  (length wins <= Q ^ (k + 1) * (2 ^ n - e - 1) ^ q + T * (2 ^ n * 2 ^ n) * Q ^ k * (2 ^ n) ^ q)%nat.
Proof.
  intros params oracles points openings initialCaps cap final ans coins wins e P z polys os op o n k q T Q Hor F2 He NDc NDw HW NC Hn LP HWd H1 H2 NE.
  assert (HT : (1 <= T)%nat).
  { assert (I : In op (flat_map snd points)) by (apply in_flat_map; exists (z, polys); split; [now apply in_combine_l in H1|now apply in_combine_l in H2]).
    unfold T. destruct (flat_map snd points); [destruct I|cbn [length]; lia]. }
  apply (C80_far params oracles points openings initialCaps cap final ans coins wins e (fun op i => rep (gpeval (P op) (dom g7 n i))) Hor F2 HT He NDc NDw HW NC HWd).
  intros F G NDG RG HF. destruct (HF z polys os op o H1 H2) as (LF & EF & AG). fold n in RG, AG. fold n. apply Nat.nle_gt. intros LG. apply NE. rewrite <- EF.
  apply (kpeval_same n G); [exact Hn|split; [exact NDG|exact RG]|rewrite map_length; lia|rewrite map_length; lia|].
  intros i Hi. rewrite !kpeval_emb. f_equal. apply GF_eq. now apply AG.
Qed.
Print Assumptions C80_false_opening.

(** The bound cannot be made smaller than (2^DegreeBits / 2^n)^q: whatever the committed table and
    the claimed values, there is a prover that wins every run with all positions in a set S of
    2^DegreeBits positions. *)
Theorem C80_cheat : forall leaves params oracles points openings k (coins : list K) (S : list Z),
  honest_params params k -> oracles <> [] -> leaves_ok leaves params oracles -> polys_exist oracles (flat_map snd points) -> length points = length openings ->
  NoDup S -> Forall (fun i => 0 <= i < 2 ^ Z.of_nat (LdeBits params)) S -> (length S <= 2 ^ fp_DegreeBits params)%nat ->
  (forall i z polys, In i S -> In (z, polys) points -> emb (dom g7 (LdeBits params) i) <> z) ->
  exists cap final ans, forall alpha betas positions, In alpha coins -> length betas = k -> betas_off g7 (LdeBits params) betas ->
    length positions = NumQueryRounds (fp_Config params) -> Forall (fun i => In i S) positions ->
    won params oracles points openings (forged_caps leaves (length oracles) (LdeBits params)) cap final ans alpha betas positions /\
    forall i round, opens ans alpha betas positions i round -> InitialTreesProof round = forged_trees leaves (length oracles) (LdeBits params) i /\ (k = 0%nat -> Steps round = []).
Proof.
  intros leaves params oracles points openings k coins S HP Hor HL Hpo Lp ND HR LS Hz.
  destruct (finite_choice (@nil K) (fun alpha c => length c = (2 ^ fp_DegreeBits params)%nat /\ forall i, In i S -> kpeval c (emb (dom g7 (LdeBits params) i)) =
     combined (forged_trees leaves (length oracles) (LdeBits params) i) alpha (emb (dom g7 (LdeBits params) i)) (fri_batches alpha points openings)) coins) as (c & Hc).
  { intros alpha _. apply (forged_codeword params (fun i => combined (forged_trees leaves (length oracles) (LdeBits params) i) alpha (emb (dom g7 (LdeBits params) i)) (fri_batches alpha points openings)) S); try assumption.
    unfold TWO_ADICITY. unfold honest_params in HP. lia. }
  exists (fun alpha => honest_cap g7 (LdeBits params) (c alpha)), (fun alpha betas => map repK (commit_final (c alpha) betas)),
    (fun alpha betas positions => mkTranscript (forged_fri leaves (length oracles) params (c alpha) betas (map inj positions) 0) g0 (map inj positions)).
  intros alpha betas positions Ia Lb Hb Lq Fp. destruct (Hc alpha Ia) as [Lc Ec]. rewrite Forall_forall in Fp, HR.
  assert (MI : forall i, In i positions -> rep (inj i) mod 2 ^ Z.of_nat (LdeBits params) = i).
  { intros i Hi. specialize (HR i (Fp i Hi)). rewrite rep_inj_small; [now apply Z.mod_small|]. destruct HP as (_ & _ & _ & _ & _ & Hn). split; [lia|].
    apply Z.lt_trans with (2 ^ 33); [|reflexivity]. apply Z.lt_le_trans with (2 ^ Z.of_nat (LdeBits params)); [lia|]. apply Z.pow_le_mono_r; lia. }
  destruct (forged_ok leaves params oracles points openings alpha betas g0 (map inj positions) 0 (c alpha)) as [C OK]; try assumption.
  - now rewrite Lb.
  - intros x Hx. cbv zeta. apply in_map_iff in Hx. destruct Hx as (i & <- & Hi). rewrite MI by exact Hi. now apply Ec, Fp.
  - intros x z polys Hx Hz'. apply in_map_iff in Hx. destruct Hx as (i & <- & Hi). rewrite MI by exact Hi. now apply (Hz i z polys); [apply Fp|].
  - now rewrite map_length.
  - change (rep g0) with 0. apply Z.pow_pos_nonneg; unfold honest_params in HP; lia.
  - split.
    + unfold won. cbn [t_proof t_pow t_indices]. rewrite honest_caps_along. split; [reflexivity|]. split; [reflexivity|]. split; [|split; [exact C|split]].
      * rewrite map_map. rewrite <- (map_id positions) at 2. apply map_ext_in. exact MI.
      * unfold forged_fri. cbn [QueryRoundProofs]. apply Forall_forall. intros round Hr. apply in_map_iff in Hr. destruct Hr as (x & <- & _). apply forged_siblings.
      * apply (enforces_sat _ _ _ (verify_fri_correct params oracles points openings alpha betas g0 (map inj positions)
          (forged_caps leaves (length oracles) (LdeBits params)) _ C Hor Lp)). exact OK.
    + intros i round Ho. unfold opens, forged_fri in Ho. cbn [t_proof QueryRoundProofs] in Ho. rewrite map_map in Ho.
      assert (E : i = i /\ round = mkFriQueryRound (forged_trees leaves (length oracles) (LdeBits params) i) (commit_steps g7 (LdeBits params) (c alpha) betas i)).
      { split; [reflexivity|]. clear - Ho MI. induction positions as [|i' l IH]; cbn [map combine] in Ho; [destruct Ho|]. destruct Ho as [E|Ho].
        - injection E as -> <-. cbv beta zeta. pose proof (MI i (or_introl eq_refl)) as M. cbn [rep inj proj1_sig] in M. change (rep (inj i)) with (i mod p) in M. now rewrite M.
        - apply IH; [intros j Hj; apply MI; now right|exact Ho]. }
      destruct E as [_ ->]. cbn [InitialTreesProof Steps]. split; [reflexivity|]. intros Ek. destruct betas as [|b betas]; [reflexivity|]. cbn [length] in Lb. lia.
Qed.
Print Assumptions C80_cheat.

(** The honest prover wins every run, if the challenges are not points of the domains. *)
Definition honest_ans tables salts params points (alpha : K) (betas : list K) (positions : list Z) : transcript :=
  mkTranscript (honest_fri tables salts params points alpha betas (map inj positions) 0) g0 (map inj positions).
Theorem C80_honest : forall params oracles tables salts points alpha betas positions,
  honest_params params (length betas) -> honest_tables params oracles tables salts -> oracles <> [] -> Forall (poly_in tables) (flat_map snd points) ->
  betas_off g7 (LdeBits params) betas ->
  length positions = NumQueryRounds (fp_Config params) -> Forall (fun i => 0 <= i < 2 ^ Z.of_nat (LdeBits params)) positions ->
  (forall i z polys, In i positions -> In (z, polys) points -> emb (dom g7 (LdeBits params) i) <> z) ->
  let c := fun alpha => honest_codeword tables params alpha points in
  won params oracles points (open_batches tables points) (honest_caps tables salts (LdeBits params))
    (fun alpha => honest_cap g7 (LdeBits params) (c alpha)) (fun alpha betas => map repK (commit_final (c alpha) betas)) (honest_ans tables salts params points) alpha betas positions.
Proof.
  intros params oracles tables salts points alpha betas positions HP HT Hor Hpo Hb Lq Ri Hz c.
  assert (MI : forall i, In i positions -> rep (inj i) mod 2 ^ Z.of_nat (LdeBits params) = i).
  { intros i Hi. rewrite Forall_forall in Ri. specialize (Ri i Hi). rewrite rep_inj_small; [now apply Z.mod_small|]. destruct HP as (_ & _ & _ & _ & _ & Hn). split; [lia|].
    apply Z.lt_trans with (2 ^ 33); [|reflexivity]. apply Z.lt_le_trans with (2 ^ Z.of_nat (LdeBits params)); [lia|]. apply Z.pow_le_mono_r; lia. }
  destruct (honest_fri_ok params oracles tables salts points alpha betas g0 (map inj positions) 0 HP HT Hpo Hb) as [C OK].
  - intros x z polys Hx Hz'. apply in_map_iff in Hx. destruct Hx as (i & <- & Hi). rewrite MI by exact Hi. now apply (Hz i z polys).
  - now rewrite map_length.
  - change (rep g0) with 0. apply Z.pow_pos_nonneg; destruct HP as (_ & _ & HP & _); lia.
  - unfold won, honest_ans. cbn [t_proof t_pow t_indices]. rewrite honest_caps_along. split; [reflexivity|]. split; [reflexivity|]. split; [|split; [exact C|split]].
    + rewrite map_map. rewrite <- (map_id positions) at 2. apply map_ext_in. exact MI.
    + unfold honest_fri. cbn [QueryRoundProofs]. apply Forall_forall. intros round Hr. apply in_map_iff in Hr. destruct Hr as (x & <- & _). apply honest_siblings.
    + apply (enforces_sat _ _ _ (verify_fri_correct params oracles points (open_batches tables points) alpha betas g0 (map inj positions)
        (honest_caps tables salts (LdeBits params)) _ C Hor ltac:(unfold open_batches; now rewrite map_length))). exact OK.
Qed.
Print Assumptions C80_honest.

(** ** Examples
    Two query rounds on a domain of sixteen points, no reductions; the batching challenge is one
    of 2500 elements.  The prover answers the queries at the first fifteen positions only: it
    wins 2500 * 15^2 runs of 2500 * 16^2, which is more than the bound with e = 3. *)
Lemma nodup_flat_map {A B} (f : A -> list B) l : NoDup l -> (forall a, NoDup (f a)) -> (forall a b x, In x (f a) -> In x (f b) -> a = b) -> NoDup (flat_map f l).
Proof.
  intros ND Hf D. induction ND as [|a l Ha ND IH]; cbn [flat_map]; [constructor|].
  assert (DJ : forall x, In x (f a) -> ~ In x (flat_map f l)).
  { intros x Hx X. apply in_flat_map in X. destruct X as (b & Hb & X). rewrite (D a b x Hx X) in Ha. contradiction. }
  generalize (Hf a). revert DJ. generalize (f a). induction l0 as [|x l0 IHl]; intros DJ N; [exact IH|]. cbn [app]. inversion N; subst. constructor.
  - intros X. apply in_app_or in X. destruct X as [X|X]; [contradiction|]. exact (DJ x (in_eq _ _) X).
  - apply IHl; [intros y Hy; apply DJ; now right|assumption].
Qed.
Lemma tuples_nodup {A} q (l : list A) : NoDup l -> NoDup (tuples q l).
Proof.
  intros ND. induction q as [|q IH]; cbn [tuples]; [repeat constructor; intros []|]. apply nodup_flat_map; [exact ND| |].
  - intros a. apply NoDup_map_in; [intros x y _ _ E; now injection E|exact IH].
  - intros a b x Hx Hy. apply in_map_iff in Hx. apply in_map_iff in Hy. destruct Hx as (y & <- & _). destruct Hy as (y' & E & _). now injection E as -> _.
Qed.
Definition ex80_coins : list K := map (fun j => emb (inj (Z.of_nat j))) (seq 0 2500).
Definition ex80_positions : list Z := map Z.of_nat (seq 0 15).
Definition ex80_wins : list (K * list K * list Z) := flat_map (fun alpha => map (pair (alpha, [])) (tuples 2 ex80_positions)) ex80_coins.
Lemma ex80_coins_nodup : NoDup ex80_coins.
Proof.
  apply NoDup_map_in; [|apply seq_NoDup]. intros a b Ha Hb E. apply in_seq in Ha. apply in_seq in Hb. apply emb_inj in E. apply (f_equal rep) in E.
  rewrite !rep_inj_small in E; unfold p; lia.
Qed.
Lemma ex80_in alpha betas positions : In (alpha, betas, positions) ex80_wins <-> In alpha ex80_coins /\ betas = [] /\ length positions = 2%nat /\ Forall (fun i => 0 <= i < 15) positions.
Proof.
  unfold ex80_wins. rewrite in_flat_map. split.
  - intros (a & Ha & H). apply in_map_iff in H. destruct H as (y & E & H). injection E as <- <- <-. apply tuples_in in H. destruct H as [L F]. repeat split; try assumption.
    eapply Forall_impl; [|exact F]. intros i Hi. apply in_map_iff in Hi. destruct Hi as (j & <- & Hj). apply in_seq in Hj. lia.
  - intros (Ha & -> & L & F). exists alpha. split; [exact Ha|]. apply in_map_iff. exists positions. split; [reflexivity|]. apply tuples_in. split; [exact L|].
    eapply Forall_impl; [|exact F]. intros i Hi. cbn beta in Hi. apply in_map_iff. exists (Z.to_nat i). split; [lia|]. apply in_seq. lia.
Qed.
Lemma ex80_won alpha positions : length positions = 2%nat -> Forall (fun i => 0 <= i < 15) positions ->
  won ex59_params ex59_oracles ex59_points (open_batches ex59_tables ex59_points) (honest_caps ex59_tables (fun _ _ => []) 4)
    (fun alpha => honest_cap g7 4 (honest_codeword ex59_tables ex59_params alpha ex59_points))
    (fun alpha betas => map repK (commit_final (honest_codeword ex59_tables ex59_params alpha ex59_points) betas))
    (honest_ans ex59_tables (fun _ _ => []) ex59_params ex59_points) alpha [] positions.
Proof.
  assert (N : forall x z, snd z <> g0 -> emb x <> z) by (intros x z H E; apply H; now rewrite <- E).
  assert (NZ : forall a : GF, rep a <> 0 -> a <> g0) by (intros a H E; apply H; now rewrite E).
  intros L F. apply (C80_honest ex59_params ex59_oracles ex59_tables (fun _ _ => []) ex59_points alpha [] positions).
  - unfold honest_params. cbn. repeat split; lia.
  - split; [reflexivity|]. split.
    + repeat (apply Forall_cons || apply Forall_nil); vm_compute; lia.
    + intros o Ho. cbn [ex59_oracles length] in Ho. destruct o as [|o]; [|lia]. split; [reflexivity|]. intros j. split; [reflexivity|apply Forall_nil].
  - discriminate.
  - repeat (apply Forall_cons || apply Forall_nil); split; vm_compute; lia.
  - exact I.
  - exact L.
  - eapply Forall_impl; [|exact F]. intros i Hi. cbn beta in Hi. change (2 ^ Z.of_nat (LdeBits ex59_params)) with 16. lia.
  - intros i z polys _ Hz. apply N. destruct Hz as [Hz|[Hz|[]]]; apply (f_equal fst) in Hz; cbn [fst] in Hz; subst z; apply NZ; vm_compute; discriminate.
Qed.
Lemma ex80_round alpha positions i round : length positions = 2%nat -> opens (honest_ans ex59_tables (fun _ _ => []) ex59_params ex59_points) alpha [] positions i round ->
  round = honest_round ex59_tables (fun _ _ => []) ex59_params (honest_codeword ex59_tables ex59_params alpha ex59_points) [] (inj i).
Proof.
  intros L H. unfold opens, honest_ans, honest_fri in H. cbn [t_proof QueryRoundProofs] in H. destruct positions as [|a [|b [|c l]]]; try discriminate L.
  cbn [map combine] in H. destruct H as [E|[E|[]]]; injection E as -> <-; reflexivity.
Qed.
Example C80_ex : exists (F : nat * nat -> list GF) (G : list Z), (13 <= length G)%nat /\
  kpeval (map emb (F (0, 0)%nat)) kX = (emb (inj 4) + emb (inj 6) * kX)%K /\
  forall i, In i G -> nth 1 (Elements (nth 0 (InitialTreesProof (first_round (honest_ans ex59_tables (fun _ _ => []) ex59_params ex59_points (emb (inj 0)) [] [i; i]))) no_eval)) 0 = rep (gpeval (F (0, 1)%nat) (dom g7 4 i)).
Proof.
  destruct (C80_extract ex59_params ex59_oracles ex59_points (open_batches ex59_tables ex59_points) (honest_caps ex59_tables (fun _ _ => []) 4)
    (fun alpha => honest_cap g7 4 (honest_codeword ex59_tables ex59_params alpha ex59_points))
    (fun alpha betas => map repK (commit_final (honest_codeword ex59_tables ex59_params alpha ex59_points) betas))
    (honest_ans ex59_tables (fun _ _ => []) ex59_params ex59_points) ex80_coins ex80_wins 3) as (F & G & NDG & RG & LG & OG & HF).
  - discriminate.
  - repeat constructor.
  - cbn. lia.
  - cbn. lia.
  - exact ex80_coins_nodup.
  - unfold ex80_wins. apply nodup_flat_map; [exact ex80_coins_nodup| |].
    + intros a. apply NoDup_map_in; [intros x y _ _ E; now injection E|apply tuples_nodup, nodup79].
    + intros a b x Hx Hy. apply in_map_iff in Hx. apply in_map_iff in Hy. destruct Hx as (y & <- & _). destruct Hy as (y' & E & _). now injection E as -> _.
  - intros alpha betas positions H. apply ex80_in in H. destruct H as (Ha & -> & L & Fp). split; [exact Ha|]. split; [reflexivity|]. split; [constructor|]. now apply ex80_won.
  - intros a b (alpha & betas & positions & i & round & H & Ho & Ha). exfalso. apply ex80_in in H. destruct H as (_ & -> & L & _). rewrite (ex80_round _ _ _ _ L Ho) in Ha. exact Ha.
  - change (LdeBits ex59_params) with 4%nat. change (length (ReductionArityBits ex59_params)) with 0%nat. change (NumQueryRounds (fp_Config ex59_params)) with 2%nat.
    change (length (flat_map snd ex59_points)) with 3%nat. assert (LC : length ex80_coins = 2500%nat) by (unfold ex80_coins; now rewrite map_length, seq_length).
    assert (LW : length ex80_wins = (length ex80_coins * 15 ^ 2)%nat).
    { unfold ex80_wins. generalize ex80_coins. induction l as [|a l IH]; [reflexivity|]. cbn [flat_map length]. rewrite app_length, IH, map_length, tuples_length. reflexivity. }
    rewrite LW. generalize dependent (length ex80_coins). clear. intros Q -> _. cbn [Nat.pow Nat.add]. lia.
  - change (LdeBits ex59_params) with 4%nat in *. exists F, G. split; [change (2 ^ 4)%nat with 16%nat in LG; lia|]. split.
    + destruct (HF kX [(0, 0); (0, 1)]%nat (map (fun op => kpeval (poly_of ex59_tables op) kX) [(0, 0); (0, 1)]%nat) (0, 0)%nat
        (kpeval (poly_of ex59_tables (0, 0)%nat) kX)) as (_ & E & _); [now left|now left|].
      rewrite E. unfold poly_of, ex59_tables, kpeval. cbn [nth fst snd map peval]. ring.
    + intros i Hi. destruct (HF kX [(0, 0); (0, 1)]%nat (map (fun op => kpeval (poly_of ex59_tables op) kX) [(0, 0); (0, 1)]%nat) (0, 1)%nat
        (kpeval (poly_of ex59_tables (0, 1)%nat) kX)) as (_ & _ & E); [now left|right; now left|].
      destruct (OG i Hi) as (alpha & betas & positions & round & Hw & Ho). apply ex80_in in Hw. destruct Hw as (Ia & -> & Lp & Fp).
      pose proof (ex80_round _ _ _ _ Lp Ho) as ER.
      assert (I0 : 0 <= i < 15) by (unfold opens in Ho; apply in_combine_l in Ho; rewrite Forall_forall in Fp; now apply Fp).
      apply (E (emb (inj 0)) [] [i; i] i); [apply ex80_in|exact Hi|].
      * split; [unfold ex80_coins; apply in_map_iff; exists 0%nat; split; [reflexivity|apply in_seq; lia]|]. split; [reflexivity|]. split; [reflexivity|]. now repeat constructor.
      * now left.
Qed.

(** A cheating prover for C80_false_opening: a table of zeros, opened at X to X.  Every run of two
    queries at the first eight positions is won, 2500 * 8^2 runs; the bound is 2500 * 12^2 + 65536. *)
Definition ex80_false : list (K * list K * list Z) := flat_map (fun alpha => map (pair (alpha, [])) (tuples 2 (map Z.of_nat (seq 0 8)))) ex80_coins.
Example C80_ex_false : exists cap final ans,
  (forall alpha betas positions, In (alpha, betas, positions) ex80_false -> In alpha ex80_coins /\ length betas = 0%nat /\ Forall (fun b => In b ex80_coins) betas /\
     won ex59_params [mkOracleInfo 1 false] [(kX, [(0, 0)%nat])] [[kX]] (forged_caps zero_leaves 1 4) cap final ans alpha betas positions) /\
  no_collision (fun a => exists alpha betas positions i round, In (alpha, betas, positions) ex80_false /\ opens ans alpha betas positions i round /\ In a (round_inputs round i)) /\
  (length ex80_false <= 2500 * 12 ^ 2 + 1 * (16 * 16) * 16 ^ 2)%nat.
Proof.
  destruct (C80_cheat zero_leaves ex59_params [mkOracleInfo 1 false] [(kX, [(0, 0)%nat])] [[kX]] 0 ex80_coins (map Z.of_nat (seq 0 8))) as (cap & final & ans & H).
  - unfold honest_params. cbn. repeat split; lia.
  - discriminate.
  - intros o i Ho. destruct o as [|o]; [|cbn in Ho; lia]. split; [reflexivity|]. repeat constructor. lia.
  - repeat constructor.
  - reflexivity.
  - apply nodup79.
  - apply Forall_forall. intros i Hi. apply range79 in Hi. change (2 ^ Z.of_nat (LdeBits ex59_params)) with 16. lia.
  - cbn. lia.
  - intros i z polys _ [E|[]] X. injection E as <- _. apply (f_equal snd) in X. apply (f_equal rep) in X. vm_compute in X. discriminate X.
  - change (LdeBits ex59_params) with 4%nat in H. cbn [length] in H.
    assert (IN : forall alpha betas positions, In (alpha, betas, positions) ex80_false -> In alpha ex80_coins /\ betas = [] /\ length positions = 2%nat /\ Forall (fun i => In i (map Z.of_nat (seq 0 8))) positions).
    { intros alpha betas positions Hin. apply in_flat_map in Hin. destruct Hin as (a & Ha & Hin). apply in_map_iff in Hin. destruct Hin as (y & E & Hin). injection E as <- <- <-. apply tuples_in in Hin.
      destruct Hin as [L F]. now repeat (split; [assumption || reflexivity|]). }
    assert (WON : forall alpha betas positions, In (alpha, betas, positions) ex80_false -> In alpha ex80_coins /\ length betas = 0%nat /\ Forall (fun b => In b ex80_coins) betas /\
      won ex59_params [mkOracleInfo 1 false] [(kX, [(0, 0)%nat])] [[kX]] (forged_caps zero_leaves 1 4) cap final ans alpha betas positions).
    { intros alpha betas positions Hin. destruct (IN _ _ _ Hin) as (Ha & -> & L & F). split; [exact Ha|]. split; [reflexivity|]. split; [constructor|].
      apply (H alpha [] positions Ha eq_refl I L F). }
    assert (NC : no_collision (fun a => exists alpha betas positions i round, In (alpha, betas, positions) ex80_false /\ opens ans alpha betas positions i round /\ In a (round_inputs round i))).
    { intros a b (alpha & betas & positions & i & round & Hin & Ho & Ha). exfalso. destruct (IN _ _ _ Hin) as (Ia & -> & L & F).
      destruct (H alpha [] positions Ia eq_refl I L F) as [_ HO]. destruct (HO i round Ho) as [E1 E2]. unfold round_inputs in Ha. rewrite E1, E2 in Ha by reflexivity. exact Ha. }
    exists cap, final, ans. split; [exact WON|]. split; [exact NC|].
    pose proof (C80_false_opening ex59_params [mkOracleInfo 1 false] [(kX, [(0, 0)%nat])] [[kX]] (forged_caps zero_leaves 1 4) cap final ans ex80_coins ex80_false 3 (fun _ => [])
      kX [(0, 0)%nat] [kX] (0, 0)%nat kX) as B.
    change (LdeBits ex59_params) with 4%nat in B. change (length (ReductionArityBits ex59_params)) with 0%nat in B. change (NumQueryRounds (fp_Config ex59_params)) with 2%nat in B.
    change (length (flat_map snd [(kX, [(0%nat, 0%nat)])])) with 1%nat in B. change (2 ^ 4)%nat with 16%nat in B. change (fp_DegreeBits ex59_params) with 3%nat in B.
    assert (LC : length ex80_coins = 2500%nat) by (unfold ex80_coins; now rewrite map_length, seq_length).
    cbv zeta in B. rewrite LC in B. rewrite Nat.pow_0_r, Nat.mul_1_r in B. change (0 + 1)%nat with 1%nat in B. rewrite Nat.pow_1_r in B. change (16 - 3 - 1)%nat with 12%nat in B. apply B; clear B.
    + discriminate.
    + repeat constructor.
    + cbn. lia.
    + exact ex80_coins_nodup.
    + unfold ex80_false. apply nodup_flat_map; [exact ex80_coins_nodup| |].
      * intros a. apply NoDup_map_in; [intros x y _ _ E; now injection E|apply tuples_nodup, nodup79].
      * intros a b x Hx Hy. apply in_map_iff in Hx. apply in_map_iff in Hy. destruct Hx as (y & <- & _). destruct Hy as (y' & E & _). now injection E as -> _.
    + exact WON.
    + exact NC.
    + lia.
    + cbn. lia.
    + intros alpha betas positions i round op' Hin Ho Hop. destruct (IN _ _ _ Hin) as (Ia & -> & L & F).
      destruct (H alpha [] positions Ia eq_refl I L F) as [_ HO]. destruct (HO i round Ho) as [E1 _]. rewrite E1. destruct Hop as [<-|[]]. reflexivity.
    + now left.
    + now left.
    + intros E. apply (f_equal snd) in E. apply (f_equal rep) in E. vm_compute in E. discriminate E.
Qed.
