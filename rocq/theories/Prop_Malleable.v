(** * Properties C19, C20, C26, C28 and C52 at the S-box width of the code.

    The partial theorems on these properties leave out the width 192 that the code uses.
    Here it is shown how far they fail at that width: for every input, not only for some. *)
From Coq Require Import String.
From Coq Require Import ZArith NArith Lia List Bool Permutation.
From Verif Require Import Zp GF Circuit Goldilocks GLProofs PoseidonSpec PoseidonGL PoseidonGLProofs Sponge DenP Prop_Poseidon
  BN254 BN254Hash Types Challenger ChallengerProofs ChallengerPhases ChallengerTop Transcript Prop_Challenger Malleable.
Import ListNotations.
Open Scope Z_scope.

Lemma nth_rep l i : nth i (map rep l) 0 = rep (nth i l g0).
Proof. change 0 with (rep g0). apply map_nth. Qed.
Lemma forge0 s : forge s (digit 0) = poseidon s.
Proof.
  apply (nth_ext _ _ g0 g0).
  - unfold forge. now rewrite map_length, seq_length, poseidon_len.
  - intros i Hi. unfold forge in Hi. rewrite map_length, seq_length in Hi. rewrite forge_nth by exact Hi. unfold shift. rewrite zdot_digit.
    rewrite Z.mul_0_r, Z.mul_0_l, <- g0_inj. ring.
Qed.

(** every state has at least six outputs, which differ pairwise in every element *)
Theorem C19_malleable : forall s, length s = 12%nat -> Forall (fun x => 0 <= x < p) s ->
  exists out : Z -> list Z,
    run (Poseidon s) = Done (out 0) /\
    (forall k, 0 <= k <= 5 -> reach (Poseidon s) (out k)) /\
    forall j k i, 0 <= j <= 5 -> 0 <= k <= 5 -> j <> k -> (i < 12)%nat -> nth i (out j) 0 <> nth i (out k) 0.
Proof.
  intros s L H. destruct (canon_list s H) as [g ->]. rewrite map_length in L.
  exists (fun k => map rep (forge g (digit k))). split; [|split].
  - rewrite forge0. exact (denR_run _ _ _ _ _ (poseidon_denR SBOX_BITS g L) ltac:(unfold SBOX_BITS; lia)).
  - intros k Hk. apply (denR_reach _ _ _ _ _ _ (poseidon_denR SBOX_BITS g L)). eexists. split; [reflexivity|]. apply perm_forge. now apply digit_ok.
  - intros j k i Hj Hk N Hi E. rewrite !nth_rep in E. apply GF_eq in E. exact (forge_differs g j k i Hj Hk N Hi E).
Qed.
Print Assumptions C19_malleable.

(** the same for the hash of any non-empty list *)
Theorem C20_malleable : forall input, input <> [] -> Forall (fun x => 0 <= x < 2 ^ 144 * p) input ->
  exists out : Z -> list Z,
    run (HashNoPad input) = Done (out 0) /\
    (forall k, 0 <= k <= 5 -> reach (HashNoPad input) (out k)) /\
    forall j k i, 0 <= j <= 5 -> 0 <= k <= 5 -> j <> k -> (i < 4)%nat -> nth i (out j) 0 <> nth i (out k) 0.
Proof.
  intros input N H.
  destruct (absorb_total pgraph (map inj input) (repeat g0 12) okP_pgraph totalP_pg eq_refl) as (st & A & _).
  destruct (absorb_forge 192 (map inj input) (repeat g0 12) st ltac:(lia)) as (a & -> & F); [now destruct input|exact A|].
  assert (S : forall P t, absorb_rel P (map inj input) (repeat g0 12) t -> sponge_rel g0 P (map inj input) 4 (firstn 4 (firstn 8 t))).
  { intros P t T. exists t, (firstn 8 t). split; [exact T|]. split; reflexivity. }
  assert (N8 : forall l i, (i < 4)%nat -> nth i (firstn 4 (firstn 8 l)) g0 = nth i l g0).
  { clear. intros l i Hi. rewrite firstn_firstn. cbn [Nat.min]. revert l. do 4 (destruct i as [|i]; [intros l; do 4 (destruct l as [|? l]; [reflexivity|]); reflexivity|]). lia. }
  exists (fun k => map rep (firstn 4 (firstn 8 (forge a (digit k))))). split; [|split].
  - rewrite forge0. rewrite (C20_hash_no_pad input H). do 2 apply f_equal.
    apply S in A. symmetry. clear - A. unfold sponge_rel, sponge in *. destruct A as (st & bl & A & B & ->). apply f_equal.
    assert (E : st = absorb_fn poseidon (map inj input) (repeat g0 12)).
    { unfold absorb_rel, absorb_fn in *. revert A. generalize (repeat g0 12). induction (chunks 8 (map inj input)) as [|c l IH]; intros s; cbn [chainR fold_left]; [now intros ->|].
      intros (u & -> & C). now apply IH. }
    subst st. exact B.
  - intros k Hk. apply (C20_exact_outputs input _ H). eexists. split; [reflexivity|]. apply S. apply F. apply perm_forge. now apply digit_ok.
  - intros j k i Hj Hk Nj Hi E. rewrite !nth_rep in E. apply GF_eq in E. rewrite !N8 in E by exact Hi.
    exact (forge_differs a j k i Hj Hk Nj ltac:(lia) E).
Qed.
Print Assumptions C20_malleable.
Example C20_malleable_ex : [p + 3; 5] <> [] /\ Forall (fun x => 0 <= x < 2 ^ 144 * p) [p + 3; 5].
Proof. split; [discriminate|]. repeat constructor; discriminate. Qed.

(** ** C26 *)
(** every sequence of operations that draws a challenge after observing something: the first
    challenge of any phase has at least six values, the earlier ones being the same *)
Theorem C26_malleable : forall l1 xs m l2 tail, Forall phase_ok (l1 ++ (xs, m) :: l2) ->
  let ops := asks 0 ++ phase_ops (l1 ++ (xs, m) :: l2) ++ observes tail in
  Forall op_ok ops ->
  exists before (next : Z -> Z),
    (exists after c, run (drive 192 NewChip ops) = Done (before ++ next 0 :: after, c)) /\
    (forall k, 0 <= k <= 5 -> exists after c, reach (drive 192 NewChip ops) (before ++ next k :: after, c)) /\
    forall j k, 0 <= j <= 5 -> 0 <= k <= 5 -> j <> k -> next j <> next k.
Proof.
  intros l1 xs m l2 tail Hl ops Hok.
  assert (Hp : phase_ok (xs, m)) by (apply Forall_app in Hl; now destruct Hl as [_ Hl]; inversion Hl).
  destruct Hp as [N Hm]. cbn [fst snd] in N, Hm.
  destruct (phases_forge_at xs m N Hm l1 (repeat g0 12) eq_refl) as (yss1 & a & L & H & F).
  assert (LN : forall st t, exists t', lanes m st t = nth 7 st g0 :: t') by (intros st t; destruct m; [lia|]; eexists; reflexivity).
  assert (S : forall P, (forall b t yss2, phases P (l1 ++ (xs, m) :: l2) (repeat g0 12) (yss1 ++ lanes m b t :: yss2) ->
      exists t', duplex_spec P 0 (l1 ++ (xs, m) :: l2) (concat yss1 ++ nth 7 b g0 :: t'))).
  { intros P b t yss2 Q. destruct (LN b t) as (t' & E). exists (t' ++ concat yss2). exists [], (repeat g0 12), (yss1 ++ lanes m b t :: yss2).
    split; [split; reflexivity|]. split; [exact Q|]. rewrite concat_app. cbn [concat app]. now rewrite E. }
  exists (map rep (concat yss1)), (fun k => rep (nth 7 (forge a (digit k)) g0)). split; [|split].
  - destruct (C26_duplex_honest 192 0 _ tail ltac:(lia) Hl Hok) as (ys & c & R & U). destruct (H l2) as (t & yss2 & Q). apply S in Q.
    destruct Q as (t' & Q). apply U in Q. subst ys. exists (map rep t'), c. rewrite forge0. rewrite map_app in R. exact R.
  - intros k Hk. destruct (F l2 (digit k) (digit_ok k Hk)) as (t & yss2 & Q). apply S in Q. destruct Q as (t' & Q).
    assert (R : exists c, reach (drive 192 NewChip ops) (map rep (concat yss1 ++ nth 7 (forge a (digit k)) g0 :: t'), c)).
    { apply (C26_duplex_exact 192 0 _ tail ltac:(lia) Hl Hok). eexists. split; [reflexivity|exact Q]. }
    destruct R as (c & R). exists (map rep t'), c. rewrite map_app in R. exact R.
  - intros j k Hj Hk Nj E. apply GF_eq in E. exact (forge_differs a j k 7 Hj Hk Nj ltac:(lia) E).
Qed.
Print Assumptions C26_malleable.
Example C26_malleable_ex : Forall phase_ok [([5], 1%nat); ([1;2;3;4;5;6;7;8;9], 2%nat)] /\
  Forall op_ok (asks 0 ++ phase_ops [([5], 1%nat); ([1;2;3;4;5;6;7;8;9], 2%nat)] ++ observes [7]).
Proof.
  split.
  - repeat (apply Forall_cons; [split; cbn [fst snd]; [discriminate|lia]|]). apply Forall_nil.
  - cbn. repeat (apply Forall_cons; [first [exact I | split; vm_compute; congruence]|]). apply Forall_nil.
Qed.
(** so a satisfying assignment is not bound to the textbook sponge *)
Theorem C26_duplex_refuted : exists l out c, Forall phase_ok l /\ Forall op_ok (asks 0 ++ phase_ops l ++ observes []) /\
  reach (drive 192 NewChip (asks 0 ++ phase_ops l ++ observes [])) (out, c) /\
  ~ exists ys, out = map rep ys /\ duplex_spec pgraph 0 l ys.
Proof.
  set (l := [([5], 1%nat)]).
  assert (Hl : Forall phase_ok l) by (apply Forall_cons; [split; cbn [fst snd]; [discriminate|lia]|apply Forall_nil]).
  assert (Hok : Forall op_ok (asks 0 ++ phase_ops l ++ observes [])) by (cbn; repeat (apply Forall_cons; [first [exact I | split; vm_compute; congruence]|]); apply Forall_nil).
  destruct (C26_malleable [] [5] 1 [] [] Hl Hok) as (b & nx & (af & c & R) & M & D).
  destruct (M 1 ltac:(lia)) as (af' & c' & R'). exists l, (b ++ nx 1 :: af'), c'. split; [exact Hl|]. split; [exact Hok|]. split; [exact R'|].
  intros (ys & E & Q). destruct (C26_duplex_honest 192 0 l [] ltac:(lia) Hl Hok) as (ys0 & c0 & R0 & U). apply U in Q. subst ys0.
  assert (E0 : b ++ nx 0 :: af = b ++ nx 1 :: af').
  { rewrite E. assert (X : Done (b ++ nx 0 :: af, c) = Done (map rep ys, c0)) by exact (eq_trans (eq_sym R) R0). apply (f_equal (fun o => match o with Done (x, _) => x | _ => [] end)) in X. exact X. }
  apply app_inv_head in E0. apply (f_equal (hd 0)) in E0. exact (D 0 1 ltac:(lia) ltac:(lia) ltac:(lia) E0).
Qed.
Print Assumptions C26_duplex_refuted.

(** ** C28 *)
Section C28.
  Context (cd : CommonCircuitData) (pr : Proof_) (pih : list Z) (vd : VerifierOnlyCircuitData).
  Let nc := NumChallenges (cd_Config cd).
  Let nq := NumQueryRounds (cc_FriConfig (cd_Config cd)).
  Context (Hok : transcript_ok (CircuitDigest vd) pih pr) (HS : transcript_shape nc pr).
  Let ncaps := length (CommitPhaseMerkleCaps (OpeningProof pr)).

  Definition ch_of (y1 y2 y3 y4 : list GF) (bs : list (list GF)) (y5 : list GF) : ProofChallenges :=
    mkProofChallenges (map rep (firstn nc y1)) (map rep (skipn nc y1)) (map rep y2) (toQE y3)
      (mkFriChallenges (toQE y4) (map toQE bs) (rep (hd g0 y5)) (map rep (tl y5))).
  Lemma gives_ch P y1 y2 y3 y4 bs y5 : length bs = ncaps ->
    phases P (transcript_phases nc nq (CircuitDigest vd) pih pr) zeros12 ([y1; y2; y3; y4] ++ bs ++ [y5]) ->
    transcript_gives cd pr pih vd P (ch_of y1 y2 y3 y4 bs y5).
  Proof. intros L H. exists y1, y2, y3, y4, bs, y5. split; [exact H|]. split; [exact L|]. repeat split. Qed.
  Lemma caps_nonempty (c : FriMerkleCap) : c <> [] -> cap_elems c <> [].
  Proof. destruct c as [|h c]; [congruence|]. intros _. unfold cap_elems. cbn [flat_map]. unfold digits56. discriminate. Qed.

  (** the opening point zeta: six values, with the same earlier challenges *)
  Theorem C28_zeta_malleable :
    exists ch (zeta : Z -> QE),
      run (GetChallenges 192 cd pr pih vd) = Done ch /\ zeta 0 = PlonkZeta ch /\
      (forall k, 0 <= k <= 5 -> exists ch', reach (GetChallenges 192 cd pr pih vd) ch' /\
         PlonkBetas ch' = PlonkBetas ch /\ PlonkGammas ch' = PlonkGammas ch /\ PlonkAlphas ch' = PlonkAlphas ch /\ PlonkZeta ch' = zeta k) /\
      forall j k, 0 <= j <= 5 -> 0 <= k <= 5 -> j <> k -> fst (zeta j) <> fst (zeta k) /\ snd (zeta j) <> snd (zeta k).
  Proof.
    destruct (C28_transcript_honest 192 cd pr pih vd ltac:(lia) Hok HS) as (ch & R & U).
    pose proof HS as (S1 & S2 & S3 & S4 & S5).
    set (tp := transcript_phases nc nq (CircuitDigest vd) pih pr).
    assert (E : exists p1 p2 l2, tp = [p1; p2] ++ (cap_elems (QuotientPolysCap pr), 2%nat) :: l2) by (unfold tp, transcript_phases; cbn [app]; eauto).
    destruct E as (p1 & p2 & l2 & E).
    destruct (phases_forge_at (cap_elems (QuotientPolysCap pr)) 2 (caps_nonempty _ S3) ltac:(lia) [p1; p2] zeros12 eq_refl) as (yss1 & a & L & H & F).
    destruct (H l2) as (t & yss2 & H'). rewrite <- E in H'.
    destruct (transcript_split pgraph nc nq _ _ _ _ okP_pgraph HS H') as (y1 & y2 & y3 & y4 & bs & y5 & Ey & Lb & _).
    destruct yss1 as [|z1 [|z2 [|? ?]]]; try discriminate L. cbn [app] in Ey.
    assert (E1 : z1 = y1) by exact (f_equal (hd []) Ey). assert (E2 : z2 = y2) by exact (f_equal (fun l => hd [] (tl l)) Ey).
    assert (E3 : lanes 2 (poseidon a) t = y3) by exact (f_equal (fun l => hd [] (tl (tl l))) Ey).
    pose proof (proj1 (U _) (gives_ch pgraph y1 y2 y3 y4 bs y5 Lb ltac:(cbn [app] in H' |- *; rewrite Ey in H'; exact H'))) as C.
    subst ch z1 z2 y3.
    exists (ch_of y1 y2 (lanes 2 (poseidon a) t) y4 bs y5), (fun k => (rep (nth 7 (forge a (digit k)) g0), rep (nth 6 (forge a (digit k)) g0))).
    split; [exact R|]. split; [rewrite forge0; reflexivity|]. split.
    - intros k Hk. destruct (F l2 (digit k) (digit_ok k Hk)) as (t' & yss2' & H1). rewrite <- E in H1.
      destruct (transcript_split (permw 192) nc nq _ _ _ _ (okP_permw 192) HS H1) as (x1 & x2 & x3 & x4 & xs & x5 & Ex & Lx & _).
      cbn [app] in Ex. assert (F1 : y1 = x1) by exact (f_equal (hd []) Ex). assert (F2 : y2 = x2) by exact (f_equal (fun l => hd [] (tl l)) Ex).
      assert (F3 : lanes 2 (forge a (digit k)) t' = x3) by exact (f_equal (fun l => hd [] (tl (tl l))) Ex).
      exists (ch_of x1 x2 x3 x4 xs x5). split.
      + apply (C28_transcript_exact 192 cd pr pih vd ltac:(lia) Hok HS). apply gives_ch; [exact Lx|]. cbn [app] in H1 |- *. rewrite Ex in H1. exact H1.
      + subst x1 x2 x3. unfold ch_of. cbn [PlonkBetas PlonkGammas PlonkAlphas PlonkZeta]. repeat (split; [reflexivity|]). reflexivity.
    - intros j k Hj Hk N. cbn [fst snd]. split; intros X; apply GF_eq in X.
      + exact (forge_differs a j k 7 Hj Hk N ltac:(lia) X).
      + exact (forge_differs a j k 6 Hj Hk N ltac:(lia) X).
  Qed.

  (** the proof-of-work response: more than a thousand values, with the same earlier challenges *)
  Theorem C28_pow_malleable :
    exists ch, run (GetChallenges 192 cd pr pih vd) = Done ch /\
      forall m, 15 <= m <= 1265 -> exists ch', reach (GetChallenges 192 cd pr pih vd) ch' /\
        PlonkBetas ch' = PlonkBetas ch /\ PlonkGammas ch' = PlonkGammas ch /\ PlonkAlphas ch' = PlonkAlphas ch /\ PlonkZeta ch' = PlonkZeta ch /\
        FriAlpha (pc_FriChallenges ch') = FriAlpha (pc_FriChallenges ch) /\ FriBetas (pc_FriChallenges ch') = FriBetas (pc_FriChallenges ch) /\
        FriPowResponse (pc_FriChallenges ch') = (FriPowResponse (pc_FriChallenges ch) + m * r) mod p.
  Proof.
    destruct (C28_transcript_honest 192 cd pr pih vd ltac:(lia) Hok HS) as (ch & R & U).
    set (last := flat_map qe_list (FinalPoly (OpeningProof pr)) ++ [PowWitness (OpeningProof pr)]).
    set (tp := transcript_phases nc nq (CircuitDigest vd) pih pr).
    assert (E : exists p1 p2 p3 p4, tp = ([p1; p2; p3; p4] ++ map (fun cap => (cap_elems cap, 2%nat)) (CommitPhaseMerkleCaps (OpeningProof pr))) ++ [(last, (1 + nq)%nat)])
      by (do 4 eexists; rewrite <- app_assoc; unfold tp, transcript_phases; reflexivity).
    destruct E as (p1 & p2 & p3 & p4 & E). set (l1 := [p1; p2; p3; p4] ++ map (fun cap => (cap_elems cap, 2%nat)) (CommitPhaseMerkleCaps (OpeningProof pr))) in *.
    assert (Ll : length l1 = (4 + ncaps)%nat) by (unfold l1; rewrite app_length, map_length; reflexivity).
    assert (N : last <> []) by (unfold last; intros X; apply app_eq_nil in X; destruct X; discriminate).
    destruct (phases_forge_at last (1 + nq) N ltac:(lia) l1 zeros12 eq_refl) as (yss1 & a & L & H & F).
    assert (ONE : forall P, okP P -> forall y yss2, phases P (l1 ++ [(last, (1 + nq)%nat)]) zeros12 (yss1 ++ y :: yss2) ->
      exists y1 y2 y3 y4 bs, length bs = ncaps /\ yss1 = [y1; y2; y3; y4] ++ bs /\ yss2 = []).
    { intros P HP y yss2 Q. rewrite <- E in Q. destruct (transcript_split P nc nq _ _ _ _ HP HS Q) as (y1 & y2 & y3 & y4 & bs & y5 & Ey & Lb & _).
      exists y1, y2, y3, y4, bs. split; [exact Lb|]. rewrite (app_assoc _ bs) in Ey.
      assert (L4 : length ([y1; y2; y3; y4] ++ bs) = (4 + ncaps)%nat) by (rewrite app_length, Lb; reflexivity).
      pose proof (f_equal (firstn (4 + ncaps)) Ey) as A. pose proof (f_equal (skipn (4 + ncaps)) Ey) as B.
      rewrite (proj1 (cut1 yss1 _ _ (eq_trans L Ll))), (proj1 (cut1 _ _ _ L4)) in A.
      rewrite (proj2 (cut1 yss1 _ _ (eq_trans L Ll))), (proj2 (cut1 _ _ _ L4)) in B. split; [exact A|]. exact (f_equal (@tl _) B). }
    destruct (H []) as (t & yss2 & H'). destruct (ONE pgraph okP_pgraph _ _ H') as (y1 & y2 & y3 & y4 & bs & Lb & Ey & ->).
    rewrite Ey, <- app_assoc, <- E in H'.
    pose proof (proj1 (U _) (gives_ch pgraph y1 y2 y3 y4 bs _ Lb H')) as C. subst ch. eexists. split; [exact R|].
    intros m Hm. destruct (shift7 m Hm) as (d & Hd & Sd). destruct (F [] d Hd) as (t' & yss2' & H1).
    destruct (ONE (permw 192) (okP_permw 192) _ _ H1) as (_ & _ & _ & _ & _ & _ & _ & ->). rewrite Ey, <- app_assoc, <- E in H1.
    exists (ch_of y1 y2 y3 y4 bs (lanes (1 + nq) (forge a d) t')). split.
    - apply (C28_transcript_exact 192 cd pr pih vd ltac:(lia) Hok HS). apply gives_ch; [exact Lb|exact H1].
    - unfold ch_of. cbn [PlonkBetas PlonkGammas PlonkAlphas PlonkZeta pc_FriChallenges FriAlpha FriBetas FriPowResponse]. repeat (split; [reflexivity|]).
      unfold lanes. cbn [Nat.add firstn hd]. rewrite forge_nth by lia. assert (RA : forall x y : GF, rep (x + y)%GF = (rep x + rep y) mod p) by reflexivity. rewrite Sd, RA, rep_inj. apply Z.add_mod_idemp_r. pose proof p_pos. lia.
  Qed.
End C28.
Print Assumptions C28_zeta_malleable.
Print Assumptions C28_pow_malleable.
