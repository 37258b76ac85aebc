(** * The duplex sponge as the oracle of the game of C84. *)
From Coq Require Import String.
From Coq Require Import ZArith NArith Arith Lia List Bool Permutation.
From Verif Require Import Zp GF Circuit Goldilocks GLProofs ExtProofs PoseidonSpec PoseidonGL PoseidonGLProofs Sponge DenP BN254 BN254Hash Types Challenger ChallengerProofs ChallengerPhases Transcript ChallengerTop Prop_Challenger
  Fri Poly Roots FriMerkle FriEval FriQuery FriTop FriFacts Honest FriSound FriRewind FriExtract Prop_Fri
  Gates GateProofs GateFilter GateAll GateDegree Prop_Gates Plonk PlonkProofs Prop_Plonk PlonkSound PlonkRows PlonkCopy Prop_PlonkSound GateIds GateIdProofs GateIdText Verifier VerifierProofs Prop_Poseidon Prop_Verifier VerifierSound Prop_VerifierSound Complete
  FriError Game VerifierError Prop_VerifierError RandomOracle FiatShamir.
Import ListNotations.
Open Scope Z_scope.
Local Opaque PoseidonBN HashOrNoop TwoToOne poseidon.

(** ** The oracle *)
(** what the challenger absorbs for a message (verifier/verifier.go:56-58, 62, 65, 68;
    challenger/challenger.go:128 and 132-133) *)
Definition absorbed (vd : VerifierOnlyCircuitData) (m : message) : list Z :=
  match m with
  | MStart h wires => digits56 (CircuitDigest vd) ++ map rep h ++ cap_elems wires
  | MCap cap => cap_elems cap
  | MOpenings o => openings_elems o
  | MFinal f witness => flat_map qe_list f ++ [witness]
  end.
(** how many elements are drawn after the i-th message (verifier/verifier.go:59-60, 63, 66;
    challenger/challenger.go:124, 129 and 135-136) *)
Definition drawn_at (cd : CommonCircuitData) (i : nat) : nat :=
  let nc := NumChallenges (cd_Config cd) in
  match i with
  | O => (nc + nc)%nat
  | 1%nat => nc
  | _ => if (i <? 4 + length (ReductionArityBits (cd_FriParams cd)))%nat then 2%nat else (1 + NumQueryRounds (cc_FriConfig (cd_Config cd)))%nat
  end.
(** what they are used for *)
Definition as_challenge (cd : CommonCircuitData) (i : nat) (ys : list GF) : chal :=
  let nc := NumChallenges (cd_Config cd) in
  match i with
  | O => XPairs (combine (firstn nc ys) (skipn nc ys))
  | 1%nat => XAlphas ys
  | _ => if (i <? 4 + length (ReductionArityBits (cd_FriParams cd)))%nat then XExt (qeK ys) else XQuery (hd g0 ys) (tl ys)
  end.
(** The state after the messages.  A message with nothing to absorb is given a phase of its own
    here; the code (challenger/challenger.go:90-92) would go on with the output buffer.  Nothing
    is claimed of such proofs ([proof_shape]). *)
Fixpoint sponge_state (cd : CommonCircuitData) (vd : VerifierOnlyCircuitData) (i : nat) (ms : list message) (s : list GF) : list GF :=
  match ms with [] => s | m :: ms' => sponge_state cd vd (S i) ms' (snd (ask (absorbed vd m) (drawn_at cd i) s)) end.
Definition sponge_oracle (cd : CommonCircuitData) (vd : VerifierOnlyCircuitData) (tau : list (message * chal)) (m : message) : chal :=
  as_challenge cd (length tau) (fst (ask (absorbed vd m) (drawn_at cd (length tau)) (sponge_state cd vd 0 (map fst tau) (repeat g0 12)))).
(** the messages of a proof *)
Definition messages (h : list GF) (pr : Proof_) : list message :=
  MStart h (WiresCap pr) :: MCap (PlonkZsPartialProductsCap pr) :: MCap (QuotientPolysCap pr) :: MOpenings (Openings pr) ::
  map MCap (CommitPhaseMerkleCaps (OpeningProof pr)) ++ [MFinal (FinalPoly (OpeningProof pr)) (PowWitness (OpeningProof pr))].
(** every challenge is the answer of the oracle *)
Definition answered_by {M X} (O : list (M * X) -> M -> X) (tau : list (M * X)) : Prop :=
  forall tau1 m x tau2, tau = tau1 ++ (m, x) :: tau2 -> x = O tau1 m.

(** ** Phases are functions *)
Lemma squeeze_fun k : forall s bl s', squeezeR pgraph k s bl s' -> (bl, s') = squeeze_st k s.
Proof.
  induction k as [|k IH]; intros s bl s'; cbn [squeezeR squeeze_st]; [intros [-> ->]; reflexivity|]. intros (s1 & bl' & -> & H & ->).
  apply IH in H. now rewrite <- H.
Qed.
Lemma phase_fun xs m s ys s' : phase pgraph xs m s ys s' -> ys = fst (ask xs m s) /\ s' = snd (ask xs m s).
Proof.
  intros (st & bl & A & S & ->). unfold ask.
  assert (E : st = absorb_fn poseidon (map inj xs) s).
  { unfold absorb_rel, absorb_fn in *. revert A. generalize s. induction (chunks 8 (map inj xs)) as [|c l IH]; intros s0; cbn [chainR fold_left]; [now intros ->|].
    intros (u & -> & C). now apply IH. }
  subst st. apply squeeze_fun in S. rewrite <- S. now split.
Qed.
Section Trace.
  Context (cd : CommonCircuitData) (vd : VerifierOnlyCircuitData).
  Notation nc := (NumChallenges (cd_Config cd)).
  Notation k := (length (ReductionArityBits (cd_FriParams cd))).
  Notation nq := (NumQueryRounds (cc_FriConfig (cd_Config cd))).
  Fixpoint spec (i : nat) (ms : list message) : list (list Z * nat) :=
    match ms with [] => [] | m :: ms' => (absorbed vd m, drawn_at cd i) :: spec (S i) ms' end.
  Fixpoint outs (i : nat) (ms : list message) (s : list GF) : list (list GF) :=
    match ms with [] => [] | m :: ms' => let a := ask (absorbed vd m) (drawn_at cd i) s in fst a :: outs (S i) ms' (snd a) end.
  Fixpoint label_from (i : nat) (ms : list message) (yss : list (list GF)) : list (message * chal) :=
    match ms, yss with m :: ms', ys :: yss' => (m, as_challenge cd i ys) :: label_from (S i) ms' yss' | _, _ => [] end.
  Lemma spec_outs ms : forall i s yss, phases pgraph (spec i ms) s yss <-> yss = outs i ms s.
  Proof.
    induction ms as [|m ms IH]; intros i s yss; cbn [spec outs phases]; [reflexivity|]. split.
    - intros (ys & s' & yss' & P1 & P2 & ->). apply phase_fun in P1. destruct P1 as [-> ->]. apply IH in P2. now rewrite P2.
    - intros ->. eexists _, _, _. split; [apply ask_phase|]. split; [now apply IH|reflexivity].
  Qed.
  Lemma outs_length ms : forall i s, length (outs i ms s) = length ms.
  Proof. induction ms as [|m ms IH]; intros i s; cbn [outs length]; [reflexivity|]. now rewrite IH. Qed.
  (** a transcript answered by the sponge *)
  Lemma answered_outs tau : forall pre, (forall tau1 m x tau2, tau = tau1 ++ (m, x) :: tau2 -> x = sponge_oracle cd vd (pre ++ tau1) m) <->
    tau = label_from (length pre) (map fst tau) (outs (length pre) (map fst tau) (sponge_state cd vd 0 (map fst pre) (repeat g0 12))).
  Proof.
    induction tau as [|[m x] tau IH]; intros pre; cbn [map fst label_from outs].
    - split; [reflexivity|]. intros _ tau1 m x tau2 E. now destruct tau1.
    - assert (ST : forall ms i s m', sponge_state cd vd i (ms ++ [m']) s = snd (ask (absorbed vd m') (drawn_at cd (i + length ms)) (sponge_state cd vd i ms s))).
      { induction ms as [|m0 ms IHm]; intros i s m'; cbn [app sponge_state length]; [now rewrite Nat.add_0_r|]. rewrite IHm. now rewrite Nat.add_succ_r. }
      specialize (IH (pre ++ [(m, x)])). rewrite app_length, map_app in IH. cbn [length map fst] in IH. rewrite ST, map_length, Nat.add_1_r in IH. cbn [Nat.add] in IH. split.
      + intros H. f_equal.
        * f_equal. rewrite (H [] m x tau eq_refl), app_nil_r. reflexivity.
        * apply IH. intros tau1 m1 x1 tau2 E. rewrite <- app_assoc. apply (H ((m, x) :: tau1) m1 x1 tau2). now rewrite E.
      + intros E. injection E as E1 E2. pose proof (proj2 IH E2) as H. intros [|[m0 x0] tau1] m1 x1 tau2 E; cbn [app] in E; injection E.
        * intros <- <- <-. rewrite app_nil_r. exact E1.
        * intros Et <- <-. specialize (H tau1 m1 x1 tau2 Et). now rewrite <- app_assoc in H.
  Qed.
  Lemma answered_trace tau : answered_by (sponge_oracle cd vd) tau <-> tau = label_from 0 (map fst tau) (outs 0 (map fst tau) (repeat g0 12)).
  Proof. exact (answered_outs tau []). Qed.
  Lemma label_fst ms : forall i yss, length yss = length ms -> map fst (label_from i ms yss) = ms.
  Proof. induction ms as [|m ms IH]; intros i [|ys yss] L; try discriminate L; [reflexivity|]. cbn [label_from map fst]. rewrite IH by (now injection L). reflexivity. Qed.

  Context (h : list GF) (pr : Proof_) (Lk : length (CommitPhaseMerkleCaps (OpeningProof pr)) = k).
  Lemma below j : (2 + j < 4 + k)%nat -> (S (S j) <? 4 + k)%nat = true.
  Proof. intros H. apply Nat.ltb_lt. lia. Qed.
  Lemma spec_tail f wit caps : forall i, (2 <= i)%nat -> (i + length caps = 4 + k)%nat ->
    spec i (map MCap caps ++ [MFinal f wit]) = map (fun cap => (cap_elems cap, 2%nat)) caps ++ [(flat_map qe_list f ++ [wit], (1 + nq)%nat)].
  Proof.
    induction caps as [|c caps IH]; intros i Hi L; cbn [map app spec length] in *.
    - destruct i as [|[|i]]; try lia. unfold drawn_at. rewrite (proj2 (Nat.ltb_ge _ _)) by lia. reflexivity.
    - rewrite IH by lia. destruct i as [|[|i]]; try lia. unfold drawn_at. rewrite below by lia. reflexivity.
  Qed.
  Lemma spec_messages : spec 0 (messages h pr) = transcript_phases nc nq (CircuitDigest vd) (map rep h) pr.
  Proof.
    unfold messages, transcript_phases. cbn [spec]. rewrite spec_tail by lia. unfold drawn_at at 3 4. rewrite !below by lia. reflexivity.
  Qed.
  Lemma label_tail f wit caps : forall i bs y5, (2 <= i)%nat -> (i + length caps = 4 + k)%nat -> length bs = length caps ->
    label_from i (map MCap caps ++ [MFinal f wit]) (bs ++ [y5]) =
    map (fun cb => (MCap (fst cb), XExt (snd cb))) (combine caps (map qeK bs)) ++ [(MFinal f wit, XQuery (hd g0 y5) (tl y5))].
  Proof.
    induction caps as [|c caps IH]; intros i [|y bs] y5 Hi L Lb; try discriminate Lb; cbn [map app label_from length combine fst snd] in *.
    - destruct i as [|[|i]]; try lia. unfold as_challenge. rewrite (proj2 (Nat.ltb_ge _ _)) by lia. reflexivity.
    - rewrite IH by lia. destruct i as [|[|i]]; try lia. unfold as_challenge at 1. rewrite below by lia. reflexivity.
  Qed.
  (** the transcript of the proof with given challenges *)
  Definition tau_of (c : chalK) (alpha : K) (betas : list K) (pow : GF) (indices : list GF) : list (message * chal) :=
    (MStart h (WiresCap pr), XPairs (combine (c_betas c) (c_gammas c))) :: (MCap (PlonkZsPartialProductsCap pr), XAlphas (c_alphas c)) ::
    (MCap (QuotientPolysCap pr), XExt (c_zeta c)) :: (MOpenings (Openings pr), XExt alpha) ::
    map (fun cb => (MCap (fst cb), XExt (snd cb))) (combine (CommitPhaseMerkleCaps (OpeningProof pr)) betas) ++
    [(MFinal (FinalPoly (OpeningProof pr)) (PowWitness (OpeningProof pr)), XQuery pow indices)].
  (** the challenges of the transcript are the answers of the sponge *)
  Lemma gives_exists : transcript_shape nc pr -> exists c alpha betas pow indices,
    transcript_gives cd pr (map rep h) vd pgraph (repC c (fc_of alpha betas pow indices)) /\
    length (c_betas c) = nc /\ length (c_gammas c) = nc /\ length (c_alphas c) = nc /\ length betas = k /\ length indices = nq /\
    label_from 0 (messages h pr) (outs 0 (messages h pr) (repeat g0 12)) = tau_of c alpha betas pow indices.
  Proof.
    intros HT. set (yss := outs 0 (messages h pr) (repeat g0 12)).
    pose proof (proj2 (spec_outs (messages h pr) 0 (repeat g0 12) yss) eq_refl) as PH. rewrite spec_messages in PH.
    destruct (transcript_split pgraph _ _ _ _ _ _ okP_pgraph HT PH) as (y1 & y2 & y3 & y4 & bs & y5 & E & Lc & L1 & L2 & L3 & L4 & Lb & L6). clearbody yss. subst yss.
    exists (mkChalK (firstn nc y1) (skipn nc y1) y2 (qeK y3)), (qeK y4), (map qeK bs), (hd g0 y5), (tl y5). split.
    - exists y1, y2, y3, y4, bs, y5. split; [exact PH|]. split; [exact Lc|].
      unfold repC, fc_of. cbn [PlonkBetas PlonkGammas PlonkAlphas PlonkZeta pc_FriChallenges FriAlpha FriBetas FriPowResponse FriQueryIndices c_betas c_gammas c_alphas c_zeta].
      rewrite <- !toQE_repK, <- map_toQE by assumption. repeat split; reflexivity.
    - cbn [c_betas c_gammas c_alphas]. rewrite firstn_length, skipn_length, map_length.
      split; [lia|]. split; [lia|]. split; [exact L2|]. split; [lia|]. split; [destruct y5; cbn [length tl] in *; lia|].
      unfold messages, tau_of. cbn [app label_from]. rewrite label_tail by lia. cbn [c_betas c_gammas c_alphas c_zeta].
      unfold as_challenge. rewrite !below by lia. reflexivity.
  Qed.
  Lemma gives_unique ch ch' : transcript_shape nc pr -> transcript_gives cd pr (map rep h) vd pgraph ch -> transcript_gives cd pr (map rep h) vd pgraph ch' -> ch = ch'.
  Proof.
    intros HT (y1 & y2 & y3 & y4 & bs & y5 & H & Lb & E1 & E2 & E3 & E4 & E5 & E6 & E7 & E8) (z1 & z2 & z3 & z4 & ds & z5 & H' & Lb' & E1' & E2' & E3' & E4' & E5' & E6' & E7' & E8').
    rewrite <- spec_messages in H, H'. apply spec_outs in H, H'. rewrite <- H' in H. cbn [app] in H. injection H as -> -> -> -> H. apply app_inj_tail in H. destruct H as [-> ->].
    destruct ch as [b g a z [fa fb fp fq]], ch' as [b' g' a' z' [fa' fb' fp' fq']].
    cbn [PlonkBetas PlonkGammas PlonkAlphas PlonkZeta pc_FriChallenges FriAlpha FriBetas FriPowResponse FriQueryIndices] in *. congruence.
  Qed.
End Trace.

(** ** Acceptance *)
Lemma accepts_convinces cd gates pr pis vd (S : list Z -> Prop) (h := sponge g0 poseidon (map inj pis) 4) :
  circuit_shape cd gates -> proof_shape cd gates pr -> openings_shape cd (Openings pr) -> Forall siblings_ok (QueryRoundProofs (OpeningProof pr)) ->
  length (CommitPhaseMerkleCaps (OpeningProof pr)) = length (ReductionArityBits (cd_FriParams cd)) ->
  (forall i round a, In round (QueryRoundProofs (OpeningProof pr)) -> In a (round_inputs round i) -> S a) ->
  (accepts cd gates pr pis vd pgraph <->
   Forall reducible pis /\ exists tau, map fst tau = messages h pr /\ answered_by (sponge_oracle cd vd) tau /\
     convinces cd gates h vd S tau (QueryRoundProofs (OpeningProof pr))).
Proof.
  intros HC HS HO HB Lk HSS. assert (Lh : length h = 4%nat) by (apply C20_output_count; lia).
  pose proof (shape_transcript cd gates pr HC HS) as HT.
  destruct (gives_exists cd vd h pr Lk HT) as (c & alpha & betas & pow & indices & TG & L1 & L2 & L3 & L4 & L5 & ET).
  assert (EP : mkProof (WiresCap pr) (PlonkZsPartialProductsCap pr) (QuotientPolysCap pr) (Openings pr)
     (mkFriProof (map fst (combine (CommitPhaseMerkleCaps (OpeningProof pr)) betas)) (QueryRoundProofs (OpeningProof pr)) (FinalPoly (OpeningProof pr)) (PowWitness (OpeningProof pr))) = pr).
  { rewrite combine_fst by lia. destruct pr as [a1 a2 a3 a4 [b1 b2 b3 b4]]. reflexivity. }
  split.
  - intros (CP & RP & h' & c' & alpha' & betas' & pow' & indices' & H1 & H2 & H3 & H4). apply sponge_graph in H1. fold h in H1. subst h'.
    pose proof (gives_unique cd vd h pr Lk _ _ HT H2 TG) as E. apply repC_inj in E. destruct E as (-> & -> & -> & -> & ->).
    split; [exact RP|]. exists (tau_of h pr c alpha betas pow indices). split; [|split].
    + rewrite <- ET. apply label_fst. apply outs_length.
    + apply answered_trace. rewrite <- ET at 1. f_equal; [|f_equal]; (rewrite <- ET; symmetry; apply label_fst, outs_length).
    + exists (WiresCap pr), (combine (c_betas c) (c_gammas c)), (PlonkZsPartialProductsCap pr), (c_alphas c), (QuotientPolysCap pr), (c_zeta c), (Openings pr), alpha,
        (combine (CommitPhaseMerkleCaps (OpeningProof pr)) betas), (FinalPoly (OpeningProof pr)), (PowWitness (OpeningProof pr)), pow, indices.
      split; [reflexivity|]. split; [exact HO|]. split; [exact HB|]. split; [intros i round a Hi; apply in_combine_r in Hi; now apply HSS|].
      rewrite EP, combine_fst, combine_snd, combine_snd by lia. destruct c as [cb cg ca cz]. cbn [c_betas c_gammas c_alphas c_zeta] in *.
      destruct CP as (P1 & P2 & P3). apply with_sat; [repeat split; try apply P1; try apply P2; apply P3| |].
      * apply (enforces_sat _ _ _ (plonk_part cd gates pr HC HS h (mkChalK cb cg ca cz) _ P1 Lh L1 L2 L3)). exact H3.
      * apply (enforces_sat _ _ _ (fri_part cd gates pr vd HC cz alpha betas pow indices P1 P2)). exact H4.
  - intros (RP & tau & Em & AN & wires & l & zs & alphas & quotients & zeta & opens & alpha' & folds & f & wit & w & xs & Etau & _ & _ & _ & SAT).
    apply answered_trace in AN. rewrite Em, ET in AN. rewrite AN in Etau. unfold tau_of in Etau. injection Etau as E1 E2 E3 E4 E5 E6 E7 E8 E9.
    apply app_inj_tail in E9. destruct E9 as [E9 E10]. injection E10 as E10 E11 E12 E13.
    assert (EF : combine (CommitPhaseMerkleCaps (OpeningProof pr)) betas = folds).
    { revert E9. generalize (combine (CommitPhaseMerkleCaps (OpeningProof pr)) betas). clear. intros l. revert folds. induction l as [|[a b] l IH]; intros [|[a' b'] folds] E; try discriminate E; [reflexivity|].
      cbn [map fst snd] in E. injection E as -> -> E. now rewrite (IH _ E). }
    subst. rewrite EP, combine_fst, combine_snd, combine_snd in SAT by lia. destruct c as [cb cg ca cz]. cbn [c_betas c_gammas c_alphas c_zeta] in *.
    apply range_first in SAT. destruct SAT as (CP & K1 & K2). pose proof CP as (P1 & P2 & P3).
    apply (enforces_sat _ _ _ (plonk_part cd gates pr HC HS h (mkChalK cb cg ca cz) _ P1 Lh L1 L2 L3)) in K1.
    apply (enforces_sat _ _ _ (fri_part cd gates pr vd HC cz alpha' betas w xs P1 P2)) in K2.
    split; [exact CP|]. split; [exact RP|]. exists h, (mkChalK cb cg ca cz), alpha', betas, w, xs. split; [apply sponge_graph_is|]. now split.
Qed.

(** ** A computation with the answers of a function *)
Section With.
  Context {M X A : Type} (M_dec : forall a b : M, {a = b} + {a <> b}) (X_dec : forall a b : X, {a = b} + {a <> b}).
  Context (levels : list (list X * nat)) (O : list (M * X) -> M -> X).
  Notation asking := (@asking M X).
  Fixpoint with_oracle {Out} (G : asking Out) : Out := match G with Return _ o => o | Ask _ tau m k => with_oracle (k (O tau m)) end.
  (** the answers to the new questions *)
  Fixpoint new_answers {Out} (G : asking Out) (mem : list ((list (M * X) * M) * X)) : list X :=
    match G with
    | Return _ _ => []
    | Ask _ tau m k => match lookup M_dec X_dec (tau, m) mem with
                       | Some x => new_answers (k x) mem
                       | None => O tau m :: new_answers (k (O tau m)) (((tau, m), O tau m) :: mem)
                       end
    end.
  Lemma play_with {Out} (G : asking Out) : (forall tau m, (length tau < length levels)%nat -> In (O tau m) (coins_at levels (length tau))) ->
    forall mem, proper levels G -> (forall q x, In (q, x) mem -> x = O (fst q) (snd q)) ->
    exists mem', play M_dec X_dec levels G mem (new_answers G mem) = Some (mem', with_oracle G).
  Proof.
    intros HL. induction G as [o|tau m k IH]; intros mem PR HM; cbn [new_answers play with_oracle proper] in *; [now exists mem|]. destruct PR as [L PR].
    destruct (lookup M_dec X_dec (tau, m) mem) as [x|] eqn:E.
    - apply lookup_in in E. apply HM in E. cbn [fst snd] in E. subst x. now apply IH.
    - destruct (in_dec X_dec (O tau m) (coins_at levels (length tau))) as [_|N]; [|destruct N; now apply HL]. apply IH; [apply PR|].
      intros q x [Eq|Hq]; [injection Eq as <- <-; reflexivity|now apply HM].
  Qed.
  Fixpoint extend (tau : list (M * X)) (ms : list M) : list (M * X) := match ms with [] => tau | m :: ms' => extend (tau ++ [(m, O tau m)]) ms' end.
  Lemma with_check ms : forall tau (a : A), with_oracle (check ms tau a) = (extend tau ms, a).
  Proof. induction ms as [|m ms IH]; intros tau a; cbn [check with_oracle extend]; [reflexivity|]. apply IH. Qed.
  Lemma with_verified (G : asking (list M * A)) : with_oracle (verified levels G) =
    let (ms, a) := with_oracle G in if (length ms =? length levels)%nat then (extend [] ms, a) else ([], a).
  Proof.
    induction G as [[ms a]|tau m k IH]; cbn [verified with_oracle]; [|apply IH]. destruct (length ms =? length levels)%nat; [apply with_check|reflexivity].
  Qed.
  Lemma extend_fst ms : forall tau, map fst (extend tau ms) = map fst tau ++ ms.
  Proof. induction ms as [|m ms IH]; intros tau; cbn [extend]; [now rewrite app_nil_r|]. rewrite IH, map_app, <- app_assoc. reflexivity. Qed.
  Lemma extend_answered ms : forall tau, answered_by O tau -> answered_by O (extend tau ms).
  Proof.
    induction ms as [|m ms IH]; intros tau H; cbn [extend]; [exact H|]. apply IH. intros tau1 m1 x1 tau2 E.
    destruct tau2 as [|z tau2 _] using rev_ind.
    - apply app_inj_tail in E. destruct E as [-> E]. injection E as -> ->. reflexivity.
    - change ((m1, x1) :: tau2 ++ [z]) with (((m1, x1) :: tau2) ++ [z]) in E. rewrite app_assoc in E. apply app_inj_tail in E. destruct E as [E _]. exact (H _ _ _ _ E).
  Qed.
  Lemma answered_same tau : forall pre tau', map fst tau = map fst tau' -> answered_by O (pre ++ tau) -> answered_by O (pre ++ tau') -> tau = tau'.
  Proof.
    induction tau as [|[m x] tau IH]; intros pre [|[m' x'] tau'] E A1 A2; try discriminate E; [reflexivity|]. cbn [map fst] in E. injection E as -> E.
    assert (x = x') as -> by (rewrite (A1 pre m' x tau eq_refl); now rewrite (A2 pre m' x' tau' eq_refl)). f_equal.
    apply (IH (pre ++ [(m', x')])); [exact E| |]; rewrite <- app_assoc; assumption.
  Qed.
End With.

(** ** The answers of the sponge are challenges of the levels *)
Lemma ask_length xs m s : length s = 12%nat -> length (fst (ask xs m s)) = m /\ length (snd (ask xs m s)) = 12%nat.
Proof.
  intros L. unfold ask.
  assert (A : length (absorb_fn poseidon (map inj xs) s) = 12%nat).
  { unfold absorb_fn. revert s L. induction (chunks 8 (map inj xs)) as [|c l IH]; intros s L; cbn [fold_left]; [exact L|]. apply IH. apply poseidon_len. }
  assert (B : forall j s, length s = 12%nat -> length (fst (squeeze_st j s)) = (8 * S j)%nat /\ length (snd (squeeze_st j s)) = 12%nat).
  { induction j as [|j IH]; intros s0 L0; cbn [squeeze_st].
    - split; [|exact L0]. cbn [fst]. rewrite rev_length, firstn_length, L0. reflexivity.
    - specialize (IH (poseidon s0) (poseidon_len s0)). destruct (squeeze_st j (poseidon s0)) as [bl s']. cbn [fst snd] in *. destruct IH as [I1 I2]. split; [|exact I2].
      rewrite app_length, rev_length, firstn_length, L0, I1. lia. }
  specialize (B ((m - 1) / 8)%nat _ A). destruct (squeeze_st _ _) as [bl s']. cbn [fst snd] in *. destruct B as [B1 B2]. split; [|exact B2].
  rewrite firstn_length, B1. pose proof (Nat.div_mod (m - 1) 8 ltac:(lia)). pose proof (Nat.mod_upper_bound (m - 1) 8 ltac:(lia)). lia.
Qed.
Lemma state_length cd vd ms : forall i s, length s = 12%nat -> length (sponge_state cd vd i ms s) = 12%nat.
Proof. induction ms as [|m ms IH]; intros i s L; cbn [sponge_state]; [exact L|]. apply IH. now apply ask_length. Qed.
Lemma fs_levels_length cd gcoins E e b : length (fs_levels cd gcoins E e b) = (5 + length (ReductionArityBits (cd_FriParams cd)))%nat.
Proof. unfold fs_levels. cbn [app length]. rewrite app_length, map_length, seq_length. cbn [length]. lia. Qed.
Lemma sponge_coins cd vd gcoins E e b tau m : (forall x, In x gcoins) -> NumQueryRounds (cc_FriConfig (cd_Config cd)) = NumQueryRounds (fp_Config (cd_FriParams cd)) ->
  (length tau < length (fs_levels cd gcoins E e b))%nat -> In (sponge_oracle cd vd tau m) (coins_at (fs_levels cd gcoins E e b) (length tau)).
Proof.
  intros HG EQ L. rewrite fs_levels_length in L. unfold sponge_oracle. set (i := length tau) in *. clearbody i.
  destruct (ask_length (absorbed vd m) (drawn_at cd i) (sponge_state cd vd 0 (map fst tau) (repeat g0 12))) as [LY _]; [apply state_length; reflexivity|].
  revert LY. generalize (fst (ask (absorbed vd m) (drawn_at cd i) (sponge_state cd vd 0 (map fst tau) (repeat g0 12)))). intros ys LY.
  assert (AL : forall l : list GF, Forall (fun x => In x gcoins) l) by (intros l; apply Forall_forall; intros x _; apply HG).
  assert (EX : forall z, In (XExt z) (map XExt (list_prod gcoins gcoins))) by (intros [u v]; apply in_map, in_prod_iff; now split).
  unfold coins_at, fs_levels. set (k := length (ReductionArityBits (cd_FriParams cd))) in *.
  destruct i as [|[|[|[|i]]]]; cbn [app nth fst].
  - cbn [as_challenge drawn_at] in *. apply in_map, tuples_in. split; [rewrite combine_length, firstn_length, skipn_length; lia|]. apply Forall_forall. intros [u v] _. apply in_prod_iff. now split.
  - cbn [as_challenge drawn_at] in *. apply in_map, tuples_in. now split.
  - unfold as_challenge. fold k. rewrite (proj2 (Nat.ltb_lt _ _)) by lia. apply EX.
  - unfold as_challenge. fold k. rewrite (proj2 (Nat.ltb_lt _ _)) by lia. apply EX.
  - unfold as_challenge. fold k. unfold drawn_at in LY. fold k in LY. destruct (Nat.ltb_spec (S (S (S (S i)))) (4 + k)) as [Lt|Ge].
    + rewrite app_nth1 by (rewrite map_length, seq_length; lia). rewrite (nth_map_lt _ _ _ _ 0%nat) by (rewrite seq_length; lia). cbn [fst]. apply EX.
    + rewrite app_nth2 by (rewrite map_length, seq_length; lia). rewrite map_length, seq_length. replace (i - k)%nat with 0%nat by lia. cbn [nth fst].
      apply in_map_iff. exists (hd g0 ys, tl ys). split; [reflexivity|]. apply in_prod_iff. split; [apply HG|]. apply tuples_in. split; [|apply AL].
      destruct ys; cbn [length tl] in *; lia.
Qed.
