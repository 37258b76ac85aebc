(** * C83: the circuit accepts a false statement. *)
From Coq Require Import String.
From Coq Require Import ZArith NArith Lia List Bool Ring Permutation.
From Verif Require Import Zp GF Circuit Goldilocks GLProofs ExtProofs PoseidonSpec Sponge DenP ChallengerProofs ChallengerPhases ChallengerTop Transcript Prop_Poseidon Prop_Challenger PoseidonGL PoseidonGLProofs BN254 BN254Hash Types Challenger Fri Poly Roots Interp FriMerkle FriEval FriQuery FriTop FriFacts Honest FriForge FriSound FriRewind FriExtract Prop_FriSound Prop_Fri
  Gates GateProofs GateCoset GateFilter GateAll GateDegree GateBase Prop_Gates GateIds GateIdText Prop_GateIds Plonk PlonkProofs Prop_Plonk PlonkSound PlonkRows PlonkCopy Prop_PlonkSound Verifier VerifierProofs Prop_BN254 Malleable Prop_Verifier Prop_Forgery VerifierSound Prop_VerifierSound ProverPoly PlonkProver Complete Prop_Complete ForgeAll Prop_ForgeAll ForgeSbox PoseidonFast ForgeFast.
Import ListNotations.
Open Scope Z_scope.
Local Opaque PoseidonBN HashOrNoop TwoToOne.

(** ** Any circuit
    For any circuit, satisfiable or not, any public inputs, leaves, openings and positions S, and
    any digits: if the response to the proof of work and the indices moved by these digits are
    such that the queries fall into S, the circuit of the code has a satisfying assignment. *)
Theorem C83_transcript : forall orders cd gates pis leaves o S ds digest witness,
  (forall i, Permutation (orders i) gateRegexHandlers) -> Forall2 gate_text gates (map str (GateIds cd)) ->
  forgeable cd gates -> leaves_ok leaves (cd_FriParams cd) (friOracles cd) -> (forall c, opens_sized cd (o c)) -> positions cd S ->
  NumQueryRounds (cc_FriConfig (cd_Config cd)) = NumQueryRounds (fp_Config (cd_FriParams cd)) ->
  Forall reducible pis -> Forall inr_ pis -> inr_ digest -> canonZ witness -> Forall digits ds ->
  let h := sponge g0 poseidon (map inj pis) 4 in
  let V := moved_session cd gates h leaves o S ds digest witness in
  hit cd S (v_chal V) (v_fri_betas V) (v_pow V) (v_indices V) ->
  sat (Define orders 192 cd (forged_session_proof cd gates h leaves o S witness V) pis (forged_data cd leaves digest)).
Proof.
  intros orders cd gates pis leaves o S ds digest witness HO HG HD HL HU HS EQ Rp Np Nd Hw HM h V HH.
  set (pr := forged_session_proof cd gates h leaves o S witness V). set (vd := forged_data cd leaves digest).
  pose proof (forged_shape cd gates h leaves o S HD HU (v_chal V) (v_alpha V) (v_fri_betas V) (v_indices V) witness : proof_shape cd gates pr) as SH.
  pose proof (forged_native cd gates h leaves o S (v_chal V) (v_alpha V) (v_fri_betas V) (v_indices V) witness pis digest Np Nd : native pr pis vd) as NA.
  apply (C52_exact orders cd gates pr pis vd HO HG (proj1 HD) SH NA).
  destruct (moved_session_ok cd gates h leaves o S ds HD HU HM digest witness) as (TG & L1 & L2 & L3 & L4 & L5).
  fold V in TG, L1, L2, L3, L4, L5. fold pr in TG. rewrite EQ in L5.
  destruct (forged_fri_ok cd gates h leaves o S HD HL HS (v_chal V) (v_alpha V) (v_fri_betas V) (v_pow V) (v_indices V) witness L4 L5 HH Hw) as [CP FO].
  pose proof (forged_plonk cd gates h o (v_chal V) ltac:(destruct HD as ((X & _) & _); lia) (proj1 HH)) as PO.
  assert (EO : injO (Openings pr) = forged_opens cd gates h o (v_chal V)) by (unfold pr, forged_session_proof, forged_proof; cbn [Openings]; apply injO_repO).
  split; [exact CP|]. split; [exact Rp|]. exists h, (v_chal V), (v_alpha V), (v_fri_betas V), (v_pow V), (v_indices V).
  split; [apply (sponge_mono pgraph); [apply pgraph_sub; lia|apply sponge_graph_is]|]. split; [exact TG|]. rewrite EO. split; [exact PO|exact FO].
Qed.
Print Assumptions C83_transcript.

(** ** An unsatisfiable circuit with the security parameters of plonky2's standard configuration
    Two rows of one wire, a ConstantGate in each: the first wire is 1, the second -1, and a copy
    constraint makes them equal.  Two challenges, rate 1/8, caps of height 4, 16 bits of proof of
    work and 28 query rounds. *)
Definition fri83 : FriConfig := mkFriConfig 3 4 16 28.
Definition cd83 : CommonCircuitData :=
  mkCommonCircuitData (mkCircuitConfig 1 1 1 true 100 2 false 1 fri83)
    (mkFriParams fri83 false 1 []) ["ConstantGate { num_consts: 1 }"%string] (mkSelectorsInfo [O] [(0, 1)%nat]) 1 1 1 2 1 [1] 0.
Definition g83 : list Gate := [ConstantGate 1].
Definition cs83 : list (list GF) := [[]; [g0; g1]].
Definition sigmas83 : list (list GF) := [[g0; gopp g1]].
Definition leaves83 (o : nat) (i : Z) : list Z :=
  match o with
  | O => honest_leaf [cs83 ++ sigmas83] (fun _ _ => []) 4 0 i
  | 1%nat => [0]
  | _ => [0; 0]
  end.
Definition o83 (c : chalK) : opensK := mkOpensK [k0; k0] [k0] [k0] [k0; k0] [k0; k0] [] [].
Lemma shape83 : circuit_shape cd83 g83.
Proof.
  split; [split; [repeat constructor; vm_compute; congruence|cbn; lia]|]. split; [|repeat constructor].
  split; [cbn; lia|]. intros i Hi. destruct i as [|i]; [|cbn in Hi; lia]. cbn. unfold p. lia.
Qed.
Lemma forgeable83 : forgeable cd83 g83.
Proof.
  split; [exact shape83|]. split; [cbn; lia|]. split; [constructor; [cbn; lia|constructor]|]. repeat split; cbn; lia.
Qed.
Lemma leaves_ok83 : leaves_ok leaves83 (cd_FriParams cd83) (friOracles cd83).
Proof.
  intros o i Ho. cbn [friOracles length] in Ho. cbv zeta.
  destruct o as [|o].
  2:{ destruct o as [|[|[|o]]]; [| | |lia]; (split; [reflexivity|]); cbn [leaves83]; repeat constructor; vm_compute; congruence. }
  cbn [leaves83]. unfold honest_leaf. split; [rewrite app_length, map_length; reflexivity|]. rewrite app_nil_r. apply Forall_forall. intros v Hv. apply in_map_iff in Hv. destruct Hv as (f & <- & _). apply rep_range.
Qed.
(** the verifier data is the true key of this circuit *)
Lemma data83 digest : forged_data cd83 leaves83 digest = mkVerifierOnlyCircuitData (constants_cap cd83 cs83 sigmas83 (fun _ _ => [])) digest.
Proof. reflexivity. Qed.
Lemma unsatisfiable83 h ws : length h = 4%nat -> ~ satisfying cd83 g83 h cs83 sigmas83 ws.
Proof.
  intros Lh ((_ & _ & L3) & _ & GA & _ & CO). destruct ws as [|w [|w1 ws]]; try discriminate L3.
  assert (G : forall k, (k < 2)%nat -> (gpeval [g0; g1] (root 1 ^ N.of_nat k) = gpeval w (root 1 ^ N.of_nat k))%GF).
  { intros k Hk. destruct (GA k ltac:(cbn; lia)) as (j & (Hj & _) & C). assert (j = O) as -> by (cbn in Hj; lia).
    assert (D : computes (EvalUnfiltered (nth 0 g83 NoopGate) (mkvars (skipn (length (groups (cd_SelectorsInfo cd83))) (map emb (grow cd83 cs83 k))) (map emb (grow cd83 [w] k)) h))
      (map repK (gate_k (nth 0 g83 NoopGate) (skipn (length (groups (cd_SelectorsInfo cd83))) (map emb (grow cd83 cs83 k))) (map emb (grow cd83 [w] k)) h))).
    { apply gate_computes; [cbn; lia|exact Lh]. }
    pose proof (computes_functional _ _ _ C D) as E. clear C D.
    cbn [nth g83 gate_k num_constraints repeat seq map] in E. unfold wire, grow, cs83 in E. cbn [map skipn length groups cd_SelectorsInfo cd83 nth cd_DegreeBits] in E.
    pose proof (f_equal (fun l => nth 0 l (repK k0)) E) as E1. cbn [nth] in E1.
    change (0, 0) with (repK k0) in E1. apply repK_inj in E1. apply (f_equal fst) in E1.
    assert (F : forall a b, fst (emb a - emb b)%K = (a - b)%GF) by reflexivity. rewrite F in E1. change (fst k0) with g0 in E1.
    revert E1. generalize (gpeval [g0; g1] (root 1 ^ N.of_nat k)%GF), (gpeval w (root 1 ^ N.of_nat k)%GF). intros a b E1.
    transitivity ((a - b) + b)%GF; [ring|]. rewrite <- E1. ring. }
  assert (W : gcell cd83 [w] (0, 0)%nat = gcell cd83 [w] (1, 0)%nat).
  { apply CO; [apply in_cells; cbn; lia|apply in_cells; cbn; lia|]. vm_compute. reflexivity. }
  unfold gcell in W. cbn [fst snd nth cd83 cd_DegreeBits] in W. rewrite <- !G in W by lia. apply (f_equal rep) in W. vm_compute in W. discriminate W.
Qed.

(** ** The forged proof
    [ds83] and [witness83] were found in a few seconds by trying all digits for the witnesses
    0, 1, 2...; without the digits, a random response and random indices are good with
    probability 2^-16 * (2/16)^28 = 2^-100. *)
Definition pis83 : list Z := [5].
Definition digest83 : Z := 12345.
Definition S83 : list Z := [0; 1].
Definition witness83 : Z := 305.
Definition ds83 : list (list Z) :=
  [[0; 5; 4; 1; 4; 3; 1; 2; 5; 1; 1; 3]; [2; 2; 5; 0; 0; 0; 1; 0; 0; 0; 2; 0]; [0; 5; 2; 0; 0; 0; 0; 1; 2; 1; 3; 5]; [0; 0; 0; 0; 0; 0; 1; 1; 5; 3; 4; 2]].
Definition h83 : list Z := [130904014843481634; 9694316315952728298; 9951044982774142190; 10842760739147161096].
(** the transcript, phase by phase: the challenges and the state after each *)
Definition y83_1 : list Z := [16312000654352308445; 7174346118241177159; 7064125348532495799; 5268496859729571624].
Definition s83_1 : list Z := [6239897650055059630; 13247061908302746920; 7734430342273964439; 3128881275913024316; 5268496859729571624; 7064125348532495799;
  7174346118241177159; 16312000654352308445; 4533778675486310428; 10127507526084751688; 15379527575116268644; 17142491583746632728].
Definition y83_2 : list Z := [15876713488533293217; 9555655453651283341].
Definition s83_2 : list Z := [12926678113404904376; 14283064656922627148; 16267587782217630727; 8106437830170773262; 15313547161083896156; 3639400562815345519;
  9555655453651283341; 15876713488533293217; 17410348571005780389; 7217937242034431503; 6732583085442948964; 10295289921221644516].
Definition y83_3 : list Z := [1715036085980693033; 765825539722507342].
Definition s83_3 : list Z := [4768879022882069938; 10230363834198767570; 15666308104827841437; 17815772482546971267; 5408700101338331727; 54820347609415255;
  765825539722507342; 1715036085980693033; 17269435915311741377; 11753386095780638944; 6570128006579528549; 1107937757927644391].
(** the openings are 0 but for the two quotients *)
Definition qs83 : list (Z * Z) := [(3028958530651406165, 3285635687128937962); (15532657808507727750, 11669437560887900560)].
Definition openings83 : list Z := repeat 0 12 ++ flat_map qe_list qs83 ++ repeat 0 4.
Definition y83_4 : list Z := [14510620387200250427; 5947633263164243994].
Definition s83_4 : list Z := [8382775385463263017; 11131032413483791771; 9715004258198116440; 4888170541429788577; 5467386822040054198; 11084809823173705705;
  5947633263164243994; 14510620387200250427; 6651110502337913648; 2942967391805837489; 15656645900807439119; 2606942383733454767].
Definition final83 : list Z := [9934971730880870360; 4758333781042788466; 6661197903833564277; 13453212417327817563].
Definition y83_5 : list Z := fst (fask_moved ds83 (final83 ++ [witness83]) 29 s83_4).
Definition c83 : chalK := mkChalK (injs (firstn 2 y83_1)) (injs (skipn 2 y83_1)) (injs y83_2) (qeK (injs y83_3)).
Definition V83 : session := mkSession c83 (qeK (injs y83_4)) [] (hd g0 (injs y83_5)) (tl (injs y83_5)).

Lemma h83_ok : sponge g0 poseidon (map inj pis83) 4 = injs h83.
Proof. rewrite fsponge_ok. assert (E : fsponge pis83 4 = h83) by (vm_compute; reflexivity). now rewrite E. Qed.
Lemma phase83_1 : fask (digits56 digest83 ++ h83 ++ cap_elems (repeat 0 16)) 4 (repeat 0 12) = (y83_1, s83_1).
Proof. vm_compute. reflexivity. Qed.
Lemma phase83_2 : fask (cap_elems (repeat 0 16)) 2 s83_1 = (y83_2, s83_2).
Proof. vm_compute. reflexivity. Qed.
Lemma phase83_3 : fask (cap_elems (repeat 0 16)) 2 s83_2 = (y83_3, s83_3).
Proof. vm_compute. reflexivity. Qed.
Lemma phase83_4 : fask openings83 2 s83_3 = (y83_4, s83_4).
Proof. vm_compute. reflexivity. Qed.
Lemma caps83 o : (1 <= o < 4)%nat -> nth o (forged_caps leaves83 4 (LdeBits (cd_FriParams cd83))) [] = repeat 0 16.
Proof. intros H. unfold forged_caps. destruct o as [|[|[|[|o]]]]; try lia; cbn [seq map nth]; vm_compute; reflexivity. Qed.
Lemma opens83 : openings_elems (repO (forged_opens cd83 g83 (injs h83) o83 c83)) = openings83.
Proof. vm_compute. reflexivity. Qed.
Lemma word83 : flat_map qe_list (map repK (commit_final (forged_word cd83 g83 (injs h83) leaves83 o83 S83 c83 (qeK (injs y83_4))) [])) = final83.
Proof. vm_compute. reflexivity. Qed.
Lemma zeros_injs : repeat g0 12 = injs (repeat 0 12).
Proof. cbn [repeat map]. now rewrite <- g0_inj. Qed.
Lemma ask83 xs m s y s' : fask xs m s = (y, s') -> ask xs m (injs s) = (injs y, injs s').
Proof. intros E. now rewrite fask_ok, E. Qed.
Lemma reps83 : map rep (injs h83) = h83.
Proof. vm_compute. reflexivity. Qed.

Lemma session83 : moved_session cd83 g83 (injs h83) leaves83 o83 S83 ds83 digest83 witness83 = V83.
Proof.
  unfold moved_session. rewrite !caps83, reps83, zeros_injs by lia.
  change (NumChallenges (cd_Config cd83)) with 2%nat. change (2 + 2)%nat with 4%nat.
  rewrite (ask83 _ _ _ _ _ phase83_1), (ask83 _ _ _ _ _ phase83_2), (ask83 _ _ _ _ _ phase83_3).
  rewrite firstn_map, skipn_map. fold c83. rewrite opens83, (ask83 _ _ _ _ _ phase83_4).
  change (length (ReductionArityBits (cd_FriParams cd83))) with O. cbn [draw_betas map]. rewrite word83.
  change (1 + NumQueryRounds (cc_FriConfig (cd_Config cd83)))%nat with 29%nat. rewrite fask_moved_ok. reflexivity.
Qed.
(** the 28 queries are at the two positions, and the response to the proof of work is small *)
Lemma moved83 : let y := y83_5 in length y = 29%nat /\ hd 0 y < 2 ^ 48 /\ Forall (fun x => In (x mod 16) S83) (tl y) /\ Forall canonZ y.
Proof.
  assert (E : let y := y83_5 in (Nat.eqb (length y) 29 && (hd 0 y <? 2 ^ 48) && forallb (fun x => (x mod 16 =? 0) || (x mod 16 =? 1)) (tl y) && forallb (fun x => (0 <=? x) && (x <? p)) y)%bool = true) by (vm_compute; reflexivity).
  cbv zeta in E |- *. revert E. generalize y83_5. intros y E. apply andb_prop in E. destruct E as [E E4]. apply andb_prop in E. destruct E as [E E3]. apply andb_prop in E. destruct E as [E1 E2].
  split; [now apply Nat.eqb_eq|]. split; [now apply Z.ltb_lt|]. rewrite forallb_forall in E3, E4. split; apply Forall_forall; intros x Hx.
  - specialize (E3 x Hx). apply orb_prop in E3. destruct E3 as [E|E]; apply Z.eqb_eq in E; rewrite E; cbn; auto.
  - specialize (E4 x Hx). apply andb_prop in E4. destruct E4 as [A B]. apply Z.leb_le in A. apply Z.ltb_lt in B. now split.
Qed.
Lemma hit83 : hit cd83 S83 (v_chal V83) (v_fri_betas V83) (v_pow V83) (v_indices V83).
Proof.
  destruct moved83 as (L & P & I & C). cbn [V83 v_chal v_fri_betas v_pow v_indices]. destruct y83_5 as [|y0 y]; [discriminate L|]. cbn [map hd tl] in *.
  inversion C as [|? ? C0 C1]; subst. split; [|split; [|split; [|split]]].
  - intros E. apply (f_equal (fun k => rep (snd k))) in E. vm_compute in E. discriminate E.
  - exact Logic.I.
  - rewrite rep_inj_small by exact C0. exact P.
  - assert (NE : forall x a b, rep b <> 0 -> emb x <> (a, b)) by (intros x a b Hb E; injection E as _ E; apply Hb; now rewrite <- E).
    intros i _. split; [apply NE; vm_compute; discriminate|]. unfold c83. cbn [c_zeta]. intros E.
    apply (f_equal (fun k => rep (snd k))) in E. unfold qeK in E. cbn [map nth y83_3] in E. rewrite snd_emb_mul in E. vm_compute in E. discriminate E.
  - rewrite Forall_forall in *. intros x Hx. apply in_map_iff in Hx. destruct Hx as (z & <- & Hz). rewrite rep_inj_small by (now apply C1).
    change (2 ^ Z.of_nat (LdeBits (cd_FriParams cd83))) with 16. now apply I.
Qed.

(** The statement is false, whatever the wires; yet the circuit of the code has a satisfying
    assignment for this proof.  With an S-box width between 128 and 189 it has none: the honest
    response to the proof of work is too large. *)
Definition proof83 : Proof_ := forged_session_proof cd83 g83 (injs h83) leaves83 o83 S83 witness83 V83.
Definition key83 : VerifierOnlyCircuitData := mkVerifierOnlyCircuitData (constants_cap cd83 cs83 sigmas83 (fun _ _ => [])) digest83.
Lemma text83 : Forall2 gate_text g83 (map str (GateIds cd83)).
Proof.
  constructor; [|constructor]. apply (t_constant 1 (str "1")). split; [|reflexivity]. split; [discriminate|]. split; [|reflexivity].
  intros c [<-|[]]. vm_compute. split; discriminate.
Qed.
Lemma phase_det xs m s y y' t t' : phase pgraph xs m s y t -> phase pgraph xs m s y' t' -> y = y' /\ t = t'.
Proof.
  intros (st & bl & A & B & ->) (st' & bl' & A' & B' & ->).
  assert (E : st = st').
  { unfold absorb_rel in A, A'. clear B B'. revert s A A'. generalize (chunks 8 (map inj xs)). induction l as [|c l IH]; intros s; cbn [chainR]; [congruence|].
    intros (u & -> & A) (u' & -> & A'). exact (IH _ A A'). }
  subst st'. clear A A'. assert (E : bl = bl' /\ t = t'); [|destruct E; subst; now split]. revert st bl bl' B B'. generalize ((m - 1) / 8)%nat.
  induction n as [|n IH]; intros st bl bl'; cbn [squeezeR]; [intros [-> ->] [-> ->]; now split|].
  intros (u & b & -> & B & ->) (u' & b' & -> & B' & ->). destruct (IH _ _ _ B B') as [-> ->]. now split.
Qed.
Theorem C83_sound_refuted : exists cd gates cs sigmas digest pis pr,
  let vd := mkVerifierOnlyCircuitData (constants_cap cd cs sigmas (fun _ _ => [])) digest in
  (NumChallenges (cd_Config cd) = 2 /\ fp_Config (cd_FriParams cd) = mkFriConfig 3 4 16 28 /\ cc_FriConfig (cd_Config cd) = fp_Config (cd_FriParams cd))%nat /\
  Forall2 gate_text gates (map str (GateIds cd)) /\
  (forall h ws, length h = 4%nat -> ~ satisfying cd gates h cs sigmas ws) /\
  forall orders, (forall i, Permutation (orders i) gateRegexHandlers) ->
    sat (Define orders 192 cd pr pis vd) /\ (forall w, 128 <= w <= 189 -> ~ sat (Define orders w cd pr pis vd)).
Proof.
  exists cd83, g83, cs83, sigmas83, digest83, pis83, proof83. cbv zeta. split; [repeat split|]. split; [exact text83|].
  split; [intros h ws; apply unsatisfiable83|]. intros orders HO. fold key83.
  assert (KD : key83 = forged_data cd83 leaves83 digest83) by (unfold key83; now rewrite data83). rewrite KD.
  assert (HU : forall c, opens_sized cd83 (o83 c)) by (intros c; repeat split).
  assert (RP : Forall reducible pis83) by (repeat constructor; vm_compute; congruence).
  assert (NP : Forall inr_ pis83) by (repeat constructor; vm_compute; congruence).
  assert (ND : inr_ digest83) by (vm_compute; split; congruence).
  assert (CW : canonZ witness83) by (vm_compute; split; congruence).
  assert (HM : Forall digits ds83) by (repeat (constructor; [split; [reflexivity|repeat (constructor; [lia|]); constructor]|]); constructor).
  assert (PS : positions cd83 S83).
  { split; [|split; [|cbn; lia]]; [constructor; [cbn; intuition discriminate|constructor; [intros []|constructor]]|]. repeat constructor; vm_compute; congruence. }
  split.
  - pose proof (C83_transcript orders cd83 g83 pis83 leaves83 o83 S83 ds83 digest83 witness83 HO text83 forgeable83 leaves_ok83 HU PS eq_refl RP NP ND CW HM) as T.
    cbv zeta in T. rewrite h83_ok, session83 in T. exact (T hit83).
  - intros w Hw. pose proof (forged_shape cd83 g83 (injs h83) leaves83 o83 S83 forgeable83 HU (v_chal V83) (v_alpha V83) (v_fri_betas V83) (v_indices V83) witness83 : proof_shape cd83 g83 proof83) as SH.
    pose proof (forged_native cd83 g83 (injs h83) leaves83 o83 S83 (v_chal V83) (v_alpha V83) (v_fri_betas V83) (v_indices V83) witness83 pis83 digest83 NP ND : native proof83 pis83 (forged_data cd83 leaves83 digest83)) as NA.
    rewrite (C52_verify_partial orders cd83 g83 proof83 pis83 (forged_data cd83 leaves83 digest83) HO text83 shape83 SH NA w Hw).
    intros (_ & _ & h & c & alpha & betas & pow & indices & SP & (z1 & z2 & z3 & z4 & bs & z5 & PH & LB & _ & _ & _ & _ & _ & _ & EP & _) & _ & FO).
    apply sponge_graph in SP. rewrite h83_ok in SP. subst h. rewrite reps83 in PH.
    destruct bs as [|b bs]; [|discriminate LB]. cbn [app] in PH.
    destruct FO as (_ & _ & FP & _). cbn [repC pc_FriChallenges fc_of FriPowResponse] in EP. rewrite EP in FP. clear EP LB.
    unfold transcript_phases in PH. cbn [app phases] in PH.
    destruct PH as (a1 & t1 & r1 & P1 & PH & E). injection E as <- <-. destruct PH as (a2 & t2 & r2 & P2 & PH & E). injection E as <- <-.
    destruct PH as (a3 & t3 & r3 & P3 & PH & E). injection E as <- <-. destruct PH as (a4 & t4 & r4 & P4 & PH & E). injection E as <- <-.
    change (map (fun cap => (cap_elems cap, 2%nat)) (CommitPhaseMerkleCaps (OpeningProof proof83)) ++ ?l) with l in PH. cbn [app phases] in PH.
    destruct PH as (a5 & t5 & r5 & P5 & -> & E). injection E as <-.
    change zeros12 with (repeat g0 12) in P1. rewrite zeros_injs in P1.
    change (WiresCap proof83) with (nth 1 (forged_caps leaves83 4 (LdeBits (cd_FriParams cd83))) []) in P1. rewrite caps83 in P1 by lia.
    change (PlonkZsPartialProductsCap proof83) with (nth 2 (forged_caps leaves83 4 (LdeBits (cd_FriParams cd83))) []) in P2. rewrite caps83 in P2 by lia.
    change (QuotientPolysCap proof83) with (nth 3 (forged_caps leaves83 4 (LdeBits (cd_FriParams cd83))) []) in P3. rewrite caps83 in P3 by lia.
    change (Openings proof83) with (repO (forged_opens cd83 g83 (injs h83) o83 c83)) in P4. rewrite opens83 in P4.
    assert (N : forall xs m s y s' z t, fask xs m s = (y, s') -> phase pgraph xs m (injs s) z t -> z = injs y /\ t = injs s').
    { intros xs m s y s' z t F P. pose proof (ask_phase xs m (injs s)) as A. rewrite (ask83 _ _ _ _ _ F) in A. cbn [fst snd] in A. exact (phase_det _ _ _ _ _ _ _ P A). }
    destruct (N _ _ _ _ _ _ _ phase83_1 P1) as [_ ->]. destruct (N _ _ _ _ _ _ _ phase83_2 P2) as [_ ->].
    destruct (N _ _ _ _ _ _ _ phase83_3 P3) as [_ ->]. destruct (N _ _ _ _ _ _ _ phase83_4 P4) as [_ ->].
    change (FinalPoly (OpeningProof proof83)) with (map repK (commit_final (forged_word cd83 g83 (injs h83) leaves83 o83 S83 c83 (qeK (injs y83_4))) [])) in P5. rewrite word83 in P5.
    change (PowWitness (OpeningProof proof83)) with witness83 in P5. change (1 + NumQueryRounds (cc_FriConfig (cd_Config cd83)))%nat with 29%nat in P5.
    destruct (fask (final83 ++ [witness83]) 29 s83_4) as [y s'] eqn:E. destruct (N _ _ _ _ _ _ _ E P5) as [-> _].
    assert (B : (let y := fst (fask (final83 ++ [witness83]) 29 s83_4) in negb (Nat.eqb (length y) 0) && (2 ^ 48 <=? hd 0 y) && (hd 0 y <? p))%bool = true) by (vm_compute; reflexivity).
    rewrite E in B. cbv zeta in B. cbn [fst] in B. destruct y as [|y0 y]; [discriminate B|]. cbn [hd map length Nat.eqb negb andb] in *.
    apply andb_prop in B. destruct B as [B1 B2]. apply Z.leb_le in B1. apply Z.ltb_lt in B2. rewrite rep_inj_small in FP by lia.
    change (2 ^ (64 - Z.of_nat (ProofOfWorkBits (fp_Config (cd_FriParams cd83))))) with (2 ^ 48) in FP. lia.
Qed.
Print Assumptions C83_sound_refuted.
