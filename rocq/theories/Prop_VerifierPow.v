(** * Property C82: the proof of work multiplies the soundness bound. *)
From Coq Require Import String.
From Coq Require Import ZArith NArith Arith Lia List Bool Ring.
From Verif Require Import Zp GF Circuit Goldilocks GLProofs ExtProofs BN254 BN254Hash Types Challenger Fri Poly Roots FriMerkle FriEval FriQuery FriTop FriFacts Honest FriSound FriRewind FriExtract Prop_Fri
  Gates GateProofs GateFilter GateCoset GateAll GateDegree Prop_Gates Plonk PlonkProofs Prop_Plonk PlonkSound PlonkRows PlonkCopy Prop_PlonkSound Verifier VerifierProofs VerifierSound Prop_VerifierSound FriForge Prop_FriSound Prop_FriQuery FriCurve FriProx FriError Game Prop_FriError VerifierError Prop_VerifierError.
Import ListNotations.
Open Scope Z_scope.
Local Opaque PoseidonBN HashOrNoop TwoToOne.

(** ** C82
    A run as in C81, and before the query positions the response w to the proof of work
    (friPowResponse, challenger/challenger.go:132-136) drawn from [gcoins].  The prover knows w
    before it answers the queries.  Here it knows w even before its first message: P w is what
    it does for the response w. *)
Definition response (P : player) (r : run_) : GF :=
  let '(c, (alpha, betas, positions)) := r in t_pow (p_answer P c alpha betas positions).
(** the responses that fri/fri.go:75-80 accepts *)
Definition small_responses (bits : nat) (gcoins : list GF) : list GF := filter (fun w => rep w <? 2 ^ (64 - Z.of_nat bits)) gcoins.

Lemma beats_pow cd gates h vd P r : sound_data cd gates -> beats cd gates h vd P r -> rep (response P r) < 2 ^ (64 - Z.of_nat (ProofOfWorkBits (fp_Config (cd_FriParams cd)))).
Proof.
  intros SD B. destruct r as [c [[alpha betas] is]]. pose proof (beats_won cd gates h vd P SD c alpha betas is B) as (_ & _ & _ & C2 & _ & W).
  apply (enforces_sat _ _ _ (verify_fri_correct _ _ _ _ _ _ _ _ _ _ C2 (oracles_nil cd) (two_batches cd (strat P) c))) in W. now destruct W as (_ & _ & W & _).
Qed.
Theorem C82_pow : forall cd gates h vd (P : GF -> player) gcoins coins (wins : list (GF * run_)) E e cs sigmas,
  let n := LdeBits (cd_FriParams cd) in
  sound_data cd gates -> degree_bound cd gates E -> length h = 4%nat ->
  (2 * e + 2 ^ cd_DegreeBits cd < 2 ^ n)%nat ->
  NoDup gcoins -> NoDup coins -> NoDup wins ->
  (forall w r, In (w, r) wins -> In w gcoins /\ response (P w) r = w /\
     drawn_from cd gcoins coins r /\ openings_shape cd (p_opens (P w) (fst r)) /\ beats cd gates h vd (P w) r) ->
  length cs = cd_NumConstants cd -> length sigmas = NumRoutedWires (cd_Config cd) -> Forall (fun f => length f <= 2 ^ cd_DegreeBits cd + 1)%nat (cs ++ sigmas) ->
  ConstantSigmasCap vd = key_cap n (cs ++ sigmas) ->
  no_collision (fun a => (exists w r, In (w, r) wins /\ hashed_in (P w) [r] a) \/ key_hashed n (cs ++ sigmas) a) ->
  (forall w, ~ rows_satisfy cd gates h cs sigmas w) ->
  (length wins <= length (small_responses (ProofOfWorkBits (fp_Config (cd_FriParams cd))) gcoins) * error_bound cd E e (length gcoins) (length coins))%nat.
Proof.
  intros cd gates h vd P gcoins coins wins E e cs sigmas n SD DB Lh He NDg NDc NDw HW Lcs Lsg HB KEY NC UNSAT.
  set (L := small_responses _ gcoins).
  eapply Nat.le_trans; [apply (seconds_sum wins L)|].
  - intros [w r] H. cbn [fst]. destruct (HW w r H) as (Hw & Ew & _ & _ & B). apply filter_In. split; [exact Hw|]. apply Z.ltb_lt. rewrite <- Ew. now apply (beats_pow cd gates h vd).
  - assert (S : forall w, (length (seconds wins w) <= error_bound cd E e (length gcoins) (length coins))%nat).
    { intros w. apply (C81_error cd gates h vd (P w) gcoins coins (seconds wins w) E e cs sigmas SD DB Lh He NDg NDc); try assumption.
      - now apply seconds_nodup.
      - intros r Hr. apply seconds_in in Hr. now apply HW.
      - apply (no_collision_sub _ _ (fun a H => H)) in NC. eapply no_collision_sub; [|exact NC]. intros a [(r & i & round & Hr & Ha)|Ha]; [left|now right].
        exists w, r. split; [now apply seconds_in|]. exists r, i, round. split; [now left|exact Ha]. }
    clear - S. induction L as [|w L IH]; [cbn; lia|]. cbn [map list_sum fold_right length Nat.mul]. apply Nat.add_le_mono; [apply S|exact IH].
Qed.
Print Assumptions C82_pow.

(** at most 2^(64-bits) responses are accepted *)
Theorem C82_count : forall bits gcoins, (bits <= 64)%nat -> NoDup gcoins ->
  Z.of_nat (length (small_responses bits gcoins)) <= 2 ^ (64 - Z.of_nat bits).
Proof.
  intros bits gcoins Hb ND. assert (H0 : 0 <= 2 ^ (64 - Z.of_nat bits)) by (apply Z.pow_nonneg; lia).
  destruct (Z_of_nat_complete _ H0) as [m Hm]. rewrite Hm. apply inj_le. rewrite <- (seq_length m 0), <- (map_length Z.of_nat (seq 0 m)), <- (map_length rep (small_responses bits gcoins)).
  apply NoDup_incl_length.
  - apply NoDup_map_in; [intros x y _ _ X; now apply GF_eq|]. now apply NoDup_filter.
  - intros x Hx. apply in_map_iff in Hx. destruct Hx as (w & <- & Hw). apply filter_In in Hw. destruct Hw as [_ Hw]. apply Z.ltb_lt in Hw. rewrite Hm in Hw.
    pose proof (rep_range w) as R. apply in_map_iff. exists (Z.to_nat (rep w)). split; [apply Z2Nat.id; lia|]. apply in_seq. clear - Hw R. split; [lia|]. cbn. apply Nat2Z.inj_lt. rewrite Z2Nat.id; lia.
Qed.
Print Assumptions C82_count.

(** The test data of the repository: 16 bits of proof of work.  A prover of a false statement
    wins less than one run in 2^39. *)
Theorem C82_testdata : forall cd E e gcoins Q,
  let d := cd_DegreeBits cd in
  (d = 12 \/ d = 13)%nat -> fp_DegreeBits (cd_FriParams cd) = d -> RateBits (fp_Config (cd_FriParams cd)) = 3%nat -> NumQueryRounds (fp_Config (cd_FriParams cd)) = 28%nat ->
  NumChallenges (cd_Config cd) = 2%nat -> NumRoutedWires (cd_Config cd) = 80%nat -> NumWires (cd_Config cd) = 136%nat -> NumPartialProducts cd = 9%nat -> QuotientDegreeFactor cd = 8%nat ->
  (cd_NumConstants cd <= 100)%nat -> (NumGateConstraints cd <= 1000)%nat -> (E <= 100)%nat ->
  e = (7 * 2 ^ (d - 1) - 1)%nat -> NoDup gcoins -> Z.of_nat (length gcoins) = p -> Z.of_nat Q = p * p ->
  Z.of_nat (length (small_responses 16 gcoins) * error_bound cd E e (length gcoins) Q) * 2 ^ 39 <= Z.of_nat (length gcoins * all_runs cd (length gcoins) Q).
Proof.
  intros cd E e gcoins Q d Hd Ed Hr Hq Hnc Hrw Hw Hpp Hqf Hc Hg HE He ND HQg HQ.
  destruct (C81_testdata cd E e (length gcoins) Q Hd Ed Hr Hq Hnc Hrw Hw Hpp Hqf Hc Hg HE He HQg HQ) as (_ & X & _).
  pose proof (C82_count 16 gcoins ltac:(lia) ND) as C. change (2 ^ (64 - Z.of_nat 16)) with (2 ^ 48) in C. rewrite !Nat2Z.inj_mul, HQg.
  assert (A : 0 <= Z.of_nat (all_runs cd (length gcoins) Q)) by apply Nat2Z.is_nonneg. assert (B : 0 <= Z.of_nat (error_bound cd E e (length gcoins) Q)) by apply Nat2Z.is_nonneg.
  revert X C A B. generalize (Z.of_nat (error_bound cd E e (length gcoins) Q)) (Z.of_nat (all_runs cd (length gcoins) Q)) (Z.of_nat (length (small_responses 16 gcoins))). clear. intros x y m X C A B.
  apply (Z.mul_le_mono_pos_r _ _ (16 ^ 28 * 2 ^ 86)); [now vm_compute|].
  apply Z.le_trans with (2 ^ 48 * x * 2 ^ 39 * (16 ^ 28 * 2 ^ 86)).
  { apply Z.mul_le_mono_nonneg_r; [now vm_compute|]. apply Z.mul_le_mono_nonneg_r; [now vm_compute|]. now apply Z.mul_le_mono_nonneg_r. }
  replace (2 ^ 48 * x * 2 ^ 39 * (16 ^ 28 * 2 ^ 86)) with (x * (16 ^ 28 * 2 ^ 86) * (2 ^ 48 * 2 ^ 39)) by ring.
  eapply Z.le_trans; [apply Z.mul_le_mono_nonneg_r; [now vm_compute|exact X]|]. rewrite (Z.mul_comm p y), <- !Z.mul_assoc. apply Z.mul_le_mono_nonneg_l; [exact A|]. apply Z.leb_le. vm_compute. reflexivity.
Qed.
Print Assumptions C82_testdata.

(** ** Examples
    The circuit of C81_ex_false with 60 bits of proof of work: no assignment satisfies it.  The
    prover wins the 16 * 16 * 8000^4 runs with beta = 0 and a response below 16. *)
Definition cd82 : CommonCircuitData :=
  mkCommonCircuitData (mkCircuitConfig 1 1 1 false 100 1 false 1 (mkFriConfig 1 4 60 1))
    (mkFriParams (mkFriConfig 1 4 60 1) false 3 []) ["ConstantGate { num_consts: 1 }"%string] (mkSelectorsInfo [O] [(0, 1)%nat]) 3 1 1 2 0 [1] 0.
Definition P82 (sg : list GF) (w : GF) : player :=
  let P := P81 sg in mkPlayer (p_wires P) (p_zs P) (p_quotients P) (p_opens P) (p_cap P) (p_final P)
    (fun c alpha betas is => let t := p_answer P c alpha betas is in mkTranscript (t_proof t) w (t_indices t)).
Lemma shape82_data : circuit_shape cd82 g62.
Proof.
  split; [split; [repeat constructor; vm_compute; congruence|cbn; lia]|]. split; [|repeat constructor].
  split; [cbn; lia|]. intros i Hi. destruct i as [|i]; [|cbn in Hi; lia]. cbn. unfold p. lia.
Qed.
Lemma beats82 sg w r : rep w < 16 -> beats cd62 g62 h61 (vd81 sg) (P81 sg) r -> beats cd82 g62 h61 (vd81 sg) (P82 sg w) r.
Proof.
  intros Hw B. destruct r as [c [[alpha betas] is]]. destruct B as (A1 & A2 & A3 & A5 & A6). apply (range_first cd62 g62 h61 (vd81 sg)) in A6. destruct A6 as ((C1 & C2 & C3) & B1 & B2).
  split; [exact A1|]. split; [exact A2|]. split; [exact A3|]. split; [exact A5|].
  set (t := p_answer (P81 sg) c alpha betas is) in *. change (p_answer (P82 sg w) c alpha betas is) with (mkTranscript (t_proof t) w (t_indices t)). cbn [t_proof t_pow t_indices].
  change (proof_by (P82 sg w) c (mkTranscript (t_proof t) w (t_indices t))) with (proof_by (P81 sg) c t).
  apply (with_sat cd82 g62 (proof_by (P81 sg) c t)).
  - split; [exact C1|]. split; [exact C2|exact C3].
  - exact B1.
  - apply (enforces_sat _ _ _ (fri_part cd62 g62 (proof_by (P81 sg) c t) (vd81 sg) shape62_data (c_zeta c) alpha betas (t_pow t) (t_indices t) C1 C2)) in B2.
    apply (enforces_sat _ _ _ (fri_part cd82 g62 (proof_by (P81 sg) c t) (vd81 sg) shape82_data (c_zeta c) alpha betas w (t_indices t) C1 C2)).
    destruct B2 as (F1 & _ & _ & F2). split; [exact F1|]. split; [cbn; lia|]. split; [exact Hw|]. exact F2.
Qed.
Notation wins82 := (list_prod (map (fun j => inj (Z.of_nat j)) (seq 0 16)) (runs81 [g0] gcoins81 coins81)).

Lemma response82 sg w r : response (P82 sg w) r = w.
Proof. destruct r as [c [[alpha betas] is]]. reflexivity. Qed.
Lemma opens82 sg w : p_opens (P82 sg w) = p_opens (P81 sg).
Proof. reflexivity. Qed.
Lemma wins82_won w r : In (w, r) wins82 -> In w gcoins81 /\ response (P82 [g0; root 3] w) r = w /\
  drawn_from cd82 gcoins81 coins81 r /\ openings_shape cd82 (p_opens (P82 [g0; root 3] w) (fst r)) /\ beats cd82 g62 h61 (vd81 [g0; root 3]) (P82 [g0; root 3] w) r.
Proof.
  assert (HW : forall r, In r (runs81 [g0] gcoins81 coins81) -> drawn_from cd62 gcoins81 coins81 r /\ openings_shape cd62 (p_opens (P81 [g0; root 3]) (fst r)) /\ beats cd62 g62 h61 (vd81 [g0; root 3]) (P81 [g0; root 3]) r).
  { apply (runs81_won [g0; root 3] [g0]); [cbn; lia|]. intros b [<-|[]]. split; [apply in_map_iff; exists 0%nat; split; [apply GF_eq; vm_compute; reflexivity|apply in_seq; lia]|].
    intros z. change (emb g0) with k0. ring. }
  intros H. apply in_prod_iff in H. destruct H as [H Hr]. destruct (HW r Hr) as (D & O & B). apply in_map_iff in H. destruct H as (j & Ej & Hj). apply in_seq in Hj.
  split; [apply in_map_iff; exists j; split; [exact Ej|apply in_seq; lia]|]. split; [apply response82|]. split; [exact D|]. split; [rewrite opens82; exact O|].
  apply beats82; [|exact B]. rewrite <- Ej. rewrite rep_inj_small; unfold p; lia.
Qed.
Lemma small82 : (length (small_responses 60 gcoins81) <= 16)%nat.
Proof. apply Nat2Z.inj_le. pose proof (C82_count 60 gcoins81 ltac:(lia) gcoins81_nodup) as C. revert C. generalize (Z.of_nat (length (small_responses 60 gcoins81))). intros z C. exact C. Qed.
Lemma wins82_nodup : NoDup wins82.
Proof.
  apply prod_nodup; [|apply runs81_nodup; [repeat constructor; intros []|exact gcoins81_nodup|exact coins81_nodup]].
  apply NoDup_map_in; [|apply seq_NoDup]. intros a b Ha Hb E. apply in_seq in Ha. apply in_seq in Hb. apply (f_equal rep) in E. rewrite !rep_inj_small in E; unfold p; lia.
Qed.
Lemma nothing_hashed82 a : ~ ((exists w r, In (w, r) wins82 /\ hashed_in (P82 [g0; root 3] w) [r] a) \/ key_hashed 4 (cs62 ++ [[g0; root 3]]) a).
Proof.
  intros [(w & r & H & (r' & i & round & [<-|[]] & Ha & Hb))|(i & _ & H)]; [|exact H]. apply in_prod_iff in H. destruct H as [_ H].
  apply (nothing_hashed81 [g0; root 3] [g0] gcoins81 coins81 a). exists r, i, round. split; [exact H|]. split; [|exact Hb]. destruct r as [c [[alpha betas] is]]. exact Ha.
Qed.
Example C82_ex :
  (forall w r, In (w, r) wins82 -> response (P82 [g0; root 3] w) r = w /\ beats cd82 g62 h61 (vd81 [g0; root 3]) (P82 [g0; root 3] w) r) /\
  (length wins82 <= 16 * error_bound cd82 2 3 (length gcoins81) (length coins81))%nat.
Proof.
  split; [intros w r H; destruct (wins82_won w r H) as (_ & X & _ & _ & Y); now split|].
  eapply Nat.le_trans; [|apply Nat.mul_le_mono_r; exact small82].
  change 60%nat with (ProofOfWorkBits (fp_Config (cd_FriParams cd82))).
  apply (C82_pow cd82 g62 h61 (vd81 [g0; root 3]) (P82 [g0; root 3]) gcoins81 coins81 wins82 2 3 cs62 [[g0; root 3]]).
  - split; [exact shape82_data|]. split; [reflexivity|]. split; [cbn; lia|]. split; [cbn; lia|]. repeat constructor.
  - split; [cbn; lia|]. intros [|j] Hj; [|cbn in Hj; lia]. cbn. lia.
  - reflexivity.
  - cbn. lia.
  - exact gcoins81_nodup.
  - exact coins81_nodup.
  - exact wins82_nodup.
  - exact wins82_won.
  - reflexivity.
  - reflexivity.
  - repeat constructor; cbn; lia.
  - reflexivity.
  - intros a b Ha. exfalso. exact (nothing_hashed82 a Ha).
  - exact unsat81.
Qed.
