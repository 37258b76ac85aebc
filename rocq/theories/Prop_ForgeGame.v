(** * C83, the interactive protocol: the false statement is accepted in at most one run in 2^39. *)
From Coq Require Import String.
From Coq Require Import ZArith NArith Arith Lia List Bool Ring Permutation.
From Verif Require Import Zp GF Circuit Goldilocks GLProofs ExtProofs BN254 BN254Hash Types Challenger Fri Poly Roots FriMerkle FriEval FriQuery FriTop FriFacts Honest FriForge FriSound FriRewind FriExtract Prop_FriSound Prop_Fri
  Gates GateProofs GateCoset GateFilter GateAll GateDegree Prop_Gates GateIdText Plonk PlonkProofs Prop_Plonk PlonkSound PlonkRows PlonkCopy Prop_PlonkSound Verifier VerifierProofs VerifierSound Prop_VerifierSound Prop_FriQuery FriCurve FriProx FriError Game Prop_FriError VerifierError Prop_VerifierError Prop_VerifierPow
  ProverPoly PlonkProver Complete Prop_Complete ForgeAll Prop_ForgeAll PoseidonFast ForgeSbox ForgeFast Prop_ForgeSbox.
Import ListNotations.
Open Scope Z_scope.
Local Opaque PoseidonBN HashOrNoop TwoToOne.

Lemma sound_data83 : sound_data cd83 g83.
Proof. split; [exact shape83|]. split; [reflexivity|]. split; [cbn; lia|]. split; [cbn; lia|]. repeat constructor. Qed.
Lemma degree83 : degree_bound cd83 g83 2.
Proof. split; [cbn; lia|]. intros [|j] Hj; [|cbn in Hj; lia]. cbn. lia. Qed.
Lemma unsat83 h w : length h = 4%nat -> ~ rows_satisfy cd83 g83 h cs83 sigmas83 w.
Proof.
  intros Lh (LW & GA & CO).
  assert (W : forall k, (k < 2)%nat -> nth 0 (w k) g0 = (root 1 ^ N.of_nat k)%GF).
  { intros k Hk. pose proof (GA k 0%nat Hk) as G. unfold grow in G. change (cd_DegreeBits cd83) with 1%nat in G. revert G. generalize (root 1 ^ N.of_nat k)%GF. intros x G. cbn [map cs83] in G.
    specialize (LW k). change (NumWires (cd_Config cd83)) with 1%nat in LW. destruct (w k) as [|w0 [|? ?]]; try discriminate LW. cbn [nth map] in *.
    match type of G with _ -> computes (EvalUnfiltered ?g (mkvars ?cs ?ws ?hh)) ?r => assert (C := gate_computes g cs ws hh) end.
    assert (S : selects (cd_SelectorsInfo cd83) (length g83) [emb (gpeval [] x); emb (gpeval [g0; g1] x)] 0%nat).
    { split; [cbn; lia|]. split; [cbn; lia|]. split; [cbn; lia|]. intros i Hi. destruct i as [|i]; [|cbn in Hi; lia]. unfold gpeval. cbn [peval]. cbn. unfold kz. now rewrite <- g0_inj. }
    specialize (G S). match type of C with ?A -> ?B -> _ => assert (A1 : A) by (split; cbn; lia); specialize (C A1 Lh) end.
    pose proof (computes_functional _ _ _ G C) as Q. cbn [nth g83 gate_k num_constraints repeat seq map skipn length groups cd_SelectorsInfo cd83] in Q. unfold wire in Q. cbn [nth Nat.add Nat.mul] in Q.
    apply (f_equal (hd (0, 0))) in Q. cbn [hd] in Q. change (0, 0) with (repK k0) in Q. apply repK_inj in Q. unfold gpeval in Q. cbn [peval] in Q. rewrite <- ?emb_sub in Q. change k0 with (emb g0) in Q. apply emb_inj in Q.
    match type of Q with ?a = ?b => assert (T : (x = w0 + (b - a))%GF) by ring end. rewrite T, <- Q. ring. }
  specialize (CO ltac:(apply C61_labels; [cbn; lia|]; intros j j' Hj Hj'; cbn in Hj, Hj'; split; [destruct j; [|lia]; intros X'; apply (f_equal rep) in X'; vm_compute in X'; discriminate X'|lia])).
  specialize (CO (1, 0)%nat (0, 0)%nat ltac:(vm_compute; tauto) ltac:(vm_compute; tauto)).
  cbn [fst snd] in CO. rewrite !W in CO by lia.
  assert (Y : (root 1 ^ N.of_nat 0)%GF = (root 1 ^ N.of_nat 1)%GF) by (apply CO; apply GF_eq; vm_compute; reflexivity).
  apply (f_equal rep) in Y. vm_compute in Y. discriminate Y.
Qed.
Definition vd83 (digest : Z) : VerifierOnlyCircuitData := mkVerifierOnlyCircuitData (constants_cap cd83 cs83 sigmas83 (fun _ _ => [])) digest.
Lemma key83_cap digest : ConstantSigmasCap (vd83 digest) = key_cap (LdeBits (cd_FriParams cd83)) (cs83 ++ sigmas83).
Proof. reflexivity. Qed.

(** the leaves have at most three elements and the paths are empty: nothing is hashed, so no
    hypothesis on the hash function is needed *)
Lemma nothing_hashed83 h digest P r a : beats cd83 g83 h (vd83 digest) P r -> ~ hashed_in P [r] a.
Proof.
  intros B (r' & i & round & [<-|[]] & Ho & Ha). destruct r as [c [[alpha betas] is]].
  pose proof (beats_won cd83 g83 h (vd83 digest) P sound_data83 c alpha betas is B) as (_ & _ & _ & C2 & _ & W).
  apply (enforces_sat _ _ _ (verify_fri_correct _ _ _ _ _ _ _ _ _ _ C2 (oracles_nil cd83) (two_batches cd83 (strat P) c))) in W. destruct W as ((_ & SH & _) & _).
  cbn [answers] in Ho. apply in_combine_r in Ho. rewrite Forall_forall in SH. specialize (SH round Ho). clear - SH Ha.
  destruct SH as (S1 & S2 & S3). unfold round_inputs in Ha. destruct round as [trees steps]. cbn [InitialTreesProof Steps] in *.
  apply in_app_or in Ha. destruct Ha as [Ha|Ha].
  - destruct trees as [|e0 [|e1 [|e2 [|e3 [|? ?]]]]]; try discriminate S1. apply in_flat_map in Ha. destruct Ha as (e & He & Ha).
    assert (X : (length (Elements e) <= 3)%nat /\ ep_Siblings e = []).
    { rewrite Forall_forall in S2. destruct (In_nth _ _ e0 He) as (j & Hj & Ej).
      specialize (S2 (e, nth j (friOracles cd83) (mkOracleInfo 0 false))).
      assert (I : In (e, nth j (friOracles cd83) (mkOracleInfo 0 false)) (combine [e0; e1; e2; e3] (friOracles cd83))).
      { rewrite <- Ej, <- combine_nth by reflexivity. apply nth_In. rewrite combine_length. cbn in *. lia. }
      destruct (S2 I) as [A B]. cbn [fst snd] in A, B. split.
      - rewrite A. destruct j as [|[|[|[|j]]]]; [| | | |cbn in Hj; lia]; cbn; lia.
      - destruct (ep_Siblings e); [reflexivity|]. exfalso. cbn in B. lia. }
    destruct X as [X1 X2]. unfold opening_inputs, leaf_inputs in Ha. rewrite X2 in Ha. apply Nat.leb_le in X1. rewrite X1 in Ha. exact Ha.
  - destruct steps as [|st steps]; [exact Ha|exact S3].
Qed.
Lemma nothing_hashed83_key a : ~ key_hashed (LdeBits (cd_FriParams cd83)) (cs83 ++ sigmas83) a.
Proof. intros (i & _ & H). exact H. Qed.

(** ** C83_interactive
    The circuit, the key and the security parameters of C83_sound_refuted.  Let the challenges,
    the response to the proof of work and the query positions be drawn at random, uniformly from
    the two fields and the 16 positions, each after the messages that it follows.  Whatever the prover
    does, VerifyWith accepts in at most one run in 2^39: what fails in C83_sound_refuted
    is the derivation of the challenges.  [wins]: runs that the prover wins, with the response. *)
Theorem C83_interactive : forall h digest (P : GF -> player) gcoins coins (wins : list (GF * run_)),
  length h = 4%nat -> NoDup gcoins -> NoDup coins -> NoDup wins -> Z.of_nat (length gcoins) = p -> Z.of_nat (length coins) = p * p ->
  (forall w r, In (w, r) wins -> In w gcoins /\ response (P w) r = w /\
     drawn_from cd83 gcoins coins r /\ openings_shape cd83 (p_opens (P w) (fst r)) /\ beats cd83 g83 h (vd83 digest) (P w) r) ->
  Z.of_nat (length wins) * 2 ^ 39 <= Z.of_nat (length gcoins * all_runs cd83 (length gcoins) (length coins)).
Proof.
  intros h digest P gcoins coins wins Lh NDg NDc NDw Hg Hc HW.
  assert (B : (length wins <= length (small_responses 16 gcoins) * error_bound cd83 2 6 (length gcoins) (length coins))%nat).
  { change 16%nat with (ProofOfWorkBits (fp_Config (cd_FriParams cd83))) at 1.
    apply (C82_pow cd83 g83 h (vd83 digest) P gcoins coins wins 2 6 cs83 sigmas83); try assumption.
    - exact sound_data83.
    - exact degree83.
    - cbn. lia.
    - reflexivity.
    - reflexivity.
    - repeat constructor; cbn; lia.
    - exact (key83_cap digest).
    - intros a b [(w & r & H & Ha)|Ha]; exfalso; [|now apply nothing_hashed83_key in Ha].
      destruct (HW w r H) as (_ & _ & _ & _ & HB). exact (nothing_hashed83 h digest (P w) r a HB Ha).
    - intros w. now apply unsat83. }
  assert (X : Z.of_nat (error_bound cd83 2 6 (length gcoins) (length coins)) * (16 ^ 28 * 2 ^ 86) <= Z.of_nat (all_runs cd83 (length gcoins) (length coins)) * (9 ^ 28 * 2 ^ 86 + 16 ^ 28)).
  { revert Hg Hc. generalize (length gcoins) (length coins). clear. intros Qg Q HQg HQ.
    destruct (Z_of_nat_complete (16 ^ 28 * 2 ^ 86) ltac:(now vm_compute)) as [m T1]. destruct (Z_of_nat_complete (9 ^ 28 * 2 ^ 86 + 16 ^ 28) ltac:(now vm_compute)) as [a T2].
    rewrite T1, T2, <- !Nat2Z.inj_mul, (Nat.mul_comm _ m), (Nat.mul_comm _ a). apply inj_le. apply C81_fraction.
    apply Nat2Z.inj_le. change (2 ^ LdeBits (cd_FriParams cd83))%nat with 16%nat. change (NumQueryRounds (fp_Config (cd_FriParams cd83))) with 28%nat. change (NumChallenges (cd_Config cd83)) with 2%nat.
    change (length (fst (Prop_Fri.layout cd83) ++ snd (Prop_Fri.layout cd83))) with 10%nat. change (length (cells cd83)) with 2%nat. change (NumPartialProducts cd83) with 0%nat. change (NumGateConstraints cd83) with 1%nat.
    change (cd_DegreeBits cd83) with 1%nat. change (16 - 6 - 1)%nat with 9%nat. change (2 + 2 * (0 + 1) + 1)%nat with 5%nat. change (2 * 2 ^ 1)%nat with 4%nat. change (2 * 2)%nat with 4%nat.
    repeat first [rewrite Nat2Z.inj_mul | rewrite Nat2Z.inj_add | rewrite Nat2Z.inj_pow]. rewrite HQg, HQ, <- T1, <- T2. clear. apply Z.leb_le. vm_compute. reflexivity. }
  pose proof (C82_count 16 gcoins ltac:(lia) NDg) as C. change (2 ^ (64 - Z.of_nat 16)) with (2 ^ 48) in C. apply inj_le in B. rewrite Nat2Z.inj_mul in B. rewrite Nat2Z.inj_mul, Hg.
  assert (A : 0 <= Z.of_nat (all_runs cd83 (length gcoins) (length coins))) by apply Nat2Z.is_nonneg. assert (B0 : 0 <= Z.of_nat (error_bound cd83 2 6 (length gcoins) (length coins))) by apply Nat2Z.is_nonneg.
  revert B X C A B0. generalize (Z.of_nat (error_bound cd83 2 6 (length gcoins) (length coins))) (Z.of_nat (all_runs cd83 (length gcoins) (length coins))) (Z.of_nat (length (small_responses 16 gcoins))) (Z.of_nat (length wins)). clear. intros x y m v B X C A B0.
  apply (Z.mul_le_mono_pos_r _ _ (16 ^ 28 * 2 ^ 86)); [now vm_compute|].
  apply Z.le_trans with (2 ^ 48 * x * 2 ^ 39 * (16 ^ 28 * 2 ^ 86)).
  { apply Z.mul_le_mono_nonneg_r; [now vm_compute|]. apply Z.mul_le_mono_nonneg_r; [now vm_compute|]. eapply Z.le_trans; [exact B|]. now apply Z.mul_le_mono_nonneg_r. }
  replace (2 ^ 48 * x * 2 ^ 39 * (16 ^ 28 * 2 ^ 86)) with (x * (16 ^ 28 * 2 ^ 86) * (2 ^ 48 * 2 ^ 39)) by ring.
  eapply Z.le_trans; [apply Z.mul_le_mono_nonneg_r; [now vm_compute|exact X]|]. rewrite (Z.mul_comm p y), <- !Z.mul_assoc. apply Z.mul_le_mono_nonneg_l; [exact A|]. apply Z.leb_le. vm_compute. reflexivity.
Qed.
Print Assumptions C83_interactive.

(** The prover of C83_sound_refuted wins the runs whose queries fall into [0; 1]; here the run with
    the challenges of C83_sound_refuted and 28 queries at the position 1. *)
Definition P83 (h : list GF) (w : GF) : player :=
  let caps := forged_caps leaves83 4 4 in
  mkPlayer (nth 1 caps []) (fun _ _ => nth 2 caps []) (fun _ _ _ => nth 3 caps [])
    (fun c => repO (forged_opens cd83 g83 h o83 c)) (fun _ _ _ => []) (fun c alpha betas => map repK (commit_final (forged_word cd83 g83 h leaves83 o83 S83 c alpha) betas))
    (fun c alpha betas is => mkTranscript (forged_fri leaves83 4 (cd_FriParams cd83) (forged_word cd83 g83 h leaves83 o83 S83 c alpha) betas (map inj is) witness83) w (map inj is)).
Definition r83 : run_ := (c83, (qeK (injs y83_4), [], repeat 1 28)).
Lemma siblings83 h w : Forall siblings_ok (QueryRoundProofs (t_proof (p_answer (P83 h w) c83 (qeK (injs y83_4)) [] (repeat 1 28)))).
Proof.
  cbn [P83 p_answer t_proof forged_fri QueryRoundProofs]. apply Forall_forall. intros round Hr. apply in_map_iff in Hr. destruct Hr as (x & <- & _).
  split; [|constructor]. cbn. repeat constructor.
Qed.
Lemma beats83 h digest w : length h = 4%nat -> rep w < 2 ^ 48 -> beats cd83 g83 h (vd83 digest) (P83 h w) r83.
Proof.
  intros Lh Hw. unfold r83, beats. split; [reflexivity|]. split; [reflexivity|]. split; [vm_compute; reflexivity|]. split; [apply siblings83|].
  exists tt. apply run_reach.
  pose proof (C76_forge cd83 g83 h leaves83 o83 S83 digest c83 (qeK (injs y83_4)) [] w (map inj (repeat 1 28)) witness83 forgeable83 leaves_ok83) as F.
  apply F.
  - intros c. repeat split.
  - split; [repeat constructor; cbn; intuition congruence|]. split; [repeat constructor; vm_compute; intuition congruence|cbn; lia].
  - exact Lh.
  - repeat split.
  - pose proof hit83 as (Z1 & _ & _ & Z2 & _). split; [exact Z1|]. split; [exact Logic.I|]. split; [exact Hw|]. split; [exact Z2|].
    apply Forall_forall. intros x Hx. apply in_map_iff in Hx. destruct Hx as (z & <- & Hz). apply repeat_spec in Hz. subst z. vm_compute. tauto.
  - split; vm_compute; congruence.
Qed.
Example C83_interactive_ex : forall h digest, length h = 4%nat ->
  exists gcoins coins, NoDup gcoins /\ NoDup coins /\ Z.of_nat (length gcoins) = p /\ Z.of_nat (length coins) = p * p /\
    forall w r, In (w, r) [(g0, r83); (g1, r83)] -> In w gcoins /\ response (P83 h w) r = w /\
      drawn_from cd83 gcoins coins r /\ openings_shape cd83 (p_opens (P83 h w) (fst r)) /\ beats cd83 g83 h (vd83 digest) (P83 h w) r.
Proof.
  intros h digest Lh. destruct (Z_of_nat_complete p ltac:(now vm_compute)) as [m Hm].
  set (gcoins := map (fun i => inj (Z.of_nat i)) (seq 0 m)).
  assert (ALL : forall x, In x gcoins).
  { intros x. apply in_map_iff. exists (Z.to_nat (rep x)). pose proof (rep_range x) as R. split; [rewrite Z2Nat.id by apply R; apply inj_rep|]. apply in_seq. split; [apply Nat.le_0_l|]. apply Nat2Z.inj_lt. rewrite Z2Nat.id by apply R. rewrite Nat2Z.inj_add, <- Hm. apply R. }
  assert (ND : NoDup gcoins).
  { apply NoDup_map_in; [|apply seq_NoDup]. intros i j Hi Hj E. apply in_seq in Hi, Hj. apply (f_equal rep) in E. rewrite !rep_inj_small in E; [now apply Nat2Z.inj| |]; rewrite Hm; lia. }
  exists gcoins, (list_prod gcoins gcoins). split; [exact ND|]. split; [now apply prod_nodup|].
  assert (L : Z.of_nat (length gcoins) = p) by (unfold gcoins; now rewrite map_length, seq_length).
  split; [exact L|]. split; [etransitivity; [apply f_equal; apply prod_length|]; now rewrite Nat2Z.inj_mul, L|].
  assert (IK : forall k : K, In k (list_prod gcoins gcoins)) by (intros [a b]; apply in_prod; apply ALL).
  intros w r Hr. assert (H : r = r83 /\ rep w < 2 ^ 48) by (destruct Hr as [E|[E|[]]]; injection E as <- <-; (split; [reflexivity|vm_compute; reflexivity])).
  destruct H as [-> Hw]. split; [apply ALL|]. split; [reflexivity|]. split; [|split; [repeat split|now apply beats83]].
  unfold drawn_from, r83. repeat split; try apply IK; try (apply Forall_forall; intros; apply ALL). constructor.
Qed.
