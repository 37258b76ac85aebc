(** * Property C85: the verifier of the code is the verifier of C84, with the sponge as the oracle. *)
From Coq Require Import String.
From Coq Require Import ZArith NArith Arith Lia List Bool Permutation.
From Verif Require Import Zp GF Circuit Goldilocks GLProofs ExtProofs PoseidonSpec PoseidonGL PoseidonGLProofs Sponge DenP BN254 BN254Hash Types Challenger ChallengerProofs ChallengerPhases Transcript ChallengerTop Prop_Challenger
  Fri Poly Roots FriMerkle FriEval FriQuery FriTop FriFacts Honest FriSound FriRewind FriExtract Prop_Fri Prop_FriSound
  Gates GateProofs GateFilter GateAll GateDegree Prop_Gates Plonk PlonkProofs Prop_Plonk PlonkSound PlonkRows PlonkCopy Prop_PlonkSound GateIds GateIdProofs GateIdText Verifier VerifierProofs Prop_Poseidon Prop_Verifier VerifierSound Prop_VerifierSound PlonkProver Complete Prop_Complete
  FriError Game VerifierError Prop_VerifierError RandomOracle FiatShamir Prop_FiatShamir SpongeOracle.
Import ListNotations.
Open Scope Z_scope.
Local Opaque PoseidonBN HashOrNoop TwoToOne poseidon.

(** ** C85
    [sponge_oracle cd vd tau m] (SpongeOracle.v): the challenge that the duplex sponge over the
    Goldilocks Poseidon permutation gives after the messages of [tau] and the message [m].
    A transcript is answered by it if each of its challenges is the answer to what comes before.
    The circuit accepts a proof exactly if the transcript with the messages of the proof that is
    answered by the sponge convinces the verifier of C84.
    For the honest solver, with the S-box width 192 of the code: *)
Section C85.
  Context (orders : nat -> list handler) (cd : CommonCircuitData) (gates : list Gate) (pr : Proof_) (pis : list Z) (vd : VerifierOnlyCircuitData).
  Context (HO : forall i, Permutation (orders i) gateRegexHandlers) (HG : Forall2 gate_text gates (map str (GateIds cd))).
  Context (HC : circuit_shape cd gates) (HS : proof_shape cd gates pr) (HN : native pr pis vd).
  Context (HP : openings_shape cd (Openings pr)) (HB : Forall siblings_ok (QueryRoundProofs (OpeningProof pr)))
    (Lk : length (CommitPhaseMerkleCaps (OpeningProof pr)) = length (ReductionArityBits (cd_FriParams cd))).
  Notation h := (sponge g0 poseidon (map inj pis) 4).
  Definition convinced : Prop := Forall reducible pis /\ exists tau, map fst tau = messages h pr /\
    answered_by (sponge_oracle cd vd) tau /\ convinces cd gates h vd (fun _ => True) tau (QueryRoundProofs (OpeningProof pr)).
  Theorem C85_honest : run (Define orders 192 cd pr pis vd) = Done tt <-> convinced.
  Proof. rewrite (C52_honest orders cd gates pr pis vd HO HG HC HS HN). apply accepts_convinces; auto. Qed.
  (** for an arbitrary prover, with the widths for which the permutation circuit is sound *)
  Theorem C85_transcript w : 128 <= w <= 189 -> (sat (Define orders w cd pr pis vd) <-> convinced).
  Proof. intros Hw. rewrite (C52_verify_partial orders cd gates pr pis vd HO HG HC HS HN w Hw). apply accepts_convinces; auto. Qed.

  (** An adversary of the game of C84 that is given the answers of the sponge ([with_oracle]; the
      outcome of the game is then [new_answers]), and returns the messages and the rounds of the
      proof, wins exactly if the circuit accepts the proof and the statement is false.  [S]
      contains what the Merkle proofs may hash; the challenges are drawn from the whole field. *)
  Theorem C85_game : forall w (S : list Z -> Prop) gcoins E e b cs sigmas (G : adversary), 128 <= w <= 189 -> Forall reducible pis ->
    let levels := fs_levels cd gcoins E e b in let xs := new_answers message_dec chal_dec (sponge_oracle cd vd) (verified levels G) [] in
    (forall x, In x gcoins) -> NumQueryRounds (cc_FriConfig (cd_Config cd)) = NumQueryRounds (fp_Config (cd_FriParams cd)) ->
    (forall i round a, In round (QueryRoundProofs (OpeningProof pr)) -> In a (round_inputs round i) -> S a) ->
    proper levels G -> with_oracle (sponge_oracle cd vd) G = (messages h pr, QueryRoundProofs (OpeningProof pr)) ->
    play message_dec chal_dec levels (verified levels G) [] xs <> None /\
    (fs_wins cd gates vd cs sigmas S gcoins E e b G xs <-> sat (Define orders w cd pr pis vd) /\ forall ws, ~ rows_satisfy cd gates h cs sigmas ws).
  Proof.
    intros w S gcoins E e b cs sigmas G Hw RP levels xs HGC EQ HSS PR HW.
    destruct (play_with message_dec chal_dec levels (sponge_oracle cd vd) (verified levels G)) with (mem := @nil ((list (message * chal) * message) * chal)) as (mem & PL).
    { intros tau m L. now apply sponge_coins. }
    { now apply verified_proper. }
    { intros q x []. }
    fold xs in PL. split; [rewrite PL; discriminate|].
    assert (LM : length (messages h pr) = length levels).
    { unfold levels. rewrite fs_levels_length. unfold messages. cbn [length]. rewrite app_length, map_length, Lk. cbn [length]. lia. }
    rewrite with_verified, HW, LM, Nat.eqb_refl in PL. set (tau := extend (sponge_oracle cd vd) [] (messages h pr)) in *.
    assert (TF : map fst tau = messages h pr) by (unfold tau; rewrite extend_fst; reflexivity).
    assert (TA : answered_by (sponge_oracle cd vd) tau) by (apply extend_answered; intros [|? ?] m x tau2 X; discriminate X).
    rewrite (C52_verify_partial orders cd gates pr pis vd HO HG HC HS HN w Hw).
    rewrite (accepts_convinces cd gates pr pis vd S HC HS HP HB Lk HSS). unfold fs_wins, wins_with. fold levels. split.
    - intros (mem' & tau' & a & PL' & _ & h' & Lh' & NF & CV). rewrite PL in PL'. injection PL' as _ <- <-.
      assert (h' = h) as ->.
      { destruct CV as (wires & l & zs & alphas & quotients & zeta & opens & alpha & folds & f & wit & v & ys & Et & _). rewrite Et in TF. cbn [map fst] in TF. unfold messages in TF. now injection TF. }
      split; [|exact NF]. split; [exact RP|]. exists tau. now split.
    - intros ((_ & tau' & TF' & TA' & CV) & NF). exists mem, tau, (QueryRoundProofs (OpeningProof pr)). split; [exact PL|].
      split; [rewrite <- (map_length fst), TF; exact LM|]. exists h. split; [apply C20_output_count; lia|]. split; [exact NF|].
      replace tau with tau'; [exact CV|]. apply (answered_same (sponge_oracle cd vd) tau' [] tau); [now rewrite TF', TF|exact TA'|exact TA].
  Qed.
End C85.
Print Assumptions C85_honest.
Print Assumptions C85_transcript.
Print Assumptions C85_game.

(** the whole field *)
Lemma whole_field : exists gcoins : list GF, NoDup gcoins /\ forall x, In x gcoins.
Proof.
  destruct (Z_of_nat_complete p) as [n Hn]; [unfold p; lia|]. exists (map (fun j => inj (Z.of_nat j)) (seq 0 n)). split.
  - apply NoDup_map_in; [|apply seq_NoDup]. intros x y Hx Hy Exy. apply in_seq in Hx, Hy. apply (f_equal rep) in Exy.
    rewrite !rep_inj_small in Exy by lia. lia.
  - intros x. pose proof (rep_range x) as R. apply in_map_iff. exists (Z.to_nat (rep x)). split; [rewrite Z2Nat.id by lia; apply GF_eq; apply rep_inj_small; exact R|].
    apply in_seq. split; [lia|]. cbn [Nat.add]. apply Nat2Z.inj_lt. rewrite Z2Nat.id; lia.
Qed.
(** ** Example: the proof of C64_ex; an adversary that asks one question of its own *)
Notation h85 := (sponge g0 poseidon (map inj []) 4).
Notation session85 := (fiat_shamir cd62 g62 h85 cs62 sigmas62 ws62 (fun _ _ => []) 5 0).
Notation pr85 := (session_proof cd62 g62 h85 cs62 sigmas62 ws62 (fun _ _ => []) 0 session85).
Notation vd85 := (mkVerifierOnlyCircuitData (constants_cap cd62 cs62 sigmas62 (fun _ _ => [])) 5).
Lemma hyps85 (S := session85) (pr := pr85) : circuit_shape cd62 g62 /\ proof_shape cd62 g62 pr /\ native pr [] vd85 /\ openings_shape cd62 (Openings pr) /\
  Forall siblings_ok (QueryRoundProofs (OpeningProof pr)) /\ length (CommitPhaseMerkleCaps (OpeningProof pr)) = length (ReductionArityBits (cd_FriParams cd62)).
Proof.
  assert (Lh : length h85 = 4%nat) by (apply C20_output_count; lia). pose proof (satisfying62 h85 Lh) as ST. pose proof ST as ((L1 & L2 & L3) & _).
  pose proof (sent_proof_shape cd62 g62 h85 cs62 sigmas62 ws62 (fun _ _ => []) provable62 ST Lh (v_chal S) (v_alpha S) (v_fri_betas S) (v_indices S) 0 : proof_shape cd62 g62 pr) as SH.
  split; [exact shape62_data|]. split; [exact SH|]. split; [|split; [|split]].
  - apply (sent_native cd62 g62 h85 cs62 sigmas62 ws62 (fun _ _ => []) (v_chal S) (v_alpha S) (v_fri_betas S) (v_indices S) 0 [] 5); [constructor|split; [lia|reflexivity]].
  - unfold pr, session_proof, sent_proof. cbn [Openings]. unfold openings_shape, sent_opens, opened, repO. cbn [o_cs o_sigmas o_ws o_zs o_zsn o_pps o_qs Constants PlonkSigmas Wires PlonkZs PlonkZsNext PartialProducts QuotientPolys].
    unfold cols. rewrite !map_length, hz_length, hp_length, hq_length, L1, L2, L3. repeat split; reflexivity.
  - unfold pr, session_proof, sent_proof, sent_fri, honest_fri. cbn [OpeningProof QueryRoundProofs]. apply Forall_map, Forall_forall. intros x _. apply honest_siblings.
  - pose proof (fiat_shamir_ok cd62 g62 h85 cs62 sigmas62 ws62 (fun _ _ => []) 5 0 vd85 eq_refl (shape_transcript cd62 g62 pr shape62_data SH)) as (_ & _ & _ & _ & L4 & _). fold S in L4.
    unfold pr, session_proof, sent_proof, sent_fri, honest_fri. cbn [OpeningProof CommitPhaseMerkleCaps]. fold S. rewrite <- L4.
    generalize (honest_codeword (sent_tables cd62 g62 h85 cs62 sigmas62 ws62 (v_chal S)) (cd_FriParams cd62) (v_alpha S) (fri_points cd62 (c_zeta (v_chal S)))), (LdeBits (cd_FriParams cd62)), g7.
    induction (v_fri_betas S) as [|b bs IH]; intros c n s; [reflexivity|]. cbn [commit_caps length]. now rewrite IH.
Qed.
Example C85_ex :
  (lucky cd62 sigmas62 ws62 (v_chal session85) (v_fri_betas session85) (v_pow session85) (v_indices session85) -> convinced cd62 g62 pr85 [] vd85) /\
  (forall gcoins cs sigmas, (forall x, In x gcoins) ->
   let O := sponge_oracle cd62 vd85 in let levels := fs_levels cd62 gcoins 2 3 500 in
   let G := Ask _ [] (MStart h85 (WiresCap pr85)) (fun x => Return _ (messages h85 pr85, QueryRoundProofs (OpeningProof pr85))) in
   fs_wins cd62 g62 vd85 cs sigmas (fun _ => True) gcoins 2 3 500 G (new_answers message_dec chal_dec O (verified levels G) []) <->
   sat (Define (fun _ => gateRegexHandlers) 189 cd62 pr85 [] vd85) /\ forall ws, ~ rows_satisfy cd62 g62 h85 cs sigmas ws).
Proof.
  destruct hyps85 as (H1 & H2 & H3 & H4 & H5 & H6). split.
  - intros LK. apply (C85_honest (fun _ => gateRegexHandlers) cd62 g62 pr85 [] vd85); try assumption; [intros _; apply Permutation_refl|exact text62|]. now apply C64_ex.
  - intros gcoins cs sigmas HG O levels G.
    refine (proj2 (C85_game (fun _ => gateRegexHandlers) cd62 g62 pr85 [] vd85 _ text62 H1 H2 H3 H4 H5 H6 189 (fun _ => True) gcoins 2 3 500 cs sigmas G _ _ HG _ _ _ _)).
    + intros _. apply Permutation_refl.
    + lia.
    + constructor.
    + reflexivity.
    + intros i round a _ _. exact I.
    + split; [|intros x; exact I]. rewrite fs_levels_length. cbn. lia.
    + reflexivity.
Qed.
