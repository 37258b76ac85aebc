(** * FRI: shape checks, one query round, the whole proof (fri/fri.go, fri/fri_utils.go). *)
From Coq Require Import String.
From Coq Require Import ZArith NArith Lia List Bool Ring Field.
From Verif Require Import Zp GF Circuit Goldilocks GLProofs ExtProofs BN254 BN254Hash Types Challenger Fri Poly Roots FriMerkle FriEval FriQuery.
Import ListNotations.
Open Scope Z_scope.
Open Scope circ_scope.
Local Opaque PoseidonBN HashOrNoop.

Lemma subgroup_x_enforces n i : enforces (calculateSubgroupX (bits_of n i) n) (n <= TWO_ADICITY)%nat (rep (dom g7 n i)).
Proof.
  destruct (Nat.le_gt_cases n TWO_ADICITY) as [H|H].
  - eapply enforces_iff; [exact (subgroup_x_correct n i H)|]. tauto.
  - split; [lia|]. intros a' R. exfalso. unfold calculateSubgroupX in R. apply reach_bind in R. destruct R as (g & R & _).
    destruct (root_panics n H) as [m E]. rewrite E in R. exact R.
Qed.
Lemma rep_lt_64 (x : GF) : 0 <= rep x < 2 ^ Z.of_nat 64.
Proof. pose proof (rep_range x) as [H1 H2]. split; [exact H1|]. apply Z.lt_trans with p; [exact H2|reflexivity]. Qed.

Lemma query_round_correct params oracles bs alpha challenges initialCaps proof (x : GF) round :
  Forall canonQE (FinalPoly proof) -> canon_round round -> round_shape params oracles round -> oracles <> [] ->
  FriAlpha challenges = repK alpha -> FriBetas challenges = map repK (map injK (FriBetas challenges)) ->
  enforces (verifyQueryRound params (mkInstanceInfo oracles (map (fun b => mkBatchInfo (repK (fst (fst b))) (snd (fst b))) bs))
              challenges (map repK (map snd bs)) initialCaps proof (rep x) (LdeBits params) round)
    (query_ok params bs alpha (map injK (FriBetas challenges)) initialCaps proof x round) tt.
Proof.
  intros Hf [Hcl Hcs] (Hs1 & Hs2 & Hs3) Hor Ea Eb. unfold verifyQueryRound. rewrite Ea. fold (LdeBits params).
  set (n := LdeBits params) in *. set (h := CapHeight (fp_Config params)) in *.
  assert (Hne : InitialTreesProof round <> []).
  { intros E. rewrite E in Hs1. destruct oracles; [contradiction|discriminate Hs1]. }
  assert (Hsib : Forall (fun e => length (ep_Siblings e) + h = n)%nat (InitialTreesProof round)).
  { clear - Hs1 Hs2. revert Hs1 Hs2. generalize (InitialTreesProof round). intros l. revert oracles.
    induction l as [|e l IH]; intros [|o oracles] L F; try discriminate L; constructor.
    - inversion F as [|? ? H _]; subst. cbn [fst snd] in H. exact (proj2 H).
    - inversion F; subst. apply (IH oracles); auto. }
  assert (Hh : (h <= n)%nat).
  { destruct (InitialTreesProof round) as [|e l]; [contradiction|]. inversion Hsib; subst. lia. }
  set (i := rep x mod 2 ^ Z.of_nat n).
  assert (Hi : 0 <= i < 2 ^ Z.of_nat n) by (apply Z.mod_pos_bound, Z.pow_pos_nonneg; lia).
  eapply enforces_iff with (P := ((RateBits (fp_Config params) <= 15)%nat \/ (64 <= RateBits (fp_Config params))%nat) /\ (n <= 64)%nat /\
    (h = 4%nat /\ initial_ok i (i / 2 ^ Z.of_nat (n - h)) (InitialTreesProof round) initialCaps) /\ (n <= TWO_ADICITY)%nat /\
    combine_cond (InitialTreesProof round) (emb (dom g7 n i)) bs /\
    (Forall (fun a => a = 4%nat) (ReductionArityBits params) /\
     chain_ok (map injK (FinalPoly proof)) (i / 2 ^ Z.of_nat (n - h)) (Steps round) (map injK (FriBetas challenges)) (CommitPhaseMerkleCaps proof) g7 n i
    (combined (InitialTreesProof round) alpha (emb (dom g7 n i)) bs))).
  2:{ unfold query_ok. fold n h i. split.
      - intros (R & _ & (E4 & Hin) & Hn & Hcc & Har & Hch). rewrite E4 in *. split; [|tauto].
        destruct R as [R|R]; [exact R|]. exfalso. assert (RateBits (fp_Config params) <= n)%nat by (unfold n, LdeBits; lia).
        unfold TWO_ADICITY in Hn. lia.
      - intros (R & Hn & E4 & Har & Hin & Hcc & Hch). rewrite E4. split; [now left|]. split; [unfold TWO_ADICITY in Hn; lia|]. tauto. }
  eapply enforces_bind; [apply noncanonical_ok|]. intros _.
  eapply computes_enforces_bind; [eapply computes_reduce; [apply lz_rep|vm_compute; reflexivity]|].
  eapply computes_enforces_bind; [eapply enforces_iff; [apply enforces_to_binary|]; pose proof (rep_lt_64 x); tauto|].
  eapply enforces_bind; [eapply enforces_iff; [apply enforces_slice_to|now rewrite length_bits_of]|].
  intros Hn64. rewrite firstn_bits by exact Hn64. rewrite <- bits_of_mod. fold i.
  rewrite length_bits_of.
  eapply computes_enforces_bind; [apply computes_panic_if; apply Nat.ltb_ge; exact Hh|].
  eapply computes_enforces_bind; [apply computes_slice_from; rewrite length_bits_of; lia|].
  rewrite skipn_bits by lia. replace (n - (n - h))%nat with h by lia.
  set (cidx := i / 2 ^ Z.of_nat (n - h)).
  assert (Hci : h = 4%nat -> 0 <= cidx < 16).
  { intros E4. unfold cidx. rewrite E4 in *. split; [apply Z.div_pos; [lia|apply Z.pow_pos_nonneg; lia]|].
    apply Z.div_lt_upper_bound; [apply Z.pow_pos_nonneg; lia|]. change 16 with (2 ^ Z.of_nat 4). rewrite <- Z.pow_add_r by lia.
    replace (Z.of_nat (n - 4) + Z.of_nat 4) with (Z.of_nat n) by lia. lia. }
  eapply enforces_bind.
  { apply initial_correct; [exact Hci| |exact Hne]. eapply Forall_impl; [|exact Hsib]. cbn beta. intros; lia. }
  intros [E4 _]. specialize (Hci E4).
  eapply enforces_bind; [apply subgroup_x_enforces|]. intros Hn.
  rewrite <- repK_emb.
  eapply enforces_bind; [apply combine_correct; [exact Hcl|reflexivity]|]. intros _.
  rewrite E4 in *.
  apply (chain_correct challenges proof round cidx Hf Eb Hci (Steps round) (ReductionArityBits params) 0 g7 n i); auto.
  apply g7_nz.
Qed.

(** ** validateFriProofShape *)
Definition fri_shape (proof : FriProof) (oracles : list OracleInfo) (params : FriParams) : Prop :=
  Forall (fun cap : FriMerkleCap => Z.of_nat (length cap) = shl_int (Z.of_nat (CapHeight (fp_Config params)))) (CommitPhaseMerkleCaps proof) /\
  Forall (round_shape params oracles) (QueryRoundProofs proof) /\
  (TotalArities params <= fp_DegreeBits params)%nat /\
  Z.of_nat (length (FinalPoly proof)) = shl_int (Z.of_nat (fp_DegreeBits params - TotalArities params)).

Lemma validate_initial_correct params inst round :
  enforces (validateInitial params inst round)
    (length (InitialTreesProof round) = length (Oracles inst) /\
     Forall (fun eo : FriEvalProof * OracleInfo =>
       length (Elements (fst eo)) = (NumPolys (snd eo) + (if Blinding (snd eo) && Hiding params then 4 else 0))%nat /\
       (length (ep_Siblings (fst eo)) + CapHeight (fp_Config params) = LdeBits params)%nat)
       (combine (InitialTreesProof round) (Oracles inst))) tt.
Proof.
  unfold validateInitial. eapply enforces_bind; [eapply enforces_iff; [apply enforces_panic_if|now rewrite negb_false_iff, Nat.eqb_eq]|].
  intros _. apply enforces_iterM. intros [e o] _. cbn [fst snd].
  eapply enforces_bind; [eapply enforces_iff; [apply enforces_panic_if|now rewrite negb_false_iff, Nat.eqb_eq]|]. intros _.
  eapply enforces_iff; [apply enforces_panic_if|now rewrite negb_false_iff, Nat.eqb_eq].
Qed.
Lemma validate_steps_fold h steps : forall arities n, length steps = length arities ->
  exists m, enforces (foldM (fun codewordLenBits (sa : FriQueryStep * nat) =>
    let (step, arityBits) := sa in
    let codewordLenBits := codewordLenBits - Z.of_nat arityBits in
    panic_if (negb (Z.of_nat (length (Evals step)) =? shl_int (Z.of_nat arityBits))) "len evals doesn't match arity";;;
    panic_if (negb (Z.of_nat (length (st_Siblings step) + h) =? codewordLenBits))
      "len merkleProof doesn't match codewordLenBits";;;
    Ret codewordLenBits) n (combine steps arities)) (steps_shape h n steps arities) m.
Proof.
  induction steps as [|st steps IH]; intros [|a arities] n L; try discriminate L; cbn [combine foldM steps_shape].
  - exists n. eapply enforces_iff; [apply enforces_ret|tauto].
  - destruct (IH arities (n - Z.of_nat a)) as [m Hm]; [now injection L|]. exists m.
    eapply enforces_iff.
    + eapply enforces_bind.
      * eapply enforces_bind; [apply enforces_panic_if|]. intros _.
        eapply enforces_bind; [apply enforces_panic_if|]. intros _. apply enforces_ret.
      * intros _. exact Hm.
    + rewrite !negb_false_iff, !Z.eqb_eq. tauto.
Qed.
Lemma steps_shape_len h steps : forall arities n, steps_shape h n steps arities -> length steps = length arities.
Proof.
  induction steps as [|st steps IH]; intros [|a arities] n H; cbn [steps_shape] in H; try contradiction; [reflexivity|].
  cbn [length]. apply f_equal. eapply IH. apply H.
Qed.
Lemma validate_steps_correct params round :
  enforces (validateSteps params round)
    (steps_shape (CapHeight (fp_Config params)) (Z.of_nat (LdeBits params)) (Steps round) (ReductionArityBits params)) tt.
Proof.
  unfold validateSteps.
  eapply enforces_iff with (P := length (Steps round) = length (ReductionArityBits params) /\
    (steps_shape (CapHeight (fp_Config params)) (Z.of_nat (LdeBits params)) (Steps round) (ReductionArityBits params) /\ True)).
  - eapply enforces_bind; [eapply enforces_iff; [apply enforces_panic_if|now rewrite negb_false_iff, Nat.eqb_eq]|]. intros L.
    destruct (validate_steps_fold (CapHeight (fp_Config params)) (Steps round) (ReductionArityBits params) (Z.of_nat (LdeBits params)) L) as [m Hm].
    eapply enforces_bind; [exact Hm|]. intros _. apply enforces_ret.
  - split; [tauto|]. intros H. split; [eapply steps_shape_len; exact H|tauto].
Qed.
Lemma validate_shape_correct proof inst params :
  enforces (validateFriProofShape proof inst params) (fri_shape proof (Oracles inst) params) tt.
Proof.
  unfold validateFriProofShape.
  eapply enforces_iff.
  - eapply enforces_bind.
    { apply (enforces_iterM _ (fun cap : FriMerkleCap => Z.of_nat (length cap) = shl_int (Z.of_nat (CapHeight (fp_Config params))))).
      intros cap _. eapply enforces_iff; [apply enforces_panic_if|]. rewrite negb_false_iff, Z.eqb_eq. split; auto. }
    intros _. eapply enforces_bind.
    { apply (enforces_iterM _ (round_shape params (Oracles inst))). intros round _. eapply enforces_iff.
      - eapply enforces_bind; [apply validate_initial_correct|]. intros _. apply validate_steps_correct.
      - unfold round_shape. tauto. }
    intros _. instantiate (1 := (TotalArities params <= fp_DegreeBits params)%nat /\
      Z.of_nat (length (FinalPoly proof)) = shl_int (Z.of_nat (fp_DegreeBits params - TotalArities params))).
    unfold FinalPolyLen, FinalPolyBits. destruct (Z.ltb_spec (Z.of_nat (fp_DegreeBits params) - Z.of_nat (TotalArities params)) 0) as [H|H].
    + apply enforces_iff with (P := False); [|lia]. split; [tauto|]. intros a' R. destruct R.
    + eapply computes_enforces_bind; [apply computes_ret|]. eapply enforces_iff; [apply enforces_panic_if|].
      rewrite negb_false_iff, Z.eqb_eq. replace (Z.of_nat (fp_DegreeBits params) - Z.of_nat (TotalArities params)) with (Z.of_nat (fp_DegreeBits params - TotalArities params)) by lia.
      split; [intros E; split; [lia|exact E]|tauto].
  - unfold fri_shape. tauto.
Qed.

(** ** The whole proof *)
Definition canon_fri (proof : FriProof) : Prop := Forall canon_round (QueryRoundProofs proof) /\ Forall canonQE (FinalPoly proof).
(** the batches with their openings combined with powers of alpha *)
Definition fri_batches (alpha : K) (points : list (K * list (nat * nat))) (openings : list (list K)) : list (K * list (nat * nat) * K) :=
  combine points (map (fun l => powers_sum l alpha) openings).
Definition fri_ok (params : FriParams) (oracles : list OracleInfo) (points : list (K * list (nat * nat))) (openings : list (list K))
    (alpha : K) (betas : list K) (pow : GF) (indices : list GF) (initialCaps : list FriMerkleCap) (proof : FriProof) : Prop :=
  fri_shape proof oracles params /\
  (ProofOfWorkBits (fp_Config params) <= 64)%nat /\ rep pow < 2 ^ (64 - Z.of_nat (ProofOfWorkBits (fp_Config params))) /\
  length (QueryRoundProofs proof) = NumQueryRounds (fp_Config params) /\ length indices = NumQueryRounds (fp_Config params) /\
  Forall (fun xr : GF * FriQueryRound => query_ok params (fri_batches alpha points openings) alpha betas initialCaps proof (fst xr) (snd xr))
    (combine indices (QueryRoundProofs proof)).

Lemma leading_zeros_correct (x : GF) config :
  enforces (assertLeadingZeros (rep x) config)
    ((ProofOfWorkBits config <= 64)%nat /\ rep x < 2 ^ (64 - Z.of_nat (ProofOfWorkBits config))) tt.
Proof.
  unfold assertLeadingZeros, RangeCheckWithMaxBits. eapply enforces_iff; [apply enforces_range_|].
  pose proof (rep_range x) as R. split; [|lia].
  intros [H1 H2]. split; [|exact H2]. destruct (Nat.le_gt_cases (ProofOfWorkBits config) 64) as [L|L]; [exact L|].
  rewrite Z.pow_neg_r in H2 by lia. lia.
Qed.
Lemma fst_combine {A B} (l : list A) : forall l' : list B, length l = length l' -> map fst (combine l l') = l.
Proof. induction l as [|a l IH]; intros [|b l'] H; try discriminate H; [reflexivity|]. cbn [combine map fst]. rewrite IH; [reflexivity|now injection H]. Qed.
Lemma snd_combine {A B} (l : list A) : forall l' : list B, length l = length l' -> map snd (combine l l') = l'.
Proof. induction l as [|a l IH]; intros [|b l'] H; try discriminate H; [reflexivity|]. cbn [combine map snd]. rewrite IH; [reflexivity|now injection H]. Qed.

Theorem verify_fri_correct params oracles points openings alpha betas pow indices initialCaps proof :
  canon_fri proof -> oracles <> [] -> length points = length openings ->
  enforces (VerifyFriProof params
      (mkInstanceInfo oracles (map (fun b => mkBatchInfo (repK (fst b)) (snd b)) points)) (map (map repK) openings)
      (mkFriChallenges (repK alpha) (map repK betas) (rep pow) (map rep indices)) initialCaps proof)
    (fri_ok params oracles points openings alpha betas pow indices initialCaps proof) tt.
Proof.
  intros [Hc Hf] Hor Lp. unfold VerifyFriProof. cbn [FriAlpha FriBetas FriPowResponse FriQueryIndices].
  eapply enforces_iff.
  - eapply enforces_bind; [apply validate_shape_correct|]. intros (Hcaps & Hsh & _).
    eapply enforces_bind; [apply leading_zeros_correct|]. intros _.
    eapply enforces_bind; [apply enforces_panic_if|]. intros L1.
    eapply computes_enforces_bind.
    { unfold fromOpeningsAndAlpha. apply (computes_mapM2 _ (map repK) (fun l => repK (powers_sum l alpha))). intros l _. apply reduce_with_powers_correct. }
    eapply enforces_bind; [apply enforces_panic_if|]. intros L2.
    fold (LdeBits params). rewrite <- (map_id (QueryRoundProofs proof)). rewrite map_combine.
    apply (enforces_iterM2 _ (fun ab : GF * FriQueryRound => (rep (fst ab), snd ab))
      (fun xr => query_ok params (fri_batches alpha points openings) alpha betas initialCaps proof (fst xr) (snd xr))).
    intros [x round] Hin. cbn [fst snd]. apply in_combine_r in Hin. rewrite Forall_forall in Hsh, Hc. cbn [Oracles] in Hsh.
    pose proof (query_round_correct params oracles (fri_batches alpha points openings) alpha
      (mkFriChallenges (repK alpha) (map repK betas) (rep pow) (map rep indices)) initialCaps proof x round Hf (Hc _ Hin) (Hsh _ Hin) Hor eq_refl) as Q.
    cbn [FriBetas] in Q.
    assert (EB : map injK (map repK betas) = betas) by (rewrite map_map; etransitivity; [apply map_ext; apply injK_repK|apply map_id]).
    rewrite EB in Q. specialize (Q eq_refl).
    assert (E1 : map (fun b : K * list (nat * nat) * K => mkBatchInfo (repK (fst (fst b))) (snd (fst b))) (fri_batches alpha points openings)
                 = map (fun b => mkBatchInfo (repK (fst b)) (snd b)) points).
    { unfold fri_batches. rewrite <- (fst_combine points (map (fun l => powers_sum l alpha) openings)) at 2 by now rewrite map_length.
      rewrite map_map. reflexivity. }
    assert (E2 : map repK (map snd (fri_batches alpha points openings)) = map (fun l => repK (powers_sum l alpha)) openings).
    { unfold fri_batches. rewrite snd_combine by now rewrite map_length. now rewrite map_map. }
    rewrite E1, E2 in Q. exact Q.
  - unfold fri_ok. cbn [Oracles]. rewrite !negb_false_iff, !Nat.eqb_eq, map_length. intuition congruence.
Qed.
