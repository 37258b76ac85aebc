(** * 64-bit configuration arithmetic against the natural numbers of the other files. *)
From Coq Require Import String.
From Coq Require Import ZArith NArith Lia List Bool.
From Verif Require Import Zp Circuit Goldilocks PoseidonGL Types Challenger Fri Gates Plonk GateIds Verifier Wires WiresProofs FriQuery FriTop Prop_Config Config64.
Import ListNotations.
Open Scope Z_scope.
Open Scope circ_scope.

Lemma i64_small x : - 2 ^ 63 <= x < 2 ^ 63 -> i64 x = x.
Proof. intros H. unfold i64. rewrite Z.mod_small by lia. lia. Qed.
Lemma i64_range x : - 2 ^ 63 <= i64 x < 2 ^ 63.
Proof. unfold i64. pose proof (Z.mod_pos_bound (x + 2 ^ 63) (2 ^ 64) ltac:(lia)). lia. Qed.
Lemma i64_u64 x : i64 (u64 x) = i64 x.
Proof. unfold i64, u64. now rewrite Zplus_mod_idemp_l. Qed.

Ltac rp H := apply reach_panic_if in H.

(** ** What a result of the 64-bit code implies *)
Section Reach.
  Context (M : Z) (HM : 2 ^ 32 <= M <= 2 ^ 60).
  Definition short {A} (l : list A) : Prop := Z.of_nat (length l) < 2 ^ 31.

  Lemma reach_make n u : reach (make_ M n) u -> n <= M.
  Proof. intros R. rp R. now apply Z.ltb_ge in R. Qed.
  Lemma reach_slice_int {A} (l : list A) a b x : reach (slice_int l a b) x ->
    0 <= a <= b /\ b <= Z.of_nat (length l) /\ x = skipn (Z.to_nat a) (firstn (Z.to_nat b) l).
  Proof.
    unfold slice_int, slice. intros R. rb R u H. rp H. apply orb_false_iff in H. destruct H as [H1 H2].
    apply Z.ltb_ge in H1. apply Z.ltb_ge in H2. rb R l' Hl. apply reach_slice_to in Hl. destruct Hl as [L ->].
    apply reach_slice_from in R. destruct R as [L' ->]. rewrite firstn_length in L'. repeat split; lia.
  Qed.
  Lemma reach_index {A} (l : list A) i x : 0 <= i -> reach (index l i) x -> i < Z.of_nat (length l).
  Proof. intros H R. apply reach_nth_ in R. lia. Qed.

  Lemma reach_chunk64 nums dens q out : Z.of_nat q < 2 ^ 64 -> reach (chunk_products64 nums dens q 0) out ->
    (0 < length nums /\ q <= Nat.max 1 (length nums))%nat.
  Proof.
    intros Hq R. unfold chunk_products64 in R. cbv zeta in R. change (Z.of_nat 0) with 0 in R. change (mul64 0 (Z.of_nat q)) with 0 in R.
    rb R n0 H1. rb R d0 H2. apply reach_index in H1; [|lia]. split; [lia|].
    destruct (Nat.le_gt_cases q 1) as [L|L]; [lia|].
    assert (I : In (q - 1)%nat (seq 1 (q - 1))) by (apply in_seq; lia).
    destruct (reach_foldM_in _ _ _ I _ _ R) as (acc & y & Ry). rb Ry n Hn.
    rewrite add64_small in Hn by lia. apply reach_index in Hn; lia.
  Qed.
  Lemma reach_partial64 cd nums dens ch o out : short (PartialProducts o) -> Z.of_nat (NumPartialProducts cd) < 2 ^ 64 -> Z.of_nat (QuotientDegreeFactor cd) < 2 ^ 64 ->
    Z.of_nat ch * Z.of_nat (NumPartialProducts cd) < 2 ^ 31 -> (ch = 0%nat \/ Z.of_nat (NumPartialProducts cd) < 2 ^ 31) -> Z.of_nat ch < 2 ^ 60 + 1 ->
    reach (checkPartialProducts64 M cd nums dens ch o) out ->
    (Z.of_nat ch + 1) * Z.of_nat (NumPartialProducts cd) < 2 ^ 31 /\ (0 < length nums /\ QuotientDegreeFactor cd <= Nat.max 1 (length nums))%nat /\
    (ch < length (PlonkZs o))%nat.
  Proof.
    intros Hs Hnpp Hq Hc Hn Hch R. unfold checkPartialProducts64 in R. cbv zeta in R. rb R u1 H1. rb R z H2. rb R pp H3. rb R zn H4. rb R u5 H5.
    apply reach_nth_ in H2. apply reach_slice_int in H3. destruct H3 as (_ & H3 & _). unfold short in Hs.
    rewrite add64_small in H3 by lia.
    rewrite mul64_small in H3.
    2:{ destruct Hn as [->|Hn]; [lia|]. nia. }
    split; [lia|]. split; [|tauto].
    destruct (reach_mapM_in _ _ _ 0%nat R) as [y Ry]; [apply in_seq; lia|].
    rb Ry nd Hnd. destruct nd as [np dp]. apply reach_chunk64 in Hnd; [exact Hnd|exact Hq].
  Qed.

  Definition plonk_fits (cd : CommonCircuitData) : Prop :=
    let nc := Z.of_nat (NumChallenges (cd_Config cd)) in let npp := Z.of_nat (NumPartialProducts cd) in let q := Z.of_nat (QuotientDegreeFactor cd) in
    Z.of_nat (NumRoutedWires (cd_Config cd)) < 2 ^ 31 /\ nc < 2 ^ 31 /\
    (1 <= nc -> npp < 2 ^ 31 /\ nc * npp < 2 ^ 31 /\ q < 2 ^ 31 /\ nc * q < 2 ^ 31).
  Definition short_openings (o : OpeningSet) : Prop :=
    short (Constants o) /\ short (Types.Wires o) /\ short (PlonkZs o) /\ short (PartialProducts o) /\ short (QuotientPolys o).
  Definition plonk_fields (cd : CommonCircuitData) : Prop :=
    Z.of_nat (NumPartialProducts cd) < 2 ^ 64 /\ Z.of_nat (QuotientDegreeFactor cd) < 2 ^ 64 /\ short (KIs cd).

  Lemma reach_vanishing64 unset cd gates vars pc o zn out : short_openings o -> plonk_fields cd ->
    reach (evalVanishingPoly64 M unset cd gates vars pc o zn) out ->
    let nc := Z.of_nat (NumChallenges (cd_Config cd)) in let npp := Z.of_nat (NumPartialProducts cd) in let q := Z.of_nat (QuotientDegreeFactor cd) in
    Z.of_nat (NumRoutedWires (cd_Config cd)) < 2 ^ 31 /\ nc < 2 ^ 31 /\ length out = NumChallenges (cd_Config cd) /\
    (1 <= nc -> npp < 2 ^ 31 /\ nc * npp < 2 ^ 31 /\ q < 2 ^ 31).
  Proof.
    intros (S1 & S2 & S3 & S4 & S5) (F1 & F2 & F3) R nc npp q. unfold evalVanishingPoly64 in R. cbv zeta in R.
    rb R u0 H0. rb R ct H1. rb R u1 H1'. rb R sids H2. rb R l0 H3. rb R u2 H2'. rb R u3 H3'. rb R terms H4.
    apply reach_make in H2'. fold nc in H2'.
    assert (HR : Z.of_nat (NumRoutedWires (cd_Config cd)) < 2 ^ 31).
    { unfold short in F3. assert (X : (NumRoutedWires (cd_Config cd) <= length (KIs cd))%nat); [|lia].
      apply all_below. intros i Hi. destruct (reach_mapM_in _ _ _ i H2 (in_seq0 _ _ Hi)) as [y Ry]. rb Ry k Hk. apply reach_nth_ in Hk. tauto. }
    assert (T : forall i, (i < NumChallenges (cd_Config cd))%nat -> exists nds out, length nds = NumRoutedWires (cd_Config cd) /\
       reach (checkPartialProducts64 M cd (map fst nds) (map snd nds) i o) out).
    { intros i Hi. destruct (reach_mapM_in _ _ _ i H4 (in_seq0 _ _ Hi)) as [y Ry]. unfold challenge_terms64 in Ry.
      rb Ry z Hz. rb Ry zm Hzm. rb Ry z1 Hz1. rb Ry uu Huu. rb Ry nds Hn. rb Ry cs Hc. exists nds, cs. split; [|exact Hc].
      apply reach_mapM_length in Hn. now rewrite seq_length in Hn. }
    assert (P : forall i, (i < NumChallenges (cd_Config cd))%nat ->
       npp < 2 ^ 31 /\ (Z.of_nat i + 1) * npp < 2 ^ 31 /\ q < 2 ^ 31 /\ Z.of_nat i < 2 ^ 31).
    { assert (X : forall i, (i < NumChallenges (cd_Config cd))%nat -> Z.of_nat i * npp < 2 ^ 31 -> (i = 0%nat \/ npp < 2 ^ 31) ->
         (Z.of_nat i + 1) * npp < 2 ^ 31 /\ q < 2 ^ 31 /\ Z.of_nat i < 2 ^ 31).
      { intros i Hi H Hn. destruct (T i Hi) as (nds & out' & L & Rc). apply reach_partial64 in Rc; try assumption; [|unfold nc in *; lia].
        rewrite map_length, L in Rc. unfold short in S3. unfold npp, q. destruct Rc as (Rc1 & Rc2 & Rc3). repeat split; try assumption; lia. }
      assert (P0 : (0 < NumChallenges (cd_Config cd))%nat -> npp < 2 ^ 31).
      { intros Hi. destruct (X 0%nat Hi) as (X1 & _); [lia|now left|]. lia. }
      intros i. induction i as [|i IH]; intros Hi.
      - destruct (X 0%nat Hi) as (X1 & X2 & X3); [lia|now left|]. repeat split; lia.
      - destruct IH as (I1 & I2 & _); [lia|]. destruct (X (S i) Hi) as (X1 & X2 & X3); [lia|now right|]. repeat split; lia. }
    split; [exact HR|]. split; [|split].
    - destruct (Z.lt_ge_cases nc (2 ^ 31)) as [L|L]; [exact L|exfalso]. unfold nc in L.
      destruct (P (NumChallenges (cd_Config cd) - 1)%nat) as (_ & _ & _ & P4); [lia|].
      destruct (T (NumChallenges (cd_Config cd) - 1)%nat) as (nds & out' & _ & Rc); [lia|].
      unfold checkPartialProducts64 in Rc. cbv zeta in Rc. rb Rc u5 H5. rb Rc z Hz. apply reach_nth_ in Hz. unfold short in S3. lia.
    - clear - R. remember (repeat ZeroExtension (NumChallenges (cd_Config cd))) as acc eqn:Ea.
      assert (La : length acc = NumChallenges (cd_Config cd)) by (subst; apply repeat_length). clear Ea.
      revert acc La R. induction (rev _) as [|x l IH]; intros acc La R; cbn [foldM] in R; [cbn [reach] in R; now subst|].
      rb R acc' H. apply reach_mapM_length in H. rewrite seq_length in H. eapply IH; eassumption.
    - intros Hnc. destruct (P (NumChallenges (cd_Config cd) - 1)%nat) as (P1 & P2 & P3 & P4); [unfold nc in *; lia|].
      replace (Z.of_nat (NumChallenges (cd_Config cd) - 1) + 1) with nc in P2 by (unfold nc in *; lia). repeat split; assumption.
  Qed.
  Lemma in_combine_seq {A} (vs : list A) i v : nth_error vs i = Some v -> In (i, v) (combine (seq 0 (length vs)) vs).
  Proof.
    intros E. assert (X : forall a, In ((a + i)%nat, v) (combine (seq a (length vs)) vs)); [|exact (X 0%nat)].
    revert i E. induction vs as [|b l IH]; intros [|i] E a; try discriminate; cbn [length seq combine].
    - injection E as ->. left. now rewrite Nat.add_0_r.
    - right. replace (a + S i)%nat with (S a + i)%nat by lia. now apply IH.
  Qed.
  Lemma reach_plonk64 unset cd gates pc o h u : short_openings o -> plonk_fields cd ->
    reach (PlonkVerify64 M unset cd gates pc o h) u -> plonk_fits cd.
  Proof.
    intros S F R. unfold PlonkVerify64 in R. rb R zn H1. rb R vs H2. rb R zh H3. apply (reach_vanishing64 _ _ _ _ _ _ _ _ S F) in H2.
    destruct H2 as (A1 & A2 & A3 & A4). unfold plonk_fits. cbv zeta in *. split; [exact A1|]. split; [exact A2|]. intros Hnc.
    destruct (A4 Hnc) as (B1 & B2 & B3). split; [exact B1|]. split; [exact B2|]. split; [exact B3|].
    destruct S as (_ & _ & _ & _ & S5). unfold short in S5.
    assert (Q : forall i, (i <= NumChallenges (cd_Config cd))%nat -> Z.of_nat i * Z.of_nat (QuotientDegreeFactor cd) < 2 ^ 31).
    { induction i as [|i IH]; intros Hi; [lia|]. specialize (IH ltac:(lia)).
      destruct (nth_error vs i) as [v|] eqn:E; [|apply nth_error_None in E; lia].
      destruct (reach_iterM_in _ _ _ _ R (in_combine_seq vs i v E)) as [w Rw]. cbn [fst snd] in Rw. rb Rw ck Hck.
      rewrite (i64_small (Z.of_nat (QuotientDegreeFactor cd))) in Hck by lia.
      rewrite (i64_small (Z.of_nat i * _)) in Hck by lia.
      rewrite i64_small in Hck by lia. apply reach_slice_int in Hck. lia. }
    apply Q. lia.
  Qed.

  (** *** The instance *)
  Definition instance_fits (cd : CommonCircuitData) : Prop :=
    Z.of_nat (cd_NumConstants cd) + Z.of_nat (NumRoutedWires (cd_Config cd)) <= M /\ Z.of_nat (NumWires (cd_Config cd)) <= M.
  Lemma reach_instance64 cd zeta inst : plonk_fits cd -> Z.of_nat (cd_NumConstants cd) < 2 ^ 64 ->
    reach (GetInstance64 M cd zeta) inst -> instance_fits cd.
  Proof.
    intros (F1 & _) Hc R. unfold GetInstance64 in R. rb R polys H1. clear R. unfold friAllPolys64 in H1.
    rb H1 np H2. rb H1 pre H3. rb H1 ws H4. clear H1. unfold polynomialInfoFromRange64 in H3, H4. rb H3 u3 H3'. rb H4 u4 H4'.
    apply reach_panic_if in H3', H4'. apply Z.ltb_ge in H3', H4'. split; [|exact H4'].
    unfold numPreprocessedPolys64 in H2. cbv zeta in H2. rb H2 u5 H5. rb H2 u6 H6. apply reach_panic_if in H5, H6.
    apply orb_false_iff in H5. destruct H5 as [_ H5]. apply Z.ltb_ge in H5, H6. cbn [reach] in H2. subst np.
    destruct (Z.lt_ge_cases (Z.of_nat (cd_NumConstants cd) + Z.of_nat (NumRoutedWires (cd_Config cd))) (2 ^ 64)) as [L|L].
    - rewrite add64_small in H3' by lia. exact H3'.
    - exfalso. assert (E : add64 (Z.of_nat (cd_NumConstants cd)) (Z.of_nat (NumRoutedWires (cd_Config cd))) =
          Z.of_nat (cd_NumConstants cd) + Z.of_nat (NumRoutedWires (cd_Config cd)) - 2 ^ 64).
      { unfold add64, u64. rewrite <- (Z_mod_plus_full _ (-1)). rewrite Z.mod_small; lia. }
      rewrite E in H6. lia.
  Qed.

  (** *** FRI *)
  Definition fri_fits (params : FriParams) : Prop :=
    (fp_DegreeBits params + RateBits (fp_Config params) <= 64)%nat /\
    (CapHeight (fp_Config params) <= fp_DegreeBits params + RateBits (fp_Config params))%nat /\
    Forall (fun a => a = 4%nat) (ReductionArityBits params) /\ short (ReductionArityBits params) /\
    Z.of_nat (NumQueryRounds (fp_Config params)) < 2 ^ 31.
  Definition fri_fields (params : FriParams) : Prop :=
    Z.of_nat (fp_DegreeBits params) + Z.of_nat (RateBits (fp_Config params)) < 2 ^ 64 /\
    Z.of_nat (CapHeight (fp_Config params)) < 2 ^ 64 /\ Z.of_nat (NumQueryRounds (fp_Config params)) < 2 ^ 64.
  Lemma nLog_small params : fri_fields params -> nLog64 params = Z.of_nat (fp_DegreeBits params + RateBits (fp_Config params)).
  Proof. intros (H & _). unfold nLog64. rewrite add64_small by lia. lia. Qed.
  Lemma reach_round64 f inst ch pre caps proof x n round u : fri_fields f -> reach (verifyQueryRound64 f inst ch pre caps proof x n round) u ->
    (fp_DegreeBits f + RateBits (fp_Config f) <= 64)%nat /\ (CapHeight (fp_Config f) <= fp_DegreeBits f + RateBits (fp_Config f))%nat /\
    Forall (fun a => a = 4%nat) (ReductionArityBits f).
  Proof.
    intros F R. unfold verifyQueryRound64 in R. cbv zeta in R.
    rb R u1 H1. rb R xi H2. rb R bits H3. rb R xb H4. rb R cb H6. rb R u7 H7. rb R sx H8. rb R oe H9. rb R st H10. clear R H1 H2 H7 H8 H9.
    rewrite (nLog_small f F) in H4. destruct F as (F1 & F2 & F3).
    apply reach_slice_to in H4. destruct H4 as [L ->]. rewrite Nat2Z.id in *.
    assert (Lb : length bits = 64%nat).
    { clear - H3. apply (enforces_sound _ _ _ _ (enforces_to_binary _ _)) in H3. destruct H3 as [_ ->]. apply length_bits_of. }
    rewrite Lb in L. split; [exact L|]. rewrite firstn_length, Lb, Nat.min_l in H6 by exact L. split.
    - apply reach_slice_int in H6. destruct H6 as (H6 & _). set (m := (fp_DegreeBits f + RateBits (fp_Config f))%nat) in *.
      set (c := CapHeight (fp_Config f)) in *. destruct (Z.lt_ge_cases (Z.of_nat c) (2 ^ 63)) as [L63|L63].
      + rewrite (i64_small (Z.of_nat c)) in H6 by lia. rewrite i64_small in H6 by lia. lia.
      + exfalso. assert (E : i64 (Z.of_nat c) = Z.of_nat c - 2 ^ 64).
        { unfold i64. rewrite <- (Z_mod_plus_full _ (-1)). rewrite Z.mod_small; lia. }
        rewrite E in H6. destruct (Z.lt_ge_cases (Z.of_nat m - (Z.of_nat c - 2 ^ 64)) (2 ^ 63)) as [K|K].
        * rewrite i64_small in H6 by lia. lia.
        * assert (E' : i64 (Z.of_nat m - (Z.of_nat c - 2 ^ 64)) = Z.of_nat m - (Z.of_nat c - 2 ^ 64) - 2 ^ 64).
          { unfold i64. rewrite <- (Z_mod_plus_full _ (-1)). rewrite Z.mod_small; lia. }
          rewrite E' in H6. lia.
    - apply Forall_forall. intros a I. destruct (In_nth_error _ _ I) as [i Hi].
      destruct (reach_foldM_in _ _ _ (in_combine_seq _ i a Hi) _ _ H10) as (acc & y & Ry). clear - Ry. destruct acc as [[oe sx] xb].
      unfold query_step in Ry. rb Ry st0 H. rb Ry cb0 H2. rb Ry xw H3. rb Ry u0 H4. apply reach_panic_if in H4. now apply negb_false_iff, Nat.eqb_eq in H4.
  Qed.
  Definition short_rounds (proof : FriProof) : Prop :=
    short (QueryRoundProofs proof) /\
    Forall (fun round => short (Steps round) /\ Forall (fun st => short (st_Siblings st)) (Steps round) /\
                         Forall (fun e => short (Elements e) /\ short (ep_Siblings e)) (InitialTreesProof round)) (QueryRoundProofs proof).
  Lemma reach_fri64 f inst op ch caps proof u : fri_fields f -> short_rounds proof -> QueryRoundProofs proof <> [] ->
    reach (VerifyFriProof64 f inst op ch caps proof) u -> fri_fits f.
  Proof.
    intros F (S1 & S2) Ne R. unfold VerifyFriProof64 in R. cbv zeta in R. rb R u1 H1. rb R u2 H2. rb R u3 H3. rb R pre Hp. rb R u4 H4.
    apply reach_panic_if in H3, H4. apply negb_false_iff, Z.eqb_eq in H3. apply negb_false_iff, Nat.eqb_eq in H4.
    destruct (QueryRoundProofs proof) as [|r0 rs] eqn:EQ; [congruence|]. destruct (FriQueryIndices ch) as [|x xs] eqn:EX; [discriminate H4|].
    destruct (reach_iterM_in _ _ _ (x, r0) R (or_introl eq_refl)) as [v Rv]. cbn [fst snd] in Rv. apply (reach_round64 _ _ _ _ _ _ _ _ _ _ F) in Rv.
    destruct Rv as (A & B & C). split; [exact A|]. split; [exact B|]. split; [exact C|].
    unfold short in *. split.
    - unfold validateFriProofShape64 in H1. rb H1 u5 H5. rb H1 u6 H6. rewrite EQ in H6.
      destruct (reach_iterM_in _ _ _ r0 H6 (or_introl eq_refl)) as [w Rw]. rb Rw u7 H7. unfold validateSteps64 in Rw. cbv zeta in Rw. rb Rw u8 H8.
      apply reach_panic_if in H8. apply negb_false_iff, Nat.eqb_eq in H8. inversion S2 as [|? ? (S3 & _) _]; subst. lia.
    - destruct F as (_ & _ & F). destruct (Z.lt_ge_cases (Z.of_nat (NumQueryRounds (fp_Config f))) (2 ^ 63)) as [L|L].
      + rewrite i64_small in H3 by lia. lia.
      + assert (E : i64 (Z.of_nat (NumQueryRounds (fp_Config f))) = Z.of_nat (NumQueryRounds (fp_Config f)) - 2 ^ 64).
        { unfold i64. rewrite <- (Z_mod_plus_full _ (-1)). rewrite Z.mod_small; lia. }
        rewrite E in H3. lia.
  Qed.
End Reach.

(** ** Without wrap-around the code is that of the other files *)
Lemma same_iterM {A} (f g : A -> circ unit) l : (forall x, In x l -> same (f x) (g x)) -> same (iterM f l) (iterM g l).
Proof.
  induction l as [|x l IH]; intros H; cbn [iterM]; [apply same_refl|].
  apply same_bind; [apply H, in_eq|]. intros u _. apply IH. intros; apply H; now apply in_cons.
Qed.
Section Same.
  Context (M : Z) (HM : 2 ^ 32 <= M <= 2 ^ 60).

  Lemma make_ok n : n <= M -> make_ M n = Ret tt.
  Proof. intros H. unfold make_. now rewrite (proj2 (Z.ltb_ge M n) H). Qed.
  Lemma slice_int_nat {A} (l : list A) a b : slice_int l (Z.of_nat a) (Z.of_nat b) = slice l a b.
  Proof.
    unfold slice_int. rewrite (proj2 (Z.ltb_ge (Z.of_nat a) 0)), (proj2 (Z.ltb_ge (Z.of_nat b) 0)) by lia. cbn [orb panic_if bind].
    now rewrite !Nat2Z.id.
  Qed.

  (** *** Challenges *)
  Lemma same_challenges w cd pr h vd :
    Z.of_nat (NumChallenges (cd_Config cd)) <= M -> Z.of_nat (NumQueryRounds (cc_FriConfig (cd_Config cd))) <= M ->
    same (GetChallenges64 M w cd pr h vd) (GetChallenges w cd pr h vd).
  Proof.
    intros H1 H2. unfold GetChallenges64, GetChallenges, GetNChallenges64. cbv zeta.
    rewrite (make_ok _ H1). cbn [bind].
    repeat (apply same_tail; first [intros [? ?] _ | intros ? _]).
    apply same_head. unfold GetFriChallenges64, GetFriChallenges, GetNChallenges64. cbv zeta. rewrite (make_ok _ H2). cbn [bind]. apply same_refl.
  Qed.

  (** *** Plonk *)
  Lemma same_chunk nums dens q i : Z.of_nat i < 2 ^ 31 -> Z.of_nat q < 2 ^ 31 ->
    same (chunk_products64 nums dens q i) (chunk_products nums dens q i).
  Proof.
    intros Hi Hq. unfold chunk_products64, chunk_products. cbv zeta.
    rewrite mul64_small by nia. rewrite <- Nat2Z.inj_mul.
    rewrite !(index_nat _ (i * q)) by reflexivity. apply same_tail. intros n0 _. apply same_tail. intros d0 _.
    apply same_foldM. apply Forall2_same. intros j Hj acc. apply in_seq in Hj.
    rewrite add64_small by nia. rewrite !(index_nat _ (i * q + j)) by lia. apply same_refl.
  Qed.
  Lemma same_partial cd nums dens ch o : plonk_fits cd -> (ch < NumChallenges (cd_Config cd))%nat ->
    same (checkPartialProducts64 M cd nums dens ch o) (checkPartialProducts cd nums dens ch o).
  Proof.
    intros (_ & F2 & F3) Hc. destruct F3 as (F3 & F4 & F5 & F6); [lia|].
    unfold checkPartialProducts64, checkPartialProducts. cbv zeta.
    rewrite add64_small by lia. rewrite make_ok by lia. cbn [bind]. apply same_tail. intros z _.
    rewrite add64_small by lia.
    rewrite !mul64_small by nia.
    replace (Z.of_nat ch * Z.of_nat (NumPartialProducts cd)) with (Z.of_nat (ch * NumPartialProducts cd)) by lia.
    replace ((Z.of_nat ch + 1) * Z.of_nat (NumPartialProducts cd)) with (Z.of_nat ((ch + 1) * NumPartialProducts cd)) by lia.
    rewrite slice_int_nat. apply same_tail. intros pp _. apply same_tail. intros zn _. rewrite make_ok by lia. cbn [bind].
    apply same_mapM. intros i Hi. apply in_seq in Hi. apply same_bind; [apply same_chunk; lia|]. intros [np dp] _.
    apply same_tail. intros acc _. apply same_tail. intros l _. rewrite add64_small by lia. rewrite (index_nat _ (i + 1)) by lia. apply same_refl.
  Qed.
  Lemma same_vanishing unset cd gates vars pc o zn : plonk_fits cd -> Z.of_nat (NumGateConstraints cd) <= M ->
    short (localWires vars) -> short (localConstants vars) -> Forall parameters_ok gates ->
    same (evalVanishingPoly64 M unset cd gates vars pc o zn) (evalVanishingPoly cd gates vars pc o zn).
  Proof.
    intros F Hg S1 S2 Hp. unfold evalVanishingPoly64, evalVanishingPoly. cbv zeta. rewrite (make_ok _ Hg). cbn [bind].
    apply same_bind; [now apply same_constraints|]. intros ct _.
    pose proof F as (F1 & F2 & F3). rewrite make_ok by lia. cbn [bind]. apply same_tail. intros sids _. apply same_tail. intros l0 _.
    rewrite make_ok by lia. cbn [bind].
    assert (Hm : mul64 (Z.of_nat (NumChallenges (cd_Config cd))) (Z.of_nat (NumPartialProducts cd)) <= M).
    { destruct (NumChallenges (cd_Config cd)) as [|n]; [change (mul64 (Z.of_nat 0) _) with 0; lia|].
      destruct F3 as (F3 & F4 & _); [lia|]. rewrite mul64_small by lia. lia. }
    rewrite (make_ok _ Hm). cbn [bind]. apply same_head. apply same_mapM. intros i Hi. apply in_seq in Hi.
    unfold challenge_terms64, challenge_terms. do 3 (apply same_tail; intros ? _). rewrite make_ok by lia. cbn [bind].
    apply same_tail. intros nds _. apply same_head. apply same_partial; [exact F|lia].
  Qed.
  Lemma same_plonk unset cd gates pc o h : plonk_fits cd -> Z.of_nat (NumGateConstraints cd) <= M ->
    short (Types.Wires o) -> short (Constants o) -> Forall parameters_ok gates ->
    same (PlonkVerify64 M unset cd gates pc o h) (PlonkVerify cd gates pc o h).
  Proof.
    intros F Hg S1 S2 Hp. unfold PlonkVerify64, PlonkVerify. apply same_tail. intros zn _.
    apply same_bind; [now apply same_vanishing|]. intros vs Rv. apply reach_vanishing in Rv. cbv zeta in Rv. destruct Rv as (_ & _ & _ & Rv & _).
    apply same_tail. intros zh _. apply same_iterM. intros [i v] Hi. apply in_combine_l in Hi. apply in_seq in Hi. cbn [fst snd].
    destruct F as (_ & F2 & F3). destruct F3 as (_ & _ & F5 & F6); [lia|].
    rewrite (i64_small (Z.of_nat (QuotientDegreeFactor cd))) by lia. rewrite (i64_small (Z.of_nat i * _)) by nia. rewrite i64_small by nia.
    rewrite <- Nat2Z.inj_mul, <- Nat2Z.inj_add, slice_int_nat. apply same_refl.
  Qed.

  (** *** The instance *)
  Lemma preprocessed64 cd : plonk_fits cd -> instance_fits M cd -> numPreprocessedPolys64 M cd = Ret (Z.of_nat (numPreprocessedPolys cd)).
  Proof.
    intros (F1 & _) [I1 I2]. rewrite preprocessed. unfold numPreprocessedPolys64. cbv zeta. rewrite add64_small by lia.
    rewrite (proj2 (Z.eqb_neq _ _)), (proj2 (Z.ltb_ge M _)), (proj2 (Z.ltb_ge _ (Z.of_nat (cd_NumConstants cd)))) by lia.
    cbn [orb panic_if bind]. f_equal. lia.
  Qed.

  Lemma infos64 o n : Z.of_nat n <= M -> polynomialInfoFromRange64 M o (Z.of_nat n) = Ret (polynomialInfoFromRange o 0 n).
  Proof.
    intros H. unfold polynomialInfoFromRange64, polynomialInfoFromRange. rewrite (proj2 (Z.ltb_ge M _) H). cbn [panic_if bind].
    now rewrite Nat2Z.id, Nat.sub_0_r.
  Qed.
  Lemma zs_polys64 cd : plonk_fits cd -> Z.of_nat (NumPartialProducts cd) < 2 ^ 64 ->
    numZSPartialProductsPolys64 cd = Z.of_nat (numZSPartialProductsPolys cd) /\ Z.of_nat (numZSPartialProductsPolys cd) <= M.
  Proof.
    intros (F1 & F2 & F3) H. unfold numZSPartialProductsPolys64, numZSPartialProductsPolys.
    destruct (NumChallenges (cd_Config cd)) as [|n]; [split; [reflexivity|cbn [Nat.mul]; lia]|].
    destruct F3 as (F3 & F4 & _); [lia|]. rewrite add64_small by lia. rewrite mul64_small by lia. lia.
  Qed.
  Lemma quotient_polys64 cd : plonk_fits cd ->
    numQuotientPolys64 cd = Z.of_nat (numQuotientPolys cd) /\ Z.of_nat (numQuotientPolys cd) <= M.
  Proof.
    intros (F1 & F2 & F3). unfold numQuotientPolys64, numQuotientPolys.
    destruct (NumChallenges (cd_Config cd)) as [|n]; [split; [reflexivity|cbn [Nat.mul]; lia]|].
    destruct F3 as (_ & _ & _ & F4); [lia|]. rewrite mul64_small by lia. lia.
  Qed.
  Lemma same_instance cd zeta : plonk_fits cd -> instance_fits M cd -> Z.of_nat (NumPartialProducts cd) < 2 ^ 64 ->
    same (GetInstance64 M cd zeta) (GetInstance cd zeta).
  Proof.
    intros F I H. destruct (zs_polys64 cd F H) as [E1 L1]. destruct (quotient_polys64 cd F) as [E2 L2].
    assert (P : Z.of_nat (numPreprocessedPolys cd) <= M) by (rewrite preprocessed; destruct I; lia).
    unfold GetInstance64, GetInstance, friAllPolys64, friOracles64. rewrite (preprocessed64 cd F I), E1, E2. cbn [bind].
    rewrite !infos64; try assumption; [|destruct F as (_ & F & _); lia|exact (proj2 I)]. cbn [bind]. rewrite !Nat2Z.id. apply same_refl.
  Qed.

  (** *** FRI *)
  Lemma i64_len (n : nat) : Z.of_nat n < 2 ^ 60 + 2 ^ 32 -> i64 (Z.of_nat n) = Z.of_nat n.
  Proof. intros H. apply i64_small. lia. Qed.
  Lemma lde64 f : fri_fits f -> LdeBits64 f = Z.of_nat (LdeBits f).
  Proof.
    intros (H & _). unfold LdeBits64, nLog64, LdeBits. rewrite add64_small by lia. rewrite <- Nat2Z.inj_add. apply i64_len. lia.
  Qed.
  Lemma panic_if_eq b b' m : b = b' -> panic_if b m = panic_if b' m. Proof. now intros ->. Qed.
  Lemma bool_iff b c : (b = true <-> c = true) -> b = c.
  Proof. destruct b, c; intros [H K]; try reflexivity; [symmetry; now apply H|now apply K]. Qed.
  Definition small_oracles (inst : InstanceInfo) : Prop := Forall (fun o => Z.of_nat (NumPolys o) <= M) (Oracles inst).
  Lemma same_initial f inst round : fri_fits f -> small_oracles inst ->
    Forall (fun e => short (Elements e) /\ short (ep_Siblings e)) (InitialTreesProof round) ->
    same (validateInitial64 f inst round) (validateInitial f inst round).
  Proof.
    intros F Ho S. unfold validateInitial64, validateInitial. cbv zeta. apply same_tail. intros _ _. apply same_iterM. intros [e o] He.
    pose proof (in_combine_l _ _ _ _ He) as He1. pose proof (in_combine_r _ _ _ _ He) as He2.
    unfold small_oracles in Ho. rewrite Forall_forall in Ho, S. specialize (Ho o He2). destruct (S e He1) as [S1 S2]. unfold short in S1, S2.
    rewrite (lde64 f F). destruct F as (F1 & F2 & _).
    rewrite !i64_len by lia. rewrite (i64_small (Z.of_nat (NumPolys o) + _)) by (destruct (Blinding o && Hiding f); lia).
    rewrite <- (Nat2Z.inj_add (length (ep_Siblings e))). rewrite i64_len by lia.
    apply same_bind.
    - apply same_eq, panic_if_eq, f_equal, bool_iff. rewrite Z.eqb_eq, Nat.eqb_eq. destruct (Blinding o && Hiding f); lia.
    - intros _ _. apply same_eq, panic_if_eq, f_equal, bool_iff. rewrite Z.eqb_eq, Nat.eqb_eq. lia.
  Qed.
  Lemma same_steps_fold h steps : (h <= 64)%nat -> Forall (fun st => short (st_Siblings st)) steps ->
    forall arities n, Forall (fun a => a = 4%nat) arities -> - 2 ^ 62 + 4 * Z.of_nat (length arities) <= n <= 64 ->
    same
      (foldM (fun codewordLenBits (sa : FriQueryStep * nat) =>
        let (step, arityBits) := sa in
        let codewordLenBits := i64 (codewordLenBits - i64 (Z.of_nat arityBits)) in
        panic_if (negb (Z.of_nat (length (Evals step)) =? shl_int (Z.of_nat arityBits))) "len evals doesn't match arity";;;
        panic_if (negb (i64 (Z.of_nat (length (st_Siblings step)) + i64 (Z.of_nat h)) =? codewordLenBits))
          "len merkleProof doesn't match codewordLenBits";;;
        Ret codewordLenBits) n (combine steps arities))
      (foldM (fun codewordLenBits (sa : FriQueryStep * nat) =>
        let (step, arityBits) := sa in
        let codewordLenBits := codewordLenBits - Z.of_nat arityBits in
        panic_if (negb (Z.of_nat (length (Evals step)) =? shl_int (Z.of_nat arityBits))) "len evals doesn't match arity";;;
        panic_if (negb (Z.of_nat (length (st_Siblings step) + h) =? codewordLenBits))
          "len merkleProof doesn't match codewordLenBits";;;
        Ret codewordLenBits) n (combine steps arities)).
  Proof.
    intros Hh S. induction S as [|st steps S0 S IH]; intros [|a arities] n HA Hn; cbn [combine foldM]; try apply same_refl.
    inversion HA as [|? ? HA0 HA']; subst. cbn [length] in Hn. unfold short in S0.
    apply same_bind.
    - rewrite (i64_len 4), (i64_len h) by lia. rewrite (i64_small (n - Z.of_nat 4)) by lia. rewrite (i64_small (Z.of_nat (length (st_Siblings st)) + _)) by lia.
      rewrite <- Nat2Z.inj_add. apply same_refl.
    - intros b Rb. rb Rb u1 H1. rb Rb u2 H2. cbn [reach] in Rb. subst b. apply IH; [exact HA'|lia].
  Qed.
  Lemma same_steps f round : fri_fits f -> Forall (fun st => short (st_Siblings st)) (Steps round) ->
    same (validateSteps64 f round) (validateSteps f round).
  Proof.
    intros F S. unfold validateSteps64, validateSteps. cbv zeta. apply same_tail. intros _ _. apply same_head. rewrite (lde64 f F).
    destruct F as (F1 & F2 & F3 & F4 & _). unfold short in F4. apply same_steps_fold; [lia|exact S|exact F3|unfold LdeBits; lia].
  Qed.
  Lemma total_arities arities : forall acc, Forall (fun a => a = 4%nat) arities -> 0 <= acc -> acc + 4 * Z.of_nat (length arities) < 2 ^ 62 ->
    fold_left (fun res b => i64 (res + i64 (Z.of_nat b))) arities acc = acc + Z.of_nat (list_sum arities).
  Proof.
    induction arities as [|a arities IH]; intros acc H Ha L; [cbn; lia|]. inversion H as [|? ? Ha' H']; subst. cbn [fold_left length] in *.
    rewrite (i64_len 4) by lia. rewrite i64_small by lia. rewrite IH by (assumption || lia). cbn [list_sum fold_right]. unfold list_sum. lia.
  Qed.
  Lemma final_len64 f : fri_fits f -> FinalPolyLen64 f = FinalPolyLen f.
  Proof.
    intros (F1 & F2 & F3 & F4 & _). unfold short in F4.
    assert (T : TotalArities64 f = Z.of_nat (TotalArities f)) by (unfold TotalArities64, TotalArities; rewrite total_arities by (assumption || lia); lia).
    assert (B : Z.of_nat (TotalArities f) <= 4 * Z.of_nat (length (ReductionArityBits f))).
    { unfold TotalArities. clear - F3. induction F3 as [|a l -> F IH]; cbn [list_sum fold_right length]; [lia|]. unfold list_sum in IH. lia. }
    unfold FinalPolyLen64, FinalPolyLen, FinalPolyBits64, FinalPolyBits. rewrite T.
    rewrite (i64_len (fp_DegreeBits f)) by lia. rewrite i64_small by lia. reflexivity.
  Qed.
  Lemma same_shape proof inst f : fri_fits f -> small_oracles inst -> short_rounds proof ->
    same (validateFriProofShape64 proof inst f) (validateFriProofShape proof inst f).
  Proof.
    intros F Ho (_ & S). unfold validateFriProofShape64, validateFriProofShape. apply same_tail. intros _ _.
    apply same_bind.
    - apply same_iterM. intros round Hr. rewrite Forall_forall in S. destruct (S round Hr) as (S1 & S2 & S3).
      apply same_bind; [now apply same_initial|]. intros _ _. now apply same_steps.
    - intros _ _. rewrite (final_len64 f F). apply same_refl.
  Qed.
  Lemma same_leading x config : Z.of_nat (ProofOfWorkBits config) <= 2 ^ 63 + 64 ->
    assertLeadingZeros64 x config = assertLeadingZeros x config.
  Proof.
    intros H. unfold assertLeadingZeros64, assertLeadingZeros, sub64. rewrite i64_u64, i64_small by lia. reflexivity.
  Qed.
  Lemma same_round f inst ch pre caps proof x round : fri_fields f -> fri_fits f ->
    same (verifyQueryRound64 f inst ch pre caps proof x (nLog64 f) round)
         (verifyQueryRound f inst ch pre caps proof x (fp_DegreeBits f + RateBits (fp_Config f)) round).
  Proof.
    intros G F. unfold verifyQueryRound64, verifyQueryRound. cbv zeta. rewrite (nLog_small f G), Nat2Z.id. destruct F as (F1 & F2 & _).
    apply same_tail. intros _ _. apply same_tail. intros xi _. apply same_tail. intros bits Rb.
    assert (Lb : length bits = 64%nat).
    { clear - Rb. apply (enforces_sound _ _ _ _ (enforces_to_binary _ _)) in Rb. destruct Rb as [_ ->]. apply length_bits_of. }
    apply same_tail. intros xb Rx. apply reach_slice_to in Rx. destruct Rx as [_ ->]. rewrite firstn_length, Lb, Nat.min_l by exact F1.
    set (l := firstn _ bits). assert (Ll : length l = (fp_DegreeBits f + RateBits (fp_Config f))%nat) by (unfold l; rewrite firstn_length; lia).
    rewrite (i64_len (CapHeight _)) by lia. rewrite i64_small by lia. rewrite <- Nat2Z.inj_sub by exact F2. rewrite slice_int_nat.
    rewrite (proj2 (Nat.ltb_ge _ _) F2). cbn [panic_if bind]. apply same_head. unfold slice, slice_to.
    rewrite <- Ll, Nat.leb_refl. cbn [bind]. rewrite firstn_all. apply same_refl.
  Qed.
  Lemma same_fri f inst op ch caps proof : fri_fields f -> fri_fits f -> Z.of_nat (ProofOfWorkBits (fp_Config f)) <= 2 ^ 63 + 64 ->
    small_oracles inst -> short_rounds proof ->
    same (VerifyFriProof64 f inst op ch caps proof) (VerifyFriProof f inst op ch caps proof).
  Proof.
    intros G F HP Ho S. unfold VerifyFriProof64, VerifyFriProof. cbv zeta. apply same_bind; [now apply same_shape|]. intros _ _.
    rewrite (same_leading _ _ HP). apply same_tail. intros _ _. apply same_bind.
    - apply same_eq, panic_if_eq, f_equal, bool_iff. rewrite Z.eqb_eq, Nat.eqb_eq. destruct F as (_ & _ & _ & _ & F). rewrite i64_len by lia. lia.
    - intros _ _. apply same_tail. intros pre _. apply same_tail. intros _ _. apply same_iterM. intros [x round] _. cbn [fst snd]. now apply same_round.
  Qed.
End Same.

(** ** What a result of the other model implies *)
Lemma reach_instance_oracles cd zeta inst : reach (GetInstance cd zeta) inst -> Oracles inst = friOracles cd.
Proof. intros R. unfold GetInstance in R. rb R g Hg. rb R zn Hz. cbn [reach] in R. now subst inst. Qed.
Lemma reach_fri_nat M f cd inst op ch cap caps proof u : 2 ^ 32 <= M -> Oracles inst = friOracles cd -> short_rounds proof -> QueryRoundProofs proof <> [] ->
  reach (VerifyFriProof f inst op ch (cap :: caps) proof) u ->
  fri_fits f /\ instance_fits M cd /\ Z.of_nat (length (FriQueryIndices ch)) < 2 ^ 31.
Proof.
  intros HM EO (S1 & S2) Ne R. unfold VerifyFriProof in R. cbv zeta in R. rb R u1 H1. rb R u2 H2. rb R u3 H3. rb R pre Hp. rb R u4 H4.
  apply (enforces_sound _ _ _ _ (validate_shape_correct _ _ _)) in H1. destruct H1 as [(_ & T2 & _ & _) _].
  apply reach_panic_if in H3, H4. apply negb_false_iff, Nat.eqb_eq in H3. apply negb_false_iff, Nat.eqb_eq in H4.
  destruct (QueryRoundProofs proof) as [|r0 rs] eqn:EQ; [congruence|]. destruct (FriQueryIndices ch) as [|x xs] eqn:EX; [discriminate H4|].
  destruct (reach_iterM_in _ _ _ (x, r0) R (or_introl eq_refl)) as [v Rv]. cbn [fst snd] in Rv.
  destruct (reach_round _ _ _ _ _ _ _ _ _ _ Rv eq_refl) as (A1 & A2 & _ & A3 & _ & A5).
  inversion T2 as [|? ? (B1 & B2 & B3) _]; subst. inversion S2 as [|? ? (C1 & C2 & C3) _]; subst. unfold short in *.
  rewrite EO in B1, B2. specialize (A3 ltac:(discriminate)).
  destruct (InitialTreesProof r0) as [|e0 [|e1 [|e2 [|e3 l]]]]; try discriminate B1.
  cbn [friOracles combine] in B2. inversion B2 as [|? ? (D1 & D2) B2']; subst. inversion B2' as [|? ? (D3 & D4) _]; subst.
  inversion C3 as [|? ? (E1 & E2) C3']; subst. inversion C3' as [|? ? (E3 & E4) _]; subst. cbn [fst snd NumPolys] in *.
  rewrite preprocessed in D1. unfold LdeBits in D2. pose proof (steps_shape_len _ _ _ _ B3) as LS.
  split; [|split].
  - split; [lia|]. split; [lia|]. split; [exact A5|]. split; [unfold short; lia|]. lia.
  - split; lia.
  - lia.
Qed.

(** ** The verifier *)
Definition short_proof (proof : Proof_) : Prop := short_openings (Openings proof) /\ short_rounds (OpeningProof proof).
(** what the fields of the configuration are read from: 64-bit numbers *)
Definition uint64_fields (cd : CommonCircuitData) : Prop :=
  Z.of_nat (NumPartialProducts cd) < 2 ^ 64 /\ Z.of_nat (QuotientDegreeFactor cd) < 2 ^ 64 /\ Z.of_nat (cd_NumConstants cd) < 2 ^ 64 /\
  Z.of_nat (CapHeight (fp_Config (cd_FriParams cd))) < 2 ^ 64 /\ Z.of_nat (NumQueryRounds (fp_Config (cd_FriParams cd))) < 2 ^ 64.
Definition no_wrap (cd : CommonCircuitData) : Prop :=
  Z.of_nat (fp_DegreeBits (cd_FriParams cd)) + Z.of_nat (RateBits (fp_Config (cd_FriParams cd))) < 2 ^ 64 /\
  Z.of_nat (ProofOfWorkBits (fp_Config (cd_FriParams cd))) <= 2 ^ 63 + 64.

Section Top.
  Context (M : Z) (HM : 2 ^ 32 <= M <= 2 ^ 60) (unset : QE) (w : Z) (cd : CommonCircuitData) (gates : list Gate) (proof : Proof_)
    (pis : list Z) (vd : VerifierOnlyCircuitData).
  Definition all_fit : Prop :=
    plonk_fits cd /\ instance_fits M cd /\ fri_fits (cd_FriParams cd) /\ Z.of_nat (NumQueryRounds (cc_FriConfig (cd_Config cd))) <= M.
  Context (HU : uint64_fields cd) (HN : no_wrap cd) (HS : short_proof proof) (HK : short (KIs cd)) (Ne : QueryRoundProofs (OpeningProof proof) <> []).

  Lemma fields_ok : fri_fields (cd_FriParams cd) /\ plonk_fields cd.
  Proof. destruct HU as (U1 & U2 & U3 & U4 & U5), HN as (N1 & N2). repeat split; assumption. Qed.
  Lemma fit64 u : reach (Verify64 M unset w cd gates proof pis vd) u -> all_fit.
  Proof.
    intros R. destruct fields_ok as [FF PF]. destruct HS as [HS1 HS2]. destruct HU as (_ & _ & U3 & _). unfold Verify64 in R. cbv zeta in R.
    rb R u1 H1. rb R h H2. rb R ch H3. rb R u4 H4. rb R ins0 H5.
    apply (reach_plonk64 M HM _ _ _ _ _ _ _ HS1 PF) in H4.
    split; [exact H4|]. split; [exact (reach_instance64 M HM _ _ _ H4 U3 H5)|]. split; [exact (reach_fri64 _ _ _ _ _ _ _ FF HS2 Ne R)|].
    clear - H3. unfold GetChallenges64 in H3. cbv zeta in H3.
    rb H3 c1 G1. rb H3 c2 G2. rb H3 c3 G3. rb H3 x4 G4. destruct x4 as [? ?]. rb H3 x5 G5. destruct x5 as [? ?]. rb H3 c6 G6. rb H3 x7 G7. destruct x7 as [? ?].
    rb H3 c8 G8. rb H3 x9 G9. destruct x9 as [? ?]. rb H3 c10 G10. rb H3 x11 G11. clear H3. unfold GetFriChallenges64 in G11. cbv zeta in G11.
    rb G11 y1 K1. destruct y1 as [? ?]. rb G11 y2 K2. destruct y2 as [? ?]. rb G11 c12 K3. rb G11 c13 K4. rb G11 y5 K5. destruct y5 as [? ?].
    rb G11 y6 K6. unfold GetNChallenges64 in K6. rb K6 u K7. exact (reach_make _ _ _ K7).
  Qed.
  Lemma fit_nat u : reach (Verify w cd gates proof pis vd) u -> all_fit.
  Proof.
    intros R. destruct HS as [HS1 HS2]. unfold Verify in R. cbv zeta in R.
    rb R u1 H1. rb R h H2. rb R ch H3. rb R u4 H4. rb R ins0 H5. apply reach_challenges in H3. apply reach_instance_oracles in H5.
    destruct (reach_fri_nat M _ cd _ _ _ _ _ _ _ (proj1 HM) H5 HS2 Ne R) as (A & B & C).
    split; [|split; [exact B|split; [exact A|lia]]].
    unfold PlonkVerify in H4. rb H4 zn G1. rb H4 vs G2. rb H4 zh G3. apply reach_vanishing in G2. cbv zeta in G2. destruct G2 as (_ & _ & V1 & V2 & V3).
    destruct HS1 as (S1 & S2 & S3 & S4 & S5). unfold short in *. unfold plonk_fits. cbv zeta. split; [lia|].
    destruct (Nat.eq_dec (NumChallenges (cd_Config cd)) 0) as [E|E]; [rewrite E; split; [lia|]; intros X; lia|].
    destruct V3 as (W1 & W2 & W3 & W4 & W5 & W6 & W7); [lia|].
    split; [lia|]. intros _.
    assert (Q : ((NumChallenges (cd_Config cd) - 1) * QuotientDegreeFactor cd + QuotientDegreeFactor cd <= length (QuotientPolys (Openings proof)))%nat).
    { destruct (nth_error vs (NumChallenges (cd_Config cd) - 1)) as [v|] eqn:EV; [|apply nth_error_None in EV; lia].
      destruct (reach_iterM_in _ _ _ _ H4 (in_combine_seq vs _ v EV)) as [x Rx]. cbn [fst snd] in Rx. rb Rx ck Hck. unfold slice in Hck. rb Hck l' Hl.
      apply reach_slice_to in Hl. lia. }
    assert (EQ : ((NumChallenges (cd_Config cd) - 1) * QuotientDegreeFactor cd + QuotientDegreeFactor cd = NumChallenges (cd_Config cd) * QuotientDegreeFactor cd)%nat) by nia.
    rewrite EQ in Q. nia.
  Qed.
  Lemma same_verify_fits : all_fit -> Z.of_nat (NumGateConstraints cd) <= M -> Forall parameters_ok gates ->
    same (Verify64 M unset w cd gates proof pis vd) (Verify w cd gates proof pis vd).
  Proof.
    intros (A & B & C & D) Hg Hp. destruct fields_ok as [FF PF]. destruct HS as [HS1 HS2]. unfold Verify64, Verify. cbv zeta.
    apply same_tail. intros _ _. apply same_tail. intros h _. apply same_bind; [apply same_challenges; [destruct A as (_ & A & _); lia|exact D]|]. intros ch _.
    apply same_bind; [apply same_plonk; try assumption; apply HS1|]. intros _ _.
    apply same_bind; [apply same_instance; try assumption; apply PF|]. intros ins0 Ri.
    apply (same_fri M HM); try assumption; [apply HN|]. unfold small_oracles. rewrite (reach_instance_oracles _ _ _ Ri).
    unfold friOracles. destruct (zs_polys64 M HM cd A (proj1 PF)) as [_ Z1]. destruct (quotient_polys64 M HM cd A) as [_ Z2]. destruct B as [B1 B2].
    repeat (apply Forall_cons || apply Forall_nil); cbn [NumPolys]; try assumption. rewrite preprocessed. lia.
  Qed.
  Lemma all_fit_dec : {all_fit} + {~ all_fit}.
  Proof.
    assert (D : forall a b : Z, {a < b} + {~ a < b}) by (intros a b; destruct (Z_lt_ge_dec a b); [left|right]; lia).
    assert (E : forall a b : Z, {a <= b} + {~ a <= b}) by (intros a b; destruct (Z_le_gt_dec a b); [left|right]; lia).
    assert (A : forall P Q : Prop, {P} + {~ P} -> {Q} + {~ Q} -> {P /\ Q} + {~ (P /\ Q)}) by (intros P Q [] []; (left; tauto) || (right; tauto)).
    assert (I : forall P Q : Prop, {P} + {~ P} -> {Q} + {~ Q} -> {P -> Q} + {~ (P -> Q)}) by (intros P Q [] []; (left; tauto) || (right; tauto)).
    assert (F : forall l : list nat, {Forall (fun a => a = 4%nat) l} + {~ Forall (fun a => a = 4%nat) l}) by (intros l; apply Forall_dec; intros x; apply Nat.eq_dec).
    assert (N : forall a b : nat, {(a <= b)%nat} + {~ (a <= b)%nat}) by (intros a b; destruct (le_lt_dec a b); [left|right]; lia).
    unfold all_fit, plonk_fits, instance_fits, fri_fits, short. cbv zeta.
    repeat (apply A || apply D || apply E || apply F || apply N || apply I).
  Qed.
  Lemma same_verify : Z.of_nat (NumGateConstraints cd) <= M -> Forall parameters_ok gates ->
    same (Verify64 M unset w cd gates proof pis vd) (Verify w cd gates proof pis vd).
  Proof.
    intros Hg Hp. destruct all_fit_dec as [F|F]; [now apply same_verify_fits|].
    apply same_dead; intros u R; apply F; [exact (fit64 u R)|exact (fit_nat u R)].
  Qed.
End Top.
