(** * Circuit configurations (C56).  See properties.jsonl. *)
From Coq Require Import String.
From Coq Require Import ZArith NArith Lia List Bool Arith Permutation.
From Verif Require Import Zp GF Circuit Goldilocks PoseidonGL Types Challenger BN254 Fri FriMerkle FriQuery FriTop Gates Plonk GateIds Verifier
  Deser DeserProofs Prop_Deser Prop_Forgery.
Import ListNotations.
Open Scope Z_scope.

(** ** Reading *)
(** A file that says [c] is read as [c]; circuits with hiding are refused.  The degree, which the
    file has once, ends up in both places. *)
Theorem C56_read : forall j c, is_common_data j c -> Hiding (cd_FriParams c) = false -> cd_DegreeBits c = fp_DegreeBits (cd_FriParams c) ->
  ReadCommonCircuitData j = Some c.
Proof. intros j c H Hh E. rewrite (reads_common j c H), Hh, <- E. now destruct c. Qed.
Theorem C56_hiding : forall j c, is_common_data j c -> Hiding (cd_FriParams c) = true -> ReadCommonCircuitData j = None.
Proof. intros j c H Hh. now rewrite (reads_common j c H), Hh. Qed.
Theorem C56_read_degree : forall j c, ReadCommonCircuitData j = Some c ->
  cd_DegreeBits c = fp_DegreeBits (cd_FriParams c) /\ Hiding (cd_FriParams c) = false.
Proof.
  intros j c. unfold ReadCommonCircuitData. destruct (dec_RawCommon j zero_RawCommon) as [raw|]; [|discriminate].
  unfold commonData. cbv zeta. rewrite NewSelectorsInfo_eq. destruct (ra_Hiding (rm_FriParams raw)); [discriminate|].
  intros E. injection E as <-. split; reflexivity.
Qed.

(** ** What the circuit definition insists on *)
Ltac rb R x H := apply reach_bind in R; destruct R as (x & H & R).
Lemma reach_mapM {A B} (f : A -> circ B) l : forall ys, reach (mapM f l) ys -> Forall2 (fun x y => reach (f x) y) l ys.
Proof.
  induction l as [|x l IH]; intros ys R; cbn [mapM] in R; [cbn [reach] in R; subst; constructor|].
  rb R y H. rb R zs H'. cbn [reach] in R. subst ys. constructor; auto.
Qed.
Lemma reach_mapM_in {A B} (f : A -> circ B) l ys x : reach (mapM f l) ys -> In x l -> exists y, reach (f x) y.
Proof. intros R I. apply reach_mapM in R. induction R as [|a y l ys H F IH]; [destruct I|]. destruct I as [->|I]; eauto. Qed.
Lemma reach_mapM_length {A B} (f : A -> circ B) l ys : reach (mapM f l) ys -> length ys = length l.
Proof. intros R. apply reach_mapM in R. induction R; cbn [length]; congruence. Qed.
Lemma reach_iterM_in {A} (f : A -> circ unit) l u x : reach (iterM f l) u -> In x l -> exists v, reach (f x) v.
Proof.
  revert u. induction l as [|y l IH]; intros u R I; [destruct I|]. cbn [iterM] in R. rb R z H. destruct I as [->|I]; eauto.
Qed.
Lemma reach_foldM_in {A B} (f : B -> A -> circ B) l x : In x l -> forall acc b, reach (foldM f acc l) b -> exists a y, reach (f a x) y.
Proof.
  induction l as [|y l IH]; intros I acc b R; [destruct I|]. cbn [foldM] in R. rb R z H. destruct I as [->|I]; eauto.
Qed.
Lemma reach_nth_ {A} (l : list A) i x : reach (nth_ l i) x -> (i < length l)%nat /\ nth_error l i = Some x.
Proof.
  unfold nth_, of_opt. destruct (nth_error l i) as [y|] eqn:E; [|intros []]. intros H. cbn [reach] in H. subst.
  split; [apply nth_error_Some; congruence|reflexivity].
Qed.
Lemma reach_slice_to {A} (l : list A) n x : reach (slice_to l n) x -> (n <= length l)%nat /\ x = firstn n l.
Proof. unfold slice_to. destruct (Nat.leb_spec n (length l)); [|intros []]. intros R. cbn [reach] in R. auto. Qed.
Lemma reach_slice_from {A} (l : list A) n x : reach (slice_from l n) x -> (n <= length l)%nat /\ x = skipn n l.
Proof. unfold slice_from. destruct (Nat.leb_spec n (length l)); [|intros []]. intros R. cbn [reach] in R. auto. Qed.
Lemma reach_panic_if b m u : reach (panic_if b m) u -> b = false.
Proof. destruct b; [intros []|reflexivity]. Qed.
Lemma reach_root n g : reach (PrimitiveRootOfUnity n) g -> (n <= 32)%nat.
Proof. unfold PrimitiveRootOfUnity. change TWO_ADICITY with 32%nat. destruct (Nat.ltb_spec 32 n) as [H|H]; [intros []|auto]. Qed.
Lemma reach_n_challenges w n : forall c out, reach (GetNChallenges w c n) out -> length (fst out) = n.
Proof.
  induction n as [|n IH]; intros c out R; cbn [GetNChallenges] in R; [cbn [reach] in R; now subst|].
  rb R x H. destruct x as [x c']. rb R y H'. destruct y as [xs c'']. apply IH in H'. cbn [reach] in R. subst. cbn [fst length] in *. congruence.
Qed.

(** FRI parameters, as used by the verifier: [f] is FriParams; leaf sizes are the numbers of
    polynomials of the four oracles. *)
Definition leaf_sizes (cd : CommonCircuitData) : list nat :=
  let c := cd_Config cd in
  [(cd_NumConstants cd + NumRoutedWires c)%nat; NumWires c; (NumChallenges c * (1 + NumPartialProducts cd))%nat;
   (NumChallenges c * QuotientDegreeFactor cd)%nat].
Definition round_consistent (cd : CommonCircuitData) (round : FriQueryRound) : Prop :=
  let f := cd_FriParams cd in let lde := (fp_DegreeBits f + RateBits (fp_Config f))%nat in
  map (fun e => length (Elements e)) (InitialTreesProof round) = leaf_sizes cd /\
  Forall (fun e => (length (ep_Siblings e) + 4 = lde)%nat) (InitialTreesProof round) /\
  length (Steps round) = length (ReductionArityBits f) /\
  forall i step, nth_error (Steps round) i = Some step ->
    length (Evals step) = 16%nat /\ (length (st_Siblings step) + 4 + 4 * (i + 1) = lde)%nat.
Definition fri_consistent (cd : CommonCircuitData) (pr : Proof_) (vd : VerifierOnlyCircuitData) : Prop :=
  let f := cd_FriParams cd in let rounds := QueryRoundProofs (OpeningProof pr) in
  NumQueryRounds (cc_FriConfig (cd_Config cd)) = NumQueryRounds (fp_Config f) /\
  length rounds = NumQueryRounds (fp_Config f) /\
  (fp_DegreeBits f <= 32)%nat /\ (list_sum (ReductionArityBits f) <= fp_DegreeBits f)%nat /\
  Z.of_nat (length (FinalPoly (OpeningProof pr))) = 2 ^ Z.of_nat (fp_DegreeBits f - list_sum (ReductionArityBits f)) /\
  (ProofOfWorkBits (fp_Config f) <= 64)%nat /\
  (rounds <> [] ->
    CapHeight (fp_Config f) = 4%nat /\ Forall (fun a => a = 4%nat) (ReductionArityBits f) /\
    (fp_DegreeBits f + RateBits (fp_Config f) <= 32)%nat /\ (RateBits (fp_Config f) <= 15)%nat /\
    Forall (fun cap => length cap = 16%nat) [ConstantSigmasCap vd; WiresCap pr; PlonkZsPartialProductsCap pr; QuotientPolysCap pr] /\
    Forall (fun cap => length cap = 16%nat) (CommitPhaseMerkleCaps (OpeningProof pr)) /\
    Forall (round_consistent cd) rounds).
(** Plonk parameters: enough coset shifts, wires and openings for the routed wires, the partial
    products and the quotient chunks; a selector group for every gate *)
Definition plonk_consistent (cd : CommonCircuitData) (pr : Proof_) : Prop :=
  let c := cd_Config cd in let o := Openings pr in let nrw := NumRoutedWires c in let nc := NumChallenges c in
  let npp := NumPartialProducts cd in let q := QuotientDegreeFactor cd in let s := cd_SelectorsInfo cd in
  (nrw <= length (KIs cd))%nat /\ (length (GateIds cd) <= length (selectorIndices s))%nat /\
  Forall (fun i => (i < length (groups s))%nat) (firstn (length (GateIds cd)) (selectorIndices s)) /\
  ((1 <= nc)%nat ->
    (1 <= nrw /\ (npp + 1) * q <= nrw /\ nrw <= length (Wires o) /\ nrw <= length (PlonkSigmas o) /\
     nc <= length (PlonkZs o) /\ nc <= length (PlonkZsNext o) /\ nc * npp <= length (PartialProducts o) /\
     nc * q <= length (QuotientPolys o)))%nat.

(** *** FRI *)
Lemma last_seq a n : last (seq a (S n)) 0%nat = (a + n)%nat.
Proof. rewrite seq_S. now rewrite last_last. Qed.
Lemma preprocessed cd : numPreprocessedPolys cd = (cd_NumConstants cd + NumRoutedWires (cd_Config cd))%nat.
Proof. unfold numPreprocessedPolys, sigmasRange. now rewrite Nat.add_1_r, last_seq. Qed.
Lemma reach_round f inst ch pre caps proof x n round u : reach (verifyQueryRound f inst ch pre caps proof x n round) u ->
  n = (fp_DegreeBits f + RateBits (fp_Config f))%nat ->
  (n <= 32)%nat /\ (RateBits (fp_Config f) <= 15)%nat /\ length (InitialTreesProof round) = length caps /\
  (caps <> [] -> CapHeight (fp_Config f) = 4%nat) /\ Forall (fun cap => length cap = 16%nat) caps /\
  Forall (fun a => a = 4%nat) (ReductionArityBits f).
Proof.
  intros R En. unfold verifyQueryRound in R.
  rb R u1 H1. rb R xi H2. rb R bits H3. rb R xb H4. rb R u5 H5. rb R cb H6. rb R u7 H7. rb R sx H8. rb R oe H9. rb R st H10. clear R H2 H3 H9.
  apply reach_slice_to in H4. destruct H4 as [_ ->]. apply reach_panic_if in H5. apply reach_slice_from in H6. destruct H6 as [L6 ->].
  apply Nat.ltb_ge in H5. rewrite firstn_length in *.
  unfold calculateSubgroupX in H8. rb H8 g Hg. apply reach_root in Hg. split; [exact Hg|].
  split.
  { apply reach_panic_if in H1. apply andb_false_iff in H1. destruct H1 as [H1|H1]; [apply Nat.ltb_ge in H1; lia|].
    apply Z.leb_gt in H1. unfold MODULUS in H1. destruct (Nat.le_gt_cases (RateBits (fp_Config f)) 15) as [L|L]; [exact L|exfalso].
    assert (X : 2 ^ 16 <= 2 ^ Z.of_nat (RateBits (fp_Config f))) by (apply Z.pow_le_mono_r; lia).
    revert X H1. generalize (2 ^ Z.of_nat (RateBits (fp_Config f))). intros z X. change (2 ^ 16) with 65536 in X. change (2 ^ 32 - 1) with 4294967295. unfold p. lia. }
  unfold verifyInitialProof in H7. rb H7 u8 H8'. apply reach_panic_if in H8'. apply negb_false_iff, Nat.eqb_eq in H8'. split; [exact H8'|].
  assert (C : forall e cap, In (e, cap) (combine (InitialTreesProof round) caps) -> CapHeight (fp_Config f) = 4%nat /\ length cap = 16%nat).
  { intros e cap I. destruct (reach_iterM_in _ _ _ _ H7 I) as [v Rv]. cbn [fst snd] in Rv.
    unfold verifyMerkleProofToCapWithCapIndex in Rv. rb Rv d Hd. rb Rv u9 H9. apply reach_panic_if in H9. apply orb_false_iff in H9.
    destruct H9 as [A B]. apply negb_false_iff, Nat.eqb_eq in A. apply negb_false_iff, Nat.eqb_eq in B.
    rewrite skipn_length, firstn_length in A. split; [lia|exact B]. }
  split; [|split].
  - intros N. destruct caps as [|cap caps]; [congruence|]. destruct (InitialTreesProof round) as [|e l]; [discriminate H8'|].
    exact (proj1 (C e cap (or_introl eq_refl))).
  - apply Forall_forall. intros cap I. destruct (In_nth_error _ _ I) as [i Hi].
    destruct (nth_error (InitialTreesProof round) i) as [e|] eqn:E.
    + refine (proj2 (C e cap _)). clear - Hi E. revert i caps Hi E. induction (InitialTreesProof round) as [|a l IH]; intros [|i] [|b caps] Hi E; try discriminate.
      * injection Hi as ->. injection E as ->. now left.
      * right. eapply IH; eassumption.
    + exfalso. apply nth_error_None in E. assert (i < length caps)%nat by (apply nth_error_Some; intros X; pose proof (eq_trans (eq_sym Hi) X); discriminate). lia.
  - apply Forall_forall. intros a I. destruct (In_nth_error _ _ I) as [i Hi].
    assert (I2 : In (i, a) (combine (seq 0 (length (ReductionArityBits f))) (ReductionArityBits f))).
    { clear - Hi. assert (X : forall s, In ((s + i)%nat, a) (combine (seq s (length (ReductionArityBits f))) (ReductionArityBits f))); [|exact (X 0%nat)].
      revert i Hi. induction (ReductionArityBits f) as [|b l IH]; intros [|i] Hi s; try discriminate; cbn [length seq combine].
      - injection Hi as ->. left. now rewrite Nat.add_0_r.
      - right. replace (s + S i)%nat with (S s + i)%nat by lia. now apply IH. }
    destruct (reach_foldM_in _ _ _ I2 _ _ H10) as (acc & y & Ry). clear - Ry. destruct acc as [[oe sx] xb].
    unfold query_step in Ry. rb Ry st H. rb Ry cb H2. rb Ry xw H3. rb Ry u H4. apply reach_panic_if in H4. now apply negb_false_iff, Nat.eqb_eq in H4.
Qed.
Lemma steps_shape_16 n : forall steps arities, steps_shape 4 n steps arities -> Forall (fun a => a = 4%nat) arities ->
  length steps = length arities /\
  forall i step, nth_error steps i = Some step -> length (Evals step) = 16%nat /\ Z.of_nat (length (st_Siblings step) + 4 + 4 * (i + 1)) = n.
Proof.
  intros steps. revert n. induction steps as [|s steps IH]; intros n [|a arities] H F; cbn [steps_shape] in H; try contradiction.
  - split; [reflexivity|]. intros [|i] step E; discriminate.
  - destruct H as (H1 & H2 & H3). inversion F as [|? ? Fa F']; subst. destruct (IH _ _ H3 F') as [L N]. split; [cbn [length]; congruence|].
    intros [|i] step E; cbn [nth_error] in E.
    + injection E as ->. change (shl_int (Z.of_nat 4)) with 16 in H1. split; lia.
    + destruct (N i step E) as [N1 N2]. split; [exact N1|lia].
Qed.
Lemma combine_map2 {A B} (f : A -> nat) (g : B -> nat) : forall (l : list A) (m : list B), length l = length m ->
  Forall (fun x => f (fst x) = g (snd x)) (combine l m) -> map f l = map g m.
Proof.
  induction l as [|a l IH]; intros [|b m] L F; try discriminate; [reflexivity|]. cbn [combine] in F. inversion F; subst.
  cbn [map fst snd] in *. f_equal; [assumption|]. apply IH; [now injection L|assumption].
Qed.
Lemma reach_fri cd zeta ch vd pr u :
  Hiding (cd_FriParams cd) = false -> cd_DegreeBits cd = fp_DegreeBits (cd_FriParams cd) ->
  length (FriQueryIndices ch) = NumQueryRounds (cc_FriConfig (cd_Config cd)) ->
  reach (instance <- GetInstance cd zeta;;
         VerifyFriProof (cd_FriParams cd) instance (ToOpenings (Openings pr)) ch
           [ConstantSigmasCap vd; WiresCap pr; PlonkZsPartialProductsCap pr; QuotientPolysCap pr] (OpeningProof pr)) u ->
  fri_consistent cd pr vd.
Proof.
  intros Hh ED Li R. rb R ins HI. unfold GetInstance in HI. rb HI g Hg. apply reach_root in Hg. rb HI zn Hz. cbn [reach] in HI. subst ins.
  unfold VerifyFriProof in R. cbv zeta in R. rb R u1 H1. rb R u2 H2. rb R u3 H3. rb R pre Hp. rb R u4 H4.
  apply (enforces_sound _ _ _ _ (validate_shape_correct _ _ _)) in H1. destruct H1 as [(S1 & S2 & S3 & S4) _]. cbn [Oracles] in S2.
  apply reach_panic_if in H3, H4. apply negb_false_iff, Nat.eqb_eq in H3. apply negb_false_iff, Nat.eqb_eq in H4.
  unfold fri_consistent. cbv zeta. unfold TotalArities in *. rewrite ED in Hg.
  split; [congruence|]. split; [congruence|]. split; [exact Hg|]. split; [exact S3|].
  split.
  { rewrite S4. unfold shl_int. destruct (Z.ltb_spec (Z.of_nat (fp_DegreeBits (cd_FriParams cd) - list_sum (ReductionArityBits (cd_FriParams cd)))) 63); [reflexivity|lia]. }
  split.
  { unfold assertLeadingZeros, RangeCheckWithMaxBits, range_ in H2. cbn [reach] in H2. destruct H2 as [H2 _].
    destruct (Nat.le_gt_cases (ProofOfWorkBits (fp_Config (cd_FriParams cd))) 64) as [L|L]; [exact L|]. rewrite Z.pow_neg_r in H2 by lia. lia. }
  intros Ne.
  assert (RR : forall round, In round (QueryRoundProofs (OpeningProof pr)) -> exists x v, reach (verifyQueryRound (cd_FriParams cd)
     (mkInstanceInfo (friOracles cd) [mkBatchInfo zeta (friAllPolys cd); mkBatchInfo zn (friZSPolys cd)]) ch pre
     [ConstantSigmasCap vd; WiresCap pr; PlonkZsPartialProductsCap pr; QuotientPolysCap pr] (OpeningProof pr) x
     (fp_DegreeBits (cd_FriParams cd) + RateBits (fp_Config (cd_FriParams cd))) round) v).
  { intros round I. destruct (In_nth_error _ _ I) as [i Hi]. assert (Hlt : (i < length (FriQueryIndices ch))%nat) by (rewrite H4; apply nth_error_Some; congruence).
    destruct (nth_error (FriQueryIndices ch) i) as [x|] eqn:E; [|apply nth_error_None in E; lia].
    assert (I2 : In (x, round) (combine (FriQueryIndices ch) (QueryRoundProofs (OpeningProof pr)))).
    { clear - Hi E. revert i Hi E. generalize (QueryRoundProofs (OpeningProof pr)). induction (FriQueryIndices ch) as [|a l IH]; intros [|b m] [|i] Hi E; try discriminate.
      - injection Hi as ->. injection E as ->. now left.
      - right. eapply IH; eassumption. }
    destruct (reach_iterM_in _ _ _ _ R I2) as [v Rv]. exists x, v. exact Rv. }
  destruct (QueryRoundProofs (OpeningProof pr)) as [|r0 rs] eqn:EQ; [congruence|]. rewrite <- EQ in *.
  destruct (RR r0) as (x0 & v0 & R0); [rewrite EQ; now left|].
  destruct (reach_round _ _ _ _ _ _ _ _ _ _ R0 eq_refl) as (A1 & A2 & _ & A3 & A4 & A5).
  assert (C4 : CapHeight (fp_Config (cd_FriParams cd)) = 4%nat) by (apply A3; discriminate).
  split; [exact C4|]. split; [exact A5|]. split; [exact A1|]. split; [exact A2|]. split; [exact A4|]. split.
  { eapply Forall_impl; [|exact S1]. cbv beta. intros cap. rewrite C4. change (shl_int (Z.of_nat 4)) with 16. lia. }
  eapply Forall_impl; [|exact S2]. intros round (B1 & B2 & B3). rewrite C4 in *. unfold round_consistent. cbv zeta.
  destruct (steps_shape_16 _ _ _ B3 A5) as [B4 B5]. unfold LdeBits in *.
  split; [|split; [|split; [exact B4|]]].
  - transitivity (map NumPolys (friOracles cd)).
    + apply combine_map2; [exact B1|]. eapply Forall_impl; [|exact B2]. cbv beta. intros e [E _]. rewrite Hh, andb_false_r, Nat.add_0_r in E. exact E.
    + unfold friOracles, leaf_sizes. cbn [map NumPolys]. rewrite preprocessed. reflexivity.
  - apply Forall_forall. intros e I. rewrite Forall_forall in B2. destruct (In_nth_error _ _ I) as [i Hi].
    destruct (nth_error (friOracles cd) i) as [orc|] eqn:E.
    + refine (proj2 (B2 (e, orc) _)). clear - Hi E. revert i Hi E. generalize (friOracles cd).
      induction (InitialTreesProof round) as [|a l IH]; intros [|b m] [|i] Hi E; try discriminate.
      * injection Hi as ->. injection E as ->. now left.
      * right. eapply IH; eassumption.
    + apply nth_error_None in E. assert (i < length (InitialTreesProof round))%nat by (apply nth_error_Some; congruence). lia.
  - intros i step E. destruct (B5 i step E) as [D1 D2]. split; [exact D1|lia].
Qed.

(** *** Plonk *)
Lemma in_seq0 i n : (i < n)%nat -> In i (seq 0 n).
Proof. intros H. apply in_seq. lia. Qed.
Lemma all_below {A} (l : list A) n : (forall i, (i < n)%nat -> (i < length l)%nat) -> (n <= length l)%nat.
Proof. intros H. destruct n as [|n]; [lia|]. specialize (H n). lia. Qed.
Lemma reach_chunk nums dens q i out : reach (chunk_products nums dens q i) out -> (i * q < length nums /\ i * q + q <= length nums)%nat.
Proof.
  intros R. unfold chunk_products in R. rb R n0 H1. rb R d0 H2. apply reach_nth_ in H1. destruct H1 as [H1 _]. split; [exact H1|].
  destruct (Nat.le_gt_cases q 1) as [L|L]; [lia|].
  assert (I : In (q - 1)%nat (seq 1 (q - 1))) by (apply in_seq; lia).
  destruct (reach_foldM_in _ _ _ I _ _ R) as (acc & y & Ry). rb Ry n Hn. apply reach_nth_ in Hn. lia.
Qed.
Lemma reach_partial cd nums dens ch o out : reach (checkPartialProducts cd nums dens ch o) out ->
  (ch < length (PlonkZs o) /\ ch < length (PlonkZsNext o) /\ (ch + 1) * NumPartialProducts cd <= length (PartialProducts o) /\
   1 <= length nums /\ (NumPartialProducts cd + 1) * QuotientDegreeFactor cd <= length nums)%nat.
Proof.
  intros R. unfold checkPartialProducts in R. cbv zeta in R. rb R z H1. rb R pp H2. rb R zn H3.
  apply reach_nth_ in H1, H3. unfold slice in H2. rb H2 l' H2'. apply reach_slice_to in H2'.
  assert (I : In (NumPartialProducts cd) (seq 0 (NumPartialProducts cd + 1))) by (apply in_seq0; lia).
  destruct (reach_mapM_in _ _ _ _ R I) as [y Ry]. rb Ry nd Hnd. destruct nd as [np dp]. apply reach_chunk in Hnd.
  repeat split; try lia.
Qed.
Lemma reach_vanishing cd gates vars pc o zn out : reach (evalVanishingPoly cd gates vars pc o zn) out ->
  let s := cd_SelectorsInfo cd in let nrw := NumRoutedWires (cd_Config cd) in let nc := NumChallenges (cd_Config cd) in
  (length gates <= length (selectorIndices s))%nat /\ Forall (fun i => (i < length (groups s))%nat) (firstn (length gates) (selectorIndices s)) /\
  (nrw <= length (KIs cd))%nat /\ length out = nc /\
  ((1 <= nc)%nat -> (1 <= nrw /\ (NumPartialProducts cd + 1) * QuotientDegreeFactor cd <= nrw /\ nrw <= length (Wires o) /\ nrw <= length (PlonkSigmas o) /\
     nc <= length (PlonkZs o) /\ nc <= length (PlonkZsNext o) /\ nc * NumPartialProducts cd <= length (PartialProducts o))%nat).
Proof.
  intros R s nrw nc. unfold evalVanishingPoly in R. cbv zeta in R. rb R ct H1. rb R sids H2. rb R l0 H3. rb R terms H4.
  assert (G : forall i, (i < length gates)%nat -> exists j, nth_error (selectorIndices s) i = Some j /\ (j < length (groups s))%nat).
  { intros i Hi. destruct (nth_error gates i) as [g|] eqn:E; [|apply nth_error_None in E; lia].
    assert (I : In (i, g) (combine (seq 0 (length gates)) gates)).
    { clear - E. assert (X : forall a, In ((a + i)%nat, g) (combine (seq a (length gates)) gates)); [|exact (X 0%nat)].
      revert i E. induction gates as [|b l IH]; intros [|i] E a; try discriminate; cbn [length seq combine].
      - injection E as ->. left. now rewrite Nat.add_0_r.
      - right. replace (a + S i)%nat with (S a + i)%nat by lia. now apply IH. }
    unfold EvaluateGateConstraints in H1. destruct (reach_foldM_in _ _ _ I _ _ H1) as (acc & y & Ry). cbn [fst snd] in Ry.
    rb Ry si Hs. rb Ry gr Hg. apply reach_nth_ in Hs, Hg. exists si. tauto. }
  split; [|split; [|split; [|split]]].
  - apply all_below. intros i Hi. destruct (G i Hi) as (j & E & _). apply nth_error_Some. congruence.
  - apply Forall_forall. intros j I. destruct (In_nth_error _ _ I) as [i Hi].
    assert (Hl : (i < length gates)%nat).
    { assert (X : (i < length (firstn (length gates) (selectorIndices s)))%nat) by (apply nth_error_Some; congruence). rewrite firstn_length in X. lia. }
    destruct (G i Hl) as (j' & E & L). clear - Hi E L Hl. assert (X : nth_error (firstn (length gates) (selectorIndices s)) i = nth_error (selectorIndices s) i).
    { clear - Hl. revert i Hl. generalize (length gates) (selectorIndices s). induction n as [|n IH]; intros l i Hl; [lia|].
      destruct l as [|x l]; [reflexivity|]. destruct i as [|i]; [reflexivity|]. cbn [firstn nth_error]. apply IH. lia. }
    rewrite X, E in Hi. injection Hi as ->. exact L.
  - apply all_below. intros i Hi. destruct (reach_mapM_in _ _ _ i H2 (in_seq0 _ _ Hi)) as [y Ry]. rb Ry k Hk. apply reach_nth_ in Hk. tauto.
  - clear - R. fold nc in R. remember (repeat ZeroExtension nc) as acc eqn:Ea. assert (La : length acc = nc) by (subst; apply repeat_length). clear Ea.
    revert acc La R. induction (rev _) as [|x l IH]; intros acc La R; cbn [foldM] in R; [cbn [reach] in R; now subst|].
    rb R acc' H. apply reach_mapM_length in H. rewrite seq_length in H. eapply IH; eassumption.
  - intros Hnc. assert (T : forall i, (i < nc)%nat -> exists nds out, reach (mapM (wire_terms pc o sids i) (seq 0 nrw)) nds /\ length nds = nrw /\
       reach (checkPartialProducts cd (map fst nds) (map snd nds) i o) out).
    { intros i Hi. destruct (reach_mapM_in _ _ _ i H4 (in_seq0 _ _ Hi)) as [y Ry]. unfold challenge_terms in Ry.
      rb Ry z Hz. rb Ry zm Hzm. rb Ry z1 Hz1. rb Ry nds Hn. rb Ry cs Hc. exists nds, cs. split; [exact Hn|]. split; [|exact Hc].
      apply reach_mapM_length in Hn. now rewrite seq_length in Hn. }
    assert (P : forall i, (i < nc)%nat -> (i < length (PlonkZs o) /\ i < length (PlonkZsNext o) /\ (i + 1) * NumPartialProducts cd <= length (PartialProducts o) /\
       1 <= nrw /\ (NumPartialProducts cd + 1) * QuotientDegreeFactor cd <= nrw)%nat).
    { intros i Hi. destruct (T i Hi) as (nds & out' & _ & L & Rc). apply reach_partial in Rc. rewrite map_length, L in Rc. exact Rc. }
    assert (W : forall j, (j < nrw)%nat -> (j < length (Wires o) /\ j < length (PlonkSigmas o))%nat).
    { intros j Hj. destruct (T 0%nat) as (nds & out' & Rn & _); [lia|]. destruct (reach_mapM_in _ _ _ j Rn (in_seq0 _ _ Hj)) as [y Ry].
      unfold wire_terms in Ry. rb Ry w Hw. rb Ry g Hg. rb Ry wg Hwg. rb Ry b Hb. rb Ry sd Hsd. rb Ry bs Hbs. rb Ry nu Hnu. rb Ry si Hsi.
      apply reach_nth_ in Hw, Hsi. tauto. }
    pose proof (P 0%nat ltac:(lia)) as P0. pose proof (P (nc - 1)%nat ltac:(lia)) as P1.
    replace (nc - 1 + 1)%nat with nc in P1 by lia.
    split; [tauto|]. split; [tauto|]. split; [apply all_below; intros; now apply W|]. split; [apply all_below; intros; now apply W|].
    split; [apply all_below; intros; now apply P|]. split; [apply all_below; intros; now apply P|]. tauto.
Qed.
Lemma reach_plonk cd gates pc pr h u : reach (PlonkVerify cd gates pc (Openings pr) h) u -> length gates = length (GateIds cd) -> plonk_consistent cd pr.
Proof.
  intros R Lg. unfold PlonkVerify in R. rb R zn H1. rb R vs H2. rb R zh H3. apply reach_vanishing in H2. rewrite Lg in H2.
  destruct H2 as (A1 & A2 & A3 & A4 & A5). unfold plonk_consistent. cbv zeta. split; [exact A3|]. split; [exact A1|]. split; [exact A2|].
  intros Hnc. destruct (A5 Hnc) as (B1 & B2 & B3 & B4 & B5 & B6 & B7).
  set (nc := NumChallenges (cd_Config cd)) in *.
  assert (Q : ((nc - 1) * QuotientDegreeFactor cd + QuotientDegreeFactor cd <= length (QuotientPolys (Openings pr)))%nat).
  { destruct (nth_error vs (nc - 1)) as [v|] eqn:E; [|apply nth_error_None in E; lia].
    assert (I : In ((nc - 1)%nat, v) (combine (seq 0 (length vs)) vs)).
    { clear - E. revert E. generalize (nc - 1)%nat. intros i E. assert (X : forall a, In ((a + i)%nat, v) (combine (seq a (length vs)) vs)); [|exact (X 0%nat)].
      revert i E. induction vs as [|b l IH]; intros [|i] E a; try discriminate; cbn [length seq combine].
      - injection E as ->. left. now rewrite Nat.add_0_r.
      - right. replace (a + S i)%nat with (S a + i)%nat by lia. now apply IH. }
    destruct (reach_iterM_in _ _ _ _ R I) as [w Rw]. cbn [fst snd] in Rw. rb Rw ck Hck. unfold slice in Hck. rb Hck l' Hl. apply reach_slice_to in Hl. lia. }
  assert (E : ((nc - 1) * QuotientDegreeFactor cd + QuotientDegreeFactor cd = nc * QuotientDegreeFactor cd)%nat) by nia.
  repeat split; try assumption. lia.
Qed.

(** *** The circuit *)
Lemma created_length orders ids gs : reach (createdGates orders ids) gs -> length gs = length ids.
Proof. intros R. apply reach_mapM_length in R. rewrite combine_length, seq_length, Nat.min_id in R. exact R. Qed.
Lemma reach_challenges w cd pr h vd ch : reach (GetChallenges w cd pr h vd) ch ->
  length (FriQueryIndices (pc_FriChallenges ch)) = NumQueryRounds (cc_FriConfig (cd_Config cd)).
Proof.
  intros R. unfold GetChallenges in R. cbv zeta in R.
  rb R c1 H1. rb R c2 H2. rb R c3 H3. rb R x4 H4. destruct x4 as [? ?]. rb R x5 H5. destruct x5 as [? ?]. rb R c6 H6. rb R x7 H7. destruct x7 as [? ?].
  rb R c8 H8. rb R x9 H9. destruct x9 as [? ?]. rb R c10 H10. rb R x11 H11. destruct x11 as [fc c11]. cbn [reach] in R. subst ch. cbn [pc_FriChallenges].
  clear - H11. unfold GetFriChallenges in H11. cbv zeta in H11.
  rb H11 x1 H1. destruct x1 as [? ?]. rb H11 x2 H2. destruct x2 as [? ?]. rb H11 c3 H3. rb H11 c4 H4. rb H11 x5 H5. destruct x5 as [? ?].
  rb H11 x6 H6. destruct x6 as [ix c6]. cbn [reach] in H11. injection H11 as <- _. cbn [FriQueryIndices]. now apply reach_n_challenges in H6.
Qed.

(** Whatever the proof, and with any width of the S-box checks: if the definition of the circuit
    does not abort and the constraints can be met then the configuration that was read satisfies
    the equations, and the proof has the sizes that follow from them. *)
Theorem C56_consistent : forall j cd orders w pr pis vd, ReadCommonCircuitData j = Some cd ->
  sat (Define orders w cd pr pis vd) -> fri_consistent cd pr vd /\ plonk_consistent cd pr.
Proof.
  intros j cd orders w pr pis vd HR [u R]. destruct (C56_read_degree j cd HR) as [ED Hh].
  unfold Define, NewVerifierChip in R. rb R gs Hg. apply created_length in Hg. unfold Verify in R. cbv zeta in R.
  rb R u1 H1. rb R h H2. rb R ch H3. rb R u2 H4. apply reach_challenges in H3. split.
  - eapply reach_fri; eassumption.
  - eapply reach_plonk; eassumption.
Qed.

(** ** Inconsistencies that do not abort *)
(** the fields on which the circuit depends: of Config.FriConfig only the number of query rounds;
    not Config.NumConstants, UseBaseArithmeticGate, SecurityBits, ZeroKnowledge,
    MaxQuotientDegreeFactor, NumPublicInputs *)
Definition same_used (a b : CommonCircuitData) : Prop :=
  NumWires (cd_Config a) = NumWires (cd_Config b) /\ NumRoutedWires (cd_Config a) = NumRoutedWires (cd_Config b) /\
  NumChallenges (cd_Config a) = NumChallenges (cd_Config b) /\
  NumQueryRounds (cc_FriConfig (cd_Config a)) = NumQueryRounds (cc_FriConfig (cd_Config b)) /\
  cd_FriParams a = cd_FriParams b /\ GateIds a = GateIds b /\ cd_SelectorsInfo a = cd_SelectorsInfo b /\
  cd_DegreeBits a = cd_DegreeBits b /\ QuotientDegreeFactor a = QuotientDegreeFactor b /\
  NumGateConstraints a = NumGateConstraints b /\ cd_NumConstants a = cd_NumConstants b /\ KIs a = KIs b /\
  NumPartialProducts a = NumPartialProducts b.
Theorem C56_unused : forall a b orders w pr pis vd, same_used a b -> Define orders w a pr pis vd = Define orders w b pr pis vd.
Proof.
  intros a b orders w pr pis vd (E1 & E2 & E3 & E4 & E5 & E6 & E7 & E8 & E9 & E10 & E11 & E12 & E13).
  destruct a as [[? ? ? ? ? ? ? ? [? ? ? ?]] ? ? ? ? ? ? ? ? ? ?], b as [[? ? ? ? ? ? ? ? [? ? ? ?]] ? ? ? ? ? ? ? ? ? ?].
  cbn in E1, E2, E3, E4, E5, E6, E7, E8, E9, E10, E11, E12, E13. subst. reflexivity.
Qed.
(** Without query rounds no commitment is opened: the circuit does not depend on the commitment
    to the constants and permutation in the verification key. *)
Theorem C56_no_queries : forall orders w cd pr pis cap cap' digest, NumQueryRounds (fp_Config (cd_FriParams cd)) = 0%nat ->
  sat (Define orders w cd pr pis (mkVerifierOnlyCircuitData cap digest)) -> sat (Define orders w cd pr pis (mkVerifierOnlyCircuitData cap' digest)).
Proof.
  intros orders w cd pr pis cap cap' digest E [u R]. exists u. unfold Define in *. rb R gs Hg. apply reach_bind. exists gs. split; [exact Hg|].
  unfold Verify in *. cbv zeta in *. rb R u1 H1. rb R h H2. rb R ch H3. rb R u2 H4. rb R ins H5.
  apply reach_bind. exists u1. split; [exact H1|]. apply reach_bind. exists h. split; [exact H2|].
  apply reach_bind. exists ch. split; [exact H3|]. apply reach_bind. exists u2. split; [exact H4|]. apply reach_bind. exists ins. split; [exact H5|].
  clear H1 H2 H3 H4 H5. unfold VerifyFriProof in *. cbv zeta in *. rb R v1 H1. rb R v2 H2. rb R v3 H3. rb R pre H4. rb R v4 H5.
  apply reach_bind. exists v1. split; [exact H1|]. apply reach_bind. exists v2. split; [exact H2|].
  apply reach_bind. exists v3. split; [exact H3|]. apply reach_bind. exists pre. split; [exact H4|]. apply reach_bind. exists v4. split; [exact H5|].
  apply reach_panic_if in H3. rewrite E in H3. destruct (QueryRoundProofs (OpeningProof pr)); [|discriminate H3].
  rewrite combine_nil in *. exact R.
Qed.
(** Members that are missing from the file are read as zero, among them the number of proof of
    work bits and of query rounds. *)
Lemma dec_members_missing {T} (fs : list (fieldOf T)) f : struct_ok fs -> In f fs -> forall ms t t', dec_members fs ms t = Some t' ->
  (forall k v, In (k, v) ms -> ~ same_key k (field_name f)) -> agrees f t' t.
Proof.
  intros OK Hf. induction ms as [|[k v] ms IH]; intros t t' E N; cbn [dec_members] in E.
  - injection E as ->. destruct f. reflexivity.
  - destruct (findField k fs) as [g|] eqn:Eg.
    + destruct (findField_some _ _ _ Eg) as [Hg Ng].
      assert (NE : f <> g). { intros ->. apply (N k v (or_introl eq_refl)). apply foldName_inj. congruence. }
      destruct (field_dec g v t) as [t1|] eqn:E1; [|discriminate].
      assert (A : agrees f t' t1) by (apply (IH t1 t' E); intros k' v' I; apply (N k' v'); now right).
      pose proof (apart_in _ OK f g Hf Hg NE) as AP. destruct f as [F n get set d], g as [G n' get' set' d']. cbn [apart agrees field_dec] in *.
      destruct (d' v (get' t)) as [x|]; [|discriminate E1]. injection E1 as <-. rewrite A. apply AP.
    + apply (IH t t' E). intros k' v' I. apply (N k' v'). now right.
Qed.
Theorem C56_missing : forall ms raw, dec_RawFriConfig (JObj ms) zero_RawFriConfig = Some raw ->
  ((forall k v, In (k, v) ms -> ~ same_key k "proof_of_work_bits") -> ProofOfWorkBits (friConfig raw) = 0%nat) /\
  ((forall k v, In (k, v) ms -> ~ same_key k "num_query_rounds") -> NumQueryRounds (friConfig raw) = 0%nat).
Proof.
  intros ms raw E. unfold dec_RawFriConfig in E. cbn [dec_obj] in E. split; intros N.
  - assert (I : In (nth 2 fields_RawFriConfig (nth 0 fields_RawFriConfig (Field "" rc_RateBits (fun _ t => t) dec_u64))) fields_RawFriConfig) by (cbn; tauto).
    pose proof (dec_members_missing _ _ ok_FriConfig I _ _ _ E N) as A. cbn [nth fields_RawFriConfig agrees] in A. unfold friConfig. cbn [ProofOfWorkBits]. now rewrite A.
  - assert (I : In (nth 4 fields_RawFriConfig (nth 0 fields_RawFriConfig (Field "" rc_RateBits (fun _ t => t) dec_u64))) fields_RawFriConfig) by (cbn; tauto).
    pose proof (dec_members_missing _ _ ok_FriConfig I _ _ _ E N) as A. cbn [nth fields_RawFriConfig agrees] in A. unfold friConfig. cbn [NumQueryRounds]. now rewrite A.
Qed.

(** An inconsistent configuration that does not abort: it promises 100 bits of security with 16
    bits of proof of work and rate 1/8, and 5 public inputs; the FRI parameters that are used
    have no proof of work, rate 1 and no query rounds, there are no public inputs, and a
    proof is accepted. *)
Definition nat_json (n : nat) : json := JUint (Z.of_nat n).
Definition fri_json (rate cap pow rounds : nat) : json := JObj [
  ("rate_bits"%string, nat_json rate); ("cap_height"%string, nat_json cap); ("proof_of_work_bits"%string, nat_json pow);
  ("reduction_strategy"%string, JObj [("ConstantArityBits"%string, JArr [JUint 4; JUint 5])]); ("num_query_rounds"%string, nat_json rounds)].
Definition weak_json : json := JObj [
  ("config"%string, JObj [
    ("num_wires"%string, JUint 1); ("num_routed_wires"%string, JUint 1); ("num_constants"%string, JUint 2);
    ("use_base_arithmetic_gate"%string, JBool true); ("security_bits"%string, JUint 100); ("num_challenges"%string, JUint 1);
    ("zero_knowledge"%string, JBool false); ("max_quotient_degree_factor"%string, JUint 8); ("fri_config"%string, fri_json 3 4 16 0)]);
  ("fri_params"%string, JObj [
    ("config"%string, fri_json 0 0 0 0); ("hiding"%string, JBool false); ("degree_bits"%string, JUint 0); ("reduction_arity_bits"%string, JArr [])]);
  ("gates"%string, JArr [JStr "NoopGate"]);
  ("selectors_info"%string, JObj [
    ("selector_indices"%string, JArr [JUint 0]);
    ("groups"%string, JArr [JObj [("start"%string, JUint 0); ("end"%string, JUint 1)]])]);
  ("quotient_degree_factor"%string, JUint 1); ("num_gate_constraints"%string, JUint 0); ("num_constants"%string, JUint 0);
  ("num_public_inputs"%string, JUint 5); ("k_is"%string, JArr [JUint 0]); ("num_partial_products"%string, JUint 0)].
Definition weak_cd : CommonCircuitData :=
  mkCommonCircuitData (mkCircuitConfig 1 1 2 true 100 1 false 8 (mkFriConfig 3 4 16 0)) (mkFriParams (mkFriConfig 0 0 0 0) false 0 []) ["NoopGate"%string]
    (mkSelectorsInfo [0%nat] [(0%nat, 1%nat)]) 0 1 0 0 5 [0] 0.
Example C56_weak_ex : ReadCommonCircuitData weak_json = Some weak_cd.
Proof. vm_compute. reflexivity. Qed.
Theorem C56_refuted : exists j cd orders pr pis vd, ReadCommonCircuitData j = Some cd /\
  ProofOfWorkBits (cc_FriConfig (cd_Config cd)) = 16%nat /\ ProofOfWorkBits (fp_Config (cd_FriParams cd)) = 0%nat /\
  RateBits (cc_FriConfig (cd_Config cd)) = 3%nat /\ RateBits (fp_Config (cd_FriParams cd)) = 0%nat /\
  SecurityBits (cd_Config cd) = 100%nat /\ NumQueryRounds (fp_Config (cd_FriParams cd)) = 0%nat /\
  NumPublicInputs cd = 5%nat /\ pis = [] /\ (forall i, Permutation (orders i) gateRegexHandlers) /\
  sat (Define orders 192 cd pr pis vd).
Proof.
  destruct C52_ex as (t & _ & _ & _ & _ & _ & R).
  exists weak_json, weak_cd, (fun _ => gateRegexHandlers), (tiny_proof [] [0] [0] t), [], (mkVerifierOnlyCircuitData [] 0).
  split; [exact C56_weak_ex|]. do 8 (split; [reflexivity|]). split; [intros _; apply Permutation_refl|].
  rewrite (C56_unused weak_cd tiny_cd) by (repeat split; reflexivity). exists tt. now apply run_reach.
Qed.
(** the hypotheses of [C56_consistent] and [C56_no_queries] are met by it; those of [C56_read] by: *)
Example C56_read_ex : is_common_data weak_json weak_cd.
Proof.
  assert (D : forall ms, NoDup (map (fun m => foldName (fst m)) ms) -> distinct_keys ms).
  { intros ms. unfold distinct_keys. induction ms as [|m l IH]; intros N; constructor; inversion N as [|? ? Q N']; subst; auto.
    rewrite Forall_forall. intros x I S. apply Q. apply foldName_inj in S. apply in_map_iff. exists x. auto. }
  Ltac find := eexists; split; [repeat (first [left; reflexivity|right])|].
  Ltac obj D := eexists; split; [reflexivity|split; [apply D; keys|repeat (apply Forall_cons; [find; cbn [fst snd]|]); try apply Forall_nil]].
  Ltac leaf := first [split; [reflexivity|cbn; lia]|reflexivity].
  unfold is_common_data. obj D; try leaf.
  - unfold is_config. obj D; try leaf. unfold is_fri_config. obj D; try leaf. exists [4; 5]. obj D. eexists. split; [reflexivity|]. repeat constructor; cbn; lia.
  - unfold is_fri_params. obj D; try leaf; [|eexists; split; [reflexivity|constructor]].
    unfold is_fri_config. obj D; try leaf. exists [4; 5]. obj D. eexists. split; [reflexivity|]. repeat constructor; cbn; lia.
  - eexists. split; [reflexivity|]. repeat constructor.
  - unfold is_selectors. obj D.
    + eexists. split; [reflexivity|]. repeat constructor; cbn; lia.
    + eexists. split; [reflexivity|]. constructor; [|constructor]. unfold is_group. obj D; leaf.
  - eexists. split; [reflexivity|]. repeat constructor; cbn; lia.
Qed.

Print Assumptions C56_read.
Print Assumptions C56_hiding.
Print Assumptions C56_read_degree.
Print Assumptions C56_consistent.
Print Assumptions C56_unused.
Print Assumptions C56_no_queries.
Print Assumptions C56_missing.
Print Assumptions C56_refuted.
