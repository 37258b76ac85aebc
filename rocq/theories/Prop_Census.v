(** * Property C89: the size of the circuits of testdata, and that they compile, without assumptions
      about the number of range checks. *)
From Coq Require Import String.
From Coq Require Import ZArith NArith Lia List Bool Permutation.
From Verif Require Import Zp GF Circuit Goldilocks PoseidonSpec PoseidonGL PoseidonGLProofs Sponge DenP BN254 BN254Hash Types Challenger Fri FriQuery FriTop Gates GateAll Prop_Gates Plonk PlonkRows GateIds GateIdText Verifier VerifierProofs Prop_Verifier Malleable Prop_Forgery
  PlonkProver Honest Complete Prop_Complete Uniform UniformAll Prop_Uniform Census
  RangeModes RangeProofs Prop_Range Widths Prop_Modes Requests Prop_Requests TestData Prop_TestData.
Import ListNotations.
Open Scope Z_scope.
Local Opaque PoseidonBN HashOrNoop TwoToOne poseidon.

(** ** The inputs *)
(** what the code takes as it comes: the numbers of openings, of commitments of the FRI proof and of
    public inputs *)
Definition given (t : testcase) (pr : Proof_) (pis : list Z) : Prop :=
  let o := Openings pr in
  length (Constants o) = match t with Block => 5%nat | Step => 6%nat end /\ length (PlonkSigmas o) = 80%nat /\ length (Wires o) = 136%nat /\
  length (PlonkZs o) = 2%nat /\ length (PlonkZsNext o) = 2%nat /\ length (PartialProducts o) = 18%nat /\ length (QuotientPolys o) = 16%nat /\
  length (CommitPhaseMerkleCaps (OpeningProof pr)) = 2%nat /\ length pis = nbPublicInputs t.
(** what it checks: caps of sixteen digests, *)
Definition caps_sizes (pr : Proof_) (vd : VerifierOnlyCircuitData) : Prop :=
  Forall (fun c => length c = 16%nat) [ConstantSigmasCap vd; WiresCap pr; PlonkZsPartialProductsCap pr; QuotientPolysCap pr] /\
  Forall (fun c => length c = 16%nat) (CommitPhaseMerkleCaps (OpeningProof pr)).
(** and a FRI proof of 28 rounds, each with four leaves and two steps *)
Definition round_sizes (t : testcase) (q : FriQueryRound) : Prop :=
  map (fun e => (length (Elements e), length (ep_Siblings e))) (InitialTreesProof q) =
    (let s := match t with Block => 11 | Step => 12 end in [(match t with Block => 85 | Step => 86 end, s); (136, s); (20, s); (16, s)])%nat /\
  map (fun e => (length (Evals e), length (st_Siblings e))) (Steps q) =
    match t with Block => [(16, 7); (16, 3)] | Step => [(16, 8); (16, 4)] end%nat.
Definition fri_sizes (t : testcase) (f : FriProof) : Prop :=
  length (QueryRoundProofs f) = 28%nat /\ Forall (round_sizes t) (QueryRoundProofs f) /\
  length (FinalPoly f) = match t with Block => 16%nat | Step => 32%nat end.

Definition sizes (t : testcase) (pr : Proof_) (pis : list Z) (vd : VerifierOnlyCircuitData) : Prop :=
  given t pr pis /\ caps_sizes pr vd /\ fri_sizes t (OpeningProof pr).

(** ** Lemmas *)
Lemma Forall_repeat2 {A B} (P : A -> Prop) (R : A -> B -> Prop) b : (forall a, P a -> R a b) ->
  forall l, Forall P l -> Forall2 R l (repeat b (length l)).
Proof. intros H l F. induction F as [|a l Ha _ IH]; cbn [length repeat]; constructor; auto. Qed.
Lemma placeholder_shape t pr pis vd : sizes t pr pis vd ->
  Prop_Uniform.same_shape (pr, pis, vd) (placeholder t, zeros (nbPublicInputs t), mkVerifierOnlyCircuitData (zeros 16) 0).
Proof.
  intros ((D1 & D2 & D3 & D4 & D5 & D6 & D7 & D10 & P) & (C4 & D11) & (F1 & F2 & F3)).
  assert (V : length (ConstantSigmasCap vd) = 16%nat) by exact (Forall_inv C4). apply Forall_inv_tail in C4.
  assert (W : length (WiresCap pr) = 16%nat) by exact (Forall_inv C4). apply Forall_inv_tail in C4.
  assert (D8 : length (PlonkZsPartialProductsCap pr) = 16%nat) by exact (Forall_inv C4). apply Forall_inv_tail in C4.
  assert (D9 : length (QuotientPolysCap pr) = 16%nat) by exact (Forall_inv C4). clear C4.
  unfold Prop_Uniform.same_shape, same_length. cbn [fst snd]. split; [|split; [unfold zeros; rewrite repeat_length; exact P|exact V]].
  unfold Prop_Uniform.proof_shape, same_length. cbn [placeholder WiresCap PlonkZsPartialProductsCap QuotientPolysCap].
  split; [exact W|]. split; [exact D8|]. split; [exact D9|]. split.
  - unfold opening_shape, same_length, placeholder. cbn [Openings Constants PlonkSigmas Types.Wires PlonkZs PlonkZsNext PartialProducts QuotientPolys].
    split; [rewrite D1; destruct t; reflexivity|]. repeat (split; [assumption|]). assumption.
  - unfold Prop_Uniform.fri_shape, placeholder. cbn [OpeningProof CommitPhaseMerkleCaps QueryRoundProofs FinalPoly]. split; [|split].
    + revert D10 D11. destruct (CommitPhaseMerkleCaps (OpeningProof pr)) as [|a [|b [|c l]]]; try discriminate. intros _ F. inversion F as [|? ? Fa F']; subst. inversion F' as [|? ? Fb _]; subst.
      constructor; [exact Fa|]. constructor; [exact Fb|constructor].
    + match goal with |- Forall2 _ _ (repeat ?b _) => assert (R : forall q, round_sizes t q -> Prop_Uniform.round_shape q b); [|pose proof (Forall_repeat2 _ _ b R _ F2) as X; rewrite F1 in X; exact X] end.
      clear F1 F2. intros [tr st] [R1 R2]. cbn [InitialTreesProof Steps] in *. split; cbn [InitialTreesProof Steps].
      * clear R2. destruct tr as [|e1 [|e2 [|e3 [|e4 [|e5 tr]]]]]; try (destruct t; discriminate R1). cbn [map] in *.
        destruct t; injection R1 as A1 B1 A2 B2 A3 B3 A4 B4; (constructor; [exact (conj A1 B1)|]; constructor; [exact (conj A2 B2)|]; constructor; [exact (conj A3 B3)|]; constructor; [exact (conj A4 B4)|]; constructor).
      * clear R1. destruct st as [|e1 [|e2 [|e3 st]]]; try (destruct t; discriminate R2). cbn [map] in *.
        destruct t; injection R2 as A1 B1 A2 B2; (constructor; [exact (conj A1 B1)|]; constructor; [exact (conj A2 B2)|]; constructor).
    + unfold same_length. rewrite F3. destruct t; reflexivity.
Qed.

(** the widths of the requests of a trace are those of the layout *)
Definition ranges (e : list Uniform.event) : list Z := flat_map (fun x => match x with ERange n => [n] | _ => [] end) e.
Lemma traces_ranges {A} (c : circ A) : forall v l, traces c v l -> exists hs, map snd l = ranges (layout c hs).
Proof.
  induction c as [x|g n k IH|b k IH|x n k IH|m]; intros v l T; cbn [traces] in T.
  - destruct T as [_ ->]. now exists [].
  - destruct T as (h & L & _ & T). destruct (IH _ _ _ T) as [hs E]. exists (h :: hs). cbn [layout hd tl]. rewrite (fit_id n h L). exact E.
  - destruct T as [_ T]. destruct (IH _ _ T) as [hs E]. now exists hs.
  - destruct T as (l' & -> & T). destruct (IH _ _ T) as [hs E]. exists hs. cbn [map snd layout ranges flat_map app]. f_equal. exact E.
  - contradiction.
Qed.
Lemma ranges_count w e : occurrences (Z.eqb w) (ranges e) = occurrences (is_range w) e.
Proof.
  induction e as [|x e IH]; [reflexivity|]. rewrite occ_cons. destruct x; cbn [ranges flat_map app is_range]; try exact IH.
  rewrite occ_cons. fold (ranges e). rewrite IH. now rewrite Z.eqb_sym.
Qed.
Lemma ranges_length e : filter other e = [] ->
  N.of_nat (length (ranges e)) = (occurrences (is_range 32) e + occurrences (is_range 48) e + occurrences (is_range 144) e + occurrences (is_range 192) e)%N.
Proof.
  induction e as [|x e IH]; [reflexivity|]. cbn [filter]. destruct (other x) eqn:O; [discriminate|]. intros E. specialize (IH E). rewrite !occ_cons.
  destruct x; cbn [ranges flat_map app is_range other] in *; fold (ranges e); try discriminate O; try (rewrite IH; lia).
  apply negb_false_iff in O. cbn [length]. rewrite Nat2N.inj_succ, IH.
  destruct (Z.eqb_spec bits 32) as [->|]; [cbn [Z.eqb Pos.eqb]; lia|]. destruct (Z.eqb_spec bits 48) as [->|]; [cbn [Z.eqb Pos.eqb]; lia|].
  destruct (Z.eqb_spec bits 144) as [->|]; [cbn [Z.eqb Pos.eqb]; lia|]. destruct (Z.eqb_spec bits 192) as [->|]; [cbn [Z.eqb Pos.eqb]; lia|]. discriminate O.
Qed.

(** the definition for a test circuit is that for its gates, whatever the order of the table *)
Lemma test_verify orders w t pr pis vd : (forall i, Permutation (orders i) gateRegexHandlers) ->
  Define orders w (data t) pr pis vd = Verify w (data t) (gates_of t) pr pis vd.
Proof. intros HO. exact (define_verify orders (data t) (gates_of t) pr pis vd HO (proj2 (proj2 (C86_files t))) w). Qed.
Lemma test_layout_placeholder orders t pr pis vd hs : (forall i, Permutation (orders i) gateRegexHandlers) ->
  sizes t pr pis vd -> layout (Define orders 192 (data t) pr pis vd) hs = layout (placeholder_circuit t) [].
Proof.
  intros HO S. unfold placeholder_circuit. rewrite <- (test_verify orders 192 t _ _ _ HO).
  exact (C77_layout orders 192 (data t) _ _ HO (placeholder_shape t pr pis vd S) hs []).
Qed.

(** ** What the code checks of the shape itself *)
(** [ends c v]: the definition comes to its end, with result [v], for some outputs of the hints;
    whether the equations and range checks hold does not matter for that *)
Fixpoint ends {A} (c : circ A) (v : A) : Prop :=
  match c with
  | Ret x => x = v
  | Hint _ n k => exists h, length h = n /\ ends (k h) v
  | Assert _ k => ends k v
  | Range _ _ k => ends k v
  | Panic _ => False
  end.
Lemma traces_ends {A} (c : circ A) : forall v l, traces c v l -> ends c v.
Proof.
  induction c as [x|g n k IH|b k IH|x n k IH|m]; intros v l T; cbn [traces ends] in *; [tauto| | | |exact T].
  - destruct T as (h & L & _ & T). eauto.
  - destruct T as [_ T]. eauto.
  - destruct T as (l' & _ & T). eauto.
Qed.
Lemma panic_free_ends {A} (c : circ A) : forall hs, panic_free (layout c hs) -> exists v, ends c v.
Proof.
  induction c as [x|g n k IH|b k IH|x n k IH|m]; intros hs P; cbn [layout ends] in *.
  - now exists x.
  - destruct (IH _ (tl hs) (fun m H => P m (or_intror H))) as [v E]. exists v. eexists. split; [apply fit_length|exact E].
  - exact (IH hs (fun m H => P m (or_intror H))).
  - exact (IH hs (fun m H => P m (or_intror H))).
  - exfalso. exact (P m (or_introl eq_refl)).
Qed.
Lemma ends_bind {A B} (c : circ A) (f : A -> circ B) : forall v, ends (bind c f) v -> exists u, ends c u /\ ends (f u) v.
Proof.
  induction c as [x|g n k IH|b k IH|x n k IH|m]; intros v E; cbn [bind ends] in *.
  - exists x. auto.
  - destruct E as (h & L & E). apply IH in E. destruct E as (u & E1 & E2). exists u. eauto.
  - auto.
  - auto.
  - contradiction.
Qed.
Lemma still_ends {A} (c : circ A) v : still c -> ends c v -> reach c v.
Proof. destruct c; cbn; try contradiction. intros _ ->. reflexivity. Qed.
Lemma panic_if_ends b m v : ends (panic_if b m) v -> b = false.
Proof. destruct b; cbn; [contradiction|reflexivity]. Qed.
Lemma still_iterM {A} (f : A -> circ unit) l : (forall a, still (f a)) -> still (iterM f l).
Proof. intros H. induction l as [|x l IH]; cbn [iterM]; [exact I|]. apply still_bind; auto. Qed.
Lemma still_foldM {A B} (f : B -> A -> circ B) l : (forall b a, still (f b a)) -> forall b, still (foldM f b l).
Proof. intros H. induction l as [|x l IH]; intros b; cbn [foldM]; [exact I|]. apply still_bind; auto. Qed.
Lemma still_panic_if b m : still (panic_if b m). Proof. destruct b; exact I. Qed.
Lemma still_validate proof inst params : still (validateFriProofShape proof inst params).
Proof.
  unfold validateFriProofShape. apply still_bind; [apply still_iterM; intros; apply still_panic_if|]. intros _.
  apply still_bind.
  - apply still_iterM. intros q. apply still_bind.
    + unfold validateInitial. apply still_bind; [apply still_panic_if|]. intros _. apply still_iterM. intros [e o]. apply still_bind; intros; apply still_panic_if.
    + intros _. unfold validateSteps. apply still_bind; [apply still_panic_if|]. intros _. apply still_bind; [|intros; exact I].
      apply still_foldM. intros b [st a]. apply still_bind; [apply still_panic_if|]. intros _. apply still_bind; [apply still_panic_if|]. intros _. exact I.
  - intros _. apply still_bind; [unfold FinalPolyLen; destruct (_ <? _); exact I|]. intros. apply still_panic_if.
Qed.
Lemma instance_ends cd zeta inst : ends (GetInstance cd zeta) inst -> Oracles inst = friOracles cd.
Proof.
  unfold GetInstance. intros T. apply ends_bind in T. destruct T as (g & _ & T). apply ends_bind in T.
  destruct T as (z & _ & T). cbn [ends] in T. now subst inst.
Qed.
Lemma iterM_ends {A} (f : A -> circ unit) l : forall v, ends (iterM f l) v -> forall x, In x l -> exists v', ends (f x) v'.
Proof.
  induction l as [|y l IH]; intros v T x [].
  - subst y. cbn [iterM] in T. apply ends_bind in T. destruct T as (u & T & _). eauto.
  - cbn [iterM] in T. apply ends_bind in T. destruct T as (u & _ & T). eauto.
Qed.
Lemma merkle_ends leaf bits cbits cap sibs v : ends (verifyMerkleProofToCapWithCapIndex leaf bits cbits cap sibs) v -> length cap = 16%nat.
Proof.
  unfold verifyMerkleProofToCapWithCapIndex. intros T. apply ends_bind in T. destruct T as (? & _ & T).
  apply ends_bind in T. destruct T as (? & Q & _). apply panic_if_ends in Q. apply orb_false_iff in Q. destruct Q as [_ Q].
  now apply negb_false_iff, Nat.eqb_eq in Q.
Qed.
Lemma round_ends fp inst ch pre caps proof x n q v : ends (verifyQueryRound fp inst ch pre caps proof x n q) v ->
  Forall (fun c : FriMerkleCap => length c = 16%nat) caps.
Proof.
  unfold verifyQueryRound. intros T. do 6 (apply ends_bind in T; destruct T as (? & _ & T)).
  apply ends_bind in T. destruct T as (? & T & _). unfold verifyInitialProof in T.
  apply ends_bind in T. destruct T as (? & Q & T). apply panic_if_ends in Q. apply negb_false_iff, Nat.eqb_eq in Q.
  apply Forall_forall. intros c Hc. destruct (In_nth _ _ [] Hc) as (i & Hi & E).
  destruct (iterM_ends _ _ _ T (nth i (InitialTreesProof q) (mkFriEvalProof [] []), c)) as (v' & M).
  - rewrite <- E, <- combine_nth by exact Q. apply nth_In. rewrite combine_length, Q, Nat.min_id. exact Hi.
  - cbn [fst snd] in M. exact (merkle_ends _ _ _ _ _ _ M).
Qed.
Lemma verify_checks w cd gates pr pis vd v : ends (Verify w cd gates pr pis vd) v ->
  FriTop.fri_shape (OpeningProof pr) (friOracles cd) (cd_FriParams cd) /\ length (QueryRoundProofs (OpeningProof pr)) = NumQueryRounds (fp_Config (cd_FriParams cd)) /\
  (QueryRoundProofs (OpeningProof pr) <> [] -> Forall (fun c => length c = 16%nat) [ConstantSigmasCap vd; WiresCap pr; PlonkZsPartialProductsCap pr; QuotientPolysCap pr]).
Proof.
  intros T. unfold Verify in T. do 4 (apply ends_bind in T; destruct T as (? & _ & T)). cbv zeta in T.
  apply ends_bind in T. destruct T as (inst & I & T). apply instance_ends in I.
  unfold VerifyFriProof in T. apply ends_bind in T. destruct T as (u & V & T).
  apply (still_ends _ _ (still_validate _ _ _)) in V. apply (proj2 (validate_shape_correct _ _ _)) in V. rewrite I in V. split; [exact (proj1 V)|].
  apply ends_bind in T. destruct T as (? & _ & T). apply ends_bind in T. destruct T as (? & Q & T).
  apply panic_if_ends in Q. apply negb_false_iff, Nat.eqb_eq in Q. split; [now symmetry|].
  apply ends_bind in T. destruct T as (? & _ & T). cbv zeta in T. apply ends_bind in T. destruct T as (? & Q' & T).
  apply panic_if_ends in Q'. apply negb_false_iff, Nat.eqb_eq in Q'. intros NE.
  match type of T with ends (iterM _ (combine ?a ?b)) _ => destruct a as [|xi_ xs_]; destruct b as [|qi_ qs_]; try discriminate Q'; [now destruct NE|] end.
  destruct (iterM_ends _ _ _ T (xi_, qi_) ltac:(now left)) as (? & R). exact (round_ends _ _ _ _ _ _ _ _ _ _ R).
Qed.
Lemma steps_sizes h n steps arities : steps_shape h n steps arities ->
  map (fun e => (Z.of_nat (length (Evals e)), Z.of_nat (length (st_Siblings e) + h))) steps =
  (fix f n l := match l with [] => [] | a :: l' => (shl_int (Z.of_nat a), n - Z.of_nat a) :: f (n - Z.of_nat a) l' end) n arities.
Proof.
  revert n arities. induction steps as [|s steps IH]; intros n [|a arities] H; try contradiction H; [reflexivity|]. destruct H as (H1 & H2 & H3).
  cbn [map]. rewrite H1, H2. f_equal. exact (IH _ _ H3).
Qed.

(** ** C89 *)
Lemma ends_sizes t orders w pr pis vd v : (forall i, Permutation (orders i) gateRegexHandlers) ->
  ends (Define orders w (data t) pr pis vd) v -> caps_sizes pr vd /\ fri_sizes t (OpeningProof pr).
Proof.
  intros HO T. rewrite (test_verify orders w t pr pis vd HO) in T. apply verify_checks in T. destruct T as ((K & R & _ & F) & Q & C).
  assert (Q28 : length (QueryRoundProofs (OpeningProof pr)) = 28%nat) by (rewrite Q; destruct t; reflexivity). split.
  { split; [apply C; intros X; rewrite X in Q28; discriminate Q28|]. eapply Forall_impl; [|exact K]. cbv beta. intros c Hc. apply Nat2Z.inj. rewrite Hc. destruct t; reflexivity. }
  clear C K. split; [exact Q28|]. split.
  - eapply Forall_impl; [|exact R]. clear. intros [tr st] (L & I & S). cbn [InitialTreesProof Steps] in *. split; cbn [InitialTreesProof Steps].
    + clear S. destruct tr as [|e1 [|e2 [|e3 [|e4 [|e5 tr]]]]]; try discriminate L. clear L. unfold friOracles in I. cbn [combine] in I.
      inversion I as [|? ? [A1 B1] I1]; subst. inversion I1 as [|? ? [A2 B2] I2]; subst. inversion I2 as [|? ? [A3 B3] I3]; subst. inversion I3 as [|? ? [A4 B4] _]; subst.
      cbn [fst snd] in *. clear I I1 I2 I3. cbn [map].
      assert (LD : LdeBits (cd_FriParams (data t)) = (4 + match t with Block => 11 | Step => 12 end)%nat) by (destruct t; reflexivity).
      assert (CH : CapHeight (fp_Config (cd_FriParams (data t))) = 4%nat) by (destruct t; reflexivity). rewrite LD, CH in *.
      assert (HH : Hiding (cd_FriParams (data t)) = false) by (destruct t; reflexivity). rewrite HH, andb_false_r in *. rewrite Nat.add_0_r in *.
      rewrite A1, A2, A3, A4. replace (length (ep_Siblings e1)) with (match t with Block => 11 | Step => 12 end)%nat by lia.
      replace (length (ep_Siblings e2)) with (match t with Block => 11 | Step => 12 end)%nat by lia.
      replace (length (ep_Siblings e3)) with (match t with Block => 11 | Step => 12 end)%nat by lia.
      replace (length (ep_Siblings e4)) with (match t with Block => 11 | Step => 12 end)%nat by lia. destruct t; reflexivity.
    + apply steps_sizes in S. destruct st as [|e1 [|e2 [|e3 st]]]; try (destruct t; discriminate S). cbn [map] in *.
      assert (E : forall a b c d : nat, (Z.of_nat a, Z.of_nat (b + 4)) = (Z.of_nat c, Z.of_nat (d + 4)) -> (a, b) = (c, d)).
      { intros a b c d H. injection H as H1 H2. f_equal; lia. }
      destruct t.
      * injection S as S1 S2 S3 S4. f_equal; [|f_equal]; apply E; f_equal; assumption.
      * injection S as S1 S2 S3 S4. f_equal; [|f_equal]; apply E; f_equal; assumption.
  - destruct t; apply Nat2Z.inj; rewrite F; reflexivity.
Qed.
(** If the equations of the circuit have a solution, the proof and the key have these sizes: the
    circuit would not have been defined otherwise. *)
Theorem C89_checked : forall t orders w pr pis vd l, (forall i, Permutation (orders i) gateRegexHandlers) ->
  traces (Define orders w (data t) pr pis vd) tt l -> caps_sizes pr vd /\ fri_sizes t (OpeningProof pr).
Proof. intros t orders w pr pis vd l HO T. exact (ends_sizes t orders w pr pis vd tt HO (traces_ends _ _ _ T)). Qed.
Print Assumptions C89_checked.

(** The circuits of testdata, for every proof of their size and all answers of the hints: the
    definition does not panic and asks for exactly this many hints, equations and range checks. *)
Definition counts (t : testcase) : totals :=
  match t with
  | Block => ((428653, 923062), (480616, 1, 114572, 29500))%N
  | Step => ((448677, 965270), (502464, 1, 119786, 31624))%N
  end.
Theorem C89_census : forall t orders pr pis vd hs, (forall i, Permutation (orders i) gateRegexHandlers) ->
  sizes t pr pis vd -> let e := layout (Define orders 192 (data t) pr pis vd) hs in
  panic_free e /\ (forall n, In (ERange n) e -> In n [32; 48; 144; 192]) /\
  counts t = ((occurrences is_hint e, occurrences is_assert e),
    (occurrences (is_range 32) e, occurrences (is_range 48) e, occurrences (is_range 144) e, occurrences (is_range 192) e)).
Proof.
  intros t orders pr pis vd hs HO S e. unfold e. rewrite (test_layout_placeholder orders t pr pis vd hs HO S). clear e.
  assert (C : census (placeholder_circuit t) 0 0 0 0 0 0 = Some (counts t)) by (destruct t; [exact census_block|exact census_step]).
  apply census_layout in C. destruct C as [C O]. generalize dependent (layout (placeholder_circuit t) []). intros e C O.
  assert (N : forall x, In x e -> other x = false).
  { intros x Hx. destruct (other x) eqn:B; [|reflexivity]. exfalso. assert (X : In x (filter other e)) by (apply filter_In; auto). rewrite O in X. exact X. }
  split; [|split].
  - intros m Hm. discriminate (N _ Hm).
  - intros n Hn. specialize (N _ Hn). cbn [other] in N. apply negb_false_iff in N. rewrite !orb_true_iff, !Z.eqb_eq in N. cbn [In]. intuition congruence.
  - rewrite C. unfold sums. now rewrite !N.add_0_l.
Qed.
Print Assumptions C89_census.

(** More precisely, given the numbers of openings, commitments and public inputs, the definition
    goes through without a panic exactly for caps, keys and query rounds of these sizes. *)
Theorem C89_panics : forall t orders pr pis vd hs, (forall i, Permutation (orders i) gateRegexHandlers) -> given t pr pis ->
  (panic_free (layout (Define orders 192 (data t) pr pis vd) hs) <-> caps_sizes pr vd /\ fri_sizes t (OpeningProof pr)).
Proof.
  intros t orders pr pis vd hs HO G. split.
  - intros P. destruct (panic_free_ends _ _ P) as [v E]. exact (ends_sizes t orders 192 pr pis vd v HO E).
  - intros [C F]. exact (proj1 (C89_census t orders pr pis vd hs HO (conj G (conj C F)))).
Qed.
Print Assumptions C89_panics.
(** For all circuits: a definition that goes through has checked the commitments, the query rounds
    and the final polynomial of the FRI proof against the configuration, and the four caps if there
    is a round. *)
Theorem C89_shape : forall orders w cd pr pis vd hs, panic_free (layout (Define orders w cd pr pis vd) hs) ->
  FriTop.fri_shape (OpeningProof pr) (friOracles cd) (cd_FriParams cd) /\ length (QueryRoundProofs (OpeningProof pr)) = NumQueryRounds (fp_Config (cd_FriParams cd)) /\
  (NumQueryRounds (fp_Config (cd_FriParams cd)) <> 0%nat -> Forall (fun c => length c = 16%nat) [ConstantSigmasCap vd; WiresCap pr; PlonkZsPartialProductsCap pr; QuotientPolysCap pr]).
Proof.
  intros orders w cd pr pis vd hs P. destruct (panic_free_ends _ _ P) as [v E]. unfold Define in E. apply ends_bind in E. destruct E as (gates & _ & E).
  apply verify_checks in E. destruct E as (A & B & C). split; [exact A|]. split; [exact B|]. intros N. apply C. intros X. apply N. rewrite <- B, X. reflexivity.
Qed.
Print Assumptions C89_shape.
Theorem C89_no_panic : forall t orders pr pis vd m, (forall i, Permutation (orders i) gateRegexHandlers) ->
  sizes t pr pis vd -> run (Define orders 192 (data t) pr pis vd) <> Panicked m.
Proof.
  intros t orders pr pis vd m HO S R. apply run_panic in R. destruct R as [hs R]. exact (proj1 (C89_census t orders pr pis vd hs HO S) m R).
Qed.
Print Assumptions C89_no_panic.

(** So this many variables are range checked, whatever the prover does. *)
Theorem C89_requests : forall t orders pr pis vd l, (forall i, Permutation (orders i) gateRegexHandlers) -> given t pr pis ->
  traces (Define orders 192 (data t) pr pis vd) tt l ->
  Z.of_nat (length l) = match t with Block => 624689 | Step => 653875 end /\
  snd (counts t) = (occurrences (fun q => 32 =? snd q) l, occurrences (fun q => 48 =? snd q) l, occurrences (fun q => 144 =? snd q) l, occurrences (fun q => 192 =? snd q) l).
Proof.
  intros t orders pr pis vd l HO S0 T. assert (S : sizes t pr pis vd) by (split; [exact S0|exact (C89_checked t orders 192 pr pis vd l HO T)]).
  destruct (traces_ranges _ _ _ T) as [hs E]. destruct (C89_census t orders pr pis vd hs HO S) as (P & W & C).
  generalize dependent (layout (Define orders 192 (data t) pr pis vd) hs). intros e E P W C.
  assert (O : filter other e = []).
  { destruct (filter other e) as [|x k] eqn:Q; [reflexivity|]. exfalso. assert (X : In x (filter other e)) by (rewrite Q; now left). apply filter_In in X.
    destruct X as [X1 X2]. destruct x; try discriminate X2; [|exact (P _ X1)]. specialize (W _ X1). cbn [other] in X2. apply negb_true_iff in X2.
    rewrite !orb_false_iff, !Z.eqb_neq in X2. cbn [In] in W. intuition congruence. }
  assert (G : forall w, occurrences (fun q : Z * Z => w =? snd q) l = occurrences (is_range w) e).
  { intros w. rewrite <- ranges_count, <- E. unfold occurrences. f_equal. clear. induction l as [|q l IH]; [reflexivity|]. cbn [filter map]. destruct (w =? snd q); cbn [length]; now rewrite IH. }
  split.
  - pose proof (ranges_length e O) as L. rewrite <- E, map_length in L. destruct t; injection C as _ _ C1 C2 C3 C4; rewrite <- C1, <- C2, <- C3, <- C4 in L; clear - L; apply (f_equal Z.of_N) in L; rewrite nat_N_Z in L; exact L.
  - rewrite !G. rewrite C. reflexivity.
Qed.
Print Assumptions C89_requests.

(** Without the committing checker or with it, the constraint system accepts exactly what
    Circuit.v says; with it, the width of the limbs is 16. *)
Theorem C89_accepts : forall t ubd ubd' api a b, chosen ubd api a = COMMIT_RANGE_CHECKER -> frontendTyper (api a) = None ->
  chosen ubd' api b = BIT_DECOMP_RANGE_CHECKER ->
  forall orders pr pis vd, (forall i, Permutation (orders i) gateRegexHandlers) -> given t pr pis ->
  let circuit := Define orders 192 (data t) pr pis vd in
  (RangeModes.accepts ubd api a circuit tt <-> sat circuit) /\ (RangeModes.accepts ubd' api b circuit tt <-> sat circuit) /\
  forall l, traces circuit tt l -> compile ubd api a (ENew a :: map (fun q => ECheck a (fst q) (snd q)) l) = Some (map (fun q => CLimbs 16 (fst q) (snd q)) l).
Proof.
  intros t ubd ubd' api a b C G C' orders pr pis vd HO S circuit.
  assert (HL : forall l, traces circuit tt l -> Z.of_nat (length l) < 2 ^ 50).
  { intros l T. destruct (C89_requests t orders pr pis vd l HO S T) as [-> _]. destruct t; reflexivity. }
  assert (HN : 148 <= nbOpenings (Openings pr)).
  { destruct S as (D1 & D2 & D3 & D4 & D5 & D6 & D7 & _). unfold nbOpenings. rewrite D1, D2, D3, D4, D5, D6, D7. destruct t; cbv; discriminate. }
  assert (HP : pow_bits (data t) = 16) by (destruct t; reflexivity).
  split; [|split].
  - unfold circuit in *. rewrite (C88_commit ubd api a C G orders (data t) pr pis vd HO ltac:(rewrite HP; reflexivity) HN HL).
    split; [intros [X _]; exact X|]. intros X. split; [exact X|]. rewrite HP. now exists 1.
  - unfold circuit. rewrite (C06_define_bits ubd' api b C' orders (data t) pr pis vd HO), HP.
    split; [intros [X _]; exact X|]. intros X. split; [exact X|reflexivity].
  - intros l T. rewrite (C88_compiles ubd api a C G orders (data t) pr pis vd l HO ltac:(rewrite HP; reflexivity) HN T (HL l T)). rewrite HP. reflexivity.
Qed.
Print Assumptions C89_accepts.

(** In terms of plonky2's relation (C52), for every prover, and the key of the repository. *)
Theorem C89_exact : forall t ubd ubd' api a b, chosen ubd api a = COMMIT_RANGE_CHECKER -> frontendTyper (api a) = None ->
  chosen ubd' api b = BIT_DECOMP_RANGE_CHECKER ->
  forall orders pr pis, (forall i, Permutation (orders i) gateRegexHandlers) -> dimensions t pr -> digests_native pr -> Forall inr_ pis -> length pis = nbPublicInputs t ->
  let circuit := Define orders 192 (data t) pr pis (key t) in
  (RangeModes.accepts ubd api a circuit tt <-> VerifierProofs.accepts (data t) (gates_of t) pr pis (key t) (permw 192)) /\
  (RangeModes.accepts ubd' api b circuit tt <-> VerifierProofs.accepts (data t) (gates_of t) pr pis (key t) (permw 192)).
Proof.
  intros t ubd ubd' api a b C G C' orders pr pis HO D (N1 & N2 & N3 & N4 & N5) NP L circuit.
  assert (GV : given t pr pis).
  { destruct D as (D1 & D2 & D3 & D4 & D5 & D6 & D7 & _ & _ & D10 & _). exact (conj D1 (conj D2 (conj D3 (conj D4 (conj D5 (conj D6 (conj D7 (conj D10 L)))))))). }
  assert (NA : native pr pis (key t)).
  { split; [exact NP|]. split; [destruct t; (split; [discriminate|reflexivity])|]. auto. }
  destruct (test_dims t pr D) as (SH & _ & _). pose proof (C52_exact orders (data t) (gates_of t) pr pis (key t) HO (proj2 (proj2 (C86_files t))) (test_shape t) SH NA) as E.
  destruct (C89_accepts t ubd ubd' api a b C G C' orders pr pis (key t) HO GV) as (A & B & _). unfold circuit. rewrite A, B, E. split; reflexivity.
Qed.
Print Assumptions C89_exact.

(** Completeness for the circuits of testdata, with no assumption left about the circuit: the proof
    of the honest prover satisfies the constraint system with the committing checker and that with
    bit decomposition. *)
Lemma honest_given t pis cs sigmas ws digest witness : Forall inr_ pis -> inr_ digest -> length pis = nbPublicInputs t ->
  let h := sponge g0 poseidon (map inj pis) 4 in
  satisfying (data t) (gates_of t) h cs sigmas ws ->
  let S := fiat_shamir (data t) (gates_of t) h cs sigmas ws (fun _ _ => []) digest witness in
  given t (session_proof (data t) (gates_of t) h cs sigmas ws (fun _ _ => []) witness S) pis.
Proof.
  intros HP Hd L h ST S. pose proof (C86_accepts_ex t pis cs sigmas ws digest witness HP Hd ST) as [D _]. fold h in D. fold S in D.
  destruct D as (D1 & D2 & D3 & D4 & D5 & D6 & D7 & _ & _ & D10 & _). exact (conj D1 (conj D2 (conj D3 (conj D4 (conj D5 (conj D6 (conj D7 (conj D10 L)))))))).
Qed.
Theorem C89_complete : forall t ubd ubd' api a b, chosen ubd api a = COMMIT_RANGE_CHECKER -> frontendTyper (api a) = None ->
  chosen ubd' api b = BIT_DECOMP_RANGE_CHECKER ->
  forall orders pis cs sigmas ws digest witness,
  (forall i, Permutation (orders i) gateRegexHandlers) -> Forall (fun x => 0 <= x < 2 ^ 64) pis -> length pis = nbPublicInputs t -> 0 <= digest < r -> 0 <= witness < p ->
  let h := sponge g0 poseidon (map inj pis) 4 in
  satisfying (data t) (gates_of t) h cs sigmas ws ->
  let S := fiat_shamir (data t) (gates_of t) h cs sigmas ws (fun _ _ => []) digest witness in
  lucky (data t) sigmas ws (v_chal S) (v_fri_betas S) (v_pow S) (v_indices S) ->
  let circuit := Define orders 192 (data t) (session_proof (data t) (gates_of t) h cs sigmas ws (fun _ _ => []) witness S) pis
        (mkVerifierOnlyCircuitData (constants_cap (data t) cs sigmas (fun _ _ => [])) digest) in
  RangeModes.accepts ubd api a circuit tt /\ RangeModes.accepts ubd' api b circuit tt.
Proof.
  intros t ubd ubd' api a b C G C' orders pis cs sigmas ws digest witness HO HP HL Hd Hw h HS S LK circuit.
  pose proof (run_reach _ _ (C86_complete t orders pis cs sigmas ws digest witness HO HP Hd Hw HS LK)) as R. cbv zeta in R. fold h in R. fold S in R.
  assert (HI : Forall inr_ pis).
  { eapply Forall_impl; [|exact HP]. intros x Hx. assert (B : 2 ^ 64 <= r) by (vm_compute; discriminate). unfold inr_. revert Hx B. generalize (2 ^ 64) r. intros. lia. }
  pose proof (honest_given t pis cs sigmas ws digest witness HI Hd HL HS) as Z. cbv zeta in Z. fold h in Z. fold S in Z.
  set (pr := session_proof (data t) (gates_of t) h cs sigmas ws (fun _ _ => []) witness S) in *.
  unfold circuit. clear circuit. set (vd := mkVerifierOnlyCircuitData _ _) in *. clearbody vd. clearbody pr. clear - C G C' HO Z R.
  destruct (C89_accepts t ubd ubd' api a b C G C' orders pr pis vd HO Z) as (A & B & _). split; [apply (proj2 A)|apply (proj2 B)]; exists tt; exact R.
Qed.
Print Assumptions C89_complete.

(** ** Examples *)
(** the placeholder is of this size; that the proofs of the honest prover are is [honest_given]
    with C89_checked *)
Example C89_ex : forall t, sizes t (placeholder t) (zeros (nbPublicInputs t)) (mkVerifierOnlyCircuitData (zeros 16) 0).
Proof.
  intros t. split; [|split].
  - unfold given, placeholder.
    cbn [Openings Constants PlonkSigmas Wires PlonkZs PlonkZsNext PartialProducts QuotientPolys OpeningProof CommitPhaseMerkleCaps].
    split; [destruct t; reflexivity|]. do 7 (split; [reflexivity|]). apply repeat_length.
  - split; repeat constructor.
  - unfold placeholder. split; [reflexivity|]. cbn [OpeningProof QueryRoundProofs FinalPoly]. split; [|destruct t; reflexivity].
    apply Forall_forall. intros q Hq. apply repeat_spec in Hq. subst q. destruct t; (split; reflexivity).
Qed.
(** the size matters: one public input makes another permutation, with 2410 range checks, and three for its reduction;
    a proof with a round too few is refused when the circuit is defined *)
Example C89_ex_sizes : occurrences (is_range 32) (layout (GetPublicInputsHash 192 []) []) = 0%N /\
  (let e := layout (GetPublicInputsHash 192 [7]) [] in (occurrences (is_range 32) e + occurrences (is_range 144) e + occurrences (is_range 192) e)%N = 2413%N) /\
  forall f, fri_sizes Block f -> ~ fri_sizes Block (mkFriProof (CommitPhaseMerkleCaps f) (tl (QueryRoundProofs f)) (FinalPoly f) (PowWitness f)).
Proof.
  split; [reflexivity|]. split; [vm_compute; reflexivity|]. intros f (H & _) (H' & _). cbn [QueryRoundProofs] in H'.
  destruct (QueryRoundProofs f) as [|q l]; [discriminate H|]. cbn [tl length] in *. rewrite H' in H. discriminate H.
Qed.
