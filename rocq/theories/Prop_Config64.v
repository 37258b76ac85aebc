(** * C74: the arithmetic on configuration values, in 64 bits.

    Config64 repeats the functions that compute with the values of the common circuit data, in
    the arithmetic of Go: sums and products of uint64 wrap around, conversions to int change the
    sign, a slice has at most M elements. *)
From Coq Require Import String.
From Coq Require Import ZArith NArith Lia List Bool Permutation.
From Verif Require Import Zp Circuit Goldilocks PoseidonGL Types Challenger Fri Gates Plonk GateIds GateIdProofs Deser DeserProofs Verifier Wires WiresProofs
  Prop_Wires Prop_Config Config64 Config64Proofs.
Import ListNotations.
Open Scope Z_scope.

(** ** The numbers in the file are 64-bit numbers *)
Definition isU64 (x : Z) : Prop := 0 <= x < 2 ^ 64.
Lemma dec_u64_ok v old x : isU64 old -> dec_u64 v old = Some x -> isU64 x.
Proof.
  intros H E. destruct v; try discriminate E; cbn [dec_u64] in E; [congruence|].
  destruct ((0 <=? n) && (n <? 2 ^ 64)) eqn:B; [|discriminate E]. injection E as <-. apply andb_prop in B. unfold isU64. lia.
Qed.
Lemma dec_obj_ok {T} (P : T -> Prop) (fs : list (fieldOf T)) :
  (forall f, In f fs -> forall v t t', P t -> field_dec f v t = Some t' -> P t') -> forall j t t', P t -> dec_obj fs j t = Some t' -> P t'.
Proof.
  intros H j t t' Pt E. destruct j; try discriminate E; cbn [dec_obj] in E; [congruence|].
  revert t Pt E. induction l as [|[k v] l IH]; intros t Pt E; cbn [dec_members] in E; [congruence|].
  destruct (findField k fs) as [f|] eqn:Ef; [|exact (IH t Pt E)]. destruct (field_dec f v t) as [t1|] eqn:E1; [|discriminate E].
  refine (IH t1 (H f _ v t t1 Pt E1) E). clear - Ef. induction fs as [|g fs IH]; [discriminate Ef|].
  cbn [findField] in Ef. destruct (String.eqb _ _); [injection Ef as ->; now left|right; exact (IH Ef)].
Qed.
Definition u64_fri_config (c : RawFriConfig) : Prop := isU64 (rc_CapHeight c) /\ isU64 (rc_NumQueryRounds c).
Ltac fields f v t t' Pt E :=
  intros f Hf v t t' Pt E; repeat (destruct Hf as [<-|Hf]; [|]); try (destruct Hf; fail); cbn [field_dec] in E.
Ltac fld E x Ex := match type of E with match ?d with Some _ => _ | None => _ end = _ => destruct d as [x|] eqn:Ex; [injection E as <-|discriminate E] end.
Lemma fri_config_ok j c c' : u64_fri_config c -> dec_RawFriConfig j c = Some c' -> u64_fri_config c'.
Proof.
  apply dec_obj_ok. fields f v t t' Pt E; fld E x Ex; destruct Pt as [P1 P2]; split; cbn [rc_CapHeight rc_NumQueryRounds]; try assumption;
  first [exact (dec_u64_ok _ _ _ P1 Ex)|exact (dec_u64_ok _ _ _ P2 Ex)].
Qed.
Definition u64_fri_params (p : RawFriParams) : Prop := u64_fri_config (ra_Config p).
Lemma fri_params_ok j p p' : u64_fri_params p -> dec_RawFriParams j p = Some p' -> u64_fri_params p'.
Proof.
  apply dec_obj_ok. fields f v t t' Pt E; fld E x Ex; unfold u64_fri_params in *; cbn [ra_Config]; try assumption. exact (fri_config_ok _ _ _ Pt Ex).
Qed.
Definition u64_common (c : RawCommon) : Prop :=
  u64_fri_params (rm_FriParams c) /\ isU64 (rm_NumPartialProducts c) /\ isU64 (rm_QuotientDegreeFactor c) /\ isU64 (rm_NumConstants c).
Lemma common_ok j c c' : u64_common c -> dec_RawCommon j c = Some c' -> u64_common c'.
Proof.
  apply dec_obj_ok. fields f v t t' Pt E; fld E x Ex; destruct Pt as (P1 & P2 & P3 & P4);
    (split; [|split; [|split]]); cbn [rm_FriParams rm_NumPartialProducts rm_QuotientDegreeFactor rm_NumConstants]; try assumption;
  first [exact (fri_params_ok _ _ _ P1 Ex)|exact (dec_u64_ok _ _ _ P2 Ex)|exact (dec_u64_ok _ _ _ P3 Ex)|exact (dec_u64_ok _ _ _ P4 Ex)].
Qed.
Theorem C74_fields : forall j cd, ReadCommonCircuitData j = Some cd -> uint64_fields cd.
Proof.
  intros j cd H. unfold ReadCommonCircuitData in H. destruct (dec_RawCommon j zero_RawCommon) as [raw|] eqn:E; [|discriminate H].
  apply common_ok in E; [|repeat split; cbn; lia]. destruct E as ((E1 & E2) & E3 & E4 & E5). unfold commonData in H. cbv zeta in H.
  destruct (NewSelectorsInfo _ _ _) as [s|]; [|discriminate H]. destruct (ra_Hiding _); [discriminate H|]. injection H as <-.
  unfold uint64_fields, isU64 in *. cbn [NumPartialProducts QuotientDegreeFactor cd_NumConstants cd_FriParams fp_Config CapHeight NumQueryRounds friConfig].
  repeat split; lia.
Qed.
Print Assumptions C74_fields.

(** ** Reading the gate identifiers makes no constraints *)
Definition plain {A} (c : circ A) : Prop := (exists a, c = Ret a) \/ (exists m, c = Panic m).
Lemma plain_bind {A B} (c : circ A) (f : A -> circ B) : plain c -> (forall a, plain (f a)) -> plain (bind c f).
Proof. intros [[a ->]|[m ->]] H; [exact (H a)|right; now exists m]. Qed.
Lemma plain_mapM {A B} (f : A -> circ B) l : (forall x, plain (f x)) -> plain (mapM f l).
Proof.
  intros H. induction l as [|x l IH]; cbn [mapM]; [left; now eexists|]. apply plain_bind; [apply H|]. intros b. apply plain_bind; [exact IH|].
  intros bs. left. now eexists.
Qed.
Lemma plain_ret {A} (a : A) : plain (Ret a). Proof. left. now exists a. Qed.
Lemma plain_opt {A} msg (o : option A) : plain (of_opt msg o).
Proof. destruct o; [left|right]; now eexists. Qed.
Lemma plain_if (b : bool) (m : string) : plain (if b then Ret tt else Panic m) /\ plain (if b then Panic m else Ret tt).
Proof. destruct b; split; ((left; now eexists) || (right; now eexists)). Qed.
Lemma plain_number parse m s : plain (number parse m s).
Proof. apply plain_bind; [apply plain_opt|intros; apply plain_ret]. Qed.
Ltac pl := repeat (apply plain_ret || apply plain_opt || apply plain_number || apply (proj1 (plain_if _ _)) || apply (proj2 (plain_if _ _)) ||
  (apply plain_mapM; intros ?) || (apply plain_bind; [|intros ?])).
Lemma plain_handler h ps : In h gateRegexHandlers -> plain (snd h ps).
Proof.
  unfold gateRegexHandlers. intros H. repeat (destruct H as [<-|H]; [cbn [snd];
    unfold deserialize1, deserializeBaseSumGate, deserializeCosetInterpolationGate, deserializeExponentiationGate, deserializeRandomAccessGate, GateIds.field; pl|]).
  destruct H.
Qed.
Lemma plain_gate order id : incl order gateRegexHandlers -> plain (GateInstanceFromId order id).
Proof.
  induction order as [|[re hd] order IH]; intros H; cbn [GateInstanceFromId]; [right; now eexists|].
  destruct (find re (chars id)) as [ps|]; [|apply IH; intros x Hx; apply H; now right].
  exact (plain_handler (re, hd) ps (H _ (or_introl eq_refl))).
Qed.
Lemma plain_reach {A} (c : circ A) a : plain c -> reach c a -> c = Ret a.
Proof. intros [[b ->]|[m ->]] R; cbn [reach] in R; [now subst|contradiction]. Qed.

(** ** The verifier *)
(** A configuration read from any file, any proof with at least one query round and no slice of
    2^31 elements: the wrap-around makes no difference to the results, for a prover free to choose
    the hints and for the honest solver.  Three values of the configuration are restricted:
    the number of gate constraints (the code allocates that many), and that DegreeBits + RateBits
    and 64 - ProofOfWorkBits do not wrap into the range of small numbers. *)
Theorem C74_verifier : forall j cd orders M unset w proof pis vd,
  ReadCommonCircuitData j = Some cd -> (forall i, Permutation (orders i) gateRegexHandlers) ->
  2 ^ 32 <= M <= 2 ^ 60 -> short_proof proof -> short (KIs cd) -> QueryRoundProofs (OpeningProof proof) <> [] ->
  Z.of_nat (NumGateConstraints cd) <= M ->
  Z.of_nat (fp_DegreeBits (cd_FriParams cd)) + Z.of_nat (RateBits (fp_Config (cd_FriParams cd))) < 2 ^ 64 ->
  Z.of_nat (ProofOfWorkBits (fp_Config (cd_FriParams cd))) <= 2 ^ 63 + 64 ->
  (forall u, reach (Define64 M unset orders w cd proof pis vd) u <-> reach (Define orders w cd proof pis vd) u) /\
  (forall u, run (Define64 M unset orders w cd proof pis vd) = Done u <-> run (Define orders w cd proof pis vd) = Done u).
Proof.
  intros j cd orders M unset w proof pis vd HR HP HM HS HK Ne Hg HD HW.
  assert (S : same (Define64 M unset orders w cd proof pis vd) (Define orders w cd proof pis vd)).
  { unfold Define64, Define, NewVerifierChip. apply same_tail. intros gates R.
    apply same_verify; try assumption; [exact (C74_fields j cd HR)|split; assumption|].
    unfold createdGates in R. apply Forall_forall. intros g Hgate. apply In_nth_error in Hgate. destruct Hgate as [i Hi].
    clear - HP R Hi. revert gates i R Hi. generalize (combine (seq 0 (length (GateIds cd))) (GateIds cd)). intros l.
    induction l as [|[k id] l IH]; intros gates i R Hi; cbn [mapM] in R.
    - cbn [reach] in R. subst gates. destruct i; discriminate Hi.
    - rb R g0 H0. rb R gs Hgs. cbn [reach] in R. subst gates. destruct i as [|i]; [|exact (IH gs i Hgs Hi)]. injection Hi as <-.
      apply plain_reach in H0; [|apply plain_gate; intros h Hh; exact (Permutation_in _ (HP k) Hh)].
      exact (parsed_parameters _ _ _ (fun h Hh => Permutation_in _ (HP k) Hh) H0). }
  split; intros u; apply S.
Qed.
Print Assumptions C74_verifier.

(** ** The two bounds are needed, and so is a query round *)
(** a FRI instance with one polynomial, opened at 2; cap height 4, no reduction, one query round *)
Definition inst74 : InstanceInfo := mkInstanceInfo [mkOracleInfo 1 false] [mkBatchInfo (2, 0) [(0%nat, 0%nat)]].
Definition params74 (degreeBits rateBits : nat) : FriParams := mkFriParams (mkFriConfig rateBits 4 0 1) false degreeBits [].
Definition ch74 (x : Z) : FriChallenges := mkFriChallenges (5, 1) [] 9 [x].
Definition proof74 (v : Z) (final : list QE) : FriProof := mkFriProof [] [mkFriQueryRound [mkFriEvalProof [v] []] []] final 0.
(** the example for C74_verifier at the level of the FRI verifier: the polynomial 6, of degree
    less than 2^1, on 2^4 points *)
Example C74_ex : run (VerifyFriProof64 (params74 1 3) inst74 [[(6, 0)]] (ch74 11) [repeat 6 16] (proof74 6 [(0, 0); (0, 0)])) = Done tt /\
  run (VerifyFriProof (params74 1 3) inst74 [[(6, 0)]] (ch74 11) [repeat 6 16] (proof74 6 [(0, 0); (0, 0)])) = Done tt.
Proof. split; vm_compute; reflexivity. Qed.

(** the function - 3 / (x - 2) on the 16 points x with x^16 = 7^16, as a polynomial *)
Definition final74 : list QE :=
  map (fun i => (((MODULUS - 3) * 2 ^ (15 - Z.of_nat i) * Zp.powm MODULUS (7 ^ 16 - 2 ^ 16) (MODULUS - 2)) mod MODULUS, 0)) (seq 0 16) ++ repeat (0, 0) 16.

Lemma rate74_accepts R : Z.of_nat R = 2 ^ 64 - 1 -> forall x, In x [3; 11] ->
  run (VerifyFriProof64 (params74 5 R) inst74 [[(3, 0)]] (ch74 x) [repeat 0 16] (proof74 0 final74)) = Done tt.
Proof.
  intros E. assert (N : nLog64 (params74 5 R) = 4) by (unfold nLog64, params74; cbn [fp_DegreeBits fp_Config RateBits]; rewrite E; reflexivity).
  assert (A : assertNoncanonicalIndicesOK (params74 5 R) = Ret tt).
  { unfold assertNoncanonicalIndicesOK. cbn [params74 fp_Config RateBits]. rewrite (proj2 (Nat.ltb_ge R 64)) by lia. reflexivity. }
  intros x Hx. unfold VerifyFriProof64, validateFriProofShape64, validateInitial64, validateSteps64, verifyQueryRound64, LdeBits64.
  rewrite A, N. clear A N E. revert x Hx. apply Forall_forall.
  repeat (apply Forall_cons; [vm_compute; reflexivity|]). apply Forall_nil.
Qed.
Lemma rate74_rejects R : Z.of_nat R = 2 ^ 64 - 1 -> forall op ch caps proof u, QueryRoundProofs proof <> [] ->
  ~ reach (VerifyFriProof (params74 5 R) inst74 op ch caps proof) u.
Proof.
  intros E op ch caps proof u Ne H. unfold VerifyFriProof in H. cbv zeta in H. rb H u1 H1. rb H u2 H2. rb H u3 H3. rb H pre Hp. rb H u4 H4.
  apply reach_panic_if in H4. apply negb_false_iff, Nat.eqb_eq in H4.
  destruct (QueryRoundProofs proof) as [|r0 rs]; [congruence|]. destruct (FriQueryIndices ch) as [|x xs]; [discriminate H4|].
  destruct (reach_iterM_in _ _ _ (x, r0) H (or_introl eq_refl)) as [v Rv]. cbn [fst snd] in Rv.
  destruct (reach_round _ _ _ _ _ _ _ _ _ _ Rv eq_refl) as (_ & A & _). cbn [params74 fp_Config RateBits] in A. lia.
Qed.
Lemma of_nat_surj z : 0 <= z -> exists n, Z.of_nat n = z.
Proof. intros H. exists (Z.to_nat z). now apply Z2Nat.id. Qed.
(** RateBits = 2^64 - 1 is not rejected: 1 << RateBits is 0 and the rate +Inf, and DegreeBits +
    RateBits is DegreeBits - 1.  The domain then has fewer points than the polynomials have
    coefficients, and the value 3 is accepted for the opening of the polynomial 0.  (No
    such RateBits is accepted when the sum does not wrap around, whatever the proof.) *)
Theorem C74_rate_refuted : exists R proof,
  Z.of_nat R = 2 ^ 64 - 1 /\ LdeBits64 (params74 5 R) = 4 /\ QueryRoundProofs proof <> [] /\
  (forall x, In x [3; 11] -> run (VerifyFriProof64 (params74 5 R) inst74 [[(3, 0)]] (ch74 x) [repeat 0 16] proof) = Done tt) /\
  (forall op ch caps proof' u, QueryRoundProofs proof' <> [] -> ~ reach (VerifyFriProof (params74 5 R) inst74 op ch caps proof') u).
Proof.
  destruct (of_nat_surj (2 ^ 64 - 1)) as [R E]; [lia|]. exists R, (proof74 0 final74). split; [exact E|]. split.
  - unfold LdeBits64, nLog64, params74. cbn [fp_DegreeBits fp_Config RateBits]. rewrite E. reflexivity.
  - split; [discriminate|]. split; [exact (rate74_accepts R E)|exact (rate74_rejects R E)].
Qed.
Print Assumptions C74_rate_refuted.

(** ProofOfWorkBits close to 2^64: 64 - ProofOfWorkBits wraps to a width above 64, so that every
    response is accepted; a ProofOfWorkBits above 64 that does not wrap is never accepted *)
Theorem C74_pow_refuted : exists config, Z.of_nat (ProofOfWorkBits config) = 2 ^ 64 - 1 /\
  (forall x, 0 <= x < MODULUS -> run (assertLeadingZeros64 x config) = Done tt) /\
  (forall x u, ~ reach (assertLeadingZeros x config) u).
Proof.
  destruct (of_nat_surj (2 ^ 64 - 1)) as [P E]; [lia|]. exists (mkFriConfig 3 4 P 28). cbn [ProofOfWorkBits]. split; [exact E|]. split.
  - intros x Hx. unfold assertLeadingZeros64. cbn [ProofOfWorkBits]. rewrite E. change (i64 (sub64 64 (2 ^ 64 - 1))) with 65.
    change ((if (0 <=? x) && (x <? 2 ^ 65) then Done tt else Unsat) = Done tt). assert (L : x < 2 ^ 65) by (unfold MODULUS in Hx; lia).
    rewrite (proj2 (Z.leb_le 0 x)) by lia. rewrite (proj2 (Z.ltb_lt x _) L). reflexivity.
  - intros x u. unfold assertLeadingZeros, RangeCheckWithMaxBits, range_. cbn [ProofOfWorkBits reach]. rewrite E.
    rewrite Z.pow_neg_r by lia. lia.
Qed.
Print Assumptions C74_pow_refuted.

(** without a query round the sum of the reductions can wrap: 2^63 + 2^63 is 0 *)
Theorem C74_rounds_refuted : exists params inst op ch caps proof,
  Z.of_nat (list_sum (ReductionArityBits params)) = 2 ^ 64 /\ fp_DegreeBits params = 0%nat /\ QueryRoundProofs proof = [] /\
  run (VerifyFriProof64 params inst op ch caps proof) = Done tt /\
  (forall op' ch' caps' proof' u, ~ reach (VerifyFriProof params inst op' ch' caps' proof') u).
Proof.
  destruct (of_nat_surj (2 ^ 63)) as [P E]; [lia|].
  exists (mkFriParams (mkFriConfig 3 4 0 0) false 0 [P; P]), inst74, [], (mkFriChallenges (5, 1) [] 9 []), [], (mkFriProof [] [] [(0, 0)] 0).
  cbn [ReductionArityBits list_sum fold_right fp_DegreeBits QueryRoundProofs]. split; [lia|]. do 2 (split; [reflexivity|]). split.
  - unfold VerifyFriProof64, validateFriProofShape64, FinalPolyLen64, FinalPolyBits64, TotalArities64. cbn [ReductionArityBits fold_left]. rewrite E.
    clear E. vm_compute. reflexivity.
  - intros op' ch' caps' proof' u H. unfold VerifyFriProof in H. cbv zeta in H. rb H u1 H1. clear H.
    apply (enforces_sound _ _ _ _ (FriTop.validate_shape_correct _ _ _)) in H1. destruct H1 as [H1 _].
    unfold FriTop.fri_shape in H1. destruct H1 as (_ & _ & H1 & _). unfold TotalArities in H1.
    cbn [fp_DegreeBits ReductionArityBits list_sum fold_right] in H1. lia.
Qed.
Print Assumptions C74_rounds_refuted.
