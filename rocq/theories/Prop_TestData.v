(** * Property C86: the theorems about the verifier, for the circuits of /repo/testdata. *)
From Coq Require Import String.
From Coq Require Import ZArith NArith QArith Arith Lia List Bool Permutation.
From Verif Require Import Zp GF Circuit Goldilocks GLProofs ExtProofs PoseidonSpec PoseidonGL PoseidonGLProofs Sponge DenP BN254 BN254Hash Types Challenger ChallengerProofs ChallengerPhases Transcript ChallengerTop Prop_Challenger
  Fri Poly Roots Interp FriMerkle FriEval FriQuery FriTop FriFacts Honest FriSound FriRewind FriExtract Prop_Fri Prop_FriSound
  Gates GateProofs GateCoset GateFilter GateAll GateDegree Prop_Gates Plonk PlonkProofs Prop_Plonk PlonkSound PlonkRows PlonkCopy Prop_PlonkSound GateIds GateIdProofs GateIdText Prop_GateIds Verifier VerifierProofs Prop_Poseidon Prop_Verifier VerifierSound Prop_VerifierSound PlonkProver Complete Prop_Complete
  FriError Game VerifierError Prop_VerifierError RandomOracle FiatShamir Prop_FiatShamir SpongeOracle Prop_SpongeOracle Deser TestData.
Import ListNotations.
Open Scope Z_scope.
Local Opaque PoseidonBN HashOrNoop TwoToOne poseidon.

(** ** What the files say *)
Ltac weight u v := apply (weights_more (str " ") (str u) [] v _ _); [repeat constructor|constructor|num|reflexivity|].
Notation weights_str := (str "17293822565076172801, 18374686475376656385, 18446744069413535745, 281474976645120, 17592186044416, 18446744069414584577, 18446744000695107601, 18446744065119617025, 1152921504338411520, 72057594037927936, 18446744069415632897, 18446462594437939201, 18446726477228539905, 18446744069414584065, 68719476720, 4294967296").
Lemma weights_text_ok : weights_text weights weights_str.
Proof.
  apply (weights_more [] (str "17293822565076172801") [] 17293822565076172801 _ _); [constructor|constructor|num|reflexivity|].
  weight "18374686475376656385"%string 18374686475376656385.
  weight "18446744069413535745"%string 18446744069413535745.
  weight "281474976645120"%string 281474976645120.
  weight "17592186044416"%string 17592186044416.
  weight "18446744069414584577"%string 18446744069414584577.
  weight "18446744000695107601"%string 18446744000695107601.
  weight "18446744065119617025"%string 18446744065119617025.
  weight "1152921504338411520"%string 1152921504338411520.
  weight "72057594037927936"%string 72057594037927936.
  weight "18446744069415632897"%string 18446744069415632897.
  weight "18446462594437939201"%string 18446462594437939201.
  weight "18446726477228539905"%string 18446726477228539905.
  weight "18446744069414584065"%string 18446744069414584065.
  weight "68719476720"%string 68719476720.
  apply (weights_one (str " ") (str "4294967296") [] 4294967296); [repeat constructor|constructor|num|reflexivity].
Qed.
Ltac gate_t := first
  [ exact t_noop | exact t_poseidon_mds_full | exact t_public_input | exact t_poseidon_full
  | apply (t_constant 2 (str "2")); int
  | apply (t_base_sum 63 2 (str "63") (str "2")); int
  | apply (t_reducing_extension 33 (str "33")); int | apply (t_reducing 44 (str "44")); int
  | apply (t_arithmetic_extension 10 (str "10")); int | apply (t_arithmetic 20 (str "20")); int
  | apply (t_mul_extension 13 (str "13")); int
  | apply (t_exponentiation 67 (str "67") (str "2")); [int|num]
  | apply (t_random_access 4 4 2 (str "4") (str "4") (str "2") (str "2")); [int|int|int|num]
  | apply (t_coset 4 6 weights (str "4") (str "6") weights_str); [int|int|lia|exact weights_text_ok] ].
(** Each file, as read by the code, gives the data, the key and the gates. *)
Theorem C86_files : forall t, ReadCommonCircuitData (data_json t) = Some (data t) /\ loadVerifierData (key_json t) = Some (key t) /\
  Forall2 gate_text (gates_of t) (map str (GateIds (data t))).
Proof.
  intros [|]; (split; [vm_compute; reflexivity|]); (split; [vm_compute; reflexivity|]).
  - cbn [data gates_of block_data GateIds]. unfold block_gates, block_ids. cbn [map]. repeat (constructor; [gate_t|]). constructor.
  - cbn [data gates_of step_data GateIds]. unfold step_gates, step_ids. cbn [map]. repeat (constructor; [gate_t|]). constructor.
Qed.
Print Assumptions C86_files.

(** ** The data meet the hypotheses of the theorems about the verifier *)
Lemma kis_canon t : Forall canonZ (KIs (data t)).
Proof.
  apply Forall_forall. intros x Hx. assert (B : forallb (fun x => (0 <=? x) && (x <? p)) (KIs (data t)) = true) by (destruct t; vm_compute; reflexivity).
  rewrite forallb_forall in B. specialize (B x Hx). apply andb_prop in B. destruct B as [B1 B2]. apply Z.leb_le in B1. apply Z.ltb_lt in B2. now split.
Qed.
Lemma weights_canon : Forall (fun x => 0 <= x < p) weights.
Proof.
  apply Forall_forall. intros x Hx. assert (B : forallb (fun x => (0 <=? x) && (x <? p)) weights = true) by (vm_compute; reflexivity).
  rewrite forallb_forall in B. specialize (B x Hx). apply andb_prop in B. destruct B as [B1 B2]. apply Z.leb_le in B1. apply Z.ltb_lt in B2. now split.
Qed.
Lemma test_layout t : Prop_Gates.layout (cd_SelectorsInfo (data t)) (length (gates_of t)).
Proof.
  split; [destruct t; cbn; lia|]. intros i Hi.
  destruct t; do 13 (destruct i as [|i]; [split; [cbn; lia|vm_compute; discriminate]|]); cbn in Hi; lia.
Qed.
Lemma test_fits t : Forall (fits 2 136) (gates_of t).
Proof.
  destruct t; cbn [gates_of]; unfold block_gates, step_gates;
  repeat (apply Forall_cons; [first [exact I | cbn [fits]; split; [|reflexivity]; lia | cbn [fits]; lia | cbn [fits]; repeat split; try exact weights_canon; cbn; lia]|]); apply Forall_nil.
Qed.
Lemma test_constraints t : Forall (fun g => (num_constraints g <= 123)%nat) (gates_of t).
Proof. destruct t; cbn [gates_of]; unfold block_gates, step_gates; repeat (apply Forall_cons; [cbn; lia|]); apply Forall_nil. Qed.
Lemma test_shape t : circuit_shape (data t) (gates_of t).
Proof.
  split; [split; [exact (kis_canon t)|destruct t; cbn; lia]|]. split; [exact (test_layout t)|].
  destruct t; exact (test_constraints _).
Qed.
Lemma test_sound t : sound_data (data t) (gates_of t).
Proof.
  split; [exact (test_shape t)|]. split; [destruct t; reflexivity|]. split; [destruct t; cbn; lia|]. split; [destruct t; cbn; lia|].
  destruct t; exact (test_fits _).
Qed.
Lemma test_degree t : degree_bound (data t) (gates_of t) 9.
Proof.
  split; [destruct t; cbn; lia|]. intros j Hj.
  destruct t; do 13 (destruct j as [|j]; [cbn; lia|]); cbn in Hj; lia.
Qed.
Lemma test_provable t : provable (data t) (gates_of t) (fun _ _ => []).
Proof.
  split; [exact (test_sound t)|]. split; [destruct t; exact (test_degree _)|]. split; [destruct t; cbn; lia|]. split; [destruct t; vm_compute; discriminate|].
  split; [|intros o i _; split; [|constructor]; destruct t; cbn [data block_data step_data cd_FriParams Hiding]; now rewrite Bool.andb_false_r].
  destruct t; unfold honest_params, LdeBits; cbn; repeat split; lia.
Qed.
(** the k_i represent different cosets of the subgroup *)
Fixpoint sqn (d : nat) (x : Z) : Z := match d with O => x | S d' => sqn d' (x * x mod p) end.
Lemma sqn_pow d : forall x, rep (inj x ^ N.of_nat (2 ^ d))%GF = sqn d (x mod p).
Proof.
  induction d as [|d IH]; intros x.
  - cbn [Nat.pow sqn]. change (N.of_nat 1) with 1%N. rewrite rep_gpow. change (Z.of_N 1) with 1. rewrite Z.pow_1_r, rep_inj. apply Z.mod_mod. discriminate.
  - rewrite Nat.pow_succ_r', Nat2N.inj_mul, gpow_mul. change (N.of_nat 2) with 2%N. cbn [sqn].
    replace (inj x ^ 2)%GF with (inj (x mod p * (x mod p)))%GF; [apply IH|].
    apply GF_eq. rewrite rep_gpow, !rep_inj. change (Z.of_N 2) with 2. now rewrite Z.pow_2_r.
Qed.
Fixpoint differ (l : list Z) : bool := match l with [] => true | x :: l' => forallb (fun y => negb (x =? y)) l' && differ l' end.
Lemma differ_nodup l : differ l = true -> NoDup l.
Proof.
  induction l as [|x l IH]; intros H; [constructor|]. cbn [differ] in H. apply andb_prop in H. destruct H as [H1 H2]. constructor; [|now apply IH].
  intros I. rewrite forallb_forall in H1. specialize (H1 x I). now rewrite Z.eqb_refl in H1.
Qed.
Lemma test_labels t : NoDup (map (cell_label (data t) (map inj (KIs (data t)))) (cells (data t))).
Proof.
  assert (W : ((NumPartialProducts (data t) + 1) * QuotientDegreeFactor (data t) = 80 /\ length (KIs (data t)) = 80)%nat) by (destruct t; split; reflexivity).
  destruct W as [W LK]. apply C61_labels; [destruct t; cbn; lia|]. rewrite W.
  assert (E : forall j, nth j (map inj (KIs (data t))) g0 = inj (nth j (KIs (data t)) 0)) by (intros j; rewrite g0_inj; apply map_nth).
  assert (C : forall j, (j < 80)%nat -> 0 <= nth j (KIs (data t)) 0 < p).
  { intros j Hj. pose proof (kis_canon t) as K. rewrite Forall_forall in K. apply K, nth_In. now rewrite LK. }
  assert (N : NoDup (map (sqn (cd_DegreeBits (data t))) (KIs (data t)))) by (apply differ_nodup; destruct t; vm_compute; reflexivity).
  assert (NS : forall i, (i < 80)%nat -> nth i (map (sqn (cd_DegreeBits (data t))) (KIs (data t))) 0 = sqn (cd_DegreeBits (data t)) (nth i (KIs (data t)) 0)).
  { intros i Hi. rewrite (nth_indep _ 0 (sqn (cd_DegreeBits (data t)) 0)) by (rewrite map_length, LK; exact Hi). apply map_nth. }
  assert (Z0 : ~ In 0 (KIs (data t))).
  { intros I. assert (B : forallb (fun y => negb (0 =? y)) (KIs (data t)) = true) by (destruct t; vm_compute; reflexivity). rewrite forallb_forall in B. specialize (B 0 I). discriminate B. }
  intros j j' Hj Hj'. rewrite !E. split.
  - intros X. apply (f_equal rep) in X. rewrite rep_inj_small in X by (now apply C). change (rep g0) with 0 in X. apply Z0. rewrite <- X. apply nth_In. now rewrite LK.
  - intros X. apply (f_equal rep) in X. rewrite !sqn_pow, !Z.mod_small in X by (now apply C).
    apply (proj1 (NoDup_nth _ 0) N); rewrite ?map_length, ?LK; [exact Hj|exact Hj'|].
    rewrite !NS by assumption. exact X.
Qed.
(** The hypotheses of C52, C64, C81, C84 and C85 on the data of the circuit: the shape, the
    constraints of every gate within the degree 9, the parameters of FRI, and different labels. *)
Theorem C86_data : forall t, sound_data (data t) (gates_of t) /\ degree_bound (data t) (gates_of t) 9 /\ provable (data t) (gates_of t) (fun _ _ => []) /\
  cc_FriConfig (cd_Config (data t)) = fp_Config (cd_FriParams (data t)) /\
  NoDup (map (cell_label (data t) (map inj (KIs (data t)))) (cells (data t))).
Proof.
  intros t. split; [exact (test_sound t)|]. split; [exact (test_degree t)|]. split; [exact (test_provable t)|]. split; [destruct t; reflexivity|exact (test_labels t)].
Qed.
Print Assumptions C86_data.
(** [rows_satisfy], the notion of a true statement in C81 and C84, for these circuits: every row
    satisfies the gate its selectors name, and cells that the sigmas connect have the same value. *)
Theorem C86_rows : forall t h cs sigmas w, let cd := data t in rows_satisfy cd (gates_of t) h cs sigmas w <->
  (forall k, length (w k) = 136%nat) /\
  (forall k j, (k < 2 ^ cd_DegreeBits cd)%nat -> selects (cd_SelectorsInfo cd) 13 (map emb (grow cd cs k)) j ->
     computes (EvalUnfiltered (nth j (gates_of t) NoopGate) (mkvars (skipn (length (groups (cd_SelectorsInfo cd))) (map emb (grow cd cs k))) (map emb (w k)) h))
              (repeat (0, 0) (num_constraints (nth j (gates_of t) NoopGate)))) /\
  (forall k c k' c', (k < 2 ^ cd_DegreeBits cd)%nat -> (k' < 2 ^ cd_DegreeBits cd)%nat -> (c < 80)%nat -> (c' < 80)%nat ->
     gpeval (nth c sigmas []) (root (cd_DegreeBits cd) ^ N.of_nat k)%GF = (inj (nth c' (KIs cd) 0%Z) * root (cd_DegreeBits cd) ^ N.of_nat k')%GF ->
     nth c (w k) g0 = nth c' (w k') g0).
Proof.
  intros t h cs sigmas w cd. assert (LG : length (gates_of t) = 13%nat) by (destruct t; reflexivity).
  assert (LW : NumWires (cd_Config cd) = 136%nat) by (destruct t; reflexivity).
  assert (IC : forall k c, In (k, c) (cells cd) <-> (k < 2 ^ cd_DegreeBits cd /\ c < 80)%nat).
  { intros k c. rewrite in_cells. replace ((NumPartialProducts cd + 1) * QuotientDegreeFactor cd)%nat with 80%nat by (destruct t; reflexivity). reflexivity. }
  assert (NI : forall j, nth j (map inj (KIs cd)) g0 = inj (nth j (KIs cd) 0)) by (intros j; rewrite g0_inj; apply map_nth).
  unfold rows_satisfy. rewrite LG, LW. split; intros (H1 & H2 & H3); (split; [exact H1|]); (split; [exact H2|]).
  - intros k c k' c' Hk Hk' Hc Hc' E. refine (H3 (test_labels t) (k', c') (k, c) _ _ _); [now apply IC|now apply IC|]. cbn [fst snd]. rewrite NI. exact E.
  - intros _ [k' c'] [k c] I' I E. apply IC in I', I. cbn [fst snd] in E |- *. rewrite NI in E. apply (H3 k c k' c'); [apply I|apply I'|apply I|apply I'|exact E].
Qed.
Print Assumptions C86_rows.

(** C48: the weights in the files are the barycentric weights of the subgroup of order 16, so the
    gate holds exactly if the claimed value is the value of the interpolant. *)
Lemma weights_ok : forall i, (i < 16)%nat ->
  (nth i (map inj weights) g0 * gprodsub (root 4 ^ N.of_nat i) (others i (map (fun i => (root 4 ^ N.of_nat i)%GF) (seq 0 16))))%GF = g1.
Proof. intros i Hi. do 16 (destruct i as [|i]; [apply GF_eq; vm_compute; reflexivity|]). lia. Qed.
Theorem C86_coset : forall t (cs ws : list K) (h : list GF), (47 <= length ws)%nat ->
  nth 11 (gates_of t) NoopGate = CosetInterpolationGate 4 6 weights /\
  exists (g : GF) out P, computes (PrimitiveRootOfUnity 4) (rep g) /\
    computes (EvalUnfiltered (nth 11 (gates_of t) NoopGate) (mkvars cs ws h)) (map repK out) /\ length out = 12%nat /\
    (length P <= 16)%nat /\ (forall i, (i < 16)%nat -> apeval P (ae (g ^ N.of_nat i)%GF) = alg ws (1 + 2 * i)) /\
    (vanish out -> alg ws 33 = (aemb (wire ws 0) * alg ws 45)%KA /\ alg ws 35 = apeval P (alg ws 45)).
Proof.
  intros t cs ws h L. assert (EG : nth 11 (gates_of t) NoopGate = CosetInterpolationGate 4 6 weights) by (destruct t; reflexivity). split; [exact EG|]. rewrite EG.
  assert (R : computes (PrimitiveRootOfUnity 4) (rep (root 4))) by (apply root_computes; unfold TWO_ADICITY; lia).
  destruct (C48_coset_interpolation 4 6 (map inj weights) (root 4) cs ws h ltac:(lia) ltac:(cbn; lia) (map_length _ _) L R weights_ok) as (out & P & H1 & H2 & H3 & H4 & H5).
  exists (root 4), out, P. split; [exact R|].
  assert (EW : map rep (map inj weights) = weights).
  { rewrite map_map. rewrite <- (map_id weights) at 2. apply map_ext_in. intros x Hx. pose proof weights_canon as W. rewrite Forall_forall in W. now apply rep_inj_small, W. }
  rewrite EW in H1. split; [exact H1|]. split; [exact H2|]. split; [exact H3|]. split.
  - intros i Hi. rewrite (H4 i Hi). rewrite (nth_map_lt (fun i => alg ws (1 + 2 * i)) _ _ _ 0%nat) by (rewrite seq_length; exact Hi). now rewrite seq_nth.
  - intros V. apply H5 in V. destruct V as (V1 & _ & V2). split; [exact V1|exact V2].
Qed.
Print Assumptions C86_coset.

(** ** The theorems for these circuits *)
(** C64: with any polynomials that satisfy the circuit, the honest prover's proof is accepted,
    if the transcript avoids the exceptional challenges. *)
Theorem C86_complete : forall t orders pis cs sigmas ws digest witness,
  (forall i, Permutation (orders i) gateRegexHandlers) -> Forall (fun x => 0 <= x < 2 ^ 64) pis -> 0 <= digest < r -> 0 <= witness < p ->
  let h := sponge g0 poseidon (map inj pis) 4 in
  satisfying (data t) (gates_of t) h cs sigmas ws ->
  let S := fiat_shamir (data t) (gates_of t) h cs sigmas ws (fun _ _ => []) digest witness in
  lucky (data t) sigmas ws (v_chal S) (v_fri_betas S) (v_pow S) (v_indices S) ->
  run (Define orders 192 (data t) (session_proof (data t) (gates_of t) h cs sigmas ws (fun _ _ => []) witness S) pis
        (mkVerifierOnlyCircuitData (constants_cap (data t) cs sigmas (fun _ _ => [])) digest)) = Done tt.
Proof.
  intros t orders pis cs sigmas ws digest witness HO HP Hd Hw h HS S LK.
  apply (C64_complete orders (data t) (gates_of t) pis cs sigmas ws (fun _ _ => []) digest witness); try assumption.
  - apply C86_files.
  - exact (test_provable t).
  - destruct t; reflexivity.
  - eapply Forall_impl; [|exact HP]. intros x Hx. unfold reducible. revert Hx. unfold p. lia.
  - eapply Forall_impl; [|exact HP]. intros x Hx. assert (B : 2 ^ 64 <= r) by (vm_compute; discriminate). unfold inr_. revert Hx B. generalize (2 ^ 64) r. intros. lia.
Qed.
Print Assumptions C86_complete.
(** C52 and C85: proofs with the dimensions of these circuits, and the key of the repository.  The
    honest solver accepts exactly the proofs whose transcript, answered by the sponge, convinces
    the verifier; so does, for S-box widths from 128 to 189, the constraint system for every prover. *)
Definition dimensions (t : testcase) (pr : Proof_) : Prop :=
  let o := Openings pr in
  length (Constants o) = match t with Block => 5%nat | Step => 6%nat end /\ length (PlonkSigmas o) = 80%nat /\ length (Wires o) = 136%nat /\
  length (PlonkZs o) = 2%nat /\ length (PlonkZsNext o) = 2%nat /\ length (PartialProducts o) = 18%nat /\ length (QuotientPolys o) = 16%nat /\
  length (PlonkZsPartialProductsCap pr) = 16%nat /\ length (QuotientPolysCap pr) = 16%nat /\
  length (CommitPhaseMerkleCaps (OpeningProof pr)) = 2%nat /\ Forall (fun c => length c = 16%nat) (CommitPhaseMerkleCaps (OpeningProof pr)).
Definition digests_native (pr : Proof_) : Prop :=
  Forall inr_ (WiresCap pr) /\ Forall inr_ (PlonkZsPartialProductsCap pr) /\ Forall inr_ (QuotientPolysCap pr) /\
  Forall (Forall inr_) (CommitPhaseMerkleCaps (OpeningProof pr)) /\ Forall siblings_ok (QueryRoundProofs (OpeningProof pr)).
Lemma test_dims t pr : dimensions t pr -> proof_shape (data t) (gates_of t) pr /\ openings_shape (data t) (Openings pr) /\
  length (CommitPhaseMerkleCaps (OpeningProof pr)) = length (ReductionArityBits (cd_FriParams (data t))).
Proof.
  intros (D1 & D2 & D3 & D4 & D5 & D6 & D7 & D8 & D9 & D10 & D11). split; [|split].
  - split; [split|].
    + destruct t; cbn [data block_data step_data cd_Config cd_SelectorsInfo groups config NumRoutedWires NumChallenges NumPartialProducts QuotientDegreeFactor length]; lia.
    + pose proof (test_fits t) as F. replace (length (Constants (Openings pr)) - _)%nat with 2%nat by (rewrite D1; destruct t; reflexivity). rewrite D3. exact F.
    + split; [intros X; rewrite X in D8; discriminate D8|]. split; [intros X; rewrite X in D9; discriminate D9|].
      eapply Forall_impl; [|exact D11]. intros c Hc X. rewrite X in Hc. discriminate Hc.
  - destruct t; unfold openings_shape; cbn [data block_data step_data cd_Config cd_NumConstants config NumWires NumRoutedWires NumChallenges NumPartialProducts QuotientDegreeFactor]; repeat split; assumption.
  - rewrite D10. destruct t; reflexivity.
Qed.
Theorem C86_accepts : forall t orders pr pis, (forall i, Permutation (orders i) gateRegexHandlers) ->
  dimensions t pr -> digests_native pr -> Forall inr_ pis ->
  (run (Define orders 192 (data t) pr pis (key t)) = Done tt <-> convinced (data t) (gates_of t) pr pis (key t)) /\
  forall w, 128 <= w <= 189 -> (sat (Define orders w (data t) pr pis (key t)) <-> convinced (data t) (gates_of t) pr pis (key t)).
Proof.
  intros t orders pr pis HO D (N1 & N2 & N3 & N4 & N5) NP. destruct (test_dims t pr D) as (SH & OS & LC).
  assert (NA : native pr pis (key t)).
  { split; [exact NP|]. split; [destruct t; (split; [discriminate|reflexivity])|]. auto. }
  pose proof (proj2 (proj2 (C86_files t))) as HG. split.
  - apply C85_honest; auto. exact (test_shape t).
  - intros w Hw. apply C85_transcript; auto. exact (test_shape t).
Qed.
Print Assumptions C86_accepts.
(** C84: an adversary against the verifier with a random oracle, asking at most q questions, makes
    it accept a false statement about these circuits with probability at most (q + 7) / 2^39. *)
Theorem C86_oracle : forall t vd (S : list Z -> Prop) gcoins b cs sigmas (G : adversary) q ws,
  let cd := data t in let n := match t with Block => 15%nat | Step => 16%nat end in let e := (7 * 2 ^ (n - 4) - 1)%nat in
  NoDup gcoins -> (forall x, In x gcoins) -> Z.of_nat b = (p - 1) / 2 ^ Z.of_nat n + 1 ->
  length cs = match t with Block => 5%nat | Step => 6%nat end -> length sigmas = 80%nat -> Forall (fun f => length f <= 2 ^ cd_DegreeBits cd + 1)%nat (cs ++ sigmas) ->
  ConstantSigmasCap vd = key_cap n (cs ++ sigmas) ->
  no_collision S -> (forall a, key_hashed n (cs ++ sigmas) a -> S a) ->
  asks G q -> NoDup ws -> (forall xs, In xs ws -> fs_wins cd (gates_of t) vd cs sigmas S gcoins 9 e b G xs) ->
  (sumq (fs_probability cd gcoins 9 e b G) ws <= inject_Z (Z.of_nat (q + 7)) * (1 # 2 ^ 39))%Q.
Proof.
  intros t vd S gcoins b cs sigmas G q ws cd n e ND ALL Hb Lc Ls HB KEY NC HK AQ NDw HW.
  assert (LG : Z.of_nat (length gcoins) = p).
  { destruct (Z_of_nat_complete p) as [m Hm]; [unfold p; lia|]. rewrite Hm. f_equal. set (f := fun j => inj (Z.of_nat j)).
    assert (NF : NoDup (map f (seq 0 m))).
    { apply NoDup_map_in; [|apply seq_NoDup]. intros x y Hx Hy Exy. apply in_seq in Hx, Hy. apply (f_equal rep) in Exy. unfold f in Exy. rewrite !rep_inj_small in Exy by lia. lia. }
    assert (AF : forall x, In x (map f (seq 0 m))).
    { intros x. pose proof (rep_range x) as R. apply in_map_iff. exists (Z.to_nat (rep x)). split; [unfold f; rewrite Z2Nat.id by lia; apply GF_eq; apply rep_inj_small; exact R|].
      apply in_seq. split; [lia|]. cbn [Nat.add]. apply Nat2Z.inj_lt. rewrite Z2Nat.id; lia. }
    apply Nat.le_antisymm.
    - pose proof (NoDup_incl_length ND (fun x _ => AF x)) as L. now rewrite map_length, seq_length in L.
    - pose proof (NoDup_incl_length NF (fun x _ => ALL x)) as L. now rewrite map_length, seq_length in L. }
  assert (EN : LdeBits (cd_FriParams cd) = n) by (destruct t; reflexivity).
  assert (ED : (n - 4 = cd_DegreeBits cd - 1)%nat) by (destruct t; reflexivity).
  assert (LA : (q + 5 + length (ReductionArityBits (cd_FriParams cd)) = q + 7)%nat) by (destruct t; cbn [cd data block_data step_data cd_FriParams ReductionArityBits length]; lia).
  assert (EE : e = (7 * 2 ^ (cd_DegreeBits cd - 1) - 1)%nat) by (unfold e; now rewrite ED).
  rewrite <- LA. clearbody e. rewrite <- EN in Hb, KEY, HK.
  apply (C84_testdata cd (gates_of t) vd S gcoins 9 e b cs sigmas G q ws); try assumption; try (destruct t; reflexivity).
  - destruct t; [left|right]; reflexivity.
  - destruct t; cbn; lia.
  - destruct t; cbn; lia.
  - lia.
  - exact (test_sound t).
  - exact (test_degree t).
  - rewrite Lc. destruct t; reflexivity.
  - rewrite Ls. destruct t; reflexivity.
Qed.
Print Assumptions C86_oracle.

(** ** Examples: a circuit over these gates, whose rows are all ConstantGates with the constants 0 and 1 *)
Definition cs86 : list (list GF) := [[inj 1]; [inj (2 ^ 32 - 1)]; [inj (2 ^ 32 - 1)]; []; [g1]].
Definition ws86 : list (list GF) := [] :: [g1] :: repeat [] 134.
(** no cell connected to another one *)
Definition sigmas86 : list (list GF) := map (fun k => [g0; inj k]) (KIs (data Block)).
(** the first two columns connected *)
Definition crossed86 : list (list GF) := [g0; inj 7] :: [g0; inj 1] :: skipn 2 sigmas86.
Lemma gpeval_const c x : gpeval [c] x = c. Proof. unfold gpeval. cbn [peval]. ring. Qed.
Lemma gpeval_linear c x : gpeval [g0; c] x = (c * x)%GF. Proof. unfold gpeval. cbn [peval]. ring. Qed.
Lemma grow86 k : grow (data Block) cs86 k = [inj 1; inj (2 ^ 32 - 1); inj (2 ^ 32 - 1); g0; g1].
Proof. unfold grow, cs86. cbn [map]. now rewrite !gpeval_const. Qed.
Lemma selects86 k : selects (cd_SelectorsInfo (data Block)) 13 (map emb (grow (data Block) cs86 k)) 1.
Proof.
  rewrite grow86. split; [lia|]. split; [cbn; lia|]. split; [cbn; lia|]. intros i Hi.
  do 13 (destruct i as [|i]; [reflexivity|]). lia.
Qed.
Lemma label86 c : In c (cells (data Block)) -> gcell (data Block) sigmas86 c = label (data Block) c.
Proof.
  destruct c as [k j]. intros I. apply in_cells in I. destruct I as [_ I]. change (j < 80)%nat in I. unfold gcell, label. cbn [fst snd].
  unfold sigmas86. rewrite (nth_indep _ [] [g0; inj 0]) by (rewrite map_length; exact I). rewrite (map_nth (fun k => [g0; inj k])). apply gpeval_linear.
Qed.
(** with the wires of [ws86] it is satisfied *)
Example C86_complete_ex : forall h, length h = 4%nat -> satisfying (data Block) (gates_of Block) h cs86 sigmas86 ws86.
Proof.
  intros h Lh. split; [repeat split|]. split; [|split; [|split]].
  - apply Forall_forall. intros f Hf. apply Nat.le_trans with 2%nat; [|apply (Nat.pow_le_mono_r 2 1); [lia|cbn; lia]].
    assert (B : forallb (fun f => (length f <=? 2)%nat) (cs86 ++ sigmas86 ++ ws86) = true) by reflexivity. rewrite forallb_forall in B. now apply Nat.leb_le, B.
  - intros k Hk. exists 1%nat. split; [exact (selects86 k)|]. rewrite grow86. cbn [nth gates_of block_gates].
    match goal with |- computes (EvalUnfiltered ?g (mkvars ?cs ?ws ?hh)) ?r => assert (C := gate_computes g cs ws hh); assert (E : map repK (gate_k g cs ws hh) = r) end.
    { unfold grow, ws86. cbn [map gate_k num_constraints repeat seq]. rewrite gpeval_const. unfold gpeval at 1. cbn [peval skipn length groups cd_SelectorsInfo data block_data nth].
      change (0, 0) with (repK k0). repeat f_equal; ring. }
    rewrite <- E. apply C; [|exact Lh]. cbn [fits]. rewrite map_length. unfold grow. rewrite map_length. cbn. lia.
  - erewrite map_ext_in; [apply Permutation_refl|]. exact label86.
  - intros s t Is It E. rewrite label86 in E by exact It. f_equal. apply (NoDup_inj _ _ (test_labels Block)); [exact It|exact Is|]. now rewrite <- !label_emb, E.
Qed.
(** with the crossed columns no wires satisfy it: the constants 0 and 1 would be equal *)
Example C86_oracle_ex : forall h w, length h = 4%nat -> ~ rows_satisfy (data Block) (gates_of Block) h cs86 crossed86 w.
Proof.
  intros h w Lh RS. apply (proj1 (C86_rows Block h cs86 crossed86 w)) in RS. destruct RS as (LW & HG & HC). specialize (LW O).
  assert (P0 : (0 < 2 ^ cd_DegreeBits (data Block))%nat) by (pose proof (Nat.pow_nonzero 2 (cd_DegreeBits (data Block))); lia).
  specialize (HG O 1%nat P0 (selects86 O)). rewrite grow86 in HG. cbn [nth gates_of block_gates] in HG.
  match type of HG with computes (EvalUnfiltered ?g (mkvars ?cs ?ws ?hh)) ?r => assert (C := gate_computes g cs ws hh); specialize (C ltac:(cbn [fits]; rewrite map_length, LW; cbn; lia) Lh); pose proof (computes_functional _ _ _ C HG) as E end.
  clear C HG. specialize (HC O O O 1%nat P0 P0 ltac:(lia) ltac:(lia)). cbn [nth crossed86 data block_data KIs block_kis] in HC. specialize (HC (gpeval_linear _ _)).
  cbn [gate_k num_constraints seq map repeat skipn groups cd_SelectorsInfo data block_data length] in E.
  assert (NI : forall x, repK x = (0, 0) -> x = k0) by (intros x X; apply repK_inj; rewrite X; reflexivity).
  pose proof (f_equal (fun l => nth 0 l (0, 0)) E) as E0. pose proof (f_equal (fun l => nth 1 l (0, 0)) E) as E1. clear E. cbn [nth] in E0, E1. apply NI in E0, E1.
  revert HC E0 E1. destruct (w O) as [|a [|b l]]; try discriminate LW. unfold wire. cbn [nth map]. intros -> E0 E1.
  assert (E : emb g1 = emb g0).
  { transitivity (emb b + (emb g1 - emb b))%K; [ring|]. rewrite E1. transitivity (emb b + (emb g0 - emb b))%K; [rewrite E0; reflexivity|ring]. }
  apply emb_inj in E. apply (f_equal rep) in E. vm_compute in E. discriminate E.
Qed.
(** the proofs of the honest prover have the dimensions and digests of C86_accepts *)
Example C86_accepts_ex : forall t pis cs sigmas ws digest witness, Forall inr_ pis -> inr_ digest ->
  let h := sponge g0 poseidon (map inj pis) 4 in
  satisfying (data t) (gates_of t) h cs sigmas ws ->
  let S := fiat_shamir (data t) (gates_of t) h cs sigmas ws (fun _ _ => []) digest witness in
  let pr := session_proof (data t) (gates_of t) h cs sigmas ws (fun _ _ => []) witness S in
  dimensions t pr /\ digests_native pr.
Proof.
  intros t pis cs sigmas ws digest witness HP Hd h ST S pr. assert (Lh : length h = 4%nat) by (apply C20_output_count; lia).
  pose proof ST as ((L1 & L2 & L3) & _).
  pose proof (sent_proof_shape (data t) (gates_of t) h cs sigmas ws (fun _ _ => []) (test_provable t) ST Lh (v_chal S) (v_alpha S) (v_fri_betas S) (v_indices S) witness : proof_shape (data t) (gates_of t) pr) as SH.
  pose proof (sent_native (data t) (gates_of t) h cs sigmas ws (fun _ _ => []) (v_chal S) (v_alpha S) (v_fri_betas S) (v_indices S) witness pis digest HP Hd) as (_ & _ & N1 & N2 & N3 & N4).
  pose proof (fiat_shamir_ok (data t) (gates_of t) h cs sigmas ws (fun _ _ => []) digest witness (mkVerifierOnlyCircuitData [] digest) eq_refl (shape_transcript (data t) (gates_of t) pr (test_shape t) SH)) as (_ & _ & _ & _ & L4 & _). fold S in L4.
  split.
  - unfold dimensions, pr, session_proof, sent_proof. cbn [Openings PlonkZsPartialProductsCap QuotientPolysCap OpeningProof]. unfold sent_opens, opened, repO.
    cbn [o_cs o_sigmas o_ws o_zs o_zsn o_pps o_qs Constants PlonkSigmas Wires PlonkZs PlonkZsNext PartialProducts QuotientPolys].
    unfold cols. rewrite !map_length, hz_length, hp_length, hq_length, L1, L2, L3.
    do 7 (split; [destruct t; reflexivity|]). split; [apply cap_length|]. split; [apply cap_length|]. unfold sent_fri, honest_fri. cbn [CommitPhaseMerkleCaps].
    split; [|apply caps_shape]. transitivity (length (v_fri_betas S)); [|rewrite L4; destruct t; reflexivity].
    generalize (honest_codeword (sent_tables (data t) (gates_of t) h cs sigmas ws (v_chal S)) (cd_FriParams (data t)) (v_alpha S) (fri_points (data t) (c_zeta (v_chal S)))), (LdeBits (cd_FriParams (data t))), g7.
    generalize (v_fri_betas S). clear. intros l. induction l as [|b bs IH]; intros c n s; [reflexivity|]. cbn [commit_caps length]. now rewrite IH.
  - split; [exact N1|]. split; [exact N2|]. split; [exact N3|]. split; [exact N4|].
    unfold pr, session_proof, sent_proof, sent_fri, honest_fri. cbn [OpeningProof QueryRoundProofs]. apply Forall_map, Forall_forall. intros x _. apply honest_siblings.
Qed.
