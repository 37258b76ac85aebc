(** * Property C90: the range check on the S-box, with a width for which it is enough.

    The code bounds the quotients of the S-box by 2^192 (poseidon/goldilocks.go:141 and :144), which
    leaves the prover a choice (C52_verify_refuted, C83_sound_refuted).  Here are the circuits of
    testdata with another width in its place: a change of the code, not the code as it is. *)
From Coq Require Import String.
From Coq Require Import ZArith NArith Lia List Bool Permutation.
From Verif Require Import Zp GF Circuit Goldilocks PoseidonSpec PoseidonGL PoseidonGLProofs Sponge DenP BN254 BN254Hash Types Challenger Fri FriQuery FriTop Gates GateAll Prop_Gates Plonk PlonkRows GateIds GateIdText Verifier VerifierProofs Prop_Verifier Malleable Prop_Forgery Prop_Poseidon Prop_ForgeSbox
  PlonkProver Honest Complete Prop_Complete FriRewind Prop_Fri SpongeOracle Prop_SpongeOracle Uniform UniformAll Prop_Uniform Census
  RangeModes RangeProofs Prop_Range Widths Prop_Modes Requests Prop_Requests TestData Prop_TestData Prop_Census Repair.
Import ListNotations.
Open Scope Z_scope.
Local Opaque PoseidonBN HashOrNoop TwoToOne poseidon.

(** ** The permutation *)
(** The widths from 128 on for which the permutation circuit has one output, for some state or,
    equivalently, for all: those up to 189.  From 190 on there is one that differs from plonky2's
    in all twelve elements. *)
Theorem C90_sharp : forall w s, 128 <= w -> length s = 12%nat -> Forall (fun x => 0 <= x < p) s ->
  ((forall t t', reach (Poseidon_w w s) t -> reach (Poseidon_w w s) t' -> t = t') <-> w <= 189) /\
  (190 <= w -> exists t, reach (Poseidon_w w s) t /\ length t = 12%nat /\
     forall i, (i < 12)%nat -> nth i t 0 <> nth i (map rep (poseidon (map inj s))) 0).
Proof.
  intros w s Hw L H.
  assert (M : 190 <= w -> exists t, reach (Poseidon_w w s) t /\ length t = 12%nat /\
     forall i, (i < 12)%nat -> nth i t 0 <> nth i (map rep (poseidon (map inj s))) 0).
  { intros Hm. destruct (canon_list s H) as [g ->]. rewrite map_length in L. rewrite unrep.
    exists (map rep (forge g (digit 1))). split; [|split].
    - apply (denR_reach _ _ _ _ _ _ (poseidon_denR w g L)). exists (forge g (digit 1)). split; [reflexivity|]. exact (perm_more w g Hm).
    - unfold forge. now rewrite !map_length, seq_length.
    - intros i Hi E. change 0 with (rep g0) in E. rewrite !map_nth in E. apply GF_eq in E. exact (more_differs g i Hi E). }
  split; [|exact M]. split.
  - intros U. destruct (Z_le_gt_dec w 189) as [X|X]; [exact X|exfalso]. destruct (M ltac:(lia)) as (t & R & _ & D).
    assert (R' : reach (Poseidon_w w s) (map rep (poseidon (map inj s)))).
    { destruct (canon_list s H) as [g ->]. rewrite map_length in L. rewrite unrep. apply (denR_reach _ _ _ _ _ _ (poseidon_denR w g L)).
      exists (poseidon g). split; [reflexivity|]. apply honest_perm. lia. }
    apply (D 0%nat); [lia|]. now rewrite (U _ _ R R').
  - intros B t t' R R'. pose proof (C19_single_output_partial w s ltac:(lia) L H) as C. apply (enforces_reach _ _ _ _ C) in R, R'. destruct R as [_ ->]. destruct R' as [_ ->]. reflexivity.
Qed.
Print Assumptions C90_sharp.

(** ** Any circuit *)
(** the widths that the whole circuit requests, whatever the hints *)
Theorem C90_widths : forall orders w cd pr pis vd v l, (forall i, Permutation (orders i) gateRegexHandlers) ->
  traces (Define orders w cd pr pis vd) v l ->
  Forall (fun q => snd q = 32 \/ snd q = 144 \/ snd q = w \/ snd q = 64 - pow_bits cd) l.
Proof.
  intros orders w cd pr pis vd v l HO T.
  refine (all_widths_traces (fun n => n = 32 \/ n = 144 \/ n = w \/ n = 64 - pow_bits cd) _ _ v l T).
  apply W_Define; auto.
Qed.
Print Assumptions C90_widths.
Lemma widths_ok_with orders w cd pr pis vd : (forall i, Permutation (orders i) gateRegexHandlers) -> 0 < w <= 253 -> pow_bits cd < 64 ->
  widths_ok (Define orders w cd pr pis vd).
Proof. intros HO Hw H. unfold widths_ok. apply W_Define; try lia. exact HO. Qed.
Lemma aligned_with orders w cd pr pis vd l : (forall i, Permutation (orders i) gateRegexHandlers) -> 0 < w <= 253 -> (16 | w) -> pow_bits cd < 64 -> (16 | pow_bits cd) ->
  traces (Define orders w cd pr pis vd) tt l -> Forall (fun q : Z * Z => 0 < snd q < 272 /\ (16 | snd q)) l.
Proof.
  intros HO Hw Dw HP [k Hk] T. pose proof (C90_widths _ _ _ _ _ _ _ _ HO T) as W. eapply Forall_impl; [|exact W].
  intros q [E|[E|[E|E]]]; rewrite E.
  - split; [lia|now exists 2].
  - split; [lia|now exists 9].
  - split; [lia|exact Dw].
  - split; [lia|]. exists (4 - k). lia.
Qed.

(** Bit decomposition, with any width up to 253 *)
Theorem C90_bits : forall ubd api a, chosen ubd api a = BIT_DECOMP_RANGE_CHECKER ->
  forall orders w cd pr pis vd, (forall i, Permutation (orders i) gateRegexHandlers) -> 0 < w <= 253 -> pow_bits cd < 64 ->
  (RangeModes.accepts ubd api a (Define orders w cd pr pis vd) tt <-> sat (Define orders w cd pr pis vd)).
Proof.
  intros ubd api a C orders w cd pr pis vd HO Hw HP. pose proof (widths_ok_with orders w cd pr pis vd HO Hw HP) as W. split.
  - intros H. exists tt. revert H. apply C06_bits; [exact C|exact W].
  - intros [[] R]. apply C06_bits; [exact C|exact W|exact R].
Qed.
Print Assumptions C90_bits.

(** the committing checker, with a multiple of 16 *)
Theorem C90_commit : forall ubd api a, chosen ubd api a = COMMIT_RANGE_CHECKER -> frontendTyper (api a) = None ->
  forall orders w cd pr pis vd, (forall i, Permutation (orders i) gateRegexHandlers) -> 0 < w <= 253 -> (16 | w) -> pow_bits cd < 64 -> (16 | pow_bits cd) ->
  148 <= nbOpenings (Openings pr) -> (forall l, traces (Define orders w cd pr pis vd) tt l -> Z.of_nat (length l) < 2 ^ 50) ->
  (RangeModes.accepts ubd api a (Define orders w cd pr pis vd) tt <-> sat (Define orders w cd pr pis vd)).
Proof.
  intros ubd api a C G orders w cd pr pis vd HO Hw Dw HP HD HN HL.
  rewrite (C06_commit ubd api a C (or_introl G) unit _ tt (widths_ok_with orders w cd pr pis vd HO Hw HP) HL). split.
  - intros (l & T & F & _). exists tt. apply reach_traces. exists l. split; [exact T|exact F].
  - intros [[] R]. apply reach_traces in R. destruct R as (l & T & F). exists l. split; [exact T|]. split; [exact F|].
    pose proof (aligned_with _ _ _ _ _ _ _ HO Hw Dw HP HD T) as W. split.
    + unfold getOptimalBasewidth. rewrite G. apply enough_16; [exact W|].
      pose proof (Define_requests _ _ _ _ _ _ _ _ T) as X. split; [|exact (HL l T)]. change (2 ^ 16) with 65536. clear HL. lia.
    + eapply Forall_impl; [|exact W]. cbv beta. intros q [_ Hq]. exact Hq.
Qed.
Print Assumptions C90_commit.

(** Hence, for these widths and every circuit with the usual shape, what the two constraint systems
    accept is what convinces the verifier of C85; for the committing checker with enough openings
    and not too many requests. *)
Theorem C90_any : forall ubd ubd' api a b, chosen ubd api a = COMMIT_RANGE_CHECKER -> frontendTyper (api a) = None ->
  chosen ubd' api b = BIT_DECOMP_RANGE_CHECKER ->
  forall orders w cd gates pr pis vd, (forall i, Permutation (orders i) gateRegexHandlers) -> Forall2 gate_text gates (map str (GateIds cd)) ->
  circuit_shape cd gates -> VerifierProofs.proof_shape cd gates pr -> native pr pis vd -> Prop_Fri.openings_shape cd (Openings pr) ->
  Forall siblings_ok (QueryRoundProofs (OpeningProof pr)) ->
  length (CommitPhaseMerkleCaps (OpeningProof pr)) = length (ReductionArityBits (cd_FriParams cd)) ->
  128 <= w <= 189 -> pow_bits cd < 64 ->
  let circuit := Define orders w cd pr pis vd in
  (RangeModes.accepts ubd' api b circuit tt <-> convinced cd gates pr pis vd) /\
  ((16 | w) -> (16 | pow_bits cd) -> 148 <= nbOpenings (Openings pr) -> (forall l, traces circuit tt l -> Z.of_nat (length l) < 2 ^ 50) ->
   (RangeModes.accepts ubd api a circuit tt <-> convinced cd gates pr pis vd)).
Proof.
  intros ubd ubd' api a b C G C' orders w cd gates pr pis vd HO HG HC HS NA OS SB LC B HP circuit.
  pose proof (C85_transcript orders cd gates pr pis vd HO HG HC HS NA OS SB LC w B) as E. unfold circuit. split.
  - rewrite (C90_bits ubd' api b C' orders w cd pr pis vd HO ltac:(lia) HP). exact E.
  - intros Dw HD HN HL. rewrite (C90_commit ubd api a C G orders w cd pr pis vd HO ltac:(clear HL HN; lia) Dw HP HD HN HL). exact E.
Qed.
Print Assumptions C90_any.

(** The false statement of C83, for a circuit with the configuration of testdata: the constraint
    system with bit decomposition accepts the forged proof with the width of the code, and with none
    of the smaller ones. *)
Theorem C90_forgery : exists cd gates cs sigmas digest pis pr,
  let vd := mkVerifierOnlyCircuitData (constants_cap cd cs sigmas (fun _ _ => [])) digest in
  fp_Config (cd_FriParams cd) = mkFriConfig 3 4 16 28 /\ Forall2 gate_text gates (map str (GateIds cd)) /\
  (forall h ws, length h = 4%nat -> ~ satisfying cd gates h cs sigmas ws) /\
  forall ubd api a orders, chosen ubd api a = BIT_DECOMP_RANGE_CHECKER -> (forall i, Permutation (orders i) gateRegexHandlers) ->
    RangeModes.accepts ubd api a (Define orders 192 cd pr pis vd) tt /\
    forall w, 128 <= w <= 189 -> ~ RangeModes.accepts ubd api a (Define orders w cd pr pis vd) tt.
Proof.
  destruct C83_sound_refuted as (cd & gates & cs & sigmas & digest & pis & pr & (_ & EF & _) & HG & HU & HS).
  exists cd, gates, cs, sigmas, digest, pis, pr. cbv zeta in *. split; [exact EF|]. split; [exact HG|]. split; [exact HU|].
  intros ubd api a orders C HO. destruct (HS orders HO) as [S N]. assert (HP : pow_bits cd < 64) by (rewrite EF; reflexivity).
  set (vd := mkVerifierOnlyCircuitData _ _) in *. clearbody vd. split.
  - apply (C90_bits ubd api a C orders 192 cd pr pis vd HO ltac:(lia) HP). exact S.
  - intros w Hw A. apply (N w Hw). apply (C90_bits ubd api a C orders w cd pr pis vd HO ltac:(lia) HP). exact A.
Qed.
Print Assumptions C90_forgery.

(** ** The circuits of testdata *)
Lemma layout_with orders w t pr pis vd hs : (forall i, Permutation (orders i) gateRegexHandlers) ->
  sizes t pr pis vd -> layout (Define orders w (data t) pr pis vd) hs = layout (placeholder_with w t) [].
Proof.
  intros HO S. unfold placeholder_with. rewrite <- (test_verify orders w t _ _ _ HO).
  exact (C77_layout orders w (data t) _ _ HO (placeholder_shape t pr pis vd S) hs []).
Qed.
(** As many range checks as with 192 (C89), and the S-boxes are among them. *)
Theorem C90_requests : forall t orders w pr pis vd l, (forall i, Permutation (orders i) gateRegexHandlers) -> given t pr pis ->
  traces (Define orders w (data t) pr pis vd) tt l ->
  Z.of_nat (length l) = match t with Block => 624689 | Step => 653875 end /\ In w (map snd l).
Proof.
  intros t orders w pr pis vd l HO S0 T. assert (S : sizes t pr pis vd) by (split; [exact S0|exact (C89_checked t orders w pr pis vd l HO T)]).
  destruct (traces_ranges _ _ _ T) as [hs E]. rewrite (layout_with orders w t pr pis vd hs HO S) in E. change ranges with widths_of in E. split.
  - rewrite <- (map_length snd), E. rewrite <- nat_N_Z.
    assert (C : range_count (placeholder_with w t) 0 = Some (match t with Block => 624689 | Step => 653875 end)%N) by (destruct t; [exact (count_block w)|exact (count_step w)]).
    apply range_count_layout in C. rewrite N.add_0_l in C. rewrite <- C. destruct t; reflexivity.
  - rewrite E. destruct t; [exact (width_at_layout _ _ _ (sbox_block w))|exact (width_at_layout _ _ _ (sbox_step w))].
Qed.
Print Assumptions C90_requests.

(** So with the committing checker the circuit does not compile for other widths than multiples of 16 *)
Theorem C90_panics : forall t ubd api a, chosen ubd api a = COMMIT_RANGE_CHECKER ->
  forall orders w pr pis vd l, (forall i, Permutation (orders i) gateRegexHandlers) -> given t pr pis -> ~ (16 | w) ->
  traces (Define orders w (data t) pr pis vd) tt l ->
  compile ubd api a (ENew a :: map (fun q => ECheck a (fst q) (snd q)) l) = None.
Proof.
  intros t ubd api a C orders w pr pis vd l HO G N T.
  destruct (play_define ubd api a l) as [x P]. specialize (P ltac:(rewrite C; discriminate)).
  destruct (compile ubd api a _) as [cs|] eqn:K; [exfalso|reflexivity].
  destruct (proj1 (C07_exact ubd api a _ x P ltac:(now left) C cs) K) as (_ & _ & Al & _). rewrite requests_define in Al.
  destruct (C90_requests t orders w pr pis vd l HO G T) as [_ I]. apply in_map_iff in I. destruct I as (q & E & Hq).
  rewrite Forall_forall in Al. specialize (Al q Hq). cbv beta in Al. rewrite E in Al. exact (N Al).
Qed.
Print Assumptions C90_panics.

(** For 128, 144, 160 and 176 both kinds of constraint systems accept exactly the proofs that convince
    the verifier of C85, whatever the prover does and whatever the key is. *)
Theorem C90_repaired : forall t ubd ubd' api a b, chosen ubd api a = COMMIT_RANGE_CHECKER -> frontendTyper (api a) = None ->
  chosen ubd' api b = BIT_DECOMP_RANGE_CHECKER ->
  forall orders w pr pis vd, (forall i, Permutation (orders i) gateRegexHandlers) -> In w [128; 144; 160; 176] ->
  dimensions t pr -> length pis = nbPublicInputs t -> native pr pis vd -> Forall siblings_ok (QueryRoundProofs (OpeningProof pr)) ->
  let circuit := Define orders w (data t) pr pis vd in
  (RangeModes.accepts ubd api a circuit tt <-> convinced (data t) (gates_of t) pr pis vd) /\
  (RangeModes.accepts ubd' api b circuit tt <-> convinced (data t) (gates_of t) pr pis vd).
Proof.
  intros t ubd ubd' api a b C G C' orders w pr pis vd HO Hw D L NA SB circuit.
  assert (GV : given t pr pis).
  { destruct D as (D1 & D2 & D3 & D4 & D5 & D6 & D7 & _ & _ & D10 & _). exact (conj D1 (conj D2 (conj D3 (conj D4 (conj D5 (conj D6 (conj D7 (conj D10 L)))))))). }
  assert (B : 128 <= w <= 189 /\ (16 | w)).
  { cbn [In] in Hw. destruct Hw as [<-|[<-|[<-|[<-|[]]]]]; (split; [lia|]); [now exists 8|now exists 9|now exists 10|now exists 11]. }
  destruct B as [B Dw].
  assert (HL : forall l, traces circuit tt l -> Z.of_nat (length l) < 2 ^ 50).
  { intros l T. destruct (C90_requests t orders w pr pis vd l HO GV T) as [-> _]. destruct t; reflexivity. }
  assert (HN : 148 <= nbOpenings (Openings pr)).
  { destruct D as (D1 & D2 & D3 & D4 & D5 & D6 & D7 & _). unfold nbOpenings. rewrite D1, D2, D3, D4, D5, D6, D7. destruct t; cbv; discriminate. }
  assert (HP : pow_bits (data t) = 16) by (destruct t; reflexivity).
  assert (HD : (16 | pow_bits (data t))) by (rewrite HP; now exists 1).
  assert (HP' : pow_bits (data t) < 64) by (rewrite HP; reflexivity). clear HP.
  destruct (test_dims t pr D) as (SH & OS & LC).
  pose proof (C85_transcript orders (data t) (gates_of t) pr pis vd HO (proj2 (proj2 (C86_files t))) (test_shape t) SH NA OS SB LC w B) as E.
  unfold circuit in *. split.
  - rewrite (C90_commit ubd api a C G orders w (data t) pr pis vd HO ltac:(clear HL HN; lia) Dw HP' HD HN HL). exact E.
  - rewrite (C90_bits ubd' api b C' orders w (data t) pr pis vd HO ltac:(clear HL HN; lia) HP'). exact E.
Qed.
Print Assumptions C90_repaired.

(** The repair costs nothing: what the solver of the code finds today, with 192, it still finds ... *)
Theorem C90_keeps : forall t orders w pr pis vd, (forall i, Permutation (orders i) gateRegexHandlers) -> 128 <= w <= 189 ->
  dimensions t pr -> native pr pis vd -> Forall siblings_ok (QueryRoundProofs (OpeningProof pr)) ->
  (run (Define orders 192 (data t) pr pis vd) = Done tt <-> sat (Define orders w (data t) pr pis vd)).
Proof.
  intros t orders w pr pis vd HO B D NA SB. destruct (test_dims t pr D) as (SH & OS & LC).
  rewrite (C85_transcript orders (data t) (gates_of t) pr pis vd HO (proj2 (proj2 (C86_files t))) (test_shape t) SH NA OS SB LC w B).
  exact (C85_honest orders (data t) (gates_of t) pr pis vd HO (proj2 (proj2 (C86_files t))) (test_shape t) SH NA OS SB LC).
Qed.
Print Assumptions C90_keeps.

(** ... so the proof of the honest prover satisfies the repaired constraint systems. *)
Lemma honest_native t pis cs sigmas ws digest witness : Forall inr_ pis -> inr_ digest ->
  let h := sponge g0 poseidon (map inj pis) 4 in
  satisfying (data t) (gates_of t) h cs sigmas ws ->
  let S := fiat_shamir (data t) (gates_of t) h cs sigmas ws (fun _ _ => []) digest witness in
  let pr := session_proof (data t) (gates_of t) h cs sigmas ws (fun _ _ => []) witness S in
  dimensions t pr /\ native pr pis (mkVerifierOnlyCircuitData (constants_cap (data t) cs sigmas (fun _ _ => [])) digest) /\
  Forall siblings_ok (QueryRoundProofs (OpeningProof pr)).
Proof.
  intros HP Hd h ST S pr. pose proof (C86_accepts_ex t pis cs sigmas ws digest witness HP Hd ST) as [D (N1 & N2 & N3 & N4 & N5)].
  fold h in D, N1, N2, N3, N4, N5. fold S in D, N1, N2, N3, N4, N5. fold pr in D, N1, N2, N3, N4, N5.
  split; [exact D|]. split; [|exact N5]. split; [exact HP|]. split; [exact Hd|]. auto.
Qed.
Theorem C90_complete : forall t ubd ubd' api a b, chosen ubd api a = COMMIT_RANGE_CHECKER -> frontendTyper (api a) = None ->
  chosen ubd' api b = BIT_DECOMP_RANGE_CHECKER ->
  forall orders w pis cs sigmas ws digest witness, In w [128; 144; 160; 176] ->
  (forall i, Permutation (orders i) gateRegexHandlers) -> Forall (fun x => 0 <= x < 2 ^ 64) pis -> length pis = nbPublicInputs t -> 0 <= digest < r -> 0 <= witness < p ->
  let h := sponge g0 poseidon (map inj pis) 4 in
  satisfying (data t) (gates_of t) h cs sigmas ws ->
  let S := fiat_shamir (data t) (gates_of t) h cs sigmas ws (fun _ _ => []) digest witness in
  lucky (data t) sigmas ws (v_chal S) (v_fri_betas S) (v_pow S) (v_indices S) ->
  let circuit := Define orders w (data t) (session_proof (data t) (gates_of t) h cs sigmas ws (fun _ _ => []) witness S) pis
        (mkVerifierOnlyCircuitData (constants_cap (data t) cs sigmas (fun _ _ => [])) digest) in
  RangeModes.accepts ubd api a circuit tt /\ RangeModes.accepts ubd' api b circuit tt.
Proof.
  intros t ubd ubd' api a b C G C' orders w pis cs sigmas ws digest witness Hw HO HP HL Hd Hwi h HS S LK circuit.
  pose proof (C86_complete t orders pis cs sigmas ws digest witness HO HP Hd Hwi HS LK) as R. cbv zeta in R. fold h in R. fold S in R.
  assert (HI : Forall inr_ pis).
  { eapply Forall_impl; [|exact HP]. intros x Hx. assert (B : 2 ^ 64 <= r) by (vm_compute; discriminate). unfold inr_. revert Hx B. generalize (2 ^ 64) r. intros. lia. }
  pose proof (honest_native t pis cs sigmas ws digest witness HI Hd HS) as Z. cbv zeta in Z. fold h in Z. fold S in Z.
  set (pr := session_proof (data t) (gates_of t) h cs sigmas ws (fun _ _ => []) witness S) in *.
  unfold circuit. clear circuit. set (vd := mkVerifierOnlyCircuitData _ _) in *. clearbody vd. clearbody pr. clear - C G C' HO Z R Hw HL.
  destruct Z as (D & NA & SB). destruct (test_dims t pr D) as (SH & OS & LC).
  pose proof (proj1 (C85_honest orders (data t) (gates_of t) pr pis vd HO (proj2 (proj2 (C86_files t))) (test_shape t) SH NA OS SB LC) R) as K.
  destruct (C90_repaired t ubd ubd' api a b C G C' orders w pr pis vd HO Hw D HL NA SB) as [A B]. split; [exact (proj2 A K)|exact (proj2 B K)].
Qed.
Print Assumptions C90_complete.

(** ** Examples *)
(** [honest_native]: the proofs of the honest prover meet the hypotheses of C90_repaired and C90_keeps,
    [C88_ex_builders] those about the builders.  The multiples of 16 from 128 to 189 are the four of
    C90_repaired; 192 is the next. *)
Example C90_ex_widths : filter (fun w => w mod 16 =? 0) (map (fun n => 128 + Z.of_nat n) (seq 0 65)) = [128; 144; 160; 176; 192].
Proof. reflexivity. Qed.
(** a width that is no multiple of 16: the circuit with bit decomposition would do, that with the committing checker does not compile *)
Example C90_ex_panics : ~ (16 | 189) /\ given Block (placeholder Block) (zeros (nbPublicInputs Block)).
Proof. split; [intros [k Hk]; lia|exact (proj1 (C89_ex Block))]. Qed.
(** a state for C90_sharp *)
Example C90_ex_sharp : exists t t', reach (Poseidon_w 190 (repeat 0 12)) t /\ reach (Poseidon_w 190 (repeat 0 12)) t' /\ nth 0 t 0 <> nth 0 t' 0.
Proof.
  assert (H : Forall (fun x => 0 <= x < p) (repeat 0 12)) by (apply Forall_forall; intros x Hx; apply repeat_spec in Hx; subst x; split; [discriminate|reflexivity]).
  destruct (C90_sharp 190 (repeat 0 12) ltac:(lia) eq_refl H) as [_ M]. destruct (M ltac:(lia)) as (t & R & _ & D).
  exists t, (map rep (poseidon (map inj (repeat 0 12)))). split; [exact R|]. split; [|apply D; lia].
  change (repeat 0 12) with (map rep (repeat g0 12)). rewrite unrep. apply (denR_reach _ _ _ _ _ _ (poseidon_denR 190 (repeat g0 12) eq_refl)).
  exists (poseidon (repeat g0 12)). split; [reflexivity|]. apply honest_perm. lia.
Qed.
