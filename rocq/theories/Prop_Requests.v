(** * Property C88: the committing range checker works for the verifier circuit. *)
From Coq Require Import String.
From Coq Require Import ZArith Lia List Bool Permutation.
From Verif Require Import Zp GF Circuit Goldilocks PoseidonSpec PoseidonGL PoseidonGLProofs Sponge DenP BN254 BN254Hash Types Challenger Fri Gates GateAll Prop_Gates Plonk PlonkRows GateIds GateIdText Verifier VerifierProofs Prop_Verifier Malleable Prop_Forgery
  PlonkProver Complete Prop_Complete
  RangeModes RangeProofs Prop_Range Widths Prop_Modes Requests Schema Prop_Schema Prop_Shape TestData Prop_TestData.
Import ListNotations.
Open Scope Z_scope.
Local Opaque PoseidonBN HashOrNoop TwoToOne poseidon.

(** However the hints are answered, defining the circuit asks for at least 1834 range checks per
    eight field elements among the openings of the proof. *)
Theorem C88_requests : forall orders w cd pr pis vd l, let o := Openings pr in traces (Define orders w cd pr pis vd) tt l ->
  1834 * (2 * Z.of_nat (length (Constants o) + length (PlonkSigmas o) + length (Wires o) + length (PlonkZs o) +
                        length (PartialProducts o) + length (QuotientPolys o) + length (PlonkZsNext o)) - 7) <= 8 * Z.of_nat (length l).
Proof. intros orders w cd pr pis vd l o T. exact (Define_requests _ _ _ _ _ _ _ _ T). Qed.
Print Assumptions C88_requests.

Lemma define_aligned orders cd pr pis vd l : (forall i, Permutation (orders i) gateRegexHandlers) -> pow_bits cd < 64 -> (16 | pow_bits cd) ->
  traces (Define orders 192 cd pr pis vd) tt l -> Forall (fun q : Z * Z => 0 < snd q < 272 /\ (16 | snd q)) l.
Proof.
  intros HO HP [k Hk] T. pose proof (C06_widths _ _ _ _ _ _ _ HO T) as W. eapply Forall_impl; [|exact W].
  intros q [E|[E|[E|E]]]; rewrite E.
  - split; [lia|now exists 2].
  - split; [lia|now exists 9].
  - split; [lia|now exists 12].
  - split; [lia|]. exists (4 - k). lia.
Qed.
Lemma define_optimal orders cd pr pis vd l : (forall i, Permutation (orders i) gateRegexHandlers) -> pow_bits cd < 64 -> (16 | pow_bits cd) ->
  148 <= nbOpenings (Openings pr) -> traces (Define orders 192 cd pr pis vd) tt l -> Z.of_nat (length l) < 2 ^ 50 ->
  optimalWidth nbR1CSConstraints l = 16.
Proof.
  intros HO HP HD HN T HL. apply enough_16; [exact (define_aligned _ _ _ _ _ _ HO HP HD T)|].
  pose proof (Define_requests _ _ _ _ _ _ _ _ T) as X. split; [|exact HL]. change (2 ^ 16) with 65536. clear HL. lia.
Qed.

(** With 148 openings or more, that is enough for 16 to be the optimal limb width, so the
    deferred check of the requests succeeds and emits 16 bit limbs for every one of them ... *)
Theorem C88_compiles : forall ubd api a, chosen ubd api a = COMMIT_RANGE_CHECKER -> frontendTyper (api a) = None ->
  forall orders cd pr pis vd l, (forall i, Permutation (orders i) gateRegexHandlers) -> pow_bits cd < 64 ->
  148 <= nbOpenings (Openings pr) -> traces (Define orders 192 cd pr pis vd) tt l -> Z.of_nat (length l) < 2 ^ 50 ->
  compile ubd api a (ENew a :: map (fun q => ECheck a (fst q) (snd q)) l) =
  if pow_bits cd mod 16 =? 0 then Some (map (fun q => CLimbs 16 (fst q) (snd q)) l) else None.
Proof.
  intros ubd api a C G orders cd pr pis vd l HO HP HN T HL. destruct (Z.eqb_spec (pow_bits cd mod 16) 0) as [E|E].
  - assert (HD : (16 | pow_bits cd)) by (apply Z.mod_divide; [lia|exact E]).
    pose proof (define_optimal _ _ _ _ _ _ HO HP HD HN T HL) as O.
    pose proof (define_aligned _ _ _ _ _ _ HO HP HD T) as W.
    destruct (play_define ubd api a l) as [w P]. specialize (P ltac:(rewrite C; discriminate)).
    destruct (compile ubd api a (ENew a :: map (fun q => ECheck a (fst q) (snd q)) l)) as [cs|] eqn:K.
    + f_equal. destruct (C07_deferred ubd api a _ cs K ltac:(now left) C (or_introl G)) as [X _].
      * rewrite requests_define. eapply Forall_impl; [|exact W]. cbv beta. intros q [Hq _]. lia.
      * rewrite requests_define. exact HL.
      * rewrite requests_define in X. exact X.
    + exfalso.
      assert (F : foreign_first a (ENew a :: map (fun q => ECheck a (fst q) (snd q)) l) = false) by (cbn [foreign_first]; now rewrite Nat.eqb_refl).
      assert (OO : getOptimalBasewidth (api a) l = 16) by (unfold getOptimalBasewidth; now rewrite G).
      assert (Al : Forall (fun q : Z * Z => (16 | snd q)) l) by (eapply Forall_impl; [|exact W]; cbv beta; intros q [_ Hq]; exact Hq).
      pose proof (proj2 (C07_exact ubd api a _ w P ltac:(now left) C (map (fun q => CLimbs (widthFor (gnarkType (api a)) l) (fst q) (snd q)) l))) as X.
      rewrite requests_define in X. rewrite (X (conj F (conj OO (conj Al eq_refl)))) in K. discriminate K.
  - apply (C07_pow_panics ubd api a C orders cd pr pis vd l); [|exact T]. intros D. apply E. apply Z.mod_divide; [lia|exact D].
Qed.
Print Assumptions C88_compiles.

(** ... and the constraint system with the committing range checker accepts exactly what
    Circuit.v does, if the bits of the proof of work are a multiple of 16, and otherwise nothing. *)
Theorem C88_commit : forall ubd api a, chosen ubd api a = COMMIT_RANGE_CHECKER -> frontendTyper (api a) = None ->
  forall orders cd pr pis vd, (forall i, Permutation (orders i) gateRegexHandlers) -> pow_bits cd < 64 ->
  148 <= nbOpenings (Openings pr) -> (forall l, traces (Define orders 192 cd pr pis vd) tt l -> Z.of_nat (length l) < 2 ^ 50) ->
  (accepts ubd api a (Define orders 192 cd pr pis vd) tt <-> sat (Define orders 192 cd pr pis vd) /\ (16 | pow_bits cd)).
Proof.
  intros ubd api a C G orders cd pr pis vd HO HP HN HL. rewrite (C06_define_commit ubd api a C G orders cd pr pis vd HO HP HL). split.
  - intros (D & l & T & F & _). split; [|exact D]. exists tt. apply reach_traces. exists l. split; [exact T|exact F].
  - intros [[[] R] D]. split; [exact D|]. apply reach_traces in R. destruct R as (l & T & F). exists l. split; [exact T|]. split; [exact F|].
    exact (define_optimal _ _ _ _ _ _ HO HP D HN T (HL l T)).
Qed.
Print Assumptions C88_commit.

(** The two checkers that constrain anything then make the same circuit: USE_BIT_DECOMPOSITION_RANGE_CHECK
    and the capabilities of the builder change which constraints there are and not what they accept. *)
Theorem C88_modes_agree : forall ubd ubd' api a b, chosen ubd api a = COMMIT_RANGE_CHECKER -> frontendTyper (api a) = None ->
  chosen ubd' api b = BIT_DECOMP_RANGE_CHECKER ->
  forall orders cd pr pis vd, (forall i, Permutation (orders i) gateRegexHandlers) -> pow_bits cd < 64 -> (16 | pow_bits cd) ->
  148 <= nbOpenings (Openings pr) -> (forall l, traces (Define orders 192 cd pr pis vd) tt l -> Z.of_nat (length l) < 2 ^ 50) ->
  (accepts ubd api a (Define orders 192 cd pr pis vd) tt <-> accepts ubd' api b (Define orders 192 cd pr pis vd) tt).
Proof.
  intros ubd ubd' api a b C G C' orders cd pr pis vd HO HP HD HN HL.
  rewrite (C88_commit ubd api a C G orders cd pr pis vd HO HP HN HL), (C06_define_bits ubd' api b C' orders cd pr pis vd HO). tauto.
Qed.
Print Assumptions C88_modes_agree.

(** One way of solving the circuit for one proof tells the number of requests for all proofs of that shape. *)
Theorem C88_once : forall ubd api b, chosen ubd api b = COMMIT_RANGE_CHECKER -> frontendTyper (api b) = None ->
  forall orders c a l, (forall i, Permutation (orders i) gateRegexHandlers) -> ex_CommonData c = ex_CommonData a -> same_shape c a ->
  pow_bits (ex_CommonData c) < 64 -> (16 | pow_bits (ex_CommonData c)) -> 148 <= nbOpenings (Openings (ex_Proof a)) ->
  traces (define orders c) tt l -> Z.of_nat (length l) < 2 ^ 50 ->
  (accepts ubd api b (define orders a) tt <-> sat (define orders a)).
Proof.
  intros ubd api b C G orders c a l HO E S HP HD HN T HL. unfold define. rewrite (C88_commit ubd api b C G); [|exact HO|now rewrite <- E|exact HN|].
  - rewrite <- E. tauto.
  - intros l' T'. pose proof (C87_requests orders c a l l' HO E S T T') as W. apply (f_equal (@length Z)) in W. rewrite !map_length in W. now rewrite <- W.
Qed.
Print Assumptions C88_once.

(** For the circuits of testdata: 259 and 260 openings, 16 bits of proof of work. *)
Theorem C88_test : forall t ubd ubd' api a b, chosen ubd api a = COMMIT_RANGE_CHECKER -> frontendTyper (api a) = None ->
  chosen ubd' api b = BIT_DECOMP_RANGE_CHECKER ->
  forall orders pr pis vd, (forall i, Permutation (orders i) gateRegexHandlers) -> dimensions t pr ->
  (forall l, traces (Define orders 192 (data t) pr pis vd) tt l -> 117146 <= Z.of_nat (length l)) /\
  ((forall l, traces (Define orders 192 (data t) pr pis vd) tt l -> Z.of_nat (length l) < 2 ^ 50) ->
   (accepts ubd api a (Define orders 192 (data t) pr pis vd) tt <-> sat (Define orders 192 (data t) pr pis vd)) /\
   (accepts ubd' api b (Define orders 192 (data t) pr pis vd) tt <-> sat (Define orders 192 (data t) pr pis vd))).
Proof.
  intros t ubd ubd' api a b C G C' orders pr pis vd HO (D1 & D2 & D3 & D4 & D5 & D6 & D7 & _).
  assert (HN : 259 <= nbOpenings (Openings pr)) by (unfold nbOpenings; rewrite D1, D2, D3, D4, D5, D6, D7; destruct t; cbv; discriminate).
  assert (HP : pow_bits (data t) = 16) by (destruct t; reflexivity). split.
  - intros l T. pose proof (Define_requests _ _ _ _ _ _ _ _ T) as X. lia.
  - intros HL. split.
    + rewrite (C88_commit ubd api a C G orders (data t) pr pis vd HO ltac:(rewrite HP; reflexivity) ltac:(clear HL; lia) HL).
      split; [intros [X _]; exact X|]. intros X. split; [exact X|]. rewrite HP. now exists 1.
    + rewrite (C06_define_bits ubd' api b C' orders (data t) pr pis vd HO), HP.
      split; [intros [X _]; exact X|]. intros X. split; [exact X|reflexivity].
Qed.
Print Assumptions C88_test.

(** Hence C52 for the constraint system with the committing checker, an arbitrary prover ... *)
Theorem C88_exact : forall ubd api a, chosen ubd api a = COMMIT_RANGE_CHECKER -> frontendTyper (api a) = None ->
  forall orders cd gates pr pis vd, (forall i, Permutation (orders i) gateRegexHandlers) ->
  Forall2 gate_text gates (map str (GateIds cd)) -> circuit_shape cd gates -> proof_shape cd gates pr -> native pr pis vd -> pow_bits cd < 64 ->
  148 <= nbOpenings (Openings pr) -> (forall l, traces (Define orders 192 cd pr pis vd) tt l -> Z.of_nat (length l) < 2 ^ 50) ->
  (RangeModes.accepts ubd api a (Define orders 192 cd pr pis vd) tt <->
   VerifierProofs.accepts cd gates pr pis vd (permw 192) /\ (16 | pow_bits cd)).
Proof.
  intros ubd api a C G orders cd gates pr pis vd HO HG HC HS HN HP HB HL.
  rewrite (C88_commit ubd api a C G orders cd pr pis vd HO HP HB HL), (C52_exact orders cd gates pr pis vd HO HG HC HS HN). reflexivity.
Qed.
Print Assumptions C88_exact.

(** ... and completeness for the circuits of testdata: the proof of the honest prover satisfies the
    constraint system that gnark's builders make. *)
Theorem C88_complete : forall t ubd api a, chosen ubd api a = COMMIT_RANGE_CHECKER -> frontendTyper (api a) = None ->
  forall orders pis cs sigmas ws digest witness,
  (forall i, Permutation (orders i) gateRegexHandlers) -> Forall (fun x => 0 <= x < 2 ^ 64) pis -> 0 <= digest < r -> 0 <= witness < p ->
  let h := sponge g0 poseidon (map inj pis) 4 in
  satisfying (data t) (gates_of t) h cs sigmas ws ->
  let S := fiat_shamir (data t) (gates_of t) h cs sigmas ws (fun _ _ => []) digest witness in
  lucky (data t) sigmas ws (v_chal S) (v_fri_betas S) (v_pow S) (v_indices S) ->
  let circuit := Define orders 192 (data t) (session_proof (data t) (gates_of t) h cs sigmas ws (fun _ _ => []) witness S) pis
        (mkVerifierOnlyCircuitData (constants_cap (data t) cs sigmas (fun _ _ => [])) digest) in
  (forall l, traces circuit tt l -> Z.of_nat (length l) < 2 ^ 50) -> RangeModes.accepts ubd api a circuit tt.
Proof.
  intros t ubd api a C G orders pis cs sigmas ws digest witness HO HP Hd Hw h HS S LK circuit HL.
  pose proof (run_reach _ _ (C86_complete t orders pis cs sigmas ws digest witness HO HP Hd Hw HS LK)) as R. cbv zeta in R. fold h in R. fold S in R.
  set (pr := session_proof (data t) (gates_of t) h cs sigmas ws (fun _ _ => []) witness S) in *.
  assert (D : dimensions t pr).
  { apply (C86_accepts_ex t pis cs sigmas ws digest witness); [|exact Hd|exact HS]. eapply Forall_impl; [|exact HP].
    intros x Hx. assert (B : 2 ^ 64 <= r) by (vm_compute; discriminate). unfold inr_. revert Hx B. generalize (2 ^ 64) r. intros. lia. }
  unfold circuit in *. clear circuit. set (vd := mkVerifierOnlyCircuitData _ _) in *. clearbody vd. clearbody pr. clear -C G HO D HL R.
  pose proof (proj2 (C88_test t ubd true api a a C G eq_refl orders pr pis vd HO D)) as X. destruct (X HL) as [Y _].
  apply (proj2 Y). exists tt. exact R.
Qed.
Print Assumptions C88_complete.

(** ** Examples *)
(** the hypotheses about the builder: one that commits and hides its type, as gnark's builders do,
    and one that neither commits nor range checks *)
Example C88_ex_builders : exists api, chosen false api 0%nat = COMMIT_RANGE_CHECKER /\ frontendTyper (api 0%nat) = None /\
  chosen false api 1%nat = BIT_DECOMP_RANGE_CHECKER /\ chosen true api 0%nat = BIT_DECOMP_RANGE_CHECKER.
Proof. exists (fun i => if Nat.eqb i 0 then gnark_builder R1CS else plain_builder). repeat split. Qed.
(** how many requests are enough: 2^16 of 32 bits are, twenty are not *)
Example C88_ex_enough : optimalWidth nbR1CSConstraints (repeat (5, 32) (2 ^ 16)%nat) = 16 /\
  optimalWidth nbR1CSConstraints (repeat (5, 32) 20) = 5.
Proof.
  split.
  - apply enough_16; [|rewrite repeat_length, Nat2Z.inj_pow; split; reflexivity || discriminate].
    apply Forall_forall. intros q Hq. apply repeat_spec in Hq. subst q. cbn [snd]. split; [lia|now exists 2].
  - vm_compute. reflexivity.
Qed.
(** proofs for the circuits of testdata: the honest prover's, with traces of that length in which
    all requests hold, so both systems of constraints are satisfied *)
Example C88_ex_test : forall t orders pis cs sigmas ws digest witness,
  (forall i, Permutation (orders i) gateRegexHandlers) -> Forall (fun x => 0 <= x < 2 ^ 64) pis -> 0 <= digest < r -> 0 <= witness < p ->
  let h := sponge g0 poseidon (map inj pis) 4 in
  satisfying (data t) (gates_of t) h cs sigmas ws ->
  let S := fiat_shamir (data t) (gates_of t) h cs sigmas ws (fun _ _ => []) digest witness in
  lucky (data t) sigmas ws (v_chal S) (v_fri_betas S) (v_pow S) (v_indices S) ->
  let pr := session_proof (data t) (gates_of t) h cs sigmas ws (fun _ _ => []) witness S in
  dimensions t pr /\
  exists l, traces (Define orders 192 (data t) pr pis (mkVerifierOnlyCircuitData (constants_cap (data t) cs sigmas (fun _ _ => [])) digest)) tt l /\
    Forall (fun q => 0 <= fst q < 2 ^ snd q) l /\ 117146 <= Z.of_nat (length l).
Proof.
  intros t orders pis cs sigmas ws digest witness HO HP Hd Hw h HS S LK pr.
  assert (D : dimensions t pr).
  { apply (C86_accepts_ex t pis cs sigmas ws digest witness); [|exact Hd|exact HS]. eapply Forall_impl; [|exact HP].
    intros x Hx. assert (B : 2 ^ 64 <= r) by (vm_compute; discriminate). unfold inr_. revert Hx B. generalize (2 ^ 64) r. intros. lia. }
  split; [exact D|]. pose proof (run_reach _ _ (C86_complete t orders pis cs sigmas ws digest witness HO HP Hd Hw HS LK)) as R.
  apply reach_traces in R. destruct R as (l & T & F). exists l. split; [exact T|]. split; [exact F|].
  destruct D as (D1 & D2 & D3 & D4 & D5 & D6 & D7 & _). pose proof (Define_requests orders 192 (data t) pr pis _ tt l T) as X.
  assert (HN : 259 <= nbOpenings (Openings pr)) by (unfold nbOpenings; rewrite D1, D2, D3, D4, D5, D6, D7; destruct t; cbv; discriminate).
  revert X HN. generalize (nbOpenings (Openings pr)). intros n X HN. lia.
Qed.
