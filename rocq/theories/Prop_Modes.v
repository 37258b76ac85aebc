(** * Property C06 (and C07) for the verifier circuit: what [Define] enforces once its range
      check requests have gone through the chip. *)
From Coq Require Import String.
From Coq Require Import ZArith Lia List Bool Permutation.
From Verif Require Import Zp GF Circuit Goldilocks PoseidonSpec PoseidonGLProofs Sponge DenP Types Challenger Fri Gates GateFilter Prop_Gates Plonk
  GateIds GateIdText Verifier VerifierProofs Prop_Verifier Malleable Prop_Forgery RangeModes RangeProofs Prop_Range Widths.
Import ListNotations.
Open Scope Z_scope.

Notation pow_bits cd := (Z.of_nat (ProofOfWorkBits (fp_Config (cd_FriParams cd)))).

(** the widths that the whole circuit requests, whatever the hints *)
Theorem C06_widths : forall orders cd pr pis vd v l, (forall i, Permutation (orders i) gateRegexHandlers) ->
  traces (Define orders 192 cd pr pis vd) v l ->
  Forall (fun q => snd q = 32 \/ snd q = 144 \/ snd q = 192 \/ snd q = 64 - pow_bits cd) l.
Proof.
  intros orders cd pr pis vd v l HO T.
  refine (all_widths_traces (fun n => n = 32 \/ n = 144 \/ n = 192 \/ n = 64 - pow_bits cd) _ _ v l T).
  apply W_Define; auto.
Qed.
Print Assumptions C06_widths.

Lemma define_widths_ok orders cd pr pis vd : (forall i, Permutation (orders i) gateRegexHandlers) -> pow_bits cd < 64 ->
  widths_ok (Define orders 192 cd pr pis vd).
Proof.
  intros HO H. unfold widths_ok. apply W_Define; try lia. exact HO.
Qed.

Lemma traces_bind_in {A B} (c : circ A) (f : A -> circ B) v l (P : Z * Z -> Prop) :
  traces (bind c f) v l -> (forall u l', traces (f u) v l' -> Exists P l') -> Exists P l.
Proof. intros T H. apply traces_bind in T. destruct T as (u & l1 & l2 & -> & _ & T). apply Exists_app. right. eauto. Qed.
Lemma traces_bind_first {A B} (c : circ A) (f : A -> circ B) v l (P : Z * Z -> Prop) :
  traces (bind c f) v l -> (forall u l', traces c u l' -> Exists P l') -> Exists P l.
Proof. intros T H. apply traces_bind in T. destruct T as (u & l1 & l2 & -> & T & _). apply Exists_app. left. eauto. Qed.

(** the proof of work check is among the requests of every complete run *)
Lemma define_pow orders w cd pr pis vd v l : traces (Define orders w cd pr pis vd) v l ->
  Exists (fun q => snd q = 64 - pow_bits cd) l.
Proof.
  unfold Define, NewVerifierChip. intros T. eapply traces_bind_in; [exact T|]. clear l T. intros gates l T.
  unfold Verify in T. do 5 (eapply traces_bind_in; [exact T|]; clear l T; intros ? l T; cbv zeta in T).
  unfold VerifyFriProof in T. eapply traces_bind_in; [exact T|]. clear l T. intros ? l T.
  eapply traces_bind_first; [exact T|]. clear l T. intros ? l T.
  unfold assertLeadingZeros, RangeCheckWithMaxBits, range_ in T. cbn [traces] in T.
  destruct T as (l' & -> & _). now constructor.
Qed.

(** Bit decomposition: [Define] accepts exactly if Circuit.v says so.  For 64 and more proof
    of work bits gnark's ToBinary refuses the width and the circuit does not compile. *)
Theorem C06_define_bits : forall ubd api a, chosen ubd api a = BIT_DECOMP_RANGE_CHECKER ->
  forall orders cd pr pis vd, (forall i, Permutation (orders i) gateRegexHandlers) ->
  (accepts ubd api a (Define orders 192 cd pr pis vd) tt <-> sat (Define orders 192 cd pr pis vd) /\ pow_bits cd < 64).
Proof.
  intros ubd api a C orders cd pr pis vd HO. split.
  - intros H. assert (HP : pow_bits cd < 64).
    { destruct H as (l & cs & T & K & _). pose proof (define_pow _ _ _ _ _ _ _ _ T) as X. apply Exists_exists in X.
      destruct X as (q & Hq & Eq). destruct (compile_play _ _ _ _ _ K) as [w P].
      destruct (compile_bits ubd api a _ w P ltac:(now left) C) as [_ F]. rewrite requests_define in F.
      rewrite Forall_forall in F. specialize (F q Hq). lia. }
    split; [|exact HP]. exists tt. revert H. apply C06_bits; [exact C|]. now apply define_widths_ok.
  - intros [[[] R] HP]. apply C06_bits; [exact C|now apply define_widths_ok|exact R].
Qed.
Print Assumptions C06_define_bits.

(** Commit mode: the same for circuits that compile, that is with 16 as the optimum of the
    cost function and a proof of work of a multiple of 16 bits ... *)
Theorem C06_define_commit : forall ubd api a, chosen ubd api a = COMMIT_RANGE_CHECKER -> frontendTyper (api a) = None ->
  forall orders cd pr pis vd, (forall i, Permutation (orders i) gateRegexHandlers) -> pow_bits cd < 64 ->
  (forall l, traces (Define orders 192 cd pr pis vd) tt l -> Z.of_nat (length l) < 2 ^ 50) ->
  (accepts ubd api a (Define orders 192 cd pr pis vd) tt <->
   (16 | pow_bits cd) /\ exists l, traces (Define orders 192 cd pr pis vd) tt l /\ Forall (fun q => 0 <= fst q < 2 ^ snd q) l /\
     optimalWidth nbR1CSConstraints l = 16).
Proof.
  intros ubd api a C G orders cd pr pis vd HO HP S.
  rewrite (C06_commit ubd api a C (or_introl G) unit _ tt (define_widths_ok orders cd pr pis vd HO HP) S).
  assert (EO : forall l, getOptimalBasewidth (api a) l = optimalWidth nbR1CSConstraints l) by (intros l; unfold getOptimalBasewidth; now rewrite G).
  split.
  - intros (l & T & F & O & Al). split; [|exists l; rewrite <- EO; auto].
    pose proof (define_pow _ _ _ _ _ _ _ _ T) as X. apply Exists_exists in X. destruct X as (q & Hq & Eq).
    rewrite Forall_forall in Al. specialize (Al q Hq). rewrite Eq in Al. destruct Al as [k Hk]. exists (4 - k). lia.
  - intros ([k Hk] & l & T & F & O). exists l. rewrite EO. split; [exact T|]. split; [exact F|]. split; [exact O|].
    pose proof (C06_widths _ _ _ _ _ _ _ HO T) as W. eapply Forall_impl; [|exact W]. intros q [E|[E|[E|E]]]; rewrite E.
    + now exists 2.
    + now exists 9.
    + now exists 12.
    + exists (4 - k). lia.
Qed.
Print Assumptions C06_define_commit.
(** ... otherwise compilation panics, whatever the proof *)
Theorem C07_pow_panics : forall ubd api a, chosen ubd api a = COMMIT_RANGE_CHECKER ->
  forall orders cd pr pis vd l, ~ (16 | pow_bits cd) -> traces (Define orders 192 cd pr pis vd) tt l ->
  compile ubd api a (ENew a :: map (fun q => ECheck a (fst q) (snd q)) l) = None.
Proof.
  intros ubd api a C orders cd pr pis vd l N T.
  destruct (play_define ubd api a l) as [w P]. specialize (P ltac:(rewrite C; discriminate)).
  destruct (compile ubd api a _) as [cs|] eqn:K; [exfalso|reflexivity].
  destruct (proj1 (C07_exact ubd api a _ w P ltac:(now left) C cs) K) as (_ & _ & Al & _). rewrite requests_define in Al.
  pose proof (define_pow _ _ _ _ _ _ _ _ T) as X. apply Exists_exists in X. destruct X as (q & Hq & Eq).
  rewrite Forall_forall in Al. specialize (Al q Hq). rewrite Eq in Al. destruct Al as [k Hk]. apply N. exists (4 - k). lia.
Qed.
Print Assumptions C07_pow_panics.

(** hence C52 for the constraint system with bit decomposition, an arbitrary prover *)
Theorem C52_bits : forall ubd api a, chosen ubd api a = BIT_DECOMP_RANGE_CHECKER ->
  forall orders cd gates pr pis vd, (forall i, Permutation (orders i) gateRegexHandlers) ->
  Forall2 gate_text gates (map str (GateIds cd)) -> circuit_shape cd gates -> proof_shape cd gates pr -> native pr pis vd ->
  (RangeModes.accepts ubd api a (Define orders 192 cd pr pis vd) tt <->
   VerifierProofs.accepts cd gates pr pis vd (permw 192) /\ pow_bits cd < 64).
Proof.
  intros ubd api a C orders cd gates pr pis vd HO HG HC HS HN.
  rewrite (C06_define_bits ubd api a C orders cd pr pis vd HO), (C52_exact orders cd gates pr pis vd HO HG HC HS HN). reflexivity.
Qed.
Print Assumptions C52_bits.
(** and the forgery is accepted by that constraint system *)
Theorem C52_bits_forgery : forall ubd api a, chosen ubd api a = BIT_DECOMP_RANGE_CHECKER ->
  forall orders wc zc qc sc digest pis, (forall i, Permutation (orders i) gateRegexHandlers) ->
  Forall inr_ wc -> Forall inr_ zc -> Forall inr_ qc -> inr_ digest -> Forall (fun x => 0 <= x < 2 ^ 144 * p) pis -> zc <> [] -> qc <> [] ->
  exists pr, let vd := mkVerifierOnlyCircuitData sc digest in
    WiresCap pr = wc /\ PlonkZsPartialProductsCap pr = zc /\ QuotientPolysCap pr = qc /\
    RangeModes.accepts ubd api a (Define orders 192 tiny_cd pr pis vd) tt /\ ~ VerifierProofs.accepts tiny_cd [NoopGate] pr pis vd pgraph.
Proof.
  intros ubd api a C orders wc zc qc sc digest pis HO Hw Hz Hq Hd Hp Nz Nq.
  destruct (C52_forgery orders wc zc qc sc digest pis HO Hw Hz Hq Hd Hp Nz Nq) as (pr & H1 & H2 & H3 & _ & _ & H4 & H5).
  exists pr. cbv zeta. repeat (split; [assumption|]). split; [|exact H5].
  apply C06_define_bits; [exact C|exact HO|]. split; [exact H4|]. reflexivity.
Qed.
Print Assumptions C52_bits_forgery.

(** a proof that the constraint system accepts and one that it rejects *)
Example C06_define_ex : exists pr pr', let c pr := Define (fun _ => gateRegexHandlers) 192 tiny_cd pr [] (mkVerifierOnlyCircuitData [] 0) in
  chosen false (fun _ => plain_builder) 0%nat = BIT_DECOMP_RANGE_CHECKER /\
  RangeModes.accepts false (fun _ => plain_builder) 0%nat (c pr) tt /\
  ~ RangeModes.accepts false (fun _ => plain_builder) 0%nat (c pr') tt.
Proof.
  destruct C52_ex as (t & _ & _ & _ & _ & _ & R).
  exists (tiny_proof [] [0] [0] t), (mkProof [] [] [] (mkOpeningSet [] [] [] [] [] [] []) (mkFriProof [] [] [] p)).
  cbv zeta. split; [reflexivity|]. split.
  - apply C06_define_bits; [reflexivity|intros _; apply Permutation_refl|]. split; [exists tt; exact (run_reach _ _ R)|reflexivity].
  - intros H. apply C06_define_bits in H; [|reflexivity|intros _; apply Permutation_refl]. destruct H as [[u R'] _].
    unfold Define in R'. apply reach_bind in R'. destruct R' as (gates & _ & R').
    assert (SV : sat (Verify 192 tiny_cd gates (mkProof [] [] [] (mkOpeningSet [] [] [] [] [] [] []) (mkFriProof [] [] [] p)) [] (mkVerifierOnlyCircuitData [] 0)))
      by (now exists u).
    destruct (C53_verify _ _ _ _ _ _ SV) as (_ & _ & _ & _ & B). cbn [OpeningProof PowWitness] in B. lia.
Qed.
