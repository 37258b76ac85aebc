(** * C77: the circuit is the same for all proofs, public inputs and verifier data of one shape.

    gnark compiles the definition once, for a proof that serves as a placeholder, and then
    proves with other witnesses.  The model computes with values; that what it asks of the
    API does not depend on them is proved here for the whole verifier. *)
From Coq Require Import String.
From Coq Require Import ZArith NArith Lia List Bool Permutation.
From Verif Require Import Zp Circuit Goldilocks PoseidonGL Sponge BN254 Types Challenger Fri Gates Plonk GateIds Verifier
  Uniform UniformAll.
Import ListNotations.
Open Scope Z_scope.
Open Scope circ_scope.

(** ** The shape of the inputs: the lengths of all slices *)
Definition same_length {A} (l l' : list A) : Prop := length l = length l'.
Definition opening_shape (o o' : OpeningSet) : Prop :=
  same_length (Constants o) (Constants o') /\ same_length (PlonkSigmas o) (PlonkSigmas o') /\
  same_length (Types.Wires o) (Types.Wires o') /\ same_length (PlonkZs o) (PlonkZs o') /\
  same_length (PlonkZsNext o) (PlonkZsNext o') /\ same_length (PartialProducts o) (PartialProducts o') /\
  same_length (QuotientPolys o) (QuotientPolys o').
Definition tree_shape (e e' : FriEvalProof) : Prop :=
  same_length (Elements e) (Elements e') /\ same_length (ep_Siblings e) (ep_Siblings e').
Definition step_shape (s s' : FriQueryStep) : Prop :=
  same_length (Evals s) (Evals s') /\ same_length (st_Siblings s) (st_Siblings s').
Definition round_shape (q q' : FriQueryRound) : Prop :=
  Forall2 tree_shape (InitialTreesProof q) (InitialTreesProof q') /\ Forall2 step_shape (Steps q) (Steps q').
Definition fri_shape (f f' : FriProof) : Prop :=
  Forall2 same_length (CommitPhaseMerkleCaps f) (CommitPhaseMerkleCaps f') /\
  Forall2 round_shape (QueryRoundProofs f) (QueryRoundProofs f') /\ same_length (FinalPoly f) (FinalPoly f').
Definition proof_shape (p p' : Proof_) : Prop :=
  same_length (WiresCap p) (WiresCap p') /\ same_length (PlonkZsPartialProductsCap p) (PlonkZsPartialProductsCap p') /\
  same_length (QuotientPolysCap p) (QuotientPolysCap p') /\ opening_shape (Openings p) (Openings p') /\
  fri_shape (OpeningProof p) (OpeningProof p').
Definition same_shape (x y : Proof_ * list Z * VerifierOnlyCircuitData) : Prop :=
  proof_shape (fst (fst x)) (fst (fst y)) /\ same_length (snd (fst x)) (snd (fst y)) /\
  same_length (ConstantSigmasCap (snd x)) (ConstantSigmasCap (snd y)).
(** the circuit for given inputs *)
Definition circuit (orders : nat -> list handler) (w : Z) (cd : CommonCircuitData)
    (x : Proof_ * list Z * VerifierOnlyCircuitData) : circ unit := Define orders w cd (fst (fst x)) (snd (fst x)) (snd x).
Definition panic_free (e : list event) : Prop := forall m, ~ In (EPanic m) e.

(** ** Lemmas *)
Lemma proof_shape_R p p' : proof_shape p p' -> proofR p p'.
Proof.
  intros (W & Z & Q & (O1 & O2 & O3 & O4 & O5 & O6 & O7) & F1 & F2 & F3).
  constructor; try (apply F2_any; assumption).
  - constructor; apply F2_any; assumption.
  - constructor; [|clear - F2|apply F2_any; exact F3].
    + eapply F2_mono; [|exact F1]. intros a b H. apply F2_any. exact H.
    + eapply F2_mono; [|exact F2]. intros q q' [H1 H2]. constructor.
      * eapply F2_mono; [|exact H1]. intros e e' [E1 E2]. constructor; apply F2_any; assumption.
      * eapply F2_mono; [|exact H2]. intros e e' [E1 E2]. constructor; apply F2_any; assumption.
Qed.

(** a definition without requests *)
Definition still {A} (c : circ A) : Prop := match c with Ret _ | Panic _ => True | _ => False end.
Lemma still_sim {A} (c : circ A) : still c -> sim eq c c.
Proof. destruct c; cbn; intros []; constructor. reflexivity. Qed.
Lemma still_bind {A B} (c : circ A) (f : A -> circ B) : still c -> (forall a, still (f a)) -> still (bind c f).
Proof. destruct c; cbn; intros [] H; auto. Qed.
Lemma still_of_opt {A} m (o : option A) : still (of_opt m o). Proof. destruct o; exact I. Qed.
Lemma still_mapM {A B} (f : A -> circ B) l : (forall a, In a l -> still (f a)) -> still (mapM f l).
Proof.
  induction l as [|x l IH]; intros H; cbn [mapM]; [exact I|].
  apply still_bind; [apply H; now left|]. intros. apply still_bind; [apply IH; intros; apply H; now right|]. intros. exact I.
Qed.
Ltac still_ := repeat (apply still_bind; [|intros]); try apply still_of_opt; try exact I;
  try (destruct (Nat.ltb _ _); exact I); try (destruct (Nat.eqb _ _); exact I).
Lemma still_number parse m s : still (number parse m s). Proof. unfold number. still_. Qed.
Lemma still_field n m ps : still (field n m ps). Proof. apply still_of_opt. Qed.
Lemma still_handlers h ps : In h gateRegexHandlers -> still (snd h ps).
Proof.
  intros H. cbn [gateRegexHandlers In] in H.
  assert (D1 : forall n mk, still (deserialize1 n mk ps)) by (intros; unfold deserialize1; still_).
  repeat (destruct H as [<-|H]; [cbn [snd]; try apply D1; try exact I|]); try destruct H.
  - unfold deserializeBaseSumGate. still_.
  - unfold deserializeCosetInterpolationGate. still_. apply still_mapM. intros. still_.
  - unfold deserializeExponentiationGate. still_.
  - unfold deserializeRandomAccessGate. still_.
Qed.
Lemma still_instance order id : (forall h, In h order -> In h gateRegexHandlers) -> still (GateInstanceFromId order id).
Proof.
  induction order as [|[re ha] order IH]; intros H; cbn [GateInstanceFromId]; [exact I|].
  destruct (find re (chars id)); [apply (still_handlers (re, ha)); apply H; now left|].
  apply IH. intros. apply H. now right.
Qed.
Lemma still_chip orders cd : (forall i, Permutation (orders i) gateRegexHandlers) -> still (NewVerifierChip orders cd).
Proof.
  intros P. unfold NewVerifierChip, createdGates. apply still_mapM. intros [i s] _. cbn [fst snd].
  apply still_instance. intros h. apply Permutation_in. apply P.
Qed.

Lemma sim_circuit orders w cd x y : (forall i, Permutation (orders i) gateRegexHandlers) -> same_shape x y ->
  sim any (circuit orders w cd x) (circuit orders w cd y).
Proof.
  intros P (S1 & S2 & S3). unfold circuit, Define.
  eapply sim_bind; [apply still_sim; now apply still_chip|]. intros g _ <-.
  apply sim_Verify; [now apply proof_shape_R|now apply F2_any|now apply F2_any].
Qed.

(** the prover's view: [reach] in terms of one list of answers *)
Lemma fit_id n l : length l = n -> fit n l = l.
Proof. intros <-. unfold fit. rewrite firstn_app, Nat.sub_diag, firstn_O, app_nil_r. apply firstn_all. Qed.
Lemma reach_verdicts (c : circ unit) :
  reach c tt <-> exists hs, map (@length Z) hs = hint_sizes (layout c hs) /\ Forall (Forall inr_) hs /\
                            Forall (eq true) (verdicts c hs).
Proof.
  induction c as [u|h n k IH|b k IH|x bits k IH|m]; cbn [reach].
  - destruct u. split; [|reflexivity]. intros _. exists []. repeat split; constructor.
  - split.
    + intros (l & L & R & H). apply IH in H. destruct H as (hs & E & F & V). exists (l :: hs).
      cbn [layout verdicts hd tl hint_sizes map]. rewrite (fit_id n l L). repeat split; [now rewrite E, L|now constructor|exact V].
    + intros (hs & E & F & V). cbn [layout verdicts hint_sizes] in *. destruct hs as [|l hs]; [discriminate|].
      cbn [hd tl map] in *. injection E as E1 E2. rewrite (fit_id n l E1) in *. inversion F; subst.
      exists l. split; [reflexivity|]. split; [assumption|]. apply IH. exists hs. auto.
  - cbn [layout verdicts hint_sizes]. rewrite IH. split.
    + intros (-> & hs & E & F & V). exists hs. repeat split; auto.
    + intros (hs & E & F & V). inversion V; subst. split; [reflexivity|]. exists hs. auto.
  - cbn [layout verdicts hint_sizes]. rewrite IH. split.
    + intros (X & hs & E & F & V). exists hs. repeat split; auto. constructor; [|exact V].
      symmetry. apply andb_true_intro. split; [now apply Z.leb_le|now apply Z.ltb_lt].
    + intros (hs & E & F & V). inversion V as [|? ? B V']; subst. symmetry in B. apply andb_prop in B.
      split; [rewrite Z.leb_le, Z.ltb_lt in B; exact B|]. exists hs. auto.
  - split; [intros []|]. intros (hs & _ & _ & V). inversion V as [|? ? B _]. discriminate B.
Qed.
Lemma verdicts_count {A} (c : circ A) : forall hs, length (verdicts c hs) = count_checks (layout c hs).
Proof. induction c as [u|h n k IH|b k IH|x bits k IH|m]; intros hs; cbn [layout verdicts count_checks length]; auto. Qed.
Lemma verdicts_panic {A} (c : circ A) : forall hs, Forall (eq true) (verdicts c hs) -> panic_free (layout c hs).
Proof.
  induction c as [u|h n k IH|b k IH|x bits k IH|m]; intros hs V m' H; cbn [layout verdicts In] in *.
  - exact H.
  - destruct H as [H|H]; [discriminate|]. now apply (IH _ _ V m').
  - destruct H as [H|H]; [discriminate|]. inversion V; subst. now apply (IH hs H3 m').
  - destruct H as [H|H]; [discriminate|]. inversion V; subst. now apply (IH hs H3 m').
  - inversion V. discriminate.
Qed.
Lemma run_panic {A} (c : circ A) m : run c = Panicked m -> exists hs, In (EPanic m) (layout c hs).
Proof.
  induction c as [u|h n k IH|b k IH|x bits k IH|m']; cbn [run]; intros H; try discriminate.
  - destruct h as [l|]; [|discriminate]. destruct (Nat.eqb (length l) n) eqn:E; [|discriminate].
    apply Nat.eqb_eq in E. apply IH in H. destruct H as [hs H]. exists (map (fun x => x mod r) l :: hs).
    cbn [layout hd tl]. rewrite fit_id by now rewrite map_length. now right.
  - destruct b; [|discriminate]. destruct (IH H) as [hs H']. exists hs. now right.
  - destruct (_ && _); [|discriminate]. destruct (IH H) as [hs H']. exists hs. now right.
  - injection H as ->. exists []. now left.
Qed.

(** ** The theorems *)
(** The requests of the verifier circuit, in their order, with the widths of the range checks
    and with the panics, depend on the shape of the inputs and the circuit data only: not on
    any value, and not on the answers to the hints. *)
Theorem C77_layout : forall orders w cd x y, (forall i, Permutation (orders i) gateRegexHandlers) -> same_shape x y ->
  forall hs hs', layout (circuit orders w cd x) hs = layout (circuit orders w cd y) hs'.
Proof. intros orders w cd x y P S. eapply sim_layout. now apply sim_circuit. Qed.
Print Assumptions C77_layout.

(** There is one constraint system per shape: a fixed list of hints, with fixed numbers of
    answers, and a fixed number of constraints; inputs of that shape are accepted exactly if
    answers of these sizes exist under which all the constraints hold. *)
Theorem C77_system : forall orders w cd x0, (forall i, Permutation (orders i) gateRegexHandlers) ->
  exists (sizes : list nat) (n : nat), forall x, same_shape x0 x ->
    (reach (circuit orders w cd x) tt <-> exists answers, map (@length Z) answers = sizes /\
       Forall (Forall inr_) answers /\ Forall (eq true) (verdicts (circuit orders w cd x) answers)) /\
    (forall answers, length (verdicts (circuit orders w cd x) answers) = n).
Proof.
  intros orders w cd x0 P. exists (hint_sizes (layout (circuit orders w cd x0) [])), (count_checks (layout (circuit orders w cd x0) [])).
  intros x S. split.
  - rewrite reach_verdicts. split; intros (hs & E & H); exists hs; (split; [|exact H]).
    + rewrite E. f_equal. symmetry. now apply C77_layout.
    + rewrite E. f_equal. now apply C77_layout.
  - intros hs. rewrite verdicts_count. f_equal. symmetry. now apply C77_layout.
Qed.
Print Assumptions C77_system.

(** If inputs of one shape are accepted, the definition does not panic for any inputs of that
    shape: a placeholder with the lengths of one valid proof is enough to compile. *)
Theorem C77_no_panic : forall orders w cd x y m, (forall i, Permutation (orders i) gateRegexHandlers) -> same_shape x y ->
  reach (circuit orders w cd x) tt -> run (circuit orders w cd y) <> Panicked m.
Proof.
  intros orders w cd x y m P S R H. apply reach_verdicts in R. destruct R as (hs & _ & _ & V).
  apply run_panic in H. destruct H as [hs' H]. rewrite <- (C77_layout orders w cd x y P S hs hs') in H.
  exact (verdicts_panic _ _ V m H).
Qed.
Print Assumptions C77_no_panic.
(** If the definition panics for some inputs, no inputs of their shape are accepted. *)
Theorem C77_panic : forall orders w cd x y m, (forall i, Permutation (orders i) gateRegexHandlers) -> same_shape x y ->
  run (circuit orders w cd x) = Panicked m -> ~ reach (circuit orders w cd y) tt /\ forall u, run (circuit orders w cd y) <> Done u.
Proof.
  intros orders w cd x y m P S H. apply run_panic in H. destruct H as [hs H].
  assert (N : ~ reach (circuit orders w cd y) tt).
  { intros R. apply reach_verdicts in R. destruct R as (hs' & _ & _ & V).
    rewrite (C77_layout orders w cd x y P S hs hs') in H. exact (verdicts_panic _ _ V m H). }
  split; [exact N|]. intros [] D. apply N. now apply run_reach.
Qed.
Print Assumptions C77_panic.

(** The Goldilocks permutation asks for 1650 hints, 3430 constraints and 2410 range checks,
    for every state of twelve elements, every width of the S-box and all answers. *)
Fixpoint tally (e : list event) : N * N * N :=
  match e with
  | [] => (0, 0, 0)%N
  | EHint _ :: e' => let '(h, a, g) := tally e' in (h + 1, a, g)%N
  | EAssert :: e' => let '(h, a, g) := tally e' in (h, a + 1, g)%N
  | ERange _ :: e' => let '(h, a, g) := tally e' in (h, a, g + 1)%N
  | EPanic _ :: e' => tally e'
  end.
Theorem C77_permutation : forall w s hs, length s = 12%nat -> tally (layout (Poseidon_w w s) hs) = (1650, 3430, 2410)%N.
Proof.
  intros w s hs L. transitivity (tally (layout (Poseidon_w w (repeat 0 12)) [])).
  - f_equal. eapply sim_layout. apply sim_Poseidon. apply F2_any. exact L.
  - vm_compute. reflexivity.
Qed.
Print Assumptions C77_permutation.

(** ** Examples *)
Definition ex_proof (a b : Z) : Proof_ :=
  mkProof [a] [b] [a; b] (mkOpeningSet [(a, b)] [] [(b, a); (b, b)] [] [(a, a)] [] [])
    (mkFriProof [[a]; [b; b]] [mkFriQueryRound [mkFriEvalProof [a; b] [b]] [mkFriQueryStep [(a, b)] []]] [(b, b)] a).
Example C77_ex : same_shape (ex_proof 1 2, [5; 6], mkVerifierOnlyCircuitData [7] 8) (ex_proof (p - 1) (r - 1), [0; 9], mkVerifierOnlyCircuitData [1] 2)
  /\ ex_proof 1 2 <> ex_proof (p - 1) (r - 1)
  /\ tally (layout (rangeCheckProof (ex_proof 1 2)) []) = tally (layout (rangeCheckProof (ex_proof (p - 1) (r - 1))) [[1; 2]])
  /\ tally (layout (rangeCheckProof (ex_proof 1 2)) []) = (15, 45, 30)%N.
Proof.
  split; [|split; [discriminate|split; vm_compute; reflexivity]].
  repeat split; repeat constructor.
Qed.
(** the shape matters: one opening more gives another circuit *)
Example C77_ex_shape : let o l := mkOpeningSet l [] [] [] [] [] [] in
  layout (rangeCheckOpenings (o [(1, 2)])) [] <> layout (rangeCheckOpenings (o [(1, 2); (1, 2)])) [].
Proof. vm_compute. discriminate. Qed.
(** a definition that branches on a value is told apart *)
Example C77_ex_branch : let bad x := if x =? 0 then Ret 0 else Mul x x in layout (bad 0) [] <> layout (bad 1) [].
Proof. vm_compute. discriminate. Qed.
