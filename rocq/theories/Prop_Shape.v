(** * Property C87: the circuit compiled for one proof is, in every mode of range checking, the
      circuit for all proofs of the same shape.

    C77 shows that the definition issues the same requests for all inputs of one shape.  The range
    checker has a second part that runs later, when gnark calls the deferred functions of the
    builder: it picks the width of the limbs from all requests and may panic.  Here: that part, too,
    does the same for all inputs of one shape, so whether a circuit compiles, and to what, can be
    decided with a placeholder.  The shape is that of the Go struct that gnark walks (Schema.v). *)
From Coq Require Import String.
From Coq Require Import ZArith NArith Lia List Bool Permutation.
From Verif Require Import Zp Circuit Goldilocks Types Challenger Fri Gates Plonk GateIds Verifier Uniform UniformAll Prop_Uniform
  RangeModes RangeProofs Prop_Range Widths Prop_Modes Schema SchemaProofs Prop_Schema.
Import ListNotations.
Open Scope Z_scope.

Lemma sim_traces {A} (R : A -> A -> Prop) c c' : sim R c c' -> forall v v' l l', traces c v l -> traces c' v' l' -> map snd l = map snd l'.
Proof.
  induction 1 as [a b H|h h' n k k' H IH|b b' k k' H IH|x x' bits k k' H IH|m]; intros v v' l l' T T'; cbn [traces] in *.
  - destruct T as [_ ->], T' as [_ ->]. reflexivity.
  - destruct T as (g & Lg & _ & T), T' as (g' & Lg' & _ & T'). exact (IH g g' Lg Lg' _ _ _ _ T T').
  - destruct T as [_ T], T' as [_ T']. exact (IH _ _ _ _ T T').
  - destruct T as (m & -> & T), T' as (m' & -> & T'). cbn [map snd]. f_equal. exact (IH _ _ _ _ T T').
  - contradiction.
Qed.

(** ** The shape of the Go struct gives the lengths of all slices *)
Lemma erase_list {A D} (S : A -> A -> Prop) (f : A -> node D) : (forall a b, erase (f a) = erase (f b) -> S a b) ->
  forall l l', erase (of_list f l) = erase (of_list f l') -> Forall2 S l l'.
Proof.
  intros F l l' E. unfold of_list in E. cbn [erase] in E. injection E as E. revert l' E.
  induction l as [|a l IH]; intros [|b l'] E; try discriminate E; [constructor|]. cbn [map] in E. injection E as E1 E2. constructor; auto.
Qed.
Lemma erase_len {A D} (f : A -> node D) l l' : erase (of_list f l) = erase (of_list f l') -> same_length l l'.
Proof.
  intros E. unfold of_list in E. cbn [erase] in E. injection E as E. unfold same_length.
  rewrite <- (map_length (fun x => (erase (f x))) l), <- (map_length (fun x => (erase (f x))) l').
  apply (f_equal (@length _)) in E. rewrite !map_length in E. now rewrite !map_length.
Qed.
Section Erase.
  Context {D : Type}.
  Definition sub (k : nat) (n : node unit) : node unit := match n with Struct l => snd (nth k l (NoTag, n)) | _ => n end.
  Lemma erase_merkle l l' : erase (@of_merkle D l) = erase (@of_merkle D l') -> same_length l l'.
  Proof. intros E. apply (erase_len (@of_bn254 D)). exact (f_equal (sub 0) E). Qed.
  Lemma erase_eval a b : erase (@of_eval D a) = erase (@of_eval D b) -> tree_shape a b.
  Proof. intros E. split; [exact (erase_len _ _ _ (f_equal (sub 0) E))|exact (erase_merkle _ _ (f_equal (sub 1) E))]. Qed.
  Lemma erase_step a b : erase (@of_step D a) = erase (@of_step D b) -> step_shape a b.
  Proof. intros E. split; [exact (erase_len _ _ _ (f_equal (sub 0) E))|exact (erase_merkle _ _ (f_equal (sub 1) E))]. Qed.
  Lemma erase_round a b : erase (@of_round D a) = erase (@of_round D b) -> round_shape a b.
  Proof.
    intros E. split.
    - exact (erase_list _ _ erase_eval _ _ (f_equal (fun n => sub 0 (sub 0 n)) E)).
    - exact (erase_list _ _ erase_step _ _ (f_equal (sub 1) E)).
  Qed.
  Lemma erase_fri a b : erase (@of_fri D a) = erase (@of_fri D b) -> fri_shape a b.
  Proof.
    intros E. split; [|split].
    - refine (erase_list _ (@of_cap D) _ _ _ (f_equal (sub 0) E)). intros x y. apply erase_len.
    - exact (erase_list _ _ erase_round _ _ (f_equal (sub 1) E)).
    - exact (erase_len _ _ _ (f_equal (fun n => sub 0 (sub 2 n)) E)).
  Qed.
  Lemma erase_openings a b : erase (@of_openings D a) = erase (@of_openings D b) -> opening_shape a b.
  Proof.
    intros E. split; [|split; [|split; [|split; [|split; [|split]]]]].
    - exact (erase_len _ _ _ (f_equal (sub 0) E)).
    - exact (erase_len _ _ _ (f_equal (sub 1) E)).
    - exact (erase_len _ _ _ (f_equal (sub 2) E)).
    - exact (erase_len _ _ _ (f_equal (sub 3) E)).
    - exact (erase_len _ _ _ (f_equal (sub 4) E)).
    - exact (erase_len _ _ _ (f_equal (sub 5) E)).
    - exact (erase_len _ _ _ (f_equal (sub 6) E)).
  Qed.
  Lemma erase_proof a b : erase (@of_proof D a) = erase (@of_proof D b) -> proof_shape a b.
  Proof.
    intros E. split; [exact (erase_len _ _ _ (f_equal (sub 0) E))|]. split; [exact (erase_len _ _ _ (f_equal (sub 1) E))|].
    split; [exact (erase_len _ _ _ (f_equal (sub 2) E))|]. split; [exact (erase_openings _ _ (f_equal (sub 3) E))|exact (erase_fri _ _ (f_equal (sub 4) E))].
  Qed.
  Lemma erase_vd a b : erase (@of_vd D a) = erase (@of_vd D b) -> same_length (ConstantSigmasCap a) (ConstantSigmasCap b).
  Proof. intros E. exact (erase_len _ _ _ (f_equal (sub 0) E)). Qed.
  (** and back *)
  Lemma list_erase {A} (S : A -> A -> Prop) (f : A -> node D) : (forall a b, S a b -> erase (f a) = erase (f b)) ->
    forall l l', Forall2 S l l' -> erase (of_list f l) = erase (of_list f l').
  Proof.
    intros F l l' H. unfold of_list. cbn [erase]. f_equal. induction H as [|a b l l' Ha _ IH]; [reflexivity|]. cbn [map]. rewrite IH. now rewrite (F a b Ha).
  Qed.
  Lemma len_erase {A} (f : A -> node D) : (forall a b, erase (f a) = erase (f b)) ->
    forall l l', same_length l l' -> erase (of_list f l) = erase (of_list f l').
  Proof. intros F l l' L. apply (list_erase any); [intros; apply F|]. now apply F2_any. Qed.
  Lemma gls_erase l l' : same_length l l' -> erase (of_list (@of_gl D) l) = erase (of_list (@of_gl D) l').
  Proof. now apply len_erase. Qed.
  Lemma cap_erase l l' : same_length l l' -> erase (@of_cap D l) = erase (@of_cap D l').
  Proof. now apply len_erase. Qed.
  Lemma qes_erase l l' : same_length l l' -> erase (of_list (@of_qe D) l) = erase (of_list (@of_qe D) l').
  Proof. now apply len_erase. Qed.
  Lemma merkle_erase l l' : same_length l l' -> erase (@of_merkle D l) = erase (@of_merkle D l').
  Proof. intros L. unfold of_merkle. cbn [erase map fst snd]. now rewrite (cap_erase l l' L : erase (of_list of_bn254 l) = erase (of_list of_bn254 l')). Qed.
  Lemma eval_erase a b : tree_shape a b -> erase (@of_eval D a) = erase (@of_eval D b).
  Proof. intros [H1 H2]. unfold of_eval. change (Struct [(NoTag, erase (of_list (@of_gl D) (Elements a))); (NoTag, erase (@of_merkle D (ep_Siblings a)))] = Struct [(NoTag, erase (of_list (@of_gl D) (Elements b))); (NoTag, erase (@of_merkle D (ep_Siblings b)))]).
    now rewrite (gls_erase _ _ H1), (merkle_erase _ _ H2). Qed.
  Lemma step_erase a b : step_shape a b -> erase (@of_step D a) = erase (@of_step D b).
  Proof. intros [H1 H2]. change (Struct [(NoTag, erase (of_list (@of_qe D) (Evals a))); (NoTag, erase (@of_merkle D (st_Siblings a)))] = Struct [(NoTag, erase (of_list (@of_qe D) (Evals b))); (NoTag, erase (@of_merkle D (st_Siblings b)))]).
    now rewrite (qes_erase _ _ H1), (merkle_erase _ _ H2). Qed.
  Lemma round_erase a b : round_shape a b -> erase (@of_round D a) = erase (@of_round D b).
  Proof. intros [H1 H2].
    change (Struct [(NoTag, Struct [(NoTag, erase (of_list (@of_eval D) (InitialTreesProof a)))]); (NoTag, erase (of_list (@of_step D) (Steps a)))] =
            Struct [(NoTag, Struct [(NoTag, erase (of_list (@of_eval D) (InitialTreesProof b)))]); (NoTag, erase (of_list (@of_step D) (Steps b)))]).
    now rewrite (list_erase _ _ eval_erase _ _ H1), (list_erase _ _ step_erase _ _ H2). Qed.
  Lemma fri_erase a b : fri_shape a b -> erase (@of_fri D a) = erase (@of_fri D b).
  Proof. intros (H1 & H2 & H3).
    change (Struct [(NoTag, erase (of_list (@of_cap D) (CommitPhaseMerkleCaps a))); (NoTag, erase (of_list (@of_round D) (QueryRoundProofs a))); (NoTag, Struct [(NoTag, erase (of_list (@of_qe D) (FinalPoly a)))]); (NoTag, Struct [(NoTag, Var 0)])] =
            Struct [(NoTag, erase (of_list (@of_cap D) (CommitPhaseMerkleCaps b))); (NoTag, erase (of_list (@of_round D) (QueryRoundProofs b))); (NoTag, Struct [(NoTag, erase (of_list (@of_qe D) (FinalPoly b)))]); (NoTag, Struct [(NoTag, Var 0)])]).
    now rewrite (@list_erase FriMerkleCap same_length (@of_cap D) cap_erase _ _ H1), (list_erase _ _ round_erase _ _ H2), (qes_erase _ _ H3). Qed.
  Lemma openings_erase a b : opening_shape a b -> erase (@of_openings D a) = erase (@of_openings D b).
  Proof. intros (H1 & H2 & H3 & H4 & H5 & H6 & H7).
    change (Struct (map (fun l => (NoTag, erase (of_list (@of_qe D) l))) [Constants a; PlonkSigmas a; Wires a; PlonkZs a; PlonkZsNext a; PartialProducts a; QuotientPolys a]) =
            Struct (map (fun l => (NoTag, erase (of_list (@of_qe D) l))) [Constants b; PlonkSigmas b; Wires b; PlonkZs b; PlonkZsNext b; PartialProducts b; QuotientPolys b])).
    cbn [map]. now rewrite (qes_erase _ _ H1), (qes_erase _ _ H2), (qes_erase _ _ H3), (qes_erase _ _ H4), (qes_erase _ _ H5), (qes_erase _ _ H6), (qes_erase _ _ H7). Qed.
  Lemma proof_erase a b : proof_shape a b -> erase (@of_proof D a) = erase (@of_proof D b).
  Proof. intros (H1 & H2 & H3 & H4 & H5).
    change (Struct [(NoTag, erase (@of_cap D (WiresCap a))); (NoTag, erase (@of_cap D (PlonkZsPartialProductsCap a))); (NoTag, erase (@of_cap D (QuotientPolysCap a))); (NoTag, erase (@of_openings D (Openings a))); (NoTag, erase (@of_fri D (OpeningProof a)))] =
            Struct [(NoTag, erase (@of_cap D (WiresCap b))); (NoTag, erase (@of_cap D (PlonkZsPartialProductsCap b))); (NoTag, erase (@of_cap D (QuotientPolysCap b))); (NoTag, erase (@of_openings D (Openings b))); (NoTag, erase (@of_fri D (OpeningProof b)))]).
    now rewrite (cap_erase _ _ H1), (cap_erase _ _ H2), (cap_erase _ _ H3), (openings_erase _ _ H4), (fri_erase _ _ H5). Qed.
  Lemma vd_erase a b : same_length (ConstantSigmasCap a) (ConstantSigmasCap b) -> erase (@of_vd D a) = erase (@of_vd D b).
  Proof. intros H. change (Struct [(NoTag, erase (@of_cap D (ConstantSigmasCap a))); (NoTag, Var 0)] = Struct [(NoTag, erase (@of_cap D (ConstantSigmasCap b))); (NoTag, Var 0)]). now rewrite (cap_erase _ _ H). Qed.
End Erase.

(** the inputs of an ExampleVerifierCircuit, as in Prop_Uniform.v *)
Definition inputs (c : ExampleVerifierCircuit) : Proof_ * list Z * VerifierOnlyCircuitData := (ex_Proof c, ex_PublicInputs c, ex_Vd c).

(** ** C87 *)
(** What gnark's schema walk compares is the shape of C77: the trees of two structs differ in the
    leaves only exactly if all slices have the same lengths. *)
Theorem C87_schema : forall c a, same_shape c a <-> Prop_Uniform.same_shape (inputs c) (inputs a).
Proof.
  intros c a. split.
  - intros S. split; [exact (erase_proof _ _ (f_equal (sub 1) S))|].
    split; [exact (erase_len _ _ _ (f_equal (sub 0) S))|exact (erase_vd _ _ (f_equal (sub 2) S))].
  - intros (H1 & H2 & H3). unfold inputs in *. cbn [fst snd] in *.
    change (Struct [(Vis Public, erase (of_list (@of_gl CommonCircuitData) (ex_PublicInputs c))); (NoTag, erase (@of_proof CommonCircuitData (ex_Proof c))); (NoTag, erase (@of_vd CommonCircuitData (ex_Vd c))); (NoTag, Data tt)] =
            Struct [(Vis Public, erase (of_list (@of_gl CommonCircuitData) (ex_PublicInputs a))); (NoTag, erase (@of_proof CommonCircuitData (ex_Proof a))); (NoTag, erase (@of_vd CommonCircuitData (ex_Vd a))); (NoTag, Data tt)]).
    now rewrite (gls_erase _ _ H2), (proof_erase _ _ H1), (vd_erase _ _ H3).
Qed.
Print Assumptions C87_schema.

(** The range checks asked for have the same widths in the same order ... *)
Lemma requests_widths orders w cd x y v v' l l' : (forall i, Permutation (orders i) gateRegexHandlers) -> Prop_Uniform.same_shape x y ->
  traces (circuit orders w cd x) v l -> traces (circuit orders w cd y) v' l' -> map snd l = map snd l'.
Proof. intros HO S. exact (sim_traces _ _ _ (sim_circuit orders w cd x y HO S) v v' l l'). Qed.
Theorem C87_requests : forall orders c a l l', (forall i, Permutation (orders i) gateRegexHandlers) ->
  ex_CommonData c = ex_CommonData a -> same_shape c a -> traces (define orders c) tt l -> traces (define orders a) tt l' ->
  map snd l = map snd l'.
Proof.
  intros orders c a l l' HO E S T T'. pose proof (requests_widths orders 192 (ex_CommonData c) _ _ tt tt l l' HO (proj1 (C87_schema c a) S)) as Q.
  unfold circuit, inputs in Q. cbn [fst snd] in Q. apply Q; [exact T|]. rewrite E. exact T'.
Qed.
Print Assumptions C87_requests.

(** ... so the deferred part of the compilation does the same for both, in every mode of range
    checking: both panic, or both end with constraints of the same kinds, limb sizes and widths. *)
Definition form (c : constraint) : RangeCheckerType * Z * Z :=
  match c with
  | CNative _ n => (NATIVE_RANGE_CHECKER, 0, n)
  | CBits _ n => (BIT_DECOMP_RANGE_CHECKER, 0, n)
  | CLimbs w _ n => (COMMIT_RANGE_CHECKER, w, n)
  end.
Lemma Forall_widths (P : Z -> Prop) (l l' : list (Z * Z)) : map snd l = map snd l' -> Forall (fun q => P (snd q)) l -> Forall (fun q => P (snd q)) l'.
Proof. intros E F. apply (proj1 (Forall_map snd P l')). rewrite <- E. now apply Forall_map. Qed.
Lemma form_map f (g : RangeCheckerType * Z) (l l' : list (Z * Z)) : (forall q, form (f q) = (g, snd q)) -> map snd l = map snd l' ->
  map form (map f l) = map form (map f l').
Proof.
  intros F E. rewrite !map_map. rewrite (map_ext _ _ F l), (map_ext _ _ F l').
  rewrite <- (map_map snd (fun n => (g, n)) l), E. now rewrite map_map.
Qed.
Lemma optimalWidth_widths l l' : map snd l = map snd l' ->
  optimalWidth nbR1CSConstraints l = optimalWidth nbR1CSConstraints l' /\ optimalWidth nbPLONKConstraints l = optimalWidth nbPLONKConstraints l'.
Proof.
  intros E. assert (P : Permutation (map snd l) (map snd l')) by (rewrite E; apply Permutation_refl).
  destruct (C57_multiset l l' P 16) as (_ & _ & A & B). auto.
Qed.
Lemma compile_widths ubd api b l l' cs : map snd l = map snd l' ->
  compile ubd api b (ENew b :: map (fun q => ECheck b (fst q) (snd q)) l) = Some cs ->
  exists cs', compile ubd api b (ENew b :: map (fun q => ECheck b (fst q) (snd q)) l') = Some cs' /\ map form cs = map form cs'.
Proof.
  intros E K. destruct (compile_play _ _ _ _ _ K) as [w P]. destruct (play_define ubd api b l') as [w' P'].
  destruct (optimalWidth_widths l l' E) as [E1 E2].
  destruct (chosen ubd api b) eqn:C.
  - specialize (P' ltac:(discriminate)). rewrite (compile_native ubd api b _ w P ltac:(now left) C) in K. injection K as <-.
    exists []. split; [|reflexivity]. exact (compile_native ubd api b _ w' P' ltac:(now left) C).
  - specialize (P' ltac:(discriminate)).
    apply (C07_exact ubd api b _ w P ltac:(now left) C) in K. rewrite requests_define in K. destruct K as (_ & O & A & ->).
    assert (ff : foreign_first b (ENew b :: map (fun q => ECheck b (fst q) (snd q)) l') = false) by (cbn [foreign_first]; now rewrite Nat.eqb_refl).
    eexists. split.
    + apply (C07_exact ubd api b _ w' P' ltac:(now left) C). rewrite requests_define. split; [exact ff|]. split; [|split; [|reflexivity]].
      * rewrite <- O. unfold getOptimalBasewidth. now rewrite E1, E2.
      * exact (Forall_widths (fun n => (16 | n)) l l' E A).
    + replace (widthFor (gnarkType (api b)) l') with (widthFor (gnarkType (api b)) l) by (unfold widthFor; destruct (gnarkType (api b)); assumption).
      apply (form_map _ (COMMIT_RANGE_CHECKER, widthFor (gnarkType (api b)) l)); [reflexivity|exact E].
  - destruct (compile_bits ubd api b _ w P ltac:(now left) C) as [K' F]. rewrite requests_define in K', F. rewrite K in K'. injection K' as ->.
    specialize (P' ltac:(intros _; exact (Forall_widths (fun n => 0 < n) l l' E F))).
    destruct (compile_bits ubd api b _ w' P' ltac:(now left) C) as [K'' _]. rewrite requests_define in K''.
    exists (bits_of_requests l'). split; [exact K''|]. apply (form_map _ (BIT_DECOMP_RANGE_CHECKER, 0)); [reflexivity|exact E].
Qed.
Theorem C87_compile : forall ubd api b orders c a l l', (forall i, Permutation (orders i) gateRegexHandlers) ->
  ex_CommonData c = ex_CommonData a -> same_shape c a -> traces (define orders c) tt l -> traces (define orders a) tt l' ->
  let result l := compile ubd api b (ENew b :: map (fun q => ECheck b (fst q) (snd q)) l) in
  option_map (map form) (result l) = option_map (map form) (result l').
Proof.
  intros ubd api b orders c a l l' HO E S T T' result. pose proof (C87_requests orders c a l l' HO E S T T') as W.
  destruct (result l) as [cs|] eqn:K.
  - destruct (compile_widths ubd api b l l' cs W K) as (cs' & K' & F). unfold result. rewrite K'. cbn [option_map]. now rewrite F.
  - destruct (result l') as [cs'|] eqn:K'; [|reflexivity]. destruct (compile_widths ubd api b l' l cs' (eq_sym W) K') as (cs & X & _).
    fold (result l) in X. congruence.
Qed.
Print Assumptions C87_compile.

(** ** Examples *)
(** two different proofs for which all of this has content: same configuration and shape, both accepted *)
Example C87_ex : exists orders c a, (forall i, Permutation (orders i) gateRegexHandlers) /\ ex_CommonData c = ex_CommonData a /\ same_shape c a /\
  sat (define orders c) /\ sat (define orders a) /\ c <> a.
Proof.
  destruct C72_refuted as (orders & c & a & HO & E & _ & S & R1 & R2 & Y & N). exists orders, c, a. repeat split; try assumption.
  - exists tt. now apply run_reach.
  - exists tt. now apply run_reach.
  - intros ->. now apply N.
Qed.
(** the shape matters: one more element to check is two more requests; so does the configuration:
    other proof-of-work bits are another width *)
Example C87_ex_widths :
  layout (iterM RangeCheck [5; 6]) [] <> layout (iterM RangeCheck [5]) [] /\
  traces (assertLeadingZeros 7 (mkFriConfig 3 4 16 28)) tt [(7, 48)] /\
  traces (assertLeadingZeros 7 (mkFriConfig 3 4 20 28)) tt [(7, 44)].
Proof. split; [discriminate|]. split; (eexists; split; [reflexivity|]; split; reflexivity). Qed.
