(** * The circuit does not depend on the values of its inputs.

    gnark builds the constraint system once, from a definition that runs on symbolic
    variables, and uses it for every witness.  The model represents a variable by its value,
    so nothing in the type [circ] keeps a definition from branching on a value.  [layout] is
    what the compiler sees of a run of a definition: the hints, constraints and range checks
    in the order in which they are requested, without any value.  [sim] relates two
    definitions that make the same requests whatever the hint answers are. *)
From Coq Require Import String.
From Coq Require Import ZArith NArith Lia List Bool.
From Verif Require Import Zp Circuit Goldilocks PoseidonGL Sponge BN254 Types Challenger Fri Gates Plonk GateIds Verifier.
Import ListNotations.
Open Scope Z_scope.
Open Scope circ_scope.

(** what a definition asks of the API, without values *)
Inductive event := EHint (n : nat) | EAssert | ERange (bits : Z) | EPanic (msg : string).

(** the first [n] elements, padded with zeros *)
Definition fit (n : nat) (l : list Z) : list Z := firstn n (l ++ repeat 0 n).

(** the requests, when the hints are answered from the list [hs]; the definition continues
    whether or not a constraint holds, as it does when gnark compiles it *)
Fixpoint layout {A} (c : circ A) (hs : list (list Z)) : list event :=
  match c with
  | Ret _ => []
  | Hint _ n k => EHint n :: layout (k (fit n (hd [] hs))) (tl hs)
  | Assert _ k => EAssert :: layout k hs
  | Range _ bits k => ERange bits :: layout k hs
  | Panic m => [EPanic m]
  end.

(** the constraints and range checks that the values have to pass in the same run *)
Fixpoint verdicts {A} (c : circ A) (hs : list (list Z)) : list bool :=
  match c with
  | Ret _ => []
  | Hint _ n k => verdicts (k (fit n (hd [] hs))) (tl hs)
  | Assert b k => b :: verdicts k hs
  | Range x bits k => ((0 <=? x) && (x <? 2 ^ bits)) :: verdicts k hs
  | Panic _ => [false]
  end.
(** the number of answers asked by each hint *)
Fixpoint hint_sizes (e : list event) : list nat :=
  match e with [] => [] | EHint n :: e' => n :: hint_sizes e' | _ :: e' => hint_sizes e' end.
Fixpoint count_checks (e : list event) : nat :=
  match e with [] => O | EHint _ :: e' => count_checks e' | _ :: e' => S (count_checks e') end.

Inductive sim {A} (R : A -> A -> Prop) : circ A -> circ A -> Prop :=
| sim_Ret a b : R a b -> sim R (Ret a) (Ret b)
| sim_Hint h h' n k k' :
    (forall l l', length l = n -> length l' = n -> sim R (k l) (k' l')) ->
    sim R (Hint h n k) (Hint h' n k')
| sim_Assert b b' k k' : sim R k k' -> sim R (Assert b k) (Assert b' k')
| sim_Range x x' bits k k' : sim R k k' -> sim R (Range x bits k) (Range x' bits k')
| sim_Panic m : sim R (Panic m) (Panic m).

Lemma fit_length n l : length (fit n l) = n.
Proof. unfold fit. rewrite firstn_length, app_length, repeat_length. lia. Qed.

Lemma sim_layout {A} (R : A -> A -> Prop) c c' : sim R c c' ->
  forall hs hs', layout c hs = layout c' hs'.
Proof.
  induction 1 as [a b H|h h' n k k' H IH|b b' k k' H IH|x x' bits k k' H IH|m]; intros hs hs'; cbn [layout].
  - reflexivity.
  - f_equal. apply IH; apply fit_length.
  - f_equal. apply IH.
  - f_equal. apply IH.
  - reflexivity.
Qed.

(** ** Combinators *)
(** nothing is required of the values *)
Definition any {A} (a b : A) : Prop := True.
Lemma any_ok {A} (a b : A) : any a b. Proof. exact I. Qed.

Lemma sim_bind {A B} (R : A -> A -> Prop) (S : B -> B -> Prop) c c' f f' :
  sim R c c' -> (forall a b, R a b -> sim S (f a) (f' b)) -> sim S (bind c f) (bind c' f').
Proof. induction 1; intros F; cbn [bind]; try (constructor; auto). auto. Qed.
Lemma sim_mono {A} (R S : A -> A -> Prop) c c' : (forall a b, R a b -> S a b) -> sim R c c' -> sim S c c'.
Proof. intros H. induction 1; constructor; auto. Qed.
Lemma sim_mapM {A B} (R : A -> A -> Prop) (S : B -> B -> Prop) f f' l l' :
  Forall2 R l l' -> (forall a b, R a b -> sim S (f a) (f' b)) -> sim (Forall2 S) (mapM f l) (mapM f' l').
Proof.
  intros H F. induction H as [|a b l l' Hab H IH]; cbn [mapM]; [constructor; constructor|].
  eapply sim_bind; [now apply F|]. intros y y' Hy. eapply sim_bind; [exact IH|].
  intros ys ys' Hys. constructor. now constructor.
Qed.
Lemma sim_foldM {A B} (R : A -> A -> Prop) (S : B -> B -> Prop) f f' l l' :
  Forall2 R l l' -> (forall s t a b, S s t -> R a b -> sim S (f s a) (f' t b)) ->
  forall s t, S s t -> sim S (foldM f s l) (foldM f' t l').
Proof.
  intros H F. induction H as [|a b l l' Hab H IH]; intros s t Hst; cbn [foldM]; [now constructor|].
  eapply sim_bind; [now apply F|]. intros y y' Hy. now apply IH.
Qed.
Lemma sim_iterM {A} (R : A -> A -> Prop) f f' l l' :
  Forall2 R l l' -> (forall a b, R a b -> sim any (f a) (f' b)) -> sim any (iterM f l) (iterM f' l').
Proof.
  intros H F. induction H as [|a b l l' Hab H IH]; cbn [iterM]; [constructor; exact I|].
  eapply sim_bind; [now apply F|]. intros _ _ _. exact IH.
Qed.
Lemma sim_repeatM {B} (S : B -> B -> Prop) n f f' : (forall s t, S s t -> sim S (f s) (f' t)) ->
  forall s t, S s t -> sim S (repeatM n f s) (repeatM n f' t).
Proof.
  intros F. induction n as [|n IH]; intros s t H; cbn [repeatM]; [now constructor|].
  eapply sim_bind; [now apply F|]. intros y y' Hy. now apply IH.
Qed.

(** ** Lists of the same shape *)
Lemma F2_len {A B} (R : A -> B -> Prop) l l' : Forall2 R l l' -> length l = length l'.
Proof. induction 1; cbn; auto. Qed.
Lemma F2_any {A} (l l' : list A) : length l = length l' -> Forall2 any l l'.
Proof.
  revert l'. induction l as [|x l IH]; intros [|y l'] H; try discriminate; constructor; [exact I|].
  apply IH. now injection H.
Qed.
Lemma F2_refl {A} (R : A -> A -> Prop) l : (forall a, R a a) -> Forall2 R l l.
Proof. intros H. induction l; constructor; auto. Qed.
Lemma F2_eq {A} (l : list A) : Forall2 eq l l. Proof. apply F2_refl. reflexivity. Qed.
Lemma F2_mono {A} (R S : A -> A -> Prop) l l' : (forall a b, R a b -> S a b) -> Forall2 R l l' -> Forall2 S l l'.
Proof. intros H. induction 1; constructor; auto. Qed.
Lemma F2_firstn {A} (R : A -> A -> Prop) n l l' : Forall2 R l l' -> Forall2 R (firstn n l) (firstn n l').
Proof. intros H. revert n. induction H; intros [|n]; cbn [firstn]; constructor; auto. Qed.
Lemma F2_skipn {A} (R : A -> A -> Prop) n l l' : Forall2 R l l' -> Forall2 R (skipn n l) (skipn n l').
Proof. intros H. revert n. induction H; intros [|n]; cbn [skipn]; auto. Qed.
Lemma F2_rev {A} (R : A -> A -> Prop) l l' : Forall2 R l l' -> Forall2 R (rev l) (rev l').
Proof. induction 1; cbn [rev]; [constructor|]. apply Forall2_app; auto. Qed.
Lemma F2_map {A B} (R : A -> A -> Prop) (S : B -> B -> Prop) f f' l l' :
  Forall2 R l l' -> (forall a b, R a b -> S (f a) (f' b)) -> Forall2 S (map f l) (map f' l').
Proof. intros H F. induction H; cbn [map]; constructor; auto. Qed.
Lemma F2_concat {A} (R : A -> A -> Prop) l l' : Forall2 (Forall2 R) l l' -> Forall2 R (concat l) (concat l').
Proof. induction 1; cbn [concat]; [constructor|]. now apply Forall2_app. Qed.
Lemma F2_flat {A B} (R : A -> A -> Prop) (S : B -> B -> Prop) f f' l l' :
  Forall2 R l l' -> (forall a b, R a b -> Forall2 S (f a) (f' b)) -> Forall2 S (flat_map f l) (flat_map f' l').
Proof. intros H F. induction H; cbn [flat_map]; [constructor|]. apply Forall2_app; auto. Qed.
Lemma F2_tl {A} (R : A -> A -> Prop) l l' : Forall2 R l l' -> Forall2 R (tl l) (tl l').
Proof. destruct 1; cbn [tl]; [constructor|assumption]. Qed.
Lemma F2_repeat {A} (R : A -> A -> Prop) (a b : A) n : R a b -> Forall2 R (repeat a n) (repeat b n).
Proof. intros H. induction n; cbn [repeat]; constructor; auto. Qed.
(** both components related *)
Definition pairR {A B} (R : A -> A -> Prop) (S : B -> B -> Prop) (x y : A * B) : Prop :=
  R (fst x) (fst y) /\ S (snd x) (snd y).
Lemma F2_combine {A B} (R : A -> A -> Prop) (S : B -> B -> Prop) l l' m m' :
  Forall2 R l l' -> Forall2 S m m' -> Forall2 (pairR R S) (combine l m) (combine l' m').
Proof.
  intros H. revert m m'. induction H; intros m m' HS; cbn [combine]; [constructor|].
  destruct HS; constructor; [now split|]. now apply IHForall2.
Qed.
Lemma F2_seq {A B} (R : A -> B -> Prop) l l' k : Forall2 R l l' -> Forall2 eq (seq k (length l)) (seq k (length l')).
Proof. intros H. rewrite (F2_len _ _ _ H). apply F2_eq. Qed.
Lemma F2_chunks_ {A} (R : A -> A -> Prop) fuel n : forall l l', Forall2 R l l' ->
  Forall2 (Forall2 R) (chunks_ fuel n l) (chunks_ fuel n l').
Proof.
  induction fuel as [|fuel IH]; intros l l' H; cbn [chunks_]; [constructor|].
  destruct H as [|a b l l' Hab H]; constructor; [apply F2_firstn; now constructor|].
  apply IH. apply F2_skipn. now constructor.
Qed.
Lemma F2_chunks {A} (R : A -> A -> Prop) n l l' : Forall2 R l l' -> Forall2 (Forall2 R) (chunks n l) (chunks n l').
Proof. intros H. unfold chunks. rewrite <- (F2_len _ _ _ H). now apply F2_chunks_. Qed.

Lemma sim_nth {A} (R : A -> A -> Prop) l l' i : Forall2 R l l' -> sim R (nth_ l i) (nth_ l' i).
Proof.
  intros H. unfold nth_. revert i. induction H; intros [|i]; cbn [nth_error of_opt]; try constructor; auto.
Qed.
Lemma sim_slice_from {A} (R : A -> A -> Prop) l l' n : Forall2 R l l' -> sim (Forall2 R) (slice_from l n) (slice_from l' n).
Proof.
  intros H. unfold slice_from. rewrite <- (F2_len _ _ _ H). destruct (Nat.leb n (length l)); constructor.
  now apply F2_skipn.
Qed.
Lemma sim_slice_to {A} (R : A -> A -> Prop) l l' n : Forall2 R l l' -> sim (Forall2 R) (slice_to l n) (slice_to l' n).
Proof.
  intros H. unfold slice_to. rewrite <- (F2_len _ _ _ H). destruct (Nat.leb n (length l)); constructor.
  now apply F2_firstn.
Qed.
Lemma sim_slice {A} (R : A -> A -> Prop) l l' a b : Forall2 R l l' -> sim (Forall2 R) (slice l a b) (slice l' a b).
Proof. intros H. unfold slice. eapply sim_bind; [eapply sim_slice_to; exact H|]. intros. now apply sim_slice_from. Qed.
Lemma sim_set_nth {A} (R : A -> A -> Prop) l l' i x y : Forall2 R l l' -> R x y ->
  sim (Forall2 R) (set_nth l i x) (set_nth l' i y).
Proof.
  intros H Hx. unfold set_nth. rewrite <- (F2_len _ _ _ H). destruct (Nat.ltb i (length l)); constructor.
  apply Forall2_app; [now apply F2_firstn|]. constructor; [exact Hx|]. now apply F2_skipn.
Qed.
Lemma sim_panic_if b b' msg : b = b' -> sim any (panic_if b msg) (panic_if b' msg).
Proof. intros <-. unfold panic_if. destruct b; constructor. exact I. Qed.

(** the API *)
Lemma sim_hint h h' n : sim (fun l l' => length l = n /\ length l' = n) (hint_ h n) (hint_ h' n).
Proof. constructor. intros l l' H H'. constructor. auto. Qed.
Lemma sim_assert_eq a a' b b' : sim any (api_assert_eq a b) (api_assert_eq a' b').
Proof. repeat constructor. Qed.
Lemma sim_range x x' n : sim any (range_ x n) (range_ x' n).
Proof. repeat constructor. Qed.
Lemma sim_select b b' x x' y y' : sim any (api_select b x y) (api_select b' x' y').
Proof. repeat constructor. Qed.
Lemma sim_lookup2 b b' c c' x x' y y' z z' t t' : sim any (api_lookup2 b c x y z t) (api_lookup2 b' c' x' y' z' t').
Proof. repeat constructor. Qed.
Lemma bits_of_len n : forall x, length (bits_of n x) = n.
Proof. induction n; intros; cbn [bits_of length]; auto. Qed.
Lemma sim_to_binary x x' n : sim (Forall2 any) (api_to_binary x n) (api_to_binary x' n).
Proof. constructor. constructor. apply F2_any. now rewrite !bits_of_len. Qed.
Lemma sim_from_binary l l' : sim any (api_from_binary l) (api_from_binary l').
Proof. repeat constructor. Qed.

(** ** Automation *)
Create HintDb sim.
#[export] Hint Resolve sim_assert_eq sim_range sim_select sim_lookup2 sim_to_binary sim_from_binary : sim.

(** relations between data *)
Ltac clean := repeat match goal with
  | H : any _ _ |- _ => clear H
  | H : pairR _ _ _ _ |- _ => destruct H; cbn [fst snd] in *
  | H : length _ = _ /\ length _ = _ |- _ => destruct H
  | x : unit |- _ => destruct x
  | x : (_ * _)%type |- _ => destruct x; cbn [fst snd] in *
  | H : ?a = ?b |- _ => subst b
  end.
Ltac rel := clean; try exact I; try eassumption;
  lazymatch goal with
  | |- any _ _ => exact I
  | |- pairR _ _ _ _ => split; cbn [fst snd]; rel
  | |- Forall2 _ (rev _) (rev _) => apply F2_rev; rel
  | |- Forall2 _ (firstn _ _) (firstn _ _) => apply F2_firstn; rel
  | |- Forall2 _ (skipn _ _) (skipn _ _) => apply F2_skipn; rel
  | |- Forall2 _ (tl _) (tl _) => apply F2_tl; rel
  | |- Forall2 _ (_ ++ _) (_ ++ _) => apply Forall2_app; rel
  | |- Forall2 _ (_ :: _) (_ :: _) => constructor; rel
  | |- Forall2 _ nil nil => constructor
  | |- Forall2 _ (combine _ _) (combine _ _) => eapply F2_combine; rel
  | |- Forall2 _ (concat _) (concat _) => apply F2_concat; rel
  | |- Forall2 _ (chunks _ _) (chunks _ _) => eapply F2_chunks; rel
  | |- Forall2 _ (repeat _ _) (repeat _ _) => eapply F2_repeat; rel
  | |- Forall2 _ (map _ _) (map _ _) => eapply F2_map; [rel|intros; rel]
  | |- Forall2 _ (seq _ (length _)) (seq _ (length _)) => first [eapply F2_seq; eassumption | apply F2_eq]
  | |- Forall2 _ ?l ?l => apply F2_eq || (apply F2_refl; intros; rel)
  | |- Forall2 any _ _ => apply F2_any; try lia; congruence
  | |- ?a = ?b => first [reflexivity | congruence]
  end.
Ltac step :=
  cbn [fst snd];
  lazymatch goal with
  | |- sim _ (Ret _) (Ret _) => constructor; rel
  | |- sim _ (Panic _) (Panic _) => constructor
  | |- sim _ (bind _ _) (bind _ _) =>
      eapply sim_bind; [step | let a := fresh "a" in let b := fresh "b" in let H := fresh "H" in
                               intros a b H; clean; cbv beta zeta iota; step]
  | |- sim _ (mapM _ _) (mapM _ _) => eapply sim_mapM; [rel|intros; clean; step]
  | |- sim _ (iterM _ _) (iterM _ _) => eapply sim_iterM; [rel|intros; clean; step]
  | |- sim _ (foldM _ _ _) (foldM _ _ _) => idtac
  | |- sim _ (nth_ _ _) (nth_ _ _) => eapply sim_nth; rel
  | |- sim _ (slice_from _ _) (slice_from _ _) => eapply sim_slice_from; rel
  | |- sim _ (slice_to _ _) (slice_to _ _) => eapply sim_slice_to; rel
  | |- sim _ (slice _ _ _) (slice _ _ _) => eapply sim_slice; rel
  | |- sim _ (set_nth _ _ _) (set_nth _ _ _) => eapply sim_set_nth; rel
  | |- sim _ (panic_if _ _) (panic_if _ _) => apply sim_panic_if; try reflexivity
  | |- sim _ (hint_ _ _) (hint_ _ _) => apply sim_hint
  | |- sim _ (if ?b then _ else _) (if ?b then _ else _) => destruct b; step
  | |- sim _ _ _ => try solve [eauto with sim]
  end.
(** a loop whose state is related by [S] and whose elements are related by a relation that [rel] finds *)
Ltac loop S := eapply (sim_foldM _ S); [rel|intros; clean; step|rel].

(** ** goldilocks *)
Lemma sim_RangeCheck x x' : sim any (RangeCheck x) (RangeCheck x').
Proof.
  unfold RangeCheck. eapply sim_bind; [apply sim_hint|]. intros l l' [H H'].
  assert (F : Forall2 any l l') by (apply F2_any; congruence). clear H H'. step.
Qed.
#[export] Hint Resolve sim_RangeCheck : sim.
Lemma sim_RCM x x' n : sim any (RangeCheckWithMaxBits x n) (RangeCheckWithMaxBits x' n).
Proof. apply sim_range. Qed.
Lemma sim_AssertIsEqual x x' y y' : sim any (AssertIsEqual x y) (AssertIsEqual x' y').
Proof. apply sim_assert_eq. Qed.
Lemma sim_MulAdd a a' b b' c c' : sim any (MulAdd a b c) (MulAdd a' b' c').
Proof.
  unfold MulAdd. eapply sim_bind; [apply sim_hint|]. intros l l' [H H'].
  assert (F : Forall2 any l l') by (apply F2_any; congruence). clear H H'. step.
Qed.
#[export] Hint Resolve sim_RCM sim_AssertIsEqual sim_MulAdd : sim.
Lemma sim_Add a a' b b' : sim any (Add a b) (Add a' b'). Proof. apply sim_MulAdd. Qed.
Lemma sim_Sub a a' b b' : sim any (Sub a b) (Sub a' b'). Proof. apply sim_MulAdd. Qed.
Lemma sim_Mul a a' b b' : sim any (Mul a b) (Mul a' b'). Proof. apply sim_MulAdd. Qed.
Lemma sim_RWM x x' n : sim any (ReduceWithMaxBits x n) (ReduceWithMaxBits x' n).
Proof.
  unfold ReduceWithMaxBits. eapply sim_bind; [apply sim_hint|]. intros l l' [H H'].
  assert (F : Forall2 any l l') by (apply F2_any; congruence). clear H H'. step.
Qed.
Lemma sim_Reduce x x' : sim any (Reduce x) (Reduce x'). Proof. apply sim_RWM. Qed.
#[export] Hint Resolve sim_Add sim_Sub sim_Mul sim_RWM sim_Reduce : sim.
Lemma sim_Inverse x x' : sim any (Inverse x) (Inverse x').
Proof.
  unfold Inverse. eapply sim_bind; [apply sim_hint|]. intros l l' [H H'].
  assert (F : Forall2 any l l') by (apply F2_any; congruence). clear H H'. step.
Qed.
Lemma sim_root n : sim eq (PrimitiveRootOfUnity n) (PrimitiveRootOfUnity n).
Proof. unfold PrimitiveRootOfUnity. destruct (Nat.ltb TWO_ADICITY n); constructor. reflexivity. Qed.
Lemma sim_subgroup n : sim eq (TwoAdicSubgroup n) (TwoAdicSubgroup n).
Proof.
  unfold TwoAdicSubgroup. destruct (Nat.ltb TWO_ADICITY n); [constructor|].
  eapply sim_bind; [apply sim_root|]. intros a b <-. constructor. reflexivity.
Qed.
#[export] Hint Resolve sim_Inverse sim_root sim_subgroup : sim.

Lemma sim_AddE a a' b b' : sim any (AddExtension a b) (AddExtension a' b').
Proof. unfold AddExtension. step. Qed.
Lemma sim_SubE a a' b b' : sim any (SubExtension a b) (SubExtension a' b').
Proof. unfold SubExtension. step. Qed.
Lemma sim_RedE a a' : sim any (ReduceExtension a) (ReduceExtension a').
Proof. unfold ReduceExtension. step. Qed.
#[export] Hint Resolve sim_AddE sim_SubE sim_RedE : sim.
Lemma sim_MulE a a' b b' : sim any (MulExtension a b) (MulExtension a' b'). Proof. apply sim_RedE. Qed.
Lemma sim_MulAddE a a' b b' c c' : sim any (MulAddExtension a b c) (MulAddExtension a' b' c'). Proof. apply sim_RedE. Qed.
Lemma sim_SubMulE a a' b b' c c' : sim any (SubMulExtension a b c) (SubMulExtension a' b' c'). Proof. apply sim_RedE. Qed.
Lemma sim_ScalarE a a' b b' : sim any (ScalarMulExtension a b) (ScalarMulExtension a' b').
Proof. unfold ScalarMulExtension. step. Qed.
#[export] Hint Resolve sim_MulE sim_MulAddE sim_SubMulE sim_ScalarE : sim.
Lemma sim_Inner k k' a a' l l' : length l = length l' -> sim any (InnerProductExtension k a l) (InnerProductExtension k' a' l').
Proof.
  intros H. apply F2_any in H. unfold InnerProductExtension.
  eapply sim_bind; [loop (@any QE)|]. intros. apply sim_RedE.
Qed.
Lemma sim_InvE a a' : sim any (InverseExtension a) (InverseExtension a').
Proof. unfold InverseExtension. step. Qed.
#[export] Hint Resolve sim_InvE : sim.
Lemma sim_DivE a a' b b' : sim any (DivExtension a b) (DivExtension a' b').
Proof. unfold DivExtension. step. Qed.
#[export] Hint Resolve sim_DivE : sim.
Lemma sim_exp_step e st st' i : sim any (exp_step e st i) (exp_step e st' i).
Proof.
  unfold exp_step. clean. eapply (sim_bind any).
  - destruct (Nat.eqb i 0); step.
  - intros. eapply (sim_bind any); [destruct (N.testbit e (N.of_nat i)); step|]. intros. step.
Qed.
Lemma sim_ExpE a a' e : sim any (ExpExtension a e) (ExpExtension a' e).
Proof.
  unfold ExpExtension. destruct (e =? 0)%N; [step|]. destruct (e =? 1)%N; [step|]. destruct (e =? 2)%N; [step|].
  eapply sim_bind.
  - eapply (sim_foldM eq any); [apply F2_eq| |exact I]. intros s t i j _ ->. apply sim_exp_step.
  - intros. clean. step.
Qed.
Lemma sim_RWP l l' s s' : Forall2 any l l' -> sim any (ReduceWithPowers l s) (ReduceWithPowers l' s').
Proof. intros H. unfold ReduceWithPowers. loop (@any QE). Qed.
Lemma sim_Lookup b b' x x' y y' : sim any (Lookup b x y) (Lookup b' x' y').
Proof. unfold Lookup. step. Qed.
#[export] Hint Resolve sim_ExpE sim_RWP sim_Lookup : sim.
Lemma sim_Lookup2 b b' c c' x x' y y' z z' t t' : sim any (Lookup2 b c x y z t) (Lookup2 b' c' x' y' z' t').
Proof. unfold Lookup2. step. Qed.
Lemma sim_AEE a a' b b' : sim any (AssertIsEqualExtension a b) (AssertIsEqualExtension a' b').
Proof. unfold AssertIsEqualExtension. step. Qed.
Lemma sim_RCQE a a' : sim any (RangeCheckQE a) (RangeCheckQE a').
Proof. unfold RangeCheckQE. step. Qed.
Lemma sim_AddA a a' b b' : sim any (AddExtensionAlgebra a b) (AddExtensionAlgebra a' b').
Proof. unfold AddExtensionAlgebra. step. Qed.
Lemma sim_SubA a a' b b' : sim any (SubExtensionAlgebra a b) (SubExtensionAlgebra a' b').
Proof. unfold SubExtensionAlgebra. step. Qed.
Lemma sim_MulA a a' b b' : sim any (MulExtensionAlgebra a b) (MulExtensionAlgebra a' b').
Proof.
  unfold MulExtensionAlgebra. eapply sim_bind; [now apply sim_Inner|]. intros.
  eapply sim_bind; [now apply sim_Inner|]. intros. eapply sim_bind; [now apply sim_Inner|]. intros.
  eapply sim_bind; [now apply sim_Inner|]. intros. step.
Qed.
Lemma sim_ScalarA a a' b b' : sim any (ScalarMulExtensionAlgebra a b) (ScalarMulExtensionAlgebra a' b').
Proof. unfold ScalarMulExtensionAlgebra. step. Qed.
#[export] Hint Resolve sim_Lookup2 sim_AEE sim_RCQE sim_AddA sim_SubA sim_MulA sim_ScalarA : sim.
Lemma sim_pis p p' s s' t t' : sim any (partial_interpolate_step p s t) (partial_interpolate_step p' s' t').
Proof. unfold partial_interpolate_step. clean. step. Qed.
Lemma sim_PI d d' v v' w w' a a' b b' c c' : Forall2 any d d' -> Forall2 any v v' -> Forall2 any w w' ->
  sim any (PartialInterpolateExtAlgebra d v w a b c) (PartialInterpolateExtAlgebra d' v' w' a' b' c').
Proof.
  intros D V W. unfold PartialInterpolateExtAlgebra.
  rewrite <- (F2_len _ _ _ D), <- (F2_len _ _ _ V), <- (F2_len _ _ _ W).
  destruct (Nat.eqb (length v) 0); [constructor|]. destruct (negb _); [constructor|]. destruct (negb _); [constructor|].
  eapply (sim_foldM _ any); [rel| |exact I]. intros. apply sim_pis.
Qed.

(** ** poseidon *)
Lemma sim_sbox w x x' : sim any (sBoxMonomial w x) (sBoxMonomial w x').
Proof. unfold sBoxMonomial. step. Qed.
Lemma sim_cl s s' k : sim (Forall2 any) (constantLayer s k) (constantLayer s' k).
Proof. unfold constantLayer. step. Qed.
#[export] Hint Resolve sim_sbox sim_cl : sim.
Lemma sim_sbl w s s' : Forall2 any s s' -> sim (Forall2 any) (sBoxLayer w s) (sBoxLayer w s').
Proof. intros. unfold sBoxLayer. step. Qed.
Lemma sim_mdsRow k s s' : sim any (mdsRowShf k s) (mdsRowShf k s').
Proof. unfold mdsRowShf. step. Qed.
#[export] Hint Resolve sim_sbl sim_mdsRow : sim.
Lemma sim_mds s s' : sim (Forall2 any) (mdsLayer s) (mdsLayer s').
Proof. unfold mdsLayer. step. Qed.
#[export] Hint Resolve sim_mds : sim.
Lemma sim_full w s s' k : Forall2 any s s' -> sim (Forall2 any) (PoseidonGL.fullRounds w s k) (PoseidonGL.fullRounds w s' k).
Proof. intros. unfold PoseidonGL.fullRounds. loop (Forall2 (@any Z)). Qed.
Lemma sim_pfc s s' : sim (Forall2 any) (partialFirstConstantLayer s) (partialFirstConstantLayer s').
Proof. unfold partialFirstConstantLayer. step. Qed.
Lemma sim_mdspi s s' : sim (Forall2 any) (mdsPartialLayerInit s) (mdsPartialLayerInit s').
Proof. unfold mdsPartialLayerInit. eapply (sim_mapM any); [apply F2_any; reflexivity|]. intros. apply sim_Reduce. Qed.
Lemma sim_mdspf s s' k : sim (Forall2 any) (mdsPartialLayerFast s k) (mdsPartialLayerFast s' k).
Proof.
  unfold mdsPartialLayerFast. eapply sim_bind; [apply sim_Reduce|]. intros.
  eapply (sim_mapM any); [apply F2_any; reflexivity|]. intros. apply sim_Reduce.
Qed.
#[export] Hint Resolve sim_full sim_pfc sim_mdspi sim_mdspf : sim.
Lemma sim_partial w s s' : sim (Forall2 any) (PoseidonGL.partialRounds w s) (PoseidonGL.partialRounds w s').
Proof.
  unfold PoseidonGL.partialRounds. eapply sim_bind; [apply sim_pfc|]. intros. eapply sim_bind; [apply sim_mdspi|]. intros.
  loop (Forall2 (@any Z)).
Qed.
#[export] Hint Resolve sim_partial : sim.
Lemma sim_Poseidon w s s' : Forall2 any s s' -> sim (Forall2 any) (Poseidon_w w s) (Poseidon_w w s').
Proof. intros. unfold Poseidon_w. step. Qed.
#[export] Hint Resolve sim_Poseidon : sim.
Lemma sim_absorb w fuel : forall s s' i i', Forall2 any s s' -> Forall2 any i i' ->
  sim (Forall2 any) (absorb w fuel s i) (absorb w fuel s' i').
Proof.
  induction fuel as [|fuel IH]; intros s s' i i' Hs Hi; cbn [absorb]; [step|].
  pose proof Hi as Hi0. destruct Hi as [|x y i i' Hxy Hi]; [step|].
  eapply sim_bind.
  - apply sim_Poseidon. apply Forall2_app; [now apply F2_firstn|].
    rewrite (F2_len _ _ _ (F2_firstn _ SPONGE_RATE _ _ Hi0)). now apply F2_skipn.
  - intros a b Hab. apply IH; [exact Hab|]. now apply F2_skipn.
Qed.
Lemma sim_squeeze w fuel : forall s s' n, Forall2 any s s' ->
  sim (Forall2 any) (squeeze w fuel s n) (squeeze w fuel s' n).
Proof.
  induction fuel as [|fuel IH]; intros s s' n Hs; cbn [squeeze]; [step|].
  destruct (Nat.eqb n 0); [step|]. destruct (Nat.leb n SPONGE_RATE); [step|].
  eapply sim_bind; [now apply sim_Poseidon|]. intros a b Hab.
  eapply sim_bind; [now apply IH|]. intros. step.
Qed.
Lemma sim_HashNToM w i i' n : Forall2 any i i' -> sim (Forall2 any) (HashNToMNoPad_w w i n) (HashNToMNoPad_w w i' n).
Proof.
  intros H. unfold HashNToMNoPad_w. rewrite <- (F2_len _ _ _ H).
  eapply sim_bind; [apply sim_absorb; [rel|exact H]|]. intros. now apply sim_squeeze.
Qed.
#[export] Hint Resolve sim_HashNToM : sim.
Lemma sim_HashNoPad w i i' : Forall2 any i i' -> sim (Forall2 any) (HashNoPad_w w i) (HashNoPad_w w i').
Proof. intros H. unfold HashNoPad_w. step. Qed.
#[export] Hint Resolve sim_HashNoPad : sim.
Lemma sim_ToVec h h' : sim (Forall2 any) (ToVec h) (ToVec h').
Proof. unfold ToVec. step. Qed.
#[export] Hint Resolve sim_ToVec : sim.
