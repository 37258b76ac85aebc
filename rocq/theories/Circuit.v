(** * Circuits as a free monad, with malicious-prover and honest-solver semantics.

    A gnark circuit definition (`Define(api)`) computes with circuit variables.
    Here a variable is represented by the value it has in a given assignment, an
    integer in [0, r).  The definition may
    - ask for hint outputs ([api.NewHint]/[Compiler().NewHint]): the prover may
      choose any values in [0, r), the honest solver uses the hint function;
    - add a constraint ([api.AssertIsEqual] and friends);
    - request a range check ([rangeCheckerCheck], goldilocks/base.go:411-421);
    - panic while the circuit is being defined. *)
From Coq Require Import String.
From Coq Require Import ZArith Lia List Bool.
From Verif Require Import Zp.
Import ListNotations.
Open Scope Z_scope.

Inductive circ (A : Type) : Type :=
| Ret (a : A)
| Hint (honest : option (list Z)) (n : nat) (k : list Z -> circ A)
| Assert (b : bool) (k : circ A)
| Range (x : Z) (bits : Z) (k : circ A)
| Panic (msg : string).
Arguments Ret {A}. Arguments Hint {A}. Arguments Assert {A}. Arguments Range {A}. Arguments Panic {A}.

Fixpoint bind {A B} (c : circ A) (f : A -> circ B) : circ B :=
  match c with
  | Ret a => f a
  | Hint h n k => Hint h n (fun l => bind (k l) f)
  | Assert b k => Assert b (bind k f)
  | Range x n k => Range x n (bind k f)
  | Panic m => Panic m
  end.

Declare Scope circ_scope.
Delimit Scope circ_scope with circ.
Notation "x <- c ;; d" := (bind c (fun x => d))
  (at level 61, c at next level, right associativity) : circ_scope.
Notation "' pat <- c ;; d" := (bind c (fun x => match x with pat => d end))
  (at level 61, pat pattern, c at next level, right associativity) : circ_scope.
Notation "c ;;; d" := (bind c (fun _ : unit => d))
  (at level 61, right associativity) : circ_scope.
Open Scope circ_scope.

Definition assert_ (b : bool) : circ unit := Assert b (Ret tt).
Definition range_ (x bits : Z) : circ unit := Range x bits (Ret tt).
Definition hint_ (h : option (list Z)) (n : nat) : circ (list Z) := Hint h n Ret.
(** A Go slice access that may be out of range: run-time panic. *)
Definition of_opt {A} (msg : string) (o : option A) : circ A :=
  match o with Some a => Ret a | None => Panic msg end.

Fixpoint mapM {A B} (f : A -> circ B) (l : list A) : circ (list B) :=
  match l with
  | [] => Ret []
  | x :: l' => y <- f x;; ys <- mapM f l';; Ret (y :: ys)
  end.
Fixpoint foldM {A B} (f : B -> A -> circ B) (acc : B) (l : list A) : circ B :=
  match l with
  | [] => Ret acc
  | x :: l' => acc' <- f acc x;; foldM f acc' l'
  end.
Fixpoint iterM {A} (f : A -> circ unit) (l : list A) : circ unit :=
  match l with
  | [] => Ret tt
  | x :: l' => f x;;; iterM f l'
  end.
Fixpoint repeatM {B} (n : nat) (f : B -> circ B) (acc : B) : circ B :=
  match n with
  | O => Ret acc
  | S n' => acc' <- f acc;; repeatM n' f acc'
  end.

(** ** Semantics *)
Definition inr_ (x : Z) : Prop := 0 <= x < r.

Fixpoint reach {A} (c : circ A) (a : A) : Prop :=
  match c with
  | Ret x => x = a
  | Hint _ n k => exists l, length l = n /\ Forall inr_ l /\ reach (k l) a
  | Assert b k => b = true /\ reach k a
  | Range x n k => 0 <= x < 2 ^ n /\ reach k a
  | Panic _ => False
  end.

(** The circuit can be satisfied. *)
Definition sat {A} (c : circ A) : Prop := exists a, reach c a.

Inductive outcome (A : Type) :=
| Done (a : A) | Panicked (msg : string) | HintFailed | Unsat.
Arguments Done {A}. Arguments Panicked {A}. Arguments HintFailed {A}. Arguments Unsat {A}.

(** gnark stores hint outputs reduced modulo the field order. *)
Fixpoint run {A} (c : circ A) : outcome A :=
  match c with
  | Ret a => Done a
  | Hint (Some l) n k =>
      if Nat.eqb (length l) n then run (k (map (fun x => x mod r) l)) else HintFailed
  | Hint None _ _ => HintFailed
  | Assert b k => if b then run k else Unsat
  | Range x n k => if (0 <=? x) && (x <? 2 ^ n) then run k else Unsat
  | Panic m => Panicked m
  end.

(** Executor with chosen hint answers, used for refutation witnesses: [None]
    in the list means "answer honestly". *)
Fixpoint exec {A} (c : circ A) (ov : list (option (list Z))) : outcome A :=
  match c with
  | Ret a => Done a
  | Hint h n k =>
      match (match ov with Some l :: _ => Some l | _ => h end) with
      | Some l => if Nat.eqb (length l) n then exec (k (map (fun x => x mod r) l)) (tl ov) else HintFailed
      | None => HintFailed
      end
  | Assert b k => if b then exec k ov else Unsat
  | Range x n k => if (0 <=? x) && (x <? 2 ^ n) then exec k ov else Unsat
  | Panic m => Panicked m
  end.

Lemma mod_r_range l : Forall inr_ (map (fun x => x mod r) l).
Proof.
  apply Forall_forall. intros x Hx. apply in_map_iff in Hx. destruct Hx as (y & <- & _).
  apply Z.mod_pos_bound, r_pos.
Qed.

Lemma range_b x n : ((0 <=? x) && (x <? 2 ^ n)) = true <-> 0 <= x < 2 ^ n.
Proof. rewrite andb_true_iff, Z.leb_le, Z.ltb_lt. reflexivity. Qed.

Lemma exec_reach {A} (c : circ A) : forall ov a, exec c ov = Done a -> reach c a.
Proof.
  induction c as [x|h n k IH|b k IH|x n k IH|m]; intros ov a H; cbn [exec reach] in *.
  - now injection H.
  - destruct (match ov with Some l :: _ => Some l | _ => h end) as [l|]; [|discriminate].
    destruct (Nat.eqb_spec (length l) n) as [E|]; [|discriminate].
    exists (map (fun x => x mod r) l). rewrite map_length. eauto using mod_r_range.
  - destruct b; [eauto|discriminate].
  - destruct ((0 <=? x) && (x <? 2 ^ n)) eqn:E; [|discriminate].
    apply range_b in E. eauto.
  - discriminate.
Qed.

Lemma run_exec {A} (c : circ A) : run c = exec c [].
Proof.
  induction c as [x|h n k IH|b k IH|x n k IH|m]; cbn [run exec tl]; auto.
  - destruct h as [l|]; [|reflexivity]. destruct (Nat.eqb _ _); auto.
  - destruct b; auto.
  - destruct (_ && _); auto.
Qed.

Lemma run_reach {A} (c : circ A) a : run c = Done a -> reach c a.
Proof. rewrite run_exec. apply exec_reach. Qed.

Lemma reach_bind {A B} (c : circ A) (f : A -> circ B) b :
  reach (bind c f) b <-> exists a, reach c a /\ reach (f a) b.
Proof.
  induction c as [x|h n k IH|b' k IH|x n k IH|m]; cbn [bind reach].
  - split; [intros H; exists x; auto|intros (a & -> & H); exact H].
  - split.
    + intros (l & Hl & Hr & H). apply IH in H. destruct H as (a & H1 & H2). eauto 8.
    + intros (a & (l & Hl & Hr & H) & H2). exists l. repeat split; auto. apply IH. eauto.
  - rewrite IH. split; [intros (E & a & H & H')|intros (a & (E & H) & H')]; [exists a|split; [|exists a]]; auto.
  - rewrite IH. split; [intros (E & a & H & H')|intros (a & (E & H) & H')]; [exists a|split; [|exists a]]; auto.
  - split; [tauto|intros (a & [] & _)].
Qed.

Lemma run_bind {A B} (c : circ A) (f : A -> circ B) :
  run (bind c f) = match run c with
                   | Done a => run (f a)
                   | Panicked m => Panicked m
                   | HintFailed => HintFailed
                   | Unsat => Unsat
                   end.
Proof.
  induction c as [x|h n k IH|b k IH|x n k IH|m]; cbn [bind run]; auto.
  - destruct h as [l|]; [|reflexivity]. destruct (Nat.eqb _ _); auto.
  - destruct b; auto.
  - destruct (_ && _); auto.
Qed.

Lemma run_bind_done {A B} (c : circ A) (f : A -> circ B) a b :
  run c = Done a -> run (f a) = Done b -> run (bind c f) = Done b.
Proof. intros H1 H2. now rewrite run_bind, H1. Qed.

(** ** The standard shape of a theorem about a gadget. *)

(** [enforces c P a]: if [P] then the honest solver succeeds with result [a]; and
    whatever the prover answers to hints, a satisfied circuit implies [P] and has
    result [a]. *)
Definition enforces {A} (c : circ A) (P : Prop) (a : A) : Prop :=
  (P -> run c = Done a) /\ (forall a', reach c a' -> P /\ a' = a).
Definition computes {A} (c : circ A) (a : A) : Prop := enforces c True a.

Lemma enforces_reach {A} (c : circ A) P a a' :
  enforces c P a -> (reach c a' <-> P /\ a' = a).
Proof.
  intros [H1 H2]. split; [apply H2|]. intros [HP ->]. now apply run_reach, H1.
Qed.

Lemma enforces_run {A} (c : circ A) P a : enforces c P a -> P -> run c = Done a.
Proof. intros [H _]; exact H. Qed.
Lemma enforces_sound {A} (c : circ A) P a a' : enforces c P a -> reach c a' -> P /\ a' = a.
Proof. intros [_ H]; apply H. Qed.

Lemma enforces_sat {A} (c : circ A) P a : enforces c P a -> (sat c <-> P).
Proof.
  intros [H1 H2]. split.
  - intros [a' H]. now apply H2 in H.
  - intros HP. exists a. now apply run_reach, H1.
Qed.

Lemma computes_intro {A} (c : circ A) a :
  run c = Done a -> (forall a', reach c a' -> a' = a) -> computes c a.
Proof. intros H1 H2. split; auto. Qed.

Lemma computes_run {A} (c : circ A) a : computes c a -> run c = Done a.
Proof. intros [H _]. now apply H. Qed.
Lemma computes_reach {A} (c : circ A) a a' : computes c a -> reach c a' -> a' = a.
Proof. intros [_ H] R. now apply H in R. Qed.
Lemma computes_reach_iff {A} (c : circ A) a a' : computes c a -> (reach c a' <-> a' = a).
Proof. intros H. rewrite (enforces_reach c True a a' H). tauto. Qed.

Lemma enforces_ret {A} (a : A) : enforces (Ret a) True a.
Proof. split; [reflexivity|]. cbn. intros a' ->; auto. Qed.
Lemma computes_ret {A} (a : A) : computes (Ret a) a.
Proof. apply enforces_ret. Qed.

Lemma enforces_iff {A} (c : circ A) P Q a : enforces c P a -> (P <-> Q) -> enforces c Q a.
Proof. intros [H1 H2] E. split; [tauto|]. intros a' R. apply H2 in R. tauto. Qed.
Lemma enforces_eq {A} (c : circ A) P a b : enforces c P a -> a = b -> enforces c P b.
Proof. now intros H <-. Qed.
Lemma computes_eq {A} (c : circ A) a b : computes c a -> a = b -> computes c b.
Proof. now intros H <-. Qed.

Lemma enforces_bind {A B} (c : circ A) (f : A -> circ B) P a Q b :
  enforces c P a -> (P -> enforces (f a) Q b) -> enforces (bind c f) (P /\ Q) b.
Proof.
  intros [H1 H2] Hf. split.
  - intros [HP HQ]. destruct (Hf HP) as [F1 _]. eapply run_bind_done; eauto.
  - intros b' R. apply reach_bind in R. destruct R as (a' & R1 & R2).
    apply H2 in R1. destruct R1 as [HP ->]. destruct (Hf HP) as [_ F2].
    apply F2 in R2. tauto.
Qed.

Lemma computes_bind {A B} (c : circ A) (f : A -> circ B) a b :
  computes c a -> computes (f a) b -> computes (bind c f) b.
Proof.
  intros H1 H2. eapply enforces_iff; [eapply enforces_bind; [exact H1|intros _; exact H2]|tauto].
Qed.

Lemma computes_enforces_bind {A B} (c : circ A) (f : A -> circ B) a P b :
  computes c a -> enforces (f a) P b -> enforces (bind c f) P b.
Proof.
  intros H1 H2. eapply enforces_iff; [eapply enforces_bind; [exact H1|intros _; exact H2]|tauto].
Qed.

Lemma enforces_assert_ b : enforces (assert_ b) (b = true) tt.
Proof.
  split; cbn; [now intros ->|]. intros [] [H _]. auto.
Qed.

Lemma enforces_range_ x n : enforces (range_ x n) (0 <= x < 2 ^ n) tt.
Proof.
  split; cbn.
  - intros H. apply range_b in H. now rewrite H.
  - intros [] [H _]. auto.
Qed.

Lemma computes_of_opt {A} m (o : option A) a : o = Some a -> computes (of_opt m o) a.
Proof. intros ->. apply computes_ret. Qed.

Lemma computes_mapM {A B} (f : A -> circ B) (g : A -> B) l :
  (forall x, In x l -> computes (f x) (g x)) -> computes (mapM f l) (map g l).
Proof.
  induction l as [|x l IH]; intros H; cbn [mapM map]; [apply computes_ret|].
  eapply computes_bind; [apply H, in_eq|].
  eapply computes_bind; [apply IH; intros; apply H; now apply in_cons|]. apply computes_ret.
Qed.

Lemma computes_mapM2 {A B C} (f : A -> circ B) (R : C -> A) (g : C -> B) l :
  (forall x, In x l -> computes (f (R x)) (g x)) -> computes (mapM f (map R l)) (map g l).
Proof.
  induction l as [|x l IH]; intros H; cbn [mapM map]; [apply computes_ret|].
  eapply computes_bind; [apply H, in_eq|].
  eapply computes_bind; [apply IH; intros; apply H; now apply in_cons|]. apply computes_ret.
Qed.

(** Fold with an abstraction [R] of the accumulator and of the list items. *)
Lemma computes_foldM {A B A' B'} (f : B -> A -> circ B) (RB : B' -> B) (RA : A' -> A)
      (g : B' -> A' -> B') l :
  (forall acc x, In x l -> computes (f (RB acc) (RA x)) (RB (g acc x))) ->
  forall acc, computes (foldM f (RB acc) (map RA l)) (RB (fold_left g l acc)).
Proof.
  induction l as [|x l IH]; intros H acc; cbn [foldM map fold_left]; [apply computes_ret|].
  eapply computes_bind; [apply H, in_eq|]. apply IH. intros; apply H; now apply in_cons.
Qed.

Lemma computes_repeatM {B B'} (f : B -> circ B) (RB : B' -> B) (g : B' -> B') n :
  (forall acc, computes (f (RB acc)) (RB (g acc))) ->
  forall acc, computes (repeatM n f (RB acc)) (RB (Nat.iter n g acc)).
Proof.
  intros H. induction n as [|n IH]; intros acc; cbn [repeatM]; [apply computes_ret|].
  eapply computes_bind; [apply H|]. eapply computes_eq; [apply IH|].
  f_equal. clear. revert acc. induction n as [|n IH]; intros acc; [reflexivity|].
  cbn [Nat.iter nat_rect]. f_equal. apply IH.
Qed.

Lemma enforces_iterM {A} (f : A -> circ unit) (P : A -> Prop) l :
  (forall x, In x l -> enforces (f x) (P x) tt) -> enforces (iterM f l) (Forall P l) tt.
Proof.
  induction l as [|x l IH]; intros H; cbn [iterM].
  - eapply enforces_iff; [apply enforces_ret|]. split; auto.
  - eapply enforces_iff.
    + eapply enforces_bind; [apply H, in_eq|]. intros _. apply IH. intros; apply H; now apply in_cons.
    + split; [intros [H1 H2]; constructor; auto|intros HF; inversion HF; auto].
Qed.

Lemma enforces_iterM2 {A C} (f : A -> circ unit) (R : C -> A) (P : C -> Prop) l :
  (forall x, In x l -> enforces (f (R x)) (P x) tt) -> enforces (iterM f (map R l)) (Forall P l) tt.
Proof.
  induction l as [|x l IH]; intros H; cbn [iterM map].
  - eapply enforces_iff; [apply enforces_ret|]. split; auto.
  - eapply enforces_iff.
    + eapply enforces_bind; [apply H, in_eq|]. intros _. apply IH. intros; apply H; now apply in_cons.
    + split; [intros [H1 H2]; constructor; auto|intros HF; inversion HF; auto].
Qed.

Lemma bind_assoc_reach {A B C} (c : circ A) (f : A -> circ B) (g : B -> circ C) x :
  reach (bind (bind c f) g) x <-> reach (bind c (fun a => bind (f a) g)) x.
Proof.
  rewrite !reach_bind. split.
  - intros (b & H & Hg). apply reach_bind in H. destruct H as (a & Ha & Hb).
    exists a. split; auto. apply reach_bind. eauto.
  - intros (a & Ha & H). apply reach_bind in H. destruct H as (b & Hb & Hg).
    exists b. split; auto. apply reach_bind. eauto.
Qed.

(** [denotes c R P a]: the results reachable by a malicious prover are exactly
    those in [R], and if [P] the honest solver reaches [a]. *)
Definition denotes {A} (c : circ A) (R : A -> Prop) (P : Prop) (a : A) : Prop :=
  (P -> run c = Done a) /\ (forall a', reach c a' <-> R a').

Lemma denotes_bind {A B} (c : circ A) (f : A -> circ B) R P a S Q b :
  denotes c R P a -> (forall x, R x -> denotes (f x) (S x) (Q x) (b x)) ->
  denotes (bind c f) (fun y => exists x, R x /\ S x y) (P /\ Q a) (b a).
Proof.
  intros [H1 H2] Hf. split.
  - intros [HP HQ]. specialize (H1 HP). assert (Ra : R a) by now apply H2, run_reach.
    eapply run_bind_done; [exact H1|]. destruct (Hf a Ra) as [F _]. auto.
  - intros y. rewrite reach_bind. split.
    + intros (x & R1 & R2). apply H2 in R1. exists x. split; auto. now apply (Hf x R1).
    + intros (x & R1 & R2). exists x. split; [now apply H2|]. now apply (Hf x R1).
Qed.
Lemma enforces_denotes {A} (c : circ A) P a :
  enforces c P a -> denotes c (fun a' => P /\ a' = a) P a.
Proof. intros H. split; [apply H|]. intros a'. now apply enforces_reach. Qed.
Lemma computes_denotes {A} (c : circ A) a : computes c a -> denotes c (fun a' => a' = a) True a.
Proof. intros H. split; [apply H|]. intros a'. now apply computes_reach_iff. Qed.
Lemma denotes_iff {A} (c : circ A) R R' (P P' : Prop) a a' :
  denotes c R P a -> (forall x, R x <-> R' x) -> (P' -> P) -> (P' -> a = a') -> denotes c R' P' a'.
Proof.
  intros [H1 H2] E1 E2 E3. split; [intros H; rewrite <- E3 by auto; auto|].
  intros x. now rewrite H2.
Qed.
Lemma denotes_computes_bind {A B} (c : circ A) (f : A -> circ B) a R P b :
  computes c a -> denotes (f a) R P b -> denotes (bind c f) R P b.
Proof.
  intros [H1 H2] [F1 F2]. split.
  - intros HP. eapply run_bind_done; [now apply H1|auto].
  - intros y. rewrite reach_bind. split.
    + intros (x & R1 & R2). apply H2 in R1. destruct R1 as [_ ->]. now apply F2.
    + intros Ry. exists a. split; [now apply run_reach, H1|now apply F2].
Qed.
Lemma denotes_reach {A} (c : circ A) R P a x : denotes c R P a -> (reach c x <-> R x).
Proof. intros [_ H]. apply H. Qed.
Lemma denotes_run {A} (c : circ A) R P a : denotes c R P a -> P -> run c = Done a.
Proof. intros [H _]. exact H. Qed.

(** The same for results that represent specification values through [f]. *)
Definition denR {A B} (f : B -> A) (c : circ A) (R : B -> Prop) (P : Prop) (b : B) : Prop :=
  (P -> run c = Done (f b) /\ R b) /\ (forall z, reach c z <-> exists x, z = f x /\ R x).

Lemma denR_bind {A B C D} (f : B -> A) (g : D -> C) (c : circ A) (k : A -> circ C) R P b S Q d :
  denR f c R P b -> (forall x, R x -> denR g (k (f x)) (S x) (Q x) (d x)) ->
  denR g (bind c k) (fun y => exists x, R x /\ S x y) (P /\ Q b) (d b).
Proof.
  intros [H1 H2] Hf. split.
  - intros [HP HQ]. destruct (H1 HP) as [Hr Rb]. destruct (Hf b Rb) as [F _].
    destruct (F HQ) as [F1 F2]. split; [eapply run_bind_done; eauto|eauto].
  - intros z. rewrite reach_bind. split.
    + intros (a & R1 & R2). apply H2 in R1. destruct R1 as (x & -> & Rx).
      apply (Hf x Rx) in R2. destruct R2 as (y & -> & Sy). eauto.
    + intros (y & -> & x & Rx & Sy). exists (f x). split; [apply H2; eauto|].
      apply (Hf x Rx). eauto.
Qed.
Lemma denR_iff {A B} (f : B -> A) (c : circ A) R R' (P P' : Prop) b b' :
  denR f c R P b -> (forall x, R x <-> R' x) -> (P' -> P) -> (P' -> b = b') -> denR f c R' P' b'.
Proof.
  intros [H1 H2] E1 E2 E3. split.
  - intros H. rewrite <- (E3 H). destruct (H1 (E2 H)) as [Hr Rb]. split; auto. now apply E1.
  - intros z. rewrite H2. split; intros (x & -> & Rx); exists x; split; auto; now apply E1.
Qed.
Lemma denR_computes {A B} (f : B -> A) (c : circ A) b :
  computes c (f b) -> denR f c (fun x => x = b) True b.
Proof.
  intros H. split; [intros _; split; [apply (computes_run _ _ H)|reflexivity]|].
  intros z. rewrite (computes_reach_iff _ _ z H). split; [intros ->; eauto|now intros (x & -> & ->)].
Qed.
Lemma denR_enforces {A B} (f : B -> A) (c : circ A) P b :
  enforces c P (f b) -> denR f c (fun x => P /\ x = b) P b.
Proof.
  intros H. split; [intros HP; split; [now apply (enforces_run _ _ _ H)|auto]|].
  intros z. rewrite (enforces_reach _ _ _ z H). split; [intros [HP ->]; eauto|now intros (x & -> & HP & ->)].
Qed.
Lemma denR_ret {A B} (f : B -> A) b : denR f (Ret (f b)) (fun x => x = b) True b.
Proof. apply denR_computes, computes_ret. Qed.
Lemma denR_computes_bind {A B C} (g : B -> C) (c : circ A) (k : A -> circ C) a R P b :
  computes c a -> denR g (k a) R P b -> denR g (bind c k) R P b.
Proof.
  intros H [F1 F2]. split.
  - intros HP. destruct (F1 HP). split; auto. eapply run_bind_done; [apply computes_run, H|auto].
  - intros y. rewrite reach_bind, <- F2. split.
    + intros (x & R1 & R2). apply (computes_reach _ _ _ H) in R1. now subst.
    + intros Ry. exists a. split; [now apply run_reach, computes_run|auto].
Qed.
Lemma denR_enforces_bind {A B C} (g : B -> C) (c : circ A) (k : A -> circ C) Q a R P b :
  enforces c Q a -> (Q -> denR g (k a) R P b) ->
  denR g (bind c k) (fun x => Q /\ R x) (Q /\ P) b.
Proof.
  intros H F. split.
  - intros [HQ HP]. destruct (F HQ) as [F1 _]. destruct (F1 HP). split; auto.
    eapply run_bind_done; [now apply (enforces_run _ _ _ H)|auto].
  - intros y. rewrite reach_bind. split.
    + intros (x & R1 & R2). apply (enforces_sound _ _ _ _ H) in R1. destruct R1 as [HQ ->].
      apply (F HQ) in R2. destruct R2 as (z & -> & Rz). eauto.
    + intros (z & -> & HQ & Rz). exists a. split; [now apply run_reach, (enforces_run _ _ _ H)|].
      apply (F HQ). eauto.
Qed.
Lemma denR_reach {A B} (f : B -> A) (c : circ A) R P b z :
  denR f c R P b -> (reach c z <-> exists x, z = f x /\ R x).
Proof. intros [_ H]. apply H. Qed.
Lemma denR_run {A B} (f : B -> A) (c : circ A) R P b : denR f c R P b -> P -> run c = Done (f b).
Proof. intros [H _] HP. now apply H. Qed.
Lemma denR_sat {A B} (f : B -> A) (c : circ A) R P b : denR f c R P b -> (sat c <-> exists x, R x).
Proof.
  intros [_ H]. split; [intros [z Hz]; apply H in Hz; destruct Hz as (x & _ & Rx); eauto|].
  intros [x Rx]. exists (f x). apply H. eauto.
Qed.
Lemma denR_computes_of {A B} (f : B -> A) (c : circ A) (P : Prop) b :
  P -> denR f c (fun x => x = b) P b -> computes c (f b).
Proof.
  intros HP [H1 H2]. apply computes_intro; [now apply H1|].
  intros z Hz. apply H2 in Hz. now destruct Hz as (x & -> & ->).
Qed.

(** Relational chains *)
Fixpoint chainR {A B} (Q : A -> B -> B -> Prop) (l : list A) (s t : B) : Prop :=
  match l with [] => t = s | a :: l' => exists u, Q a s u /\ chainR Q l' u t end.

Lemma denR_foldM {A B X Y} (f : B -> A) (h : Y -> X) (k : A -> X -> circ A) (Q : Y -> B -> B -> Prop)
    (g : B -> Y -> B) (P : Prop) (Inv : B -> Prop) l :
  (forall y s, In y l -> Inv s -> denR f (k (f s) (h y)) (Q y s) P (g s y)) ->
  (forall y s t, In y l -> Inv s -> Q y s t -> Inv t) ->
  forall s, Inv s -> denR f (foldM k (f s) (map h l)) (chainR Q l s) P (fold_left g l s).
Proof.
  intros H HI. induction l as [|y l IH]; intros s Hs; cbn [foldM map chainR fold_left].
  - eapply denR_iff; [apply denR_ret|reflexivity|tauto|reflexivity].
  - eapply denR_iff.
    + eapply (denR_bind f f _ _ (Q y s) P (g s y) (fun u => chainR Q l u) (fun _ => P) (fun u => fold_left g l u)).
      * apply H; [apply in_eq|exact Hs].
      * intros u Hu. apply IH; [intros; apply H; auto using in_cons|intros; eapply HI; eauto using in_cons|].
        eapply HI; eauto using in_eq.
    + reflexivity.
    + tauto.
    + reflexivity.
Qed.

Lemma denR_mapM {A B X Y} (f : B -> A) (h : Y -> X) (k : X -> circ A) (Q : Y -> B -> Prop)
    (g : Y -> B) (P : Prop) l :
  (forall y, In y l -> denR f (k (h y)) (Q y) P (g y)) ->
  denR (map f) (mapM k (map h l)) (Forall2 Q l) P (map g l).
Proof.
  intros H. induction l as [|y l IH]; cbn [mapM map].
  - eapply denR_iff; [apply (denR_ret (map f) [])| |tauto|reflexivity].
    intros x. split; [intros ->; constructor|now inversion 1].
  - eapply denR_iff.
    + eapply (denR_bind f (map f) _ _ (Q y) P (g y) (fun b t => exists t', t = b :: t' /\ Forall2 Q l t') (fun _ => P)
               (fun b => b :: map g l)); [apply H, in_eq|].
      intros b _. eapply denR_iff.
      * eapply (denR_bind (map f) (map f) _ _ (Forall2 Q l) P (map g l) (fun t' t => t = b :: t') (fun _ => True)
               (fun t' => b :: t')); [apply IH; intros; apply H; now apply in_cons|].
        intros t' _. apply (denR_ret (map f) (b :: t')).
      * intros t. split; [intros (t' & Ht & ->); eauto|intros (t' & -> & Ht); eauto].
      * tauto.
      * reflexivity.
    + intros t. split.
      * intros (b & Hb & t' & -> & Ht). now constructor.
      * inversion 1 as [|? b ? t' Hb Ht]; subst. eauto.
    + tauto.
    + reflexivity.
Qed.

(** ** gnark API operations (trusted contract, over the BN254 scalar field). *)
Definition api_add (a b : Z) : Z := (a + b) mod r.
Definition api_sub (a b : Z) : Z := (a - b) mod r.
Definition api_mul (a b : Z) : Z := (a * b) mod r.
Definition api_neg (a : Z) : Z := (- a) mod r.
(** [MulAcc(a, b, c)] = a + b*c. *)
Definition api_mulacc (a b c : Z) : Z := (a + b * c) mod r.
Definition api_is_zero (a : Z) : Z := if a =? 0 then 1 else 0.
Definition api_assert_eq (a b : Z) : circ unit := assert_ (a =? b).
Definition is_bool (b : Z) : bool := (b =? 0) || (b =? 1).
Definition api_assert_bool (b : Z) : circ unit := assert_ (is_bool b).
(** [Select(b, i1, i2)]: asserts that [b] is boolean. *)
Definition api_select (b i1 i2 : Z) : circ Z :=
  Assert (is_bool b) (Ret (if b =? 1 then i1 else i2)).
(** [Lookup2(b0, b1, i0, i1, i2, i3)]: index is b0 + 2*b1; asserts booleans. *)
Definition api_lookup2 (b0 b1 i0 i1 i2 i3 : Z) : circ Z :=
  Assert (is_bool b0) (Assert (is_bool b1)
    (Ret (if b1 =? 1 then (if b0 =? 1 then i3 else i2) else (if b0 =? 1 then i1 else i0)))).
Fixpoint bits_of (n : nat) (x : Z) : list Z :=
  match n with O => [] | S n' => (x mod 2) :: bits_of n' (x / 2) end.
Fixpoint of_bits (l : list Z) : Z :=
  match l with [] => 0 | b :: l' => b + 2 * of_bits l' end.
(** [ToBinary(x, n)]: the little-endian bits of [x]; unsatisfiable if [x >= 2^n]. *)
Definition api_to_binary (x : Z) (n : nat) : circ (list Z) :=
  Assert ((0 <=? x) && (x <? 2 ^ Z.of_nat n)) (Ret (bits_of n x)).
(** [FromBinary(bits...)]: asserts that each is boolean (gnark bits.FromBinary). *)
Definition api_from_binary (l : list Z) : circ Z :=
  Assert (forallb is_bool l) (Ret (of_bits l mod r)).

Lemma is_bool_iff b : is_bool b = true <-> b = 0 \/ b = 1.
Proof. unfold is_bool. rewrite orb_true_iff, !Z.eqb_eq. reflexivity. Qed.

Lemma enforces_assert_eq a b : enforces (api_assert_eq a b) (a = b) tt.
Proof. eapply enforces_iff; [apply enforces_assert_|]. apply Z.eqb_eq. Qed.

Lemma computes_select (b : bool) i1 i2 :
  computes (api_select (Z.b2z b) i1 i2) (if b then i1 else i2).
Proof.
  destruct b; (apply computes_intro; [reflexivity|cbn; now intros a' [_ <-]]).
Qed.

Lemma computes_lookup2 (b0 b1 : bool) i0 i1 i2 i3 :
  computes (api_lookup2 (Z.b2z b0) (Z.b2z b1) i0 i1 i2 i3)
           (if b1 then (if b0 then i3 else i2) else (if b0 then i1 else i0)).
Proof.
  destruct b0, b1; (apply computes_intro; [reflexivity|cbn; now intros a' (_ & _ & <-)]).
Qed.

Lemma length_bits_of n x : length (bits_of n x) = n.
Proof. revert x; induction n; intros; cbn; auto. Qed.

Lemma of_bits_of n : forall x, 0 <= x < 2 ^ Z.of_nat n -> of_bits (bits_of n x) = x.
Proof.
  induction n as [|n IH]; intros x Hx; cbn [bits_of of_bits].
  - change (2 ^ Z.of_nat 0) with 1 in Hx. lia.
  - rewrite Nat2Z.inj_succ, Z.pow_succ_r in Hx by lia.
    rewrite IH; [pose proof (Z.div_mod x 2 ltac:(lia)); lia|].
    split; [apply Z.div_pos; lia|apply Z.div_lt_upper_bound; lia].
Qed.

Lemma bits_of_bool n : forall x b, In b (bits_of n x) -> b = 0 \/ b = 1.
Proof.
  induction n as [|n IH]; intros x b; cbn [bits_of In]; [tauto|].
  intros [<-|H]; [|eauto]. pose proof (Z.mod_pos_bound x 2 ltac:(lia)). lia.
Qed.

Lemma bits_of_of_bits l : Forall (fun b => b = 0 \/ b = 1) l ->
  bits_of (length l) (of_bits l) = l.
Proof.
  induction 1 as [|b l Hb Hl IH]; cbn [length bits_of of_bits]; [reflexivity|].
  replace (b + 2 * of_bits l) with (b + of_bits l * 2) by ring.
  rewrite Z.mod_add, Z.div_add by lia.
  replace (b mod 2) with b by (symmetry; apply Z.mod_small; lia).
  replace (b / 2) with 0 by (symmetry; apply Z.div_small; lia).
  now rewrite Z.add_0_l, IH.
Qed.

Lemma of_bits_range l : Forall (fun b => b = 0 \/ b = 1) l ->
  0 <= of_bits l < 2 ^ Z.of_nat (length l).
Proof.
  induction 1 as [|b l Hb Hl IH]; cbn [of_bits length]; [lia|].
  rewrite Nat2Z.inj_succ, Z.pow_succ_r by lia. lia.
Qed.

Lemma enforces_to_binary x n :
  enforces (api_to_binary x n) (0 <= x < 2 ^ Z.of_nat n) (bits_of n x).
Proof.
  split; unfold api_to_binary; cbn [run reach].
  - intros H. apply range_b in H. now rewrite H.
  - intros a' [H <-]. apply range_b in H. auto.
Qed.

Arguments Z.pow : simpl never.
Arguments api_add : simpl never.
Arguments api_sub : simpl never.
Arguments api_mul : simpl never.
Arguments api_mulacc : simpl never.
