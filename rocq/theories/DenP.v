(** * Circuits whose only non-determinism is the Goldilocks Poseidon permutation.

    [denP w f c R]: [R P] is a specification relation that is parametric in the
    permutation relation [P].  Instantiated with the graph of the textbook
    permutation it describes the honest run; instantiated with [perm w], the
    relation enforced by the permutation circuit with S-box width [w], it describes
    exactly the results that a malicious prover can reach. *)
From Coq Require Import ZArith Lia List Bool.
From Verif Require Import Zp GF Circuit PoseidonSpec PoseidonGL PoseidonGLProofs Sponge.
Import ListNotations.
Open Scope Z_scope.

Definition permr := list GF -> list GF -> Prop.
Definition pgraph : permr := fun s t => t = poseidon s.
Definition permw (w : Z) : permr := perm w.

Definition denP {A B} (w : Z) (f : B -> A) (c : circ A) (R : permr -> B -> Prop) : Prop :=
  (forall y, R pgraph y -> run c = Done (f y)) /\
  (forall z, reach c z <-> exists y, z = f y /\ R (permw w) y).

Lemma denP_bind {A B C D} w (f : B -> A) (g : D -> C) (c : circ A) (k : A -> circ C) R S :
  denP w f c R -> (forall x, R pgraph x \/ R (permw w) x -> denP w g (k (f x)) (fun P => S P x)) ->
  denP w g (bind c k) (fun P y => exists x, R P x /\ S P x y).
Proof.
  intros [H1 H2] Hf. split.
  - intros y (x & Rx & Sy). eapply run_bind_done; [apply H1, Rx|].
    apply (proj1 (Hf x (or_introl Rx))), Sy.
  - intros z. rewrite reach_bind. split.
    + intros (a & R1 & R2). apply H2 in R1. destruct R1 as (x & -> & Rx).
      apply (proj2 (Hf x (or_intror Rx))) in R2. destruct R2 as (y & -> & Sy). eauto.
    + intros (y & -> & x & Rx & Sy). exists (f x). split; [apply H2; eauto|].
      apply (proj2 (Hf x (or_intror Rx))). eauto.
Qed.
Lemma denP_iff {A B} w (f : B -> A) (c : circ A) (R R' : permr -> B -> Prop) :
  denP w f c R -> (forall P x, R P x <-> R' P x) -> denP w f c R'.
Proof.
  intros [H1 H2] E. split.
  - intros y Hy. apply H1, E, Hy.
  - intros z. rewrite H2. split; intros (y & -> & Hy); exists y; split; auto; now apply E.
Qed.
(** the two instances only *)
Lemma denP_iff2 {A B} w (f : B -> A) (c : circ A) (R R' : permr -> B -> Prop) :
  denP w f c R -> (forall P x, P = pgraph \/ P = permw w -> (R P x <-> R' P x)) -> denP w f c R'.
Proof.
  intros [H1 H2] E. split.
  - intros y Hy. apply H1, E; auto.
  - intros z. rewrite H2. split; intros (y & -> & Hy); exists y; split; auto; apply E; auto.
Qed.
Lemma denP_enforces {A B} w (f : B -> A) (c : circ A) (P : Prop) b :
  enforces c P (f b) -> denP w f c (fun _ y => P /\ y = b).
Proof.
  intros H. split.
  - intros y [HP ->]. now apply (enforces_run _ _ _ H).
  - intros z. rewrite (enforces_reach _ _ _ z H). split; [intros [HP ->]; eauto|now intros (x & -> & HP & ->)].
Qed.
Lemma denP_computes {A B} w (f : B -> A) (c : circ A) b :
  computes c (f b) -> denP w f c (fun _ y => y = b).
Proof.
  intros H. eapply denP_iff; [apply denP_enforces, H|]. intros; tauto.
Qed.
Lemma denP_ret {A B} w (f : B -> A) b : denP w f (Ret (f b)) (fun _ y => y = b).
Proof. apply denP_computes, computes_ret. Qed.
Lemma denP_computes_bind {A B C} w (g : B -> C) (c : circ A) (k : A -> circ C) a R :
  computes c a -> denP w g (k a) R -> denP w g (bind c k) R.
Proof.
  intros H [F1 F2]. split.
  - intros y Ry. eapply run_bind_done; [apply computes_run, H|auto].
  - intros z. rewrite reach_bind, <- F2. split.
    + intros (x & R1 & R2). apply (computes_reach _ _ _ H) in R1. now subst.
    + intros Ry. exists a. split; [now apply run_reach, computes_run|auto].
Qed.
Lemma denP_enforces_bind {A B C} w (g : B -> C) (c : circ A) (k : A -> circ C) (Q : Prop) a R :
  enforces c Q a -> (Q -> denP w g (k a) R) -> denP w g (bind c k) (fun P x => Q /\ R P x).
Proof.
  intros H F. split.
  - intros y [HQ Ry]. eapply run_bind_done; [now apply (enforces_run _ _ _ H)|]. now apply (F HQ).
  - intros z. rewrite reach_bind. split.
    + intros (x & R1 & R2). apply (enforces_sound _ _ _ _ H) in R1. destruct R1 as [HQ ->].
      apply (F HQ) in R2. destruct R2 as (y & -> & Ry). eauto.
    + intros (y & -> & HQ & Ry). exists a. split; [now apply run_reach, (enforces_run _ _ _ H)|].
      apply (F HQ). eauto.
Qed.
Lemma denP_of_denR {A B} w (f : B -> A) (c : circ A) (R : permr -> B -> Prop) (Q : Prop) b :
  denR f c (R (permw w)) Q b -> Q -> (forall y, R pgraph y -> y = b) -> denP w f c R.
Proof.
  intros [H1 H2] HQ E. split; [|exact H2]. intros y Hy. rewrite (E y Hy). now apply H1.
Qed.
Lemma denP_run {A B} w (f : B -> A) (c : circ A) R y : denP w f c R -> R pgraph y -> run c = Done (f y).
Proof. intros [H _]. apply H. Qed.
Lemma denP_reach {A B} w (f : B -> A) (c : circ A) R z :
  denP w f c R -> (reach c z <-> exists y, z = f y /\ R (permw w) y).
Proof. intros [_ H]. apply H. Qed.

(** the permutation circuit itself *)
Lemma poseidon_denP w s : 128 <= w -> length s = 12%nat ->
  denP w (map rep) (Poseidon_w w (map rep s)) (fun P => P s).
Proof.
  intros Hw Hs. eapply denP_of_denR; [now apply poseidon_denR|exact Hw|]. now intros y ->.
Qed.
Lemma perm_len w P s t : P = pgraph \/ P = permw w -> P s t -> length t = 12%nat.
Proof. intros [->| ->]; [intros ->; apply poseidon_len|apply perm_length]. Qed.
