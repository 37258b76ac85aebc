(** * Property C68: the two Poseidon permutations of the code are bijections. *)
From Coq Require Import ZArith Lia List Bool.
From Verif Require Import Zp GF Circuit Fr PoseidonGLConst PoseidonSpec PoseidonGL PoseidonGLProofs BN254Spec BN254 BN254Proofs PoseidonPerm Prop_Poseidon Prop_BN254.
Import ListNotations.
Open Scope Z_scope.

Lemma fr_list s : Forall (fun x => 0 <= x < r) s -> exists g, s = map frep g.
Proof.
  induction 1 as [|x s Hx _ [g ->]]; [now exists []|].
  destruct (frep_exists x Hx) as [a <-]. now exists (a :: g).
Qed.
Lemma rep_list_canon g : Forall (fun x => 0 <= x < p) (map rep g).
Proof. induction g as [|a g IH]; constructor; [apply rep_range|exact IH]. Qed.
Lemma frep_list_canon g : Forall (fun x => 0 <= x < r) (map frep g).
Proof. induction g as [|a g IH]; constructor; [apply frep_range|exact IH]. Qed.

(** ** C68: poseidon/goldilocks.go:30-37 (Poseidon), run by an honest prover: no two states have
       the same image, and every state is an image *)
Theorem C68_goldilocks :
  (forall s t, length s = 12%nat -> length t = 12%nat ->
     Forall (fun x => 0 <= x < p) s -> Forall (fun x => 0 <= x < p) t ->
     run (Poseidon s) = run (Poseidon t) -> s = t) /\
  (forall t, length t = 12%nat -> Forall (fun x => 0 <= x < p) t ->
     exists s, length s = 12%nat /\ Forall (fun x => 0 <= x < p) s /\ run (Poseidon s) = Done t).
Proof.
  split.
  - intros s t Ls Lt Cs Ct E. rewrite !C18_poseidon_textbook in E by assumption.
    apply Done_inj in E. apply map_rep_inj in E.
    destruct (canon_list s Cs) as [gs ->]. destruct (canon_list t Ct) as [gt ->].
    rewrite !unrep in E. rewrite map_length in Ls, Lt.
    apply f_equal. exact (perm_inj 12 poseidon poseidon_perm gs gt Ls Lt E).
  - intros t L C. destruct (canon_list t C) as [g ->]. rewrite map_length in L.
    destruct (perm_onto 12 poseidon poseidon_perm g L) as (s & Ls & <-).
    exists (map rep s). rewrite map_length. split; [exact Ls|]. split; [apply rep_list_canon|].
    rewrite C18_poseidon_textbook by (rewrite ?map_length; auto using rep_list_canon).
    now rewrite unrep.
Qed.

(** poseidon/bn254.go:39-45 (Poseidon) *)
Theorem C68_bn254 :
  (forall s t, length s = 4%nat -> length t = 4%nat ->
     Forall (fun x => 0 <= x < r) s -> Forall (fun x => 0 <= x < r) t ->
     PoseidonBN s = PoseidonBN t -> s = t) /\
  (forall t, length t = 4%nat -> Forall (fun x => 0 <= x < r) t ->
     exists s, length s = 4%nat /\ Forall (fun x => 0 <= x < r) s /\ PoseidonBN s = t).
Proof.
  assert (I : forall u v : list Fr, map frep u = map frep v -> u = v).
  { induction u as [|x u IH]; intros [|y v] H; try discriminate; [reflexivity|].
    cbn [map] in H. injection H as H1 H2. f_equal; [now apply Fr_eq|now apply IH]. }
  split.
  - intros s t Ls Lt Cs Ct E.
    destruct (fr_list s Cs) as [gs ->]. destruct (fr_list t Ct) as [gt ->].
    rewrite map_length in Ls, Lt. rewrite !C22_poseidon_textbook in E by assumption.
    apply I in E. apply f_equal. exact (perm_inj 4 hades hades_perm gs gt Ls Lt E).
  - intros t L C. destruct (fr_list t C) as [g ->]. rewrite map_length in L.
    destruct (perm_onto 4 hades hades_perm g L) as (s & Ls & <-).
    exists (map frep s). rewrite map_length. split; [exact Ls|]. split; [apply frep_list_canon|].
    now apply C22_poseidon_textbook.
Qed.

(** The two outputs of C19 for the zero state *)
Definition zero_out : list Z :=
  [4330397376401421145; 14124799381142128323; 8742572140681234676; 14345658006221440202;
   15524073338516903644; 5091405722150716653; 15002163819607624508; 2047012902665707362;
   16106391063450633726; 4680844749859802542; 15019775476387350140; 1698615465718385111].

(** With the S-box width of the code the constraints do not describe a permutation: a cheating prover
    can take two different states to the same image. *)
Theorem C68_constraints_refuted : exists s s' t, s <> s' /\
  length s = 12%nat /\ length s' = 12%nat /\
  Forall (fun x => 0 <= x < p) s /\ Forall (fun x => 0 <= x < p) s' /\ 
  length t = 12%nat /\ reach (Poseidon s) t /\ reach (Poseidon s') t.
Proof.
  destruct C19_single_output_refuted as (s & t & t' & L & C & R & R' & N).
  assert (K : forall v, reach (Poseidon s) v -> length v = 12%nat /\ Forall (fun x => 0 <= x < p) v).
  { intros v Hv. apply (C19_exact_outputs s v L C) in Hv. destruct Hv as (g & -> & u & w & _ & _ & H).
    split; [|apply rep_list_canon]. rewrite map_length.
    destruct H as (a1 & _ & a2 & _ & a3 & _ & a4 & F & ->). exact (full_round_length _ _ _ _ _ _ _ _ F). }
  assert (J : forall v u, reach (Poseidon s) v -> run (Poseidon s) = Done u -> v <> u ->
     exists s', s <> s' /\ length s' = 12%nat /\ Forall (fun x => 0 <= x < p) s' /\ length v = 12%nat /\ reach (Poseidon s') v).
  { intros v u Hv Hu Nv. destruct (K v Hv) as [Lv Cv].
    destruct (proj2 C68_goldilocks v Lv Cv) as (s' & L' & C' & Hs').
    exists s'. apply run_reach in Hs' as Rs.
    split; [|exact (conj L' (conj C' (conj Lv Rs)))]. intros E'. apply Nv. apply Done_inj.
    rewrite <- Hs', <- Hu. now rewrite E'. }
  pose proof (C18_poseidon_textbook s L C) as Hu.
  remember (map rep (poseidon (map inj s))) as u eqn:Eu. clear Eu.
  destruct (list_eq_dec Z.eq_dec t u) as [->|Nt].
  - destruct (J t' u R' Hu (fun e => N (eq_sym e))) as (s' & H). exists s, s', t'. destruct H as (H1 & H2 & H3 & H4 & H5). repeat (split; [assumption|]). exact H5.
  - destruct (J t u R Hu Nt) as (s' & H). exists s, s', t. destruct H as (H1 & H2 & H3 & H4 & H5). repeat (split; [assumption|]). exact H5.
Qed.

Example C68_ex :
  (forall s, length s = 12%nat -> Forall (fun x => 0 <= x < p) s ->
     run (Poseidon s) = Done zero_out -> s = repeat 0 12) /\
  (forall s, length s = 4%nat -> Forall (fun x => 0 <= x < r) s ->
     PoseidonBN s = bn_zero_out -> s = repeat 0 4).
Proof.
  split; intros s L C E.
  - apply (proj1 C68_goldilocks s (repeat 0 12) L eq_refl C); [repeat (constructor; [split; reflexivity || discriminate|]); constructor|].
    exact (eq_trans E (eq_sym poseidon_zero)).
  - apply (proj1 C68_bn254 s (repeat 0 4) L eq_refl C); [repeat (constructor; [split; reflexivity || discriminate|]); constructor|].
    exact (eq_trans E (eq_sym C22_vector)).
Qed.

Print Assumptions C68_goldilocks.
Print Assumptions C68_bn254.
Print Assumptions C68_constraints_refuted.
Print Assumptions C68_ex.
