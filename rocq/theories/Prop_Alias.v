(** * Property C70: MulAcc never changes an expression that is still needed. *)
From Coq Require Import String.
From Coq Require Import ZArith Lia List Bool.
From Verif Require Import Zp Circuit Goldilocks BN254Const Sponge BN254 Alias.
Import ListNotations.
Open Scope Z_scope.

(** Some expressions with given values, each in an array of its own: what a caller of the functions below holds *)
Definition init (vs : list Z) : smem := SMem (map (fun i => (i, 1%nat)) (seq 0 (length vs))) (map (fun v _ => v) vs).
Lemma init_sim vs : sim (map Some vs) (init vs).
Proof.
  assert (E : forall n, (n < length vs)%nat -> nth n (env (init vs)) (O, O) = (n, 1%nat)).
  { intros n L. unfold init. cbn [env]. rewrite nth_indep with (d' := (fun i => (i, 1%nat)) O) by (rewrite map_length, seq_length; exact L).
    rewrite (map_nth (fun i => (i, 1%nat))), seq_nth by exact L. reflexivity. }
  assert (LV : forall n v, nth n (map Some vs) None = Some v -> (n < length vs)%nat) by (intros n v H; apply nth_live in H; now rewrite map_length in H).
  constructor.
  - unfold init. cbn [env]. now rewrite !map_length, seq_length.
  - intros n. rewrite map_length. intros L. rewrite E by exact L. unfold init. cbn [fst arrays]. now rewrite map_length.
  - intros n v H. pose proof (LV n v H) as L. unfold sget. rewrite E by exact L. unfold init. cbn [arrays].
    assert (G : forall l, nth n (map (fun v (_ : nat) => v) vs) (fun _ => 0) l = nth n vs 0) by (clear; revert n; induction vs; intros [|n] l; cbn; auto).
    rewrite G.
    rewrite nth_indep with (d' := Some 0) in H by (now rewrite map_length). rewrite (map_nth Some) in H. congruence.
  - intros n m v w Hn Hm N. rewrite !E; eauto.
Qed.

(** ** A program that never looks at an expression it has given to MulAcc as first argument computes the same in every implementation *)
Theorem C70_any_implementation {A} (m : prog A) o h s a h' : sim h s -> prun m h = Some (a, h') ->
  exists s', srun o m s = (a, s') /\ forall x v, look h' x = Some v -> slook s' x = v.
Proof.
  intros S H. destruct (prun_srun o m h s a h' S H) as (s' & R & S'). exists s'. split; [exact R|]. intros x v. now apply sim_look.
Qed.

(** the result has the value v and no expression of the caller has changed *)
Definition clean (vs : list Z) (s' : smem) (x : ref) (v : Z) : Prop :=
  slook s' x = v /\ forall n, (n < length vs)%nat -> slook s' (RLoc n) = nth n vs 0.
(** arguments: constants or expressions of the caller *)
Definition arg (vs : list Z) (x : ref) : Prop := match x with RConst _ => True | RLoc n => (n < length vs)%nat end.
Definition argv (vs : list Z) (x : ref) : Z := match x with RConst z => z | RLoc n => nth n vs 0 end.
Lemma arg_look vs x : arg vs x -> look (map Some vs) x = Some (argv vs x).
Proof.
  destruct x as [z|n]; cbn; [reflexivity|]. intros L. rewrite nth_indep with (d' := Some 0) by (now rewrite map_length). now rewrite (map_nth Some).
Qed.
Lemma args_looks vs xs : Forall (arg vs) xs -> looks (map Some vs) xs (map (argv vs) xs).
Proof. induction 1; constructor; [now apply arg_look|assumption]. Qed.
Lemma clean_run vs o (m : prog ref) v : wp m (map Some vs) (fun x h' => result (map Some vs) h' x v) ->
  exists x s', srun o m (init vs) = (x, s') /\ clean vs s' x v.
Proof.
  intros (x & h' & R & K & O). destruct (C70_any_implementation m o _ _ _ _ (init_sim vs) R) as (s' & R' & L).
  exists x, s'. split; [exact R'|]. split; [apply L; exact (owned_look _ _ _ _ O)|].
  intros n Hn. apply L. apply (keeps_look _ _ (RLoc n) (nth n vs 0) K). exact (arg_look vs (RLoc n) Hn).
Qed.

(** ** poseidon/bn254.go: whatever MulAcc does within its contract *)
Theorem C70_HashNoPad vs o input : Forall (arg vs) input ->
  exists x s', srun o (pHashNoPad input) (init vs) = (x, s') /\ clean vs s' x (HashNoPadBN (map (argv vs) input)).
Proof. intros H. apply clean_run, wp_HashNoPad, args_looks, H. Qed.
Theorem C70_HashOrNoop vs o input : Forall (arg vs) input ->
  exists x s', srun o (pHashOrNoop input) (init vs) = (x, s') /\ clean vs s' x (HashOrNoop (map (argv vs) input)).
Proof. intros H. apply clean_run, wp_HashOrNoop, args_looks, H. Qed.
Theorem C70_TwoToOne vs o left right : arg vs left -> arg vs right ->
  exists x s', srun o (pTwoToOne left right) (init vs) = (x, s') /\ clean vs s' x (TwoToOne (argv vs left) (argv vs right)).
Proof. intros L R. apply clean_run, wp_TwoToOne; now apply arg_look. Qed.
Theorem C70_Poseidon vs o state : Forall (arg vs) state ->
  exists xs s', srun o (pPoseidon state) (init vs) = (xs, s') /\ map (slook s') xs = PoseidonBN (map (argv vs) state) /\
    forall n, (n < length vs)%nat -> slook s' (RLoc n) = nth n vs 0.
Proof.
  intros H. destruct (wp_Poseidon _ _ _ (args_looks vs state H)) as (xs & h' & R & K & F).
  destruct (C70_any_implementation _ o _ _ _ _ (init_sim vs) R) as (s' & R' & L). exists xs, s'. split; [exact R'|]. split.
  - apply freshes_looks in F. set (w := PoseidonBN (map (argv vs) state)) in *. clearbody w. clear - F L. induction F; cbn [map]; [reflexivity|]. f_equal; auto.
  - intros n Hn. apply L. apply (keeps_look _ _ (RLoc n) (nth n vs 0) K). exact (arg_look vs (RLoc n) Hn).
Qed.

(** ** goldilocks/base.go *)
Theorem C70_MulAddNoReduce vs o a b c : arg vs a -> arg vs b -> arg vs c ->
  exists x s', srun o (pMulAddNoReduce a b c) (init vs) = (x, s') /\ clean vs s' x (MulAddNoReduce (argv vs a) (argv vs b) (argv vs c)).
Proof. intros A B C. apply clean_run, wp_MulAddNoReduce; now apply arg_look. Qed.

(** The remainder goes into MulAcc and is range checked and returned afterwards.  With the rule of gnark v0.9.1 (write in place only if
    the result fits) the expressions that NewHint returns, single variables in arrays of one term, are never overwritten. *)
Theorem C70_fits i j : i <> j -> fits 1 [(j, 1)] MODULUS [(i, 1)] = false.
Proof.
  intros N. unfold fits, ladd, lscale. cbn [map fst snd fold_right lins].
  destruct (Nat.ltb_spec i j); [reflexivity|]. destruct (Nat.eqb_spec i j); [congruence|]. reflexivity.
Qed.
Lemma lins_eval rho t l : leval rho (lins t l) = (snd t * rho (fst t) + leval rho l) mod r.
Proof.
  induction l as [|u l IH]; [reflexivity|]. cbn [lins]. destruct (Nat.ltb_spec (fst t) (fst u)); [reflexivity|].
  destruct (Nat.eqb_spec (fst t) (fst u)) as [E|].
  - destruct (Z.eqb_spec ((snd t + snd u) mod r) 0) as [Z0|]; cbn [leval fst snd]; rewrite E.
    + rewrite Zplus_mod_idemp_r, Z.add_assoc, <- Z.mul_add_distr_r, <- Zplus_mod_idemp_l, <- Zmult_mod_idemp_l, Z0.
      change (0 * rho (fst u)) with 0. rewrite Zmod_0_l, Z.add_0_l. symmetry. destruct l; [reflexivity|]. cbn [leval]. now rewrite Zmod_mod.
    + rewrite Zplus_mod_idemp_r, Z.add_assoc, <- Z.mul_add_distr_r. rewrite <- Zplus_mod_idemp_l, Zmult_mod_idemp_l, Zplus_mod_idemp_l. reflexivity.
  - cbn [leval]. rewrite IH, !Zplus_mod_idemp_r. f_equal. lia.
Qed.
(** the merged list stands for the sum, whether it is copied or not *)
Theorem C70_ladd rho a k c : (leval rho (ladd a (lscale k c))) mod r = (leval rho a + k * leval rho c) mod r.
Proof.
  unfold ladd. transitivity (leval rho (fold_right lins a (lscale k c)) mod r); [destruct (fold_right lins a (lscale k c)); reflexivity|].
  induction c as [|t c IH]; [cbn [lscale map fold_right leval]; now rewrite Z.mul_0_r, Z.add_0_r|].
  change (lscale k (t :: c)) with ((fst t, (k * snd t) mod r) :: lscale k c). cbn [fold_right leval].
  rewrite lins_eval, Zmod_mod. cbn [fst snd]. rewrite <- Zplus_mod_idemp_r, IH, Zplus_mod_idemp_r.
  rewrite <- (Zplus_mod_idemp_r (k * _)), Zmult_mod_idemp_r, Zplus_mod_idemp_r.
  rewrite <- Zplus_mod_idemp_l, Zmult_mod_idemp_l, Zplus_mod_idemp_l. f_equal. ring.
Qed.

(** With that rule MulAdd is the MulAdd of the rest of this model. *)
Theorem C70_MulAdd vs o a b c i j : arg vs a -> arg vs b -> arg vs c -> i <> j ->
  (o (4 + length vs)%nat <> None -> fits 1 [(j, 1)] MODULUS [(i, 1)] = true) ->
  (forall x s', reach (MulAddR o a b c (init vs)) (x, s') ->
     reach (MulAdd (argv vs a) (argv vs b) (argv vs c)) (slook s' x) /\ forall n, (n < length vs)%nat -> slook s' (RLoc n) = nth n vs 0) /\
  (forall v, reach (MulAdd (argv vs a) (argv vs b) (argv vs c)) v ->
     exists x s', reach (MulAddR o a b c (init vs)) (x, s') /\ slook s' x = v).
Proof.
  intros A B C N O.
  assert (E0 : o (4 + length (env (init vs)))%nat = None).
  { rewrite (sim_len _ _ (init_sim vs)), map_length. destruct (o (4 + length vs)%nat) as [q|]; [|reflexivity].
    rewrite C70_fits in O by exact N. discriminate O. discriminate. }
  assert (LK : forall x, arg vs x -> slook (init vs) x = argv vs x).
  { intros x Hx. apply (sim_look _ _ _ _ (init_sim vs)), arg_look, Hx. }
  assert (BODY : forall q m, exists l rr qr mr s', srun o (pMulAddBody a b c q m) (init vs) = ((l, rr, qr, mr), s') /\
    slook s' l = api_mulacc (api_mul (argv vs c) 1) (argv vs a) (argv vs b) /\ slook s' rr = api_mulacc m MODULUS q /\
    slook s' qr = q /\ slook s' mr = m /\ forall n, (n < length vs)%nat -> slook s' (RLoc n) = nth n vs 0).
  { intros q m. rewrite body_no_write by exact E0.
    destruct (wp_MulAddBody' _ _ _ _ _ _ _ q m (arg_look vs a A) (arg_look vs b B) (arg_look vs c C)) as ([[[l rr] qr] mr] & h' & R & K & H1 & H2 & H3 & H4).
    destruct (C70_any_implementation _ o _ _ _ _ (init_sim vs) R) as (s' & R' & L). exists l, rr, qr, mr, s'. split; [exact R'|].
    repeat split; auto. intros n Hn. apply L. apply (keeps_look _ _ (RLoc n) (nth n vs 0) K). exact (arg_look vs (RLoc n) Hn). }
  unfold MulAddR, MulAdd. rewrite !LK by assumption. unfold hint_. cbn [bind reach]. split.
  - intros x s' (l & L2 & F & R). destruct l as [|q [|m [|]]]; try discriminate L2. cbn [nth_ of_opt nth_error bind] in R.
    destruct (BODY q m) as (lr & rr & qr & mr & s1 & R1 & H1 & H2 & H3 & H4 & H5).
    unfold nth_ in R. cbn [of_opt nth_error bind] in R. rewrite R1, H1, H2, H3, H4 in R.
    apply reach_bind in R. destruct R as ([] & Ra & R). apply reach_bind in R. destruct R as ([] & Rq & R).
    apply reach_bind in R. destruct R as ([] & Rm & R). cbn [reach] in R. injection R as <- <-. split; [|exact H5].
    exists [q; m]. split; [reflexivity|]. split; [exact F|]. unfold nth_. cbn [of_opt nth_error bind]. rewrite H4.
    apply reach_bind. exists tt. split; [exact Ra|]. apply reach_bind. exists tt. split; [exact Rq|].
    apply reach_bind. exists tt. split; [exact Rm|]. reflexivity.
  - intros v (l & L2 & F & R). destruct l as [|q [|m [|]]]; try discriminate L2. unfold nth_ in R. cbn [of_opt nth_error bind] in R.
    destruct (BODY q m) as (lr & rr & qr & mr & s1 & R1 & H1 & H2 & H3 & H4 & H5).
    apply reach_bind in R. destruct R as ([] & Ra & R). apply reach_bind in R. destruct R as ([] & Rq & R).
    apply reach_bind in R. destruct R as ([] & Rm & R). cbn [reach] in R. subst v.
    exists mr, s1. split; [|exact H4]. exists [q; m]. split; [reflexivity|]. split; [exact F|]. unfold nth_. cbn [of_opt nth_error bind].
    rewrite R1, H1, H2, H3, H4.
    apply reach_bind. exists tt. split; [exact Ra|]. apply reach_bind. exists tt. split; [exact Rq|].
    apply reach_bind. exists tt. split; [exact Rm|]. reflexivity.
Qed.

(** The contract alone would not be enough: an implementation that has room for the sum in the array of the remainder makes MulAdd return
    (here for 1 * 1 + 0) a wrong value, accepted by all checks.  The array then starts with the term of the quotient, which is what the
    old slice of length one sees. *)
Theorem C70_MulAdd_refuted : exists vs o a b c x s', arg vs a /\ arg vs b /\ arg vs c /\
  reach (MulAddR o a b c (init vs)) (x, s') /\ 0 <= slook s' x < p /\ slook s' x <> (argv vs a * argv vs b + argv vs c) mod p.
Proof.
  exists [1; 1; 0], (fun n => if Nat.eqb n 7 then Some (2%nat, fun _ => 0) else None), (RLoc 0), (RLoc 1), (RLoc 2).
  do 2 eexists. split; [cbn; lia|]. split; [cbn; lia|]. split; [cbn; lia|]. split; [|split].
  - apply exec_reach with (ov := []). vm_compute. reflexivity.
  - cbn. unfold p. lia.
  - cbn. unfold p. discriminate.
Qed.

(** Nor may [partialRounds] (unexported) be called on a state that holds the same expression twice. *)
Theorem C70_partialRounds_refuted : exists h s, looks h s [1; 1; 1; 1] /\ prun (ppartialRounds s) h = None.
Proof.
  exists [Some 1], [RLoc 0; RLoc 0; RLoc 0; RLoc 0]. split; [repeat constructor|]. vm_compute. reflexivity.
Qed.

(** ** The hypotheses can be met: the caller holds three expressions and passes two of them several times; every MulAcc writes in place and
    leaves rubbish behind *)
Example C70_ex :
  let o := fun n => Some (n, fun l => Z.of_nat (n + l)) in
  let vs := [3; 5; 7] in
  Forall (arg vs) [RLoc 0; RLoc 1; RLoc 0] /\
  (let '(x, s') := srun o (pHashOrNoop [RLoc 0; RLoc 1; RLoc 0]) (init vs) in
   slook s' x = 3 + 5 * 2 ^ 64 + 3 * 2 ^ 128 /\ map (fun n => slook s' (RLoc n)) [0; 1; 2]%nat = vs) /\
  (let '(x, s') := srun o (pMulAddNoReduce (RLoc 0) (RLoc 1) (RLoc 2)) (init vs) in
   slook s' x = 22 /\ map (fun n => slook s' (RLoc n)) [0; 1; 2]%nat = vs) /\
  (* without the copy of line 218 the third expression of the caller is lost *)
  (let '(x, s') := srun o (pmulacc (RLoc 2) (RLoc 0) (RLoc 1)) (init vs) in
   slook s' x = 22 /\ map (fun n => slook s' (RLoc n)) [0; 1; 2]%nat = [3; 5; 4]).
Proof. split; [repeat constructor|]. vm_compute. repeat split. Qed.
Example C70_MulAdd_ex :
  let vs := [3; 5; 7] in
  exists o a b c, arg vs a /\ arg vs b /\ arg vs c /\ (o (4 + length vs)%nat <> None -> fits 1 [(9%nat, 1)] MODULUS [(8%nat, 1)] = true) /\
    exists x s', reach (MulAddR o a b c (init vs)) (x, s') /\ slook s' x = 22.
Proof.
  exists (fun n => if Nat.eqb n 6 then Some (1%nat, fun _ => 4) else None), (RLoc 0), (RLoc 1), (RLoc 2).
  split; [cbn; lia|]. split; [cbn; lia|]. split; [cbn; lia|]. split; [intros H; now destruct H|].
  do 2 eexists. split; [apply exec_reach with (ov := []); vm_compute; reflexivity|reflexivity].
Qed.

Print Assumptions C70_any_implementation.
Print Assumptions C70_HashNoPad.
Print Assumptions C70_HashOrNoop.
Print Assumptions C70_TwoToOne.
Print Assumptions C70_Poseidon.
Print Assumptions C70_MulAddNoReduce.
Print Assumptions C70_fits.
Print Assumptions C70_ladd.
Print Assumptions C70_MulAdd.
Print Assumptions C70_MulAdd_refuted.
Print Assumptions C70_partialRounds_refuted.
