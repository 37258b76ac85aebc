(** * 64-bit wire positions against the positions of Gates.

    [same c d]: the two circuits have the same results, for a prover free to choose the
    hints and for the honest solver.  Which of panicking, failing hint and unsatisfied
    constraint ends a run without a result is not compared. *)
From Coq Require Import String.
From Coq Require Import ZArith NArith Lia List Bool.
From Verif Require Import Zp Circuit Goldilocks PoseidonGLConst PoseidonGL Types Challenger Fri Gates Wires.
Import ListNotations.
Open Scope Z_scope.
Open Scope circ_scope.

Definition same {A} (c d : circ A) : Prop :=
  forall a, (reach c a <-> reach d a) /\ (run c = Done a <-> run d = Done a).
Definition dead {A} (c : circ A) : Prop := forall a, ~ reach c a.

Lemma same_refl {A} (c : circ A) : same c c.
Proof. intros a. tauto. Qed.
Lemma same_sym {A} (c d : circ A) : same c d -> same d c.
Proof. intros H a. destruct (H a) as [H1 H2]. split; [now rewrite H1|now rewrite H2]. Qed.
Lemma same_trans {A} (c d e : circ A) : same c d -> same d e -> same c e.
Proof. intros H K a. destruct (H a) as [H1 H2], (K a) as [K1 K2]. split; [now rewrite H1|now rewrite H2]. Qed.
Lemma same_eq {A} (c d : circ A) : c = d -> same c d.
Proof. intros ->. apply same_refl. Qed.
Lemma same_dead {A} (c d : circ A) : dead c -> dead d -> same c d.
Proof.
  intros H K a. split; split; intros R; exfalso.
  - exact (H a R).
  - exact (K a R).
  - exact (H a (run_reach c a R)).
  - exact (K a (run_reach d a R)).
Qed.
Lemma dead_same {A} (c d : circ A) : same c d -> dead c -> dead d.
Proof. intros H K a R. apply (K a). now apply (H a). Qed.
Lemma dead_panic {A} m : dead (@Panic A m).
Proof. intros a []. Qed.
Lemma dead_nth {A} (l : list A) i : (length l <= i)%nat -> dead (nth_ l i).
Proof. intros H a. unfold nth_. rewrite (proj2 (nth_error_None l i) H). intros []. Qed.
Lemma dead_l {A B} (c : circ A) (f : A -> circ B) : dead c -> dead (bind c f).
Proof. intros H b R. apply reach_bind in R. destruct R as (a & R & _). exact (H a R). Qed.
Lemma dead_r {A B} (c : circ A) (f : A -> circ B) : (forall a, reach c a -> dead (f a)) -> dead (bind c f).
Proof. intros H b R. apply reach_bind in R. destruct R as (a & R & S). exact (H a R b S). Qed.

Lemma run_bind_iff {A B} (c : circ A) (f : A -> circ B) b :
  run (bind c f) = Done b <-> exists a, run c = Done a /\ run (f a) = Done b.
Proof.
  rewrite run_bind. split.
  - destruct (run c) as [a| | |]; try discriminate. intros H. now exists a.
  - now intros (a & -> & H).
Qed.
Lemma same_bind {A B} (c d : circ A) (f g : A -> circ B) :
  same c d -> (forall a, reach d a -> same (f a) (g a)) -> same (bind c f) (bind d g).
Proof.
  intros H K b. split.
  - rewrite !reach_bind. split; intros (a & R & S); exists a.
    + apply H in R. split; [exact R|]. now apply (K a R).
    + split; [now apply H|]. now apply (K a R).
  - rewrite !run_bind_iff. split; intros (a & R & S); exists a.
    + apply H in R. split; [exact R|]. apply (K a); [now apply run_reach|exact S].
    + split; [now apply H|]. apply (K a); [now apply run_reach|exact S].
Qed.
(** the same first part *)
Lemma same_tail {A B} (c : circ A) (f g : A -> circ B) :
  (forall a, reach c a -> same (f a) (g a)) -> same (bind c f) (bind c g).
Proof. intros H. apply same_bind; [apply same_refl|exact H]. Qed.
Lemma same_head {A B} (c d : circ A) (f : A -> circ B) : same c d -> same (bind c f) (bind d f).
Proof. intros H. apply same_bind; [exact H|]. intros. apply same_refl. Qed.
Lemma same_mapM {A B} (f g : A -> circ B) l : (forall x, In x l -> same (f x) (g x)) -> same (mapM f l) (mapM g l).
Proof.
  induction l as [|x l IH]; intros H; cbn [mapM]; [apply same_refl|].
  apply same_bind; [apply H, in_eq|]. intros y _.
  apply same_bind; [apply IH; intros; apply H; now apply in_cons|]. intros; apply same_refl.
Qed.
Lemma same_foldM {A A' B} (f : B -> A -> circ B) (g : B -> A' -> circ B) l l' :
  Forall2 (fun x y => forall acc, same (f acc x) (g acc y)) l l' -> forall acc, same (foldM f acc l) (foldM g acc l').
Proof.
  intros H. induction H as [|x y l l' H H' IH]; intros acc; cbn [foldM]; [apply same_refl|].
  apply same_bind; [apply H|]. intros b _. apply IH.
Qed.
Lemma Forall2_same {A} (R : A -> A -> Prop) l : (forall x, In x l -> R x x) -> Forall2 R l l.
Proof. induction l as [|x l IH]; intros H; constructor; [apply H, in_eq|]. apply IH. intros; apply H; now apply in_cons. Qed.
Lemma dead_mapM {A B} (f : A -> circ B) l x : In x l -> dead (f x) -> dead (mapM f l).
Proof.
  induction l as [|y l IH]; intros Hin H; [destruct Hin|]. cbn [mapM]. destruct Hin as [->|Hin].
  - now apply dead_l.
  - apply dead_r. intros z _. apply dead_l. now apply IH.
Qed.
Lemma reach_mapM_length {A B} (f : A -> circ B) l ys : reach (mapM f l) ys -> length ys = length l.
Proof.
  revert ys. induction l as [|x l IH]; intros ys; cbn [mapM].
  - now intros <-.
  - intros R. apply reach_bind in R. destruct R as (y & _ & R). apply reach_bind in R.
    destruct R as (ys' & R & E). cbn in E. subst ys. cbn. f_equal. now apply IH.
Qed.
Lemma reach_mapM_in {A B} (f : A -> circ B) l ys x : reach (mapM f l) ys -> In x l -> exists y, reach (f x) y.
Proof.
  intros R Hin. revert ys R. induction l as [|z l IH]; intros ys R; [destruct Hin|]. cbn [mapM] in R.
  apply reach_bind in R. destruct R as (y & R1 & R). apply reach_bind in R. destruct R as (ys' & R2 & _).
  destruct Hin as [->|Hin]; [eauto|]. eapply IH; eauto.
Qed.
(** a loop whose bodies agree up to K and fail at K *)
Lemma same_loop {B} (f g : nat -> circ B) n (K : nat) :
  (forall i, (i < n)%nat -> (i < K)%nat -> same (f i) (g i)) -> ((K < n)%nat -> dead (f K) /\ dead (g K)) ->
  same (mapM f (seq 0 n)) (mapM g (seq 0 n)).
Proof.
  intros H D. destruct (Nat.le_gt_cases n K) as [L|L].
  - apply same_mapM. intros i Hi. apply in_seq in Hi. apply H; lia.
  - destruct (D L) as [D1 D2]. apply same_dead; apply (dead_mapM _ _ K); auto; apply in_seq; lia.
Qed.

(** ** Arithmetic without wrap-around *)
Lemma u64_small x : 0 <= x < 2 ^ 64 -> u64 x = x.
Proof. apply Z.mod_small. Qed.
Lemma add64_small x y : 0 <= x + y < 2 ^ 64 -> add64 x y = x + y.
Proof. apply Z.mod_small. Qed.
Lemma mul64_small x y : 0 <= x * y < 2 ^ 64 -> mul64 x y = x * y.
Proof. apply Z.mod_small. Qed.
Lemma sub64_small x y : 0 <= x - y < 2 ^ 64 -> sub64 x y = x - y.
Proof. apply Z.mod_small. Qed.
Lemma shl1_vec n : shl1 (Z.of_nat n) = Z.of_nat (vecSize n).
Proof.
  unfold shl1, vecSize. destruct (Z.ltb_spec (Z.of_nat n) 64) as [L|L], (Nat.ltb_spec n 64) as [M|M]; try lia.
  now rewrite Nat2Z.inj_pow.
Qed.
Lemma shl1_range b : 0 <= b -> 0 <= shl1 b < 2 ^ 64.
Proof.
  intros H. unfold shl1. destruct (Z.ltb_spec b 64) as [L|L]; [|now split].
  split; [apply Z.pow_nonneg; lia|apply Z.pow_lt_mono_r; lia].
Qed.
Lemma index_nat {A} (l : list A) i z : z = Z.of_nat i -> index l z = nth_ l i.
Proof. intros ->. unfold index. now rewrite Nat2Z.id. Qed.
Lemma dead_index {A} (l : list A) z : Z.of_nat (length l) <= z -> dead (index l z).
Proof. intros H. apply dead_nth. lia. Qed.
Lemma panic_if_false m : panic_if false m = Ret tt.
Proof. reflexivity. Qed.

(** a range that does not wrap *)
Lemma local64 unset e s n : 0 <= n -> s = (n, n + 2) -> n + 2 < 2 ^ 64 ->
  GetLocalExtAlgebra64 unset e s = GetLocalExtAlgebra e (Z.to_nat n, Z.to_nat n + 2)%nat.
Proof.
  intros H -> K. unfold GetLocalExtAlgebra64, GetLocalExtAlgebra, D64, D. cbn [fst snd].
  rewrite sub64_small by lia. replace (n + 2 - n) with 2 by lia. cbn [Z.eqb Pos.eqb negb].
  replace (Z.to_nat n + 2 - Z.to_nat n)%nat with 2%nat by lia. cbn [Nat.eqb negb panic_if bind].
  rewrite (proj2 (Z.ltb_lt n (n + 2))) by lia. unfold index.
  now replace (Z.to_nat (n + 1)) with (Z.to_nat n + 1)%nat by lia.
Qed.
Lemma local64_nat unset e a b m : a = Z.of_nat m -> b = Z.of_nat m + 2 -> Z.of_nat m + 2 < 2 ^ 64 ->
  GetLocalExtAlgebra64 unset e (a, b) = GetLocalExtAlgebra e (m, m + 2)%nat.
Proof. intros -> -> H. rewrite (local64 unset e _ (Z.of_nat m)); [|lia|reflexivity|lia]. now rewrite Nat2Z.id. Qed.
Lemma dead_local e m k : (length (localWires e) <= m)%nat -> dead (GetLocalExtAlgebra e (m, k)).
Proof.
  intros H. unfold GetLocalExtAlgebra. cbn [fst snd]. apply dead_r. intros _ _. apply dead_l. now apply dead_nth.
Qed.

(** ** The gates *)
Section gates.
Variables (unset : QE) (vars : EvaluationVars).
Hypothesis Hw : Z.of_nat (length (localWires vars)) < 2 ^ 31.
Hypothesis Hc : Z.of_nat (length (localConstants vars)) < 2 ^ 31.
Let L := length (localWires vars).

Ltac plain t :=
  lazymatch t with
  | context [add64 _ _] => fail | context [mul64 _ _] => fail | context [sub64 _ _] => fail | _ => idtac
  end.
Ltac small := repeat match goal with
  | |- context [add64 ?x ?y] => plain x; plain y; rewrite (add64_small x y) by lia
  | |- context [mul64 ?x ?y] => plain x; plain y; rewrite (mul64_small x y) by lia
  | |- context [sub64 ?x ?y] => plain x; plain y; rewrite (sub64_small x y) by lia
  end.

Lemma same_arithmetic n : same (eval_arithmetic64 n vars) (eval_arithmetic n vars).
Proof.
  unfold eval_arithmetic64, eval_arithmetic. apply same_tail. intros c0 _. apply same_tail. intros c1 _.
  apply (same_loop _ _ n L).
  - intros i _ Hi. apply same_eq. unfold arithmetic_op64, arithmetic_op, L in *.
    unfold A_WireIthMultiplicand0, A_WireIthMultiplicand1, A_WireIthAddend, A_WireIthOutput. small.
    rewrite (index_nat _ (4 * i)) by lia. rewrite (index_nat _ (4 * i + 1)) by lia.
    rewrite (index_nat _ (4 * i + 2)) by lia. now rewrite (index_nat _ (4 * i + 3)) by lia.
  - intros _. unfold L in *. split; apply dead_l.
    + unfold A_WireIthMultiplicand0. small. apply dead_index. lia.
    + apply dead_nth. lia.
Qed.

Lemma same_arithmetic_ext n : same (eval_arithmetic_ext64 unset n vars) (eval_arithmetic_ext n vars).
Proof.
  unfold eval_arithmetic_ext64, eval_arithmetic_ext. apply same_tail. intros c0 _. apply same_tail. intros c1 _.
  apply same_head. apply (same_loop _ _ n L).
  - intros i _ Hi. apply same_eq. unfold arithmetic_ext_op64, arithmetic_ext_op, L, D in *.
    unfold AE_wiresIthMultiplicand0, AE_wiresIthMultiplicand1, AE_wiresIthAddend, AE_wiresIthOutput, D64. small.
    rewrite (local64_nat _ _ _ _ (4 * 2 * i)) by lia. rewrite (local64_nat _ _ _ _ (4 * 2 * i + 2)) by lia.
    rewrite (local64_nat _ _ _ _ (4 * 2 * i + 2 * 2)) by lia. rewrite (local64_nat _ _ _ _ (4 * 2 * i + 3 * 2)) by lia.
    replace (4 * 2 * i + 2 + 2)%nat with (4 * 2 * i + 2 * 2)%nat by lia.
    replace (4 * 2 * i + 2 * 2 + 2)%nat with (4 * 2 * i + 3 * 2)%nat by lia.
    now replace (4 * 2 * i + 3 * 2 + 2)%nat with (4 * 2 * i + 4 * 2)%nat by lia.
  - intros _. unfold L in *. split; apply dead_l.
    + unfold AE_wiresIthMultiplicand0, D64. small. rewrite (local64_nat _ _ _ _ (8 * length (localWires vars))) by lia.
      apply dead_local. lia.
    + apply dead_local. unfold D. lia.
Qed.

Lemma same_mul_ext n : same (eval_mul_ext64 unset n vars) (eval_mul_ext n vars).
Proof.
  unfold eval_mul_ext64, eval_mul_ext. apply same_tail. intros c0 _.
  apply same_head. apply (same_loop _ _ n L).
  - intros i _ Hi. apply same_eq. unfold mul_ext_op64, mul_ext_op, L, D in *.
    unfold ME_wiresIthMultiplicand0, ME_wiresIthMultiplicand1, ME_wiresIthOutput, D64. small.
    rewrite (local64_nat _ _ _ _ (3 * 2 * i)) by lia. rewrite (local64_nat _ _ _ _ (3 * 2 * i + 2)) by lia.
    rewrite (local64_nat _ _ _ _ (3 * 2 * i + 2 * 2)) by lia.
    replace (3 * 2 * i + 2 + 2)%nat with (3 * 2 * i + 2 * 2)%nat by lia.
    now replace (3 * 2 * i + 2 * 2 + 2)%nat with (3 * 2 * i + 3 * 2)%nat by lia.
  - intros _. unfold L in *. split; apply dead_l.
    + unfold ME_wiresIthMultiplicand0, D64. small. rewrite (local64_nat _ _ _ _ (6 * length (localWires vars))) by lia.
      apply dead_local. lia.
    + apply dead_local. unfold D. lia.
Qed.

Lemma mapM_map {A B C} (f : B -> circ C) (h : A -> B) l : mapM f (map h l) = mapM (fun x => f (h x)) l.
Proof. induction l as [|x l IH]; [reflexivity|]. cbn [map mapM]. now rewrite IH. Qed.
Lemma same_reads (l : list QE) (h : nat -> circ QE) (k : nat -> nat) n : Z.of_nat (length l) < 2 ^ 31 ->
  (forall i, (i < n)%nat -> (i <= length l)%nat -> h i = nth_ l (k i)) -> (forall i, (i <= k i)%nat) ->
  same (mapM h (seq 0 n)) (mapM (fun i => nth_ l (k i)) (seq 0 n)).
Proof.
  intros Hl H Hk. apply (same_loop _ _ n (length l)).
  - intros i Hi Hi'. apply same_eq. apply H; lia.
  - intros Hn. rewrite H by lia. pose proof (Hk (length l)). split; apply dead_nth; lia.
Qed.

Lemma same_base_sum n b : same (eval_base_sum64 n b vars) (eval_base_sum n b vars).
Proof.
  unfold eval_base_sum64, eval_base_sum, BS_limbs, BASESUM_GATE_WIRE_SUM, BASESUM_GATE_START_LIMBS.
  rewrite (index_nat _ 0) by lia. apply same_tail. intros s _. apply same_head.
  rewrite mapM_map. apply (same_reads _ _ (fun i => 1 + i)%nat); [exact Hw| |lia].
  intros i _ Hi. small. apply index_nat. lia.
Qed.

Lemma same_constant n : same (eval_constant64 n vars) (eval_constant n vars).
Proof.
  unfold eval_constant64, eval_constant. apply same_mapM. intros i Hi. apply in_seq in Hi. apply same_eq.
  unfold C_ConstInput, C_WireOutput. rewrite (proj2 (Z.leb_gt (Z.of_nat n) (Z.of_nat i))) by lia.
  cbn [panic_if bind]. now rewrite !(index_nat _ i) by reflexivity.
Qed.

Lemma same_public_input : same (eval_public_input64 vars) (eval_public_input vars).
Proof. apply same_eq. reflexivity. Qed.

Lemma same_exponentiation n : same (eval_exponentiation64 n vars) (eval_exponentiation n vars).
Proof.
  unfold eval_exponentiation64, eval_exponentiation, E_wireBase. rewrite (index_nat _ 0) by lia.
  apply same_tail. intros base _. apply same_bind.
  - apply (same_reads _ _ (fun i => 1 + i)%nat); [exact Hw| |lia].
    intros i Hi Hi'. unfold E_wirePowerBit. rewrite (proj2 (Z.leb_gt (Z.of_nat n) (Z.of_nat i))) by lia.
    cbn [panic_if bind]. small. apply index_nat. lia.
  - intros pb Rpb.
    assert (Hn : (n <= L)%nat).
    { destruct (Nat.le_gt_cases n L) as [H|H]; [exact H|exfalso].
      destruct (reach_mapM_in _ _ _ (n - 1)%nat Rpb) as (y & R); [apply in_seq; lia|].
      apply (dead_nth (localWires vars) (1 + (n - 1))) in R; [destruct R|]. unfold L in H. lia. }
    unfold L in Hn. pose proof (reach_mapM_length _ _ _ Rpb) as Lpb. rewrite seq_length in Lpb. apply same_bind.
    + apply (same_reads _ _ (fun i => 2 + n + i)%nat); [exact Hw| |lia].
      intros i Hi Hi'. unfold E_wireIntermediateValue. rewrite (proj2 (Z.leb_gt (Z.of_nat n) (Z.of_nat i))) by lia.
      cbn [panic_if bind]. small. apply index_nat. lia.
    + intros iv Riv. unfold E_wireOutput. small. rewrite (index_nat _ (1 + n)) by lia. apply same_tail. intros out _.
      apply same_bind.
      * apply same_mapM. intros i Hi. apply in_seq in Hi. apply same_eq. unfold exp_gate_step64, exp_gate_step. cbv zeta.
        rewrite (sub64_small (Z.of_nat n) (Z.of_nat i)) by lia. rewrite (sub64_small (Z.of_nat n - Z.of_nat i) 1) by lia.
        rewrite (index_nat pb (n - i - 1)) by lia. rewrite (index_nat iv i (Z.of_nat i)) by reflexivity.
        destruct (Nat.eqb_spec i 0) as [->|Hne]; [reflexivity|].
        rewrite (proj2 (Z.eqb_neq (Z.of_nat i) 0)) by lia. rewrite sub64_small by lia.
        now rewrite (index_nat iv (i - 1)) by lia.
      * intros cs _. destruct (Nat.eqb_spec n 0) as [->|Hne].
        -- apply same_dead; [|apply dead_l, dead_panic]. apply dead_l.
           pose proof (reach_mapM_length _ _ _ Riv) as E. cbn in E. destruct iv; [|discriminate].
           apply dead_index. cbn. unfold sub64, u64. apply Z.mod_pos_bound. reflexivity.
        -- cbn [panic_if bind]. small. rewrite (index_nat iv (n - 1)) by lia. apply same_refl.
Qed.

(** *** Reducing gates *)
Lemma same_accs n start nstart : start = Z.of_nat nstart -> (n <= L)%nat -> Z.of_nat nstart < 2 ^ 33 ->
  same (mapM (fun i => rg <- R_wiresAccs (Z.of_nat n) start (Z.of_nat i);; GetLocalExtAlgebra64 unset vars rg) (seq 0 n))
       (mapM (fun i => GetLocalExtAlgebra vars (wiresAccs n nstart i)) (seq 0 n)).
Proof.
  intros -> Hn Hs. unfold L in Hn. apply same_mapM. intros i Hi. apply in_seq in Hi. apply same_eq.
  unfold R_wiresAccs, wiresAccs, D64, R_wiresOutput. rewrite (proj2 (Z.leb_gt (Z.of_nat n) (Z.of_nat i))) by lia.
  cbn [panic_if bind]. rewrite (sub64_small (Z.of_nat n) 1) by lia.
  destruct (Nat.eqb_spec i (n - 1)) as [E|E].
  - rewrite (proj2 (Z.eqb_eq (Z.of_nat i) (Z.of_nat n - 1))) by lia. cbn [bind].
    now rewrite (local64_nat _ _ _ _ 0) by (unfold D64; lia).
  - rewrite (proj2 (Z.eqb_neq (Z.of_nat i) (Z.of_nat n - 1))) by lia. cbn [bind]. small.
    rewrite (local64_nat _ _ _ _ (nstart + 2 * i)) by lia. unfold D.
    now replace (nstart + 2 * i + 2)%nat with (nstart + 2 * (i + 1))%nat by lia.
Qed.
Lemma bounded {B} (f : nat -> circ B) n ys : (forall i, (L <= i)%nat -> dead (f i)) -> reach (mapM f (seq 0 n)) ys -> (n <= L)%nat.
Proof.
  intros H R. destruct (Nat.le_gt_cases n L) as [K|K]; [exact K|exfalso].
  destruct (reach_mapM_in _ _ _ (n - 1)%nat R) as (y & Ry); [apply in_seq; lia|].
  apply (H (n - 1)%nat) in Ry; [destruct Ry|lia].
Qed.
Lemma reducing_range : R_wiresAlpha = (2, 4) /\ R_wiresOldAcc = (4, 6).
Proof. split; reflexivity. Qed.

Lemma same_reducing_ext n : Z.of_nat n < 2 ^ 64 -> same (eval_reducing_ext64 unset n vars) (eval_reducing_ext n vars).
Proof.
  intros _. unfold eval_reducing_ext64, eval_reducing_ext. destruct reducing_range as [-> ->].
  rewrite (local64_nat _ _ 2 4 2) by lia. apply same_tail. intros alpha _.
  rewrite (local64_nat _ _ 4 6 4) by lia. apply same_tail. intros oldAcc _. apply same_bind.
  - apply (same_loop _ _ n L); unfold L.
    + intros i _ Hi. apply same_eq. unfold RE_wiresCoeff, START_COEFFS, D64, D. small.
      rewrite (local64_nat _ _ _ _ (3 * 2 + 2 * i)) by lia.
      now replace (3 * 2 + 2 * i + 2)%nat with (3 * 2 + 2 * (i + 1))%nat by lia.
    + intros _. split.
      * unfold RE_wiresCoeff, START_COEFFS, D64. small.
        rewrite (local64_nat _ _ _ _ (6 + 2 * length (localWires vars))) by lia. apply dead_local. lia.
      * apply dead_local. unfold D. lia.
  - intros coeffs R. apply bounded in R; [|intros i Hi; apply dead_local; unfold L, D in *; lia].
    apply same_head. unfold L in *. apply same_accs; [|exact R|unfold D; lia].
    unfold RE_startAccs, START_COEFFS, D64, D. small. lia.
Qed.

Lemma same_reducing n : Z.of_nat n < 2 ^ 63 -> same (eval_reducing64 unset n vars) (eval_reducing n vars).
Proof.
  intros Hn. unfold eval_reducing64, eval_reducing. destruct reducing_range as [-> ->].
  rewrite (local64_nat _ _ 2 4 2) by lia. apply same_tail. intros alpha _.
  rewrite (local64_nat _ _ 4 6 4) by lia. apply same_tail. intros oldAcc _.
  unfold R_wiresCoeff, START_COEFFS. small. apply same_bind.
  - replace (Z.to_nat (6 + Z.of_nat n) - Z.to_nat 6)%nat with n by lia.
    replace (seq (Z.to_nat 6) n) with (map (fun i => 6 + i)%nat (seq 0 n)) by
      (change (Z.to_nat 6) with 6%nat; clear; generalize 6%nat; intros k; induction n as [|n IH] using nat_ind; [reflexivity|];
       rewrite !seq_S, map_app, IH; reflexivity).
    rewrite mapM_map. apply (same_reads _ _ (fun i => 3 * D + i)%nat); [exact Hw| |unfold D; lia].
    intros i _ _. apply index_nat. unfold D. lia.
  - intros coeffs R. pose proof (reach_mapM_length _ _ _ R) as Hl. rewrite seq_length in Hl.
    apply bounded in R; [|intros i Hi; apply dead_nth; unfold L, D in *; lia]. unfold L in *.
    apply same_bind.
    + apply same_accs; [|exact R|unfold D; lia]. unfold R_startAccs, START_COEFFS, D. small. lia.
    + intros accs _. rewrite Hl, Nat.ltb_irrefl. apply same_refl.
Qed.

(** *** Random access *)
Lemma same_random_access b c x : Z.of_nat b < 2 ^ 64 -> Z.of_nat c < 2 ^ 64 -> Z.of_nat x < 2 ^ 64 ->
  same (eval_random_access64 b c x vars) (eval_random_access b c x vars).
Proof.
  intros Hb Hcc Hx. unfold eval_random_access64, eval_random_access.
  (* too many extra constants *)
  destruct (Nat.le_gt_cases x (length (localConstants vars))) as [Kx|Kx].
  2: { apply same_dead; apply dead_r; intros cs _; apply dead_l.
       - apply (dead_mapM _ _ (length (localConstants vars))); [apply in_seq; lia|]. apply dead_l, dead_index. lia.
       - apply (dead_mapM _ _ (length (localConstants vars))); [apply in_seq; lia|]. apply dead_l, dead_nth. lia. }
  assert (V0 : 0 <= shl1 (Z.of_nat b) < 2 ^ 64) by (apply shl1_range; lia).
  pose proof (shl1_vec b) as V.
  assert (VB : (0 < c)%nat -> (vecSize b <= L)%nat -> (c <= L)%nat -> (b < 64)%nat -> Z.of_nat c * (2 + Z.of_nat (vecSize b)) < 2 ^ 63).
  { intros _ H1 H2 _. unfold L in *. assert (Z.of_nat c * (2 + Z.of_nat (vecSize b)) <= 2 ^ 31 * (2 + 2 ^ 31)) by
      (apply Z.mul_le_mono_nonneg; lia). lia. }
  (* a table that is too large, or empty *)
  destruct (Nat.eq_dec c 0) as [->|Hc0].
  { cbn [seq mapM bind]. apply same_head. apply same_mapM. intros i Hi. apply in_seq in Hi. apply same_eq.
    unfold RA_wireExtraConstant, RA_startExtraConstants. rewrite (proj2 (Z.leb_gt (Z.of_nat x) (Z.of_nat i))) by lia.
    cbn [panic_if bind Z.of_nat]. unfold mul64. rewrite Z.mul_0_r. change (u64 0) with 0. small.
    rewrite (index_nat (localConstants vars) i) by reflexivity. rewrite Nat.mul_0_r.
    now rewrite (index_nat (localWires vars) (0 + i)) by lia. }
  destruct (Nat.le_gt_cases (vecSize b) L) as [Kv|Kv].
  2: { apply same_dead; apply dead_l; apply (dead_mapM _ _ 0%nat); try (apply in_seq; lia).
       - unfold random_access_copy64, RA_vecSize. rewrite V. apply dead_r. intros k _. apply dead_r. intros ai _. apply dead_l.
         apply (dead_mapM _ _ L); [apply in_seq; lia|]. unfold RA_WireListItem, RA_vecSize. rewrite V.
         rewrite (proj2 (Z.leb_gt (Z.of_nat (vecSize b)) (Z.of_nat L))) by lia.
         rewrite (proj2 (Z.leb_gt (Z.of_nat c) (Z.of_nat 0))) by lia. cbn [panic_if bind Z.of_nat].
         unfold mul64. rewrite Z.mul_0_r. change (u64 0) with 0. unfold L in *. small. apply dead_index. lia.
       - unfold random_access_copy. apply dead_r. intros ai _. apply dead_l.
         apply (dead_mapM _ _ L); [apply in_seq; lia|]. apply dead_nth. unfold L. lia. }
  destruct (Nat.le_gt_cases 64 b) as [Kb|Kb].
  { (* an empty table *)
    assert (E : vecSize b = 0%nat) by (unfold vecSize; destruct (Nat.ltb_spec b 64); [lia|reflexivity]).
    assert (F : forall bits a, reach (foldM (fun items b => fold_pairs b items) [] bits) a -> a = []).
    { induction bits as [|z bits IH]; intros a; cbn [foldM]; [now intros <-|]. cbn [fold_pairs bind]. apply IH. }
    apply same_dead; apply dead_l; apply (dead_mapM _ _ 0%nat); try (apply in_seq; lia).
    - unfold random_access_copy64, RA_vecSize. rewrite V, E. cbn [Z.of_nat Z.to_nat seq mapM bind].
      apply dead_r; intros k1 _. apply dead_r; intros ai _. apply dead_r; intros k2 _. apply dead_r; intros ce _.
      apply dead_r; intros bits _. apply dead_r; intros cs _. apply dead_r; intros ri _. apply dead_r; intros d _.
      apply dead_r. intros items R. apply F in R. subst items. cbn. apply dead_panic.
    - unfold random_access_copy. rewrite E. cbn [seq mapM bind].
      apply dead_r; intros ai _. apply dead_r; intros ce _.
      apply dead_r; intros bits _. apply dead_r; intros cs _. apply dead_r; intros ri _. apply dead_r; intros d _.
      apply dead_r. intros items R. apply F in R. subst items. cbn. apply dead_panic. }
  unfold L in Kv.
  assert (Hprod : forall copy, (copy <= length (localWires vars))%nat -> 0 <= (2 + Z.of_nat (vecSize b)) * Z.of_nat copy < 2 ^ 63).
  { intros copy H. split; [lia|].
    assert ((2 + Z.of_nat (vecSize b)) * Z.of_nat copy <= (2 + 2 ^ 31) * 2 ^ 31) by (apply Z.mul_le_mono_nonneg; lia). lia. }
  (* the number of copies *)
  assert (Hd64 : (L < c)%nat -> dead (random_access_copy64 b c x vars L)).
  { unfold L. intros H. unfold random_access_copy64. apply dead_r. intros k Rk. apply dead_l.
    unfold RA_WireAccessIndex, RA_vecSize in Rk. rewrite V in Rk.
    rewrite (proj2 (Z.leb_gt (Z.of_nat c) _)) in Rk by lia. cbn [panic_if bind reach] in Rk. subst k.
    pose proof (Hprod (length (localWires vars)) (le_n _)). small. apply dead_index. nia. }
  assert (Hd : (L < c)%nat -> dead (random_access_copy b c x vars L)).
  { unfold L. intros H. unfold random_access_copy. apply dead_l. apply dead_nth. nia. }
  destruct (Nat.le_gt_cases c L) as [Kc|Kc].
  2: { apply same_dead; apply dead_l; apply (dead_mapM _ _ L); try (apply in_seq; lia); auto. }
  unfold L in Kc.
  pose proof (Hprod c Kc) as Hp. apply same_bind.
  - apply same_mapM. intros copy Hi. apply in_seq in Hi.
    pose proof (Hprod copy ltac:(lia)) as Hq.
    assert (Hcb : 0 <= Z.of_nat copy * Z.of_nat b < 2 ^ 40).
    { split; [lia|]. assert (Z.of_nat copy * Z.of_nat b <= 2 ^ 31 * 64) by (apply Z.mul_le_mono_nonneg; lia). lia. }
    unfold random_access_copy64, random_access_copy, RA_vecSize. rewrite V, Nat2Z.id.
    unfold RA_WireAccessIndex, RA_WireClaimedElement, RA_vecSize. rewrite V.
    rewrite (proj2 (Z.leb_gt (Z.of_nat c) (Z.of_nat copy))) by lia. cbn [panic_if bind].
    rewrite (add64_small 2) by lia. rewrite (mul64_small _ (Z.of_nat copy)) by lia.
    rewrite (index_nat _ ((2 + vecSize b) * copy)) by lia. apply same_tail. intros ai _. apply same_bind.
    + apply same_mapM. intros i Hii. apply in_seq in Hii. apply same_eq. unfold RA_WireListItem, RA_vecSize. rewrite V.
      rewrite (proj2 (Z.leb_gt (Z.of_nat (vecSize b)) (Z.of_nat i))) by lia.
      rewrite (proj2 (Z.leb_gt (Z.of_nat c) (Z.of_nat copy))) by lia. cbn [panic_if bind].
      rewrite (add64_small 2) by lia. rewrite (mul64_small _ (Z.of_nat copy)) by lia. small. apply index_nat. lia.
    + intros items _. rewrite (add64_small _ 1) by lia.
      rewrite (index_nat _ ((2 + vecSize b) * copy + 1)) by lia. apply same_tail. intros ce _. apply same_head.
      apply same_mapM. intros i Hii. apply in_seq in Hii. apply same_eq.
      unfold RA_WireBit, RA_NumRoutedWires, RA_startExtraConstants, RA_vecSize. rewrite V.
      rewrite (proj2 (Z.leb_gt (Z.of_nat b) (Z.of_nat i))) by lia.
      rewrite (proj2 (Z.leb_gt (Z.of_nat c) (Z.of_nat copy))) by lia. cbn [panic_if bind].
      rewrite (add64_small 2) by lia. rewrite (mul64_small _ (Z.of_nat c)) by lia.
      rewrite (mul64_small (Z.of_nat copy)) by lia. small. apply index_nat. lia.
  - intros cs _. apply same_head. apply same_mapM. intros i Hi. apply in_seq in Hi. apply same_eq.
    rewrite (index_nat (localConstants vars) i) by reflexivity.
    unfold RA_wireExtraConstant, RA_startExtraConstants, RA_vecSize. rewrite V.
    rewrite (proj2 (Z.leb_gt (Z.of_nat x) (Z.of_nat i))) by lia. cbn [panic_if bind].
    rewrite (add64_small 2) by lia. rewrite (mul64_small _ (Z.of_nat c)) by lia. small.
    now rewrite (index_nat (localWires vars) ((2 + vecSize b) * c + i)) by lia.
Qed.

(** *** Coset interpolation *)
Lemma subgroup_length x g n : length (subgroup_from x g n) = S n.
Proof. revert x. induction n as [|n IH]; intros x; [reflexivity|]. cbn [subgroup_from length]. now rewrite IH. Qed.
Lemma domain_length n l : reach (TwoAdicSubgroup n) l -> (n <= 32)%nat /\ length l = (2 ^ n)%nat.
Proof.
  unfold TwoAdicSubgroup, TWO_ADICITY. destruct (Nat.ltb_spec 32 n) as [H|H]; [intros []|].
  intros R. apply reach_bind in R. destruct R as (g & _ & R). cbn in R. subst l. split; [lia|].
  rewrite subgroup_length. pose proof (Nat.pow_nonzero 2 n ltac:(lia)). lia.
Qed.
Lemma dead_slice_to {A} (l : list A) n : (length l < n)%nat -> dead (slice_to l n).
Proof. intros H. unfold slice_to. rewrite (proj2 (Nat.leb_gt n (length l))) by lia. apply dead_panic. Qed.

Lemma same_coset s d ws : (2 <= d)%nat -> Z.of_nat d < 2 ^ 64 ->
  same (eval_coset_interpolation64 unset s d ws vars) (eval_coset_interpolation s d ws vars).
Proof.
  intros Hd Hd'.
  assert (Hv : (s <= 32)%nat -> vecSize s = (2 ^ s)%nat).
  { intros H. unfold vecSize. now rewrite (proj2 (Nat.ltb_lt s 64)) by lia. }
  (* what happens from the domain on kills both *)
  destruct (Nat.le_gt_cases d (vecSize s)) as [Kd|Kd].
  2: { apply same_dead.
       - unfold eval_coset_interpolation64. cbv zeta. do 7 (apply dead_r; intros ? _).
         apply dead_r. intros dom R. apply domain_length in R. destruct R as [Hs R]. rewrite <- (Hv Hs) in R.
         apply dead_r. intros vs _. apply dead_l, dead_slice_to. lia.
       - unfold eval_coset_interpolation. cbv zeta. do 8 (apply dead_r; intros ? _).
         apply dead_r. intros dom R. apply domain_length in R. destruct R as [Hs R]. rewrite <- (Hv Hs) in R.
         apply dead_r. intros vs _. apply dead_l, dead_slice_to. lia. }
  assert (Hrange : Z.of_nat (vecSize s) < 2 ^ 64) by (rewrite <- shl1_vec; apply shl1_range; lia).
  destruct (Nat.le_gt_cases (vecSize s) L) as [Kv|Kv]; unfold L in Kv.
  2: { apply same_dead.
       - unfold eval_coset_interpolation64. cbv zeta. do 8 (apply dead_r; intros ? _). apply dead_l.
         unfold CI_numPoints. rewrite shl1_vec, Nat2Z.id. apply (dead_mapM _ _ (length (localWires vars))); [apply in_seq; lia|].
         unfold CI_wiresValue, CI_numPoints, CI_startValues, D64. rewrite shl1_vec.
         rewrite (proj2 (Z.leb_gt (Z.of_nat (vecSize s)) _)) by lia. cbn [panic_if bind]. cbv zeta. small.
         rewrite (local64_nat _ _ _ _ (1 + 2 * length (localWires vars))) by lia. apply dead_local. lia.
       - unfold eval_coset_interpolation. cbv zeta. do 9 (apply dead_r; intros ? _). apply dead_l.
         apply (dead_mapM _ _ (length (localWires vars))); [apply in_seq; lia|]. apply dead_local. unfold D. lia. }
  (* the ordinary case: nothing wraps around *)
  assert (Hni : (numIntermediates (vecSize s) d <= vecSize s)%nat).
  { unfold numIntermediates. etransitivity; [apply Nat.div_le_upper_bound with (q := (vecSize s - 2)%nat); nia|lia]. }
  assert (Hni' : ((d - 1) * numIntermediates (vecSize s) d <= vecSize s - 2)%nat).
  { unfold numIntermediates. apply Nat.mul_div_le. lia. }
  assert (Eni : CI_numIntermediates (Z.of_nat s) (Z.of_nat d) = Ret (Z.of_nat (numIntermediates (vecSize s) d))).
  { unfold CI_numIntermediates, CI_numPoints, numIntermediates. rewrite shl1_vec. small.
    rewrite (proj2 (Z.eqb_neq (Z.of_nat d - 1) 0)) by lia. cbn [panic_if bind]. f_equal.
    rewrite Nat2Z.inj_div. f_equal; lia. }
  set (ni := numIntermediates (vecSize s) d) in *.
  unfold eval_coset_interpolation64, eval_coset_interpolation. cbv zeta.
  rewrite (proj2 (Nat.ltb_ge (vecSize s) 2)) by lia. rewrite (proj2 (Nat.ltb_ge d 2)) by lia. cbn [panic_if bind].
  unfold CI_wireShift. rewrite (index_nat _ 0) by lia. apply same_tail. intros shift _.
  assert (E1 : CI_startEvaluationPoint (Z.of_nat s) = Z.of_nat (1 + vecSize s * 2)).
  { unfold CI_startEvaluationPoint, CI_startValues, CI_numPoints, D64. rewrite shl1_vec. small. lia. }
  assert (E2 : CI_startEvaluationValue (Z.of_nat s) = Z.of_nat (1 + vecSize s * 2 + 2)).
  { unfold CI_startEvaluationValue, D64. rewrite E1. small. lia. }
  assert (E3 : CI_startIntermediates (Z.of_nat s) = Z.of_nat (1 + vecSize s * 2 + 2 + 2)).
  { unfold CI_startIntermediates, D64. rewrite E2. small. lia. }
  unfold CI_wiresEvaluationPoint, D64. rewrite E1. small.
  rewrite (local64_nat _ _ _ _ (1 + vecSize s * 2)) by lia. unfold D. apply same_tail. intros ep _.
  unfold CI_wiresShiftedEvaluationPoint, D64. rewrite Eni, E3. cbn [bind]. cbv zeta. small.
  fold ni. rewrite (local64_nat _ _ _ _ (1 + vecSize s * 2 + 2 + 2 + 2 * 2 * ni)) by lia. apply same_tail. intros sp _.
  apply same_tail. intros ns _. apply same_tail. intros t1 _. apply same_tail. intros t2 _. apply same_tail. intros dom _.
  apply same_bind.
  { unfold CI_numPoints. rewrite shl1_vec, Nat2Z.id. apply same_mapM. intros i Hi. apply in_seq in Hi. apply same_eq.
    unfold CI_wiresValue, CI_numPoints, CI_startValues, D64. rewrite shl1_vec.
    rewrite (proj2 (Z.leb_gt (Z.of_nat (vecSize s)) (Z.of_nat i))) by lia. cbn [panic_if bind]. cbv zeta. small.
    now rewrite (local64_nat _ _ _ _ (1 + i * 2)) by lia. }
  intros vs _. apply same_tail. intros d1 _. apply same_tail. intros v1 _. apply same_tail. intros w1 _.
  apply same_tail. intros [e pr] _. cbn [bind]. rewrite Nat2Z.id. apply same_bind.
  { apply same_foldM. apply Forall2_same. intros i Hi [[ce cp] cs]. apply in_seq in Hi. apply same_eq.
    unfold coset_step64, coset_step. fold ni. unfold CI_wiresIntermediateEval, CI_wiresIntermediateProd, D64, D. rewrite Eni, E3.
    cbn [bind]. rewrite (proj2 (Z.leb_gt (Z.of_nat ni) (Z.of_nat i))) by lia. cbn [panic_if bind]. cbv zeta. small.
    rewrite (local64_nat _ _ _ _ (1 + vecSize s * 2 + 2 + 2 + 2 * i)) by lia.
    rewrite (local64_nat _ _ _ _ (1 + vecSize s * 2 + 2 + 2 + 2 * (ni + i))) by lia.
    assert (Hm : ((d - 1) * (i + 1) <= vecSize s - 2)%nat) by (etransitivity; [apply Nat.mul_le_mono_l|exact Hni']; lia).
    assert (Hz : (Z.of_nat d - 1) * (Z.of_nat i + 1) = Z.of_nat ((d - 1) * (i + 1))) by nia.
    set (st := ((d - 1) * (i + 1))%nat) in *. clearbody st.
    rewrite (mul64_small (Z.of_nat d - 1)) by lia. rewrite Hz. small.
    unfold CI_numPoints. rewrite shl1_vec. unfold slice64.
    replace (Z.to_nat (1 + Z.of_nat st)) with (1 + st)%nat by lia.
    replace (Z.to_nat (if Z.of_nat (vecSize s) <? 1 + Z.of_nat st + Z.of_nat d - 1 then Z.of_nat (vecSize s) else 1 + Z.of_nat st + Z.of_nat d - 1))
      with (Nat.min (1 + st + d - 1) (vecSize s)); [reflexivity|].
    destruct (Z.ltb_spec (Z.of_nat (vecSize s)) (1 + Z.of_nat st + Z.of_nat d - 1)); lia. }
  intros [[e2 p2] cs] _. unfold CI_wiresEvaluationValue, D64. rewrite E2. small.
  rewrite (local64_nat _ _ _ _ (1 + vecSize s * 2 + 2)) by lia. apply same_refl.
Qed.

(** *** Poseidon *)
Lemma same_check state f start : (forall i, (i < 12)%nat -> f (Z.of_nat i) = Ret (Z.of_nat (start + i))) ->
  same (check_wires64 (localWires vars) state f) (check_wires (localWires vars) state start).
Proof.
  intros H. unfold check_wires64, check_wires. apply same_head. apply same_mapM. intros i Hi. apply in_seq in Hi.
  rewrite H by lia. cbn [bind]. rewrite (index_nat _ (start + i)) by reflexivity. apply same_refl.
Qed.
Lemma same_round st k f start : (forall i, (i < 12)%nat -> f (Z.of_nat i) = Ret (Z.of_nat (start + i))) ->
  same (gate_full_round64 (localWires vars) st (k, Some f)) (gate_full_round (localWires vars) st (k, Some start)).
Proof.
  intros H. destruct st as [state cs]. unfold gate_full_round64, gate_full_round.
  apply same_tail. intros st1 _. apply same_head. now apply same_check.
Qed.
Lemma full0 r i : (1 <= r < 4)%nat -> (i < 12)%nat ->
  P_WireFullSBox0 (Z.of_nat r) (Z.of_nat i) = Ret (Z.of_nat (START_FULL_0 + (r - 1) * 12 + i)).
Proof.
  intros Hr Hi. unfold P_WireFullSBox0, HALF64, WIDTH64, P_START_FULL_0, P_START_DELTA, WIDTH64, START_FULL_0, START_DELTA.
  rewrite (proj2 (Z.eqb_neq (Z.of_nat r) 0)) by lia. rewrite (proj2 (Z.leb_gt 4 (Z.of_nat r))) by lia.
  rewrite (proj2 (Z.leb_gt 12 (Z.of_nat i))) by lia. cbn [panic_if bind]. small. f_equal. lia.
Qed.
Lemma full1 r i : (r < 4)%nat -> (i < 12)%nat ->
  P_WireFullSBox1 (Z.of_nat r) (Z.of_nat i) = Ret (Z.of_nat (START_FULL_1 + r * 12 + i)).
Proof.
  intros Hr Hi. unfold P_WireFullSBox1, HALF64, WIDTH64, P_START_FULL_1, P_START_PARTIAL, P_START_FULL_0, P_START_DELTA, WIDTH64, HALF64, PARTIAL64.
  unfold START_FULL_1, START_PARTIAL, START_FULL_0, START_DELTA.
  rewrite (proj2 (Z.leb_gt 4 (Z.of_nat r))) by lia.
  rewrite (proj2 (Z.leb_gt 12 (Z.of_nat i))) by lia. cbn [panic_if bind]. small. f_equal. lia.
Qed.
Lemma delta i : (i < 4)%nat -> P_WireDelta (Z.of_nat i) = Ret (Z.of_nat (START_DELTA + i)).
Proof.
  intros Hi. unfold P_WireDelta, P_START_DELTA, WIDTH64, START_DELTA. rewrite (proj2 (Z.leb_gt 4 (Z.of_nat i))) by lia.
  cbn [panic_if bind]. small. f_equal. lia.
Qed.
Lemma partial r : (r < 22)%nat -> P_WirePartialSBox (Z.of_nat r) = Ret (Z.of_nat (START_PARTIAL + r)).
Proof.
  intros Hr. unfold P_WirePartialSBox, PARTIAL64, P_START_PARTIAL, P_START_FULL_0, P_START_DELTA, WIDTH64, HALF64.
  unfold START_PARTIAL, START_FULL_0, START_DELTA. rewrite (proj2 (Z.leb_gt 22 (Z.of_nat r))) by lia.
  cbn [panic_if bind]. small. f_equal. lia.
Qed.

Lemma same_poseidon : same (eval_poseidon64 vars) (eval_poseidon vars).
Proof.
  unfold eval_poseidon64, eval_poseidon. cbv zeta. unfold P_WireInput.
  rewrite (index_nat _ 24) by reflexivity. apply same_tail. intros sw _. apply same_tail. intros sm _. apply same_tail. intros c _.
  apply same_bind.
  { apply same_mapM. intros i Hi. apply in_seq in Hi. apply same_eq. rewrite delta by lia. small. cbn [bind].
    rewrite (index_nat _ i (Z.of_nat i)) by reflexivity. rewrite (index_nat _ (i + 4)) by lia.
    now rewrite (index_nat _ (START_DELTA + i)) by reflexivity. }
  intros cs _. apply same_bind.
  { apply same_mapM. intros i Hi. apply in_seq in Hi. apply same_eq. rewrite delta by lia. cbn [bind].
    rewrite (index_nat _ (START_DELTA + i)) by reflexivity. now rewrite (index_nat _ i (Z.of_nat i)) by reflexivity. }
  intros lhs _. apply same_bind.
  { apply same_mapM. intros i Hi. apply in_seq in Hi. apply same_eq. rewrite delta by lia. small. cbn [bind].
    rewrite (index_nat _ (START_DELTA + i)) by reflexivity. now rewrite (index_nat _ (i + 4)) by lia. }
  intros rhs _. apply same_bind.
  { apply same_mapM. intros i Hi. apply same_eq. now apply index_nat. }
  intros rest _. apply same_bind.
  { apply same_foldM. repeat (apply Forall2_cons; [intros st|]); [| | | |apply Forall2_nil].
    - destruct st as [state k]. apply same_refl.
    - apply same_round. intros i Hi. etransitivity; [exact (full0 1 i ltac:(lia) Hi)|]; do 2 f_equal; lia.
    - apply same_round. intros i Hi. etransitivity; [exact (full0 2 i ltac:(lia) Hi)|]; do 2 f_equal; lia.
    - apply same_round. intros i Hi. etransitivity; [exact (full0 3 i ltac:(lia) Hi)|]; do 2 f_equal; lia. }
  intros [st1 cs1] _. apply same_tail. intros st2 _. apply same_tail. intros st3 _. apply same_bind.
  { apply same_foldM. apply Forall2_same. intros r Hr [state k]. apply in_seq in Hr. apply same_eq.
    unfold gate_partial_round64, gate_partial_round. rewrite partial by lia. cbn [bind].
    now rewrite (index_nat _ (START_PARTIAL + r)) by reflexivity. }
  intros st4 _. apply same_bind.
  { apply same_foldM.
    repeat (apply Forall2_cons; [intros st; apply same_round; intros i Hi|]); [| | | |apply Forall2_nil].
    - etransitivity; [exact (full1 0 i ltac:(lia) Hi)|]; do 2 f_equal; lia.
    - etransitivity; [exact (full1 1 i ltac:(lia) Hi)|]; do 2 f_equal; lia.
    - etransitivity; [exact (full1 2 i ltac:(lia) Hi)|]; do 2 f_equal; lia.
    - etransitivity; [exact (full1 3 i ltac:(lia) Hi)|]; do 2 f_equal; lia. }
  intros [st5 cs5] _. apply same_head. apply same_mapM. intros [x i] Hi. apply in_combine_r in Hi. apply in_seq in Hi.
  apply same_eq. cbn [fst snd]. unfold P_WireOutput, WIDTH64. small. now rewrite (index_nat _ (12 + i)) by lia.
Qed.

Lemma same_poseidon_mds : same (eval_poseidon_mds64 unset vars) (eval_poseidon_mds vars).
Proof.
  unfold eval_poseidon_mds64, eval_poseidon_mds. apply same_bind.
  { apply same_mapM. intros i Hi. apply in_seq in Hi. apply same_eq. unfold PM_WireInput, WIDTH64, D64, D.
    rewrite (proj2 (Z.leb_gt 12 (Z.of_nat i))) by lia. cbn [panic_if bind]. small.
    rewrite (local64_nat _ _ _ _ (i * 2)) by lia. now replace (i * 2 + 2)%nat with ((i + 1) * 2)%nat by lia. }
  intros ins _. apply same_tail. intros outs _. apply same_head. apply same_mapM. intros [o i] Hi.
  apply in_combine_r in Hi. apply in_seq in Hi. apply same_eq. cbn [fst snd]. unfold PM_WireOutput, WIDTH64, D64, D.
  rewrite (proj2 (Z.leb_gt 12 (Z.of_nat i))) by lia. cbn [panic_if bind]. small.
  rewrite (local64_nat _ _ _ _ ((12 + i) * 2)) by lia. now replace ((12 + i) * 2 + 2)%nat with ((12 + i + 1) * 2)%nat by lia.
Qed.

(** what the gate strings can say: uint64 and int parameters, and a degree of at least two *)
Definition parameters_ok (g : Gate) : Prop :=
  match g with
  | ArithmeticGate n | ArithmeticExtensionGate n | ConstantGate n | ExponentiationGate n | MultiplicationExtensionGate n
  | ReducingExtensionGate n | ReducingGate n => Z.of_nat n < 2 ^ 63
  | BaseSumGate n b => Z.of_nat n < 2 ^ 63 /\ Z.of_nat b < 2 ^ 63
  | CosetInterpolationGate s d _ => Z.of_nat s < 2 ^ 64 /\ Z.of_nat d < 2 ^ 64 /\ (2 <= d)%nat
  | RandomAccessGate b c x => Z.of_nat b < 2 ^ 64 /\ Z.of_nat c < 2 ^ 64 /\ Z.of_nat x < 2 ^ 64
  | NoopGate | PoseidonGate | PoseidonMdsGate | PublicInputGate => True
  end.
Lemma same_gate g : parameters_ok g -> same (EvalUnfiltered64 unset g vars) (EvalUnfiltered g vars).
Proof.
  destruct g; cbn [parameters_ok EvalUnfiltered64 EvalUnfiltered]; intros H.
  - apply same_arithmetic.
  - apply same_arithmetic_ext.
  - apply same_base_sum.
  - apply same_constant.
  - now apply same_coset.
  - apply same_exponentiation.
  - apply same_mul_ext.
  - apply same_refl.
  - apply same_poseidon.
  - apply same_poseidon_mds.
  - apply same_public_input.
  - now apply same_random_access.
  - apply same_reducing_ext. lia.
  - now apply same_reducing.
Qed.
End gates.

Lemma same_constraints unset gates n info vars :
  Z.of_nat (length (localWires vars)) < 2 ^ 31 -> Z.of_nat (length (localConstants vars)) < 2 ^ 31 -> Forall parameters_ok gates ->
  same (EvaluateGateConstraints64 unset gates n info vars) (EvaluateGateConstraints gates n info vars).
Proof.
  intros Hw Hc Hg. unfold EvaluateGateConstraints64, EvaluateGateConstraints. apply same_foldM. apply Forall2_same.
  intros [i g] Hi acc. apply in_combine_r in Hi. rewrite Forall_forall in Hg. specialize (Hg g Hi). cbn [fst snd].
  apply same_tail. intros si _. apply same_tail. intros grp _. apply same_head.
  unfold evalFiltered64, evalFiltered. apply same_tail. intros sel _. apply same_tail. intros fl _.
  apply same_tail. intros v Rv. apply same_head. unfold RemovePrefix in Rv. apply reach_bind in Rv.
  destruct Rv as (lc & R & E). cbn in E. subst v. unfold slice_from in R.
  destruct (Nat.leb_spec (NumSelectors info) (length (localConstants vars))) as [L|L]; [|destruct R].
  cbn in R. subst lc. apply same_gate; [exact Hw| |exact Hg]. cbn [localConstants]. rewrite skipn_length. lia.
Qed.
