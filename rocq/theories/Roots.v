(** * Roots of unity in GF (goldilocks/base.go:444-471): orders, subgroups, root counting. *)
From Coq Require Import String.
From Coq Require Import ZArith NArith Lia List Bool.
From Verif Require Import Zp GF Circuit Goldilocks GLProofs Poly.
Import ListNotations.
Open Scope Z_scope.
Open Scope circ_scope.

Definition two_gen : GF := inj POWER_OF_TWO_GENERATOR.
(** the value computed by PrimitiveRootOfUnity *)
Definition root (n : nat) : GF := (two_gen ^ (2 ^ N.of_nat (TWO_ADICITY - n)))%GF.

Lemma sq_iter (a : GF) k : Nat.iter k (fun x => (x * x) mod MODULUS) (rep a) = rep (a ^ (2 ^ N.of_nat k))%GF.
Proof.
  induction k as [|k IH]; [reflexivity|]. change (Nat.iter (S k) ?f ?x) with (f (Nat.iter k f x)). cbn beta.
  rewrite IH, Nat2N.inj_succ, N.pow_succ_r'. replace (2 * 2 ^ N.of_nat k)%N with (2 ^ N.of_nat k + 2 ^ N.of_nat k)%N by lia.
  rewrite gpow_add. unfold gmul. rewrite rep_inj. reflexivity.
Qed.
Lemma two_gen_rep : POWER_OF_TWO_GENERATOR = rep two_gen. Proof. reflexivity. Qed.
Lemma root_computes n : (n <= TWO_ADICITY)%nat -> computes (PrimitiveRootOfUnity n) (rep (root n)).
Proof.
  intros H. unfold PrimitiveRootOfUnity. replace (Nat.ltb TWO_ADICITY n) with false by (symmetry; apply Nat.ltb_ge; exact H).
  rewrite two_gen_rep, sq_iter. apply computes_ret.
Qed.
Lemma root_panics n : (TWO_ADICITY < n)%nat -> exists m, PrimitiveRootOfUnity n = Panic m.
Proof. intros H. unfold PrimitiveRootOfUnity. apply Nat.ltb_lt in H. rewrite H. eexists. reflexivity. Qed.

Lemma two_gen_31 : (two_gen ^ (2 ^ 31))%GF = (- (1))%GF.
Proof. apply GF_eq. change (2 ^ 31)%N with (2 ^ N.of_nat 31)%N. rewrite <- sq_iter. vm_compute. reflexivity. Qed.
Lemma root_half n : (1 <= n <= TWO_ADICITY)%nat -> (root n ^ (2 ^ N.of_nat (n - 1)))%GF = (- (1))%GF.
Proof.
  unfold TWO_ADICITY. intros H. unfold root, TWO_ADICITY. rewrite <- gpow_mul, <- N.pow_add_r.
  replace (N.of_nat (32 - n) + N.of_nat (n - 1))%N with 31%N by lia. apply two_gen_31.
Qed.
Lemma root_order_1 n : (n <= TWO_ADICITY)%nat -> (root n ^ (2 ^ N.of_nat n))%GF = 1%GF.
Proof.
  unfold TWO_ADICITY. intros H. unfold root, TWO_ADICITY. rewrite <- gpow_mul, <- N.pow_add_r.
  replace (N.of_nat (32 - n) + N.of_nat n)%N with (31 + 1)%N by lia.
  rewrite N.pow_add_r, gpow_mul, two_gen_31. change (2 ^ 1)%N with 2%N. ring.
Qed.

(** splitting off the power of two *)
Lemma odd_part (k : N) : (k <> 0 -> exists v m, k = 2 ^ N.of_nat v * (2 * m + 1))%N.
Proof.
  destruct k as [|q]; [congruence|]. intros _. induction q as [q IH|q IH|].
  - exists O, (N.pos q). cbn [N.of_nat]. rewrite N.pow_0_r. lia.
  - destruct IH as (v & m & E). exists (S v), m. rewrite Nat2N.inj_succ, N.pow_succ_r'.
    replace (2 * 2 ^ N.of_nat v * (2 * m + 1))%N with (2 * (2 ^ N.of_nat v * (2 * m + 1)))%N by lia. rewrite <- E. reflexivity.
  - exists O, 0%N. reflexivity.
Qed.
Lemma root_pow_1 n k : (n <= TWO_ADICITY)%nat -> ((root n ^ k)%GF = 1%GF <-> (2 ^ N.of_nat n | k)%N).
Proof.
  intros Hn. split.
  - intros E. destruct (N.eq_dec k 0) as [->|Hk]; [apply N.divide_0_r|].
    destruct (odd_part k Hk) as (v & m & ->). destruct (Nat.le_gt_cases n v) as [L|L].
    + exists (2 ^ N.of_nat (v - n) * (2 * m + 1))%N.
      replace (N.of_nat v) with (N.of_nat (v - n) + N.of_nat n)%N by lia. rewrite N.pow_add_r. lia.
    + exfalso. assert (F : ((root n ^ (2 ^ N.of_nat v * (2 * m + 1))) ^ (2 ^ N.of_nat (n - 1 - v)) = 1)%GF)
        by (rewrite E; apply gpow_1_l).
      rewrite <- gpow_mul in F.
      replace (2 ^ N.of_nat v * (2 * m + 1) * 2 ^ N.of_nat (n - 1 - v))%N with (2 ^ N.of_nat (n - 1) * (2 * m + 1))%N in F.
      2:{ replace (N.of_nat (n - 1)) with (N.of_nat v + N.of_nat (n - 1 - v))%N by lia. rewrite N.pow_add_r. lia. }
      rewrite gpow_mul, root_half in F by lia. rewrite gpow_add, gpow_mul in F.
      replace ((- (1)) ^ 2)%GF with 1%GF in F by ring. rewrite gpow_1_l, gpow_1 in F.
      apply gneg1_neq1. etransitivity; [|exact F]. ring.
  - intros [q ->]. rewrite N.mul_comm, gpow_mul, root_order_1, gpow_1_l by exact Hn. reflexivity.
Qed.
Lemma root_nz n : (n <= TWO_ADICITY)%nat -> root n <> 0%GF.
Proof.
  intros Hn E. pose proof (root_order_1 n Hn) as H. rewrite E in H.
  assert (Z : forall k, (k <> 0)%N -> (g0 ^ k)%GF = g0).
  { intros k Hk. destruct (N.succ_pred k Hk) as []. rewrite gpow_succ. ring. }
  rewrite Z in H; [now apply g1_neq_g0|]. apply N.pow_nonzero. discriminate.
Qed.
Lemma root_pow_inj n i j : (n <= TWO_ADICITY)%nat -> (i < 2 ^ N.of_nat n)%N -> (j < 2 ^ N.of_nat n)%N ->
  (root n ^ i = root n ^ j)%GF -> i = j.
Proof.
  intros Hn.
  assert (G : forall a b, (a <= b < 2 ^ N.of_nat n)%N -> (root n ^ a = root n ^ b)%GF -> a = b).
  { intros a b Hab E. replace b with (a + (b - a))%N in E by lia. rewrite gpow_add in E.
    assert (F : (root n ^ (b - a) = 1)%GF).
    { pose proof (gpow_nz _ a (root_nz n Hn)) as Hz. replace (root n ^ (b - a))%GF with (ginv (root n ^ a) * (root n ^ a * root n ^ (b - a)))%GF.
      - rewrite <- E. now apply ginv_l.
      - field. exact Hz. }
    apply root_pow_1 in F; [|exact Hn]. destruct F as [q F].
    destruct (N.eq_dec q 0) as [->|Hq]; [lia|]. nia. }
  intros Hi Hj E. destruct (N.le_gt_cases i j); [apply G; auto|symmetry; apply G; [lia|auto]].
Qed.
Lemma root_period n i : (n <= TWO_ADICITY)%nat -> (root n ^ i = root n ^ (i mod 2 ^ N.of_nat n))%GF.
Proof.
  intros Hn. pose proof (N.pow_nonzero 2 (N.of_nat n) ltac:(lia)) as Hz.
  rewrite (N.div_mod i (2 ^ N.of_nat n) Hz) at 1. rewrite gpow_add, gpow_mul, root_order_1, gpow_1_l by exact Hn. ring.
Qed.

(** ** Polynomials over GF *)
Notation gpeval := (peval g0 gadd gmul).
Lemma gregular d : d <> 0%GF -> regular g0 gmul d.
Proof. intros H y E. apply gmul_eq0 in E. tauto. Qed.
Lemma gseparated xs : NoDup xs -> separated g0 gmul gsub xs.
Proof.
  induction 1 as [|a xs Ha Hn IH]; [constructor|]. constructor; [|exact IH]. apply Forall_forall. intros b Hb.
  apply gregular. intros E. apply (proj1 (gsub_eq0 _ _)) in E. subst b. contradiction.
Qed.
Lemma gpow_deg n : deg g0 gadd gmul (S n) (fun x => x ^ N.of_nat n)%GF.
Proof.
  induction n as [|n IH].
  - apply (deg_ext _ _ _ _ (fun _ => g1)); [apply (deg_const _ _ _ _ _ _ GF_ring)|]. reflexivity.
  - apply (deg_ext _ _ _ _ (fun x => x * x ^ N.of_nat n)%GF); [apply (deg_mulx _ _ _ _ _ _ GF_ring), IH|].
    intros x. now rewrite Nat2N.inj_succ, gpow_succ.
Qed.
(** at most n solutions of x^n = 1 *)
Lemma roots_of_unity_bound n xs : (1 <= n)%nat -> NoDup xs -> (forall x, In x xs -> (x ^ N.of_nat n = 1)%GF) -> (length xs <= n)%nat.
Proof.
  intros Hn Hd Hr. destruct (Nat.le_gt_cases (length xs) n) as [|L]; [assumption|exfalso].
  assert (D : deg g0 gadd gmul (length xs) (fun x => x ^ N.of_nat n - 1)%GF).
  { apply (deg_le _ _ _ (S n)); [|lia]. apply (deg_sub _ _ _ _ _ _ GF_ring); [apply gpow_deg|apply (deg_const _ _ _ _ _ _ GF_ring)]. }
  pose proof (agree _ _ _ _ _ _ GF_ring xs _ (fun _ => g0) (gseparated xs Hd) D (deg_zero _ _ _ _)) as A.
  specialize (A (fun x Hx => proj2 (gsub_eq0 _ _) (Hr x Hx)) g0). cbn beta in A.
  destruct n as [|n]; [lia|]. rewrite Nat2N.inj_succ, gpow_succ in A. apply gneg1_neq1.
  assert (Z : (g1 = g0)%GF). { replace g1 with (- (g0 * g0 ^ N.of_nat n - 1))%GF by ring. rewrite A. ring. }
  exfalso. exact (g1_neq_g0 Z).
Qed.

(** ** TwoAdicSubgroup *)
Definition powers (g : GF) (n : nat) : list GF := map (fun i => (g ^ N.of_nat i)%GF) (seq 0 n).
Lemma subgroup_from_powers g k : forall x, subgroup_from (rep x) (rep g) k = map rep (map (fun y => x * y)%GF (powers g (S k))).
Proof.
  induction k as [|k IH]; intros x; unfold powers.
  - cbn. apply (f_equal (fun z => [z])). apply f_equal. ring.
  - change (seq 0 (S (S k))) with (O :: seq 1 (S k)). rewrite <- (seq_shift (S k) 0).
    cbn [subgroup_from map]. apply f_equal2; [apply f_equal; change (N.of_nat 0) with 0%N; rewrite gpow_0; ring|].
    change ((rep x * rep g) mod MODULUS) with (rep (x * g)%GF). rewrite IH. unfold powers.
    rewrite !map_map. apply map_ext. intros i. rewrite Nat2N.inj_succ, gpow_succ. apply f_equal. ring.
Qed.
Lemma two_adic_subgroup_computes n : (n <= TWO_ADICITY)%nat -> computes (TwoAdicSubgroup n) (map rep (powers (root n) (2 ^ n))).
Proof.
  intros H. unfold TwoAdicSubgroup. replace (Nat.ltb TWO_ADICITY n) with false by (symmetry; apply Nat.ltb_ge; exact H).
  eapply computes_bind; [now apply root_computes|]. change 1 with (rep g1). rewrite subgroup_from_powers.
  assert (E : S (2 ^ n - 1) = (2 ^ n)%nat). { pose proof (Nat.pow_nonzero 2 n). lia. }
  rewrite E. eapply computes_eq; [apply computes_ret|]. rewrite map_map. apply map_ext. intros y. apply f_equal. ring.
Qed.
Lemma pow2_nat_N n : N.of_nat (2 ^ n) = (2 ^ N.of_nat n)%N.
Proof.
  induction n as [|n IH]; [reflexivity|]. rewrite Nat2N.inj_succ, N.pow_succ_r', <- IH.
  change (2 ^ S n)%nat with (2 ^ n + (2 ^ n + 0))%nat. lia.
Qed.
Lemma powers_nodup n : (n <= TWO_ADICITY)%nat -> NoDup (powers (root n) (2 ^ n)).
Proof.
  intros Hn. unfold powers. apply NoDup_nth with (d := g0). rewrite map_length, seq_length. intros i j Hi Hj E.
  rewrite !(nth_indep _ g0 (root n ^ N.of_nat 0)%GF) in E by (rewrite map_length, seq_length; lia).
  rewrite !(map_nth (fun i => root n ^ N.of_nat i)%GF), !seq_nth in E by lia.
  apply root_pow_inj in E; [lia|exact Hn|rewrite <- pow2_nat_N; lia|rewrite <- pow2_nat_N; lia].
Qed.
Lemma powers_exact n x : (n <= TWO_ADICITY)%nat -> (In x (powers (root n) (2 ^ n)) <-> (x ^ (2 ^ N.of_nat n) = 1)%GF).
Proof.
  intros Hn.
  assert (F : forall y, In y (powers (root n) (2 ^ n)) -> (y ^ (2 ^ N.of_nat n) = 1)%GF).
  { intros y Hy. unfold powers in Hy. apply in_map_iff in Hy. destruct Hy as (i & <- & _).
    rewrite <- gpow_mul, N.mul_comm, gpow_mul, root_order_1, gpow_1_l by exact Hn. reflexivity. }
  split; [apply F|]. intros E.
  destruct (in_dec GF_eq_dec x (powers (root n) (2 ^ n))) as [|N]; [assumption|exfalso].
  assert (L : (length (x :: powers (root n) (2 ^ n)) <= 2 ^ n)%nat).
  { apply roots_of_unity_bound.
    - pose proof (Nat.pow_nonzero 2 n). lia.
    - constructor; [exact N|now apply powers_nodup].
    - rewrite pow2_nat_N. intros y [<-|Hy]; [exact E|now apply F]. }
  unfold powers in L. cbn [length] in L. rewrite map_length, seq_length in L. lia.
Qed.
