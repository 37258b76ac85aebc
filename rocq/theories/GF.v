(** * The Goldilocks field GF(p) and its quadratic extension K = GF(p)[X]/(X^2-7).

    These are the specification-level fields; nothing here refers to the circuit
    model.  Elements are canonical residues with Leibniz equality. *)
From Coq Require Import ZArith Znumtheory Zpow_facts Lia List Bool Eqdep_dec.
From Coq Require Export Ring_theory Field_theory Ring Field.
From Verif Require Import Zp.
Import ListNotations.
Open Scope Z_scope.

Definition canon (x : Z) : bool := (0 <=? x) && (x <? p).
Lemma canon_iff x : canon x = true <-> 0 <= x < p.
Proof. unfold canon. rewrite andb_true_iff, Z.leb_le, Z.ltb_lt. reflexivity. Qed.

Record GF : Set := mkGF { rep : Z; rep_canon : canon rep = true }.

Lemma GF_eq a b : rep a = rep b -> a = b.
Proof.
  destruct a as [x Hx], b as [y Hy]; cbn [rep]; intros ->.
  f_equal. apply UIP_dec, bool_dec.
Qed.

Lemma rep_range a : 0 <= rep a < p.
Proof. apply canon_iff, rep_canon. Qed.

Lemma canon_mod x : canon (x mod p) = true.
Proof. apply canon_iff, Z.mod_pos_bound, p_pos. Qed.

Definition inj (x : Z) : GF := mkGF (x mod p) (canon_mod x).

Lemma rep_inj x : rep (inj x) = x mod p. Proof. reflexivity. Qed.
Lemma rep_inj_small x : 0 <= x < p -> rep (inj x) = x.
Proof. intros H. apply Z.mod_small, H. Qed.
Lemma inj_rep a : inj (rep a) = a.
Proof. apply GF_eq. cbn [rep inj]. apply Z.mod_small, rep_range. Qed.
Lemma inj_mod x : inj (x mod p) = inj x.
Proof. apply GF_eq. cbn [rep inj]. apply Z.mod_mod. discriminate. Qed.
Lemma inj_eq x y : x mod p = y mod p -> inj x = inj y.
Proof. intros H. now apply GF_eq. Qed.
Lemma rep_eq a b : a = b <-> rep a = rep b.
Proof. split; [now intros ->|apply GF_eq]. Qed.
Lemma canon_rep_exists x : 0 <= x < p -> exists a, rep a = x.
Proof. intros H. exists (inj x). now apply rep_inj_small. Qed.

Definition g0 : GF := mkGF 0 eq_refl.
Definition g1 : GF := mkGF 1 eq_refl.
Definition gadd (a b : GF) : GF := inj (rep a + rep b).
Definition gmul (a b : GF) : GF := inj (rep a * rep b).
Definition gsub (a b : GF) : GF := inj (rep a - rep b).
Definition gopp (a : GF) : GF := inj (- rep a).
Definition ginv (a : GF) : GF := inj (powm p (rep a) (p - 2)).
Definition gdiv (a b : GF) : GF := gmul a (ginv b).

Declare Scope GF_scope.
Delimit Scope GF_scope with GF.
Bind Scope GF_scope with GF.
Notation "0" := g0 : GF_scope.
Notation "1" := g1 : GF_scope.
Infix "+" := gadd : GF_scope.
Infix "*" := gmul : GF_scope.
Infix "-" := gsub : GF_scope.
Notation "- a" := (gopp a) : GF_scope.
Infix "/" := gdiv : GF_scope.

Lemma inj_add x y : inj (x + y) = (inj x + inj y)%GF.
Proof. apply GF_eq. unfold gadd. cbn [rep inj]. now rewrite Z.add_mod by discriminate. Qed.
Lemma inj_mul x y : inj (x * y) = (inj x * inj y)%GF.
Proof. apply GF_eq. unfold gmul. cbn [rep inj]. now rewrite Z.mul_mod by discriminate. Qed.
Lemma inj_sub x y : inj (x - y) = (inj x - inj y)%GF.
Proof. apply GF_eq. unfold gsub. cbn [rep inj]. now rewrite Zminus_mod. Qed.
Lemma inj_opp x : inj (- x) = (- inj x)%GF.
Proof.
  apply GF_eq. unfold gopp. cbn [rep inj].
  replace (- x) with (0 - x) by ring. replace (- (x mod p)) with (0 - x mod p) by ring.
  rewrite Zminus_mod, (Zminus_mod 0 (x mod p)), Z.mod_mod by discriminate. reflexivity.
Qed.
Lemma inj_p : inj p = 0%GF.
Proof. now apply GF_eq. Qed.

Lemma g0_inj : g0 = inj 0. Proof. now apply GF_eq. Qed.
Lemma g1_inj : g1 = inj 1. Proof. now apply GF_eq. Qed.

Lemma GF_ring : ring_theory 0%GF 1%GF gadd gmul gsub gopp eq.
Proof.
  constructor; intros; repeat match goal with a : GF |- _ => rewrite <- (inj_rep a); generalize (rep a); clear a; intros a end;
    rewrite ?g0_inj, ?g1_inj;
    rewrite <- ?inj_opp, <- ?inj_sub, <- ?inj_add, <- ?inj_mul, <- ?inj_add, <- ?inj_mul, <- ?inj_add; f_equal; ring.
Qed.

Lemma g1_neq_g0 : g1 <> g0.
Proof. intros H. apply (f_equal rep) in H. discriminate. Qed.

Lemma ginv_l a : a <> 0%GF -> (ginv a * a = 1)%GF.
Proof.
  intros Ha. apply GF_eq. unfold gmul, ginv. cbn [rep inj g1].
  rewrite Z.mul_mod_idemp_l by discriminate.
  rewrite powm_spec by (try exact p_pos; discriminate).
  rewrite Z.mul_mod_idemp_l by discriminate.
  assert (Hr := rep_range a).
  assert (Hn : rep a mod p <> 0).
  { rewrite Z.mod_small by exact Hr. intros E. apply Ha, GF_eq. exact E. }
  pose proof (fermat_p (rep a) Hn) as F. revert F.
  generalize (rep a). intros x F. rewrite <- F.
  f_equal. rewrite Z.mul_comm, <- Z.pow_succ_r by discriminate. reflexivity.
Qed.

Lemma GF_field : field_theory 0%GF 1%GF gadd gmul gsub gopp gdiv ginv eq.
Proof.
  constructor; [exact GF_ring|exact g1_neq_g0|reflexivity|exact ginv_l].
Qed.

Definition gpow (a : GF) (n : N) : GF := pow_N 1%GF gmul a n.
Infix "^" := gpow : GF_scope.

Lemma GF_powerN : power_theory 1%GF gmul eq (fun n : N => n) gpow.
Proof. constructor. intros a n. reflexivity. Qed.

Ltac GFcst t :=
  match t with
  | g0 => constr:(g0) | g1 => constr:(g1)
  | _ => constr:(NotConstant)
  end.
Ltac Npow_cst t :=
  match InitialRing.isNcst t with true => t | _ => constr:(InitialRing.NotConstant) end.

Add Field GFfield : GF_field (power_tac GF_powerN [Npow_cst]).

Definition geqb (a b : GF) : bool := rep a =? rep b.
Lemma geqb_eq a b : geqb a b = true <-> a = b.
Proof. unfold geqb. rewrite Z.eqb_eq. symmetry. apply rep_eq. Qed.
Lemma geqb_neq a b : geqb a b = false <-> a <> b.
Proof. rewrite <- geqb_eq. destruct (geqb a b); split; congruence. Qed.
Lemma GF_eq_dec (a b : GF) : {a = b} + {a <> b}.
Proof. destruct (geqb a b) eqn:E; [left; now apply geqb_eq|right; now apply geqb_neq]. Qed.

Lemma gmul_eq0 a b : (a * b = 0 -> a = 0 \/ b = 0)%GF.
Proof.
  intros H. destruct (GF_eq_dec a g0) as [->|Ha]; [now left|right].
  transitivity (ginv a * (a * b))%GF; [field; exact Ha|rewrite H; ring].
Qed.

Lemma ginv_0 : ginv g0 = g0.
Proof. apply GF_eq. vm_compute. reflexivity. Qed.

Lemma gsub_eq0 a b : (a - b = 0 <-> a = b)%GF.
Proof.
  split; [intros H|intros ->; ring].
  transitivity (a - b + b)%GF; [ring|rewrite H; ring].
Qed.

Lemma gpow_succ a n : (a ^ N.succ n = a * a ^ n)%GF.
Proof.
  destruct n as [|q]; cbn; [ring|].
  apply pow_pos_succ; [apply Eqsth| |].
  - intros ? ? -> ? ? ->. reflexivity.
  - intros; ring.
Qed.
Lemma gpow_0 a : (a ^ 0 = 1)%GF. Proof. reflexivity. Qed.
Lemma gpow_1 a : (a ^ 1 = a)%GF. Proof. reflexivity. Qed.
Lemma gpow_add a n m : (a ^ (n + m) = a ^ n * a ^ m)%GF.
Proof.
  induction n as [|n IH] using N.peano_ind.
  - rewrite N.add_0_l, gpow_0. ring.
  - rewrite N.add_succ_l, !gpow_succ, IH. ring.
Qed.
Lemma gpow_mul a n m : (a ^ (n * m) = (a ^ n) ^ m)%GF.
Proof.
  induction m as [|m IH] using N.peano_ind.
  - now rewrite N.mul_0_r.
  - rewrite N.mul_succ_r, gpow_add, gpow_succ, IH. ring.
Qed.
Lemma gpow_1_l n : (1 ^ n = 1)%GF.
Proof. induction n as [|n IH] using N.peano_ind; [reflexivity|rewrite gpow_succ, IH; ring]. Qed.
Lemma gpow_mul_l a b n : ((a * b) ^ n = a ^ n * b ^ n)%GF.
Proof.
  induction n as [|n IH] using N.peano_ind; [rewrite !gpow_0; ring|].
  rewrite !gpow_succ, IH. ring.
Qed.
Lemma gpow_nz a n : a <> 0%GF -> (a ^ n <> 0)%GF.
Proof.
  intros Ha. induction n as [|n IH] using N.peano_ind; [exact g1_neq_g0|].
  rewrite gpow_succ. intros E. apply gmul_eq0 in E. tauto.
Qed.

Lemma rep_gpow a n : rep (a ^ n)%GF = (rep a ^ Z.of_N n) mod p.
Proof.
  induction n as [|n IH] using N.peano_ind; [reflexivity|].
  rewrite gpow_succ. unfold gmul. rewrite rep_inj, IH.
  rewrite N2Z.inj_succ, Z.pow_succ_r by lia. apply Z.mul_mod_idemp_r. discriminate.
Qed.

(** Fermat in GF. *)
Lemma gpow_fermat a : a <> 0%GF -> (a ^ Z.to_N (p - 1) = 1)%GF.
Proof.
  intros Ha. apply GF_eq. rewrite rep_gpow, Z2N.id by discriminate.
  apply fermat_p. rewrite Z.mod_small by apply rep_range.
  intros E. apply Ha, GF_eq. exact E.
Qed.

(** 7 is not a square: Euler's criterion. *)
Definition g7 : GF := mkGF 7 eq_refl.
Lemma euler7 : (g7 ^ Z.to_N ((p - 1) / 2) = - (1))%GF.
Proof. apply GF_eq. vm_compute. reflexivity. Qed.

Lemma gneg1_neq1 : (- (1) <> 1)%GF.
Proof. intros H. apply (f_equal rep) in H. discriminate. Qed.

Lemma seven_nonsquare a : (a * a <> g7)%GF.
Proof.
  intros H.
  assert (Ha : a <> g0). { intros ->. apply (f_equal rep) in H. discriminate. }
  pose proof (gpow_fermat a Ha) as F.
  assert (E : Z.to_N (p - 1) = (2 * Z.to_N ((p - 1) / 2))%N) by reflexivity.
  rewrite E, gpow_mul in F. replace (a ^ 2)%GF with (a * a)%GF in F by ring.
  rewrite H, euler7 in F. exact (gneg1_neq1 F).
Qed.

(** ** The quadratic extension. *)
Definition K : Set := (GF * GF)%type.
Definition k0 : K := (g0, g0).
Definition k1 : K := (g1, g0).
Definition kadd (a b : K) : K := (gadd (fst a) (fst b), gadd (snd a) (snd b)).
Definition ksub (a b : K) : K := (gsub (fst a) (fst b), gsub (snd a) (snd b)).
Definition kopp (a : K) : K := (gopp (fst a), gopp (snd a)).
Definition kmul (a b : K) : K :=
  (fst a * fst b + g7 * (snd a * snd b), fst a * snd b + snd a * fst b)%GF.
(** Norm and conjugate. *)
Definition kconj (a : K) : K := (fst a, gopp (snd a)).
Definition knorm (a : K) : GF := (fst a * fst a - g7 * (snd a * snd a))%GF.
Definition kinv (a : K) : K :=
  (fst a * ginv (knorm a), - snd a * ginv (knorm a))%GF.
Definition kdiv (a b : K) : K := kmul a (kinv b).
Definition emb (a : GF) : K := (a, g0).
Definition kX : K := (g0, g1).

Declare Scope K_scope.
Delimit Scope K_scope with K.
Bind Scope K_scope with K.
Notation "0" := k0 : K_scope.
Notation "1" := k1 : K_scope.
Infix "+" := kadd : K_scope.
Infix "*" := kmul : K_scope.
Infix "-" := ksub : K_scope.
Notation "- a" := (kopp a) : K_scope.
Infix "/" := kdiv : K_scope.

Lemma K_eq (a b : K) : fst a = fst b -> snd a = snd b -> a = b.
Proof. destruct a, b; cbn; congruence. Qed.

Lemma K_ring : ring_theory 0%K 1%K kadd kmul ksub kopp eq.
Proof.
  constructor; intros; apply K_eq; unfold kadd, kmul, ksub, kopp, k0, k1; cbn [fst snd]; ring.
Qed.

Lemma knorm_0 a : knorm a = 0%GF -> a = 0%K.
Proof.
  intros H. unfold knorm in H. apply (proj1 (gsub_eq0 _ _)) in H.
  destruct (GF_eq_dec (snd a) g0) as [E|E].
  - apply K_eq; [|exact E]. cbn. rewrite E in H.
    assert (H' : (fst a * fst a = 0)%GF) by (rewrite H; ring).
    apply gmul_eq0 in H'. tauto.
  - exfalso. apply (seven_nonsquare (fst a / snd a)).
    transitivity ((fst a * fst a) / (snd a * snd a))%GF; [field; exact E|].
    rewrite H. field. exact E.
Qed.

Lemma k1_neq_k0 : k1 <> k0.
Proof. intros H. apply g1_neq_g0. exact (f_equal fst H). Qed.

Lemma kinv_l a : a <> 0%K -> (kinv a * a = 1)%K.
Proof.
  intros Ha. assert (Hn : knorm a <> g0) by (intros H; now apply Ha, knorm_0).
  unfold kinv. apply K_eq; unfold kmul, k1; cbn [fst snd].
  - replace (fst a * ginv (knorm a) * fst a + g7 * (- snd a * ginv (knorm a) * snd a))%GF
      with (ginv (knorm a) * knorm a)%GF by (unfold knorm; ring).
    now apply ginv_l.
  - ring.
Qed.

Lemma K_field : field_theory 0%K 1%K kadd kmul ksub kopp kdiv kinv eq.
Proof. constructor; [exact K_ring|exact k1_neq_k0|reflexivity|exact kinv_l]. Qed.

Definition kpow (a : K) (n : N) : K := pow_N 1%K kmul a n.
Infix "^" := kpow : K_scope.
Lemma K_powerN : power_theory 1%K kmul eq (fun n : N => n) kpow.
Proof. constructor. intros a n. reflexivity. Qed.
Add Field Kfield : K_field (power_tac K_powerN [Npow_cst]).

Definition keqb (a b : K) : bool := geqb (fst a) (fst b) && geqb (snd a) (snd b).
Lemma keqb_eq a b : keqb a b = true <-> a = b.
Proof.
  unfold keqb. rewrite andb_true_iff, !geqb_eq. split.
  - intros [H1 H2]. now apply K_eq.
  - now intros ->.
Qed.
Lemma K_eq_dec (a b : K) : {a = b} + {a <> b}.
Proof.
  destruct (keqb a b) eqn:E; [left; now apply keqb_eq|right].
  intros H. apply keqb_eq in H. congruence.
Qed.

Lemma kmul_eq0 a b : (a * b = 0 -> a = 0 \/ b = 0)%K.
Proof.
  intros H. destruct (K_eq_dec a k0) as [->|Ha]; [now left|right].
  transitivity (kinv a * (a * b))%K; [field; exact Ha|rewrite H; ring].
Qed.
Lemma ksub_eq0 a b : (a - b = 0 <-> a = b)%K.
Proof.
  split; [intros H|intros ->; ring].
  transitivity (a - b + b)%K; [ring|rewrite H; ring].
Qed.

Lemma kpow_succ a n : (a ^ N.succ n = a * a ^ n)%K.
Proof.
  destruct n as [|q]; [unfold kpow; cbn [N.succ pow_N pow_pos]; ring|].
  change (pow_pos kmul a (Pos.succ q) = kmul a (pow_pos kmul a q)).
  apply pow_pos_succ; [apply Eqsth| |].
  - intros ? ? -> ? ? ->. reflexivity.
  - intros; ring.
Qed.
Lemma kpow_0 a : (a ^ 0 = 1)%K. Proof. reflexivity. Qed.
Lemma kpow_1 a : (a ^ 1 = a)%K. Proof. reflexivity. Qed.
Lemma kpow_add a n m : (a ^ (n + m) = a ^ n * a ^ m)%K.
Proof.
  induction n as [|n IH] using N.peano_ind.
  - rewrite N.add_0_l, kpow_0. ring.
  - rewrite N.add_succ_l, !kpow_succ, IH. ring.
Qed.
Lemma kpow_mul a n m : (a ^ (n * m) = (a ^ n) ^ m)%K.
Proof.
  induction m as [|m IH] using N.peano_ind.
  - now rewrite N.mul_0_r.
  - rewrite N.mul_succ_r, kpow_add, kpow_succ, IH. ring.
Qed.
Lemma kpow_1_l n : (1 ^ n = 1)%K.
Proof. induction n as [|n IH] using N.peano_ind; [reflexivity|rewrite kpow_succ, IH; ring]. Qed.
Lemma kpow_mul_l a b n : ((a * b) ^ n = a ^ n * b ^ n)%K.
Proof.
  induction n as [|n IH] using N.peano_ind; [rewrite !kpow_0; ring|].
  rewrite !kpow_succ, IH. ring.
Qed.
Lemma kpow_nz a n : a <> 0%K -> (a ^ n <> 0)%K.
Proof.
  intros Ha. induction n as [|n IH] using N.peano_ind; [exact k1_neq_k0|].
  rewrite kpow_succ. intros E. apply kmul_eq0 in E. tauto.
Qed.

Lemma emb_add a b : emb (a + b)%GF = (emb a + emb b)%K.
Proof. apply K_eq; cbn; ring. Qed.
Lemma emb_sub a b : emb (a - b)%GF = (emb a - emb b)%K.
Proof. apply K_eq; cbn; ring. Qed.
Lemma emb_mul a b : emb (a * b)%GF = (emb a * emb b)%K.
Proof. apply K_eq; cbn; ring. Qed.
Lemma emb_opp a : emb (- a)%GF = (- emb a)%K.
Proof. apply K_eq; cbn; ring. Qed.
Lemma emb_0 : emb g0 = k0. Proof. reflexivity. Qed.
Lemma emb_1 : emb g1 = k1. Proof. reflexivity. Qed.
Lemma emb_inj a b : emb a = emb b -> a = b.
Proof. intros H. exact (f_equal fst H). Qed.
Lemma emb_pow a n : emb (a ^ n)%GF = (emb a ^ n)%K.
Proof.
  induction n as [|n IH] using N.peano_ind; [reflexivity|].
  rewrite gpow_succ, kpow_succ, emb_mul, IH. reflexivity.
Qed.
Lemma emb_inv a : a <> g0 -> emb (ginv a) = kinv (emb a).
Proof.
  intros Ha. assert (Hk : emb a <> k0) by (intros H; now apply Ha, emb_inj).
  transitivity (emb (ginv a) * emb a * kinv (emb a))%K; [field; exact Hk|].
  rewrite <- emb_mul, ginv_l by exact Ha. rewrite emb_1. ring.
Qed.

Arguments gadd : simpl never.
Arguments gmul : simpl never.
Arguments gsub : simpl never.
Arguments gopp : simpl never.
Arguments ginv : simpl never.
Arguments gpow : simpl never.
Arguments kadd : simpl never.
Arguments kmul : simpl never.
Arguments ksub : simpl never.
Arguments kopp : simpl never.
Arguments kinv : simpl never.
Arguments kpow : simpl never.
Arguments inj : simpl never.
