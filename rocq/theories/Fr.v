(** * The BN254 scalar field Z/r as a ring with Leibniz equality.

    Specification level; circuit values are the canonical residues. *)
From Coq Require Import ZArith Lia List Bool Eqdep_dec.
From Coq Require Export Ring_theory Ring.
From Verif Require Import Zp.
Import ListNotations.
Open Scope Z_scope.

Definition fcanon (x : Z) : bool := (0 <=? x) && (x <? r).
Lemma fcanon_iff x : fcanon x = true <-> 0 <= x < r.
Proof. unfold fcanon. rewrite andb_true_iff, Z.leb_le, Z.ltb_lt. reflexivity. Qed.
Record Fr : Set := mkFr { frep : Z; frep_canon : fcanon frep = true }.
Lemma Fr_eq a b : frep a = frep b -> a = b.
Proof.
  destruct a as [x Hx], b as [y Hy]; cbn [frep]; intros ->.
  f_equal. apply UIP_dec, bool_dec.
Qed.
Lemma frep_range a : 0 <= frep a < r. Proof. apply fcanon_iff, frep_canon. Qed.
Lemma fcanon_mod x : fcanon (x mod r) = true.
Proof. apply fcanon_iff, Z.mod_pos_bound, r_pos. Qed.
Definition finj (x : Z) : Fr := mkFr (x mod r) (fcanon_mod x).
Lemma frep_inj x : frep (finj x) = x mod r. Proof. reflexivity. Qed.
Lemma frep_inj_small x : 0 <= x < r -> frep (finj x) = x.
Proof. intros H. apply Z.mod_small, H. Qed.
Lemma finj_rep a : finj (frep a) = a.
Proof. apply Fr_eq. cbn [frep finj]. apply Z.mod_small, frep_range. Qed.
Lemma finj_mod x : finj (x mod r) = finj x.
Proof. apply Fr_eq. cbn [frep finj]. apply Z.mod_mod. discriminate. Qed.
Lemma frep_exists x : 0 <= x < r -> exists a, frep a = x.
Proof. intros H. exists (finj x). now apply frep_inj_small. Qed.

Definition f0 : Fr := mkFr 0 eq_refl.
Definition f1 : Fr := mkFr 1 eq_refl.
Definition fadd (a b : Fr) : Fr := finj (frep a + frep b).
Definition fmul (a b : Fr) : Fr := finj (frep a * frep b).
Definition fsub (a b : Fr) : Fr := finj (frep a - frep b).
Definition fopp (a : Fr) : Fr := finj (- frep a).

Lemma f0_inj : f0 = finj 0. Proof. now apply Fr_eq. Qed.
Lemma f1_inj : f1 = finj 1. Proof. now apply Fr_eq. Qed.
Lemma finj_add x y : finj (x + y) = fadd (finj x) (finj y).
Proof. apply Fr_eq. unfold fadd. cbn [frep finj]. now rewrite Zplus_mod. Qed.
Lemma finj_mul x y : finj (x * y) = fmul (finj x) (finj y).
Proof. apply Fr_eq. unfold fmul. cbn [frep finj]. now rewrite Zmult_mod. Qed.
Lemma finj_sub x y : finj (x - y) = fsub (finj x) (finj y).
Proof. apply Fr_eq. unfold fsub. cbn [frep finj]. now rewrite Zminus_mod. Qed.
Lemma finj_r : finj r = f0. Proof. apply Fr_eq. reflexivity. Qed.

Lemma finj_opp x : finj (- x) = fopp (finj x).
Proof.
  apply Fr_eq. unfold fopp. cbn [frep finj].
  rewrite <- (Z.sub_0_l x), <- (Z.sub_0_l (x mod r)). now rewrite Zminus_mod_idemp_r.
Qed.

Lemma Fr_ring : ring_theory f0 f1 fadd fmul fsub fopp eq.
Proof.
  constructor; intros; repeat match goal with a : Fr |- _ => rewrite <- (finj_rep a); generalize (frep a); clear a; intros a end;
    rewrite ?f0_inj, ?f1_inj;
    rewrite <- ?finj_opp, <- ?finj_sub, <- ?finj_add, <- ?finj_mul, <- ?finj_add, <- ?finj_mul, <- ?finj_add; apply (f_equal finj); ring.
Qed.
