(** * Vectors over a commutative ring R, matrices over GF acting through a ring
      homomorphism [phi : GF -> R].  Plain lists. *)
From Coq Require Import ZArith Lia List Bool Ring.
From Verif Require Import Zp GF.
Import ListNotations.

Fixpoint map2 {A B C} (f : A -> B -> C) (l : list A) (l' : list B) : list C :=
  match l, l' with
  | a :: l, b :: l' => f a b :: map2 f l l'
  | _, _ => []
  end.

Lemma length_map2 {A B C} (f : A -> B -> C) l : forall l', length l = length l' ->
  length (map2 f l l') = length l.
Proof. induction l; intros [|b l'] H; cbn in *; auto; discriminate || (f_equal; auto). Qed.

Section Lin.
  Context {R : Type} (rO rI : R) (radd rmul rsub : R -> R -> R) (ropp : R -> R).
  Context (Rth : ring_theory rO rI radd rmul rsub ropp eq).
  Add Ring Rring : Rth.
  Context (phi : GF -> R).
  Context (phi0 : phi g0 = rO) (phi1 : phi g1 = rI)
          (phi_add : forall a b, phi (gadd a b) = radd (phi a) (phi b))
          (phi_mul : forall a b, phi (gmul a b) = rmul (phi a) (phi b)).

  Fixpoint dotp (row : list GF) (v : list R) : R :=
    match row, v with
    | a :: row', x :: v' => radd (rmul (phi a) x) (dotp row' v')
    | _, _ => rO
    end.
  Definition matvec (A : list (list GF)) (v : list R) : list R := map (fun row => dotp row v) A.
  Definition vadd : list R -> list R -> list R := map2 radd.

  Lemma length_matvec A v : length (matvec A v) = length A.
  Proof. apply map_length. Qed.

  Lemma dotp_vadd a : forall u v, length u = length v ->
    dotp a (vadd u v) = radd (dotp a u) (dotp a v).
  Proof.
    induction a as [|x a IH]; intros u v H; [cbn; ring|].
    destruct u as [|y u], v as [|z v]; try discriminate; cbn [dotp vadd map2]; [ring|].
    injection H as H. fold (vadd u v). rewrite IH by auto. ring.
  Qed.

  Lemma matvec_vadd A u v : length u = length v ->
    matvec A (vadd u v) = vadd (matvec A u) (matvec A v).
  Proof.
    intros H. unfold matvec. induction A as [|a A IH]; [reflexivity|].
    cbn [map]. rewrite IH, (dotp_vadd a u v H). reflexivity.
  Qed.

  Lemma vadd_assoc u : forall v w, length u = length v -> length v = length w ->
    vadd (vadd u v) w = vadd u (vadd v w).
  Proof.
    induction u as [|x u IH]; intros [|y v] [|z w] H1 H2; try discriminate; [reflexivity|].
    cbn. injection H1 as H1. injection H2 as H2. f_equal; [ring|]. now apply IH.
  Qed.
  Lemma vadd_comm u : forall v, vadd u v = vadd v u.
  Proof.
    induction u as [|x u IH]; intros [|y v]; cbn; auto. f_equal; [ring|]. apply IH.
  Qed.
  Lemma length_vadd u v : length u = length v -> length (vadd u v) = length u.
  Proof. apply length_map2. Qed.

  (** ** Products of matrices over GF *)
  Definition gvadd : list GF -> list GF -> list GF := map2 gadd.
  Definition gscale (c : GF) : list GF -> list GF := map (gmul c).
  Fixpoint rowmul (n : nat) (a : list GF) (B : list (list GF)) : list GF :=
    match a, B with
    | x :: a', b :: B' => gvadd (gscale x b) (rowmul n a' B')
    | _, _ => repeat g0 n
    end.
  Definition matmul (n : nat) (A B : list (list GF)) : list (list GF) := map (fun a => rowmul n a B) A.

  Lemma dotp_zeros n : forall v, dotp (repeat g0 n) v = rO.
  Proof.
    induction n as [|n IH]; intros v; [reflexivity|].
    destruct v as [|x v]; cbn [repeat dotp]; [reflexivity|]. rewrite IH, phi0. ring.
  Qed.
  Lemma dotp_gvadd a : forall b v, length a = length b ->
    dotp (gvadd a b) v = radd (dotp a v) (dotp b v).
  Proof.
    induction a as [|x a IH]; intros [|y b] v H; try discriminate; [cbn; ring|].
    injection H as H. destruct v as [|z v]; cbn [gvadd map2 dotp]; [ring|].
    fold (gvadd a b). rewrite IH, phi_add by auto. ring.
  Qed.
  Lemma dotp_gscale c a : forall v, dotp (gscale c a) v = rmul (phi c) (dotp a v).
  Proof.
    induction a as [|x a IH]; intros v; [cbn; ring|].
    destruct v as [|z v]; cbn [gscale map dotp]; [ring|].
    fold (gscale c a). rewrite IH, phi_mul. ring.
  Qed.
  Lemma length_rowmul n B : (forall b, In b B -> length b = n) ->
    forall a, length (rowmul n a B) = n.
  Proof.
    induction B as [|b B IH]; intros H a; [destruct a; cbn; apply repeat_length|].
    destruct a as [|x a]; cbn [rowmul]; [apply repeat_length|].
    assert (Hb : length (gscale x b) = n) by (unfold gscale; rewrite map_length; apply H, in_eq).
    unfold gvadd. rewrite length_map2; auto.
    rewrite Hb. symmetry. apply IH. intros; apply H; now apply in_cons.
  Qed.
  Lemma dotp_rowmul n B : (forall b, In b B -> length b = n) ->
    forall a v, dotp (rowmul n a B) v = dotp a (matvec B v).
  Proof.
    induction B as [|b B IH]; intros H a v; destruct a as [|x a]; cbn [rowmul matvec map dotp];
      try apply dotp_zeros.
    assert (HB : forall b, In b B -> length b = n) by (intros; apply H; now apply in_cons).
    rewrite dotp_gvadd, dotp_gscale, IH; auto.
    rewrite length_rowmul by auto. unfold gscale. rewrite map_length. apply H, in_eq.
  Qed.
  Lemma matvec_matmul n A B v : (forall b, In b B -> length b = n) ->
    matvec (matmul n A B) v = matvec A (matvec B v).
  Proof.
    intros H. unfold matvec at 1 2, matmul. rewrite map_map. apply map_ext.
    intros a. now apply dotp_rowmul.
  Qed.

  (** ** Identity *)
  Definition ident (n : nat) : list (list GF) :=
    map (fun i => map (fun j => if Nat.eqb i j then g1 else g0) (seq 0 n)) (seq 0 n).

  Lemma dotp_unit i n : forall k v, (k <= i)%nat -> (i < k + n)%nat -> length v = n ->
    dotp (map (fun j => if Nat.eqb i j then g1 else g0) (seq k n)) v = nth (i - k) v rO.
  Proof.
    induction n as [|n IH]; intros k v H1 H2 H3; [lia|].
    destruct v as [|x v]; [discriminate|]. injection H3 as H3. cbn [seq map dotp].
    destruct (Nat.eqb_spec i k) as [->|N].
    - rewrite phi1, Nat.sub_diag. cbn [nth].
      assert (E : map (fun j => if Nat.eqb k j then g1 else g0) (seq (S k) n) = repeat g0 n).
      { clear. assert (G : forall m, (k < m)%nat -> map (fun j => if Nat.eqb k j then g1 else g0) (seq m n) = repeat g0 n).
        { induction n as [|n IH]; intros m H; cbn; [reflexivity|]. 
          destruct (Nat.eqb_spec k m); [lia|]. f_equal. apply IH. lia. }
        apply G. lia. }
      rewrite E, dotp_zeros. ring.
    - rewrite phi0, IH by lia. replace (i - k)%nat with (S (i - S k)) by lia. cbn [nth]. ring.
  Qed.

  Lemma map_nth_seq (v : list R) : map (fun i => nth i v rO) (seq 0 (length v)) = v.
  Proof.
    induction v as [|x v IH]; [reflexivity|]. cbn [length seq map nth]. f_equal.
    rewrite <- seq_shift, map_map. exact IH.
  Qed.

  Lemma matvec_ident v : matvec (ident (length v)) v = v.
  Proof.
    unfold matvec, ident. rewrite map_map.
    transitivity (map (fun i => nth i v rO) (seq 0 (length v))); [|apply map_nth_seq].
    apply map_ext_in. intros i Hi. apply in_seq in Hi.
    rewrite dotp_unit by lia. now rewrite Nat.sub_0_r.
  Qed.

  (** ** Vectors of constants *)
  Definition gdot (a b : list GF) : GF :=
    (fix go a b := match a, b with x :: a', y :: b' => gadd (gmul x y) (go a' b') | _, _ => g0 end) a b.
  Lemma dotp_phi a : forall b, dotp a (map phi b) = phi (gdot a b).
  Proof.
    induction a as [|x a IH]; intros [|y b]; cbn [dotp map gdot]; auto.
    fold (gdot a b). now rewrite IH, phi_add, phi_mul.
  Qed.
  Definition gmatvec (A : list (list GF)) (b : list GF) : list GF := map (fun a => gdot a b) A.
  Lemma matvec_phi A b : matvec A (map phi b) = map phi (gmatvec A b).
  Proof. unfold matvec, gmatvec. rewrite map_map. apply map_ext. intros a. apply dotp_phi. Qed.
  Lemma vadd_phi a : forall b, vadd (map phi a) (map phi b) = map phi (gvadd a b).
  Proof.
    unfold vadd, gvadd. induction a as [|x a IH]; intros [|y b]; cbn [map map2]; auto.
    now rewrite IH, phi_add.
  Qed.
  Lemma vadd_zeros v : vadd v (repeat rO (length v)) = v.
  Proof. unfold vadd. induction v as [|x v IH]; cbn; auto. rewrite IH. f_equal. ring. Qed.
End Lin.

(** ** Decidable equality of constant matrices *)
Fixpoint vec_eqb (a b : list GF) : bool :=
  match a, b with
  | [], [] => true
  | x :: a', y :: b' => geqb x y && vec_eqb a' b'
  | _, _ => false
  end.
Fixpoint mat_eqb (A B : list (list GF)) : bool :=
  match A, B with
  | [], [] => true
  | x :: a', y :: b' => vec_eqb x y && mat_eqb a' b'
  | _, _ => false
  end.
Lemma vec_eqb_eq a : forall b, vec_eqb a b = true -> a = b.
Proof.
  induction a as [|x a IH]; intros [|y b] H; try discriminate; [reflexivity|].
  cbn in H. apply andb_prop in H. destruct H as [H1 H2]. apply geqb_eq in H1. f_equal; auto.
Qed.
Lemma mat_eqb_eq a : forall b, mat_eqb a b = true -> a = b.
Proof.
  induction a as [|x a IH]; intros [|y b] H; try discriminate; [reflexivity|].
  cbn in H. apply andb_prop in H. destruct H as [H1 H2]. apply vec_eqb_eq in H1. f_equal; auto.
Qed.
