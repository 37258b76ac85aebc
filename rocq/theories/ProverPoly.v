(** * Polynomials of the prover: interpolation over the base field, division by X^n - 1. *)
From Coq Require Import String.
From Coq Require Import ZArith NArith Lia List Bool Ring Field.
From Verif Require Import Zp GF Circuit Goldilocks GLProofs ExtProofs Poly Roots Interp Types Fri FriMerkle FriEval FriQuery Honest FriSound FriExtract.
Import ListNotations.
Open Scope Z_scope.

Lemma gpaddl c d x : gpeval (paddl gadd c d) x = (gpeval c x + gpeval d x)%GF.
Proof. apply (paddl_eval g0 g1 gadd gmul gsub gopp GF_ring). Qed.
Lemma gpscale a c x : gpeval (pscale gmul a c) x = (a * gpeval c x)%GF.
Proof. apply (pscale_eval g0 g1 gadd gmul gsub gopp GF_ring). Qed.
Lemma emb_paddl c : forall d, map emb (paddl gadd c d) = paddl kadd (map emb c) (map emb d).
Proof. induction c as [|a c IH]; intros [|b d]; cbn [paddl map]; try reflexivity. now rewrite emb_add, IH. Qed.
Lemma length_paddl {R} (f : R -> R -> R) c : forall d n, (length c <= n)%nat -> (length d <= n)%nat -> (length (paddl f c d) <= n)%nat.
Proof.
  induction c as [|a c IH]; intros [|b d] n Hc Hd; cbn [paddl length] in *; try lia. destruct n as [|n]; [lia|]. apply le_n_S. apply IH; lia.
Qed.

(** ** Interpolation (Newton) *)
Fixpoint vanish (xs : list GF) : list GF :=
  match xs with [] => [g1] | a :: xs' => paddl gadd (g0 :: vanish xs') (pscale gmul (- a)%GF (vanish xs')) end.
Fixpoint interpolate (pts : list (GF * GF)) : list GF :=
  match pts with
  | [] => []
  | (x, y) :: rest => let f := interpolate rest in let v := vanish (map fst rest) in
      paddl gadd f (pscale gmul ((y - gpeval f x) * ginv (gpeval v x))%GF v)
  end.
Lemma vanish_cons a xs x : gpeval (vanish (a :: xs)) x = ((x - a) * gpeval (vanish xs) x)%GF.
Proof.
  cbn [vanish]. rewrite gpaddl, gpscale. change (gpeval (g0 :: vanish xs) x) with (g0 + x * gpeval (vanish xs) x)%GF. ring.
Qed.
Lemma vanish_zero xs x : In x xs -> gpeval (vanish xs) x = g0.
Proof.
  induction xs as [|a xs IH]; intros H; [destruct H|]. rewrite vanish_cons. destruct H as [->|H]; [ring|]. rewrite (IH H). ring.
Qed.
Lemma gsub_nz a b : a <> b -> (a - b)%GF <> g0.
Proof. intros N E. apply N. transitivity ((a - b) + b)%GF; [ring|]. rewrite E. ring. Qed.
Lemma vanish_nz xs x : ~ In x xs -> gpeval (vanish xs) x <> g0.
Proof.
  induction xs as [|a xs IH]; intros H E.
  - unfold vanish, gpeval in E. cbn [peval] in E. apply g1_neq_g0. rewrite <- E. ring.
  - rewrite vanish_cons in E. apply gmul_eq0 in E. destruct E as [E|E].
    + apply (gsub_nz x a); [|exact E]. intros ->. apply H. now left.
    + apply IH; [|exact E]. intros I. apply H. now right.
Qed.
Lemma vanish_length xs : length (vanish xs) = S (length xs).
Proof.
  induction xs as [|a xs IH]; [reflexivity|]. cbn [vanish length].
  assert (G : forall (c d : list GF), (length d <= length c)%nat -> length (paddl gadd c d) = length c).
  { induction c as [|x c IHc]; intros [|y d] Hd; cbn [paddl length] in *; try lia. f_equal. apply IHc. lia. }
  rewrite G; cbn [length]; [now rewrite IH|]. unfold pscale. rewrite map_length. lia.
Qed.
Lemma interpolate_length pts : (length (interpolate pts) <= length pts)%nat.
Proof.
  induction pts as [|[x y] pts IH]; [reflexivity|]. cbn [interpolate length]. apply length_paddl; [lia|].
  unfold pscale. rewrite map_length, vanish_length, map_length. lia.
Qed.
Lemma interpolate_at pts : NoDup (map fst pts) -> forall x y, In (x, y) pts -> gpeval (interpolate pts) x = y.
Proof.
  induction pts as [|[a b] pts IH]; intros ND x y H; [destruct H|]. cbn [map fst] in ND. inversion ND as [|? ? N ND']; subst.
  cbn [interpolate]. rewrite gpaddl, gpscale. destruct H as [H|H].
  - injection H as -> ->. pose proof (ginv_l _ (vanish_nz _ _ N)) as I.
    transitivity (gpeval (interpolate pts) x + (y - gpeval (interpolate pts) x) * (ginv (gpeval (vanish (map fst pts)) x) * gpeval (vanish (map fst pts)) x))%GF; [ring|]. rewrite I. ring.
  - rewrite (IH ND' x y H), (vanish_zero _ x); [ring|]. apply (in_map fst) in H. exact H.
Qed.

(** ** Division by X^n - 1: the chunks of the quotient and the remainder *)
Fixpoint divide (n q : nat) (v : list GF) : list (list GF) * list GF :=
  match q with
  | O => ([], v)
  | S q' => let ts := divide n q' (skipn n v) in (snd ts :: fst ts, paddl gadd (firstn n v) (snd ts))
  end.
Notation gk f x := (kpeval (map emb f) x).
Lemma kpeval_cut n (v : list GF) x : gk v x = (gk (firstn n v) x + x ^ N.of_nat n * gk (skipn n v) x)%K.
Proof.
  destruct (Nat.le_gt_cases n (length v)) as [L|L].
  - rewrite <- (firstn_skipn n v) at 1. rewrite map_app, kpeval_app, map_length, firstn_length, Nat.min_l by exact L. reflexivity.
  - rewrite firstn_all2, skipn_all2 by lia. cbn [map]. unfold kpeval at 3. cbn [peval]. ring.
Qed.
Lemma divide_eval n q x : forall v, gk v x = (gk (snd (divide n q v)) x + (x ^ N.of_nat n - k1) * powers_sum (map (fun t => gk t x) (fst (divide n q v))) (x ^ N.of_nat n))%K.
Proof.
  induction q as [|q IH]; intros v; cbn [divide fst snd].
  - cbn [map powers_sum]. ring.
  - rewrite (kpeval_cut n v x), (IH (skipn n v)), emb_paddl, kpaddl. cbn [map powers_sum]. ring.
Qed.
Lemma divide_length n q : forall v, length (fst (divide n q v)) = q.
Proof. induction q as [|q IH]; intros v; cbn [divide fst length]; [reflexivity|]. now rewrite IH. Qed.
Lemma divide_bound n q : forall v, (length v <= S q * n)%nat -> Forall (fun t => length t <= n)%nat (fst (divide n q v)) /\ (length (snd (divide n q v)) <= n)%nat.
Proof.
  induction q as [|q IH]; intros v L; cbn [divide fst snd]; [split; [constructor|lia]|].
  destruct (IH (skipn n v)) as [A B]; [rewrite skipn_length; nia|]. split; [now constructor|].
  apply length_paddl; [rewrite firstn_length; lia|exact B].
Qed.

(** blocks of equal length *)
Lemma seg_block {A B} (F : A -> list B) (d : A) q l : (forall a, In a l -> length (F a) = q) -> forall i, (i < length l)%nat ->
  skipn (i * q) (firstn (i * q + q) (flat_map F l)) = F (nth i l d).
Proof.
  induction l as [|a l IH]; intros H i Hi; [cbn in Hi; lia|]. cbn [flat_map]. pose proof (H a (in_eq _ _)) as La.
  destruct i as [|i]; cbn [nth].
  - cbn [Nat.mul Nat.add skipn]. rewrite firstn_app, <- La, Nat.sub_diag, firstn_O, app_nil_r. apply firstn_all.
  - rewrite firstn_app, skipn_app, La. rewrite (firstn_all2 (F a)) by nia. rewrite skipn_all2 by nia. cbn [app].
    replace (S i * q + q - q)%nat with (i * q + q)%nat by nia. rewrite La. replace (S i * q - q)%nat with (i * q)%nat by nia.
    apply IH; [intros; apply H; now right|cbn in Hi; lia].
Qed.
