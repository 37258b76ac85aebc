(** * Partial barycentric interpolation over the extension algebra: proofs for C17. *)
From Coq Require Import String.
From Coq Require Import ZArith NArith Lia List Bool Ring.
From Verif Require Import Zp GF Circuit Goldilocks GLProofs ExtProofs Poly.
Import ListNotations.
Open Scope circ_scope.
Add Ring KAr_interp : KA_ring.
Add Ring Kr_interp : K_ring.
Add Ring GFr_interp : GF_ring.

Definition apeval := peval ka0 aadd amul.
Definition aprodsub := prodsub ka1 amul asub.
Definition abary := bary ka0 ka1 aadd amul asub.
Definition gprodsub := prodsub g1 gmul gsub.
Definition ae (x : GF) : KA := aemb (emb x).
Lemma ae_mul x y : ae (x * y)%GF = (ae x * ae y)%KA.
Proof. unfold ae. rewrite emb_mul. unfold aemb, amul. cbn [fst snd]. apply KA_eq; cbn [fst snd]; ring. Qed.
Lemma ae_sub x y : ae (x - y)%GF = (ae x - ae y)%KA.
Proof. unfold ae. rewrite emb_sub. apply KA_eq; [reflexivity|]. cbn [fst snd asub aemb]. ring. Qed.
Lemma ae_1 : ae g1 = ka1. Proof. reflexivity. Qed.
Lemma ae_0 : ae g0 = ka0. Proof. reflexivity. Qed.
Lemma ae_prodsub x l : ae (gprodsub x l) = aprodsub (ae x) (map ae l).
Proof.
  unfold gprodsub, aprodsub. induction l as [|a l IH]; cbn [prodsub map]; [reflexivity|]. now rewrite ae_mul, ae_sub, IH.
Qed.

(** sum of w_i v_i prod_{j <> i} (point - x_j) *)
Fixpoint psum (point : KA) (items : list (KA * GF * GF)) : KA :=
  match items with
  | [] => ka0
  | (v, x, w) :: rest => (ae w * v * aprodsub point (map (fun it => ae (snd (fst it))) rest) + (point - ae x) * psum point rest)%KA
  end.
Lemma interp_fold point items : forall ev pr,
  fold_left (interp_step point) items (ev, pr) =
  ((ev * aprodsub point (map (fun it => ae (snd (fst it))) items) + pr * psum point items)%KA,
   (pr * aprodsub point (map (fun it => ae (snd (fst it))) items))%KA).
Proof.
  unfold aprodsub. induction items as [|[[v x] w] items IH]; intros ev pr; cbn [fold_left map prodsub psum fst snd].
  - apply f_equal2; ring.
  - unfold interp_step at 2. rewrite IH. fold (ae x) (ae w). unfold aprodsub. apply f_equal2; ring.
Qed.
Lemma arsum_cons (a : KA) l : rsum ka0 aadd (a :: l) = (a + rsum ka0 aadd l)%KA. Proof. reflexivity. Qed.
Lemma arsum_mul (c : KA) l : (c * rsum ka0 aadd l = rsum ka0 aadd (map (fun y => c * y) l))%KA.
Proof. induction l as [|a l IH]; cbn [map]; [unfold rsum; cbn [fold_right]; ring|]. rewrite !arsum_cons, <- IH. ring. Qed.
Lemma psum_bary point values : forall domain weights, length domain = length values -> length weights = length values ->
  psum point (combine (combine values domain) weights) = abary (map ae domain) values (map ae weights) point.
Proof.
  induction values as [|v values IH]; intros [|x domain] [|w weights] L1 L2; try discriminate L1; try discriminate L2; [reflexivity|].
  apply (f_equal pred) in L1, L2. cbn [length pred] in L1, L2.
  cbn [combine psum]. rewrite IH by assumption. unfold abary, bary. cbn [map length].
  change (seq 0 (S (length (map ae domain)))) with (O :: seq 1 (length (map ae domain))). cbn [map]. rewrite arsum_cons.
  apply f_equal2.
  - cbn [nth]. unfold others. cbn [firstn skipn app]. apply f_equal. unfold aprodsub. apply f_equal.
    clear IH. revert domain weights L1 L2. induction values as [|v' values IH]; intros [|x' domain] [|w' weights] L1 L2; try discriminate L1; try discriminate L2; [reflexivity|].
    cbn [combine map fst snd]. apply f_equal. apply IH; [now injection L1|now injection L2].
  - rewrite arsum_mul, map_map, <- seq_shift, map_map. apply f_equal. apply map_ext. intros i.
    cbn [nth]. unfold others. cbn [firstn skipn app prodsub]. ring.
Qed.

(** weights over GF(p) *)
Definition gweights_ok := weights_ok g0 g1 gmul gsub.
Lemma weights_lift domain weights : length weights = length domain -> gweights_ok domain weights ->
  weights_ok ka0 ka1 amul asub (map ae domain) (map ae weights).
Proof.
  intros L H i Hi. rewrite map_length in Hi. specialize (H i Hi).
  rewrite <- ae_0, !map_nth. replace (others i (map ae domain)) with (map ae (others i domain)).
  2:{ unfold others. now rewrite map_app, firstn_map, skipn_map. }
  change (prodsub ka1 amul asub (ae (nth i domain g0)) (map ae (others i domain))) with (aprodsub (ae (nth i domain g0)) (map ae (others i domain))).
  rewrite <- ae_prodsub, <- ae_mul. unfold gprodsub. rewrite H. reflexivity.
Qed.

(** chunks of any sizes, one call after another *)
Definition interp_chunks (point : QEA) (chunks : list (list Z * list QEA * list Z)) (st : QEA * QEA) : circ (QEA * QEA) :=
  foldM (fun (st : QEA * QEA) (c : list Z * list QEA * list Z) =>
           PartialInterpolateExtAlgebra (fst (fst c)) (snd (fst c)) (snd c) point (fst st) (snd st)) st chunks.
Definition rep_chunk (c : list GF * list KA * list GF) : list Z * list QEA * list Z :=
  (map rep (fst (fst c)), map repA (snd (fst c)), map rep (snd c)).
Definition chunk_ok (c : list GF * list KA * list GF) : Prop :=
  length (fst (fst c)) = length (snd (fst c)) /\ length (snd c) = length (snd (fst c)) /\ snd (fst c) <> [].
Definition doms (cs : list (list GF * list KA * list GF)) := flat_map (fun c => fst (fst c)) cs.
Definition vals (cs : list (list GF * list KA * list GF)) := flat_map (fun c => snd (fst c)) cs.
Definition wgts (cs : list (list GF * list KA * list GF)) := flat_map (fun c => snd c) cs.
Lemma combine_app {A B} (a a' : list A) (b b' : list B) : length a = length b -> combine (a ++ a') (b ++ b') = combine a b ++ combine a' b'.
Proof. revert b. induction a as [|x a IH]; intros [|y b] L; try discriminate L; [reflexivity|]. cbn [app combine]. rewrite IH; [reflexivity|now injection L]. Qed.
Lemma chunks_lens cs : Forall chunk_ok cs -> length (doms cs) = length (vals cs) /\ length (wgts cs) = length (vals cs).
Proof.
  induction 1 as [|[[d v] w] cs (L1 & L2 & _) F [I1 I2]]; [split; reflexivity|]. cbn [fst snd] in *.
  unfold doms, vals, wgts in *. cbn [flat_map fst snd]. rewrite !app_length. lia.
Qed.
Lemma interp_chunks_fold point cs : Forall chunk_ok cs -> forall st,
  computes (interp_chunks (repA point) (map rep_chunk cs) (repA2 st))
           (repA2 (fold_left (interp_step point) (combine (combine (vals cs) (doms cs)) (wgts cs)) st)).
Proof.
  unfold interp_chunks. induction 1 as [|[[d v] w] cs (L1 & L2 & N) F IH]; intros [ev pr]; cbn [map foldM].
  - apply computes_ret.
  - cbn [fst snd] in *. eapply computes_bind.
    { cbn [rep_chunk repA2 fst snd]. apply partial_interpolate_correct; auto. }
    eapply computes_eq; [apply IH|]. apply f_equal.
    unfold doms, vals, wgts. cbn [flat_map fst snd].
    rewrite (combine_app v), combine_app, fold_left_app; [reflexivity| |congruence].
    rewrite combine_length. lia.
Qed.
Lemma a_start_ev a b : (ka0 * a + ka1 * b)%KA = b. Proof. ring. Qed.
Lemma a_start_pr a : (ka1 * a)%KA = a. Proof. ring. Qed.
