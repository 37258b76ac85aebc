(** * Properties C09 and C17: roots of unity, partial interpolation. *)
From Coq Require Import ZArith NArith Lia List Bool.
From Verif Require Import Zp GF Circuit Goldilocks GLProofs ExtProofs Poly Roots Interp.
Import ListNotations.
Open Scope Z_scope.

(** ** C09 *)
Theorem C09_order : forall n, (n <= 32)%nat ->
  exists g : GF, computes (PrimitiveRootOfUnity n) (rep g) /\ forall k, (g ^ k = 1)%GF <-> (2 ^ N.of_nat n | k)%N.
Proof. intros n H. exists (root n). split; [now apply root_computes|]. intros k. now apply root_pow_1. Qed.
Theorem C09_panics : forall n, (32 < n)%nat -> exists m, run (PrimitiveRootOfUnity n) = Panicked m.
Proof. intros n H. destruct (root_panics n H) as [m E]. exists m. now rewrite E. Qed.
(** the list is that of the powers of the root, and its elements are the 2^n solutions of
    x^(2^n) = 1, each once *)
Theorem C09_subgroup : forall n, (n <= 32)%nat ->
  exists (g : GF) (l : list GF), computes (PrimitiveRootOfUnity n) (rep g) /\ computes (TwoAdicSubgroup n) (map rep l) /\
    length l = (2 ^ n)%nat /\ NoDup l /\ (forall i, (i < 2 ^ n)%nat -> nth i l 0%GF = (g ^ N.of_nat i)%GF) /\
    (forall x, In x l <-> (x ^ (2 ^ N.of_nat n) = 1)%GF).
Proof.
  intros n H. exists (root n), (powers (root n) (2 ^ n)). split; [now apply root_computes|]. split; [now apply two_adic_subgroup_computes|].
  split; [unfold powers; now rewrite map_length, seq_length|]. split; [now apply powers_nodup|]. split.
  - intros i Hi. unfold powers. rewrite (nth_indep _ 0%GF ((root n ^ N.of_nat O)%GF)) by now rewrite map_length, seq_length.
    rewrite (map_nth (fun i => (root n ^ N.of_nat i)%GF)), seq_nth by exact Hi. reflexivity.
  - intros x. now apply powers_exact.
Qed.
Example C09_ex : run (PrimitiveRootOfUnity 1) = Done (p - 1) /\ run (PrimitiveRootOfUnity 2) = Done 281474976710656 /\
  (281474976710656 * 281474976710656) mod p = p - 1 /\
  run (TwoAdicSubgroup 2) = Done [1; 281474976710656; p - 1; p - 281474976710656].
Proof. vm_compute. repeat split. Qed.

(** ** C17: consecutive chunks, of any sizes, starting from (0, 1).  For weights
    w_i = 1/prod_{j<>i}(x_i - x_j) the first component is the value at the point of every
    polynomial with at most n coefficients through the n points, the second is the
    vanishing polynomial. *)
Theorem C17_interpolates : forall (cs : list (list GF * list KA * list GF)) (point : KA) (P : list KA),
  Forall chunk_ok cs ->
  (forall i, (i < length (doms cs))%nat ->
     (nth i (wgts cs) 0 * gprodsub (nth i (doms cs) 0) (others i (doms cs)))%GF = 1%GF) ->
  (length P <= length (vals cs))%nat ->
  (forall i, (i < length (vals cs))%nat -> apeval P (ae (nth i (doms cs) 0%GF)) = nth i (vals cs) ka0) ->
  computes (interp_chunks (repA point) (map rep_chunk cs) (ZeroExtensionAlgebra, OneExtensionAlgebra))
           (repA (apeval P point), repA (aprodsub point (map ae (doms cs)))).
Proof.
  intros cs point P F Hw HP Hv. destruct (chunks_lens cs F) as [L1 L2].
  change (ZeroExtensionAlgebra, OneExtensionAlgebra) with (repA2 (ka0, ka1)).
  eapply computes_eq; [now apply interp_chunks_fold|]. unfold repA2. rewrite interp_fold.
  assert (E1 : map (fun it : KA * GF * GF => ae (snd (fst it))) (combine (combine (vals cs) (doms cs)) (wgts cs)) = map ae (doms cs)).
  { revert L1 L2. generalize (doms cs) (vals cs) (wgts cs). clear. intros d v. revert d.
    induction v as [|a v IH]; intros [|x d] [|w l] L1 L2; try discriminate L1; try discriminate L2; [reflexivity|].
    cbn [combine map fst snd]. apply f_equal. apply IH; [now injection L1|now injection L2]. }
  rewrite E1. cbn [fst snd]. rewrite psum_bary by assumption. unfold abary.
  rewrite (bary_interpolates _ _ _ _ _ _ KA_ring (map ae (doms cs)) (vals cs) (map ae (wgts cs)) (apeval P)).
  - now rewrite a_start_ev, a_start_pr.
  - apply weights_lift; [congruence|]. exact Hw.
  - exists P. split; [now rewrite map_length, L1|reflexivity].
  - now rewrite map_length.
  - apply (nth_ext _ _ ka0 ka0); [now rewrite !map_length|]. intros i Hi. rewrite !map_length in Hi.
    rewrite map_map. rewrite (nth_indep _ ka0 (apeval P (ae 0%GF))) by now rewrite map_length.
    rewrite (map_nth (fun x => apeval P (ae x))). apply Hv. lia.
Qed.
(** the polynomial exists, and points with such weights are distinct *)
Theorem C17_interpolant : forall domain weights (values : list KA), length weights = length domain -> length values = length domain ->
  (forall i, (i < length domain)%nat -> (nth i weights 0 * gprodsub (nth i domain 0) (others i domain))%GF = 1%GF) ->
  NoDup domain /\ exists P, (length P <= length domain)%nat /\
    forall i, (i < length domain)%nat -> apeval P (ae (nth i domain 0%GF)) = nth i values ka0.
Proof.
  intros d w v L1 L2 H. split.
  - assert (S : separated g0 gmul gsub d) by (eapply (weights_separated _ _ _ _ _ _ GF_ring); exact H).
    clear - S. induction S as [|a l Ha S IH]; constructor; [|exact IH].
    intros Hin. rewrite Forall_forall in Ha. specialize (Ha a Hin g1). apply g1_neq_g0, Ha.
    rewrite (proj2 (gsub_eq0 a a) eq_refl). apply GF_eq. reflexivity.
  - destruct (bary_exists _ _ _ _ _ _ KA_ring (map ae d) v (map ae w)) as (P & LP & E & _).
    + now apply weights_lift.
    + now rewrite map_length.
    + exists P. rewrite map_length in LP. split; [exact LP|]. intros i Hi. rewrite <- E, map_map.
      rewrite (nth_indep _ ka0 (apeval P (ae 0%GF))) by now rewrite map_length.
      now rewrite (map_nth (fun x => apeval P (ae x))).
Qed.
(** without values there is a panic *)
Theorem C17_empty : forall d w pt e q, exists m, run (PartialInterpolateExtAlgebra d [] w pt e q) = Panicked m.
Proof. intros. eexists. reflexivity. Qed.

(** the points 1 and 2 in two chunks, values of 3 + 5X *)
Definition gi (n : Z) : GF := inj n.
Example C17_ex :
  let P := [ae (gi 3); ae (gi 5)] in
  let cs := [([gi 1], [ae (gi 8)], [gi (-1)]); ([gi 2], [ae (gi 13)], [gi 1])] in
  Forall chunk_ok cs /\
  (forall i, (i < length (doms cs))%nat ->
     (nth i (wgts cs) 0 * gprodsub (nth i (doms cs) 0) (others i (doms cs)))%GF = 1%GF) /\
  (forall i, (i < length (vals cs))%nat -> apeval P (ae (nth i (doms cs) 0%GF)) = nth i (vals cs) ka0) /\
  run (interp_chunks (repA (ae (gi 10))) (map rep_chunk cs) (ZeroExtensionAlgebra, OneExtensionAlgebra))
    = Done (repA (ae (gi 53)), repA (ae (gi 72))).
Proof.
  split; [repeat constructor; discriminate|]. split.
  - intros [|[|i]] H; cbn in H; try lia; apply GF_eq; vm_compute; reflexivity.
  - split; [|vm_compute; reflexivity].
    intros [|[|i]] H; cbn in H; try lia; apply repA_inj; vm_compute; reflexivity.
Qed.

Print Assumptions C09_order. Print Assumptions C09_panics. Print Assumptions C09_subgroup.
Print Assumptions C17_interpolates. Print Assumptions C17_interpolant. Print Assumptions C17_empty.
