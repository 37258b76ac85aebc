(** * The Goldilocks Poseidon circuit refines the textbook permutation. *)
From Coq Require Import String.
From Coq Require Import ZArith Lia List Bool Ring.
From Verif Require Import Zp GF Circuit Goldilocks GLProofs ExtProofs LinAlg PoseidonGLConst PoseidonSpec PoseidonGL.
Import ListNotations.
Open Scope Z_scope.

(** ** Rows as explicit sums, generically *)
Ltac split_list v H :=
  repeat (destruct v as [|? v]; [discriminate H|]; try (injection H as H));
  try (destruct v; [clear H|discriminate H]).

Section Rows.
  Context {R : Type} (rO rI : R) (radd rmul rsub : R -> R -> R) (ropp : R -> R).
  Context (Rth : ring_theory rO rI radd rmul rsub ropp eq).
  Add Ring Rring4 : Rth.
  Context (phi : GF -> R).
  Context (phi0 : phi g0 = rO) (phi_add : forall a b, phi (gadd a b) = radd (phi a) (phi b)).
  Notation dotp := (dotp rO radd rmul phi).

  Definition wsum (f : nat -> R) (g : nat -> Z) (l : list nat) : R :=
    fold_left (fun acc i => radd acc (rmul (f i) (phi (inj (g i))))) l rO.

  Lemma mds_row (v : list R) (i : nat) : length v = 12%nat -> (i < 12)%nat ->
    radd (wsum (fun j => nth ((j + i) mod 12) v rO) (at_ MDS_MATRIX_CIRC_VARS) (seq 0 12))
         (rmul (nth i v rO) (phi (inj (at_ MDS_MATRIX_DIAG_VARS i))))
    = nth i (mds rO radd rmul phi v) rO.
  Proof.
    intros H Hi. split_list v H.
    do 12 (destruct i as [|i]; [lazy -[inj gadd g0]; rewrite ?phi_add, ?phi0; ring|]). lia.
  Qed.

  Lemma wsum_dotp (l : list Z) (x : R) (v : list R) : length l = 11%nat -> length v = 11%nat ->
    wsum (fun j => nth j (x :: v) rO) (fun j => at_ l (j - 1)) (seq 1 11) = dotp (map inj l) v.
  Proof.
    intros Hl Hv. split_list l Hl. split_list v Hv. lazy -[inj gadd g0]. ring.
  Qed.

  Lemma init_row (x : R) (v : list R) (d : nat) : length v = 11%nat -> (1 <= d < 12)%nat ->
    wsum (fun j => nth j (x :: v) rO)
         (fun j => at_ (row_ FAST_PARTIAL_ROUND_INITIAL_MATRIX (j - 1)) (d - 1)) (seq 1 11)
    = nth (d - 1) (matvec rO radd rmul phi INITt v) rO.
  Proof.
    intros Hv Hd. split_list v Hv. destruct d as [|d]; [lia|].
    do 11 (destruct d as [|d]; [lazy -[inj gadd g0]; ring|]). lia.
  Qed.
End Rows.

(** ** Lazily reduced sums *)
Lemma lz_muladd x y z A B C a b c :
  lz x A a -> lz y B b -> lz z C c -> C + A * B < r ->
  lz (MulAddNoReduce x y z) (C + A * B) (a * b + c)%GF.
Proof.
  intros Hx Hy Hz HB. unfold MulAddNoReduce.
  assert (E : api_mul z 1 = z).
  { unfold api_mul. rewrite Z.mul_1_r. apply Z.mod_small. destruct Hx as [Hx _], Hy as [Hy _], Hz as [Hz _]. nia. }
  rewrite E. pose proof (lz_mulacc z x y C A B c a b Hz Hx Hy HB) as L.
  replace (a * b + c)%GF with (c + a * b)%GF by ring. exact L.
Qed.

Definition P2 : Z := (p - 1) * (p - 1).
Lemma lz_fold (f g : nat -> Z) (F G : nat -> GF) l : forall acc B a,
  (forall i, In i l -> lz (f i) (p - 1) (F i)) ->
  (forall i, In i l -> lz (g i) (p - 1) (G i)) ->
  lz acc B a -> B + Z.of_nat (length l) * P2 < r ->
  lz (fold_left (fun acc i => MulAddNoReduce (f i) (g i) acc) l acc)
     (B + Z.of_nat (length l) * P2)
     (fold_left (fun acc i => (acc + F i * G i)%GF) l a).
Proof.
  assert (HP : 0 <= P2) by (vm_compute; discriminate).
  induction l as [|i l IH]; intros acc B a Hf Hg Ha HB; cbn [fold_left length].
  - eapply lz_weaken; [exact Ha|]. cbn. lia.
  - cbn [length] in HB. rewrite Nat2Z.inj_succ in *.
    replace (B + Z.succ (Z.of_nat (length l)) * P2) with (B + P2 + Z.of_nat (length l) * P2) in * by ring.
    apply IH; [intros; apply Hf; now apply in_cons|intros; apply Hg; now apply in_cons| |exact HB].
    replace (a + F i * G i)%GF with (F i * G i + a)%GF by ring.
    apply lz_muladd; [apply Hf, in_eq|apply Hg, in_eq|exact Ha|].
    fold P2. assert (0 <= Z.of_nat (length l) * P2) by nia. lia.
Qed.

Definition table_ok (l : list Z) : bool := forallb (fun x => (0 <=? x) && (x <? p)) l.
Lemma table_lz l i : table_ok l = true -> lz (at_ l i) (p - 1) (inj (at_ l i)).
Proof.
  intros H. unfold table_ok in H. rewrite forallb_forall in H. split; [|reflexivity].
  unfold at_. destruct (nth_in_or_default i l 0) as [Hi| ->]; [|unfold p; lia].
  apply H in Hi. apply andb_prop in Hi. rewrite Z.leb_le, Z.ltb_lt in Hi. lia.
Qed.
Lemma rep_table l i : table_ok l = true -> at_ l i = rep (inj (at_ l i)).
Proof.
  intros H. destruct (table_lz l i H) as [B _]. rewrite rep_inj_small; [reflexivity|].
  unfold p in *. lia.
Qed.

(** ** The GF instance of the specification *)
Definition idg (x : GF) : GF := x.
Definition mds_g := mds g0 gadd gmul idg.
Definition add_rc_g := add_rc gadd idg.
Notation full_rounds_g := (full_rounds g0 gadd gmul idg).
Notation fast_partial_g := (fast_partial g0 gadd gmul idg).

Lemma nth_map_rep v i : nth i (map rep v) 0 = rep (nth i v g0).
Proof. change 0 with (rep g0) at 1. apply map_nth. Qed.
Lemma at_rep v i : at_ (map rep v) i = rep (nth i v g0). Proof. apply nth_map_rep. Qed.

Lemma P2_13 : 13 * P2 + (p - 1) < 2 ^ 144 * p. Proof. vm_compute. reflexivity. Qed.
Lemma P2_13r : 13 * P2 + (p - 1) < r. Proof. vm_compute. reflexivity. Qed.
Lemma P2_nn : 0 <= P2. Proof. vm_compute. discriminate. Qed.
Lemma p1_nn : 0 <= p - 1. Proof. vm_compute. discriminate. Qed.
Lemma lz_zero : lz Zero 0 g0.
Proof. split; [unfold Zero; lia|]. symmetry. apply g0_inj. Qed.

Ltac bnd := pose proof P2_13; pose proof P2_13r; pose proof P2_nn; pose proof p1_nn; unfold P2 in *; lia.

Lemma computes_mapM_seq {B C} (f : nat -> circ B) (g : nat -> C) (Rr : C -> B) k n :
  (forall i, (k <= i < k + n)%nat -> computes (f i) (Rr (g i))) ->
  computes (mapM f (seq k n)) (map Rr (map g (seq k n))).
Proof.
  intros H. rewrite map_map. apply computes_mapM. intros i Hi. apply in_seq in Hi. apply H. lia.
Qed.

Lemma map_nth_seq12 {A} (d : A) v : length v = 12%nat -> map (fun i => nth i v d) (seq 0 12) = v.
Proof. intros H. split_list v H. reflexivity. Qed.
Lemma map_nth_seq11 {A} (d : A) v : length v = 11%nat -> map (fun i => nth (i - 1) v d) (seq 1 11) = v.
Proof. intros H. split_list v H. reflexivity. Qed.

Lemma mds_row_correct i v : length v = 12%nat -> (i < 12)%nat ->
  computes (mdsRowShf i (map rep v)) (rep (nth i (mds_g v) g0)).
Proof.
  intros Hv Hi. unfold mdsRowShf. unfold mds_g.
  rewrite <- (mds_row g0 g1 gadd gmul gsub gopp GF_ring idg eq_refl (fun _ _ => eq_refl) v i Hv Hi).
  unfold wsum, idg.
  eapply computes_reduce with (B := 0 + Z.of_nat 12 * P2 + P2); [|bnd].
  match goal with |- lz _ _ (gadd ?s (gmul ?x ?y)) => replace (gadd s (gmul x y)) with (gadd (gmul x y) s) by ring end.
  apply lz_muladd; [rewrite at_rep; apply lz_rep|now apply table_lz| |fold P2; bnd].
  apply (lz_fold (fun j => at_ (map rep v) ((j + i) mod SPONGE_WIDTH)) (at_ MDS_MATRIX_CIRC_VARS)
           (fun j => nth ((j + i) mod 12) v g0) (fun j => inj (at_ MDS_MATRIX_CIRC_VARS j)) (seq 0 12)).
  - intros j _. rewrite at_rep. apply lz_rep.
  - intros j _. now apply table_lz.
  - apply lz_zero.
  - cbn [length seq]. bnd.
Qed.

Lemma length_mds_g v : length (mds_g v) = 12%nat.
Proof. apply (length_mds g0 gadd gmul). Qed.

Lemma mds_layer_correct v : length v = 12%nat -> computes (mdsLayer (map rep v)) (map rep (mds_g v)).
Proof.
  intros Hv. unfold mdsLayer.
  eapply computes_eq.
  - apply (computes_mapM_seq _ (fun i => nth i (mds_g v) g0) rep).
    intros i Hi. apply mds_row_correct; auto; lia.
  - apply f_equal, map_nth_seq12, length_mds_g.
Qed.

Lemma const_layer (T : list Z) (off : nat) v : length v = 12%nat -> table_ok T = true ->
  (off + 12 <= length T)%nat ->
  computes (mapM (fun i => Add (at_ (map rep v) i) (at_ T (i + off))) (seq 0 12))
           (map rep (vadd gadd v (map idg (map inj (firstn 12 (skipn off T)))))).
Proof.
  intros Hv HT Ho.
  eapply computes_eq.
  - apply (computes_mapM_seq _ (fun i => nth i v g0 + inj (at_ T (i + off)))%GF rep).
    intros i Hi. rewrite at_rep, (rep_table T) at 1 by auto. apply gadd_correct.
  - f_equal. unfold at_.
    assert (E : forall i, nth (i + off) T 0 = nth i (skipn off T) 0).
    { intros i. rewrite <- (firstn_skipn off T) at 1. rewrite app_nth2; rewrite firstn_length; [f_equal|]; lia. }
    assert (L : (12 <= length (skipn off T))%nat) by (rewrite skipn_length; lia).
    erewrite map_ext; [|intros i; rewrite E; reflexivity].
    destruct (skipn off T) as [|t0 T']; [cbn in L; lia|].
    do 11 (destruct T' as [|? T']; [cbn in L; lia|]).
    split_list v Hv. reflexivity.
Qed.

Lemma constant_layer_correct v k : length v = 12%nat -> (k < 30)%nat ->
  computes (constantLayer (map rep v) k) (map rep (add_rc_g k v)).
Proof.
  intros Hv Hk. apply const_layer; auto.
  change (length ALL_ROUND_CONSTANTS) with 360%nat. unfold SPONGE_WIDTH. lia.
Qed.

Lemma map_pair_fst {A B C} (g : A -> B) (h : A -> C) l : map fst (map (fun d => (g d, h d)) l) = map g l.
Proof. rewrite map_map. reflexivity. Qed.
Lemma map_pair_snd {A B C} (g : A -> B) (h : A -> C) l : map snd (map (fun d => (g d, h d)) l) = map h l.
Proof. rewrite map_map. reflexivity. Qed.

Lemma mapM_reduce (l : list (Z * GF)) :
  (forall xa, In xa l -> exists B, B < 2 ^ 144 * p /\ lz (fst xa) B (snd xa)) ->
  computes (mapM Reduce (map fst l)) (map rep (map snd l)).
Proof.
  intros H. rewrite (map_map snd rep). apply (computes_mapM2 Reduce fst).
  intros xa Hx. destruct (H xa Hx) as (B & HB & L). eapply computes_reduce; eauto.
Qed.

Lemma init_correct v : length v = 12%nat ->
  computes (mdsPartialLayerInit (map rep v)) (map rep (fast_init g0 gadd gmul idg v)).
Proof.
  intros Hv. unfold mdsPartialLayerInit.
  destruct v as [|x v]; [discriminate|]. injection Hv as Hv.
  set (g := fun d => fold_left (fun acc r0 =>
           MulAddNoReduce (at_ (map rep (x :: v)) r0) (at_ (row_ FAST_PARTIAL_ROUND_INITIAL_MATRIX (r0 - 1)) (d - 1)) acc)
         (seq 1 11) Zero).
  set (h := fun d => nth (d - 1) (matvec g0 gadd gmul idg INITt v) g0).
  assert (E1 : at_ (map rep (x :: v)) 0 :: map g (seq 1 11) = map fst ((rep x, x) :: map (fun d => (g d, h d)) (seq 1 11))).
  { cbn [map fst]. rewrite map_pair_fst. apply f_equal2; [apply at_rep || reflexivity|reflexivity]. }
  rewrite E1.
  assert (E2 : map rep (fast_init g0 gadd gmul idg (x :: v)) = map rep (map snd ((rep x, x) :: map (fun d => (g d, h d)) (seq 1 11)))).
  { apply f_equal. unfold fast_init. cbn [hd tl map snd]. apply f_equal. rewrite map_pair_snd.
    symmetry. apply map_nth_seq11. rewrite length_matvec. reflexivity. }
  rewrite E2. apply mapM_reduce. intros xa [<-|Hx]; cbn [fst snd].
  - exists (p - 1). split; [bnd|apply lz_rep].
  - apply in_map_iff in Hx. destruct Hx as (d & <- & Hd). apply in_seq in Hd. cbn [fst snd].
    exists (0 + Z.of_nat 11 * P2). split; [bnd|].
    unfold g, h.
    rewrite <- (init_row g0 g1 gadd gmul gsub gopp GF_ring idg x v d Hv) by lia.
    unfold wsum, idg.
    apply (lz_fold (fun j => at_ (map rep (x :: v)) j) (fun j => at_ (row_ FAST_PARTIAL_ROUND_INITIAL_MATRIX (j - 1)) (d - 1))
             (fun j => nth j (x :: v) g0) (fun j => inj (at_ (row_ FAST_PARTIAL_ROUND_INITIAL_MATRIX (j - 1)) (d - 1))) (seq 1 11)).
    + intros j _. rewrite at_rep. apply lz_rep.
    + intros j Hj. apply in_seq in Hj. apply table_lz.
      assert (A : forallb table_ok FAST_PARTIAL_ROUND_INITIAL_MATRIX = true) by (vm_compute; reflexivity).
      rewrite forallb_forall in A. apply A. apply nth_In.
      change (length FAST_PARTIAL_ROUND_INITIAL_MATRIX) with 11%nat. lia.
    + apply lz_zero.
    + cbn [length seq]. bnd.
Qed.

Lemma fast_correct v i : length v = 12%nat -> (i < 22)%nat ->
  computes (mdsPartialLayerFast (map rep v) i) (map rep (fast_mds g0 gadd gmul idg i v)).
Proof.
  intros Hv Hi. unfold mdsPartialLayerFast.
  destruct v as [|x v]; [discriminate|]. injection Hv as Hv.
  assert (A : forallb (fun l => table_ok l && Nat.eqb (length l) 11) FAST_PARTIAL_ROUND_W_HATS_VARS = true) by (vm_compute; reflexivity).
  assert (A' : forallb (fun l => table_ok l && Nat.eqb (length l) 11) FAST_PARTIAL_ROUND_VS = true) by (vm_compute; reflexivity).
  rewrite forallb_forall in A, A'.
  assert (HW : In (row_ FAST_PARTIAL_ROUND_W_HATS_VARS i) FAST_PARTIAL_ROUND_W_HATS_VARS) by (apply nth_In; exact Hi).
  assert (HV : In (row_ FAST_PARTIAL_ROUND_VS i) FAST_PARTIAL_ROUND_VS) by (apply nth_In; exact Hi).
  apply A in HW. apply A' in HV. apply andb_prop in HW, HV.
  destruct HW as [TW LW], HV as [TV LV]. apply Nat.eqb_eq in LW, LV.
  eapply computes_bind.
  { eapply computes_reduce with (B := 0 + Z.of_nat 11 * P2 + P2)
      (a := (x * inj MDS0TO0_VAR + dotp g0 gadd gmul idg (WHr i) v)%GF); [|bnd].
    apply lz_muladd; [rewrite at_rep; apply lz_rep| | |fold P2; bnd].
    - split; [vm_compute; split; discriminate|reflexivity].
    - unfold WHr. change (nth i FAST_PARTIAL_ROUND_W_HATS []) with (row_ FAST_PARTIAL_ROUND_W_HATS_VARS i).
      rewrite <- (wsum_dotp g0 g1 gadd gmul gsub gopp GF_ring idg (row_ FAST_PARTIAL_ROUND_W_HATS_VARS i) x v LW Hv).
      unfold wsum, idg.
      apply (lz_fold (fun j => at_ (map rep (x :: v)) j) (fun j => at_ (row_ FAST_PARTIAL_ROUND_W_HATS_VARS i) (j - 1))
             (fun j => nth j (x :: v) g0) (fun j => inj (at_ (row_ FAST_PARTIAL_ROUND_W_HATS_VARS i) (j - 1))) (seq 1 11)).
      + intros j _. rewrite at_rep. apply lz_rep.
      + intros j _. now apply table_lz.
      + apply lz_zero.
      + cbn [length seq]. bnd. }
  set (d := (x * inj MDS0TO0_VAR + dotp g0 gadd gmul idg (WHr i) v)%GF).
  set (g := fun j => MulAddNoReduce (at_ (map rep (x :: v)) 0) (at_ (row_ FAST_PARTIAL_ROUND_VS i) (j - 1)) (at_ (map rep (x :: v)) j)).
  set (h := fun j => (x * inj (at_ (row_ FAST_PARTIAL_ROUND_VS i) (j - 1)) + nth j (x :: v) g0)%GF).
  assert (E1 : rep d :: map g (seq 1 11) = map fst ((rep d, d) :: map (fun j => (g j, h j)) (seq 1 11))).
  { cbn [map fst]. rewrite map_pair_fst. apply f_equal2; [apply at_rep || reflexivity|reflexivity]. }
  rewrite E1.
  assert (E2 : map rep (fast_mds g0 gadd gmul idg i (x :: v)) = map rep (map snd ((rep d, d) :: map (fun j => (g j, h j)) (seq 1 11)))).
  { f_equal. unfold fast_mds. cbn [hd tl map snd]. f_equal.
    - unfold d, idg. change M00 with (inj MDS0TO0_VAR). ring.
    - rewrite map_pair_snd. unfold h, VSr, idg, at_. fold (row_ FAST_PARTIAL_ROUND_VS i).
      clear - LV Hv. generalize dependent (row_ FAST_PARTIAL_ROUND_VS i). intros l LV.
      split_list l LV. split_list v Hv. cbn [map map2 seq nth Nat.sub].
      repeat (apply f_equal2; [ring|]). reflexivity. }
  rewrite E2. apply mapM_reduce. intros xa [<-|Hx]; cbn [fst snd].
  - exists (p - 1). split; [bnd|apply lz_rep].
  - apply in_map_iff in Hx. destruct Hx as (j & <- & Hd). cbn [fst snd].
    exists (p - 1 + P2). split; [bnd|]. unfold g, h.
    apply lz_muladd; [rewrite at_rep; apply lz_rep|now apply table_lz|rewrite at_rep; apply lz_rep|fold P2; bnd].
Qed.

(** ** The S-box *)
(** results possible for a reduction of X with a quotient of w bits *)
Definition red (w X : Z) (m : GF) : Prop :=
  exists q, 0 <= q < 2 ^ w /\ q < r /\ (q * p + rep m) mod r = X.
Definition Sbox_rel (w : Z) (x y : GF) : Prop :=
  exists c, red w (rep x * (rep x * rep x)) c /\ red w (rep x * (rep c * rep c)) y.

Lemma cube_bound (a b c : GF) : 0 <= rep a * (rep b * rep c) <= (p - 1) * ((p - 1) * (p - 1)).
Proof.
  pose proof (rep_range a). pose proof (rep_range b). pose proof (rep_range c).
  assert (0 <= rep b * rep c <= (p - 1) * (p - 1)) by nia.
  split; [nia|]. apply Z.mul_le_mono_nonneg; lia.
Qed.
Lemma p3_r : (p - 1) * ((p - 1) * (p - 1)) < r. Proof. reflexivity. Qed.
Lemma mulnr3 (a b c : GF) : MulNoReduce (rep a) (MulNoReduce (rep b) (rep c)) = rep a * (rep b * rep c).
Proof.
  unfold MulNoReduce, api_mul. pose proof (cube_bound a b c). pose proof (cube_bound g1 b c).
  change (rep g1) with 1 in *. pose proof p3_r.
  rewrite (Z.mod_small (rep b * rep c)) by lia. apply Z.mod_small. lia.
Qed.
Lemma inj_cube (a b c : GF) : inj (rep a * (rep b * rep c)) = (a * (b * c))%GF.
Proof. now rewrite !inj_mul, !inj_rep. Qed.

Lemma denotes_red (a b c : GF) w :
  denotes (ReduceWithMaxBits (rep a * (rep b * rep c)) w)
          (fun m => exists y, m = rep y /\ red w (rep a * (rep b * rep c)) y) (128 <= w)
          (rep (a * (b * c))%GF).
Proof.
  pose proof (cube_bound a b c) as B. pose proof p3_r as Br.
  split.
  - intros Hw. rewrite reduce_run.
    + now rewrite <- inj_cube, rep_inj.
    + lia.
    + apply Z.lt_le_trans with (2 ^ 128); [|apply Z.pow_le_mono_r; lia].
      apply Z.div_lt_upper_bound; [apply p_pos|].
      eapply Z.le_lt_trans; [apply B|]. reflexivity.
  - intros m. rewrite reduce_reach by (unfold inr_; lia). split.
    + intros [Hm (q & Hq)]. destruct (canon_rep_exists m Hm) as [y <-]. exists y. split; auto. exists q. exact Hq.
    + intros (y & -> & (q & Hq)). split; [apply rep_range|]. exists q. exact Hq.
Qed.

Lemma sbox_denotes w x :
  denotes (sBoxMonomial w (rep x)) (fun y' => exists y, y' = rep y /\ Sbox_rel w x y) (128 <= w)
          (rep (x ^ 7)%GF).
Proof.
  unfold sBoxMonomial. rewrite mulnr3.
  eapply denotes_iff.
  - eapply (denotes_bind _ _ _ _ _
      (fun c' y' => exists y, y' = rep y /\ red w (rep x * (c' * c')) y) (fun _ => 128 <= w)
      (fun c' => rep (x * (inj c' * inj c'))%GF)); [apply denotes_red|].
    intros c' (c & -> & Hc). rewrite mulnr3, inj_rep. apply denotes_red.
  - intros y'. cbn beta. split.
    + intros (c' & (c & -> & Hc) & (y & -> & Hy)). exists y. split; auto. exists c. auto.
    + intros (y & -> & (c & Hc & Hy)). exists (rep c). split; eauto.
  - tauto.
  - intros _. rewrite inj_rep. apply f_equal. ring.
Qed.

(** sound widths: the S-box is x^7 *)
Lemma red_sound w X m : 0 <= w <= 189 -> 0 <= X < r -> red w X m -> m = inj X.
Proof.
  intros Hw HX (q & Hq & Hqr & E).
  assert (q * p + rep m < r).
  { pose proof (rep_range m).
    assert (2 ^ w <= 2 ^ 189) by (apply Z.pow_le_mono_r; lia).
    assert (q + 1 <= 2 ^ 189) by lia.
    assert (q * p + rep m < (q + 1) * p) by lia.
    assert ((q + 1) * p <= 2 ^ 189 * p) by (apply Z.mul_le_mono_nonneg_r; [unfold p|]; lia).
    assert (2 ^ 189 * p < r) by reflexivity. lia. }
  pose proof (rep_range m). rewrite Z.mod_small in E by nia.
  rewrite <- E, inj_add, inj_mul, inj_p, inj_rep. ring.
Qed.
Lemma red_complete w X : 128 <= w -> 0 <= X <= (p - 1) * ((p - 1) * (p - 1)) -> red w X (inj X).
Proof.
  intros Hw HX. exists (X / p). pose proof p3_r. pose proof p_pos.
  assert (X / p < 2 ^ 128).
  { apply Z.div_lt_upper_bound; [lia|]. eapply Z.le_lt_trans; [apply HX|]. reflexivity. }
  assert (2 ^ 128 <= 2 ^ w) by (apply Z.pow_le_mono_r; lia).
  assert (2 ^ 128 < r) by reflexivity.
  split; [split; [apply Z.div_pos; lia|lia]|]. split; [lia|].
  rewrite rep_inj. rewrite Z.mul_comm, <- Z.div_mod by lia. apply Z.mod_small. lia.
Qed.

Lemma red_cube w a b c : 128 <= w -> red w (rep a * (rep b * rep c)) (a * (b * c))%GF.
Proof. intros Hw. rewrite <- inj_cube. apply red_complete; [lia|apply cube_bound]. Qed.

Lemma sbox_sound w x y : 128 <= w <= 189 -> (Sbox_rel w x y <-> y = (x ^ 7)%GF).
Proof.
  intros Hw. pose proof p3_r. split.
  - intros (c & Hc & Hy). pose proof (cube_bound x x x). pose proof (cube_bound x c c).
    apply red_sound in Hc; [|lia|lia]. apply red_sound in Hy; [|lia|lia].
    rewrite inj_cube in *. subst. ring.
  - intros ->. exists (x * (x * x))%GF. split.
    + apply red_cube; lia.
    + replace (x ^ 7)%GF with (x * ((x * (x * x)) * (x * (x * x))))%GF by ring. apply red_cube; lia.
Qed.

(** the width in the code: every multiple k*r, 0 <= k <= 5, can be slipped in *)
Definition wraps (X : GF) (m : GF) : Prop := exists k, 0 <= k <= 5 /\ m = (X + inj (k * r))%GF.
Definition sbox_wrapped (x y : GF) : Prop :=
  exists c, wraps (x ^ 3)%GF c /\ wraps (x * c ^ 2)%GF y.

Lemma red_192 X m : 0 <= X <= (p - 1) * ((p - 1) * (p - 1)) -> (red 192 X m <-> wraps (inj X) m).
Proof.
  intros HX. pose proof (rep_range m) as Hm. pose proof p_pos. pose proof r_pos. split.
  - intros (q & Hq & Hqr & E). exists ((q * p + rep m) / r).
    assert (D : q * p + rep m = r * ((q * p + rep m) / r) + X) by (rewrite <- E; apply Z.div_mod; lia).
    split.
    + split; [apply Z.div_pos; nia|].
      assert ((q * p + rep m) / r < 6); [|lia].
      apply Z.div_lt_upper_bound; [lia|].
      assert (q * p + rep m < 2 ^ 192 * p) by nia.
      assert (2 ^ 192 * p < r * 6) by reflexivity. lia.
    + set (k := (q * p + rep m) / r) in *.
      replace (inj X + inj (k * r))%GF with (inj (q * p + rep m)) by (rewrite <- inj_add; f_equal; lia).
      rewrite inj_add, inj_mul, inj_p, inj_rep. ring.
  - intros (k & Hk & ->). exists ((X + k * r) / p).
    rewrite <- inj_add, rep_inj.
    assert (B : (X + k * r) / p < 2 ^ 192).
    { apply Z.div_lt_upper_bound; [lia|].
      assert ((p - 1) * ((p - 1) * (p - 1)) + 5 * r < p * 2 ^ 192) by reflexivity.
      assert (k * r <= 5 * r) by (apply Z.mul_le_mono_nonneg_r; lia). lia. }
    split; [split; [apply Z.div_pos; nia|exact B]|].
    split; [eapply Z.lt_trans; [exact B|reflexivity]|].
    rewrite Z.mul_comm, <- Z.div_mod by lia. rewrite Z.mod_add by lia.
    apply Z.mod_small. pose proof p3_r. lia.
Qed.

Lemma sbox_192 x y : Sbox_rel 192 x y <-> sbox_wrapped x y.
Proof.
  unfold Sbox_rel, sbox_wrapped. split; intros (c & Hc & Hy); exists c.
  - apply red_192 in Hc; [|apply cube_bound]. apply red_192 in Hy; [|apply cube_bound].
    rewrite inj_cube in *.
    split; [replace (x ^ 3)%GF with (x * (x * x))%GF by ring|replace (x * c ^ 2)%GF with (x * (c * c))%GF by ring]; auto.
  - split; (apply red_192; [apply cube_bound|]; rewrite inj_cube).
    + replace (x * (x * x))%GF with (x ^ 3)%GF by ring. auto.
    + replace (x * (c * c))%GF with (x * c ^ 2)%GF by ring. auto.
Qed.

Lemma sbox_honest w x : 128 <= w -> Sbox_rel w x (x ^ 7)%GF.
Proof.
  intros Hw. exists (x * (x * x))%GF. split.
  - apply red_cube; lia.
  - replace (x ^ 7)%GF with (x * ((x * (x * x)) * (x * (x * x))))%GF by ring. apply red_cube; lia.
Qed.

(** ** Whole permutation *)
Lemma map_rep_inj : forall u v : list GF, map rep u = map rep v -> u = v.
Proof.
  induction u as [|x u IH]; intros [|y v] E; try discriminate; [reflexivity|].
  cbn [map] in E. injection E as E1 E2. apply GF_eq in E1. subst. f_equal. auto.
Qed.
Lemma unrep (u : list GF) : map inj (map rep u) = u.
Proof. rewrite map_map, (map_ext _ (fun x => x)), map_id; [reflexivity|apply inj_rep]. Qed.

Definition mapR {A B} (f : A -> B) (R : A -> Prop) (y : B) : Prop := exists x, y = f x /\ R x.

Lemma denotes_mapM_rel w l :
  denotes (mapM (sBoxMonomial w) (map rep l)) (mapR (map rep) (Forall2 (Sbox_rel w) l)) (128 <= w)
          (map rep (map (fun x => x ^ 7)%GF l)).
Proof.
  induction l as [|x l IH]; cbn [map mapM].
  - eapply denotes_iff; [apply computes_denotes, computes_ret| |tauto|reflexivity].
    intros y. split; [intros ->; exists []; auto|]. intros (z & -> & H). now inversion H.
  - eapply denotes_iff.
    + eapply (denotes_bind _ _ _ _ _
        (fun y' l' => exists t, l' = y' :: map rep t /\ Forall2 (Sbox_rel w) l t) (fun _ => 128 <= w)
        (fun y' => y' :: map rep (map (fun x => x ^ 7)%GF l))); [apply sbox_denotes|].
      intros y' _. eapply denotes_iff.
      * eapply (denotes_bind _ _ _ _ _ (fun ys l' => l' = y' :: ys) (fun _ => True) (fun ys => y' :: ys)); [apply IH|].
        intros ys _. apply computes_denotes, computes_ret.
      * intros l'. split.
        -- intros (ys & (t & -> & H) & ->). eauto.
        -- intros (t & -> & H). exists (map rep t). split; [exists t; auto|reflexivity].
      * tauto.
      * reflexivity.
    + intros l'. split.
      * intros (y' & (y & -> & Hy) & (t & -> & Ht)). exists (y :: t). split; [reflexivity|]. now constructor.
      * intros (t & -> & H). inversion H as [|? y ? t' Hy Ht]; subst. exists (rep y). split; [eauto|].
        exists t'. split; auto.
    + tauto.
    + reflexivity.
Qed.

(** functional form of the rounds with the exact S-box *)
Definition sbox7 (x : GF) : GF := (x ^ 7)%GF.
Definition full_round_fn (k : nat) (s : list GF) : list GF := mds_g (map sbox7 (add_rc_g k s)).
Definition partial_round_fn (k : nat) (s : list GF) : list GF :=
  let u := add_rc_g k s in mds_g (sbox7 (hd g0 u) :: tl u).
(** the textbook permutation as a function *)
Definition poseidon (s : list GF) : list GF :=
  let s := fold_left (fun s k => full_round_fn k s) (seq 0 4) s in
  let s := fold_left (fun s k => partial_round_fn k s) (seq 4 22) s in
  fold_left (fun s k => full_round_fn k s) (seq 26 4) s.

Lemma length_full_round_fn k s : length (full_round_fn k s) = 12%nat.
Proof. apply length_mds_g. Qed.
Lemma length_partial_round_fn k s : length (partial_round_fn k s) = 12%nat.
Proof. apply length_mds_g. Qed.
Lemma length_fold {A} (f : list GF -> A -> list GF) l : (forall s k, length (f s k) = 12%nat) ->
  forall s, length s = 12%nat -> length (fold_left f l s) = 12%nat.
Proof. intros H. induction l as [|a l IH]; intros s Hs; cbn; auto. Qed.
Lemma length_poseidon s : length s = 12%nat -> length (poseidon s) = 12%nat.
Proof.
  intros H. unfold poseidon. apply length_fold; [intros; apply length_full_round_fn|].
  apply length_fold; [intros; apply length_partial_round_fn|].
  apply length_fold; [intros; apply length_full_round_fn|exact H].
Qed.

Lemma length_add_rc k s : length s = 12%nat -> (k < 30)%nat -> length (add_rc_g k s) = 12%nat.
Proof.
  intros H Hk. unfold add_rc_g, add_rc. rewrite length_vadd; [exact H|].
  rewrite map_length. unfold RC. rewrite map_length, firstn_length, skipn_length.
  change (length ALL_ROUND_CONSTANTS) with 360%nat. rewrite H. lia.
Qed.

Lemma Forall2_length {A B} (Q : A -> B -> Prop) l l' : Forall2 Q l l' -> length l = length l'.
Proof. induction 1; cbn; auto. Qed.

Notation full_round_r w := (full_round g0 gadd gmul idg (Sbox_rel w)).
Notation fast_round_r w := (fast_round g0 gadd gmul idg (Sbox_rel w)).

Lemma full_round_denotes w k s : length s = 12%nat -> (k < 30)%nat ->
  denotes (state <- constantLayer (map rep s) k;; state <- sBoxLayer w state;; mdsLayer state)%circ
          (mapR (map rep) (full_round_r w k s)) (128 <= w) (map rep (full_round_fn k s)).
Proof.
  intros Hs Hk.
  eapply denotes_computes_bind; [now apply constant_layer_correct|].
  pose proof (length_add_rc k s Hs Hk) as La.
  eapply denotes_iff.
  - eapply (denotes_bind _ _ _ _ _ (fun u' t' => exists u, u' = map rep u /\ t' = map rep (mds_g u)) (fun _ => True)
        (fun u' => map rep (mds_g (map inj u')))); [apply denotes_mapM_rel|].
    intros u' (u & -> & Hu).
    apply Forall2_length in Hu. rewrite La in Hu. symmetry in Hu.
    rewrite unrep.
    eapply denotes_iff; [apply computes_denotes, mds_layer_correct, Hu| |tauto|reflexivity].
    intros t'. split; [intros ->; eauto|]. intros (u2 & E & ->).
    apply map_rep_inj in E. subst u2. reflexivity.
  - intros t'. split.
    + intros (u' & (u & -> & Hu) & (u2 & E & ->)).
      exists (mds_g u2). split; [reflexivity|]. exists u2. split; [|reflexivity].
      apply map_rep_inj in E. subst u2. exact Hu.
    + intros (t & -> & (u & Hu & ->)). exists (map rep u). split; [exists u; auto|]. exists u. auto.
  - tauto.
  - intros _. now rewrite unrep.
Qed.

Lemma denotes_foldM_chain (f : list Z -> nat -> circ (list Z)) (Q : nat -> list GF -> list GF -> Prop)
    (g : list GF -> nat -> list GF) (P : Prop) l :
  (forall k s, In k l -> length s = 12%nat ->
      denotes (f (map rep s) k) (mapR (map rep) (Q k s)) P (map rep (g s k))) ->
  (forall k s t, In k l -> length s = 12%nat -> Q k s t -> length t = 12%nat) ->
  forall s, length s = 12%nat ->
  denotes (foldM f (map rep s) l) (mapR (map rep) (chain (map Q l) s)) P (map rep (fold_left g l s)).
Proof.
  intros H HL. induction l as [|k l IH]; intros s Hs; cbn [foldM map chain fold_left].
  - eapply denotes_iff; [apply computes_denotes, computes_ret| |tauto|reflexivity].
    intros y. split; [intros ->; exists s; auto|]. intros (z & -> & ->). reflexivity.
  - eapply denotes_iff.
    + eapply (denotes_bind _ _ _ _ _ (fun u' t' => exists u, u' = map rep u /\ mapR (map rep) (chain (map Q l) u) t')
           (fun _ => P) (fun u' => map rep (fold_left g l (map inj u')))); [apply H; [apply in_eq|exact Hs]|].
      intros u' (u & -> & Hu). apply HL in Hu; [|apply in_eq|exact Hs].
      rewrite unrep.
      eapply denotes_iff; [apply IH; [intros; apply H; auto using in_cons|intros; eapply HL; eauto using in_cons|exact Hu]| |tauto|reflexivity].
      intros t'. split; [intros Ht; eauto|]. intros (u2 & E & Ht).
      apply map_rep_inj in E. subst u2. exact Ht.
    + intros t'. split.
      * intros (u' & (u & -> & Hu) & (u2 & E & (t & -> & Ht))). exists t. split; [reflexivity|].
        exists u. split; [exact Hu|].
        apply map_rep_inj in E. subst u2. exact Ht.
      * intros (t & -> & (u & Hu & Ht)). exists (map rep u). split; [exists u; auto|]. exists u. split; [reflexivity|].
        exists t. auto.
    + tauto.
    + intros _. now rewrite unrep.
Qed.

Lemma full_rounds_denotes w k s : length s = 12%nat -> (k + 4 <= 30)%nat ->
  denotes (fullRounds w (map rep s) k) (mapR (map rep) (full_rounds_g (Sbox_rel w) k s)) (128 <= w)
          (map rep (fold_left (fun s k => full_round_fn k s) (seq k 4) s)).
Proof.
  intros Hs Hk. unfold fullRounds.
  apply (denotes_foldM_chain _ (full_round_r w) (fun s k => full_round_fn k s)); auto.
  - intros j t Hj Ht. apply in_seq in Hj. apply full_round_denotes; auto. unfold HALF_N_FULL_ROUNDS in Hj. lia.
  - intros j a t _ _ H. eapply full_round_length, H.
Qed.

Definition fast_round_fn (s : list GF) (i : nat) : list GF :=
  fast_mds g0 gadd gmul idg i ((sbox7 (hd g0 s) + FRC i)%GF :: tl s).
Lemma length_fast_mds i s : (i < 22)%nat -> length s = 12%nat -> length (fast_mds g0 gadd gmul idg i s) = 12%nat.
Proof.
  intros Hi Hs. unfold fast_mds. cbn [length].
  assert (A : forallb (fun l => Nat.eqb (length l) 11) FAST_PARTIAL_ROUND_VS = true) by (vm_compute; reflexivity).
  rewrite forallb_forall in A.
  assert (E : length (VSr i) = 11%nat) by (unfold VSr; rewrite map_length; apply Nat.eqb_eq, A, nth_In; exact Hi).
  destruct s as [|x s]; [discriminate Hs|]. injection Hs as Hs.
  rewrite length_map2; cbn [tl]; congruence.
Qed.

Lemma fast_round_denotes w i s : length s = 12%nat -> (i < 22)%nat ->
  denotes (s0 <- sBoxMonomial w (at_ (map rep s) 0);;
           s0 <- Add s0 (at_ FAST_PARTIAL_ROUND_CONSTANTS i);;
           mdsPartialLayerFast (s0 :: tl (map rep s)) i)%circ
          (mapR (map rep) (fast_round_r w i s)) (128 <= w) (map rep (fast_round_fn s i)).
Proof.
  intros Hs Hi. destruct s as [|x s]; [discriminate|]. 
  assert (HT : table_ok FAST_PARTIAL_ROUND_CONSTANTS = true) by (vm_compute; reflexivity).
  change (at_ (map rep (x :: s)) 0) with (rep x). cbn [map tl].
  assert (Hc : forall y, computes (s0 <- Add (rep y) (at_ FAST_PARTIAL_ROUND_CONSTANTS i);;
           mdsPartialLayerFast (s0 :: map rep s) i)%circ
           (map rep (fast_mds g0 gadd gmul idg i ((y + FRC i)%GF :: s)))).
  { intros y. eapply computes_bind; [rewrite (rep_table _ _ HT); apply gadd_correct|].
    apply (fast_correct ((y + FRC i)%GF :: s)); auto. }
  eapply denotes_iff.
  - eapply (denotes_bind _ _ _ _ _
       (fun y' t' => exists y, y' = rep y /\ t' = map rep (fast_mds g0 gadd gmul idg i ((y + FRC i)%GF :: s)))
       (fun _ => True)
       (fun y' => map rep (fast_mds g0 gadd gmul idg i ((inj y' + FRC i)%GF :: s)))); [apply sbox_denotes|].
    intros y' (y & -> & Hy). rewrite inj_rep.
    eapply denotes_iff; [apply computes_denotes, Hc| |tauto|reflexivity].
    intros t'. split; [intros ->; eauto|]. intros (y2 & E & ->). apply GF_eq in E. now subst.
  - intros t'. split.
    + intros (y' & (y & -> & Hy) & (y2 & E & ->)). apply GF_eq in E. subst y2.
      exists (fast_mds g0 gadd gmul idg i ((y + FRC i)%GF :: s)). split; [reflexivity|]. exists y. auto.
    + intros (t & -> & (y & Hy & ->)). exists (rep y). split; [exists y; auto|]. exists y. auto.
  - tauto.
  - intros _. now rewrite inj_rep.
Qed.

Lemma partial_rounds_denotes w s : length s = 12%nat ->
  denotes (partialRounds w (map rep s)) (mapR (map rep) (fast_partial_g (Sbox_rel w) s)) (128 <= w)
          (map rep (fold_left fast_round_fn (seq 0 22) (fast_init g0 gadd gmul idg (vadd gadd s (map idg FC))))).
Proof.
  intros Hs. unfold partialRounds.
  assert (LF : length (vadd gadd s (map idg FC)) = 12%nat) by (rewrite length_vadd; rewrite ?map_length; auto).
  eapply denotes_computes_bind.
  { eapply computes_eq.
    - unfold partialFirstConstantLayer.
      pose proof (const_layer FAST_PARTIAL_FIRST_ROUND_CONSTANT 0 s Hs eq_refl (le_n _)) as C.
      erewrite (map_ext_in) in C by reflexivity.
      eapply computes_eq; [|reflexivity].
      assert (E : forall f g l, (forall i, f i = g i) -> @mapM nat Z f l = mapM g l).
      { intros f g l H. induction l as [|a l IH]; cbn; [reflexivity|]. now rewrite H, IH. }
      erewrite E; [exact C|]. intros i. cbn beta. now rewrite Nat.add_0_r.
    - reflexivity. }
  eapply denotes_computes_bind; [apply init_correct; exact LF|].
  apply (denotes_foldM_chain _ (fast_round_r w) fast_round_fn).
  - intros k t Hk Ht. apply in_seq in Hk. apply fast_round_denotes; auto. unfold N_PARTIAL_ROUNDS in *. lia.
  - intros k a t Hk Ha (y & _ & ->). apply in_seq in Hk. unfold N_PARTIAL_ROUNDS in *.
    apply length_fast_mds; [lia|]. cbn [length]. destruct a; [discriminate|]. exact Ha.
  - reflexivity.
Qed.

(** exact S-box relation *)
Definition Sb7 (x y : GF) : Prop := y = sbox7 x.
Lemma chain_fn (Q : nat -> list GF -> list GF -> Prop) (g : list GF -> nat -> list GF) l :
  (forall k s t, Q k s t <-> t = g s k) ->
  forall s t, chain (map Q l) s t <-> t = fold_left g l s.
Proof.
  intros H. induction l as [|k l IH]; intros s t; cbn [map chain fold_left]; [reflexivity|].
  split.
  - intros (u & Hu & C). apply H in Hu. subst. now apply IH.
  - intros ->. exists (g s k). split; [now apply H|]. now apply IH.
Qed.
Lemma Forall2_fn {A B} (f : A -> B) l : forall l', Forall2 (fun x y => y = f x) l l' <-> l' = map f l.
Proof.
  induction l as [|x l IH]; intros l'; cbn [map].
  - split; [now inversion 1|intros ->; constructor].
  - split; [inversion 1; subst; f_equal; now apply IH|intros ->; constructor; [reflexivity|now apply IH]].
Qed.
Lemma full_round_7 k s t : full_round g0 gadd gmul idg Sb7 k s t <-> t = full_round_fn k s.
Proof.
  unfold full_round, full_round_fn. split.
  - intros (u & Hu & ->). apply Forall2_fn in Hu. now subst.
  - intros ->. eexists. split; [now apply Forall2_fn|reflexivity].
Qed.
Lemma partial_round_7 k s t : partial_round g0 gadd gmul idg Sb7 k s t <-> t = partial_round_fn k s.
Proof.
  unfold partial_round, partial_round_fn. split.
  - intros (y & -> & ->). reflexivity.
  - intros ->. eexists. split; reflexivity.
Qed.
Lemma fast_round_7 k s t : fast_round g0 gadd gmul idg Sb7 k s t <-> t = fast_round_fn s k.
Proof.
  unfold fast_round, fast_round_fn. split.
  - intros (y & -> & ->). reflexivity.
  - intros ->. eexists. split; reflexivity.
Qed.
Lemma poseidon_rel_7 s t : poseidon_rel g0 gadd gmul idg Sb7 s t <-> t = poseidon s.
Proof.
  unfold poseidon_rel, poseidon, full_rounds. split.
  - intros (u & v & H1 & H2 & H3).
    apply (chain_fn _ (fun s k => full_round_fn k s)) in H1; [|apply full_round_7].
    apply (chain_fn _ (fun s k => partial_round_fn k s)) in H2; [|apply partial_round_7].
    apply (chain_fn _ (fun s k => full_round_fn k s)) in H3; [|apply full_round_7].
    now subst.
  - intros ->. eexists. eexists. split; [|split].
    + apply (chain_fn _ (fun s k => full_round_fn k s)); [apply full_round_7|reflexivity].
    + apply (chain_fn _ (fun s k => partial_round_fn k s)); [apply partial_round_7|reflexivity].
    + apply (chain_fn _ (fun s k => full_round_fn k s)); [apply full_round_7|reflexivity].
Qed.

Lemma fast_fn_equiv s : length s = 12%nat ->
  fold_left fast_round_fn (seq 0 22) (fast_init g0 gadd gmul idg (vadd gadd s (map idg FC)))
  = fold_left (fun s k => partial_round_fn k s) (seq 4 22) s.
Proof.
  intros Hs.
  pose proof (fast_partial_equiv g0 g1 gadd gmul gsub gopp GF_ring idg eq_refl eq_refl
     (fun _ _ => eq_refl) (fun _ _ => eq_refl) Sb7 s
     (fold_left fast_round_fn (seq 0 22) (fast_init g0 gadd gmul idg (vadd gadd s (map idg FC)))) Hs) as E.
  unfold fast_partial in E.
  apply (chain_fn (partial_round g0 gadd gmul idg Sb7) (fun s k => partial_round_fn k s)); [apply partial_round_7|].
  apply E. apply (chain_fn _ fast_round_fn); [apply fast_round_7|]. reflexivity.
Qed.

Notation poseidon_r Sb := (poseidon_rel g0 gadd gmul idg Sb).

Theorem poseidon_denotes w s : length s = 12%nat ->
  denotes (Poseidon_w w (map rep s)) (mapR (map rep) (poseidon_r (Sbox_rel w) s)) (128 <= w)
          (map rep (poseidon s)).
Proof.
  intros Hs. unfold Poseidon_w.
  pose proof map_rep_inj as INJ. pose proof unrep as UNREP.
  eapply denotes_iff.
  - eapply (denotes_bind _ _ _ _ _
      (fun u' t' => exists u v t, u' = map rep u /\ t' = map rep t /\ fast_partial_g (Sbox_rel w) u v /\
                                  full_rounds_g (Sbox_rel w) 26 v t)
      (fun _ => 128 <= w)
      (fun u' => map rep (fold_left (fun s k => full_round_fn k s) (seq 26 4)
                   (fold_left (fun s k => partial_round_fn k s) (seq 4 22) (map inj u')))));
      [apply full_rounds_denotes; auto; lia|].
    intros u' (u & -> & Hu).
    assert (Lu : length u = 12%nat) by (eapply full_rounds_length; [exact Hs|exact Hu]).
    rewrite UNREP. eapply denotes_iff.
    + eapply (denotes_bind _ _ _ _ _
        (fun v' t' => exists v t, v' = map rep v /\ t' = map rep t /\ full_rounds_g (Sbox_rel w) 26 v t)
        (fun _ => 128 <= w)
        (fun v' => map rep (fold_left (fun s k => full_round_fn k s) (seq 26 4) (map inj v'))));
        [now apply partial_rounds_denotes|].
      intros v' (v & -> & Hv). rewrite UNREP.
      assert (Lv : length v = 12%nat).
      { apply fast_partial_equiv with (rI := g1) (rsub := gsub) (ropp := gopp) in Hv;
          auto using GF_ring. eapply chain_length; [|exact Lu|exact Hv].
        intros f a b Hf _ Hab. apply in_map_iff in Hf. destruct Hf as (j & <- & _).
        eapply partial_round_length, Hab. }
      eapply denotes_iff; [apply full_rounds_denotes; auto; cbn; lia| |tauto|reflexivity].
      intros t'. split.
      * intros (t & -> & Ht). eauto 6.
      * intros (v2 & t & E & -> & Ht). apply INJ in E. subst. exists t. auto.
    + intros t'. split.
      * intros (v' & (v & -> & Hv) & (v2 & t & E & -> & Ht)). apply INJ in E. subst v2.
        exists u, v, t. auto.
      * intros (u2 & v & t & E & -> & Hv & Ht). apply INJ in E. subst u2.
        exists (map rep v). split; [exists v; auto|]. exists v, t. auto.
    + tauto.
    + intros _. rewrite UNREP. now rewrite fast_fn_equiv.
  - intros t'. split.
    + intros (u' & (u & -> & Hu) & (u2 & v & t & E & -> & Hv & Ht)). apply INJ in E. subst u2.
      exists t. split; [reflexivity|].
      apply (poseidon_fast_equiv g0 g1 gadd gmul gsub gopp GF_ring idg eq_refl eq_refl
         (fun _ _ => eq_refl) (fun _ _ => eq_refl)); auto. exists u, v. auto.
    + intros (t & -> & Ht).
      apply (poseidon_fast_equiv g0 g1 gadd gmul gsub gopp GF_ring idg eq_refl eq_refl
         (fun _ _ => eq_refl) (fun _ _ => eq_refl)) in Ht; auto.
      destruct Ht as (u & v & Hu & Hv & Ht). exists (map rep u). split; [exists u; auto|].
      exists u, v, t. auto.
  - tauto.
  - intros _. rewrite UNREP. reflexivity.
Qed.
