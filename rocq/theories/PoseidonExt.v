(** * The extension-field Poseidon layers (used by the gates) compute the layer maps
      of the textbook permutation over K. *)
From Coq Require Import String.
From Coq Require Import ZArith Lia List Bool Ring.
From Verif Require Import Zp GF Circuit Goldilocks GLProofs ExtProofs LinAlg PoseidonGLConst PoseidonSpec
  PoseidonGL PoseidonGLProofs.
Import ListNotations.
Open Scope Z_scope.

Lemma at_repK v i : atE (map repK v) i = repK (nth i v k0).
Proof. unfold atE. change (0, 0) with (repK k0) at 1. apply map_nth. Qed.
Lemma const_repK T i : table_ok T = true -> (at_ T i, Zero) = repK (emb (inj (at_ T i))).
Proof. intros H. unfold repK, emb. cbn [fst snd]. now rewrite <- rep_table. Qed.

Definition mds_k := mds k0 kadd kmul emb.
Definition add_rc_k := add_rc kadd emb.
Definition init_k := fast_init k0 kadd kmul emb.
Definition fast_mds_k := fast_mds k0 kadd kmul emb.

Lemma const_layer_ext (T : list Z) (off : nat) v : length v = 12%nat -> table_ok T = true ->
  (off + 12 <= length T)%nat ->
  computes (mapM (fun i => AddExtension (atE (map repK v) i) (at_ T (i + off), Zero)) (seq 0 12))
           (map repK (vadd kadd v (map emb (map inj (firstn 12 (skipn off T)))))).
Proof.
  intros Hv HT Ho.
  eapply computes_eq.
  - apply (computes_mapM_seq _ (fun i => nth i v k0 + emb (inj (at_ T (i + off))))%K repK).
    intros i Hi. rewrite at_repK, (const_repK T) by auto. apply add_ext_correct.
  - f_equal. unfold at_.
    assert (E : forall i, nth (i + off) T 0 = nth i (skipn off T) 0).
    { intros i. rewrite <- (firstn_skipn off T) at 1. rewrite app_nth2; rewrite firstn_length; [f_equal|]; lia. }
    assert (L : (12 <= length (skipn off T))%nat) by (rewrite skipn_length; lia).
    erewrite map_ext; [|intros i; rewrite E; reflexivity].
    destruct (skipn off T) as [|t0 T']; [cbn in L; lia|].
    do 11 (destruct T' as [|? T']; [cbn in L; lia|]).
    split_list v Hv. reflexivity.
Qed.

Lemma constant_layer_ext_correct v k : length v = 12%nat -> (k < 30)%nat ->
  computes (ConstantLayerExtension (map repK v) k) (map repK (add_rc_k k v)).
Proof.
  intros Hv Hk. apply const_layer_ext; auto.
  change (length ALL_ROUND_CONSTANTS) with 360%nat. unfold SPONGE_WIDTH. lia.
Qed.

Lemma partial_first_ext_correct v : length v = 12%nat ->
  computes (PartialFirstConstantLayerExtension (map repK v)) (map repK (vadd kadd v (map emb FC))).
Proof.
  intros Hv.
  pose proof (const_layer_ext FAST_PARTIAL_FIRST_ROUND_CONSTANT 0 v Hv eq_refl (le_n _)) as H.
  unfold PartialFirstConstantLayerExtension.
  replace (mapM (fun i => AddExtension (atE (map repK v) i) (at_ FAST_PARTIAL_FIRST_ROUND_CONSTANT i, Zero)) (seq 0 12))
    with (mapM (fun i => AddExtension (atE (map repK v) i) (at_ FAST_PARTIAL_FIRST_ROUND_CONSTANT (i + 0), Zero)) (seq 0 12))
    by reflexivity.
  exact H.
Qed.

Lemma sbox_ext_correct x : computes (SBoxMonomialExtension (repK x)) (repK (x ^ 7)%K).
Proof.
  unfold SBoxMonomialExtension.
  eapply computes_bind; [apply mul_ext_correct|].
  eapply computes_bind; [apply mul_ext_correct|].
  eapply computes_bind; [apply mul_ext_correct|].
  eapply computes_eq; [apply mul_ext_correct|]. f_equal. ring.
Qed.
Lemma sbox_layer_ext_correct v :
  computes (SBoxLayerExtension (map repK v)) (map repK (map (fun x => x ^ 7)%K v)).
Proof.
  unfold SBoxLayerExtension. rewrite map_map. apply (computes_mapM2 SBoxMonomialExtension repK).
  intros x _. apply sbox_ext_correct.
Qed.

Lemma wsum_ext (f : nat -> QE) (F : nat -> K) (g : nat -> Z) l : forall a,
  (forall i, In i l -> f i = repK (F i)) ->
  (forall i, In i l -> (g i, Zero) = repK (emb (inj (g i)))) ->
  computes (foldM (fun acc i => t <- MulExtension (f i) (g i, Zero);; AddExtension acc t) (repK a) l)
           (repK (fold_left (fun acc i => (acc + F i * emb (inj (g i)))%K) l a)).
Proof.
  induction l as [|i l IH]; intros a Hf Hg; cbn [foldM fold_left]; [apply computes_ret|].
  eapply computes_bind.
  - rewrite Hf, Hg by apply in_eq. eapply computes_bind; [apply mul_ext_correct|]. apply add_ext_correct.
  - apply IH; intros; [apply Hf|apply Hg]; now apply in_cons.
Qed.

Lemma mds_row_ext_correct i v : length v = 12%nat -> (i < 12)%nat ->
  computes (MdsRowShfExtension i (map repK v)) (repK (nth i (mds_k v) k0)).
Proof.
  intros Hv Hi. unfold MdsRowShfExtension, mds_k.
  rewrite <- (mds_row k0 k1 kadd kmul ksub kopp K_ring emb eq_refl emb_add v i Hv Hi).
  unfold wsum. eapply computes_bind.
  - rewrite <- repK_0.
    apply (wsum_ext (fun j => atE (map repK v) ((j + i) mod SPONGE_WIDTH)) (fun j => nth ((j + i) mod 12) v k0)
             (at_ MDS_MATRIX_CIRC) (seq 0 12)).
    + intros j _. apply at_repK.
    + intros j _. now apply const_repK.
  - eapply computes_bind.
    + rewrite at_repK, const_repK by reflexivity. apply mul_ext_correct.
    + apply add_ext_correct.
Qed.
Lemma length_mds_k v : length (mds_k v) = 12%nat.
Proof. apply (length_mds k0 kadd kmul). Qed.
Lemma mds_layer_ext_correct v : length v = 12%nat ->
  computes (MdsLayerExtension (map repK v)) (map repK (mds_k v)).
Proof.
  intros Hv. unfold MdsLayerExtension. eapply computes_eq.
  - apply (computes_mapM_seq _ (fun i => nth i (mds_k v) k0) repK).
    intros i Hi. apply mds_row_ext_correct; auto; lia.
  - apply f_equal, map_nth_seq12, length_mds_k.
Qed.

Lemma init_ext_correct v : length v = 12%nat ->
  computes (MdsPartialLayerInitExtension (map repK v)) (map repK (init_k v)).
Proof.
  intros Hv. unfold MdsPartialLayerInitExtension.
  destruct v as [|x v]; [discriminate|]. injection Hv as Hv.
  eapply computes_bind.
  - apply (computes_mapM_seq _ (fun d => nth (d - 1) (matvec k0 kadd kmul emb INITt v) k0) repK).
    intros d Hd. rewrite <- (init_row k0 k1 kadd kmul ksub kopp K_ring emb x v d Hv) by lia.
    unfold wsum. rewrite <- repK_0.
    apply (wsum_ext (fun j => atE (map repK (x :: v)) j) (fun j => nth j (x :: v) k0)
             (fun j => at_ (row_ FAST_PARTIAL_ROUND_INITIAL_MATRIX (j - 1)) (d - 1)) (seq 1 11)).
    + intros j _. apply at_repK.
    + intros j Hj. apply in_seq in Hj. apply const_repK.
      assert (A : forallb table_ok FAST_PARTIAL_ROUND_INITIAL_MATRIX = true) by (vm_compute; reflexivity).
      rewrite forallb_forall in A. apply A. apply nth_In.
      change (length FAST_PARTIAL_ROUND_INITIAL_MATRIX) with 11%nat. lia.
  - rewrite map_nth_seq11 by (rewrite length_matvec; reflexivity).
    rewrite at_repK. apply computes_ret.
Qed.

Lemma wsum_start (f : nat -> K) (g : nat -> Z) l a :
  (fold_left (fun acc i => acc + f i * emb (inj (g i))) l a = a + wsum k0 kadd kmul emb f g l)%K.
Proof.
  unfold wsum. revert a.
  assert (G : forall l a b, (fold_left (fun acc i => acc + f i * emb (inj (g i))) l (a + b)
            = a + fold_left (fun acc i => acc + f i * emb (inj (g i))) l b)%K).
  { clear. induction l as [|i l IH]; intros a b; cbn [fold_left]; [reflexivity|].
    rewrite <- IH. f_equal. ring. }
  intros a. rewrite <- G. f_equal. ring.
Qed.

Lemma fast_ext_correct v i : length v = 12%nat -> (i < 22)%nat ->
  computes (MdsPartialLayerFastExtension (map repK v) i) (map repK (fast_mds_k i v)).
Proof.
  intros Hv Hi. unfold MdsPartialLayerFastExtension.
  destruct v as [|x v]; [discriminate|]. injection Hv as Hv.
  assert (A : forallb (fun l => table_ok l && Nat.eqb (length l) 11) FAST_PARTIAL_ROUND_W_HATS = true) by (vm_compute; reflexivity).
  assert (A' : forallb (fun l => table_ok l && Nat.eqb (length l) 11) FAST_PARTIAL_ROUND_VS = true) by (vm_compute; reflexivity).
  rewrite forallb_forall in A, A'.
  assert (HW : In (row_ FAST_PARTIAL_ROUND_W_HATS i) FAST_PARTIAL_ROUND_W_HATS) by (apply nth_In; exact Hi).
  assert (HV : In (row_ FAST_PARTIAL_ROUND_VS i) FAST_PARTIAL_ROUND_VS) by (apply nth_In; exact Hi).
  apply A in HW. apply A' in HV. apply andb_prop in HW, HV. rewrite Nat.eqb_eq in HW, HV.
  destruct HW as [TW LW], HV as [TV LV].
  eapply computes_bind.
  { rewrite at_repK. change (MDS0TO0, Zero) with (repK (emb M00)). apply mul_ext_correct. }
  eapply computes_bind.
  { apply (wsum_ext (fun j => atE (map repK (x :: v)) j) (fun j => nth j (x :: v) k0)
             (fun j => at_ (row_ FAST_PARTIAL_ROUND_W_HATS i) (j - 1)) (seq 1 11)).
    - intros j _. apply at_repK.
    - intros j _. now apply const_repK. }
  eapply computes_bind.
  { apply (computes_mapM_seq _ (fun j => x * emb (inj (at_ (row_ FAST_PARTIAL_ROUND_VS i) (j - 1))) + nth j (x :: v) k0)%K repK).
    intros j _. rewrite !at_repK, const_repK by auto.
    eapply computes_bind; [apply mul_ext_correct|]. apply add_ext_correct. }
  eapply computes_eq; [apply computes_ret|].
  unfold fast_mds_k, fast_mds. cbn [hd tl map].
  apply f_equal2.
  - f_equal. rewrite wsum_start.
    rewrite (wsum_dotp k0 k1 kadd kmul ksub kopp K_ring emb (row_ FAST_PARTIAL_ROUND_W_HATS i) x v LW Hv).
    change (map inj (row_ FAST_PARTIAL_ROUND_W_HATS i)) with (WHr i). cbn [nth]. f_equal. ring.
  - apply f_equal. change (VSr i) with (map inj (row_ FAST_PARTIAL_ROUND_VS i)).
    generalize dependent (row_ FAST_PARTIAL_ROUND_VS i). clear - Hv. intros l TV LV.
    split_list l LV. split_list v Hv.
    cbn [map map2 seq nth at_ Nat.sub]. unfold at_. cbn [nth].
    repeat (apply f_equal2; [ring|]). reflexivity.
Qed.

(** the layers agree with the base-field layers on embedded states *)
Lemma dotp_emb row v : dotp k0 kadd kmul emb row (map emb v) = emb (dotp g0 gadd gmul idg row v).
Proof.
  revert v. induction row as [|a row IH]; intros v; [reflexivity|].
  destruct v as [|b v]; [reflexivity|]. cbn [map dotp]. unfold idg at 1.
  now rewrite IH, emb_add, emb_mul.
Qed.
Lemma matvec_emb M v : matvec k0 kadd kmul emb M (map emb v) = map emb (matvec g0 gadd gmul idg M v).
Proof. unfold matvec. rewrite map_map. apply map_ext. intros row. apply dotp_emb. Qed.
Lemma vadd_emb u v : vadd kadd (map emb u) (map emb v) = map emb (vadd gadd u (map idg v)).
Proof.
  revert v. induction u as [|a u IH]; intros [|b v]; try reflexivity.
  unfold vadd in *. cbn [map map2]. now rewrite IH, <- emb_add.
Qed.
Lemma mds_emb v : mds_k (map emb v) = map emb (mds_g v). Proof. apply matvec_emb. Qed.
Lemma add_rc_emb k v : add_rc_k k (map emb v) = map emb (add_rc_g k v). Proof. apply vadd_emb. Qed.
