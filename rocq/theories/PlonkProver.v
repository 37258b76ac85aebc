(** * The honest Plonk prover: grand products, partial products and quotients over the base field.

    /repo contains only the verifier; this file specifies what plonky2's prover commits to for
    given constants, sigmas and wires. *)
From Coq Require Import String.
From Coq Require Import ZArith NArith Lia List Bool Ring Permutation.
From Verif Require Import Zp GF Circuit Goldilocks GLProofs ExtProofs PoseidonGLProofs BN254 BN254Hash Types Challenger Fri Poly Roots Interp FriMerkle FriEval FriQuery FriTop FriFacts Honest FriSound FriRewind FriExtract
  Gates GateProofs GateCoset GateFilter GateAll GateDegree GateBase Prop_Gates Plonk PlonkProofs Prop_Plonk PlonkSound PlonkRows PlonkCopy Prop_PlonkSound Verifier VerifierProofs VerifierSound ProverPoly.
Import ListNotations.
Open Scope Z_scope.
Local Opaque PoseidonBN HashOrNoop TwoToOne.

Definition gprod (l : list GF) : GF := fold_right gmul g1 l.
Lemma gprod_app a b : gprod (a ++ b) = (gprod a * gprod b)%GF.
Proof. induction a as [|x a IH]; cbn [app gprod fold_right]; [unfold gprod; ring|]. fold (gprod (a ++ b)) (gprod a). rewrite IH. ring. Qed.
Lemma gprod_nz l : (forall x, In x l -> x <> g0) -> gprod l <> g0.
Proof.
  induction l as [|x l IH]; intros H E; cbn [gprod fold_right] in E; [now apply g1_neq_g0|]. apply gmul_eq0 in E.
  destruct E as [E|E]; [now apply (H x (in_eq _ _))|]. apply IH; [|exact E]. intros y Hy. apply H. now right.
Qed.
Lemma gprod_perm a b : Permutation a b -> gprod a = gprod b.
Proof. induction 1; cbn [gprod fold_right]; try fold (gprod l); try fold (gprod l'); try congruence. ring. Qed.
Lemma gprod_ratio {A} (f g : A -> GF) l : (forall x, In x l -> g x <> g0) -> (gprod (map (fun x => f x * ginv (g x))%GF l) * gprod (map g l))%GF = gprod (map f l).
Proof.
  induction l as [|x l IH]; intros H; cbn [map gprod fold_right]; [unfold gprod; ring|].
  fold (gprod (map (fun x => f x * ginv (g x))%GF l)) (gprod (map g l)) (gprod (map f l)). rewrite <- IH by (intros; apply H; now right).
  pose proof (ginv_l _ (H x (in_eq _ _))) as I.
  transitivity (f x * (ginv (g x) * g x) * (gprod (map (fun x => f x * ginv (g x)) l) * gprod (map g l)))%GF; [ring|]. rewrite I. ring.
Qed.
Lemma gprod_cells {A B} (f : A * B -> GF) (l : list A) (m : list B) : gprod (map f (list_prod l m)) = gprod (map (fun a => gprod (map (fun b => f (a, b)) m)) l).
Proof.
  induction l as [|a l IH]; [reflexivity|]. cbn [list_prod map]. rewrite map_app, gprod_app, IH, map_map. reflexivity.
Qed.
Lemma kprod_emb l : kprod (map emb l) = emb (gprod l).
Proof. induction l as [|x l IH]; [reflexivity|]. cbn [map kprod gprod fold_right]. fold (kprod (map emb l)) (gprod l). now rewrite IH, emb_mul. Qed.

Section Prover.
  Context (cd : CommonCircuitData) (gates : list Gate) (kis h : list GF) (cs sigmas ws : list (list GF)).
  Notation d := (cd_DegreeBits cd).
  Notation n := (2 ^ cd_DegreeBits cd)%nat.
  Notation nc := (NumChallenges (cd_Config cd)).
  Notation npp := (NumPartialProducts cd).
  Notation q := (QuotientDegreeFactor cd).
  Notation info := (cd_SelectorsInfo cd).
  Notation num := (NumGateConstraints cd).
  Notation nrw := (NumRoutedWires (cd_Config cd)).
  Notation R := ((NumPartialProducts cd + 1) * QuotientDegreeFactor cd)%nat.
  (** the point of row k; numerator and denominator of the cell in row k, column j *)
  Definition pt (k : nat) : GF := (root d ^ N.of_nat k)%GF.
  Definition pnum (b g : GF) (k j : nat) : GF := (gpeval (nth j ws []) (pt k) + b * (nth j kis g0 * pt k) + g)%GF.
  Definition pden (b g : GF) (k j : nat) : GF := (gpeval (nth j ws []) (pt k) + b * gpeval (nth j sigmas []) (pt k) + g)%GF.
  (** the product of the ratios of the first m cells of row k; of all the rows before k *)
  Definition ratio (b g : GF) (k m : nat) : GF := gprod (map (fun j => pnum b g k j * ginv (pden b g k j))%GF (seq 0 m)).
  Definition zval (b g : GF) (k : nat) : GF := gprod (map (fun k' => ratio b g k' R) (seq 0 k)).
  (** the polynomial with the value f k in row k *)
  Definition through (f : nat -> GF) : list GF := interpolate (map (fun k => (pt k, f k)) (seq 0 n)).
  Definition hz (betas gammas : list GF) : list (list GF) := map (fun ch => through (zval (nth ch betas g0) (nth ch gammas g0))) (seq 0 nc).
  Definition hp (betas gammas : list GF) : list (list GF) :=
    flat_map (fun ch => map (fun m => through (fun k => zval (nth ch betas g0) (nth ch gammas g0) k * ratio (nth ch betas g0) (nth ch gammas g0) k ((m + 1) * q))%GF) (seq 0 npp)) (seq 0 nc).
  (** the vanishing polynomial combined with alpha, by its values; its quotient in chunks *)
  Definition vval (betas gammas : list GF) (alpha : GF) (x : K) : K :=
    powers_sum (tms cd gates kis h betas gammas (emb (root d)) (cols cs) (cols sigmas) (cols ws) (cols (hz betas gammas)) (cols (hp betas gammas)) x) (emb alpha).
  Definition vpoly (betas gammas : list GF) (alpha : GF) : list GF :=
    interpolate (map (fun i => (inj (Z.of_nat i), fst (vval betas gammas alpha (emb (inj (Z.of_nat i)))))) (seq 0 ((q + 1) * n))).
  Definition hq (betas gammas alphas : list GF) : list (list GF) := flat_map (fun i => fst (divide n q (vpoly betas gammas (nth i alphas g0)))) (seq 0 nc).

  (** ** Sizes *)
  Lemma through_length f : (length (through f) <= n)%nat.
  Proof. unfold through. eapply Nat.le_trans; [apply interpolate_length|]. now rewrite map_length, seq_length. Qed.
  Lemma hz_length b g : length (hz b g) = nc. Proof. unfold hz. now rewrite map_length, seq_length. Qed.
  Lemma flat_map_length_const {A B} (F : A -> list B) l k : (forall a, length (F a) = k) -> length (flat_map F l) = (length l * k)%nat.
  Proof. intros H. induction l as [|a l IH]; [reflexivity|]. cbn [flat_map length]. rewrite app_length, H, IH. lia. Qed.
  Lemma hp_length b g : length (hp b g) = (nc * npp)%nat.
  Proof. unfold hp. rewrite (flat_map_length_const _ _ npp), seq_length; [reflexivity|]. intros a. now rewrite map_length, seq_length. Qed.
  Lemma hq_length b g a : length (hq b g a) = (nc * q)%nat.
  Proof. unfold hq. rewrite (flat_map_length_const _ _ q), seq_length; [reflexivity|]. intros i. apply divide_length. Qed.
  Lemma hz_small b g : Forall (fun f => length f <= n)%nat (hz b g).
  Proof. unfold hz. apply Forall_map, Forall_forall. intros ch _. apply through_length. Qed.
  Lemma hp_small b g : Forall (fun f => length f <= n)%nat (hp b g).
  Proof. apply Forall_forall. intros f Hf. unfold hp in Hf. apply in_flat_map in Hf. destruct Hf as (ch & _ & Hf). apply in_map_iff in Hf. destruct Hf as (m & <- & _). apply through_length. Qed.
  Lemma vpoly_length b g a : (length (vpoly b g a) <= (q + 1) * n)%nat.
  Proof. unfold vpoly. eapply Nat.le_trans; [apply interpolate_length|]. now rewrite map_length, seq_length. Qed.
  Lemma hq_small b g a : Forall (fun f => length f <= n)%nat (hq b g a).
  Proof.
    apply Forall_forall. intros f Hf. unfold hq in Hf. apply in_flat_map in Hf. destruct Hf as (i & _ & Hf).
    destruct (divide_bound n q (vpoly b g (nth i a g0))) as [H _]; [pose proof (vpoly_length b g (nth i a g0)); lia|]. now apply (proj1 (Forall_forall _ _) H).
  Qed.

  (** ** Values in the rows *)
  Context (Hd : (d <= TWO_ADICITY)%nat).
  Lemma pt_inj k k' : (k < n)%nat -> (k' < n)%nat -> pt k = pt k' -> k = k'.
  Proof. intros H H' E. apply root_pow_inj in E; [lia|exact Hd| |]; rewrite <- pow2_nat_N; lia. Qed.
  Lemma through_at f k : (k < n)%nat -> gpeval (through f) (pt k) = f k.
  Proof.
    intros Hk. unfold through. apply interpolate_at.
    - rewrite map_map. cbn [fst]. apply NoDup_map_in; [|apply seq_NoDup]. intros x y Hx Hy. apply in_seq in Hx, Hy. apply pt_inj; lia.
    - apply (in_map (fun k => (pt k, f k))), in_seq. lia.
  Qed.
  Lemma cols_at ps x j : nth j (evals (cols ps) (emb x)) k0 = emb (gpeval (nth j ps []) x).
  Proof. rewrite nth_evals. unfold cols. change (@nil K) with (map emb []). rewrite (map_nth (map emb)). apply kpeval_emb. Qed.
  Lemma ratio_0 b g k : ratio b g k 0 = g1. Proof. reflexivity. Qed.
  Lemma zval_0 b g : zval b g 0 = g1. Proof. reflexivity. Qed.
  Lemma zval_S b g k : zval b g (S k) = (zval b g k * ratio b g k R)%GF.
  Proof. unfold zval. rewrite seq_S, map_app, gprod_app. cbn [map gprod fold_right Nat.add]. ring. Qed.
  Lemma row_pt k : row d k = emb (pt k). Proof. reflexivity. Qed.
  Lemma next_pt k : (emb (root d) * emb (pt k))%K = emb (pt (S k)). Proof. exact (row_S d k). Qed.
  Lemma pt_n : pt n = pt 0.
  Proof. apply emb_inj. rewrite <- !row_pt, row_last by exact Hd. reflexivity. Qed.

  (** ** One challenge pair *)
  Context (betas gammas : list GF).
  Notation T := (tms cd gates kis h betas gammas (emb (root d)) (cols cs) (cols sigmas) (cols ws) (cols (hz betas gammas)) (cols (hp betas gammas))).
  Context (Hq : (1 <= q)%nat) (Hcov : (R <= nrw)%nat).
  Context (Hden : forall ch k j, (ch < nc)%nat -> (k < n)%nat -> (j < R)%nat -> pden (nth ch betas g0) (nth ch gammas g0) k j <> g0).
  Context (Hperm : forall ch, (ch < nc)%nat -> zval (nth ch betas g0) (nth ch gammas g0) n = g1).
  Context (Hgates : forall k, (k < n)%nat -> forall t, In t (gcons cd gates h (cols cs) (cols ws) (row d k)) -> t = k0).

  Lemma hz_at ch k : (ch < nc)%nat -> (k <= n)%nat -> gpeval (nth ch (hz betas gammas) []) (pt k) = zval (nth ch betas g0) (nth ch gammas g0) k.
  Proof.
    intros Hc Hk. unfold hz. rewrite (nth_map_lt _ _ _ _ 0%nat), seq_nth by (rewrite ?seq_length; exact Hc). cbn [Nat.add].
    destruct (Nat.eq_dec k n) as [->|Nk]; [|apply through_at; lia].
    rewrite pt_n, Hperm by exact Hc. rewrite through_at; [apply zval_0|]. pose proof (Nat.pow_nonzero 2 d ltac:(lia)). lia.
  Qed.
  Lemma pp_seg ch x : (ch < nc)%nat -> seg (evals (cols (hp betas gammas)) x) (ch * npp) ((ch + 1) * npp) =
    map (fun m => kpeval (map emb (through (fun k => zval (nth ch betas g0) (nth ch gammas g0) k * ratio (nth ch betas g0) (nth ch gammas g0) k ((m + 1) * q))%GF)) x) (seq 0 npp).
  Proof.
    intros Hc. unfold evals, cols. rewrite map_map, seg_map. unfold seg, hp. replace ((ch + 1) * npp)%nat with (ch * npp + npp)%nat by lia.
    rewrite (seg_block _ 0%nat npp); [|intros; now rewrite map_length, seq_length|now rewrite seq_length]. rewrite seq_nth by exact Hc. now rewrite map_map.
  Qed.
  (** the accumulators in row k *)
  Lemma accs_at ch k m : (ch < nc)%nat -> (k < n)%nat -> (m <= npp + 1)%nat ->
    nth m (accs_k npp (opn (emb (root d)) (cols cs) (cols sigmas) (cols ws) (cols (hz betas gammas)) (cols (hp betas gammas)) (row d k)) ch) k0 =
    emb (zval (nth ch betas g0) (nth ch gammas g0) k * ratio (nth ch betas g0) (nth ch gammas g0) k (m * q))%GF.
  Proof.
    intros Hc Hk Hm. unfold accs_k, opn, opens_at. cbn [o_zs o_pps o_zsn]. rewrite pp_seg by exact Hc. rewrite row_pt, next_pt, !cols_at, !hz_at by (exact Hc || lia).
    destruct m as [|m]; cbn [nth]; [cbn [Nat.mul]; rewrite ratio_0; f_equal; ring|].
    destruct (Nat.eq_dec m npp) as [->|Nm].
    - rewrite app_nth2; rewrite map_length, seq_length; [|lia]. rewrite Nat.sub_diag. cbn [nth]. rewrite zval_S. now replace (S npp) with (npp + 1)%nat by lia.
    - rewrite app_nth1 by (rewrite map_length, seq_length; lia). rewrite (nth_map_lt _ _ _ _ 0%nat), seq_nth by (rewrite ?seq_length; lia). cbn [Nat.add].
      rewrite kpeval_emb, through_at by exact Hk. now replace (m + 1)%nat with (S m) by lia.
  Qed.
  Lemma chunk_at (f : nat -> K) (g : nat -> GF) m : (forall j, f j = emb (g j)) -> (m <= npp)%nat ->
    chunk_prod (map f (seq 0 nrw)) q m = emb (gprod (map g (seq (m * q) q))).
  Proof.
    intros E Hm. unfold chunk_prod. rewrite Nat.max_r by exact Hq. rewrite <- kprod_emb, map_map. apply f_equal.
    replace (seq (m * q) q) with (map (fun j => m * q + j)%nat (seq 0 q)).
    2:{ clear. generalize (m * q)%nat. intros a. generalize q. intros k. revert a. induction k as [|k IH]; intros a; cbn [seq map]; [reflexivity|].
        rewrite Nat.add_0_r. f_equal. rewrite <- (IH (S a)), <- (seq_shift k 0), map_map. apply map_ext. intros j. lia. }
    rewrite map_map. apply map_ext_in. intros j Hj. apply in_seq in Hj.
    rewrite (nth_map_lt _ _ _ _ 0%nat), seq_nth by (rewrite ?seq_length; nia). apply E.
  Qed.
  Lemma row_pps ch k t : (ch < nc)%nat -> (k < n)%nat ->
    In t (v_pps cd kis (chal betas gammas [] (row d k)) (opn (emb (root d)) (cols cs) (cols sigmas) (cols ws) (cols (hz betas gammas)) (cols (hp betas gammas)) (row d k)) ch) -> t = k0.
  Proof.
    intros Hc Hk Ht. unfold v_pps in Ht. apply in_map_iff in Ht. destruct Ht as (m & <- & Hm). apply in_seq in Hm. unfold pp_k.
    rewrite !accs_at by (exact Hc || exact Hk || lia). set (b := nth ch betas g0). set (g := nth ch gammas g0).
    rewrite (chunk_at _ (pnum b g k)), (chunk_at _ (pden b g k)); try lia.
    - rewrite <- !emb_mul, <- emb_sub. replace k0 with (emb g0) by reflexivity. apply f_equal.
      assert (E : ratio b g k ((m + 1) * q) = (ratio b g k (m * q) * gprod (map (fun j => pnum b g k j * ginv (pden b g k j)) (seq (m * q) q)))%GF).
      { unfold ratio. replace ((m + 1) * q)%nat with (m * q + q)%nat by lia. now rewrite seq_app, map_app, gprod_app. }
      rewrite E, <- (gprod_ratio (pnum b g k) (pden b g k)); [ring|]. intros j Hj. apply in_seq in Hj. apply Hden; [exact Hc|exact Hk|nia].
    - intros j. unfold v_den, v_beta, v_gamma, chal, opn, opens_at. cbn [c_betas c_gammas o_ws o_sigmas]. fold b g. rewrite row_pt, !cols_at.
      rewrite <- !emb_mul, <- !emb_add. apply f_equal. unfold pden. ring.
    - intros j. unfold v_num, v_beta, v_gamma, chal, opn, opens_at. cbn [c_betas c_gammas c_zeta o_ws o_sigmas]. fold b g. rewrite row_pt, !cols_at.
      rewrite <- !emb_mul, <- !emb_add. apply f_equal. unfold pnum. ring.
  Qed.
  Lemma L0_row k : (0 < k < n)%nat -> L0 cd (row d k) = k0.
  Proof.
    intros Hk. unfold L0. pose proof (geometric (row d k) n) as G. rewrite row_order in G by exact Hd.
    assert (N1 : (row d k - k1)%K <> k0).
    { intros E. apply (proj1 (ksub_eq0 _ _)) in E. rewrite <- (row_0 d) in E. apply emb_inj in E. apply pt_inj in E; lia. }
    assert (Z : ksum (map (fun i => (row d k ^ N.of_nat i)%K) (seq 0 n)) = k0).
    { assert (Z : ((row d k - k1) * ksum (map (fun i => (row d k ^ N.of_nat i)%K) (seq 0 n)))%K = k0) by (rewrite G; ring).
      apply kmul_eq0 in Z. destruct Z as [Z|Z]; [now destruct N1|exact Z]. }
    rewrite Z. ring.
  Qed.
  Lemma rows_zero k : (k < n)%nat -> forall t, In t (T (row d k)) -> t = k0.
  Proof.
    intros Hk t Ht. unfold tms in Ht. rewrite !in_app_iff in Ht. destruct Ht as [Ht|[Ht|Ht]].
    - apply in_map_iff in Ht. destruct Ht as (ch & <- & Hc). apply in_seq in Hc. destruct (Nat.eq_dec k 0) as [->|Nk]; [|rewrite L0_row by lia; ring].
      rewrite row_pt, cols_at, hz_at, zval_0 by lia. change (emb g1) with k1. ring.
    - apply in_concat in Ht. destruct Ht as (l & Hl & Ht). apply in_map_iff in Hl. destruct Hl as (ch & <- & Hc). apply in_seq in Hc. apply (row_pps ch k); [lia|exact Hk|exact Ht].
    - now apply (Hgates k).
  Qed.

  (** ** The terms are polynomials over the base field *)
  Lemma isl_evals ps x : isl (evals (cols ps) (emb x)).
  Proof. unfold evals, cols. rewrite map_map. apply isl_map. intros f. rewrite kpeval_emb. apply isb_emb. Qed.
  Lemma isl_terms x : isl (T (emb x)).
  Proof.
    unfold tms. apply isl_app; [|apply isl_app].
    - apply isl_map. intros i. apply isb_mul; [|apply isb_sub; [apply isl_nth, isl_evals|apply isb_1]].
      unfold L0. apply isb_mul; [|apply isb_ksum; intros j _; apply isb_pow, isb_emb].
      assert (Z : order cd <> k0) by (apply order_nz; unfold TWO_ADICITY in Hd; lia). unfold order, kz in *. rewrite <- emb_inv; [apply isb_emb|]. intros E. apply Z. now rewrite E.
    - apply isl_concat. intros ch. unfold v_pps. apply isl_map. intros m. unfold pp_k, chunk_prod.
      assert (A : isl (accs_k npp (opn (emb (root d)) (cols cs) (cols sigmas) (cols ws) (cols (hz betas gammas)) (cols (hp betas gammas)) (emb x)) ch)).
      { unfold accs_k, opn, opens_at, seg. cbn [o_zs o_pps o_zsn]. rewrite <- emb_mul. constructor; [apply isl_nth, isl_evals|]. apply isl_app; [apply isl_skipn, isl_firstn, isl_evals|].
        repeat constructor. apply isl_nth, isl_evals. }
      apply isb_sub; (apply isb_mul; [now apply isl_nth|]); apply isb_kprod; intros j _; apply isl_nth, isl_map; intros i;
        unfold v_num, v_den, v_beta, v_gamma, chal, opn, opens_at; cbn [c_betas c_gammas c_zeta o_ws o_sigmas];
        repeat (apply isb_add || apply isb_mul || apply isb_emb || apply isl_nth || apply isl_evals).
    - unfold gcons, gate_outs. apply isl_map. intros j. apply isb_total; apply isl_evals.
  Qed.
  Context (Hd1 : (1 <= d)%nat) (Hsize : Z.of_nat ((q + 1) * n) <= p).
  Context (Bcs : Forall (fun f => length f <= n)%nat cs) (Bsig : Forall (fun f => length f <= n)%nat sigmas) (Bws : Forall (fun f => length f <= n)%nat ws).
  Context (nw ncs : nat) (Hfits : Forall (fits ncs nw) gates).
  Context (HEg : forall i, (i < length gates)%nat -> (gate_degree (nth i gates NoopGate) + filter_degree info i <= q + 1)%nat).
  Lemma cols_bounded ps : Forall (fun f => length f <= n)%nat ps -> bounded (n - 1) (cols ps).
  Proof. intros H. unfold bounded, cols. apply Forall_map. eapply Forall_impl; [|exact H]. intros f Hf. cbn beta in *. rewrite map_length. lia. Qed.
  Lemma n_ge2 : (2 <= n)%nat.
  Proof. change 2%nat with (2 ^ 1)%nat at 1. apply Nat.pow_le_mono_r; lia. Qed.
  Lemma vpoly_is alpha x : gk (vpoly betas gammas alpha) x = vval betas gammas alpha x.
  Proof.
    pose proof n_ge2 as N2.
    assert (D : dg (n - 1) (q + 1) (vval betas gammas alpha)).
    { unfold vval. apply dl_powers_sum.
      apply (dl_tms_m cd gates kis h betas gammas (emb (root d)) (cols cs) (cols sigmas) (cols ws) (cols (hz betas gammas)) (cols (hp betas gammas)) (q + 1) (n - 1)) with (nw := nw) (ncs := ncs);
        try (apply cols_bounded; assumption); try assumption; try lia; apply cols_bounded; [apply hz_small|apply hp_small]. }
    destruct D as (f & Lf & Ef). change (forall x, vval betas gammas alpha x = kpeval f x) in Ef.
    rewrite Ef. apply (proj1 (ksub_eq0 _ _)).
    set (I := vpoly betas gammas alpha). set (N := ((q + 1) * n)%nat).
    pose (diff := paddl kadd (map emb I) (pscale kmul (kopp k1) f)).
    assert (Ed : forall y, kpeval diff y = (gk I y - kpeval f y)%K) by (intros y; unfold diff; rewrite kpaddl, kpscale; ring).
    rewrite <- Ed. apply (kfew_roots (map (fun i => emb (inj (Z.of_nat i))) (seq 0 N))).
    - apply NoDup_map_in; [|apply seq_NoDup]. intros i j Hi Hj E. apply in_seq in Hi, Hj. apply emb_inj in E. apply (f_equal rep) in E.
      rewrite !rep_inj_small in E by (unfold N in *; lia). lia.
    - rewrite map_length, seq_length. unfold diff. apply length_paddl.
      + rewrite map_length. apply vpoly_length.
      + unfold pscale. rewrite map_length. eapply Nat.le_trans; [exact Lf|]. unfold N. nia.
    - intros y Hy. apply in_map_iff in Hy. destruct Hy as (i & <- & Hi). rewrite Ed. apply (proj2 (ksub_eq0 _ _)). rewrite <- Ef, kpeval_emb.
      assert (B : isb (vval betas gammas alpha (emb (inj (Z.of_nat i))))) by (apply isb_powers_sum; [apply isl_terms|apply isb_emb]).
      rewrite (isb_fst _ B). apply f_equal. unfold I, vpoly. apply interpolate_at.
      + rewrite map_map. cbn [fst]. apply NoDup_map_in; [|apply seq_NoDup]. intros a b Ha Hb E. apply in_seq in Ha, Hb. apply (f_equal rep) in E.
        rewrite !rep_inj_small in E by (unfold N in *; lia). lia.
      + exact (in_map (fun i => (inj (Z.of_nat i), fst (vval betas gammas alpha (emb (inj (Z.of_nat i)))))) _ _ Hi).
  Qed.
  Lemma powers_sum_zero l b : (forall t, In t l -> t = k0) -> powers_sum l b = k0.
  Proof. induction l as [|t l IH]; intros H; cbn [powers_sum]; [reflexivity|]. rewrite (H t (in_eq _ _)), IH by (intros; apply H; now right). ring. Qed.
  Lemma remainder_zero alpha x : gk (snd (divide n q (vpoly betas gammas alpha))) x = k0.
  Proof.
    pose proof n_ge2 as N2. apply (kfew_roots (map (row d) (seq 0 n))).
    - apply NoDup_map_in; [|apply seq_NoDup]. intros i j Hi Hj E. apply in_seq in Hi, Hj. apply emb_inj in E. apply pt_inj; [lia|lia|exact E].
    - rewrite !map_length, seq_length. apply divide_bound. pose proof (vpoly_length betas gammas alpha). lia.
    - intros y Hy. apply in_map_iff in Hy. destruct Hy as (k & <- & Hk). apply in_seq in Hk.
      pose proof (divide_eval n q (row d k) (vpoly betas gammas alpha)) as E. rewrite row_order in E by exact Hd.
      rewrite vpoly_is in E. unfold vval in E. rewrite powers_sum_zero in E by (apply rows_zero; lia). rewrite E at 1. ring.
  Qed.
  (** the equation checked by the verifier, at every point *)
  Theorem prover_equation alphas i x : (i < nc)%nat ->
    powers_sum (T x) (emb (nth i alphas g0)) = ((x ^ N.of_nat n - k1) * quot cd (cols (hq betas gammas alphas)) i x)%K.
  Proof.
    intros Hi. change (powers_sum (T x) (emb (nth i alphas g0))) with (vval betas gammas (nth i alphas g0) x). rewrite <- vpoly_is.
    rewrite (divide_eval n q x), remainder_zero. unfold quot, evals, cols, hq. rewrite map_map, seg_map. unfold seg.
    rewrite (seg_block _ 0%nat q); [|intros; apply divide_length|now rewrite seq_length]. rewrite seq_nth by exact Hi. cbn [Nat.add]. ring.
  Qed.
End Prover.
