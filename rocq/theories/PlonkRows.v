(** * Soundness of the Plonk check: rows, gates and copy constraints. *)
From Coq Require Import String.
From Coq Require Import ZArith NArith Lia List Bool Ring.
From Verif Require Import Zp GF Circuit Goldilocks GLProofs ExtProofs PoseidonGLProofs Types Challenger Fri FriMerkle FriEval FriQuery Poly Roots Interp FriSound
  Gates GateProofs GateCoset GateFilter GateAll GateDegree Plonk PlonkProofs Prop_Gates Prop_Plonk PlonkSound.
Import ListNotations.
Open Scope Z_scope.

(** ** What an accepting run says *)
Lemma shape_at cd gates kis h betas gammas g cs sigmas ws zs pps qs alphas x y :
  plonk_shape cd gates kis (mkChalK betas gammas alphas x) (opens_at g cs sigmas ws zs pps qs x) h ->
  plonk_shape cd gates kis (mkChalK betas gammas alphas y) (opens_at g cs sigmas ws zs pps qs y) h.
Proof. unfold plonk_shape, opens_at. cbn [o_cs o_sigmas o_ws o_zs o_zsn o_pps o_qs c_betas c_gammas c_alphas]. now rewrite !length_evals. Qed.
Lemma gcons_computes cd gates kis h c o cs ws : plonk_shape cd gates kis c o h -> o_cs o = cs -> o_ws o = ws ->
  computes (EvaluateGateConstraints gates (NumGateConstraints cd) (cd_SelectorsInfo cd) (mkvars cs ws h))
    (map repK (map (total cs (cd_SelectorsInfo cd) (map (fun g => gate_k g (skipn (ns (cd_SelectorsInfo cd)) cs) ws h) gates) 0) (seq 0 (NumGateConstraints cd)))).
Proof.
  intros (_ & _ & (G1 & G2 & G3 & G4 & G5)) <- <-. apply EvaluateGateConstraints_computes.
  - exact G2.
  - apply gates_k_ok; [exact G4|exact G3].
  - now apply layout_layout_ok.
  - rewrite Forall_map. apply Forall_forall. intros g Hg. rewrite Forall_forall in G4, G5. rewrite (gate_length g _ _ _ _ (G4 g Hg)). now apply G5.
Qed.
Lemma order_nz cd : (cd_DegreeBits cd <= 62)%nat -> order cd <> k0.
Proof.
  intros Hd E. replace k0 with (kz 0) in E by (unfold kz; now rewrite <- g0_inj).
  assert (L : 2 ^ Z.of_nat (cd_DegreeBits cd) <= 2 ^ 62) by (apply Z.pow_le_mono_r; lia).
  change (2 ^ 62) with 4611686018427387904 in L. assert (0 < 2 ^ Z.of_nat (cd_DegreeBits cd)) by (apply Z.pow_pos_nonneg; lia).
  apply kz_inj in E; unfold p; lia.
Qed.
Lemma L0_eq cd betas gammas alphas z : (cd_DegreeBits cd <= 62)%nat -> z <> k1 -> v_l0 cd (chal betas gammas alphas z) = L0 cd z.
Proof.
  intros Hd Hz. rewrite l0_eq. pose proof (C40_lagrange cd (chal betas gammas alphas z) Hd Hz) as L. cbn [chal c_zeta] in L.
  unfold L0. rewrite <- L. generalize (lagrange0 cd (chal betas gammas alphas z)). intros l.
  transitivity (kinv (order cd) * order cd * l)%K; [rewrite (kinv_l _ (order_nz cd Hd)); ring|ring].
Qed.
Lemma verify_equation cd gates kis h betas gammas alphas g cs sigmas ws zs pps qs fc z :
  plonk_shape cd gates kis (mkChalK betas gammas alphas z) (opens_at g cs sigmas ws zs pps qs z) h ->
  (sat (PlonkVerify cd gates (repC (mkChalK betas gammas alphas z) fc) (repO (opens_at g cs sigmas ws zs pps qs z)) (map rep h)) <->
   z <> k1 /\ forall i, (i < NumChallenges (cd_Config cd))%nat ->
     powers_sum (tms cd gates kis h betas gammas g cs sigmas ws zs pps z) (emb (nth i alphas g0)) =
     ((z ^ N.of_nat (2 ^ cd_DegreeBits cd) - k1) * quot cd qs i z)%K).
Proof.
  intros S. pose proof S as ((Hk & Hkl & Hdb & Hq & Hcov) & (H1 & H2 & H3 & H4 & H5 & H6 & H7 & H8 & H9) & _).
  rewrite (enforces_sat _ _ _ (PlonkVerify_enforces cd gates kis (mkChalK betas gammas alphas z) fc (opens_at g cs sigmas ws zs pps qs z) h
    (gcons cd gates h cs ws z) Hk Hdb Hkl H1 H2 H3 H4 H5 H7 H8 H9 H6 ltac:(nia) (gcons_computes _ _ _ _ _ _ _ _ S eq_refl eq_refl))).
  cbn [c_zeta]. assert (W : forall P Q R : Prop, (P -> (Q <-> R)) -> (P /\ Q <-> P /\ R)) by tauto. apply W. clear W. intros Hz. unfold v_red, v_quot, quot, v_zpn. cbn [c_zeta c_alphas o_qs opens_at]. rewrite <- pow2_nat_N.
  assert (T : v_terms cd kis (mkChalK betas gammas alphas z) (opens_at g cs sigmas ws zs pps qs z) (gcons cd gates h cs ws z) =
              tms cd gates kis h betas gammas g cs sigmas ws zs pps z); [|now rewrite T].
  unfold v_terms, tms. f_equal. apply map_ext. intros i. unfold v_z1. cbn [o_zs opens_at].
  change (mkChalK betas gammas alphas z) with (chal betas gammas alphas z). now rewrite L0_eq.
Qed.

(** ** Rows *)
(** the point of row k, and its powers *)
Definition row (d : nat) (k : nat) : K := emb (root d ^ N.of_nat k)%GF.
Lemma row_S d k : (emb (root d) * row d k)%K = row d (S k).
Proof. unfold row. rewrite <- emb_mul. f_equal. now rewrite Nat2N.inj_succ, gpow_succ. Qed.
Lemma row_order d k : (d <= TWO_ADICITY)%nat -> (row d k ^ N.of_nat (2 ^ d))%K = k1.
Proof.
  intros Hd. unfold row. rewrite <- emb_pow, <- gpow_mul, N.mul_comm, gpow_mul, pow2_nat_N, root_order_1, gpow_1_l by exact Hd. reflexivity.
Qed.
Lemma row_last d : (d <= TWO_ADICITY)%nat -> row d (2 ^ d) = k1.
Proof. intros Hd. unfold row. rewrite pow2_nat_N, root_order_1 by exact Hd. reflexivity. Qed.
Lemma row_0 d : row d 0 = k1. Proof. reflexivity. Qed.
Lemma L0_one cd : (cd_DegreeBits cd <= 62)%nat -> L0 cd k1 = k1.
Proof.
  intros Hd. unfold L0. transitivity (kinv (order cd) * order cd)%K; [|now apply kinv_l, order_nz]. apply f_equal. unfold order.
  assert (P1 : forall m, (k1 ^ N.of_nat m)%K = k1).
  { induction m as [|m IH]; [change (N.of_nat 0) with 0%N; apply kpow_0|]. rewrite Nat2N.inj_succ, kpow_succ, IH. ring. }
  replace (2 ^ Z.of_nat (cd_DegreeBits cd)) with (Z.of_nat (2 ^ cd_DegreeBits cd)) by (now rewrite Nat2Z.inj_pow).
  generalize (2 ^ cd_DegreeBits cd)%nat. clear Hd. intros m. induction m as [|m IH].
  - cbn [seq map ksum fold_right]. unfold kz. change (Z.of_nat 0) with 0. now rewrite <- g0_inj.
  - rewrite seq_S, map_app, ksum_app, IH. cbn [map ksum fold_right Nat.add]. rewrite P1. unfold kz.
    rewrite Nat2Z.inj_succ, <- Z.add_1_r, inj_add, emb_add. replace (emb (inj 1)) with k1 by (unfold k1; now rewrite <- g1_inj). ring.
Qed.

(** ** Enough alphas and zetas: every term vanishes in every row *)
Section Rows.
  Context (cd : CommonCircuitData) (gates : list Gate) (kis : list GF) (h : list GF) (betas gammas : list GF).
  Context (cs sigmas ws zs pps : list (list K)) (E i : nat).
  Notation d := (cd_DegreeBits cd).
  Notation n := (2 ^ cd_DegreeBits cd)%nat.
  Notation nc := (NumChallenges (cd_Config cd)).
  Notation npp := (NumPartialProducts cd).
  Notation q := (QuotientDegreeFactor cd).
  Notation info := (cd_SelectorsInfo cd).
  Notation num := (NumGateConstraints cd).
  Notation nrw := (NumRoutedWires (cd_Config cd)).
  Notation g := (emb (root (cd_DegreeBits cd))).
  Definition good_alpha (alphas : list GF) : Prop := exists qs zetas,
    plonk_shape cd gates kis (mkChalK betas gammas alphas k0) (opens_at g cs sigmas ws zs pps qs k0) h /\
    bounded n qs /\ NoDup zetas /\ (E * n < length zetas)%nat /\
    forall z, In z zetas -> exists fc, sat (PlonkVerify cd gates (repC (mkChalK betas gammas alphas z) fc) (repO (opens_at g cs sigmas ws zs pps qs z)) (map rep h)).
  Context (Bcs : bounded n cs) (Bsig : bounded n sigmas) (Bws : bounded n ws) (Bzs : bounded n zs) (Bpps : bounded n pps).
  Context (HEq : (q + 1 <= E)%nat).
  Context (HEg : forall j, (j < length gates)%nat -> (gate_degree (nth j gates NoopGate) + filter_degree info j <= E)%nat).
  Context (As : list (list GF)) (Hi : (i < nc)%nat) (HAs : NoDup (map (fun a => nth i a g0) As)) (LAs : (nc + nc * (npp + 1) + num <= length As)%nat)
          (GAs : forall a, In a As -> good_alpha a).
  Notation T := (tms cd gates kis h betas gammas g cs sigmas ws zs pps).

  Lemma some_alpha : exists alphas qs, plonk_shape cd gates kis (mkChalK betas gammas alphas k0) (opens_at g cs sigmas ws zs pps qs k0) h.
  Proof.
    destruct As as [|a As']; [cbn in LAs; lia|]. destruct (GAs a (in_eq _ _)) as (qs & zetas & S & _). now exists a, qs.
  Qed.
  Lemma rows_vanish x : (x ^ N.of_nat n)%K = k1 -> forall t, In t (T x) -> t = k0.
  Proof.
    intros Hx t Ht. destruct some_alpha as (a0 & q0 & S0). pose proof S0 as ((Hk & Hkl & Hdb & Hq & Hcov) & _ & (G1 & G2 & G3 & G4 & G5)).
    cbn [o_cs o_ws opens_at] in G4. rewrite !length_evals in G4.
    eapply (terms_vanish cd gates kis h betas gammas g cs sigmas ws zs pps E Bcs Bsig Bws Bzs Bpps _ _ G4 Hq HEq HEg
              (map (fun a => emb (nth i a g0)) As) i); [| | |exact Hx|exact Ht].
    - rewrite <- (map_map (fun a => nth i a g0) emb). apply NoDup_map_in; [|exact HAs]. intros a b _ _. apply emb_inj.
    - now rewrite map_length.
    - intros a Ha. apply in_map_iff in Ha. destruct Ha as (al & <- & Hal). destruct (GAs al Hal) as (qs & zetas & S & Bq & ND & LZ & V).
      exists qs, zetas. split; [exact Bq|]. split; [|split; [exact ND|split; [exact LZ|]]].
      + destruct S as (_ & (_ & _ & _ & _ & _ & H6 & _) & _). cbn [o_qs opens_at] in H6. rewrite length_evals in H6. nia.
      + intros z Hz. apply (shape_at _ _ _ _ _ _ _ _ _ _ _ _ _ _ k0 z) in S.
        destruct (V z Hz) as (fc & Vz). now apply (proj1 (verify_equation _ _ _ _ _ _ _ _ _ _ _ _ _ _ fc z S) Vz).
  Qed.
  Lemma row_gates x : (x ^ N.of_nat n)%K = k1 ->
    computes (EvaluateGateConstraints gates num info (mkvars (evals cs x) (evals ws x) h)) (repeat ZeroExtension num).
  Proof.
    intros Hx. destruct some_alpha as (a0 & q0 & S0). apply (shape_at _ _ _ _ _ _ _ _ _ _ _ _ _ _ k0 x) in S0.
    eapply computes_eq; [exact (gcons_computes _ _ _ _ _ _ _ _ S0 eq_refl eq_refl)|]. cbn [o_cs o_ws opens_at].
    change (map (total _ _ _ 0) (seq 0 num)) with (gcons cd gates h cs ws x).
    assert (Z : forall t, In t (gcons cd gates h cs ws x) -> t = k0).
    { intros t Ht. apply (rows_vanish x Hx). unfold tms. apply in_or_app. right. apply in_or_app. now right. }
    assert (L : length (gcons cd gates h cs ws x) = num) by (unfold gcons; now rewrite map_length, seq_length).
    rewrite repeat_zero. f_equal. rewrite <- L. revert Z. generalize (gcons cd gates h cs ws x). clear.
    induction l as [|t l IH]; intros Z; cbn [length repeat]; [reflexivity|]. rewrite <- IH by (intros; apply Z; now right). f_equal. apply Z. now left.
  Qed.
  Lemma z_starts ch : (ch < nc)%nat -> kpeval (nth ch zs []) k1 = k1.
  Proof.
    intros Hc. destruct some_alpha as (a0 & q0 & S0). destruct S0 as ((_ & _ & Hdb & _) & _).
    apply (proj1 (ksub_eq0 _ _)). rewrite <- nth_evals.
    assert (H1 : (k1 ^ N.of_nat n)%K = k1).
    { generalize n. intros m. induction m as [|m IH]; [change (N.of_nat 0) with 0%N; apply kpow_0|]. rewrite Nat2N.inj_succ, kpow_succ, IH. ring. }
    assert (V : (L0 cd k1 * (nth ch (evals zs k1) k0 - k1))%K = k0).
    { apply (rows_vanish k1 H1). unfold tms. apply in_or_app. left. apply (in_map (fun c => (L0 cd k1 * (nth c (evals zs k1) k0 - k1))%K)), in_seq. lia. }
    rewrite L0_one in V by exact Hdb. eapply eq_trans; [|exact V]. ring.
  Qed.
  Definition cell_num (beta gamma : GF) (x : K) (j : nat) : K := (kpeval (nth j ws []) x + emb beta * (emb (nth j kis g0) * x) + emb gamma)%K.
  Definition cell_den (beta gamma : GF) (x : K) (j : nat) : K := (kpeval (nth j ws []) x + emb beta * kpeval (nth j sigmas []) x + emb gamma)%K.
  Lemma row_products x ch : (x ^ N.of_nat n)%K = k1 -> (ch < nc)%nat ->
    (kpeval (nth ch zs []) x * kprod (map (cell_num (nth ch betas g0) (nth ch gammas g0) x) (seq 0 ((npp + 1) * q))) =
     kpeval (nth ch zs []) (g * x) * kprod (map (cell_den (nth ch betas g0) (nth ch gammas g0) x) (seq 0 ((npp + 1) * q))))%K.
  Proof.
    intros Hx Hc. destruct some_alpha as (a0 & q0 & S0). destruct S0 as ((_ & _ & Hdb & Hq & Hcov) & (H1 & H2 & H3 & H4 & H5 & _) & _).
    cbn [o_pps opens_at] in H5. rewrite length_evals in H5.
    set (o := opn g cs sigmas ws zs pps x). set (c := chal betas gammas [] x).
    pose (nums := map (v_num kis c o ch) (seq 0 nrw)). pose (dens := map (v_den c o ch) (seq 0 nrw)).
    assert (V : forall m, (m < npp + 1)%nat -> (nth m (accs_k npp o ch) k0 * chunk_prod nums q m - nth (m + 1) (accs_k npp o ch) k0 * chunk_prod dens q m)%K = k0).
    { intros m Hm. apply (rows_vanish x Hx). unfold tms. apply in_or_app. right. apply in_or_app. left. apply in_concat.
      exists (v_pps cd kis c o ch). split; [apply in_map, in_seq; lia|]. unfold v_pps. apply (in_map (pp_k npp q nums dens o ch)), in_seq. lia. }
    pose proof (telescope (fun m => nth m (accs_k npp o ch) k0) (chunk_prod nums q) (chunk_prod dens q) (npp + 1) V) as Te. cbn beta in Te.
    assert (Ll : nth (npp + 1) (accs_k npp o ch) k0 = nth ch (evals zs (g * x)%K) k0).
    { unfold accs_k. rewrite Nat.add_1_r. cbn [nth]. unfold o, opn, opens_at. cbn [o_pps o_zsn o_zs].
      rewrite app_nth2; rewrite seg_length by (rewrite length_evals; nia); [|nia]. now replace (npp - ((ch + 1) * npp - ch * npp))%nat with O by nia. }
    rewrite Ll, !chunk_prods_pos in Te by (try exact Hq; unfold nums, dens; rewrite map_length, seq_length; nia).
    assert (F : forall f : nat -> K, firstn ((npp + 1) * q) (map f (seq 0 nrw)) = map f (seq 0 ((npp + 1) * q))).
    { intros f. rewrite firstn_map. f_equal. replace nrw with ((npp + 1) * q + (nrw - (npp + 1) * q))%nat by lia.
      rewrite seq_app, firstn_app, seq_length, Nat.sub_diag, firstn_O, app_nil_r. apply firstn_all2. now rewrite seq_length. }
    unfold nums, dens in Te. rewrite !F in Te. unfold accs_k, o, opn, opens_at in Te. cbn [nth o_zs] in Te. rewrite !nth_evals in Te.
    etransitivity; [|etransitivity; [exact Te|]]; (apply f_equal; apply f_equal; apply map_ext; intros j;
      unfold cell_num, cell_den, v_num, v_den, v_beta, v_gamma, c, chal; cbn [c_betas c_gammas c_zeta o_ws o_sigmas]; rewrite !nth_evals; ring).
  Qed.
  (** the grand product over all rows *)
  Lemma grand_product ch : (d <= TWO_ADICITY)%nat -> (ch < nc)%nat ->
    kprod (map (fun k => kprod (map (cell_num (nth ch betas g0) (nth ch gammas g0) (row d k)) (seq 0 ((npp + 1) * q)))) (seq 0 n)) =
    kprod (map (fun k => kprod (map (cell_den (nth ch betas g0) (nth ch gammas g0) (row d k)) (seq 0 ((npp + 1) * q)))) (seq 0 n)).
  Proof.
    intros Hd Hc. pose proof (telescope (fun k => kpeval (nth ch zs []) (row d k))
      (fun k => kprod (map (cell_num (nth ch betas g0) (nth ch gammas g0) (row d k)) (seq 0 ((npp + 1) * q))))
      (fun k => kprod (map (cell_den (nth ch betas g0) (nth ch gammas g0) (row d k)) (seq 0 ((npp + 1) * q)))) n) as Te.
    cbn beta in Te. rewrite row_last, row_0, z_starts in Te by assumption.
    etransitivity; [|etransitivity; [apply Te|]]; [ring| |ring].
    intros k Hk. apply (proj2 (ksub_eq0 _ _)). rewrite (Nat.add_1_r k), <- row_S. apply row_products; [now apply row_order|exact Hc].
  Qed.
End Rows.
