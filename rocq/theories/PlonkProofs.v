(** * Plonk verification: what the vanishing polynomial check enforces. *)
From Coq Require Import String.
From Coq Require Import ZArith NArith Lia List Bool Ring.
From Verif Require Import Zp GF Circuit Goldilocks GLProofs ExtProofs PoseidonGLProofs Types Challenger Fri FriMerkle FriEval FriQuery Poly Roots Interp Gates GateProofs GateCoset GateFilter GateAll Plonk.
Import ListNotations.
Open Scope Z_scope.
Open Scope circ_scope.

(** ** Lists of field elements as openings and challenges *)
Record opensK := mkOpensK {
  o_cs : list K; o_sigmas : list K; o_ws : list K; o_zs : list K; o_zsn : list K; o_pps : list K; o_qs : list K }.
Definition repO (o : opensK) : OpeningSet :=
  mkOpeningSet (map repK (o_cs o)) (map repK (o_sigmas o)) (map repK (o_ws o)) (map repK (o_zs o))
               (map repK (o_zsn o)) (map repK (o_pps o)) (map repK (o_qs o)).
Record chalK := mkChalK { c_betas : list GF; c_gammas : list GF; c_alphas : list GF; c_zeta : K }.
Definition repC (c : chalK) (fc : FriChallenges) : ProofChallenges :=
  mkProofChallenges (map rep (c_betas c)) (map rep (c_gammas c)) (map rep (c_alphas c)) (repK (c_zeta c)) fc.

Lemma computes_nthK l i : (i < length l)%nat -> computes (nth_ (map repK l) i) (repK (nth i l k0)).
Proof. apply computes_wire. Qed.
Lemma computes_nthG l i : (i < length l)%nat -> computes (nth_ (map rep l) i) (rep (nth i l g0)).
Proof. intros H. eapply computes_eq; [apply (computes_nth _ _ 0); now rewrite map_length|]. apply nth_map_rep. Qed.
Lemma computes_seqK {B} (f : nat -> B) n i : (i < n)%nat -> computes (nth_ (map f (seq 0 n)) i) (f i).
Proof.
  intros H. eapply computes_eq; [apply (computes_nth _ _ (f O)); now rewrite map_length, seq_length|].
  rewrite (map_nth f). now rewrite seq_nth.
Qed.

(** ** Products of chunks *)
Definition chunk_prod (l : list K) (q i : nat) : K := kprod (map (fun j => nth (i * q + j) l k0) (seq 0 (Nat.max 1 q))).
Definition repP (x : K * K) : QE * QE := (repK (fst x), repK (snd x)).
Lemma chunk_products_computes ns ds q i : (i * q + Nat.max 1 q <= length ns)%nat -> (i * q + Nat.max 1 q <= length ds)%nat ->
  computes (chunk_products (map repK ns) (map repK ds) q i) (repP (chunk_prod ns q i, chunk_prod ds q i)).
Proof.
  intros Hn Hd. unfold chunk_products. cbv zeta.
  eapply computes_bind; [apply computes_nthK; lia|]. eapply computes_bind; [apply computes_nthK; lia|].
  eapply computes_eq.
  - rewrite <- (map_id (seq 1 (q - 1))).
    change (repK (nth (i * q) ns k0), repK (nth (i * q) ds k0)) with (repP (nth (i * q) ns k0, nth (i * q) ds k0)).
    refine (computes_foldM _ repP (fun j : nat => j) (fun st j => ((fst st * nth (i * q + j) ns k0)%K, (snd st * nth (i * q + j) ds k0)%K)) _ _ _).
    intros st j Hj. apply in_seq in Hj.
    eapply computes_bind; [apply computes_nthK; lia|]. eapply computes_bind; [apply mul_ext_correct|].
    eapply computes_bind; [apply computes_nthK; lia|]. eapply computes_bind; [apply mul_ext_correct|].
    apply computes_ret.
  - apply f_equal. unfold chunk_prod.
    assert (E : seq 0 (Nat.max 1 q) = O :: seq 1 (q - 1)) by (replace (Nat.max 1 q) with (S (q - 1)) by lia; reflexivity).
    rewrite E. cbn [map kprod fold_right]. rewrite Nat.add_0_r.
    fold (kprod (map (fun j => nth (i * q + j) ns k0) (seq 1 (q - 1)))) (kprod (map (fun j => nth (i * q + j) ds k0) (seq 1 (q - 1)))).
    rewrite <- (kprod_fold (fun j => nth (i * q + j) ns k0)), <- (kprod_fold (fun j => nth (i * q + j) ds k0)).
    generalize (seq 1 (q - 1)) (nth (i * q) ns k0) (nth (i * q) ds k0). clear.
    induction l as [|j l IH]; intros a b; cbn [fold_left fst snd]; [reflexivity|]. now rewrite IH.
Qed.

(** ** Partial products *)
Definition accs_k (npp : nat) (o : opensK) (ch : nat) : list K :=
  nth ch (o_zs o) k0 :: seg (o_pps o) (ch * npp) ((ch + 1) * npp) ++ [nth ch (o_zsn o) k0].
Definition pp_k (npp q : nat) (ns ds : list K) (o : opensK) (ch i : nat) : K :=
  (nth i (accs_k npp o ch) k0 * chunk_prod ns q i - nth (i + 1) (accs_k npp o ch) k0 * chunk_prod ds q i)%K.
Lemma length_accs npp o ch : ((ch + 1) * npp <= length (o_pps o))%nat -> length (accs_k npp o ch) = (npp + 2)%nat.
Proof. intros H. unfold accs_k. cbn [length]. rewrite app_length, seg_length by lia. cbn [length]. lia. Qed.
Lemma checkPartialProducts_computes cd ns ds ch o :
  let npp := NumPartialProducts cd in let q := QuotientDegreeFactor cd in
  (ch < length (o_zs o))%nat -> (ch < length (o_zsn o))%nat -> ((ch + 1) * npp <= length (o_pps o))%nat ->
  (npp * q + Nat.max 1 q <= length ns)%nat -> (npp * q + Nat.max 1 q <= length ds)%nat ->
  computes (checkPartialProducts cd (map repK ns) (map repK ds) ch (repO o))
           (map repK (map (pp_k npp q ns ds o ch) (seq 0 (npp + 1)))).
Proof.
  intros npp q Hz Hzn Hp Hn Hd. unfold checkPartialProducts. fold npp q. cbn [repO PlonkZs PlonkZsNext PartialProducts].
  eapply computes_bind; [apply computes_nthK; exact Hz|].
  eapply computes_bind; [apply computes_slice; rewrite map_length; nia|].
  eapply computes_bind; [apply computes_nthK; exact Hzn|].
  rewrite seg_map. cbv zeta.
  replace (repK (nth ch (o_zs o) k0) :: map repK (seg (o_pps o) (ch * npp) ((ch + 1) * npp)) ++ [repK (nth ch (o_zsn o) k0)])
    with (map repK (accs_k npp o ch)) by (unfold accs_k; cbn [map]; now rewrite map_app).
  apply mapM_seq_K. intros i Hi. assert (HL := length_accs npp o ch Hp).
  assert (Hq : (i * q <= npp * q)%nat) by (apply Nat.mul_le_mono_r; lia).
  eapply computes_bind; [apply chunk_products_computes; lia|]. unfold repP. cbn [fst snd].
  eapply computes_bind; [apply computes_nthK; lia|]. eapply computes_bind; [apply mul_ext_correct|].
  eapply computes_bind; [apply computes_nthK; lia|]. eapply computes_bind; [apply mul_ext_correct|].
  apply sub_ext_correct.
Qed.

(** telescoping *)
Lemma chunk_prods l q n : kprod (map (chunk_prod l q) (seq 0 n)) =
  kprod (map (fun j => nth (j / Nat.max 1 q * q + j mod Nat.max 1 q) l k0) (seq 0 (n * Nat.max 1 q))).
Proof.
  induction n as [|n IH]; [reflexivity|]. rewrite seq_S, map_app, kprod_app, IH.
  replace (S n * Nat.max 1 q)%nat with (n * Nat.max 1 q + Nat.max 1 q)%nat by lia.
  rewrite seq_app, map_app, kprod_app. apply f_equal. cbn [map kprod fold_right Nat.add].
  replace (chunk_prod l q n * k1)%K with (chunk_prod l q n) by ring. unfold chunk_prod. apply f_equal.
  set (m := Nat.max 1 q). assert (Hm : m <> O) by (unfold m; lia).
  assert (E : forall k a, (a + k <= m)%nat -> map (fun j => nth (n * q + j) l k0) (seq a k) =
              map (fun j => nth (j / m * q + j mod m) l k0) (seq (n * m + a) k)).
  { induction k as [|k IHk]; intros a Ha; cbn [seq map]; [reflexivity|].
    rewrite IHk by lia. replace (S (n * m + a)) with (n * m + S a)%nat by lia. apply f_equal2; [|reflexivity].
    assert (E : ((n * m + a) / m * q + (n * m + a) mod m = n * q + a)%nat); [|now rewrite E].
    rewrite Nat.div_add_l by exact Hm. rewrite (Nat.div_small a m) by lia.
    rewrite Nat.add_comm with (n := (n * m)%nat), Nat.mod_add by exact Hm. rewrite (Nat.mod_small a m) by lia. lia. }
  rewrite (E m O) by lia. now rewrite Nat.add_0_r.
Qed.
Lemma chunk_prods_pos l q n : (1 <= q)%nat -> (n * q <= length l)%nat ->
  kprod (map (chunk_prod l q) (seq 0 n)) = kprod (firstn (n * q) l).
Proof.
  intros Hq Hl. rewrite chunk_prods. replace (Nat.max 1 q) with q by lia. apply f_equal.
  apply (nth_ext _ _ k0 k0).
  - rewrite map_length, seq_length, firstn_length. lia.
  - intros j Hj. rewrite map_length, seq_length in Hj.
    rewrite (nth_map_lt (fun j => nth (j / q * q + j mod q) l k0) _ _ _ 0%nat) by now rewrite seq_length.
    rewrite seq_nth by exact Hj. rewrite nth_firstn_lt by exact Hj. cbn [Nat.add].
    f_equal. rewrite (Nat.mul_comm (j / q) q). symmetry. apply Nat.div_mod. lia.
Qed.
Lemma telescope (acc N D : nat -> K) n : (forall i, (i < n)%nat -> (acc i * N i - acc (i + 1)%nat * D i)%K = k0) ->
  (acc O * kprod (map N (seq 0 n)) = acc n * kprod (map D (seq 0 n)))%K.
Proof.
  induction n as [|n IH]; intros H; [reflexivity|]. rewrite !seq_S, !map_app, !kprod_app. cbn [map kprod fold_right Nat.add].
  replace (acc O * (kprod (map N (seq 0 n)) * (N n * k1)))%K with (acc O * kprod (map N (seq 0 n)) * N n)%K by ring.
  rewrite IH by (intros; apply H; lia). specialize (H n ltac:(lia)). apply (proj1 (ksub_eq0 _ _)) in H.
  rewrite Nat.add_1_r in H. transitivity ((acc n * N n) * kprod (map D (seq 0 n)))%K; [ring|]. rewrite H. ring.
Qed.
(** with non-zero denominators the accumulators are determined *)
Lemma kprod_nonzero l : (forall x, In x l -> x <> k0) -> kprod l <> k0.
Proof. intros H E. apply kprod_eq0 in E. now apply (H k0). Qed.
Lemma accs_determined (acc N D : nat -> K) n : (forall i, (i < n)%nat -> D i <> k0) ->
  (forall i, (i < n)%nat -> (acc i * N i - acc (i + 1)%nat * D i)%K = k0) <->
  (forall i, (i <= n)%nat -> acc i = (acc O * kprod (map N (seq 0 i)) / kprod (map D (seq 0 i)))%K).
Proof.
  intros HD.
  assert (NZ : forall i, (i <= n)%nat -> kprod (map D (seq 0 i)) <> k0).
  { intros i Hi. apply kprod_nonzero. intros x Hx. apply in_map_iff in Hx. destruct Hx as (j & <- & Hj). apply in_seq in Hj. apply HD. lia. }
  assert (DV : forall a b c : K, c <> k0 -> a = (b / c)%K <-> (a * c)%K = b).
  { intros a b c Hc. split.
    - intros ->. unfold kdiv. replace (b * kinv c * c)%K with (b * (kinv c * c))%K by ring. rewrite kinv_l by exact Hc. ring.
    - intros <-. unfold kdiv. replace (a * c * kinv c)%K with (a * (kinv c * c))%K by ring. rewrite kinv_l by exact Hc. ring. }
  split.
  - intros H i Hi. apply DV; [now apply NZ|]. symmetry. apply telescope. intros j Hj. apply H. lia.
  - intros H i Hi. pose proof (H i ltac:(lia)) as H1. pose proof (H (S i) ltac:(lia)) as H2.
    apply DV in H1; [|apply NZ; lia]. apply DV in H2; [|apply NZ; lia].
    rewrite !seq_S, !map_app, !kprod_app in H2. cbn [map kprod fold_right Nat.add] in H2.
    rewrite Nat.add_1_r. apply (proj2 (ksub_eq0 _ _)).
    assert (E : ((acc i * N i - acc (S i) * D i) * kprod (map D (seq 0 i)))%K = k0).
    { transitivity ((acc i * kprod (map D (seq 0 i))) * N i - acc (S i) * (kprod (map D (seq 0 i)) * (D i * k1)))%K; [ring|].
      rewrite H1, H2. ring. }
    apply kmul_eq0 in E. destruct E as [E|E]; [now apply (proj1 (ksub_eq0 _ _)) in E|]. exfalso. now apply (NZ i ltac:(lia)).
Qed.

(** ** The vanishing polynomial *)
Section Vanish.
  Context (cd : CommonCircuitData) (gates : list Gate) (kis : list GF) (c : chalK) (fc : FriChallenges) (o : opensK) (h : list GF).
  Notation nrw := (NumRoutedWires (cd_Config cd)).
  Notation nc := (NumChallenges (cd_Config cd)).
  Notation npp := (NumPartialProducts cd).
  Notation q := (QuotientDegreeFactor cd).
  Notation db := (cd_DegreeBits cd).
  Definition v_n : GF := inj (2 ^ Z.of_nat db).
  Definition v_zpn : K := (c_zeta c ^ (2 ^ N.of_nat db))%K.
  Definition v_l0 : K := ((v_zpn - k1) / (c_zeta c * emb v_n - emb v_n))%K.
  Definition v_beta (i : nat) : K := emb (nth i (c_betas c) g0).
  Definition v_gamma (i : nat) : K := emb (nth i (c_gammas c) g0).
  Definition v_num (i j : nat) : K :=
    (v_beta i * (c_zeta c * emb (nth j kis g0)) + (nth j (o_ws o) k0 + v_gamma i))%K.
  Definition v_den (i j : nat) : K :=
    (v_beta i * nth j (o_sigmas o) k0 + (nth j (o_ws o) k0 + v_gamma i))%K.
  Definition v_z1 (i : nat) : K := (v_l0 * (nth i (o_zs o) k0 - k1))%K.
  Definition v_pps (i : nat) : list K :=
    map (pp_k npp q (map (v_num i) (seq 0 nrw)) (map (v_den i) (seq 0 nrw)) o i) (seq 0 (npp + 1)).
  Definition v_terms (gcons : list K) : list K :=
    map v_z1 (seq 0 nc) ++ concat (map v_pps (seq 0 nc)) ++ gcons.

  Context (gcons : list K).
  Context (Hkis : KIs cd = map rep kis) (Hdb : (db <= 62)%nat).
  Context (Hk : (nrw <= length kis)%nat) (Hsig : (nrw <= length (o_sigmas o))%nat) (Hw : (nrw <= length (o_ws o))%nat).
  Context (Hz : (nc <= length (o_zs o))%nat) (Hzn : (nc <= length (o_zsn o))%nat) (Hpp : (nc * npp <= length (o_pps o))%nat).
  Context (Hb : (nc <= length (c_betas c))%nat) (Hg : (nc <= length (c_gammas c))%nat) (Ha : (nc <= length (c_alphas c))%nat).
  Context (Hq : (nc * q <= length (o_qs o))%nat) (Hcov : (npp * q + Nat.max 1 q <= nrw)%nat).
  Context (Hgc : computes (EvaluateGateConstraints gates (NumGateConstraints cd) (cd_SelectorsInfo cd) (mkvars (o_cs o) (o_ws o) h)) (map repK gcons)).

  Lemma degree_rep : DEGREE cd = rep v_n.
  Proof.
    unfold DEGREE, shl_int, v_n. clear - Hdb. rewrite (proj2 (Z.ltb_lt _ _)) by lia.
    assert (B : 0 <= 2 ^ Z.of_nat db < p).
    { assert (L : 2 ^ Z.of_nat db <= 2 ^ 62) by (apply Z.pow_le_mono_r; lia). unfold p.
      assert (0 < 2 ^ Z.of_nat db) by (apply Z.pow_pos_nonneg; lia). change (2 ^ 62) with 4611686018427387904 in L. lia. }
    rewrite rep_inj_small by exact B. apply Z.mod_small. pose proof p_lt_r. lia.
  Qed.
  Lemma iter_square (x : K) n : Nat.iter n (fun y => (y * y)%K) x = (x ^ (2 ^ N.of_nat n))%K.
  Proof.
    clear. induction n as [|n IH]; [change (2 ^ N.of_nat 0)%N with 1%N; cbn [Nat.iter]; symmetry; apply kpow_1|].
    cbn [Nat.iter nat_rect]. change (Nat.iter n (fun y => (y * y)%K) x * Nat.iter n (fun y => (y * y)%K) x = x ^ (2 ^ N.of_nat (S n)))%K.
    rewrite IH, <- kpow_add. f_equal. rewrite Nat2N.inj_succ, N.pow_succ_r'. lia.
  Qed.
  Lemma exp_power_computes x : computes (expPowerOf2Extension cd (repK x)) (repK (x ^ (2 ^ N.of_nat db))%K).
  Proof.
    unfold expPowerOf2Extension. eapply computes_eq; [apply (computes_repeatM _ repK (fun y => (y * y)%K)); intros; apply mul_ext_correct|].
    now rewrite iter_square.
  Qed.
  Lemma n_nonzero : emb v_n <> k0.
  Proof.
    intros E. apply (f_equal fst) in E. cbn [emb fst k0] in E. apply (f_equal rep) in E. rewrite <- degree_rep in E.
    unfold DEGREE, shl_int in E. rewrite (proj2 (Z.ltb_lt _ _)) in E by lia.
    assert (L : 2 ^ Z.of_nat db <= 2 ^ 62) by (apply Z.pow_le_mono_r; lia). change (2 ^ 62) with 4611686018427387904 in L.
    assert (G : 0 < 2 ^ Z.of_nat db) by (apply Z.pow_pos_nonneg; lia).
    rewrite Z.mod_small in E by (unfold r; lia). change (rep g0) with 0 in E. lia.
  Qed.
  Lemma zeta_cond : (c_zeta c * emb v_n - emb v_n)%K <> k0 <-> c_zeta c <> k1.
  Proof.
    pose proof n_nonzero as NZ. replace (c_zeta c * emb v_n - emb v_n)%K with ((c_zeta c - k1) * emb v_n)%K by ring.
    split; intros H E; apply H.
    - rewrite E. ring.
    - apply kmul_eq0 in E. destruct E as [E|E]; [now apply (proj1 (ksub_eq0 _ _)) in E|]. now exfalso.
  Qed.
  Lemma evalL0_enforces : enforces (evalL0 cd (repK (c_zeta c)) (repK v_zpn)) (c_zeta c <> k1) (repK v_l0).
  Proof.
    unfold evalL0. rewrite degree_rep.
    eapply computes_enforces_bind; [rewrite <- repK_1; apply sub_ext_correct|].
    eapply computes_enforces_bind; [apply scalarmul_ext_correct|].
    eapply computes_enforces_bind; [apply (sub_ext_correct _ (emb v_n))|].
    eapply enforces_iff; [eapply enforces_bind; [apply div_ext_correct|]|].
    - intros _. cbn beta iota. eapply computes_bind; [|apply computes_ret].
      unfold api_assert_eq. split; [reflexivity|]. intros [] _. auto.
    - rewrite zeta_cond. tauto.
  Qed.

  Definition sids : list K := map (fun j => (c_zeta c * emb (nth j kis g0))%K) (seq 0 nrw).
  Lemma sids_computes : computes (mapM (fun i => k <- nth_ (KIs cd) i;; ScalarMulExtension (repK (c_zeta c)) k) (seq 0 nrw)) (map repK sids).
  Proof.
    unfold sids. apply mapM_seq_K. intros i Hi. rewrite Hkis.
    eapply computes_bind; [apply computes_nthG; lia|]. apply scalarmul_ext_correct.
  Qed.
  Lemma wire_terms_computes i j : (i < nc)%nat -> (j < nrw)%nat ->
    computes (wire_terms (repC c fc) (repO o) (map repK sids) i j) (repP (v_num i j, v_den i j)).
  Proof.
    intros Hi Hj. unfold wire_terms. cbn [repC repO Wires PlonkGammas PlonkBetas PlonkSigmas].
    eapply computes_bind; [apply computes_nthK; lia|]. eapply computes_bind; [apply computes_nthG; lia|].
    eapply computes_bind; [apply (add_ext_correct _ (v_gamma i))|]. eapply computes_bind; [apply computes_nthG; lia|].
    eapply computes_bind; [unfold sids; rewrite map_map; apply (computes_seqK (fun j => repK (c_zeta c * emb (nth j kis g0))%K)); exact Hj|].
    eapply computes_bind; [apply (mul_ext_correct (v_beta i))|]. eapply computes_bind; [apply add_ext_correct|].
    eapply computes_bind; [apply computes_nthK; lia|].
    eapply computes_bind; [apply (mul_ext_correct (v_beta i))|]. eapply computes_bind; [apply add_ext_correct|].
    apply computes_ret.
  Qed.
  Definition repT (x : K * list K) : QE * list QE := (repK (fst x), map repK (snd x)).
  Lemma challenge_terms_computes i : (i < nc)%nat ->
    computes (challenge_terms cd (repC c fc) (repO o) (map repK sids) (repK v_l0) i) (repT (v_z1 i, v_pps i)).
  Proof.
    intros Hi. unfold challenge_terms. cbn [repO PlonkZs].
    eapply computes_bind; [apply computes_nthK; lia|].
    eapply computes_bind; [rewrite <- repK_1; apply sub_ext_correct|].
    eapply computes_bind; [apply mul_ext_correct|].
    eapply computes_bind.
    { apply (mapM_seq_K _ (fun j => (v_num i j, v_den i j)) repP). intros j Hj.
      apply (wire_terms_computes i j Hi). lia. }
    eapply computes_bind; [|apply computes_ret].
    rewrite !map_map. cbn [repP fst snd].
    rewrite <- (map_map (v_num i) repK), <- (map_map (v_den i) repK).
    assert (M : ((i + 1) * npp <= nc * npp)%nat) by (apply Nat.mul_le_mono_r; lia).
    apply (checkPartialProducts_computes cd _ _ i o); rewrite ?map_length, ?seq_length; lia.
  Qed.
  Definition repF (f : nat -> K) : list QE := map repK (map f (seq 0 nc)).
  Lemma reduce_step t f :
    computes (mapM (fun j => reduced <- nth_ (repF f) j;; alpha <- nth_ (PlonkAlphas (repC c fc)) j;;
                             x <- ScalarMulExtension reduced alpha;; AddExtension (repK t) x) (seq 0 nc))
             (repF (fun j => (t + f j * emb (nth j (c_alphas c) g0))%K)).
  Proof.
    apply (mapM_seq_K _ (fun j => (t + f j * emb (nth j (c_alphas c) g0))%K) repK). intros j Hj. cbn [repC PlonkAlphas].
    eapply computes_bind; [unfold repF; rewrite map_map; apply (computes_seqK (fun j => repK (f j))); lia|].
    eapply computes_bind; [apply computes_nthG; lia|].
    eapply computes_bind; [apply scalarmul_ext_correct|]. apply add_ext_correct.
  Qed.
  Lemma reduce_all (terms : list K) (a : nat -> K) j :
    fold_left (fun f t => fun j => (t + f j * a j)%K) (rev terms) (fun _ => k0) j = powers_sum terms (a j).
  Proof.
    clear.
    assert (G : forall l, fold_left (fun (f : nat -> K) t => fun j => (t + f j * a j)%K) (rev l) (fun _ => k0) j = powers_sum l (a j)).
    { induction l as [|t l IH]; cbn [rev powers_sum]; [reflexivity|]. rewrite fold_left_app. cbn [fold_left]. rewrite IH. ring. }
    apply G.
  Qed.
  Definition v_red (i : nat) : K := powers_sum (v_terms gcons) (emb (nth i (c_alphas c) g0)).
  Lemma evalVanishingPoly_enforces :
    enforces (evalVanishingPoly cd gates (mkvars (o_cs o) (o_ws o) h) (repC c fc) (repO o) (repK v_zpn)) (c_zeta c <> k1) (repF v_red).
  Proof.
    unfold evalVanishingPoly.
    eapply computes_enforces_bind; [exact Hgc|]. cbn [repC PlonkZeta].
    eapply computes_enforces_bind; [exact sids_computes|].
    eapply enforces_iff; [eapply enforces_bind; [exact evalL0_enforces|]|split; [intros [H _]; exact H|intros H; exact (conj H I)]].
    intros _. cbv zeta. eapply computes_bind.
    { apply (mapM_seq_K _ (fun i => (v_z1 i, v_pps i)) repT). intros i Hi. apply challenge_terms_computes. lia. }
    assert (E : map fst (map repT (map (fun i => (v_z1 i, v_pps i)) (seq 0 nc))) ++
                concat (map snd (map repT (map (fun i => (v_z1 i, v_pps i)) (seq 0 nc)))) ++ map repK gcons
                = map repK (v_terms gcons)).
    { unfold v_terms. rewrite !map_app, !map_map. cbn [repT fst snd]. rewrite <- concat_map_repK, !map_map. reflexivity. }
    rewrite E, <- map_rev.
    replace (repeat ZeroExtension nc) with (repF (fun _ => k0)).
    2:{ unfold repF. rewrite map_map, repK_0. clear. generalize 0%nat. induction nc as [|n IH]; intros k; cbn [seq map repeat]; [reflexivity|]. now rewrite IH. }
    eapply computes_eq.
    - apply (computes_foldM _ repF repK (fun f t => fun j => (t + f j * emb (nth j (c_alphas c) g0))%K)).
      intros f t _. apply reduce_step.
    - unfold repF. apply f_equal. apply map_ext. intros j. apply (reduce_all (v_terms gcons) (fun j => emb (nth j (c_alphas c) g0))).
  Qed.
  Definition v_quot (i : nat) : K := powers_sum (seg (o_qs o) (i * q) (i * q + q)) v_zpn.
  Lemma PlonkVerify_enforces :
    enforces (PlonkVerify cd gates (repC c fc) (repO o) (map rep h))
      (c_zeta c <> k1 /\ forall i, (i < nc)%nat -> v_red i = ((v_zpn - k1) * v_quot i)%K) tt.
  Proof.
    unfold PlonkVerify. change (PlonkZeta (repC c fc)) with (repK (c_zeta c)).
    eapply computes_enforces_bind; [apply exp_power_computes|]. fold v_zpn.
    change (mkEvaluationVars (Constants (repO o)) (Wires (repO o)) (map rep h)) with (mkvars (o_cs o) (o_ws o) h).
    eapply enforces_bind; [exact evalVanishingPoly_enforces|]. intros _.
    eapply computes_enforces_bind; [rewrite <- repK_1; apply sub_ext_correct|].
    unfold repF. rewrite !map_length, seq_length, map_map.
    replace (combine (seq 0 nc) (map (fun x => repK (v_red x)) (seq 0 nc))) with (map (fun i => (i, repK (v_red i))) (seq 0 nc)).
    2:{ generalize (seq 0 nc). clear. induction l as [|x l IH]; cbn [map combine]; [reflexivity|]. now rewrite IH. }
    eapply enforces_iff.
    - apply (enforces_iterM2 _ (fun i => (i, repK (v_red i))) (fun i => v_red i = ((v_zpn - k1) * v_quot i)%K)).
      intros i Hi. apply in_seq in Hi. cbn [fst snd repO QuotientPolys].
      assert (M : ((i + 1) * q <= nc * q)%nat) by (apply Nat.mul_le_mono_r; lia).
      eapply computes_enforces_bind; [apply computes_slice; rewrite map_length; lia|].
      rewrite seg_map. eapply computes_enforces_bind; [apply reduce_with_powers_correct|].
      eapply computes_enforces_bind; [apply mul_ext_correct|]. apply assert_eq_ext_K.
    - rewrite Forall_forall. split; intros H i Hi; apply H; [apply in_seq; lia|apply in_seq in Hi; lia].
  Qed.
End Vanish.

(** ** Too few wires for the chunks: the circuit definition panics *)
Definition abort_or {A B} (c : circ A) (R : B -> A) : Prop := aborts c \/ exists b, computes c (R b).
Lemma aborts_mapM {A B} (f : A -> circ B) l : (forall x, In x l -> abort_or (f x) (fun y => y)) -> (exists x, In x l /\ aborts (f x)) ->
  aborts (mapM f l).
Proof.
  induction l as [|a l IH]; intros H (x & Hx & Ax); [destruct Hx|]. cbn [mapM].
  destruct (H a (in_eq _ _)) as [Aa|(y & Ca)]; [now apply aborts_here|].
  eapply aborts_bind; [exact Ca|]. apply aborts_here. destruct Hx as [->|Hx].
  - exfalso. destruct Ax as [_ N]. apply (N y). apply (enforces_reach _ _ _ y Ca). auto.
  - apply IH; [intros; apply H; now right|]. now exists x.
Qed.
Lemma aborts_foldM {A B C} (f : B -> A -> circ B) (R : C -> B) l : forall a,
  (forall a x, In x l -> abort_or (f (R a) x) R) -> (exists x, In x l /\ forall a, aborts (f (R a) x)) ->
  aborts (foldM f (R a) l).
Proof.
  induction l as [|y l IH]; intros a H (x & Hx & Ax); [destruct Hx|]. cbn [foldM].
  destruct (H a y (in_eq _ _)) as [Aa|(b & Cb)]; [now apply aborts_here|].
  eapply aborts_bind; [exact Cb|]. destruct Hx as [->|Hx].
  - exfalso. destruct (Ax a) as [_ N]. apply (N (R b)). apply (enforces_reach _ _ _ (R b) Cb). auto.
  - apply IH; [intros; apply H; now right|]. now exists x.
Qed.
Lemma nth_aborts {A} (l : list A) i : (length l <= i)%nat -> aborts (nth_ l i).
Proof.
  intros H. apply nth_error_None in H. unfold nth_. rewrite H. split; [eexists; reflexivity|]. intros a [].
Qed.
Lemma chunk_step_cases ns ds k (st : K * K) : length ns = length ds ->
  let c := (n <- nth_ (map repK ns) k;; np <- MulExtension (fst (repP st)) n;;
            d <- nth_ (map repK ds) k;; dp <- MulExtension (snd (repP st)) d;; Ret (np, dp)) in
  ((length ns <= k)%nat -> aborts c) /\ ((k < length ns)%nat -> exists b, computes c (repP b)).
Proof.
  intros L c. split; intros H.
  - apply aborts_here, nth_aborts. now rewrite map_length.
  - eexists (_, _). eapply computes_bind; [apply computes_nthK; exact H|]. eapply computes_bind; [apply mul_ext_correct|].
    eapply computes_bind; [apply computes_nthK; lia|]. eapply computes_bind; [apply mul_ext_correct|]. apply computes_ret.
Qed.
Lemma chunk_products_aborts ns ds q i : length ns = length ds -> (length ns < i * q + Nat.max 1 q)%nat ->
  aborts (chunk_products (map repK ns) (map repK ds) q i).
Proof.
  intros L H. unfold chunk_products. cbv zeta.
  destruct (Nat.le_gt_cases (length ns) (i * q)) as [H0|H0]; [apply aborts_here, nth_aborts; now rewrite map_length|].
  eapply aborts_bind; [apply computes_nthK; exact H0|]. eapply aborts_bind; [apply computes_nthK; lia|].
  apply (aborts_foldM _ repP _ (nth (i * q) ns k0, nth (i * q) ds k0)).
  - intros st j _. destruct (chunk_step_cases ns ds (i * q + j) st L) as [A1 A2].
    destruct (Nat.le_gt_cases (length ns) (i * q + j)) as [Hj|Hj]; [left; exact (A1 Hj)|right; exact (A2 Hj)].
  - exists (q - 1)%nat. split; [apply in_seq; lia|]. intros st. apply (chunk_step_cases ns ds (i * q + (q - 1)) st L). lia.
Qed.
Lemma checkPartialProducts_aborts cd ns ds ch o :
  let npp := NumPartialProducts cd in let q := QuotientDegreeFactor cd in
  (ch < length (o_zs o))%nat -> (ch < length (o_zsn o))%nat -> ((ch + 1) * npp <= length (o_pps o))%nat ->
  length ns = length ds -> (length ns < npp * q + Nat.max 1 q)%nat ->
  aborts (checkPartialProducts cd (map repK ns) (map repK ds) ch (repO o)).
Proof.
  intros npp q Hz Hzn Hp L H. unfold checkPartialProducts. fold npp q. cbn [repO PlonkZs PlonkZsNext PartialProducts].
  eapply aborts_bind; [apply computes_nthK; exact Hz|].
  eapply aborts_bind; [apply computes_slice; rewrite map_length; nia|].
  eapply aborts_bind; [apply computes_nthK; exact Hzn|].
  rewrite seg_map. cbv zeta.
  replace (repK (nth ch (o_zs o) k0) :: map repK (seg (o_pps o) (ch * npp) ((ch + 1) * npp)) ++ [repK (nth ch (o_zsn o) k0)])
    with (map repK (accs_k npp o ch)) by (unfold accs_k; cbn [map]; now rewrite map_app).
  assert (HL := length_accs npp o ch Hp).
  apply aborts_mapM.
  - intros i Hi. apply in_seq in Hi.
    destruct (Nat.le_gt_cases (i * q + Nat.max 1 q) (length ns)) as [C|C].
    + right. eexists. eapply computes_bind; [apply chunk_products_computes; lia|]. unfold repP. cbn [fst snd].
      eapply computes_bind; [apply computes_nthK; lia|]. eapply computes_bind; [apply mul_ext_correct|].
      eapply computes_bind; [apply computes_nthK; lia|]. eapply computes_bind; [apply mul_ext_correct|].
      apply sub_ext_correct.
    + left. apply aborts_here. now apply chunk_products_aborts.
  - exists npp. split; [apply in_seq; lia|]. apply aborts_here. now apply chunk_products_aborts.
Qed.

(** weighted sums *)
Lemma powers_sum_closed l x : powers_sum l x = ksum (map (fun j => (nth j l k0 * x ^ N.of_nat j)%K) (seq 0 (length l))).
Proof.
  induction l as [|t l IH]; [reflexivity|]. cbn [powers_sum length]. rewrite IH.
  change (seq 0 (S (length l))) with (O :: seq 1 (length l)). rewrite map_cons, <- seq_shift, map_map. cbn [ksum fold_right nth].
  change (N.of_nat 0) with 0%N. rewrite kpow_0. replace (t * 1)%K with t by ring. apply f_equal.
  unfold ksum. generalize (seq 0 (length l)). induction l0 as [|j s IHs]; cbn [map fold_right]; [ring|].
  rewrite <- IHs, Nat2N.inj_succ, kpow_succ. ring.
Qed.
