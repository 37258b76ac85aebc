(** * Properties C39 and C40: partial products, the vanishing polynomial.

    Openings and challenges are elements of the field and of its quadratic extension [K]
    ([opensK], [chalK]); they enter the code by their canonical representatives ([repO],
    [repC]; the FRI challenges [fc] are not used here).  [enforces c P r]: if P holds the
    prover's run of c ends with r, and c has a satisfying assignment only if P holds and
    then it ends with r; [computes c r] is [enforces c True r]. *)
From Coq Require Import String.
From Coq Require Import ZArith NArith Lia List Bool Ring.
From Verif Require Import Zp GF Circuit Goldilocks GLProofs ExtProofs PoseidonGLProofs Types Challenger Fri FriMerkle FriEval Roots
  Gates GateProofs GateCoset GateFilter GateAll Plonk PlonkProofs Prop_Gates.
Import ListNotations.
Open Scope Z_scope.

(** chunk number i of size q *)
Definition chunk (q i : nat) (l : list K) : list K := firstn q (skipn (i * q) l).
(** Z(x), the partial products of challenge ch in order, Z(gx) *)
Definition accumulators (npp : nat) (o : opensK) (ch : nat) : list K :=
  nth ch (o_zs o) k0 :: firstn npp (skipn (ch * npp) (o_pps o)) ++ [nth ch (o_zsn o) k0].
(** the check of chunk m *)
Definition chunk_check (npp q : nat) (nums dens : list K) (o : opensK) (ch m : nat) : K :=
  (nth m (accumulators npp o ch) k0 * kprod (chunk q m nums) - nth (m + 1) (accumulators npp o ch) k0 * kprod (chunk q m dens))%K.

Lemma chunk_prod_chunk l q i : (1 <= q)%nat -> (i * q + q <= length l)%nat -> chunk_prod l q i = kprod (chunk q i l).
Proof.
  intros Hq H. unfold chunk_prod, chunk. apply f_equal. replace (Nat.max 1 q) with q by lia. apply (nth_ext _ _ k0 k0).
  - rewrite map_length, seq_length, firstn_length, skipn_length. lia.
  - intros j Hj. rewrite map_length, seq_length in Hj.
    rewrite (nth_map_lt (fun j => nth (i * q + j) l k0) _ _ _ 0%nat), seq_nth by (rewrite ?seq_length; exact Hj). cbn [Nat.add].
    rewrite nth_firstn_lt by exact Hj. symmetry. apply nth_skipn.
Qed.
Lemma accs_accumulators npp o ch : accs_k npp o ch = accumulators npp o ch.
Proof. unfold accs_k, accumulators, seg. rewrite firstn_skipn_comm. now replace (ch * npp + npp)%nat with ((ch + 1) * npp)%nat by lia. Qed.
Lemma pp_chunk_check npp q ns ds o ch m : (1 <= q)%nat -> (m * q + q <= length ns)%nat -> (m * q + q <= length ds)%nat ->
  pp_k npp q ns ds o ch m = chunk_check npp q ns ds o ch m.
Proof. intros Hq H1 H2. unfold pp_k, chunk_check. now rewrite accs_accumulators, !chunk_prod_chunk by assumption. Qed.

Lemma chunk_bound npp q i : (i < npp + 1)%nat -> (i * q + q <= (npp + 1) * q)%nat.
Proof. intros H. nia. Qed.

(** ** C39 *)
Definition pp_shape (cd : CommonCircuitData) (ch : nat) (o : opensK) : Prop :=
  let npp := NumPartialProducts cd in
  (1 <= QuotientDegreeFactor cd)%nat /\ (ch < length (o_zs o))%nat /\ (ch < length (o_zsn o))%nat /\ ((ch + 1) * npp <= length (o_pps o))%nat.
Theorem C39_checks : forall cd nums dens ch o,
  let npp := NumPartialProducts cd in let q := QuotientDegreeFactor cd in
  pp_shape cd ch o -> ((npp + 1) * q <= length nums)%nat -> length dens = length nums ->
  computes (checkPartialProducts cd (map repK nums) (map repK dens) ch (repO o))
           (map repK (map (chunk_check npp q nums dens o ch) (seq 0 (npp + 1)))).
Proof.
  intros cd nums dens ch o npp q (Hq & Hz & Hzn & Hp) Hn Hd. fold npp q in Hp, Hq.
  eapply computes_eq; [apply checkPartialProducts_computes; fold npp q; try assumption; nia|]. fold npp q.
  apply f_equal. apply map_ext_in. intros m Hm. apply in_seq in Hm. apply pp_chunk_check; [exact Hq|nia|nia].
Qed.
(** all checks vanish: the accumulators telescope *)
Theorem C39_telescope : forall cd nums dens ch o,
  let npp := NumPartialProducts cd in let q := QuotientDegreeFactor cd in
  pp_shape cd ch o -> ((npp + 1) * q <= length nums)%nat -> length dens = length nums ->
  exists out, computes (checkPartialProducts cd (map repK nums) (map repK dens) ch (repO o)) (map repK out) /\
    length out = (npp + 1)%nat /\
    (vanish out <-> forall m, (m <= npp)%nat ->
       (nth m (accumulators npp o ch) k0 * kprod (chunk q m nums) = nth (m + 1) (accumulators npp o ch) k0 * kprod (chunk q m dens))%K) /\
    (vanish out -> (nth ch (o_zs o) k0 * kprod (firstn ((npp + 1) * q) nums) = nth ch (o_zsn o) k0 * kprod (firstn ((npp + 1) * q) dens))%K) /\
    ((forall d, In d dens -> d <> k0) ->
       (vanish out <-> forall m, (m <= npp + 1)%nat ->
          nth m (accumulators npp o ch) k0 = (nth ch (o_zs o) k0 * kprod (firstn (m * q) nums) / kprod (firstn (m * q) dens))%K)).
Proof.
  intros cd nums dens ch o npp q Hs Hn Hd. eexists. split; [now apply C39_checks|]. fold npp q.
  destruct Hs as (Hq & Hz & Hzn & Hp). fold npp q in Hp, Hq.
  split; [now rewrite map_length, seq_length|].
  assert (V : Forall (fun c : K => c = k0) (map (chunk_check npp q nums dens o ch) (seq 0 (npp + 1))) <->
     forall i, (i < npp + 1)%nat -> (nth i (accs_k npp o ch) k0 * chunk_prod nums q i - nth (i + 1) (accs_k npp o ch) k0 * chunk_prod dens q i)%K = k0).
  { rewrite all0_seq. split; intros H i Hi; (etransitivity; [|exact (H i Hi)]); [|symmetry]; apply (pp_chunk_check npp q nums dens o ch i Hq);
      pose proof (chunk_bound npp q i Hi); lia. }
  assert (L : nth (npp + 1) (accs_k npp o ch) k0 = nth ch (o_zsn o) k0).
  { unfold accs_k. rewrite Nat.add_1_r. cbn [nth]. rewrite app_nth2; rewrite seg_length by nia; [|nia].
    now replace (npp - ((ch + 1) * npp - ch * npp))%nat with O by nia. }
  split; [|split].
  - rewrite all0_seq. unfold chunk_check. split; intros H m Hm.
    + apply (proj1 (ksub_eq0 _ _)), H. lia.
    + apply (proj2 (ksub_eq0 _ _)), H. lia.
  - intros H. pose proof (proj1 V H) as H'. clear H. rename H' into H. pose proof (telescope (fun i => nth i (accs_k npp o ch) k0) (chunk_prod nums q) (chunk_prod dens q) (npp + 1) H) as T.
    cbn beta in T. rewrite L, !chunk_prods_pos in T by (try exact Hq; nia). exact T.
  - intros HD. rewrite V, <- accs_accumulators.
    rewrite (accs_determined (fun i => nth i (accs_k npp o ch) k0) (chunk_prod nums q) (chunk_prod dens q) (npp + 1)).
    + change (nth 0 (accs_k npp o ch) k0) with (nth ch (o_zs o) k0).
      split; intros H m Hm; rewrite (H m Hm), !chunk_prods_pos; try reflexivity; try exact Hq; nia.
    + intros i Hi. rewrite chunk_prod_chunk by (try exact Hq; nia). apply kprod_nonzero. intros x Hx. apply HD.
      unfold chunk in Hx. rewrite <- (firstn_skipn (i * q) dens). apply in_or_app. right.
      rewrite <- (firstn_skipn q (skipn (i * q) dens)). apply in_or_app. now left.
Qed.
(** wires beyond the last chunk are not looked at ... *)
Theorem C39_ignores_rest : forall cd nums dens nums' dens' ch o,
  let m := ((NumPartialProducts cd + 1) * QuotientDegreeFactor cd)%nat in
  pp_shape cd ch o -> (m <= length nums)%nat -> length dens = length nums -> (m <= length nums')%nat -> length dens' = length nums' ->
  firstn m nums = firstn m nums' -> firstn m dens = firstn m dens' ->
  exists out, computes (checkPartialProducts cd (map repK nums) (map repK dens) ch (repO o)) out /\
              computes (checkPartialProducts cd (map repK nums') (map repK dens') ch (repO o)) out.
Proof.
  intros cd nums dens nums' dens' ch o m Hs H1 H2 H3 H4 E1 E2. eexists. split; [now apply C39_checks|].
  eapply computes_eq; [now apply C39_checks|]. apply f_equal. apply map_ext_in. intros i Hi. apply in_seq in Hi.
  assert (C : forall l l' : list K, firstn m l = firstn m l' -> chunk (QuotientDegreeFactor cd) i l = chunk (QuotientDegreeFactor cd) i l').
  { intros l l' E. unfold chunk. rewrite !firstn_skipn_comm.
    assert (F : forall x : list K, firstn (i * QuotientDegreeFactor cd + QuotientDegreeFactor cd) x = firstn (i * QuotientDegreeFactor cd + QuotientDegreeFactor cd) (firstn m x)).
    { intros x. rewrite firstn_firstn. f_equal. unfold m. nia. }
    now rewrite (F l), (F l'), E. }
  unfold chunk_check. now rewrite (C nums nums' E1), (C dens dens' E2).
Qed.
(** ... and too few of them make the circuit definition panic *)
Theorem C39_panics : forall cd nums dens ch o, pp_shape cd ch o ->
  (length nums < (NumPartialProducts cd + 1) * QuotientDegreeFactor cd)%nat -> length dens = length nums ->
  (exists msg, run (checkPartialProducts cd (map repK nums) (map repK dens) ch (repO o)) = Panicked msg) /\
  forall out, ~ reach (checkPartialProducts cd (map repK nums) (map repK dens) ch (repO o)) out.
Proof.
  intros cd nums dens ch o (Hq & Hz & Hzn & Hp) H Hd. apply checkPartialProducts_aborts; try assumption; [now symmetry|nia].
Qed.

(** ** C40 *)
(** lengths and ranges that the code relies on *)
Definition plonk_shape (cd : CommonCircuitData) (gates : list Gate) (kis : list GF) (c : chalK) (o : opensK) (h : list GF) : Prop :=
  let nrw := NumRoutedWires (cd_Config cd) in let nc := NumChallenges (cd_Config cd) in
  let npp := NumPartialProducts cd in let q := QuotientDegreeFactor cd in let sel := length (groups (cd_SelectorsInfo cd)) in
  (KIs cd = map rep kis /\ nrw <= length kis /\ cd_DegreeBits cd <= 62 /\ 1 <= q /\ (npp + 1) * q <= nrw)%nat /\
  (nrw <= length (o_sigmas o) /\ nrw <= length (o_ws o) /\ nc <= length (o_zs o) /\ nc <= length (o_zsn o) /\
   nc * npp <= length (o_pps o) /\ nc * q <= length (o_qs o) /\
   nc <= length (c_betas c) /\ nc <= length (c_gammas c) /\ nc <= length (c_alphas c))%nat /\
  (layout (cd_SelectorsInfo cd) (length gates) /\ (sel <= length (o_cs o))%nat /\ length h = 4%nat /\
   Forall (fits (length (o_cs o) - sel) (length (o_ws o))) gates /\ Forall (fun g => (num_constraints g <= NumGateConstraints cd)%nat) gates).

(** n = 2^DegreeBits, L_0(zeta) *)
Definition order (cd : CommonCircuitData) : K := kz (2 ^ Z.of_nat (cd_DegreeBits cd)).
Definition zeta_n (cd : CommonCircuitData) (c : chalK) : K := (c_zeta c ^ (2 ^ N.of_nat (cd_DegreeBits cd)))%K.
Definition lagrange0 (cd : CommonCircuitData) (c : chalK) : K := ((zeta_n cd c - k1) / (order cd * (c_zeta c - k1)))%K.
(** wire j for challenge i: w_j + beta_i k_j zeta + gamma_i and w_j + beta_i sigma_j + gamma_i *)
Definition numerator (kis : list GF) (c : chalK) (o : opensK) (i j : nat) : K :=
  (nth j (o_ws o) k0 + emb (nth i (c_betas c) g0) * (emb (nth j kis g0) * c_zeta c) + emb (nth i (c_gammas c) g0))%K.
Definition denominator (c : chalK) (o : opensK) (i j : nat) : K :=
  (nth j (o_ws o) k0 + emb (nth i (c_betas c) g0) * nth j (o_sigmas o) k0 + emb (nth i (c_gammas c) g0))%K.
(** the terms: boundary, partial products, gate constraints *)
Definition vanishing_terms (cd : CommonCircuitData) (kis : list GF) (c : chalK) (o : opensK) (gate_cons : list K) : list K :=
  let nc := NumChallenges (cd_Config cd) in
  let wires := seq 0 (NumRoutedWires (cd_Config cd)) in
  map (fun i => lagrange0 cd c * (nth i (o_zs o) k0 - k1))%K (seq 0 nc) ++
  flat_map (fun i => map (chunk_check (NumPartialProducts cd) (QuotientDegreeFactor cd) (map (numerator kis c o i) wires) (map (denominator c o i) wires) o i)
                         (seq 0 (NumPartialProducts cd + 1))) (seq 0 nc) ++
  gate_cons.
(** sum of l_j x^j *)
Definition weighted (l : list K) (x : K) : K := ksum (map (fun j => nth j l k0 * x ^ N.of_nat j)%K (seq 0 (length l))).

Lemma order_emb cd : order cd = emb (v_n cd). Proof. reflexivity. Qed.
Lemma l0_eq cd c : v_l0 cd c = lagrange0 cd c.
Proof.
  unfold v_l0, lagrange0. rewrite order_emb. f_equal. ring.
Qed.
Lemma terms_eq cd gates kis c o h gcons : plonk_shape cd gates kis c o h -> v_terms cd kis c o gcons = vanishing_terms cd kis c o gcons.
Proof.
  intros ((Hk & Hkl & Hdb & Hq & Hcov) & _). unfold v_terms, vanishing_terms. rewrite flat_map_concat_map. f_equal; [|f_equal; f_equal].
  - apply map_ext. intros i. unfold v_z1. now rewrite l0_eq.
  - apply map_ext. intros i. unfold v_pps.
    assert (E1 : map (v_num kis c o i) (seq 0 (NumRoutedWires (cd_Config cd))) = map (numerator kis c o i) (seq 0 (NumRoutedWires (cd_Config cd)))).
    { apply map_ext. intros j. unfold v_num, numerator, v_beta, v_gamma. ring. }
    assert (E2 : map (v_den c o i) (seq 0 (NumRoutedWires (cd_Config cd))) = map (denominator c o i) (seq 0 (NumRoutedWires (cd_Config cd)))).
    { apply map_ext. intros j. unfold v_den, denominator, v_beta, v_gamma. ring. }
    rewrite E1, E2. apply map_ext_in. intros m Hm. apply in_seq in Hm. apply pp_chunk_check; [exact Hq| |]; rewrite map_length, seq_length; nia.
Qed.

Theorem C40_vanishing : forall cd gates kis c fc o h, plonk_shape cd gates kis c o h ->
  let q := QuotientDegreeFactor cd in
  exists gate_cons,
    computes (EvaluateGateConstraints gates (NumGateConstraints cd) (cd_SelectorsInfo cd) (mkvars (o_cs o) (o_ws o) h)) (map repK gate_cons) /\
    length gate_cons = NumGateConstraints cd /\
    enforces (PlonkVerify cd gates (repC c fc) (repO o) (map rep h))
      (c_zeta c <> k1 /\
       forall i, (i < NumChallenges (cd_Config cd))%nat ->
         weighted (vanishing_terms cd kis c o gate_cons) (emb (nth i (c_alphas c) g0)) =
         ((zeta_n cd c - k1) * weighted (chunk q i (o_qs o)) (zeta_n cd c))%K) tt.
Proof.
  intros cd gates kis c fc o h S q. pose proof S as ((Hk & Hkl & Hdb & Hq & Hcov) & (H1 & H2 & H3 & H4 & H5 & H6 & H7 & H8 & H9) & (G1 & G2 & G3 & G4 & G5)).
  destruct (C42_sum gates (NumGateConstraints cd) (cd_SelectorsInfo cd) (o_cs o) (o_ws o) h G1 G2 G3 G4 G5)
    as (outs & fs & gcons & _ & _ & _ & Hg & Lg & _).
  exists gcons. split; [exact Hg|]. split; [exact Lg|].
  eapply enforces_iff; [apply (PlonkVerify_enforces cd gates kis c fc o h gcons); try assumption; fold q; fold q in Hcov, Hq; nia|].
  apply and_iff_compat_l. split; intros H i Hi; specialize (H i Hi).
  - unfold v_red, v_quot in H. rewrite (terms_eq cd gates kis c o h gcons S) in H. rewrite !powers_sum_closed in H.
    unfold weighted. rewrite H. unfold chunk, seg, v_zpn, zeta_n, q. now rewrite firstn_skipn_comm.
  - unfold v_red, v_quot. rewrite (terms_eq cd gates kis c o h gcons S), !powers_sum_closed. unfold weighted in H. rewrite H.
    unfold chunk, seg, v_zpn, zeta_n, q. now rewrite firstn_skipn_comm.
Qed.
Lemma ksum_app a b : ksum (a ++ b) = (ksum a + ksum b)%K.
Proof. unfold ksum. induction a as [|x a IH]; cbn [app fold_right]; [ring|]. rewrite IH. ring. Qed.
(** [lagrange0] is the first Lagrange polynomial of the subgroup of order n at zeta *)
Lemma geometric (x : K) n : ((x - k1) * ksum (map (fun i => x ^ N.of_nat i) (seq 0 n)) = x ^ N.of_nat n - k1)%K.
Proof.
  induction n as [|n IH]; [change (N.of_nat 0) with 0%N; rewrite kpow_0; unfold ksum; cbn [seq map fold_right]; ring|].
  rewrite seq_S, map_app, ksum_app. unfold ksum at 2. cbn [map fold_right Nat.add].
  transitivity ((x - k1) * ksum (map (fun i => x ^ N.of_nat i) (seq 0 n)) + (x - k1) * x ^ N.of_nat n)%K; [ring|].
  rewrite IH, Nat2N.inj_succ, kpow_succ. ring.
Qed.
Theorem C40_lagrange : forall cd c, (cd_DegreeBits cd <= 62)%nat -> c_zeta c <> k1 ->
  (order cd * lagrange0 cd c)%K = ksum (map (fun i => (c_zeta c ^ N.of_nat i)%K) (seq 0 (2 ^ cd_DegreeBits cd))).
Proof.
  intros cd c Hd Hz. pose proof (geometric (c_zeta c) (2 ^ cd_DegreeBits cd)) as G. rewrite pow2_nat_N in G. fold (zeta_n cd c) in G.
  unfold lagrange0. rewrite <- G. generalize (ksum (map (fun i => (c_zeta c ^ N.of_nat i)%K) (seq 0 (2 ^ cd_DegreeBits cd)))). intros s.
  assert (Hn : order cd <> k0).
  { intros E. replace k0 with (kz 0) in E by (unfold kz; now rewrite <- g0_inj). assert (L : 2 ^ Z.of_nat (cd_DegreeBits cd) <= 2 ^ 62) by (apply Z.pow_le_mono_r; lia).
    change (2 ^ 62) with 4611686018427387904 in L. assert (0 < 2 ^ Z.of_nat (cd_DegreeBits cd)) by (apply Z.pow_pos_nonneg; lia).
    apply kz_inj in E; unfold p; lia. }
  assert (Hs : (c_zeta c - k1)%K <> k0) by (intros E; apply Hz; now apply (proj1 (ksub_eq0 _ _)) in E).
  unfold kdiv.
  transitivity (kinv (order cd * (c_zeta c - k1)) * (order cd * (c_zeta c - k1)) * s)%K; [ring|].
  rewrite kinv_l; [ring|]. intros E. apply kmul_eq0 in E. tauto.
Qed.

(** two wires, one challenge, n = 2, zeta = 2, L_0(zeta) = 3/2: Z = 3 is accepted with
    quotient 1 and no other *)
Definition cd_ex : CommonCircuitData :=
  mkCommonCircuitData (mkCircuitConfig 2 2 1 false 100 1 false 1 (mkFriConfig 1 0 0 1))
    (mkFriParams (mkFriConfig 1 0 0 1) false 1 []) ["NoopGate"%string] (mkSelectorsInfo [O] [(0, 1)%nat]) 1 1 0 1 0 [1; 7] 1.
Definition c_ex : chalK := mkChalK [inj 5] [inj 6] [inj 9] (kz 2).
Definition o_ex (q : Z) : opensK := mkOpensK [kz 0] [kz 2; kz 14] [kz 20; kz 21] [kz 3] [kz 3] [kz 3] [kz q].
Definition fc_ex : FriChallenges := mkFriChallenges (0, 0) [] 0 [].
Example C40_ex : plonk_shape cd_ex [NoopGate] [inj 1; inj 7] c_ex (o_ex 1) [inj 0; inj 0; inj 0; inj 0] /\
  run (PlonkVerify cd_ex [NoopGate] (repC c_ex fc_ex) (repO (o_ex 1)) [0; 0; 0; 0]) = Done tt /\
  run (PlonkVerify cd_ex [NoopGate] (repC c_ex fc_ex) (repO (o_ex 2)) [0; 0; 0; 0]) <> Done tt.
Proof.
  split; [|split].
  - unfold plonk_shape. split; [|split].
    + split; [vm_compute; reflexivity|cbn; lia].
    + cbn. lia.
    + split; [split; [cbn; lia|]|].
      * intros i Hi. destruct i as [|i]; [|cbn in Hi; lia]. cbn. unfold p. lia.
      * split; [cbn; lia|]. split; [reflexivity|]. split; repeat constructor.
  - vm_compute. reflexivity.
  - vm_compute. intros E. inversion E.
Qed.
Example C39_ex : pp_shape cd_ex 0 (o_ex 1) /\
  run (checkPartialProducts cd_ex [(2, 0); (3, 0)] [(1, 0); (5, 0)] 0 (mkOpeningSet [] [] [] [(5, 0)] [(6, 0)] [(10, 0)] [])) = Done [(0, 0); (0, 0)] /\
  run (checkPartialProducts cd_ex [(2, 0); (3, 0)] [(1, 0); (5, 0)] 0 (mkOpeningSet [] [] [] [(5, 0)] [(7, 0)] [(10, 0)] [])) = Done [(0, 0); (p - 5, 0)].
Proof. split; [|vm_compute; split; reflexivity]. unfold pp_shape. cbn. lia. Qed.
(** fewer routed wires than the chunks need *)
Example C39_panics_ex : exists m, run (checkPartialProducts cd_ex [(2, 0)] [(1, 0)] 0 (mkOpeningSet [] [] [] [(5, 0)] [(6, 0)] [(10, 0)] [])) = Panicked m.
Proof. eexists. vm_compute. reflexivity. Qed.

Print Assumptions C39_checks.
Print Assumptions C39_telescope.
Print Assumptions C39_ignores_rest.
Print Assumptions C39_panics.
Print Assumptions C40_vanishing.
Print Assumptions C40_lagrange.
