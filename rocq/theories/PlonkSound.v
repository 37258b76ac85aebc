(** * Soundness of the Plonk check: the vanishing polynomial over polynomials. *)
From Coq Require Import String.
From Coq Require Import ZArith NArith Lia List Bool Ring.
From Verif Require Import Zp GF Circuit Goldilocks GLProofs ExtProofs PoseidonGLProofs Types Challenger Fri FriMerkle FriEval FriQuery Poly Roots Interp FriSound
  Gates GateProofs GateCoset GateFilter GateAll GateDegree Plonk PlonkProofs Prop_Gates Prop_Plonk.
Import ListNotations.
Open Scope Z_scope.

(** the values at x of the polynomials [ps] *)
Definition evals (ps : list (list K)) (x : K) : list K := map (fun f => kpeval f x) ps.
Definition bounded (n : nat) (ps : list (list K)) : Prop := Forall (fun f => (length f <= n + 1)%nat) ps.
Lemma nth_evals ps x i : nth i (evals ps x) k0 = kpeval (nth i ps []) x.
Proof. unfold evals. change k0 with ((fun f => kpeval f x) []) at 1. apply map_nth. Qed.
Lemma length_evals ps x : length (evals ps x) = length ps. Proof. apply map_length. Qed.

(** f(g x) *)
Fixpoint stretch (g : K) (f : list K) : list K := match f with [] => [] | a :: f' => a :: map (fun b => (g * b)%K) (stretch g f') end.
Lemma kpeval_map_scale g f x : kpeval (map (fun b => (g * b)%K) f) x = (g * kpeval f x)%K.
Proof. unfold kpeval. induction f as [|a f IH]; cbn [map peval]; [ring|]. rewrite IH. ring. Qed.
Lemma kpeval_stretch g f x : kpeval (stretch g f) x = kpeval f (g * x)%K.
Proof.
  induction f as [|a f IH]; [reflexivity|]. change (kpeval (a :: f) (g * x)%K) with (a + (g * x) * kpeval f (g * x))%K. rewrite <- IH.
  change (kpeval (stretch g (a :: f)) x) with (a + x * kpeval (map (fun b => (g * b)%K) (stretch g f)) x)%K. rewrite kpeval_map_scale. ring.
Qed.
Lemma length_stretch g f : length (stretch g f) = length f.
Proof. induction f as [|a f IH]; cbn [stretch length]; [reflexivity|]. now rewrite map_length, IH. Qed.

Section Calculus.
  Context (n : nat).
  Lemma dg_poly f e : (length f <= n + 1)%nat -> (1 <= e)%nat -> dg n e (fun x => kpeval f x).
  Proof. intros H L. apply (dg_le n 1); [|exact L]. exists f. split; [lia|reflexivity]. Qed.
  Lemma dg_col ps i e : bounded n ps -> (1 <= e)%nat -> dg n e (fun x => nth i (evals ps x) k0).
  Proof.
    intros H L. eapply dg_ext; [|intros x; symmetry; apply nth_evals]. apply dg_poly; [|exact L].
    destruct (Nat.lt_ge_cases i (length ps)) as [Hi|Hi].
    - apply (proj1 (Forall_forall _ _) H). now apply nth_In.
    - rewrite nth_overflow by exact Hi. cbn. lia.
  Qed.
  Lemma dl_cols ps e : bounded n ps -> (1 <= e)%nat -> dl n e (evals ps).
  Proof.
    intros H L. apply (dl_map n e (fun f x => kpeval f x)). intros f Hf. apply dg_poly; [|exact L]. now apply (proj1 (Forall_forall _ _) H).
  Qed.
  Lemma dg_col_next g ps i e : bounded n ps -> (1 <= e)%nat -> dg n e (fun x => nth i (evals ps (g * x)%K) k0).
  Proof.
    intros H L. assert (B : bounded n (map (stretch g) ps)).
    { apply Forall_forall. intros f Hf. apply in_map_iff in Hf. destruct Hf as (f' & <- & Hf). rewrite length_stretch. now apply (proj1 (Forall_forall _ _) H). }
    eapply dg_ext; [exact (dg_col _ i e B L)|]. intros x. cbn beta. f_equal. unfold evals. rewrite map_map. apply map_ext. intros f. apply kpeval_stretch.
  Qed.
  Lemma dl_firstn e F m : dl n e F -> dl n e (fun x => firstn m (F x)).
  Proof.
    intros (fs & H & E). exists (firstn m fs). split; [|intros x; rewrite E; apply firstn_map].
    apply Forall_forall. intros f Hf. apply (proj1 (Forall_forall _ _) H). rewrite <- (firstn_skipn m fs). apply in_or_app. now left.
  Qed.
  Lemma dl_skipn e F m : dl n e F -> dl n e (fun x => skipn m (F x)).
  Proof.
    intros (fs & H & E). exists (skipn m fs). split; [|intros x; rewrite E; apply skipn_map].
    apply Forall_forall. intros f Hf. apply (proj1 (Forall_forall _ _) H). rewrite <- (firstn_skipn m fs). apply in_or_app. now right.
  Qed.
  Lemma dg_x e : (1 <= n)%nat -> (1 <= e)%nat -> dg n e (fun x => x).
  Proof. intros H L. eapply dg_ext; [apply (dg_poly [k0; k1]); [cbn; lia|exact L]|]. intros x. unfold kpeval. cbn [peval]. ring. Qed.
  Lemma dg_power j e : (j <= n)%nat -> (1 <= e)%nat -> dg n e (fun x => (x ^ N.of_nat j)%K).
  Proof.
    intros H L. apply (dg_le n 1); [|exact L]. unfold dg. eapply kdeg_le; [eapply kdeg_ext; [exact (kdeg_pow j 1 _ (kdeg_const 0 k1))|]|lia].
    intros x. cbn beta. ring.
  Qed.
  Lemma dg_powers_sum F y q : (forall x, length (F x) = q) -> dl n 1 F -> dg n 1 y -> (1 <= q)%nat -> dg n q (fun x => powers_sum (F x) (y x)).
  Proof.
    intros HL (fs & H & E) Hy Hq. eapply dg_ext; [|intros x; rewrite E; reflexivity].
    assert (Lf : length fs = q) by (rewrite <- (HL k0), E, map_length; reflexivity). clear F E HL. revert q Lf Hq.
    induction H as [|f fs Hf H IH]; intros q Lf Hq; cbn [length] in Lf; [lia|]. cbn [map powers_sum].
    destruct fs as [|f' fs].
    - cbn [map powers_sum]. apply dg_add; [apply (dg_le n 1); [exact Hf|lia]|]. eapply dg_ext; [apply (dg_const n _ k0)|]. intros x. cbn beta. ring.
    - apply dg_add; [apply (dg_le n 1); [exact Hf|lia]|]. apply (dg_mul n 1 (q - 1)); [exact Hy| |lia]. apply IH; cbn [length] in *; lia.
  Qed.
End Calculus.

(** ** The check as an identity of polynomials *)
Definition opens_at (g : K) (cs sigmas ws zs pps qs : list (list K)) (x : K) : opensK :=
  mkOpensK (evals cs x) (evals sigmas x) (evals ws x) (evals zs x) (evals zs (g * x)%K) (evals pps x) (evals qs x).
Section Identity.
  Context (cd : CommonCircuitData) (gates : list Gate) (kis : list GF) (h : list GF) (betas gammas : list GF) (g : K).
  Context (cs sigmas ws zs pps : list (list K)) (E : nat).
  Notation n := (2 ^ cd_DegreeBits cd)%nat.
  Notation nc := (NumChallenges (cd_Config cd)).
  Notation npp := (NumPartialProducts cd).
  Notation q := (QuotientDegreeFactor cd).
  Notation info := (cd_SelectorsInfo cd).
  Notation num := (NumGateConstraints cd).
  Definition chal (alphas : list GF) (x : K) : chalK := mkChalK betas gammas alphas x.
  Definition L0 (x : K) : K := (kinv (order cd) * ksum (map (fun i => x ^ N.of_nat i) (seq 0 n)))%K.
  Definition opn (x : K) : opensK := opens_at g cs sigmas ws zs pps [] x.
  Definition gcons (x : K) : list K := map (total (evals cs x) info (gate_outs (evals cs) (evals ws) h info gates x) 0) (seq 0 num).
  Definition tms (x : K) : list K :=
    map (fun i => L0 x * (nth i (evals zs x) k0 - k1))%K (seq 0 nc) ++ concat (map (v_pps cd kis (chal [] x) (opn x)) (seq 0 nc)) ++ gcons x.

  Lemma n1 : (1 <= n)%nat. Proof. pose proof (Nat.pow_nonzero 2 (cd_DegreeBits cd) ltac:(lia)). lia. Qed.
  Section Bound.
  (** every polynomial has degree at most m0 *)
  Context (m0 : nat) (Hm : (n - 1 <= m0)%nat) (Hm1 : (1 <= m0)%nat).
  Context (Bcs : bounded m0 cs) (Bsig : bounded m0 sigmas) (Bws : bounded m0 ws) (Bzs : bounded m0 zs) (Bpps : bounded m0 pps).
  Context (nw ncs : nat) (Hfits : Forall (fits ncs nw) gates) (Hq1 : (1 <= q)%nat) (HEq : (q + 1 <= E)%nat).
  Context (HEg : forall i, (i < length gates)%nat -> (gate_degree (nth i gates NoopGate) + filter_degree info i <= E)%nat).
  Lemma dg_L0 : dg m0 1 L0.
  Proof.
    unfold L0. apply dg_scale. apply (dg_ksum m0 (fun i x => (x ^ N.of_nat i)%K)). intros i Hi. apply in_seq in Hi. apply dg_power; lia.
  Qed.
  Lemma dg_num i j : dg m0 1 (fun x => v_num kis (chal [] x) (opn x) i j).
  Proof.
    unfold v_num, v_beta, v_gamma, chal, opn, opens_at. cbn [c_betas c_gammas c_zeta o_ws].
    apply dg_add.
    - apply dg_scale. apply (dg_mul m0 1 0); [apply dg_x; [exact Hm1|lia]|apply dg_const|lia].
    - apply dg_add; [now apply dg_col|apply dg_const].
  Qed.
  Lemma dg_den i j : dg m0 1 (fun x => v_den (chal [] x) (opn x) i j).
  Proof.
    unfold v_den, v_beta, v_gamma, chal, opn, opens_at. cbn [c_betas c_gammas o_ws o_sigmas].
    apply dg_add; [now apply dg_scale, dg_col|]. apply dg_add; [now apply dg_col|apply dg_const].
  Qed.
  Lemma dg_chunk (f : nat -> K -> K) m i : (forall j, dg m0 1 (f j)) -> dg m0 q (fun x => chunk_prod (map (fun j => f j x) (seq 0 m)) q i).
  Proof.
    intros H. unfold chunk_prod.
    apply (dg_kprod m0 (fun (j : nat) x => nth (i * q + j) (map (fun j => f j x) (seq 0 m)) k0)); [|rewrite seq_length; lia].
    intros j _. apply (dl_nth m0 1 (fun x => map (fun j => f j x) (seq 0 m))). now apply dl_map.
  Qed.
  Lemma dl_accs ch : dl m0 1 (fun x => accs_k npp (opn x) ch).
  Proof.
    unfold accs_k, seg, opn, opens_at. cbn [o_zs o_zsn o_pps]. apply dl_cons; [now apply dg_col|]. apply dl_app.
    - apply dl_skipn, dl_firstn. now apply dl_cols.
    - apply dl_cons; [now apply dg_col_next|apply dl_nil].
  Qed.
  Lemma dl_tms_m : dl m0 E tms.
  Proof.
    unfold tms. apply dl_app; [|apply dl_app].
    - apply (dl_map m0 E (fun i x => (L0 x * (nth i (evals zs x) k0 - k1))%K)). intros i _.
      apply (dg_mul m0 1 1); [exact dg_L0| |lia]. apply dg_sub; [now apply dg_col|apply dg_const].
    - apply (dl_concat m0 E (fun i x => v_pps cd kis (chal [] x) (opn x) i)). intros i _. unfold v_pps.
      apply (dl_map m0 E (fun m x => pp_k npp q (map (v_num kis (chal [] x) (opn x) i) (seq 0 (NumRoutedWires (cd_Config cd))))
        (map (v_den (chal [] x) (opn x) i) (seq 0 (NumRoutedWires (cd_Config cd)))) (opn x) i m)). intros m _. unfold pp_k.
      apply dg_sub.
      + apply (dg_mul m0 1 q); [apply (dl_nth m0 1 (fun x => accs_k npp (opn x) i)), dl_accs| |lia].
        apply (dg_chunk (fun j x => v_num kis (chal [] x) (opn x) i j)). intros j. apply dg_num.
      + apply (dg_mul m0 1 q); [apply (dl_nth m0 1 (fun x => accs_k npp (opn x) i)), dl_accs| |lia].
        apply (dg_chunk (fun j x => v_den (chal [] x) (opn x) i j)). intros j. apply dg_den.
    - unfold gcons. apply (dl_map m0 E (fun j x => total (evals cs x) info (gate_outs (evals cs) (evals ws) h info gates x) 0 j)). intros j _.
      apply (dg_total m0 (evals cs) (evals ws) h info) with (nc := ncs) (nw := nw); [| |exact HEg|exact Hfits]; intros i; now apply dg_col.
  Qed.
  End Bound.

  Context (Bcs : bounded n cs) (Bsig : bounded n sigmas) (Bws : bounded n ws) (Bzs : bounded n zs) (Bpps : bounded n pps).
  Context (nw ncs : nat) (Hfits : Forall (fits ncs nw) gates) (Hq1 : (1 <= q)%nat) (HEq : (q + 1 <= E)%nat).
  Context (HEg : forall i, (i < length gates)%nat -> (gate_degree (nth i gates NoopGate) + filter_degree info i <= E)%nat).

  Lemma dl_tms : dl n E tms.
  Proof. pose proof n1. apply (dl_tms_m n ltac:(lia) ltac:(lia) Bcs Bsig Bws Bzs Bpps nw ncs Hfits Hq1 HEq HEg). Qed.

  (** one alpha, one quotient, enough zetas *)
  Definition quot (qs : list (list K)) (i : nat) (x : K) : K := powers_sum (seg (evals qs x) (i * q) (i * q + q)) (x ^ N.of_nat n)%K.
  Lemma identity (a : K) qs i zetas : bounded n qs -> (i * q + q <= length qs)%nat -> NoDup zetas -> (E * n < length zetas)%nat ->
    (forall z, In z zetas -> powers_sum (tms z) a = ((z ^ N.of_nat n - k1) * quot qs i z)%K) ->
    forall x, powers_sum (tms x) a = ((x ^ N.of_nat n - k1) * quot qs i x)%K.
  Proof.
    intros Bq Lq ND Lz H x.
    assert (D : dg n E (fun x => powers_sum (tms x) a - (x ^ N.of_nat n - k1) * quot qs i x)%K).
    { apply dg_sub; [apply dl_powers_sum, dl_tms|]. apply (dg_mul n 1 q); [apply dg_sub; [apply dg_power; lia|apply dg_const]| |lia].
      unfold quot. apply (dg_powers_sum n (fun x => seg (evals qs x) (i * q) (i * q + q)) (fun x => (x ^ N.of_nat n)%K)).
      - intros y. rewrite seg_length; [lia|]. now rewrite length_evals.
      - unfold seg. apply dl_skipn, dl_firstn. now apply dl_cols.
      - apply dg_power; lia.
      - exact Hq1. }
    destruct D as (f & Lf & Ef). apply (proj1 (ksub_eq0 _ _)).
    change (forall x, (powers_sum (tms x) a - (x ^ N.of_nat n - k1) * quot qs i x)%K = kpeval f x) in Ef. rewrite Ef.
    apply (kfew_roots zetas f ND); [lia|]. intros z Hz. rewrite <- Ef. apply (proj2 (ksub_eq0 _ _)). now apply H.
  Qed.
  (** enough alphas: all terms vanish where x^n = 1 *)
  Lemma terms_vanish (As : list K) i : NoDup As -> (nc + nc * (npp + 1) + num <= length As)%nat ->
    (forall a, In a As -> exists qs zetas, bounded n qs /\ (i * q + q <= length qs)%nat /\ NoDup zetas /\ (E * n < length zetas)%nat /\
      forall z, In z zetas -> powers_sum (tms z) a = ((z ^ N.of_nat n - k1) * quot qs i z)%K) ->
    forall x, (x ^ N.of_nat n)%K = k1 -> forall t, In t (tms x) -> t = k0.
  Proof.
    intros ND LA H x Hx t Ht. apply (In_nth _ _ k0) in Ht. destruct Ht as (j & _ & <-). revert j. apply (zero_coeffs (tms x) As ND).
    - unfold tms, gcons. rewrite !app_length, !map_length, !seq_length. unfold v_pps.
      rewrite (length_concat_seq _ (npp + 1)) by (intros; now rewrite map_length, seq_length). lia.
    - intros a Ha. destruct (H a Ha) as (qs & zetas & B & L & NZ & LZ & V).
      transitivity (powers_sum (tms x) a); [unfold kpeval; generalize (tms x); induction l as [|t l IH]; cbn [peval powers_sum]; [reflexivity|now rewrite IH]|].
      rewrite (identity a qs i zetas B L NZ LZ V x), Hx. ring.
  Qed.
End Identity.
