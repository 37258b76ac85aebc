(** * Property C61: soundness of the Plonk check for committed polynomials. *)
From Coq Require Import String.
From Coq Require Import ZArith NArith Lia List Bool Ring.
From Verif Require Import Zp GF Circuit Goldilocks GLProofs ExtProofs PoseidonGLProofs Types Challenger Fri FriMerkle FriEval FriQuery Poly Roots Interp FriSound
  Gates GateProofs GateCoset GateFilter GateAll GateDegree Plonk PlonkProofs Prop_Gates Prop_Plonk PlonkSound PlonkRows PlonkCopy.
Import ListNotations.
Open Scope Z_scope.

(** ** C61
    The prover has committed to polynomials with at most 2^DegreeBits + 1 coefficients over the
    extension K (which contains the base field): constants [cs], [sigmas], wires [ws], then, knowing
    betas and gammas, [zs] and [pps], then, knowing alphas, quotient chunks [qs]; it opens them at
    zeta, the [zs] also at g zeta, g the generator of the subgroup of 2^DegreeBits points.
    [holds_for alphas]: there are quotient chunks for which PlonkVerify accepts at more than
    E * 2^DegreeBits points zeta. *)
Definition opened (cd : CommonCircuitData) (cs sigmas ws zs pps qs : list (list K)) (z : K) : opensK :=
  let at_ x := map (fun f => kpeval f x) in
  mkOpensK (at_ z cs) (at_ z sigmas) (at_ z ws) (at_ z zs) (at_ (emb (root (cd_DegreeBits cd)) * z)%K zs) (at_ z pps) (at_ z qs).
Definition small (cd : CommonCircuitData) (ps : list (list K)) : Prop := Forall (fun f => (length f <= 2 ^ cd_DegreeBits cd + 1)%nat) ps.
Definition holds_for (cd : CommonCircuitData) (gates : list Gate) (kis h betas gammas : list GF) (cs sigmas ws zs pps : list (list K)) (E : nat) (alphas : list GF) : Prop :=
  exists qs zetas,
    plonk_shape cd gates kis (mkChalK betas gammas alphas k0) (opened cd cs sigmas ws zs pps qs k0) h /\
    small cd qs /\ NoDup zetas /\ (E * 2 ^ cd_DegreeBits cd < length zetas)%nat /\
    forall z, In z zetas -> exists fc, sat (PlonkVerify cd gates (repC (mkChalK betas gammas alphas z) fc) (repO (opened cd cs sigmas ws zs pps qs z)) (map rep h)).
(** E bounds the degrees: of the partial product checks and of all filtered gates *)
Definition degree_bound (cd : CommonCircuitData) (gates : list Gate) (E : nat) : Prop :=
  let info := cd_SelectorsInfo cd in
  (QuotientDegreeFactor cd + 1 <= E)%nat /\
  forall j, (j < length gates)%nat -> (fst (group_of info j) <= j < snd (group_of info j))%nat /\
    (gate_degree (nth j gates NoopGate) + (snd (group_of info j) - fst (group_of info j) - 1) + (if Nat.ltb 1 (length (groups info)) then 1 else 0) <= E)%nat.
(** enough alphas: as many as there are terms, pairwise different in component i *)
Definition many_alphas (cd : CommonCircuitData) (i : nat) (As : list (list GF)) : Prop :=
  let nc := NumChallenges (cd_Config cd) in
  (i < nc)%nat /\ NoDup (map (fun a => nth i a g0) As) /\ (nc + nc * (NumPartialProducts cd + 1) + NumGateConstraints cd <= length As)%nat.
(** the point of row k: g^k *)
Definition row_point (cd : CommonCircuitData) (k : nat) : K := emb (root (cd_DegreeBits cd) ^ N.of_nat k)%GF.
Definition at_row (cd : CommonCircuitData) (ps : list (list K)) (k : nat) : list K := map (fun f => kpeval f (row_point cd k)) ps.

Lemma bound_filter cd gates E : degree_bound cd gates E ->
  forall j, (j < length gates)%nat -> (gate_degree (nth j gates NoopGate) + filter_degree (cd_SelectorsInfo cd) j <= E)%nat.
Proof.
  intros [_ H] j Hj. destruct (H j Hj) as [G1 G2]. unfold filter_degree. change (group (cd_SelectorsInfo cd) j) with (group_of (cd_SelectorsInfo cd) j).
  rewrite others_length by exact G1. change (ns (cd_SelectorsInfo cd)) with (length (groups (cd_SelectorsInfo cd))). lia.
Qed.

(** the filtered sums of all gate constraints are zero in every row *)
Theorem C61_rows : forall cd gates kis h betas gammas cs sigmas ws zs pps E i As,
  small cd cs -> small cd sigmas -> small cd ws -> small cd zs -> small cd pps ->
  degree_bound cd gates E -> many_alphas cd i As -> (cd_DegreeBits cd <= 32)%nat ->
  (forall alphas, In alphas As -> holds_for cd gates kis h betas gammas cs sigmas ws zs pps E alphas) ->
  forall k, computes (EvaluateGateConstraints gates (NumGateConstraints cd) (cd_SelectorsInfo cd) (mkvars (at_row cd cs k) (at_row cd ws k) h))
                     (repeat (0, 0) (NumGateConstraints cd)).
Proof.
  intros cd gates kis h betas gammas cs sigmas ws zs pps E i As B1 B2 B3 B4 B5 HE (Hi & ND & LA) Hd H k.
  exact (row_gates cd gates kis h betas gammas cs sigmas ws zs pps E i B1 B2 B3 B4 B5 (proj1 HE) (bound_filter _ _ _ HE) As Hi ND LA H (row_point cd k)
    (row_order (cd_DegreeBits cd) k Hd)).
Qed.
Print Assumptions C61_rows.

(** the selectors of a row name gate j: its group has the number j, every other group the value unused *)
Definition selects (info : SelectorsInfo) (n : nat) (consts : list K) (j : nat) : Prop :=
  (j < n)%nat /\ (fst (group_of info j) <= j < snd (group_of info j))%nat /\ Z.of_nat (snd (group_of info j)) < 2 ^ 32 /\
  forall i, (i < n)%nat -> nth (selector_of info i) consts k0 = kz (if Nat.eqb (selector_of info i) (selector_of info j) then Z.of_nat j else 2 ^ 32 - 1).
Lemma ksum_single (f : nat -> K) n j : (j < n)%nat -> (forall i, (i < n)%nat -> i <> j -> f i = k0) -> ksum (map f (seq 0 n)) = f j.
Proof.
  intros Hj H. assert (G : forall m s, (forall i, (s <= i < s + m)%nat -> i <> j -> f i = k0) ->
    ksum (map f (seq s m)) = if (Nat.leb s j && Nat.ltb j (s + m))%bool then f j else k0).
  { induction m as [|m IH]; intros s Hs; cbn [seq map].
    - destruct (Nat.leb_spec s j), (Nat.ltb_spec j (s + 0)); try reflexivity; lia.
    - change (ksum (f s :: map f (seq (S s) m))) with (f s + ksum (map f (seq (S s) m)))%K. rewrite IH by (intros i Hi; apply Hs; lia).
      destruct (Nat.eq_dec s j) as [->|Ne].
      + rewrite (proj2 (Nat.leb_gt (S j) j)), Nat.leb_refl, (proj2 (Nat.ltb_lt j (j + S m))) by lia. cbn [andb]. ring.
      + rewrite (Hs s) by lia. replace (s + S m)%nat with (S s + m)%nat by lia.
        destruct (Nat.leb_spec (S s) j), (Nat.leb_spec s j); cbn [andb]; try lia; [|ring]. destruct (Nat.ltb j (S s + m)); ring. }
  rewrite (G n 0%nat) by (intros i Hi; apply H; lia). cbn [Nat.leb andb Nat.add]. now rewrite (proj2 (Nat.ltb_lt j n) Hj).
Qed.
Lemma computes_functional {A} (c : circ A) a b : computes c a -> computes c b -> a = b.
Proof. intros [H _] [H' _]. specialize (H I). specialize (H' I). congruence. Qed.
Lemma selection gates num info consts wires h j : let n := length (groups info) in
  layout info (length gates) -> (n <= length consts)%nat -> length h = 4%nat ->
  Forall (fits (length consts - n) (length wires)) gates -> Forall (fun g => (num_constraints g <= num)%nat) gates ->
  selects info (length gates) consts j ->
  computes (EvaluateGateConstraints gates num info (mkvars consts wires h)) (repeat (0, 0) num) ->
  computes (EvalUnfiltered (nth j gates NoopGate) (mkvars (skipn n consts) wires h)) (repeat (0, 0) (num_constraints (nth j gates NoopGate))).
Proof.
  intros n HL Hn Hh HF HN (Hj & Gj & Hs & Sel) C.
  destruct (C42_sum gates num info consts wires h HL Hn Hh HF HN) as (outs & fs & res & Ho & Lf & Hf & Hr & Lr & Er).
  pose proof (computes_functional _ _ _ C Hr) as Z0.
  assert (Zr : forall t, nth t res k0 = k0).
  { intros t. apply repK_inj. destruct (Nat.lt_ge_cases t num) as [Ht|Ht]; [|now rewrite nth_overflow by lia].
    rewrite <- (map_nth repK), <- Z0. change (repK k0) with ZeroExtension. clear. revert t. induction num as [|m IH]; intros [|t]; cbn [repeat nth]; try reflexivity. apply IH. }
  assert (Fo : forall i, (i < length gates)%nat -> i <> j -> nth i fs k0 = k0).
  { intros i Hi Nij. destruct (proj2 HL i Hi) as [S1 S2]. destruct (group_of info i) as [a b] eqn:Eg. cbn [snd] in S2.
    destruct (C41_filter_zero i a b (nth (selector_of info i) consts k0) (Nat.ltb 1 n) S2) as (f & Hc & Ef).
    specialize (Hf i Hi). rewrite Eg in Hf. apply repK_inj. rewrite <- (computes_functional _ _ _ Hc Hf). f_equal. apply Ef.
    rewrite (Sel i Hi). destruct (Nat.eqb_spec (selector_of info i) (selector_of info j)) as [Es|Es].
    - left. exists j. assert (Eg' : group_of info j = (a, b)) by (unfold group_of in *; now rewrite <- Es).
      rewrite Eg' in Gj. cbn [fst snd] in Gj. split; [exact Gj|]. split; [intros E; apply Nij; now symmetry|reflexivity].
    - right. split; [|reflexivity]. apply Nat.ltb_lt. destruct (proj2 HL j Hj) as [T1 _]. unfold n. lia. }
  assert (Fj : nth j fs k0 <> k0).
  { destruct (group_of info j) as [a b] eqn:Eg. cbn [fst snd] in Gj, Hs.
    destruct (C41_filter_zero j a b (nth (selector_of info j) consts k0) (Nat.ltb 1 n) ltac:(unfold p; lia)) as (f & Hc & Ef).
    specialize (Hf j Hj). rewrite Eg in Hf. pose proof (computes_functional _ _ _ Hc Hf) as R. apply repK_inj in R. rewrite <- R. intros E0. apply Ef in E0.
    rewrite (Sel j Hj), Nat.eqb_refl in E0. destruct E0 as [(i & Hi & Ni & Ei)|(_ & Ei)]; apply kz_inj in Ei; unfold p in *; lia. }
  assert (Go : computes (EvalUnfiltered (nth j gates NoopGate) (mkvars (skipn n consts) wires h)) (map repK (nth j outs []))).
  { clear - Ho Hj. revert j Hj. induction Ho as [|g o gs os Hg Ho IH]; intros j Hj; cbn [length] in Hj; [lia|]. destruct j as [|j]; cbn [nth]; [exact Hg|]. apply IH. lia. }
  eapply computes_eq; [exact Go|].
  assert (Fg : fits (length (skipn n consts)) (length wires) (nth j gates NoopGate)).
  { rewrite skipn_length. apply (proj1 (Forall_forall _ _) HF). now apply nth_In. }
  pose proof (computes_functional _ _ _ Go (gate_computes _ _ _ _ Fg Hh)) as Q. assert (Qi : forall a b : list K, map repK a = map repK b -> a = b).
  { induction a as [|x a IH]; intros [|y b] E; cbn [map] in E; try discriminate; [reflexivity|]. inversion E as [[E1 E2 E3]].
    f_equal; [|now apply IH]. apply repK_inj. unfold repK. now rewrite E1, E2. }
  apply Qi in Q. assert (Lo : length (nth j outs []) = num_constraints (nth j gates NoopGate)) by (rewrite Q; now apply (gate_length _ _ _ _ _ Fg)).
  assert (Ln : (num_constraints (nth j gates NoopGate) <= num)%nat) by (apply (proj1 (Forall_forall _ _) HN); now apply nth_In).
  assert (Zo : forall t, (t < length (nth j outs []))%nat -> nth t (nth j outs []) k0 = k0).
  { intros t Ht. specialize (Er t ltac:(lia)). rewrite Zr, (ksum_single _ _ j Hj) in Er.
    - symmetry in Er. apply kmul_eq0 in Er. destruct Er as [E|E]; [now destruct Fj|exact E].
    - intros i Hi Ni. rewrite (Fo i Hi Ni). ring. }
  rewrite <- Lo. revert Zo. generalize (nth j outs []). clear. induction l as [|x l IH]; intros Zo; [reflexivity|]. cbn [map length repeat]. f_equal.
  - specialize (Zo O ltac:(cbn; lia)). cbn [nth] in Zo. rewrite Zo. reflexivity.
  - apply IH. intros t Ht. apply (Zo (S t)). cbn. lia.
Qed.
(** so every row satisfies the constraints of the gate that its selectors name *)
Theorem C61_gates : forall cd gates kis h betas gammas cs sigmas ws zs pps E i As,
  small cd cs -> small cd sigmas -> small cd ws -> small cd zs -> small cd pps ->
  degree_bound cd gates E -> many_alphas cd i As -> (cd_DegreeBits cd <= 32)%nat ->
  (forall alphas, In alphas As -> holds_for cd gates kis h betas gammas cs sigmas ws zs pps E alphas) ->
  forall k j, selects (cd_SelectorsInfo cd) (length gates) (at_row cd cs k) j ->
    computes (EvalUnfiltered (nth j gates NoopGate) (mkvars (skipn (length (groups (cd_SelectorsInfo cd))) (at_row cd cs k)) (at_row cd ws k) h))
             (repeat (0, 0) (num_constraints (nth j gates NoopGate))).
Proof.
  intros cd gates kis h betas gammas cs sigmas ws zs pps E i As B1 B2 B3 B4 B5 HE HA Hd H k j Hj.
  pose proof (C61_rows cd gates kis h betas gammas cs sigmas ws zs pps E i As B1 B2 B3 B4 B5 HE HA Hd H k) as R.
  destruct HA as (Hi & _ & LA). destruct As as [|a As]; [cbn in LA; lia|]. destruct (H a (in_eq _ _)) as (qs & zetas & S & _).
  destruct S as (_ & _ & (G1 & G2 & G3 & G4 & G5)). unfold opened in G2, G4. cbn [o_cs o_ws] in G2, G4. rewrite !map_length in G4. rewrite map_length in G2.
  apply (selection gates (NumGateConstraints cd) (cd_SelectorsInfo cd) (at_row cd cs k) (at_row cd ws k) h j); try assumption; unfold at_row; rewrite ?map_length; assumption.
Qed.
Print Assumptions C61_gates.

(** the values of all the wires taking part in the permutation: row k, column j *)
Definition cells (cd : CommonCircuitData) : list (nat * nat) := list_prod (seq 0 (2 ^ cd_DegreeBits cd)) (seq 0 ((NumPartialProducts cd + 1) * QuotientDegreeFactor cd)).
Definition cell_value (cd : CommonCircuitData) (ws : list (list K)) (c : nat * nat) : K := kpeval (nth (snd c) ws []) (row_point cd (fst c)).
Definition cell_label (cd : CommonCircuitData) (kis : list GF) (c : nat * nat) : K := (emb (nth (snd c) kis g0) * row_point cd (fst c))%K.
Lemma kprod_cells {A B} (f : A * B -> K) (l : list A) (m : list B) : kprod (map f (list_prod l m)) = kprod (map (fun a => kprod (map (fun b => f (a, b)) m)) l).
Proof.
  induction l as [|a l IH]; [reflexivity|]. cbn [list_prod map]. rewrite map_app, kprod_app, IH, map_map.
  change (kprod (kprod (map (fun b => f (a, b)) m) :: map (fun a => kprod (map (fun b => f (a, b)) m)) l))
    with (kprod (map (fun b => f (a, b)) m) * kprod (map (fun a => kprod (map (fun b => f (a, b)) m)) l))%K. reflexivity.
Qed.
Lemma cells_NoDup cd : NoDup (cells cd).
Proof.
  unfold cells. generalize (seq_NoDup ((NumPartialProducts cd + 1) * QuotientDegreeFactor cd) 0), (seq_NoDup (2 ^ cd_DegreeBits cd) 0).
  generalize (seq 0 ((NumPartialProducts cd + 1) * QuotientDegreeFactor cd)) as m. generalize (seq 0 (2 ^ cd_DegreeBits cd)) as l. intros l m Hm Hl.
  induction Hl as [|a l Ha Hl IH]; cbn [list_prod]; [constructor|].
  assert (D : forall u v : list (nat * nat), NoDup u -> NoDup v -> (forall x, In x u -> ~ In x v) -> NoDup (u ++ v)).
  { induction u as [|x u IHu]; intros v Nu Nv Dj; cbn [app]; [exact Nv|]. inversion Nu; subst. constructor.
    - rewrite in_app_iff. intros [I|I]; [contradiction|]. now apply (Dj x (in_eq _ _)).
    - apply IHu; try assumption. intros y Hy. apply Dj. now right. }
  apply D; [|exact IH|].
  - apply NoDup_map_in; [|exact Hm]. intros x y _ _ E. now inversion E.
  - intros [x y] I J. apply in_map_iff in I. destruct I as (b & E & _). inversion E; subst. apply in_prod_iff in J. tauto.
Qed.

Definition cell_eq_dec (a b : nat * nat) : {a = b} + {a <> b}. Proof. decide equality; apply Nat.eq_dec. Defined.
(** more betas and, for each of them, more gammas than cells.  Every label is then carried by a
    cell with the value of its owner; if the labels are distinct, a cell that carries the label
    of another one has the same value: the copy constraints hold *)
Theorem C61_copy : forall cd gates kis h cs sigmas ws E i ch (Bs : list (list GF)) (Gs : list GF -> list (list GF)),
  small cd cs -> small cd sigmas -> small cd ws ->
  degree_bound cd gates E -> (cd_DegreeBits cd <= 32)%nat -> (ch < NumChallenges (cd_Config cd))%nat ->
  NoDup (map (fun b => nth ch b g0) Bs) -> (length (cells cd) < length Bs)%nat ->
  (forall b, In b Bs -> NoDup (map (fun g => nth ch g g0) (Gs b)) /\ (length (cells cd) < length (Gs b))%nat) ->
  (forall b g, In b Bs -> In g (Gs b) -> exists zs pps As, small cd zs /\ small cd pps /\ many_alphas cd i As /\
     forall alphas, In alphas As -> holds_for cd gates kis h b g cs sigmas ws zs pps E alphas) ->
  (forall s, In s (cells cd) -> exists t, In t (cells cd) /\ cell_value cd sigmas t = cell_label cd kis s /\ cell_value cd ws t = cell_value cd ws s) /\
  (NoDup (map (cell_label cd kis) (cells cd)) ->
   forall s t, In s (cells cd) -> In t (cells cd) -> cell_value cd sigmas t = cell_label cd kis s -> cell_value cd ws t = cell_value cd ws s).
Proof.
  intros cd gates kis h cs sigmas ws E i ch Bs Gs B1 B2 B3 HE Hd Hch NB LB HG HA.
  assert (P : forall s, In s (cells cd) -> exists t, In t (cells cd) /\ cell_value cd sigmas t = cell_label cd kis s /\ cell_value cd ws t = cell_value cd ws s).
  { destruct (finite_choice (@nil (list GF)) (fun kb G => exists b, In b Bs /\ kb = emb (nth ch b g0) /\ G = Gs b) (map (fun b => emb (nth ch b g0)) Bs)) as (GK & HGK).
    { intros a Ha. apply in_map_iff in Ha. destruct Ha as (b & <- & Hb). exists (Gs b), b. now repeat split. }
    apply (copy_sound cell_eq_dec (cells cd) (cell_value cd ws) (cell_label cd kis) (cell_value cd sigmas)
      (map (fun b => emb (nth ch b g0)) Bs) (fun kb => map (fun g => emb (nth ch g g0)) (GK kb))).
    - rewrite <- (map_map (fun b => nth ch b g0) emb). apply NoDup_map_in; [|exact NB]. intros a b _ _. apply emb_inj.
    - now rewrite map_length.
    - intros kb Hkb. destruct (HGK kb Hkb) as (b & Hb & _ & ->). destruct (HG b Hb) as [N1 N2]. split; [|now rewrite map_length].
      rewrite <- (map_map (fun b => nth ch b g0) emb). apply NoDup_map_in; [|exact N1]. intros a a' _ _. apply emb_inj.
    - intros kb kg Hkb Hkg. destruct (HGK kb Hkb) as (b & Hb & -> & EG). rewrite EG in Hkg. apply in_map_iff in Hkg. destruct Hkg as (g & <- & Hg).
      destruct (HA b g Hb Hg) as (zs & pps & As & B4 & B5 & (Hi & ND & LA) & V).
      pose proof (grand_product cd gates kis h b g cs sigmas ws zs pps E i B1 B2 B3 B4 B5 (proj1 HE) (bound_filter _ _ _ HE) As Hi ND LA V ch Hd Hch) as GP.
      unfold cells. rewrite !kprod_cells. exact GP. }
  split; [exact P|]. intros NL s t Hs Ht Est. apply (copy_constraints (cells cd) (cell_value cd ws) (cell_label cd kis) (cell_value cd sigmas) (cells_NoDup cd) NL P); assumption.
Qed.
Print Assumptions C61_copy.

(** the labels are distinct if the values k_j^n are nonzero and distinct *)
Theorem C61_labels : forall cd kis, (cd_DegreeBits cd <= 32)%nat ->
  (forall j j', (j < (NumPartialProducts cd + 1) * QuotientDegreeFactor cd)%nat -> (j' < (NumPartialProducts cd + 1) * QuotientDegreeFactor cd)%nat ->
     nth j kis g0 <> g0 /\
     ((nth j kis g0 ^ N.of_nat (2 ^ cd_DegreeBits cd))%GF = (nth j' kis g0 ^ N.of_nat (2 ^ cd_DegreeBits cd))%GF -> j = j')) ->
  NoDup (map (cell_label cd kis) (cells cd)).
Proof.
  intros cd kis Hd H. apply NoDup_map_in; [|apply cells_NoDup]. intros [k j] [k' j'] I I' E. apply in_prod_iff in I. apply in_prod_iff in I'.
  destruct I as [Ik Ij], I' as [Ik' Ij']. apply in_seq in Ik, Ij, Ik', Ij'. unfold cell_label, row_point in E. cbn [fst snd] in E.
  rewrite <- !emb_mul in E. apply emb_inj in E. destruct (H j j' ltac:(lia) ltac:(lia)) as [Nz Inj].
  assert (O : forall m, ((root (cd_DegreeBits cd) ^ N.of_nat m) ^ N.of_nat (2 ^ cd_DegreeBits cd))%GF = g1).
  { intros m. rewrite <- gpow_mul, N.mul_comm, gpow_mul, pow2_nat_N, root_order_1, gpow_1_l by exact Hd. reflexivity. }
  assert (Ej : j = j').
  { apply Inj. pose proof (f_equal (fun t => (t ^ N.of_nat (2 ^ cd_DegreeBits cd))%GF) E) as E'. cbn beta in E'. rewrite !gpow_mul_l, !O in E'.
    eapply eq_trans; [|eapply eq_trans; [exact E'|]]; ring. }
  subst j'. f_equal.
  assert (Ek : (root (cd_DegreeBits cd) ^ N.of_nat k)%GF = (root (cd_DegreeBits cd) ^ N.of_nat k')%GF).
  { apply (f_equal (fun t => (ginv (nth j kis g0) * t)%GF)) in E.
    transitivity (ginv (nth j kis g0) * nth j kis g0 * root (cd_DegreeBits cd) ^ N.of_nat k)%GF; [rewrite ginv_l by exact Nz; ring|].
    transitivity (ginv (nth j kis g0) * nth j kis g0 * root (cd_DegreeBits cd) ^ N.of_nat k')%GF; [|rewrite ginv_l by exact Nz; ring].
    eapply eq_trans; [|eapply eq_trans; [exact E|]]; ring. }
  apply root_pow_inj in Ek; [lia|exact Hd| |]; rewrite <- pow2_nat_N; lia.
Qed.
Print Assumptions C61_labels.

(** ** Example: two rows, one ArithmeticGate per row; w0 = w1 = X, w2 = 0, w3 = X^2, the first constant is 1.
    The labels of the first two columns are exchanged, Z = 1, the quotient is 0: all hypotheses are met, for
    every beta, gamma and alpha. *)
Definition cd61 : CommonCircuitData :=
  mkCommonCircuitData (mkCircuitConfig 4 2 2 false 100 1 false 2 (mkFriConfig 1 0 0 1))
    (mkFriParams (mkFriConfig 1 0 0 1) false 1 []) ["ArithmeticGate { num_ops: 1 }"%string] (mkSelectorsInfo [O] [(0, 1)%nat]) 1 2 1 3 0 [1; 7] 0.
Definition kis61 : list GF := [inj 1; inj 7].
Definition h61 : list GF := [g0; g0; g0; g0].
Definition cs61 : list (list K) := [[]; [k1]; []].
Definition ws61 : list (list K) := [[k0; k1]; [k0; k1]; []; [k0; k0; k1]].
Definition sigmas61 : list (list K) := [[k0; kz 7]; [k0; k1]].
Definition small_ints (m : nat) : list GF := map (fun k => inj (Z.of_nat k + 2)) (seq 0 m).
Lemma small_ints_NoDup m : (m <= 20)%nat -> NoDup (small_ints m).
Proof.
  intros Hm. apply NoDup_map_in; [|apply seq_NoDup]. intros x y Hx Hy E. apply in_seq in Hx, Hy.
  apply (f_equal rep) in E. rewrite !rep_inj_small in E by (unfold p; lia). lia.
Qed.
Definition singles (m : nat) : list (list GF) := map (fun a => [a]) (small_ints m).
Lemma singles_NoDup m : (m <= 20)%nat -> NoDup (map (fun a => nth 0 a g0) (singles m)).
Proof. intros Hm. unfold singles. rewrite map_map. cbn [nth]. rewrite map_id. now apply small_ints_NoDup. Qed.
Lemma singles_length m : length (singles m) = m. Proof. unfold singles, small_ints. now rewrite !map_length, seq_length. Qed.
Lemma shape61 b g a z : plonk_shape cd61 [ArithmeticGate 1] kis61 (mkChalK [b] [g] [a] z) (opened cd61 cs61 sigmas61 ws61 [[k1]] [] [[]; []] z) h61.
Proof.
  unfold plonk_shape. split; [|split].
  - split; [vm_compute; reflexivity|cbn; lia].
  - cbn. lia.
  - split; [split; [cbn; lia|]|].
    + intros i Hi. destruct i as [|i]; [|cbn in Hi; lia]. cbn. unfold p. lia.
    + split; [cbn; lia|]. split; [reflexivity|]. split; repeat constructor.
Qed.
Lemma tms61 b g z : tms cd61 [ArithmeticGate 1] kis61 h61 [b] [g] (emb (root 1)) cs61 sigmas61 ws61 [[k1]] [] z = [k0; k0; k0].
Proof.
  unfold tms. generalize (L0 cd61 z). intros l.
  change (NumChallenges (cd_Config cd61)) with 1%nat. cbn [seq map concat app].
  unfold v_pps. change (NumPartialProducts cd61) with 0%nat. change (QuotientDegreeFactor cd61) with 2%nat. change (NumRoutedWires (cd_Config cd61)) with 2%nat.
  cbn [seq map Nat.add app]. unfold pp_k, accs_k, seg, chunk_prod, opn, opens_at, evals. cbn [o_zs o_zsn o_pps map nth app skipn firstn Nat.mul Nat.add seq Nat.max].
  unfold v_num, v_den, v_beta, v_gamma, chal. cbn [c_betas c_gammas c_zeta o_ws o_sigmas nth map kis61 ws61 sigmas61].
  unfold gcons. change (NumGateConstraints cd61) with 1%nat. unfold gate_outs, evals. cbn [map seq total gate_k].
  unfold arith_k, wire, flt, filter_k, kprod, ws61, cs61. change (ns (cd_SelectorsInfo cd61)) with 1%nat. cbn [Nat.ltb Nat.leb].
  cbn [map seq nth skipn Nat.mul Nat.add fold_right]. unfold kpeval. cbn [peval]. fold (kz 1). fold (kz 7).
  replace (kz 1) with k1 by (unfold k1, kz; now rewrite <- g1_inj).
  f_equal; [ring|]. f_equal; [ring|]. f_equal. ring.
Qed.
Lemma holds61 b g a : holds_for cd61 [ArithmeticGate 1] kis61 h61 [b] [g] cs61 sigmas61 ws61 [[k1]] [] 3 [a].
Proof.
  exists [[]; []], (map emb (small_ints 7)). split; [apply shape61|]. split; [repeat constructor; cbn; lia|].
  split; [apply NoDup_map_in; [intros x y _ _; apply emb_inj|apply small_ints_NoDup; lia]|].
  split; [rewrite map_length; unfold small_ints; rewrite map_length, seq_length; cbn; lia|].
  intros z Hz. exists fc_ex. change (opened cd61 cs61 sigmas61 ws61 [[k1]] [] [[]; []] z) with (opens_at (emb (root (cd_DegreeBits cd61))) cs61 sigmas61 ws61 [[k1]] [] [[]; []] z).
  apply (proj2 (verify_equation cd61 [ArithmeticGate 1] kis61 h61 [b] [g] [a] (emb (root (cd_DegreeBits cd61))) cs61 sigmas61 ws61 [[k1]] [] [[]; []] fc_ex z (shape61 b g a z))).
  split.
  - intros ->. apply in_map_iff in Hz. destruct Hz as (x & E & Hx). apply in_map_iff in Hx. destruct Hx as (k & <- & Hk). apply in_seq in Hk.
    replace k1 with (kz 1) in E by (unfold k1, kz; now rewrite <- g1_inj). apply kz_inj in E; unfold p; lia.
  - intros i Hi. change (cd_DegreeBits cd61) with 1%nat. rewrite (tms61 b g z). unfold quot, seg, evals. destruct i as [|i]; [|cbn in Hi; lia].
    change (QuotientDegreeFactor cd61) with 2%nat. cbn [Nat.mul Nat.add firstn skipn map powers_sum]. unfold kpeval. cbn [peval]. ring.
Qed.
Example C61_ex :
  (forall k, computes (EvalUnfiltered (ArithmeticGate 1) (mkvars (skipn 1 (at_row cd61 cs61 k)) (at_row cd61 ws61 k) h61)) [(0, 0)]) /\
  forall s t, In s (cells cd61) -> In t (cells cd61) -> cell_value cd61 sigmas61 t = cell_label cd61 kis61 s -> cell_value cd61 ws61 t = cell_value cd61 ws61 s.
Proof.
  assert (S1 : small cd61 cs61) by (repeat constructor; cbn; lia).
  assert (S2 : small cd61 sigmas61) by (repeat constructor; cbn; lia).
  assert (S3 : small cd61 ws61) by (repeat constructor; cbn; lia).
  assert (S4 : small cd61 [[k1]]) by (repeat constructor; cbn; lia).
  assert (S5 : small cd61 []) by constructor.
  assert (HE : degree_bound cd61 [ArithmeticGate 1] 3).
  { split; [cbn; lia|]. intros [|j] Hj; [|cbn in Hj; lia]. cbn. lia. }
  assert (HA : many_alphas cd61 0 (singles 3)).
  { split; [cbn; lia|]. split; [apply singles_NoDup; lia|]. rewrite singles_length. cbn. lia. }
  assert (HH : forall b g alphas, In b (singles 5) -> In g (singles 5) -> In alphas (singles 3) ->
     holds_for cd61 [ArithmeticGate 1] kis61 h61 b g cs61 sigmas61 ws61 [[k1]] [] 3 alphas).
  { intros b g al Hb Hg Ha. apply in_map_iff in Hb, Hg, Ha. destruct Hb as (b' & <- & _), Hg as (g' & <- & _), Ha as (a' & <- & _). apply holds61. }
  split.
  - intros k. apply (C61_gates cd61 [ArithmeticGate 1] kis61 h61 [inj 5] [inj 6] cs61 sigmas61 ws61 [[k1]] [] 3 0 (singles 3) S1 S2 S3 S4 S5 HE HA ltac:(cbn; lia)) with (j := O).
    + intros al Ha. apply in_map_iff in Ha. destruct Ha as (a' & <- & _). apply holds61.
    + split; [cbn; lia|]. split; [cbn; lia|]. split; [cbn; lia|]. intros i Hi. destruct i as [|i]; [|cbn in Hi; lia]. cbn. unfold kz. now rewrite <- g0_inj.
  - apply (C61_copy cd61 [ArithmeticGate 1] kis61 h61 cs61 sigmas61 ws61 3 0 0 (singles 5) (fun _ => singles 5));
      try assumption; try (intros; assumption); try (cbn; lia).
    + apply singles_NoDup. lia.
    + intros b Hb. split; [apply singles_NoDup; lia|]. rewrite singles_length. cbn. lia.
    + intros b g Hb Hg. exists [[k1]], [], (singles 3). split; [exact S4|]. split; [exact S5|]. split; [exact HA|]. intros al Ha. now apply HH.
    + apply C61_labels; [cbn; lia|]. intros j j' Hj Hj'. cbn in Hj, Hj'. split.
      * destruct j as [|[|j]]; [| |lia]; intros E; apply (f_equal rep) in E; vm_compute in E; discriminate E.
      * destruct j as [|[|j]], j' as [|[|j']]; try lia; intros E; apply (f_equal rep) in E; vm_compute in E; discriminate E.
Qed.
