(** * The challenger as a duplex sponge: phases (absorb, then squeeze), and the history of
      an arbitrary sequence of operations. *)
From Coq Require Import String.
From Coq Require Import ZArith Lia List Bool.
From Verif Require Import Zp GF Circuit PoseidonSpec Sponge DenP ChallengerProofs.
Import ListNotations.
Open Scope Z_scope.

(** ** Specification *)
(** [k+1] blocks of output: each block is the rate part of the state, last lane first *)
Fixpoint squeezeR (P : permr) (k : nat) (s : list GF) (bl : list GF) (s' : list GF) : Prop :=
  match k with
  | O => bl = rev (firstn 8 s) /\ s' = s
  | S k' => exists s1 bl', P s s1 /\ squeezeR P k' s1 bl' s' /\ bl = rev (firstn 8 s) ++ bl'
  end.
(** a phase absorbs the elements [xs], all of them, and then outputs [m] challenges *)
Definition phase (P : permr) (xs : list Z) (m : nat) (s : list GF) (ys : list GF) (s' : list GF) : Prop :=
  exists st bl, absorb_rel P (map inj xs) s st /\ squeezeR P ((m - 1) / 8) st bl s' /\ ys = firstn m bl.
Fixpoint phases (P : permr) (l : list (list Z * nat)) (s : list GF) (yss : list (list GF)) : Prop :=
  match l with
  | [] => yss = []
  | (xs, m) :: l' => exists ys s' yss', phase P xs m s ys s' /\ phases P l' s' yss' /\ yss = ys :: yss'
  end.
Definition phase_ops (l : list (list Z * nat)) : list op :=
  flat_map (fun ph => observes (fst ph) ++ asks (snd ph)) l.

(** ** Phases of the machine *)
Definition ensure (P : permr) (s u : cst) : Prop :=
  if negb (Nat.eqb (length (cin s)) 0) || Nat.eqb (length (cout s)) 0 then dup P s u else u = s.
Definition fresh (st : list GF) (j : nat) : cst := mkCst st [] (firstn j st).

Lemma dup_fresh P s t : dup P s t <-> exists st, P (overwrite (map inj (cin s)) (cs s)) st /\ t = fresh st 8.
Proof. reflexivity. Qed.

Lemma observes_small P xs : forall s ys t, xs <> [] -> (length (cin s) + length xs < 8)%nat ->
  (mops P (observes xs) s ys t <-> ys = [] /\ t = mkCst (cs s) (cin s ++ xs) []).
Proof.
  induction xs as [|x xs IH]; intros s ys t Hne HL; [congruence|]. cbn [length] in HL.
  assert (O : forall u, obs P x s u <-> u = mkCst (cs s) (cin s ++ [x]) []).
  { intros u. unfold obs. cbn [cin]. rewrite app_length. cbn [length].
    destruct (Nat.eqb_spec (length (cin s) + 1) 8); [lia|reflexivity]. }
  cbn [observes map mops]. fold (observes xs).
  destruct xs as [|x' xs].
  - cbn [observes map mops]. split.
    + intros (u & Hu & -> & ->). apply O in Hu. auto.
    + intros [-> ->]. eexists. split; [now apply O|auto].
  - split.
    + intros (u & Hu & H). apply O in Hu. subst u. apply IH in H; [|discriminate|cbn [cin length]; rewrite app_length; cbn [length] in *; lia].
      destruct H as [-> ->]. cbn [cs cin]. rewrite <- app_assoc. auto.
    + intros [-> ->]. eexists. split; [now apply O|]. apply IH; [discriminate|cbn [cin length]; rewrite app_length; cbn [length] in *; lia|].
      cbn [cs cin]. rewrite <- app_assoc. auto.
Qed.
Lemma observes_full P xs s ys t : xs <> [] -> (length (cin s) + length xs = 8)%nat ->
  (mops P (observes xs) s ys t <-> ys = [] /\ dup P (mkCst (cs s) (cin s ++ xs) []) t).
Proof.
  intros Hne HL. destruct (exists_last Hne) as (l & x & E). subst xs. rewrite app_length in HL. cbn [length] in HL.
  rewrite observes_app, mops_app. cbn [observes map mops].
  assert (A : forall u, cs u = cs s -> cin u = cin s ++ l -> forall v, obs P x u v <-> dup P (mkCst (cs s) (cin s ++ l ++ [x]) []) v).
  { intros u E1 E2 v. unfold obs. cbn [cin]. rewrite E1, E2, !app_length. cbn [length].
    destruct (Nat.eqb_spec (length (cin s) + length l + 1) 8); [|lia]. now rewrite app_assoc. }
  assert (M : forall u y1, mops P (map OObs l) s y1 u -> y1 = [] /\ cs u = cs s /\ cin u = cin s ++ l).
  { intros u y1 H. destruct l as [|a l].
    - destruct H as [-> ->]. rewrite app_nil_r. auto.
    - apply (observes_small P (a :: l)) in H; [|discriminate|lia]. destruct H as [-> ->]. auto. }
  split.
  - intros (u & y1 & y2 & H1 & (v & H2 & -> & ->) & ->). apply M in H1. destruct H1 as (-> & E1 & E2).
    split; [reflexivity|]. eapply A; eauto.
  - intros [-> H].
    assert (X : exists u, mops P (map OObs l) s [] u).
    { destruct l as [|a l]; [exists s; split; auto|]. eexists. apply (observes_small P (a :: l)); [discriminate|lia|auto]. }
    destruct X as (u & Hu). pose proof (M _ _ Hu) as (_ & E1 & E2).
    exists u, [], []. split; [exact Hu|]. split; [|reflexivity]. exists t. split; [|auto]. eapply A; eauto.
Qed.

(** absorbing all of a non-empty list *)
Lemma observes_absorb P : okP P -> forall fuel xs s v, (length xs <= fuel)%nat -> xs <> [] -> cin s = [] ->
  ((exists u, mops P (observes xs) s [] u /\ ensure P u v) <->
   exists st, chainR (fun c s t => P (overwrite c s) t) (chunks_ fuel 8 (map inj xs)) (cs s) st /\ v = fresh st 8).
Proof.
  intros HP. induction fuel as [|fuel IH]; intros xs s v HL Hne Hc.
  { destruct xs; [congruence|cbn in HL; lia]. }
  destruct xs as [|x xs']; [congruence|].
  change (map inj (x :: xs')) with (inj x :: map inj xs'). cbn [chunks_].
  change (inj x :: map inj xs') with (map inj (x :: xs')). rewrite firstn_map, skipn_map.
  remember (x :: xs') as xs eqn:Exs.
  destruct (Nat.lt_ge_cases (length xs) 8) as [L|L].
  - (* one short block, absorbed by ensure *)
    rewrite firstn_all2, skipn_all2 by lia. cbn [map].
    assert (N : forall f, chunks_ f 8 (@nil GF) = []) by now intros [|f]. rewrite N. cbn [chainR].
    split.
    + intros (u & H & E). apply observes_small in H; auto; [|rewrite Hc; cbn; lia]. destruct H as [_ ->].
      unfold ensure in E. cbn [cin] in E. rewrite Hc in E. cbn [app] in E.
      destruct (Nat.eqb_spec (length xs) 0) as [L0|_]; [subst xs; cbn in L0; lia|]. cbn [negb orb] in E.
      apply dup_fresh in E. destruct E as (st & Hst & ->). cbn [cin cs] in Hst. eauto.
    + intros (st & (u & Hu & ->) & ->). eexists. split.
      * apply observes_small; auto; rewrite Hc; cbn; lia.
      * unfold ensure. cbn [cin]. rewrite Hc. cbn [app].
        destruct (Nat.eqb_spec (length xs) 0) as [L0|_]; [subst xs; cbn in L0; lia|]. cbn [negb orb].
        apply dup_fresh. cbn [cin cs]. eauto.
  - set (a := firstn 8 xs). set (b := skipn 8 xs).
    assert (La : length a = 8%nat) by (unfold a; rewrite firstn_length; lia).
    assert (Ea : xs = a ++ b) by (symmetry; apply firstn_skipn).
    assert (Na : a <> []) by (intros E; rewrite E in La; discriminate).
    assert (Lb : (length b <= fuel)%nat) by (unfold b; rewrite skipn_length; lia).
    assert (F : forall u, dup P (mkCst (cs s) (cin s ++ a) []) u <-> exists st, P (overwrite (map inj a) (cs s)) st /\ u = fresh st 8).
    { intros u. rewrite dup_fresh. cbn [cin cs]. now rewrite Hc. }
    assert (O : forall u ys, mops P (observes a) s ys u <-> ys = [] /\ exists st, P (overwrite (map inj a) (cs s)) st /\ u = fresh st 8).
    { intros u ys. rewrite observes_full; auto; [|rewrite Hc, La; reflexivity]. now rewrite F. }
    rewrite Ea. cbn [chainR]. rewrite observes_app.
    destruct b as [|b0 b'] eqn:Eb.
    + assert (N : forall f, chunks_ f 8 (map inj []) = []) by now intros [|f]. rewrite N. cbn [chainR].
      cbn [observes map]. rewrite app_nil_r. fold (observes a). split.
      * intros (u & H & E). apply O in H. destruct H as (_ & st & Hst & ->).
        unfold ensure in E. cbn [cin cout fresh] in E. rewrite firstn_length, (HP _ _ Hst) in E. cbn in E. subst v. eauto.
      * intros (st & (u & Hu & ->) & ->). exists (fresh u 8). split; [apply O; eauto|].
        unfold ensure. cbn [cin cout fresh]. rewrite firstn_length, (HP _ _ Hu). reflexivity.
    + split.
      * intros (u & H & E). apply mops_app in H. destruct H as (u1 & y1 & y2 & H1 & H2 & Ey).
        symmetry in Ey. apply app_eq_nil in Ey. destruct Ey as [-> ->].
        apply O in H1. destruct H1 as (_ & st & Hst & ->).
        assert (X : exists u, mops P (observes (b0 :: b')) (fresh st 8) [] u /\ ensure P u v) by eauto.
        apply IH in X; [|exact Lb|discriminate|reflexivity].
        destruct X as (st' & C & ->). cbn [fresh cs] in C. eauto 6.
      * intros (st' & (st & Hst & C) & ->).
        assert (X : exists u, mops P (observes (b0 :: b')) (fresh st 8) [] u /\ ensure P u (fresh st' 8)).
        { apply IH; [exact Lb|discriminate|reflexivity|]. cbn [fresh cs]. eauto. }
        destruct X as (u & H & E). exists u. split; [|exact E]. apply mops_app.
        exists (fresh st 8), [], []. split; [apply O; eauto|auto].
Qed.

(** popping challenges *)
Lemma firstn_succ_nth {A} (d : A) n : forall l, (n < length l)%nat -> firstn (S n) l = firstn n l ++ [nth n l d].
Proof.
  induction n as [|n IH]; intros [|x l] H; cbn [length] in H; try lia; [reflexivity|].
  cbn [firstn nth app]. f_equal. rewrite <- IH by lia. reflexivity.
Qed.
Lemma get_pop P st j y t : length st = 12%nat -> (j < 8)%nat ->
  (get P (fresh st (S j)) y t <-> y = nth j st g0 /\ t = fresh st j).
Proof.
  intros Hs Hj. unfold get. cbn [fresh cin cout]. rewrite firstn_length, Hs. cbn [length].
  destruct (Nat.eqb_spec (Nat.min (S j) 12) 0); [lia|]. cbn [negb orb Nat.eqb].
  split.
  - intros (u & -> & E1 & E2 & E3). cbn [fresh cout cs cin] in *.
    rewrite (firstn_succ_nth g0) in E1 by lia. apply app_inj_tail in E1. destruct E1 as [E1 ->].
    split; [reflexivity|]. destruct t as [tc ti tt]; cbn [ChallengerProofs.cs ChallengerProofs.cin ChallengerProofs.cout] in *. now subst.
  - intros [-> ->]. exists (fresh st (S j)). split; [reflexivity|]. cbn [fresh cout cs cin].
    split; [|auto]. apply firstn_succ_nth. lia.
Qed.
Lemma rev_firstn_succ (st : list GF) j : (j < length st)%nat -> rev (firstn (S j) st) = nth j st g0 :: rev (firstn j st).
Proof. intros H. rewrite (firstn_succ_nth g0) by auto. rewrite rev_app_distr. reflexivity. Qed.
Lemma asks_pop P st : length st = 12%nat -> forall m j ys t, (m <= j <= 8)%nat ->
  (mops P (asks m) (fresh st j) ys t <-> ys = firstn m (rev (firstn j st)) /\ t = fresh st (j - m)).
Proof.
  intros Hs. induction m as [|m IH]; intros j ys t Hj; cbn [asks repeat mops].
  - rewrite Nat.sub_0_r. cbn [firstn]. reflexivity.
  - destruct j as [|j]; [lia|]. fold (asks m). rewrite rev_firstn_succ by lia. cbn [firstn Nat.sub]. split.
    + intros (u & y & ys' & G & -> & H). apply get_pop in G; [|auto|lia]. destruct G as [-> ->].
      apply IH in H; [|lia]. destruct H as [-> ->]. auto.
    + intros [-> ->]. exists (fresh st j), (nth j st g0), (firstn m (rev (firstn j st))).
      split; [apply get_pop; auto; lia|]. split; [reflexivity|]. apply IH; [lia|auto].
Qed.
Lemma ensure_asks P m s ys t : (1 <= m)%nat -> okP P ->
  (mops P (asks m) s ys t <-> exists v, ensure P s v /\ mops P (asks m) v ys t).
Proof.
  intros Hm HP. destruct m as [|m]; [lia|]. cbn [asks repeat mops]. fold (asks m).
  assert (I : forall v, ensure P s v -> forall w, ensure P v w <-> w = v).
  { intros v E w. unfold ensure in E.
    destruct (negb (Nat.eqb (length (cin s)) 0) || Nat.eqb (length (cout s)) 0) eqn:B.
    - apply dup_fresh in E. destruct E as (st & Hst & ->). unfold ensure. cbn [fresh cin cout].
      rewrite firstn_length, (HP _ _ Hst). reflexivity.
    - subst v. unfold ensure. rewrite B. reflexivity. }
  split.
  - intros (u & y & ys' & (v & E & G) & -> & H). exists v. split; [exact E|].
    exists u, y, ys'. split; [|auto]. exists v. split; [|exact G]. now apply (I v E).
  - intros (v & E & u & y & ys' & (v' & E' & G) & -> & H). apply (I v E) in E'. subst v'.
    exists u, y, ys'. split; [|auto]. exists v. split; auto.
Qed.
(** [m >= 1] challenges from a state that was just permuted *)
Lemma asks_squeeze P : okP P -> forall k m st ys t, (1 <= m)%nat -> ((m - 1) / 8 = k)%nat -> length st = 12%nat ->
  (mops P (asks m) (fresh st 8) ys t <->
   exists bl s', squeezeR P k st bl s' /\ ys = firstn m bl /\ t = fresh s' (7 - (m - 1) mod 8)).
Proof.
  intros HP. induction k as [|k IH]; intros m st ys t Hm Hk Hs.
  - apply Nat.div_small_iff in Hk; [|lia]. rewrite asks_pop by (auto; lia). cbn [squeezeR].
    rewrite Nat.mod_small by lia. replace (7 - (m - 1))%nat with (8 - m)%nat by lia. split.
    + intros [-> ->]. eauto 6.
    + intros (bl & s' & [-> ->] & -> & ->). auto.
  - assert (Hm8 : (9 <= m)%nat).
    { destruct (Nat.le_gt_cases 9 m); auto. rewrite Nat.div_small in Hk by lia. discriminate. }
    replace m with (8 + (m - 8))%nat at 1 by lia. rewrite asks_app, mops_app.
    assert (Hk' : ((m - 8 - 1) / 8 = k)%nat).
    { replace (m - 1)%nat with (m - 8 - 1 + 1 * 8)%nat in Hk by lia. rewrite Nat.div_add in Hk by lia. lia. }
    assert (Hmod : ((m - 1) mod 8 = (m - 8 - 1) mod 8)%nat).
    { replace (m - 1)%nat with (m - 8 - 1 + 1 * 8)%nat by lia. now rewrite Nat.mod_add by lia. }
    assert (L8 : length (rev (firstn 8 st)) = 8%nat) by (rewrite rev_length, firstn_length, Hs; reflexivity).
    assert (EN : forall v, ensure P (fresh st 0) v <-> exists s1, P st s1 /\ v = fresh s1 8).
    { intros v. unfold ensure. cbn [fresh cin cout firstn length Nat.eqb negb orb]. rewrite dup_fresh. cbn [fresh cin cs map].
      unfold overwrite. cbn [length app skipn]. reflexivity. }
    rewrite Hmod. cbn [squeezeR]. split.
    + intros (u & y1 & y2 & H1 & H2 & ->). apply asks_pop in H1; [|auto|lia]. destruct H1 as [-> ->].
      change (8 - 8)%nat with O in H2. apply ensure_asks in H2; auto; [|lia].
      destruct H2 as (v & Ev & H2). apply EN in Ev. destruct Ev as (s1 & Hs1 & ->).
      apply (IH (m - 8)%nat s1 y2 t) in H2; [|lia|auto|now apply HP in Hs1].
      destruct H2 as (bl & s' & Hb & -> & ->). exists (rev (firstn 8 st) ++ bl), s'. split; [eauto 6|].
      split; [|reflexivity]. rewrite firstn_app, L8. rewrite (firstn_all2 (n := m)) by lia.
      rewrite (firstn_all2 (n := 8)) by lia. reflexivity.
    + intros (bl & s' & (s1 & bl' & Hs1 & Hb & ->) & -> & ->).
      exists (fresh st 0), (rev (firstn 8 st)), (firstn (m - 8) bl'). split; [apply asks_pop; [auto|lia|]|].
      { split; [symmetry; apply firstn_all2; lia|reflexivity]. }
      split.
      * apply ensure_asks; auto; [lia|]. exists (fresh s1 8). split; [apply EN; eauto|].
        apply (IH (m - 8)%nat); [lia|auto|now apply HP in Hs1|]. eauto 6.
      * rewrite firstn_app, L8. rewrite (firstn_all2 (n := m)) by lia. reflexivity.
Qed.

Theorem phase_mops P xs m s ys t : okP P -> cin s = [] -> xs <> [] -> (1 <= m)%nat ->
  (mops P (observes xs ++ asks m) s ys t <->
   exists s', phase P xs m (cs s) ys s' /\ t = fresh s' (7 - (m - 1) mod 8)).
Proof.
  intros HP Hc Hx Hm. rewrite mops_app.
  assert (A := observes_absorb P HP (length xs) xs s). unfold phase, absorb_rel, chunks. rewrite map_length.
  assert (LC : forall l s0 st, l <> [] -> chainR (fun c s t => P (overwrite c s) t) l s0 st -> length st = 12%nat).
  { induction l as [|c l IHl]; intros s0 st Hl C; [congruence|]. cbn [chainR] in C. destruct C as (u & Hu & C).
    destruct l as [|c' l]; [cbn [chainR] in C; subst; now apply HP in Hu|]. eapply IHl; [discriminate|exact C]. }
  assert (NC : chunks_ (length xs) 8 (map inj xs) <> []).
  { destruct xs; [congruence|]. cbn [length map chunks_]. discriminate. }
  split.
  - intros (u & y1 & y2 & H1 & H2 & ->). pose proof (mops_len _ _ _ _ _ H1) as L. rewrite gets_observes in L.
    apply length_zero_iff_nil in L. subst y1. cbn [app].
    apply ensure_asks in H2; auto. destruct H2 as (v & E & H2).
    assert (X : exists u, mops P (observes xs) s [] u /\ ensure P u v) by eauto.
    apply A in X; auto. destruct X as (st & C & ->).
    apply (asks_squeeze P HP ((m - 1) / 8)) in H2; [|auto|auto|eapply LC; eauto].
    destruct H2 as (bl & s' & Hb & -> & ->). eauto 8.
  - intros (s' & (st & bl & C & Hb & ->) & ->).
    assert (X : exists u, mops P (observes xs) s [] u /\ ensure P u (fresh st 8)) by (apply A; eauto).
    destruct X as (u & H1 & E). exists u, [], (firstn m bl). split; [exact H1|]. split; [|reflexivity].
    apply ensure_asks; auto. exists (fresh st 8). split; [exact E|].
    apply (asks_squeeze P HP ((m - 1) / 8)); [auto|auto|eapply LC; eauto|]. eauto 6.
Qed.

Definition phase_ok (ph : list Z * nat) : Prop := fst ph <> [] /\ (1 <= snd ph)%nat.
Theorem phases_mops P : okP P -> forall l s ys, cin s = [] -> Forall phase_ok l ->
  ((exists t, mops P (phase_ops l) s ys t) <-> exists yss, phases P l (cs s) yss /\ ys = concat yss).
Proof.
  intros HP. induction l as [|[xs m] l IH]; intros s ys Hc Hok.
  - cbn [phase_ops flat_map mops phases]. split.
    + intros (t & -> & ->). exists []. auto.
    + intros (yss & -> & ->). eauto.
  - inversion Hok as [|? ? [H1 H2] Hok']; subst. cbn [fst snd] in *.
    cbn [phase_ops flat_map fst snd phases]. fold (phase_ops l). split.
    + intros (t & H). apply mops_app in H. destruct H as (u & y1 & y2 & A & B & ->).
      apply phase_mops in A; auto. destruct A as (s' & A & ->).
      assert (X : exists t, mops P (phase_ops l) (fresh s' (7 - (m - 1) mod 8)) y2 t) by eauto.
      apply IH in X; auto. destruct X as (yss & C & ->). cbn [fresh cs] in C.
      exists (y1 :: yss). split; [eauto 8|reflexivity].
    + intros (yss0 & (y1 & s' & yss & A & C & ->) & ->). cbn [concat].
      assert (X : exists t, mops P (phase_ops l) (fresh s' (7 - (m - 1) mod 8)) (concat yss) t).
      { apply IH; auto. cbn [fresh cs]. eauto. }
      destruct X as (t & X). exists t. apply mops_app. do 3 eexists. split; [apply phase_mops; eauto|]. eauto.
Qed.
Lemma phase_len P xs m s ys s' : okP P -> xs <> [] -> (1 <= m)%nat -> phase P xs m s ys s' -> length ys = m.
Proof.
  intros HP Hx Hm H.
  assert (M : mops P (observes xs ++ asks m) (mkCst s [] []) ys (fresh s' (7 - (m - 1) mod 8))).
  { apply phase_mops; auto. cbn [cs]. eauto. }
  apply mops_len in M. now rewrite gets_app, gets_observes, gets_asks in M.
Qed.

(** ** The history of an arbitrary run *)
(** the states after each block of absorbed elements *)
Fixpoint history (P : permr) (s : list GF) (blocks : list (list Z)) (states : list (list GF)) : Prop :=
  match blocks, states with
  | [], [] => True
  | b :: bs, st :: sts => P (overwrite (map inj b) s) st /\ history P st bs sts
  | _, _ => False
  end.
(** the elements observed before the g-th challenge is requested *)
Fixpoint observed_before (ops : list op) (g : nat) : list Z :=
  match ops with
  | [] => []
  | OObs x :: o => x :: observed_before o g
  | OGet :: o => match g with O => [] | S g' => observed_before o g' end
  end.
Definition observed (ops : list op) : list Z := flat_map (fun o => match o with OObs x => [x] | OGet => [] end) ops.

Lemma last_cons_def {A} (l : list A) : forall a d d', last (a :: l) d = last (a :: l) d'.
Proof. induction l as [|c l IHl]; intros a d d'; [reflexivity|]. apply (IHl c). Qed.
Lemma history_snoc P : forall bs sts s b st, history P s bs sts -> P (overwrite (map inj b) (last sts s)) st ->
  history P s (bs ++ [b]) (sts ++ [st]).
Proof.
  induction bs as [|b0 bs IH]; intros [|st0 sts] s b st H HP; cbn [history] in H; try tauto.
  - cbn [app history]. auto.
  - cbn [app history]. destruct H as [H1 H2]. split; [exact H1|]. apply IH; auto.
    destruct sts as [|st1 sts]; [exact HP|]. change (last (st0 :: st1 :: sts) s) with (last (st1 :: sts) s) in HP.
    now rewrite (last_cons_def sts st1 st0 s).
Qed.
Lemma history_len P : forall bs sts s, history P s bs sts -> length bs = length sts.
Proof.
  induction bs as [|b bs IH]; intros [|st sts] s H; cbn [history] in H; try (exfalso; exact H); [reflexivity|].
  cbn [length]. f_equal. eapply IH, H.
Qed.
Lemma history_state_len P : okP P -> forall bs sts s st, history P s bs sts -> In st sts -> length st = 12%nat.
Proof.
  intros HP. induction bs as [|b bs IH]; intros [|st0 sts] s st H Hin; cbn [history] in H; try (exfalso; exact H); [destruct Hin|].
  destruct H as [H1 H2]. destruct Hin as [<-|Hin]; [now apply HP in H1|eauto].
Qed.
Lemma observed_before_snoc_obs ops x g : (g < gets ops)%nat -> observed_before (ops ++ [OObs x]) g = observed_before ops g.
Proof.
  revert g. induction ops as [|[y|] ops IH]; intros g H; cbn [gets app observed_before] in *; [lia| |].
  - f_equal. auto.
  - destruct g; [reflexivity|]. apply IH. lia.
Qed.
Lemma observed_before_snoc_get ops g : (g < gets ops)%nat -> observed_before (ops ++ [OGet]) g = observed_before ops g.
Proof.
  revert g. induction ops as [|[y|] ops IH]; intros g H; cbn [gets app observed_before] in *; [lia| |].
  - f_equal. auto.
  - destruct g; [reflexivity|]. apply IH. lia.
Qed.
Lemma observed_before_last ops : observed_before (ops ++ [OGet]) (gets ops) = observed ops.
Proof.
  induction ops as [|[y|] ops IH]; cbn [gets app observed_before observed flat_map]; [reflexivity| |exact IH].
  f_equal. exact IH.
Qed.

Definition entry_ok (ops : list op) (blocks : list (list Z)) (states : list (list GF)) (ys : list GF)
    (g : nat) (ki : nat * nat) : Prop :=
  (fst ki < length states)%nat /\ (snd ki < 8)%nat /\
  nth g ys g0 = nth (snd ki) (nth (fst ki) states []) g0 /\
  concat (firstn (S (fst ki)) blocks) = observed_before ops g.

Definition hist_inv (P : permr) (ops : list op) (ys : list GF) (t : cst) blocks states (idx : list (nat * nat)) : Prop :=
  history P (repeat g0 12) blocks states /\ Forall (fun b => (length b <= 8)%nat) blocks /\
  length idx = gets ops /\
  (forall g, (g < gets ops)%nat -> entry_ok ops blocks states ys g (nth g idx (O, O))) /\
  NoDup idx /\
  concat blocks ++ cin t = observed ops /\ cs t = last states (repeat g0 12) /\ (length (cin t) < 8)%nat /\
  (cout t <> [] -> cin t = [] /\ states <> [] /\ exists j, (1 <= j <= 8)%nat /\ cout t = firstn j (cs t) /\
      forall ki, In ki idx -> S (fst ki) = length states -> (j <= snd ki)%nat).

Lemma snoc_last {A} (l : list A) x d : last (l ++ [x]) d = x.
Proof. induction l as [|a l IH]; [reflexivity|]. cbn [app last]. destruct (l ++ [x]) eqn:E; [destruct l; discriminate|auto]. Qed.
Lemma NoDup_snoc {A} (l : list A) x : NoDup l -> ~ In x l -> NoDup (l ++ [x]).
Proof.
  intros H Hx. apply (Permutation.Permutation_NoDup (l := x :: l)); [apply Permutation.Permutation_cons_append|]. now constructor.
Qed.

Lemma run_history P : okP P -> forall ops ys t, mops P ops cst0 ys t ->
  exists blocks states idx, hist_inv P ops ys t blocks states idx.
Proof.
  intros HP. induction ops as [|o ops IH] using rev_ind; intros ys t H.
  - destruct H as [-> ->]. exists [], [], []. unfold hist_inv. cbn [history length gets concat app observed flat_map cs cin cst0 last cout].
    repeat split; auto; try lia; try constructor; try tauto.
  - apply mops_app in H. destruct H as (u & y1 & y2 & H1 & H2 & ->).
    destruct (IH _ _ H1) as (blocks & states & idx & A1 & A2 & A3 & A4 & A5 & A6 & A7 & A8 & A9). clear IH.
    pose proof (mops_len _ _ _ _ _ H1) as Ly. pose proof (history_len _ _ _ _ A1) as Lb.
    (* one more permutation with block [b] *)
    assert (STEP : forall b st, P (overwrite (map inj b) (cs u)) st -> (length b <= 8)%nat ->
              history P (repeat g0 12) (blocks ++ [b]) (states ++ [st]) /\
              Forall (fun b => (length b <= 8)%nat) (blocks ++ [b])).
    { intros b st Hst Hb. rewrite A7 in Hst. split; [now apply history_snoc|]. apply Forall_app. auto. }
    assert (KEEP : forall ops' b st y2 g, (g < gets ops)%nat -> observed_before ops' g = observed_before ops g ->
              entry_ok ops' (blocks ++ b) (states ++ st) (y1 ++ y2) g (nth g idx (O, O))).
    { intros ops' b st z g Hg E. destruct (A4 g Hg) as (B1 & B2 & B3 & B4). unfold entry_ok.
      rewrite app_length. split; [lia|]. split; [exact B2|].
      rewrite !app_nth1 by lia. split; [exact B3|]. rewrite E, <- B4. f_equal.
      rewrite firstn_app. replace (S (fst (nth g idx (O, O))) - length blocks)%nat with O by lia.
      cbn [firstn]. apply app_nil_r. }
    assert (KEEP0 : forall ops' y2 g, (g < gets ops)%nat -> observed_before ops' g = observed_before ops g ->
              entry_ok ops' blocks states (y1 ++ y2) g (nth g idx (O, O))).
    { intros ops' z g Hg E. specialize (KEEP ops' [] [] z g Hg E). now rewrite !app_nil_r in KEEP. }
    assert (OLD : forall ki, In ki idx -> (fst ki < length states)%nat).
    { intros ki Hin. apply (In_nth _ _ (O, O)) in Hin. destruct Hin as (g & Hg & <-). apply A4. lia. }
    assert (OB : forall o, observed (ops ++ [o]) = observed ops ++ observed [o]).
    { intros o'. unfold observed. apply flat_map_app. }
    destruct o as [x|]; cbn [mops] in H2.
    + (* observe *)
      destruct H2 as (v & Hv & -> & ->). rewrite app_nil_r. unfold obs in Hv. cbn [cin] in Hv.
      destruct (Nat.eqb_spec (length (cin u ++ [x])) 8) as [E8|E8].
      * apply dup_fresh in Hv. destruct Hv as (st & Hst & ->). cbn [cin cs] in Hst.
        destruct (STEP _ _ Hst) as [S1 S2]; [lia|]. pose proof (HP _ _ Hst) as Ls.
        exists (blocks ++ [cin u ++ [x]]), (states ++ [st]), idx. unfold hist_inv. rewrite gets_app; cbn [gets]; rewrite Nat.add_0_r.
        split; [exact S1|]. split; [exact S2|]. split; [exact A3|].
        split. { intros g Hg. specialize (KEEP (ops ++ [OObs x]) [cin u ++ [x]] [st] [] g Hg). rewrite app_nil_r in KEEP.
                 apply KEEP. now apply observed_before_snoc_obs. }
        split; [exact A5|]. cbn [fresh cs cin cout]. rewrite snoc_last.
        split. { rewrite concat_app. cbn [concat]. rewrite !app_nil_r, app_assoc, A6, OB. reflexivity. }
        split; [reflexivity|]. split; [cbn; lia|].
        intros _. split; [reflexivity|]. split; [intros C; apply app_eq_nil in C; destruct C; discriminate|].
        exists 8%nat. split; [lia|]. split; [reflexivity|].
        intros ki Hin E. rewrite app_length in E. cbn [length] in E. apply OLD in Hin. lia.
      * subst v. exists blocks, states, idx. unfold hist_inv. rewrite gets_app; cbn [gets]; rewrite Nat.add_0_r.
        split; [exact A1|]. split; [exact A2|]. split; [exact A3|].
        split. { intros g Hg. specialize (KEEP0 (ops ++ [OObs x]) [] g Hg). rewrite app_nil_r in KEEP0.
                 apply KEEP0. now apply observed_before_snoc_obs. }
        split; [exact A5|]. cbn [cs cin cout].
        split; [rewrite app_assoc, A6, OB; reflexivity|]. split; [exact A7|].
        split; [rewrite app_length in *; cbn [length] in *; lia|]. congruence.
    + (* get *)
      destruct H2 as (v & y & ys' & (w & Hw & E1 & E2 & E3) & -> & -> & ->).
      assert (FIN : forall b st j, history P (repeat g0 12) (blocks ++ b) (states ++ st) ->
         Forall (fun b => (length b <= 8)%nat) (blocks ++ b) -> length b = length st ->
         cs w = last (states ++ st) (repeat g0 12) -> length (cs w) = 12%nat -> states ++ st <> [] ->
         cin w = [] -> cout w = firstn (S j) (cs w) -> (j < 8)%nat -> concat (blocks ++ b) = observed ops ->
         (forall ki, In ki idx -> S (fst ki) = length (states ++ st) -> (j < snd ki)%nat) ->
         exists blocks' states' idx', hist_inv P (ops ++ [OGet]) (y1 ++ [y]) v blocks' states' idx').
      { intros b st j F1 F2 Fl F3 F4 F5 F6 F7 F8 F9 F10.
        rewrite F7, (firstn_succ_nth g0) in E1 by lia. apply app_inj_tail in E1. destruct E1 as [E1 Ey].
        assert (LS : nth (length (states ++ st) - 1) (states ++ st) [] = cs w).
        { rewrite F3. destruct (exists_last F5) as (l & z & El). rewrite El, snoc_last, app_length. cbn [length].
          rewrite app_nth2 by lia. replace (length l + 1 - 1 - length l)%nat with O by lia. reflexivity. }
        assert (LP : (1 <= length (states ++ st))%nat) by (destruct (states ++ st); [congruence|cbn; lia]).
        exists (blocks ++ b), (states ++ st), (idx ++ [((length (states ++ st) - 1)%nat, j)]). unfold hist_inv.
        split; [exact F1|]. split; [exact F2|]. split; [rewrite gets_app, app_length, A3; reflexivity|].
        split.
        { intros g Hg. rewrite gets_app in Hg. cbn [gets] in Hg. destruct (Nat.eq_dec g (gets ops)) as [->|Hne].
          - rewrite <- A3 at 2. rewrite app_nth2, Nat.sub_diag by lia. cbn [nth]. unfold entry_ok. cbn [fst snd].
            split; [lia|]. split; [exact F8|]. rewrite LS. rewrite <- Ly at 1. rewrite app_nth2, Nat.sub_diag by lia. cbn [nth].
            split; [now symmetry|]. rewrite observed_before_last, <- F9. f_equal. apply firstn_all2.
            rewrite !app_length in *. lia.
          - rewrite app_nth1 by lia. apply KEEP; [lia|]. apply observed_before_snoc_get. lia. }
        split. { apply NoDup_snoc; [exact A5|]. intros Hin. specialize (F10 _ Hin). cbn [fst snd] in F10. lia. }
        rewrite E3, F6, app_nil_r, OB, F9. cbn [observed flat_map]. rewrite app_nil_r.
        split; [reflexivity|]. split; [rewrite E2; exact F3|]. split; [cbn; lia|].
        intros Hout. split; [reflexivity|]. split; [exact F5|].
        exists j. rewrite E2. split; [|split].
        - split; [|lia]. destruct j; [|lia]. rewrite <- E1 in Hout. cbn in Hout. congruence.
        - now symmetry.
        - intros ki Hin E. apply in_app_iff in Hin. destruct Hin as [Hin|[<-|[]]]; [specialize (F10 _ Hin E); lia|cbn [snd]; lia]. }
      destruct (negb (Nat.eqb (length (cin u)) 0) || Nat.eqb (length (cout u)) 0) eqn:B.
      * apply dup_fresh in Hw. destruct Hw as (st & Hst & ->). destruct (STEP _ _ Hst) as [S1 S2]; [lia|].
        pose proof (HP _ _ Hst) as Ls.
        apply (FIN [cin u] [st] 7%nat); auto; cbn [fresh cs cin cout].
        -- now rewrite snoc_last.
        -- intros C; apply app_eq_nil in C; destruct C; discriminate.
        -- rewrite concat_app. cbn [concat]. now rewrite app_nil_r.
        -- intros ki Hin E. rewrite app_length in E. cbn [length] in E. apply OLD in Hin. lia.
      * subst w. apply orb_false_elim in B. destruct B as [B1 B2].
        assert (Nc : cout u <> []) by (intros C; rewrite C in B2; discriminate B2).
        destruct (A9 Nc) as (C1 & C2 & j & C3 & C4 & C5). destruct j as [|j]; [lia|].
        apply (FIN [] [] j); auto; rewrite ?app_nil_r; auto; try lia.
        -- rewrite A7. destruct (exists_last C2) as (l & z & El). rewrite El, snoc_last.
           eapply history_state_len; [exact HP|exact A1|]. rewrite El. apply in_app_iff. right. apply in_eq.
        -- rewrite C1, app_nil_r in A6. exact A6.
Qed.
