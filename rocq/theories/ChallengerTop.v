(** * Arbitrary sequences of challenger operations: driver, totality, normal form. *)
From Coq Require Import String.
From Coq Require Import ZArith Lia List Bool.
From Verif Require Import Zp GF Circuit Goldilocks PoseidonSpec PoseidonGL PoseidonGLProofs Sponge DenP BN254 BN254Hash Types
  Challenger ChallengerProofs ChallengerPhases Transcript.
Import ListNotations.
Open Scope Z_scope.
Open Scope circ_scope.

(** a client of the challenger: any sequence of calls of ObserveElement and GetChallenge *)
Fixpoint drive (w : Z) (c : chal) (ops : list op) : circ (list Z * chal) :=
  match ops with
  | [] => Ret ([], c)
  | OObs x :: ops' => c <- ObserveElement w c x;; drive w c ops'
  | OGet :: ops' => '(y, c) <- GetChallenge w c;; '(ys, c) <- drive w c ops';; Ret (y :: ys, c)
  end.

Lemma drive_chg w ops : 128 <= w -> Forall op_ok ops -> forall s, inv s ->
  chg w s (map rep) (drive w (rc s) ops) ops.
Proof.
  intros Hw. induction 1 as [|o ops Ho Hops IH]; intros s Hs; cbn [drive].
  - eapply chg_ext; [apply chg_ret|]. cbn. intros ys H. apply length_zero_iff_nil in H. now subst.
  - destruct o as [x|].
    + change (OObs x :: ops) with (observes [x] ++ ops). apply chd_chg_bind; auto.
      apply observe_chd; auto.
    + change (OGet :: ops) with (asks 1 ++ ops). eapply chg_ext.
      * eapply (chg_bind w s _ _ (fun ys => rep (hd g0 ys)) (fun ys zs => rep (hd g0 ys) :: map rep zs));
          [apply ok_asks|exact Hs|now apply get_chg|].
        intros ys u _ Hu. cbn beta iota. apply chg_app_nil. eapply chg_ext.
        -- eapply (chg_bind w u _ _ (map rep) (fun zs _ => rep (hd g0 ys) :: map rep zs));
             [exact Hops|exact Hu|now apply IH|].
           intros zs v _ Hv. cbn beta iota. apply chg_ret.
        -- intros zs Hz. cbn beta. rewrite app_nil_r in Hz. rewrite firstn_all2 by lia. reflexivity.
      * intros ys Hy. cbn beta. rewrite gets_app, gets_asks in Hy. rewrite gets_asks. destruct ys as [|y ys]; [cbn in Hy; lia|].
        reflexivity.
Qed.

(** the permutation relation always has a result *)
Definition totalP (P : permr) : Prop := forall s, length s = 12%nat -> exists t, P s t.
Lemma totalP_pgraph : totalP pgraph.
Proof. intros s _. exists (poseidon s). reflexivity. Qed.
Lemma totalP_permw w : 128 <= w -> totalP (permw w).
Proof.
  intros Hw s Hs. exists (poseidon s). destruct (poseidon_denR w s Hs) as [H _]. now apply H.
Qed.
Lemma mops_total P : okP P -> totalP P -> forall ops s, inv s -> Forall op_ok ops -> exists ys t, mops P ops s ys t.
Proof.
  intros HP HT. induction ops as [|o ops IH]; intros s Hs Hok; [exists [], s; split; auto|].
  inversion Hok as [|? ? Ho Hops]; subst.
  assert (D : forall s, length (cs s) = 12%nat -> (length (cin s) <= 8)%nat -> exists t, dup P s t).
  { intros v H1 H2. destruct (HT (overwrite (map inj (cin v)) (cs v))) as (st & Hst).
    - rewrite length_overwrite; auto. rewrite map_length. lia.
    - eexists. eexists. split; [exact Hst|reflexivity]. }
  pose proof Hs as (I1 & I2 & I3 & I4).
  destruct o as [x|]; cbn [mops].
  - assert (X : exists u, obs P x s u).
    { unfold obs. cbn [cin]. destruct (Nat.eqb_spec (length (cin s ++ [x])) 8) as [E|E]; [|eauto].
      apply D; cbn [cs cin]; auto. lia. }
    destruct X as (u & Hu). destruct (IH u) as (ys & t & H); [eapply obs_inv; eauto|auto|]. eauto.
  - assert (X : exists y u, get P s y u).
    { assert (E : exists v, ensure P s v /\ cout v <> []).
      { unfold ensure. destruct (negb (Nat.eqb (length (cin s)) 0) || Nat.eqb (length (cout s)) 0) eqn:B.
        - destruct (D s) as (v & Hv); [auto|lia|]. exists v. split; [exact Hv|].
          apply dup_inv in Hv; auto. destruct Hv as (_ & _ & _ & L). intros C. now rewrite C in L.
        - exists s. split; [reflexivity|]. intros C. rewrite C, orb_comm in B. discriminate B. }
      destruct E as (v & Ev & Nv). destruct (exists_last Nv) as (l & y & El).
      exists y, (mkCst (cs v) (cin v) l). exists v. split; [exact Ev|]. cbn [cs cin cout]. auto. }
    destruct X as (y & u & Hu). destruct (IH u) as (ys & t & H); [eapply get_inv; eauto|auto|]. eauto 8.
Qed.

(** any sequence of operations is: some challenges, phases, and observations that are not followed by a challenge *)
Lemma normal_form ops : exists k l xs, Forall phase_ok l /\ ops = asks k ++ phase_ops l ++ observes xs.
Proof.
  induction ops as [|o ops IH].
  - exists O, [], []. split; [constructor|reflexivity].
  - destruct IH as (k & l & xs & Hl & E). destruct o as [x|].
    + destruct k as [|k].
      * cbn [asks repeat app] in E. destruct l as [|[ys m] l].
        -- exists O, [], (x :: xs). split; [constructor|]. cbn in E |- *. now rewrite E.
        -- exists O, ((x :: ys, m) :: l), xs. inversion Hl as [|? ? [H1 H2] H3]; subst. split.
           ++ constructor; [|exact H3]. split; [discriminate|exact H2].
           ++ cbn [asks repeat app phase_ops flat_map fst snd observes map]. reflexivity.
      * exists O, (([x], S k) :: l), xs. split; [constructor; [split; [discriminate|cbn; lia]|exact Hl]|].
        cbn [asks repeat app phase_ops flat_map fst snd observes map]. rewrite E.
        cbn [asks repeat app]. f_equal. f_equal. now rewrite <- app_assoc.
    + exists (S k), l, xs. split; [exact Hl|]. rewrite E. reflexivity.
Qed.

(** ** Specification of an arbitrary run in that form *)
Definition lead (P : permr) (k : nat) (s : list GF) (ys : list GF) (s' : list GF) : Prop :=
  match k with
  | O => ys = [] /\ s' = s
  | S _ => exists s1 bl, P s s1 /\ squeezeR P ((k - 1) / 8) s1 bl s' /\ ys = firstn k bl
  end.
Definition duplex_spec (P : permr) (k : nat) (l : list (list Z * nat)) (ys : list GF) : Prop :=
  exists y0 s yss, lead P k (repeat g0 12) y0 s /\ phases P l s yss /\ ys = y0 ++ concat yss.

Lemma lead_state P k ys t : okP P -> mops P (asks k) cst0 ys t -> cin t = [] /\ lead P k (repeat g0 12) ys (cs t).
Proof.
  intros HP H. destruct k as [|k].
  - destruct H as [-> ->]. split; [reflexivity|split; reflexivity].
  - assert (Hm : (1 <= S k)%nat) by lia. apply ensure_asks in H; auto. destruct H as (v & E & H). unfold ensure in E. cbn in E.
    apply dup_fresh in E. destruct E as (st & Hst & ->).
    apply (asks_squeeze P HP ((S k - 1) / 8)) in H; auto; [|now apply HP in Hst].
    destruct H as (bl & s' & Hb & -> & ->). split; [reflexivity|]. cbn [fresh cs]. exists st, bl. auto.
Qed.
Lemma lead_reach P k ys s' : okP P -> lead P k (repeat g0 12) ys s' ->
  exists t, mops P (asks k) cst0 ys t /\ cin t = [] /\ cs t = s'.
Proof.
  intros HP H. destruct k as [|k].
  - destruct H as [-> ->]. exists cst0. split; [split; reflexivity|split; reflexivity].
  - destruct H as (s1 & bl & Hst & Hb & ->). assert (Hm : (1 <= S k)%nat) by lia.
    exists (fresh s' (7 - (S k - 1) mod 8)). split; [|split; reflexivity].
    apply ensure_asks; auto. exists (fresh s1 8). split; [exists s1; split; [exact Hst|reflexivity]|].
    apply (asks_squeeze P HP ((S k - 1) / 8)); auto; [now apply HP in Hst|]. eauto 8.
Qed.

Theorem duplex_mops P k l xs ys : okP P -> totalP P -> Forall phase_ok l ->
  Forall op_ok (asks k ++ phase_ops l ++ observes xs) ->
  ((exists t, mops P (asks k ++ phase_ops l ++ observes xs) cst0 ys t) <-> duplex_spec P k l ys).
Proof.
  intros HP HT Hl Hok. unfold duplex_spec. split.
  - intros (t & H). apply mops_app in H. destruct H as (u & y0 & y1 & H0 & H & ->).
    apply mops_app in H. destruct H as (v & y2 & y3 & H2 & H3 & ->).
    pose proof (mops_len _ _ _ _ _ H3) as L. rewrite gets_observes in L. apply length_zero_iff_nil in L. subst y3.
    destruct (lead_state _ _ _ _ HP H0) as [C0 L0].
    assert (X : exists t, mops P (phase_ops l) u y2 t) by eauto.
    apply phases_mops in X; auto. destruct X as (yss & Hy & ->).
    exists y0, (cs u), yss. rewrite app_nil_r. auto.
  - intros (y0 & s & yss & L0 & Hy & ->). destruct (lead_reach _ _ _ _ HP L0) as (u & H0 & C0 & <-).
    assert (X : exists t, mops P (phase_ops l) u (concat yss) t) by (apply phases_mops; eauto).
    destruct X as (v & H2). rewrite !Forall_app in Hok. destruct Hok as (O1 & O2 & O3).
    assert (Iu : inv u) by (eapply mops_inv; [exact HP|exact O1|apply inv0|exact H0]).
    assert (Iv : inv v) by (eapply mops_inv; [exact HP|exact O2|exact Iu|exact H2]).
    destruct (mops_total P HP HT (observes xs) v Iv O3) as (y3 & t & H3).
    pose proof (mops_len _ _ _ _ _ H3) as L. rewrite gets_observes in L. apply length_zero_iff_nil in L. subst y3.
    exists t. apply mops_app. exists u, y0, (concat yss). split; [exact H0|]. split; [|reflexivity].
    apply mops_app. exists v, (concat yss), []. rewrite app_nil_r. auto.
Qed.

(** the honest instance is a function, and for sound widths so is the circuit's *)
Lemma squeezeR_ext P Q : (forall s t, P s t <-> Q s t) -> forall k s bl s', squeezeR P k s bl s' <-> squeezeR Q k s bl s'.
Proof.
  intros E. induction k as [|k IH]; intros s bl s'; cbn [squeezeR]; [reflexivity|].
  split; intros (s1 & bl' & H1 & H2 & H3); exists s1, bl'; (split; [now apply E|split; [now apply IH|auto]]).
Qed.
Lemma mops_ext P Q : (forall s t, P s t <-> Q s t) -> forall ops s ys t, mops P ops s ys t <-> mops Q ops s ys t.
Proof.
  intros E.
  assert (D : forall s t, dup P s t <-> dup Q s t).
  { intros s t. split; intros (st & H1 & H2); exists st; (split; [now apply E|auto]). }
  induction ops as [|[x|] ops IH]; intros s ys t; cbn [mops]; [reflexivity| |].
  - split; intros (u & Hu & H); exists u; (split; [|now apply IH]); unfold obs in *;
      destruct (Nat.eqb _ _); auto; now apply D.
  - split; intros (u & y & ys' & (v & Hv & G) & -> & H); exists u, y, ys'; (split; [|split; [reflexivity|now apply IH]]);
      exists v; (split; [|exact G]); destruct (_ || _); auto; now apply D.
Qed.
Lemma mops_fun ops : forall s ys t ys' t', mops pgraph ops s ys t -> mops pgraph ops s ys' t' -> ys = ys' /\ t = t'.
Proof.
  assert (D : forall s t t', dup pgraph s t -> dup pgraph s t' -> t = t').
  { intros s t t' (st & -> & ->) (st' & -> & ->). reflexivity. }
  induction ops as [|[x|] ops IH]; intros s ys t ys' t'; cbn [mops].
  - intros [-> ->] [-> ->]. auto.
  - intros (u & Hu & H) (u' & Hu' & H'). assert (u = u').
    { unfold obs in *. destruct (Nat.eqb _ _); [eapply D; eauto|congruence]. }
    subst u'. eauto.
  - intros (u & y & z & (v & Hv & G1 & G2 & G3) & -> & H) (u' & y' & z' & (v' & Hv' & G1' & G2' & G3') & -> & H').
    assert (v = v') by (destruct (_ || _); [eapply D; eauto|congruence]). subst v'.
    rewrite G1' in G1. apply app_inj_tail in G1. destruct G1 as [E1 E2]. subst y'.
    assert (u = u') as <- by (destruct u, u'; cbn [ChallengerProofs.cs ChallengerProofs.cin ChallengerProofs.cout] in *; congruence).
    destruct (IH _ _ _ _ _ H H') as [-> ->]. auto.
Qed.
Lemma permw_pgraph w : 128 <= w <= 189 -> forall s t, permw w s t <-> pgraph s t.
Proof. intros Hw s t. now apply perm_sound. Qed.
