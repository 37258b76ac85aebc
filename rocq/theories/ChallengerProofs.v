(** * The Fiat-Shamir challenger as an abstract machine, and the proof that the circuits
      of challenger/challenger.go implement it. *)
From Coq Require Import String.
From Coq Require Import ZArith Lia List Bool.
From Verif Require Import Zp GF Circuit Goldilocks GLProofs PoseidonSpec PoseidonGL PoseidonGLProofs Sponge DenP
  BN254 BN254Hash Types Challenger.
Import ListNotations.
Open Scope Z_scope.
Open Scope circ_scope.

(** state: the sponge (field elements), observed elements that were not absorbed yet
    (as they were given, unreduced), challenges that were not handed out yet *)
Record cst := mkCst { cs : list GF; cin : list Z; cout : list GF }.
Definition rc (s : cst) : chal := mkChal (map rep (cs s)) (cin s) (map rep (cout s)).
Lemma rc_sp s : spongeState (rc s) = map rep (cs s). Proof. reflexivity. Qed.
Lemma rc_in s : inputBuffer (rc s) = cin s. Proof. reflexivity. Qed.
Lemma rc_out s : outputBuffer (rc s) = map rep (cout s). Proof. reflexivity. Qed.
Definition cst0 : cst := mkCst (repeat g0 12) [] [].
Inductive op := OObs (x : Z) | OGet.

(** ** The machine, for any permutation relation *)
Definition dup (P : permr) (s t : cst) : Prop :=
  exists st, P (overwrite (map inj (cin s)) (cs s)) st /\ t = mkCst st [] (firstn 8 st).
Definition obs (P : permr) (x : Z) (s t : cst) : Prop :=
  let s1 := mkCst (cs s) (cin s ++ [x]) [] in
  if Nat.eqb (length (cin s1)) 8 then dup P s1 t else t = s1.
Definition get (P : permr) (s : cst) (y : GF) (t : cst) : Prop :=
  exists u, (if negb (Nat.eqb (length (cin s)) 0) || Nat.eqb (length (cout s)) 0 then dup P s u else u = s) /\
            cout u = cout t ++ [y] /\ cs t = cs u /\ cin t = cin u.
Fixpoint mops (P : permr) (ops : list op) (s : cst) (ys : list GF) (t : cst) : Prop :=
  match ops with
  | [] => ys = [] /\ t = s
  | OObs x :: ops' => exists u, obs P x s u /\ mops P ops' u ys t
  | OGet :: ops' => exists u y ys', get P s y u /\ ys = y :: ys' /\ mops P ops' u ys' t
  end.

Fixpoint gets (ops : list op) : nat :=
  match ops with [] => O | OObs _ :: o => gets o | OGet :: o => S (gets o) end.
Definition observes (xs : list Z) : list op := map OObs xs.
Definition asks (n : nat) : list op := repeat OGet n.

Lemma gets_app a b : gets (a ++ b) = (gets a + gets b)%nat.
Proof. induction a as [|[x|] a IH]; cbn [app gets]; lia. Qed.
Lemma gets_observes xs : gets (observes xs) = O.
Proof. induction xs; cbn; auto. Qed.
Lemma gets_asks n : gets (asks n) = n.
Proof. induction n; cbn; auto. Qed.
Lemma observes_app a b : observes (a ++ b) = observes a ++ observes b.
Proof. apply map_app. Qed.
Lemma asks_app a b : asks (a + b) = asks a ++ asks b.
Proof. apply repeat_app. Qed.

Lemma mops_app P a b s ys t :
  mops P (a ++ b) s ys t <-> exists u y1 y2, mops P a s y1 u /\ mops P b u y2 t /\ ys = y1 ++ y2.
Proof.
  revert s ys. induction a as [|[x|] a IH]; intros s ys; cbn [app mops].
  - split; [intros H; exists s, [], ys; auto|intros (u & y1 & y2 & [-> ->] & H & ->); exact H].
  - split.
    + intros (u & Hu & H). apply IH in H. destruct H as (v & y1 & y2 & H1 & H2 & ->).
      exists v, y1, y2. eauto.
    + intros (v & y1 & y2 & (u & Hu & H1) & H2 & ->). exists u. split; auto. apply IH. eauto 6.
  - split.
    + intros (u & y & ys' & Hu & -> & H). apply IH in H. destruct H as (v & y1 & y2 & H1 & H2 & ->).
      exists v, (y :: y1), y2. split; eauto 6.
    + intros (v & y1 & y2 & (u & y & ys' & Hu & -> & H1) & H2 & ->).
      exists u, y, (ys' ++ y2). split; auto. split; auto. apply IH. eauto 6.
Qed.
Lemma mops_len P ops : forall s ys t, mops P ops s ys t -> length ys = gets ops.
Proof.
  induction ops as [|[x|] ops IH]; intros s ys t H; cbn [mops gets] in *.
  - now destruct H as [-> _].
  - destruct H as (u & _ & H). eauto.
  - destruct H as (u & y & ys' & _ & -> & H). cbn [length]. f_equal. eauto.
Qed.

Definition okP (P : permr) : Prop := forall s t, P s t -> length t = 12%nat.
Lemma okP_pgraph : okP pgraph.
Proof. intros s t ->. apply poseidon_len. Qed.
Lemma okP_permw w : okP (permw w).
Proof. intros s t. apply perm_length. Qed.

Definition inv (s : cst) : Prop :=
  length (cs s) = 12%nat /\ (length (cin s) < 8)%nat /\ (length (cout s) <= 8)%nat /\ Forall reducible (cin s).
Definition op_ok (o : op) : Prop := match o with OObs x => reducible x | OGet => True end.
Lemma inv0 : inv cst0.
Proof. repeat split; cbn; try lia. constructor. Qed.

Lemma dup_inv P s t : okP P -> dup P s t -> length (cs t) = 12%nat /\ cin t = [] /\ cout t = firstn 8 (cs t) /\ length (cout t) = 8%nat.
Proof.
  intros HP (st & H & ->). apply HP in H. cbn [cs cin cout]. split; [auto|]. split; [auto|]. split; [auto|].
  rewrite firstn_length, H. reflexivity.
Qed.
Lemma obs_inv P x s t : okP P -> inv s -> reducible x -> obs P x s t -> inv t.
Proof.
  intros HP (H1 & H2 & H3 & H4) Hx H. unfold obs in H. cbn [cin] in H. rewrite app_length in H. cbn [length] in H.
  destruct (Nat.eqb_spec (length (cin s) + 1) 8).
  - apply dup_inv in H; auto. destruct H as (A & B & _ & C). unfold inv. rewrite B. cbn [length]. repeat split; auto; lia.
  - subst t. unfold inv. cbn [cs cin cout]. rewrite app_length. cbn [length]. repeat split; auto; try lia.
    apply Forall_app. auto.
Qed.
Lemma get_inv P s y t : okP P -> inv s -> get P s y t -> inv t.
Proof.
  intros HP (H1 & H2 & H3 & H4) (u & Hu & E1 & E2 & E3).
  assert (L : (length (cout t) + 1 = length (cout u))%nat) by (rewrite E1, app_length; reflexivity).
  unfold inv. rewrite E2, E3.
  destruct (negb _ || _).
  - apply dup_inv in Hu; auto. destruct Hu as (A & B & _ & C). rewrite B. cbn [length]. repeat split; auto; lia.
  - subst u. repeat split; auto; lia.
Qed.
Lemma mops_inv P ops : okP P -> Forall op_ok ops -> forall s ys t, inv s -> mops P ops s ys t -> inv t.
Proof.
  intros HP. induction 1 as [|o ops Ho _ IH]; intros s ys t Hs H; cbn [mops] in H.
  - now destruct H as [_ ->].
  - destruct o as [x|].
    + destruct H as (u & Hu & H). eapply IH; [|exact H]. eapply obs_inv; eauto.
    + destruct H as (u & y & ys' & Hu & _ & H). eapply IH; [|exact H]. eapply get_inv; eauto.
Qed.

(** ** The circuits implement the machine *)
Lemma duplexing_denP w s : 128 <= w -> length (cs s) = 12%nat -> (length (cin s) <= 8)%nat ->
  Forall reducible (cin s) -> denP w rc (duplexing w (rc s)) (fun P t => dup P s t).
Proof.
  intros Hw H1 H2 H3. unfold duplexing. rewrite rc_sp, rc_in.
  destruct (Nat.ltb_spec SPONGE_RATE (length (cin s))) as [L|_]; [unfold SPONGE_RATE in L; lia|].
  eapply denP_computes_bind; [now apply mapM_reduce_inj|].
  rewrite skipn_map, <- map_app, map_length. fold (overwrite (map inj (cin s)) (cs s)).
  eapply denP_iff.
  - eapply (denP_bind w (map rep) rc _ _ (fun P => P (overwrite (map inj (cin s)) (cs s)))
        (fun P st t => t = mkCst st [] (firstn 8 st))).
    + apply poseidon_denP; auto. rewrite length_overwrite; auto. rewrite map_length. lia.
    + intros st _. rewrite firstn_map.
      change (mkChal (map rep st) [] (map rep (firstn SPONGE_RATE st))) with (rc (mkCst st [] (firstn 8 st))).
      apply (denP_ret w rc).
  - intros P t. reflexivity.
Qed.

Lemma observe_denP w s x : 128 <= w -> inv s -> reducible x ->
  denP w rc (ObserveElement w (rc s) x) (fun P t => obs P x s t).
Proof.
  intros Hw (H1 & H2 & H3 & H4) Hx. unfold ObserveElement, obs. rewrite rc_sp, rc_in. cbn [inputBuffer spongeState cin].
  change (mkChal (map rep (cs s)) (cin s ++ [x]) []) with (rc (mkCst (cs s) (cin s ++ [x]) [])).
  unfold SPONGE_RATE. destruct (Nat.eqb_spec (length (cin s ++ [x])) 8) as [E|E].
  - apply duplexing_denP; cbn [cs cin]; auto; [lia|]. apply Forall_app; auto.
  - apply (denP_ret w rc).
Qed.

Lemma getchallenge_denP w s : 128 <= w -> inv s ->
  denP w (fun yt => (rep (fst yt), rc (snd yt))) (GetChallenge w (rc s)) (fun P yt => get P s (fst yt) (snd yt)).
Proof.
  intros Hw HI. pose proof HI as (H1 & H2 & H3 & H4). unfold GetChallenge, get. rewrite rc_in, rc_out.
  rewrite map_length.
  eapply denP_iff.
  - eapply (denP_bind w rc (fun yt => (rep (fst yt), rc (snd yt))) _ _
       (fun P u => if negb (Nat.eqb (length (cin s)) 0) || Nat.eqb (length (cout s)) 0 then dup P s u else u = s)
       (fun P u yt => cout u = cout (snd yt) ++ [fst yt] /\ cs (snd yt) = cs u /\ cin (snd yt) = cin u)).
    + destruct (negb (Nat.eqb (length (cin s)) 0) || Nat.eqb (length (cout s)) 0).
      * apply duplexing_denP; auto. lia.
      * apply (denP_ret w rc).
    + intros u Hu. assert (Hne : cout u <> []).
      { assert (D : forall P, okP P -> dup P s u -> cout u <> []).
        { intros P HP HD. apply dup_inv in HD; auto. destruct HD as (_ & _ & _ & L). intros E. now rewrite E in L. }
        destruct (negb (Nat.eqb (length (cin s)) 0) || Nat.eqb (length (cout s)) 0) eqn:E.
        - destruct Hu as [Hu|Hu]; [apply (D pgraph)|apply (D (permw w))]; auto using okP_pgraph, okP_permw.
        - assert (u = s) as -> by (destruct Hu; auto). intros C. rewrite C, orb_comm in E. discriminate E. }
      destruct (exists_last Hne) as (l & y & El).
      rewrite rc_sp, rc_in, rc_out, El, map_app, app_length, !map_length. cbn [length map].
      replace (length l + 1 - 1)%nat with (length l) by lia.
      assert (N : nth_ (map rep l ++ [rep y]) (length l) = Ret (rep y)).
      { unfold nth_. rewrite nth_error_app2 by (rewrite map_length; lia). rewrite map_length, Nat.sub_diag. reflexivity. }
      rewrite N. cbn [bind].
      assert (F : firstn (length l) (map rep l ++ [rep y]) = map rep l).
      { rewrite firstn_app, map_length, Nat.sub_diag. cbn [firstn]. rewrite app_nil_r.
        apply firstn_all2. rewrite map_length. lia. }
      rewrite F.
      change (rep y, mkChal (map rep (cs u)) (cin u) (map rep l))
        with ((fun yt : GF * cst => (rep (fst yt), rc (snd yt))) (y, mkCst (cs u) (cin u) l)).
      eapply denP_iff; [apply (denP_ret w (fun yt : GF * cst => (rep (fst yt), rc (snd yt))))|].
      intros P [y' t]. cbn [fst snd]. split.
      * intros E. injection E as -> ->. cbn [cs cin cout]. auto.
      * intros (E1 & E2 & E3). apply app_inj_tail in E1. destruct E1 as [E1 ->]. destruct t; cbn [cs cin cout] in *. now subst.
  - intros P [y t]. reflexivity.
Qed.

(** circuits that only observe, and circuits that return challenges *)
Definition chd (w : Z) (s : cst) (c : circ chal) (ops : list op) : Prop :=
  denP w rc c (fun P t => mops P ops s [] t).
Definition chg {A} (w : Z) (s : cst) (f : list GF -> A) (c : circ (A * chal)) (ops : list op) : Prop :=
  denP w (fun yt => (f (fst yt), rc (snd yt))) c (fun P yt => mops P ops s (fst yt) (snd yt)).

Lemma chd_ret w s : chd w s (Ret (rc s)) [].
Proof.
  unfold chd. eapply denP_iff; [apply (denP_ret w rc)|]. intros P t. cbn [mops]. tauto.
Qed.
Lemma chd_bind w s c k xs o2 : Forall reducible xs -> inv s ->
  chd w s c (observes xs) -> (forall u, inv u -> chd w u (k (rc u)) o2) -> chd w s (bind c k) (observes xs ++ o2).
Proof.
  intros Hx Hs H1 H2. unfold chd.
  assert (OK : Forall op_ok (observes xs)) by (apply Forall_map; exact Hx).
  eapply denP_iff.
  - eapply (denP_bind w rc rc); [exact H1|]. intros u Hu. apply H2.
    destruct Hu as [Hu|Hu]; [exact (mops_inv _ _ okP_pgraph OK _ _ _ Hs Hu)|exact (mops_inv _ _ (okP_permw w) OK _ _ _ Hs Hu)].
  - intros P t. rewrite mops_app. split.
    + intros (u & A & B). exists u, [], []. auto.
    + intros (u & y1 & y2 & A & B & E). symmetry in E. apply app_eq_nil in E. destruct E as [-> ->]. eauto.
Qed.
Lemma chd_chg_bind {A} w s c k (f : list GF -> A) xs o2 : Forall reducible xs -> inv s ->
  chd w s c (observes xs) -> (forall u, inv u -> chg w u f (k (rc u)) o2) -> chg w s f (bind c k) (observes xs ++ o2).
Proof.
  intros Hx Hs H1 H2. unfold chg.
  assert (OK : Forall op_ok (observes xs)) by (apply Forall_map; exact Hx).
  eapply denP_iff.
  - eapply (denP_bind w rc); [exact H1|]. intros u Hu. apply H2.
    destruct Hu as [Hu|Hu]; [exact (mops_inv _ _ okP_pgraph OK _ _ _ Hs Hu)|exact (mops_inv _ _ (okP_permw w) OK _ _ _ Hs Hu)].
  - intros P yt. rewrite mops_app. split.
    + intros (u & A1 & B). exists u, [], (fst yt). auto.
    + intros (u & y1 & y2 & A1 & B & E). pose proof (mops_len _ _ _ _ _ A1) as L. rewrite gets_observes in L.
      apply length_zero_iff_nil in L. subst y1. cbn [app] in E. subst y2. eauto.
Qed.
Lemma chg_bind {A B} w s (c : circ (A * chal)) (k : A * chal -> circ (B * chal)) (f1 : list GF -> A) (f2 : list GF -> list GF -> B) o1 o2 :
  Forall op_ok o1 -> inv s -> chg w s f1 c o1 ->
  (forall ys u, length ys = gets o1 -> inv u -> chg w u (f2 ys) (k (f1 ys, rc u)) o2) ->
  chg w s (fun zs => f2 (firstn (gets o1) zs) (skipn (gets o1) zs)) (bind c k) (o1 ++ o2).
Proof.
  intros Ho Hs H1 H2. unfold chg.
  assert (HI : forall P x, P = pgraph \/ P = permw w -> mops P o1 s (fst x) (snd x) -> length (fst x) = gets o1 /\ inv (snd x)).
  { intros P x HP Hx. split; [eapply mops_len; eauto|]. eapply mops_inv; eauto. destruct HP as [->| ->]; auto using okP_pgraph, okP_permw. }
  set (g := fun yt : list GF * cst => (f2 (firstn (gets o1) (fst yt)) (skipn (gets o1) (fst yt)), rc (snd yt))).
  eapply denP_iff.
  - eapply (denP_bind w _ g c k (fun P yt => mops P o1 s (fst yt) (snd yt))
       (fun P x z => exists zs, mops P o2 (snd x) zs (snd z) /\ fst z = fst x ++ zs)); [exact H1|].
    intros [ys u] Hx. cbn [fst snd].
    assert (HL : length ys = gets o1 /\ inv u).
    { destruct Hx as [Hx|Hx]; [apply (HI pgraph (ys,u))|apply (HI (permw w) (ys,u))]; auto. }
    destruct HL as [HL Hu].
    destruct (H2 ys u HL Hu) as [F1 F2]. split.
    + intros [z t] (zs & Hz & E). cbn [fst snd] in *. subst z. rewrite (F1 (zs, t) Hz). unfold g. cbn [fst snd].
      rewrite <- HL, firstn_app, Nat.sub_diag, firstn_all. cbn [firstn]. rewrite app_nil_r.
      rewrite skipn_app, skipn_all, Nat.sub_diag. cbn [skipn app]. reflexivity.
    + intros z. rewrite F2. split.
      * intros ([zs t] & -> & Hz). exists (ys ++ zs, t). split; [|exists zs; auto]. unfold g. cbn [fst snd].
        rewrite <- HL, firstn_app, Nat.sub_diag, firstn_all. cbn [firstn]. rewrite app_nil_r.
        rewrite skipn_app, skipn_all, Nat.sub_diag. cbn [skipn app]. reflexivity.
      * intros ([z' t] & -> & zs & Hz & E). cbn [fst snd] in *. subst z'. exists (zs, t). split; auto. unfold g. cbn [fst snd].
        rewrite <- HL, firstn_app, Nat.sub_diag, firstn_all. cbn [firstn]. rewrite app_nil_r.
        rewrite skipn_app, skipn_all, Nat.sub_diag. cbn [skipn app]. reflexivity.
  - intros P [z t]. cbn [fst snd]. rewrite mops_app. split.
    + intros ([ys u] & A1 & zs & B1 & ->). cbn [fst snd] in *. eauto 8.
    + intros (u & y1 & y2 & A1 & B1 & ->). exists (y1, u). eauto.
Qed.
Lemma chg_ret {A} w s (a : A) : chg w s (fun _ => a) (Ret (a, rc s)) [].
Proof.
  unfold chg. change (a, rc s) with ((fun yt : list GF * cst => (a, rc (snd yt))) ([], s)).
  eapply denP_iff; [apply (denP_ret w (fun yt : list GF * cst => (a, rc (snd yt))))|].
  intros P [ys t]. cbn [fst snd mops]. split; [intros E; injection E; auto|intros [-> ->]; reflexivity].
Qed.
Lemma chg_ext {A} w s (f g : list GF -> A) c ops :
  chg w s f c ops -> (forall ys, length ys = gets ops -> f ys = g ys) -> chg w s g c ops.
Proof.
  intros [H1 H2] E. split.
  - intros [ys t] Hy. cbn [fst snd] in *. rewrite <- E; [apply (H1 (ys,t)); auto|eapply mops_len; eauto].
  - intros z. rewrite H2. split; intros ([ys t] & -> & Hy); exists (ys, t); cbn [fst snd] in *; (split; [|auto]);
      rewrite E; auto; eapply mops_len; eauto.
Qed.
Lemma chg_ops {A} w s (f : list GF -> A) c o1 o2 : chg w s f c o1 -> o1 = o2 -> chg w s f c o2.
Proof. now intros H <-. Qed.
Lemma chd_ops w s c o1 o2 : chd w s c o1 -> o1 = o2 -> chd w s c o2.
Proof. now intros H <-. Qed.
Lemma chd_computes_bind {A} w s (c : circ A) a k ops : computes c a -> chd w s (k a) ops -> chd w s (bind c k) ops.
Proof. intros H1 H2. eapply denP_computes_bind; eauto. Qed.

Section Circuits.
Context (w : Z) (Hw : 128 <= w).

Lemma observe_chd s x : inv s -> reducible x -> chd w s (ObserveElement w (rc s) x) (observes [x]).
Proof.
  intros Hs Hx. unfold chd. eapply denP_iff; [now apply observe_denP|].
  intros P t. cbn [observes map mops]. split; [intros H; exists t; auto|intros (u & H & _ & ->); auto].
Qed.
(** folding an observing step *)
Lemma foldM_chd {A} (f : chal -> A -> circ chal) (g : A -> list Z) l :
  (forall s a, inv s -> In a l -> Forall reducible (g a) /\ chd w s (f (rc s) a) (observes (g a))) ->
  forall s, inv s -> chd w s (foldM f (rc s) l) (observes (flat_map g l)).
Proof.
  induction l as [|a l IH]; intros H s Hs; cbn [foldM flat_map].
  - apply chd_ret.
  - rewrite observes_app. destruct (H s a Hs (in_eq _ _)) as [HR HC]. apply chd_bind; auto.
    intros u Hu. apply IH; auto. intros; apply H; auto using in_cons.
Qed.
Lemma flat_map_single {A} (l : list A) : flat_map (fun x => [x]) l = l.
Proof. induction l; cbn; congruence. Qed.
Lemma observe_elements_chd s xs : inv s -> Forall reducible xs -> chd w s (ObserveElements w (rc s) xs) (observes xs).
Proof.
  intros Hs Hx. rewrite <- (flat_map_single xs) at 2. apply foldM_chd; auto.
  intros u a Hu Ha. rewrite Forall_forall in Hx. split; [constructor; auto|]. now apply observe_chd; auto.
Qed.
Lemma reducible_56 x : 0 <= x < 2 ^ 56 -> reducible x.
Proof. intros H. unfold reducible. assert (2 ^ 56 < 2 ^ 144 * p) by reflexivity. lia. Qed.
Lemma digits56_reducible x : 0 <= x < r -> Forall reducible (digits56 x).
Proof.
  intros H.
  assert (T : 0 <= x / 2 ^ 224 < 2 ^ 56).
  { split; [apply Z.div_pos; [lia|reflexivity]|]. apply Z.div_lt_upper_bound; [reflexivity|].
    assert (r < 2 ^ 224 * 2 ^ 56) by reflexivity. lia. }
  unfold digits56. repeat constructor; apply reducible_56; try exact T; apply Z.mod_pos_bound; reflexivity.
Qed.
Lemma observe_bn_chd s h : inv s -> 0 <= h < r -> chd w s (ObserveBN254Hash w (rc s) h) (observes (digits56 h)).
Proof.
  intros Hs Hh. eapply chd_computes_bind; [now apply ToVec_digits|].
  apply observe_elements_chd; auto. now apply digits56_reducible.
Qed.
Lemma observe_cap_chd s cap : inv s -> Forall inr_ cap ->
  chd w s (ObserveCap w (rc s) cap) (observes (flat_map digits56 cap)).
Proof.
  intros Hs Hc. apply foldM_chd; auto. intros u h Hu Hh. rewrite Forall_forall in Hc.
  split; [now apply digits56_reducible, Hc|]. apply observe_bn_chd; auto. now apply Hc.
Qed.
Definition qe_list (a : QE) : list Z := [fst a; snd a].
Lemma observe_exts_chd s l : inv s -> Forall reducible (flat_map qe_list l) ->
  chd w s (ObserveExtensionElements w (rc s) l) (observes (flat_map qe_list l)).
Proof.
  intros Hs Hl. apply foldM_chd; auto. intros u a Hu Ha.
  assert (R : Forall reducible (qe_list a)).
  { rewrite Forall_forall in *. intros x Hx. apply Hl, in_flat_map. eauto. }
  split; [exact R|]. now apply observe_elements_chd.
Qed.
Lemma observe_openings_chd s l : inv s -> Forall reducible (flat_map (flat_map qe_list) l) ->
  chd w s (ObserveOpenings w (rc s) l) (observes (flat_map (flat_map qe_list) l)).
Proof.
  intros Hs Hl. apply foldM_chd; auto. intros u a Hu Ha.
  assert (R : Forall reducible (flat_map qe_list a)).
  { rewrite Forall_forall in *. intros x Hx. apply Hl, in_flat_map. eauto. }
  split; [exact R|]. now apply observe_exts_chd.
Qed.

Lemma get_chg s : inv s -> chg w s (fun ys => rep (hd g0 ys)) (GetChallenge w (rc s)) (asks 1).
Proof.
  intros Hs. unfold chg. destruct (getchallenge_denP w s Hw Hs) as [H1 H2]. split.
  - intros [ys t] Hy. cbn [asks repeat mops] in Hy. cbn [fst snd] in *.
    destruct Hy as (u & y & ys' & G & -> & -> & ->). apply (H1 (y, u) G).
  - intros z. rewrite H2. split.
    + intros ([y t] & -> & G). exists ([y], t). split; [reflexivity|]. cbn [asks repeat mops fst snd] in *. eauto 8.
    + intros ([ys t] & -> & Hy). cbn [asks repeat mops fst snd] in *.
      destruct Hy as (u & y & ys' & G & -> & -> & ->). exists (y, u). auto.
Qed.
Lemma ok_asks n : Forall op_ok (asks n).
Proof. induction n; constructor; cbn; auto. Qed.
Lemma getn_chg n : forall s, inv s -> chg w s (map rep) (GetNChallenges w (rc s) n) (asks n).
Proof.
  induction n as [|n IH]; intros s Hs; cbn [GetNChallenges].
  - eapply chg_ext; [apply chg_ret|]. cbn. intros ys H. apply length_zero_iff_nil in H. now subst.
  - change (asks (S n)) with (asks 1 ++ asks n).
    eapply chg_ext.
    + eapply (chg_bind w s _ _ (fun ys => rep (hd g0 ys)) (fun ys zs => rep (hd g0 ys) :: map rep zs)).
      * apply ok_asks.
      * exact Hs.
      * now apply get_chg.
      * intros ys u _ Hu. cbn beta iota. eapply chg_ops; [|apply app_nil_r].
        eapply chg_ext.
        -- eapply (chg_bind w u _ _ (map rep) (fun zs _ => rep (hd g0 ys) :: map rep zs)).
           ++ apply ok_asks.
           ++ exact Hu.
           ++ now apply IH.
           ++ intros zs v _ Hv. cbn beta iota. apply chg_ret.
        -- intros zs Hz. cbn beta. rewrite app_nil_r in Hz. rewrite firstn_all2 by lia. reflexivity.
    + intros ys Hy. cbn beta. rewrite gets_app, !gets_asks in Hy. rewrite gets_asks. destruct ys as [|y ys]; [cbn in Hy; lia|].
      reflexivity.
Qed.
Lemma chg_app_nil {A} s (f : list GF -> A) c o : chg w s f c (o ++ []) -> chg w s f c o.
Proof. now rewrite app_nil_r. Qed.

Definition toQE (ys : list GF) : QE := (rep (nth 0 ys g0), rep (nth 1 ys g0)).
Lemma getext_chg s : inv s -> chg w s toQE (GetExtensionChallenge w (rc s)) (asks 2).
Proof.
  intros Hs. apply chg_app_nil. unfold GetExtensionChallenge. eapply chg_ext.
  - eapply (chg_bind w s _ _ (map rep) (fun ys _ => toQE ys)); [apply ok_asks|exact Hs|now apply getn_chg|].
    intros ys u Hy Hu. rewrite gets_asks in Hy. destruct ys as [|a [|b [|c ys]]]; try (cbn in Hy; lia).
    cbn [map]. unfold nth_. cbn [nth_error of_opt bind]. apply chg_ret.
  - intros ys Hy. rewrite gets_app, gets_asks in Hy. cbn [gets] in Hy. rewrite gets_asks. rewrite firstn_all2 by lia. reflexivity.
Qed.
(** the challenges of the commit phase, two field elements for each cap *)
Fixpoint toQEs (n : nat) (ys : list GF) : list QE :=
  match n with O => [] | S n' => toQE (firstn 2 ys) :: toQEs n' (skipn 2 ys) end.
Definition beta_ops (caps : list FriMerkleCap) : list op :=
  flat_map (fun cap => observes (flat_map digits56 cap) ++ asks 2) caps.
Lemma gets_beta_ops caps : gets (beta_ops caps) = (2 * length caps)%nat.
Proof.
  induction caps as [|c caps IH]; cbn [beta_ops flat_map length]; [reflexivity|].
  fold (beta_ops caps). rewrite !gets_app, IH, gets_observes, gets_asks. lia.
Qed.
Lemma ok_observes xs : Forall reducible xs -> Forall op_ok (observes xs).
Proof. intros H. apply Forall_map. exact H. Qed.
Lemma cap_reducible cap : Forall inr_ cap -> Forall reducible (flat_map digits56 cap).
Proof.
  intros H. apply Forall_forall. intros x Hx. apply in_flat_map in Hx. destruct Hx as (h & Hh & Hx).
  rewrite Forall_forall in H. specialize (H h Hh). pose proof (digits56_reducible h H) as D.
  rewrite Forall_forall in D. auto.
Qed.
Lemma ok_beta_ops caps : Forall (Forall inr_) caps -> Forall op_ok (beta_ops caps).
Proof.
  induction 1 as [|c caps Hc _ IH]; cbn [beta_ops flat_map]; [constructor|].
  apply Forall_app. split; [|exact IH]. apply Forall_app. split; [now apply ok_observes, cap_reducible|apply ok_asks].
Qed.
Lemma getbetas_chg caps : Forall (Forall inr_) caps -> forall s, inv s ->
  chg w s (toQEs (length caps)) (getBetas w (rc s) caps) (beta_ops caps).
Proof.
  induction 1 as [|cap caps Hc Hcs IH]; intros s Hs; cbn [getBetas beta_ops flat_map length toQEs].
  - apply chg_ret.
  - fold (beta_ops caps). rewrite <- app_assoc. apply chd_chg_bind; auto using cap_reducible, observe_cap_chd.
    intros u Hu. eapply chg_ext.
    + eapply (chg_bind w u _ _ toQE (fun ys zs => toQE ys :: toQEs (length caps) zs)); [apply ok_asks|exact Hu|now apply getext_chg|].
      intros ys v Hy Hv. cbn beta iota. apply chg_app_nil. eapply chg_ext.
      * eapply (chg_bind w v _ _ (toQEs (length caps)) (fun zs _ => toQE ys :: toQEs (length caps) zs));
          [now apply ok_beta_ops|exact Hv|now apply IH|].
        intros zs t Hz Ht. cbn beta iota. apply chg_ret.
      * intros zs Hz. cbn beta. rewrite app_nil_r in Hz. rewrite firstn_all2 by lia. reflexivity.
    + intros ys Hy. rewrite gets_asks. reflexivity.
Qed.

(** [GetFriChallenges]: cut the flat list of challenges *)
Definition fri_of (ncaps nq : nat) (ys : list GF) : FriChallenges :=
  let y1 := skipn 2 ys in
  let y2 := skipn (2 * ncaps) y1 in
  mkFriChallenges (toQE (firstn 2 ys)) (toQEs ncaps (firstn (2 * ncaps) y1)) (rep (hd g0 (firstn 1 y2)))
                  (map rep (firstn nq (skipn 1 y2))).
Definition fri_ops (caps : list FriMerkleCap) (finalPoly : list QE) (pow : Z) (nq : nat) : list op :=
  asks 2 ++ beta_ops caps ++ observes (flat_map qe_list finalPoly ++ [pow]) ++ asks (1 + nq).
Lemma friChallenges_chg s caps fp pow cfg : inv s -> Forall (Forall inr_) caps ->
  Forall reducible (flat_map qe_list fp) -> reducible pow ->
  chg w s (fri_of (length caps) (NumQueryRounds cfg)) (GetFriChallenges w (rc s) caps fp pow cfg)
      (fri_ops caps fp pow (NumQueryRounds cfg)).
Proof.
  intros Hs Hc Hf Hp. unfold GetFriChallenges, fri_ops. set (nq := NumQueryRounds cfg).
  rewrite observes_app, <- app_assoc, (asks_app 1 nq).
  eapply chg_ext.
  - eapply (chg_bind w s _ _ toQE (fun ya y1 =>
        mkFriChallenges (toQE ya) (toQEs (length caps) (firstn (2 * length caps) y1))
           (rep (hd g0 (firstn 1 (skipn (2 * length caps) y1)))) (map rep (firstn nq (skipn 1 (skipn (2 * length caps) y1))))));
      [apply ok_asks|exact Hs|now apply getext_chg|].
    intros ya u _ Hu. cbn beta iota. eapply chg_ext.
    + eapply (chg_bind w u _ _ (toQEs (length caps)) (fun yb y2 =>
          mkFriChallenges (toQE ya) (toQEs (length caps) yb)
           (rep (hd g0 (firstn 1 y2))) (map rep (firstn nq (skipn 1 y2)))));
        [now apply ok_beta_ops|exact Hu|now apply getbetas_chg|].
      intros yb v _ Hv. cbn beta iota. apply chd_chg_bind; auto using observe_exts_chd.
      intros u2 Hu2. apply chd_chg_bind; auto. { now apply observe_chd. }
      intros u3 Hu3. eapply chg_ext.
      * eapply (chg_bind w u3 _ _ (fun ys => rep (hd g0 ys)) (fun y3 y4 =>
            mkFriChallenges (toQE ya) (toQEs (length caps) yb) (rep (hd g0 y3)) (map rep (firstn nq y4))));
          [apply ok_asks|exact Hu3|now apply get_chg|].
        intros y3 v3 _ Hv3. cbn beta iota. apply chg_app_nil. eapply chg_ext.
        -- eapply (chg_bind w v3 _ _ (map rep) (fun y4 _ =>
              mkFriChallenges (toQE ya) (toQEs (length caps) yb) (rep (hd g0 y3)) (map rep y4)));
            [apply ok_asks|exact Hv3|now apply getn_chg|].
           intros y4 v4 _ Hv4. cbn beta iota. apply chg_ret.
        -- intros y4 _. cbn beta. now rewrite gets_asks.
      * intros y3 _. cbn beta. rewrite gets_asks. reflexivity.
    + intros y1 _. cbn beta. rewrite gets_beta_ops. reflexivity.
  - intros ys _. cbn beta. rewrite gets_asks. reflexivity.
Qed.
End Circuits.
