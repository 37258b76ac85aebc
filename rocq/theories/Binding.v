(** * What the state of the challenger determines: the elements observed so far, up to collisions of the sponge. *)
From Coq Require Import String.
From Coq Require Import ZArith Lia List Bool.
From Verif Require Import Zp GF Circuit Goldilocks PoseidonSpec PoseidonGL PoseidonGLProofs Sponge DenP BN254 BN254Hash Types
  Challenger ChallengerProofs ChallengerPhases Transcript ChallengerTop PoseidonPerm.
Import ListNotations.
Open Scope Z_scope.

(** the same sequence of calls, with other values *)
Definition same_call (o o' : op) : Prop :=
  match o, o' with OObs _, OObs _ => True | OGet, OGet => True | _, _ => False end.
Definition same_calls : list op -> list op -> Prop := Forall2 same_call.

Lemma pgraph_inj s t u : length s = 12%nat -> length t = 12%nat -> pgraph s u -> pgraph t u -> s = t.
Proof. intros Ls Lt H1 H2. apply (perm_inj 12 poseidon poseidon_perm); auto. unfold pgraph in *. congruence. Qed.

Lemma app_inj_len {A} (a b x y : list A) : length a = length b -> a ++ x = b ++ y -> a = b /\ x = y.
Proof.
  revert b. induction a as [|c a IH]; intros [|d b] L E; try discriminate; [auto|].
  injection L as L. cbn [app] in E. injection E as -> E. destruct (IH b L E) as [-> ->]. auto.
Qed.
Lemma overwrite_inj (a b s t : list GF) : length a = length b -> overwrite a s = overwrite b t ->
  a = b /\ skipn (length a) s = skipn (length a) t.
Proof. unfold overwrite. intros L E. rewrite <- L in E. now apply app_inj_len in E. Qed.
Lemma skipn_le {A} (s t : list A) : forall i j, (i <= j)%nat -> skipn i s = skipn i t -> skipn j s = skipn j t.
Proof.
  intros i j H E. replace j with (i + (j - i))%nat by lia.
  assert (K : forall (l : list A) a b, skipn (a + b) l = skipn b (skipn a l)).
  { clear. intros l a. revert l. induction a as [|a IH]; intros l b; [reflexivity|]. destruct l; [destruct b; reflexivity|]. apply IH. }
  now rewrite !K, E.
Qed.
(** one permutation: the same state afterwards *)
Lemma dup_back u u' v v' : length (cs u) = 12%nat -> length (cs u') = 12%nat -> (length (cin u) <= 8)%nat ->
  length (cin u) = length (cin u') -> dup pgraph u v -> dup pgraph u' v' -> cs v = cs v' ->
  map inj (cin u) = map inj (cin u') /\ skipn (length (cin u)) (cs u) = skipn (length (cin u)) (cs u').
Proof.
  intros L1 L2 L3 L4 (st & H & ->) (st' & H' & ->) E. cbn [cs] in E. subst st'.
  assert (X : overwrite (map inj (cin u)) (cs u) = overwrite (map inj (cin u')) (cs u')).
  { apply (pgraph_inj _ _ st); auto; rewrite length_overwrite; auto; rewrite map_length; lia. }
  apply overwrite_inj in X; [|rewrite !map_length; exact L4]. now rewrite map_length in X.
Qed.

Definition split_at (k : nat) (ops ops' : list op) (u u' : cst) : Prop :=
  exists y y', mops pgraph (firstn k ops) cst0 y u /\ mops pgraph (firstn k ops') cst0 y' u'.
(** after [k] calls the states differ, but not in their last four elements *)
Definition inner_at (k : nat) (ops ops' : list op) : Prop :=
  exists u u', split_at k ops ops' u u' /\ cs u <> cs u' /\ skipn 8 (cs u) = skipn 8 (cs u').

Lemma split_app k ops ops' a a' u u' : (k <= length ops)%nat -> length ops = length ops' ->
  split_at k ops ops' u u' -> split_at k (ops ++ a) (ops' ++ a') u u'.
Proof.
  intros Hk L (y & y' & H & H'). exists y, y'. rewrite !firstn_app.
  replace (k - length ops)%nat with O by lia. replace (k - length ops')%nat with O by lia.
  cbn [firstn]. rewrite !app_nil_r. auto.
Qed.
Lemma same_calls_len ops ops' : same_calls ops ops' -> length ops = length ops'.
Proof. induction 1; cbn; auto. Qed.

Lemma sponge_binding ops : forall ops' ys ys' t t', same_calls ops ops' -> Forall op_ok ops -> Forall op_ok ops' ->
  mops pgraph ops cst0 ys t -> mops pgraph ops' cst0 ys' t' ->
  length (cin t) = length (cin t') /\ length (cout t) = length (cout t') /\
  (cs t = cs t' -> map inj (cin t) = map inj (cin t') ->
   map inj (observed ops) = map inj (observed ops') \/ exists k, (k <= length ops)%nat /\ inner_at k ops ops').
Proof.
  induction ops as [|o ops IH] using rev_ind; intros ops' ys ys' t t' S O O' H H'.
  - inversion S; subst. destruct H as [_ ->]. destruct H' as [_ ->]. auto.
  - apply Forall2_app_inv_l in S. destruct S as (ops0' & lo & S & So & ->).
    inversion So as [|? o' ? lo' Sc Sn]; subst. inversion Sn; subst. clear So Sn.
    apply Forall_app in O. destruct O as [O Oo]. apply Forall_app in O'. destruct O' as [O' Oo'].
    apply mops_app in H. destruct H as (u & y1 & y2 & H & Ho & ->).
    apply mops_app in H'. destruct H' as (u' & y1' & y2' & H' & Ho' & ->).
    destruct (IH _ _ _ _ _ S O O' H H') as (Li & Lo & IHc). clear IH.
    pose proof (mops_inv pgraph ops okP_pgraph O _ _ _ inv0 H) as (I1 & I2 & I3 & _).
    pose proof (mops_inv pgraph ops0' okP_pgraph O' _ _ _ inv0 H') as (I1' & I2' & I3' & _).
    pose proof (same_calls_len _ _ S) as L.
    assert (NOW : split_at (length ops) (ops ++ [o]) (ops0' ++ [o']) u u').
    { apply split_app; auto. exists y1, y1'. rewrite firstn_all, L, firstn_all. auto. }
    assert (BACK : forall k, (k <= length ops)%nat -> inner_at k ops ops0' -> inner_at k (ops ++ [o]) (ops0' ++ [o'])).
    { intros k Hk (v & v' & Hv & X). exists v, v'. split; [now apply split_app|exact X]. }
    assert (OB : forall l (x : op), observed (l ++ [x]) = observed l ++ observed [x]).
    { intros l x. unfold observed. apply flat_map_app. }
    (* the pending elements and the states agree before the call *)
    assert (DONE : map inj (observed [o]) = map inj (observed [o']) -> map inj (cin u) = map inj (cin u') ->
       skipn 8 (cs u) = skipn 8 (cs u') ->
       map inj (observed (ops ++ [o])) = map inj (observed (ops0' ++ [o'])) \/
       exists k, (k <= length (ops ++ [o]))%nat /\ inner_at k (ops ++ [o]) (ops0' ++ [o'])).
    { intros E1 E2 E3. rewrite app_length. destruct (list_eq_dec GF_eq_dec (cs u) (cs u')) as [E|N].
      - destruct (IHc E E2) as [X|(k & Hk & X)].
        + left. rewrite !OB, !map_app. congruence.
        + right. exists k. split; [lia|]. now apply BACK.
      - right. exists (length ops). split; [lia|]. exists u, u'. auto. }
    destruct o as [x|], o' as [x'|]; try contradiction; cbn [mops] in Ho, Ho'.
    + destruct Ho as (v & Hv & -> & ->). destruct Ho' as (v' & Hv' & -> & ->). unfold obs in Hv, Hv'. cbn [cin] in Hv, Hv'.
      rewrite app_length in Hv, Hv'. cbn [length] in Hv, Hv'. rewrite <- Li in Hv'.
      destruct (Nat.eqb_spec (length (cin u) + 1) 8) as [E8|E8].
      * pose proof (dup_inv _ _ _ okP_pgraph Hv) as (_ & C1 & _ & C2). pose proof (dup_inv _ _ _ okP_pgraph Hv') as (_ & C1' & _ & C2').
        rewrite C1, C1', C2, C2'. split; [reflexivity|]. split; [reflexivity|]. intros E _.
        destruct (dup_back (mkCst (cs u) (cin u ++ [x]) []) (mkCst (cs u') (cin u' ++ [x']) []) _ _ I1 I1' ltac:(cbn [cin]; rewrite app_length; cbn [length]; lia) ltac:(cbn [cin]; rewrite !app_length; cbn [length]; lia) Hv Hv' E) as [X Y].
        cbn [cin cs] in X, Y. rewrite app_length in Y. cbn [length] in Y. rewrite E8 in Y.
        rewrite !map_app in X. cbn [map] in X. apply app_inj_tail in X. destruct X as [X1 X2].
        apply DONE; auto. cbn [observed flat_map app map]. now rewrite X2.
      * subst v v'. cbn [cs cin cout]. rewrite (app_length (cin u)), (app_length (cin u')). cbn [length]. split; [lia|]. split; [reflexivity|].
        intros E X. rewrite !map_app in X. cbn [map] in X. apply app_inj_tail in X. destruct X as [X1 X2].
        apply DONE; auto; [|now rewrite E]. cbn [observed flat_map app map]. now rewrite X2.
    + destruct Ho as (v & y & ys & (w & Hw & E1 & E2 & E3) & -> & -> & ->).
      destruct Ho' as (v' & y' & ys' & (w' & Hw' & E1' & E2' & E3') & -> & -> & ->).
      rewrite E2, E2', E3, E3'.
      assert (Lv : length (cout w) = (length (cout v) + 1)%nat) by (rewrite E1, app_length; reflexivity).
      assert (Lv' : length (cout w') = (length (cout v') + 1)%nat) by (rewrite E1', app_length; reflexivity).
      rewrite <- Li, <- Lo in Hw'.
      destruct (negb (Nat.eqb (length (cin u)) 0) || Nat.eqb (length (cout u)) 0).
      * pose proof (dup_inv _ _ _ okP_pgraph Hw) as (_ & C1 & _ & C2). pose proof (dup_inv _ _ _ okP_pgraph Hw') as (_ & C1' & _ & C2').
        rewrite C1, C1'. split; [reflexivity|]. split; [lia|]. intros E _.
        destruct (dup_back u u' _ _ I1 I1' ltac:(lia) Li Hw Hw' E) as [X Y].
        apply DONE; auto. eapply skipn_le; [|exact Y]. lia.
      * subst w w'. split; [exact Li|]. split; [lia|]. intros E X. apply DONE; auto. now rewrite E.
Qed.

(** after [k] calls the states differ, but not in their first eight elements *)
Definition rate_at (k : nat) (ops ops' : list op) : Prop :=
  exists u u', split_at k ops ops' u u' /\ cs u <> cs u' /\ firstn 8 (cs u) = firstn 8 (cs u').
Definition near_collision (ops ops' : list op) : Prop :=
  exists k, (k <= length ops)%nat /\ (inner_at k ops ops' \/ rate_at k ops ops').

Lemma get_cin P s y t : get P s y t -> cin t = [].
Proof.
  intros (u & Hu & _ & _ & ->). destruct (negb (Nat.eqb (length (cin s)) 0) || Nat.eqb (length (cout s)) 0) eqn:B.
  - destruct Hu as (st & _ & ->). reflexivity.
  - subst u. apply orb_false_elim in B. destruct B as [B _]. apply negb_false_iff, Nat.eqb_eq in B. now apply length_zero_iff_nil.
Qed.
Lemma mops_asks_cin P a s ys t : mops P (a ++ [OGet]) s ys t -> cin t = [].
Proof.
  intros H. apply mops_app in H. destruct H as (u & y1 & y2 & _ & (v & y & ys' & G & _ & _ & ->) & _). eapply get_cin; eauto.
Qed.
Lemma ends_get a caps : exists b, a ++ asks 2 ++ beta_ops caps = b ++ [OGet].
Proof.
  induction caps as [|c caps _] using rev_ind.
  - exists (a ++ [OGet]). cbn [beta_ops flat_map asks repeat app]. now rewrite <- app_assoc.
  - unfold beta_ops. rewrite flat_map_app. cbn [flat_map]. rewrite app_nil_r.
    exists (a ++ asks 2 ++ flat_map (fun cap => observes (flat_map digits56 cap) ++ asks 2) caps ++ observes (flat_map digits56 c) ++ [OGet]).
    change (asks 2) with ([OGet] ++ [OGet]) at 3. now rewrite <- !app_assoc.
Qed.
Lemma same_calls_app a a' b b' : same_calls a a' -> same_calls b b' -> same_calls (a ++ b) (a' ++ b').
Proof. apply Forall2_app. Qed.
Lemma same_observes : forall xs xs', length xs = length xs' -> same_calls (observes xs) (observes xs').
Proof. induction xs as [|x xs IH]; intros [|x' xs'] L; try discriminate; constructor; [exact I|]. apply IH. now injection L. Qed.
Lemma same_asks n : same_calls (asks n) (asks n).
Proof. induction n; constructor; auto. exact I. Qed.
Lemma observed_app a b : observed (a ++ b) = observed a ++ observed b.
Proof. apply flat_map_app. Qed.
Lemma observed_asks n : observed (asks n) = [].
Proof. induction n; auto. Qed.
Lemma observed_observes xs : observed (observes xs) = xs.
Proof. induction xs as [|x xs IH]; [reflexivity|]. cbn. f_equal. exact IH. Qed.

Lemma prefix_inner a a' b b' k : length a = length a' -> (k <= length a)%nat -> inner_at k a a' -> inner_at k (a ++ b) (a' ++ b').
Proof. intros L Hk (u & u' & S & X). exists u, u'. split; [now apply split_app|exact X]. Qed.

(** a final phase that draws at least eight challenges *)
Lemma final_binding pre pre' xs xs' n ys ys' t t' :
  (exists b, pre = b ++ [OGet]) -> (exists b, pre' = b ++ [OGet]) ->
  same_calls pre pre' -> length xs = length xs' -> xs <> [] ->
  Forall op_ok pre -> Forall op_ok pre' -> Forall reducible xs -> Forall reducible xs' ->
  mops pgraph (pre ++ observes xs ++ asks (8 + n)) cst0 ys t ->
  mops pgraph (pre' ++ observes xs' ++ asks (8 + n)) cst0 ys' t' ->
  skipn (gets pre) ys = skipn (gets pre') ys' ->
  map inj (observed pre ++ xs) = map inj (observed pre' ++ xs') \/
  near_collision (pre ++ observes xs ++ asks (8 + n)) (pre' ++ observes xs' ++ asks (8 + n)).
Proof.
  intros [b Eb] [b' Eb'] S L Nx O O' Ox Ox' H H' E.
  assert (Nx' : xs' <> []) by (intros ->; destruct xs; [congruence|discriminate]).
  assert (SP : forall p x b ys t, p = b ++ [OGet] -> x <> [] ->
     mops pgraph (p ++ observes x ++ asks (8 + n)) cst0 ys t ->
     exists y1 st y3, mops pgraph (p ++ observes x ++ asks 8) cst0 (y1 ++ rev (firstn 8 st)) (fresh st 0) /\
        length y1 = gets p /\ ys = y1 ++ rev (firstn 8 st) ++ y3 /\ (8 <= length st)%nat).
  { clear. intros p x b ys t Ep Nx H. rewrite asks_app, !app_assoc in H.
    apply mops_app in H. destruct H as (u & y1 & y2 & H & _ & ->).
    rewrite <- !app_assoc in *. pose proof H as H0. apply mops_app in H. destruct H as (v & z1 & z2 & H1 & H2 & ->).
    assert (Cv : cin v = []) by (rewrite Ep in H1; eapply mops_asks_cin; eauto).
    pose proof (mops_len _ _ _ _ _ H1) as Lz. pose proof (mops_len _ _ _ _ _ H2) as Lz2.
    rewrite gets_app, gets_observes, gets_asks in Lz2.
    apply phase_mops in H2; auto using okP_pgraph; [|lia].
    destruct H2 as (s' & (st & bl & _ & (-> & ->) & ->) & ->). cbn [Nat.sub Nat.modulo Nat.divmod fst snd] in H0.
    assert (Ls : (8 <= length st)%nat) by (rewrite firstn_length, rev_length, firstn_length in Lz2; lia).
    rewrite firstn_all2 in * by (rewrite rev_length, firstn_length; lia).
    exists z1, st, y2. split; [exact H0|]. split; [exact Lz|]. split; [now rewrite <- !app_assoc|].
    exact Ls. }
  destruct (SP _ _ _ _ _ Eb Nx H) as (y1 & st & y3 & A & La & -> & Ls).
  destruct (SP _ _ _ _ _ Eb' Nx' H') as (y1' & st' & y3' & A' & La' & -> & Ls'). clear SP.
  rewrite <- La, <- La' in E. rewrite !skipn_app, !skipn_all, !Nat.sub_diag in E. cbn [skipn app] in E.
  apply app_inj_len in E; [|rewrite !rev_length, !firstn_length; lia]. destruct E as [E _].
  assert (EF : firstn 8 st = firstn 8 st') by (rewrite <- (rev_involutive (firstn 8 st)), E; apply rev_involutive).
  assert (SA : same_calls (pre ++ observes xs ++ asks 8) (pre' ++ observes xs' ++ asks 8)).
  { apply same_calls_app; [exact S|]. apply same_calls_app; [now apply same_observes|apply same_asks]. }
  assert (OA : Forall op_ok (pre ++ observes xs ++ asks 8)) by (rewrite !Forall_app; auto using ok_asks, ok_observes).
  assert (OA' : Forall op_ok (pre' ++ observes xs' ++ asks 8)) by (rewrite !Forall_app; auto using ok_asks, ok_observes).
  pose proof (same_calls_len _ _ SA) as LA.
  assert (X : forall p x, p ++ observes x ++ asks (8 + n) = (p ++ observes x ++ asks 8) ++ asks n).
  { intros p x. rewrite asks_app, <- !app_assoc. reflexivity. }
  rewrite !X. clear X.
  destruct (list_eq_dec GF_eq_dec st st') as [Es|Ns].
  - destruct (sponge_binding _ _ _ _ _ _ SA OA OA' A A') as (_ & _ & B).
    destruct (B Es eq_refl) as [B1|(k & Hk & B1)].
    + left. rewrite !observed_app, !observed_observes, !observed_asks, !app_nil_r in B1. exact B1.
    + right. exists k. split; [rewrite app_length; lia|]. left. now apply prefix_inner.
  - right. exists (length (pre ++ observes xs ++ asks 8)). split; [rewrite (app_length _ (asks n)); apply Nat.le_add_r|]. right.
    exists (fresh st 0), (fresh st' 0). split; [|auto].
    apply split_app; auto. do 2 eexists. rewrite firstn_all, LA, firstn_all. split; [exact A|exact A'].
Qed.

(** ** The whole transcript *)
(** everything in the two proofs that is observed has the same length *)
Definition same_lengths (pih pih' : list Z) (pr pr' : Proof_) : Prop :=
  let o := Openings pr in let o' := Openings pr' in
  length pih = length pih' /\
  length (WiresCap pr) = length (WiresCap pr') /\
  length (PlonkZsPartialProductsCap pr) = length (PlonkZsPartialProductsCap pr') /\
  length (QuotientPolysCap pr) = length (QuotientPolysCap pr') /\
  length (Constants o) = length (Constants o') /\ length (PlonkSigmas o) = length (PlonkSigmas o') /\
  length (Wires o) = length (Wires o') /\ length (PlonkZs o) = length (PlonkZs o') /\
  length (PlonkZsNext o) = length (PlonkZsNext o') /\ length (PartialProducts o) = length (PartialProducts o') /\
  length (QuotientPolys o) = length (QuotientPolys o') /\
  map (@length Z) (CommitPhaseMerkleCaps (OpeningProof pr)) = map (@length Z) (CommitPhaseMerkleCaps (OpeningProof pr')) /\
  length (FinalPoly (OpeningProof pr)) = length (FinalPoly (OpeningProof pr')).
(** everything that is observed is the same; only the query rounds may differ *)
Definition same_data (d d' : Z) (pih pih' : list Z) (pr pr' : Proof_) : Prop :=
  d = d' /\ pih = pih' /\ WiresCap pr = WiresCap pr' /\
  PlonkZsPartialProductsCap pr = PlonkZsPartialProductsCap pr' /\ QuotientPolysCap pr = QuotientPolysCap pr' /\
  Openings pr = Openings pr' /\
  CommitPhaseMerkleCaps (OpeningProof pr) = CommitPhaseMerkleCaps (OpeningProof pr') /\
  FinalPoly (OpeningProof pr) = FinalPoly (OpeningProof pr') /\ PowWitness (OpeningProof pr) = PowWitness (OpeningProof pr').
(** digests are field elements of BN254, the others canonical Goldilocks elements *)
Definition canonical_data (d : Z) (pih : list Z) (pr : Proof_) : Prop :=
  let c x := 0 <= x < p in
  inr_ d /\ Forall c pih /\ Forall inr_ (WiresCap pr) /\ Forall inr_ (PlonkZsPartialProductsCap pr) /\
  Forall inr_ (QuotientPolysCap pr) /\ Forall c (openings_elems (Openings pr)) /\
  Forall (Forall inr_) (CommitPhaseMerkleCaps (OpeningProof pr)) /\
  Forall c (flat_map qe_list (FinalPoly (OpeningProof pr))) /\ c (PowWitness (OpeningProof pr)).

Lemma canon_reducible x : 0 <= x < p -> reducible x.
Proof. intros H. unfold reducible. assert (p <= 2 ^ 144 * p) by (vm_compute; discriminate). lia. Qed.
Lemma canonical_ok d pih pr : canonical_data d pih pr -> transcript_ok d pih pr.
Proof.
  intros (D1 & D2 & D3 & D4 & D5 & D6 & D7 & D8 & D9). unfold transcript_ok.
  repeat (split; [first [assumption | eapply Forall_impl; [|eassumption]; intros; now apply canon_reducible]|]).
  now apply canon_reducible.
Qed.

Definition observed_all (d : Z) (pih : list Z) (pr : Proof_) : list Z :=
  digits56 d ++ pih ++ cap_elems (WiresCap pr) ++ cap_elems (PlonkZsPartialProductsCap pr) ++
  cap_elems (QuotientPolysCap pr) ++ openings_elems (Openings pr) ++
  flat_map cap_elems (CommitPhaseMerkleCaps (OpeningProof pr)) ++
  flat_map qe_list (FinalPoly (OpeningProof pr)) ++ [PowWitness (OpeningProof pr)].

Lemma digits_len x : length (digits56 x) = 5%nat. Proof. reflexivity. Qed.
Lemma digits_inj x y : digits56 x = digits56 y -> x = y.
Proof. intros E. rewrite (digits56_value x), (digits56_value y), E. reflexivity. Qed.
Lemma flat_len {A} (f : A -> list Z) n l : (forall x, length (f x) = n) -> length (flat_map f l) = (n * length l)%nat.
Proof. intros H. induction l as [|x l IH]; cbn [flat_map length]; [lia|]. rewrite app_length, H, IH. lia. Qed.
Lemma flat_inj {A} (f : A -> list Z) n : (forall x, length (f x) = n) -> (forall x y, f x = f y -> x = y) ->
  forall l l', length l = length l' -> flat_map f l = flat_map f l' -> l = l'.
Proof.
  intros H1 H2. induction l as [|x l IH]; intros [|y l'] L E; try discriminate; [reflexivity|].
  cbn [flat_map] in E. apply app_inj_len in E; [|now rewrite !H1]. destruct E as [E1 E2].
  f_equal; [now apply H2|]. apply IH; auto.
Qed.
Lemma qe_inj x y : qe_list x = qe_list y -> x = y.
Proof. destruct x, y. unfold qe_list. cbn [fst snd]. intros E. injection E as -> ->. reflexivity. Qed.
Lemma cap_len c : length (cap_elems c) = (5 * length c)%nat.
Proof. apply flat_len, digits_len. Qed.
Lemma cap_inj c c' : length c = length c' -> cap_elems c = cap_elems c' -> c = c'.
Proof. apply (flat_inj digits56 5 digits_len digits_inj). Qed.
Lemma caps_inj : forall l l', map (@length Z) l = map (@length Z) l' -> flat_map cap_elems l = flat_map cap_elems l' -> l = l'.
Proof.
  induction l as [|c l IH]; intros [|c' l'] L E; try discriminate; [reflexivity|].
  cbn [map] in L. injection L as L1 L2. cbn [flat_map] in E.
  apply app_inj_len in E; [|now rewrite !cap_len, L1]. destruct E as [E1 E2]. f_equal; [now apply cap_inj|now apply IH].
Qed.
Lemma caps_len : forall l l', map (@length Z) l = map (@length Z) l' -> length (flat_map cap_elems l) = length (flat_map cap_elems l').
Proof.
  induction l as [|c l IH]; intros [|c' l'] L; try discriminate; [reflexivity|].
  cbn [map] in L. injection L as L1 L2. cbn [flat_map]. rewrite !app_length, !cap_len, L1. f_equal. now apply IH.
Qed.
Lemma qes_len l : length (flat_map qe_list l) = (2 * length l)%nat.
Proof. apply flat_len. intros []; reflexivity. Qed.
Lemma openings_len o : length (openings_elems o) =
  (2 * (length (Constants o) + length (PlonkSigmas o) + length (Wires o) + length (PlonkZs o) + length (PartialProducts o) +
   length (QuotientPolys o) + length (PlonkZsNext o)))%nat.
Proof. unfold openings_elems. rewrite app_length, !qes_len, !app_length. lia. Qed.

Lemma observed_same d d' pih pih' pr pr' : same_lengths pih pih' pr pr' ->
  observed_all d pih pr = observed_all d' pih' pr' -> same_data d d' pih pih' pr pr'.
Proof.
  intros (L1 & L2 & L3 & L4 & L5 & L6 & L7 & L8 & L9 & L10 & L11 & L12 & L13) E. unfold observed_all in E.
  apply app_inj_len in E; [|reflexivity]. destruct E as [E1 E].
  apply app_inj_len in E; [|exact L1]. destruct E as [E2 E].
  apply app_inj_len in E; [|rewrite !cap_len; lia]. destruct E as [E3 E].
  apply app_inj_len in E; [|rewrite !cap_len; lia]. destruct E as [E4 E].
  apply app_inj_len in E; [|rewrite !cap_len; lia]. destruct E as [E5 E].
  apply app_inj_len in E; [|rewrite !openings_len; lia]. destruct E as [E6 E].
  apply app_inj_len in E; [|now apply caps_len]. destruct E as [E7 E].
  apply app_inj_len in E; [|rewrite !qes_len; lia]. destruct E as [E8 E].
  assert (QI := flat_inj qe_list 2 (fun x => eq_refl) qe_inj).
  unfold same_data. split; [now apply digits_inj|]. split; [exact E2|]. split; [now apply cap_inj|].
  split; [now apply cap_inj|]. split; [now apply cap_inj|].
  split; [|split; [now apply caps_inj|split; [now apply QI|now injection E]]].
  unfold openings_elems in E6. apply app_inj_len in E6; [|rewrite !qes_len, !app_length; lia]. destruct E6 as [F1 F2].
  apply QI in F1; [|rewrite !app_length; lia]. apply QI in F2; [|exact L9].
  apply app_inj_len in F1; [|lia]. destruct F1 as [G1 F1].
  apply app_inj_len in F1; [|lia]. destruct F1 as [G2 F1].
  apply app_inj_len in F1; [|lia]. destruct F1 as [G3 F1].
  apply app_inj_len in F1; [|lia]. destruct F1 as [G4 F1].
  apply app_inj_len in F1; [|lia]. destruct F1 as [G5 G6].
  destruct (Openings pr) as [a1 a2 a3 a4 a5 a6 a7], (Openings pr') as [b1 b2 b3 b4 b5 b6 b7]. cbn [Constants PlonkSigmas Wires PlonkZs PlonkZsNext PartialProducts QuotientPolys] in *.
  congruence.
Qed.
