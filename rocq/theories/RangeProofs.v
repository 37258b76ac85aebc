(** * Lemmas about RangeModes.v *)
From Coq Require Import String.
From Coq Require Import ZArith Lia List Bool Arith Permutation.
From Verif Require Import Zp Circuit Goldilocks RangeModes.
Import ListNotations.
Open Scope Z_scope.

(** ** Cost model *)
Fixpoint zsum (l : list Z) : Z := match l with [] => 0 | x :: l' => x + zsum l' end.

Lemma zsum_app l l' : zsum (l ++ l') = zsum l + zsum l'.
Proof. induction l as [|x l IH]; cbn [app zsum]; [reflexivity|]. rewrite IH. ring. Qed.
Lemma zsum_perm l l' : Permutation l l' -> zsum l = zsum l'.
Proof. induction 1; cbn [zsum]; lia. Qed.
Lemma zsum_nonneg l : Forall (fun x => 0 <= x) l -> 0 <= zsum l.
Proof. induction 1; cbn [zsum]; lia. Qed.

Lemma nbDecomposed_acc w l : forall n,
  fold_left (fun n v => n + decompSize (snd v) w) l n = n + zsum (map (fun v : Z * Z => decompSize (snd v) w) l).
Proof.
  induction l as [|v l IH]; intros n; cbn [fold_left map zsum]; [ring|]. rewrite IH. ring.
Qed.
Lemma nbDecomposed_sum w l : nbDecomposed w l = zsum (map (fun v : Z * Z => decompSize (snd v) w) l).
Proof. unfold nbDecomposed. rewrite nbDecomposed_acc. ring. Qed.

Lemma decompSize_nonneg n w : 0 <= n -> 0 < w -> 0 <= decompSize n w.
Proof. intros. unfold decompSize. rewrite Z.quot_div_nonneg by lia. apply Z.div_pos; lia. Qed.

Lemma decompSize_spec n w : 0 <= n -> 0 < w ->
  n <= w * decompSize n w /\ (forall k, 0 <= k -> n <= w * k -> decompSize n w <= k).
Proof.
  intros Hn Hw. unfold decompSize. rewrite Z.quot_div_nonneg by lia. split.
  - pose proof (Z.mul_div_le (n + w - 1) w Hw). pose proof (Z.mod_pos_bound (n + w - 1) w Hw).
    pose proof (Z.div_mod (n + w - 1) w ltac:(lia)). lia.
  - intros k Hk Hnk. apply Z.lt_succ_r. apply Z.div_lt_upper_bound; lia.
Qed.

Lemma decompSize_aligned n w : 0 <= n -> 0 < w -> (w | n) -> w * decompSize n w = n.
Proof.
  intros Hn Hw [k ->]. destruct (decompSize_spec (k * w) w Hn Hw) as [H1 H2].
  assert (0 <= k) by nia. specialize (H2 k ltac:(assumption) ltac:(nia)). nia.
Qed.

Lemma nbDecomposed_nonneg w l : 0 < w -> Forall (fun v : Z * Z => 0 <= snd v) l -> 0 <= nbDecomposed w l.
Proof.
  intros Hw H. rewrite nbDecomposed_sum. apply zsum_nonneg.
  apply Forall_map. eapply Forall_impl; [|exact H]. intros v Hv. cbv beta in Hv. apply decompSize_nonneg; lia.
Qed.

(** *** first minimum of the loop *)
Lemma loop_min (f : Z -> Z) (js : list Z) : forall m v m' v',
  fold_left (fun st j => if f j <? fst st then (f j, j) else st) js (m, v) = (m', v') ->
  (m' = m /\ v' = v /\ Forall (fun j => m <= f j) js) \/
  (exists l1 l2, js = l1 ++ v' :: l2 /\ m' = f v' /\ f v' < m /\
     Forall (fun j => f v' < f j) l1 /\ Forall (fun j => f v' <= f j) l2).
Proof.
  induction js as [|j js IH]; intros m v m' v' E; cbn [fold_left fst] in E.
  - injection E as <- <-. left. auto.
  - destruct (Z.ltb_spec (f j) m) as [L|L].
    + destruct (IH _ _ _ _ E) as [(-> & -> & F)|(l1 & l2 & -> & -> & L' & F1 & F2)].
      * right. exists [], js. cbn. auto.
      * right. exists (j :: l1), l2. cbn. repeat split; try lia; auto.
    + destruct (IH _ _ _ _ E) as [(-> & -> & F)|(l1 & l2 & -> & -> & L' & F1 & F2)].
      * left. auto.
      * right. exists (j :: l1), l2. cbn. repeat split; try lia; auto. constructor; [lia|auto].
Qed.

Definition widths : list Z := [2; 3; 4; 5; 6; 7; 8; 9; 10; 11; 12; 13; 14; 15; 16; 17].

Lemma in_widths j : In j widths <-> 2 <= j <= 17.
Proof. unfold widths. cbn [In]. lia. Qed.

Fixpoint increasing (l : list Z) : bool :=
  match l with
  | a :: (b :: _) as l' => (a <? b) && increasing l'
  | _ => true
  end.
Lemma increasing_below l1 : forall v l2, increasing (l1 ++ v :: l2) = true ->
  Forall (fun j => j < v) l1 /\ Forall (fun j => v < j) l2.
Proof.
  assert (A : forall l v, increasing (v :: l) = true -> Forall (fun j => v < j) l).
  { induction l as [|b l IH]; intros v H; [constructor|].
    cbn [increasing] in H. apply andb_true_iff in H. destruct H as [H1 H2]. apply Z.ltb_lt in H1.
    constructor; [lia|]. eapply Forall_impl; [|apply (IH _ H2)]. cbv beta. lia. }
  induction l1 as [|a l1 IH]; intros v l2 H.
  - split; [constructor|]. now apply A.
  - cbn [app] in H. pose proof (A _ _ H) as F.
    assert (I : increasing (l1 ++ v :: l2) = true).
    { destruct (l1 ++ v :: l2) eqn:E; [reflexivity|]. cbn [increasing] in H. apply andb_true_iff in H. tauto. }
    destruct (IH _ _ I) as [F1 F2]. split; [|assumption]. constructor; [|assumption].
    rewrite Forall_forall in F. apply F. apply in_or_app. right. now left.
Qed.

Lemma optimalWidth_spec f l : (exists j, 2 <= j <= 17 /\ f j l < MaxInt64) ->
  let w := optimalWidth f l in
  2 <= w <= 17 /\ (forall j, 2 <= j <= 17 -> f w l <= f j l) /\ (forall j, 2 <= j < w -> f w l < f j l).
Proof.
  intros (j0 & Hj0 & L0). unfold optimalWidth. fold widths.
  destruct (fold_left _ widths (MaxInt64, 0)) as [m' v'] eqn:E. cbn [snd].
  apply (loop_min (fun j => f j l)) in E. destruct E as [(_ & _ & F)|(l1 & l2 & E & _ & L & F1 & F2)].
  - rewrite Forall_forall in F. specialize (F j0 (proj2 (in_widths _) Hj0)). cbv beta in F. lia.
  - assert (I : increasing (l1 ++ v' :: l2) = true) by (rewrite <- E; reflexivity).
    destruct (increasing_below _ _ _ I) as [B1 B2].
    rewrite Forall_forall in F1, F2, B1, B2.
    assert (Hv : In v' widths) by (rewrite E; apply in_or_app; right; now left).
    apply in_widths in Hv. split; [exact Hv|]. split.
    + intros j Hj. apply in_widths in Hj. rewrite E in Hj. apply in_app_or in Hj.
      destruct Hj as [Hj|[->|Hj]]; [specialize (F1 _ Hj)|lia|specialize (F2 _ Hj)]; cbv beta in *; lia.
    + intros j Hj. assert (Hj' : In j widths) by (apply in_widths; lia). rewrite E in Hj'. apply in_app_or in Hj'.
      destruct Hj' as [Hj'|[->|Hj']]; [now apply F1|lia|]. specialize (B2 _ Hj'). lia.
Qed.

(** if all costs are out of range the loop returns 0 *)
Lemma optimalWidth_zero f l : (forall j, 2 <= j <= 17 -> MaxInt64 <= f j l) -> optimalWidth f l = 0.
Proof.
  intros H. unfold optimalWidth. fold widths.
  destruct (fold_left _ widths (MaxInt64, 0)) as [m' v'] eqn:E. cbn [snd].
  apply (loop_min (fun j => f j l)) in E. destruct E as [(_ & -> & F)|(l1 & l2 & E & _ & L & _)]; [reflexivity|].
  assert (Hv : In v' widths) by (rewrite E; apply in_or_app; right; now left).
  apply in_widths in Hv. specialize (H _ Hv). lia.
Qed.

Lemma optimalWidth_unique f l w : (exists j, 2 <= j <= 17 /\ f j l < MaxInt64) ->
  2 <= w <= 17 -> (forall j, 2 <= j <= 17 -> f w l <= f j l) -> (forall j, 2 <= j < w -> f w l < f j l) ->
  optimalWidth f l = w.
Proof.
  intros He Hw H1 H2. destruct (optimalWidth_spec f l He) as (A & B & C). cbv zeta in *.
  set (o := optimalWidth f l) in *. clearbody o.
  destruct (Z.lt_trichotomy o w) as [L|[?|L]]; [|assumption|].
  - specialize (H2 o ltac:(lia)). specialize (B w Hw). lia.
  - specialize (C w ltac:(lia)). specialize (H1 o A). lia.
Qed.

(** the optimum is 16 iff... *)
Lemma optimalWidth_16 f l : optimalWidth f l = 16 ->
  (forall j, 2 <= j <= 17 -> f 16 l <= f j l) /\ (forall j, 2 <= j < 16 -> f 16 l < f j l) /\ f 16 l < MaxInt64.
Proof.
  intros E.
  assert (H : exists j, 2 <= j <= 17 /\ f j l < MaxInt64).
  { destruct (existsb (fun j => f j l <? MaxInt64) widths) eqn:X.
    - apply existsb_exists in X. destruct X as (j & Hj & L). apply in_widths in Hj. apply Z.ltb_lt in L. eauto.
    - rewrite optimalWidth_zero in E; [discriminate|]. intros j Hj. apply in_widths in Hj.
      destruct (Z.leb_spec MaxInt64 (f j l)) as [?|L]; [assumption|]. exfalso.
      assert (Y : existsb (fun j => f j l <? MaxInt64) widths = true)
        by (apply existsb_exists; exists j; split; [assumption|now apply Z.ltb_lt]).
      congruence. }
  destruct (optimalWidth_spec f l H) as (A & B & C). cbv zeta in *. rewrite E in *.
  split; [assumption|]. split; [assumption|]. destruct H as (j & Hj & L). specialize (B j Hj). lia.
Qed.

(** ** Gadgets *)
Lemma limbs_value_range w l : 0 <= w -> Forall (fun d => 0 <= d < 2 ^ w) l ->
  0 <= limbs_value w l < 2 ^ (w * Z.of_nat (length l)).
Proof.
  intros Hw. induction 1 as [|d l Hd Hl IH]; cbn [limbs_value length].
  - rewrite Z.mul_0_r. change (2 ^ 0) with 1. lia.
  - rewrite Nat2Z.inj_succ, Z.mul_succ_r, Z.add_comm, Z.pow_add_r by lia.
    pose proof (Z.pow_pos_nonneg 2 w ltac:(lia) Hw). nia.
Qed.

Lemma limbs_exist w : 0 <= w -> forall k x, 0 <= x < 2 ^ (w * Z.of_nat k) ->
  exists l, length l = k /\ Forall (fun d => 0 <= d < 2 ^ w) l /\ limbs_value w l = x.
Proof.
  intros Hw. induction k as [|k IH]; intros x Hx.
  - rewrite Z.mul_0_r in Hx. change (2 ^ 0) with 1 in Hx. exists []. cbn. repeat split; [constructor|lia].
  - rewrite Nat2Z.inj_succ, Z.mul_succ_r, Z.add_comm, Z.pow_add_r in Hx by lia.
    pose proof (Z.pow_pos_nonneg 2 w ltac:(lia) Hw) as P.
    destruct (IH (x / 2 ^ w)) as (l & L & F & E).
    { split; [apply Z.div_pos; lia|apply Z.div_lt_upper_bound; lia]. }
    exists (x mod 2 ^ w :: l). cbn [length limbs_value]. split; [lia|]. split.
    + constructor; [apply Z.mod_pos_bound; lia|assumption].
    + rewrite E. pose proof (Z.div_mod x (2 ^ w) ltac:(lia)). lia.
Qed.

Lemma holds_limbs w x n : 0 <= w -> inr_ x ->
  (holds (CLimbs w x n) <-> x < 2 ^ (w * Z.of_nat (Z.to_nat (decompSize n w)))).
Proof.
  intros Hw Hx. cbn [holds]. split.
  - intros (l & L & F & E). rewrite <- L. pose proof (limbs_value_range w l Hw F) as R.
    pose proof (Z.mod_le (limbs_value w l) r ltac:(lia) r_pos). lia.
  - intros H. destruct (limbs_exist w Hw (Z.to_nat (decompSize n w)) x) as (l & L & F & E).
    { unfold inr_ in Hx. lia. }
    exists l. split; [assumption|]. split; [assumption|]. rewrite E. now apply Z.mod_small.
Qed.

Lemma holds_limbs_aligned w x n : 0 < w -> 0 <= n -> (w | n) -> inr_ x ->
  (holds (CLimbs w x n) <-> 0 <= x < 2 ^ n).
Proof.
  intros Hw Hn Hd Hx. rewrite holds_limbs by (lia || assumption).
  rewrite Z2Nat.id by now apply decompSize_nonneg. rewrite decompSize_aligned by assumption.
  unfold inr_ in Hx. lia.
Qed.

Lemma of_bits_limbs l : of_bits l = limbs_value 1 l.
Proof. induction l as [|b l IH]; cbn [of_bits limbs_value]; [reflexivity|]. rewrite IH. reflexivity. Qed.

Lemma holds_bits x n : 0 <= n -> inr_ x -> (holds (CBits x n) <-> 0 <= x < 2 ^ n).
Proof.
  intros Hn Hx. rewrite <- (holds_limbs_aligned 1 x n) by (try lia; try assumption; apply Z.divide_1_l).
  cbn [holds]. assert (E : decompSize n 1 = n).
  { rewrite <- (decompSize_aligned n 1) at 2 by (try lia; apply Z.divide_1_l). lia. }
  rewrite E. split; intros (l & L & F & V); exists l; (split; [assumption|]); rewrite of_bits_limbs in *;
    (split; [|assumption]); (eapply Forall_impl; [|exact F]); cbv beta; change (2 ^ 1) with 2; lia.
Qed.

(** ** Circuits and traces *)
Lemma reach_traces {A} (c : circ A) : forall v,
  reach c v <-> exists l, traces c v l /\ Forall (fun q => 0 <= fst q < 2 ^ snd q) l.
Proof.
  induction c as [x|h n k IH|b k IH|x n k IH|m]; intros v; cbn [reach traces].
  - split; [intros ->; exists []; auto|intros (l & (-> & _) & _); reflexivity].
  - split.
    + intros (h' & L & F & R). apply IH in R. destruct R as (l & T & Q). eauto 7.
    + intros (l & (h' & L & F & T) & Q). exists h'. split; [assumption|]. split; [assumption|]. apply IH. eauto.
  - split.
    + intros (-> & R). apply IH in R. destruct R as (l & T & Q). eauto.
    + intros (l & (-> & T) & Q). split; [reflexivity|]. apply IH. eauto.
  - split.
    + intros (Hx & R). apply IH in R. destruct R as (l & T & Q). exists ((x, n) :: l). split; [eauto|].
      constructor; auto.
    + intros (l & (l' & -> & T) & Q). inversion_clear Q as [|? ? Q1 Q2]. split; [exact Q1|]. apply IH. eauto.
  - split; [tauto|]. intros (l & [] & _).
Qed.

Lemma traces_bind {A B} (c : circ A) (f : A -> circ B) : forall v l,
  traces (bind c f) v l <-> exists u l1 l2, l = l1 ++ l2 /\ traces c u l1 /\ traces (f u) v l2.
Proof.
  induction c as [x|h n k IH|b k IH|x n k IH|m]; intros v l; cbn [bind traces].
  - split; [intros H; exists x, [], l; auto|].
    intros (u & l1 & l2 & -> & (-> & ->) & T). exact T.
  - split.
    + intros (h' & L & F & T). apply IH in T. destruct T as (u & l1 & l2 & -> & T1 & T2).
      exists u, l1, l2. eauto 8.
    + intros (u & l1 & l2 & -> & (h' & L & F & T1) & T2). exists h'. split; [assumption|]. split; [assumption|].
      apply IH. eauto 8.
  - split.
    + intros (-> & T). apply IH in T. destruct T as (u & l1 & l2 & -> & T1 & T2). exists u, l1, l2. auto.
    + intros (u & l1 & l2 & -> & (-> & T1) & T2). split; [reflexivity|]. apply IH. eauto 8.
  - split.
    + intros (l' & -> & T). apply IH in T. destruct T as (u & l1 & l2 & -> & T1 & T2).
      exists u, ((x, n) :: l1), l2. split; [reflexivity|]. eauto.
    + intros (u & l1 & l2 & -> & (l' & -> & T1) & T2). exists (l' ++ l2). split; [reflexivity|].
      apply IH. eauto 8.
  - split; [tauto|]. intros (u & l1 & l2 & _ & [] & _).
Qed.

(** ** The machine seen by one api *)
Lemma lookup_update a b c m : lookup a (update b c m) = if Nat.eqb a b then Some c else lookup a m.
Proof.
  induction m as [|[d e] m IH]; cbn [update lookup].
  - destruct (Nat.eqb a b); reflexivity.
  - destruct (Nat.eqb_spec b d) as [->|Hbd]; cbn [lookup].
    + destruct (Nat.eqb a d); reflexivity.
    + rewrite IH. destruct (Nat.eqb_spec a d) as [->|Had]; [|reflexivity].
      destruct (Nat.eqb_spec d b); [congruence|reflexivity].
Qed.

Lemma update_keys a c m : NoDup (map fst m) -> NoDup (map fst (update a c m)).
Proof.
  assert (K : forall m x, In x (map fst (update a c m)) -> x = a \/ In x (map fst m)).
  { clear m. induction m as [|[d e] m IH]; cbn [update map fst In]; intros x H.
    - destruct H as [H|[]]; auto.
    - destruct (Nat.eqb_spec a d) as [->|Hd]; cbn [map fst In] in H; [tauto|].
      destruct H as [H|H]; [tauto|]. destruct (IH _ H); tauto. }
  induction m as [|[d e] m IH]; cbn [update map fst]; intros H.
  - constructor; [intros []|constructor].
  - destruct (Nat.eqb_spec a d) as [->|Hd]; cbn [map fst]; [exact H|].
    inversion_clear H as [|? ? H1 H2]. constructor; [|auto].
    intros X. destruct (K _ _ X); congruence || auto.
Qed.

Definition of_event (e : event) : api_id :=
  match e with ENew a => a | ECheck a _ _ => a | EForeign a => a end.
(** the part of a program that concerns [a] *)
Definition own (a : api_id) : list event -> list event := filter (fun e => Nat.eqb (of_event e) a).
Definition proj (a : api_id) (w : World) : option Chip * Builder := (lookup a (chips w), builders w a).

Section Machine.
Variable ubd : bool.
Variable api : api_id -> Api.
Notation step := (step ubd api). Notation play := (play ubd api). Notation finish := (finish api).
Notation compile := (compile ubd api). Notation chosen := (chosen ubd api).

Lemma step_other a e w w' : of_event e <> a -> step e w = Some w' -> proj a w' = proj a w.
Proof.
  intros Hne E. unfold proj. destruct e as [b|b x n|b]; cbn [of_event] in Hne; cbn [RangeModes.step] in E.
  - injection E as <-. unfold New. destruct (lookup b (chips w)); [reflexivity|]. cbn [chips builders].
    rewrite lookup_update. unfold set_builder. destruct (Nat.eqb_spec a b); [congruence|reflexivity].
  - unfold rangeCheckerCheck in E. destruct (lookup b (chips w)) as [p|]; [|discriminate].
    destruct (ctype p).
    + injection E as <-. reflexivity.
    + injection E as <-. cbn [chips builders]. rewrite lookup_update.
      destruct (Nat.eqb_spec a b); [congruence|reflexivity].
    + destruct (bitDecomp_Check x n (builders w b)); [|discriminate]. injection E as <-. cbn [chips builders].
      unfold set_builder. destruct (Nat.eqb_spec a b); [congruence|reflexivity].
  - injection E as <-. cbn [chips builders]. unfold set_builder.
    destruct (Nat.eqb_spec a b); [congruence|reflexivity].
Qed.

(** worlds that agree on [a] behave alike on the events of [a] *)
Lemma step_own a e w u : of_event e = a -> proj a w = proj a u ->
  match step e w, step e u with
  | Some w', Some u' => proj a w' = proj a u'
  | None, None => True
  | _, _ => False
  end.
Proof.
  intros <- E. unfold proj in *. injection E as E1 E2.
  destruct e as [b|b x n|b]; cbn [of_event] in *; cbn [RangeModes.step].
  - unfold New. rewrite <- E1. destruct (lookup b (chips w)) eqn:L.
    + congruence.
    + cbn [chips builders]. rewrite !lookup_update. unfold set_builder. rewrite !Nat.eqb_refl, E2. reflexivity.
  - unfold rangeCheckerCheck. rewrite <- E1. destruct (lookup b (chips w)) as [p|] eqn:L; [|exact I].
    destruct (ctype p).
    + congruence.
    + cbn [chips builders]. rewrite !lookup_update, !Nat.eqb_refl, E2. reflexivity.
    + rewrite <- E2. destruct (bitDecomp_Check x n (builders w b)); [|exact I]. cbn [chips builders].
      unfold set_builder. rewrite !Nat.eqb_refl. congruence.
  - cbn [chips builders]. unfold set_builder. rewrite !Nat.eqb_refl, E1, E2. reflexivity.
Qed.

Lemma play_own a evs : forall w u w', proj a w = proj a u -> play evs w = Some w' ->
  exists u', play (own a evs) u = Some u' /\ proj a w' = proj a u'.
Proof.
  induction evs as [|e evs IH]; intros w u w' E P; cbn [RangeModes.play] in P; cbn [own filter].
  - injection P as <-. exists u. auto.
  - destruct (step e w) as [w1|] eqn:S; [|discriminate].
    destruct (Nat.eqb_spec (of_event e) a) as [Ea|Ea].
    + pose proof (step_own a e w u Ea E) as H. rewrite S in H. destruct (step e u) as [u1|] eqn:S'; [|tauto].
      destruct (IH w1 u1 w' H P) as (u' & P' & E'). exists u'. split; [|assumption].
      cbn [RangeModes.play]. rewrite S'. exact P'.
    + apply (IH w1 u w'); [|assumption]. rewrite (step_other _ _ _ _ Ea S). exact E.
Qed.

Lemma finish_proj a w u : proj a w = proj a u -> finish a w = finish a u.
Proof. intros E. injection E as E1 E2. unfold RangeModes.finish. now rewrite E1, E2. Qed.

Lemma compile_own a evs w : play evs start = Some w -> compile a evs = compile a (own a evs).
Proof.
  intros P. destruct (play_own a evs start start w eq_refl P) as (u & P' & E).
  unfold RangeModes.compile. rewrite P, P'. now apply finish_proj.
Qed.

Lemma requests_own a evs : requests a (own a evs) = requests a evs.
Proof.
  induction evs as [|e evs IH]; [reflexivity|]. cbn [own filter]. fold (own a evs).
  destruct e as [b|b x n|b]; cbn [of_event requests]; rewrite ?(Nat.eqb_sym a b);
    destruct (Nat.eqb b a) eqn:E; cbn [requests]; rewrite ?(Nat.eqb_sym a b), ?E, IH; reflexivity.
Qed.
Lemma own_only a evs : Forall (fun e => of_event e = a) (own a evs).
Proof. apply Forall_forall. intros e H. apply filter_In in H. destruct H as [_ H]. now apply Nat.eqb_eq in H. Qed.

(** *** after New *)
Lemma play_app e1 e2 w : play (e1 ++ e2) w =
  match play e1 w with Some w' => play e2 w' | None => None end.
Proof.
  revert w. induction e1 as [|e e1 IH]; intros w; cbn [app RangeModes.play]; [reflexivity|].
  destruct (step e w); [apply IH|reflexivity].
Qed.

(** the builder after [New] and foreign calls *)
Definition ready (b : Builder) : Prop :=
  match checker b with None => False | Some _ => True end.

Lemma foreign_ready i b : ready b -> rangecheck_New i b = b.
Proof. unfold ready, rangecheck_New. destruct (checker b); [|tauto]. destruct (isRangechecker i), (isCommitter i); reflexivity. Qed.

Lemma play_commit a evs : forall w w' l b, Forall (fun e => of_event e = a) evs ->
  proj a w = (Some (mkChip COMMIT_RANGE_CHECKER l), b) -> ready b ->
  play evs w = Some w' -> proj a w' = (Some (mkChip COMMIT_RANGE_CHECKER (l ++ requests a evs)), b).
Proof.
  induction evs as [|e evs IH]; intros w w' l b F E R P; cbn [RangeModes.play requests] in *.
  - injection P as <-. rewrite app_nil_r. exact E.
  - inversion_clear F as [|? ? F1 F2]. injection E as E1 E2.
    destruct e as [c|c x n|c]; cbn [of_event] in F1; subst c; cbn [RangeModes.step] in P.
    + unfold New in P. rewrite E1 in P. eapply IH; eauto. unfold proj. congruence.
    + unfold rangeCheckerCheck in P. rewrite E1 in P. cbn [ctype collected] in P.
      rewrite Nat.eqb_refl. replace (l ++ (x, n) :: requests a evs) with ((l ++ [(x, n)]) ++ requests a evs)
        by (rewrite <- app_assoc; reflexivity).
      eapply IH; [exact F2| |exact R|exact P]. unfold proj. cbn [chips builders].
      rewrite lookup_update, Nat.eqb_refl. congruence.
    + eapply IH; [exact F2| |exact R|exact P]. unfold proj. cbn [chips builders]. unfold set_builder.
      rewrite Nat.eqb_refl, E1, E2, foreign_ready by assumption. reflexivity.
Qed.

(** in commit mode nothing panics while the circuit is defined *)
Lemma play_commit_total a evs : forall w l b, Forall (fun e => of_event e = a) evs ->
  proj a w = (Some (mkChip COMMIT_RANGE_CHECKER l), b) -> exists w', play evs w = Some w'.
Proof.
  induction evs as [|e evs IH]; intros w l b F E; cbn [RangeModes.play]; [eauto|].
  inversion_clear F as [|? ? F1 F2]. injection E as E1 E2.
  destruct e as [c|c x n|c]; cbn [of_event] in F1; subst c; cbn [RangeModes.step].
  - unfold New. rewrite E1. eapply IH; eauto. unfold proj. rewrite E1. reflexivity.
  - unfold rangeCheckerCheck. rewrite E1. cbn [ctype collected]. eapply IH; [assumption|].
    unfold proj. cbn [chips builders]. rewrite lookup_update, Nat.eqb_refl. reflexivity.
  - eapply IH; [assumption|]. unfold proj. cbn [chips builders]. rewrite E1. reflexivity.
Qed.

Definition bits_of_requests : list checkedVariable -> list constraint := map (fun q => CBits (fst q) (snd q)).

Lemma play_bits a evs : forall w b, Forall (fun e => of_event e = a) evs ->
  proj a w = (Some (mkChip BIT_DECOMP_RANGE_CHECKER []), b) ->
  (Forall (fun q => 0 < snd q) (requests a evs) ->
   exists w' b', play evs w = Some w' /\ proj a w' = (Some (mkChip BIT_DECOMP_RANGE_CHECKER []), b') /\
     emitted b' = emitted b ++ bits_of_requests (requests a evs) /\
     (deferred b' = deferred b \/ (checker b = None /\ deferred b' = deferred b ++ [GnarkCommit])) /\
     (checker b' = checker b \/ checker b' = Some ([], false))) /\
  (~ Forall (fun q => 0 < snd q) (requests a evs) -> play evs w = None).
Proof.
  induction evs as [|e evs IH]; intros w b F E; cbn [RangeModes.play requests].
  - split; [intros _; exists w, b; cbn; rewrite app_nil_r; auto 9|]. intros H. exfalso. apply H. constructor.
  - inversion_clear F as [|? ? F1 F2]. injection E as E1 E2.
    destruct e as [c|c x n|c]; cbn [of_event] in F1; subst c; cbn [RangeModes.step].
    + unfold New. rewrite E1. apply IH; [assumption|]. unfold proj. congruence.
    + unfold rangeCheckerCheck. rewrite E1. cbn [ctype]. rewrite Nat.eqb_refl. unfold bitDecomp_Check.
      destruct (Z.leb_spec n 0) as [Hn|Hn].
      * split; [|reflexivity]. intros H. inversion_clear H as [|? ? H1 H2]. cbn [snd] in H1. lia.
      * set (w1 := mkWorld _ _). set (b1 := mkBuilder _ _ _) in w1.
        assert (P : proj a w1 = (Some (mkChip BIT_DECOMP_RANGE_CHECKER []), b1)).
        { unfold proj, w1. cbn [chips builders]. unfold set_builder. now rewrite Nat.eqb_refl, E1. }
        destruct (IH w1 b1 F2 P) as [I1 I2]. split.
        -- intros H. inversion_clear H as [|? ? H1 H2]. destruct (I1 H2) as (w' & b' & Q1 & Q2 & Q3 & Q4 & Q5).
           exists w', b'. split; [assumption|]. split; [assumption|]. unfold b1 in *. cbn [emitted deferred checker] in *.
           rewrite E2 in *. split; [|tauto].
           rewrite Q3, <- app_assoc. reflexivity.
        -- intros H. apply I2. intros H'. apply H. constructor; [exact Hn|exact H'].
    + set (w1 := mkWorld _ _). set (b1 := rangecheck_New (api a) b).
      assert (P : proj a w1 = (Some (mkChip BIT_DECOMP_RANGE_CHECKER []), b1)).
      { unfold proj, w1, b1. cbn [chips builders]. unfold set_builder. now rewrite Nat.eqb_refl, E1, E2. }
      destruct (IH w1 b1 F2 P) as [I1 I2]. split; [|exact I2].
      intros H. destruct (I1 H) as (w' & b' & Q1 & Q2 & Q3 & Q4 & Q5). exists w', b'.
      split; [assumption|]. split; [assumption|].
      unfold b1, rangecheck_New in *. destruct (isRangechecker (api a)); [tauto|].
      destruct (isCommitter (api a)); [|tauto]. destruct (checker b) eqn:K; [rewrite K in *; tauto|].
      cbn [Defer emitted deferred checker] in *. split; [assumption|]. split; [right; split; [reflexivity|]|].
      * destruct Q4 as [Q4|[Q4 _]]; [assumption|discriminate].
      * right. destruct Q5; assumption.
Qed.

Lemma play_native a evs : isRangechecker (api a) = true -> forall w b, Forall (fun e => of_event e = a) evs ->
  proj a w = (Some (mkChip NATIVE_RANGE_CHECKER []), b) ->
  exists w', play evs w = Some w' /\ proj a w' = proj a w.
Proof.
  intros Hr. induction evs as [|e evs IH]; intros w b F E; cbn [RangeModes.play]; [eauto|].
  inversion_clear F as [|? ? F1 F2]. injection E as E1 E2.
  destruct e as [c|c x n|c]; cbn [of_event] in F1; subst c; cbn [RangeModes.step].
  - unfold New. rewrite E1. eapply IH; eauto. unfold proj. rewrite E1. reflexivity.
  - unfold rangeCheckerCheck. rewrite E1. cbn [ctype]. eapply IH; [assumption|]. unfold proj. rewrite E1. reflexivity.
  - set (w1 := mkWorld _ _). assert (P : proj a w1 = proj a w).
    { unfold proj, w1. cbn [chips builders]. unfold set_builder, rangecheck_New. now rewrite Nat.eqb_refl, Hr. }
    destruct (IH w1 b F2) as (w' & Q1 & Q2); [rewrite P; unfold proj; congruence|].
    exists w'. split; [assumption|]. congruence.
Qed.

(** *** before New: only foreign calls *)
Lemma play_prefix a evs : forall w w', Forall (fun e => of_event e = a) evs -> ~ In (ENew a) evs ->
  lookup a (chips w) = None -> play evs w = Some w' ->
  evs = repeat (EForeign a) (length evs) /\ lookup a (chips w') = None /\ requests a evs = [] /\
  builders w' a = (if Nat.eqb (length evs) 0 then builders w a else rangecheck_New (api a) (builders w a)).
Proof.
  induction evs as [|e evs IH]; intros w w' F H L P; cbn [RangeModes.play] in P.
  - injection P as <-. auto.
  - inversion_clear F as [|? ? F1 F2].
    destruct e as [c|c x n|c]; cbn [of_event] in F1; subst c; cbn [RangeModes.step] in P.
    + exfalso. apply H. now left.
    + unfold rangeCheckerCheck in P. rewrite L in P. discriminate.
    + destruct (IH (mkWorld (chips w) (set_builder a (rangecheck_New (api a) (builders w a)) (builders w))) w' F2)
        as (I1 & I2 & I3 & I4); [intros X; apply H; now right|exact L|exact P|].
      cbn [length repeat requests]. split; [now f_equal|]. split; [assumption|]. split; [assumption|].
      rewrite I4. cbn [builders Nat.eqb]. unfold set_builder. rewrite Nat.eqb_refl.
      destruct (Nat.eqb (length evs) 0); [reflexivity|].
      unfold rangecheck_New. destruct (isRangechecker (api a)) eqn:R1; rewrite ?R1; [reflexivity|].
      destruct (isCommitter (api a)) eqn:R2; rewrite ?R2; [|reflexivity].
      destruct (checker (builders w a)) eqn:K; cbn [checker Defer]; rewrite ?K; reflexivity.
Qed.

(** *** callbacks *)
Lemma handOver_ok nb l : forall b q, checker b = Some (q, false) ->
  handOver nb l b =
  if forallb (fun v => Z.rem (snd v) nb =? 0) l
  then Some (mkBuilder (deferred b) (Some (q ++ l, false)) (emitted b)) else None.
Proof.
  induction l as [|v l IH]; intros b q K; cbn [handOver forallb].
  - rewrite app_nil_r. destruct b as [d k e]. cbn [checker] in K. subst k. reflexivity.
  - destruct (Z.rem (snd v) nb =? 0); cbn [andb]; [|reflexivity].
    unfold commit_Check. rewrite K. rewrite (IH _ (q ++ [v])) by reflexivity. cbn [deferred emitted].
    rewrite <- app_assoc. reflexivity.
Qed.

Lemma handOver_closed nb v l b q : checker b = Some (q, true) -> handOver nb (v :: l) b = None.
Proof. intros K. cbn [handOver]. unfold commit_Check. rewrite K. destruct (_ =? _); reflexivity. Qed.
End Machine.

Lemma optimal_nil t : widthFor t [] = 2.
Proof. destruct t; reflexivity. Qed.

(** ** Compilation *)
(** someone has called gnark's rangecheck.New for [a] before the chip was created *)
Fixpoint foreign_first (a : api_id) (evs : list event) : bool :=
  match evs with
  | [] => false
  | ENew b :: l => if Nat.eqb a b then false else foreign_first a l
  | EForeign b :: l => if Nat.eqb a b then true else foreign_first a l
  | ECheck _ _ _ :: l => foreign_first a l
  end.

Lemma foreign_first_own a evs : foreign_first a (own a evs) = foreign_first a evs.
Proof.
  induction evs as [|e evs IH]; [reflexivity|]. cbn [own filter]. fold (own a evs).
  destruct e as [b|b x n|b]; cbn [of_event foreign_first]; rewrite ?(Nat.eqb_sym a b);
    destruct (Nat.eqb b a) eqn:E; cbn [foreign_first]; rewrite ?(Nat.eqb_sym a b), ?E, ?IH; reflexivity.
Qed.

Lemma in_own a e evs : In e (own a evs) <-> In e evs /\ of_event e = a.
Proof. unfold own. rewrite filter_In, Nat.eqb_eq. reflexivity. Qed.

Lemma first_new a evs : In (ENew a) evs -> exists pre post, evs = pre ++ ENew a :: post /\ ~ In (ENew a) pre.
Proof.
  induction evs as [|e evs IH]; intros H; [destruct H|].
  assert (D : e = ENew a \/ e <> ENew a).
  { destruct e as [b|b x n|b]; [|right; discriminate|right; discriminate].
    destruct (Nat.eq_dec b a) as [->|N]; [left; reflexivity|right; congruence]. }
  destruct D as [->|D]; [exists [], evs; cbn; auto|].
  destruct H as [H|H]; [congruence|]. destruct (IH H) as (pre & post & -> & N).
  exists (e :: pre), post. split; [reflexivity|]. cbn [In]. tauto.
Qed.

Lemma foreign_first_split a k post :
  foreign_first a (repeat (EForeign a) k ++ ENew a :: post) = negb (Nat.eqb k 0).
Proof. destruct k; cbn [repeat app foreign_first]; now rewrite Nat.eqb_refl. Qed.

Lemma requests_app a e1 e2 : requests a (e1 ++ e2) = requests a e1 ++ requests a e2.
Proof.
  induction e1 as [|e e1 IH]; [reflexivity|].
  destruct e as [b|b x n|b]; cbn [app requests]; try exact IH. destruct (Nat.eqb a b); cbn [app]; now rewrite IH.
Qed.

Section Machine2.
Variable ubd : bool.
Variable api : api_id -> Api.
Notation step := (step ubd api). Notation play := (play ubd api). Notation finish := (finish api).
Notation compile := (compile ubd api). Notation chosen := (chosen ubd api).

Definition limbs_of_requests (base : Z) : list checkedVariable -> list constraint :=
  map (fun q => CLimbs base (fst q) (snd q)).

Definition fresh_commit (k : nat) : Builder :=
  if Nat.eqb k 0 then mkBuilder [CheckCollected; GnarkCommit] (Some ([], false)) []
  else mkBuilder [GnarkCommit; CheckCollected] (Some ([], false)) [].

(** the state once the chip exists *)
Lemma after_new a k w : play (repeat (EForeign a) k) start = Some w ->
  proj a (New ubd api a w) =
  (Some (mkChip (chosen a) []),
   match chosen a with
   | COMMIT_RANGE_CHECKER => fresh_commit k
   | NATIVE_RANGE_CHECKER => fresh
   | BIT_DECOMP_RANGE_CHECKER => if Nat.eqb k 0 then fresh else rangecheck_New (api a) fresh
   end).
Proof.
  intros P. destruct (play_prefix ubd api a (repeat (EForeign a) k) start w) as (_ & L & _ & B); [|  |reflexivity|exact P|].
  { apply Forall_forall. intros e He. apply repeat_spec in He. now subst. }
  { intros He. apply repeat_spec in He. discriminate. }
  rewrite repeat_length in B. cbn [start builders] in B.
  unfold New. rewrite L. unfold proj. cbn [chips builders]. rewrite lookup_update, Nat.eqb_refl.
  unfold set_builder. rewrite Nat.eqb_refl, B. f_equal.
  unfold RangeModes.chosen, gnarkRangeCheckerSelector, fresh_commit, rangecheck_New, Defer, fresh.
  destruct ubd; [reflexivity|].
  destruct (isRangechecker (api a)) eqn:R; rewrite ?R; [destruct (Nat.eqb k 0); reflexivity|].
  destruct (isCommitter (api a)) eqn:C; rewrite ?C; destruct (Nat.eqb k 0); reflexivity.
Qed.

Lemma own_shape a evs w : play evs start = Some w -> In (ENew a) evs ->
  exists k post w0 w1, own a evs = repeat (EForeign a) k ++ ENew a :: post /\
    Forall (fun e => of_event e = a) post /\ requests a post = requests a evs /\
    negb (Nat.eqb k 0) = foreign_first a evs /\
    play (repeat (EForeign a) k) start = Some w0 /\ play post (New ubd api a w0) = Some w1 /\
    proj a w = proj a w1.
Proof.
  intros P H. destruct (play_own ubd api a evs start start w eq_refl P) as (u & P' & E).
  assert (H' : In (ENew a) (own a evs)) by (apply in_own; auto).
  pose proof (own_only a evs) as F.
  destruct (first_new a _ H') as (pre & post & Eo & N). rewrite Eo in *.
  apply Forall_app in F. destruct F as [F1 F2]. inversion_clear F2 as [|? ? _ F3].
  rewrite play_app in P'. destruct (play pre start) as [w0|] eqn:P0; [|discriminate].
  destruct (play_prefix ubd api a pre start w0 F1 N eq_refl P0) as (R & _ & Q & _).
  cbn [RangeModes.play RangeModes.step] in P'.
  exists (length pre), post, w0, u. rewrite <- R. repeat (split; [first [assumption|reflexivity]|]).
  split.
  { rewrite <- (requests_own a evs), Eo, requests_app, Q. reflexivity. }
  split; [|auto].
  rewrite <- (foreign_first_own a evs), Eo, R, repeat_length, foreign_first_split. reflexivity.
Qed.

Lemma runCallbacks_one a p cb b : runCallbacks api a p [cb] b = runCallback api a p cb b.
Proof. cbn [runCallbacks]. now destruct (runCallback api a p cb b). Qed.

Lemma getOptimalBasewidth_nil i : getOptimalBasewidth i [] = 2.
Proof. unfold getOptimalBasewidth. destruct (frontendTyper i) as [[]|]; reflexivity. Qed.

Theorem compile_commit a evs w : play evs start = Some w -> In (ENew a) evs ->
  chosen a = COMMIT_RANGE_CHECKER ->
  compile a evs =
  if negb (foreign_first a evs) && (getOptimalBasewidth (api a) (requests a evs) =? EXPECTED_OPTIMAL_BASEWIDTH)
     && forallb (fun q => Z.rem (snd q) EXPECTED_OPTIMAL_BASEWIDTH =? 0) (requests a evs)
  then Some (limbs_of_requests (widthFor (gnarkType (api a)) (requests a evs)) (requests a evs)) else None.
Proof.
  intros P H C. destruct (own_shape a evs w P H) as (k & post & w0 & w1 & _ & F & Rq & Ff & P0 & P1 & E).
  pose proof (after_new a k w0 P0) as A. rewrite C in A.
  assert (Rd : ready (fresh_commit k)) by (unfold fresh_commit; destruct (Nat.eqb k 0); exact I).
  pose proof (play_commit ubd api a post _ _ _ _ F A Rd P1) as B. cbn [app] in B. rewrite Rq in B.
  unfold RangeModes.compile. rewrite P. rewrite <- Ff. rewrite negb_involutive.
  unfold RangeModes.finish. injection E as E1 E2. rewrite E1, E2. injection B as B1 B2. rewrite B1, B2.
  set (l := requests a evs). unfold fresh_commit. destruct (Nat.eqb k 0); cbn [deferred andb].
  - cbn [runCallbacks]. unfold runCallback at 1. unfold checkCollected. cbn [ctype collected].
    destruct (Z.eqb_spec (getOptimalBasewidth (api a) l) EXPECTED_OPTIMAL_BASEWIDTH) as [Eo|Eo]; [|reflexivity].
    rewrite Eo. rewrite (handOver_ok _ l _ []) by reflexivity. cbn [andb].
    destruct (forallb (fun v : Z * Z => Z.rem (snd v) EXPECTED_OPTIMAL_BASEWIDTH =? 0) l); [|reflexivity].
    cbn [deferred emitted app runCallback]. unfold gnarkCommit. cbn [checker deferred emitted app]. reflexivity.
  - cbn [runCallbacks]. unfold runCallback at 1. unfold gnarkCommit. cbn [checker deferred emitted app map].
    unfold runCallback, checkCollected. cbn [ctype collected].
    destruct l as [|v l].
    + rewrite getOptimalBasewidth_nil. reflexivity.
    + destruct (getOptimalBasewidth (api a) (v :: l) =? EXPECTED_OPTIMAL_BASEWIDTH); [|reflexivity].
      erewrite handOver_closed; reflexivity.
Qed.

Theorem compile_bits a evs w : play evs start = Some w -> In (ENew a) evs ->
  chosen a = BIT_DECOMP_RANGE_CHECKER -> compile a evs = Some (bits_of_requests (requests a evs)) /\
  Forall (fun q => 0 < snd q) (requests a evs).
Proof.
  intros P H C. destruct (own_shape a evs w P H) as (k & post & w0 & w1 & _ & F & Rq & Ff & P0 & P1 & E).
  pose proof (after_new a k w0 P0) as A. rewrite C in A. cbv iota in A.
  set (b0 := if Nat.eqb k 0 then fresh else rangecheck_New (api a) fresh) in A.
  destruct (play_bits ubd api a post _ b0 F A) as [I1 I2].
  destruct (Forall_dec (fun q : checkedVariable => 0 < snd q) (fun q => Z_lt_dec 0 (snd q)) (requests a post)) as [G|G];
    [|rewrite (I2 G) in P1; discriminate].
  destruct (I1 G) as (w' & b' & Q1 & Q2 & Q3 & Q4 & Q5). rewrite P1 in Q1. injection Q1 as <-. rewrite Rq in *.
  split; [|assumption].
  unfold RangeModes.compile. rewrite P. unfold RangeModes.finish.
  injection E as E1 E2. injection Q2 as B1 B2. rewrite E1, E2, B1, B2.
  assert (B0 : emitted b0 = [] /\ (deferred b0 = [] \/ deferred b0 = [GnarkCommit] /\ checker b0 = Some ([], false))
               /\ (checker b0 = None \/ checker b0 = Some ([], false))).
  { unfold b0, rangecheck_New, Defer, fresh. destruct (Nat.eqb k 0); [cbn; auto|].
    destruct (isRangechecker (api a)), (isCommitter (api a)); cbn; auto 7. }
  destruct B0 as (Be & Bd & Bc). rewrite Be in Q3. cbn [app] in Q3.
  assert (D : deferred b' = [] \/ deferred b' = [GnarkCommit]).
  { destruct Q4 as [->|[K ->]]; destruct Bd as [Bd|[Bd Bk]]; rewrite Bd; cbn; auto. congruence. }
  assert (K : checker b' = None \/ checker b' = Some ([], false)).
  { destruct Q5 as [->| ->]; auto. }
  destruct D as [-> | ->].
  - cbn [runCallbacks]. now rewrite Q3.
  - rewrite runCallbacks_one. unfold runCallback, gnarkCommit. destruct K as [K|K]; rewrite K; cbn [emitted map].
    + now rewrite Q3.
    + now rewrite app_nil_r, Q3.
Qed.

Theorem compile_native a evs w : play evs start = Some w -> In (ENew a) evs ->
  chosen a = NATIVE_RANGE_CHECKER -> compile a evs = Some [].
Proof.
  intros P H C. destruct (own_shape a evs w P H) as (k & post & w0 & w1 & _ & F & Rq & Ff & P0 & P1 & E).
  pose proof (after_new a k w0 P0) as A. rewrite C in A. cbv iota in A.
  assert (R : isRangechecker (api a) = true).
  { unfold RangeModes.chosen, gnarkRangeCheckerSelector in C. destruct ubd; [discriminate|].
    destruct (isRangechecker (api a)); [reflexivity|]. destruct (isCommitter (api a)); discriminate. }
  destruct (play_native ubd api a post R _ _ F A) as (w' & Q1 & Q2). rewrite P1 in Q1. injection Q1 as <-.
  unfold RangeModes.compile. rewrite P. unfold RangeModes.finish.
  rewrite Q2, A in E. injection E as E1 E2. rewrite E1, E2. reflexivity.
Qed.

(** whether the definition phase of [a] alone goes through *)
Lemma play_define a l : exists w,
  (chosen a = BIT_DECOMP_RANGE_CHECKER -> Forall (fun q : checkedVariable => 0 < snd q) l) ->
  play (ENew a :: map (fun q => ECheck a (fst q) (snd q)) l) start = Some w.
Proof.
  assert (Rq : requests a (map (fun q => ECheck a (fst q) (snd q)) l) = l).
  { induction l as [|[x n] l IH]; [reflexivity|]. cbn [map requests]. now rewrite Nat.eqb_refl, IH. }
  assert (F : Forall (fun e => of_event e = a) (map (fun q => ECheck a (fst q) (snd q)) l)).
  { apply Forall_map, Forall_forall. reflexivity. }
  cbn [RangeModes.play RangeModes.step].
  pose proof (after_new a 0 start eq_refl) as A. cbn [Nat.eqb] in A.
  destruct (chosen a) eqn:C.
  - assert (R : isRangechecker (api a) = true).
    { unfold RangeModes.chosen, gnarkRangeCheckerSelector in C. destruct ubd; [discriminate|].
      destruct (isRangechecker (api a)); [reflexivity|]. destruct (isCommitter (api a)); discriminate. }
    destruct (play_native ubd api a _ R _ _ F A) as (w' & Q1 & _). eauto.
  - destruct (play_commit_total ubd api a _ _ _ _ F A) as (w' & Q1). eauto.
  - destruct (play_bits ubd api a _ _ _ F A) as [I1 I2]. rewrite Rq in *.
    destruct (Forall_dec (fun q : checkedVariable => 0 < snd q) (fun q => Z_lt_dec 0 (snd q)) l) as [G|G].
    + destruct (I1 G) as (w' & b' & Q & _). exists w'. auto.
    + exists start. intros X. elim G. auto.
Qed.

Lemma requests_define a l : requests a (ENew a :: map (fun q => ECheck a (fst q) (snd q)) l) = l.
Proof.
  cbn [requests]. induction l as [|[x n] l IH]; [reflexivity|]. cbn [map requests]. now rewrite Nat.eqb_refl, IH.
Qed.
End Machine2.

(** ** Widths of a circuit *)
(** every request the circuit can make has a width in [P] *)
Fixpoint all_widths (P : Z -> Prop) {A} (c : circ A) : Prop :=
  match c with
  | Ret _ => True
  | Hint _ n k => forall h, all_widths P (k h)
  | Assert _ k => all_widths P k
  | Range _ n k => P n /\ all_widths P k
  | Panic _ => True
  end.
(** between 1 and 253 bits *)
Definition widths_ok {A} (c : circ A) : Prop := all_widths (fun n => 0 < n <= 253) c.

Lemma all_widths_traces (P : Z -> Prop) {A} (c : circ A) : all_widths P c -> forall v l, traces c v l ->
  Forall (fun q => P (snd q)) l.
Proof.
  induction c as [x|h n k IH|b k IH|x n k IH|m]; intros W v l T; cbn [all_widths traces] in *.
  - destruct T as [_ ->]. constructor.
  - destruct T as (h' & L & _ & T). eauto.
  - destruct T as [_ T]. eauto.
  - destruct T as (l' & -> & T). destruct W as [W1 W2]. constructor; [exact W1|eauto].
  - destruct T.
Qed.
Lemma widths_traces {A} (c : circ A) : widths_ok c -> forall v l, traces c v l ->
  Forall (fun q => 0 < snd q <= 253) l.
Proof. exact (all_widths_traces (fun n => 0 < n <= 253) c). Qed.

Lemma all_widths_bind P {A B} (c : circ A) (f : A -> circ B) :
  all_widths P c -> (forall v, all_widths P (f v)) -> all_widths P (bind c f).
Proof. induction c as [x|h n k IH|b k IH|x n k IH|m]; cbn [all_widths bind]; intros; intuition auto. Qed.

Lemma all_widths_impl (P Q : Z -> Prop) {A} (c : circ A) : (forall n, P n -> Q n) -> all_widths P c -> all_widths Q c.
Proof. intros H. induction c as [x|h n k IH|b k IH|x n k IH|m]; cbn [all_widths]; intros; intuition auto. Qed.

Lemma pow253_r : 2 ^ 253 < r.
Proof. reflexivity. Qed.

Lemma holds_bits_small x n : 0 < n <= 253 -> (holds (CBits x n) <-> 0 <= x < 2 ^ n).
Proof.
  intros Hn. split.
  - intros H. assert (Hx : inr_ x).
    { destruct H as (l & _ & _ & <-). apply Z.mod_pos_bound, r_pos. }
    apply holds_bits in H; [assumption|lia|assumption].
  - intros H. apply holds_bits; [lia| |assumption].
    pose proof (Z.pow_le_mono_r 2 n 253 ltac:(lia) ltac:(lia)). pose proof pow253_r. unfold inr_. lia.
Qed.

Lemma holds_limbs_small w x n : 0 < w -> 0 < n <= 253 -> (w | n) -> (holds (CLimbs w x n) <-> 0 <= x < 2 ^ n).
Proof.
  intros Hw Hn Hd. split.
  - intros H. assert (Hx : inr_ x).
    { destruct H as (l & _ & _ & <-). apply Z.mod_pos_bound, r_pos. }
    apply holds_limbs_aligned in H; [assumption|lia|lia|assumption|assumption].
  - intros H. apply holds_limbs_aligned; [lia|lia|assumption| |assumption].
    pose proof (Z.pow_le_mono_r 2 n 253 ltac:(lia) ltac:(lia)). pose proof pow253_r. unfold inr_. lia.
Qed.

(** ** The two cost functions *)
Lemma r1cs_eq w l : 0 <= w -> nbR1CSConstraints w l = 2 ^ w + nbDecomposed w l + Z.of_nat (length l) + 1.
Proof. intros. unfold nbR1CSConstraints. cbv zeta. rewrite Z.shiftl_mul_pow2 by lia. ring. Qed.
Lemma plonk_eq w l : 0 <= w -> nbPLONKConstraints w l = 3 * 2 ^ w + 4 * nbDecomposed w l + 1.
Proof. intros. unfold nbPLONKConstraints. cbv zeta. rewrite Z.shiftl_mul_pow2 by lia. ring. Qed.

Lemma decompSize_16_17 n : 0 <= n < 272 -> (16 | n) -> decompSize n 16 <= decompSize n 17.
Proof.
  intros Hn [k Hk]. destruct (decompSize_spec n 16 ltac:(lia) ltac:(lia)) as [_ H].
  destruct (decompSize_spec n 17 ltac:(lia) ltac:(lia)) as [H' _].
  specialize (H k ltac:(lia) ltac:(lia)). lia.
Qed.

Lemma decompSize_le n w : 0 <= n -> 0 < w -> decompSize n w <= n.
Proof. intros Hn Hw. apply decompSize_spec; [lia|lia|lia|nia]. Qed.

Lemma nbDecomposed_le w w' l (P : Z * Z -> Prop) : Forall P l ->
  (forall q, P q -> decompSize (snd q) w <= decompSize (snd q) w') -> nbDecomposed w l <= nbDecomposed w' l.
Proof.
  intros F H. rewrite !nbDecomposed_sum. induction F as [|q l Hq F IH]; cbn [map zsum]; [lia|].
  specialize (H q Hq). lia.
Qed.

Lemma nbDecomposed_bound w l m : 0 < w -> 0 <= m -> Forall (fun q : Z * Z => 0 <= snd q <= m) l ->
  nbDecomposed w l <= m * Z.of_nat (length l).
Proof.
  intros Hw Hm F. rewrite nbDecomposed_sum. induction F as [|q l Hq F IH]; cbn [map zsum length]; [lia|].
  rewrite Nat2Z.inj_succ. pose proof (decompSize_le (snd q) w ltac:(lia) Hw). lia.
Qed.

(** 16 is the optimum of gnark's PLONK cost function whenever it is that of the R1CS one *)
Lemma r1cs_plonk_16 l : Z.of_nat (length l) < 2 ^ 50 ->
  Forall (fun q => 0 <= snd q < 272 /\ (16 | snd q)) l ->
  optimalWidth nbR1CSConstraints l = 16 -> optimalWidth nbPLONKConstraints l = 16.
Proof.
  intros Hs F H. apply optimalWidth_16 in H. destruct H as (H1 & H2 & _).
  assert (D : nbDecomposed 16 l <= nbDecomposed 17 l).
  { eapply nbDecomposed_le; [exact F|]. intros q [Hq Hd]. now apply decompSize_16_17. }
  assert (B : nbDecomposed 16 l <= 272 * Z.of_nat (length l)).
  { apply nbDecomposed_bound; [lia|lia|]. eapply Forall_impl; [|exact F]. cbv beta. lia. }
  apply optimalWidth_unique.
  - exists 16. split; [lia|]. rewrite plonk_eq by lia. unfold MaxInt64. change (2 ^ 50) with 1125899906842624 in Hs.
    change (2 ^ 16) with 65536. change (2 ^ 63) with 9223372036854775808. lia.
  - lia.
  - intros j Hj. rewrite !plonk_eq by lia. destruct (Z.eq_dec j 17) as [->|Hn].
    + change (2 ^ 17) with 131072. change (2 ^ 16) with 65536. lia.
    + specialize (H1 j Hj). rewrite !r1cs_eq in H1 by lia.
      pose proof (Z.pow_le_mono_r 2 j 16 ltac:(lia) ltac:(lia)). lia.
  - intros j Hj. rewrite !plonk_eq by lia. specialize (H2 j Hj). rewrite !r1cs_eq in H2 by lia.
    pose proof (Z.pow_lt_mono_r 2 j 16 ltac:(lia) ltac:(lia) ltac:(lia)). lia.
Qed.

(** halving the width at most doubles the number of limbs *)
Lemma decompSize_8_16 n : 0 <= n -> decompSize n 8 <= 2 * decompSize n 16.
Proof.
  intros Hn. destruct (decompSize_spec n 16 Hn ltac:(lia)) as [H _].
  apply decompSize_spec; [lia|lia| |lia]. pose proof (decompSize_nonneg n 16 Hn ltac:(lia)). lia.
Qed.

Lemma nbDecomposed_8_16 l : Forall (fun q : Z * Z => 0 <= snd q) l -> nbDecomposed 8 l <= 2 * nbDecomposed 16 l.
Proof.
  intros F. rewrite !nbDecomposed_sum. induction F as [|q l Hq F IH]; cbn [map zsum]; [lia|].
  pose proof (decompSize_8_16 (snd q) Hq). lia.
Qed.

Lemma nbDecomposed_repeat w x n k : nbDecomposed w (repeat (x, n) k) = Z.of_nat k * decompSize n w.
Proof.
  rewrite nbDecomposed_sum. induction k as [|k IH]; cbn [repeat map zsum]; [lia|].
  rewrite IH, Nat2Z.inj_succ. cbn [snd]. lia.
Qed.
Lemma nbDecomposed_app w l l' : nbDecomposed w (l ++ l') = nbDecomposed w l + nbDecomposed w l'.
Proof. rewrite !nbDecomposed_sum, map_app, zsum_app. reflexivity. Qed.

(** ** Native mode *)
Lemma traces_RangeCheck_any x : inr_ x -> traces (RangeCheck x) tt [(0, 32); (x, 32)].
Proof.
  intros Hx. unfold RangeCheck, hint_, nth_, api_assert_eq, range_, api_select, assert_, of_opt.
  cbn [bind traces]. exists [0; x]. split; [reflexivity|]. split; [constructor; [split; reflexivity || discriminate|constructor; [exact Hx|constructor]]|].
  cbn [nth_error bind traces]. split.
  { apply Z.eqb_eq. unfold api_add, api_mul. rewrite Z.mul_0_l, Zmod_0_l, Z.add_0_l. now apply Z.mod_small. }
  eexists. split; [reflexivity|]. eexists. split; [reflexivity|]. cbn [bind traces].
  assert (E : api_is_zero (api_sub 0 (2 ^ 32 - 1)) = 0) by reflexivity. rewrite E.
  split; [reflexivity|]. change (0 =? 1) with false. cbv iota. split; [reflexivity|]. auto.
Qed.

Definition pinv_r : Z := 4939512517110080532481079569468001964816743726562987061902335253657795797684.
Lemma pinv_r_ok : (MODULUS * pinv_r) mod r = 1.
Proof. vm_compute. reflexivity. Qed.

Lemma traces_MulAdd_any a b c y : inr_ y -> exists l, traces (MulAdd a b c) y l.
Proof.
  intros Hy. set (q := ((a * b + c - y) * pinv_r) mod r).
  assert (Hq : inr_ q) by (apply Z.mod_pos_bound, r_pos).
  assert (E : api_mulacc (api_mul c 1) a b = api_mulacc y MODULUS q).
  { unfold api_mulacc, api_mul, q. rewrite Z.mul_1_r, Zplus_mod_idemp_l.
    symmetry. rewrite <- Zplus_mod_idemp_r, Zmult_mod_idemp_r.
    rewrite (Z.mul_comm _ pinv_r), Z.mul_assoc. rewrite <- (Zmult_mod_idemp_l (MODULUS * pinv_r)).
    rewrite pinv_r_ok, Z.mul_1_l, Zplus_mod_idemp_r. f_equal. ring. }
  clearbody q. exists ([(0, 32); (q, 32)] ++ [(0, 32); (y, 32)] ++ []).
  unfold MulAdd, hint_. cbn [bind traces]. exists [q; y]. split; [reflexivity|]. split; [auto|].
  unfold nth_ at 1 2, of_opt. cbn [nth_error bind]. unfold api_assert_eq, assert_. cbn [bind traces].
  split; [apply Z.eqb_eq; exact E|].
  apply traces_bind. exists tt, [(0, 32); (q, 32)], ([(0, 32); (y, 32)] ++ []). split; [reflexivity|].
  split; [now apply traces_RangeCheck_any|].
  apply traces_bind. exists tt, [(0, 32); (y, 32)], []. split; [reflexivity|].
  split; [now apply traces_RangeCheck_any|]. cbn [traces]. auto.
Qed.

Lemma optimalWidth_ext f g l l' : (forall j, 2 <= j <= 17 -> f j l = g j l') -> optimalWidth f l = optimalWidth g l'.
Proof.
  intros H. unfold optimalWidth. fold widths. f_equal.
  assert (A : forall js st, (forall j, In j js -> f j l = g j l') ->
    fold_left (fun st j => let current := f j l in if current <? fst st then (current, j) else st) js st =
    fold_left (fun st j => let current := g j l' in if current <? fst st then (current, j) else st) js st).
  { induction js as [|j js IH]; intros st Hj; cbn [fold_left]; [reflexivity|].
    rewrite (Hj j) by now left. apply IH. intros. apply Hj. now right. }
  apply A. intros j Hj. apply H. now apply in_widths.
Qed.
