(** * What a prover gains from the S-box width 192.

    In the last round of the permutation the prover may add k*r (0 <= k <= 5) to the result
    of each of the twelve S-boxes, whatever the state. *)
From Coq Require Import String.
From Coq Require Import ZArith NArith Lia List Bool Ring.
From Verif Require Import Zp GF Circuit LinAlg PoseidonSpec PoseidonGLConst PoseidonGL PoseidonGLProofs Sponge DenP ChallengerProofs ChallengerPhases ChallengerTop.
Import ListNotations.
Open Scope Z_scope.

Definition digits (d : list Z) : Prop := length d = 12%nat /\ Forall (fun k => 0 <= k <= 5) d.
(** the integers of the matrix *)
Fixpoint zdot (a b : list Z) : Z := match a, b with x :: a', y :: b' => x * y + zdot a' b' | _, _ => 0 end.
(** lane i of the output moves by [shift i d] times r *)
Definition shift (i : nat) (d : list Z) : Z := zdot (nth i MDSz []) d.
Definition forge (s : list GF) (d : list Z) : list GF := map (fun i => (nth i (poseidon s) g0 + inj (shift i d * r))%GF) (seq 0 12).

Lemma forge_nth s d i : (i < 12)%nat -> nth i (forge s d) g0 = (nth i (poseidon s) g0 + inj (shift i d * r))%GF.
Proof. intros Hi. unfold forge. do 12 (destruct i as [|i]; [reflexivity|]). lia. Qed.
Lemma dotp_inj row : forall d, dotp g0 gadd gmul idg (map inj row) (map (fun k => inj (k * r)) d) = inj (zdot row d * r).
Proof.
  induction row as [|a row IH]; intros d; [cbn; now rewrite g0_inj|]. destruct d as [|k d]; [cbn; now rewrite g0_inj|].
  cbn [map dotp zdot]. rewrite IH. unfold idg. rewrite <- inj_mul, <- inj_add. f_equal. ring.
Qed.
Lemma mds_shift d i : (i < 12)%nat -> nth i (mds_g (map (fun k => inj (k * r)) d)) g0 = inj (shift i d * r).
Proof.
  intros Hi. unfold mds_g, mds, matvec. rewrite MDS_z, map_map. unfold shift.
  assert (L : length MDSz = 12%nat) by reflexivity.
  rewrite (nth_indep _ g0 (dotp g0 gadd gmul idg (map inj []) (map (fun k => inj (k * r)) d))) by (rewrite map_length; lia).
  rewrite (map_nth (fun x => dotp g0 gadd gmul idg (map inj x) (map (fun k => inj (k * r)) d))). apply dotp_inj.
Qed.

(** the state before the last round *)
Definition before_last (s : list GF) : list GF :=
  let s := fold_left (fun s k => full_round_fn k s) (seq 0 4) s in
  let s := fold_left (fun s k => partial_round_fn k s) (seq 4 22) s in
  fold_left (fun s k => full_round_fn k s) (seq 26 3) s.
Lemma poseidon_before_last s : poseidon s = full_round_fn 29 (before_last s).
Proof. reflexivity. Qed.

Lemma Forall2_honest w l : 128 <= w -> Forall2 (Sbox_rel w) l (map sbox7 l).
Proof. intros Hw. induction l as [|x l IH]; cbn [map]; constructor; [now apply sbox_honest|exact IH]. Qed.
Lemma full_honest w k s : 128 <= w -> full_round g0 gadd gmul idg (Sbox_rel w) k s (full_round_fn k s).
Proof. intros Hw. exists (map sbox7 (add_rc_g k s)). split; [now apply Forall2_honest|reflexivity]. Qed.
Lemma partial_honest w k s : 128 <= w -> partial_round g0 gadd gmul idg (Sbox_rel w) k s (partial_round_fn k s).
Proof. intros Hw. exists (sbox7 (hd g0 (add_rc_g k s))). split; [now apply sbox_honest|reflexivity]. Qed.
Lemma chain_honest (F : nat -> list GF -> list GF -> Prop) (f : nat -> list GF -> list GF) : (forall k s, F k s (f k s)) ->
  forall l s, chain (map F l) s (fold_left (fun s k => f k s) l s).
Proof. intros H. induction l as [|k l IH]; intros s; cbn [map chain fold_left]; [reflexivity|]. eexists. split; [apply H|apply IH]. Qed.

(** whatever the S-boxes of the last round may give *)
Lemma perm_last w s u : 128 <= w -> Forall2 (Sbox_rel w) (add_rc_g 29 (before_last s)) u -> permw w s (mds_g u).
Proof.
  intros Hw H. unfold permw, poseidon_rel.
  exists (fold_left (fun s k => full_round_fn k s) (seq 0 4) s).
  exists (fold_left (fun s k => partial_round_fn k s) (seq 4 22) (fold_left (fun s k => full_round_fn k s) (seq 0 4) s)).
  split; [apply chain_honest; intros; now apply full_honest|]. split; [apply chain_honest; intros; now apply partial_honest|].
  unfold full_rounds. change (seq 26 4) with (seq 26 3 ++ [29%nat]). rewrite map_app.
  set (v := fold_left (fun s k => partial_round_fn k s) (seq 4 22) (fold_left (fun s k => full_round_fn k s) (seq 0 4) s)).
  assert (A : forall l s t z, chain l s t -> full_round g0 gadd gmul idg (Sbox_rel w) 29 t z -> chain (l ++ map (full_round g0 gadd gmul idg (Sbox_rel w)) [29%nat]) s z).
  { clear. induction l as [|f l IH]; intros s t z H1 H2; cbn [app chain map] in *.
    - subst t. exists z. auto.
    - destruct H1 as (x & F & C). exists x. split; [exact F|]. now apply (IH x t z). }
  apply (A _ v (before_last s)).
  - unfold before_last. fold v. apply chain_honest. intros. now apply full_honest.
  - exists u. split; [exact H|reflexivity].
Qed.
Lemma honest_perm w s : 128 <= w -> permw w s (poseidon s).
Proof. intros Hw. rewrite poseidon_before_last. apply perm_last; [exact Hw|]. now apply Forall2_honest. Qed.
Lemma sbox_shift x k : 0 <= k <= 5 -> Sbox_rel 192 x (x ^ 7 + inj (k * r))%GF.
Proof.
  intros Hk. apply sbox_192. exists (x ^ 3)%GF. split.
  - exists 0. split; [lia|]. rewrite Z.mul_0_l, <- g0_inj. ring.
  - exists k. split; [exact Hk|]. ring.
Qed.
Lemma vadd_nth a : forall b i, length a = length b -> nth i (vadd gadd a b) g0 = (nth i a g0 + nth i b g0)%GF.
Proof.
  induction a as [|x a IH]; intros [|y b] i L; try discriminate L.
  - destruct i; cbn; ring.
  - destruct i as [|i]; [reflexivity|]. cbn [nth]. change (nth (S i) (vadd gadd (x :: a) (y :: b)) g0) with (nth i (vadd gadd a b) g0).
    apply IH. now injection L.
Qed.
Lemma length_rc s k : length s = 12%nat -> (k < 30)%nat -> length (add_rc_g k s) = 12%nat.
Proof.
  intros Hs Hk. unfold add_rc_g, add_rc, vadd. rewrite length_map2; [exact Hs|]. rewrite map_length, Hs. unfold RC.
  rewrite map_length, firstn_length, skipn_length. change (length ALL_ROUND_CONSTANTS) with 360%nat. lia.
Qed.
Lemma length_before_last s : length (before_last s) = 12%nat.
Proof. unfold before_last. cbn [seq fold_left]. apply length_full_round_fn. Qed.

(** every choice of digits gives a possible output *)
Theorem perm_forge s d : digits d -> permw 192 s (forge s d).
Proof.
  intros [Ld Hd].
  assert (La : length (add_rc_g 29 (before_last s)) = 12%nat) by (apply length_rc; [apply length_before_last|lia]).
  assert (F : Forall2 (Sbox_rel 192) (add_rc_g 29 (before_last s)) (vadd gadd (map sbox7 (add_rc_g 29 (before_last s))) (map (fun k => inj (k * r)) d))).
  { assert (L : length (add_rc_g 29 (before_last s)) = length d) by (rewrite La, Ld; reflexivity). clear La Ld. revert d Hd L.
    generalize (add_rc_g 29 (before_last s)). induction l as [|x l IH]; intros [|k d] Hd L; try discriminate L; cbn [map]; [constructor|].
    inversion Hd; subst. change (vadd gadd (sbox7 x :: map sbox7 l) (inj (k * r) :: map (fun k => inj (k * r)) d))
      with ((sbox7 x + inj (k * r))%GF :: vadd gadd (map sbox7 l) (map (fun k => inj (k * r)) d)).
    constructor; [now apply sbox_shift|]. apply IH; [assumption|]. now injection L. }
  pose proof (perm_last 192 s _ ltac:(lia) F) as P.
  assert (E : mds_g (vadd gadd (map sbox7 (add_rc_g 29 (before_last s))) (map (fun k => inj (k * r)) d)) = forge s d); [|rewrite E in P; exact P].
  assert (LM : length (map sbox7 (add_rc_g 29 (before_last s))) = length (map (fun k => inj (k * r)) d)) by now rewrite !map_length, La, Ld.
  unfold mds_g at 1, mds. rewrite (matvec_vadd g0 g1 gadd gmul gsub gopp GF_ring idg MDS _ _ LM).
  change (matvec g0 gadd gmul idg MDS (map sbox7 (add_rc_g 29 (before_last s)))) with (poseidon s).
  change (matvec g0 gadd gmul idg MDS (map (fun k => inj (k * r)) d)) with (mds_g (map (fun k => inj (k * r)) d)).
  apply (nth_ext _ _ g0 g0).
  - unfold forge. rewrite map_length, seq_length. unfold vadd. rewrite length_map2; [apply poseidon_len|]. rewrite poseidon_len, length_mds_g. reflexivity.
  - intros i Hi. assert (L12 : (i < 12)%nat).
    { unfold vadd in Hi. rewrite length_map2 in Hi; [now rewrite poseidon_len in Hi|]. rewrite poseidon_len, length_mds_g. reflexivity. }
    rewrite vadd_nth by (rewrite poseidon_len, length_mds_g; reflexivity). rewrite mds_shift by exact L12.
    symmetry. now apply forge_nth.
Qed.

(** ** Six outputs that differ pairwise in every lane *)
Definition digit (k : Z) : list Z := k :: repeat 0 11.
Lemma digit_ok k : 0 <= k <= 5 -> digits (digit k).
Proof. intros H. split; [reflexivity|]. constructor; [exact H|]. repeat constructor; lia. Qed.
Definition col0 (i : nat) : Z := nth 0 (nth i MDSz []) 0.
Lemma zdot_digit row k : zdot row (digit k) = nth 0 row 0 * k.
Proof.
  destruct row as [|a row]; [reflexivity|]. cbn [zdot digit nth].
  assert (Z0 : forall n l, zdot l (repeat 0 n) = 0).
  { induction n as [|n IH]; intros [|x l]; try reflexivity. cbn [repeat zdot]. rewrite IH. ring. }
  rewrite Z0. ring.
Qed.
Lemma col0_range i : (i < 12)%nat -> 1 <= col0 i <= 49.
Proof. intros H. do 12 (destruct i as [|i]; [vm_compute; split; discriminate|]). lia. Qed.
Lemma r_mod_p : r mod p <> 0. Proof. vm_compute. discriminate. Qed.
Lemma forge_differs s j k i : 0 <= j <= 5 -> 0 <= k <= 5 -> j <> k -> (i < 12)%nat ->
  nth i (forge s (digit j)) g0 <> nth i (forge s (digit k)) g0.
Proof.
  intros Hj Hk N Hi E. rewrite !forge_nth in E by exact Hi. unfold shift in E. rewrite !zdot_digit in E. fold (col0 i) in E.
  pose proof (col0_range i Hi) as C. pose proof p_pos.
  assert (AB : inj (col0 i * j * r) = inj (col0 i * k * r)).
  { set (A := inj (col0 i * j * r)) in *. set (B := inj (col0 i * k * r)) in *. set (P := nth i (poseidon s) g0) in *.
    transitivity ((P + A) - P)%GF; [ring|]. rewrite E. ring. }
  apply (f_equal rep) in AB. rewrite !rep_inj in AB. apply (mul_cancel_mod p) in AB; [|exact p_prime|exact r_mod_p].
  assert (50 * 6 < p) by reflexivity.
  rewrite !Z.mod_small in AB by nia. apply N. apply (Z.mul_reg_l _ _ (col0 i)); [lia|exact AB].
Qed.

(** ** Sponge and transcript *)
Definition sub (P Q : permr) : Prop := forall s t, P s t -> Q s t.
Lemma pgraph_sub w : 128 <= w -> sub pgraph (permw w).
Proof. intros Hw s t ->. now apply honest_perm. Qed.
Lemma chainR_mono {A B} (F G : A -> B -> B -> Prop) l : (forall a s t, F a s t -> G a s t) -> forall s t, chainR F l s t -> chainR G l s t.
Proof. intros H. induction l as [|a l IH]; intros s t; cbn [chainR]; [auto|]. intros (u & A1 & C). exists u. auto. Qed.
Lemma absorb_mono P Q x s t : sub P Q -> absorb_rel P x s t -> absorb_rel Q x s t.
Proof. intros H. unfold absorb_rel. apply chainR_mono. intros c a b. apply H. Qed.
Lemma squeeze_mono P Q k : sub P Q -> forall s bl s', squeezeR P k s bl s' -> squeezeR Q k s bl s'.
Proof. intros H. induction k as [|k IH]; intros s bl s'; cbn [squeezeR]; [auto|]. intros (s1 & bl' & A & B & ->). exists s1, bl'. auto. Qed.
Lemma phase_mono P Q xs m s ys s' : sub P Q -> phase P xs m s ys s' -> phase Q xs m s ys s'.
Proof. intros H (st & bl & A & B & C). exists st, bl. split; [eapply absorb_mono; eauto|]. split; [eapply squeeze_mono; eauto|exact C]. Qed.
Lemma phases_mono P Q l : sub P Q -> forall s yss, phases P l s yss -> phases Q l s yss.
Proof.
  intros H. induction l as [|[xs m] l IH]; intros s yss; cbn [phases]; [auto|].
  intros (ys & s' & yss' & A & B & ->). exists ys, s', yss'. split; [eapply phase_mono; eauto|auto].
Qed.

Lemma absorb_forge w x s st : 128 <= w -> x <> [] -> absorb_rel pgraph x s st ->
  exists a, st = poseidon a /\ forall t, permw w a t -> absorb_rel (permw w) x s t.
Proof.
  intros Hw N. unfold absorb_rel. assert (C : chunks 8 x <> []).
  { intros E. apply N. rewrite <- (chunks_concat 8 ltac:(lia) (length x) x (le_n _)). fold (chunks 8 x). now rewrite E. }
  revert C s. generalize (chunks 8 x). clear x N. induction l as [|c l IH]; intros N s; [congruence|]. cbn [chainR].
  intros (u & -> & H). destruct l as [|d l].
  - cbn [chainR] in H. subst st. exists (overwrite c s). split; [reflexivity|]. intros t Ht. exists t. split; [exact Ht|reflexivity].
  - destruct (IH ltac:(discriminate) _ H) as (a & -> & F). exists a. split; [reflexivity|]. intros t Ht.
    exists (poseidon (overwrite c s)). split; [now apply honest_perm|now apply F].
Qed.
Lemma absorb_total P x s : okP P -> totalP P -> length s = 12%nat -> exists st, absorb_rel P x s st /\ length st = 12%nat.
Proof.
  intros HP HT. unfold absorb_rel.
  assert (F : Forall (fun c : list GF => (length c <= 8)%nat) (chunks 8 x)).
  { apply Forall_forall. intros c Hc. eapply (chunks_length 8) in Hc; lia. }
  revert F s. generalize (chunks 8 x). induction l as [|c l IH]; intros F s Hs; cbn [chainR]; [eauto|].
  inversion F; subst. destruct (HT (overwrite c s)) as (u & Hu); [rewrite length_overwrite; lia|].
  destruct (IH ltac:(assumption) u (HP _ _ Hu)) as (st & C & L). exists st. split; [exists u; auto|exact L].
Qed.
Lemma squeeze_total P k : okP P -> totalP P -> forall s, length s = 12%nat -> exists bl s', squeezeR P k s bl s' /\ length s' = 12%nat.
Proof.
  intros HP HT. induction k as [|k IH]; intros s Hs; cbn [squeezeR]; [exists (rev (firstn 8 s)), s; auto|].
  destruct (HT s Hs) as (s1 & H1). destruct (IH s1 (HP _ _ H1)) as (bl & s' & S & L). exists (rev (firstn 8 s) ++ bl), s'. split; [exists s1, bl; auto|exact L].
Qed.
Lemma phase_total P xs m s : okP P -> totalP P -> length s = 12%nat -> exists ys s', phase P xs m s ys s' /\ length s' = 12%nat.
Proof.
  intros HP HT Hs. destruct (absorb_total P (map inj xs) s HP HT Hs) as (st & A & L).
  destruct (squeeze_total P ((m - 1) / 8) HP HT st L) as (bl & s' & S & L'). exists (firstn m bl), s'. split; [exists st, bl; auto|exact L'].
Qed.
Lemma phases_total P l : okP P -> totalP P -> forall s, length s = 12%nat -> exists yss, phases P l s yss.
Proof.
  intros HP HT. induction l as [|[xs m] l IH]; intros s Hs; cbn [phases]; [eauto|].
  destruct (phase_total P xs m s HP HT Hs) as (ys & s' & A & L). destruct (IH s' L) as (yss & B). exists (ys :: yss), ys, s', yss. auto.
Qed.
(** the first output of a phase is lane 7, the second lane 6 *)
Lemma squeeze_first P k s bl s' : length s = 12%nat -> squeezeR P k s bl s' -> exists t, bl = rev (firstn 8 s) ++ t.
Proof. intros Hs. destruct k as [|k]; cbn [squeezeR]; [intros [-> _]; exists []; now rewrite app_nil_r|intros (s1 & b & _ & _ & ->); eauto]. Qed.
Lemma rev8 (s : list GF) : length s = 12%nat -> exists t, rev (firstn 8 s) = nth 7 s g0 :: nth 6 s g0 :: t.
Proof. intros H. do 12 (destruct s as [|? s]; [discriminate H|]). cbn. eauto. Qed.
(** a phase can be forged: any digits, continued in some way *)
Lemma phase_forge xs m s ys s' : xs <> [] -> (1 <= m)%nat -> phase pgraph xs m s ys s' ->
  exists a, (exists t, ys = firstn m (nth 7 (poseidon a) g0 :: nth 6 (poseidon a) g0 :: t)) /\
    forall d, digits d -> exists t s'', phase (permw 192) xs m s (firstn m (nth 7 (forge a d) g0 :: nth 6 (forge a d) g0 :: t)) s'' /\ length s'' = 12%nat.
Proof.
  intros N Hm (st & bl & A & S & ->).
  destruct (absorb_forge 192 (map inj xs) s st ltac:(lia)) as (a & -> & F); [now destruct xs|exact A|]. exists a. split.
  - destruct (squeeze_first _ _ _ _ _ (poseidon_len a) S) as (t & ->). destruct (rev8 _ (poseidon_len a)) as (t' & ->). now exists (t' ++ t).
  - intros d Hd. pose proof (perm_forge a d Hd) as P. pose proof (okP_permw 192 _ _ P) as L.
    destruct (squeeze_total (permw 192) ((m - 1) / 8) (okP_permw 192) (totalP_permw 192 ltac:(lia)) (forge a d) L) as (bl' & s'' & S' & L').
    destruct (squeeze_first _ _ _ _ _ L S') as (t & ->). destruct (rev8 _ L) as (t' & E). rewrite E in S'. exists (t' ++ t), s''. split; [|exact L'].
    exists (forge a d), ((nth 7 (forge a d) g0 :: nth 6 (forge a d) g0 :: t') ++ t). split; [now apply F|]. split; [exact S'|reflexivity].
Qed.
(** forging the last phase leaves the earlier ones alone *)
Lemma phases_forge_last l xs m : xs <> [] -> (1 <= m)%nat -> forall s yss ys, length yss = length l ->
  phases pgraph (l ++ [(xs, m)]) s (yss ++ [ys]) ->
  exists a, (exists t, ys = firstn m (nth 7 (poseidon a) g0 :: nth 6 (poseidon a) g0 :: t)) /\
    forall d, digits d -> exists t, phases (permw 192) (l ++ [(xs, m)]) s (yss ++ [firstn m (nth 7 (forge a d) g0 :: nth 6 (forge a d) g0 :: t)]).
Proof.
  intros N Hm. induction l as [|[xs0 m0] l IH]; intros s yss ys L H.
  - destruct yss; [|discriminate L]. cbn [app phases] in H. destruct H as (y & s' & yss' & H & -> & E). injection E as ->.
    destruct (phase_forge xs m s y s' N Hm H) as (a & T & F). exists a. split; [exact T|]. intros d Hd. destruct (F d Hd) as (t & s'' & F1 & _).
    exists t. cbn [app phases]. eexists _, s'', []. split; [exact F1|]. auto.
  - destruct yss as [|y0 yss]; [discriminate L|]. cbn [app phases] in H. destruct H as (y & s' & yss' & H & H' & E). injection E as -> <-.
    destruct (IH s' yss ys ltac:(now injection L) H') as (a & T & F). exists a. split; [exact T|]. intros d Hd. destruct (F d Hd) as (t & F1).
    exists t. cbn [app phases]. exists y, s', (yss ++ [firstn m (nth 7 (forge a d) g0 :: nth 6 (forge a d) g0 :: t)]).
    split; [eapply phase_mono; [apply pgraph_sub; lia|exact H]|]. auto.
Qed.

(** any phase can be forged, before the later inputs are chosen *)
Definition lanes (m : nat) (st t : list GF) : list GF := firstn m (nth 7 st g0 :: nth 6 st g0 :: t).
Lemma totalP_pg : totalP pgraph. Proof. intros s _. eexists. reflexivity. Qed.
Lemma phases_forge_at xs m : xs <> [] -> (1 <= m)%nat -> forall l1 s, length s = 12%nat ->
  exists yss1 a, length yss1 = length l1 /\
    (forall l2, exists t yss2, phases pgraph (l1 ++ (xs, m) :: l2) s (yss1 ++ lanes m (poseidon a) t :: yss2)) /\
    (forall l2 d, digits d -> exists t yss2, phases (permw 192) (l1 ++ (xs, m) :: l2) s (yss1 ++ lanes m (forge a d) t :: yss2)).
Proof.
  intros N Hm. induction l1 as [|[xs0 m0] l1 IH]; intros s Hs.
  - destruct (phase_total pgraph xs m s okP_pgraph totalP_pg Hs) as (ys & s' & P & L).
    destruct (phase_forge xs m s ys s' N Hm P) as (a & (t & T) & F). exists [], a. split; [reflexivity|]. cbn [app phases]. split.
    + intros l2. destruct (phases_total pgraph l2 okP_pgraph totalP_pg s' L) as (yss2 & Q). exists t, yss2. unfold lanes. rewrite <- T. exists ys, s', yss2. auto.
    + intros l2 d Hd. destruct (F d Hd) as (t' & s'' & F1 & L'). destruct (phases_total (permw 192) l2 (okP_permw 192) (totalP_permw 192 ltac:(lia)) s'' L') as (yss2 & Q).
      exists t', yss2, (lanes m (forge a d) t'), s'', yss2. auto.
  - destruct (phase_total pgraph xs0 m0 s okP_pgraph totalP_pg Hs) as (ys & s' & P & L).
    destruct (IH s' L) as (yss1 & a & LL & H & F). exists (ys :: yss1), a. split; [cbn [length]; now rewrite LL|]. cbn [app phases]. split.
    + intros l2. destruct (H l2) as (t & yss2 & Q). exists t, yss2. eexists ys, s', _. split; [exact P|]. split; [exact Q|reflexivity].
    + intros l2 d Hd. destruct (F l2 d Hd) as (t & yss2 & Q). exists t, yss2. eexists ys, s', _.
      split; [eapply phase_mono; [apply pgraph_sub; lia|exact P]|]. split; [exact Q|reflexivity].
Qed.
Lemma squeeze_rel_mono P Q k : sub P Q -> forall s out, squeeze_rel P k s out -> squeeze_rel Q k s out.
Proof. intros H. induction k as [|k IH]; intros s out; cbn [squeeze_rel]; [auto|]. intros (s1 & bl' & A & B & ->). exists s1, bl'. auto. Qed.
Lemma sponge_mono P Q x n h : sub P Q -> sponge_rel g0 P x n h -> sponge_rel g0 Q x n h.
Proof. intros H (st & bl & A & B & ->). exists st, bl. split; [eapply absorb_mono; eauto|]. split; [eapply squeeze_rel_mono; eauto|reflexivity]. Qed.

(** ** The sums that the digits can make *)
Fixpoint sums_mask (row : list Z) : N :=
  match row with
  | [] => 1%N
  | a :: row => let m := sums_mask row in
      fold_right N.lor 0%N (map (fun k => N.shiftl m (Z.to_N (a * k))) [0; 1; 2; 3; 4; 5])
  end.
Lemma sums_mask_ok row : Forall (fun a => 0 <= a) row -> forall m, N.testbit (sums_mask row) m = true ->
  exists d, length d = length row /\ Forall (fun k => 0 <= k <= 5) d /\ zdot row d = Z.of_N m.
Proof.
  induction 1 as [|a row Ha F IH]; intros m.
  - cbn [sums_mask]. intros H. exists []. split; [reflexivity|]. split; [constructor|]. destruct m as [|q]; [reflexivity|].
    destruct q; discriminate H.
  - cbn [sums_mask map fold_right]. rewrite !N.lor_spec, N.bits_0. intros H.
    assert (E : exists k, 0 <= k <= 5 /\ N.testbit (N.shiftl (sums_mask row) (Z.to_N (a * k))) m = true).
    { apply orb_prop in H. destruct H as [H|H]; [exists 0; split; [lia|exact H]|].
      apply orb_prop in H. destruct H as [H|H]; [exists 1; split; [lia|exact H]|].
      apply orb_prop in H. destruct H as [H|H]; [exists 2; split; [lia|exact H]|].
      apply orb_prop in H. destruct H as [H|H]; [exists 3; split; [lia|exact H]|].
      apply orb_prop in H. destruct H as [H|H]; [exists 4; split; [lia|exact H]|].
      apply orb_prop in H. destruct H as [H|H]; [exists 5; split; [lia|exact H]|discriminate H]. }
    clear H. destruct E as (k & Hk & E). destruct (N.lt_ge_cases m (Z.to_N (a * k))) as [L|L].
    + rewrite N.shiftl_spec_low in E by exact L. discriminate E.
    + rewrite N.shiftl_spec_high' in E by exact L. destruct (IH _ E) as (d & L1 & L2 & L3). exists (k :: d).
      split; [cbn [length]; now rewrite L1|]. split; [now constructor|]. cbn [zdot]. rewrite L3.
      rewrite N2Z.inj_sub by exact L. rewrite Z2N.id by nia. ring.
Qed.
(** the first challenge of a phase is lane 7 *)
Lemma shift7 m : 15 <= m <= 1265 -> exists d, digits d /\ shift 7 d = m.
Proof.
  intros Hm.
  assert (C : N.testbit (sums_mask (nth 7 MDSz [])) (Z.to_N m) = true).
  { assert (M : N.land (sums_mask (nth 7 MDSz [])) (N.shiftl (N.ones 1251) 15) = N.shiftl (N.ones 1251) 15) by (vm_compute; reflexivity).
    apply (f_equal (fun x => N.testbit x (Z.to_N m))) in M. rewrite N.land_spec in M.
    rewrite N.shiftl_spec_high', N.ones_spec_low in M by lia. now rewrite andb_true_r in M. }
  assert (F : Forall (fun a => 0 <= a) (nth 7 MDSz [])).
  { apply Forall_forall. intros a Ha. assert (B : forallb (Z.leb 0) (nth 7 MDSz []) = true) by (vm_compute; reflexivity).
    rewrite forallb_forall in B. apply Z.leb_le. now apply B. }
  destruct (sums_mask_ok _ F _ C) as (d & L1 & L2 & L3). exists d. split; [split; [exact L1|exact L2]|].
  unfold shift. rewrite L3. lia.
Qed.
