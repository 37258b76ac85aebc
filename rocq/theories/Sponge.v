(** * Specification of the overwrite-mode sponge and the proofs about HashNToMNoPad
      and HashNoPad (poseidon/goldilocks.go). *)
From Coq Require Import String.
From Coq Require Import ZArith Lia List Bool.
From Verif Require Import Zp GF Circuit Goldilocks GLProofs ExtProofs LinAlg PoseidonGLConst PoseidonSpec
  PoseidonGL PoseidonGLProofs.
Import ListNotations.
Open Scope Z_scope.

(** blocks of n elements, the last one possibly shorter *)
Fixpoint chunks_ {A} (fuel n : nat) (l : list A) : list (list A) :=
  match fuel, l with
  | S fuel', _ :: _ => firstn n l :: chunks_ fuel' n (skipn n l)
  | _, _ => []
  end.
Definition chunks {A} (n : nat) (l : list A) : list (list A) := chunks_ (length l) n l.

Lemma chunks_concat {A} n : (1 <= n)%nat -> forall fuel (l : list A), (length l <= fuel)%nat ->
  concat (chunks_ fuel n l) = l.
Proof.
  intros Hn. induction fuel as [|fuel IH]; intros l Hl; [destruct l; [reflexivity|cbn in Hl; lia]|].
  destruct l as [|x l]; [reflexivity|]. cbn [chunks_ concat].
  rewrite IH; [apply firstn_skipn|]. rewrite skipn_length. cbn [length] in *. lia.
Qed.
Lemma chunks_fuel {A} n : (1 <= n)%nat -> forall f1 f2 (l : list A),
  (length l <= f1)%nat -> (length l <= f2)%nat -> chunks_ f1 n l = chunks_ f2 n l.
Proof.
  intros Hn. induction f1 as [|f1 IH]; intros f2 l H1 H2.
  - destruct l; [|cbn in H1; lia]. now destruct f2.
  - destruct l as [|x l]; [now destruct f2|]. destruct f2 as [|f2]; [cbn in H2; lia|].
    cbn [chunks_]. f_equal. apply IH; rewrite skipn_length; cbn [length] in *; lia.
Qed.
(** every block is non-empty and has at most n elements *)
Lemma chunks_length {A} n fuel (l : list A) c : (1 <= n)%nat -> In c (chunks_ fuel n l) ->
  (1 <= length c <= n)%nat.
Proof.
  intros Hn. revert l. induction fuel as [|fuel IH]; intros l H; [destruct H|].
  destruct l as [|x l]; [destruct H|]. cbn [chunks_] in H. destruct H as [<-|H]; [|eauto].
  rewrite firstn_length. cbn [length]. lia.
Qed.
Lemma chunks_map {A B} (f : A -> B) n fuel : forall l, chunks_ fuel n (map f l) = map (map f) (chunks_ fuel n l).
Proof.
  induction fuel as [|fuel IH]; intros l; [reflexivity|]. destruct l as [|x l]; [reflexivity|].
  cbn [chunks_ map]. rewrite <- IH. change (f x :: map f l) with (map f (x :: l)).
  now rewrite firstn_map, skipn_map.
Qed.

Section Spec.
  (** any permutation, as a relation and as a function *)
  Context {A : Type} (z : A) (Prel : list A -> list A -> Prop) (Pfn : list A -> list A).
  (** overwrite the first elements of the state *)
  Definition overwrite (c s : list A) : list A := c ++ skipn (length c) s.
  Definition absorb_rel (input : list A) (s st : list A) : Prop :=
    chainR (fun c s t => Prel (overwrite c s) t) (chunks 8 input) s st.
  Definition absorb_fn (input : list A) (s : list A) : list A :=
    fold_left (fun s c => Pfn (overwrite c s)) (chunks 8 input) s.
  (** [k+1] output blocks, permuting between them *)
  Fixpoint squeeze_rel (k : nat) (s : list A) (out : list A) : Prop :=
    match k with
    | O => out = firstn 8 s
    | S k' => exists s' out', Prel s s' /\ squeeze_rel k' s' out' /\ out = firstn 8 s ++ out'
    end.
  Fixpoint squeeze_fn (k : nat) (s : list A) : list A :=
    match k with O => firstn 8 s | S k' => firstn 8 s ++ squeeze_fn k' (Pfn s) end.
  Definition sponge_rel (input : list A) (n : nat) (out : list A) : Prop :=
    exists st bl, absorb_rel input (repeat z 12) st /\ squeeze_rel ((n - 1) / 8) st bl /\ out = firstn n bl.
  Definition sponge (input : list A) (n : nat) : list A :=
    firstn n (squeeze_fn ((n - 1) / 8) (absorb_fn input (repeat z 12))).
End Spec.

Notation perm w := (poseidon_rel g0 gadd gmul idg (Sbox_rel w)).
Notation sponge_g w := (sponge_rel g0 (perm w)).

Lemma perm_length w s t : perm w s t -> length t = 12%nat.
Proof.
  intros (u & v & _ & _ & H). cbn in H.
  destruct H as (a & _ & b & _ & c & _ & d & H & ->). eapply full_round_length, H.
Qed.

Lemma poseidon_denR w s : length s = 12%nat ->
  denR (map rep) (Poseidon_w w (map rep s)) (perm w s) (128 <= w) (poseidon s).
Proof.
  intros Hs. destruct (poseidon_denotes w s Hs) as [H1 H2]. split.
  - intros Hw. split; [auto|]. specialize (H1 Hw). apply run_reach, H2 in H1.
    destruct H1 as (t & E & Ht). apply map_rep_inj in E. now subst.
  - exact H2.
Qed.

Lemma poseidon_len s : length (poseidon s) = 12%nat.
Proof. unfold poseidon. cbn [seq fold_left]. apply length_full_round_fn. Qed.
Lemma length_overwrite {A} (c s : list A) : (length c <= length s)%nat -> length (overwrite c s) = length s.
Proof. intros H. unfold overwrite. rewrite app_length, skipn_length. lia. Qed.

Lemma absorb_denR w : forall fuel s input, length s = 12%nat ->
  denR (map rep) (absorb w fuel (map rep s) (map rep input))
       (chainR (fun c s t => perm w (overwrite c s) t) (chunks_ fuel 8 input) s) (128 <= w)
       (fold_left (fun s c => poseidon (overwrite c s)) (chunks_ fuel 8 input) s).
Proof.
  induction fuel as [|fuel IH]; intros s input Hs; cbn [absorb].
  - eapply denR_iff; [apply (denR_ret (map rep) s)|reflexivity|tauto|reflexivity].
  - destruct input as [|x input].
    + eapply denR_iff; [apply (denR_ret (map rep) s)|reflexivity|tauto|reflexivity].
    + cbn [map]. change (rep x :: map rep input) with (map rep (x :: input)).
      cbn [chunks_ chainR fold_left].
      assert (E : firstn SPONGE_RATE (map rep (x :: input)) ++
                  skipn (length (firstn SPONGE_RATE (map rep (x :: input)))) (map rep s)
                  = map rep (overwrite (firstn 8 (x :: input)) s)).
      { unfold overwrite, SPONGE_RATE. rewrite firstn_map, map_length, map_app, skipn_map. reflexivity. }
      rewrite E. unfold SPONGE_RATE. rewrite skipn_map.
      assert (L : length (overwrite (firstn 8 (x :: input)) s) = 12%nat).
      { rewrite length_overwrite; [exact Hs|]. rewrite firstn_length, Hs. lia. }
      eapply denR_iff.
      * eapply (denR_bind (map rep) (map rep) _ _ (perm w (overwrite (firstn 8 (x :: input)) s)) (128 <= w)
            (poseidon (overwrite (firstn 8 (x :: input)) s))
            (fun u t => chainR (fun c s t => perm w (overwrite c s) t) (chunks_ fuel 8 (skipn 8 (x :: input))) u t)
            (fun _ => 128 <= w)
            (fun u => fold_left (fun s c => poseidon (overwrite c s)) (chunks_ fuel 8 (skipn 8 (x :: input))) u));
          [now apply poseidon_denR|].
        intros u Hu. apply IH. eapply perm_length, Hu.
      * reflexivity.
      * tauto.
      * reflexivity.
Qed.

Lemma absorb_length w input s st : length s = 12%nat -> absorb_rel (perm w) input s st -> length st = 12%nat.
Proof.
  unfold absorb_rel. generalize (chunks 8 input). intros l. revert s.
  induction l as [|c l IH]; intros s Hs H; cbn in H; [now rewrite H|].
  destruct H as (u & Hu & H). apply IH in H; auto. eapply perm_length, Hu.
Qed.

Lemma squeeze_denR w : forall k fuel s n, length s = 12%nat -> (1 <= n)%nat -> ((n - 1) / 8 = k)%nat -> (k < fuel)%nat ->
  denR (map rep) (squeeze w fuel (map rep s) n)
       (fun out => exists bl, squeeze_rel (perm w) k s bl /\ out = firstn n bl) (128 <= w)
       (firstn n (squeeze_fn poseidon k s)).
Proof.
  induction k as [|k IH]; intros fuel s n Hs Hn Hk Hf; (destruct fuel as [|fuel]; [lia|]); cbn [squeeze].
  - apply Nat.div_small_iff in Hk; [|lia].
    destruct (Nat.eqb_spec n 0); [lia|]. unfold SPONGE_RATE. destruct (Nat.leb_spec n 8); [|lia].
    rewrite firstn_map. cbn [squeeze_rel squeeze_fn].
    rewrite firstn_firstn, Nat.min_l by lia.
    eapply denR_iff; [apply (denR_ret (map rep) (firstn n s))| |tauto|reflexivity].
    intros out. split.
    + intros ->. exists (firstn 8 s). split; [reflexivity|]. rewrite firstn_firstn. now rewrite Nat.min_l by lia.
    + intros (bl & -> & ->). rewrite firstn_firstn. now rewrite Nat.min_l by lia.
  - assert (Hn8 : (9 <= n)%nat).
    { destruct (Nat.le_gt_cases 9 n); [auto|]. rewrite Nat.div_small in Hk by lia. discriminate. }
    assert (Hk' : ((n - 8 - 1) / 8 = k)%nat).
    { replace (n - 1)%nat with (n - 8 - 1 + 1 * 8)%nat in Hk by lia. rewrite Nat.div_add in Hk by lia. lia. }
    destruct (Nat.eqb_spec n 0); [lia|]. unfold SPONGE_RATE. destruct (Nat.leb_spec n 8); [lia|].
    assert (F : forall (a b : list GF), length a = 8%nat -> firstn n (a ++ b) = a ++ firstn (n - 8) b).
    { intros a b Ha. rewrite firstn_app, Ha. f_equal. apply firstn_all2. lia. }
    assert (L8 : length (firstn 8 s) = 8%nat) by (rewrite firstn_length, Hs; reflexivity).
    eapply denR_iff.
    + eapply (denR_bind (map rep) (map rep) _ _ (perm w s) (128 <= w) (poseidon s)
          (fun s' out => exists bl, squeeze_rel (perm w) k s' bl /\ out = firstn 8 s ++ firstn (n - 8) bl)
          (fun _ => 128 <= w) (fun s' => firstn 8 s ++ firstn (n - 8) (squeeze_fn poseidon k s')));
        [now apply poseidon_denR|].
      intros s' Hs'. eapply denR_iff.
      * eapply (denR_bind (map rep) (map rep) _ _ _ _ _ (fun rest out => out = firstn 8 s ++ rest) (fun _ => True)
            (fun rest => firstn 8 s ++ rest)); [apply (IH fuel s' (n - 8)%nat); auto; [eapply perm_length, Hs'|lia|lia]|].
        intros rest _. rewrite firstn_map, <- map_app. apply (denR_ret (map rep)).
      * intros out. split; [intros (rest & (bl & Hb & ->) & ->); eauto|intros (bl & Hb & ->); eauto].
      * tauto.
      * reflexivity.
    + intros out. cbn [squeeze_rel]. split.
      * intros (s' & Hs' & bl & Hb & ->). exists (firstn 8 s ++ bl). split; [eauto 6|]. now rewrite F.
      * intros (bl & (s' & bl' & Hs' & Hb & ->) & ->). exists s'. split; [auto|]. exists bl'. split; [auto|]. now rewrite F.
    + tauto.
    + intros _. cbn [squeeze_fn]. now rewrite F.
Qed.

Lemma repeat_rep n : repeat 0 n = map rep (repeat g0 n).
Proof. induction n; cbn; [reflexivity|]. now rewrite IHn. Qed.

Theorem hash_n_to_m_denR w input n : (1 <= n)%nat ->
  denR (map rep) (HashNToMNoPad_w w (map rep input) n) (sponge_g w input n) (128 <= w)
       (sponge g0 poseidon input n).
Proof.
  intros Hn. unfold HashNToMNoPad_w. rewrite repeat_rep, map_length.
  eapply denR_iff.
  - eapply (denR_bind (map rep) (map rep) _ _ _ _ _
      (fun st out => exists bl, squeeze_rel (perm w) ((n - 1) / 8) st bl /\ out = firstn n bl) (fun _ => 128 <= w)
      (fun st => firstn n (squeeze_fn poseidon ((n - 1) / 8) st))); [apply absorb_denR; reflexivity|].
    intros st Hst. apply squeeze_denR; auto.
    + eapply (absorb_length w input); [|exact Hst]. reflexivity.
    + assert ((n - 1) / 8 <= n - 1)%nat by (apply Nat.div_le_upper_bound; lia). lia.
  - intros out. unfold sponge_rel, absorb_rel, chunks. split.
    + intros (st & Hst & bl & Hb & ->). eauto 6.
    + intros (st & bl & Hst & Hb & ->). eauto 6.
  - tauto.
  - reflexivity.
Qed.

(** inputs that are not reduced: values below 2^144 * p *)
Definition reducible (x : Z) : Prop := 0 <= x < 2 ^ 144 * p.
Lemma computes_reduce_inj x : reducible x -> computes (Reduce x) (rep (inj x)).
Proof. intros H. apply computes_reduce with (B := x); [apply lz_const; apply H|apply H]. Qed.
Lemma mapM_reduce_inj l : Forall reducible l -> computes (mapM Reduce l) (map rep (map inj l)).
Proof.
  intros H. rewrite map_map. apply computes_mapM. intros x Hx.
  rewrite Forall_forall in H. now apply computes_reduce_inj, H.
Qed.

Lemma firstn_4_4 {A} (l : list A) : firstn 4 (firstn 4 l) = firstn 4 l.
Proof. now rewrite firstn_firstn. Qed.

Theorem hash_no_pad_denR w input : Forall reducible input ->
  denR (map rep) (HashNoPad_w w input) (sponge_g w (map inj input) 4) (128 <= w)
       (sponge g0 poseidon (map inj input) 4).
Proof.
  intros HI. unfold HashNoPad_w.
  eapply denR_computes_bind; [now apply mapM_reduce_inj|].
  eapply denR_iff.
  - eapply (denR_bind (map rep) (map rep) _ _ _ _ _ (fun o out => out = firstn 4 o) (fun _ => True) (fun o => firstn 4 o));
      [apply hash_n_to_m_denR; unfold POSEIDON_GL_HASH_SIZE; lia|].
    intros o _. rewrite firstn_map. apply (denR_ret (map rep)).
  - intros out. split.
    + intros (o & (st & bl & H1 & H2 & ->) & ->). exists st, bl. split; [|split]; auto. apply firstn_4_4.
    + intros (st & bl & H1 & H2 & ->). exists (firstn 4 bl). split; [exists st, bl; auto|]. symmetry. apply firstn_4_4.
  - tauto.
  - intros _. unfold sponge. apply firstn_4_4.
Qed.

(** ** For sound widths the relations are functions *)
Lemma Forall2_iff {A B} (P Q : A -> B -> Prop) l l' :
  (forall x y, P x y <-> Q x y) -> (Forall2 P l l' <-> Forall2 Q l l').
Proof. intros H. split; induction 1; constructor; auto; now apply H. Qed.
Lemma chain_iff {B} (F G : nat -> list B -> list B -> Prop) l :
  (forall k s t, F k s t <-> G k s t) -> forall s t, chain (map F l) s t <-> chain (map G l) s t.
Proof.
  intros H. induction l as [|k l IH]; intros s t; cbn; [reflexivity|].
  split; intros (u & Hu & C); exists u; split; try (now apply IH); now apply H.
Qed.
Lemma poseidon_rel_iff (S1 S2 : GF -> GF -> Prop) s t : (forall x y, S1 x y <-> S2 x y) ->
  (poseidon_rel g0 gadd gmul idg S1 s t <-> poseidon_rel g0 gadd gmul idg S2 s t).
Proof.
  intros H.
  assert (F : forall k a b, full_round g0 gadd gmul idg S1 k a b <-> full_round g0 gadd gmul idg S2 k a b).
  { intros k a b. unfold full_round. split; intros (u & Hu & E); exists u; split; auto; eapply Forall2_iff; eauto. intros; now rewrite H. }
  assert (G : forall k a b, partial_round g0 gadd gmul idg S1 k a b <-> partial_round g0 gadd gmul idg S2 k a b).
  { intros k a b. unfold partial_round. split; intros (u & Hu & E); exists u; split; auto; now apply H. }
  unfold poseidon_rel, full_rounds. split; intros (u & v & H1 & H2 & H3); exists u, v; (split; [|split]).
  all: first [eapply (chain_iff _ _ _ F); eassumption | eapply (chain_iff _ _ _ G); eassumption].
Qed.
Lemma perm_sound w s t : 128 <= w <= 189 -> (perm w s t <-> t = poseidon s).
Proof.
  intros Hw. rewrite <- poseidon_rel_7. apply poseidon_rel_iff. intros x y. now apply sbox_sound.
Qed.
Lemma perm_192 s t : perm 192 s t <-> poseidon_rel g0 gadd gmul idg sbox_wrapped s t.
Proof. apply poseidon_rel_iff. apply sbox_192. Qed.

Lemma sponge_sound w input n out : 128 <= w <= 189 -> (sponge_g w input n out <-> out = sponge g0 poseidon input n).
Proof.
  intros Hw. unfold sponge_rel, sponge.
  assert (A : forall l s st, chainR (fun c s t => perm w (overwrite c s) t) l s st
               <-> st = fold_left (fun s c => poseidon (overwrite c s)) l s).
  { induction l as [|c l IH]; intros s st; cbn [chainR fold_left]; [reflexivity|]. split.
    - intros (u & Hu & C). apply perm_sound in Hu; auto. subst. now apply IH.
    - intros ->. eexists. split; [apply perm_sound; auto|]. now apply IH. }
  assert (B : forall k s bl, squeeze_rel (perm w) k s bl <-> bl = squeeze_fn poseidon k s).
  { induction k as [|k IH]; intros s bl; cbn [squeeze_rel squeeze_fn]; [reflexivity|]. split.
    - intros (s' & o & Hs & Ho & ->). apply perm_sound in Hs; auto. apply IH in Ho. now subst.
    - intros ->. do 2 eexists. split; [apply perm_sound; auto|]. split; [now apply IH|]. reflexivity. }
  split.
  - intros (st & bl & H1 & H2 & ->). apply A in H1. apply B in H2. now subst.
  - intros ->. do 2 eexists. split; [now apply A|]. split; [now apply B|reflexivity].
Qed.
