(** * The degree of every gate constraint as a polynomial in wires and constants. *)
From Coq Require Import String.
From Coq Require Import ZArith NArith Lia List Bool Ring.
From Verif Require Import Zp GF Circuit Goldilocks GLProofs ExtProofs LinAlg PoseidonGLConst PoseidonSpec PoseidonExt Poly Roots Interp Types Challenger Fri FriMerkle FriEval FriSound
  Gates GateProofs GateCoset GatePoseidon GateFilter GateAll.
Import ListNotations.
Open Scope Z_scope.

(** ** A calculus of degrees: unit M, degree at most e * M *)
Section Degree.
  Context (M : nat).
  Definition dg (e : nat) (f : K -> K) : Prop := kdeg (S (e * M)) f.
  Lemma dg_ext e f g : dg e f -> (forall x, f x = g x) -> dg e g. Proof. apply kdeg_ext. Qed.
  Lemma dg_le e e' f : dg e f -> (e <= e')%nat -> dg e' f. Proof. intros H L. eapply kdeg_le; [exact H|]. nia. Qed.
  Lemma dg_const e a : dg e (fun _ => a). Proof. apply kdeg_const. Qed.
  Lemma dg_add e f g : dg e f -> dg e g -> dg e (fun x => f x + g x)%K. Proof. apply kdeg_add. Qed.
  Lemma dg_sub e f g : dg e f -> dg e g -> dg e (fun x => f x - g x)%K. Proof. apply kdeg_sub. Qed.
  Lemma dg_scale e a f : dg e f -> dg e (fun x => a * f x)%K. Proof. apply kdeg_scale. Qed.
  Lemma dg_mul a b e f g : dg a f -> dg b g -> (a + b <= e)%nat -> dg e (fun x => f x * g x)%K.
  Proof.
    intros Hf Hg L. unfold dg in *. eapply kdeg_le; [exact (kdeg_mul _ _ _ _ Hf Hg)|]. nia.
  Qed.
  Lemma dg_pow k : forall e f, dg e f -> dg (k * e) (fun x => f x ^ N.of_nat k)%K.
  Proof.
    induction k as [|k IH]; intros e f H.
    - eapply dg_ext; [apply (dg_const _ k1)|]. intros x. cbn beta. now rewrite kpow_0.
    - eapply dg_ext; [apply (dg_mul e (k * e)); [exact H|exact (IH e f H)|cbn; lia]|]. intros x. cbn beta. now rewrite Nat2N.inj_succ, kpow_succ.
  Qed.
  Lemma dg_sb7 f e : dg 1 f -> (7 <= e)%nat -> dg e (fun x => sb7 (f x)).
  Proof. intros H L. apply (dg_le (7 * 1)); [|lia]. exact (dg_pow 7 1 f H). Qed.
  Lemma dg_kprod {A} (F : A -> K -> K) l e : (forall i, In i l -> dg 1 (F i)) -> (length l <= e)%nat -> dg e (fun x => kprod (map (fun i => F i x) l)).
  Proof.
    revert e. induction l as [|i l IH]; intros e H L; cbn [map kprod fold_right length] in *; [apply dg_const|].
    apply (dg_mul 1 (length l)); [apply H; now left|apply IH; [intros; apply H; now right|lia]|lia].
  Qed.
  Lemma dg_ksum {A} (F : A -> K -> K) l e : (forall i, In i l -> dg e (F i)) -> dg e (fun x => ksum (map (fun i => F i x) l)).
  Proof.
    induction l as [|i l IH]; intros H; cbn [map ksum fold_right]; [apply dg_const|].
    apply dg_add; [apply H; now left|apply IH; intros; apply H; now right].
  Qed.

  (** lists of functions *)
  Definition dl (e : nat) (F : K -> list K) : Prop := exists fs, Forall (dg e) fs /\ forall x, F x = map (fun f => f x) fs.
  Lemma dl_ext e F G : dl e F -> (forall x, F x = G x) -> dl e G.
  Proof. intros (fs & H & E) HG. exists fs. split; [exact H|]. intros x. now rewrite <- HG. Qed.
  Lemma dl_le e e' F : dl e F -> (e <= e')%nat -> dl e' F.
  Proof. intros (fs & H & E) L. exists fs. split; [|exact E]. eapply Forall_impl; [|exact H]. intros f Hf. now apply (dg_le e). Qed.
  Lemma dl_nil e : dl e (fun _ => []). Proof. exists []. split; [constructor|reflexivity]. Qed.
  Lemma dl_cons e f F : dg e f -> dl e F -> dl e (fun x => f x :: F x).
  Proof. intros H (fs & HF & E). exists (f :: fs). split; [now constructor|]. intros x. now rewrite E. Qed.
  Lemma dl_app e F G : dl e F -> dl e G -> dl e (fun x => F x ++ G x).
  Proof.
    intros (fs & HF & E) (gs & HG & E'). exists (fs ++ gs). split; [apply Forall_app; now split|]. intros x. now rewrite map_app, E, E'.
  Qed.
  Lemma dl_map {A} e (F : A -> K -> K) l : (forall i, In i l -> dg e (F i)) -> dl e (fun x => map (fun i => F i x) l).
  Proof.
    intros H. exists (map F l). split; [|intros x; now rewrite map_map]. apply Forall_forall. intros f Hf. apply in_map_iff in Hf.
    destruct Hf as (i & <- & Hi). now apply H.
  Qed.
  Lemma dl_concat {A} e (F : A -> K -> list K) l : (forall i, In i l -> dl e (F i)) -> dl e (fun x => concat (map (fun i => F i x) l)).
  Proof.
    induction l as [|i l IH]; intros H; cbn [map concat]; [apply dl_nil|].
    apply dl_app; [apply H; now left|apply IH; intros; apply H; now right].
  Qed.
  Lemma dl_nth e F j : dl e F -> dg e (fun x => nth j (F x) k0).
  Proof.
    intros (fs & H & E). eapply dg_ext; [|intros x; now rewrite E]. clear F E. revert j.
    induction H as [|f fs Hf H IH]; intros [|j]; cbn [map nth]; try apply dg_const; [exact Hf|apply IH].
  Qed.
  Lemma dl_hd e F : dl e F -> dg e (fun x => hd k0 (F x)).
  Proof. intros H. eapply dg_ext; [exact (dl_nth e F 0 H)|]. intros x. cbn beta. now destruct (F x). Qed.
  Lemma dl_tl e F : dl e F -> dl e (fun x => tl (F x)).
  Proof.
    intros (fs & H & E). exists (tl fs). split; [clear E; destruct H; cbn [tl]; auto|]. intros x. rewrite E. now destruct fs.
  Qed.
  Lemma dl_each e e' F (g : K -> K) : dl e F -> (forall f, dg e f -> dg e' (fun x => g (f x))) -> dl e' (fun x => map g (F x)).
  Proof.
    intros (fs & H & E) Hg. exists (map (fun f x => g (f x)) fs). split.
    - apply Forall_forall. intros f Hf. apply in_map_iff in Hf. destruct Hf as (h & <- & Hh). apply Hg. now apply (proj1 (Forall_forall _ _) H).
    - intros x. now rewrite E, !map_map.
  Qed.
  Lemma dl_vadd e F c : dl e F -> dl e (fun x => vadd kadd (F x) c).
  Proof.
    intros (fs & H & E). eapply dl_ext; [|intros x; symmetry; rewrite E; reflexivity]. clear F E. revert c. unfold vadd.
    induction H as [|f fs Hf H IH]; intros [|a c]; cbn [map map2]; try apply dl_nil.
    apply dl_cons; [|apply IH]. apply dg_add; [exact Hf|apply dg_const].
  Qed.
  Lemma dl_dotp e F row : dl e F -> dg e (fun x => dotp k0 kadd kmul emb row (F x)).
  Proof.
    intros (fs & H & E). eapply dg_ext; [|intros x; now rewrite E]. clear F E. revert row.
    induction H as [|f fs Hf H IH]; intros [|a row]; cbn [map dotp]; try apply dg_const.
    apply dg_add; [now apply dg_scale|apply IH].
  Qed.
  Lemma dl_matvec e F A : dl e F -> dl e (fun x => matvec k0 kadd kmul emb A (F x)).
  Proof. intros H. unfold matvec. apply (dl_map e (fun row x => dotp k0 kadd kmul emb row (F x))). intros row _. now apply dl_dotp. Qed.
  Lemma dl_powers_sum e F b : dl e F -> dg e (fun x => powers_sum (F x) b).
  Proof.
    intros (fs & H & E). eapply dg_ext; [|intros x; now rewrite E]. clear F E.
    induction H as [|f fs Hf H IH]; cbn [map powers_sum]; [apply dg_const|].
    apply dg_add; [exact Hf|now apply dg_scale].
  Qed.

  (** the extension algebra *)
  Definition da (e : nat) (F : K -> KA) : Prop := dg e (fun x => fst (F x)) /\ dg e (fun x => snd (F x)).
  Lemma da_le e e' F : da e F -> (e <= e')%nat -> da e' F. Proof. intros [H1 H2] L. split; now apply (dg_le e). Qed.
  Lemma da_const e a : da e (fun _ => a). Proof. split; apply dg_const. Qed.
  Lemma da_emb e f : dg e f -> da e (fun x => aemb (f x)). Proof. intros H. split; [exact H|exact (dg_const e k0)]. Qed.
  Lemma da_add e F G : da e F -> da e G -> da e (fun x => F x + G x)%KA.
  Proof. intros [H1 H2] [G1 G2]. split; cbn [aadd fst snd]; now apply dg_add. Qed.
  Lemma da_sub e F G : da e F -> da e G -> da e (fun x => F x - G x)%KA.
  Proof. intros [H1 H2] [G1 G2]. split; cbn [asub fst snd]; now apply dg_sub. Qed.
  Lemma da_mul a b e F G : da a F -> da b G -> (a + b <= e)%nat -> da e (fun x => F x * G x)%KA.
  Proof.
    intros [H1 H2] [G1 G2] L. split; cbn [amul fst snd]; apply dg_add; try (apply dg_scale); now apply (dg_mul a b).
  Qed.
  Lemma dl_klimbs e F : da e F -> dl e (fun x => klimbs (F x)).
  Proof. intros [H1 H2]. unfold klimbs. apply dl_cons; [exact H1|]. apply dl_cons; [exact H2|apply dl_nil]. Qed.

  (** ** The gates *)
  Context (cs ws : K -> list K) (h : list GF).
  Context (Hcs : forall i, dg 1 (fun x => wire (cs x) i)) (Hws : forall i, dg 1 (fun x => wire (ws x) i)).
  Lemma dg_w e i : (1 <= e)%nat -> dg e (fun x => wire (ws x) i). Proof. intros L. exact (dg_le 1 e _ (Hws i) L). Qed.
  Lemma dg_c e i : (1 <= e)%nat -> dg e (fun x => wire (cs x) i). Proof. intros L. exact (dg_le 1 e _ (Hcs i) L). Qed.
  Lemma da_alg e i : (1 <= e)%nat -> da e (fun x => alg (ws x) i). Proof. intros L. split; cbn [alg fst snd]; now apply dg_w. Qed.
  Lemma da_c e i : (1 <= e)%nat -> da e (fun x => aemb (wire (cs x) i)). Proof. intros L. now apply da_emb, dg_c. Qed.

  Lemma dg_arith i : dg 3 (fun x => arith_k (cs x) (ws x) i).
  Proof.
    unfold arith_k. apply dg_sub; [apply dg_w; lia|]. apply dg_add.
    - apply (dg_mul 2 1); [|apply dg_c; lia|lia]. apply (dg_mul 1 1); [apply dg_w; lia|apply dg_w; lia|lia].
    - apply (dg_mul 1 1); [apply dg_w; lia|apply dg_c; lia|lia].
  Qed.
  Lemma dl_arith_ext i : dl 3 (fun x => arith_ext_k (cs x) (ws x) i).
  Proof.
    unfold arith_ext_k. apply dl_klimbs, da_sub; [apply da_alg; lia|]. apply da_add.
    - apply (da_mul 1 1); [apply da_c; lia|apply da_alg; lia|lia].
    - apply (da_mul 1 2); [apply da_c; lia| |lia]. apply (da_mul 1 1); [apply da_alg; lia|apply da_alg; lia|lia].
  Qed.
  Lemma dl_mul_ext i : dl 3 (fun x => mul_ext_k (cs x) (ws x) i).
  Proof.
    unfold mul_ext_k. apply dl_klimbs, da_sub; [apply da_alg; lia|].
    apply (da_mul 1 2); [apply da_c; lia| |lia]. apply (da_mul 1 1); [apply da_alg; lia|apply da_alg; lia|lia].
  Qed.
  Lemma dg_digits base f : dg 1 f -> dg base (fun x => digits_k base (f x)).
  Proof.
    intros H. unfold digits_k.
    assert (G : forall l e acc, dg e acc ->
      dg (e + length l) (fun x => fold_left (fun acc i => (acc * (f x - emb (inj (Z.of_nat i))))%K) l (acc x))).
    { induction l as [|i l IH]; intros e acc Ha; cbn [fold_left length]; [now rewrite Nat.add_0_r|].
      rewrite <- Nat.add_succ_comm. apply (IH (S e) (fun x => (acc x * (f x - emb (inj (Z.of_nat i))))%K)).
      apply (dg_mul e 1); [exact Ha| |lia]. apply dg_sub; [exact H|apply dg_const]. }
    specialize (G (seq 0 base) O (fun _ => k1) (dg_const _ _)). rewrite seq_length in G. exact G.
  Qed.
  Lemma dl_base_sum n base : dl (Nat.max 1 base) (fun x => base_sum_k n base (ws x)).
  Proof.
    unfold base_sum_k, base_sum_limbs. apply dl_cons.
    - apply dg_sub; [|apply dg_w; lia]. apply dl_powers_sum. apply (dl_map _ (fun i x => wire (ws x) (1 + i))). intros i _. apply dg_w. lia.
    - apply (dl_each 1); [apply (dl_map _ (fun i x => wire (ws x) (1 + i))); intros i _; apply dg_w; lia|].
      intros f Hf. apply (dg_le base); [now apply dg_digits|lia].
  Qed.
  Lemma dg_exp n i : dg 4 (fun x => exp_k n (ws x) i).
  Proof.
    unfold exp_k. apply dg_sub; [|apply dg_w; lia]. apply (dg_mul 2 2); [| |lia].
    - unfold exp_prev. destruct (Nat.eqb i 0); [apply dg_const|]. apply (dg_mul 1 1); [apply dg_w; lia|apply dg_w; lia|lia].
    - apply dg_sub; [apply (dg_mul 1 1); [apply dg_w; lia|apply dg_w; lia|lia]|].
      apply dg_sub; [|apply dg_const]. apply (dg_mul 1 1); [apply dg_w; lia|apply dg_const|lia].
  Qed.

  (** the coset interpolation gate *)
  Lemma c_items_index s wt W : c_items s wt W = map (fun it => (alg W (1 + 2 * fst (fst it)), snd (fst it), snd it)) (combine (combine (seq 0 (2 ^ s)) (c_dom s)) wt).
  Proof.
    unfold c_items, c_val. generalize (seq 0 (2 ^ s)) (c_dom s). intros l. revert wt.
    induction l as [|i l IH]; intros wt [|a d]; cbn [map combine]; try reflexivity. destruct wt as [|b wt]; cbn [combine map fst snd]; [reflexivity|]. now rewrite IH.
  Qed.
  Definition dp (e : nat) (F : K -> KA * KA) : Prop := da e (fun x => fst (F x)) /\ da e (fun x => snd (F x)).
  Lemma dp_fold P (l : list (nat * GF * GF)) : da 1 P -> forall e st, dp e st ->
    dp (e + length l) (fun x => fold_left (interp_step (P x)) (map (fun it => (alg (ws x) (1 + 2 * fst (fst it)), snd (fst it), snd it)) l) (st x)).
  Proof.
    intros HP. induction l as [|it l IH]; intros e st Hst; cbn [map fold_left length]; [now rewrite Nat.add_0_r|].
    rewrite <- Nat.add_succ_comm.
    apply (IH (S e) (fun x => interp_step (P x) (st x) (alg (ws x) (1 + 2 * fst (fst it)), snd (fst it), snd it))).
    destruct Hst as [Se Sp].
    assert (T : da 1 (fun x => P x - aemb (emb (snd (fst it))))%KA) by (apply da_sub; [exact HP|apply da_const]).
    split.
    - assert (G : da (S e) (fun x => fst (st x) * (P x - aemb (emb (snd (fst it)))) + (aemb (emb (snd it)) * alg (ws x) (1 + 2 * fst (fst it))) * snd (st x))%KA).
      { apply da_add; [apply (da_mul e 1); [exact Se|exact T|lia]|].
        apply (da_mul 1 e); [|exact Sp|lia]. apply (da_mul 0 1); [apply da_const|apply da_alg; lia|lia]. }
      destruct G as [G1 G2]. split; [eapply dg_ext; [exact G1|]|eapply dg_ext; [exact G2|]]; intros x; unfold interp_step; destruct (st x); reflexivity.
    - assert (G : da (S e) (fun x => snd (st x) * (P x - aemb (emb (snd (fst it)))))%KA) by (apply (da_mul e 1); [exact Sp|exact T|lia]).
      destruct G as [G1 G2]. split; [eapply dg_ext; [exact G1|]|eapply dg_ext; [exact G2|]]; intros x; unfold interp_step; destruct (st x); reflexivity.
  Qed.
  Lemma dp_st s d wt i : (1 <= d)%nat -> dp d (fun x => c_st s d wt (ws x) i).
  Proof.
    intros Hd. unfold c_st, c_fold.
    assert (G : forall l e st, dp e st -> (e + length l <= d)%nat -> forall F, (forall x, F x = fold_left (interp_step (c_shifted s d (ws x)))
                  (map (fun it => (alg (ws x) (1 + 2 * fst (fst it)), snd (fst it), snd it)) l) (st x)) -> dp d F).
    { intros l e st Hst L F E. destruct (dp_fold (fun x => c_shifted s d (ws x)) l (da_alg 1 _ (le_n _)) e st Hst) as [[A1 A2] [B1 B2]].
      pose proof (fun f (H : dg (e + length l) f) => dg_le _ d f H L) as LE.
      split; split; [eapply dg_ext; [exact (LE _ A1)|]|eapply dg_ext; [exact (LE _ A2)|]|eapply dg_ext; [exact (LE _ B1)|]|eapply dg_ext; [exact (LE _ B2)|]];
        intros x; cbn beta; now rewrite E. }
    destruct i as [|j].
    - apply (G (firstn d (combine (combine (seq 0 (2 ^ s)) (c_dom s)) wt)) O (fun _ => (ka0, ka1))).
      + split; apply da_const.
      + rewrite firstn_length. lia.
      + intros x. now rewrite c_items_index, firstn_map.
    - apply (G (seg (combine (combine (seq 0 (2 ^ s)) (c_dom s)) wt) (c_lo d j) (c_hi s d j)) 1%nat (fun x => (c_ie s (ws x) j, c_ip s d (ws x) j))).
      + split; apply da_alg; lia.
      + unfold seg. rewrite skipn_length, firstn_length. unfold c_hi. lia.
      + intros x. now rewrite c_items_index, seg_map.
  Qed.
  Lemma dl_coset s d wt : (2 <= d)%nat -> dl d (fun x => coset_k s d wt (ws x)).
  Proof.
    intros Hd. unfold coset_k. apply dl_app; [|apply dl_app].
    - apply dl_klimbs, da_add; [|apply da_alg; lia]. apply (da_mul 1 1); [|apply da_alg; lia|lia].
      apply da_emb. apply (dg_mul 1 0); [apply dg_w; lia|apply dg_const|lia].
    - apply (dl_concat d (fun i x => c_cons s d wt (ws x) i)). intros i _. unfold c_cons.
      destruct (dp_st s d wt i ltac:(lia)) as [E P].
      apply dl_app; apply dl_klimbs, da_sub; try assumption; apply da_alg; lia.
    - apply dl_klimbs, da_sub; [apply da_alg; lia|]. apply (dp_st s d wt (c_ni s d) ltac:(lia)).
  Qed.

  (** the Poseidon gates *)
  Lemma dl_mds_k e F : dl e F -> dl e (fun x => mds_k (F x)). Proof. apply dl_matvec. Qed.
  Lemma dl_add_rc e F k : dl e F -> dl e (fun x => add_rc_k k (F x)). Proof. apply dl_vadd. Qed.
  Lemma dl_init e F : dl e F -> dl e (fun x => init_k (F x)).
  Proof. intros H. unfold init_k, fast_init. apply dl_cons; [now apply dl_hd|]. now apply dl_matvec, dl_tl. Qed.
  Lemma dl_fast_mds e F r : dl e F -> dl e (fun x => fast_mds_k r (F x)).
  Proof.
    intros H. unfold fast_mds_k, fast_mds. pose proof (dl_hd e F H) as HH. pose proof (dl_tl e F H) as HT. apply dl_cons.
    - apply dg_add; [now apply dg_scale|now apply dl_dotp].
    - destruct HT as (fs & Hfs & E). eapply dl_ext; [|intros x; symmetry; rewrite E; reflexivity]. clear E. revert fs Hfs.
      induction (VSr r) as [|t l IH]; intros fs Hfs; cbn [map2]; [apply dl_nil|]. destruct Hfs as [|f fs Hf Hfs]; cbn [map]; [apply dl_nil|].
      apply dl_cons; [|now apply IH]. apply dg_add; [now apply dg_scale|exact Hf].
  Qed.
  Lemma dl_wires12 e s0 : (1 <= e)%nat -> dl e (fun x => wires12 (ws x) s0).
  Proof. intros L. unfold wires12. apply (dl_map e (fun i x => wire (ws x) (s0 + i))). intros i _. now apply dg_w. Qed.
  Lemma dl_subs e F G : dl e F -> dl e G -> dl e (fun x => subs (F x) (G x)).
  Proof.
    intros (fs & HF & E) (gs & HG & E'). eapply dl_ext; [|intros x; symmetry; rewrite E, E'; reflexivity]. clear F G E E'. unfold subs. revert gs HG.
    induction HF as [|f fs Hf HF IH]; intros gs HG; cbn [map combine]; [apply dl_nil|]. destruct HG as [|g gs Hg HG]; cbn [map combine fst snd]; [apply dl_nil|].
    apply dl_cons; [now apply dg_sub|]. now apply IH.
  Qed.
  Definition ds (a : nat) (S : K -> list K * list K) : Prop := dl a (fun x => fst (S x)) /\ dl 7 (fun x => snd (S x)).
  Lemma ds_full_none S k : ds 1 S -> ds 7 (fun x => gfull_k (ws x) (S x) (k, None)).
  Proof.
    intros [H1 H2]. split; cbn [gfull_k fst snd].
    - apply dl_mds_k. apply (dl_each 1); [now apply dl_add_rc|]. intros f Hf. now apply dg_sb7.
    - apply dl_app; [exact H2|apply dl_nil].
  Qed.
  Lemma ds_full_some S k s0 : ds 7 S -> ds 7 (fun x => gfull_k (ws x) (S x) (k, Some s0)).
  Proof.
    intros [H1 H2]. split; cbn [gfull_k fst snd].
    - apply dl_mds_k. apply (dl_each 1); [apply dl_wires12; lia|]. intros f Hf. now apply dg_sb7.
    - apply dl_app; [exact H2|]. apply dl_subs; [now apply dl_add_rc|apply dl_wires12; lia].
  Qed.
  Lemma ds_part S r : ds 7 S -> ds 7 (fun x => gpart_k (ws x) (S x) r).
  Proof.
    intros [H1 H2]. split; cbn [gpart_k fst snd].
    - apply dl_fast_mds. apply dl_cons; [|now apply dl_tl]. apply dg_add; [|apply dg_const]. apply dg_sb7; [apply Hws|lia].
    - apply dl_app; [exact H2|]. apply dl_cons; [|apply dl_nil]. apply dg_sub; [now apply dl_hd|apply dg_w; lia].
  Qed.
  Lemma ds_parts l : forall S, ds 7 S -> ds 7 (fun x => fold_left (gpart_k (ws x)) l (S x)).
  Proof.
    induction l as [|r l IH]; intros S H; cbn [fold_left]; [exact H|]. apply (IH (fun x => gpart_k (ws x) (S x) r)). now apply ds_part.
  Qed.
  Lemma ds_start : ds 1 (fun x => (swapped_in (ws x), swap_cons (ws x))).
  Proof.
    split; cbn [fst snd].
    - unfold swapped_in. apply dl_app; [|apply dl_app].
      + apply (dl_map 1 (fun i x => (wire (ws x) i + wire (ws x) (START_DELTA + i))%K)). intros i _. apply dg_add; now apply dg_w.
      + apply (dl_map 1 (fun i x => (wire (ws x) (i + 4) - wire (ws x) (START_DELTA + i))%K)). intros i _. apply dg_sub; now apply dg_w.
      + apply (dl_map 1 (fun i x => wire (ws x) i)). intros i _. now apply dg_w.
    - unfold swap_cons. apply dl_cons.
      + apply (dg_mul 1 1); [apply dg_w; lia| |lia]. apply dg_sub; [apply dg_w; lia|apply dg_const].
      + apply (dl_map 7 (fun i x => (wire (ws x) 24 * (wire (ws x) (i + 4) - wire (ws x) i) - wire (ws x) (START_DELTA + i))%K)). intros i _.
        apply dg_sub; [|apply dg_w; lia]. apply (dg_mul 1 1); [apply dg_w; lia| |lia]. apply dg_sub; apply dg_w; lia.
  Qed.
  Lemma dl_poseidon : dl 7 (fun x => poseidon_gate_k (ws x)).
  Proof.
    assert (A : ds 7 (fun x => pgA (ws x))).
    { unfold pgA, rounds1. cbn [fold_left]. do 3 apply ds_full_some. apply ds_full_none, ds_start. }
    assert (B : ds 7 (fun x => pgB (ws x) (pgA (ws x)))).
    { unfold pgB. apply ds_parts. destruct A as [A1 A2]. split; cbn [fst snd]; [|exact A2]. now apply dl_init, dl_vadd. }
    assert (C : ds 7 (fun x => pgC (ws x) (pgB (ws x) (pgA (ws x))))).
    { unfold pgC, rounds2. cbn [fold_left]. now do 4 apply ds_full_some. }
    unfold poseidon_gate_k, pgD. destruct C as [C1 C2]. apply dl_app; [exact C2|].
    destruct C1 as (fs & Hfs & E). eapply dl_ext; [|intros x; symmetry; rewrite E; reflexivity]. clear E C2.
    generalize (seq 0 12). induction Hfs as [|f fs Hf Hfs IH]; intros [|i l]; cbn [map combine fst snd]; try apply dl_nil.
    apply dl_cons; [|apply IH]. apply dg_sub; [exact Hf|apply dg_w; lia].
  Qed.
  Lemma dl_mds : dl 1 (fun x => mds_gate_k (ws x)).
  Proof.
    unfold mds_gate_k. apply (dl_concat 1 (fun i x => klimbs (mds_out (ws x) i - nth i (mds_a (mds_in (ws x))) ka0)%KA)). intros i _.
    apply dl_klimbs, da_sub; [apply da_alg; lia|].
    assert (I : forall (sel : KA -> K), sel = fst \/ sel = snd -> dl 1 (fun x => map sel (mds_in (ws x)))).
    { intros sel Hs. apply (dl_ext 1 (fun x => map (fun i => sel (alg (ws x) (2 * i))) (seq 0 12))); [|intros x; unfold mds_in; now rewrite map_map].
      apply (dl_map 1 (fun i x => sel (alg (ws x) (2 * i)))). intros j _. destruct Hs as [-> | ->]; cbn [alg fst snd]; apply Hws. }
    split.
    - eapply dg_ext; [exact (dl_nth 1 _ i (dl_mds_k 1 _ (I fst (or_introl eq_refl))))|]. intros x. cbn beta.
      rewrite <- mds_a_fst. change k0 with (fst ka0). now rewrite map_nth.
    - eapply dg_ext; [exact (dl_nth 1 _ i (dl_mds_k 1 _ (I snd (or_intror eq_refl))))|]. intros x. cbn beta.
      rewrite <- mds_a_snd. change k0 with (snd ka0). now rewrite map_nth.
  Qed.

  (** the random access and reducing gates *)
  Lemma dl_pairs e F b : dl e F -> dg 1 b -> dl (S e) (fun x => pairs_k (b x) (F x)).
  Proof.
    intros (fs & H & E) Hb. eapply dl_ext; [|intros x; symmetry; rewrite E; reflexivity]. clear F E. revert H.
    induction fs as [|f|f g fs IH] using list_ind2; intros H; cbn [map pairs_k]; try apply dl_nil.
    inversion H as [|? ? Hf H1]; subst. inversion H1 as [|? ? Hg H2]; subst.
    apply dl_cons; [|now apply IH]. apply dg_add; [apply (dg_le e); [exact Hf|lia]|].
    apply (dg_mul 1 e); [exact Hb| |lia]. now apply dg_sub.
  Qed.
  Lemma dl_select {A} (b : A -> K -> K) (l : list A) : (forall i, dg 1 (b i)) -> forall e F, dl e F ->
    dl (e + length l) (fun x => fold_left (fun items c => pairs_k c items) (map (fun i => b i x) l) (F x)).
  Proof.
    intros Hb. induction l as [|i l IH]; intros e F HF; cbn [map fold_left length]; [now rewrite Nat.add_0_r|].
    rewrite <- Nat.add_succ_comm. apply (IH (S e) (fun x => pairs_k (b i x) (F x))). now apply dl_pairs.
  Qed.
  Lemma dl_ra_copy bits copies extra copy : dl (bits + 1) (fun x => ra_copy_k bits copies extra (ws x) copy).
  Proof.
    unfold ra_copy_k, ra_bits. cbv zeta. apply dl_app.
    - destruct bits as [|bits]; [apply dl_nil|].
      apply (dl_each 1); [apply (dl_map 1 (fun i x => ra_bit (S bits) copies extra (ws x) copy i)); intros i _; apply Hws|].
      intros f Hf. apply dg_sub; [apply (dg_mul 1 1); [exact Hf|exact Hf|lia]|apply (dg_le 1); [exact Hf|lia]].
    - apply dl_cons; [|apply dl_cons; [|apply dl_nil]].
      + apply dg_sub; [|apply dg_w; lia]. apply dl_powers_sum.
        apply (dl_map _ (fun i x => ra_bit bits copies extra (ws x) copy i)). intros i _. apply dg_w. lia.
      + apply dg_sub; [|apply dg_w; lia]. unfold wire at 1. apply dl_nth.
        replace (bits + 1)%nat with (1 + length (seq 0 bits))%nat by (rewrite seq_length; lia).
        apply (dl_select (fun i x => ra_bit bits copies extra (ws x) copy i)); [intros i; apply Hws|].
        unfold ra_items. apply (dl_map 1 (fun i x => wire (ws x) ((2 + 2 ^ bits) * copy + 2 + i))). intros i _. apply Hws.
  Qed.
  Lemma dl_ra bits copies extra : dl (bits + 1) (fun x => ra_k bits copies extra (cs x) (ws x)).
  Proof.
    unfold ra_k. apply dl_app.
    - apply (dl_concat _ (fun copy x => ra_copy_k bits copies extra (ws x) copy)). intros copy _. apply dl_ra_copy.
    - apply (dl_map _ (fun i x => (wire (cs x) i - wire (ws x) ((2 + 2 ^ bits) * copies + i))%K)). intros i _.
      apply dg_sub; [apply dg_c; lia|apply dg_w; lia].
  Qed.
  Lemma dl_reducing {A} (c a : A -> K -> KA) al (l : list A) : da 1 al -> (forall i, da 1 (c i)) -> (forall i, da 1 (a i)) -> forall acc, da 1 acc ->
    dl 2 (fun x => reducing_k (al x) (acc x) (map (fun i => c i x) l) (map (fun i => a i x) l)).
  Proof.
    intros Hal Hc Ha. induction l as [|i l IH]; intros acc Hacc; cbn [map reducing_k]; [apply dl_nil|].
    apply dl_app; [|apply (IH (a i)), Ha]. apply dl_klimbs, da_sub; [|apply (da_le 1); [apply Ha|lia]].
    apply da_add; [apply (da_mul 1 1); [exact Hacc|exact Hal|lia]|apply (da_le 1); [apply Hc|lia]].
  Qed.
  Lemma da_acc n start i : da 1 (fun x => acc_at n start (ws x) i).
  Proof. unfold acc_at. destruct (Nat.eqb i (n - 1)); now apply da_alg. Qed.
End Degree.

(** the degree each gate has in the original plonky2 *)
Definition gate_degree (g : Gate) : nat :=
  match g with
  | ArithmeticGate _ | ArithmeticExtensionGate _ | MultiplicationExtensionGate _ => 3
  | BaseSumGate _ base => Nat.max 1 base
  | ConstantGate _ | PoseidonMdsGate | PublicInputGate => 1
  | CosetInterpolationGate _ d _ => d
  | ExponentiationGate _ => 4
  | NoopGate => 0
  | PoseidonGate => 7
  | RandomAccessGate bits _ _ => bits + 1
  | ReducingExtensionGate _ | ReducingGate _ => 2
  end.
Lemma dl_gate M cs ws h g nc nw : (forall i, dg M 1 (fun x => wire (cs x) i)) -> (forall i, dg M 1 (fun x => wire (ws x) i)) -> fits nc nw g ->
  dl M (gate_degree g) (fun x => gate_k g (cs x) (ws x) h).
Proof.
  intros Hcs Hws F. destruct g; cbn [gate_k gate_degree].
  - apply (dl_map M 3 (fun i x => arith_k (cs x) (ws x) i)). intros i _. now apply dg_arith.
  - apply (dl_concat M 3 (fun i x => arith_ext_k (cs x) (ws x) i)). intros i _. now apply dl_arith_ext.
  - now apply dl_base_sum.
  - apply (dl_map M 1 (fun i x => (wire (cs x) i - wire (ws x) i)%K)). intros i _. now apply dg_sub.
  - cbn [fits] in F. apply dl_coset; [exact Hws|lia].
  - apply dl_app; [|apply dl_cons; [|apply dl_nil]].
    + apply (dl_map M 4 (fun i x => exp_k _ (ws x) i)). intros i _. now apply dg_exp.
    + apply dg_sub; now apply (dg_w M ws Hws); lia.
  - apply (dl_concat M 3 (fun i x => mul_ext_k (cs x) (ws x) i)). intros i _. now apply dl_mul_ext.
  - apply dl_nil.
  - now apply dl_poseidon.
  - now apply dl_mds.
  - apply (dl_map M 1 (fun i x => (wire (ws x) i - hash_part h i)%K)). intros i _. apply dg_sub; [apply Hws|apply dg_const].
  - now apply dl_ra.
  - unfold reducing_ext_gate_k. apply (dl_reducing M (fun i x => alg (ws x) (6 + 2 * i)) (fun i x => acc_at _ _ (ws x) i)); intros; try (now apply da_alg); now apply da_acc.
  - unfold reducing_gate_k. apply (dl_reducing M (fun i x => aemb (wire (ws x) (6 + i))) (fun i x => acc_at _ _ (ws x) i)); intros; try (now apply da_alg); try (now apply da_acc).
    now apply da_emb.
Qed.

(** ** The filtered sum *)
Definition filter_degree (info : SelectorsInfo) (i : nat) : nat :=
  length (others_of i (fst (group info i)) (snd (group info i))) + (if Nat.ltb 1 (ns info) then 1 else 0).
Lemma others_length i a b : (a <= i < b)%nat -> length (others_of i a b) = (b - a - 1)%nat.
Proof.
  intros H. unfold others_of.
  assert (G : forall n a, length (filter (fun j => negb (Nat.eqb j i)) (seq a n)) = (n - (if (Nat.leb a i && Nat.ltb i (a + n))%bool then 1 else 0))%nat).
  { induction n as [|n IH]; intros s; cbn [seq filter]; [reflexivity|]. destruct (Nat.eqb_spec s i) as [->|N]; cbn [negb].
    - rewrite IH. rewrite (proj2 (Nat.leb_gt (S i) i)), Nat.leb_refl, (proj2 (Nat.ltb_lt i (i + S n))) by lia. cbn [andb]. lia.
    - cbn [length]. rewrite IH. replace (S s + n)%nat with (s + S n)%nat by lia.
      assert (E : (Nat.leb (S s) i && Nat.ltb i (s + S n))%bool = (Nat.leb s i && Nat.ltb i (s + S n))%bool).
      { f_equal. destruct (Nat.leb_spec (S s) i), (Nat.leb_spec s i); try reflexivity; lia. }
      rewrite E. destruct (Nat.leb_spec s i) as [L|L]; cbn [andb]; [|lia].
      destruct (Nat.ltb_spec i (s + S n)) as [L'|L']; [|lia]. destruct n as [|n]; [lia|]. lia. }
  rewrite G. rewrite (proj2 (Nat.leb_le a i)), (proj2 (Nat.ltb_lt i (a + (b - a)))) by lia. reflexivity.
Qed.
Section Filtered.
  Context (M : nat) (cs ws : K -> list K) (h : list GF) (info : SelectorsInfo).
  Context (Hcs : forall i, dg M 1 (fun x => nth i (cs x) k0)) (Hws : forall i, dg M 1 (fun x => nth i (ws x) k0)).
  Lemma dg_filter i : dg M (filter_degree info i) (fun x => flt (cs x) info i).
  Proof.
    unfold flt, filter_k, filter_degree. set (l := others_of i (fst (group info i)) (snd (group info i))).
    apply (dg_mul M (length l) (if Nat.ltb 1 (ns info) then 1 else 0)).
    - apply (dg_kprod M (fun (j : nat) x => (kz (Z.of_nat j) - nth (sel info i) (cs x) k0)%K)); [|lia].
      intros j _. apply dg_sub; [apply dg_const|apply Hcs].
    - destruct (Nat.ltb 1 (ns info)); [apply dg_sub; [apply dg_const|apply Hcs]|apply dg_const].
    - lia.
  Qed.
  Definition gate_outs (gates : list Gate) (x : K) : list (list K) := map (fun g => gate_k g (skipn (ns info) (cs x)) (ws x) h) gates.
  Lemma dg_total E nc nw gates : forall k, (forall i, (i < length gates)%nat -> (gate_degree (nth i gates NoopGate) + filter_degree info (k + i) <= E)%nat) ->
    Forall (fits nc nw) gates -> forall j, dg M E (fun x => total (cs x) info (gate_outs gates x) k j).
  Proof.
    induction gates as [|g gates IH]; intros k HE F j; cbn [gate_outs map total]; [apply dg_const|].
    inversion F as [|? ? Fg F']; subst. apply dg_add.
    - apply (dg_mul M (gate_degree g) (filter_degree info k)); [|apply dg_filter|specialize (HE O ltac:(cbn; lia)); cbn [nth] in HE; rewrite Nat.add_0_r in HE; exact HE].
      apply (dl_nth M (gate_degree g) (fun x => gate_k g (skipn (ns info) (cs x)) (ws x) h)).
      apply (dl_gate M (fun x => skipn (ns info) (cs x)) ws h g nc nw); [|exact Hws|exact Fg].
      intros i. eapply dg_ext; [exact (Hcs (ns info + i)%nat)|]. intros x. unfold wire. symmetry. apply nth_skipn.
    - apply (IH (S k)); [|exact F']. intros i Hi. specialize (HE (S i) ltac:(cbn; lia)). cbn [nth] in HE. now replace (S k + i)%nat with (k + S i)%nat by lia.
  Qed.
End Filtered.
