(** * Specification: the textbook Poseidon permutation of plonky2 (width 12, 4+22+4
      rounds, x^7), generic in a commutative ring R over GF and in the S-box
      relation; and the proof that the sparse-matrix ("fast") form of the partial
      rounds is equivalent to it. *)
From Coq Require Import ZArith Lia List Bool Ring.
From Verif Require Import Zp GF LinAlg Sparse PoseidonGLConst.
Import ListNotations.
Open Scope nat_scope.

(** ** Constants: round constants and the circulant + diagonal MDS matrix *)
Definition RC (k : nat) : list GF := map inj (firstn 12 (skipn (12 * k) ALL_ROUND_CONSTANTS)).
Definition MDS : list (list GF) :=
  map (fun i => map (fun j =>
         gadd (inj (nth ((j + 12 - i) mod 12) MDS_MATRIX_CIRC 0%Z))
              (if Nat.eqb i j then inj (nth i MDS_MATRIX_DIAG 0%Z) else g0)) (seq 0 12)) (seq 0 12).

(** ** Constants of the fast form *)
Definition FC : list GF := map inj FAST_PARTIAL_FIRST_ROUND_CONSTANT.
Definition FRC (i : nat) : GF := inj (nth i FAST_PARTIAL_ROUND_CONSTANTS 0%Z).
Definition VSr (i : nat) : list GF := map inj (nth i FAST_PARTIAL_ROUND_VS []).
Definition WHr (i : nat) : list GF := map inj (nth i FAST_PARTIAL_ROUND_W_HATS []).
Definition INITm : list (list GF) := map (map inj) FAST_PARTIAL_ROUND_INITIAL_MATRIX.
Definition M00 : GF := inj MDS0TO0.
(** row d of the matrix used by the initial layer: result[d] = sum_r state[r]*INIT[r][d] *)
Definition INITt : list (list GF) :=
  map (fun d => map (fun r => nth d r g0) (firstn 11 INITm)) (seq 0 11).

Section Rounds.
  Context {R : Type} (rO rI : R) (radd rmul rsub : R -> R -> R) (ropp : R -> R).
  Context (Rth : ring_theory rO rI radd rmul rsub ropp eq).
  Add Ring Rring2 : Rth.
  Context (phi : GF -> R).
  Context (phi0 : phi g0 = rO) (phi1 : phi g1 = rI)
          (phi_add : forall a b, phi (gadd a b) = radd (phi a) (phi b))
          (phi_mul : forall a b, phi (gmul a b) = rmul (phi a) (phi b)).
  (** the S-box, as a relation *)
  Context (Sb : R -> R -> Prop).

  Notation dotp := (dotp rO radd rmul phi).
  Notation matvec := (matvec rO radd rmul phi).
  Notation vadd := (vadd radd).

  Definition add_rc (k : nat) (s : list R) : list R := vadd s (map phi (RC k)).
  Definition mds (s : list R) : list R := matvec MDS s.
  Definition full_round (k : nat) (s t : list R) : Prop :=
    exists u, Forall2 Sb (add_rc k s) u /\ t = mds u.
  Definition partial_round (k : nat) (s t : list R) : Prop :=
    exists y, Sb (hd rO (add_rc k s)) y /\ t = mds (y :: tl (add_rc k s)).
  Fixpoint chain (l : list (list R -> list R -> Prop)) (s t : list R) : Prop :=
    match l with
    | [] => t = s
    | f :: l' => exists u, f s u /\ chain l' u t
    end.
  Definition full_rounds (k : nat) : list R -> list R -> Prop := chain (map full_round (seq k 4)).
  (** the textbook permutation *)
  Definition poseidon_rel (s t : list R) : Prop :=
    exists u v, full_rounds 0 s u /\ chain (map partial_round (seq 4 22)) u v /\ full_rounds 26 v t.

  (** ** Fast form of the partial rounds *)
  Definition fast_init (s : list R) : list R := hd rO s :: matvec INITt (tl s).
  Definition fast_mds (i : nat) (s : list R) : list R :=
    radd (rmul (phi M00) (hd rO s)) (dotp (WHr i) (tl s))
    :: map2 (fun t x => radd (rmul (phi t) (hd rO s)) x) (VSr i) (tl s).
  Definition fast_round (i : nat) (s t : list R) : Prop :=
    exists y, Sb (hd rO s) y /\ t = fast_mds i (radd y (phi (FRC i)) :: tl s).
  Definition fast_partial (s t : list R) : Prop :=
    chain (map fast_round (seq 0 22)) (fast_init (vadd s (map phi FC))) t.
  Definition poseidon_fast (s t : list R) : Prop :=
    exists u v, full_rounds 0 s u /\ fast_partial u v /\ full_rounds 26 v t.

  Lemma chain_length (l : list (list R -> list R -> Prop)) n : (forall f s t, In f l -> length s = n -> f s t -> length t = n) ->
    forall s t, length s = n -> chain l s t -> length t = n.
  Proof.
    clear. induction l as [|f l IH]; intros H s t Hs C; cbn in C; [rewrite C; exact Hs|].
    destruct C as (u & Hu & C). eapply IH; [|eapply H; [apply in_eq|exact Hs|exact Hu]|exact C].
    intros; eapply H; eauto using in_cons.
  Qed.
  Lemma length_MDS : length MDS = 12. Proof. reflexivity. Qed.
  Lemma length_mds s : length (mds s) = 12. Proof. apply (length_matvec rO radd rmul phi MDS). Qed.
  Lemma full_round_length k s t : full_round k s t -> length t = 12.
  Proof. intros (u & _ & ->). apply length_mds. Qed.
  Lemma partial_round_length k s t : partial_round k s t -> length t = 12.
  Proof. intros (u & _ & ->). apply length_mds. Qed.
  Lemma full_rounds_length k s t : length s = 12 -> full_rounds k s t -> length t = 12.
  Proof.
    intros Hs. apply chain_length; [|exact Hs]. intros f a b Hf _ Hab.
    apply in_map_iff in Hf. destruct Hf as (j & <- & _). eapply full_round_length, Hab.
  Qed.

End Rounds.

(** ** The sparse form is equivalent: constants over Z, checked modulo p *)
Definition MDSz : list (list Z) :=
  map (fun i => map (fun j =>
         (nth ((j + 12 - i) mod 12) MDS_MATRIX_CIRC 0 + (if Nat.eqb i j then nth i MDS_MATRIX_DIAG 0 else 0))%Z)
       (seq 0 12)) (seq 0 12).
Definition mhz : list (list Z) := map (@tl Z) (tl MDSz).
Definition vrowz : list Z := tl (hd [] MDSz).
Definition wcolz : list Z := map (hd 0%Z) (tl MDSz).
Definition RCz (k : nat) : list Z := firstn 12 (skipn (12 * k) ALL_ROUND_CONSTANTS).
Definition dataz (i : nat) : rdata Z :=
  {| rC := RCz (4 + i); rF := nth i FAST_PARTIAL_ROUND_CONSTANTS 0%Z;
     rW := nth i FAST_PARTIAL_ROUND_W_HATS []; rV := nth i FAST_PARTIAL_ROUND_VS [] |}.
Definition INITtz : list (list Z) :=
  map (fun d => map (fun r => nth d r 0%Z) (firstn 11 FAST_PARTIAL_ROUND_INITIAL_MATRIX)) (seq 0 11).
Definition b0z : list Z := vs Z.sub (tl (RCz 4)) (tl FAST_PARTIAL_FIRST_ROUND_CONSTANT).

Lemma sparse_checked :
  goodb p 11 MDS0TO0 vrowz wcolz (repeat 0%Z 12) mhz (map dataz (seq 0 22)) b0z &&
  zmeqb p (zpow p 11 mhz 22) INITtz &&
  (hd 0 (RCz 4) =? hd 0 FAST_PARTIAL_FIRST_ROUND_CONSTANT)%Z = true.
Proof. vm_compute. reflexivity. Qed.

Section Equiv.
  Context {R : Type} (rO rI : R) (radd rmul rsub : R -> R -> R) (ropp : R -> R).
  Context (Rth : ring_theory rO rI radd rmul rsub ropp eq).
  Add Ring Rring3 : Rth.
  Context (phi : GF -> R).
  Context (phi0 : phi g0 = rO) (phi1 : phi g1 = rI)
          (phi_add : forall a b, phi (gadd a b) = radd (phi a) (phi b))
          (phi_mul : forall a b, phi (gmul a b) = rmul (phi a) (phi b)).
  Context (Sb : R -> R -> Prop).
  Notation vadd := (vadd radd).
  Notation matvec := (matvec rO radd rmul phi).
  Notation partial_round := (partial_round rO radd rmul phi Sb).
  Notation fast_round := (fast_round rO radd rmul phi Sb).

  Definition psi (z : Z) : R := phi (inj z).
  Lemma psi0 : psi 0 = rO. Proof. unfold psi. now rewrite <- g0_inj. Qed.
  Lemma psi1 : psi 1 = rI. Proof. unfold psi. now rewrite <- g1_inj. Qed.
  Lemma psi_add a b : psi (a + b) = radd (psi a) (psi b). Proof. unfold psi. now rewrite inj_add. Qed.
  Lemma psi_mul a b : psi (a * b) = rmul (psi a) (psi b). Proof. unfold psi. now rewrite inj_mul. Qed.
  Lemma psi_p : psi p = rO. Proof. unfold psi. now rewrite inj_p. Qed.
  Notation psv := (psv psi).
  Notation psd := (psd psi).

  Lemma dotp_psv a : forall x, dotp rO radd rmul phi (map inj a) x = dot rO radd rmul (psv a) x.
  Proof.
    induction a as [|u a IH]; intros [|y x]; cbn [map dotp dot Sparse.psv]; auto.
    rewrite IH. reflexivity.
  Qed.
  Lemma matvec_psv M x : matvec (map (map inj) M) x = mv rO radd rmul (map psv M) x.
  Proof. unfold LinAlg.matvec, mv. rewrite !map_map. apply map_ext. intros a. apply dotp_psv. Qed.
  Lemma psv_inj l : map phi (map inj l) = psv l. Proof. unfold Sparse.psv. now rewrite map_map. Qed.

  Lemma MDS_z : MDS = map (map inj) MDSz.
  Proof.
    unfold MDS, MDSz. rewrite map_map. apply map_ext. intros i. rewrite map_map. apply map_ext. intros j.
    rewrite inj_add. apply f_equal. destruct (Nat.eqb i j); [reflexivity|apply g0_inj].
  Qed.
  Lemma INITt_z : INITt = map (map inj) INITtz.
  Proof.
    unfold INITt, INITtz, INITm. rewrite map_map. apply map_ext. intros d. rewrite map_map, firstn_map, map_map.
    apply map_ext. intros r0. rewrite g0_inj. apply map_nth.
  Qed.

  Notation MdsF := (mdsf rO radd rmul (psi MDS0TO0) (psv vrowz) (psv wcolz) (map psv mhz)).
  Lemma mds_mdsf s : length s = 12 -> mds rO radd rmul phi s = MdsF s.
  Proof.
    intros H. unfold mds. rewrite MDS_z, matvec_psv. destruct s as [|x s]; [discriminate|].
    unfold mdsf. cbn [hd tl].
    assert (E : MDSz = (MDS0TO0 :: vrowz) :: map2 cons wcolz mhz) by (vm_compute; reflexivity).
    rewrite E at 1. cbn [map mv dot Sparse.psv]. apply f_equal.
    assert (G : forall W M, mv rO radd rmul (map psv (map2 cons W M)) (x :: s)
       = va radd (sc rmul x (psv W)) (mv rO radd rmul (map psv M) s)).
    { clear - Rth. induction W as [|w W IH]; intros [|r0 M]; try reflexivity.
      unfold mv, va, sc, Sparse.psv in *. cbn [map2 map dot]. apply f_equal2; [ring|]. apply IH. }
    apply G.
  Qed.

  Lemma length_RC k : k < 30 -> length (RC k) = 12.
  Proof.
    intros Hk. unfold RC. rewrite map_length, firstn_length, skipn_length.
    change (length ALL_ROUND_CONSTANTS) with 360. lia.
  Qed.
  Lemma partial_nround i s t : length s = 12 -> i < 22 ->
    (partial_round (4 + i) s t <-> nround rO radd rmul (psi MDS0TO0) (psv vrowz) (psv wcolz) (map psv mhz) Sb (psd (dataz i)) s t).
  Proof.
    intros Hs Hi. unfold partial_round, nround, add_rc.
    cbn [Sparse.psd rC dataz]. change (RC (4 + i)) with (map inj (RCz (4 + i))). rewrite psv_inj.
    change (LinAlg.vadd radd) with (va radd).
    assert (L : length (va radd s (psv (RCz (4 + i)))) = 12).
    { rewrite len_va; [exact Hs|]. unfold Sparse.psv. rewrite map_length, Hs.
      pose proof (length_RC (4 + i) ltac:(lia)) as E. unfold RC in E. rewrite map_length in E. symmetry. exact E. }
    split; intros (y & Hy & ->); exists y; (split; [exact Hy|]); [|symmetry]; apply mds_mdsf; cbn [length];
      destruct (va radd s (psv (RCz (4 + i)))); try discriminate; cbn [tl length] in *; exact L.
  Qed.
  Lemma fast_fround i s t :
    (fast_round i s t <-> fround rO radd rmul (psi MDS0TO0) Sb (psd (dataz i)) s t).
  Proof.
    unfold fast_round, fround.
    assert (E : forall y, fast_mds rO radd rmul phi i (radd y (phi (FRC i)) :: tl s)
       = fmds rO radd rmul (psi MDS0TO0) (psd (dataz i)) (radd y (rF (psd (dataz i))) :: tl s)).
    { intros y. unfold fast_mds, fmds. cbn [hd tl Sparse.psd rF rW rV dataz].
      change (phi (FRC i)) with (psi (nth i FAST_PARTIAL_ROUND_CONSTANTS 0%Z)).
      apply f_equal2.
      - change (phi M00) with (psi MDS0TO0). apply f_equal. apply dotp_psv.
      - change (VSr i) with (map inj (nth i FAST_PARTIAL_ROUND_VS [])).
        generalize (nth i FAST_PARTIAL_ROUND_VS []) (tl s) (radd y (psi (nth i FAST_PARTIAL_ROUND_CONSTANTS 0%Z))).
        clear - Rth. induction l as [|a l IH]; intros [|x xs] c; try reflexivity.
        cbn [map map2 Sparse.psv sc va]. apply f_equal2; [unfold psi; ring|]. apply IH. }
    split; intros (y & Hy & ->); exists y; (split; [exact Hy|]); [|symmetry]; apply E.
  Qed.

  Lemma chain_chn (F : nat -> list R -> list R -> Prop) (G : rdata R -> list R -> list R -> Prop)
      (d : nat -> rdata R) (P : list R -> Prop) l :
    (forall i s t, In i l -> P s -> (F i s t <-> G (d i) s t)) ->
    (forall i s t, In i l -> P s -> F i s t -> P t) ->
    forall s t, P s -> (chain (map F l) s t <-> chn G (map d l) s t).
  Proof.
    clear. intros H HP. induction l as [|i l IH]; intros s t Hs; cbn [map chain chn]; [reflexivity|].
    assert (IH' : forall u, P u -> (chain (map F l) u t <-> chn G (map d l) u t)).
    { intros u Hu. apply IH; auto; intros; [apply H|eapply HP]; eauto using in_cons. }
    split; intros (u & Hu & C); exists u.
    - split; [apply H; auto using in_eq|]. apply IH'; auto. eapply HP; eauto using in_eq.
    - apply H in Hu; auto using in_eq. split; auto. apply IH'; auto. eapply HP; eauto using in_eq.
  Qed.

  Lemma mhz_rows : forall a, In a (map psv mhz) -> length a = 11.
  Proof.
    intros a Ha. apply in_map_iff in Ha. destruct Ha as (x & <- & Hx). unfold Sparse.psv. rewrite map_length.
    revert x Hx. apply Forall_forall. unfold mhz. vm_compute. repeat constructor.
  Qed.
  (** before the first partial round the two forms are related *)
  Lemma fast_start s : length s = 12 ->
    exists b, length b = 11 /\
      good rO radd rmul rsub 11 (psi MDS0TO0) (psv vrowz) (psv wcolz) (repeat rO 12) (map psv mhz) (map psd (map dataz (seq 0 22))) b /\
      rel rO radd rmul rsub (map psv mhz) 22 b (va radd s (psv (RCz 4))) (fast_init rO radd rmul phi (vadd s (map phi FC))).
  Proof.
    intros Ls. pose proof sparse_checked as B. rewrite !andb_true_iff in B. destruct B as ((G & I) & H0).
    assert (Pp : (0 < p)%Z) by reflexivity.
    pose proof (goodb_good p Pp 11 MDS0TO0 vrowz wcolz (repeat 0%Z 12) mhz rO rI radd rmul rsub ropp Rth psi psi0
                  psi_add psi_mul psi_p _ _ G) as GR.
    apply (zmeqb_eq p Pp rO rI radd rmul rsub ropp Rth psi psi0 psi_add psi_mul psi_p) in I.
    apply Z.eqb_eq in H0. rewrite (psv_0 rO psi psi0) in GR.
    exists (psv b0z). split; [reflexivity|]. split; [exact GR|].
    unfold rel, fast_init.
    set (zc := zpow p 11 mhz 22) in *.
    destruct s as [|x s]; [discriminate Ls|]. injection Ls as Ls.
    unfold FC. rewrite psv_inj.
    assert (Lz : length (tl (RCz 4)) = 11 /\ length (tl FAST_PARTIAL_FIRST_ROUND_CONSTANT) = 11) by (split; reflexivity).
    unfold b0z. destruct (RCz 4) as [|c0 ct]; [destruct Lz as [Lz _]; discriminate Lz|].
    destruct FAST_PARTIAL_FIRST_ROUND_CONSTANT as [|f0 ft]; [destruct Lz as [_ Lz]; discriminate Lz|].
    cbn [hd] in H0. subst f0. destruct Lz as [Lc Lf]. cbn [tl] in Lc, Lf |- *.
    cbn [Sparse.psv map]. unfold LinAlg.vadd, va. cbn [map2 hd tl]. apply f_equal.
    rewrite INITt_z, matvec_psv, <- I. unfold zc.
    rewrite (zpow_act p Pp 11 mhz rO rI radd rmul rsub ropp Rth psi psi0 psi1 psi_add psi_mul psi_p);
      [|reflexivity|rewrite length_map2; unfold Sparse.psv; rewrite ?map_length; congruence].
    apply f_equal.
    change (map psi ft) with (psv ft). change (map psi ct) with (psv ct).
    rewrite (psv_vs rO rI radd rmul rsub ropp Rth psi psi_add).
    clear - Ls Lc Lf Rth. revert s ct ft Ls Lc Lf. generalize 11.
    induction n as [|n IH]; intros [|a s] [|b ct] [|c ft] H1 H2 H3; try discriminate; [reflexivity|].
    cbn [Sparse.psv map map2 vs]. apply f_equal2; [ring|].
    injection H1 as H1. injection H2 as H2. injection H3 as H3. now apply IH.
  Qed.

  Lemma fast_partial_equiv s t : length s = 12 ->
    (chain (map partial_round (seq 4 22)) s t <-> fast_partial rO radd rmul phi Sb s t).
  Proof.
    intros Ls. destruct (fast_start s Ls) as (b & Lb & GR & Hr).
    replace (seq 4 22) with (map (fun i => 4 + i) (seq 0 22)) by reflexivity. rewrite map_map.
    rewrite (chain_chn (fun i => partial_round (4 + i))
              (nround rO radd rmul (psi MDS0TO0) (psv vrowz) (psv wcolz) (map psv mhz) Sb)
              (fun i => psd (dataz i)) (fun s => length s = 12)); [| | |exact Ls].
    2:{ intros i a c Hi Ha. apply in_seq in Hi. apply partial_nround; auto; lia. }
    2:{ intros i a c _ _ Hab. eapply partial_round_length, Hab. }
    unfold fast_partial.
    rewrite (chain_chn fast_round (fround rO radd rmul (psi MDS0TO0) Sb) (fun i => psd (dataz i)) (fun _ => True));
      [|intros; apply fast_fround|auto|auto].
    rewrite <- (map_map dataz psd).
    set (l := map psd (map dataz (seq 0 22))) in *.
    assert (LN : forall l0 a b, length a = 12 ->
       chn (nround rO radd rmul (psi MDS0TO0) (psv vrowz) (psv wcolz) (map psv mhz) Sb) l0 a b -> length b = 12).
    { induction l0 as [|d l0 IH]; intros a c La C; cbn [chn] in C; [now rewrite C|].
      destruct C as (u & (y & _ & ->) & C). eapply IH; [|exact C]. now apply len_mdsf. }
    transitivity (exists t0, chn (nround rO radd rmul (psi MDS0TO0) (psv vrowz) (psv wcolz) (map psv mhz) Sb) l s t0
                    /\ t = va radd t0 (repeat rO 12)).
    { pose proof (va_0 rO rI radd rmul rsub ropp Rth) as V0. split.
      - intros C. exists t. split; [exact C|]. specialize (V0 t). rewrite (LN _ _ _ Ls C) in V0. now symmetry.
      - intros (t0 & C & ->). specialize (V0 t0). rewrite (LN _ _ _ Ls C) in V0. now rewrite V0. }
    eapply (sparse_equiv rO rI radd rmul rsub ropp Rth 11 (psi MDS0TO0) (psv vrowz) (psv wcolz) (repeat rO 12)
              (map psv mhz) Sb eq_refl eq_refl) with (b := b);
      [exact mhz_rows|exact Lb|exact Ls|exact GR|].
    change (length l) with 22. change (hdC (repeat rO 12) l) with (psv (RCz 4)). exact Hr.
  Qed.

  (** for a functional S-box [f]: the states, and the values [f] is applied to *)
  Context (f : R -> R).
  Definition partial_f (s : list R) (k : nat) : list R := mds rO radd rmul phi (f (hd rO (add_rc radd phi k s)) :: tl (add_rc radd phi k s)).
  Definition fast_f (v : list R) (i : nat) : list R := fast_mds rO radd rmul phi i (radd (f (hd rO v)) (phi (FRC i)) :: tl v).
  Fixpoint ptrace (l : list nat) (s : list R) : list R :=
    match l with [] => [] | k :: l' => hd rO (add_rc radd phi k s) :: ptrace l' (partial_f s k) end.
  Fixpoint ftrace (l : list nat) (v : list R) : list R :=
    match l with [] => [] | i :: l' => hd rO v :: ftrace l' (fast_f v i) end.
  Lemma fast_trace s : length s = 12 ->
    let v := fast_init rO radd rmul phi (vadd s (map phi FC)) in
    ftrace (seq 0 22) v = ptrace (seq 4 22) s /\ fold_left fast_f (seq 0 22) v = fold_left partial_f (seq 4 22) s.
  Proof.
    intros Ls v. destruct (fast_start s Ls) as (b & Lb & GR & Hr).
    assert (Sn : forall s i, length s = 12 -> i < 22 ->
              partial_f s (4 + i) = nstep rO radd rmul (psi MDS0TO0) (psv vrowz) (psv wcolz) (map psv mhz) f (psd (dataz i)) s /\
              hd rO (add_rc radd phi (4 + i) s) = hd rO (va radd s (rC (psd (dataz i)))) /\ length (partial_f s (4 + i)) = 12).
    { clear - Rth phi0 phi_add. intros s i Hs Hi. unfold partial_f, nstep, add_rc.
      cbn [Sparse.psd rC dataz]. change (RC (4 + i)) with (map inj (RCz (4 + i))). rewrite psv_inj.
      change (LinAlg.vadd radd) with (va radd).
      assert (L : length (va radd s (psv (RCz (4 + i)))) = 12).
      { rewrite len_va; [exact Hs|]. unfold Sparse.psv. rewrite map_length, Hs.
        pose proof (length_RC (4 + i) ltac:(lia)) as E. unfold RC in E. rewrite map_length in E. symmetry. exact E. }
      split; [|split; [reflexivity|apply length_mds]].
      apply mds_mdsf. destruct (va radd s (psv (RCz (4 + i)))); try discriminate; cbn [tl length] in *; exact L. }
    assert (Sf : forall v i, fast_f v i = fstep rO radd rmul (psi MDS0TO0) f (psd (dataz i)) v).
    { clear - Rth. intros s i. unfold fast_f, fstep, fast_mds, fmds. cbn [hd tl Sparse.psd rF rW rV dataz].
      change (phi (FRC i)) with (psi (nth i FAST_PARTIAL_ROUND_CONSTANTS 0%Z)).
      apply f_equal2.
      - change (phi M00) with (psi MDS0TO0). apply f_equal. apply dotp_psv.
      - change (VSr i) with (map inj (nth i FAST_PARTIAL_ROUND_VS [])).
        generalize (nth i FAST_PARTIAL_ROUND_VS []) (tl s) (radd (f (hd rO s)) (psi (nth i FAST_PARTIAL_ROUND_CONSTANTS 0%Z))).
        clear - Rth. induction l as [|a l IH]; intros [|x xs] c; try reflexivity.
        cbn [map map2 Sparse.psv sc va]. apply f_equal2; [unfold psi; ring|]. apply IH. }
    assert (Nn : forall l s, length s = 12 -> (forall i, In i l -> i < 22) ->
              ptrace (map (fun i => 4 + i) l) s = ntr rO radd rmul (psi MDS0TO0) (psv vrowz) (psv wcolz) (map psv mhz) f (map psd (map dataz l)) s /\
              fold_left partial_f (map (fun i => 4 + i) l) s
                = fold_left (fun s d => nstep rO radd rmul (psi MDS0TO0) (psv vrowz) (psv wcolz) (map psv mhz) f d s) (map psd (map dataz l)) s /\
              length (fold_left partial_f (map (fun i => 4 + i) l) s) = 12).
    { induction l as [|i l IH]; intros s0 L0 Hl; cbn [map ptrace ntr fold_left]; [auto|].
      destruct (Sn s0 i L0 (Hl i (in_eq _ _))) as (E1 & E2 & E3).
      destruct (IH (partial_f s0 (4 + i)) E3 (fun j Hj => Hl j (in_cons _ _ _ Hj))) as (F1 & F2 & F3).
      rewrite E2, F1, F2, E1. rewrite F2, E1 in F3. auto. }
    assert (Nf : forall l v, ftrace l v = ftr rO radd rmul (psi MDS0TO0) f (map psd (map dataz l)) v /\
              fold_left fast_f l v = fold_left (fun v d => fstep rO radd rmul (psi MDS0TO0) f d v) (map psd (map dataz l)) v).
    { induction l as [|i l IH]; intros v0; cbn [map ftrace ftr fold_left]; [auto|].
      destruct (IH (fast_f v0 i)) as [F1 F2]. rewrite <- (Sf v0 i). split; [apply f_equal; exact F1|exact F2]. }
    destruct (Nf (seq 0 22) v) as [F1 F2]. rewrite F1, F2.
    change (seq 4 22) with (map (fun i => 4 + i) (seq 0 22)).
    destruct (Nn (seq 0 22) s Ls) as (G1 & G2 & G3); [intros i Hi; apply in_seq in Hi; lia|].
    rewrite G1. rewrite G2 in G3 |- *.
    destruct (trace_equiv rO rI radd rmul rsub ropp Rth 11 (psi MDS0TO0) (psv vrowz) (psv wcolz) (repeat rO 12)
                (map psv mhz) eq_refl eq_refl mhz_rows f (map psd (map dataz (seq 0 22))) b s v Lb Ls GR Hr) as [T1 T2].
    split; [now symmetry|]. rewrite <- T2.
    pose proof (va_0 rO rI radd rmul rsub ropp Rth) as V0.
    rewrite <- G3. apply V0.
  Qed.

  (** The sparse form of Poseidon is the textbook form. *)
  Theorem poseidon_fast_equiv s t : length s = 12 ->
    (poseidon_fast rO radd rmul phi Sb s t <-> poseidon_rel rO radd rmul phi Sb s t).
  Proof.
    intros Ls. unfold poseidon_fast, poseidon_rel. split; intros (u & v & H1 & H2 & H3);
      exists u, v; split; auto; split; auto;
      apply fast_partial_equiv in H2; auto; eapply full_rounds_length; eauto.
  Qed.
End Equiv.
