(** * Correlated agreement along a curve.

    Words u_0, .., u_(T-1) are combined with the powers of a challenge.  If for enough challenges
    the combination is close to a polynomial, within half of the minimal distance, then the words
    themselves agree with polynomials, all at the same positions.  The proof is that of
    Polishchuk and Spielman: a bivariate polynomial that vanishes at the errors exists because
    there are more coefficients than errors. *)
From Coq Require Import String.
From Coq Require Import ZArith NArith Arith Lia List Bool.
From Verif Require Import Zp GF Circuit Goldilocks GLProofs ExtProofs BN254 BN254Hash Types Challenger Fri Poly Roots FriMerkle FriEval FriQuery FriTop FriFacts Honest FriSound FriRewind FriExtract.
Import ListNotations.
Open Scope Z_scope.
Local Opaque PoseidonBN HashOrNoop TwoToOne.

(** ** Points *)
Lemma dom_inj s n i j : s <> 0%GF -> (n <= TWO_ADICITY)%nat -> below n i -> below n j -> dom s n i = dom s n j -> i = j.
Proof.
  intros Hs Hn Hi Hj E. apply (query_point_inj n); try assumption. unfold dom in E. unfold query_point. f_equal.
  assert (D : (s * (root n ^ Z.to_N (bitrev n i) - root n ^ Z.to_N (bitrev n j)))%GF = 0%GF).
  { transitivity (s * root n ^ Z.to_N (bitrev n i) - s * root n ^ Z.to_N (bitrev n j))%GF; [ring|]. rewrite E. ring. }
  apply gmul_eq0 in D. destruct D as [D|D]; [contradiction|]. now apply gsub_eq0.
Qed.
Definition points_on (s : GF) (n : nat) (G : list Z) : list K := map (fun i => emb (dom s n i)) G.
Lemma points_on_nodup s n G : s <> 0%GF -> (n <= TWO_ADICITY)%nat -> positions_of n G -> NoDup (points_on s n G).
Proof.
  intros Hs Hn [ND R]. rewrite Forall_forall in R. apply NoDup_map_in; [|exact ND]. intros a b Ha Hb E. apply emb_inj in E. apply (dom_inj s n); auto.
Qed.
Lemma kpeval_same_pts xs (f g : list K) : NoDup xs -> (length f <= length xs)%nat -> (length g <= length xs)%nat ->
  (forall x, In x xs -> kpeval f x = kpeval g x) -> forall x, kpeval f x = kpeval g x.
Proof.
  intros ND Lf Lg H x. apply ksub_eq0.
  assert (Z : kpeval (paddl kadd f (pscale kmul (- (1))%K g)) x = k0).
  { apply (kfew_roots xs); [exact ND| |].
    - apply paddl_len; [exact Lf|]. unfold pscale. now rewrite map_length.
    - intros y Hy. rewrite kpaddl', kpscale', (H y Hy). ring. }
  rewrite kpaddl', kpscale' in Z. eapply eq_trans; [|exact Z]. ring.
Qed.
Lemma kpeval_same_on s n G (f g : list K) : s <> 0%GF -> (n <= TWO_ADICITY)%nat -> positions_of n G -> (length f <= length G)%nat -> (length g <= length G)%nat ->
  (forall i, In i G -> kpeval f (emb (dom s n i)) = kpeval g (emb (dom s n i))) -> forall x, kpeval f x = kpeval g x.
Proof.
  intros Hs Hn HG Lf Lg H. apply (kpeval_same_pts (points_on s n G)); [now apply points_on_nodup| | |]; try (unfold points_on; now rewrite map_length).
  intros x Hx. apply in_map_iff in Hx. destruct Hx as (i & <- & Hi). now apply H.
Qed.

(** ** Counting *)
Lemma flat_map_le {A C} (f : A -> list C) m l : (forall a, In a l -> (length (f a) <= m)%nat) -> (length (flat_map f l) <= length l * m)%nat.
Proof.
  induction l as [|a l IH]; intros H; cbn [flat_map length]; [lia|]. rewrite app_length. pose proof (H a (in_eq _ _)).
  assert (length (flat_map f l) <= length l * m)%nat by (apply IH; intros; apply H; now right). lia.
Qed.
(** if few elements are excluded, one is left *)
Lemma one_left (l ex : list K) : NoDup l -> (length ex < length l)%nat -> exists b, In b l /\ ~ In b ex.
Proof.
  intros ND L. destruct (Forall_Exists_dec (fun b => In b ex) (fun b => in_dec K_eq_dec b ex) l) as [F|E].
  - exfalso. rewrite Forall_forall in F. pose proof (NoDup_incl_length ND F). lia.
  - apply Exists_exists in E. exact E.
Qed.
(** the elements of l that are not in ex *)
Definition kwithout (l ex : list K) : list K := filter (fun b => if in_dec K_eq_dec b ex then false else true) l.
Lemma kwithout_in l ex b : In b (kwithout l ex) <-> In b l /\ ~ In b ex.
Proof.
  unfold kwithout. rewrite filter_In. destruct (in_dec K_eq_dec b ex) as [H|H]; split; intros [H1 H2]; split; try assumption; try discriminate; try contradiction; reflexivity.
Qed.
Lemma kwithout_length l ex : NoDup l -> (length l <= length (kwithout l ex) + length ex)%nat.
Proof.
  intros ND. rewrite <- app_length. apply NoDup_incl_length; [exact ND|]. intros b Hb. apply in_or_app.
  destruct (in_dec K_eq_dec b ex) as [H|H]; [now right|left]. now apply kwithout_in.
Qed.
Lemma nodup_firstn {A} t (l : list A) : NoDup l -> NoDup (firstn t l).
Proof.
  intros ND. rewrite <- (firstn_skipn t l) in ND. revert ND. generalize (skipn t l). generalize (firstn t l) as l1. clear. induction l1 as [|a l1 IH]; intros l' ND; [constructor|].
  cbn [app] in ND. inversion ND as [|? ? Ha ND']; subst. constructor; [intros X; apply Ha, in_or_app; now left|now apply (IH l')].
Qed.
Lemma in_firstn {A} t (l : list A) a : In a (firstn t l) -> In a l.
Proof. intros H. rewrite <- (firstn_skipn t l). apply in_or_app. now left. Qed.
Definition member (l : list Z) (i : Z) : bool := existsb (Z.eqb i) l.
Lemma member_in l i : member l i = true <-> In i l.
Proof.
  unfold member. rewrite existsb_exists. split.
  - intros (j & Hj & E). apply Z.eqb_eq in E. now subst.
  - intros H. exists i. split; [exact H|apply Z.eqb_refl].
Qed.
Lemma filter_split_length {A} (f : A -> bool) l : (length (filter f l) + length (filter (fun x => negb (f x)) l) = length l)%nat.
Proof. induction l as [|a l IH]; [reflexivity|]. cbn [filter]. destruct (f a); cbn [negb length]; lia. Qed.
Lemma filter_member n l : positions_of n l -> (length l <= length (filter (member l) (all_indices n)))%nat.
Proof.
  intros [ND R]. apply NoDup_incl_length; [exact ND|]. intros i Hi. apply filter_In. rewrite Forall_forall in R.
  split; [now apply all_indices_in, R|now apply member_in].
Qed.
Lemma filter_positions n f : positions_of n (filter f (all_indices n)).
Proof. split; [apply NoDup_filter, all_indices_positions|]. apply Forall_forall. intros i Hi. apply filter_In in Hi. now apply all_indices_in. Qed.

(** ** Fewer homogeneous linear equations than unknowns *)
Section Kernel.
  Context {A : Type} (A_dec : forall a b : A, {a = b} + {a <> b}).
  Definition klinear (phi : (A -> K) -> K) : Prop := forall x c y c', phi (fun i => x * c i - y * c' i)%K = (x * phi c - y * phi c')%K.
  Lemma kernel rows : Forall klinear rows -> forall I, NoDup I -> (length rows < length I)%nat ->
    exists c, (forall i, ~ In i I -> c i = k0) /\ (exists i, In i I /\ c i <> k0) /\ forall phi, In phi rows -> phi c = k0.
  Proof.
    induction 1 as [|phi rows Lphi HR IH]; intros I ND L.
    - destruct I as [|i I]; [cbn in L; lia|]. exists (fun j => if A_dec j i then k1 else k0). split; [|split].
      + intros j Hj. destruct (A_dec j i) as [->|]; [destruct Hj; now left|reflexivity].
      + exists i. split; [now left|]. destruct (A_dec i i) as [_|N]; [exact k1_neq_k0|now destruct N].
      + intros phi [].
    - destruct I as [|i0 I']; [cbn in L; lia|]. cbn [length] in L. inversion ND as [|? ? Hi0 ND']; subst.
      destruct (IH I' ND' ltac:(lia)) as (c1 & S1 & (i1 & Hi1 & N1) & R1).
      destruct (K_eq_dec (phi c1) k0) as [Z|NZ].
      { exists c1. split; [intros i Hi; apply S1; intros X; apply Hi; now right|]. split; [exists i1; split; [now right|exact N1]|].
        intros psi [<-|Hpsi]; [exact Z|now apply R1]. }
      assert (NDr : NoDup (remove A_dec i1 (i0 :: I'))).
      { clear - ND. induction ND as [|a l Ha ND IH]; cbn [remove]; [constructor|]. destruct (A_dec i1 a); [exact IH|]. constructor; [|exact IH].
        intros X. apply in_remove in X. tauto. }
      assert (Lr : (length rows < length (remove A_dec i1 (i0 :: I')))%nat).
      { assert (X : (length (i0 :: I') <= S (length (remove A_dec i1 (i0 :: I'))))%nat); [|cbn [length] in X; lia].
        clear - ND. induction ND as [|a l Ha ND IH]; cbn [remove length]; [lia|]. destruct (A_dec i1 a) as [<-|].
        - rewrite notin_remove by exact Ha. lia.
        - cbn [length]. lia. }
      destruct (IH _ NDr Lr) as (c2 & S2 & (i2 & Hi2 & N2) & R2). apply in_remove in Hi2. destruct Hi2 as [Hi2 Ni2].
      exists (fun i => phi c1 * c2 i - phi c2 * c1 i)%K. split; [|split].
      + intros i Hi. rewrite S1, S2; [ring| |]; intros X; apply Hi; [apply in_remove in X; tauto|now right].
      + destruct (K_eq_dec (phi c2) k0) as [Z2|NZ2].
        * exists i2. split; [exact Hi2|]. rewrite Z2. intros X. assert (Y : (phi c1 * c2 i2 = 0)%K) by (rewrite <- X; ring).
          apply kmul_eq0 in Y. tauto.
        * exists i1. split; [now right|]. rewrite (S2 i1) by (intros X; apply in_remove in X; tauto). intros X.
          assert (Y : (phi c2 * c1 i1 = 0)%K) by (transitivity (- (phi c1 * 0 - phi c2 * c1 i1))%K; [ring|rewrite X; ring]). apply kmul_eq0 in Y. tauto.
      + intros psi [<-|Hpsi]; [rewrite Lphi; ring|]. rewrite Forall_forall in HR. rewrite (HR psi Hpsi), (R1 psi Hpsi), (R2 psi Hpsi). ring.
  Qed.
End Kernel.

(** ** Bivariate polynomials, with a + 1 and e + 1 coefficients *)
Definition coeffs_x (c : nat * nat -> K) (a e : nat) (z : K) : list K := map (fun t => kpeval (map (fun s => c (s, t)) (seq 0 (S a))) z) (seq 0 (S e)).
Definition biv (c : nat * nat -> K) (a e : nat) (z x : K) : K := kpeval (coeffs_x c a e z) x.
Lemma kpeval_lin {A} (f g : A -> K) y y' l x : kpeval (map (fun s => y * f s - y' * g s)%K l) x = (y * kpeval (map f l) x - y' * kpeval (map g l) x)%K.
Proof. induction l as [|s l IH]; unfold kpeval in *; cbn [map peval]; [ring|]. rewrite IH. ring. Qed.
Lemma biv_linear a e z x : klinear (fun c => biv c a e z x).
Proof.
  intros y c y' c'. unfold biv, coeffs_x.
  rewrite <- (kpeval_lin (fun t => kpeval (map (fun s => c (s, t)) (seq 0 (S a))) z) (fun t => kpeval (map (fun s => c' (s, t)) (seq 0 (S a))) z)).
  f_equal. apply map_ext. intros t. apply (kpeval_lin (fun s => c (s, t)) (fun s => c' (s, t))).
Qed.
Lemma coeffs_x_length c a e z : length (coeffs_x c a e z) = S e. Proof. unfold coeffs_x. now rewrite map_length, seq_length. Qed.
Lemma kpeval_seq f t0 t x : kpeval (map f (seq t0 t)) x = rsum k0 kadd (map (fun j => x ^ N.of_nat (j - t0) * f j)%K (seq t0 t)).
Proof.
  revert t0. induction t as [|t IH]; intros t0; [reflexivity|]. cbn [seq map]. unfold kpeval in *. cbn [peval rsum fold_right].
  rewrite IH. rewrite Nat.sub_diag. change (N.of_nat 0) with 0%N. rewrite kpow_0.
  assert (Y : forall l, (forall j, In j l -> (S t0 <= j)%nat) -> (x * rsum k0 kadd (map (fun j => x ^ N.of_nat (j - S t0) * f j) l) = rsum k0 kadd (map (fun j => x ^ N.of_nat (j - t0) * f j) l))%K).
  { induction l as [|j l IHl]; intros Hl; cbn [map rsum fold_right]; [ring|]. unfold rsum in IHl. rewrite <- IHl by (intros; apply Hl; now right).
    pose proof (Hl j (in_eq _ _)). replace (j - t0)%nat with (S (j - S t0)) by lia. rewrite Nat2N.inj_succ, kpow_succ. ring. }
  rewrite Y by (intros j Hj; apply in_seq in Hj; lia). unfold rsum. ring.
Qed.
Lemma biv_deg_z c a e x : kdeg (S a) (fun z => biv c a e z x).
Proof.
  eapply kdeg_ext; [|intros z; unfold biv, coeffs_x; symmetry; apply (kpeval_seq (fun t => kpeval (map (fun s => c (s, t)) (seq 0 (S a))) z))].
  apply (kdeg_rsum _ (fun j z => (x ^ N.of_nat (j - 0) * kpeval (map (fun s => c (s, j)) (seq 0 (S a))) z)%K)).
  intros j _. apply kdeg_scale. exists (map (fun s => c (s, j)) (seq 0 (S a))). split; [now rewrite map_length, seq_length|reflexivity].
Qed.
Lemma kdeg_zero_at n f (xs : list K) : kdeg n f -> NoDup xs -> (n <= length xs)%nat -> (forall x, In x xs -> f x = k0) -> forall x, f x = k0.
Proof.
  intros (c & Lc & Ec) ND L H x. etransitivity; [exact (Ec x)|]. apply (kfew_roots xs); [exact ND|lia|]. intros y Hy. etransitivity; [symmetry; exact (Ec y)|now apply H].
Qed.
Lemma kdeg_few_zeros n f (xs : list K) x0 : kdeg (S n) f -> NoDup xs -> f x0 <> k0 -> (length (filter (fun x => if K_eq_dec (f x) k0 then true else false) xs) <= n)%nat.
Proof.
  intros D ND N. apply Nat.nlt_ge. intros L. apply N. apply (kdeg_zero_at (S n) f (filter (fun x => if K_eq_dec (f x) k0 then true else false) xs)); [exact D|now apply NoDup_filter|lia|].
  intros x Hx. apply filter_In in Hx. destruct Hx as [_ Hx]. now destruct (K_eq_dec (f x) k0).
Qed.
Lemma kdeg_same n f g (xs : list K) : kdeg n f -> kdeg n g -> NoDup xs -> (n <= length xs)%nat -> (forall x, In x xs -> f x = g x) -> forall x, f x = g x.
Proof.
  intros Df Dg ND L H x. apply ksub_eq0. apply (kdeg_zero_at n (fun x => f x - g x)%K xs); [now apply kdeg_sub|exact ND|exact L|].
  intros y Hy. cbn beta. apply ksub_eq0. now apply H.
Qed.

(** ** The theorem *)
Section Curve.
  Context (s : GF) (n : nat) (u : Z -> list K) (T : nat) (al : list K) (P : K -> list K) (L : K -> list Z) (m e : nat).
  Context (Hs : s <> 0%GF) (Hn : (n <= TWO_ADICITY)%nat) (NDa : NoDup al) (Lu : forall i, length (u i) = T) (HT : (1 <= T)%nat).
  Context (LA : ((m + 1) * ((T - 1) * e) + T <= length al)%nat).
  Context (H : forall a, In a al -> (length (P a) <= m)%nat /\ positions_of n (L a) /\ (2 ^ n <= length (L a) + e)%nat /\
     forall i, In i (L a) -> kpeval (u i) a = kpeval (P a) (emb (dom s n i))).
  Context (He : (2 * e + m <= 2 ^ n)%nat).
  Local Notation a := ((T - 1) * e)%nat.
  Local Notation x_ i := (emb (dom s n i)).

  (** the positions that are not in L *)
  Definition errors (alpha : K) : list Z := filter (fun i => negb (member (L alpha) i)) (all_indices n).
  Lemma errors_length alpha : In alpha al -> (length (errors alpha) <= e)%nat.
  Proof.
    intros Ha. destruct (H alpha Ha) as (_ & HL & LL & _). unfold errors. pose proof (filter_split_length (member (L alpha)) (all_indices n)) as F.
    pose proof (filter_member n (L alpha) HL). rewrite all_indices_length in F. lia.
  Qed.
  (** the challenges used to find the bivariate polynomial *)
  Definition some_al : list K := firstn (a + T) al.
  Lemma some_al_length : length some_al = (a + T)%nat.
  Proof. unfold some_al. rewrite firstn_length. nia. Qed.

  Lemma locator : exists c : nat * nat -> K, (exists st, (fst st < S a /\ snd st < S e)%nat /\ c st <> k0) /\
    forall alpha i, In alpha some_al -> In i (errors alpha) -> biv c a e alpha (x_ i) = k0.
  Proof.
    set (rows := flat_map (fun alpha => map (fun i => fun c => biv c a e alpha (x_ i)) (errors alpha)) some_al).
    assert (D : forall x y : nat * nat, {x = y} + {x <> y}) by (decide equality; apply Nat.eq_dec).
    destruct (kernel D rows) with (I := list_prod (seq 0 (S a)) (seq 0 (S e))) as (c & _ & (st & Ist & Nst) & R).
    - apply Forall_forall. intros phi Hphi. apply in_flat_map in Hphi. destruct Hphi as (alpha & _ & Hphi). apply in_map_iff in Hphi. destruct Hphi as (i & <- & _). apply biv_linear.
    - assert (NP : forall (l1 l2 : list nat), NoDup l1 -> NoDup l2 -> NoDup (list_prod l1 l2)).
      { intros l1 l2 N1 N2. induction N1 as [|x l1 Hx N1 IH]; cbn [list_prod]; [constructor|].
        assert (NM : NoDup (map (fun y => (x, y)) l2)) by (apply NoDup_map_in; [intros y z _ _ E; now injection E|exact N2]).
        revert NM. assert (DJ : forall w, In w (map (fun y => (x, y)) l2) -> ~ In w (list_prod l1 l2)).
        { intros w Hw X. apply in_map_iff in Hw. destruct Hw as (y & <- & _). apply in_prod_iff in X. tauto. }
        revert DJ. generalize (map (fun y => (x, y)) l2). induction l as [|w l IHl]; intros DJ NM; [exact IH|]. cbn [app]. inversion NM; subst. constructor.
        - intros X. apply in_app_or in X. destruct X as [X|X]; [contradiction|]. exact (DJ w (in_eq _ _) X).
        - apply IHl; [intros w' Hw'; apply DJ; now right|assumption]. }
      apply NP; apply seq_NoDup.
    - rewrite prod_length, !seq_length. unfold rows.
      assert (LR : (length (flat_map (fun alpha => map (fun i => fun c => biv c a e alpha (x_ i)) (errors alpha)) some_al) <= length some_al * e)%nat).
      { apply flat_map_le. intros alpha Ha. rewrite map_length. apply errors_length. now apply in_firstn in Ha. }
      rewrite some_al_length in LR. nia.
    - exists c. split.
      + exists st. split; [|exact Nst]. destruct st as [x y]. apply in_prod_iff in Ist. rewrite !in_seq in Ist. cbn [fst snd]. lia.
      + intros alpha i Ha Hi. apply (R (fun c => biv c a e alpha (x_ i))). unfold rows. apply in_flat_map. exists alpha. split; [exact Ha|].
        apply in_map_iff. exists i. now split.
  Qed.

  (** after the locator is multiplied in there are no errors left, for all the challenges *)
  Lemma no_errors c : (forall alpha i, In alpha some_al -> In i (errors alpha) -> biv c a e alpha (x_ i) = k0) ->
    forall alpha i, In alpha al -> below n i -> (biv c a e alpha (x_ i) * kpeval (u i) alpha = biv c a e alpha (x_ i) * kpeval (P alpha) (x_ i))%K.
  Proof.
    intros Hc.
    assert (HS : forall alpha i, In alpha some_al -> below n i -> (biv c a e alpha (x_ i) * kpeval (u i) alpha = biv c a e alpha (x_ i) * kpeval (P alpha) (x_ i))%K).
    { intros alpha i Ha Hi. assert (Ia : In alpha al) by now apply in_firstn in Ha. destruct (member (L alpha) i) eqn:M.
      - apply member_in in M. destruct (H alpha Ia) as (_ & _ & _ & E). now rewrite E.
      - rewrite Hc; [ring|exact Ha|]. apply filter_In. split; [now apply all_indices_in|now rewrite M]. }
    assert (NDs : NoDup some_al) by now apply nodup_firstn.
    (* the product, interpolated between the challenges *)
    set (V := fun z x => kbary some_al (map (fun alpha => (biv c a e alpha x * kpeval (P alpha) x)%K) some_al) (kweights some_al) z).
    assert (Vx : forall z, kdeg (e + m) (V z)).
    { intros z. unfold V, kbary, bary.
      apply (kdeg_rsum (e + m) (fun i x => (nth i (kweights some_al) k0 * nth i (map (fun alpha => (biv c a e alpha x * kpeval (P alpha) x)%K) some_al) k0 * prodsub k1 kmul ksub z (others i some_al))%K)).
      intros i Hi. apply in_seq in Hi.
      eapply kdeg_ext; [apply (kdeg_scale _ (nth i (kweights some_al) k0 * prodsub k1 kmul ksub z (others i some_al))%K (fun x => (biv c a e (nth i some_al k0) x * kpeval (P (nth i some_al k0)) x)%K))|].
      - assert (Ia : In (nth i some_al k0) al) by (apply (in_firstn (a + T)); change (In (nth i some_al k0) some_al); apply nth_In; lia). destruct (H _ Ia) as (LP & _).
        eapply kdeg_ext; [apply (kdeg_le (length (P (nth i some_al k0)) + e)); [apply (kdeg_mul_poly (P (nth i some_al k0)) e (biv c a e (nth i some_al k0)))|lia]|intros x; cbn beta; ring].
        exists (coeffs_x c a e (nth i some_al k0)). split; [rewrite coeffs_x_length; lia|reflexivity].
      - intros x. cbn beta. rewrite (nth_map_lt _ _ _ _ k0) by lia. ring. }
    (* at the points of the domain it is the product with the curve *)
    assert (Vz : forall z i, below n i -> V z (x_ i) = (biv c a e z (x_ i) * kpeval (u i) z)%K).
    { intros z i Hi. unfold V.
      apply (bary_interpolates k0 k1 kadd kmul ksub kopp K_ring some_al _ (kweights some_al) (fun z => (biv c a e z (x_ i) * kpeval (u i) z)%K) (kweights_good some_al NDs)).
      - rewrite some_al_length. fold kdeg. destruct T as [|T']; [lia|]. eapply kdeg_ext; [apply (kdeg_le (length (u i) + (S T' - 1) * e)); [apply (kdeg_mul_poly (u i) ((S T' - 1) * e) (fun z => biv c ((S T' - 1) * e) e z (x_ i))), biv_deg_z|rewrite Lu; lia]|intros z'; cbn beta; ring].
      - now rewrite map_length.
      - apply map_ext_in. intros alpha Ha. now apply HS. }
    intros alpha i Ia Hi. rewrite <- Vz by exact Hi.
    destruct (H alpha Ia) as (LP & HL & LL & E).
    assert (D : kdeg (e + m) (fun x => (biv c a e alpha x * kpeval (P alpha) x)%K)).
    { eapply kdeg_ext; [apply (kdeg_le (length (P alpha) + e)); [apply (kdeg_mul_poly (P alpha) e (biv c a e alpha))|lia]|intros x; cbn beta; ring].
      exists (coeffs_x c a e alpha). split; [rewrite coeffs_x_length; lia|reflexivity]. }
    apply (kdeg_same (e + m) (V alpha) (fun x => (biv c a e alpha x * kpeval (P alpha) x)%K) (points_on s n (L alpha)) (Vx alpha) D).
    - now apply points_on_nodup.
    - unfold points_on. rewrite map_length. lia.
    - intros x Hx. apply in_map_iff in Hx. destruct Hx as (j & <- & Hj). destruct HL as [_ R]. rewrite Forall_forall in R. rewrite Vz by now apply R. now rewrite E.
  Qed.

  Theorem curve_agreement : exists (U : nat -> list K) (G : list Z), positions_of n G /\ (2 ^ n <= length G + e)%nat /\
    (forall j, length (U j) <= m)%nat /\ forall i j, In i G -> nth j (u i) k0 = kpeval (U j) (x_ i).
  Proof.
    destruct locator as (c & (st & Rst & Nst) & Hc). pose proof (no_errors c Hc) as NE. clear Hc.
    (* a challenge for which the locator is not zero *)
    assert (A0 : exists alpha0, In alpha0 al /\ kpeval (map (fun s0 => c (s0, snd st)) (seq 0 (S a))) alpha0 <> k0).
    { destruct (Forall_Exists_dec (fun b => kpeval (map (fun s0 => c (s0, snd st)) (seq 0 (S a))) b = k0) (fun b => K_eq_dec _ k0) al) as [F|E].
      - exfalso. apply Nst. rewrite Forall_forall in F. pose proof (zero_coeffs (map (fun s0 => c (s0, snd st)) (seq 0 (S a))) al NDa) as Z.
        rewrite map_length, seq_length in Z. specialize (Z ltac:(nia) F (fst st)). rewrite (nth_map_lt _ _ _ _ O) in Z by (rewrite seq_length; lia). rewrite seq_nth in Z by lia.
        cbn [Nat.add] in Z. now rewrite <- surjective_pairing in Z.
      - apply Exists_exists in E. exact E. }
    destruct A0 as (alpha0 & Ia0 & Na0).
    set (nz := fun i => if K_eq_dec (biv c a e alpha0 (x_ i)) k0 then false else true).
    set (G := filter nz (all_indices n)).
    assert (HG : positions_of n G) by apply filter_positions.
    assert (IG : forall i, In i G <-> below n i /\ biv c a e alpha0 (x_ i) <> k0).
    { intros i. unfold G, nz. rewrite filter_In, all_indices_in. destruct (K_eq_dec _ k0) as [E|N]; split; intros [H1 H2]; split; try assumption; try discriminate; try contradiction; reflexivity. }
    assert (LG : (2 ^ n <= length G + e)%nat).
    { pose proof (filter_split_length nz (all_indices n)) as F. fold G in F. rewrite all_indices_length in F.
      assert (B : (length (filter (fun i => negb (nz i)) (all_indices n)) <= e)%nat); [|lia].
      apply Nat.nlt_ge. intros X. set (Z0 := filter (fun i => negb (nz i)) (all_indices n)) in *.
      apply Na0. pose proof (zero_coeffs (coeffs_x c a e alpha0) (points_on s n Z0)) as Z. rewrite coeffs_x_length in Z.
      specialize (Z ltac:(apply points_on_nodup; try assumption; apply filter_positions) ltac:(unfold points_on; rewrite map_length; lia)).
      assert (Z' : nth (snd st) (coeffs_x c a e alpha0) k0 = k0).
      { apply Z. intros x Hx. apply in_map_iff in Hx. destruct Hx as (i & <- & Hi). unfold Z0 in Hi. apply filter_In in Hi. destruct Hi as [_ Hi]. apply negb_true_iff in Hi. unfold nz in Hi.
        unfold biv in Hi. now destruct (K_eq_dec _ k0). }
      unfold coeffs_x in Z'. rewrite (nth_map_lt _ _ _ _ O) in Z' by (rewrite seq_length; lia). rewrite seq_nth in Z' by lia. exact Z'. }
    (* interpolate the words at m of the positions *)
    set (G0 := firstn m G).
    assert (LG0 : length G0 = m) by (unfold G0; rewrite firstn_length; lia).
    assert (HG0 : forall i, In i G0 -> In i G) by (intros i Hi; now apply in_firstn in Hi).
    assert (PG0 : positions_of n G0).
    { split; [apply nodup_firstn, HG|]. apply Forall_forall. intros i Hi. destruct HG as [_ R]. rewrite Forall_forall in R. now apply R, HG0. }
    set (xs := points_on s n G0).
    assert (Lxs : length xs = m) by (unfold xs, points_on; now rewrite map_length).
    assert (NDx : NoDup xs) by now apply points_on_nodup.
    assert (HU : forall j, exists Uj, (length Uj <= m)%nat /\ forall x, kbary xs (map (fun i => nth j (u i) k0) G0) (kweights xs) x = kpeval Uj x).
    { intros j. destruct (bary_deg k0 k1 kadd kmul ksub kopp K_ring xs (map (fun i => nth j (u i) k0) G0) (kweights xs)) as (Uj & LU & EU).
      exists Uj. rewrite Lxs in LU. split; [exact LU|exact EU]. }
    assert (CH : exists U : nat -> list K, forall j, (length (U j) <= m)%nat /\ ((j < T)%nat -> forall x, kbary xs (map (fun i => nth j (u i) k0) G0) (kweights xs) x = kpeval (U j) x)).
    { assert (CH' : forall t, exists U : nat -> list K, forall j, (length (U j) <= m)%nat /\ ((j < t)%nat -> forall x, kbary xs (map (fun i => nth j (u i) k0) G0) (kweights xs) x = kpeval (U j) x)).
      { induction t as [|t (U & IU)]; [exists (fun _ => []); intros j; split; [cbn; lia|lia]|]. destruct (HU t) as (Ut & L1 & E1).
        exists (fun j => if Nat.eqb j t then Ut else U j). intros j. destruct (Nat.eqb_spec j t) as [->|N]; [split; [exact L1|intros _; exact E1]|].
        destruct (IU j) as [L2 E2]. split; [exact L2|]. intros Hj. apply E2. lia. }
      apply (CH' T). }
    destruct CH as (U & EU).
    exists (fun j => if Nat.ltb j T then U j else []), G. split; [exact HG|]. split; [exact LG|]. split; [intros j; destruct (Nat.ltb j T); [now apply EU|cbn; lia]|].
    intros i j Hi. destruct (Nat.ltb_spec j T) as [Hj|Hj]; [|rewrite nth_overflow by (rewrite Lu; lia); reflexivity].
    destruct (EU j) as [_ EUj]. rewrite <- EUj by exact Hj. clear EUj EU U HU.
    (* the challenges for which the locator is not zero at these positions *)
    set (zeros := fun i => filter (fun z => if K_eq_dec (biv c a e z (x_ i)) k0 then true else false) al).
    set (ex := flat_map zeros (i :: G0)).
    assert (Lex : (length ex <= (m + 1) * a)%nat).
    { etransitivity; [apply (flat_map_le zeros a)|cbn [length]; rewrite LG0; lia].
      intros i' Hi'. unfold zeros. apply (kdeg_few_zeros a (fun z => biv c a e z (x_ i')) al alpha0); [apply biv_deg_z|exact NDa|].
      assert (Ii' : In i' G) by (destruct Hi' as [<-|Hi']; [exact Hi|now apply HG0]). now apply IG in Ii'. }
    set (ok := kwithout al ex). pose proof (kwithout_length al ex NDa) as Lok. fold ok in Lok.
    assert (PU : forall alpha i', In alpha ok -> In i' (i :: G0) -> kpeval (u i') alpha = kpeval (P alpha) (x_ i')).
    { intros alpha i' Ha Hi'. apply kwithout_in in Ha. destruct Ha as [Ia Nex].
      assert (Ii' : In i' G) by (destruct Hi' as [<-|Hi']; [exact Hi|now apply HG0]). apply IG in Ii'. destruct Ii' as [Bi' _].
      pose proof (NE alpha i' Ia Bi') as E. assert (Nz : biv c a e alpha (x_ i') <> k0).
      { intros Z. apply Nex. apply in_flat_map. exists i'. split; [exact Hi'|]. apply filter_In. split; [exact Ia|]. now destruct (K_eq_dec _ k0). }
      apply ksub_eq0. assert (Y : (biv c a e alpha (x_ i') * (kpeval (u i') alpha - kpeval (P alpha) (x_ i')) = 0)%K).
      { transitivity (biv c a e alpha (x_ i') * kpeval (u i') alpha - biv c a e alpha (x_ i') * kpeval (P alpha) (x_ i'))%K; [ring|]. rewrite E. ring. }
      apply kmul_eq0 in Y. destruct Y as [Y|Y]; [contradiction|exact Y]. }
    (* so the value at i is the interpolation, as a polynomial in the challenge *)
    set (lam := fun l => (nth l (kweights xs) k0 * kprodsub (x_ i) (others l xs))%K).
    set (D := lincomb (map (fun l => (lam l, u (nth l G0 0))) (seq 0 m))).
    assert (LD : (length D <= T)%nat).
    { apply lincomb_length. apply Forall_forall. intros ac Hac. apply in_map_iff in Hac. destruct Hac as (l & <- & _). cbn [snd]. now rewrite Lu. }
    assert (ED : forall alpha, In alpha ok -> kpeval (u i) alpha = kpeval D alpha).
    { intros alpha Ha. rewrite (PU alpha i Ha) by now left.
      rewrite <- (bary_interpolates k0 k1 kadd kmul ksub kopp K_ring xs (map (kpeval (P alpha)) xs) (kweights xs) (kpeval (P alpha)) (kweights_good xs NDx)); [| |now rewrite map_length|reflexivity].
      2:{ apply kwithout_in in Ha. destruct (H alpha (proj1 Ha)) as (LP & _). exists (P alpha). split; [now rewrite Lxs|reflexivity]. }
      unfold bary. rewrite Lxs. unfold D. rewrite lincomb_eval, map_map. f_equal. apply map_ext_in. intros l Hl. apply in_seq in Hl. cbn [fst snd].
      rewrite (nth_map_lt _ _ _ _ k0) by lia. unfold lam, xs at 2, points_on. rewrite (nth_map_lt _ _ _ _ 0) by lia.
      rewrite (PU alpha (nth l G0 0) Ha) by (right; apply nth_In; lia). unfold kprodsub. ring. }
    assert (Z : nth j (paddl kadd (u i) (pscale kmul (- (1))%K D)) k0 = k0).
    { apply (zero_coeffs _ ok); [now apply NoDup_filter| |].
      - etransitivity; [apply (paddl_len _ _ _ T); [rewrite Lu; lia|unfold pscale; rewrite map_length; lia]|lia].
      - intros alpha Ha. rewrite kpaddl', kpscale', (ED alpha Ha). ring. }
    rewrite nth_paddl, nth_pscale in Z.
    transitivity (nth j D k0); [apply ksub_eq0; eapply eq_trans; [|exact Z]; ring|].
    unfold D. rewrite lincomb_nth, map_map. unfold kbary, bary. rewrite Lxs. f_equal. apply map_ext_in. intros l Hl. apply in_seq in Hl. cbn [fst snd].
    rewrite (nth_map_lt _ _ _ _ 0) by lia. unfold lam, kprodsub. ring.
  Qed.
End Curve.
