(** * Polynomials over a commutative ring: root counting and barycentric interpolation.

    A polynomial is its list of coefficients, lowest first. *)
From Coq Require Import ZArith Lia List Bool Ring.
Import ListNotations.

Section Poly.
  Context {R : Type} (r0 r1 : R) (radd rmul rsub : R -> R -> R) (ropp : R -> R).
  Context (RT : ring_theory r0 r1 radd rmul rsub ropp (@eq R)).
  Add Ring RTring : RT.
  Local Notation "0" := r0. Local Notation "1" := r1.
  Local Infix "+" := radd. Local Infix "*" := rmul. Local Infix "-" := rsub. Local Notation "- x" := (ropp x).

  Fixpoint peval (c : list R) (x : R) : R :=
    match c with [] => 0 | a :: c' => a + x * peval c' x end.

  (** synthetic division by X - a *)
  Fixpoint psynth (c : list R) (a : R) : list R :=
    match c with [] => [] | _ :: c' => match c' with [] => [] | _ => peval c' a :: psynth c' a end end.
  Lemma psynth_spec c a x : peval c x = peval c a + (x - a) * peval (psynth c a) x.
  Proof.
    induction c as [|b c IH]; cbn [peval psynth]; [ring|].
    destruct c as [|b' c']; [cbn [peval]; ring|]. set (c := b' :: c') in *.
    cbn [peval]. rewrite IH. set (q := peval (psynth c a) x). ring.
  Qed.
  Lemma psynth_len c a : length (psynth c a) = pred (length c).
  Proof.
    induction c as [|b c IH]; [reflexivity|]. cbn [psynth]. destruct c as [|b' c']; [reflexivity|].
    cbn [length] in *. rewrite IH. reflexivity.
  Qed.

  Definition regular (d : R) : Prop := forall y, d * y = 0 -> y = 0.
  (** points whose pairwise differences are not zero divisors *)
  Definition separated (xs : list R) : Prop := ForallOrdPairs (fun a b => regular (b - a)) xs.

  Theorem few_roots xs : forall c, separated xs -> (length c <= length xs)%nat ->
    (forall x, In x xs -> peval c x = 0) -> forall x, peval c x = 0.
  Proof.
    induction xs as [|a xs IH]; intros c Hs Hl Hz x.
    - destruct c; [reflexivity|cbn in Hl; lia].
    - inversion Hs as [|? ? Ha Hs']; subst. rewrite Forall_forall in Ha.
      assert (Ea : peval c a = 0) by (apply Hz, in_eq).
      rewrite (psynth_spec c a x), Ea. rewrite (IH (psynth c a) Hs'); [ring| |].
      + rewrite psynth_len. cbn [length] in Hl. lia.
      + intros y Hy. apply (Ha y Hy). pose proof (psynth_spec c a y) as E.
        rewrite Ea, (Hz y) in E by now apply in_cons. rewrite E. ring.
  Qed.

  Fixpoint paddl (c d : list R) : list R :=
    match c, d with [], _ => d | _, [] => c | a :: c', b :: d' => (a + b) :: paddl c' d' end.
  Lemma paddl_eval c : forall d x, peval (paddl c d) x = peval c x + peval d x.
  Proof.
    induction c as [|a c IH]; intros [|b d] x; cbn [paddl peval]; try ring. rewrite IH. ring.
  Qed.
  Lemma paddl_len c : forall d n, (length c <= n)%nat -> (length d <= n)%nat -> (length (paddl c d) <= n)%nat.
  Proof.
    induction c as [|a c IH]; intros [|b d] n Hc Hd; cbn [paddl length] in *; auto.
    destruct n as [|n]; [lia|]. apply le_n_S, IH; lia.
  Qed.
  Definition pscale (a : R) (c : list R) : list R := map (rmul a) c.
  Lemma pscale_eval a c x : peval (pscale a c) x = a * peval c x.
  Proof. induction c as [|b c IH]; cbn [pscale map peval]; [ring|]. fold (pscale a c). rewrite IH. ring. Qed.

  (** functions given by a polynomial with at most n coefficients *)
  Definition deg (n : nat) (f : R -> R) : Prop := exists c, (length c <= n)%nat /\ forall x, f x = peval c x.
  Lemma deg_ext n f g : deg n f -> (forall x, f x = g x) -> deg n g.
  Proof. intros (c & L & E) H. exists c. split; auto. intros x. now rewrite <- H. Qed.
  Lemma deg_le n m f : deg n f -> (n <= m)%nat -> deg m f.
  Proof. intros (c & L & E) H. exists c. split; [lia|auto]. Qed.
  Lemma deg_zero n : deg n (fun _ => 0).
  Proof. exists []. split; [cbn; lia|reflexivity]. Qed.
  Lemma deg_const n a : deg (S n) (fun _ => a).
  Proof. exists [a]. split; [cbn; lia|]. intros x. cbn [peval]. ring. Qed.
  Lemma deg_add n f g : deg n f -> deg n g -> deg n (fun x => f x + g x).
  Proof.
    intros (c & Lc & Ec) (d & Ld & Ed). exists (paddl c d). split; [now apply paddl_len|].
    intros x. now rewrite paddl_eval, <- Ec, <- Ed.
  Qed.
  Lemma deg_scale n a f : deg n f -> deg n (fun x => a * f x).
  Proof.
    intros (c & Lc & Ec). exists (pscale a c). split; [unfold pscale; now rewrite map_length|].
    intros x. now rewrite pscale_eval, <- Ec.
  Qed.
  Lemma deg_sub n f g : deg n f -> deg n g -> deg n (fun x => f x - g x).
  Proof.
    intros Hf Hg. eapply deg_ext; [exact (deg_add _ _ _ Hf (deg_scale _ (- (1)) _ Hg))|].
    intros x. cbn beta. ring.
  Qed.
  Lemma deg_linear n a f : deg n f -> deg (S n) (fun x => (x - a) * f x).
  Proof.
    intros (c & Lc & Ec).
    assert (D : deg (S n) (fun x => x * f x)).
    { exists (0 :: c). split; [cbn; lia|]. intros x. cbn [peval]. rewrite <- Ec. ring. }
    eapply deg_ext; [exact (deg_sub _ _ _ D (deg_scale _ a _ (deg_le n (S n) _ (ex_intro _ c (conj Lc Ec)) (Nat.le_succ_diag_r n))))|].
    intros x. cbn beta. ring.
  Qed.
  Lemma deg_mulx n f : deg n f -> deg (S n) (fun x => x * f x).
  Proof.
    intros (c & Lc & Ec). exists (0 :: c). split; [cbn; lia|]. intros x. cbn [peval]. rewrite <- Ec. ring.
  Qed.

  (** two polynomials with at most n coefficients that agree on n separated points *)
  Theorem agree xs f g : separated xs -> deg (length xs) f -> deg (length xs) g ->
    (forall x, In x xs -> f x = g x) -> forall x, f x = g x.
  Proof.
    intros Hs Hf Hg He x. destruct (deg_sub _ _ _ Hf Hg) as (c & Lc & Ec).
    assert (Z : peval c x = 0).
    { apply (few_roots xs c Hs Lc). intros y Hy. rewrite <- Ec, (He y Hy). ring. }
    rewrite <- Ec in Z. replace (f x) with ((f x - g x) + g x) by ring. rewrite Z. ring.
  Qed.

  (** ** Barycentric form *)
  Fixpoint prodsub (x : R) (l : list R) : R := match l with [] => 1 | a :: l' => (x - a) * prodsub x l' end.
  Lemma prodsub_app x a b : prodsub x (a ++ b) = prodsub x a * prodsub x b.
  Proof. induction a as [|y a IH]; cbn [app prodsub]; [ring|rewrite IH; ring]. Qed.
  Lemma prodsub_deg l : deg (S (length l)) (fun x => prodsub x l).
  Proof.
    induction l as [|a l IH]; cbn [prodsub length]; [apply deg_const|]. now apply deg_linear.
  Qed.
  Lemma prodsub_zero l x : In x l -> prodsub x l = 0.
  Proof.
    induction l as [|a l IH]; [intros []|]. intros [->|H]; cbn [prodsub]; [ring|rewrite IH by auto; ring].
  Qed.
  (** all points except the i-th *)
  Definition others {A} (i : nat) (l : list A) : list A := firstn i l ++ skipn (S i) l.
  Lemma others_len {A} i (l : list A) : (i < length l)%nat -> length (others i l) = pred (length l).
  Proof. intros H. unfold others. rewrite app_length, firstn_length, skipn_length. lia. Qed.
  Lemma nth_split_others {A} (d : A) i l : (i < length l)%nat -> l = firstn i l ++ nth i l d :: skipn (S i) l.
  Proof.
    revert i. induction l as [|a l IH]; intros [|i] H; cbn [length] in H; try lia; [reflexivity|].
    cbn [firstn nth skipn app]. f_equal. apply IH. lia.
  Qed.
  Lemma prodsub_others x i l : (i < length l)%nat -> prodsub x l = (x - nth i l 0) * prodsub x (others i l).
  Proof.
    intros H. rewrite (nth_split_others 0 i l H) at 1. unfold others. rewrite !prodsub_app. cbn [prodsub]. ring.
  Qed.
  Lemma others_in (i j : nat) (l : list R) : (i < length l)%nat -> (j < length l)%nat -> i <> j -> In (nth j l 0) (others i l).
  Proof.
    intros Hi Hj Hne. unfold others. apply in_or_app. destruct (Nat.lt_ge_cases j i) as [L|L].
    - left. replace (nth j l 0) with (nth j (firstn i l) 0).
      + apply nth_In. rewrite firstn_length. lia.
      + rewrite <- (firstn_skipn i l) at 2. rewrite app_nth1; [reflexivity|rewrite firstn_length; lia].
    - right. replace (nth j l 0) with (nth (j - S i) (skipn (S i) l) 0).
      + apply nth_In. rewrite skipn_length. lia.
      + rewrite <- (firstn_skipn (S i) l) at 2. rewrite app_nth2; [|rewrite firstn_length; lia].
        rewrite firstn_length. replace (Nat.min (S i) (length l)) with (S i) by lia. reflexivity.
  Qed.

  Definition rsum (l : list R) : R := fold_right radd 0 l.
  Definition bary (xs ys ws : list R) (x : R) : R :=
    rsum (map (fun i => nth i ws 0 * nth i ys 0 * prodsub x (others i xs)) (seq 0 (length xs))).
  Definition weights_ok (xs ws : list R) : Prop :=
    forall i, (i < length xs)%nat -> nth i ws 0 * prodsub (nth i xs 0) (others i xs) = 1.

  Lemma rsum_deg {A} n (F : A -> R -> R) l : (forall i, In i l -> deg n (F i)) -> deg n (fun x => rsum (map (fun i => F i x) l)).
  Proof.
    induction l as [|a l IH]; intros H; cbn [map rsum fold_right]; [apply deg_zero|].
    apply deg_add; [apply H, in_eq|]. apply IH. intros; apply H; now apply in_cons.
  Qed.
  Lemma bary_deg xs ys ws : deg (length xs) (bary xs ys ws).
  Proof.
    unfold bary. apply (rsum_deg _ (fun i x => nth i ws 0 * nth i ys 0 * prodsub x (others i xs))).
    intros i Hi. apply in_seq in Hi. apply deg_scale.
    eapply deg_le; [apply prodsub_deg|]. rewrite others_len by lia. lia.
  Qed.
  Lemma rsum_single f k : forall n s, (s <= k < s + n)%nat -> (forall i, (s <= i < s + n)%nat -> i <> k -> f i = 0) ->
    rsum (map f (seq s n)) = f k.
  Proof.
    induction n as [|n IH]; intros s Hk Hz; [lia|]. cbn [seq map rsum fold_right]. fold (rsum (map f (seq (S s) n))).
    destruct (Nat.eq_dec s k) as [->|Hne].
    - assert (E : forall m t, (k < t)%nat -> (forall i, (t <= i < t + m)%nat -> f i = 0) -> rsum (map f (seq t m)) = 0).
      { clear Hk Hz IH. induction m as [|m IH]; intros t Ht Hz; cbn [seq map rsum fold_right]; [reflexivity|].
        fold (rsum (map f (seq (S t) m))). rewrite Hz by lia. rewrite IH; [ring|lia|]. intros; apply Hz; lia. }
      rewrite E; [ring|lia|]. intros; apply Hz; lia.
    - rewrite Hz by lia. rewrite (IH (S s)) by (try lia; intros; apply Hz; lia). ring.
  Qed.
  Lemma bary_at xs ys ws k : weights_ok xs ws -> (k < length xs)%nat -> bary xs ys ws (nth k xs 0) = nth k ys 0.
  Proof.
    intros Hw Hk. unfold bary. rewrite (rsum_single _ k) by (try lia; intros i Hi Hne;
      rewrite (prodsub_zero (others i xs)) by (apply others_in; lia); ring).
    replace (nth k ws 0 * nth k ys 0 * prodsub (nth k xs 0) (others k xs))
      with (nth k ys 0 * (nth k ws 0 * prodsub (nth k xs 0) (others k xs))) by ring.
    rewrite Hw by exact Hk. ring.
  Qed.
  Lemma unit_regular a b : a * b = 1 -> regular b.
  Proof. intros E y H. replace y with ((a * b) * y) by (rewrite E; ring). replace (a * b * y) with (a * (b * y)) by ring. rewrite H. ring. Qed.
  Lemma regular_factor a b : regular (a * b) -> regular a.
  Proof. intros H y E. apply H. replace (a * b * y) with (b * (a * y)) by ring. rewrite E. ring. Qed.
  Lemma regular_factor_r a b : regular (a * b) -> regular b.
  Proof. intros H y E. apply H. replace (a * b * y) with (a * (b * y)) by ring. rewrite E. ring. Qed.
  Lemma regular_opp a : regular a -> regular (- a).
  Proof. intros H y E. apply H. replace (a * y) with (- (- a * y)) by ring. rewrite E. ring. Qed.
  Lemma prodsub_regular x l : regular (prodsub x l) -> Forall (fun a => regular (x - a)) l.
  Proof.
    induction l as [|a l IH]; intros H; [constructor|]. cbn [prodsub] in H. constructor.
    - eapply regular_factor; eauto.
    - apply IH. eapply regular_factor_r; eauto.
  Qed.
  Lemma separated_nth xs : (forall i, (i < length xs)%nat -> regular (prodsub (nth i xs 0) (others i xs))) -> separated xs.
  Proof.
    intros H.
    assert (G : forall k l, xs = firstn k xs ++ l -> (k + length l = length xs)%nat -> separated l).
    { intros k l. revert k. induction l as [|a l IH]; intros k E L; [constructor|].
      assert (Ea : nth k xs 0 = a).
      { rewrite E. rewrite app_nth2; rewrite firstn_length; cbn [length] in L; [|lia].
        replace (k - Nat.min k (length xs))%nat with O by lia. reflexivity. }
      assert (El : skipn (S k) xs = l).
      { rewrite E. rewrite skipn_app, firstn_length. cbn [length] in L.
        replace (S k - Nat.min k (length xs))%nat with 1%nat by lia.
        rewrite skipn_all2 by (rewrite firstn_length; lia). reflexivity. }
      constructor.
      - specialize (H k ltac:(cbn [length] in L; lia)). rewrite Ea in H. unfold others in H. rewrite El in H.
        apply prodsub_regular in H. apply Forall_app in H. destruct H as [_ H].
        eapply Forall_impl; [|exact H]. intros b Hb. replace (b - a) with (- (a - b)) by ring. now apply regular_opp.
      - apply (IH (S k)); [|cbn [length] in L; lia].
        rewrite <- (firstn_skipn (S k) xs) at 1. now rewrite El. }
    apply (G O xs); reflexivity.
  Qed.
  Lemma weights_separated xs ws : weights_ok xs ws -> separated xs.
  Proof. intros H. apply separated_nth. intros i Hi. eapply unit_regular. exact (H i Hi). Qed.

  (** The barycentric form is the value of the interpolant: of every polynomial with at
      most n coefficients that takes the values ys on xs. *)
  Theorem bary_interpolates xs ys ws f : weights_ok xs ws -> deg (length xs) f -> length ys = length xs ->
    map f xs = ys -> forall x, bary xs ys ws x = f x.
  Proof.
    intros Hw Hf Hl He x. apply (agree xs); auto using bary_deg.
    - eapply weights_separated; eauto.
    - intros y Hy. destruct (In_nth _ _ 0 Hy) as (k & Hk & <-). rewrite bary_at by auto.
      rewrite <- He. rewrite (nth_indep (map f xs) 0 (f 0)) by (rewrite map_length; lia). now rewrite map_nth.
  Qed.
  Theorem bary_exists xs ys ws : weights_ok xs ws -> length ys = length xs ->
    exists c, (length c <= length xs)%nat /\ map (peval c) xs = ys /\ forall x, peval c x = bary xs ys ws x.
  Proof.
    intros Hw Hl. destruct (bary_deg xs ys ws) as (c & Lc & Ec). exists c. split; [exact Lc|]. split; [|auto].
    apply (nth_ext _ _ 0 0); [now rewrite map_length|]. intros k Hk. rewrite map_length in Hk.
    rewrite (nth_indep (map (peval c) xs) 0 (peval c 0)) by (rewrite map_length; lia). rewrite map_nth, <- Ec.
    now apply bary_at.
  Qed.
End Poly.
