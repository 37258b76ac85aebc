(** * Soundness of the FRI verifier by rewinding: lemmas.

    A prover that answers every query for sixteen values of every folding challenge and for
    enough values of the batching challenge has committed to low degree polynomials with the
    claimed openings, or its answers contain a collision of the BN254 Poseidon. *)
From Coq Require Import String.
From Coq Require Import ZArith NArith Lia List Bool.
From Verif Require Import Zp GF Circuit Goldilocks GLProofs ExtProofs BN254 BN254Hash Types Challenger Fri Poly Roots FriMerkle FriEval FriQuery FriTop FriFacts.
Import ListNotations.
Open Scope Z_scope.
Local Opaque PoseidonBN HashOrNoop TwoToOne.

(** ** Degrees of functions *)
Definition kdeg := deg k0 kadd kmul.
Lemma kdeg_ext n f g : kdeg n f -> (forall x, f x = g x) -> kdeg n g. Proof. apply deg_ext. Qed.
Lemma kdeg_le n m f : kdeg n f -> (n <= m)%nat -> kdeg m f. Proof. apply deg_le. Qed.
Lemma kdeg_zero n : kdeg n (fun _ => k0). Proof. apply deg_zero. Qed.
Lemma kdeg_const n a : kdeg (S n) (fun _ => a). Proof. apply (deg_const k0 k1 kadd kmul ksub kopp K_ring). Qed.
Lemma kdeg_add n f g : kdeg n f -> kdeg n g -> kdeg n (fun x => f x + g x)%K. Proof. apply (deg_add k0 k1 kadd kmul ksub kopp K_ring). Qed.
Lemma kdeg_sub n f g : kdeg n f -> kdeg n g -> kdeg n (fun x => f x - g x)%K. Proof. apply (deg_sub k0 k1 kadd kmul ksub kopp K_ring). Qed.
Lemma kdeg_scale n a f : kdeg n f -> kdeg n (fun x => a * f x)%K. Proof. apply (deg_scale k0 k1 kadd kmul ksub kopp K_ring). Qed.
Lemma kdeg_mulx n f : kdeg n f -> kdeg (S n) (fun x => x * f x)%K. Proof. apply (deg_mulx k0 k1 kadd kmul ksub kopp K_ring). Qed.
Lemma kdeg_linear n a f : kdeg n f -> kdeg (S n) (fun x => (x - a) * f x)%K. Proof. apply (deg_linear k0 k1 kadd kmul ksub kopp K_ring). Qed.
Lemma kdeg_pow k n f : kdeg n f -> kdeg (k + n) (fun x => x ^ N.of_nat k * f x)%K.
Proof.
  intros H. induction k as [|k IH].
  - eapply kdeg_ext; [exact H|]. intros x. cbn beta. change (N.of_nat 0) with 0%N. rewrite kpow_0. ring.
  - cbn [Nat.add]. eapply kdeg_ext; [exact (kdeg_mulx _ _ IH)|]. intros x. cbn beta. rewrite Nat2N.inj_succ, kpow_succ. ring.
Qed.
(** products: degrees add *)
Lemma kdeg_mul_poly c n g : kdeg (S n) g -> kdeg (length c + n) (fun x => kpeval c x * g x)%K.
Proof.
  intros H. induction c as [|a c IH].
  - eapply kdeg_ext; [apply kdeg_zero|]. intros x. unfold kpeval. cbn [peval]. ring.
  - eapply kdeg_ext; [apply kdeg_add; [apply (kdeg_le (S n)); [exact (kdeg_scale _ a _ H)|cbn; lia]|cbn [length Nat.add]; exact (kdeg_mulx _ _ IH)]|].
    intros x. cbn beta. unfold kpeval. cbn [peval]. ring.
Qed.
Lemma kdeg_mul m n f g : kdeg m f -> kdeg (S n) g -> kdeg (m + n) (fun x => f x * g x)%K.
Proof.
  intros (c & Lc & Ec) H. eapply kdeg_ext; [eapply kdeg_le; [exact (kdeg_mul_poly c n g H)|lia]|].
  intros x. cbn beta. now rewrite Ec.
Qed.
Lemma kdeg_rsum {A} n (F : A -> K -> K) l : (forall i, In i l -> kdeg n (F i)) -> kdeg n (fun x => rsum k0 kadd (map (fun i => F i x) l)).
Proof. apply (rsum_deg k0 k1 kadd kmul ksub kopp K_ring). Qed.
(** c(X^16) times a polynomial of degree < 16 *)
Lemma kdeg_stretch c g : kdeg 16 g -> kdeg (16 * length c) (fun x => kpeval c (x ^ 16)%K * g x)%K.
Proof.
  intros H. induction c as [|a c IH].
  - eapply kdeg_ext; [apply kdeg_zero|]. intros x. unfold kpeval. cbn [peval]. ring.
  - eapply kdeg_ext; [apply kdeg_add; [apply (kdeg_le 16); [exact (kdeg_scale _ a _ H)|cbn [length]; lia]|
      apply (kdeg_le (16 + 16 * length c)); [exact (kdeg_pow 16 _ _ IH)|cbn [length]; lia]]|].
    intros x. cbn beta. unfold kpeval. cbn [peval]. change (N.of_nat 16) with 16%N. ring.
Qed.

(** ** Words: functions on the indices of the domain *)
(** the word w agrees with a polynomial with at most m coefficients at the indices in D *)
Definition low_degree (D : Z -> Prop) (s : GF) (n m : nat) (w : Z -> K) : Prop :=
  exists f, (length f <= m)%nat /\ forall i, D i -> w i = kpeval f (emb (dom s n i)).
(** the cosets of the indices in D *)
Definition cosets (D : Z -> Prop) (t : Z) : Prop := exists i, D i /\ i / 16 = t.
(** the whole domain *)
Definition below (n : nat) (i : Z) : Prop := 0 <= i < 2 ^ Z.of_nat n.
Lemma cosets_below n t : (4 <= n)%nat -> cosets (below n) t <-> below (n - 4) t.
Proof.
  intros H4. assert (E : 2 ^ Z.of_nat n = 16 * 2 ^ Z.of_nat (n - 4)).
  { change 16 with (2 ^ Z.of_nat 4). rewrite <- Z.pow_add_r, <- Nat2Z.inj_add by lia. do 2 f_equal. lia. }
  unfold below. rewrite E. split.
  - intros (i & Hi & <-). split; [apply Z.div_pos; lia|]. apply Z.div_lt_upper_bound; lia.
  - intros Ht. exists (t * 16). split; [lia|]. apply Z.div_mul. lia.
Qed.

Definition coset_points (s : GF) (n : nat) (t : Z) : list K := map (fun j => emb (dom s n (16 * t + Z.of_nat j))) (seq 0 16).
(** the value at b of the interpolant of the sixteen values [ys] on the coset of number t *)
Definition coset_value (s : GF) (n : nat) (t : Z) (ys : list K) (b : K) : K :=
  kbary (coset_points s n t) ys (kweights (coset_points s n t)) b.
Lemma coset_points_length s n t : length (coset_points s n t) = 16%nat.
Proof. unfold coset_points. now rewrite map_length, seq_length. Qed.
Lemma coset_points_nodup s n t : s <> 0%GF -> (4 <= n)%nat -> (n <= TWO_ADICITY)%nat -> NoDup (coset_points s n t).
Proof.
  intros Hs H4 Hn. unfold coset_points. apply NoDup_map_in; [|apply seq_NoDup].
  intros i j Hi Hj E. apply in_seq in Hi, Hj. apply emb_inj in E.
  pose proof (coset_nodup 4 (dom_coset s n (16 * t)) ltac:(unfold TWO_ADICITY; lia) ltac:(now apply dom_coset_nz)) as ND.
  replace (16 * t) with (16 * (16 * t / 16)) in E by (rewrite (Z.mul_comm 16 t), Z.div_mul by lia; ring).
  rewrite !dom_coset_point in E by (assumption || lia).
  rewrite <- (rev_bits_inv 4 i), <- (rev_bits_inv 4 j) by (cbn; lia). f_equal.
  assert (C : forall k, (k < 2 ^ 4)%nat -> nth k (coset 4 (dom_coset s n (16 * t))) k0 = emb (dom_coset s n (16 * t) * root 4 ^ N.of_nat k)%GF).
  { intros k Hk. unfold coset. rewrite (nth_map_lt _ _ _ _ O) by now rewrite seq_length. now rewrite seq_nth. }
  apply (proj1 (NoDup_nth _ k0) ND); try (rewrite coset_length; apply rev_bits_lt).
  rewrite !C by apply rev_bits_lt. now rewrite E.
Qed.
Lemma coset_value_interpolant s n t (E : list QE) P b : s <> 0%GF -> (4 <= n)%nat -> (n <= TWO_ADICITY)%nat -> length E = 16%nat ->
  interpolant s n (16 * t) E P -> kpeval P b = coset_value s n t (map injK E) b.
Proof.
  intros Hs H4 Hn LE [LP HP]. unfold coset_value. symmetry.
  apply (bary_interpolates k0 k1 kadd kmul ksub kopp K_ring (coset_points s n t) (map injK E) (kweights (coset_points s n t)) (kpeval P)).
  - apply kweights_good. now apply coset_points_nodup.
  - exists P. rewrite coset_points_length. split; [exact LP|reflexivity].
  - now rewrite map_length, coset_points_length.
  - apply (nth_ext _ _ k0 k0); [now rewrite !map_length, coset_points_length|]. intros j Hj. rewrite map_length, coset_points_length in Hj.
    rewrite (nth_map_lt _ _ _ _ k0), (nth_map_lt _ _ _ _ no_qe) by (rewrite ?coset_points_length; lia).
    unfold coset_points. rewrite (nth_map_lt _ _ _ _ O), seq_nth by (rewrite ?seq_length; lia). cbn [Nat.add].
    rewrite <- HP by exact Hj. rewrite (Z.mul_comm 16 t), Z.div_mul by lia. now rewrite Z.mul_comm.
Qed.
Lemma coset_value_at s n t ys j : s <> 0%GF -> (4 <= n)%nat -> (n <= TWO_ADICITY)%nat -> (j < 16)%nat ->
  coset_value s n t ys (emb (dom s n (16 * t + Z.of_nat j))) = nth j ys k0.
Proof.
  intros Hs H4 Hn Hj. unfold coset_value.
  replace (emb (dom s n (16 * t + Z.of_nat j))) with (nth j (coset_points s n t) k0).
  - apply (bary_at k0 k1 kadd kmul ksub kopp K_ring); [apply kweights_good; now apply coset_points_nodup|now rewrite coset_points_length].
  - unfold coset_points. rewrite (nth_map_lt _ _ _ _ O), seq_nth by (rewrite ?seq_length; lia). reflexivity.
Qed.

Lemma kpow_emb16' x : (emb x ^ 16)%K = emb (x ^ 16)%GF. Proof. now rewrite emb_pow. Qed.
(** one reduction: if the folds at sixteen points have degree < m then the word has degree < 16 m *)
Lemma fold_sound D s n (ys : Z -> list K) bs (q : K -> list K) m :
  s <> 0%GF -> (4 <= n)%nat -> (n <= TWO_ADICITY)%nat -> NoDup bs -> length bs = 16%nat ->
  (forall b, In b bs -> (length (q b) <= m)%nat) ->
  (forall b t, In b bs -> cosets D t -> coset_value s n t (ys t) b = kpeval (q b) (emb (dom (s ^ 16)%GF (n - 4) t))) ->
  low_degree D s n (16 * m) (fun i => nth (Z.to_nat (i mod 16)) (ys (i / 16)) k0).
Proof.
  intros Hs H4 Hn ND Lb Lq Hq.
  set (F := fun x => rsum k0 kadd (map (fun k => (nth k (kweights bs) k0 * kpeval (q (nth k bs k0)) (x ^ 16) * kprodsub x (others k bs))%K) (seq 0 16))).
  assert (DF : kdeg (16 * m) F).
  { unfold F. apply (kdeg_rsum _ (fun k x => (nth k (kweights bs) k0 * kpeval (q (nth k bs k0)) (x ^ 16) * kprodsub x (others k bs))%K)).
    intros k Hk. apply in_seq in Hk.
    assert (D16 : kdeg 16 (fun x => kprodsub x (others k bs))).
    { eapply kdeg_le; [apply (prodsub_deg k0 k1 kadd kmul ksub kopp K_ring)|]. rewrite others_len; lia. }
    pose proof (kdeg_scale _ (nth k (kweights bs) k0) _ (kdeg_stretch (q (nth k bs k0)) _ D16)) as D1.
    eapply kdeg_ext; [eapply kdeg_le; [exact D1|]|].
    - assert (L : (length (q (nth k bs k0)) <= m)%nat) by (apply Lq, nth_In; lia). lia.
    - intros x. cbn beta. ring. }
  destruct DF as (f & Lf & Ef). exists f. split; [exact Lf|]. intros i Hi. fold kpeval in Ef. rewrite <- (Ef : forall x, F x = kpeval f x).
  pose proof (Z.mod_pos_bound i 16 ltac:(lia)) as Rm. set (t := i / 16). set (j := Z.to_nat (i mod 16)).
  assert (Et : i = 16 * t + Z.of_nat j).
  { unfold t, j. rewrite Z2Nat.id by lia. apply Z.div_mod. lia. }
  assert (Rt : cosets D t) by (exists i; now split).
  rewrite Et at 1. rewrite <- (coset_value_at s n t (ys t) j) by (assumption || (unfold j; lia)). rewrite <- Et.
  (* as a function of the point, coset_value is a polynomial of degree < 16, so determined by its values on bs *)
  set (G := coset_value s n t (ys t)).
  assert (DG : kdeg (length bs) G).
  { rewrite Lb, <- (coset_points_length s n t). apply (bary_deg k0 k1 kadd kmul ksub kopp K_ring). }
  rewrite <- (bary_interpolates k0 k1 kadd kmul ksub kopp K_ring bs (map G bs) (kweights bs) G (kweights_good bs ND) DG ltac:(now rewrite map_length) eq_refl).
  unfold bary, F. rewrite Lb. f_equal. apply map_ext_in. intros k Hk. apply in_seq in Hk.
  rewrite (nth_map_lt _ _ _ _ k0) by lia. unfold G. rewrite Hq by (try exact Rt; apply nth_In; lia).
  rewrite kpow_emb16'. rewrite dom_fold by assumption. unfold kprodsub. fold t. reflexivity.
Qed.

Lemma finite_choice {B} (d : B) (R : K -> B -> Prop) l : (forall a, In a l -> exists q, R a q) -> exists f, forall a, In a l -> R a (f a).
Proof.
  induction l as [|a l IH]; intros H; [now exists (fun _ => d)|].
  destruct (H a (in_eq a l)) as (q & Hq). destruct IH as (f & Hf); [intros; apply H; now apply in_cons|].
  exists (fun x => if K_eq_dec x a then q else f x). intros x [<-|Hx].
  - destruct (K_eq_dec a a) as [_|N]; [exact Hq|now destruct N].
  - destruct (K_eq_dec x a) as [->|N]; [exact Hq|now apply Hf].
Qed.

(** k reductions, each with sixteen challenges; E lists the values of the committed word on every coset *)
Fixpoint tree_ok (m k : nat) (D : Z -> Prop) (s : GF) (n : nat) (old : Z -> K) : Prop :=
  match k with
  | O => low_degree D s n m old
  | S k' => exists bs, NoDup bs /\ length bs = 16%nat /\ exists E : Z -> list K,
      (forall i, D i -> nth (Z.to_nat (i mod 16)) (E (i / 16)) k0 = old i) /\
      forall b, In b bs -> tree_ok m k' (cosets D) (s ^ 16)%GF (n - 4) (fun t => coset_value s n t (E t) b)
  end.
Lemma gpow16_nz s : s <> 0%GF -> (s ^ 16 <> 0)%GF. Proof. apply gpow_nz. Qed.
Lemma tree_low m k : forall D s n old, s <> 0%GF -> (n <= TWO_ADICITY)%nat -> (4 * k <= n)%nat ->
  tree_ok m k D s n old -> low_degree D s n (16 ^ k * m) old.
Proof.
  induction k as [|k IH]; intros D s n old Hs Hn Hk H; cbn [tree_ok] in H.
  - destruct H as (f & Lf & Ef). exists f. split; [cbn; lia|exact Ef].
  - destruct H as (bs & ND & Lb & E & HE & H).
    destruct (finite_choice (@nil K) (fun b q => (length q <= 16 ^ k * m)%nat /\
       forall t, cosets D t -> coset_value s n t (E t) b = kpeval q (emb (dom (s ^ 16)%GF (n - 4) t))) bs) as (q & Hq).
    { intros b Hb. destruct (IH (cosets D) (s ^ 16)%GF (n - 4)%nat _ (gpow16_nz s Hs) ltac:(lia) ltac:(lia) (H b Hb)) as (f & Lf & Ef). exists f. split; [exact Lf|exact Ef]. }
    destruct (fold_sound D s n E bs q (16 ^ k * m) Hs ltac:(lia) Hn ND Lb (fun b Hb => proj1 (Hq b Hb)) (fun b t Hb => proj2 (Hq b Hb) t)) as (f & Lf & Ef).
    exists f. split; [cbn [Nat.pow]; lia|]. intros i Hi. rewrite <- HE by exact Hi. now apply Ef.
Qed.

(** ** Separating the combined polynomials *)
Lemma nth_paddl c : forall d j, nth j (paddl kadd c d) k0 = (nth j c k0 + nth j d k0)%K.
Proof.
  induction c as [|a c IH]; intros [|b d] [|j]; cbn [paddl nth]; try ring. apply IH.
Qed.
Lemma nth_pscale a c j : nth j (pscale kmul a c) k0 = (a * nth j c k0)%K.
Proof.
  unfold pscale. destruct (Nat.lt_ge_cases j (length c)) as [L|L].
  - now rewrite (nth_map_lt _ _ _ _ k0).
  - rewrite !nth_overflow by (rewrite ?map_length; lia). ring.
Qed.
Lemma kpaddl' c d x : kpeval (paddl kadd c d) x = (kpeval c x + kpeval d x)%K.
Proof. apply (paddl_eval k0 k1 kadd kmul ksub kopp K_ring). Qed.
Lemma kpscale' a c x : kpeval (pscale kmul a c) x = (a * kpeval c x)%K.
Proof. apply (pscale_eval k0 k1 kadd kmul ksub kopp K_ring). Qed.
(** sum_k a_k c_k *)
Definition lincomb (l : list (K * list K)) : list K := fold_right (fun ac acc => paddl kadd (pscale kmul (fst ac) (snd ac)) acc) [] l.
Lemma lincomb_eval l x : kpeval (lincomb l) x = rsum k0 kadd (map (fun ac => fst ac * kpeval (snd ac) x)%K l).
Proof. induction l as [|ac l IH]; [reflexivity|]. cbn [lincomb fold_right map rsum]. fold (lincomb l). now rewrite kpaddl', kpscale', IH. Qed.
Lemma lincomb_nth l j : nth j (lincomb l) k0 = rsum k0 kadd (map (fun ac => fst ac * nth j (snd ac) k0)%K l).
Proof.
  induction l as [|ac l IH]; [destruct j; reflexivity|]. cbn [lincomb fold_right map rsum]. fold (lincomb l). now rewrite nth_paddl, nth_pscale, IH.
Qed.
Lemma lincomb_length l n : Forall (fun ac => length (snd ac) <= n)%nat l -> (length (lincomb l) <= n)%nat.
Proof.
  induction 1 as [|ac l H F IH]; cbn [lincomb fold_right]; [cbn; lia|]. fold (lincomb l).
  apply paddl_len; [unfold pscale; now rewrite map_length|exact IH].
Qed.
Lemma kfew_roots xs c : NoDup xs -> (length c <= length xs)%nat -> (forall x, In x xs -> kpeval c x = k0) -> forall x, kpeval c x = k0.
Proof. intros ND. apply (few_roots k0 k1 kadd kmul ksub kopp K_ring), kseparated, ND. Qed.
Lemma zero_coeffs c : forall xs, NoDup xs -> (length c <= length xs)%nat -> (forall x, In x xs -> kpeval c x = k0) -> forall j, nth j c k0 = k0.
Proof.
  induction c as [|a c IH]; intros xs ND L H j; [now destruct j|].
  assert (Z : forall x, kpeval (a :: c) x = k0) by now apply (kfew_roots xs).
  assert (Ea : a = k0). { pose proof (Z k0) as E. unfold kpeval in E. cbn [peval] in E. rewrite <- E. ring. }
  destruct j as [|j]; [exact Ea|]. cbn [nth].
  set (ys := remove K_eq_dec k0 xs).
  assert (Ly : (length c <= length ys)%nat).
  { cbn [length] in L. assert (G : forall l : list K, NoDup l -> (length l <= S (length (remove K_eq_dec k0 l)))%nat); [|specialize (G xs ND); fold ys in G; lia].
    clear. induction l as [|b l IH]; intros ND; [cbn; lia|]. inversion ND; subst. cbn [remove]. destruct (K_eq_dec k0 b) as [<-|N].
    - rewrite notin_remove by assumption. cbn. lia.
    - cbn [length]. specialize (IH H2). lia. }
  apply (IH ys); [|exact Ly|].
  - unfold ys. clear - ND. induction ND as [|b l Hb ND IH]; cbn [remove]; [constructor|]. destruct (K_eq_dec k0 b); [exact IH|].
    constructor; [|exact IH]. intros Hi. apply in_remove in Hi. tauto.
  - intros x Hx. apply in_remove in Hx. destruct Hx as [_ Nx]. pose proof (Z x) as E. unfold kpeval in E. cbn [peval] in E. fold (kpeval c x) in E.
    rewrite Ea in E. assert (E' : (x * kpeval c x = 0)%K) by (rewrite <- E; ring). apply kmul_eq0 in E'. tauto.
Qed.
Lemma low_degree_lincomb D s n m {A} (ks : list A) (a : A -> K) (w : A -> Z -> K) :
  (forall k, In k ks -> low_degree D s n m (w k)) -> low_degree D s n m (fun i => rsum k0 kadd (map (fun k => w k i * a k)%K ks)).
Proof.
  induction ks as [|k ks IH]; intros H; cbn [map rsum fold_right].
  - exists []. split; [cbn; lia|]. reflexivity.
  - destruct (H k (in_eq k ks)) as (f & Lf & Ef). destruct IH as (g & Lg & Eg); [intros; apply H; now apply in_cons|].
    exists (paddl kadd (pscale kmul (a k) f) g). split; [apply paddl_len; [unfold pscale; now rewrite map_length|exact Lg]|].
    intros i Hi. rewrite kpaddl', kpscale', Ef by exact Hi. rewrite <- Eg by exact Hi. unfold rsum. ring.
Qed.
Lemma batch_sound Dm s n m T (u : Z -> list K) al : NoDup al -> length al = T -> (forall i, length (u i) = T) ->
  (forall a, In a al -> low_degree Dm s n m (fun i => kpeval (u i) a)) -> forall j, low_degree Dm s n m (fun i => nth j (u i) k0).
Proof.
  intros ND La Lu H j.
  set (w := fun k => fun i => kpeval (u i) (nth k al k0)).
  (* the basis polynomials *)
  assert (HM : exists M : nat -> list K, forall k, (k < T)%nat -> (length (M k) <= T)%nat /\ forall x, kpeval (M k) x = (nth k (kweights al) k0 * kprodsub x (others k al))%K).
  { assert (G : forall t, (t <= T)%nat -> exists M : nat -> list K, forall k, (k < t)%nat -> (length (M k) <= T)%nat /\ forall x, kpeval (M k) x = (nth k (kweights al) k0 * kprodsub x (others k al))%K).
    { induction t as [|t IH]; intros Ht; [exists (fun _ => []); lia|]. destruct IH as (M & HM); [lia|].
      assert (D : kdeg T (fun x => (nth t (kweights al) k0 * kprodsub x (others t al))%K)).
      { apply kdeg_scale. eapply kdeg_le; [apply (prodsub_deg k0 k1 kadd kmul ksub kopp K_ring)|]. rewrite others_len by lia. lia. }
      destruct D as (c & Lc & Ec). exists (fun k => if Nat.eqb k t then c else M k). intros k Hk.
      destruct (Nat.eqb_spec k t) as [->|N]; [split; [exact Lc|intros x; symmetry; exact (Ec x)]|apply HM; lia]. }
    now apply (G T). }
  destruct HM as (M & HM).
  assert (HL : low_degree Dm s n m (fun i => rsum k0 kadd (map (fun k => w k i * nth j (M k) k0)%K (seq 0 T)))).
  { apply (low_degree_lincomb Dm s n m (seq 0 T) (fun k => nth j (M k) k0) w). intros k Hk. apply in_seq in Hk. apply H. apply nth_In. lia. }
  destruct HL as (f & Lf & Ef). exists f. split; [exact Lf|]. intros i Hi. rewrite <- Ef by exact Hi.
  set (D := lincomb (map (fun k => (w k i, M k)) (seq 0 T))).
  assert (ED : nth j D k0 = rsum k0 kadd (map (fun k => w k i * nth j (M k) k0)%K (seq 0 T))) by (unfold D; now rewrite lincomb_nth, map_map).
  rewrite <- ED.
  assert (LD : (length D <= T)%nat).
  { apply lincomb_length. apply Forall_forall. intros ac Hac. apply in_map_iff in Hac. destruct Hac as (k & <- & Hk). apply in_seq in Hk. apply HM. lia. }
  assert (EV : forall x, kpeval D x = kpeval (u i) x).
  { intros x. unfold D. rewrite lincomb_eval, map_map. cbn [fst snd].
    rewrite <- (bary_interpolates k0 k1 kadd kmul ksub kopp K_ring al (map (kpeval (u i)) al) (kweights al) (kpeval (u i)) (kweights_good al ND)); [|exists (u i); split; [rewrite Lu; lia|reflexivity]|now rewrite map_length|reflexivity].
    unfold bary. rewrite La. f_equal. apply map_ext_in. intros k Hk. apply in_seq in Hk. rewrite (proj2 (HM k ltac:(lia))).
    rewrite (nth_map_lt _ _ _ _ k0) by lia. unfold w, kprodsub. ring. }
  assert (Z : nth j (paddl kadd (u i) (pscale kmul (- (1))%K D)) k0 = k0).
  { apply (zero_coeffs _ al); [exact ND| |].
    - apply paddl_len; [rewrite Lu; lia|]. unfold pscale. rewrite map_length. lia.
    - intros x _. rewrite kpaddl', kpscale', EV. ring. }
  rewrite nth_paddl, nth_pscale in Z. apply ksub_eq0. eapply eq_trans; [|exact Z]. ring.
Qed.
