(** * Interpolation and combination in FRI (fri/fri.go): proofs. *)
From Coq Require Import String.
From Coq Require Import ZArith NArith Lia List Bool Ring Field.
From Verif Require Import Zp GF Circuit Goldilocks GLProofs ExtProofs BN254 Types Challenger Fri Poly Roots FriMerkle.
Import ListNotations.
Open Scope Z_scope.
Open Scope circ_scope.
Add Ring Kr_fri : K_ring.
Add Field Kf_fri : K_field.

Definition kpeval := peval k0 kadd kmul.
Definition kprodsub := prodsub k1 kmul ksub.
Definition kbary := bary k0 k1 kadd kmul ksub.
Definition kweights_ok := weights_ok k0 k1 kmul ksub.

(** ** Folds with conditions *)
Lemma enforces_foldM {A B A' B'} (f : B -> A -> circ B) (RB : B' -> B) (RA : A' -> A)
      (g : B' -> A' -> B') (P : A' -> Prop) l :
  (forall acc x, In x l -> enforces (f (RB acc) (RA x)) (P x) (RB (g acc x))) ->
  forall acc, enforces (foldM f (RB acc) (map RA l)) (Forall P l) (RB (fold_left g l acc)).
Proof.
  induction l as [|x l IH]; intros H acc; cbn [foldM map fold_left].
  - eapply enforces_iff; [apply enforces_ret|]. split; auto.
  - eapply enforces_iff.
    + eapply enforces_bind; [apply H, in_eq|]. intros _. apply IH. intros; apply H; now apply in_cons.
    + split; [intros [H1 H2]; constructor; auto|intros F; inversion F; auto].
Qed.
Lemma map_combine {A B C D} (f : A -> C) (g : B -> D) la : forall lb,
  combine (map f la) (map g lb) = map (fun ab => (f (fst ab), g (snd ab))) (combine la lb).
Proof. induction la as [|a la IH]; intros [|b lb]; cbn [map combine fst snd]; try reflexivity. now rewrite IH. Qed.
Lemma nth_map_lt {A B} (f : A -> B) l i d d' : (i < length l)%nat -> nth i (map f l) d = f (nth i l d').
Proof. intros H. rewrite (nth_indep _ d (f d')) by now rewrite map_length. apply map_nth. Qed.

(** ** interpolate *)
Lemma lX_correct x xs : forall acc,
  computes (foldM (fun lX xPoint => SubMulExtension (repK x) xPoint lX) (repK acc) (map repK xs)) (repK (kprodsub x xs * acc)%K).
Proof.
  intros acc. eapply computes_eq.
  - apply (computes_foldM _ repK repK (fun acc a => ((x - a) * acc)%K)). intros. apply submul_ext_correct.
  - apply f_equal. revert acc. unfold kprodsub. induction xs as [|a xs IH]; intros acc; cbn [fold_left prodsub]; [ring|].
    rewrite IH. ring.
Qed.
Definition bsum (x : K) (pts : list (K * K * K)) (acc : K) : K :=
  fold_left (fun s (pt : K * K * K) => let '(a, y, w) := pt in (y * (w / (x - a)) + s)%K) pts acc.
Lemma interp_sum x pts : forall acc,
  enforces (foldM (interpolate_step (repK x)) (repK acc, 1)
              (map (fun pt : K * K * K => (repK (fst (fst pt)), repK (snd (fst pt)), repK (snd pt))) pts))
           (Forall (fun pt => x <> fst (fst pt)) pts) (repK (bsum x pts acc), 1).
Proof.
  intros acc. unfold bsum.
  apply (enforces_foldM _ (fun a => (repK a, 1)) (fun pt : K * K * K => (repK (fst (fst pt)), repK (snd (fst pt)), repK (snd pt)))
    (fun s (pt : K * K * K) => let '(a, y, w) := pt in (y * (w / (x - a)) + s)%K) (fun pt => x <> fst (fst pt))).
  intros s [[a y] w] _. cbn [fst snd]. unfold interpolate_step.
  eapply computes_enforces_bind; [apply sub_ext_correct|].
  eapply enforces_iff with (P := (x - a <> k0)%K /\ True).
  - eapply enforces_bind; [apply div_ext_correct|]. intros _. cbn beta iota.
    eapply computes_bind; [apply mul_ext_correct|].
    eapply computes_bind; [apply add_ext_correct|]. apply computes_ret.
  - split; [intros [H _] E; apply H; rewrite E; ring|]. intros H. split; [|exact I]. intros E. apply H. now apply ksub_eq0.
Qed.
Lemma computes_lookupVal x pts : forall acc, exists v,
  computes (foldM (fun lookupVal (xy : QE * QE) => d <- SubExtension (repK x) (fst xy);; Lookup (IsZero d) lookupVal (snd xy))
              (repK acc) (map (fun xy => (repK (fst xy), repK (snd xy))) pts)) v.
Proof.
  intros acc. eexists.
  apply (computes_foldM _ repK (fun xy => (repK (fst xy), repK (snd xy))) (fun acc xy => if keqb (x - fst xy)%K k0 then snd xy else acc)).
  intros a [u v] _. cbn [fst snd]. eapply computes_bind; [apply sub_ext_correct|].
  rewrite iszero_correct. eapply computes_eq; [apply lookup_correct|]. now destruct (keqb _ _).
Qed.
Lemma length_combine_eq {A B} (a : list A) (b : list B) : length a = length b -> length (combine a b) = length a.
Proof. intros H. rewrite combine_length, <- H. apply Nat.min_id. Qed.
Lemma Forall_fst_fst (x : K) xs ys ws : length xs = length ys -> length xs = length ws ->
  Forall (fun pt : K * K * K => x <> fst (fst pt)) (combine (combine xs ys) ws) <-> ~ In x xs.
Proof.
  revert ys ws. induction xs as [|a xs IH]; intros [|y ys] [|w ws] L1 L2; try discriminate L1; try discriminate L2.
  - split; [intros _ []|constructor].
  - cbn [combine]. apply (f_equal pred) in L1, L2. cbn [length pred] in L1, L2. specialize (IH ys ws L1 L2). split.
    + intros F. inversion F as [|? ? Hx F']; subst. cbn [fst] in Hx. intros [E|Hin]; [now apply Hx|]. now apply (proj1 IH F').
    + intros H. constructor; [cbn [fst]; intros E; apply H; left; now rewrite E|]. apply IH. intros Hin. apply H. now right.
Qed.

(** the value of the barycentric form *)
Lemma rsum_shift (f : nat -> K) n : forall s, rsum k0 kadd (map f (seq (S s) n)) = rsum k0 kadd (map (fun i => f (S i)) (seq s n)).
Proof. intros s. rewrite <- seq_shift, map_map. reflexivity. Qed.
Lemma rsum_cons (a : K) l : rsum k0 kadd (a :: l) = (a + rsum k0 kadd l)%K. Proof. reflexivity. Qed.
Lemma bsum_acc x pts : forall acc, bsum x pts acc = (bsum x pts k0 + acc)%K.
Proof.
  unfold bsum. induction pts as [|[[a y] w] pts IH]; intros acc; cbn [fold_left]; [ring|].
  rewrite IH. rewrite (IH (y * (w / (x - a)) + k0)%K). ring.
Qed.
Lemma bsum_rsum x xs : forall ys ws, length xs = length ys -> length xs = length ws ->
  bsum x (combine (combine xs ys) ws) k0 =
  rsum k0 kadd (map (fun i => (nth i ys k0 * (nth i ws k0 / (x - nth i xs k0)))%K) (seq 0 (length xs))).
Proof.
  induction xs as [|a xs IH]; intros [|y ys] [|w ws] L1 L2; try discriminate L1; try discriminate L2; [reflexivity|].
  apply (f_equal pred) in L1, L2. cbn [length pred] in L1, L2.
  cbn [combine length]. change (seq 0 (S (length xs))) with (0%nat :: seq 1 (length xs)).
  cbn [map]. rewrite rsum_cons, rsum_shift. cbn [nth].
  unfold bsum at 1. cbn [fold_left]. fold (bsum x (combine (combine xs ys) ws) (y * (w / (x - a)) + 0)%K).
  rewrite bsum_acc, IH by assumption. ring.
Qed.
Lemma rsum_mul (c : K) l : (c * rsum k0 kadd l = rsum k0 kadd (map (fun y => c * y) l))%K.
Proof. induction l as [|a l IH]; cbn [rsum fold_right map]; [ring|]. fold (rsum k0 kadd l). fold (rsum k0 kadd (map (fun y => (c * y)%K) l)). rewrite <- IH. ring. Qed.
Lemma interp_value x xs ys ws : length xs = length ys -> length xs = length ws -> ~ In x xs ->
  (kprodsub x xs * bsum x (combine (combine xs ys) ws) k0)%K = kbary xs ys ws x.
Proof.
  intros L1 L2 Hx. rewrite bsum_rsum by assumption. rewrite rsum_mul, map_map. unfold kbary, bary.
  apply f_equal. apply map_ext_in. intros i Hi. apply in_seq in Hi.
  unfold kprodsub. rewrite (prodsub_others _ _ _ _ _ _ K_ring x i xs) by lia.
  assert (N : (x - nth i xs k0)%K <> k0).
  { intros E. apply (proj1 (ksub_eq0 _ _)) in E. apply Hx. rewrite E. apply nth_In. lia. }
  field. exact N.
Qed.
Lemma Lookup_1 x y : computes (Lookup 1 x y) y.
Proof. exact (lookup_correct true x y). Qed.
Lemma interpolate_correct x xs ys ws : length ys = length xs -> length ws = length xs ->
  enforces (interpolate (repK x) (map repK xs) (map repK ys) (map repK ws)) (~ In x xs) (repK (kbary xs ys ws x)).
Proof.
  intros L1 L2. unfold interpolate.
  eapply computes_enforces_bind; [apply computes_panic_if; rewrite !map_length, L1, L2, Nat.eqb_refl; reflexivity|].
  rewrite <- repK_1. eapply computes_enforces_bind; [apply lX_correct|].
  rewrite !map_combine, <- repK_0.
  eapply enforces_iff with (P := Forall (fun pt : K * K * K => x <> fst (fst pt)) (combine (combine xs ys) ws) /\ True).
  2:{ rewrite Forall_fst_fst by congruence. tauto. }
  eapply enforces_bind.
  { eapply enforces_eq; [|reflexivity]. eapply (interp_sum x (combine (combine xs ys) ws) k0). }
  intros F. cbn beta iota. apply (proj1 (Forall_fst_fst x xs ys ws ltac:(congruence) ltac:(congruence))) in F.
  eapply computes_bind; [apply mul_ext_correct|].
  destruct (computes_lookupVal x (combine xs ys) k0) as [v Hv].
  eapply computes_bind; [exact Hv|].
  eapply computes_eq; [apply Lookup_1|]. apply f_equal. rewrite <- interp_value by (auto; congruence). ring.
Qed.

(** ** Bit-reversed order *)
Lemma rev_bits_bitrev n : forall i, Z.of_nat (rev_bits n i) = bitrev n (Z.of_nat i).
Proof.
  induction n as [|n IH]; intros i; cbn [rev_bits bitrev]; [reflexivity|].
  rewrite Nat2Z.inj_add, Nat2Z.inj_mul, IH, Nat2Z.inj_pow, Nat2Z.inj_mod, Nat2Z.inj_div by lia. reflexivity.
Qed.
Lemma pow2_nat_Z n : Z.of_nat (2 ^ n) = 2 ^ Z.of_nat n.
Proof. now rewrite Nat2Z.inj_pow. Qed.
Lemma rev_bits_lt n i : (rev_bits n i < 2 ^ n)%nat.
Proof. apply Nat2Z.inj_lt. rewrite rev_bits_bitrev, pow2_nat_Z. apply bitrev_range. Qed.
Lemma rev_bits_inv n i : (i < 2 ^ n)%nat -> rev_bits n (rev_bits n i) = i.
Proof.
  intros H. apply Nat2Z.inj. rewrite !rev_bits_bitrev. apply bitrev_involutive. rewrite <- pow2_nat_Z. lia.
Qed.
Definition rev8_check (a : nat) : bool := forallb (fun i => Nat.eqb (reverse8_shift a i) (rev_bits a i)) (seq 0 (2 ^ a)).
Lemma rev8_checked : forallb rev8_check (seq 0 9) = true. Proof. vm_compute. reflexivity. Qed.
Lemma reverse8_ok a i : (a <= 8)%nat -> (i < 2 ^ a)%nat -> reverse8_shift a i = rev_bits a i.
Proof.
  intros Ha Hi. pose proof rev8_checked as C. rewrite forallb_forall in C.
  assert (I0 : In a (seq 0 9)) by (apply in_seq; lia). specialize (C a I0). unfold rev8_check in C. rewrite forallb_forall in C.
  assert (I : In i (seq 0 (2 ^ a))) by (apply in_seq; lia). specialize (C i I). now apply Nat.eqb_eq.
Qed.
(** [f] applied in bit-reversed order *)
Definition permuted {A} (d : A) (n : nat) (l : list A) : list A := map (fun i => nth (rev_bits n i) l d) (seq 0 (2 ^ n)).

Lemma set_nth_computes {A} (l : list A) i x : (i < length l)%nat -> computes (set_nth l i x) (firstn i l ++ x :: skipn (S i) l).
Proof. intros H. unfold set_nth. rewrite (proj2 (Nat.ltb_lt _ _) H). apply computes_ret. Qed.
Lemma set_nth_length {A} (l : list A) i x : (i < length l)%nat -> length (firstn i l ++ x :: skipn (S i) l) = length l.
Proof. intros H. rewrite app_length, firstn_length. cbn [length]. rewrite skipn_length. lia. Qed.
Lemma nth_firstn_lt {A} (l : list A) d : forall i j, (j < i)%nat -> nth j (firstn i l) d = nth j l d.
Proof. induction l as [|a l IH]; intros [|i] [|j] H; cbn [firstn nth]; try lia; try reflexivity. apply IH. lia. Qed.
Lemma nth_skipn {A} (l : list A) d : forall i j, nth j (skipn i l) d = nth (i + j) l d.
Proof.
  induction l as [|a l IH]; intros [|i] j; try reflexivity; [cbn [skipn nth Nat.add]; now destruct j|]. cbn [skipn Nat.add nth]. apply IH.
Qed.
Lemma set_nth_get {A} (l : list A) i x d j : (i < length l)%nat ->
  nth j (firstn i l ++ x :: skipn (S i) l) d = if Nat.eqb j i then x else nth j l d.
Proof.
  intros H. assert (Lf : length (firstn i l) = i) by (rewrite firstn_length; lia).
  destruct (Nat.eqb_spec j i) as [->|N].
  - rewrite app_nth2; rewrite Lf; [|lia]. rewrite Nat.sub_diag. reflexivity.
  - destruct (Nat.lt_ge_cases j i).
    + rewrite app_nth1 by lia. now apply nth_firstn_lt.
    + rewrite app_nth2 by lia. rewrite Lf. destruct (j - i)%nat as [|k] eqn:E; [lia|]. cbn [nth].
      rewrite nth_skipn. f_equal. lia.
Qed.
Lemma permute_fold {A} (s : nat -> nat) (d : A) l : forall k acc, (forall i, (k <= i < k + length l)%nat -> (s i < length acc)%nat) ->
  (forall i j, (k <= i < k + length l)%nat -> (k <= j < k + length l)%nat -> s i = s j -> i = j) ->
  exists acc', computes (foldM (fun acc (ie : nat * A) => set_nth acc (s (fst ie)) (snd ie)) acc (combine (seq k (length l)) l)) acc'
    /\ length acc' = length acc
    /\ (forall i, (i < length l)%nat -> nth (s (k + i)%nat) acc' d = nth i l d)
    /\ (forall m, (forall i, (k <= i < k + length l)%nat -> s i <> m) -> nth m acc' d = nth m acc d).
Proof.
  induction l as [|a l IH]; intros k acc Hb Hi; cbn [length seq combine foldM].
  - exists acc. split; [apply computes_ret|]. split; [reflexivity|]. split; [intros i Hlt; lia|auto].
  - cbn [length] in Hb, Hi. assert (Hk : (s k < length acc)%nat) by (apply Hb; lia).
    destruct (IH (S k) (firstn (s k) acc ++ a :: skipn (S (s k)) acc)) as (acc' & C & L & G & O).
    { intros i Hlt. rewrite set_nth_length by exact Hk. apply Hb. lia. }
    { intros i j H1 H2. apply Hi; lia. }
    exists acc'. split; [eapply computes_bind; [cbn [fst snd]; now apply set_nth_computes|exact C]|].
    split; [rewrite L; now apply set_nth_length|]. split.
    + intros [|i] Hlt.
      * rewrite Nat.add_0_r. rewrite O.
        -- rewrite set_nth_get by exact Hk. now rewrite Nat.eqb_refl.
        -- intros j Hj E. apply Hi in E; lia.
      * replace (k + S i)%nat with (S k + i)%nat by lia. rewrite G by (cbn [length] in Hlt; lia). reflexivity.
    + intros m Hm. rewrite O by (intros i Hlt; apply Hm; lia). rewrite set_nth_get by exact Hk.
      destruct (Nat.eqb_spec m (s k)) as [->|_]; [|reflexivity]. exfalso. apply (Hm k); [lia|reflexivity].
Qed.
Lemma permute_computes {A} (d z : A) a l : (a <= 8)%nat -> length l = (2 ^ a)%nat ->
  computes (foldM (fun acc (ie : nat * A) => set_nth acc (reverse8_shift a (fst ie)) (snd ie)) (repeat z (length l)) (combine (seq 0 (length l)) l))
           (permuted d a l).
Proof.
  intros Ha L. destruct (permute_fold (reverse8_shift a) d l 0 (repeat z (length l))) as (acc' & C & L' & G & _).
  - intros i Hi. rewrite repeat_length, L, reverse8_ok by lia. apply rev_bits_lt.
  - intros i j Hi Hj E. rewrite !reverse8_ok in E by lia.
    rewrite <- (rev_bits_inv a i), <- (rev_bits_inv a j) by lia. now rewrite E.
  - eapply computes_eq; [exact C|]. rewrite repeat_length in L'. unfold permuted.
    apply (nth_ext _ _ d d); [rewrite map_length, seq_length; lia|]. intros k Hk. rewrite L', L in Hk.
    rewrite (nth_map_lt _ (seq 0 (2 ^ a)) k d O) by (rewrite seq_length; exact Hk). rewrite seq_nth by exact Hk. cbn [Nat.add].
    pose proof (rev_bits_lt a k) as Hr. specialize (G (rev_bits a k)). cbn [Nat.add] in G.
    rewrite reverse8_ok in G by (auto; lia). rewrite rev_bits_inv in G by exact Hk. apply G. lia.
Qed.

(** ** computeEvaluation *)
Lemma next_points_correct (g : K) n : forall x, computes (next_points (repK x) (repK g) n) (map (fun i => repK (x * g ^ N.of_nat (S i))%K) (seq 0 n)).
Proof.
  induction n as [|n IH]; intros x; cbn [next_points]; [apply computes_ret|].
  eapply computes_bind; [apply mul_ext_correct|]. eapply computes_bind; [apply IH|].
  eapply computes_eq; [apply computes_ret|]. change (seq 0 (S n)) with (O :: seq 1 n). cbn [map]. f_equal.
  rewrite <- seq_shift, map_map. apply map_ext. intros i. apply f_equal. rewrite (Nat2N.inj_succ (S i)), kpow_succ. ring.
Qed.
Lemma weight_prod (xi : K) xs m : forall s i, (s + m <= length xs)%nat -> (i < s \/ s + m <= i)%nat -> forall acc,
  fold_left (fun w j => if Nat.eqb i j then w else ((xi - nth j xs k0) * w)%K) (seq s m) acc = (kprodsub xi (firstn m (skipn s xs)) * acc)%K.
Proof.
  induction m as [|m IH]; intros s i Hs Hi acc; cbn [seq fold_left]; [unfold kprodsub; cbn [firstn prodsub]; ring|].
  destruct (Nat.eqb_spec i s) as [E|_]; [lia|]. rewrite IH by lia.
  assert (E : skipn s xs = nth s xs k0 :: skipn (S s) xs).
  { clear - Hs. revert s Hs. induction xs as [|a xs IH]; intros [|s] Hs; cbn [length] in Hs; try lia; [reflexivity|].
    cbn [skipn nth]. apply IH. lia. }
  rewrite E. unfold kprodsub. cbn [firstn prodsub]. ring.
Qed.
Lemma weight_others xs i : (i < length xs)%nat ->
  fold_left (fun w j => if Nat.eqb i j then w else ((nth i xs k0 - nth j xs k0) * w)%K) (seq 0 (length xs)) k1
  = kprodsub (nth i xs k0) (others i xs).
Proof.
  intros H. replace (length xs) with (i + S (length xs - S i))%nat at 1 by lia.
  rewrite seq_app, fold_left_app. cbn [seq fold_left Nat.add]. rewrite Nat.eqb_refl.
  rewrite weight_prod by lia. rewrite weight_prod by lia. unfold others, kprodsub.
  rewrite (prodsub_app _ _ _ _ _ _ K_ring). rewrite ?skipn_O.
  rewrite (firstn_all2 (skipn (S i) xs)) by (rewrite skipn_length; lia). ring.
Qed.
Lemma kprodsub_nz x l : ~ In x l -> kprodsub x l <> k0.
Proof.
  induction l as [|a l IH]; intros H E; unfold kprodsub in E; cbn [prodsub] in E; [now apply k1_neq_k0|].
  apply kmul_eq0 in E. destruct E as [E|E].
  - apply (proj1 (ksub_eq0 _ _)) in E. apply H. now left.
  - apply IH in E; [exact E|]. intros Hin. apply H. now right.
Qed.
Lemma others_notin (xs : list K) i : NoDup xs -> (i < length xs)%nat -> ~ In (nth i xs k0) (others i xs).
Proof.
  intros ND Hi Hin. rewrite (nth_split_others k0 i xs Hi) in ND. apply NoDup_remove_2 in ND. exact (ND Hin).
Qed.
Definition kweights (xs : list K) : list K := map (fun i => kinv (kprodsub (nth i xs k0) (others i xs))) (seq 0 (length xs)).
Lemma kweights_good xs : NoDup xs -> kweights_ok xs (kweights xs).
Proof.
  intros ND i Hi. unfold kweights. rewrite (nth_map_lt _ (seq 0 (length xs)) i k0 O) by now rewrite seq_length.
  rewrite seq_nth by exact Hi. cbn [Nat.add]. apply kinv_l. apply kprodsub_nz. now apply others_notin.
Qed.
Lemma bary_weight_correct xs i : NoDup xs -> (i < length xs)%nat ->
  computes (bary_weight (map repK xs) i) (repK (kinv (kprodsub (nth i xs k0) (others i xs)))).
Proof.
  intros ND Hi. unfold bary_weight.
  eapply computes_bind; [apply (computes_nth _ _ (repK k0)); now rewrite map_length|]. rewrite map_nth.
  rewrite map_length, <- repK_1.
  eapply computes_bind.
  { rewrite <- (map_id (seq 0 (length xs))).
    apply (computes_foldM _ repK (fun j => j) (fun w j => if Nat.eqb i j then w else ((nth i xs k0 - nth j xs k0) * w)%K)).
    intros w j Hj. apply in_seq in Hj. destruct (Nat.eqb i j); [apply computes_ret|].
    eapply computes_bind; [apply (computes_nth _ _ (repK k0)); rewrite map_length; lia|]. rewrite map_nth. apply submul_ext_correct. }
  rewrite weight_others by exact Hi.
  eapply computes_bind.
  { eapply enforces_iff; [apply inverse_ext_correct|]. split; [auto|]. intros _. apply kprodsub_nz. now apply others_notin. }
  cbn beta iota. eapply computes_bind; [|apply computes_ret].
  eapply enforces_iff; [apply enforces_assert_eq|]. tauto.
Qed.

Lemma NoDup_map_in {A B} (f : A -> B) l : (forall x y, In x l -> In y l -> f x = f y -> x = y) -> NoDup l -> NoDup (map f l).
Proof.
  intros H. induction 1 as [|a l Ha ND IH]; cbn [map]; constructor.
  - intros Hin. apply in_map_iff in Hin. destruct Hin as (b & E & Hb). apply H in E; [subst; contradiction|now right|now left].
  - apply IH. intros x y Hx Hy. apply H; now right.
Qed.
(** the points of the coset of a point: c, c g, c g^2, ... where g has order 2^a *)
Definition coset (a : nat) (c : GF) : list K := map (fun i => emb (c * root a ^ N.of_nat i)%GF) (seq 0 (2 ^ a)).
Definition coset_start (a : nat) (x : GF) (j : Z) : GF := ((root a ^ (2 ^ N.of_nat a - 1)) ^ Z.to_N (bitrev a j) * x)%GF.
Lemma coset_length a c : length (coset a c) = (2 ^ a)%nat.
Proof. unfold coset. now rewrite map_length, seq_length. Qed.
Lemma coset_nodup a c : (a <= TWO_ADICITY)%nat -> c <> 0%GF -> NoDup (coset a c).
Proof.
  intros Ha Hc. unfold coset. apply NoDup_map_in.
  2:apply seq_NoDup.
  intros i j Hi Hj E. apply in_seq in Hi, Hj. apply emb_inj in E.
  assert (D : (c * (root a ^ N.of_nat i - root a ^ N.of_nat j) = 0)%GF).
  { replace (c * (root a ^ N.of_nat i - root a ^ N.of_nat j))%GF with (c * root a ^ N.of_nat i - c * root a ^ N.of_nat j)%GF by ring. rewrite E. ring. }
  apply gmul_eq0 in D. destruct D as [D|D]; [contradiction|]. apply (proj1 (gsub_eq0 _ _)) in D.
  apply root_pow_inj in D; [lia|exact Ha|rewrite <- pow2_nat_N; lia|rewrite <- pow2_nat_N; lia].
Qed.
Lemma pow2_gt0 a : (0 < 2 ^ a)%nat.
Proof. apply Nat.neq_0_lt_0, Nat.pow_nonzero. discriminate. Qed.
Lemma compute_evaluation_correct a (x : GF) (j : Z) (ys : list K) (beta : K) :
  (a <= 7)%nat -> length ys = (2 ^ a)%nat -> x <> 0%GF ->
  let xs := coset a (coset_start a x j) in
  enforces (computeEvaluation (rep x) (bits_of a j) a (map repK ys) (repK beta)) (~ In beta xs)
           (repK (kbary xs (permuted k0 a ys) (kweights xs) beta)).
Proof.
  intros Ha L Hx xs. unfold computeEvaluation.
  assert (Ha' : (a <= TWO_ADICITY)%nat) by (unfold TWO_ADICITY; lia).
  eapply computes_enforces_bind.
  { apply computes_panic_if. rewrite map_length, L. unfold shl_int. rewrite pow2_nat_Z.
    destruct (Z.ltb_spec (Z.of_nat a) 63); [|lia]. now rewrite Z.eqb_refl. }
  eapply computes_enforces_bind.
  { apply computes_panic_if. apply Nat.ltb_ge. lia. }
  eapply computes_enforces_bind; [now apply root_computes|].
  eapply computes_enforces_bind.
  { apply computes_panic_if. apply Nat.eqb_neq. lia. }
  eapply computes_enforces_bind.
  { apply (permute_computes (repK k0)); [lia|now rewrite map_length]. }
  replace (permuted (repK k0) a (map repK ys)) with (map repK (permuted k0 a ys)).
  2:{ unfold permuted. rewrite map_map. apply map_ext. intros i. now rewrite map_nth. }
  rewrite map_length, L. rewrite powm_gpow by (rewrite pow2_nat_Z; lia).
  replace (Z.to_N (Z.of_nat (2 ^ a) - 1)) with (2 ^ N.of_nat a - 1)%N.
  2:{ rewrite <- pow2_nat_N. pose proof (pow2_gt0 a). lia. }
  rewrite rev_bits_of.
  eapply computes_enforces_bind; [apply exp_bits_correct; [now apply gpow_nz, root_nz|apply bits_bool]|].
  rewrite bits_N_bits by apply bitrev_range. rewrite Z.mod_small by apply bitrev_range.
  eapply computes_enforces_bind; [apply gmul_correct|]. fold (coset_start a x j). set (c := coset_start a x j).
  assert (Hc : c <> 0%GF).
  { unfold c, coset_start. intros E. apply gmul_eq0 in E. destruct E as [E|E]; [|contradiction].
    revert E. apply gpow_nz, gpow_nz. now apply root_nz. }
  change (rep c, Zero) with (repK (emb c)). change (ToQuadraticExtension (rep (root a))) with (repK (emb (root a))).
  eapply computes_enforces_bind; [apply next_points_correct|].
  assert (Exs : repK (emb c) :: map (fun i => repK (emb c * emb (root a) ^ N.of_nat (S i))%K) (seq 0 (2 ^ a - 1)) = map repK xs).
  { unfold xs, coset. pose proof (pow2_gt0 a). replace (2 ^ a)%nat with (S (2 ^ a - 1)) at 2 by lia.
    change (seq 0 (S (2 ^ a - 1))) with (O :: seq 1 (2 ^ a - 1)). cbn [map]. f_equal.
    - apply f_equal. apply f_equal. rewrite gpow_0. unfold c. ring.
    - rewrite <- seq_shift, !map_map. apply map_ext. intros i. apply f_equal.
      rewrite emb_mul, emb_pow. reflexivity. }
  cbv beta zeta. match goal with |- context [mapM (bary_weight ?L) _] => change L with (repK (emb c) :: map (fun i => repK (emb c * emb (root a) ^ N.of_nat (S i))%K) (seq 0 (2 ^ a - 1))) end.
  rewrite Exs.
  assert (ND : NoDup xs) by now apply coset_nodup.
  rewrite map_length. eapply computes_enforces_bind.
  { apply (computes_mapM _ (fun i => repK (kinv (kprodsub (nth i xs k0) (others i xs))))).
    intros i Hi. apply in_seq in Hi. apply bary_weight_correct; [exact ND|lia]. }
  replace (map (fun i => repK (kinv (kprodsub (nth i xs k0) (others i xs)))) (seq 0 (length xs))) with (map repK (kweights xs)).
  2:{ unfold kweights. now rewrite map_map. }
  apply interpolate_correct.
  - unfold permuted. rewrite map_length, seq_length. unfold xs. now rewrite coset_length.
  - unfold kweights. now rewrite map_length, seq_length.
Qed.

(** the same for every polynomial through the points *)
Lemma compute_evaluation_poly a (x : GF) (j : Z) (ys : list K) (beta : K) P :
  (a <= 7)%nat -> length ys = (2 ^ a)%nat -> x <> 0%GF -> (length P <= 2 ^ a)%nat ->
  let c := coset_start a x j in
  (forall i, (i < 2 ^ a)%nat -> kpeval P (emb (c * root a ^ N.of_nat (rev_bits a i))%GF) = nth i ys k0) ->
  enforces (computeEvaluation (rep x) (bits_of a j) a (map repK ys) (repK beta)) (~ In beta (coset a c)) (repK (kpeval P beta)).
Proof.
  intros Ha L Hx HP c H. eapply enforces_eq; [now apply compute_evaluation_correct|]. apply f_equal. fold c.
  assert (Hc : c <> 0%GF).
  { unfold c, coset_start. intros E. apply gmul_eq0 in E. destruct E as [E|E]; [|contradiction].
    revert E. apply gpow_nz, gpow_nz. apply root_nz. unfold TWO_ADICITY. lia. }
  unfold kbary. apply (bary_interpolates _ _ _ _ _ _ K_ring _ _ _ (kpeval P)).
  - apply kweights_good. apply coset_nodup; [unfold TWO_ADICITY; lia|exact Hc].
  - exists P. split; [now rewrite coset_length|reflexivity].
  - unfold permuted. now rewrite map_length, seq_length, coset_length.
  - unfold coset, permuted. rewrite map_map. apply map_ext_in. intros i Hi. apply in_seq in Hi.
    rewrite <- (H (rev_bits a i)) by apply rev_bits_lt. rewrite rev_bits_inv by lia. reflexivity.
Qed.
Lemma coset_poly_exists a c (ys : list K) : (a <= TWO_ADICITY)%nat -> length ys = (2 ^ a)%nat -> c <> 0%GF ->
  exists P, (length P <= 2 ^ a)%nat /\
    forall i, (i < 2 ^ a)%nat -> kpeval P (emb (c * root a ^ N.of_nat (rev_bits a i))%GF) = nth i ys k0.
Proof.
  intros Ha L Hc.
  destruct (bary_exists _ _ _ _ _ _ K_ring (coset a c) (permuted k0 a ys) (kweights (coset a c))) as (P & LP & E & _).
  - apply kweights_good. now apply coset_nodup.
  - unfold permuted. now rewrite map_length, seq_length, coset_length.
  - exists P. rewrite coset_length in LP. split; [exact LP|]. intros i Hi.
    apply (f_equal (fun l => nth (rev_bits a i) l k0)) in E.
    pose proof (rev_bits_lt a i) as Hr.
    unfold coset, permuted in E. rewrite map_map in E.
    rewrite !(nth_map_lt _ (seq 0 (2 ^ a)) (rev_bits a i) k0 O) in E by now rewrite seq_length.
    rewrite seq_nth in E by exact Hr. cbn [Nat.add] in E. rewrite rev_bits_inv in E by exact Hi. exact E.
Qed.

(** ** finalPolyEval *)
Lemma final_poly_correct P x : computes (finalPolyEval (map repK P) (repK x)) (repK (kpeval P x)).
Proof.
  unfold finalPolyEval. rewrite <- map_rev, <- repK_0. eapply computes_eq.
  - apply (computes_foldM _ repK repK (fun acc t => (acc * x + t)%K)). intros acc t _. apply muladd_ext_correct.
  - apply f_equal. rewrite fold_right_rev_left. unfold kpeval.
    induction P as [|t P IH]; cbn [fold_right peval]; [reflexivity|]. rewrite IH. ring.
Qed.
