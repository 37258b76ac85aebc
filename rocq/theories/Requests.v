(** * How many range checks the verifier circuit asks for, at least.

    The committing range checker of the chip works only if 16 is the optimal limb width for the
    requests (goldilocks/base.go:423-442), which it is when there are enough of them.  Here: a
    permutation asks for at least 1834 range checks, and observing the openings of the proof runs
    one permutation for every eight field elements. *)
From Coq Require Import String.
From Coq Require Import ZArith Lia List Bool Permutation.
From Verif Require Import Zp Circuit Goldilocks PoseidonGL BN254 Types Challenger Fri Gates Plonk GateIds Verifier RangeModes RangeProofs.
Import ListNotations.
Open Scope Z_scope.

(** [LB c n P]: whoever gets through [c] has made at least [n] requests and has a result in [P] *)
Definition LB {A} (c : circ A) (n : Z) (P : A -> Prop) : Prop :=
  forall v l, traces c v l -> n <= Z.of_nat (length l) /\ P v.
Definition any {A} (_ : A) : Prop := True.

Lemma LB_zero {A} (c : circ A) : LB c 0 any.
Proof. intros v l _. split; [lia|exact I]. Qed.
Lemma LB_ret {A} (a : A) (P : A -> Prop) : P a -> LB (Ret a) 0 P.
Proof. intros H v l [<- ->]. split; [cbn; lia|exact H]. Qed.
Lemma LB_le {A} (c : circ A) n m P : LB c n P -> m <= n -> LB c m P.
Proof. intros H Hm v l T. destruct (H v l T). split; [lia|assumption]. Qed.
Lemma LB_bind {A B} (c : circ A) (f : A -> circ B) n m P Q : LB c n P -> (forall u, P u -> LB (f u) m Q) -> LB (bind c f) (n + m) Q.
Proof.
  intros H F v l T. apply traces_bind in T. destruct T as (u & l1 & l2 & -> & T1 & T2). destruct (H u l1 T1) as [N1 Pu].
  destruct (F u Pu v l2 T2) as [N2 Qv]. rewrite app_length, Nat2Z.inj_add. split; [lia|assumption].
Qed.
Lemma LB_range x n : LB (range_ x n) 1 any.
Proof. intros v l (l' & -> & _ & ->). split; [cbn; lia|exact I]. Qed.
Lemma LB_mapM {A B} (f : A -> circ B) n l : (forall x, LB (f x) n any) -> LB (mapM f l) (Z.of_nat (length l) * n) any.
Proof.
  intros H. induction l as [|x l IH]; cbn [mapM length]; [apply LB_ret; exact I|].
  apply (LB_le _ (n + (Z.of_nat (length l) * n + 0))); [|lia]. apply (LB_bind _ _ n _ any); [apply H|]. intros y _.
  apply (LB_bind _ _ _ _ any); [exact IH|]. intros ys _. apply LB_zero.
Qed.
Lemma LB_foldM {A B} (f : B -> A -> circ B) n l : (forall b x, LB (f b x) n any) -> forall b, LB (foldM f b l) (Z.of_nat (length l) * n) any.
Proof.
  intros H. induction l as [|x l IH]; intros b; cbn [foldM length]; [apply LB_ret; exact I|].
  apply (LB_le _ (n + Z.of_nat (length l) * n)); [|lia]. apply (LB_bind _ _ n _ any); [apply H|]. intros y _. apply IH.
Qed.

(** ** Chip functions *)
Lemma LB_RangeCheck x : LB (RangeCheck x) 2 any.
Proof.
  unfold RangeCheck. cbv zeta. apply (LB_bind _ _ 0 2 any); [apply LB_zero|]. intros h _.
  do 3 (apply (LB_bind _ _ 0 2 any); [apply LB_zero|]; intros ? _).
  apply (LB_bind _ _ 1 1 any); [apply LB_range|]. intros _ _. apply (LB_bind _ _ 1 0 any); [apply LB_range|]. intros _ _. apply LB_zero.
Qed.
Lemma LB_MulAdd a b c : LB (MulAdd a b c) 4 any.
Proof.
  unfold MulAdd. cbv zeta. do 4 (apply (LB_bind _ _ 0 4 any); [apply LB_zero|]; intros ? _).
  apply (LB_bind _ _ 2 2 any); [apply LB_RangeCheck|]. intros _ _. apply (LB_bind _ _ 2 0 any); [apply LB_RangeCheck|]. intros _ _. apply LB_zero.
Qed.
Lemma LB_Reduce x n : LB (ReduceWithMaxBits x n) 3 any.
Proof.
  unfold ReduceWithMaxBits. do 2 (apply (LB_bind _ _ 0 3 any); [apply LB_zero|]; intros ? _).
  apply (LB_bind _ _ 1 2 any); [apply LB_range|]. intros _ _. apply (LB_bind _ _ 0 2 any); [apply LB_zero|]. intros ? _.
  apply (LB_bind _ _ 2 0 any); [apply LB_RangeCheck|]. intros _ _. apply LB_zero.
Qed.
Lemma LB_sBox w x : LB (sBoxMonomial w x) 6 any.
Proof. unfold sBoxMonomial. cbv zeta. apply (LB_bind _ _ 3 3 any); [apply LB_Reduce|]. intros ? _. apply LB_Reduce. Qed.
Lemma LB_fullRounds w s k : LB (PoseidonGL.fullRounds w s k) 336 any.
Proof.
  unfold PoseidonGL.fullRounds. apply (LB_le _ (Z.of_nat (length (seq k HALF_N_FULL_ROUNDS)) * 84)); [|rewrite seq_length; unfold HALF_N_FULL_ROUNDS; lia].
  apply LB_foldM. intros t i. apply (LB_bind _ _ 48 36 any).
  - unfold constantLayer. apply (LB_mapM _ 4). intros j. apply LB_MulAdd.
  - intros t1 _. apply (LB_bind _ _ 0 36 any); [apply LB_zero|]. intros t2 _. unfold mdsLayer. apply (LB_mapM _ 3). intros j. apply LB_Reduce.
Qed.
Lemma LB_partialRounds w s : LB (PoseidonGL.partialRounds w s) 1162 any.
Proof.
  unfold PoseidonGL.partialRounds. apply (LB_bind _ _ 48 1114 any).
  { unfold partialFirstConstantLayer. apply (LB_mapM _ 4). intros j. apply LB_MulAdd. }
  intros t _. apply (LB_bind _ _ 36 1078 any).
  { unfold mdsPartialLayerInit. cbv zeta. exact (LB_mapM _ 3 _ (fun x => LB_Reduce x RANGE_CHECK_NB_BITS)). }
  intros t1 _. apply (LB_foldM _ 49 (seq 0 22)). intros t2 i.
  apply (LB_bind _ _ 6 43 any); [apply LB_sBox|]. intros ? _. apply (LB_bind _ _ 4 39 any); [apply LB_MulAdd|]. intros ? _.
  unfold mdsPartialLayerFast. cbv zeta. apply (LB_bind _ _ 3 36 any); [apply LB_Reduce|]. intros ? _.
  exact (LB_mapM _ 3 _ (fun x => LB_Reduce x RANGE_CHECK_NB_BITS)).
Qed.
Lemma LB_Poseidon w s : LB (Poseidon_w w s) 1834 any.
Proof.
  unfold Poseidon_w. apply (LB_bind _ _ 336 1498 any); [apply LB_fullRounds|]. intros ? _.
  apply (LB_bind _ _ 1162 336 any); [apply LB_partialRounds|]. intros ? _. apply LB_fullRounds.
Qed.

(** ** The challenger *)
Definition fill (c : chal) : Z := Z.of_nat (length (inputBuffer c)).
Lemma LB_duplexing w c : LB (duplexing w c) 1834 (fun c' => fill c' = 0).
Proof.
  unfold duplexing. destruct (Nat.ltb _ _); [intros v l []|]. apply (LB_bind _ _ 0 1834 any); [apply LB_zero|]. intros xs _.
  apply (LB_bind _ _ 1834 0 any); [apply LB_Poseidon|]. intros s _. apply LB_ret. reflexivity.
Qed.
(** amortised: every element observed costs an eighth of a permutation, up to what stays in the buffer *)
Definition paid (c : chal) (n : Z) (k : circ chal) : Prop :=
  forall c' l, traces k c' l -> 0 <= fill c' < 8 /\ 1834 * (fill c + n - fill c') <= 8 * Z.of_nat (length l).
Lemma paid_ObserveElement w c x : 0 <= fill c < 8 -> paid c 1 (ObserveElement w c x).
Proof.
  intros Hf. unfold ObserveElement. cbv zeta. cbn [spongeState inputBuffer].
  destruct (Nat.eqb_spec (length (inputBuffer c ++ [x])) SPONGE_RATE) as [E|E]; rewrite app_length in E; cbn [length] in E; unfold SPONGE_RATE in E; unfold fill in Hf.
  - intros c' l T. destruct (LB_duplexing _ _ _ _ T) as [N F]. rewrite F. unfold fill in *. lia.
  - intros c' l [<- ->]. unfold fill. cbn [inputBuffer length]. rewrite app_length. cbn [length]. lia.
Qed.
Lemma paid_foldM {A} (f : chal -> A -> circ chal) (n : A -> Z) : (forall c x, 0 <= fill c < 8 -> paid c (n x) (f c x)) ->
  forall l c, 0 <= fill c < 8 -> paid c (zsum (map n l)) (foldM f c l).
Proof.
  intros H. induction l as [|x l IH]; intros c Hc c' t T; cbn [foldM map zsum] in *.
  - destruct T as [<- ->]. cbn [length]. lia.
  - apply traces_bind in T. destruct T as (u & l1 & l2 & -> & T1 & T2). destruct (H c x Hc u l1 T1) as [Hu N1].
    destruct (IH u Hu c' l2 T2) as [Hv N2]. rewrite app_length, Nat2Z.inj_add. lia.
Qed.
Lemma zsum_const {A} (k : Z) (l : list A) : zsum (map (fun _ => k) l) = k * Z.of_nat (length l).
Proof. induction l as [|x l IH]; cbn [map zsum length]; lia. Qed.
Lemma paid_ObserveExtensionElements w c xs : 0 <= fill c < 8 -> paid c (2 * Z.of_nat (length xs)) (ObserveExtensionElements w c xs).
Proof.
  intros H. rewrite <- zsum_const. apply paid_foldM; [|exact H]. intros c1 x H1.
  exact (paid_foldM (ObserveElement w) (fun _ => 1) (fun c2 y H2 => paid_ObserveElement w c2 y H2) [fst x; snd x] c1 H1).
Qed.
Lemma paid_ObserveOpenings w c (xss : list (list QE)) : 0 <= fill c < 8 ->
  paid c (zsum (map (fun xs => 2 * Z.of_nat (length xs)) xss)) (ObserveOpenings w c xss).
Proof. intros H. apply paid_foldM; [|exact H]. intros c1 xs H1. now apply paid_ObserveExtensionElements. Qed.

Lemma LB_GetChallenge w c : LB (GetChallenge w c) 0 (fun xc => fill (snd xc) = 0).
Proof.
  unfold GetChallenge.
  assert (H : LB (if negb (Nat.eqb (length (inputBuffer c)) 0) || Nat.eqb (length (outputBuffer c)) 0 then duplexing w c else Ret c) 0 (fun c' => fill c' = 0)).
  { destruct (Nat.eqb_spec (length (inputBuffer c)) 0) as [E|E]; cbn [negb orb].
    - destruct (Nat.eqb _ 0); [apply (LB_le _ 1834); [apply LB_duplexing|lia]|]. apply LB_ret. unfold fill. lia.
    - apply (LB_le _ 1834); [apply LB_duplexing|lia]. }
  apply (LB_bind _ _ 0 0 (fun c' => fill c' = 0)); [exact H|]. intros c1 H1. apply (LB_bind _ _ 0 0 any); [apply LB_zero|].
  intros x _. apply LB_ret. exact H1.
Qed.
Lemma LB_GetExtensionChallenge w c : LB (GetExtensionChallenge w c) 0 (fun xc => fill (snd xc) = 0).
Proof.
  unfold GetExtensionChallenge. apply (LB_bind _ _ 0 0 (fun xc => fill (snd xc) = 0)).
  - cbn [GetNChallenges]. apply (LB_bind _ _ 0 0 (fun xc => fill (snd xc) = 0)); [apply LB_GetChallenge|]. intros [x1 c1] _.
    apply (LB_bind _ _ 0 0 (fun xc => fill (snd xc) = 0)).
    + apply (LB_bind _ _ 0 0 (fun xc => fill (snd xc) = 0)); [apply LB_GetChallenge|]. intros [x2 c2] H2. cbn [bind]. apply LB_ret. exact H2.
    + intros [xs c2] H2. apply LB_ret. exact H2.
  - intros [xs c1] H1. do 2 (apply (LB_bind _ _ 0 0 any); [apply LB_zero|]; intros ? _). apply LB_ret. exact H1.
Qed.

(** number of openings of a proof *)
Definition nbOpenings (o : OpeningSet) : Z :=
  Z.of_nat (length (Constants o) + length (PlonkSigmas o) + length (Wires o) + length (PlonkZs o) + length (PartialProducts o) +
            length (QuotientPolys o) + length (PlonkZsNext o)).
Lemma openings_requests w c o c' l : fill c = 0 -> traces (ObserveOpenings w c (ToOpenings o)) c' l ->
  1834 * (2 * nbOpenings o - 7) <= 8 * Z.of_nat (length l).
Proof.
  intros H T. destruct (paid_ObserveOpenings w c (ToOpenings o) ltac:(lia) c' l T) as [Hf N].
  unfold ToOpenings in N. cbn [map zsum] in N. rewrite !app_length in N. unfold nbOpenings. lia.
Qed.
Lemma traces_skip {A B} (c : circ A) (f : A -> circ B) v l m (P : A -> Prop) : LB c 0 P -> traces (bind c f) v l ->
  (forall u l', P u -> traces (f u) v l' -> m <= 8 * Z.of_nat (length l')) -> m <= 8 * Z.of_nat (length l).
Proof.
  intros H T F. apply traces_bind in T. destruct T as (u & l1 & l2 & -> & T1 & T2). rewrite app_length, Nat2Z.inj_add.
  specialize (F u l2 (proj2 (H u l1 T1)) T2). lia.
Qed.
Local Ltac skip1 := match goal with T : traces _ _ ?l |- _ =>
  apply (traces_skip _ _ _ _ _ any (LB_zero _) T); clear T l; let u := fresh "u" in intros u l _ T end.
Local Ltac skip2 := match goal with T : traces _ _ ?l |- _ =>
  apply (traces_skip _ _ _ _ _ any (LB_zero _) T); clear T l; let u := fresh "u" in let w := fresh "w" in intros [u w] l _ T end.
Lemma GetChallenges_requests w cd pr h vd v l : traces (GetChallenges w cd pr h vd) v l ->
  1834 * (2 * nbOpenings (Openings pr) - 7) <= 8 * Z.of_nat (length l).
Proof.
  unfold GetChallenges. cbv zeta. intros T.
  do 3 skip1. do 2 skip2. skip1. skip2. skip1.
  apply (traces_skip _ _ _ _ _ _ (LB_GetExtensionChallenge _ _) T); clear T l; intros [zeta c] l Hc T. cbn [snd] in Hc.
  apply traces_bind in T. destruct T as (c' & l1 & l2 & -> & T1 & _). pose proof (openings_requests _ _ _ _ _ Hc T1).
  rewrite app_length, Nat2Z.inj_add. lia.
Qed.
Lemma Define_requests orders w cd pr pis vd v l : traces (Define orders w cd pr pis vd) v l ->
  1834 * (2 * nbOpenings (Openings pr) - 7) <= 8 * Z.of_nat (length l).
Proof.
  unfold Define, Verify. intros T.
  do 3 skip1.
  apply traces_bind in T. destruct T as (c' & l1 & l2 & -> & T1 & _). pose proof (GetChallenges_requests _ _ _ _ _ _ _ T1).
  rewrite app_length, Nat2Z.inj_add. lia.
Qed.

(** ** Enough requests make 16 the optimum *)
Lemma decompSize_more n j : 0 < n -> (16 | n) -> 2 <= j < 16 -> decompSize n 16 + 1 <= decompSize n j.
Proof.
  intros Hn D Hj. pose proof (decompSize_aligned n 16 ltac:(lia) ltac:(lia) D) as A.
  destruct (decompSize_spec n j ltac:(lia) ltac:(lia)) as [B _]. nia.
Qed.
Lemma nbDecomposed_more l j : Forall (fun q : Z * Z => 0 < snd q < 272 /\ (16 | snd q)) l -> 2 <= j < 16 ->
  nbDecomposed 16 l + Z.of_nat (length l) <= nbDecomposed j l.
Proof.
  intros F Hj. rewrite !nbDecomposed_sum. induction F as [|q l [Hq D] F IH]; cbn [map zsum length]; [lia|].
  pose proof (decompSize_more (snd q) j ltac:(lia) D Hj). lia.
Qed.
Lemma enough_16 l : Forall (fun q : Z * Z => 0 < snd q < 272 /\ (16 | snd q)) l -> 2 ^ 16 <= Z.of_nat (length l) < 2 ^ 50 ->
  optimalWidth nbR1CSConstraints l = 16.
Proof.
  intros F [N1 N2].
  assert (M : forall j, 2 <= j < 16 -> nbR1CSConstraints 16 l < nbR1CSConstraints j l).
  { intros j Hj. pose proof (nbDecomposed_more l j F Hj). rewrite !r1cs_eq by lia. pose proof (Z.pow_pos_nonneg 2 j ltac:(lia) ltac:(lia)). lia. }
  assert (M17 : nbR1CSConstraints 16 l <= nbR1CSConstraints 17 l).
  { rewrite !r1cs_eq by lia. assert (nbDecomposed 16 l <= nbDecomposed 17 l).
    { eapply nbDecomposed_le; [exact F|]. intros q [Hq Hd]. apply decompSize_16_17; [lia|exact Hd]. }
    change (2 ^ 16) with 65536. change (2 ^ 17) with 131072. lia. }
  apply optimalWidth_unique.
  - exists 16. split; [lia|]. rewrite r1cs_eq by lia.
    assert (B : nbDecomposed 16 l <= 272 * Z.of_nat (length l)).
    { apply nbDecomposed_bound; [lia|lia|]. eapply Forall_impl; [|exact F]. cbv beta. lia. }
    unfold MaxInt64. change (2 ^ 50) with 1125899906842624 in N2. change (2 ^ 16) with 65536. change (2 ^ 63) with 9223372036854775808. lia.
  - lia.
  - intros j Hj. assert (C : 2 <= j < 16 \/ j = 16 \/ j = 17) by lia. destruct C as [C|[->| ->]]; [specialize (M j C)| |]; lia.
  - exact M.
Qed.
