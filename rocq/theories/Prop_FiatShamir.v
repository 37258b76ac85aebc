(** * Property C84: the soundness error with the challenges from a random oracle. *)
From Coq Require Import String.
From Coq Require Import ZArith NArith Arith Lia List Bool Ring QArith.
From Verif Require Import Zp GF Circuit Goldilocks GLProofs ExtProofs BN254 BN254Hash Types Challenger Fri Poly Roots FriMerkle FriEval FriQuery FriTop FriFacts Honest FriSound FriRewind FriExtract Prop_Fri
  Gates GateProofs GateFilter GateCoset GateAll GateDegree Prop_Gates Plonk PlonkProofs Prop_Plonk PlonkSound PlonkRows PlonkCopy Prop_PlonkSound Verifier VerifierProofs VerifierSound Prop_VerifierSound FriForge Prop_FriSound Prop_FriQuery FriCurve FriProx FriError Game Prop_FriError VerifierError Prop_VerifierError Prop_VerifierPow RandomOracle FiatShamir.
Import ListNotations.
Open Scope Z_scope.
Local Opaque PoseidonBN HashOrNoop TwoToOne.

(** ** C84
    The verifier takes its challenges from a random oracle (RandomOracle.v): the oracle stands
    for the duplex sponge of challenger/challenger.go, and is asked with all that was absorbed
    before.  An adversary [G] asks the oracle at most q times, each question depending on the
    answers before, and then returns the hash of the public inputs and a proof.  An outcome [xs]
    lists the answers to the new questions of the adversary and of the verifier.
    [fs_probability] is its probability; [fs_wins]: the statement is false and the verifier
    accepts.  [S] is a set without collisions that contains what the accepted Merkle proofs
    hash. *)
Definition adversary : Type := @asking message chal (list message * list FriQueryRound).
Definition fs_probability cd gcoins E e b (G : adversary) (xs : list chal) : Q :=
  weight message_dec chal_dec (fs_levels cd gcoins E e b) (verified (fs_levels cd gcoins E e b) G) [] xs.
Definition fs_wins cd gates vd cs sigmas (S : list Z -> Prop) gcoins E e b (G : adversary) (xs : list chal) : Prop :=
  wins_with message_dec chal_dec (fs_levels cd gcoins E e b) (convinces_of_falsehood cd gates vd cs sigmas S) G xs.
Theorem C84_oracle : forall cd gates vd S gcoins E e b cs sigmas eps (G : adversary) q ws,
  let n := LdeBits (cd_FriParams cd) in
  sound_data cd gates -> degree_bound cd gates E -> (2 * e + 2 ^ cd_DegreeBits cd < 2 ^ n)%nat -> NoDup gcoins ->
  (forall i, length (filter (fun x => if Z.eq_dec (rep x mod 2 ^ Z.of_nat n) i then true else false) gcoins) <= b)%nat ->
  length cs = cd_NumConstants cd -> length sigmas = NumRoutedWires (cd_Config cd) -> Forall (fun f => length f <= 2 ^ cd_DegreeBits cd + 1)%nat (cs ++ sigmas) ->
  ConstantSigmasCap vd = key_cap n (cs ++ sigmas) ->
  no_collision S -> (forall a, key_hashed n (cs ++ sigmas) a -> S a) ->
  (0 <= eps)%Q -> (forall L t, In (L, t) (fs_levels cd gcoins E e b) -> inject_Z (Z.of_nat t) <= eps * inject_Z (Z.of_nat (length L)))%Q ->
  asks G q -> NoDup ws -> (forall xs, In xs ws -> fs_wins cd gates vd cs sigmas S gcoins E e b G xs) ->
  (sumq (fs_probability cd gcoins E e b G) ws <= inject_Z (Z.of_nat (q + 5 + length (ReductionArityBits (cd_FriParams cd)))) * eps)%Q.
Proof.
  intros cd gates vd S gcoins E e b cs sigmas eps G q ws n SD DB He NDg FIB Lcs Lsg HB KEY NC HK E0 HE AQ NDw HW.
  pose proof (oracle_bound message_dec chal_dec (fs_levels cd gcoins E e b) (fs_levels_nodup cd gcoins E e b NDg) (convinces_of_falsehood cd gates vd cs sigmas S) eps E0 HE G q ws) as X.
  replace (q + 5 + length (ReductionArityBits (cd_FriParams cd)))%nat with (q + length (fs_levels cd gcoins E e b))%nat.
  - apply X; try assumption. now apply nothing_alive.
  - unfold fs_levels. cbv zeta. rewrite !app_length, map_length, seq_length. cbn [length]. lia.
Qed.
Print Assumptions C84_oracle.

(** the probabilities of the outcomes sum to one *)
Theorem C84_probability : forall cd gcoins E e b (G : adversary), let levels := fs_levels cd gcoins E e b in
  NoDup gcoins -> gcoins <> [] -> proper levels G ->
  exists all, NoDup all /\ (forall xs, In xs all <-> play message_dec chal_dec levels (verified levels G) [] xs <> None) /\
    (sumq (fs_probability cd gcoins E e b G) all == 1)%Q.
Proof.
  intros cd gcoins E e b G levels ND NE PR. exists (outcomes message_dec chal_dec levels (verified levels G) []).
  split; [apply outcomes_nodup; now apply fs_levels_nodup|]. split; [intros xs; apply outcomes_in|].
  refine (outcomes_total message_dec chal_dec levels (verified levels G) _ (verified_proper levels G PR) []). intros i Hi.
  assert (T : forall {B} q (l : list B), l <> [] -> tuples q l <> []).
  { intros B q l Hl H. apply (f_equal (@length _)) in H. rewrite tuples_length in H. cbn [length] in H. destruct l as [|y l]; [now destruct Hl|]. cbn [length] in H. pose proof (Nat.pow_nonzero (Datatypes.S (length l)) q ltac:(lia)). lia. }
  assert (PP : forall {B C} (l : list B) (l' : list C), l <> [] -> l' <> [] -> list_prod l l' <> []) by (intros B C [|? ?] [|? ?] H1 H2; try (now destruct H1); try (now destruct H2); discriminate).
  assert (M : forall {B C} (f : B -> C) l, l <> [] -> map f l <> []) by (intros B C f [|? ?] H; [now destruct H|discriminate]).
  assert (F : Forall (fun l : list chal * nat => fst l <> []) levels).
  { unfold levels, fs_levels. cbv zeta. rewrite !Forall_app. split; [|split].
    - constructor; [|constructor; [|constructor; [|constructor; [|constructor]]]]; cbn [fst]; apply M; try apply T; try apply PP; assumption.
    - apply Forall_forall. intros l Hl. apply in_map_iff in Hl. destruct Hl as (j & <- & _). cbn [fst]. apply M. now apply PP.
    - constructor; [|constructor]. cbn [fst]. apply M. apply PP; [assumption|]. now apply T. }
  rewrite Forall_forall in F. unfold coins_at. apply F. now apply nth_In.
Qed.
Print Assumptions C84_probability.

(** ** The elements with the same position *)
Lemma fibre (gcoins : list GF) n N b : NoDup gcoins -> (forall x, In x gcoins -> rep x < N) -> 0 < N -> Z.of_nat b = (N - 1) / 2 ^ Z.of_nat n + 1 ->
  forall i, (length (filter (fun x => if Z.eq_dec (rep x mod 2 ^ Z.of_nat n) i then true else false) gcoins) <= b)%nat.
Proof.
  intros ND HN N0 Hb i. assert (P0 : 0 < 2 ^ Z.of_nat n) by (apply Z.pow_pos_nonneg; lia). set (M := 2 ^ Z.of_nat n) in *. clearbody M.
  set (f := fun x : GF => rep x / M). rewrite <- (map_length f). rewrite <- (seq_length b 0), <- (map_length Z.of_nat (seq 0 b)). apply NoDup_incl_length.
  - apply NoDup_map_in; [|now apply NoDup_filter]. intros x y Hx Hy E. apply filter_In in Hx, Hy. destruct Hx as [_ Hx], Hy as [_ Hy].
    destruct (Z.eq_dec (rep x mod M) i) as [X|]; [|discriminate Hx]. destruct (Z.eq_dec (rep y mod M) i) as [Y|]; [|discriminate Hy]. apply GF_eq.
    rewrite (Z.div_mod (rep x) M), (Z.div_mod (rep y) M) by lia. unfold f in E. now rewrite E, X, Y.
  - intros z Hz. apply in_map_iff in Hz. destruct Hz as (x & <- & Hx). apply filter_In in Hx. destruct Hx as [Hx _]. specialize (HN x Hx). pose proof (rep_range x) as R.
    assert (B : 0 <= f x < Z.of_nat b).
    { unfold f. split; [apply Z.div_pos; lia|]. rewrite Hb. assert (rep x / M <= (N - 1) / M) by (apply Z.div_le_mono; lia). lia. }
    apply in_map_iff. exists (Z.to_nat (f x)). split; [apply Z2Nat.id; lia|]. apply in_seq. clear - B. split; [lia|]. cbn. apply Nat2Z.inj_lt. rewrite Z2Nat.id; lia.
Qed.
Lemma scaled (a c : Z) (D : positive) : a * Zpos D <= c -> (inject_Z a <= (1 # D) * inject_Z c)%Q.
Proof. intros H. unfold Qle, Qmult, inject_Z. cbn [Qnum Qden]. rewrite Pos2Z.inj_mul, !Z.mul_1_r, Z.mul_1_l. exact H. Qed.

(** The test data of the repository, the challenges from the whole field: an adversary that asks
    the oracle q times convinces the verifier of a false statement with probability at most
    (q + 5 + number of foldings) / 2^39. *)
Theorem C84_testdata : forall cd gates vd S gcoins E e b cs sigmas (G : adversary) q ws,
  let d := cd_DegreeBits cd in let n := LdeBits (cd_FriParams cd) in
  (d = 12 \/ d = 13)%nat -> fp_DegreeBits (cd_FriParams cd) = d -> RateBits (fp_Config (cd_FriParams cd)) = 3%nat -> NumQueryRounds (fp_Config (cd_FriParams cd)) = 28%nat ->
  ProofOfWorkBits (fp_Config (cd_FriParams cd)) = 16%nat ->
  NumChallenges (cd_Config cd) = 2%nat -> NumRoutedWires (cd_Config cd) = 80%nat -> NumWires (cd_Config cd) = 136%nat -> NumPartialProducts cd = 9%nat -> QuotientDegreeFactor cd = 8%nat ->
  (cd_NumConstants cd <= 100)%nat -> (NumGateConstraints cd <= 1000)%nat -> (E <= 100)%nat ->
  e = (7 * 2 ^ (d - 1) - 1)%nat -> NoDup gcoins -> Z.of_nat (length gcoins) = p -> Z.of_nat b = (p - 1) / 2 ^ Z.of_nat n + 1 ->
  sound_data cd gates -> degree_bound cd gates E ->
  length cs = cd_NumConstants cd -> length sigmas = NumRoutedWires (cd_Config cd) -> Forall (fun f => length f <= 2 ^ cd_DegreeBits cd + 1)%nat (cs ++ sigmas) ->
  ConstantSigmasCap vd = key_cap n (cs ++ sigmas) ->
  no_collision S -> (forall a, key_hashed n (cs ++ sigmas) a -> S a) ->
  asks G q -> NoDup ws -> (forall xs, In xs ws -> fs_wins cd gates vd cs sigmas S gcoins E e b G xs) ->
  (sumq (fs_probability cd gcoins E e b G) ws <= inject_Z (Z.of_nat (q + 5 + length (ReductionArityBits (cd_FriParams cd)))) * (1 # 2 ^ 39))%Q.
Proof.
  intros cd gates vd S gcoins E e b cs sigmas G q ws d n Hd Ed Hr Hq Hpow Hnc Hrw Hw Hpp Hqf Hc Hg HE He NDg HQg Hb SD DB Lcs Lsg HB KEY NC HK AQ NDw HW.
  assert (EN : n = (4 + (d - 1))%nat) by (unfold n, LdeBits; destruct Hd; lia).
  assert (P2 : (2 ^ d = 2 * 2 ^ (d - 1))%nat) by (rewrite <- Nat.pow_succ_r'; f_equal; destruct Hd; lia).
  assert (P1 : (1 <= 2 ^ (d - 1))%nat) by (pose proof (Nat.pow_nonzero 2 (d - 1)); lia).
  assert (PN : (2 ^ n = 16 * 2 ^ (d - 1))%nat) by (rewrite EN, Nat.pow_add_r; reflexivity).
  apply (C84_oracle cd gates vd S gcoins E e b cs sigmas (1 # 2 ^ 39) G q ws SD DB); try assumption.
  - fold n. fold d. lia.
  - apply (fibre gcoins n p b NDg); [intros x _; apply rep_range|reflexivity|exact Hb].
  - discriminate.
  - assert (T : (length (fst (Prop_Fri.layout cd) ++ snd (Prop_Fri.layout cd)) <= 400)%nat).
    { unfold Prop_Fri.layout. cbn [fst snd]. rewrite !app_length, !map_length, !seq_length. lia. }
    assert (CL : length (cells cd) = (80 * 2 ^ d)%nat) by (unfold cells; rewrite prod_length, !seq_length, Hpp, Hqf; apply Nat.mul_comm).
    pose proof (C82_count 16 gcoins ltac:(lia) NDg) as SM. change (2 ^ (64 - Z.of_nat 16)) with (2 ^ 48) in SM.
    intros L t Ht. apply scaled. unfold fs_levels in Ht. cbv zeta in Ht. rewrite Hnc, Hpp, Hq, Hpow in Ht. fold n in Ht. fold d in Ht. rewrite PN, CL in Ht.
    set (tt := length (fst (Prop_Fri.layout cd) ++ snd (Prop_Fri.layout cd))) in *. set (sm := length (small_responses 16 gcoins)) in *.
    assert (EX : Z.of_nat (length (map XExt (list_prod gcoins gcoins))) = p * p) by (rewrite map_length; etransitivity; [apply f_equal, prod_length|]; now rewrite Nat2Z.inj_mul, HQg).
    assert (E8 : forall m, Z.of_nat (2 ^ m) = 2 ^ Z.of_nat m) by (intros m; rewrite Nat2Z.inj_pow; reflexivity).
    assert (Bd : 2 ^ Z.of_nat (d - 1) <= 2 ^ 12) by (destruct Hd as [-> | ->]; discriminate).
    assert (B0 : 0 <= 2 ^ Z.of_nat (d - 1)) by (apply Z.pow_nonneg; lia).
    rewrite !in_app_iff in Ht. destruct Ht as [[Ht|[Ht|[Ht|[Ht|[]]]]]|[Ht|[Ht|[]]]].
    + apply pair_equal_spec in Ht. destruct Ht as [<- <-]. rewrite map_length, tuples_length. rewrite P2. rewrite !Nat2Z.inj_pow, !Nat2Z.inj_mul. rewrite (E8 (d - 1)%nat).
      assert (LP : Z.of_nat (length (list_prod gcoins gcoins)) = p * p) by (etransitivity; [apply f_equal, prod_length|]; now rewrite Nat2Z.inj_mul, HQg). rewrite LP, HQg.
      revert Bd B0. generalize (2 ^ Z.of_nat (d - 1)). clear. intros y Bd B0.
      apply Z.le_trans with ((Z.of_nat 2 * (Z.of_nat 80 * (Z.of_nat 2 * 2 ^ 12)) * p) ^ Z.of_nat 2 * 2 ^ 39); [|apply Z.leb_le; vm_compute; reflexivity].
      apply Z.mul_le_mono_nonneg_r; [discriminate|]. apply Z.pow_le_mono_l. split; [repeat apply Z.mul_nonneg_nonneg; try discriminate; exact B0|].
      apply Z.mul_le_mono_nonneg_r; [discriminate|]. repeat (apply Z.mul_le_mono_nonneg_l; [discriminate|]). exact Bd.
    + apply pair_equal_spec in Ht. destruct Ht as [<- <-]. rewrite map_length, tuples_length, !Nat2Z.inj_pow, HQg.
      assert (B4 : 0 <= Z.of_nat (2 + 2 * (9 + 1) + NumGateConstraints cd) <= 1022) by lia. revert B4. generalize (Z.of_nat (2 + 2 * (9 + 1) + NumGateConstraints cd)). clear. intros y B.
      apply Z.le_trans with (1022 ^ Z.of_nat 2 * 2 ^ 39); [|apply Z.leb_le; vm_compute; reflexivity]. apply Z.mul_le_mono_nonneg_r; [discriminate|]. now apply Z.pow_le_mono_l.
    + apply pair_equal_spec in Ht. destruct Ht as [<- <-]. rewrite EX, P2. rewrite !Nat2Z.inj_mul, E8. assert (B4 : 0 <= Z.of_nat E <= 100) by lia. revert Bd B0 B4. generalize (2 ^ Z.of_nat (d - 1)) (Z.of_nat E). clear. intros y z Bd B0 B.
      apply Z.le_trans with (100 * (Z.of_nat 2 * 2 ^ 12) * 2 ^ 39); [|apply Z.leb_le; vm_compute; reflexivity]. apply Z.mul_le_mono_nonneg_r; [discriminate|].
      apply Z.mul_le_mono_nonneg; [apply B|apply B|apply Z.mul_nonneg_nonneg; [discriminate|exact B0]|]. apply Z.mul_le_mono_nonneg_l; [discriminate|exact Bd].
    + apply pair_equal_spec in Ht. destruct Ht as [<- <-]. rewrite EX. rewrite !Nat2Z.inj_mul, E8. assert (B4 : 0 <= Z.of_nat (tt - 1) <= 400) by lia. revert Bd B0 B4. generalize (2 ^ Z.of_nat (d - 1)) (Z.of_nat (tt - 1)). clear. intros y z Bd B0 B.
      apply Z.le_trans with (400 * (Z.of_nat 16 * 2 ^ 12 * (Z.of_nat 16 * 2 ^ 12)) * 2 ^ 39); [|apply Z.leb_le; vm_compute; reflexivity]. apply Z.mul_le_mono_nonneg_r; [discriminate|].
      assert (Y : 0 <= Z.of_nat 16 * y <= Z.of_nat 16 * 2 ^ 12) by (split; [apply Z.mul_nonneg_nonneg; [discriminate|exact B0]|apply Z.mul_le_mono_nonneg_l; [discriminate|exact Bd]]).
      apply Z.mul_le_mono_nonneg; [apply B|apply B|apply Z.mul_nonneg_nonneg; apply Y|]. apply Z.mul_le_mono_nonneg; apply Y.
    + apply in_map_iff in Ht. destruct Ht as (j & Ht & Hj). apply pair_equal_spec in Ht. destruct Ht as [<- <-]. rewrite EX. rewrite !Nat2Z.inj_mul, E8.
      assert (Y : 0 <= 2 ^ Z.of_nat (n - 4 * Datatypes.S j) <= 2 ^ 16) by (split; [apply Z.pow_nonneg; lia|apply Z.pow_le_mono_r; [lia|]; rewrite EN; destruct Hd; lia]).
      revert Y. generalize (2 ^ Z.of_nat (n - 4 * Datatypes.S j)). clear. intros y Y.
      apply Z.le_trans with (Z.of_nat 15 * (2 ^ 16 * 2 ^ 16) * 2 ^ 39); [|apply Z.leb_le; vm_compute; reflexivity]. apply Z.mul_le_mono_nonneg_r; [discriminate|]. apply Z.mul_le_mono_nonneg_l; [discriminate|]. apply Z.mul_le_mono_nonneg; apply Y.
    + apply pair_equal_spec in Ht. destruct Ht as [<- <-]. rewrite map_length.
      assert (LP : Z.of_nat (length (list_prod gcoins (tuples 28 gcoins))) = p * p ^ Z.of_nat 28) by (etransitivity; [apply f_equal, prod_length|]; now rewrite Nat2Z.inj_mul, tuples_length, Nat2Z.inj_pow, HQg).
      rewrite LP. replace (16 * 2 ^ (d - 1) - e - 1)%nat with (9 * 2 ^ (d - 1))%nat by lia. rewrite Nat2Z.inj_mul, Nat2Z.inj_pow, !Nat2Z.inj_mul, E8, Hb.
      assert (S0 : 0 <= Z.of_nat sm) by apply Nat2Z.is_nonneg. revert SM S0. generalize (Z.of_nat sm). clear - Hd EN. rewrite EN. intros y SM S0.
      apply Z.le_trans with (2 ^ 48 * (Z.of_nat 9 * 2 ^ Z.of_nat (d - 1) * ((p - 1) / 2 ^ Z.of_nat (4 + (d - 1)) + 1)) ^ Z.of_nat 28 * 2 ^ 39).
      * apply Z.mul_le_mono_nonneg_r; [discriminate|]. apply Z.mul_le_mono_nonneg_r; [|exact SM]. clearbody d. destruct Hd as [-> | ->]; vm_compute; discriminate.
      * clearbody d. destruct Hd as [-> | ->]; apply Z.leb_le; vm_compute; reflexivity.
Qed.
Print Assumptions C84_testdata.

(** ** Examples
    The circuit of C82_ex, which no assignment satisfies, and its prover in one run with the
    oracle.  It wins whenever beta = 0 and the response to the proof of work is below 16. *)
Definition sg84 : list GF := [g0; root 3].
Definition st84 (xs : list chal) : message :=
  match xs with
  | [] => MStart h61 (p_wires (P81 sg84))
  | [_] => MCap (p_zs (P81 sg84) [] [])
  | [_; _] => MCap (p_quotients (P81 sg84) [] [] [])
  | [_; _; XExt z] => MOpenings (p_opens (P81 sg84) (mkChalK [] [] [] z))
  | [_; _; XExt z; XExt alpha] => MFinal (p_final (P81 sg84) (mkChalK [] [] [] z) alpha []) 0
  | _ => MCap []
  end.
Definition an84 (xs : list chal) : list FriQueryRound :=
  match xs with
  | [_; _; XExt z; XExt alpha; XQuery w [x]] => QueryRoundProofs (t_proof (p_answer (P81 sg84) (mkChalK [] [] [] z) alpha [] [rep x]))
  | _ => []
  end.
Definition G84 : adversary := one_run st84 an84 5 [].
Notation few84 := (map (fun j => inj (Z.of_nat j)) (seq 0 16)).
Notation draws84 := (list_prod gcoins81 (list_prod gcoins81 (list_prod gcoins81 (list_prod (list_prod gcoins81 gcoins81) (list_prod few84 few84))))).
Definition outcome84 (v : GF * (GF * (GF * ((GF * GF) * (GF * GF))))) : list chal :=
  let '(g, (a, (z, (alpha, (w, x))))) := v in [XPairs [(g0, g)]; XAlphas [a]; XExt (z, g1); XExt alpha; XQuery w [x]].
Lemma few84_in x : In x few84 -> 0 <= rep x < 16 /\ x = inj (rep x) /\ In x gcoins81.
Proof.
  intros H. apply in_map_iff in H. destruct H as (j & <- & Hj). apply in_seq in Hj. rewrite rep_inj_small by (unfold p; lia). split; [lia|]. split; [reflexivity|]. apply in_map_iff. exists j. split; [reflexivity|]. apply in_seq. lia.
Qed.
Lemma zero84 : In g0 gcoins81.
Proof. apply in_map_iff. exists 0%nat. split; [apply GF_eq; vm_compute; reflexivity|]. apply in_seq. lia. Qed.
Lemma one84 : In g1 gcoins81.
Proof. apply in_map_iff. exists 1%nat. split; [apply GF_eq; vm_compute; reflexivity|]. apply in_seq. lia. Qed.
Lemma levels84_length : length (fs_levels cd82 gcoins81 2 3 500) = 5%nat.
Proof. reflexivity. Qed.
Lemma convinces84 g a z alpha w x : In w few84 -> In x few84 ->
  convinces_of_falsehood cd82 g62 (vd81 sg84) cs62 [sg84] (fun _ => False) (trans st84 [] (outcome84 (g, (a, (z, (alpha, (w, x)))))))
    (an84 (outcome84 (g, (a, (z, (alpha, (w, x))))))).
Proof.
  intros Hw Hx. apply few84_in in Hw, Hx. destruct Hw as (Hw & _), Hx as (Hx & Ex & _). exists h61. split; [reflexivity|]. split; [exact unsat81|].
  assert (B : beats cd82 g62 h61 (vd81 sg84) (P82 sg84 w) (mkChalK [g0] [g] [a] (z, g1), (alpha, [], [rep x]))).
  { apply beats82; [lia|]. apply beats81; [cbn; lia|reflexivity| |exact Hx]. change (emb g0) with k0. ring. }
  destruct B as (_ & _ & _ & SB & SAT).
  exists (p_wires (P81 sg84)), [(g0, g)], (p_zs (P81 sg84) [] []), [a], (p_quotients (P81 sg84) [] [] []), (z, g1), (p_opens (P81 sg84) (mkChalK [] [] [] (z, g1))), alpha, [],
    (p_final (P81 sg84) (mkChalK [] [] [] (z, g1)) alpha []), 0, w, [x].
  split; [reflexivity|]. split; [repeat split; reflexivity|]. split; [exact SB|]. split.
  - intros i round c Hi Hc. destruct Hi as [E|[]]. apply (f_equal snd) in E. cbn [snd] in E. rewrite <- E in Hc. exact Hc.
  - change (t_indices (p_answer (P82 sg84 w) (mkChalK [g0] [g] [a] (z, g1)) alpha [] [rep x])) with [inj (rep x)] in SAT. rewrite <- Ex in SAT. exact SAT.
Qed.
Lemma coins84 v : In v draws84 -> forall i x, nth_error (outcome84 v) i = Some x -> In x (coins_at (fs_levels cd82 gcoins81 2 3 500) i).
Proof.
  destruct v as (g & a & z & alpha & w & x). intros H. apply in_prod_iff in H. destruct H as [Hg H]. apply in_prod_iff in H. destruct H as [Ha H]. apply in_prod_iff in H. destruct H as [Hz H].
  apply in_prod_iff in H. destruct H as [Hl H]. apply in_prod_iff in H. destruct H as [Hw Hx]. apply few84_in in Hw, Hx. destruct Hw as (_ & _ & Hw), Hx as (_ & _ & Hx).
  pose proof zero84 as H0. pose proof one84 as H1. revert Hg Ha Hz Hl Hw Hx H0 H1. unfold coins_at, fs_levels. generalize gcoins81. intros l Hg Ha Hz Hl Hw Hx H0 H1.
  intros [|[|[|[|[|i]]]]] y Hy; [..|destruct i; discriminate Hy]; injection Hy as <-; cbn [app nth fst length ReductionArityBits cd_FriParams cd82 seq map]; apply in_map_iff.
  - exists [(g0, g)]. split; [reflexivity|]. apply tuples_in. split; [reflexivity|]. constructor; [|constructor]. now apply in_prod_iff.
  - exists [a]. split; [reflexivity|]. apply tuples_in. split; [reflexivity|]. now repeat constructor.
  - exists (z, g1). split; [reflexivity|]. now apply in_prod_iff.
  - exists alpha. split; [reflexivity|]. exact Hl.
  - exists (w, [x]). split; [reflexivity|]. apply in_prod_iff. split; [exact Hw|]. apply tuples_in. split; [reflexivity|]. now repeat constructor.
Qed.
Lemma wins84 xs : In xs (map outcome84 draws84) -> fs_wins cd82 g62 (vd81 sg84) cs62 [sg84] (fun _ => False) gcoins81 2 3 500 G84 xs.
Proof.
  intros H. apply in_map_iff in H. destruct H as (v & <- & H). unfold fs_wins, G84. apply one_run_wins.
  - destruct v as (g & a & z & alpha & w & x). reflexivity.
  - now apply coins84.
  - destruct v as (g & a & z & alpha & w & x). apply convinces84; repeat (apply in_prod_iff in H; destruct H as [? H]); assumption.
Qed.
Lemma levels84 L t : In (L, t) (fs_levels cd82 gcoins81 2 3 500) -> (inject_Z (Z.of_nat t) <= (1 # 500) * inject_Z (Z.of_nat (length L)))%Q.
Proof.
  intros H. apply scaled. pose proof small82 as SM. assert (LG : Z.of_nat (length gcoins81) = 8000) by (unfold gcoins81; rewrite map_length, seq_length; reflexivity). revert H SM LG. unfold fs_levels.
  change (NumChallenges (cd_Config cd82)) with 1%nat. change (length (ReductionArityBits (cd_FriParams cd82))) with 0%nat. change (NumQueryRounds (fp_Config (cd_FriParams cd82))) with 1%nat.
  change (2 ^ LdeBits (cd_FriParams cd82))%nat with 16%nat. change (length (fst (Prop_Fri.layout cd82) ++ snd (Prop_Fri.layout cd82))) with 7%nat. change (length (cells cd82)) with 8%nat.
  change (NumPartialProducts cd82) with 0%nat. change (NumGateConstraints cd82) with 1%nat. change (2 ^ cd_DegreeBits cd82)%nat with 8%nat. change (ProofOfWorkBits (fp_Config (cd_FriParams cd82))) with 60%nat.
  cbv zeta. cbn [seq map app]. generalize gcoins81. intros l H SM LG. set (s := length (small_responses 60 l)) in *. clearbody s.
  assert (LP : Z.of_nat (length (list_prod l l)) = 64000000) by (etransitivity; [apply f_equal, prod_length|]; rewrite Nat2Z.inj_mul, LG; reflexivity).
  assert (LT : Z.of_nat (length (list_prod l (tuples 1 l))) = 64000000) by (etransitivity; [apply f_equal, prod_length|]; rewrite Nat2Z.inj_mul, tuples_length, Nat.pow_1_r, LG; reflexivity).
  destruct H as [H|[H|[H|[H|[H|[]]]]]]; apply pair_equal_spec in H; destruct H as [<- <-]; rewrite map_length; rewrite ?tuples_length; repeat rewrite Nat.pow_1_r; rewrite ?LP, ?LT, ?LG; try lia; match goal with |- _ <= ?x => change x with (Z.of_nat (length (list_prod l l))); rewrite LP end; lia.
Qed.
Example C84_ex :
  (forall xs, In xs (map outcome84 draws84) -> fs_wins cd82 g62 (vd81 sg84) cs62 [sg84] (fun _ => False) gcoins81 2 3 500 G84 xs /\
     (0 < fs_probability cd82 gcoins81 2 3 500 G84 xs)%Q) /\
  (sumq (fs_probability cd82 gcoins81 2 3 500 G84) (map outcome84 draws84) <= 10 * (1 # 500))%Q.
Proof.
  split.
  - intros xs H. apply wins84 in H. split; [exact H|]. destruct H as (mem & tau & r & E & _). refine (weight_pos message_dec chal_dec (fs_levels cd82 gcoins81 2 3 500) (verified (fs_levels cd82 gcoins81 2 3 500) G84) [] xs _). intros N. rewrite N in E. discriminate E.
  - refine (C84_oracle cd82 g62 (vd81 sg84) (fun _ => False) gcoins81 2 3 500 cs62 [sg84] (1 # 500) G84 5 (map outcome84 draws84) _ _ _ gcoins81_nodup _ eq_refl eq_refl _ eq_refl _ _ _ levels84 (one_run_asks _ _ 5 []) _ wins84).
    + split; [exact shape82_data|]. split; [reflexivity|]. split; [cbn; lia|]. split; [cbn; lia|]. repeat constructor.
    + split; [cbn; lia|]. intros [|j] Hj; [|cbn in Hj; lia]. cbn. lia.
    + cbn. lia.
    + apply (fibre gcoins81 4 8000 500 gcoins81_nodup); [|reflexivity|reflexivity]. intros x Hx. apply in_map_iff in Hx. destruct Hx as (j & <- & Hj). apply in_seq in Hj. rewrite rep_inj_small by (unfold p; lia). lia.
    + repeat constructor; cbn; lia.
    + intros a b [].
    + intros a (i & _ & H). exact H.
    + discriminate.
    + apply NoDup_map_in.
      * intros (g & a & z & alpha & w & x) (g' & a' & z' & alpha' & w' & x') _ _ X. unfold outcome84 in X. injection X as -> -> -> -> -> ->. reflexivity.
      * assert (NF : NoDup few84) by (apply NoDup_map_in; [|apply seq_NoDup]; intros a b Ha Hb X; apply in_seq in Ha; apply in_seq in Hb; apply (f_equal rep) in X; rewrite !rep_inj_small in X by (unfold p; lia); lia).
        repeat apply prod_nodup; try exact gcoins81_nodup; exact NF.
Qed.
