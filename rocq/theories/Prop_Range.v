(** * Properties C06, C07, C08, C57: range checker modes, deferred requests, the chip
      registry and the cost model. *)
From Coq Require Import String.
From Coq Require Import ZArith Lia List Bool Arith Permutation.
From Verif Require Import Zp Circuit Goldilocks RangeModes RangeProofs.
Import ListNotations.
Open Scope Z_scope.

(** ** C57: the cost model *)
(** for each request the least number of limbs is counted, plus table rows, one
    decomposition per request (or per limb) and the final check *)
Theorem C57_counts : forall w l, 0 < w -> Forall (fun q : Z * Z => 0 <= snd q) l ->
  exists ks, Forall2 (fun (q : Z * Z) k => 0 <= k /\ snd q <= w * k /\ forall k', 0 <= k' < k -> w * k' < snd q) l ks /\
    nbR1CSConstraints w l = 2 ^ w + zsum ks + Z.of_nat (length l) + 1 /\
    nbPLONKConstraints w l = 3 * 2 ^ w + 3 * zsum ks + zsum ks + 1.
Proof.
  intros w l Hw F. exists (map (fun q : Z * Z => decompSize (snd q) w) l). split.
  - induction F as [|q l Hq F IH]; cbn [map]; constructor; [|assumption].
    destruct (decompSize_spec (snd q) w Hq Hw) as [H1 H2].
    split; [now apply decompSize_nonneg|]. split; [assumption|].
    intros k' Hk. destruct (Z.lt_ge_cases (w * k') (snd q)) as [?|G]; [assumption|].
    specialize (H2 k' ltac:(lia) G). lia.
  - rewrite r1cs_eq, plonk_eq, !nbDecomposed_sum by lia. split; lia.
Qed.

(** the width returned is the first minimum over 2..17; less than 2^50 requests of at most
    2^10 bits keep the Go ints away from overflow *)
Theorem C57_first_minimum : forall l, Z.of_nat (length l) < 2 ^ 50 ->
  Forall (fun q : Z * Z => 0 <= snd q <= 2 ^ 10) l ->
  forall cost, cost = nbR1CSConstraints \/ cost = nbPLONKConstraints ->
  let w := optimalWidth cost l in
  2 <= w <= 17 /\ (forall j, 2 <= j <= 17 -> cost w l <= cost j l) /\ (forall j, 2 <= j < w -> cost w l < cost j l) /\
  (forall j, 2 <= j <= 17 -> 0 <= cost j l < MaxInt64).
Proof.
  intros l Hs F cost Hc.
  assert (R : forall j, 2 <= j <= 17 -> 0 <= cost j l < MaxInt64).
  { intros j Hj. pose proof (nbDecomposed_bound j l (2 ^ 10) ltac:(lia) ltac:(lia) F) as B.
    assert (N : 0 <= nbDecomposed j l).
    { apply nbDecomposed_nonneg; [lia|]. eapply Forall_impl; [|exact F]. cbv beta. lia. }
    pose proof (Z.pow_le_mono_r 2 j 17 ltac:(lia) ltac:(lia)) as P. pose proof (Z.pow_pos_nonneg 2 j ltac:(lia) ltac:(lia)).
    change (2 ^ 17) with 131072 in P. change (2 ^ 10) with 1024 in B. change (2 ^ 50) with 1125899906842624 in Hs.
    unfold MaxInt64. change (2 ^ 63) with 9223372036854775808.
    destruct Hc as [-> | ->]; rewrite ?r1cs_eq, ?plonk_eq by lia; lia. }
  destruct (optimalWidth_spec cost l) as (A & B & C).
  { exists 2. split; [lia|]. apply R. lia. }
  cbv zeta. auto.
Qed.

(** only the multiset of widths matters *)
Theorem C57_multiset : forall l l', Permutation (map snd l) (map snd l') ->
  forall w, nbR1CSConstraints w l = nbR1CSConstraints w l' /\ nbPLONKConstraints w l = nbPLONKConstraints w l' /\
  optimalWidth nbR1CSConstraints l = optimalWidth nbR1CSConstraints l' /\
  optimalWidth nbPLONKConstraints l = optimalWidth nbPLONKConstraints l'.
Proof.
  intros l l' P.
  assert (D : forall w, nbDecomposed w l = nbDecomposed w l').
  { intros w. rewrite !nbDecomposed_sum. rewrite <- !(map_map snd (fun n => decompSize n w)).
    apply zsum_perm. now apply Permutation_map. }
  assert (L : length l = length l').
  { rewrite <- (map_length snd l), <- (map_length snd l'). now apply Permutation_length. }
  assert (R : forall w, nbR1CSConstraints w l = nbR1CSConstraints w l')
    by (intros w; unfold nbR1CSConstraints; now rewrite D, L).
  assert (S : forall w, nbPLONKConstraints w l = nbPLONKConstraints w l')
    by (intros w; unfold nbPLONKConstraints; now rewrite D).
  intros w. split; [apply R|]. split; [apply S|].
  split; apply optimalWidth_ext; auto.
Qed.

(** monotone: a further request increases every cost, a wider request costs no less *)
Theorem C57_monotone : forall w l x n, 0 < w -> Forall (fun q : Z * Z => 0 <= snd q) l -> 0 <= n ->
  nbR1CSConstraints w l < nbR1CSConstraints w (l ++ [(x, n)]) /\
  nbPLONKConstraints w l <= nbPLONKConstraints w (l ++ [(x, n)]) /\
  (forall n', n <= n' -> nbR1CSConstraints w (l ++ [(x, n)]) <= nbR1CSConstraints w (l ++ [(x, n')]) /\
                         nbPLONKConstraints w (l ++ [(x, n)]) <= nbPLONKConstraints w (l ++ [(x, n')])).
Proof.
  intros w l x n Hw F Hn.
  assert (E : forall n, nbDecomposed w [(x, n)] = decompSize n w).
  { intros m. change [(x, m)] with (repeat (x, m) 1). rewrite nbDecomposed_repeat. cbn [Z.of_nat]. ring. }
  pose proof (decompSize_nonneg n w Hn Hw).
  rewrite !r1cs_eq, !plonk_eq, nbDecomposed_app, E, app_length by lia. cbn [length].
  split; [lia|]. split; [lia|]. intros n' Hn'. rewrite !r1cs_eq, !plonk_eq, !nbDecomposed_app, !E, !app_length by lia. cbn [length].
  assert (decompSize n w <= decompSize n' w); [|lia].
  destruct (decompSize_spec n' w ltac:(lia) Hw) as [H1 _]. apply decompSize_spec; [lia|lia| |lia].
  apply decompSize_nonneg; lia.
Qed.

Example C57_ex : optimalWidth nbR1CSConstraints [(5, 32); (7, 144); (1, 48)] = 4 /\
  nbR1CSConstraints 4 [(5, 32); (7, 144); (1, 48)] = 16 + (8 + 36 + 12) + 3 + 1 /\
  optimalWidth nbPLONKConstraints [(5, 32); (7, 144); (1, 48)] = 4.
Proof. vm_compute. auto. Qed.
Example C57_multiset_ex : Permutation (map snd [(5, 32); (7, 144); (1, 48)]) (map snd [(9, 48); (2, 32); (3, 144)]).
Proof. apply (Permutation_cons_app [48] [144] 32). apply (Permutation_cons_app [48] [] 144). apply Permutation_refl. Qed.

(** ** C07: deferred requests *)
Lemma rem_16 n : (Z.rem n EXPECTED_OPTIMAL_BASEWIDTH =? 0) = true <-> (16 | n).
Proof. rewrite Z.eqb_eq. unfold EXPECTED_OPTIMAL_BASEWIDTH. apply Z.rem_divide. discriminate. Qed.

Lemma forallb_rem l : forallb (fun q : Z * Z => Z.rem (snd q) EXPECTED_OPTIMAL_BASEWIDTH =? 0) l = true <->
  Forall (fun q => (16 | snd q)) l.
Proof.
  rewrite forallb_forall, Forall_forall. split; intros H q Hq; specialize (H q Hq); now apply rem_16.
Qed.

Lemma compile_play ubd api a evs cs : compile ubd api a evs = Some cs -> exists w, play ubd api evs start = Some w.
Proof. unfold compile. destruct (play ubd api evs start) as [w|]; [eauto|discriminate]. Qed.

(** Exactly when compilation in commit mode succeeds, and with which constraints: every
    request, in order, with gnark's base width. *)
Theorem C07_exact : forall ubd api a evs w, play ubd api evs start = Some w -> In (ENew a) evs ->
  chosen ubd api a = COMMIT_RANGE_CHECKER -> forall cs,
  compile ubd api a evs = Some cs <->
  foreign_first a evs = false /\ getOptimalBasewidth (api a) (requests a evs) = 16 /\
  Forall (fun q => (16 | snd q)) (requests a evs) /\
  cs = map (fun q => CLimbs (widthFor (gnarkType (api a)) (requests a evs)) (fst q) (snd q)) (requests a evs).
Proof.
  intros ubd api a evs w P H C cs. rewrite (compile_commit ubd api a evs w P H C).
  rewrite <- forallb_rem. unfold limbs_of_requests.
  destruct (foreign_first a evs); cbn [negb andb]; [split; [discriminate|intros (X & _); discriminate]|].
  destruct (Z.eqb_spec (getOptimalBasewidth (api a) (requests a evs)) EXPECTED_OPTIMAL_BASEWIDTH) as [E|E]; cbn [andb].
  - destruct (forallb _ _); [|split; [discriminate|intros (_ & _ & X & _); discriminate]].
    split; [intros X; injection X as <-; auto|]. intros (_ & _ & _ & ->). reflexivity.
  - split; [discriminate|]. intros (_ & X & _). contradiction.
Qed.

(** what C07 asks for *)
Theorem C07_deferred : forall ubd api a evs cs, compile ubd api a evs = Some cs -> In (ENew a) evs ->
  chosen ubd api a = COMMIT_RANGE_CHECKER -> frontendTyper (api a) = None \/ frontendTyper (api a) = Some (gnarkType (api a)) ->
  Forall (fun q => 0 <= snd q < 272) (requests a evs) -> Z.of_nat (length (requests a evs)) < 2 ^ 50 ->
  cs = map (fun q => CLimbs 16 (fst q) (snd q)) (requests a evs) /\
  Forall (fun q => (16 | snd q)) (requests a evs) /\
  let cost := match frontendTyper (api a) with Some SCS => nbPLONKConstraints | _ => nbR1CSConstraints end in
    (forall j, 2 <= j <= 17 -> cost 16 (requests a evs) <= cost j (requests a evs)) /\
    (forall j, 2 <= j < 16 -> cost 16 (requests a evs) < cost j (requests a evs)).
Proof.
  intros ubd api a evs cs K H C G F L. destruct (compile_play _ _ _ _ _ K) as [w P].
  apply (C07_exact ubd api a evs w P H C) in K. destruct K as (_ & O & A & ->).
  assert (B : widthFor (gnarkType (api a)) (requests a evs) = 16).
  { unfold getOptimalBasewidth, widthFor in *. destruct G as [G|G]; rewrite G in O.
    - destruct (gnarkType (api a)); [assumption|]. apply r1cs_plonk_16; [assumption| |assumption].
      rewrite Forall_forall in *. auto.
    - destruct (gnarkType (api a)); assumption. }
  rewrite B. split; [reflexivity|]. split; [assumption|].
  unfold getOptimalBasewidth in O. destruct (frontendTyper (api a)) as [[]|]; apply optimalWidth_16 in O; cbv zeta; tauto.
Qed.

(** every constraint of C07_deferred says exactly what was asked for *)
Theorem C07_constraint : forall x n, 0 < n <= 253 -> (16 | n) ->
  (holds (CLimbs 16 x n) <-> 0 <= x < 2 ^ n).
Proof. intros x n Hn Hd. apply holds_limbs_small; [lia|assumption|assumption]. Qed.
(** and the alignment is needed: a 40 bit request would let 48 bits through *)
Theorem C07_unaligned : forall x, 0 <= x < 2 ^ 48 -> holds (CLimbs 16 x 40).
Proof.
  intros x Hx. apply holds_limbs; [lia| |exact (proj2 Hx)].
  assert (2 ^ 48 < r) by reflexivity. unfold inr_. lia.
Qed.

(** A circuit must be big: with fewer than 65281 limbs of 16 bits compilation panics. *)
Theorem C07_small_panics : forall ubd api a evs, In (ENew a) evs -> chosen ubd api a = COMMIT_RANGE_CHECKER ->
  frontendTyper (api a) = None -> Forall (fun q => 0 <= snd q) (requests a evs) ->
  zsum (map (fun q => decompSize (snd q) 16) (requests a evs)) <= 65280 -> compile ubd api a evs = None.
Proof.
  intros ubd api a evs H C G F L. destruct (compile ubd api a evs) as [cs|] eqn:K; [|reflexivity]. exfalso.
  destruct (compile_play _ _ _ _ _ K) as [w P].
  apply (C07_exact ubd api a evs w P H C) in K. destruct K as (_ & O & _).
  unfold getOptimalBasewidth in O. rewrite G in O. apply optimalWidth_16 in O. destruct O as (_ & O & _).
  specialize (O 8 ltac:(lia)). rewrite !r1cs_eq in O by lia.
  pose proof (nbDecomposed_8_16 _ F) as D. rewrite <- nbDecomposed_sum in L.
  change (2 ^ 16) with 65536 in O. change (2 ^ 8) with 256 in O. lia.
Qed.

(** the order of New is essential: had gnark's checker been created first, compilation
    would always panic instead of dropping requests *)
Theorem C07_foreign_panics : forall ubd api a evs, In (ENew a) evs -> chosen ubd api a = COMMIT_RANGE_CHECKER ->
  foreign_first a evs = true -> compile ubd api a evs = None.
Proof.
  intros ubd api a evs H C G. destruct (compile ubd api a evs) as [cs|] eqn:K; [|reflexivity]. exfalso.
  destruct (compile_play _ _ _ _ _ K) as [w P].
  apply (C07_exact ubd api a evs w P H C) in K. destruct K as (X & _). congruence.
Qed.

(** an R1CS or PLONK builder of gnark *)
Definition gnark_builder (t : ftype) : Api := mkApi false true None t.
Definition plain_builder : Api := mkApi false false None R1CS.
Definition native_builder : Api := mkApi true true None R1CS.

Lemma repeat_16 x k : 63488 < k <= 2 ^ 40 ->
  optimalWidth nbR1CSConstraints (repeat (x, 32) (Z.to_nat k)) = 16.
Proof.
  intros Hk. change (2 ^ 40) with 1099511627776 in Hk.
  assert (E : forall j, 2 <= j <= 17 -> nbR1CSConstraints j (repeat (x, 32) (Z.to_nat k)) = 2 ^ j + k * decompSize 32 j + k + 1).
  { intros j Hj. rewrite r1cs_eq, nbDecomposed_repeat, repeat_length, Z2Nat.id by lia. reflexivity. }
  assert (A : forall j, 2 <= j < 16 -> 2 ^ 16 + k * decompSize 32 16 + k + 1 < 2 ^ j + k * decompSize 32 j + k + 1).
  { intros j Hj. assert (J : In j [2; 3; 4; 5; 6; 7; 8; 9; 10; 11; 12; 13; 14; 15]) by (cbn [In]; lia).
    cbn [In] in J. repeat (destruct J as [<-|J]; [vm_compute (2 ^ _); vm_compute (decompSize _ _); lia|]). destruct J. }
  apply optimalWidth_unique.
  - exists 16. split; [lia|]. rewrite E by lia. change (2 ^ 16) with 65536.
    change (decompSize 32 16) with 2. change MaxInt64 with 9223372036854775807. lia.
  - lia.
  - intros j Hj. rewrite !E by lia. destruct (Z.eq_dec j 16) as [->|N16]; [lia|].
    destruct (Z.eq_dec j 17) as [->|N17]; [|specialize (A j ltac:(lia)); lia].
    change (2 ^ 16) with 65536. change (2 ^ 17) with 131072.
    change (decompSize 32 16) with 2. change (decompSize 32 17) with 2. lia.
  - intros j Hj. rewrite !E by lia. now apply A.
Qed.

(** the hypotheses are met: 70000 requests of 32 bits compile, for either kind of builder *)
Example C07_ex : forall t, let evs := ENew 0%nat :: map (fun q => ECheck 0%nat (fst q) (snd q)) (repeat (7, 32) (Z.to_nat 70000)) in
  compile false (fun _ => gnark_builder t) 0%nat evs =
  Some (map (fun q => CLimbs 16 (fst q) (snd q)) (repeat (7, 32) (Z.to_nat 70000))).
Proof.
  intros t evs.
  assert (R : requests 0%nat evs = repeat (7, 32) (Z.to_nat 70000)) by apply requests_define.
  assert (O : optimalWidth nbR1CSConstraints (repeat (7, 32) (Z.to_nat 70000)) = 16) by (apply repeat_16; lia).
  destruct (play_define false (fun _ => gnark_builder t) 0%nat (repeat (7, 32) (Z.to_nat 70000))) as [w P].
  specialize (P ltac:(discriminate)). fold evs in P.
  apply (C07_exact _ _ _ _ _ P); [now left|reflexivity|]. rewrite R.
  split; [reflexivity|]. split; [exact O|]. split.
  - apply Forall_forall. intros q Hq. apply repeat_spec in Hq. subst q. now exists 2.
  - assert (O' : widthFor (gnarkType (gnark_builder t)) (repeat (7, 32) (Z.to_nat 70000)) = 16).
    { destruct t; [exact O|]. apply r1cs_plonk_16; [| |exact O].
      - rewrite repeat_length, Z2Nat.id by lia. reflexivity.
      - apply Forall_forall. intros q Hq. apply repeat_spec in Hq. subst q. split; [cbn [snd]; lia|now exists 2]. }
    now rewrite O'.
Qed.
(** a circuit with a single check is too small *)
Example C07_small_ex : let evs := [ENew 0%nat; ECheck 0%nat 7 32] in
  In (ENew 0%nat) evs /\ chosen false (fun _ => gnark_builder R1CS) 0%nat = COMMIT_RANGE_CHECKER /\ frontendTyper (gnark_builder R1CS) = None /\
  zsum (map (fun q => decompSize (snd q) 16) (requests 0%nat evs)) = 2 /\ compile false (fun _ => gnark_builder R1CS) 0%nat evs = None.
Proof. cbv zeta. split; [now left|]. do 3 (split; [reflexivity|]). apply C07_small_panics; [now left|reflexivity|reflexivity| |discriminate]. repeat constructor. discriminate. Qed.
(** a range check of gnark's own before the chip exists *)
Example C07_foreign_ex : foreign_first 0%nat [EForeign 0%nat; ENew 0%nat] = true /\ foreign_first 0%nat [ENew 0%nat; EForeign 0%nat] = false.
Proof. split; reflexivity. Qed.

(** Without the bound on the widths C07 fails for PLONK builders: the chip evaluates the
    R1CS cost function for every gnark builder, gnark the PLONK one.  Here the chip sees
    the optimum 16 and gnark takes 17, so that the 32 bit request admits 34 bits. *)
Theorem C07_scs_refuted : exists l, let evs := ENew 0%nat :: map (fun q => ECheck 0%nat (fst q) (snd q)) l in
  In (2 ^ 33, 32) l /\
  exists cs, compile false (fun _ => gnark_builder SCS) 0%nat evs = Some cs /\ Forall holds cs.
Proof.
  set (m := Z.to_nat 60000). set (l := (2 ^ 33, 32) :: repeat (0, 272) m). exists l. intros evs.
  assert (R : requests 0%nat evs = l) by apply requests_define.
  assert (D : forall j, nbDecomposed j l = decompSize 32 j + 60000 * decompSize 272 j).
  { intros j. unfold l. change ((2 ^ 33, 32) :: repeat (0, 272) m) with ([(2 ^ 33, 32)] ++ repeat (0, 272) m).
    rewrite nbDecomposed_app, nbDecomposed_repeat. unfold m. rewrite Z2Nat.id by lia.
    change [(2 ^ 33, 32)] with (repeat (2 ^ 33, 32) 1). rewrite nbDecomposed_repeat. cbn [Z.of_nat]. ring. }
  assert (L : Z.of_nat (length l) = 60001).
  { unfold l. cbn [length]. rewrite repeat_length, Nat2Z.inj_succ. unfold m. rewrite Z2Nat.id by lia. reflexivity. }
  clearbody m.
  assert (O : optimalWidth nbR1CSConstraints l = 16).
  { rewrite (optimalWidth_ext _ (fun j _ => 2 ^ j + (decompSize 32 j + 60000 * decompSize 272 j) + 60001 + 1) l []);
      [vm_compute; reflexivity|]. intros j Hj. rewrite r1cs_eq, D, L by lia. reflexivity. }
  assert (O' : optimalWidth nbPLONKConstraints l = 17).
  { rewrite (optimalWidth_ext _ (fun j _ => 3 * 2 ^ j + 4 * (decompSize 32 j + 60000 * decompSize 272 j) + 1) l []);
      [vm_compute; reflexivity|]. intros j Hj. rewrite plonk_eq, D by lia. reflexivity. }
  split; [now left|].
  destruct (play_define false (fun _ => gnark_builder SCS) 0%nat l) as [w P].
  specialize (P ltac:(discriminate)). fold evs in P.
  exists (map (fun q => CLimbs 17 (fst q) (snd q)) l). split.
  - apply (C07_exact _ _ _ _ _ P); [now left|reflexivity|]. rewrite R.
    split; [reflexivity|]. split; [exact O|]. split.
    + unfold l. constructor; [now exists 2|]. apply Forall_forall. intros q Hq. apply repeat_spec in Hq. subst q. now exists 17.
    + change (widthFor (gnarkType (gnark_builder SCS)) l) with (optimalWidth nbPLONKConstraints l). now rewrite O'.
  - apply Forall_map. unfold l. constructor; cbn [fst snd].
    + apply holds_limbs; [lia|split; [lia|reflexivity]|reflexivity].
    + apply Forall_forall. intros q Hq. apply repeat_spec in Hq. subst q. cbn [fst snd].
      apply holds_limbs; [lia|split; [lia|reflexivity]|reflexivity].
Qed.

(** ** C08: registry *)
Lemma step_keys ubd api e w w' : step ubd api e w = Some w' -> NoDup (map fst (chips w)) -> NoDup (map fst (chips w')).
Proof.
  destruct e as [a|a x n|a]; cbn [step].
  - intros E H. injection E as <-. unfold New. destruct (lookup a (chips w)); [assumption|]. cbn [chips]. now apply update_keys.
  - unfold rangeCheckerCheck. destruct (lookup a (chips w)) as [p|]; [|discriminate]. destruct (ctype p).
    + intros E. now injection E as <-.
    + intros E H. injection E as <-. cbn [chips]. now apply update_keys.
    + destruct (bitDecomp_Check x n (builders w a)); [|discriminate]. intros E. now injection E as <-.
  - intros E. now injection E as <-.
Qed.

Lemma play_keys ubd api evs : forall w w', play ubd api evs w = Some w' -> NoDup (map fst (chips w)) -> NoDup (map fst (chips w')).
Proof.
  induction evs as [|e evs IH]; intros w w' P H; cbn [play] in P; [now injection P as <-|].
  destruct (step ubd api e w) as [w1|] eqn:S; [|discriminate]. eauto using step_keys.
Qed.

Lemma lookup_none_play ubd api a evs : forall w w', play ubd api evs w = Some w' -> ~ In (ENew a) evs ->
  lookup a (chips w) = None -> lookup a (chips w') = None /\ requests a evs = [].
Proof.
  induction evs as [|e evs IH]; intros w w' P H L; cbn [play] in P; [injection P as <-; auto|].
  destruct (step ubd api e w) as [w1|] eqn:S; [|discriminate].
  assert (H' : ~ In (ENew a) evs) by (intros X; apply H; now right).
  destruct (Nat.eq_dec (of_event e) a) as [Ea|Ea].
  - destruct e as [b|b x n|b]; cbn [of_event] in Ea; subst b.
    + exfalso. apply H. now left.
    + cbn [step] in S. unfold rangeCheckerCheck in S. rewrite L in S. discriminate.
    + cbn [step] in S. injection S as <-. cbn [requests]. eapply IH; eauto.
  - pose proof (step_other ubd api a e w w1 Ea S) as E. injection E as E1 _.
    destruct (IH w1 w' P H' ltac:(congruence)) as [I1 I2]. split; [assumption|].
    destruct e as [b|b x n|b]; cbn [requests]; try assumption. cbn [of_event] in Ea.
    destruct (Nat.eqb_spec a b); [congruence|assumption].
Qed.

(** How often checkCollected has been deferred. *)
Definition times_deferred (a : api_id) (w : World) : nat :=
  length (filter (fun cb => match cb with CheckCollected => true | GnarkCommit => false end) (deferred (builders w a))).

(** After any program: at most one chip per api; the chip of [a] exists iff New was called
    with [a]; it has collected the requests of [a], all of them, in order and no others; and
    checkCollected has been deferred exactly once. *)
Theorem C08_registry : forall ubd api evs w, play ubd api evs start = Some w ->
  NoDup (map fst (chips w)) /\
  (forall a, ~ In (ENew a) evs -> lookup a (chips w) = None /\ requests a evs = []) /\
  (forall a, In (ENew a) evs -> exists c, lookup a (chips w) = Some c /\ ctype c = chosen ubd api a /\
     (chosen ubd api a = COMMIT_RANGE_CHECKER ->
        collected c = requests a evs /\ times_deferred a w = 1%nat) /\
     (chosen ubd api a <> COMMIT_RANGE_CHECKER -> collected c = [] /\ times_deferred a w = 0%nat)).
Proof.
  intros ubd api evs w P. split; [|split].
  - eapply play_keys; [exact P|constructor].
  - intros a H. eapply lookup_none_play; eauto.
  - intros a H. destruct (own_shape ubd api a evs w P H) as (k & post & w0 & w1 & _ & F & Rq & Ff & P0 & P1 & E).
    pose proof (after_new ubd api a k w0 P0) as A. unfold times_deferred. injection E as E1 E2. rewrite E1, E2.
    destruct (chosen ubd api a) eqn:C.
    + assert (R : isRangechecker (api a) = true).
      { unfold chosen, gnarkRangeCheckerSelector in C. destruct ubd; [discriminate|].
        destruct (isRangechecker (api a)); [reflexivity|]. destruct (isCommitter (api a)); discriminate. }
      destruct (play_native ubd api a post R _ _ F A) as (w' & Q1 & Q2). rewrite P1 in Q1. injection Q1 as <-.
      rewrite A in Q2. injection Q2 as B1 B2. rewrite B1, B2. eexists. split; [reflexivity|].
      split; [reflexivity|]. split; [discriminate|auto].
    + assert (Rd : ready (fresh_commit k)) by (unfold fresh_commit; destruct (Nat.eqb k 0); exact I).
      pose proof (play_commit ubd api a post _ _ _ _ F A Rd P1) as B. cbn [app] in B. rewrite Rq in B.
      injection B as B1 B2. rewrite B1, B2. eexists. split; [reflexivity|]. split; [reflexivity|].
      split; [|congruence]. intros _. split; [reflexivity|].
      unfold fresh_commit. destruct (Nat.eqb k 0); reflexivity.
    + destruct (play_bits ubd api a post _ _ F A) as [I1 I2].
      destruct (Forall_dec (fun q : checkedVariable => 0 < snd q) (fun q => Z_lt_dec 0 (snd q)) (requests a post)) as [G|G];
        [|rewrite (I2 G) in P1; discriminate].
      destruct (I1 G) as (w' & b' & Q1 & Q2 & Q3 & Q4 & Q5). rewrite P1 in Q1. injection Q1 as <-.
      injection Q2 as B1 B2. rewrite B1, B2. eexists. split; [reflexivity|]. split; [reflexivity|].
      split; [discriminate|]. intros _. split; [reflexivity|].
      set (b0 := if Nat.eqb k 0 then fresh else rangecheck_New (api a) fresh) in *.
      assert (B0 : deferred b0 = [] \/ deferred b0 = [GnarkCommit]).
      { unfold b0, rangecheck_New, Defer, fresh. destruct (Nat.eqb k 0); [cbn; auto|].
        destruct (isRangechecker (api a)), (isCommitter (api a)); cbn; auto. }
      destruct Q4 as [-> | [_ ->]]; destruct B0 as [-> | ->]; reflexivity.
Qed.

(** a second New changes nothing *)
Theorem C08_same_chip : forall ubd api a w, New ubd api a (New ubd api a w) = New ubd api a w.
Proof.
  intros ubd api a w. unfold New at 1. assert (H : lookup a (chips (New ubd api a w)) <> None).
  { unfold New. destruct (lookup a (chips w)) eqn:L; [rewrite L; discriminate|]. cbn [chips].
    rewrite lookup_update, Nat.eqb_refl. discriminate. }
  destruct (lookup a (chips (New ubd api a w))); [reflexivity|congruence].
Qed.

(** other apis have no influence: the compilation of [a] depends on the events of [a] only,
    whatever the interleaving *)
Theorem C08_isolated : forall ubd api a evs evs' w w',
  play ubd api evs start = Some w -> play ubd api evs' start = Some w' ->
  filter (fun e => Nat.eqb (of_event e) a) evs = filter (fun e => Nat.eqb (of_event e) a) evs' ->
  compile ubd api a evs = compile ubd api a evs'.
Proof.
  intros ubd api a evs evs' w w' P P' E. rewrite (compile_own ubd api a evs w P), (compile_own ubd api a evs' w' P').
  unfold own. now rewrite E.
Qed.

Example C08_ex : exists w, play false (fun a => if Nat.eqb a 0 then gnark_builder R1CS else plain_builder)
    [ENew 0%nat; ENew 1%nat; ECheck 0%nat 5 32; ECheck 1%nat 6 32; ENew 0%nat; ECheck 1%nat 7 64; ECheck 0%nat 8 144] start = Some w /\
  lookup 0%nat (chips w) = Some (mkChip COMMIT_RANGE_CHECKER [(5, 32); (8, 144)]) /\
  deferred (builders w 0%nat) = [CheckCollected; GnarkCommit] /\
  emitted (builders w 1%nat) = [CBits 6 32; CBits 7 64] /\ deferred (builders w 1%nat) = [].
Proof. eexists. split; [reflexivity|]. vm_compute. auto. Qed.
(** two programs that differ in what they do with another builder only *)
Example C08_isolated_ex : let evs := [ENew 0%nat; ENew 1%nat; ECheck 1%nat 9 8; ECheck 0%nat 7 32] in let evs' := [ENew 0%nat; ECheck 0%nat 7 32] in
  let api := fun _ : nat => plain_builder in
  (exists w, play false api evs start = Some w) /\ (exists w, play false api evs' start = Some w) /\
  filter (fun e => Nat.eqb (of_event e) 0) evs = filter (fun e => Nat.eqb (of_event e) 0) evs' /\ compile false api 0%nat evs = Some [CBits 7 32].
Proof. cbv zeta. do 2 (split; [eexists; reflexivity|]). split; reflexivity. Qed.

(** ** C06: modes *)
(** bit decomposition: the circuit accepts exactly what Circuit.v says, which is what all
    other theorems are about *)
Theorem C06_bits : forall ubd api a, chosen ubd api a = BIT_DECOMP_RANGE_CHECKER ->
  forall A (c : circ A) v, widths_ok c -> (accepts ubd api a c v <-> reach c v).
Proof.
  intros ubd api a C A c v W. rewrite reach_traces. unfold accepts. split.
  - intros (l & cs & T & K & F). exists l. split; [assumption|].
    destruct (compile_play _ _ _ _ _ K) as [w P].
    destruct (compile_bits ubd api a _ w P ltac:(now left) C) as [K' _]. rewrite requests_define, K in K'. injection K' as ->.
    unfold bits_of_requests in F. rewrite Forall_map in F.
    pose proof (widths_traces c W v l T) as Wl. rewrite Forall_forall in *. intros q Hq.
    apply holds_bits_small; [exact (Wl q Hq)|exact (F q Hq)].
  - intros (l & T & F). pose proof (widths_traces c W v l T) as Wl.
    destruct (play_define ubd api a l) as [w P].
    specialize (P ltac:(intros _; eapply Forall_impl; [|exact Wl]; cbv beta; lia)).
    destruct (compile_bits ubd api a _ w P ltac:(now left) C) as [K' _]. rewrite requests_define in K'.
    exists l, (bits_of_requests l). split; [assumption|]. split; [assumption|].
    unfold bits_of_requests. apply Forall_map. rewrite Forall_forall in *. intros q Hq.
    apply holds_bits_small; [exact (Wl q Hq)|exact (F q Hq)].
Qed.

(** commit: the same, where the circuit compiles *)
Theorem C06_commit : forall ubd api a, chosen ubd api a = COMMIT_RANGE_CHECKER ->
  frontendTyper (api a) = None \/ frontendTyper (api a) = Some (gnarkType (api a)) ->
  forall A (c : circ A) v, widths_ok c ->
  (forall l, traces c v l -> Z.of_nat (length l) < 2 ^ 50) ->
  (accepts ubd api a c v <->
   exists l, traces c v l /\ Forall (fun q => 0 <= fst q < 2 ^ snd q) l /\
     getOptimalBasewidth (api a) l = 16 /\ Forall (fun q => (16 | snd q)) l).
Proof.
  intros ubd api a C G A c v W S. unfold accepts. split.
  - intros (l & cs & T & K & F). exists l. split; [assumption|].
    pose proof (widths_traces c W v l T) as Wl.
    destruct (compile_play _ _ _ _ _ K) as [w P].
    destruct (proj1 (C07_exact ubd api a _ w P ltac:(now left) C cs) K) as (_ & O & Al & _).
    destruct (C07_deferred ubd api a _ cs K ltac:(now left) C G) as (-> & _ & _);
      rewrite ?requests_define in *; [eapply Forall_impl; [|exact Wl]; cbv beta; lia|now apply S|].
    split; [|auto]. rewrite Forall_map in F. rewrite Forall_forall in *. intros q Hq.
    apply C07_constraint; [exact (Wl q Hq)|exact (Al q Hq)|exact (F q Hq)].
  - intros (l & T & F & O & Al). pose proof (widths_traces c W v l T) as Wl.
    destruct (play_define ubd api a l) as [w P]. specialize (P ltac:(rewrite C; discriminate)).
    pose proof (C07_exact ubd api a _ w P ltac:(now left) C) as X. rewrite requests_define in X.
    assert (ff : foreign_first a (ENew a :: map (fun q => ECheck a (fst q) (snd q)) l) = false)
      by (cbn [foreign_first]; now rewrite Nat.eqb_refl).
    pose proof (proj2 (X _) (conj ff (conj O (conj Al eq_refl)))) as K.
    eexists l, _. split; [assumption|]. split; [exact K|].
    destruct (C07_deferred ubd api a _ _ K ltac:(now left) C G) as (E & _ & _);
      rewrite ?requests_define in *; [eapply Forall_impl; [|exact Wl]; cbv beta; lia|now apply S|].
    rewrite E. apply Forall_map. rewrite Forall_forall in *. intros q Hq.
    apply C07_constraint; [exact (Wl q Hq)|exact (Al q Hq)|exact (F q Hq)].
Qed.

(** so a circuit that compiles in commit mode accepts nothing that bit decomposition
    rejects, and the other way round *)
Theorem C06_partial : forall ubd api a b, chosen ubd api a = COMMIT_RANGE_CHECKER ->
  chosen ubd api b = BIT_DECOMP_RANGE_CHECKER ->
  frontendTyper (api a) = None \/ frontendTyper (api a) = Some (gnarkType (api a)) ->
  forall A (c : circ A), widths_ok c -> (forall v l, traces c v l -> Z.of_nat (length l) < 2 ^ 50) ->
  (** compilation succeeds: a matter of the widths, the same for every witness *)
  (forall v l, traces c v l -> getOptimalBasewidth (api a) l = 16 /\ Forall (fun q => (16 | snd q)) l) ->
  forall v, accepts ubd api a c v <-> accepts ubd api b c v.
Proof.
  intros ubd api a b Ca Cb G A c W S K v. rewrite (C06_bits ubd api b Cb A c v W), reach_traces.
  rewrite (C06_commit ubd api a Ca G A c v W (S v)). split.
  - intros (l & T & F & _). eauto.
  - intros (l & T & F). destruct (K v l T). eauto.
Qed.

(** In native mode nothing is enforced: RangeCheck accepts every field element, MulAdd
    returns whatever the prover likes. *)
Theorem C06_native : forall ubd api a, chosen ubd api a = NATIVE_RANGE_CHECKER ->
  forall A (c : circ A) v, accepts ubd api a c v <-> exists l, traces c v l.
Proof.
  intros ubd api a C A c v. unfold accepts. split; [intros (l & cs & T & _); eauto|].
  intros (l & T). destruct (play_define ubd api a l) as [w P]. specialize (P ltac:(rewrite C; discriminate)).
  exists l, []. split; [assumption|]. split; [|constructor].
  apply (compile_native ubd api a _ w P); [now left|assumption].
Qed.
Theorem C06_native_RangeCheck : forall ubd api a x, chosen ubd api a = NATIVE_RANGE_CHECKER -> 0 <= x < r ->
  accepts ubd api a (RangeCheck x) tt.
Proof. intros ubd api a x C Hx. apply C06_native; [assumption|]. eexists. now apply traces_RangeCheck_any. Qed.
Theorem C06_native_MulAdd : forall ubd api a x y z v, chosen ubd api a = NATIVE_RANGE_CHECKER -> 0 <= v < r ->
  accepts ubd api a (MulAdd x y z) v.
Proof. intros ubd api a x y z v C Hv. apply C06_native; [assumption|]. now apply traces_MulAdd_any. Qed.

Lemma widths_RangeCheck x : widths_ok (RangeCheck x).
Proof.
  unfold widths_ok, RangeCheck, hint_, nth_, of_opt. cbn [bind all_widths]. intros h.
  destruct (nth_error h 0) as [u|]; [|exact I]. cbn [bind]. destruct (nth_error h 1) as [v|]; [|exact I].
  cbn [bind]. unfold api_assert_eq, range_, api_select, assert_. cbn [bind all_widths]. repeat split; lia.
Qed.

(** C06 as stated is false: the native mode accepts p, the others do not *)
Theorem C06_refuted : exists (c : circ unit) (api : api_id -> Api) (a b : api_id),
  accepts false api a c tt /\ ~ accepts false api b c tt /\
  (exists w, play false api [ENew a; ENew b] start = Some w).
Proof.
  exists (RangeCheck MODULUS), (fun a => if Nat.eqb a 0 then native_builder else plain_builder), 0%nat, 1%nat.
  split; [|split; [|eexists; reflexivity]].
  - apply C06_native_RangeCheck; [reflexivity|]. split; [discriminate|reflexivity].
  - intros H. apply C06_bits in H; [|reflexivity|apply widths_RangeCheck].
    apply reach_traces in H. destruct H as (l & T & F).
    assert (R : reach (RangeCheck MODULUS) tt) by (apply reach_traces; eauto).
    revert R. unfold RangeCheck, hint_, nth_, of_opt. cbn [bind reach].
    intros (h & Lh & Fh & R). destruct h as [|u [|v [|? ?]]]; try discriminate Lh.
    cbn [nth_error bind] in R. unfold api_assert_eq, range_, api_select, assert_ in R. cbn [bind reach] in R.
    destruct R as (E & Hu & Hv & _ & Z0 & _). apply Z.eqb_eq in E. apply Z.eqb_eq in Z0.
    unfold api_add, api_mul in E. rewrite Zplus_mod_idemp_l in E.
    assert (B : 2 ^ 64 < r) by reflexivity. change (2 ^ 64) with (2 ^ 32 * 2 ^ 32) in B.
    change (2 ^ 32) with 4294967296 in *. rewrite Z.mod_small in E by lia.
    unfold MODULUS in E. assert (u = 4294967295) by lia. assert (v = 1) by lia. subst u v.
    vm_compute in Z0. discriminate.
Qed.

Example C06_bits_ex : accepts false (fun _ => plain_builder) 0%nat (RangeCheck (MODULUS - 1)) tt.
Proof.
  apply C06_bits; [reflexivity|apply widths_RangeCheck|]. apply (exec_reach _ []). vm_compute. reflexivity.
Qed.

(** a circuit that compiles in commit mode *)
Example C06_commit_ex : forall t, accepts false (fun _ => gnark_builder t) 0%nat
  (iterM (fun _ => RangeCheckWithMaxBits 7 32) (repeat tt (Z.to_nat 70000))) tt.
Proof.
  intros t. eexists _, _. split; [|split; [apply C07_ex|]].
  - generalize (Z.to_nat 70000). intros n. induction n as [|n IH]; cbn [repeat iterM]; [split; reflexivity|].
    unfold RangeCheckWithMaxBits at 1, range_. cbn [bind traces]. eexists. split; [reflexivity|]. exact IH.
  - apply Forall_map, Forall_forall. intros q Hq. apply repeat_spec in Hq. subst q. cbn [fst snd].
    apply C07_constraint; [lia|now exists 2|split; [lia|reflexivity]].
Qed.

Print Assumptions C57_counts.
Print Assumptions C57_first_minimum.
Print Assumptions C57_multiset.
Print Assumptions C57_monotone.
Print Assumptions C07_exact.
Print Assumptions C07_deferred.
Print Assumptions C07_constraint.
Print Assumptions C07_unaligned.
Print Assumptions C07_small_panics.
Print Assumptions C07_foreign_panics.
Print Assumptions C07_scs_refuted.
Print Assumptions C08_registry.
Print Assumptions C08_same_chip.
Print Assumptions C08_isolated.
Print Assumptions C06_bits.
Print Assumptions C06_commit.
Print Assumptions C06_partial.
Print Assumptions C06_native.
Print Assumptions C06_native_RangeCheck.
Print Assumptions C06_native_MulAdd.
Print Assumptions C06_refuted.
