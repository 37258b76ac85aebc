(** * Further facts about the FRI verifier used by the statements of Prop_Fri. *)
From Coq Require Import String.
From Coq Require Import ZArith NArith Lia List Bool Ring Field.
From Verif Require Import Zp GF Circuit Sponge Goldilocks GLProofs ExtProofs BN254 BN254Hash Types Challenger Fri Poly Roots FriMerkle FriEval FriQuery FriTop.
Import ListNotations.
Open Scope Z_scope.
Open Scope circ_scope.
Local Opaque PoseidonBN.

(** ** HashOrNoop *)

Lemma HashOrNoop_range x : inr_ (HashOrNoop x).
Proof.
  unfold HashOrNoop. destruct (Nat.leb (length x) 3); [apply pack_range|].
  unfold HashNoPadBN. fold (absorb_all [0; 0; 0; 0] (chunks 9 x)).
  destruct (absorb_all_state (chunks 9 x)) with (s := [0; 0; 0; 0]) as [L F].
  - intros c Hc. apply (chunks_length 9 (length x) x); auto. lia.
  - reflexivity.
  - apply Forall_forall. intros z Hz. unfold inr_.
    destruct Hz as [<-|[<-|[<-|[<-|[]]]]]; (split; [apply Z.le_refl|exact r_pos]).
  - rewrite Forall_forall in F. apply F, nth_In. rewrite L. apply Nat.lt_0_succ.
Qed.
Lemma HashOrNoop_collision x y : length x = length y -> Forall is64 x -> Forall is64 y -> x <> y ->
  HashOrNoop x = HashOrNoop y -> (3 < length x)%nat /\ lane0_collision (hash_inputs x) (hash_inputs y).
Proof.
  intros L Hx Hy N E. unfold HashOrNoop in E. rewrite <- L in E.
  destruct (Nat.leb_spec (length x) 3) as [H3|H3].
  - exfalso. apply N. now apply pack_inj.
  - split; [lia|]. now apply (hash_no_pad_collision x y).
Qed.
Global Opaque HashOrNoop.

(** ** leading bits *)
Lemma bits_zero n : bits_of n 0 = repeat 0 n.
Proof. induction n as [|n IH]; [reflexivity|]. cbn [bits_of repeat]. change (0 mod 2) with 0. change (0 / 2) with 0. now rewrite IH. Qed.
Lemma rev_repeat {A} (a : A) n : rev (repeat a n) = repeat a n.
Proof. induction n as [|n IH]; [reflexivity|]. cbn [repeat rev]. rewrite IH. symmetry. apply repeat_cons. Qed.
Lemma leading_bits_zero n k x : (k <= n)%nat -> 0 <= x < 2 ^ Z.of_nat n ->
  (firstn k (rev (bits_of n x)) = repeat 0 k <-> x < 2 ^ Z.of_nat (n - k)).
Proof.
  intros Hk Hx. rewrite firstn_rev, length_bits_of, skipn_bits by lia. replace (n - (n - k))%nat with k by lia.
  assert (Hp : 0 < 2 ^ Z.of_nat (n - k)) by (apply Z.pow_pos_nonneg; lia).
  assert (Hq : 0 <= x / 2 ^ Z.of_nat (n - k) < 2 ^ Z.of_nat k).
  { split; [apply Z.div_pos; lia|]. apply Z.div_lt_upper_bound; [lia|]. rewrite <- Z.pow_add_r by lia.
    replace (Z.of_nat (n - k) + Z.of_nat k) with (Z.of_nat n) by lia. lia. }
  split.
  - intros E. apply (f_equal (@rev Z)) in E. rewrite rev_involutive, rev_repeat, <- bits_zero in E.
    apply bits_of_inj in E; [|exact Hq|lia]. apply Z.div_small_iff in E; lia.
  - intros H. rewrite Z.div_small by lia. rewrite bits_zero. apply rev_repeat.
Qed.

(** ** computeEvaluation *)
Lemma coset_start_unique a x j c : (a <= TWO_ADICITY)%nat -> (c * root a ^ Z.to_N (bitrev a j))%GF = x -> coset_start a x j = c.
Proof.
  intros Ha <-. unfold coset_start. set (m := Z.to_N (bitrev a j)).
  assert (E : ((root a ^ (2 ^ N.of_nat a - 1)) ^ m * root a ^ m)%GF = 1%GF).
  { rewrite <- gpow_mul_l. replace (root a ^ (2 ^ N.of_nat a - 1) * root a)%GF with (root a * root a ^ (2 ^ N.of_nat a - 1))%GF by ring.
    rewrite <- gpow_succ. rewrite N.sub_1_r, N.succ_pred by (apply N.pow_nonzero; lia).
    rewrite root_order_1 by exact Ha. apply gpow_1_l. }
  transitivity (((root a ^ (2 ^ N.of_nat a - 1)) ^ m * root a ^ m) * c)%GF; [ring|]. rewrite E. ring.
Qed.
Lemma compute_evaluation_arity a x bits ys beta : (8 <= a)%nat -> ~ sat (computeEvaluation x bits a ys beta).
Proof.
  intros Ha [v R]. unfold computeEvaluation in R.
  apply reach_bind in R. destruct R as (? & _ & R). apply reach_bind in R. destruct R as (? & R1 & R).
  apply reach_bind in R. destruct R as (g & _ & R). cbv zeta in R. apply reach_bind in R. destruct R as (? & R2 & _).
  unfold panic_if in R1, R2. destruct (Nat.ltb_spec 8 a) as [H|H]; [exact R1|].
  destruct (Nat.eqb_spec a 8) as [E|E]; [exact R2|lia].
Qed.

(** ** friCombineInitial *)
Lemma powers_sum_diff (alpha : K) vs : forall os, length os = length vs ->
  powers_sum (map (fun vo => (fst vo - snd vo)%K) (combine vs os)) alpha = (powers_sum vs alpha - powers_sum os alpha)%K.
Proof.
  induction vs as [|v vs IH]; intros [|o os] L; try discriminate L; cbn [combine map powers_sum fst snd]; [ring|].
  rewrite IH by now injection L. ring.
Qed.
Lemma combined_two proof alpha x z z' polys polys' (os os' : list K) :
  length os = length polys -> length os' = length polys' ->
  combined proof alpha x [(z, polys, powers_sum os alpha); (z', polys', powers_sum os' alpha)] =
  (alpha ^ N.of_nat (length polys') * (powers_sum (map (fun vo => fst vo - snd vo) (combine (map (leaf_value proof) polys) os)) alpha / (x - z))
   + powers_sum (map (fun vo => fst vo - snd vo) (combine (map (leaf_value proof) polys') os')) alpha / (x - z'))%K.
Proof.
  intros L L'. cbn [combined flat_map fst snd]. rewrite app_nil_r. change (N.of_nat (length (@nil (nat * nat)))) with 0%N.
  rewrite kpow_0. rewrite !powers_sum_diff by now rewrite map_length. ring.
Qed.

(** ** the polynomials *)
Lemma kpeval_sum (P : list K) x :
  kpeval P x = fold_right kadd k0 (map (fun i => (nth i P k0 * x ^ N.of_nat i)%K) (seq 0 (length P))).
Proof.
  induction P as [|c P IH]; [reflexivity|].
  change (kpeval (c :: P) x) with (c + x * kpeval P x)%K. rewrite IH. cbn [length].
  change (seq 0 (S (length P))) with (O :: seq 1 (length P)). cbn [map fold_right nth].
  rewrite <- seq_shift, map_map. change (N.of_nat 0) with 0%N. rewrite kpow_0.
  assert (E : forall l, (x * fold_right kadd k0 (map (fun i => nth i P k0 * x ^ N.of_nat i)%K l) =
              fold_right kadd k0 (map (fun i => nth i P k0 * x ^ N.of_nat (S i)) l))%K).
  { induction l as [|i l IHl]; cbn [map fold_right nth]; [ring|]. rewrite <- IHl, Nat2N.inj_succ, kpow_succ. ring. }
  rewrite E. ring.
Qed.
Lemma last_seq n : forall s d, last (seq s (n + 1)) d = (s + n)%nat.
Proof.
  induction n as [|n IH]; intros s d; [cbn; lia|]. change (S n + 1)%nat with (S (n + 1)). cbn [seq].
  specialize (IH (S s) d). destruct (seq (S s) (n + 1)) eqn:E; [destruct n; discriminate E|]. cbn [last] in *. rewrite IH. lia.
Qed.
Lemma range_app o s n m : polynomialInfoFromRange o s (s + n + m) = map (pair o) (seq s n) ++ map (pair o) (seq (s + n) m).
Proof.
  unfold polynomialInfoFromRange. replace (s + n + m - s)%nat with (n + m)%nat by lia. now rewrite seq_app, map_app.
Qed.
Lemma range_0 o n : polynomialInfoFromRange o 0 n = map (pair o) (seq 0 n).
Proof. unfold polynomialInfoFromRange. now rewrite Nat.sub_0_r. Qed.
Lemma all_polys_layout c : let nc := cd_NumConstants c in let nr := NumRoutedWires (cd_Config c) in let ch := NumChallenges (cd_Config c) in
  friAllPolys c = map (pair 0%nat) (seq 0 nc) ++ map (pair 0%nat) (seq nc nr) ++
   map (pair 1%nat) (seq 0 (NumWires (cd_Config c))) ++ map (pair 2%nat) (seq 0 ch) ++
   map (pair 2%nat) (seq ch (ch * NumPartialProducts c)) ++ map (pair 3%nat) (seq 0 (ch * QuotientDegreeFactor c)).
Proof.
  cbv zeta. unfold friAllPolys, friPreprocessedPolys, friWirePolys, friZSPartialProductsPolys, friQuotientPolys, numPreprocessedPolys, sigmasRange,
    numZSPartialProductsPolys, numQuotientPolys.
  rewrite last_seq. rewrite Nat.mul_add_distr_l, Nat.mul_1_r.
  rewrite !range_0, !seq_app, !map_app, <- !app_assoc. reflexivity.
Qed.
Lemma combine_app_eq {A B} (a a' : list A) (b b' : list B) : length a = length b -> combine (a ++ a') (b ++ b') = combine a b ++ combine a' b'.
Proof. revert b; induction a as [|x a IH]; intros [|y b] L; try discriminate L; [reflexivity|]. cbn [app combine]. rewrite IH; [reflexivity|now injection L]. Qed.

(** ** the bits of the index *)
Lemma query_slices (x : GF) n : (4 <= n <= 64)%nat ->
  let bits := firstn n (bits_of 64 (rep x)) in let i := rep x mod 2 ^ Z.of_nat n in
  bits = bits_of n i /\ skipn (length bits - 4) bits = bits_of 4 (i / 2 ^ Z.of_nat (n - 4)) /\
  0 <= i / 2 ^ Z.of_nat (n - 4) < 16.
Proof.
  intros Hn bits i. assert (E : bits = bits_of n i) by (unfold bits, i; now rewrite firstn_bits, bits_of_mod by lia).
  assert (Hi : 0 <= i < 2 ^ Z.of_nat n) by (apply Z.mod_pos_bound, Z.pow_pos_nonneg; lia).
  split; [exact E|]. rewrite E, length_bits_of, skipn_bits by lia. replace (n - (n - 4))%nat with 4%nat by lia. split; [reflexivity|].
  split; [apply Z.div_pos; [lia|apply Z.pow_pos_nonneg; lia]|].
  apply Z.div_lt_upper_bound; [apply Z.pow_pos_nonneg; lia|]. change 16 with (2 ^ Z.of_nat 4). rewrite <- Z.pow_add_r by lia.
  replace (Z.of_nat (n - 4) + Z.of_nat 4) with (Z.of_nat n) by lia. lia.
Qed.

(** ** lengths *)
Lemma chain_ok_len final cidx steps : forall betas caps s n i old, chain_ok final cidx steps betas caps s n i old ->
  (length steps <= length betas)%nat /\ (length steps <= length caps)%nat.
Proof.
  induction steps as [|st steps IH]; intros betas caps s n i old H; [cbn [length]; lia|].
  destruct betas as [|b betas]; [destruct H|]. destruct caps as [|c caps]; [destruct H|].
  destruct H as (_ & _ & _ & _ & P & _ & H). apply IH in H. cbn [length]. lia.
Qed.
Lemma fri_ok_lengths params oracles points openings alpha betas pow indices initialCaps proof :
  fri_ok params oracles points openings alpha betas pow indices initialCaps proof ->
  length indices = length (QueryRoundProofs proof) /\
  Forall (fun round => length (InitialTreesProof round) = length oracles /\
                       length (Steps round) = length (ReductionArityBits params)) (QueryRoundProofs proof) /\
  (QueryRoundProofs proof <> [] -> length initialCaps = length oracles /\
     (length (ReductionArityBits params) <= length betas)%nat /\
     (length (ReductionArityBits params) <= length (CommitPhaseMerkleCaps proof))%nat).
Proof.
  intros ((_ & Hr & _) & _ & _ & L1 & L2 & Hq). split; [congruence|]. 
  assert (F : Forall (fun round => length (InitialTreesProof round) = length oracles /\
                       length (Steps round) = length (ReductionArityBits params)) (QueryRoundProofs proof)).
  { eapply Forall_impl; [|exact Hr]. intros round (E1 & _ & E3). split; [exact E1|]. now apply steps_shape_len in E3. }
  split; [exact F|]. intros Hne. rewrite <- L1 in L2. clear L1 Hr.
  destruct (QueryRoundProofs proof) as [|round rest]; [contradiction|]. destruct indices as [|x indices]; [discriminate L2|].
  cbn [combine] in Hq. apply Forall_inv in Hq. apply Forall_inv in F. cbn [fst snd] in Hq.
  destruct Hq as (_ & _ & _ & _ & (L3 & _) & _ & Hc). apply chain_ok_len in Hc. destruct F as [F1 F2]. rewrite F2 in Hc. rewrite <- L3, F1. tauto.
Qed.

(** ** every polynomial is opened once *)
Definition pair_dec : forall x y : nat * nat, {x = y} + {x <> y}.
Proof. intros [a b] [c d]. destruct (Nat.eq_dec a c), (Nat.eq_dec b d); [left|right|right|right]; congruence. Defined.
Lemma count_range o n : forall s o' j,
  count_occ pair_dec (map (pair o) (seq s n)) (o', j) = if Nat.eqb o o' && Nat.leb s j && Nat.ltb j (s + n) then 1%nat else 0%nat.
Proof.
  induction n as [|n IH]; intros s o' j; cbn [seq map count_occ].
  - destruct (Nat.leb_spec s j), (Nat.ltb_spec j (s + 0)); rewrite ?andb_false_r; try reflexivity. lia.
  - rewrite IH. destruct (pair_dec (o, s) (o', j)) as [E|E].
    + injection E as <- <-. rewrite Nat.eqb_refl. rewrite (proj2 (Nat.leb_gt (S s) s)) by lia. rewrite Nat.leb_refl, (proj2 (Nat.ltb_lt s (s + S n))) by lia. reflexivity.
    + destruct (Nat.eqb_spec o o') as [<-|N]; [|reflexivity]. assert (s <> j) by congruence.
      destruct (Nat.leb_spec s j), (Nat.leb_spec (S s) j), (Nat.ltb_spec j (S s + n)), (Nat.ltb_spec j (s + S n)); cbn [andb]; try reflexivity; lia.
Qed.
Lemma all_polys_count c o j : (count_occ pair_dec (friAllPolys c) (o, j) =
  match nth_error (friOracles c) o with Some orc => if Nat.ltb j (NumPolys orc) then 1 else 0 | None => 0 end)%nat.
Proof.
  unfold friAllPolys, friPreprocessedPolys, friWirePolys, friZSPartialProductsPolys, friQuotientPolys.
  rewrite !count_occ_app, !range_0, !count_range. unfold friOracles.
  destruct o as [|[|[|[|o]]]]; cbn [nth_error Nat.eqb Nat.leb andb Nat.add NumPolys]; try lia.
  destruct o; reflexivity.
Qed.
