(** * Soundness of the FRI verifier by rewinding: extraction of the committed polynomials. *)
From Coq Require Import String.
From Coq Require Import ZArith NArith Lia List Bool.
From Verif Require Import Zp GF Circuit Goldilocks GLProofs ExtProofs BN254 BN254Hash Types Challenger Fri Poly Roots FriMerkle FriEval FriQuery FriTop FriFacts Honest FriSound FriRewind.
Import ListNotations.
Open Scope Z_scope.
Local Opaque PoseidonBN HashOrNoop TwoToOne.

(** ** Everything that is opened, in the order of the powers of alpha (the last batch first) *)
Definition target : Type := (K * (nat * nat) * K)%type.
Fixpoint targets (points : list (K * list (nat * nat))) (openings : list (list K)) : list target :=
  match points, openings with
  | (z, polys) :: points', os :: openings' => targets points' openings' ++ map (fun oo : (nat * nat) * K => (z, fst oo, snd oo)) (combine polys os)
  | _, _ => []
  end.
Lemma targets_length points : forall openings, Forall2 (fun b os => length os = length (snd b)) points openings ->
  length (targets points openings) = length (flat_map snd points).
Proof.
  induction points as [|[z polys] points IH]; intros openings F; inversion F as [|? os ? openings' L F']; subst; [reflexivity|].
  cbn [targets flat_map snd] in *. rewrite !app_length, map_length, combine_length, IH by exact F'. lia.
Qed.
Lemma in_targets z op o : forall points openings, In (z, op, o) (targets points openings) <->
  exists polys os, In ((z, polys), os) (combine points openings) /\ In (op, o) (combine polys os).
Proof.
  induction points as [|[z' polys'] points IH]; intros openings; cbn [targets].
  - cbn [combine]. split; [intros []|intros (? & ? & [] & _)].
  - destruct openings as [|os' openings]; cbn [combine]; [split; [intros []|intros (? & ? & [] & _)]|].
    rewrite in_app_iff, IH, in_map_iff. split.
    + intros [(polys & os & H1 & H2)|([op' o'] & E & H)]; [exists polys, os; split; [now right|exact H2]|].
      cbn [fst snd] in E. injection E as <- <- <-. exists polys', os'. split; [now left|exact H].
    + intros (polys & os & [E|H1] & H2); [injection E as <- <- <-; right; exists (op, o); now split|left; exists polys, os; now split].
Qed.
Definition quotient (proof : list FriEvalProof) (x : K) (t : target) : K :=
  let '(z, op, o) := t in ((leaf_value proof op - o) / (x - z))%K.
Lemma powers_sum_div (l : list K) a d : powers_sum (map (fun v => v / d)%K l) a = (powers_sum l a / d)%K.
Proof. induction l as [|v l IH]; cbn [map powers_sum]; [unfold kdiv; ring|]. rewrite IH. unfold kdiv. ring. Qed.
Lemma combined_targets proof alpha x points : forall openings, Forall2 (fun b os => length os = length (snd b)) points openings ->
  combined proof alpha x (fri_batches alpha points openings) = kpeval (map (quotient proof x) (targets points openings)) alpha.
Proof.
  assert (PE : forall l a, kpeval l a = powers_sum l a).
  { intros l a. unfold kpeval. induction l as [|v l IH]; cbn [peval powers_sum]; [reflexivity|]. now rewrite IH. }
  induction points as [|[z polys] points IH]; intros openings F; inversion F as [|? os ? openings' L F']; subst; [reflexivity|].
  cbn [snd] in L. unfold fri_batches in *. cbn [map combine combined targets]. rewrite IH by exact F'.
  rewrite map_app.
  rewrite (PE (map (quotient proof x) (targets points openings') ++ _)), (PE (map (quotient proof x) (targets points openings'))).
  rewrite powers_sum_app, map_length, map_map.
  change (fun x0 : nat * nat * K => quotient proof x (z, fst x0, snd x0)) with (fun oo : nat * nat * K => ((leaf_value proof (fst oo) - snd oo) / (x - z))%K).
  rewrite <- (map_map (fun oo : nat * nat * K => (leaf_value proof (fst oo) - snd oo)%K) (fun v => (v / (x - z))%K)).
  rewrite powers_sum_div.
  replace (map (fun oo : nat * nat * K => (leaf_value proof (fst oo) - snd oo)%K) (combine polys os))
    with (map (fun vo => (fst vo - snd vo)%K) (combine (map (leaf_value proof) polys) os)).
  2:{ clear. revert os. induction polys as [|op polys IH]; intros [|o os]; try reflexivity. cbn [map combine fst snd]. now rewrite IH. }
  rewrite powers_sum_diff by now rewrite map_length.
  replace (length (flat_map _ _)) with (length (targets points openings')); [ring|].
  rewrite targets_length by exact F'. f_equal. clear - F'. induction F' as [|b os' points openings' _ _ IH]; [reflexivity|].
  cbn [map combine flat_map fst]. now rewrite IH.
Qed.
Lemma leaf_value_elements p1 p2 op : map Elements p1 = map Elements p2 -> leaf_value p1 op = leaf_value p2 op.
Proof.
  intros E. unfold leaf_value. do 3 f_equal. change (@nil Z) with (Elements no_eval).
  rewrite <- !(map_nth Elements). now rewrite E.
Qed.
Lemma initial_unique S i cidx caps : no_collision S -> forall p1 p2,
  initial_ok i cidx p1 caps -> initial_ok i cidx p2 caps ->
  (forall a, In a (flat_map (fun e => opening_inputs (Elements e) i (ep_Siblings e)) p1) -> S a) ->
  (forall a, In a (flat_map (fun e => opening_inputs (Elements e) i (ep_Siblings e)) p2) -> S a) ->
  Forall2 (fun e e' => length (Elements e) = length (Elements e') /\ length (ep_Siblings e) = length (ep_Siblings e')) p1 p2 ->
  canon_leaves p1 -> canon_leaves p2 -> Forall (fun e => Forall inr_ (ep_Siblings e)) p1 -> Forall (fun e => Forall inr_ (ep_Siblings e)) p2 ->
  map Elements p1 = map Elements p2.
Proof.
  intros N p1 p2 [L1 H1] [L2 H2] S1 S2 F. revert caps L1 H1 L2 H2 S1 S2.
  induction F as [|e e' p1 p2 [Le Ls] F IH]; intros caps L1 H1 L2 H2 S1 S2 C1 C2 I1 I2; [reflexivity|].
  destruct caps as [|c caps]; [discriminate L1|]. cbn [combine] in H1, H2.
  inversion H1 as [|? ? [_ M1] H1']; subst. inversion H2 as [|? ? [_ M2] H2']; subst. inversion C1; subst. inversion C2; subst. inversion I1; subst. inversion I2; subst.
  cbn [fst snd] in M1, M2. cbn [map]. cbn [flat_map] in S1, S2. f_equal.
  - apply (opening_unique S _ _ i (ep_Siblings e) (ep_Siblings e') N); try assumption.
    + intros a Ha. apply S1, in_or_app. now left.
    + intros a Ha. apply S2, in_or_app. now left.
    + eapply Forall_impl; [exact canon_is64|assumption].
    + eapply Forall_impl; [exact canon_is64|assumption].
    + exact (eq_trans M1 (eq_sym M2)).
  - apply (IH caps); try assumption; try (now injection L1); try (now injection L2).
    + intros a Ha. apply S1, in_or_app. now right.
    + intros a Ha. apply S2, in_or_app. now right.
Qed.
Lemma shapes_agree params oracles r1 r2 : round_shape params oracles r1 -> round_shape params oracles r2 ->
  Forall2 (fun e e' => length (Elements e) = length (Elements e') /\ length (ep_Siblings e) = length (ep_Siblings e')) (InitialTreesProof r1) (InitialTreesProof r2).
Proof.
  intros (L1 & F1 & _) (L2 & F2 & _). revert L1 F1 L2 F2. generalize (InitialTreesProof r1) (InitialTreesProof r2). clear r1 r2.
  induction oracles as [|o oracles IH]; intros [|e l] [|e' l'] L1 F1 L2 F2; try discriminate L1; try discriminate L2; [constructor|].
  cbn [combine] in F1, F2. inversion F1 as [|? ? [A1 B1] F1']; subst. inversion F2 as [|? ? [A2 B2] F2']; subst. cbn [fst snd] in *.
  constructor; [split; [congruence|lia]|]. apply IH; auto.
Qed.
Lemma steps_shape_room k : forall n steps, steps_shape 4 n steps (repeat 4%nat k) -> (1 <= k)%nat -> 4 * Z.of_nat k + 4 <= n.
Proof.
  induction k as [|k IH]; intros n [|st steps] H Hk; try lia; cbn [repeat steps_shape] in H; [destruct H|]. destruct H as (_ & H & H').
  destruct k as [|k]; [lia|]. specialize (IH _ _ H' ltac:(lia)). lia.
Qed.
Lemma all_4 l : Forall (fun a => a = 4%nat) l -> l = repeat 4%nat (length l).
Proof. induction 1 as [|a l -> F IH]; [reflexivity|]. cbn [length repeat]. now rewrite <- IH. Qed.

(** ** Polynomials over the base field *)
Lemma kpeval_split (V : list K) x : kpeval V (emb x) = (gpeval (map fst V) x, gpeval (map snd V) x).
Proof.
  induction V as [|[a b] V IH]; [reflexivity|]. unfold kpeval, gpeval in *. cbn [map peval fst snd]. rewrite IH.
  unfold kadd, kmul, emb. cbn [fst snd]. f_equal; ring.
Qed.
(** distinct indices of the domain *)
Definition positions_of (n : nat) (G : list Z) : Prop := NoDup G /\ Forall (below n) G.
Definition all_indices (n : nat) : list Z := map Z.of_nat (seq 0 (2 ^ n)).
Lemma all_indices_in n i : In i (all_indices n) <-> below n i.
Proof.
  unfold all_indices, below. rewrite in_map_iff, <- pow2_nat_Z. split.
  - intros (j & <- & Hj). apply in_seq in Hj. lia.
  - intros Hi. exists (Z.to_nat i). split; [lia|]. apply in_seq. lia.
Qed.
Lemma all_indices_positions n : positions_of n (all_indices n).
Proof.
  split; [|apply Forall_forall; intros i; apply all_indices_in]. unfold all_indices. apply NoDup_map_in; [|apply seq_NoDup].
  intros a b _ _. apply Nat2Z.inj.
Qed.
Lemma all_indices_length n : length (all_indices n) = (2 ^ n)%nat.
Proof. unfold all_indices. now rewrite map_length, seq_length. Qed.
Lemma positions_nodup n G : (n <= TWO_ADICITY)%nat -> positions_of n G -> NoDup (map (fun i => emb (dom g7 n i)) G).
Proof.
  intros Hn [ND R]. rewrite Forall_forall in R. apply NoDup_map_in; [|exact ND].
  intros a b Ha Hb E. apply emb_inj in E. now apply (query_point_inj n); [exact Hn|apply R|apply R|].
Qed.
Lemma kpeval_same n G (f g : list K) : (n <= TWO_ADICITY)%nat -> positions_of n G -> (length f <= length G)%nat -> (length g <= length G)%nat ->
  (forall i, In i G -> kpeval f (emb (dom g7 n i)) = kpeval g (emb (dom g7 n i))) -> forall x, kpeval f x = kpeval g x.
Proof.
  intros Hn HG Lf Lg H x. apply ksub_eq0.
  assert (Z : kpeval (paddl kadd f (pscale kmul (- (1))%K g)) x = k0).
  { apply (kfew_roots (map (fun i => emb (dom g7 n i)) G)); [now apply positions_nodup| |].
    - rewrite map_length. apply paddl_len; [exact Lf|]. unfold pscale. now rewrite map_length.
    - intros y Hy. apply in_map_iff in Hy. destruct Hy as (i & <- & Hi). rewrite kpaddl', kpscale', (H i Hi). ring. }
  rewrite kpaddl', kpscale' in Z. eapply eq_trans; [|exact Z]. ring.
Qed.
Lemma base_field n G (V : list K) (w : Z -> GF) : (n <= TWO_ADICITY)%nat -> positions_of n G -> (length V <= length G)%nat ->
  (forall i, In i G -> kpeval V (emb (dom g7 n i)) = emb (w i)) ->
  forall x, kpeval (map emb (map fst V)) x = kpeval V x.
Proof.
  intros Hn HG LV H. apply (kpeval_same n G); [exact Hn|exact HG|now rewrite !map_length|exact LV|].
  intros i Hi. rewrite kpeval_emb. pose proof (H i Hi) as E. rewrite E. rewrite kpeval_split in E. now injection E as -> _.
Qed.
Lemma choice_ops {B} (d : B) (R : nat * nat -> B -> Prop) l : (forall a, In a l -> exists q, R a q) -> exists f, forall a, In a l -> R a (f a).
Proof.
  induction l as [|a l IH]; intros H; [exists (fun _ => d); intros a []|].
  destruct (H a (in_eq a l)) as (q & Hq). destruct IH as (f & Hf); [intros; apply H; now apply in_cons|].
  exists (fun x => if pair_dec x a then q else f x). intros x [<-|Hx].
  - destruct (pair_dec a a) as [_|N]; [exact Hq|now destruct N].
  - destruct (pair_dec x a) as [->|N]; [exact Hq|now apply Hf].
Qed.

(** ** Accepted transcripts *)
(** what the prover and the verifier's coins contribute after the folding challenges *)
Record transcript := mkTranscript { t_proof : FriProof; t_pow : GF; t_indices : list GF }.
Definition no_round : FriQueryRound := mkFriQueryRound [] [].
Definition first_round (t : transcript) : FriQueryRound := hd no_round (QueryRoundProofs (t_proof t)).
(** accepted by VerifyFriProof, with these commitments and final polynomial, the first query being at i *)
Definition accepted (params : FriParams) (oracles : list OracleInfo) (points : list (K * list (nat * nat))) (openings : list (list K))
    (initialCaps : list FriMerkleCap) (alpha : K) (betas : list K) (caps : list FriMerkleCap) (final : list QE) (i : Z) (t : transcript) : Prop :=
  CommitPhaseMerkleCaps (t_proof t) = caps /\ FinalPoly (t_proof t) = final /\
  (exists x xs, t_indices t = x :: xs /\ rep x mod 2 ^ Z.of_nat (LdeBits params) = i) /\
  canon_fri (t_proof t) /\ siblings_ok (first_round t) /\
  sat (VerifyFriProof params
      (mkInstanceInfo oracles (map (fun b => mkBatchInfo (repK (fst b)) (snd b)) points)) (map (map repK) openings)
      (mkFriChallenges (repK alpha) (map repK betas) (rep (t_pow t)) (map rep (t_indices t))) initialCaps (t_proof t)).

Lemma accepted_round params oracles points openings initialCaps alpha betas caps final i t :
  oracles <> [] -> length points = length openings ->
  accepted params oracles points openings initialCaps alpha betas caps final i t ->
  let round := first_round t in let n := LdeBits params in let k := length (ReductionArityBits params) in
  canon_round round /\ siblings_ok round /\ round_shape params oracles round /\ length final = (2 ^ (fp_DegreeBits params - 4 * k))%nat /\
  (n <= TWO_ADICITY)%nat /\ CapHeight (fp_Config params) = 4%nat /\ ReductionArityBits params = repeat 4%nat k /\ (4 * k <= fp_DegreeBits params)%nat /\
  initial_ok i (i / 2 ^ Z.of_nat (n - 4)) (InitialTreesProof round) initialCaps /\
  combine_cond (InitialTreesProof round) (emb (dom g7 n i)) (fri_batches alpha points openings) /\
  chain_ok (map injK final) (i / 2 ^ Z.of_nat (n - 4)) (Steps round) betas caps g7 n i
    (combined (InitialTreesProof round) alpha (emb (dom g7 n i)) (fri_batches alpha points openings)).
Proof.
  intros Hor Lp (Ec & Ef & (x & xs & Ex & Ei) & Hc & Hs & SAT). cbv zeta.
  apply (enforces_sat _ _ _ (verify_fri_correct params oracles points openings alpha betas (t_pow t) (t_indices t) initialCaps (t_proof t) Hc Hor Lp)) in SAT.
  destruct SAT as ((_ & Sh & Ta & Lf) & _ & _ & L1 & L2 & Q). destruct Hc as [Hc _]. unfold first_round in *. rewrite Ex in L2, Q.
  destruct (QueryRoundProofs (t_proof t)) as [|round rounds]; [cbn [length] in L1, L2; lia|]. cbn [hd combine] in *.
  inversion Hc; subst. inversion Sh; subst. inversion Q as [|? ? Q1 _]; subst. cbn [fst snd] in Q1.
  destruct Q1 as (_ & Hn & Hh & Har & Q1 & Q2 & Q3).
  pose proof (all_4 _ Har) as Er.
  assert (ET : TotalArities params = (4 * length (ReductionArityBits params))%nat) by (unfold TotalArities; rewrite Er at 1; apply list_sum_repeat).
  rewrite ET in Ta, Lf. unfold TWO_ADICITY in *.
  repeat (split; [assumption|]). split.
  { rewrite shl_small in Lf by (unfold LdeBits in Hn; lia). rewrite <- pow2_nat_Z in Lf. lia. }
  tauto.
Qed.

Lemma in_combine_sum points : forall openings (b : K * list (nat * nat)) os alpha, In (b, os) (combine points openings) ->
  In (b, powers_sum os alpha) (combine points (map (fun l => powers_sum l alpha) openings)).
Proof.
  induction points as [|b' points IH]; intros [|l openings] b os alpha H1; cbn [combine map] in *; try (destruct H1; fail).
  destruct H1 as [E|H1]; [injection E as -> ->; now left|right; now apply IH].
Qed.
(** the prover is accepted in all runs for the query indices in G, which has more than 2^DegreeBits elements *)
Theorem fri_extract params oracles points openings initialCaps
    (alphas : list K) (B : K -> list K -> list K) (cap : K -> list K -> FriMerkleCap) (final : K -> list K -> list QE) (ans : K -> list K -> Z -> transcript) (G : list Z) :
  let n := LdeBits params in let k := length (ReductionArityBits params) in
  oracles <> [] -> positions_of n G -> (2 ^ fp_DegreeBits params < length G)%nat ->
  Forall2 (fun b os => length os = length (snd b)) points openings ->
  NoDup alphas -> length alphas = length (flat_map snd points) ->
  (forall alpha pre, In alpha alphas -> (length pre < k)%nat -> NoDup (B alpha pre) /\ length (B alpha pre) = 16%nat) ->
  (forall alpha betas i, In alpha alphas -> length betas = k -> in_tree (B alpha) [] betas -> In i G ->
     accepted params oracles points openings initialCaps alpha betas (caps_along (cap alpha) [] betas) (final alpha betas) i (ans alpha betas i)) ->
  no_collision (fun a => exists alpha betas i, In alpha alphas /\ length betas = k /\ in_tree (B alpha) [] betas /\ In i G /\
     In a (round_inputs (first_round (ans alpha betas i)) i)) ->
  exists F : nat * nat -> list GF, forall z polys os op o, In ((z, polys), os) (combine points openings) -> In (op, o) (combine polys os) ->
    (length (F op) <= 2 ^ fp_DegreeBits params + 1)%nat /\
    kpeval (map emb (F op)) z = o /\
    forall alpha betas i, In alpha alphas -> length betas = k -> in_tree (B alpha) [] betas -> In i G ->
      nth (snd op) (Elements (nth (fst op) (InitialTreesProof (first_round (ans alpha betas i))) no_eval)) 0 = rep (gpeval (F op) (dom g7 n i)).
Proof.
  intros n k Hor HG LG F2 NDa La HB HA NC.
  set (S := fun a => exists alpha betas i, _) in NC.
  assert (Lp : length points = length openings) by (clear - F2; induction F2; cbn [length]; congruence).
  assert (AE : alphas = [] \/ exists alpha0, In alpha0 alphas) by (clear; destruct alphas as [|a l]; [now left|right; exists a; now left]).
  destruct AE as [AE|(alpha0 & Ha0)].
  { rewrite AE in La. exists (fun _ => []). intros z polys os op o H1 H2. exfalso. apply in_combine_l in H1. apply in_combine_l in H2.
    assert (H : In op (flat_map snd points)) by (apply in_flat_map; exists (z, polys); now split).
    destruct (flat_map snd points); [destruct H|discriminate La]. }
  set (betas0 := first_path (B alpha0) k []).
  assert (Lb0 : length betas0 = k) by apply first_path_length.
  assert (Tb0 : in_tree (B alpha0) [] betas0) by (apply (first_path_in (B alpha0) k k); [cbn; lia|intros q Hq; now apply (HB alpha0)]).
  assert (R0 : exists i0, In i0 G) by (clear - LG; destruct G as [|i0 G']; [cbn in LG; lia|]; exists i0; now left).
  destruct R0 as (i0 & R0).
  destruct (accepted_round _ _ _ _ _ _ _ _ _ _ _ Hor Lp (HA alpha0 betas0 i0 Ha0 Lb0 Tb0 R0)) as (_ & _ & Sh0 & _ & Hn & Hh & Har & Hkd & _).
  fold n in Hn. fold k in Har, Hkd.
  assert (Hroom : (4 * k + 4 <= n)%nat).
  { destruct Sh0 as (E1 & E2 & E3). rewrite Hh, Har in E3. fold n in E3.
    destruct k as [|k'] eqn:Ek.
    - destruct oracles as [|or oracles']; [contradiction|]. destruct (InitialTreesProof _) as [|e l]; [discriminate E1|].
      cbn [combine] in E2. inversion E2 as [|? ? [_ E4] _]; subst. fold n in E4. rewrite Hh in E4. lia.
    - apply steps_shape_room in E3; lia. }
  (* the leaves do not depend on the challenges *)
  set (lv := fun i => InitialTreesProof (first_round (ans alpha0 betas0 i))).
  assert (CO : forall alpha betas i, In alpha alphas -> length betas = k -> in_tree (B alpha) [] betas -> In i G ->
    map Elements (InitialTreesProof (first_round (ans alpha betas i))) = map Elements (lv i)).
  { intros alpha betas i Ia Lb Tb Ri.
    destruct (accepted_round _ _ _ _ _ _ _ _ _ _ _ Hor Lp (HA alpha betas i Ia Lb Tb Ri)) as ((C1 & _) & (I1 & _) & Sh1 & _ & _ & _ & _ & _ & O1 & _).
    destruct (accepted_round _ _ _ _ _ _ _ _ _ _ _ Hor Lp (HA alpha0 betas0 i Ha0 Lb0 Tb0 Ri)) as ((C2 & _) & (I2 & _) & Sh2 & _ & _ & _ & _ & _ & O2 & _).
    apply (initial_unique S i _ initialCaps NC _ _ O1 O2); try assumption.
    - intros a Ha. exists alpha, betas, i. repeat (split; [assumption|]). apply in_or_app. now left.
    - intros a Ha. exists alpha0, betas0, i. repeat (split; [assumption|]). apply in_or_app. now left.
    - eapply shapes_agree; eassumption. }
  set (u := fun i => map (quotient (lv i) (emb (dom g7 n i))) (targets points openings)).
  assert (Q : forall p1 p2 x t, map Elements p1 = map Elements p2 -> quotient p1 x t = quotient p2 x t).
  { intros p1 p2 x [[z op] o] E. unfold quotient. now rewrite (leaf_value_elements _ _ op E). }
  (* every combination is a low degree word *)
  assert (LOW : forall alpha, In alpha alphas -> low_degree (fun i => In i G) g7 n (2 ^ fp_DegreeBits params) (fun i => kpeval (u i) alpha)).
  { intros alpha Ia.
    assert (TO : tree_ok (2 ^ (fp_DegreeBits params - 4 * k)) k (at_layer G (length (@nil K))) g7 (n - 4 * length (@nil K)) (fun i => kpeval (u i) alpha)).
    { apply (tree_of_answers n k (B alpha) (cap alpha) (final alpha) (fun betas i => Steps (first_round (ans alpha betas i))) S NC) with (G := G); try assumption.
      - intros pre Hp. now apply HB.
      - intros betas Lb Tb. destruct (accepted_round _ _ _ _ _ _ _ _ _ _ _ Hor Lp (HA alpha betas i0 Ia Lb Tb R0)) as (_ & _ & _ & Lf & _). fold k in Lf. lia.
      - reflexivity.
      - exact I.
      - exact g7_nz.
      - intros betas Lb Tb i Ri. cbv zeta. cbn [length app skipn]. change (16 ^ Z.of_nat 0) with 1. rewrite Z.div_1_r. replace (n - 4 * 0)%nat with n by lia.
        destruct (accepted_round _ _ _ _ _ _ _ _ _ _ _ Hor Lp (HA alpha betas i Ia Lb Tb Ri)) as ((_ & C1) & (_ & I1) & (_ & _ & Sh1) & _ & _ & _ & _ & _ & _ & _ & CH).
        fold n in CH, Sh1. rewrite Hh, Har in Sh1. split.
        + split; [exact Sh1|]. split; [exact C1|]. split; [exact I1|]. intros a Ha. exists alpha, betas, i. repeat (split; [assumption|]). apply in_or_app. now right.
        + rewrite combined_targets in CH by exact F2. unfold u. rewrite (map_ext (quotient (lv i) (emb (dom g7 n i))) (quotient (InitialTreesProof (first_round (ans alpha betas i))) (emb (dom g7 n i)))); [exact CH|].
          intros t. apply Q. symmetry. now apply CO. }
    cbn [length] in TO. replace (n - 4 * 0)%nat with n in TO by lia.
    apply tree_low in TO; [|exact g7_nz|exact Hn|lia]. destruct TO as (f & Lf & Ef). exists f. split; [|intros i Hi; apply Ef; exists i; split; [exact Hi|apply Z.div_1_r]].
    rewrite pow16, <- Nat.pow_add_r in Lf. replace (4 * k + (fp_DegreeBits params - 4 * k))%nat with (fp_DegreeBits params) in Lf by lia. exact Lf. }
  assert (LT : length (targets points openings) = length alphas) by (rewrite targets_length by exact F2; now symmetry).
  pose proof (batch_sound (fun i => In i G) g7 n (2 ^ fp_DegreeBits params) (length alphas) u alphas NDa eq_refl ltac:(intros i; unfold u; now rewrite map_length) LOW) as BS.
  (* one polynomial per target *)
  assert (TG : forall z op o, In (z, op, o) (targets points openings) -> exists F : list GF, (length F <= 2 ^ fp_DegreeBits params + 1)%nat /\
     kpeval (map emb F) z = o /\ forall i, In i G -> leaf_value (lv i) op = emb (gpeval F (dom g7 n i))).
  { intros z op o Ht. apply (In_nth _ _ (z, op, o)) in Ht. destruct Ht as (j & Hj & Ej).
    destruct (BS j) as (U & LU & EU).
    assert (D : kdeg (Datatypes.S (2 ^ fp_DegreeBits params)) (fun x => (o + (x - z) * kpeval U x)%K)).
    { apply kdeg_add; [apply kdeg_const|]. apply kdeg_linear. exists U. split; [exact LU|reflexivity]. }
    destruct D as (V & LV & EV). assert (EV' : forall x, kpeval V x = (o + (x - z) * kpeval U x)%K) by (intros x; symmetry; exact (EV x)). clear EV.
    assert (V_at : forall i, In i G -> kpeval V (emb (dom g7 n i)) = leaf_value (lv i) op).
    { intros i Ri. rewrite EV'. rewrite <- (EU i Ri). unfold u. rewrite (nth_map_lt _ _ _ _ (z, op, o)) by exact Hj. rewrite Ej. unfold quotient.
      destruct (accepted_round _ _ _ _ _ _ _ _ _ _ _ Hor Lp (HA alpha0 betas0 i Ha0 Lb0 Tb0 Ri)) as (_ & _ & _ & _ & _ & _ & _ & _ & _ & CC & _).
      assert (Nz : (emb (dom g7 n i) - z <> 0)%K).
      { assert (Ht : In (z, op, o) (targets points openings)) by (rewrite <- Ej; now apply nth_In).
        apply in_targets in Ht. destruct Ht as (polys & os & H1 & _). unfold combine_cond, fri_batches in CC. rewrite Forall_forall in CC. fold n in CC.
        intros E. apply (proj1 (ksub_eq0 _ _)) in E. exact (proj2 (CC _ (in_combine_sum _ _ (z, polys) os alpha0 H1)) E). }
      unfold kdiv. pose proof (kinv_l _ Nz) as I1.
      transitivity (o + (kinv (emb (dom g7 n i) - z) * (emb (dom g7 n i) - z)) * (leaf_value (lv i) op - o))%K; [ring|]. rewrite I1. ring. }
    assert (BF : forall x, kpeval (map emb (map fst V)) x = kpeval V x).
    { apply (base_field n G V (fun i => inj (nth (snd op) (Elements (nth (fst op) (lv i) no_eval)) 0)) Hn HG); [lia|exact V_at]. }
    exists (map fst V). split; [rewrite map_length, Nat.add_1_r; exact LV|]. split.
    - rewrite BF, EV'. ring.
    - intros i Ri. rewrite <- kpeval_emb, BF. symmetry. now apply V_at. }
  (* the polynomials of the targets of one committed word are the same *)
  destruct (choice_ops (@nil GF) (fun op F => (length F <= 2 ^ fp_DegreeBits params + 1)%nat /\
     (forall z o, In (z, op, o) (targets points openings) -> kpeval (map emb F) z = o) /\
     forall i, In i G -> leaf_value (lv i) op = emb (gpeval F (dom g7 n i))) (map (fun t : target => snd (fst t)) (targets points openings))) as (F & HF).
  { intros op Hop. apply in_map_iff in Hop. destruct Hop as ([[z op'] o] & E & Ht). cbn [fst snd] in E. subst op'.
    destruct (TG z op o Ht) as (F & LF & _ & EF). exists F. split; [exact LF|]. split; [|exact EF].
    intros z' o' Ht'. destruct (TG z' op o' Ht') as (F' & LF' & EZ' & EF'). rewrite <- EZ'.
    apply (kpeval_same n G); [exact Hn|exact HG|rewrite map_length; lia|rewrite map_length; lia|].
    intros i Ri. rewrite !kpeval_emb, <- EF, <- EF' by exact Ri. reflexivity. }
  exists F. intros z polys os op o H1 H2.
  assert (Ht : In (z, op, o) (targets points openings)) by (apply in_targets; exists polys, os; now split).
  destruct (HF op) as (LF & EZ & EF); [apply in_map_iff; exists (z, op, o); now split|].
  split; [exact LF|]. split; [now apply EZ|].
  intros alpha betas i Ia Lb Tb Ri.
  destruct (accepted_round _ _ _ _ _ _ _ _ _ _ _ Hor Lp (HA alpha betas i Ia Lb Tb Ri)) as ((C1 & _) & _ & _ & _ & _ & _ & _ & _ & _ & CC & _).
  pose proof (EF i Ri) as E. rewrite <- (leaf_value_elements _ _ op (CO alpha betas i Ia Lb Tb Ri)) in E. unfold leaf_value in E. apply emb_inj in E.
  rewrite <- E. symmetry. apply rep_inj_small.
  assert (PI : (fst op < length (InitialTreesProof (first_round (ans alpha betas i))) /\
     snd op < length (Elements (nth (fst op) (InitialTreesProof (first_round (ans alpha betas i))) no_eval)))%nat).
  { unfold combine_cond, fri_batches in CC. rewrite Forall_forall in CC.
    destruct (CC _ (in_combine_sum _ _ (z, polys) os alpha H1)) as [P _]. cbn [fst snd] in P. unfold polys_in in P. rewrite Forall_forall in P. apply P. now apply in_combine_l in H2. }
  unfold canon_leaves in C1. rewrite Forall_forall in C1. specialize (C1 _ (nth_In _ no_eval (proj1 PI))). rewrite Forall_forall in C1. apply C1. now apply nth_In.
Qed.
