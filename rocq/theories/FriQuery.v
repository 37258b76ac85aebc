(** * FRI query rounds (fri/fri.go): specification and proofs. *)
From Coq Require Import String.
From Coq Require Import ZArith NArith Lia List Bool Ring Field.
From Verif Require Import Zp GF Circuit Goldilocks GLProofs ExtProofs BN254 BN254Hash Types Challenger Fri Poly Roots FriMerkle FriEval.
Import ListNotations.
Open Scope Z_scope.
Open Scope circ_scope.
Add Ring Kr_frq : K_ring.
Add Field Kf_frq : K_field.
Local Opaque PoseidonBN HashOrNoop.

Definition canonZ (x : Z) : Prop := 0 <= x < p.
Definition canonQE (x : QE) : Prop := canonZ (fst x) /\ canonZ (snd x).
Definition injK (x : QE) : K := (inj (fst x), inj (snd x)).
Lemma repK_injK x : canonQE x -> repK (injK x) = x.
Proof. destruct x as [a b]. intros [Ha Hb]. unfold repK, injK. cbn [fst snd] in *. now rewrite !rep_inj_small. Qed.
Lemma map_repK_injK l : Forall canonQE l -> map repK (map injK l) = l.
Proof. induction 1 as [|x l H F IH]; [reflexivity|]. cbn [map]. now rewrite IH, repK_injK. Qed.
Lemma injK_repK x : injK (repK x) = x.
Proof. apply repK_inj. apply repK_injK. split; apply rep_range. Qed.

(** ** friCombineInitial *)
Definition no_eval : FriEvalProof := mkFriEvalProof [] [].
Definition leaf_value (proof : list FriEvalProof) (op : nat * nat) : K :=
  emb (inj (nth (snd op) (Elements (nth (fst op) proof no_eval)) 0)).
(** the index of every polynomial is that of an element of the leaves *)
Definition polys_in (proof : list FriEvalProof) (polys : list (nat * nat)) : Prop :=
  Forall (fun op => fst op < length proof /\ snd op < length (Elements (nth (fst op) proof no_eval)))%nat polys.
(** sum over the batches of alpha^(number of polynomials of the later batches) (v - o)/(x - z) *)
Fixpoint combined (proof : list FriEvalProof) (alpha x : K) (bs : list (K * list (nat * nat) * K)) : K :=
  match bs with
  | [] => 0%K
  | (z, polys, o) :: rest =>
      (alpha ^ N.of_nat (length (flat_map (fun b : K * list (nat * nat) * K => snd (fst b)) rest))
         * ((powers_sum (map (leaf_value proof) polys) alpha - o) / (x - z)) + combined proof alpha x rest)%K
  end.
Definition canon_leaves (proof : list FriEvalProof) : Prop := Forall (fun e => Forall canonZ (Elements e)) proof.
Definition repB (b : K * list (nat * nat) * K) : BatchInfo * QE := (mkBatchInfo (repK (fst (fst b))) (snd (fst b)), repK (snd b)).

Lemma leaf_value_correct proof op : canon_leaves proof ->
  enforces (ep <- nth_ proof (fst op);; e <- nth_ (Elements ep) (snd op);; Ret (e, Zero))
    (fst op < length proof /\ snd op < length (Elements (nth (fst op) proof no_eval)))%nat (repK (leaf_value proof op)).
Proof.
  intros C. eapply enforces_bind; [apply (enforces_nth _ _ no_eval)|]. intros H1.
  eapply enforces_iff; [eapply enforces_bind; [apply (enforces_nth _ _ 0)|]|].
  - intros H2. eapply enforces_eq; [apply enforces_ret|]. unfold repK, leaf_value, emb. cbn [fst snd].
    rewrite rep_inj_small; [reflexivity|]. unfold canon_leaves in C. rewrite Forall_forall in C.
    specialize (C _ (nth_In _ no_eval H1)). rewrite Forall_forall in C. apply C. now apply nth_In.
  - tauto.
Qed.
Lemma enforces_mapM {A B} (f : A -> circ B) (g : A -> B) (P : A -> Prop) l :
  (forall x, In x l -> enforces (f x) (P x) (g x)) -> enforces (mapM f l) (Forall P l) (map g l).
Proof.
  induction l as [|x l IH]; intros H; cbn [mapM map].
  - eapply enforces_iff; [apply enforces_ret|]. split; auto.
  - eapply enforces_iff.
    + eapply enforces_bind; [apply H, in_eq|]. intros _.
      eapply enforces_bind; [apply IH; intros; apply H; now apply in_cons|]. intros _. apply enforces_ret.
    + split; [intros (H1 & H2 & _); constructor; auto|intros F; inversion F; auto].
Qed.
Lemma muladd_lz_correct x a b c : lzK x ((p - 1) + (p - 1) * (p - 1)) a -> computes (MulAddExtension x (repK b) (repK c)) (repK (a * b + c)%K).
Proof.
  intros H. unfold MulAddExtension, MulAddExtensionNoReduce.
  eapply computes_reduceK; [apply lzK_add; [apply lzK_mul; [exact H|apply lzK_rep| |]|apply lzK_rep|]|]; vm_compute; congruence.
Qed.
Lemma combine_step_correct proof alpha x sum z polys o : canon_leaves proof ->
  enforces (combine_step proof (repK alpha) (repK x) (repK sum) (repB (z, polys, o)))
    (polys_in proof polys /\ x <> z)
    (repK (alpha ^ N.of_nat (length polys) * sum + (powers_sum (map (leaf_value proof) polys) alpha - o) / (x - z))%K).
Proof.
  intros C. unfold combine_step, repB. cbn [fst snd Point Polynomials].
  eapply enforces_bind; [apply (enforces_mapM _ (fun op => repK (leaf_value proof op)) _ polys)|].
  { intros op _. now apply leaf_value_correct. }
  intros _. rewrite <- (map_map (leaf_value proof) repK).
  eapply computes_enforces_bind; [apply reduce_with_powers_correct|].
  eapply computes_enforces_bind; [apply sub_ext_correct|].
  eapply computes_enforces_bind; [apply exp_ext_correct|]. rewrite !map_length.
  eapply computes_enforces_bind; [apply mul_ext_correct|].
  eapply enforces_iff with (P := (x - z <> k0)%K /\ True).
  - eapply enforces_bind; [apply inverse_ext_correct|]. intros Hn. cbn beta iota.
    eapply computes_bind; [eapply enforces_iff; [apply enforces_assert_eq|]; tauto|].
    eapply computes_eq; [apply muladd_lz_correct; apply lzK_sub; try apply lzK_rep; vm_compute; congruence|].
    apply f_equal. unfold kdiv. ring.
  - split; [intros [H _] E; apply H; rewrite E; ring|]. intros H. split; [|exact I]. intros E. apply H. now apply ksub_eq0.
Qed.
Definition combine_cond (proof : list FriEvalProof) (x : K) (bs : list (K * list (nat * nat) * K)) : Prop :=
  Forall (fun b : K * list (nat * nat) * K => polys_in proof (snd (fst b)) /\ x <> fst (fst b)) bs.
Lemma combined_fold proof alpha x bs : forall sum,
  fold_left (fun sum (b : K * list (nat * nat) * K) =>
     (alpha ^ N.of_nat (length (snd (fst b))) * sum + (powers_sum (map (leaf_value proof) (snd (fst b))) alpha - snd b) / (x - fst (fst b)))%K) bs sum
  = (alpha ^ N.of_nat (length (flat_map (fun b : K * list (nat * nat) * K => snd (fst b)) bs)) * sum + combined proof alpha x bs)%K.
Proof.
  induction bs as [|[[z polys] o] bs IH]; intros sum; cbn [fold_left flat_map combined fst snd].
  - change (N.of_nat (length (@nil (nat * nat)))) with 0%N. rewrite kpow_0. ring.
  - rewrite IH, app_length, Nat2N.inj_add, kpow_add. ring.
Qed.
Lemma combine_correct proof alpha x bs oracles reduced : canon_leaves proof ->
  reduced = map repK (map snd bs) ->
  enforces (friCombineInitial (mkInstanceInfo oracles (map (fun b => mkBatchInfo (repK (fst (fst b))) (snd (fst b))) bs)) proof
              (repK alpha) (repK x) reduced)
    (combine_cond proof x bs) (repK (combined proof alpha x bs)).
Proof.
  intros C ->. unfold friCombineInitial. cbn [Batches].
  eapply computes_enforces_bind; [apply computes_panic_if; rewrite !map_length, Nat.eqb_refl; reflexivity|].
  rewrite map_map. replace (combine _ _) with (map repB bs).
  2:{ clear. induction bs as [|b bs IH]; [reflexivity|]. cbn [map combine]. now rewrite IH. }
  rewrite <- repK_0. eapply enforces_eq.
  - apply (enforces_foldM _ repK repB (fun sum (b : K * list (nat * nat) * K) =>
     (alpha ^ N.of_nat (length (snd (fst b))) * sum + (powers_sum (map (leaf_value proof) (snd (fst b))) alpha - snd b) / (x - fst (fst b)))%K)
     (fun b : K * list (nat * nat) * K => polys_in proof (snd (fst b)) /\ x <> fst (fst b))).
    intros sum [[z polys] o] _. now apply combine_step_correct.
  - apply f_equal. rewrite combined_fold. ring.
Qed.

(** ** Domain points *)
Definition dom (s : GF) (n : nat) (i : Z) : GF := (s * root n ^ Z.to_N (bitrev n i))%GF.
Lemma bitrev_split k : forall m x, bitrev (k + m) x = bitrev k x * 2 ^ Z.of_nat m + bitrev m (x / 2 ^ Z.of_nat k).
Proof.
  induction k as [|k IH]; intros m x; cbn [Nat.add bitrev].
  - change (2 ^ Z.of_nat 0) with 1. rewrite Z.div_1_r. ring.
  - rewrite IH. rewrite Nat2Z.inj_add, Z.pow_add_r by lia. rewrite Z.div_div by lia.
    rewrite Nat2Z.inj_succ, Z.pow_succ_r by lia. ring.
Qed.
Lemma bitrev_mod n : forall x, bitrev n (x mod 2 ^ Z.of_nat n) = bitrev n x.
Proof.
  induction n as [|n IH]; intros x; cbn [bitrev]; [reflexivity|].
  rewrite Nat2Z.inj_succ, Z.pow_succ_r by lia.
  rewrite Z.rem_mul_r by lia.
  replace ((x mod 2 + 2 * ((x / 2) mod 2 ^ Z.of_nat n)) mod 2) with (x mod 2).
  2:{ rewrite (Z.mul_comm 2), Z.mod_add by lia. now rewrite Z.mod_mod by lia. }
  replace ((x mod 2 + 2 * ((x / 2) mod 2 ^ Z.of_nat n)) / 2) with ((x / 2) mod 2 ^ Z.of_nat n).
  2:{ rewrite (Z.mul_comm 2), Z.div_add by lia. rewrite (Z.div_small (x mod 2)) by (apply Z.mod_pos_bound; lia). lia. }
  now rewrite IH.
Qed.
Lemma root_step n k : (k <= n)%nat -> (n <= TWO_ADICITY)%nat -> (root n ^ (2 ^ N.of_nat (n - k)) = root k)%GF.
Proof.
  intros Hk Hn. unfold root. rewrite <- gpow_mul. apply f_equal. rewrite <- N.pow_add_r. apply f_equal. lia.
Qed.
(** the point where the coset of index i starts *)
Definition dom_coset (s : GF) (n : nat) (i : Z) : GF := (s * root n ^ Z.to_N (bitrev (n - 4) (i / 16)))%GF.
Lemma dom_split s n i : (4 <= n)%nat -> (n <= TWO_ADICITY)%nat ->
  dom s n i = (dom_coset s n i * root 4 ^ Z.to_N (bitrev 4 i))%GF.
Proof.
  intros H4 Hn. unfold dom, dom_coset.
  assert (E : bitrev n i = bitrev 4 i * 2 ^ Z.of_nat (n - 4) + bitrev (n - 4) (i / 16)).
  { replace n with (4 + (n - 4))%nat at 1 by lia. rewrite bitrev_split. change (2 ^ Z.of_nat 4) with 16. reflexivity. }
  rewrite E. pose proof (bitrev_range 4 i) as R1. pose proof (bitrev_range (n - 4) (i / 16)) as R2.
  rewrite Z2N.inj_add, Z2N.inj_mul by (try apply Z.mul_nonneg_nonneg; lia).
  replace (Z.to_N (2 ^ Z.of_nat (n - 4))) with (2 ^ N.of_nat (n - 4))%N.
  2:{ rewrite Z2N.inj_pow by lia. rewrite <- (nat_N_Z (n - 4)), N2Z.id. reflexivity. }
  rewrite gpow_add, (N.mul_comm (Z.to_N (bitrev 4 i))), gpow_mul, (root_step n 4) by assumption. ring.
Qed.
Lemma coset_start_dom s n i : (4 <= n)%nat -> (n <= TWO_ADICITY)%nat -> coset_start 4 (dom s n i) i = dom_coset s n i.
Proof.
  intros H4 Hn. rewrite dom_split by assumption. unfold coset_start. set (b := Z.to_N (bitrev 4 i)).
  assert (E : ((root 4 ^ (2 ^ N.of_nat 4 - 1)) ^ b * root 4 ^ b = 1)%GF).
  { rewrite <- gpow_mul, <- gpow_add. replace ((2 ^ N.of_nat 4 - 1) * b + b)%N with (2 ^ N.of_nat 4 * b)%N by lia.
    rewrite gpow_mul, root_order_1 by (unfold TWO_ADICITY; lia). apply gpow_1_l. }
  replace ((root 4 ^ (2 ^ N.of_nat 4 - 1)) ^ b * (dom_coset s n i * root 4 ^ b))%GF
    with (dom_coset s n i * ((root 4 ^ (2 ^ N.of_nat 4 - 1)) ^ b * root 4 ^ b))%GF by ring. rewrite E. ring.
Qed.
Lemma dom_coset_point s n i j : (4 <= n)%nat -> (n <= TWO_ADICITY)%nat -> (j < 16)%nat ->
  dom s n (16 * (i / 16) + Z.of_nat j) = (dom_coset s n i * root 4 ^ N.of_nat (rev_bits 4 j))%GF.
Proof.
  intros H4 Hn Hj. rewrite dom_split by assumption.
  assert (E1 : (16 * (i / 16) + Z.of_nat j) / 16 = i / 16).
  { rewrite Z.add_comm, (Z.mul_comm 16), Z.div_add, Z.div_small by lia. lia. }
  assert (E2 : bitrev 4 (16 * (i / 16) + Z.of_nat j) = Z.of_nat (rev_bits 4 j)).
  { rewrite rev_bits_bitrev. rewrite <- (bitrev_mod 4 (16 * (i / 16) + Z.of_nat j)). change (2 ^ Z.of_nat 4) with 16.
    rewrite Z.add_comm, (Z.mul_comm 16), Z.mod_add, Z.mod_small by lia. reflexivity. }
  unfold dom_coset at 1. rewrite E1, E2. fold (dom_coset s n i). rewrite <- nat_N_Z, N2Z.id. reflexivity.
Qed.
Lemma dom_fold s n i : (4 <= n)%nat -> (n <= TWO_ADICITY)%nat ->
  (dom s n i ^ 16 = dom (s ^ 16) (n - 4) (i / 16))%GF.
Proof.
  intros H4 Hn. rewrite dom_split by assumption. unfold dom_coset, dom. rewrite !gpow_mul_l.
  rewrite <- (gpow_mul (root 4)), (N.mul_comm _ 16), (gpow_mul (root 4)).
  change 16%N with (2 ^ N.of_nat 4)%N at 3. rewrite (root_order_1 4) by (unfold TWO_ADICITY; lia). rewrite gpow_1_l.
  rewrite <- (gpow_mul (root n)), (N.mul_comm _ 16), (gpow_mul (root n)).
  assert (E : (root n ^ 16 = root (n - 4))%GF).
  { rewrite <- (root_step n (n - 4)) by lia. replace (n - (n - 4))%nat with 4%nat by lia. reflexivity. }
  rewrite E. ring.
Qed.
Lemma dom_nz s n i : s <> 0%GF -> (n <= TWO_ADICITY)%nat -> dom s n i <> 0%GF.
Proof.
  intros Hs Hn E. unfold dom in E. apply gmul_eq0 in E. destruct E as [E|E]; [contradiction|]. revert E. now apply gpow_nz, root_nz.
Qed.

(** ** The chain of reductions *)
Definition flat_evals (evals : list QE) : list Z := flat_map (fun e : QE => [fst e; snd e]) evals.
Definition no_qe : QE := (0, 0).
(** P has at most 16 coefficients and its values on the 16 points of the coset of index i
    are the opened ones *)
Definition interpolant (s : GF) (n : nat) (i : Z) (evals : list QE) (P : list K) : Prop :=
  (length P <= 16)%nat /\
  forall j, (j < 16)%nat -> kpeval P (emb (dom s n (16 * (i / 16) + Z.of_nat j))) = injK (nth j evals no_qe).
(** the coset does not contain beta *)
Definition beta_ok (s : GF) (n : nat) (i : Z) (beta : K) : Prop :=
  forall j, (j < 16)%nat -> beta <> emb (dom s n (16 * (i / 16) + Z.of_nat j)).
Fixpoint chain_ok (final : list K) (cidx : Z) (steps : list FriQueryStep) (betas : list K) (caps : list FriMerkleCap)
    (s : GF) (n : nat) (i : Z) (old : K) {struct steps} : Prop :=
  match steps with
  | [] => kpeval final (emb (dom s n i)) = old
  | step :: steps' =>
      match betas, caps with
      | beta :: betas', cap :: caps' =>
          length cap = 16%nat /\
          merkle_root (HashOrNoop (flat_evals (Evals step))) (i / 16) (st_Siblings step) = nth (Z.to_nat cidx) cap 0 /\
          injK (nth (Z.to_nat (i mod 16)) (Evals step) no_qe) = old /\
          beta_ok s n i beta /\
          exists P, interpolant s n i (Evals step) P /\
            chain_ok final cidx steps' betas' caps' (s ^ 16)%GF (n - 4) (i / 16) (kpeval P beta)
      | _, _ => False
      end
  end.

Lemma enforces_assoc {A B C} (c : circ A) (f : A -> circ B) (g : B -> circ C) P b :
  enforces (bind c (fun a => bind (f a) g)) P b -> enforces (bind (bind c f) g) P b.
Proof.
  intros [H1 H2]. split.
  - intros HP. specialize (H1 HP). rewrite run_bind in H1. rewrite !run_bind. destruct (run c); auto. now rewrite <- run_bind.
  - intros b' R. apply H2. now apply bind_assoc_reach.
Qed.
Lemma merkle_enforces_h leaf n idx h cidx cap sibs : (length sibs <= n)%nat -> (h = 4%nat -> 0 <= cidx < 16) ->
  enforces (verifyMerkleProofToCapWithCapIndex leaf (bits_of n idx) (bits_of h cidx) cap sibs)
           (h = 4%nat /\ length cap = 16%nat /\ merkle_root (HashOrNoop leaf) idx sibs = nth (Z.to_nat cidx) cap 0) tt.
Proof.
  intros Hn Hc. destruct (Nat.eq_dec h 4) as [->|Nh]; [destruct (Nat.eq_dec (length cap) 16) as [Lc|Nc]|].
  - eapply enforces_iff; [apply merkle_enforces; auto|]. tauto.
  - split; [tauto|]. intros a' R. exfalso. unfold verifyMerkleProofToCapWithCapIndex in R. apply reach_bind in R. destruct R as (d & _ & R).
    apply reach_bind in R. destruct R as (u & R & _). apply (enforces_sound _ _ _ _ (enforces_panic_if _ _)) in R. destruct R as [R _].
    apply orb_false_iff in R. destruct R as [_ R]. apply negb_false_iff, Nat.eqb_eq in R. contradiction.
  - split; [tauto|]. intros a' R. exfalso. unfold verifyMerkleProofToCapWithCapIndex in R. apply reach_bind in R. destruct R as (d & _ & R).
    apply reach_bind in R. destruct R as (u & R & _). apply (enforces_sound _ _ _ _ (enforces_panic_if _ _)) in R. destruct R as [R _].
    apply orb_false_iff in R. destruct R as [R _]. apply negb_false_iff, Nat.eqb_eq in R. rewrite length_bits_of in R. contradiction.
Qed.
Lemma bits_of_mod n : forall x, bits_of n (x mod 2 ^ Z.of_nat n) = bits_of n x.
Proof.
  induction n as [|n IH]; intros x; cbn [bits_of]; [reflexivity|].
  rewrite Nat2Z.inj_succ, Z.pow_succ_r by lia. rewrite Z.rem_mul_r by lia.
  replace ((x mod 2 + 2 * ((x / 2) mod 2 ^ Z.of_nat n)) mod 2) with (x mod 2).
  2:{ rewrite (Z.mul_comm 2), Z.mod_add by lia. now rewrite Z.mod_mod by lia. }
  replace ((x mod 2 + 2 * ((x / 2) mod 2 ^ Z.of_nat n)) / 2) with ((x / 2) mod 2 ^ Z.of_nat n).
  2:{ rewrite (Z.mul_comm 2), Z.div_add by lia. rewrite (Z.div_small (x mod 2)) by (apply Z.mod_pos_bound; lia). lia. }
  now rewrite IH.
Qed.
Lemma bits4_mod i : bits_of 4 i = bits_of 4 (i mod 16).
Proof. change 16 with (2 ^ Z.of_nat 4). symmetry. apply bits_of_mod. Qed.

(** interpolants exist and agree *)
Lemma interpolant_coset s n i evals P : (4 <= n)%nat -> (n <= TWO_ADICITY)%nat ->
  interpolant s n i evals P <->
  (length P <= 2 ^ 4)%nat /\ forall j, (j < 2 ^ 4)%nat ->
     kpeval P (emb (dom_coset s n i * root 4 ^ N.of_nat (rev_bits 4 j))%GF) = nth j (map injK evals) k0.
Proof.
  intros H4 Hn. unfold interpolant. change (2 ^ 4)%nat with 16%nat.
  assert (E : forall j, nth j (map injK evals) k0 = injK (nth j evals no_qe)).
  { intros j. replace k0 with (injK no_qe); [apply map_nth|]. unfold injK, no_qe, k0. cbn [fst snd]. now rewrite <- g0_inj. }
  split; intros [L H]; (split; [exact L|]); intros j Hj.
  - rewrite E, <- H by exact Hj. now rewrite dom_coset_point.
  - rewrite <- E, <- H by exact Hj. now rewrite dom_coset_point.
Qed.
Lemma dom_coset_nz s n i : s <> 0%GF -> (n <= TWO_ADICITY)%nat -> dom_coset s n i <> 0%GF.
Proof.
  intros Hs Hn E. unfold dom_coset in E. apply gmul_eq0 in E. destruct E as [E|E]; [contradiction|]. revert E. now apply gpow_nz, root_nz.
Qed.
Lemma interpolant_exists s n i evals : s <> 0%GF -> (4 <= n)%nat -> (n <= TWO_ADICITY)%nat -> length evals = 16%nat ->
  exists P, interpolant s n i evals P.
Proof.
  intros Hs H4 Hn L. destruct (coset_poly_exists 4 (dom_coset s n i) (map injK evals)) as (P & HP).
  - unfold TWO_ADICITY. lia.
  - now rewrite map_length.
  - now apply dom_coset_nz.
  - exists P. now apply interpolant_coset.
Qed.
Lemma kregular d : d <> k0 -> regular k0 kmul d.
Proof. intros H y E. apply kmul_eq0 in E. tauto. Qed.
Lemma kseparated xs : NoDup xs -> separated k0 kmul ksub xs.
Proof.
  induction 1 as [|a l Ha ND IH]; constructor; [|exact IH].
  apply Forall_forall. intros b Hb. apply kregular. intros E. apply (proj1 (ksub_eq0 _ _)) in E. now subst.
Qed.
Lemma interpolant_unique s n i evals P Q x : s <> 0%GF -> (4 <= n)%nat -> (n <= TWO_ADICITY)%nat ->
  interpolant s n i evals P -> interpolant s n i evals Q -> kpeval P x = kpeval Q x.
Proof.
  intros Hs H4 Hn HP HQ. apply (proj1 (interpolant_coset _ _ _ _ _ H4 Hn)) in HP, HQ. destruct HP as [LP HP]. destruct HQ as [LQ HQ].
  set (xs := coset 4 (dom_coset s n i)).
  assert (Ls : length xs = (2 ^ 4)%nat) by apply coset_length.
  refine (agree _ _ _ _ _ _ K_ring xs (kpeval P) (kpeval Q) _ _ _ _ x).
  - apply kseparated, coset_nodup; [unfold TWO_ADICITY; lia|now apply dom_coset_nz].
  - exists P. rewrite Ls. split; [exact LP|reflexivity].
  - exists Q. rewrite Ls. split; [exact LQ|reflexivity].
  - intros y Hy. unfold xs, coset in Hy. apply in_map_iff in Hy. destruct Hy as (k & <- & Hk). apply in_seq in Hk.
    rewrite <- (rev_bits_inv 4 k) by lia. rewrite HP, HQ by apply rev_bits_lt. reflexivity.
Qed.
Lemma beta_ok_coset s n i beta : (4 <= n)%nat -> (n <= TWO_ADICITY)%nat -> beta_ok s n i beta <-> ~ In beta (coset 4 (dom_coset s n i)).
Proof.
  intros H4 Hn. unfold beta_ok, coset. rewrite in_map_iff. split.
  - intros H (k & E & Hk). apply in_seq in Hk. apply (H (rev_bits 4 k) (rev_bits_lt 4 k)).
    rewrite dom_coset_point by (auto; apply (rev_bits_lt 4)). rewrite rev_bits_inv by lia. now rewrite E.
  - intros H j Hj E. apply H. exists (rev_bits 4 j). split; [|apply in_seq; split; [lia|apply (rev_bits_lt 4)]].
    rewrite E, dom_coset_point by assumption. reflexivity.
Qed.

(** the state carried from one reduction to the next *)
Definition qstate (s : GF) (n : nat) (i : Z) (old : K) : QE * Z * list Z := (repK old, rep (dom s n i), bits_of n i).

Definition step_cond (beta : K) (cap : FriMerkleCap) (step : FriQueryStep) (h : nat) (cidx : Z) (s : GF) (n : nat) (i : Z) (old : K) : Prop :=
  length cap = 16%nat /\
  merkle_root (HashOrNoop (flat_evals (Evals step))) (i / 16) (st_Siblings step) = nth (Z.to_nat cidx) cap 0 /\
  injK (nth (Z.to_nat (i mod 16)) (Evals step) no_qe) = old /\ beta_ok s n i beta.
Lemma sq4 (x : GF) : Nat.iter 4 (fun y => y * y)%GF x = (x ^ 16)%GF.
Proof.
  change 16%N with (N.succ (N.succ (N.succ (N.succ (N.succ (N.succ (N.succ (N.succ (N.succ (N.succ (N.succ (N.succ (N.succ (N.succ (N.succ 1))))))))))))))).
  rewrite !gpow_succ, gpow_1. cbn [Nat.iter nat_rect]. ring.
Qed.
Lemma query_step_correct challenges proof round h cidx i step arity s n idx old P beta :
  nth_error (Steps round) i = Some step -> Forall canonQE (Evals step) ->
  FriBetas challenges = map repK (map injK (FriBetas challenges)) -> nth i (map injK (FriBetas challenges)) k0 = beta ->
  Z.of_nat (length (Evals step)) = shl_int (Z.of_nat arity) -> (arity <= n)%nat -> (length (st_Siblings step) <= n - arity)%nat ->
  s <> 0%GF -> (n <= TWO_ADICITY)%nat -> 0 <= cidx < 16 ->
  (arity = 4%nat -> interpolant s n idx (Evals step) P) ->
  enforces (query_step challenges proof round (bits_of h cidx) (qstate s n idx old) (i, arity))
    (arity = 4%nat /\ h = 4%nat /\ (i < length (FriBetas challenges))%nat /\ (i < length (CommitPhaseMerkleCaps proof))%nat /\
       step_cond beta (nth i (CommitPhaseMerkleCaps proof) []) step h cidx s n idx old)
    (qstate (s ^ 16)%GF (n - 4) (idx / 16) (kpeval P beta)).
Proof.
  intros Hs Hc HB Hb He Ha Hl Hnz Hn Hci HP. unfold query_step, qstate.
  eapply computes_enforces_bind; [apply computes_of_opt; exact Hs|]. cbv zeta.
  eapply computes_enforces_bind; [apply computes_slice_from; now rewrite length_bits_of|].
  eapply computes_enforces_bind; [apply computes_slice_to; now rewrite length_bits_of|].
  destruct (Nat.eq_dec arity 4) as [->|Na].
  2:{ split; [tauto|]. intros a' R. exfalso. apply reach_bind in R. destruct R as (u & R & _).
      apply (enforces_sound _ _ _ _ (enforces_panic_if _ _)) in R. destruct R as [R _]. apply negb_false_iff, Nat.eqb_eq in R. contradiction. }
  specialize (HP eq_refl).
  assert (L16 : length (Evals step) = 16%nat).
  { change (shl_int (Z.of_nat 4)) with 16 in He. lia. }
  eapply computes_enforces_bind; [apply computes_panic_if; reflexivity|].
  rewrite firstn_bits, skipn_bits by exact Ha. change (2 ^ Z.of_nat 4) with 16.
  rewrite bits4. set (b0 := Z.odd (idx / 2 ^ 0)). set (b1 := Z.odd (idx / 2 ^ 1)). set (b2 := Z.odd (idx / 2 ^ 2)). set (b3 := Z.odd (idx / 2 ^ 3)).
  do 2 (eapply computes_enforces_bind; [apply computes_of_opt; reflexivity|]).
  set (leafv := fun j => sel4 b0 b1 (nth (j * 4) (Evals step) no_qe) (nth (j * 4 + 1) (Evals step) no_qe) (nth (j * 4 + 2) (Evals step) no_qe) (nth (j * 4 + 3) (Evals step) no_qe)).
  eapply computes_enforces_bind.
  { apply (computes_mapM _ leafv). intros j Hj. apply in_seq in Hj.
    do 4 (eapply computes_bind; [apply (computes_nth _ _ no_qe); lia|]). apply lookup2_correct. }
  cbn [seq map]. do 6 (eapply computes_enforces_bind; [apply computes_of_opt; reflexivity|]).
  eapply computes_enforces_bind; [apply lookup2_correct|].
  assert (E : (if b3 then if b2 then leafv 3%nat else leafv 2%nat else if b2 then leafv 1%nat else leafv 0%nat)
              = nth (Z.to_nat (idx mod 16)) (Evals step) no_qe).
  { pose proof (sel16 no_qe (Evals step) (idx mod 16) L16 (Z.mod_pos_bound idx 16 ltac:(lia))) as S.
    pose proof (bits4_mod idx) as Eb. rewrite !bits4 in Eb. injection Eb as E0 E1 E2 E3.
    assert (BI : forall u v : bool, Z.b2z u = Z.b2z v -> u = v) by (intros [] []; [reflexivity|discriminate|discriminate|reflexivity]).
    apply BI in E0, E1, E2, E3. cbv beta zeta in S. rewrite <- E0, <- E1, <- E2, <- E3 in S. exact S. }
  rewrite E. set (ev := nth (Z.to_nat (idx mod 16)) (Evals step) no_qe).
  assert (Cev : canonQE ev).
  { rewrite Forall_forall in Hc. apply Hc. apply nth_In. rewrite L16. pose proof (Z.mod_pos_bound idx 16 ltac:(lia)). lia. }
  eapply enforces_iff with (P := (fst ev = fst (repK old) /\ snd ev = snd (repK old) /\ (i < length (FriBetas challenges))%nat /\
     beta_ok s n idx beta /\ (i < length (CommitPhaseMerkleCaps proof))%nat /\
     (h = 4%nat /\ length (nth i (CommitPhaseMerkleCaps proof) []) = 16%nat /\
        merkle_root (HashOrNoop (flat_evals (Evals step))) (idx / 16) (st_Siblings step) = nth (Z.to_nat cidx) (nth i (CommitPhaseMerkleCaps proof) []) 0)) /\ True).
  2:{ fold ev. unfold step_cond. fold ev. assert (Eo : fst ev = fst (repK old) /\ snd ev = snd (repK old) <-> injK ev = old).
      { rewrite <- (repK_injK ev Cev). split.
        - intros [F1 F2]. rewrite injK_repK. apply K_eq; apply GF_eq; [exact F1|exact F2].
        - intros F. rewrite injK_repK in F. now rewrite F. }
      tauto. }
  eapply enforces_iff.
  - eapply enforces_bind; [apply enforces_assert_eq|]. intros _.
    eapply enforces_bind; [apply enforces_assert_eq|]. intros _.
    eapply enforces_bind; [rewrite HB; apply (enforces_nth _ _ (repK k0))|]. intros Hib. rewrite map_nth.
    rewrite Hb.
    eapply enforces_bind.
    { change [Z.b2z b0; Z.b2z b1; Z.b2z b2; Z.b2z b3] with [Z.b2z (Z.odd (idx / 2 ^ 0)); Z.b2z (Z.odd (idx / 2 ^ 1)); Z.b2z (Z.odd (idx / 2 ^ 2)); Z.b2z (Z.odd (idx / 2 ^ 3))].
      rewrite <- bits4. rewrite <- (map_repK_injK (Evals step) Hc) at 1.
      eapply enforces_iff; [apply (compute_evaluation_poly 4 (dom s n idx) idx (map injK (Evals step)) beta P)|].
      - lia.
      - now rewrite map_length.
      - now apply dom_nz.
      - apply HP.
      - rewrite coset_start_dom by assumption. now apply (interpolant_coset s n idx (Evals step) P).
      - rewrite coset_start_dom by assumption. symmetry. now apply beta_ok_coset. }
    intros Hbo. eapply enforces_bind; [apply (enforces_nth _ _ [])|]. intros Hic.
    eapply enforces_bind; [apply merkle_enforces_h; [exact Hl|intros _; exact Hci]|]. intros Hm.
    eapply computes_enforces_bind; [apply (computes_repeatM _ rep (fun y => y * y)%GF); intros; apply gmul_correct|].
    eapply enforces_eq; [apply enforces_ret|]. rewrite sq4, dom_fold by assumption. reflexivity.
  - rewrite !map_length. tauto.
Qed.

(** ** All the reductions of a query *)
Fixpoint steps_shape (h : nat) (n : Z) (steps : list FriQueryStep) (arities : list nat) : Prop :=
  match steps, arities with
  | step :: steps', a :: arities' =>
      Z.of_nat (length (Evals step)) = shl_int (Z.of_nat a) /\
      Z.of_nat (length (st_Siblings step) + h) = n - Z.of_nat a /\
      steps_shape h (n - Z.of_nat a) steps' arities'
  | [], [] => True
  | _, _ => False
  end.
Lemma skipn_cons_nth {A} (l : list A) i x t : skipn i l = x :: t -> nth_error l i = Some x /\ skipn (S i) l = t.
Proof.
  revert i. induction l as [|a l IH]; intros [|i] E; try discriminate E.
  - cbn [skipn] in E. injection E as -> ->. split; reflexivity.
  - cbn [skipn nth_error]. apply IH. exact E.
Qed.
Lemma skipn_nil_len {A} (l : list A) i : skipn i l = [] -> (length l <= i)%nat.
Proof. intros E. apply (f_equal (@length A)) in E. rewrite skipn_length in E. cbn [length] in E. lia. Qed.
Lemma skipn_nth_cons {A} (l : list A) i d : (i < length l)%nat -> skipn i l = nth i l d :: skipn (S i) l.
Proof.
  revert i. induction l as [|a l IH]; intros [|i] H; cbn [length] in H; try lia; [reflexivity|]. cbn [skipn nth]. apply IH. lia.
Qed.
Definition query_end (proof : FriProof) (st : QE * Z * list Z) : circ unit :=
  let '(oldEval, subgroupX, _) := st in
  finalEval <- finalPolyEval (FinalPoly proof) (ToQuadraticExtension subgroupX);;
  AssertIsEqual (fst oldEval) (fst finalEval);;;
  AssertIsEqual (snd oldEval) (snd finalEval).
Lemma chain_correct challenges proof round cidx : Forall canonQE (FinalPoly proof) ->
  FriBetas challenges = map repK (map injK (FriBetas challenges)) -> 0 <= cidx < 16 ->
  forall steps arities i s n idx old,
  skipn i (Steps round) = steps -> Forall (fun st => Forall canonQE (Evals st)) steps ->
  steps_shape 4 (Z.of_nat n) steps arities -> s <> 0%GF -> (n <= TWO_ADICITY)%nat ->
  enforces (bind (foldM (query_step challenges proof round (bits_of 4 cidx)) (qstate s n idx old) (combine (seq i (length arities)) arities)) (query_end proof))
    (Forall (fun a => a = 4%nat) arities /\
     chain_ok (map injK (FinalPoly proof)) cidx steps (skipn i (map injK (FriBetas challenges))) (skipn i (CommitPhaseMerkleCaps proof)) s n idx old) tt.
Proof.
  intros Hf HB Hci. induction steps as [|step steps IH]; intros arities i s n idx old Es Hc Hsh Hs Hn.
  - destruct arities as [|a arities]; [|destruct Hsh]. cbn [length seq combine foldM chain_ok].
    eapply computes_enforces_bind; [apply computes_ret|]. unfold query_end, qstate.
    rewrite <- (map_repK_injK (FinalPoly proof) Hf) at 1. rewrite <- repK_emb.
    eapply computes_enforces_bind; [apply final_poly_correct|].
    eapply enforces_iff; [eapply enforces_bind; [apply enforces_assert_eq|intros _; apply enforces_assert_eq]|].
    split.
    + intros [E1 E2]. split; [constructor|]. symmetry. apply K_eq; apply GF_eq; assumption.
    + intros [_ ->]. split; reflexivity.
  - destruct arities as [|a arities]; [destruct Hsh|]. destruct Hsh as (He & Hl & Hsh).
    inversion Hc as [|? ? Hc1 Hc2]; subst. apply skipn_cons_nth in Es. destruct Es as [Es1 Es2].
    cbn [length seq combine foldM]. apply enforces_assoc.
    set (beta := nth i (map injK (FriBetas challenges)) k0).
    set (cap := nth i (CommitPhaseMerkleCaps proof) []).
    assert (HP : exists P, a = 4%nat -> interpolant s n idx (Evals step) P).
    { destruct (Nat.eq_dec a 4) as [->|N]; [|exists []; contradiction].
      destruct (interpolant_exists s n idx (Evals step)) as (P & HP); try assumption; [lia| |exists P; auto].
      change (shl_int (Z.of_nat 4)) with 16 in He. lia. }
    destruct HP as [P HP].
    destruct (Nat.eq_dec a 4) as [->|Na].
    2:{ eapply enforces_iff with (P := (a = 4%nat /\ 4%nat = 4%nat /\ (i < length (FriBetas challenges))%nat /\ (i < length (CommitPhaseMerkleCaps proof))%nat /\
         step_cond beta cap step 4 cidx s n idx old) /\ False).
        - eapply enforces_bind; [apply (query_step_correct _ _ _ _ _ _ step a s n idx old P beta); auto; lia|]. intros [N _]. contradiction.
        - split; [tauto|]. intros [F _]. inversion F; contradiction. }
    specialize (HP eq_refl). change (Z.of_nat 4) with 4 in Hl, Hsh.
    eapply enforces_iff.
    + eapply enforces_bind; [apply (query_step_correct _ _ _ _ _ _ step 4 s n idx old P beta); auto; lia|].
      intros _. apply (IH arities (S i) (s ^ 16)%GF (n - 4)%nat (idx / 16) (kpeval P beta)); auto.
      * replace (Z.of_nat (n - 4)) with (Z.of_nat n - 4) by lia. exact Hsh.
      * now apply gpow_nz.
      * lia.
    + cbn [chain_ok]. split.
      * intros ((_ & _ & Hib & Hic & Lc & Hm & Ho & Hbo) & Fa & Hch). split; [constructor; auto|].
        rewrite (skipn_nth_cons (map injK (FriBetas challenges)) i k0) by now rewrite map_length.
        rewrite (skipn_nth_cons (CommitPhaseMerkleCaps proof) i []) by assumption.
        fold beta cap. split; [exact Lc|]. split; [exact Hm|]. split; [exact Ho|]. split; [exact Hbo|].
        exists P. split; [exact HP|exact Hch].
      * intros [Fa Hch]. destruct (Nat.lt_ge_cases i (length (FriBetas challenges))) as [Hib|Hib].
        2:{ exfalso. rewrite (skipn_all2 (map injK (FriBetas challenges))) in Hch by now rewrite map_length. exact Hch. }
        destruct (Nat.lt_ge_cases i (length (CommitPhaseMerkleCaps proof))) as [Hic|Hic].
        2:{ exfalso. rewrite (skipn_all2 (CommitPhaseMerkleCaps proof)) in Hch by exact Hic. destruct (skipn i (map injK (FriBetas challenges))); exact Hch. }
        rewrite (skipn_nth_cons (map injK (FriBetas challenges)) i k0) in Hch by now rewrite map_length.
        rewrite (skipn_nth_cons (CommitPhaseMerkleCaps proof) i []) in Hch by assumption.
        fold beta cap in Hch. destruct Hch as (Lc & Hm & Ho & Hbo & Q & HQ & Hch).
        rewrite (interpolant_unique s n idx (Evals step) Q P beta) in Hch by (auto; lia).
        split; [unfold step_cond; tauto|]. split; [now inversion Fa|exact Hch].
Qed.

(** ** One query round *)
Definition initial_ok (i cidx : Z) (proof : list FriEvalProof) (caps : list FriMerkleCap) : Prop :=
  length proof = length caps /\
  Forall (fun pc : FriEvalProof * FriMerkleCap => length (snd pc) = 16%nat /\
    merkle_root (HashOrNoop (Elements (fst pc))) i (ep_Siblings (fst pc)) = nth (Z.to_nat cidx) (snd pc) 0) (combine proof caps).
Lemma initial_correct n i h cidx proof caps : (h = 4%nat -> 0 <= cidx < 16) -> Forall (fun e => length (ep_Siblings e) <= n)%nat proof -> proof <> [] ->
  enforces (verifyInitialProof (bits_of n i) proof caps (bits_of h cidx)) (h = 4%nat /\ initial_ok i cidx proof caps) tt.
Proof.
  intros Hc Hl Hne. unfold verifyInitialProof.
  eapply enforces_iff.
  - eapply enforces_bind; [apply enforces_panic_if|]. intros _.
    apply (enforces_iterM _ (fun pc : FriEvalProof * FriMerkleCap => h = 4%nat /\ length (snd pc) = 16%nat /\
      merkle_root (HashOrNoop (Elements (fst pc))) i (ep_Siblings (fst pc)) = nth (Z.to_nat cidx) (snd pc) 0)).
    intros [e c] Hin. apply in_combine_l in Hin. apply merkle_enforces_h; [|exact Hc].
    rewrite Forall_forall in Hl. now apply Hl.
  - rewrite negb_false_iff, Nat.eqb_eq. unfold initial_ok. split.
    + intros [L F]. rewrite Forall_forall in F. split; [|split; [exact L|]].
      * destruct proof as [|e proof]; [contradiction|]. destruct caps as [|c caps]; [discriminate L|]. exact (proj1 (F (e, c) (or_introl eq_refl))).
      * apply Forall_forall. intros pc Hpc. exact (proj2 (F pc Hpc)).
    + intros (-> & L & F). split; [exact L|]. eapply Forall_impl; [|exact F]. cbn beta. tauto.
Qed.

Definition round_shape (params : FriParams) (oracles : list OracleInfo) (round : FriQueryRound) : Prop :=
  length (InitialTreesProof round) = length oracles /\
  Forall (fun eo : FriEvalProof * OracleInfo =>
    length (Elements (fst eo)) = (NumPolys (snd eo) + (if Blinding (snd eo) && Hiding params then 4 else 0))%nat /\
    (length (ep_Siblings (fst eo)) + CapHeight (fp_Config params) = LdeBits params)%nat) (combine (InitialTreesProof round) oracles) /\
  steps_shape (CapHeight (fp_Config params)) (Z.of_nat (LdeBits params)) (Steps round) (ReductionArityBits params).
Definition canon_round (round : FriQueryRound) : Prop :=
  canon_leaves (InitialTreesProof round) /\ Forall (fun st => Forall canonQE (Evals st)) (Steps round).

(** the index is the low n bits of the challenge; the cap entry is given by the four top bits *)
Definition query_ok (params : FriParams) (bs : list (K * list (nat * nat) * K)) (alpha : K) (betas : list K)
    (initialCaps : list FriMerkleCap) (proof : FriProof) (x : GF) (round : FriQueryRound) : Prop :=
  let n := LdeBits params in
  let i := rep x mod 2 ^ Z.of_nat n in
  let cidx := i / 2 ^ Z.of_nat (n - 4) in
  let point := emb (dom g7 n i) in
  (RateBits (fp_Config params) <= 15)%nat /\ (n <= TWO_ADICITY)%nat /\ CapHeight (fp_Config params) = 4%nat /\
  Forall (fun a => a = 4%nat) (ReductionArityBits params) /\
  initial_ok i cidx (InitialTreesProof round) initialCaps /\
  combine_cond (InitialTreesProof round) point bs /\
  chain_ok (map injK (FinalPoly proof)) cidx (Steps round) betas (CommitPhaseMerkleCaps proof) g7 n i
    (combined (InitialTreesProof round) alpha point bs).

Lemma noncanonical_ok params : enforces (assertNoncanonicalIndicesOK params)
  ((RateBits (fp_Config params) <= 15)%nat \/ (64 <= RateBits (fp_Config params))%nat) tt.
Proof.
  unfold assertNoncanonicalIndicesOK. eapply enforces_iff; [apply enforces_panic_if|].
  set (rb := RateBits (fp_Config params)). rewrite andb_false_iff, Nat.ltb_ge, Z.leb_gt. unfold MODULUS.
  assert (M : forall a b : nat, (a <= b)%nat -> 2 ^ Z.of_nat a <= 2 ^ Z.of_nat b) by (intros; apply Z.pow_le_mono_r; lia).
  split.
  - intros [H|H]; [now right|]. left. destruct (Nat.le_gt_cases rb 15) as [L|L]; [exact L|]. exfalso.
    specialize (M 16%nat rb ltac:(lia)). change (2 ^ Z.of_nat 16) with 65536 in M. cbn in H. lia.
  - intros [H|H]; [|now left]. right. specialize (M rb 15%nat H). change (2 ^ Z.of_nat 15) with 32768 in M. cbn. lia.
Qed.
