(** * Property C59: a prover who answers every query has committed to low degree polynomials that open to the claimed values. *)
From Coq Require Import String.
From Coq Require Import ZArith NArith Lia List Bool.
From Verif Require Import Zp GF Circuit Goldilocks GLProofs ExtProofs BN254 BN254Hash Types Challenger Fri Poly Roots FriMerkle FriEval FriQuery FriTop FriFacts Honest FriSound FriRewind FriExtract Prop_BN254.
Import ListNotations.
Open Scope Z_scope.
Local Opaque PoseidonBN HashOrNoop TwoToOne.

(** ** C59
    The prover is arbitrary.  It fixes the caps of the oracles and the openings, then sees
    alpha, and commits to one cap per reduction, each depending on the challenges drawn so
    far ([cap]), to a final polynomial ([final]) and, given the query indices, sends a proof
    ([ans]).  It is rewound: as many distinct alphas as there are opened values, sixteen
    distinct challenges in every reduction, and every index of the domain.  If
    VerifyFriProof accepts in all these runs and no two of the states hashed in them collide
    then the committed words are polynomials over the base field with at most
    2^DegreeBits + 1 coefficients, and every claimed opening is the value of its polynomial. *)
Theorem C59_fri_sound : forall params oracles points openings initialCaps
    (alphas : list K) (B : K -> list K -> list K) (cap : K -> list K -> FriMerkleCap) (final : K -> list K -> list QE) (ans : K -> list K -> Z -> transcript),
  let n := LdeBits params in let k := length (ReductionArityBits params) in
  oracles <> [] -> (1 <= RateBits (fp_Config params))%nat ->
  Forall2 (fun b os => length os = length (snd b)) points openings ->
  NoDup alphas -> length alphas = length (flat_map snd points) ->
  (forall alpha pre, In alpha alphas -> (length pre < k)%nat -> NoDup (B alpha pre) /\ length (B alpha pre) = 16%nat) ->
  (forall alpha betas i, In alpha alphas -> length betas = k -> in_tree (B alpha) [] betas -> 0 <= i < 2 ^ Z.of_nat n ->
     accepted params oracles points openings initialCaps alpha betas (caps_along (cap alpha) [] betas) (final alpha betas) i (ans alpha betas i)) ->
  no_collision (fun a => exists alpha betas i, In alpha alphas /\ length betas = k /\ in_tree (B alpha) [] betas /\ 0 <= i < 2 ^ Z.of_nat n /\
     In a (round_inputs (first_round (ans alpha betas i)) i)) ->
  exists F : nat * nat -> list GF, forall z polys os op o, In ((z, polys), os) (combine points openings) -> In (op, o) (combine polys os) ->
    (length (F op) <= 2 ^ fp_DegreeBits params + 1)%nat /\
    kpeval (map emb (F op)) z = o /\
    forall alpha betas i, In alpha alphas -> length betas = k -> in_tree (B alpha) [] betas -> 0 <= i < 2 ^ Z.of_nat n ->
      nth (snd op) (Elements (nth (fst op) (InitialTreesProof (first_round (ans alpha betas i))) no_eval)) 0 = rep (gpeval (F op) (dom g7 n i)).
Proof.
  intros params oracles points openings initialCaps alphas B cap final ans n k Hor Hr F2 ND La HB HA NC.
  assert (IA : forall i, In i (all_indices n) <-> 0 <= i < 2 ^ Z.of_nat n) by (intros i; apply all_indices_in).
  destruct (fri_extract params oracles points openings initialCaps alphas B cap final ans (all_indices n)) as (F & HF); try assumption.
  - apply all_indices_positions.
  - rewrite all_indices_length. apply Nat.pow_lt_mono_r; [lia|]. unfold n, LdeBits. lia.
  - intros alpha betas i Ia Lb Tb Ri. apply HA; try assumption. now apply IA.
  - intros a b (alpha & betas & i & Ia & Lb & Tb & Ri & Ha) (alpha' & betas' & i' & Ia' & Lb' & Tb' & Ri' & Hb). apply IA in Ri, Ri'.
    apply NC; [exists alpha, betas, i; tauto|exists alpha', betas', i'; tauto].
  - exists F. intros z polys os op o H1 H2. destruct (HF z polys os op o H1 H2) as (L & E & V). split; [exact L|]. split; [exact E|].
    intros alpha betas i Ia Lb Tb Ri. apply V; try assumption. now apply IA.
Qed.
Print Assumptions C59_fri_sound.

(** one reduction: sixteen folds of low degree come from a word of low degree.  The fold at b
    of a word is, coset by coset, the value at b of the interpolant of its sixteen values *)
Theorem C59_fold : forall s n (w : Z -> K) bs m, s <> 0%GF -> (4 <= n <= 32)%nat -> NoDup bs -> length bs = 16%nat ->
  (forall b, In b bs -> exists q, (length q <= m)%nat /\ forall t P, 0 <= t < 2 ^ Z.of_nat (n - 4) -> (length P <= 16)%nat ->
     (forall j, 0 <= j < 16 -> kpeval P (emb (dom s n (16 * t + j))) = w (16 * t + j)) ->
     kpeval P b = kpeval q (emb (dom (s ^ 16)%GF (n - 4) t))) ->
  exists f, (length f <= 16 * m)%nat /\ forall i, 0 <= i < 2 ^ Z.of_nat n -> w i = kpeval f (emb (dom s n i)).
Proof.
  intros s n w bs m Hs Hn ND Lb H.
  set (ys := fun t => map (fun j => w (16 * t + Z.of_nat j)) (seq 0 16)).
  assert (Ly : forall t j, (j < 16)%nat -> nth j (ys t) k0 = w (16 * t + Z.of_nat j)).
  { intros t j Hj. unfold ys. rewrite (nth_map_lt _ _ _ _ O), seq_nth by (rewrite ?seq_length; lia). reflexivity. }
  destruct (finite_choice (@nil K) (fun b q => (length q <= m)%nat /\ forall t P, 0 <= t < 2 ^ Z.of_nat (n - 4) -> (length P <= 16)%nat ->
     (forall j, 0 <= j < 16 -> kpeval P (emb (dom s n (16 * t + j))) = w (16 * t + j)) ->
     kpeval P b = kpeval q (emb (dom (s ^ 16)%GF (n - 4) t))) bs H) as (q & Hq).
  destruct (fold_sound (below n) s n ys bs q m Hs ltac:(lia) ltac:(unfold TWO_ADICITY; lia) ND Lb (fun b Hb => proj1 (Hq b Hb))) as (f & Lf & Ef).
  - intros b t Hb Ht. apply cosets_below in Ht; [|lia].
    assert (D : kdeg 16 (coset_value s n t (ys t))).
    { rewrite <- (coset_points_length s n t). apply (bary_deg k0 k1 kadd kmul ksub kopp K_ring). }
    destruct D as (P & LP & EP). change (forall x, coset_value s n t (ys t) x = kpeval P x) in EP. rewrite EP.
    apply (proj2 (Hq b Hb) t P Ht LP). intros j Hj. rewrite <- EP. rewrite <- (Z2Nat.id j) by lia.
    rewrite coset_value_at by (try assumption; unfold TWO_ADICITY; lia). apply Ly. lia.
  - exists f. split; [exact Lf|]. intros i Hi. rewrite <- Ef by exact Hi. pose proof (Z.mod_pos_bound i 16 ltac:(lia)) as M.
    rewrite Ly by lia. rewrite Z2Nat.id by lia. f_equal. apply Z.div_mod. lia.
Qed.
Print Assumptions C59_fold.
(** the powers of alpha: if the combinations for as many alphas as words have low degree then all the words have *)
Theorem C59_batch : forall s n m (ws : list (Z -> K)) alphas, NoDup alphas -> length alphas = length ws ->
  (forall alpha, In alpha alphas -> exists f, (length f <= m)%nat /\ forall i, 0 <= i < 2 ^ Z.of_nat n ->
     powers_sum (map (fun w => w i) ws) alpha = kpeval f (emb (dom s n i))) ->
  forall w, In w ws -> exists f, (length f <= m)%nat /\ forall i, 0 <= i < 2 ^ Z.of_nat n -> w i = kpeval f (emb (dom s n i)).
Proof.
  intros s n m ws alphas ND La H w Hw. apply (In_nth _ _ (fun _ => k0)) in Hw. destruct Hw as (j & Hj & Ej).
  destruct (batch_sound (below n) s n m (length ws) (fun i => map (fun w => w i) ws) alphas ND La (fun i => map_length _ ws)) with (j := j) as (f & Lf & Ef).
  - intros a Ha. destruct (H a Ha) as (f & Lf & Ef). exists f. split; [exact Lf|]. intros i Hi. rewrite <- Ef by exact Hi.
    unfold kpeval. generalize (map (fun w0 : Z -> K => w0 i) ws). intros l. induction l as [|v l IH]; cbn [peval powers_sum]; [reflexivity|]. now rewrite IH.
  - exists f. split; [exact Lf|]. intros i Hi. rewrite <- Ef by exact Hi. rewrite (nth_map_lt _ _ _ _ (fun _ => k0)) by exact Hj. now rewrite Ej.
Qed.
Print Assumptions C59_batch.
(** the polynomial of a committed word is unique *)
Theorem C59_unique : forall d n (F G : list GF), (d < n <= 32)%nat -> (length F <= 2 ^ d + 1)%nat -> (length G <= 2 ^ d + 1)%nat ->
  (forall i, 0 <= i < 2 ^ Z.of_nat n -> gpeval F (dom g7 n i) = gpeval G (dom g7 n i)) -> forall z, kpeval (map emb F) z = kpeval (map emb G) z.
Proof.
  intros d n F G Hn LF LG H.
  assert (Hd : (2 ^ d + 1 <= 2 ^ n)%nat).
  { assert (H2 : (2 ^ S d <= 2 ^ n)%nat) by (apply Nat.pow_le_mono_r; lia). rewrite Nat.pow_succ_r' in H2. pose proof (Nat.pow_nonzero 2 d ltac:(lia)). lia. }
  apply (kpeval_same n (all_indices n)); [unfold TWO_ADICITY; lia|apply all_indices_positions|rewrite map_length, all_indices_length; lia|rewrite map_length, all_indices_length; lia|].
  intros i Hi. rewrite !kpeval_emb. rewrite H; [reflexivity|]. now apply all_indices_in.
Qed.
Print Assumptions C59_unique.

(** ** The honest prover of C58 is accepted in all these runs *)
Fixpoint honest_cap (s : GF) (n : nat) (c : list K) (pre : list K) : FriMerkleCap :=
  match pre with [] => cap_of (coset_digest s n c) (n - 8) | b :: pre' => honest_cap (s ^ 16)%GF (n - 4) (fold16 c b) pre' end.
Lemma caps_along_shift s n c b : forall betas pre,
  caps_along (honest_cap s n c) (b :: pre) betas = caps_along (honest_cap (s ^ 16)%GF (n - 4) (fold16 c b)) pre betas.
Proof. induction betas as [|b' betas IH]; intros pre; [reflexivity|]. cbn [caps_along app]. now rewrite IH. Qed.
Lemma honest_caps_along betas : forall s n c, caps_along (honest_cap s n c) [] betas = commit_caps s n c betas.
Proof. induction betas as [|b betas IH]; intros s n c; [reflexivity|]. cbn [caps_along commit_caps app]. now rewrite caps_along_shift, IH. Qed.
Lemma path_range k : forall L i, (forall j, inr_ (L j)) -> Forall inr_ (path L k i).
Proof.
  induction k as [|k IH]; intros L i H; cbn [path]; constructor; [apply H|]. apply IH. intros j. unfold up. now apply C25_range.
Qed.
Lemma honest_siblings tables salts params c betas x : siblings_ok (honest_round tables salts params c betas x).
Proof.
  unfold honest_round, siblings_ok. cbn [InitialTreesProof Steps]. split.
  - unfold honest_trees. apply Forall_forall. intros e He. apply in_map_iff in He. destruct He as (o & <- & _). cbn [ep_Siblings].
    apply path_range. intros j. apply HashOrNoop_range.
  - generalize g7, (LdeBits params), c, (rep x mod 2 ^ Z.of_nat (LdeBits params)). induction betas as [|b betas IH]; intros s n c' i; cbn [commit_steps]; constructor.
    + cbn [st_Siblings]. apply path_range. intros j. apply HashOrNoop_range.
    + apply IH.
Qed.
(** so the hypothesis on acceptance in C59_fri_sound can be met with any number of reductions *)
Theorem C59_honest : forall params oracles tables salts points alpha betas pow witness i,
  honest_params params (length betas) -> honest_tables params oracles tables salts -> oracles <> [] -> Forall (poly_in tables) (flat_map snd points) ->
  betas_off g7 (LdeBits params) betas -> (1 <= NumQueryRounds (fp_Config params))%nat -> 0 <= i < 2 ^ Z.of_nat (LdeBits params) ->
  (forall z polys, In (z, polys) points -> emb (dom g7 (LdeBits params) i) <> z) ->
  rep pow < 2 ^ (64 - Z.of_nat (ProofOfWorkBits (fp_Config params))) ->
  let c := honest_codeword tables params alpha points in
  let indices := repeat (inj i) (NumQueryRounds (fp_Config params)) in
  accepted params oracles points (open_batches tables points) (honest_caps tables salts (LdeBits params)) alpha betas
    (caps_along (honest_cap g7 (LdeBits params) c) [] betas) (map repK (commit_final c betas)) i
    (mkTranscript (honest_fri tables salts params points alpha betas indices witness) pow indices).
Proof.
  intros params oracles tables salts points alpha betas pow witness i HP HT Hor Hpo Hb Hq Hi Hz Hw c indices.
  assert (Ri : rep (inj i) = i).
  { apply rep_inj_small. destruct HP as (_ & _ & _ & _ & _ & Hn). split; [lia|]. apply Z.lt_trans with (2 ^ 33); [|reflexivity].
    apply Z.lt_le_trans with (2 ^ Z.of_nat (LdeBits params)); [lia|]. apply Z.pow_le_mono_r; lia. }
  assert (Mi : rep (inj i) mod 2 ^ Z.of_nat (LdeBits params) = i) by (rewrite Ri; now apply Z.mod_small).
  assert (Hin : forall x, In x indices -> x = inj i) by (intros x Hx; now apply repeat_spec in Hx).
  destruct (honest_fri_ok params oracles tables salts points alpha betas pow indices witness HP HT Hpo Hb) as [C OK].
  - intros x z polys Hx Hz'. rewrite (Hin x Hx), Mi. now apply (Hz z polys).
  - unfold indices. apply repeat_length.
  - exact Hw.
  - unfold accepted. cbn [t_proof t_pow t_indices]. rewrite honest_caps_along. split; [reflexivity|]. split; [reflexivity|]. split; [|split; [exact C|split]].
    + unfold indices. destruct (NumQueryRounds (fp_Config params)) as [|q]; [lia|]. cbn [repeat]. exists (inj i), (repeat (inj i) q). now split.
    + unfold first_round. cbn [t_proof]. unfold honest_fri. cbn [QueryRoundProofs]. unfold indices.
      destruct (NumQueryRounds (fp_Config params)) as [|q]; [lia|]. cbn [repeat map hd]. apply honest_siblings.
    + apply (enforces_sat _ _ _ (verify_fri_correct params oracles points (open_batches tables points) alpha betas pow indices
        (honest_caps tables salts (LdeBits params)) _ C Hor ltac:(unfold open_batches; now rewrite map_length))). exact OK.
Qed.
Print Assumptions C59_honest.

(** 4 + 6X and X^7, opened at X and 7X (X^7 at both) on the domain of 16 points; three alphas; all hypotheses are met *)
Definition ex59_params := mkFriParams (mkFriConfig 1 4 16 2) false 3 [].
Definition ex59_tables : list (list (list GF)) := [[[inj 4; inj 6]; repeat g0 7 ++ [g1]]].
Definition ex59_oracles := [mkOracleInfo 2 false].
Definition ex59_points : list (K * list (nat * nat)) := [(kX, [(0, 0); (0, 1)]%nat); ((kX * emb g7)%K, [(0, 1)%nat])].
Definition ex59_alphas : list K := [k1; kX; (kX + 1)%K].
Definition ex59_ans (alpha : K) (betas : list K) (i : Z) : transcript :=
  mkTranscript (honest_fri ex59_tables (fun _ _ => []) ex59_params ex59_points alpha betas (repeat (inj i) 2) 0) g0 (repeat (inj i) 2).
Example C59_ex : exists F : nat * nat -> list GF,
  kpeval (map emb (F (0, 0)%nat)) kX = (emb (inj 4) + emb (inj 6) * kX)%K /\
  forall i, 0 <= i < 16 -> nth 1 (Elements (nth 0 (InitialTreesProof (first_round (ex59_ans k1 [] i))) no_eval)) 0 = rep (gpeval (F (0, 1)%nat) (dom g7 4 i)).
Proof.
  assert (N : forall x z, snd z <> g0 -> emb x <> z) by (intros x z H E; apply H; now rewrite <- E).
  assert (NZ : forall a : GF, rep a <> 0 -> a <> g0) by (intros a H E; apply H; now rewrite E).
  destruct (C59_fri_sound ex59_params ex59_oracles ex59_points (open_batches ex59_tables ex59_points) (honest_caps ex59_tables (fun _ _ => []) 4)
    ex59_alphas (fun _ _ => []) (fun alpha => honest_cap g7 4 (honest_codeword ex59_tables ex59_params alpha ex59_points))
    (fun alpha betas => map repK (commit_final (honest_codeword ex59_tables ex59_params alpha ex59_points) betas)) ex59_ans) as (F & HF).
  - discriminate.
  - cbn. lia.
  - repeat constructor.
  - assert (D : NoDup (map repK ex59_alphas)).
    { vm_compute. repeat (apply NoDup_cons; [intros H; repeat (destruct H as [H|H]; [discriminate H|]); exact H|]). apply NoDup_nil. }
    eapply NoDup_map_inv. exact D.
  - reflexivity.
  - intros alpha pre _ H. cbn in H. lia.
  - intros alpha betas i _ Lb _ Hi. destruct betas as [|b betas]; [|discriminate Lb].
    apply (C59_honest ex59_params ex59_oracles ex59_tables (fun _ _ => []) ex59_points alpha [] g0 0 i).
    + unfold honest_params. cbn. repeat split; lia.
    + split; [reflexivity|]. split.
      * repeat (apply Forall_cons || apply Forall_nil); vm_compute; lia.
      * intros o Ho. cbn [ex59_oracles length] in Ho. destruct o as [|o]; [|lia]. split; [reflexivity|]. intros j. split; [reflexivity|apply Forall_nil].
    + discriminate.
    + repeat (apply Forall_cons || apply Forall_nil); split; vm_compute; lia.
    + exact I.
    + cbn. lia.
    + exact Hi.
    + intros z polys Hz. apply N. destruct Hz as [Hz|[Hz|[]]]; apply (f_equal fst) in Hz; cbn [fst] in Hz; subst z; apply NZ; vm_compute; discriminate.
    + vm_compute. reflexivity.
  - intros a b (alpha & betas & i & _ & Lb & _ & _ & Ha). exfalso. destruct betas as [|b' betas]; [|discriminate Lb].
    exact Ha.
  - exists F. split.
    + destruct (HF kX [(0, 0); (0, 1)]%nat (map (fun op => kpeval (poly_of ex59_tables op) kX) [(0, 0); (0, 1)]%nat) (0, 0)%nat
        (kpeval (poly_of ex59_tables (0, 0)%nat) kX)) as (_ & E & _); [now left|now left|].
      rewrite E. unfold poly_of, ex59_tables, kpeval. cbn [nth fst snd map peval]. ring.
    + intros i Hi. destruct (HF kX [(0, 0); (0, 1)]%nat (map (fun op => kpeval (poly_of ex59_tables op) kX) [(0, 0); (0, 1)]%nat) (0, 1)%nat
        (kpeval (poly_of ex59_tables (0, 1)%nat) kX)) as (_ & _ & E); [now left|right; now left|].
      apply (E k1 [] i); [now left|reflexivity|exact I|exact Hi].
Qed.
