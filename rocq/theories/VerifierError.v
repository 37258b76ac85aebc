(** * Soundness of the whole verifier from the number of runs a prover wins: the polynomials. *)
From Coq Require Import String.
From Coq Require Import ZArith NArith Arith Lia List Bool.
From Verif Require Import Zp GF Circuit Goldilocks GLProofs ExtProofs BN254 BN254Hash Types Challenger Fri Poly Roots FriMerkle FriEval FriQuery FriTop FriFacts Honest FriSound FriRewind FriExtract Prop_Fri
  Gates GateProofs GateFilter GateAll GateDegree Prop_Gates Plonk PlonkProofs Prop_Plonk PlonkSound PlonkRows PlonkCopy Prop_PlonkSound Verifier VerifierProofs VerifierSound Prop_VerifierSound FriForge Prop_FriSound Prop_FriQuery FriCurve FriProx FriError Game Prop_FriError.
Import ListNotations.
Open Scope Z_scope.
Local Opaque PoseidonBN HashOrNoop TwoToOne.

(** ** The game
    The prover: what it sends depends on the challenges drawn before; the answer to the queries
    depends on all the query positions. *)
Record player := mkPlayer {
  p_wires : FriMerkleCap;
  p_zs : list GF -> list GF -> FriMerkleCap;
  p_quotients : list GF -> list GF -> list GF -> FriMerkleCap;
  p_opens : chalK -> OpeningSet;
  p_cap : chalK -> K -> list K -> FriMerkleCap;
  p_final : chalK -> K -> list K -> list QE;
  p_answer : chalK -> K -> list K -> list Z -> transcript }.
(** a run: betas, gammas, alphas and zeta; the FRI alpha, the folding challenges, the query positions *)
Notation run_ := (chalK * (K * list K * list Z))%type.
Definition proof_by (P : player) (c : chalK) (t : transcript) : Proof_ :=
  mkProof (p_wires P) (p_zs P (c_betas c) (c_gammas c)) (p_quotients P (c_betas c) (c_gammas c) (c_alphas c)) (p_opens P c) (t_proof t).
(** the prover wins the run if VerifyWith (verifier/verifier.go:148-171) accepts the proof *)
Definition beats (cd : CommonCircuitData) (gates : list Gate) (h : list GF) (vd : VerifierOnlyCircuitData) (P : player) (r : run_) : Prop :=
  let '(c, (alpha, betas, positions)) := r in
  let t := p_answer P c alpha betas positions in
  CommitPhaseMerkleCaps (t_proof t) = caps_along (p_cap P c alpha) [] betas /\ FinalPoly (t_proof t) = p_final P c alpha betas /\
  map (fun x => rep x mod 2 ^ Z.of_nat (LdeBits (cd_FriParams cd))) (t_indices t) = positions /\
  Forall siblings_ok (QueryRoundProofs (t_proof t)) /\
  sat (VerifyWith cd gates (proof_by P c t) (map rep h) (repC c (fc_of alpha betas (t_pow t) (t_indices t))) vd).
(** in the run, [round] is the answer to the query at i *)
Definition answers (P : player) (r : run_) (i : Z) (round : FriQueryRound) : Prop :=
  let '(c, (alpha, betas, positions)) := r in In (i, round) (combine positions (QueryRoundProofs (t_proof (p_answer P c alpha betas positions)))).
(** the hash inputs of the Merkle verification in the runs of the list *)
Definition hashed_in (P : player) (wins : list run_) (a : list Z) : Prop :=
  exists r i round, In r wins /\ answers P r i round /\ In a (round_inputs round i).
(** the rows of the polynomials satisfy the gates named by the selectors and the copy constraints *)
Definition satisfied (cd : CommonCircuitData) (gates : list Gate) (h : list GF) (cs sigmas ws : list (list GF)) : Prop :=
  (forall k j, selects (cd_SelectorsInfo cd) (length gates) (map emb (grow cd cs k)) j ->
     computes (EvalUnfiltered (nth j gates NoopGate) (mkvars (skipn (length (groups (cd_SelectorsInfo cd))) (map emb (grow cd cs k))) (map emb (grow cd ws k)) h))
              (repeat (0, 0) (num_constraints (nth j gates NoopGate)))) /\
  (NoDup (map (cell_label cd (map inj (KIs cd))) (cells cd)) ->
   forall s t, In s (cells cd) -> In t (cells cd) ->
     gcell cd sigmas t = (nth (snd s) (map inj (KIs cd)) g0 * root (cd_DegreeBits cd) ^ N.of_nat (fst s))%GF -> gcell cd ws t = gcell cd ws s).

(** the tree of challenges up to zeta: in some component, many pairs of beta and gamma; after
    each of them many alphas in some component; after each of these many zetas *)
Definition plenty (cd : CommonCircuitData) (E : nat) (T : coins) : Prop :=
  let nc := NumChallenges (cd_Config cd) in
  (exists ch Bs Gs, (ch < nc)%nat /\ NoDup Bs /\ (length (cells cd) < length Bs)%nat /\
     forall beta, In beta Bs -> NoDup (Gs beta) /\ (length (cells cd) < length (Gs beta))%nat /\
       forall gamma, In gamma (Gs beta) -> exists b g, In b (k_betas T) /\ In g (k_gammas T b) /\ nth ch b g0 = beta /\ nth ch g g0 = gamma) /\
  (forall b g, In b (k_betas T) -> In g (k_gammas T b) -> length b = nc /\ length g = nc /\ exists i As, incl As (k_alphas T b g) /\ many_alphas cd i As) /\
  (forall b g a, In b (k_betas T) -> In g (k_gammas T b) -> In a (k_alphas T b g) ->
     length a = nc /\ NoDup (k_zetas T b g a) /\ (E * 2 ^ cd_DegreeBits cd < length (k_zetas T b g a))%nat).

(** C61_copy, for pairs of challenges in component ch *)
Lemma copy_pairs cd gates kis h cs sigmas ws E ch (Bs : list GF) (Gs : GF -> list GF) :
  small cd cs -> small cd sigmas -> small cd ws ->
  degree_bound cd gates E -> (cd_DegreeBits cd <= 32)%nat -> (ch < NumChallenges (cd_Config cd))%nat ->
  NoDup Bs -> (length (cells cd) < length Bs)%nat ->
  (forall beta, In beta Bs -> NoDup (Gs beta) /\ (length (cells cd) < length (Gs beta))%nat) ->
  (forall beta gamma, In beta Bs -> In gamma (Gs beta) -> exists b g zs pps i As, nth ch b g0 = beta /\ nth ch g g0 = gamma /\ small cd zs /\ small cd pps /\ many_alphas cd i As /\
     forall alphas, In alphas As -> holds_for cd gates kis h b g cs sigmas ws zs pps E alphas) ->
  NoDup (map (cell_label cd kis) (cells cd)) ->
  forall s t, In s (cells cd) -> In t (cells cd) -> cell_value cd sigmas t = cell_label cd kis s -> cell_value cd ws t = cell_value cd ws s.
Proof.
  intros B1 B2 B3 HE Hd Hch NB LB HG HA NL s t Hs Ht Est.
  assert (PI : forall l : list GF, NoDup l -> NoDup (map emb l)) by (intros l Hl; apply NoDup_map_in; [intros a b _ _; apply emb_inj|exact Hl]).
  refine (copy_constraints (cells cd) (cell_value cd ws) (cell_label cd kis) (cell_value cd sigmas) (cells_NoDup cd) NL _ s t Hs Ht Est).
  apply (copy_sound cell_eq_dec (cells cd) (cell_value cd ws) (cell_label cd kis) (cell_value cd sigmas) (map emb Bs) (fun kb => map emb (Gs (fst kb)))).
  - now apply PI.
  - now rewrite map_length.
  - intros kb Hkb. apply in_map_iff in Hkb. destruct Hkb as (beta & <- & Hb). destruct (HG beta Hb) as [N1 N2]. change (fst (emb beta)) with beta. split; [now apply PI|now rewrite map_length].
  - intros kb kg Hkb Hkg. apply in_map_iff in Hkb. destruct Hkb as (beta & <- & Hb). change (fst (emb beta)) with beta in Hkg. apply in_map_iff in Hkg. destruct Hkg as (gamma & <- & Hg).
    destruct (HA beta gamma Hb Hg) as (b & g & zs & pps & i & As & <- & <- & B4 & B5 & (Hi & ND & LA) & V).
    pose proof (grand_product cd gates kis h b g cs sigmas ws zs pps E i B1 B2 B3 B4 B5 (proj1 HE) (bound_filter _ _ _ HE) As Hi ND LA V ch Hd Hch) as GP.
    unfold cells. rewrite !kprod_cells. exact GP.
Qed.

Section Prox.
  Context (cd : CommonCircuitData) (gates : list Gate) (h : list GF) (vd : VerifierOnlyCircuitData) (P : player) (T : coins) (wins : list run_) (E d : nat).
  Context (SD : sound_data cd gates) (EN : plenty cd E T) (Lh : length h = 4%nat) (NoFri : forall c, k_fri_alphas T c = []).
  Context (Hd : (2 * d + 2 ^ cd_DegreeBits cd < 2 ^ LdeBits (cd_FriParams cd))%nat).
  Context (HO : forall c, drawn T c -> openings_shape cd (p_opens P c)).
  Context (WIN : forall r, In r wins -> beats cd gates h vd P r).
  Context (NC : no_collision (hashed_in P wins)).
  Notation params := (cd_FriParams cd).
  Notation n := (LdeBits (cd_FriParams cd)).
  Notation caps c := [ConstantSigmasCap vd; p_wires P; p_zs P (c_betas c) (c_gammas c); p_quotients P (c_betas c) (c_gammas c) (c_alphas c)].
  Notation vals c := (fri_values (injO (p_opens P c))).
  (** the strategy of VerifierSound.v, of which only the first components are used *)
  Definition strat : strategy := mkStrategy (p_wires P) (p_zs P) (p_quotients P) (p_opens P) (p_cap P) (p_final P) (fun c alpha betas _ => p_answer P c alpha betas []).
  Definition seen (c : chalK) (i : Z) (round : FriQueryRound) : Prop := exists y, In (c, y) wins /\ answers P (c, y) i round.

  Lemma beats_won c alpha betas is : beats cd gates h vd P (c, (alpha, betas, is)) ->
    won params (friOracles cd) (fri_points cd (c_zeta c)) (vals c) (caps c) (p_cap P c) (p_final P c) (p_answer P c) alpha betas is.
  Proof.
    intros (W1 & W2 & W3 & W4 & W5). apply range_first in W5. destruct W5 as ((C1 & C2 & _) & _ & SF). unfold won.
    split; [exact W1|]. split; [exact W2|]. split; [exact W3|]. split; [exact C2|]. split; [exact W4|].
    change (PlonkZeta (repC c _)) with (repK (c_zeta c)) in SF.
    pose proof (proj1 (enforces_sat _ _ _ (fri_part cd gates (proof_by P c (p_answer P c alpha betas is)) vd (proj1 SD) (c_zeta c) alpha betas
      (t_pow (p_answer P c alpha betas is)) (t_indices (p_answer P c alpha betas is)) C1 C2)) SF) as FP.
    apply (enforces_sat _ _ _ (verify_fri_correct params (friOracles cd) (fri_points cd (c_zeta c)) (vals c) alpha betas _ _ (caps c) _ C2 ltac:(discriminate) eq_refl)).
    exact FP.
  Qed.
  Lemma seen_answered c i round : seen c i round -> exists alpha betas,
    answered params (friOracles cd) (fri_points cd (c_zeta c)) (vals c) (caps c) alpha betas (caps_along (p_cap P c alpha) [] betas) (p_final P c alpha betas) i round.
  Proof.
    intros ([[alpha betas] is] & Hw & Ho). exists alpha, betas. exact (won_answered _ _ _ _ _ _ _ _ _ _ _ _ _ (beats_won c alpha betas is (WIN _ Hw)) Ho).
  Qed.
  Lemma seen_same o c c' i round round' : seen c i round -> seen c' i round' -> (o < 4)%nat -> nth o (caps c) [] = nth o (caps c') [] ->
    Elements (nth o (InitialTreesProof round) no_eval) = Elements (nth o (InitialTreesProof round') no_eval).
  Proof.
    intros S S' Ho Ec. destruct (seen_answered _ _ _ S) as (alpha & betas & A). destruct (seen_answered _ _ _ S') as (alpha' & betas' & A').
    destruct (answered_round _ _ _ _ _ _ _ _ _ _ _ (oracles_nil cd) (two_batches cd strat _) A) as ((C1 & _) & (I1 & _) & Sh1 & _ & _ & _ & _ & _ & O1 & _).
    destruct (answered_round _ _ _ _ _ _ _ _ _ _ _ (oracles_nil cd) (two_batches cd strat _) A') as ((C2 & _) & (I2 & _) & Sh2 & _ & _ & _ & _ & _ & O2 & _).
    apply (initial_unique_nth (hashed_in P wins) i _ o _ _ _ _ NC O1 O2 Ec); try assumption.
    - rewrite (proj1 Sh1). exact Ho.
    - intros a Ha. destruct S as (y & Hy & Hr). exists (c, y), i, round. split; [exact Hy|]. split; [exact Hr|]. apply in_or_app. now left.
    - intros a Ha. destruct S' as (y & Hy & Hr). exists (c', y), i, round'. split; [exact Hy|]. split; [exact Hr|]. apply in_or_app. now left.
    - eapply shapes_agree; eassumption.
  Qed.
  Lemma seen_size c i round : seen c i round -> (n <= 32)%nat.
  Proof.
    intros S. destruct (seen_answered _ _ _ S) as (alpha & betas & A). destruct (answered_round _ _ _ _ _ _ _ _ _ _ _ (oracles_nil cd) (two_batches cd strat _) A) as (_ & _ & _ & _ & Hn & _). exact Hn.
  Qed.

  (** the polynomials behind the openings after the challenges c, and the positions where they agree with the leaves *)
  Definition prox_of (c : chalK) (F : nat * nat -> list GF) (G : list Z) : Prop :=
    positions_of n G /\ (2 ^ n <= length G + d)%nat /\ (forall i, In i G -> exists round, seen c i round) /\
    (forall op, In op (fst (Prop_Fri.layout cd)) -> (length (F op) <= 2 ^ cd_DegreeBits cd + 1)%nat /\
       forall i round, In i G -> seen c i round -> nth (snd op) (Elements (nth (fst op) (InitialTreesProof round) no_eval)) 0 = rep (gpeval (F op) (dom g7 n i))) /\
    vals c = [map (fun op => kpeval (map emb (F op)) (c_zeta c)) (fst (Prop_Fri.layout cd));
              map (fun op => kpeval (map emb (F op)) (emb (root (cd_DegreeBits cd)) * c_zeta c)%K) (snd (Prop_Fri.layout cd))].
  Lemma prox_polys c F G : prox_of c F G -> polys_of cd T (fun _ => []) strat c F.
  Proof.
    intros (_ & _ & _ & H & V). split; [|exact V]. intros op Hop. split; [now apply H|]. intros alpha betas i (Ia & _). rewrite NoFri in Ia. destruct Ia.
  Qed.
  Lemma prox_shape c : drawn T c -> Forall2 (fun b os => length os = length (snd b)) (fri_points cd (c_zeta c)) (vals c).
  Proof. intros D. exact (values_shape cd h T strat Lh HO c D). Qed.
  (** from the conclusion of C80 *)
  Lemma prox_from c ys : drawn T c -> (forall y, In y ys -> In (c, y) wins) -> (forall y, In (c, y) wins -> In y ys) ->
    (exists (F : nat * nat -> list GF) (G : list Z), NoDup G /\ Forall (fun i => 0 <= i < 2 ^ Z.of_nat n) G /\ (2 ^ n <= length G + d)%nat /\
      (forall i, In i G -> exists alpha betas positions round, In (alpha, betas, positions) ys /\ opens (p_answer P c) alpha betas positions i round) /\
      forall z polys os op o, In ((z, polys), os) (combine (fri_points cd (c_zeta c)) (vals c)) -> In (op, o) (combine polys os) ->
      (length (F op) <= 2 ^ fp_DegreeBits params + 1)%nat /\ kpeval (map emb (F op)) z = o /\
      forall alpha betas positions i round, In (alpha, betas, positions) ys -> In i G -> opens (p_answer P c) alpha betas positions i round ->
        nth (snd op) (Elements (nth (fst op) (InitialTreesProof round) no_eval)) 0 = rep (gpeval (F op) (dom g7 n i))) ->
    exists F G, prox_of c F G.
  Proof.
    intros D IY1 IY2 (F & G & NDG & RG & LG & OG & HF). pose proof SD as (_ & Ed & _).
    exists F, G. split; [split; assumption|]. split; [exact LG|]. split.
    { intros i Hi. destruct (OG i Hi) as (alpha & betas & is & round & H1 & H2). exists round, (alpha, betas, is). split; [now apply IY1|exact H2]. }
    assert (V1 : length (hd [] (vals c)) = length (fst (Prop_Fri.layout cd))) by (pose proof (prox_shape c D) as VS; now inversion VS).
    assert (V2 : length (o_zsn (injO (p_opens P c))) = length (snd (Prop_Fri.layout cd))) by (pose proof (prox_shape c D) as VS; inversion VS as [|? ? ? ? _ VS']; now inversion VS').
    split.
    + intros op Hop. destruct (In_nth _ _ (0, 0)%nat Hop) as (j & Hj & Ej).
      assert (H2 : In (op, nth j (hd [] (vals c)) k0) (combine (fst (Prop_Fri.layout cd)) (hd [] (vals c)))).
      { rewrite <- Ej at 1. rewrite <- combine_nth by (symmetry; exact V1). apply nth_In. rewrite combine_length, V1. lia. }
      destruct (HF (c_zeta c) (fst (Prop_Fri.layout cd)) (hd [] (vals c)) op _ ltac:(now left) H2) as (B & _ & LE). rewrite Ed in B. split; [exact B|].
      intros i round Hi ([[alpha betas] is] & H3 & H4). apply IY2 in H3. exact (LE alpha betas is i round H3 Hi H4).
    + change (vals c) with [hd [] (vals c); o_zsn (injO (p_opens P c))] at 1. f_equal; [|f_equal].
      * apply combine_values; [exact V1|]. intros op o Ho. now apply (HF (c_zeta c) (fst (Prop_Fri.layout cd)) (hd [] (vals c)) op o ltac:(now left) Ho).
      * apply combine_values; [exact V2|]. intros op o Ho. now apply (HF _ (snd (Prop_Fri.layout cd)) (o_zsn (injO (p_opens P c))) op o ltac:(right; now left) Ho).
  Qed.
  (** from C80 *)
  Lemma prox_exists (coins : list K) c : drawn T c ->
    let k := length (ReductionArityBits params) in let q := NumQueryRounds (fp_Config params) in
    let t := length (fst (Prop_Fri.layout cd) ++ snd (Prop_Fri.layout cd)) in let Q := length coins in
    NoDup coins ->
    forall ys, NoDup ys -> (forall y, In y ys <-> In (c, y) wins) ->
    (forall alpha betas is, In (c, (alpha, betas, is)) wins -> In alpha coins /\ length betas = k /\ Forall (fun b => In b coins) betas) ->
    (Q ^ (k + 1) * (2 ^ n - d - 1) ^ q + t * (2 ^ n * 2 ^ n) * Q ^ k * (2 ^ n) ^ q < length ys)%nat ->
    exists F G, prox_of c F G.
  Proof.
    intros D k q t Q NDc ys NDy IY HC L. pose proof SD as (((_ & _ & _ & _ & _ & C6) & _) & Ed & Hr & _).
    assert (TT : flat_map snd (fri_points cd (c_zeta c)) = fst (Prop_Fri.layout cd) ++ snd (Prop_Fri.layout cd)) by (unfold fri_points; cbn [flat_map snd]; now rewrite app_nil_r).
    apply (prox_from c ys D (fun y => proj1 (IY y)) (fun y => proj2 (IY y))).
    apply (C80_extract params (friOracles cd) (fri_points cd (c_zeta c)) (vals c) (caps c) (p_cap P c) (p_final P c) (p_answer P c) coins ys d).
    - discriminate.
    - now apply prox_shape.
    - rewrite TT. unfold Prop_Fri.layout. cbn [fst snd]. rewrite !app_length, !map_length, !seq_length. lia.
    - now rewrite Ed.
    - exact NDc.
    - exact NDy.
    - intros alpha betas is H. apply IY in H. destruct (HC _ _ _ H) as (A1 & A2 & A3). repeat (split; [assumption|]). exact (beats_won c alpha betas is (WIN _ H)).
    - intros a b (alpha & betas & is & i & round & H1 & H2 & H3) (alpha' & betas' & is' & i' & round' & H1' & H2' & H3'). apply IY in H1, H1'.
      apply NC; [exists (c, (alpha, betas, is)), i, round|exists (c, (alpha', betas', is')), i', round']; split; try assumption; now split.
    - rewrite TT. exact L.
  Qed.

  Context (MANY : forall c, drawn T c -> exists F G, prox_of c F G).
  Lemma prox_agree c c' F F' G G' o j : prox_of c F G -> prox_of c' F' G' -> In (o, j) (fst (Prop_Fri.layout cd)) -> (o < 4)%nat ->
    nth o (caps c) [] = nth o (caps c') [] -> forall x, kpeval (map emb (F (o, j))) x = kpeval (map emb (F' (o, j))) x.
  Proof.
    intros ((N & R) & LG & OG & HF & _) ((N' & R') & LG' & OG' & HF' & _) Ho H4 Ec. destruct (HF _ Ho) as (B & L). destruct (HF' _ Ho) as (B' & L').
    destruct (common_positions n G G' N N' R R') as (NI & I1 & I2 & LI). set (I := filter (fun i => existsb (Z.eqb i) G') G) in *.
    assert (HI : positions_of n I) by (split; [exact NI|]; rewrite Forall_forall in *; intros i Hi; now apply R, I1).
    destruct I as [|i0 I0] eqn:EI; [cbn [length] in LI; lia|]. rewrite <- EI in *. destruct (OG i0) as (r0 & S0); [apply I1; rewrite EI; now left|].
    pose proof (seen_size _ _ _ S0) as Hn.
    apply (kpeval_same n I); [unfold TWO_ADICITY; lia|exact HI|rewrite map_length; lia|rewrite map_length; lia|].
    intros i Hi. pose proof (I1 i Hi) as Hi1. pose proof (I2 i Hi) as Hi2. rewrite !kpeval_emb. f_equal.
    destruct (OG i Hi1) as (round & S). destruct (OG' i Hi2) as (round' & S').
    apply GF_eq. rewrite <- (L i round Hi1 S), <- (L' i round' Hi2 S'). cbn [fst snd]. now rewrite (seen_same o c c' i round round' S S' H4 Ec).
  Qed.
  Notation nc := (NumChallenges (cd_Config cd)).
  Lemma prox_opens c F G c0 F0 G0 c2 F2 G2 c3 F3 G3 : drawn T c -> prox_of c F G -> prox_of c0 F0 G0 -> prox_of c2 F2 G2 -> prox_of c3 F3 G3 ->
    c_betas c = c_betas c2 -> c_gammas c = c_gammas c2 -> c_betas c = c_betas c3 -> c_gammas c = c_gammas c3 -> c_alphas c = c_alphas c3 ->
    injO (p_opens P c) = opened cd (cols (f_cs cd F0)) (cols (f_sigmas cd F0)) (cols (f_ws cd F0)) (cols (f_zs cd F2)) (cols (f_pps cd F2)) (cols (f_qs cd F3)) (c_zeta c).
  Proof.
    intros D HF HF0 HF2 HF3 E1 E2 E3 E4 E5. etransitivity; [exact (opens_are cd T (fun _ => []) strat HO c F D (prox_polys _ _ _ HF))|]. unfold opened.
    assert (A0 : forall j, In (0%nat, j) (fst (Prop_Fri.layout cd)) -> forall x, kpeval (map emb (F (0%nat, j))) x = kpeval (map emb (F0 (0%nat, j))) x).
    { intros j Hj. apply (prox_agree c c0 F F0 G G0); try assumption; [lia|reflexivity]. }
    assert (A1 : forall j, In (1%nat, j) (fst (Prop_Fri.layout cd)) -> forall x, kpeval (map emb (F (1%nat, j))) x = kpeval (map emb (F0 (1%nat, j))) x).
    { intros j Hj. apply (prox_agree c c0 F F0 G G0); try assumption; [lia|reflexivity]. }
    assert (A2 : forall j, In (2%nat, j) (fst (Prop_Fri.layout cd)) -> forall x, kpeval (map emb (F (2%nat, j))) x = kpeval (map emb (F2 (2%nat, j))) x).
    { intros j Hj. apply (prox_agree c c2 F F2 G G2); try assumption; [lia|]. cbn [nth]. now rewrite E1, E2. }
    assert (A3 : forall j, In (3%nat, j) (fst (Prop_Fri.layout cd)) -> forall x, kpeval (map emb (F (3%nat, j))) x = kpeval (map emb (F3 (3%nat, j))) x).
    { intros j Hj. apply (prox_agree c c3 F F3 G G3); try assumption; [lia|]. cbn [nth]. now rewrite E3, E4, E5. }
    f_equal; apply col_same; intros j Hj.
    - apply A0. now apply in_cs.
    - apply A0. now apply in_sigmas.
    - apply A1. now apply in_ws.
    - apply A2. now apply in_zs.
    - apply A2. now apply in_zs.
    - apply A2. now apply in_pps.
    - apply A3. now apply in_qs.
  Qed.
  Lemma plenty_zeta b g a : In b (k_betas T) -> In g (k_gammas T b) -> In a (k_alphas T b g) -> exists z, drawn T (mkChalK b g a z).
  Proof.
    intros Hb Hg Ha. destruct EN as (_ & _ & EZ). destruct (EZ b g a Hb Hg Ha) as (_ & _ & L). destruct (k_zetas T b g a) as [|z l] eqn:Ez; [cbn in L; lia|].
    exists z. unfold drawn. cbn [c_betas c_gammas c_alphas c_zeta]. rewrite Ez. repeat (split; [assumption|]). now left.
  Qed.
  Lemma plenty_alphas b g : In b (k_betas T) -> In g (k_gammas T b) -> exists a, In a (k_alphas T b g).
  Proof.
    intros Hb Hg. destruct EN as (_ & EA & _). destruct (EA b g Hb Hg) as (_ & _ & i & As & IA & Hi & _ & L). destruct As as [|a l]; [cbn in L; lia|]. exists a. apply IA. now left.
  Qed.
  Lemma plenty_drawn : exists c, drawn T c.
  Proof.
    pose proof EN as ((ch & Bs & Gs & _ & _ & LB & HG) & _). destruct Bs as [|beta l]; [cbn in LB; lia|]. destruct (HG beta (in_eq _ _)) as (_ & LG & HP).
    destruct (Gs beta) as [|gamma l']; [cbn in LG; lia|]. destruct (HP gamma (in_eq _ _)) as (b & g & Hb & Hg & _).
    destruct (plenty_alphas b g Hb Hg) as (a & Ha). destruct (plenty_zeta b g a Hb Hg Ha) as (z & D). now exists (mkChalK b g a z).
  Qed.
  (** the hypotheses of C61 *)
  Lemma prox_rewound c0 F0 G0 : prox_of c0 F0 G0 -> forall b g, In b (k_betas T) -> In g (k_gammas T b) ->
    exists zs pps, small cd zs /\ small cd pps /\ forall a, In a (k_alphas T b g) ->
      holds_for cd gates (map inj (KIs cd)) h b g (cols (f_cs cd F0)) (cols (f_sigmas cd F0)) (cols (f_ws cd F0)) zs pps E a.
  Proof.
    intros HF0 b g Hb Hg. destruct (plenty_alphas b g Hb Hg) as (a2 & Ha2). destruct (plenty_zeta b g a2 Hb Hg Ha2) as (z2 & D2).
    destruct (MANY _ D2) as (F2 & G2 & HF2). exists (cols (f_zs cd F2)), (cols (f_pps cd F2)).
    split; [exact (col_bounded _ _ _ _ _ _ _ _ _ (prox_polys _ _ _ HF2) (in_zs cd))|]. split; [exact (col_bounded _ _ _ _ _ _ _ _ _ (prox_polys _ _ _ HF2) (in_pps cd))|].
    intros a Ha. destruct (plenty_zeta b g a Hb Hg Ha) as (z3 & D3). destruct (MANY _ D3) as (F3 & G3 & HF3).
    exists (cols (f_qs cd F3)), (k_zetas T b g a). destruct EN as (_ & EA & EZ). destruct (EZ b g a Hb Hg Ha) as (L3 & ND & LZ). destruct (EA b g Hb Hg) as (Lb & Lg & _).
    split; [exact (opened_shape cd gates h T (fun _ => []) strat SD Lh b g a c0 F0 F2 F3 k0 (prox_polys _ _ _ HF0) Lb Lg L3)|].
    split; [exact (col_bounded _ _ _ _ _ _ _ _ _ (prox_polys _ _ _ HF3) (in_qs cd))|]. split; [exact ND|]. split; [exact LZ|].
    intros z Hz. set (c := mkChalK b g a z). assert (D : drawn T c) by (unfold drawn, c; cbn [c_betas c_gammas c_alphas c_zeta]; auto).
    destruct (MANY c D) as (F & G & HF).
    assert (W : exists y, In (c, y) wins).
    { destruct HF as (_ & LG & OG & _). destruct G as [|i G]; [cbn [length] in LG; lia|]. destruct (OG i (in_eq _ _)) as (round & y & Hy & _). now exists y. }
    destruct W as ([[alpha betas] is] & W). apply WIN in W. destruct W as (_ & _ & _ & _ & W). apply range_first in W. destruct W as ((C1 & _) & W & _).
    eexists. unfold proof_by in W, C1. cbn [Openings] in W, C1. rewrite <- (repO_injO _ C1) in W.
    rewrite (prox_opens c F G c0 F0 G0 _ F2 G2 _ F3 G3 D HF HF0 HF2 HF3 eq_refl eq_refl eq_refl eq_refl eq_refl) in W. exact W.
  Qed.
  (** the leaves of the first two oracles, in all runs *)
  Lemma prox_leaves c0 F0 G0 c i round o s m : prox_of c0 F0 G0 -> In i G0 -> seen c i round -> (o < 2)%nat ->
    (forall j, (s <= j < s + m)%nat -> In (o, j) (fst (Prop_Fri.layout cd))) ->
    map (fun j => nth j (Elements (nth o (InitialTreesProof round) no_eval)) 0) (seq s m) = map (fun f => rep (gpeval f (dom g7 n i))) (col F0 o s m).
  Proof.
    intros (_ & _ & OG & HF0 & _) Hi S Ho Hin. unfold col. rewrite map_map. apply map_ext_in. intros j Hj. apply in_seq in Hj.
    destruct (OG i Hi) as (round0 & S0). rewrite (seen_same o c c0 i round round0 S S0); [|lia|destruct o as [|[|o]]; [reflexivity|reflexivity|lia]].
    exact (proj2 (HF0 _ (Hin j ltac:(lia))) i round0 Hi S0).
  Qed.
  Lemma firstn_map_nth m (l : list Z) : (m <= length l)%nat -> firstn m l = map (fun j => nth j l 0) (seq 0 m).
  Proof.
    revert m. induction l as [|x l IH]; intros [|m] Hm; try reflexivity; [cbn in Hm; lia|]. cbn [firstn seq map nth]. f_equal.
    rewrite <- seq_shift, map_map. apply IH. cbn in Hm. lia.
  Qed.
  Lemma prox_extract : degree_bound cd gates E -> exists cs sigmas ws G,
    (length cs = cd_NumConstants cd /\ length sigmas = NumRoutedWires (cd_Config cd) /\ length ws = NumWires (cd_Config cd)) /\
    Forall (fun f => length f <= 2 ^ cd_DegreeBits cd + 1)%nat (cs ++ sigmas ++ ws) /\
    (positions_of n G /\ (2 ^ n <= length G + d)%nat /\ forall i, In i G -> exists r round, In r wins /\ answers P r i round) /\
    (forall r i round, In r wins -> In i G -> answers P r i round ->
       let values ps := map (fun f => rep (gpeval f (dom g7 n i))) ps in
       firstn (cd_NumConstants cd + NumRoutedWires (cd_Config cd)) (Elements (nth 0 (InitialTreesProof round) no_eval)) = values (cs ++ sigmas) /\
       firstn (NumWires (cd_Config cd)) (Elements (nth 1 (InitialTreesProof round) no_eval)) = values ws) /\
    satisfied cd gates h cs sigmas ws.
  Proof.
    intros DB. destruct plenty_drawn as (c0 & D0). destruct (MANY c0 D0) as (F0 & G0 & HF0).
    exists (f_cs cd F0), (f_sigmas cd F0), (f_ws cd F0), G0.
    pose proof (prox_rewound c0 F0 G0 HF0) as RW. pose proof (prox_polys _ _ _ HF0) as HP0.
    pose proof (col_bounded cd T _ _ c0 F0 _ _ _ HP0 (in_cs cd)) as B1.
    pose proof (col_bounded cd T _ _ c0 F0 _ _ _ HP0 (in_sigmas cd)) as B2.
    pose proof (col_bounded cd T _ _ c0 F0 _ _ _ HP0 (in_ws cd)) as B3.
    assert (Hd32 : (cd_DegreeBits cd <= 32)%nat) by apply SD.
    assert (UN : forall l, small cd (cols l) -> Forall (fun f => length f <= 2 ^ cd_DegreeBits cd + 1)%nat l).
    { intros l Hl. unfold small, cols in Hl. rewrite Forall_map in Hl. eapply Forall_impl; [|exact Hl]. intros f Hf. cbn beta in Hf. now rewrite map_length in Hf. }
    pose proof EN as ((ch & Bs & Gs & Hch & NB & LB & EG) & EA & _).
    split; [unfold f_cs, f_sigmas, f_ws, col; now rewrite !map_length, !seq_length|].
    split; [rewrite !Forall_app; auto|]. split; [|split; [|split]].
    - pose proof HF0 as (Q1 & Q2 & Q3 & _). split; [exact Q1|]. split; [exact Q2|]. intros i Hi. destruct (Q3 i Hi) as (round & y & Hy & Hr). exists (c0, y), round. now split.
    - intros [c y] i round Hr Hi Ha. assert (S : seen c i round) by (exists y; now split). cbv zeta.
      destruct (seen_answered _ _ _ S) as (alpha & betas & A).
      destruct (answered_round _ _ _ _ _ _ _ _ _ _ _ (oracles_nil cd) (two_batches cd strat _) A) as (_ & _ & (Q1 & Q2 & _) & _).
      set (tr := InitialTreesProof round) in *.
      destruct tr as [|e0 [|e1 tr']] eqn:Et; [discriminate Q1|discriminate Q1|]. unfold friOracles in Q2. cbn [combine] in Q2.
      inversion Q2 as [|? ? [Q3 _] Q2']; subst. inversion Q2' as [|? ? [Q4 _] _]; subst. cbn [fst snd NumPolys Blinding andb] in Q3, Q4. clear Q2 Q2'. cbn [nth].
      assert (LV : forall o s m, (o < 2)%nat -> (forall j, (s <= j < s + m)%nat -> In (o, j) (fst (Prop_Fri.layout cd))) ->
        map (fun j => nth j (Elements (nth o (e0 :: e1 :: tr') no_eval)) 0) (seq s m) = map (fun f => rep (gpeval f (dom g7 n i))) (col F0 o s m)).
      { intros o s m Ho Hin. rewrite <- Et. exact (prox_leaves c0 F0 G0 c i round o s m HF0 Hi S Ho Hin). }
      split.
      + rewrite firstn_map_nth by (rewrite Q3; unfold numPreprocessedPolys, sigmasRange; rewrite last_seq; lia). rewrite seq_app, !map_app. f_equal; [exact (LV 0%nat _ _ ltac:(lia) (in_cs cd))|].
        exact (LV 0%nat _ _ ltac:(lia) (in_sigmas cd)).
      + rewrite firstn_map_nth by (rewrite Q4; lia). exact (LV 1%nat _ _ ltac:(lia) (in_ws cd)).
    - intros k j. rewrite <- !at_row_cols. destruct D0 as (D1 & D2 & _). destruct (RW _ _ D1 D2) as (zs & pps & B4 & B5 & HA). destruct (EA _ _ D1 D2) as (_ & _ & i & As & IA & MA).
      exact (C61_gates cd gates (map inj (KIs cd)) h _ _ _ _ _ zs pps E i As B1 B2 B3 B4 B5 DB MA Hd32 (fun a Ha => HA a (IA a Ha)) k j).
    - intros NL s t Hs Ht Est. apply emb_inj. rewrite <- !cell_value_cols.
      apply (copy_pairs cd gates (map inj (KIs cd)) h (cols (f_cs cd F0)) (cols (f_sigmas cd F0)) (cols (f_ws cd F0)) E ch Bs Gs B1 B2 B3 DB Hd32 Hch NB LB); try assumption.
      + intros beta Hb. destruct (EG beta Hb) as (G1 & G2 & _). now split.
      + intros beta gamma Hb Hg. destruct (EG beta Hb) as (_ & _ & HP). destruct (HP gamma Hg) as (b & g & Ib & Ig & E1 & E2).
        destruct (RW b g Ib Ig) as (zs & pps & B4 & B5 & HA). destruct (EA b g Ib Ig) as (_ & _ & i & As & IA & MA). exists b, g, zs, pps, i, As. repeat (split; [assumption|]). intros a Ha. apply HA. now apply IA.
      + rewrite cell_value_cols, Est. unfold cell_label, row_point. now rewrite emb_mul.
  Qed.
End Prox.
