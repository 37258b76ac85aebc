(** * Soundness of the whole verifier by rewinding: the polynomials of different runs are the same. *)
From Coq Require Import String.
From Coq Require Import ZArith NArith Lia List Bool.
From Verif Require Import Zp GF Circuit Goldilocks GLProofs ExtProofs BN254 BN254Hash Types Challenger Fri Poly Roots FriMerkle FriEval FriQuery FriTop FriFacts Honest FriSound FriRewind FriExtract Prop_Fri
  Gates GateProofs GateFilter GateAll GateDegree Prop_Gates Plonk PlonkProofs Prop_Plonk PlonkSound PlonkRows PlonkCopy Prop_PlonkSound Verifier VerifierProofs.
Import ListNotations.
Open Scope Z_scope.
Local Opaque PoseidonBN HashOrNoop TwoToOne.

(** ** Verify with the challenges as an argument *)
(** verifier/verifier.go:148 and 154-171: [Verify] with publicInputsHash (line 151) and
    proofChallenges (line 152) given *)
Definition VerifyWith (commonData : CommonCircuitData) (gates : list Gate) (proof : Proof_) (publicInputsHash : list Z)
    (proofChallenges : ProofChallenges) (verifierData : VerifierOnlyCircuitData) : circ unit :=
  rangeCheckProof proof;;;
  PlonkVerify commonData gates proofChallenges (Openings proof) publicInputsHash;;;
  let initialMerkleCaps :=
    [ConstantSigmasCap verifierData; WiresCap proof; PlonkZsPartialProductsCap proof; QuotientPolysCap proof] in
  instance <- GetInstance commonData (PlonkZeta proofChallenges);;
  VerifyFriProof (cd_FriParams commonData) instance (ToOpenings (Openings proof))
    (pc_FriChallenges proofChallenges) initialMerkleCaps (OpeningProof proof).

(** ** Coins and strategies *)
(** The challenges in the order in which they are drawn: betas and gammas, alphas, zeta, the
    FRI alpha, one folding challenge per reduction; for each the list of values that are tried. *)
Record coins := mkCoins {
  k_betas : list (list GF);
  k_gammas : list GF -> list (list GF);
  k_alphas : list GF -> list GF -> list (list GF);
  k_zetas : list GF -> list GF -> list GF -> list K;
  k_fri_alphas : chalK -> list K;
  k_fri_betas : chalK -> K -> list K -> list K }.
(** The prover: what it sends depends on the challenges drawn before *)
Record strategy := mkStrategy {
  s_wires : FriMerkleCap;
  s_zs : list GF -> list GF -> FriMerkleCap;
  s_quotients : list GF -> list GF -> list GF -> FriMerkleCap;
  s_opens : chalK -> OpeningSet;
  s_cap : chalK -> K -> list K -> FriMerkleCap;
  s_final : chalK -> K -> list K -> list QE;
  s_answer : chalK -> K -> list K -> Z -> transcript }.
Definition drawn (T : coins) (c : chalK) : Prop :=
  In (c_betas c) (k_betas T) /\ In (c_gammas c) (k_gammas T (c_betas c)) /\ In (c_alphas c) (k_alphas T (c_betas c) (c_gammas c)) /\
  In (c_zeta c) (k_zetas T (c_betas c) (c_gammas c) (c_alphas c)).
Definition drawn_fri (cd : CommonCircuitData) (T : coins) (c : chalK) (alpha : K) (betas : list K) (i : Z) : Prop :=
  In alpha (k_fri_alphas T c) /\ length betas = length (ReductionArityBits (cd_FriParams cd)) /\ in_tree (k_fri_betas T c alpha) [] betas /\
  0 <= i < 2 ^ Z.of_nat (LdeBits (cd_FriParams cd)).
(** the same with the query indices of a list that may depend on the challenges up to zeta *)
Definition drawn_on (cd : CommonCircuitData) (T : coins) (G : chalK -> list Z) (c : chalK) (alpha : K) (betas : list K) (i : Z) : Prop :=
  In alpha (k_fri_alphas T c) /\ length betas = length (ReductionArityBits (cd_FriParams cd)) /\ in_tree (k_fri_betas T c alpha) [] betas /\ In i (G c).
Definition proof_of (P : strategy) (c : chalK) (t : transcript) : Proof_ :=
  mkProof (s_wires P) (s_zs P (c_betas c) (c_gammas c)) (s_quotients P (c_betas c) (c_gammas c) (c_alphas c)) (s_opens P c) (t_proof t).
(** the run with these challenges, the first query being at i: the proof keeps to the commitments and is accepted *)
Definition wins (cd : CommonCircuitData) (gates : list Gate) (h : list GF) (vd : VerifierOnlyCircuitData) (P : strategy) (c : chalK) (alpha : K) (betas : list K) (i : Z) : Prop :=
  let t := s_answer P c alpha betas i in
  CommitPhaseMerkleCaps (t_proof t) = caps_along (s_cap P c alpha) [] betas /\ FinalPoly (t_proof t) = s_final P c alpha betas /\
  (exists x xs, t_indices t = x :: xs /\ rep x mod 2 ^ Z.of_nat (LdeBits (cd_FriParams cd)) = i) /\ siblings_ok (first_round t) /\
  sat (VerifyWith cd gates (proof_of P c t) (map rep h) (repC c (fc_of alpha betas (t_pow t) (t_indices t))) vd).
Definition hashed (cd : CommonCircuitData) (T : coins) (P : strategy) (a : list Z) : Prop :=
  exists c alpha betas i, drawn T c /\ drawn_fri cd T c alpha betas i /\ In a (round_inputs (first_round (s_answer P c alpha betas i)) i).
Definition hashed_on (cd : CommonCircuitData) (T : coins) (G : chalK -> list Z) (P : strategy) (a : list Z) : Prop :=
  exists c alpha betas i, drawn T c /\ drawn_on cd T G c alpha betas i /\ In a (round_inputs (first_round (s_answer P c alpha betas i)) i).
(** the lists are lists of distinct positions and any two of them share more than 2^DegreeBits *)
Definition overlapping (cd : CommonCircuitData) (T : coins) (G : chalK -> list Z) : Prop :=
  (forall c, drawn T c -> positions_of (LdeBits (cd_FriParams cd)) (G c)) /\
  forall c c', drawn T c -> drawn T c' -> exists I, NoDup I /\ incl I (G c) /\ incl I (G c') /\ (2 ^ cd_DegreeBits cd < length I)%nat.

(** the sizes of the lists, the circuit and the openings *)
Definition enough (cd : CommonCircuitData) (E e : nat) (T : coins) : Prop :=
  let nc := NumChallenges (cd_Config cd) in
  (NoDup (map (fun b => nth e b g0) (k_betas T)) /\ (length (cells cd) < length (k_betas T))%nat) /\
  (forall b, In b (k_betas T) -> length b = nc /\ NoDup (map (fun g => nth e g g0) (k_gammas T b)) /\ (length (cells cd) < length (k_gammas T b))%nat) /\
  (forall b g, In b (k_betas T) -> In g (k_gammas T b) -> length g = nc /\ many_alphas cd e (k_alphas T b g)) /\
  (forall b g a, In b (k_betas T) -> In g (k_gammas T b) -> In a (k_alphas T b g) ->
     length a = nc /\ NoDup (k_zetas T b g a) /\ (E * 2 ^ cd_DegreeBits cd < length (k_zetas T b g a))%nat) /\
  (forall c, drawn T c -> NoDup (k_fri_alphas T c) /\ length (k_fri_alphas T c) = length (fst (Prop_Fri.layout cd) ++ snd (Prop_Fri.layout cd)) /\
     forall alpha pre, In alpha (k_fri_alphas T c) -> (length pre < length (ReductionArityBits (cd_FriParams cd)))%nat ->
       NoDup (k_fri_betas T c alpha pre) /\ length (k_fri_betas T c alpha pre) = 16%nat).
Definition sound_data (cd : CommonCircuitData) (gates : list Gate) : Prop :=
  circuit_shape cd gates /\ fp_DegreeBits (cd_FriParams cd) = cd_DegreeBits cd /\ (1 <= RateBits (fp_Config (cd_FriParams cd)))%nat /\
  (NumRoutedWires (cd_Config cd) <= NumWires (cd_Config cd) /\ length (groups (cd_SelectorsInfo cd)) <= cd_NumConstants cd)%nat /\
  Forall (fits (cd_NumConstants cd - length (groups (cd_SelectorsInfo cd))) (NumWires (cd_Config cd))) gates.

(** ** Generalities *)
Lemma combine_values {A B} (f : A -> B) l : forall v, length v = length l -> (forall a b, In (a, b) (combine l v) -> f a = b) -> v = map f l.
Proof.
  induction l as [|a l IH]; intros [|b v] L H; try discriminate L; [reflexivity|]. cbn [map combine] in *. f_equal.
  - symmetry. apply H. now left.
  - apply IH; [now injection L|]. intros x y Hx. apply H. now right.
Qed.
Lemma app_split {A} (a a' b b' : list A) : length a = length a' -> a ++ b = a' ++ b' -> a = a' /\ b = b'.
Proof.
  revert a'. induction a as [|x a IH]; intros [|y a'] L E; try discriminate L; [now split|]. cbn [app] in E. injection E as -> E.
  injection L as L. destruct (IH _ L E) as [-> ->]. now split.
Qed.
Lemma initial_nth i cidx o : forall p caps, initial_ok i cidx p caps -> (o < length p)%nat ->
  merkle_root (HashOrNoop (Elements (nth o p no_eval))) i (ep_Siblings (nth o p no_eval)) = nth (Z.to_nat cidx) (nth o caps []) 0.
Proof.
  intros p caps [L H]. revert p caps L H. induction o as [|o IH]; intros [|e p] [|c caps] L H Ho; try discriminate L; try (cbn in Ho; lia);
    cbn [combine] in H; inversion H as [|? ? [_ M] H']; subst.
  - exact M.
  - cbn [nth]. apply IH; [now injection L|exact H'|cbn in Ho; lia].
Qed.
Lemma initial_unique_nth S i cidx o p1 p2 caps1 caps2 : no_collision S ->
  initial_ok i cidx p1 caps1 -> initial_ok i cidx p2 caps2 -> nth o caps1 [] = nth o caps2 [] -> (o < length p1)%nat ->
  (forall a, In a (flat_map (fun e => opening_inputs (Elements e) i (ep_Siblings e)) p1) -> S a) ->
  (forall a, In a (flat_map (fun e => opening_inputs (Elements e) i (ep_Siblings e)) p2) -> S a) ->
  Forall2 (fun e e' => length (Elements e) = length (Elements e') /\ length (ep_Siblings e) = length (ep_Siblings e')) p1 p2 ->
  canon_leaves p1 -> canon_leaves p2 -> Forall (fun e => Forall inr_ (ep_Siblings e)) p1 -> Forall (fun e => Forall inr_ (ep_Siblings e)) p2 ->
  Elements (nth o p1 no_eval) = Elements (nth o p2 no_eval).
Proof.
  intros N I1 I2 Ec Ho S1 S2 F C1 C2 J1 J2.
  assert (L : length p1 = length p2) by (clear - F; induction F; cbn [length]; congruence).
  assert (D : length (Elements (nth o p1 no_eval)) = length (Elements (nth o p2 no_eval)) /\ length (ep_Siblings (nth o p1 no_eval)) = length (ep_Siblings (nth o p2 no_eval))).
  { clear - F Ho. revert o Ho. induction F as [|e e' p1 p2 H F IH]; intros o Ho; [cbn in Ho; lia|]. destruct o as [|o]; [exact H|]. apply IH. cbn in Ho. lia. }
  unfold canon_leaves in C1, C2. rewrite Forall_forall in C1, C2, J1, J2.
  assert (O1 : In (nth o p1 no_eval) p1) by now apply nth_In.
  assert (O2 : In (nth o p2 no_eval) p2) by (apply nth_In; lia).
  apply (opening_unique S _ _ i (ep_Siblings (nth o p1 no_eval)) (ep_Siblings (nth o p2 no_eval)) N).
  - intros a Ha. apply S1. apply in_flat_map. eexists. split; [exact O1|exact Ha].
  - intros a Ha. apply S2. apply in_flat_map. eexists. split; [exact O2|exact Ha].
  - apply D.
  - apply D.
  - eapply Forall_impl; [exact canon_is64|now apply C1].
  - eapply Forall_impl; [exact canon_is64|now apply C2].
  - now apply J1.
  - now apply J2.
  - rewrite (initial_nth i cidx o p1 caps1 I1 Ho), (initial_nth i cidx o p2 caps2 I2 ltac:(lia)). now rewrite Ec.
Qed.

(** ** The polynomials *)
Section Sound.
  Context (cd : CommonCircuitData) (gates : list Gate) (h : list GF) (vd : VerifierOnlyCircuitData) (T : coins) (G : chalK -> list Z) (P : strategy) (E e : nat).
  Context (SD : sound_data cd gates) (EN : enough cd E e T) (Lh : length h = 4%nat).
  Context (HO : forall c, drawn T c -> openings_shape cd (s_opens P c)).
  Context (OV : overlapping cd T G).
  Context (WIN : forall c alpha betas i, drawn T c -> drawn_on cd T G c alpha betas i -> wins cd gates h vd P c alpha betas i).
  Context (NC : no_collision (hashed_on cd T G P)).
  Notation params := (cd_FriParams cd).
  Notation n := (LdeBits (cd_FriParams cd)).
  Notation caps c := [ConstantSigmasCap vd; s_wires P; s_zs P (c_betas c) (c_gammas c); s_quotients P (c_betas c) (c_gammas c) (c_alphas c)].
  Notation vals c := (fri_values (injO (s_opens P c))).
  Notation trees c alpha betas i := (InitialTreesProof (first_round (s_answer P c alpha betas i))).

  Lemma range_first pr ch : sat (VerifyWith cd gates pr (map rep h) ch vd) -> canon_proof pr /\
    sat (PlonkVerify cd gates ch (Openings pr) (map rep h)) /\
    sat (instance <- GetInstance cd (PlonkZeta ch);;
         VerifyFriProof (cd_FriParams cd) instance (ToOpenings (Openings pr)) (pc_FriChallenges ch)
           [ConstantSigmasCap vd; WiresCap pr; PlonkZsPartialProductsCap pr; QuotientPolysCap pr] (OpeningProof pr)).
  Proof.
    intros [u R]. unfold VerifyWith in R. apply reach_bind in R. destruct R as (u1 & R1 & R). apply reach_bind in R. destruct R as (u2 & R2 & R).
    apply (enforces_sound _ _ _ _ (range_proof_correct pr)) in R1. split; [apply R1|]. split; [now exists u2|]. now exists u.
  Qed.
  Lemma win_accepted c alpha betas i : drawn T c -> drawn_on cd T G c alpha betas i ->
    accepted params (friOracles cd) (fri_points cd (c_zeta c)) (vals c) (caps c) alpha betas
      (caps_along (s_cap P c alpha) [] betas) (s_final P c alpha betas) i (s_answer P c alpha betas i).
  Proof.
    intros D F. destruct (WIN c alpha betas i D F) as (W1 & W2 & W3 & W4 & W5). apply range_first in W5.
    destruct W5 as ((C1 & C2 & _) & _ & SF). unfold accepted.
    split; [exact W1|]. split; [exact W2|]. split; [exact W3|]. split; [exact C2|]. split; [exact W4|].
    change (PlonkZeta (repC c _)) with (repK (c_zeta c)) in SF.
    pose proof (proj1 (enforces_sat _ _ _ (fri_part cd gates (proof_of P c (s_answer P c alpha betas i)) vd (proj1 SD) (c_zeta c) alpha betas
      (t_pow (s_answer P c alpha betas i)) (t_indices (s_answer P c alpha betas i)) C1 C2)) SF) as FP.
    apply (enforces_sat _ _ _ (verify_fri_correct params (friOracles cd) (fri_points cd (c_zeta c)) (vals c) alpha betas _ _ (caps c) _ C2 ltac:(discriminate) eq_refl)).
    exact FP.
  Qed.
  Lemma values_shape c : drawn T c -> Forall2 (fun b os => length os = length (snd b)) (fri_points cd (c_zeta c)) (vals c).
  Proof.
    intros D. destruct (HO c D) as (L1 & L2 & L3 & L4 & L5 & L6 & L7). unfold fri_points, fri_values, injO, Prop_Fri.layout. cbn [o_cs o_sigmas o_ws o_zs o_zsn o_pps o_qs snd fst].
    repeat constructor; cbn [snd]; rewrite ?app_length, ?map_length, ?seq_length; lia.
  Qed.
  (** a run for every set of challenges *)
  Lemma some_fri c : drawn T c -> exists alpha betas, forall i, In i (G c) -> drawn_on cd T G c alpha betas i.
  Proof.
    intros D. destruct EN as (_ & _ & _ & _ & EF). destruct (EF c D) as (_ & La & HB).
    destruct (k_fri_alphas T c) as [|alpha l] eqn:Ea.
    - exfalso. destruct SD as (((_ & _ & _ & _ & _ & C6) & _) & _). unfold Prop_Fri.layout in La. cbn [fst snd] in La. rewrite !app_length, !map_length, !seq_length in La. cbn [length] in La. lia.
    - exists alpha, (first_path (k_fri_betas T c alpha) (length (ReductionArityBits params)) []). intros i Hi. unfold drawn_on. rewrite Ea. split; [now left|].
      split; [apply first_path_length|]. split; [|exact Hi]. eapply first_path_in; [cbn; apply Nat.le_refl|]. intros q Hq. apply HB; [now left|exact Hq].
  Qed.
  Lemma oracles_nil : friOracles cd <> []. Proof. discriminate. Qed.
  Lemma two_batches c : length (fri_points cd (c_zeta c)) = length (vals c). Proof. reflexivity. Qed.
  Lemma some_index c : drawn T c -> exists i, In i (G c).
  Proof.
    intros D. destruct OV as [_ O]. destruct (O c c D D) as (I & _ & I1 & _ & L). destruct I as [|i I]; [cbn in L; lia|]. exists i. apply I1. now left.
  Qed.
  Lemma domain_size : forall c, drawn T c -> (n <= 32)%nat.
  Proof.
    intros c D. destruct (some_fri c D) as (alpha & betas & HF). destruct (some_index c D) as (i0 & H0).
    destruct (accepted_round _ _ _ _ _ _ _ _ _ _ _ oracles_nil (two_batches _) (win_accepted c alpha betas i0 D (HF i0 H0))) as (_ & _ & _ & _ & Hn & _).
    exact Hn.
  Qed.
  (** one oracle, two runs *)
  Lemma same_leaf o c c' alpha betas alpha' betas' i : drawn T c -> drawn T c' -> drawn_on cd T G c alpha betas i -> drawn_on cd T G c' alpha' betas' i ->
    (o < 4)%nat -> nth o (caps c) [] = nth o (caps c') [] ->
    Elements (nth o (trees c alpha betas i) no_eval) = Elements (nth o (trees c' alpha' betas' i) no_eval).
  Proof.
    intros D D' F F' Ho Ec.
    destruct (accepted_round _ _ _ _ _ _ _ _ _ _ _ oracles_nil (two_batches _) (win_accepted c alpha betas i D F)) as ((C1 & _) & (I1 & _) & Sh1 & _ & _ & _ & _ & _ & O1 & _).
    destruct (accepted_round _ _ _ _ _ _ _ _ _ _ _ oracles_nil (two_batches _) (win_accepted c' alpha' betas' i D' F')) as ((C2 & _) & (I2 & _) & Sh2 & _ & _ & _ & _ & _ & O2 & _).
    apply (initial_unique_nth (hashed_on cd T G P) i _ o _ _ _ _ NC O1 O2 Ec); try assumption.
    - rewrite (proj1 Sh1). exact Ho.
    - intros a Ha. exists c, alpha, betas, i. split; [exact D|]. split; [exact F|]. apply in_or_app. now left.
    - intros a Ha. exists c', alpha', betas', i. split; [exact D'|]. split; [exact F'|]. apply in_or_app. now left.
    - eapply shapes_agree; eassumption.
  Qed.

  (** the polynomials behind the openings after the challenges c *)
  Definition polys_of (c : chalK) (F : nat * nat -> list GF) : Prop :=
    (forall op, In op (fst (Prop_Fri.layout cd)) -> (length (F op) <= 2 ^ cd_DegreeBits cd + 1)%nat /\
       forall alpha betas i, drawn_on cd T G c alpha betas i -> nth (snd op) (Elements (nth (fst op) (trees c alpha betas i) no_eval)) 0 = rep (gpeval (F op) (dom g7 n i))) /\
    vals c = [map (fun op => kpeval (map emb (F op)) (c_zeta c)) (fst (Prop_Fri.layout cd));
              map (fun op => kpeval (map emb (F op)) (emb (root (cd_DegreeBits cd)) * c_zeta c)%K) (snd (Prop_Fri.layout cd))].
  Lemma polys_exist c : drawn T c -> exists F, polys_of c F.
  Proof.
    intros D. destruct EN as (_ & _ & _ & _ & EF). destruct (EF c D) as (ND & La & HB). pose proof SD as (_ & Ed & Hr & _).
    destruct (fri_extract params (friOracles cd) (fri_points cd (c_zeta c)) (vals c) (caps c) (k_fri_alphas T c) (k_fri_betas T c) (s_cap P c) (s_final P c) (s_answer P c) (G c)) as (F & HF).
    - discriminate.
    - now apply OV.
    - destruct OV as [OP O]. destruct (O c c D D) as (I & NI & I1 & _ & L). rewrite Ed. pose proof (NoDup_incl_length NI I1). lia.
    - now apply values_shape.
    - exact ND.
    - rewrite La. unfold fri_points. cbn [flat_map snd]. now rewrite app_nil_r.
    - exact HB.
    - intros alpha betas i Ia Lb Tb Ri. apply win_accepted; [exact D|]. now repeat split.
    - intros a b Ha Hb. apply NC.
      + destruct Ha as (alpha & betas & i & Ia & Lb & Tb & Ri & Ha). exists c, alpha, betas, i. split; [exact D|]. split; [now repeat split|exact Ha].
      + destruct Hb as (alpha & betas & i & Ia & Lb & Tb & Ri & Hb). exists c, alpha, betas, i. split; [exact D|]. split; [now repeat split|exact Hb].
    - exists F. 
      assert (V1 : length (hd [] (vals c)) = length (fst (Prop_Fri.layout cd))) by (pose proof (values_shape c D) as VS; now inversion VS).
      assert (V2 : length (o_zsn (injO (s_opens P c))) = length (snd (Prop_Fri.layout cd))) by (pose proof (values_shape c D) as VS; inversion VS as [|? ? ? ? _ VS']; now inversion VS').
      split.
      + intros op Hop. destruct (In_nth _ _ (0, 0)%nat Hop) as (j & Hj & Ej).
        assert (H2 : In (op, nth j (hd [] (vals c)) k0) (combine (fst (Prop_Fri.layout cd)) (hd [] (vals c)))).
        { rewrite <- Ej at 1. rewrite <- combine_nth by (symmetry; exact V1). apply nth_In. rewrite combine_length, V1. lia. }
        destruct (HF (c_zeta c) (fst (Prop_Fri.layout cd)) (hd [] (vals c)) op _ ltac:(now left) H2) as (B & _ & L). rewrite Ed in B. split; [exact B|].
        intros alpha betas i (Ia & Lb & Tb & Ri). now apply L.
      + change (vals c) with [hd [] (vals c); o_zsn (injO (s_opens P c))] at 1. f_equal; [|f_equal].
        * apply combine_values; [exact V1|]. intros op o Ho. now apply (HF (c_zeta c) (fst (Prop_Fri.layout cd)) (hd [] (vals c)) op o ltac:(now left) Ho).
        * apply combine_values; [exact V2|]. intros op o Ho. now apply (HF _ (snd (Prop_Fri.layout cd)) (o_zsn (injO (s_opens P c))) op o ltac:(right; now left) Ho).
  Qed.
  Lemma in_layout o j : nth_error (friOracles cd) o <> None -> (j < NumPolys (nth o (friOracles cd) (mkOracleInfo 0 false)))%nat -> In (o, j) (fst (Prop_Fri.layout cd)).
  Proof.
    intros Ho Hj. apply (count_occ_In pair_dec). rewrite C37_complete. rewrite (nth_error_nth' _ (mkOracleInfo 0 false)) by now apply nth_error_Some.
    apply Nat.ltb_lt in Hj. rewrite Hj. lia.
  Qed.
  Lemma polys_agree c c' F F' o j : drawn T c -> drawn T c' -> polys_of c F -> polys_of c' F' -> In (o, j) (fst (Prop_Fri.layout cd)) -> (o < 4)%nat ->
    nth o (caps c) [] = nth o (caps c') [] -> forall x, kpeval (map emb (F (o, j))) x = kpeval (map emb (F' (o, j))) x.
  Proof.
    intros D D' (HF & _) (HF' & _) Ho H4 Ec. destruct (HF _ Ho) as (B & L). destruct (HF' _ Ho) as (B' & L'). pose proof (domain_size c D) as Hn.
    destruct OV as [OP O]. destruct (O c c' D D') as (I & NI & I1 & I2 & LI).
    assert (HI : positions_of n I).
    { split; [exact NI|]. destruct (OP c D) as [_ OR]. rewrite Forall_forall in *. intros i Hi. now apply OR, I1. }
    apply (kpeval_same n I); [unfold TWO_ADICITY; lia|exact HI|rewrite map_length; lia|rewrite map_length; lia|].
    intros i Hi. pose proof (I1 i Hi) as Hi1. pose proof (I2 i Hi) as Hi2.
    rewrite !kpeval_emb. f_equal. destruct (some_fri c D) as (alpha & betas & R). destruct (some_fri c' D') as (alpha' & betas' & R').
    apply GF_eq. rewrite <- (L alpha betas i (R i Hi1)), <- (L' alpha' betas' i (R' i Hi2)). cbn [fst snd].
    now rewrite (same_leaf o c c' alpha betas alpha' betas' i D D' (R i Hi1) (R' i Hi2) H4 Ec).
  Qed.

  (** the columns *)
  Notation nc := (NumChallenges (cd_Config cd)).
  Definition col (F : nat * nat -> list GF) (o s m : nat) : list (list GF) := map (fun j => F (o, j)) (seq s m).
  Definition cols (l : list (list GF)) : list (list K) := map (map emb) l.
  Definition f_cs F := col F 0 0 (cd_NumConstants cd).
  Definition f_sigmas F := col F 0 (cd_NumConstants cd) (NumRoutedWires (cd_Config cd)).
  Definition f_ws F := col F 1 0 (NumWires (cd_Config cd)).
  Definition f_zs F := col F 2 0 nc.
  Definition f_pps F := col F 2 nc (nc * NumPartialProducts cd).
  Definition f_qs F := col F 3 0 (nc * QuotientDegreeFactor cd).
  Lemma layout_fst : fst (Prop_Fri.layout cd) = map (pair 0%nat) (seq 0 (cd_NumConstants cd)) ++ map (pair 0%nat) (seq (cd_NumConstants cd) (NumRoutedWires (cd_Config cd))) ++
    map (pair 1%nat) (seq 0 (NumWires (cd_Config cd))) ++ map (pair 2%nat) (seq 0 nc) ++ map (pair 2%nat) (seq nc (nc * NumPartialProducts cd)) ++ map (pair 3%nat) (seq 0 (nc * QuotientDegreeFactor cd)).
  Proof. reflexivity. Qed.
  Lemma col_evals F o s m x : map (fun op => kpeval (map emb (F op)) x) (map (pair o) (seq s m)) = map (fun f => kpeval f x) (cols (col F o s m)).
  Proof. unfold cols, col. now rewrite !map_map. Qed.
  Lemma opens_are c F : drawn T c -> polys_of c F ->
    injO (s_opens P c) = opened cd (cols (f_cs F)) (cols (f_sigmas F)) (cols (f_ws F)) (cols (f_zs F)) (cols (f_pps F)) (cols (f_qs F)) (c_zeta c).
  Proof.
    intros D (_ & V). destruct (HO c D) as (L1 & L2 & L3 & L4 & L5 & L6 & L7). unfold fri_values in V.
    pose proof (f_equal (hd []) V) as V1. pose proof (f_equal (fun l => hd [] (tl l)) V) as V2. cbn [hd tl] in V1, V2. clear V.
    rewrite layout_fst, !map_app, !col_evals in V1. unfold Prop_Fri.layout in V2. cbn [snd] in V2. rewrite col_evals in V2.
    destruct (injO (s_opens P c)) as [a1 a2 a3 a4 a5 a6 a7] eqn:Ej. unfold injO in Ej. injection Ej as E1 E2 E3 E4 E5 E6 E7.
    cbn [o_cs o_sigmas o_ws o_zs o_zsn o_pps o_qs] in V1, V2.
    assert (LL : forall F o s m x, length (map (fun f => kpeval f x) (cols (col F o s m))) = m) by (intros; unfold cols, col; now rewrite !map_length, seq_length).
    apply (f_equal (@length K)) in E1, E2, E3, E4, E5, E6, E7. rewrite map_length in E1, E2, E3, E4, E5, E6, E7.
    apply app_split in V1; [|rewrite LL; congruence]. destruct V1 as [-> V1].
    apply app_split in V1; [|rewrite LL; congruence]. destruct V1 as [-> V1].
    apply app_split in V1; [|rewrite LL; congruence]. destruct V1 as [-> V1].
    apply app_split in V1; [|rewrite LL; congruence]. destruct V1 as [-> V1].
    apply app_split in V1; [|rewrite LL; congruence]. destruct V1 as [-> ->]. subst a5. reflexivity.
  Qed.
  Lemma col_same F F' o s m : (forall j, (s <= j < s + m)%nat -> forall x, kpeval (map emb (F (o, j))) x = kpeval (map emb (F' (o, j))) x) ->
    forall x, map (fun f => kpeval f x) (cols (col F o s m)) = map (fun f => kpeval f x) (cols (col F' o s m)).
  Proof. intros H x. unfold cols, col. rewrite !map_map. apply map_ext_in. intros j Hj. apply in_seq in Hj. now apply H. Qed.
  Lemma in_group o s m j (l1 l2 : list (nat * nat)) : fst (Prop_Fri.layout cd) = l1 ++ map (pair o) (seq s m) ++ l2 -> (s <= j < s + m)%nat -> In (o, j) (fst (Prop_Fri.layout cd)).
  Proof. intros -> Hj. apply in_or_app. right. apply in_or_app. left. apply in_map, in_seq. exact Hj. Qed.
  Lemma col_bounded c F o s m : polys_of c F -> (forall j, (s <= j < s + m)%nat -> In (o, j) (fst (Prop_Fri.layout cd))) -> small cd (cols (col F o s m)).
  Proof.
    intros (HF & _) H. unfold small, cols, col. rewrite map_map. apply Forall_map, Forall_forall. intros j Hj. apply in_seq in Hj. rewrite map_length.
    now apply HF, H.
  Qed.
  Lemma in_cs j : (0 <= j < 0 + cd_NumConstants cd)%nat -> In (0%nat, j) (fst (Prop_Fri.layout cd)).
  Proof. rewrite layout_fst, !in_app_iff. intros H. left. now apply in_map, in_seq. Qed.
  Lemma in_sigmas j : (cd_NumConstants cd <= j < cd_NumConstants cd + NumRoutedWires (cd_Config cd))%nat -> In (0%nat, j) (fst (Prop_Fri.layout cd)).
  Proof. rewrite layout_fst, !in_app_iff. intros H. right. left. now apply in_map, in_seq. Qed.
  Lemma in_ws j : (0 <= j < 0 + NumWires (cd_Config cd))%nat -> In (1%nat, j) (fst (Prop_Fri.layout cd)).
  Proof. rewrite layout_fst, !in_app_iff. intros H. right. right. left. now apply in_map, in_seq. Qed.
  Lemma in_zs j : (0 <= j < 0 + nc)%nat -> In (2%nat, j) (fst (Prop_Fri.layout cd)).
  Proof. rewrite layout_fst, !in_app_iff. intros H. right. right. right. left. now apply in_map, in_seq. Qed.
  Lemma in_pps j : (nc <= j < nc + nc * NumPartialProducts cd)%nat -> In (2%nat, j) (fst (Prop_Fri.layout cd)).
  Proof. rewrite layout_fst, !in_app_iff. intros H. right. right. right. right. left. now apply in_map, in_seq. Qed.
  Lemma in_qs j : (0 <= j < 0 + nc * QuotientDegreeFactor cd)%nat -> In (3%nat, j) (fst (Prop_Fri.layout cd)).
  Proof. rewrite layout_fst, !in_app_iff. intros H. right. right. right. right. right. now apply in_map, in_seq. Qed.

  (** the openings of every run, in terms of the polynomials of runs that share the commitments *)
  Lemma opens_with c F c0 F0 c2 F2 c3 F3 : drawn T c -> drawn T c0 -> drawn T c2 -> drawn T c3 -> polys_of c F -> polys_of c0 F0 -> polys_of c2 F2 -> polys_of c3 F3 ->
    c_betas c = c_betas c2 -> c_gammas c = c_gammas c2 -> c_betas c = c_betas c3 -> c_gammas c = c_gammas c3 -> c_alphas c = c_alphas c3 ->
    injO (s_opens P c) = opened cd (cols (f_cs F0)) (cols (f_sigmas F0)) (cols (f_ws F0)) (cols (f_zs F2)) (cols (f_pps F2)) (cols (f_qs F3)) (c_zeta c).
  Proof.
    intros D D0 D2 D3 HF HF0 HF2 HF3 E1 E2 E3 E4 E5. rewrite (opens_are c F D HF). unfold opened.
    assert (A0 : forall j, In (0%nat, j) (fst (Prop_Fri.layout cd)) -> forall x, kpeval (map emb (F (0%nat, j))) x = kpeval (map emb (F0 (0%nat, j))) x).
    { intros j Hj. apply (polys_agree c c0); try assumption; [lia|reflexivity]. }
    assert (A1 : forall j, In (1%nat, j) (fst (Prop_Fri.layout cd)) -> forall x, kpeval (map emb (F (1%nat, j))) x = kpeval (map emb (F0 (1%nat, j))) x).
    { intros j Hj. apply (polys_agree c c0); try assumption; [lia|reflexivity]. }
    assert (A2 : forall j, In (2%nat, j) (fst (Prop_Fri.layout cd)) -> forall x, kpeval (map emb (F (2%nat, j))) x = kpeval (map emb (F2 (2%nat, j))) x).
    { intros j Hj. apply (polys_agree c c2); try assumption; [lia|]. cbn [nth]. now rewrite E1, E2. }
    assert (A3 : forall j, In (3%nat, j) (fst (Prop_Fri.layout cd)) -> forall x, kpeval (map emb (F (3%nat, j))) x = kpeval (map emb (F3 (3%nat, j))) x).
    { intros j Hj. apply (polys_agree c c3); try assumption; [lia|]. cbn [nth]. now rewrite E3, E4, E5. }
    f_equal; apply col_same; intros j Hj.
    - apply A0. now apply in_cs.
    - apply A0. now apply in_sigmas.
    - apply A1. now apply in_ws.
    - apply A2. now apply in_zs.
    - apply A2. now apply in_zs.
    - apply A2. now apply in_pps.
    - apply A3. now apply in_qs.
  Qed.
  Lemma opened_shape b g a c0 F0 F2 F3 z : polys_of c0 F0 -> length b = nc -> length g = nc -> length a = nc ->
    plonk_shape cd gates (map inj (KIs cd)) (mkChalK b g a z)
      (opened cd (cols (f_cs F0)) (cols (f_sigmas F0)) (cols (f_ws F0)) (cols (f_zs F2)) (cols (f_pps F2)) (cols (f_qs F3)) z) h.
  Proof.
    intros _ L1 L2 L3. destruct SD as (((C1 & C2 & C3 & C4 & C5 & C6) & C7 & C8) & Ed & Hr & (S1 & S2) & S3).
    unfold plonk_shape, opened. cbn [o_cs o_sigmas o_ws o_zs o_zsn o_pps o_qs c_betas c_gammas c_alphas].
    unfold cols, f_cs, f_sigmas, f_ws, f_zs, f_pps, f_qs, col. rewrite !map_length, !seq_length, L1, L2, L3.
    split; [|split].
    - split; [now apply map_rep_inj|]. repeat split; try assumption. lia.
    - repeat split; try assumption; lia.
    - repeat (split; [assumption|]). assumption.
  Qed.

  Lemma first_drawn b g a : In b (k_betas T) -> In g (k_gammas T b) -> In a (k_alphas T b g) -> exists z, drawn T (mkChalK b g a z).
  Proof.
    intros Hb Hg Ha. destruct EN as (_ & _ & _ & EZ & _). destruct (EZ b g a Hb Hg Ha) as (_ & _ & L). destruct (k_zetas T b g a) as [|z l] eqn:Ez; [cbn in L; lia|].
    exists z. unfold drawn. cbn [c_betas c_gammas c_alphas c_zeta]. rewrite Ez. repeat (split; [assumption|]). now left.
  Qed.
  Lemma first_alphas b g : In b (k_betas T) -> In g (k_gammas T b) -> exists a, In a (k_alphas T b g).
  Proof.
    intros Hb Hg. destruct EN as (_ & _ & EA & _). destruct (EA b g Hb Hg) as (_ & Hi & _ & L). destruct (k_alphas T b g) as [|a l]; [cbn in L; lia|]. exists a. now left.
  Qed.
  Lemma first_challenges : exists c, drawn T c.
  Proof.
    pose proof EN as ((_ & LB) & EG & _). destruct (k_betas T) as [|b l] eqn:Eb; [cbn in LB; lia|]. destruct (EG b (in_eq _ _)) as (_ & _ & LG).
    destruct (k_gammas T b) as [|g l'] eqn:Eg; [cbn in LG; lia|].
    assert (Hb : In b (k_betas T)) by (rewrite Eb; now left). assert (Hg : In g (k_gammas T b)) by (rewrite Eg; now left).
    destruct (first_alphas b g Hb Hg) as (a & Ha). destruct (first_drawn b g a Hb Hg Ha) as (z & D). now exists (mkChalK b g a z).
  Qed.

  (** the hypotheses of C61 *)
  Lemma rewound c0 F0 : drawn T c0 -> polys_of c0 F0 -> forall b g, In b (k_betas T) -> In g (k_gammas T b) ->
    exists zs pps, small cd zs /\ small cd pps /\ forall a, In a (k_alphas T b g) ->
      holds_for cd gates (map inj (KIs cd)) h b g (cols (f_cs F0)) (cols (f_sigmas F0)) (cols (f_ws F0)) zs pps E a.
  Proof.
    intros D0 HF0 b g Hb Hg. destruct (first_alphas b g Hb Hg) as (a2 & Ha2). destruct (first_drawn b g a2 Hb Hg Ha2) as (z2 & D2).
    destruct (polys_exist _ D2) as (F2 & HF2). exists (cols (f_zs F2)), (cols (f_pps F2)).
    split; [exact (col_bounded _ _ _ _ _ HF2 in_zs)|]. split; [exact (col_bounded _ _ _ _ _ HF2 in_pps)|].
    intros a Ha. destruct (first_drawn b g a Hb Hg Ha) as (z3 & D3). destruct (polys_exist _ D3) as (F3 & HF3).
    exists (cols (f_qs F3)), (k_zetas T b g a). destruct EN as (_ & EB & EA & EZ & _). destruct (EZ b g a Hb Hg Ha) as (L3 & ND & LZ).
    split; [apply (opened_shape _ _ _ c0); [exact HF0|exact (proj1 (EB b Hb))|exact (proj1 (EA b g Hb Hg))|exact L3]|].
    split; [exact (col_bounded _ _ _ _ _ HF3 in_qs)|]. split; [exact ND|]. split; [exact LZ|].
    intros z Hz. set (c := mkChalK b g a z). assert (D : drawn T c) by (unfold drawn, c; cbn [c_betas c_gammas c_alphas c_zeta]; auto).
    destruct (polys_exist c D) as (F & HF). destruct (some_fri c D) as (alpha & betas & R).
    destruct (some_index c D) as (i0 & H0). destruct (WIN c alpha betas i0 D (R i0 H0)) as (_ & _ & _ & _ & W). apply range_first in W. destruct W as ((C1 & _) & W & _).
    eexists. unfold proof_of in W, C1. cbn [Openings] in W, C1. rewrite <- (repO_injO _ C1) in W.
    rewrite (opens_with c F c0 F0 _ F2 _ F3 D D0 D2 D3 HF HF0 HF2 HF3 eq_refl eq_refl eq_refl eq_refl eq_refl) in W. exact W.
  Qed.
  (** the leaves of the first two oracles *)
  Lemma leaves_are c0 F0 c alpha betas i o s m : drawn T c0 -> polys_of c0 F0 -> drawn T c -> drawn_on cd T G c alpha betas i -> (o < 2)%nat ->
    (forall j, (s <= j < s + m)%nat -> In (o, j) (fst (Prop_Fri.layout cd))) ->
    map (fun j => nth j (Elements (nth o (trees c alpha betas i) no_eval)) 0) (seq s m) = map (fun f => rep (gpeval f (dom g7 n i))) (col F0 o s m).
  Proof.
    intros D0 HF0 D R Ho Hin. unfold col. rewrite map_map. apply map_ext_in. intros j Hj. apply in_seq in Hj.
    destruct (polys_exist c D) as (F & HF). pose proof (Hin j ltac:(lia)) as Hoj.
    etransitivity; [exact (proj2 (proj1 HF _ Hoj) alpha betas i R)|]. f_equal.
    assert (EQ : forall x, kpeval (map emb (F (o, j))) x = kpeval (map emb (F0 (o, j))) x).
    { apply (polys_agree c c0 F F0 o j D D0 HF HF0 Hoj ltac:(lia)). destruct o as [|[|o]]; [reflexivity|reflexivity|lia]. }
    specialize (EQ (emb (dom g7 n i))). rewrite !kpeval_emb in EQ. now apply emb_inj in EQ.
  Qed.
End Sound.
