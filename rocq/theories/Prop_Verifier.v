(** * Properties C52-C54: the verifier circuit.

    The circuit is compared with [accepts ... P] (VerifierProofs.v), plonky2's verification
    relation with the permutation of the Goldilocks Poseidon hash as a parameter [P]:
    the elements of the proof are canonical, the public inputs are hashed to h, the
    transcript of h and the proof gives the challenges, the vanishing identity holds at
    zeta ([plonk_ok]) and all FRI checks hold ([fri_ok]).  [pgraph] is the permutation
    itself, [permw w] the relation that the permutation circuit enforces with a w-bit
    S-box quotient; the code has w = 192. *)
From Coq Require Import String.
From Coq Require Import ZArith NArith Lia List Bool Permutation.
From Verif Require Import Zp GF Circuit Goldilocks GLProofs ExtProofs PoseidonSpec PoseidonGL PoseidonGLProofs Sponge DenP
  Types Challenger ChallengerProofs ChallengerPhases Transcript ChallengerTop Prop_Challenger Roots Fri FriMerkle FriEval FriQuery FriTop Prop_Fri
  Gates GateProofs GateFilter GateAll Prop_Gates Plonk PlonkProofs Prop_Plonk GateIds GateIdProofs GateIdText Verifier VerifierProofs Prop_Poseidon.
Import ListNotations.
Open Scope Z_scope.

(** ** C53 *)
(** no hypothesis on the proof at all: not on its values, not on the lengths of its lists *)
Theorem C53_verify : forall w cd gates pr pis vd, sat (Verify w cd gates pr pis vd) ->
  let o := Openings pr in let f := OpeningProof pr in
  (forall x, In x (Constants o ++ PlonkSigmas o ++ Wires o ++ PlonkZs o ++ PlonkZsNext o ++ PartialProducts o ++ QuotientPolys o ++ FinalPoly f) ->
     0 <= fst x < p /\ 0 <= snd x < p) /\
  (forall q e x, In q (QueryRoundProofs f) -> In e (InitialTreesProof q) -> In x (Elements e) -> 0 <= x < p) /\
  (forall q s x, In q (QueryRoundProofs f) -> In s (Steps q) -> In x (Evals s) -> 0 <= fst x < p /\ 0 <= snd x < p) /\
  0 <= PowWitness f < p.
Proof.
  intros w cd gates pr pis vd [a R] o f. unfold Verify in R. apply reach_bind in R. destruct R as (b & R & _).
  apply (enforces_sound _ _ _ _ (range_proof_correct pr)) in R. destruct R as [((A1 & A2 & A3 & A4 & A5 & A6 & A7) & (B1 & B2) & B3) _].
  rewrite Forall_forall in A1, A2, A3, A4, A5, A6, A7, B1, B2. split; [|split; [|split]].
  - intros x Hx. rewrite !in_app_iff in Hx. fold o in A1, A2, A3, A4, A5, A6, A7. fold f in B2.
    destruct Hx as [H|[H|[H|[H|[H|[H|[H|H]]]]]]]; [now apply A1|now apply A2|now apply A3|now apply A4|now apply A5|now apply A6|now apply A7|now apply B2].
  - intros q e x Hq He Hx. destruct (B1 q Hq) as [L _]. unfold canon_leaves in L. rewrite Forall_forall in L. specialize (L e He).
    rewrite Forall_forall in L. exact (L x Hx).
  - intros q s x Hq Hs Hx. destruct (B1 q Hq) as [_ L]. rewrite Forall_forall in L. specialize (L s Hs).
    rewrite Forall_forall in L. exact (L x Hx).
  - exact B3.
Qed.
Print Assumptions C53_verify.
(** and nothing else is range checked: rangeCheckProof accepts exactly these proofs *)
Theorem C53_exact : forall pr, enforces (rangeCheckProof pr) (canon_proof pr) tt.
Proof. exact range_proof_correct. Qed.
Print Assumptions C53_exact.
Example C53_ex : let pr x y z := mkProof [r - 1] [] [] (mkOpeningSet [(x, 1)] [] [] [] [(3, 4)] [] [])
      (mkFriProof [] [mkFriQueryRound [mkFriEvalProof [1; y] [2 ^ 200]] [mkFriQueryStep [(2, z)] [5]]] [(7, 8)] 9) in
  run (rangeCheckProof (pr (p - 1) 0 (p - 1))) = Done tt /\
  run (rangeCheckProof (pr p 0 0)) <> Done tt /\ run (rangeCheckProof (pr 0 p 0)) <> Done tt /\ run (rangeCheckProof (pr 0 0 p)) <> Done tt.
Proof. vm_compute. repeat split; discriminate. Qed.

(** ** C52 *)
Section C52.
  Context (orders : nat -> list handler) (cd : CommonCircuitData) (gates : list Gate) (pr : Proof_) (pis : list Z) (vd : VerifierOnlyCircuitData).
  (** the identifiers are those of the gates, whatever the order in which the table is searched *)
  Context (HO : forall i, Permutation (orders i) gateRegexHandlers) (HG : Forall2 gate_text gates (map str (GateIds cd))).
  Context (HC : circuit_shape cd gates) (HS : proof_shape cd gates pr) (HN : native pr pis vd).

  Lemma define_verify w : Define orders w cd pr pis vd = Verify w cd gates pr pis vd.
  Proof. unfold Define, NewVerifierChip. now rewrite (created_ok orders gates (GateIds cd) HO HG). Qed.

  (** the honest solver completes exactly if plonky2's relation holds *)
  Theorem C52_honest : run (Define orders 192 cd pr pis vd) = Done tt <-> accepts cd gates pr pis vd pgraph.
  Proof.
    rewrite define_verify. pose proof (verify_denP 192 cd gates pr pis vd ltac:(lia) HC HS HN) as D.
    split; [|intros H; exact (denP_run _ _ _ _ tt D H)].
    intros R. unfold Verify in R.
    assert (RB : forall (A B : Type) (c : circ A) (f : A -> circ B) b, run (bind c f) = Done b -> exists a, run c = Done a /\ run (f a) = Done b).
    { intros A B c f b. rewrite run_bind. destruct (run c); try discriminate. eauto. }
    apply RB in R. destruct R as ([] & R0 & R). apply run_reach, (enforces_sound _ _ _ _ (range_proof_correct pr)) in R0. destruct R0 as [Hp _].
    apply RB in R. destruct R as (hz & R1 & R).
    pose proof (public_inputs_denP 192 pis ltac:(lia) (proj1 HN)) as DP.
    pose proof (run_reach _ _ R1) as Q1. apply (proj2 DP) in Q1. destruct Q1 as (_ & _ & HR & _).
    pose proof (proj1 DP _ (conj HR (sponge_graph_is (map inj pis) 4))) as E. rewrite E in R1. injection R1 as <-.
    set (h := sponge g0 poseidon (map inj pis) 4) in *.
    assert (Lh : length h = 4%nat) by (apply C20_output_count; lia).
    apply RB in R. destruct R as (ch & R2 & R).
    destruct (C28_transcript_honest 192 cd pr (map rep h) vd ltac:(lia) (ok_transcript pr pis vd HN h Hp) (shape_transcript cd gates pr HC HS)) as (ch' & R2' & U).
    rewrite R2' in R2. injection R2 as ->.
    pose proof (proj2 (U ch) eq_refl) as T.
    destruct (transcript_field 192 cd pr (map rep h) vd pgraph ch (or_introl eq_refl) (shape_transcript cd gates pr HC HS) T)
      as (c & alpha & betas & pow & indices & -> & L1 & L2 & L3).
    apply RB in R. destruct R as ([] & R3 & R). destruct Hp as (P1 & P2 & P3).
    apply run_reach, (enforces_sound _ _ _ _ (plonk_part cd gates pr HC HS h c _ P1 Lh L1 L2 L3)) in R3. destruct R3 as [K1 _].
    cbv zeta in R. apply run_reach in R.
    apply (enforces_sound _ _ _ _ (fri_part cd gates pr vd HC (c_zeta c) alpha betas pow indices P1 P2)) in R. destruct R as [K2 _].
    unfold accepts. split; [repeat split; try apply P1; try apply P2; apply P3|]. split; [exact HR|].
    exists h, c, alpha, betas, pow, indices. split; [apply sponge_graph_is|]. auto.
  Qed.
  (** for an arbitrary prover, in terms of the relation that the code's permutation circuit enforces *)
  Theorem C52_exact : sat (Define orders 192 cd pr pis vd) <-> accepts cd gates pr pis vd (permw 192).
  Proof.
    rewrite define_verify. pose proof (verify_denP 192 cd gates pr pis vd ltac:(lia) HC HS HN) as D. split.
    - intros [z R]. apply (proj1 (denP_reach _ _ _ _ z D)) in R. destruct R as (_ & _ & R). exact R.
    - intros H. exists tt. apply (proj2 (denP_reach _ _ _ _ tt D)). now exists tt.
  Qed.
  (** Partial: an arbitrary prover, for S-box widths from 128 to 189.  Missing: the width 192 of the code. *)
  Theorem C52_verify_partial w : 128 <= w <= 189 -> (sat (Define orders w cd pr pis vd) <-> accepts cd gates pr pis vd pgraph).
  Proof.
    intros Hw. rewrite define_verify. pose proof (verify_denP w cd gates pr pis vd ltac:(lia) HC HS HN) as D.
    assert (E : accepts cd gates pr pis vd (permw w) <-> accepts cd gates pr pis vd pgraph).
    { unfold accepts. pose proof (shape_transcript cd gates pr HC HS) as SH.
      assert (EH : forall h, sponge_rel g0 (permw w) (map inj pis) 4 h <-> sponge_rel g0 pgraph (map inj pis) 4 h).
      { intros h. split; intros H.
        - apply (proj1 (sponge_sound w _ _ h Hw)) in H. subst h. apply sponge_graph_is.
        - apply sponge_graph in H. subst h. now apply (proj2 (sponge_sound w _ _ _ Hw)). }
      assert (ET : forall h ch, transcript_gives cd pr (map rep h) vd (permw w) ch <-> transcript_gives cd pr (map rep h) vd pgraph ch).
      { intros h ch. rewrite !transcript_gives_mops by auto using okP_pgraph, okP_permw.
        split; intros (ys & -> & t & M); exists ys; (split; [reflexivity|]); exists t; eapply mops_ext; eauto.
        - intros s u. symmetry. now apply permw_pgraph.
        - now apply permw_pgraph. }
      split; (intros (A1 & A2 & h & c & alpha & betas & pow & indices & H1 & H2 & H3); split; [exact A1|split; [exact A2|]];
        exists h, c, alpha, betas, pow, indices; split; [now apply EH|]; split; [now apply ET|]; exact H3). }
    rewrite <- E. split.
    - intros [z R]. apply (proj1 (denP_reach _ _ _ _ z D)) in R. destruct R as (_ & _ & R). exact R.
    - intros H. exists tt. apply (proj2 (denP_reach _ _ _ _ tt D)). now exists tt.
  Qed.
End C52.
Print Assumptions C52_honest.
Print Assumptions C52_exact.
Print Assumptions C52_verify_partial.

(** ** C54 *)
Definition same_residues (x y : list Z) : Prop := Forall2 (fun a b => a mod p = b mod p) x y.
Lemma same_residues_inj x y : same_residues x y <-> map inj x = map inj y.
Proof.
  split.
  - induction 1 as [|a b x y E F IH]; [reflexivity|]. cbn [map]. rewrite IH. f_equal. apply GF_eq. now rewrite !rep_inj.
  - revert y. induction x as [|a x IH]; intros [|b y] E; try discriminate E; constructor.
    + pose proof (f_equal (fun l => rep (hd g0 l)) E) as E1. cbn [map hd] in E1. now rewrite !rep_inj in E1.
    + apply IH. exact (f_equal (@tl _) E).
Qed.
(** the rest of the circuit sees the hash only *)
Lemma verify_by_hash w cd gates pr pis pis' vd : 128 <= w -> Forall reducible pis -> Forall reducible pis' ->
  (forall P h, P = pgraph \/ P = permw w -> (sponge_rel g0 P (map inj pis) 4 h <-> sponge_rel g0 P (map inj pis') 4 h)) ->
  run (Verify w cd gates pr pis vd) = run (Verify w cd gates pr pis' vd) /\
  (sat (Verify w cd gates pr pis vd) <-> sat (Verify w cd gates pr pis' vd)).
Proof.
  intros Hw H H' E.
  assert (ER : run (GetPublicInputsHash w pis) = run (GetPublicInputsHash w pis')).
  { unfold GetPublicInputsHash. rewrite (denR_run _ _ _ _ _ (hash_no_pad_denR w pis H) Hw), (denR_run _ _ _ _ _ (hash_no_pad_denR w pis' H') Hw).
    assert (S : sponge g0 poseidon (map inj pis) 4 = sponge g0 poseidon (map inj pis') 4); [|now rewrite S].
    apply sponge_graph. apply (E pgraph); [now left|]. apply sponge_graph_is. }
  assert (EX : forall z, reach (GetPublicInputsHash w pis) z <-> reach (GetPublicInputsHash w pis') z).
  { intros z. unfold GetPublicInputsHash. rewrite (denR_reach _ _ _ _ _ z (hash_no_pad_denR w pis H)), (denR_reach _ _ _ _ _ z (hash_no_pad_denR w pis' H')).
    split; intros (h & -> & Hh); exists h; (split; [reflexivity|]); apply (E (permw w)); auto. }
  unfold Verify. split.
  - rewrite !run_bind. destruct (run (rangeCheckProof pr)); try reflexivity. now rewrite ER.
  - split; intros [z R]; exists z; apply reach_bind in R; destruct R as (u & R0 & R); apply reach_bind in R; destruct R as (h & R1 & R);
      (apply reach_bind; exists u; split; [exact R0|]; apply reach_bind; exists h; split; [now apply EX|exact R]).
Qed.
(** only the residues matter, for any w, any proof (whatever its shape) and any prover *)
Theorem C54_residues : forall w cd gates pr pis pis' vd, 128 <= w ->
  Forall (fun x => 0 <= x < 2 ^ 144 * p) pis -> Forall (fun x => 0 <= x < 2 ^ 144 * p) pis' -> same_residues pis pis' ->
  run (Verify w cd gates pr pis vd) = run (Verify w cd gates pr pis' vd) /\
  (sat (Verify w cd gates pr pis vd) <-> sat (Verify w cd gates pr pis' vd)).
Proof.
  intros w cd gates pr pis pis' vd Hw H H' E. apply verify_by_hash; auto. intros P h _. apply same_residues_inj in E. now rewrite E.
Qed.
Print Assumptions C54_residues.
(** larger public inputs are rejected *)
Theorem C54_too_large : forall w cd gates pr pis vd, Forall (fun x => 0 <= x < r) pis -> Exists (fun x => 2 ^ 144 * p <= x) pis ->
  ~ sat (Verify w cd gates pr pis vd).
Proof.
  intros w cd gates pr pis vd H X [z R]. unfold Verify in R. apply reach_bind in R. destruct R as (u & _ & R).
  apply reach_bind in R. destruct R as (h & R & _). unfold GetPublicInputsHash, HashNoPad_w in R. apply reach_bind in R. destruct R as (v & R & _).
  apply (enforces_sound _ _ _ _ (reduce_all pis H)) in R. destruct R as [F _].
  apply Exists_exists in X. destruct X as (x & Hx & Lx). rewrite Forall_forall in F. specialize (F x Hx). unfold reducible in F. lia.
Qed.
Print Assumptions C54_too_large.
(** so public inputs are not bound as integers: x and x + p are interchangeable *)
Theorem C54_plus_p : forall w cd gates pr a x b vd, 128 <= w ->
  Forall (fun x => 0 <= x < 2 ^ 144 * p) (a ++ x :: b) -> x + p < 2 ^ 144 * p ->
  (sat (Verify w cd gates pr (a ++ x :: b) vd) <-> sat (Verify w cd gates pr (a ++ (x + p) :: b) vd)).
Proof.
  intros w cd gates pr a x b vd Hw H Hx. pose proof p_pos. apply C54_residues; auto.
  - rewrite Forall_app in *. destruct H as [Ha Hb]. split; [exact Ha|]. inversion Hb; subst. constructor; [lia|assumption].
  - apply Forall2_app; [clear; induction a; constructor; auto|].
    constructor; [rewrite <- Z.add_mod_idemp_r, Z.mod_same, Z.add_0_r by lia; reflexivity|]. clear. induction b; constructor; auto.
Qed.
Print Assumptions C54_plus_p.

(** the inputs of the permutation f when the blocks are absorbed *)
Fixpoint inputs_from (f : list GF -> list GF) (blocks : list (list GF)) (s : list GF) : list (list GF) :=
  match blocks with [] => [] | c :: l => overwrite c s :: inputs_from f l (f (overwrite c s)) end.
Definition sponge_inputs (x : list GF) : list (list GF) := inputs_from poseidon (chunks 8 x) (repeat g0 12).
(** different states with the same digest or the same capacity part after the permutation *)
Definition collides (f : list GF -> list GF) (A B : list (list GF)) : Prop :=
  exists a b, In a A /\ In b B /\ length a = 12%nat /\ length b = 12%nat /\ a <> b /\
    (firstn 4 (f a) = firstn 4 (f b) \/ skipn 8 (f a) = skipn 8 (f b)).
Definition sponge_collision : list (list GF) -> list (list GF) -> Prop := collides poseidon.

Definition GF_dec (a b : GF) : {a = b} + {a <> b}.
Proof. destruct (Z.eq_dec (rep a) (rep b)) as [E|N]; [left; now apply GF_eq|right; congruence]. Defined.

Lemma skipn_twice {A} m : forall n (l : list A), skipn n (skipn m l) = skipn (m + n) l.
Proof. induction m as [|m IH]; intros n l; [reflexivity|]. destruct l as [|x l]; [now rewrite !skipn_nil|]. apply IH. Qed.
Lemma overwrite_inv (c c' s s' : list GF) : length c = length c' -> (length c <= 8)%nat -> overwrite c s = overwrite c' s' ->
  c = c' /\ skipn 8 s = skipn 8 s'.
Proof.
  intros L L8 E. unfold overwrite in E. rewrite <- L in E.
  assert (C : c = c').
  { pose proof (f_equal (firstn (length c)) E) as F.
    rewrite (proj1 (cut1 c _ (length c) eq_refl)), (proj1 (cut1 c' _ (length c) (eq_sym L))) in F. exact F. }
  split; [exact C|]. subst c'. apply app_inv_head in E. apply (f_equal (skipn (8 - length c))) in E.
  rewrite !skipn_twice in E. now replace (length c + (8 - length c))%nat with 8%nat in E by lia.
Qed.
Lemma overwrite_length (c s : list GF) : (length c <= length s)%nat -> length (overwrite c s) = length s.
Proof. intros H. unfold overwrite. rewrite app_length, skipn_length. lia. Qed.

Section Collide.
Variable f : list GF -> list GF.
Hypothesis f_len : forall s, length (f s) = 12%nat.
Lemma sponge_collides : forall l l' s s', l <> [] -> Forall2 (fun c c' : list GF => length c = length c' /\ (length c <= 8)%nat) l l' ->
  length s = 12%nat -> length s' = 12%nat ->
  firstn 4 (fold_left (fun s c => f (overwrite c s)) l s) = firstn 4 (fold_left (fun s c => f (overwrite c s)) l' s') ->
  (l = l' /\ skipn 8 s = skipn 8 s') \/ collides f (inputs_from f l s) (inputs_from f l' s').
Proof.
  induction l as [|c l IH]; intros l' s s' N F Ls Ls' E; [now destruct N|].
  inversion F as [|? c' ? t [Lc L8] Ft]; subst. cbn [fold_left inputs_from] in *.
  set (a := overwrite c s) in *. set (b := overwrite c' s') in *.
  assert (La : length a = 12%nat) by (unfold a; rewrite overwrite_length; lia).
  assert (Lb : length b = 12%nat) by (unfold b; rewrite overwrite_length; lia).
  assert (M : (l = t /\ skipn 8 (f a) = skipn 8 (f b)) \/ (l = [] /\ t = [] /\ firstn 4 (f a) = firstn 4 (f b)) \/
              collides f (inputs_from f l (f a)) (inputs_from f t (f b))).
  { destruct l as [|d l].
    - inversion Ft; subst. right. left. cbn [fold_left] in E. exact (conj eq_refl (conj eq_refl E)).
    - destruct (IH t (f a) (f b) ltac:(discriminate) Ft (f_len a) (f_len b) E) as [X|X]; [left; exact X|right; right; exact X]. }
  assert (W : forall Q : Prop, (a = b -> Q) -> (a <> b -> firstn 4 (f a) = firstn 4 (f b) \/ skipn 8 (f a) = skipn 8 (f b)) ->
    Q \/ collides f (a :: inputs_from f l (f a)) (b :: inputs_from f t (f b))).
  { intros Q HQ HN. destruct (list_eq_dec GF_dec a b) as [Eab|Nab]; [left; auto|right].
    exists a, b. split; [now left|]. split; [now left|]. auto. }
  destruct M as [[-> C]|[(-> & -> & C)|(x & y & Hx & Hy & R)]].
  - apply W; [|auto]. intros Eab. destruct (overwrite_inv c c' s s' Lc L8 Eab) as [-> K]. auto.
  - apply W; [|auto]. intros Eab. destruct (overwrite_inv c c' s s' Lc L8 Eab) as [-> K]. auto.
  - right. exists x, y. split; [now right|]. split; [now right|]. exact R.
Qed.
End Collide.
Lemma chunks_same_lengths : forall fuel (x y : list GF), length x = length y ->
  Forall2 (fun c c' : list GF => length c = length c' /\ (length c <= 8)%nat) (chunks_ fuel 8 x) (chunks_ fuel 8 y).
Proof.
  induction fuel as [|fuel IH]; intros x y L; [constructor|]. destruct x as [|a x], y as [|b y]; try discriminate L; [constructor|].
  cbn [chunks_]. constructor; [rewrite !firstn_length; lia|]. apply IH. rewrite !skipn_length. lia.
Qed.
(** public inputs with different residues: either the hash that the verifier uses differs or
    the two lists exhibit a collision *)
Theorem C54_collision : forall pis pis', length pis = length pis' -> ~ same_residues pis pis' ->
  sponge g0 poseidon (map inj pis) 4 = sponge g0 poseidon (map inj pis') 4 ->
  sponge_collision (sponge_inputs (map inj pis)) (sponge_inputs (map inj pis')).
Proof.
  intros pis pis' L N E. rewrite same_residues_inj in N. revert N E.
  assert (L' : length (map inj pis) = length (map inj pis')) by now rewrite !map_length. revert L'.
  generalize (map inj pis) (map inj pis'). clear L pis pis'. intros x y L N E.
  unfold sponge in E. change ((4 - 1) / 8)%nat with O in E. cbn [squeeze_fn] in E. rewrite !firstn_firstn in E. cbn [Nat.min] in E.
  unfold absorb_fn, sponge_inputs, chunks in *. rewrite <- L in *.
  destruct (sponge_collides poseidon poseidon_len (chunks_ (length x) 8 x) (chunks_ (length x) 8 y) (repeat g0 12) (repeat g0 12)) as [[C _]|C];
    [| |reflexivity|reflexivity|exact E| |exact C].
  - intros Z. apply (f_equal (@concat _)) in Z. rewrite chunks_concat in Z by lia. cbn in Z. subst x. cbn in L. apply N. now destruct y.
  - now apply chunks_same_lengths.
  - exfalso. apply N. rewrite <- (chunks_concat 8 ltac:(lia) (length x) x (le_n _)), C, chunks_concat by lia. reflexivity.
Qed.
Print Assumptions C54_collision.
(** the number of public inputs is not bound: a zero can be appended *)
Theorem C54_append_zero : forall w cd gates pr pis vd, 128 <= w -> Forall (fun x => 0 <= x < 2 ^ 144 * p) pis -> (1 <= length pis <= 7)%nat ->
  run (Verify w cd gates pr (pis ++ [0]) vd) = run (Verify w cd gates pr pis vd) /\
  (sat (Verify w cd gates pr (pis ++ [0]) vd) <-> sat (Verify w cd gates pr pis vd)).
Proof.
  intros w cd gates pr pis vd Hw H L. pose proof p_pos. apply verify_by_hash; auto.
  - apply Forall_app. split; [exact H|]. constructor; [|constructor]. unfold reducible. split; [lia|]. apply Z.mul_pos_pos; [reflexivity|exact H0].
  - intros P h _. rewrite map_app. cbn [map]. rewrite <- g0_inj. assert (L' : (1 <= length (map inj pis) <= 7)%nat) by now rewrite map_length.
    revert L'. generalize (map inj pis). clear. intros x L. unfold sponge_rel, absorb_rel.
    assert (E : forall l : list GF, (1 <= length l <= 8)%nat -> chunks 8 l = [l]).
    { intros l Hl. unfold chunks. destruct l as [|y l]; [cbn in Hl; lia|]. cbn [length chunks_].
      rewrite firstn_all2, skipn_all2 by lia. f_equal. now destruct (length l). }
    rewrite !E by (rewrite ?app_length; cbn [length]; lia).
    assert (O : overwrite (x ++ [g0]) (repeat g0 12) = overwrite x (repeat g0 12)).
    { unfold overwrite. rewrite app_length. cbn [length]. rewrite <- app_assoc. f_equal.
      assert (S : forall n, (n < 12)%nat -> skipn n (repeat g0 12) = g0 :: skipn (n + 1) (repeat g0 12)).
      { intros n Hn. do 12 (destruct n as [|n]; [reflexivity|]). lia. }
      symmetry. apply S. lia. }
    cbn [chainR]. now rewrite O.
Qed.
Print Assumptions C54_append_zero.
Example C54_ex : Forall (fun x => 0 <= x < 2 ^ 144 * p) [5; 7] /\ same_residues [5; 7] [5 + p; 7] /\ ~ same_residues [5; 7] [6; 7] /\
  Exists (fun x => 2 ^ 144 * p <= x) [2 ^ 208] /\ Forall (fun x => 0 <= x < r) [2 ^ 208].
Proof.
  split; [repeat constructor; vm_compute; congruence|]. split; [repeat constructor|]. split; [intros H; inversion H as [|? ? ? ? E]; vm_compute in E; congruence|].
  split; [constructor; vm_compute; congruence|repeat constructor; vm_compute; congruence].
Qed.
