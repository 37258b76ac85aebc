(** * The circuit does not depend on the values of its inputs: challenger, fri, gates, plonk,
      verifier. *)
From Coq Require Import String.
From Coq Require Import ZArith NArith Lia List Bool.
From Verif Require Import Zp Circuit Goldilocks PoseidonGL Sponge BN254 Types Challenger Fri Gates Plonk GateIds Verifier
  Uniform.
Import ListNotations.
Open Scope Z_scope.
Open Scope circ_scope.

(** ** challenger *)
Record chalR (c d : chal) : Prop := {
  cr_s : Forall2 any (spongeState c) (spongeState d);
  cr_i : Forall2 any (inputBuffer c) (inputBuffer d);
  cr_o : Forall2 any (outputBuffer c) (outputBuffer d) }.

Lemma sim_duplexing w c d : chalR c d -> sim chalR (duplexing w c) (duplexing w d).
Proof.
  intros [S I O]. unfold duplexing. rewrite <- (F2_len _ _ _ I). destruct (Nat.ltb _ _); [constructor|].
  eapply sim_bind; [eapply sim_mapM; [exact I|intros; apply sim_Reduce]|]. intros xs ys H.
  eapply sim_bind; [apply sim_Poseidon; apply Forall2_app; [exact H|rewrite (F2_len _ _ _ H); now apply F2_skipn]|].
  intros s s' Hs. constructor. constructor; cbn [spongeState inputBuffer outputBuffer]; rel.
Qed.
Lemma sim_ObserveElement w c d x y : chalR c d -> sim chalR (ObserveElement w c x) (ObserveElement w d y).
Proof.
  intros H. assert (H' : chalR (mkChal (spongeState c) (inputBuffer c ++ [x]) []) (mkChal (spongeState d) (inputBuffer d ++ [y]) [])).
  { destruct H as [S I O]. constructor; cbn [spongeState inputBuffer outputBuffer]; rel. }
  unfold ObserveElement. cbn zeta. rewrite <- (F2_len _ _ _ (cr_i _ _ H')).
  destruct (Nat.eqb _ _); [now apply sim_duplexing|now constructor].
Qed.
Lemma sim_ObserveElements w c d l l' : chalR c d -> Forall2 any l l' ->
  sim chalR (ObserveElements w c l) (ObserveElements w d l').
Proof.
  intros H F. unfold ObserveElements. eapply (sim_foldM any chalR); [exact F| |exact H].
  intros. now apply sim_ObserveElement.
Qed.
Lemma sim_ObserveHash w c d l l' : chalR c d -> Forall2 any l l' ->
  sim chalR (ObserveHash w c l) (ObserveHash w d l').
Proof. apply sim_ObserveElements. Qed.
Lemma sim_ObserveBN w c d x y : chalR c d -> sim chalR (ObserveBN254Hash w c x) (ObserveBN254Hash w d y).
Proof.
  intros H. unfold ObserveBN254Hash. eapply sim_bind; [apply sim_ToVec|]. intros. now apply sim_ObserveElements.
Qed.
Lemma sim_ObserveCap w c d l l' : chalR c d -> Forall2 any l l' -> sim chalR (ObserveCap w c l) (ObserveCap w d l').
Proof.
  intros H F. unfold ObserveCap. eapply (sim_foldM any chalR); [exact F| |exact H]. intros. now apply sim_ObserveBN.
Qed.
Lemma sim_ObserveE w c d x y : chalR c d -> sim chalR (ObserveExtensionElement w c x) (ObserveExtensionElement w d y).
Proof. intros H. unfold ObserveExtensionElement. apply sim_ObserveElements; [exact H|rel]. Qed.
Lemma sim_ObserveEs w c d l l' : chalR c d -> Forall2 any l l' ->
  sim chalR (ObserveExtensionElements w c l) (ObserveExtensionElements w d l').
Proof.
  intros H F. unfold ObserveExtensionElements. eapply (sim_foldM any chalR); [exact F| |exact H].
  intros. now apply sim_ObserveE.
Qed.
Lemma sim_ObserveOpenings w c d l l' : chalR c d -> Forall2 (Forall2 any) l l' ->
  sim chalR (ObserveOpenings w c l) (ObserveOpenings w d l').
Proof.
  intros H F. unfold ObserveOpenings. eapply (sim_foldM (Forall2 any) chalR); [exact F| |exact H].
  intros. now apply sim_ObserveEs.
Qed.
Lemma sim_GetChallenge w c d : chalR c d -> sim (pairR any chalR) (GetChallenge w c) (GetChallenge w d).
Proof.
  intros H. unfold GetChallenge. eapply (sim_bind chalR).
  - rewrite <- (F2_len _ _ _ (cr_i _ _ H)), <- (F2_len _ _ _ (cr_o _ _ H)).
    destruct (_ || _); [now apply sim_duplexing|now constructor].
  - clear c d H. intros c d [S I O]. rewrite <- (F2_len _ _ _ O).
    eapply sim_bind; [eapply sim_nth; exact O|]. intros x y _. constructor. split; [exact Logic.I|].
    constructor; cbn [fst snd spongeState inputBuffer outputBuffer]; rel.
Qed.
Lemma sim_GetN w n : forall c d, chalR c d ->
  sim (pairR (Forall2 any) chalR) (GetNChallenges w c n) (GetNChallenges w d n).
Proof.
  induction n as [|n IH]; intros c d H; cbn [GetNChallenges].
  - constructor. split; [constructor|exact H].
  - eapply sim_bind; [apply sim_GetChallenge; exact H|]. intros [x c'] [y d'] [_ H'].
    eapply sim_bind; [apply IH; exact H'|]. intros [xs c''] [ys d''] [F H''].
    constructor. split; [now constructor|exact H''].
Qed.
Lemma sim_GetE w c d : chalR c d -> sim (pairR any chalR) (GetExtensionChallenge w c) (GetExtensionChallenge w d).
Proof.
  intros H. unfold GetExtensionChallenge. eapply sim_bind; [apply sim_GetN; exact H|].
  intros [xs c'] [ys d'] [F H']. cbn [fst snd] in F, H'.
  eapply sim_bind; [eapply sim_nth; exact F|]. intros. eapply sim_bind; [eapply sim_nth; exact F|]. intros.
  constructor. now split.
Qed.
Lemma sim_getBetas w caps caps' : Forall2 (Forall2 any) caps caps' -> forall c d, chalR c d ->
  sim (pairR (Forall2 any) chalR) (getBetas w c caps) (getBetas w d caps').
Proof.
  induction 1 as [|a b l l' Hab F IH]; intros c d H; cbn [getBetas].
  - constructor. split; [constructor|exact H].
  - eapply sim_bind; [apply sim_ObserveCap; [exact H|exact Hab]|]. intros c1 d1 H1.
    eapply sim_bind; [apply sim_GetE; exact H1|]. intros [x c2] [y d2] [_ H2].
    eapply sim_bind; [apply IH; exact H2|]. intros [xs c3] [ys d3] [F3 H3].
    constructor. split; [now constructor|exact H3].
Qed.

Record friChR (c d : FriChallenges) : Prop := {
  fc_b : Forall2 any (FriBetas c) (FriBetas d);
  fc_q : Forall2 any (FriQueryIndices c) (FriQueryIndices d) }.
Record chR (c d : ProofChallenges) : Prop := {
  ch_b : Forall2 any (PlonkBetas c) (PlonkBetas d);
  ch_g : Forall2 any (PlonkGammas c) (PlonkGammas d);
  ch_a : Forall2 any (PlonkAlphas c) (PlonkAlphas d);
  ch_f : friChR (pc_FriChallenges c) (pc_FriChallenges d) }.

Lemma sim_GetFri w c d caps caps' fp fp' pow pow' cfg : chalR c d -> Forall2 (Forall2 any) caps caps' ->
  Forall2 any fp fp' ->
  sim (pairR friChR chalR) (GetFriChallenges w c caps fp pow cfg) (GetFriChallenges w d caps' fp' pow' cfg).
Proof.
  intros H C F. unfold GetFriChallenges.
  eapply sim_bind; [apply sim_GetE; exact H|]. intros [al c1] [al' d1] [_ H1].
  eapply sim_bind; [apply sim_getBetas; [exact C|exact H1]|]. intros [bs c2] [bs' d2] [B H2].
  eapply sim_bind; [apply sim_ObserveEs; [exact H2|exact F]|]. intros c3 d3 H3.
  eapply sim_bind; [apply sim_ObserveElement; exact H3|]. intros c4 d4 H4.
  eapply sim_bind; [apply sim_GetChallenge; exact H4|]. intros [pw c5] [pw' d5] [_ H5].
  eapply sim_bind; [apply sim_GetN; exact H5|]. intros [qi c6] [qi' d6] [Q H6].
  constructor. split; [now constructor|exact H6].
Qed.

(** ** the shape of a proof *)
Record openR (o o' : OpeningSet) : Prop := {
  op_c : Forall2 any (Constants o) (Constants o');
  op_s : Forall2 any (PlonkSigmas o) (PlonkSigmas o');
  op_w : Forall2 any (Wires o) (Wires o');
  op_z : Forall2 any (PlonkZs o) (PlonkZs o');
  op_n : Forall2 any (PlonkZsNext o) (PlonkZsNext o');
  op_p : Forall2 any (PartialProducts o) (PartialProducts o');
  op_q : Forall2 any (QuotientPolys o) (QuotientPolys o') }.
Record evalR (e e' : FriEvalProof) : Prop := {
  ev_e : Forall2 any (Elements e) (Elements e');
  ev_s : Forall2 any (ep_Siblings e) (ep_Siblings e') }.
Record stepR (e e' : FriQueryStep) : Prop := {
  st_e : Forall2 any (Evals e) (Evals e');
  st_s : Forall2 any (st_Siblings e) (st_Siblings e') }.
Record roundR (q q' : FriQueryRound) : Prop := {
  qr_i : Forall2 evalR (InitialTreesProof q) (InitialTreesProof q');
  qr_s : Forall2 stepR (Steps q) (Steps q') }.
Record friR (f f' : FriProof) : Prop := {
  fr_c : Forall2 (Forall2 any) (CommitPhaseMerkleCaps f) (CommitPhaseMerkleCaps f');
  fr_q : Forall2 roundR (QueryRoundProofs f) (QueryRoundProofs f');
  fr_p : Forall2 any (FinalPoly f) (FinalPoly f') }.
Record proofR (p p' : Proof_) : Prop := {
  pr_w : Forall2 any (WiresCap p) (WiresCap p');
  pr_z : Forall2 any (PlonkZsPartialProductsCap p) (PlonkZsPartialProductsCap p');
  pr_q : Forall2 any (QuotientPolysCap p) (QuotientPolysCap p');
  pr_o : openR (Openings p) (Openings p');
  pr_f : friR (OpeningProof p) (OpeningProof p') }.

Lemma openings_R o o' : openR o o' -> Forall2 (Forall2 any) (ToOpenings o) (ToOpenings o').
Proof. intros []. unfold ToOpenings. rel. Qed.

Lemma sim_GetChallenges w cd p p' h h' vd vd' : proofR p p' -> Forall2 any h h' ->
  sim chR (GetChallenges w cd p h vd) (GetChallenges w cd p' h' vd').
Proof.
  intros [W Z Q O F] H. unfold GetChallenges. cbn zeta.
  assert (N : chalR NewChip NewChip) by (constructor; apply F2_refl; intros; exact I).
  eapply sim_bind; [apply sim_ObserveBN; exact N|]. intros c1 d1 H1.
  eapply sim_bind; [apply sim_ObserveHash; [exact H1|exact H]|]. intros c2 d2 H2.
  eapply sim_bind; [apply sim_ObserveCap; [exact H2|exact W]|]. intros c3 d3 H3.
  eapply sim_bind; [apply sim_GetN; exact H3|]. intros [b c4] [b' d4] [B H4].
  eapply sim_bind; [apply sim_GetN; exact H4|]. intros [g c5] [g' d5] [G H5].
  eapply sim_bind; [apply sim_ObserveCap; [exact H5|exact Z]|]. intros c6 d6 H6.
  eapply sim_bind; [apply sim_GetN; exact H6|]. intros [a c7] [a' d7] [A H7].
  eapply sim_bind; [apply sim_ObserveCap; [exact H7|exact Q]|]. intros c8 d8 H8.
  eapply sim_bind; [apply sim_GetE; exact H8|]. intros [ze c9] [ze' d9] [_ H9].
  eapply sim_bind; [apply sim_ObserveOpenings; [exact H9|now apply openings_R]|]. intros c10 d10 H10.
  eapply sim_bind; [apply sim_GetFri; [exact H10|apply (fr_c _ _ F)|apply (fr_p _ _ F)]|].
  intros [fc c11] [fc' d11] [FC _]. constructor. constructor; assumption.
Qed.

(** ** fri *)
Definition batchR (b b' : BatchInfo) : Prop := Polynomials b = Polynomials b'.
Record instR (i i' : InstanceInfo) : Prop := {
  in_o : Oracles i = Oracles i'; in_b : Forall2 batchR (Batches i) (Batches i') }.

Lemma sim_GetInstance cd z z' : sim instR (GetInstance cd z) (GetInstance cd z').
Proof.
  unfold GetInstance. eapply sim_bind; [apply sim_root|]. intros g _ <-.
  eapply sim_bind; [apply sim_MulE|]. intros. constructor. constructor; [reflexivity|].
  cbn [Batches]. repeat constructor.
Qed.
Lemma sim_noncanon p : sim any (assertNoncanonicalIndicesOK p) (assertNoncanonicalIndicesOK p).
Proof. apply sim_panic_if. reflexivity. Qed.
Lemma sim_valInitial p i i' q q' : instR i i' -> roundR q q' ->
  sim any (validateInitial p i q) (validateInitial p i' q').
Proof.
  intros [O _] [E _]. unfold validateInitial. rewrite <- O.
  eapply sim_bind; [apply sim_panic_if; now rewrite (F2_len _ _ _ E)|]. intros _ _ _.
  eapply sim_iterM; [eapply F2_combine; [exact E|apply F2_eq]|].
  intros [e o] [e' o'] [[Ee Es] Eo]. cbn [fst snd] in *. subst o'.
  eapply sim_bind; [apply sim_panic_if; now rewrite (F2_len _ _ _ Ee)|]. intros _ _ _.
  apply sim_panic_if. now rewrite (F2_len _ _ _ Es).
Qed.
Lemma sim_valSteps p q q' : roundR q q' -> sim any (validateSteps p q) (validateSteps p q').
Proof.
  intros [_ E]. unfold validateSteps.
  eapply sim_bind; [apply sim_panic_if; now rewrite (F2_len _ _ _ E)|]. intros _ _ _.
  eapply (sim_bind eq); [|intros; step].
  eapply (sim_foldM _ eq); [eapply F2_combine; [exact E|apply F2_eq]| |reflexivity].
  intros s t [e o] [e' o'] -> [[Ee Es] Eo]. cbn [fst snd] in *. subst o'. cbn zeta.
  eapply sim_bind; [apply sim_panic_if; now rewrite (F2_len _ _ _ Ee)|]. intros _ _ _.
  eapply sim_bind; [apply sim_panic_if; now rewrite (F2_len _ _ _ Es)|]. intros _ _ _.
  constructor. reflexivity.
Qed.
Lemma sim_valShape f f' i i' p : friR f f' -> instR i i' ->
  sim any (validateFriProofShape f i p) (validateFriProofShape f' i' p).
Proof.
  intros [C Q P] Hi. unfold validateFriProofShape.
  eapply sim_bind; [eapply sim_iterM; [exact C|]|].
  { intros a b H. apply sim_panic_if. now rewrite (F2_len _ _ _ H). }
  intros _ _ _. eapply sim_bind; [eapply sim_iterM; [exact Q|]|].
  { intros a b H. eapply sim_bind; [apply sim_valInitial; eassumption|]. intros _ _ _. now apply sim_valSteps. }
  intros _ _ _. eapply (sim_bind eq).
  { unfold FinalPolyLen. destruct (_ <? _); constructor. reflexivity. }
  intros n _ <-. apply sim_panic_if. now rewrite (F2_len _ _ _ P).
Qed.
Lemma sim_merkle l l' d d' i i' : Forall2 any l l' -> fst i = fst i' ->
  sim any (merkle_step l d i) (merkle_step l' d' i').
Proof.
  intros H E. destruct i as [i s], i' as [i' s']. cbn [fst] in E. subst i'. unfold merkle_step.
  eapply sim_bind; [eapply sim_nth; exact H|]. intros. eapply sim_bind; [apply sim_select|]. intros.
  eapply sim_bind; [apply sim_select|]. intros. constructor. exact I.
Qed.
Lemma sim_enum {A B} (S : B -> B -> Prop) (R : A -> A -> Prop) f f' (l l' : list A) : Forall2 R l l' ->
  (forall s t a b, S s t -> fst a = fst b -> R (snd a) (snd b) -> sim S (f s a) (f' t b)) ->
  forall s t, S s t -> sim S (foldM f s (combine (seq 0 (length l)) l)) (foldM f' t (combine (seq 0 (length l')) l')).
Proof.
  intros H F s t Hs. eapply (sim_foldM (pairR eq R) S); [apply F2_combine; [eapply F2_seq; exact H|exact H]| |exact Hs].
  intros s1 t1 a b H1 [E1 E2]. now apply F.
Qed.
Lemma sim_verifyMerkle ld ld' li li' ci ci' cap cap' sib sib' : Forall2 any li li' -> Forall2 any ci ci' ->
  Forall2 any cap cap' -> Forall2 any sib sib' ->
  sim any (verifyMerkleProofToCapWithCapIndex ld li ci cap sib) (verifyMerkleProofToCapWithCapIndex ld' li' ci' cap' sib').
Proof.
  intros L C K S. unfold verifyMerkleProofToCapWithCapIndex.
  eapply sim_bind; [eapply (sim_enum any any); [exact S| |exact I]; intros; now apply sim_merkle|].
  intros cur cur' _. eapply sim_bind; [apply sim_panic_if; now rewrite (F2_len _ _ _ C), (F2_len _ _ _ K)|].
  intros _ _ _. step.
Qed.
Lemma sim_verifyInitial x x' pr pr' (caps caps' : list FriMerkleCap) ci ci' : Forall2 any x x' -> Forall2 evalR pr pr' ->
  Forall2 (Forall2 any) caps caps' -> Forall2 any ci ci' ->
  sim any (verifyInitialProof x pr caps ci) (verifyInitialProof x' pr' caps' ci').
Proof.
  intros X P K C. unfold verifyInitialProof. assert (EK : length caps = length caps') by exact (F2_len _ _ _ K).
  eapply sim_bind; [apply sim_panic_if; now rewrite (F2_len _ _ _ P), EK|]. intros _ _ _.
  eapply sim_iterM; [eapply F2_combine; [exact P|exact K]|]. intros [e c] [e' c'] [[Ee Es] H]. cbn [fst snd] in *.
  now apply sim_verifyMerkle.
Qed.
Lemma sim_expBits b b' l l' : Forall2 any l l' -> sim any (expFromBitsConstBase b l) (expFromBitsConstBase b' l').
Proof.
  intros H. unfold expFromBitsConstBase. eapply (sim_enum any any); [exact H| |exact I].
  intros s t [i a] [j c] _ _ _. unfold exp_bits_step. step.
Qed.
#[export] Hint Resolve sim_expBits : sim.
Lemma sim_subgroupX l l' n : Forall2 any l l' -> sim any (calculateSubgroupX l n) (calculateSubgroupX l' n).
Proof.
  intros H. unfold calculateSubgroupX. eapply sim_bind; [apply sim_root|]. intros g _ <-.
  eapply sim_bind; [apply sim_expBits; now apply F2_rev|]. intros. apply sim_Mul.
Qed.
Lemma sim_combineStep pr pr' al al' x x' s s' bo bo' : Forall2 evalR pr pr' -> batchR (fst bo) (fst bo') ->
  sim any (combine_step pr al x s bo) (combine_step pr' al' x' s' bo').
Proof.
  intros P B. destruct bo as [b o], bo' as [b' o']. cbn [fst] in B. unfold combine_step. cbn zeta. rewrite <- B.
  eapply (sim_bind (Forall2 any)).
  - eapply (sim_mapM eq); [apply F2_eq|]. intros [i j] _ <-. cbn [fst snd].
    eapply sim_bind; [eapply sim_nth; exact P|]. intros e e' [Ee _].
    eapply sim_bind; [eapply sim_nth; exact Ee|]. intros. step.
  - intros ev ev' E. rewrite <- (F2_len _ _ _ E). step.
Qed.
Lemma sim_combineInitial i i' pr pr' al al' x x' e e' : instR i i' -> Forall2 evalR pr pr' -> Forall2 any e e' ->
  sim any (friCombineInitial i pr al x e) (friCombineInitial i' pr' al' x' e').
Proof.
  intros [_ B] P E. unfold friCombineInitial.
  eapply sim_bind; [apply sim_panic_if; now rewrite (F2_len _ _ _ B), (F2_len _ _ _ E)|]. intros _ _ _.
  eapply (sim_foldM _ any); [eapply F2_combine; [exact B|exact E]| |exact I].
  intros s t b b' _ [Hb _]. now apply sim_combineStep.
Qed.
Lemma sim_finalPoly l l' x x' : Forall2 any l l' -> sim any (finalPolyEval l x) (finalPolyEval l' x').
Proof. intros H. unfold finalPolyEval. loop (@any QE). Qed.
Lemma sim_interpStep x x' s s' p p' : sim any (interpolate_step x s p) (interpolate_step x' s' p').
Proof. unfold interpolate_step. clean. step. Qed.
Lemma sim_interpolate x x' xs xs' ys ys' ws ws' : Forall2 any xs xs' -> Forall2 any ys ys' -> Forall2 any ws ws' ->
  sim any (interpolate x xs ys ws) (interpolate x' xs' ys' ws').
Proof.
  intros X Y W. unfold interpolate.
  eapply sim_bind; [apply sim_panic_if; now rewrite (F2_len _ _ _ X), (F2_len _ _ _ Y), (F2_len _ _ _ W)|]. intros _ _ _.
  eapply (sim_bind any); [loop (@any QE)|]. intros lX lX' _.
  eapply (sim_bind any); [eapply (sim_foldM _ any); [rel|intros; apply sim_interpStep|exact I]|].
  intros [su lk] [su' lk'] _. eapply sim_bind; [apply sim_MulE|]. intros it it' _.
  eapply (sim_bind any); [loop (@any QE)|]. intros. apply sim_Lookup.
Qed.
Lemma sim_next x x' g g' n : sim (Forall2 any) (next_points x g n) (next_points x' g' n).
Proof. revert x x'. induction n as [|n IH]; intros x x'; cbn [next_points]; [step|]. eapply sim_bind; [apply sim_MulE|]. intros.
  eapply sim_bind; [apply IH|]. intros. step. Qed.
Lemma sim_bary l l' i : Forall2 any l l' -> sim any (bary_weight l i) (bary_weight l' i).
Proof.
  intros H. unfold bary_weight. eapply sim_bind; [eapply sim_nth; exact H|]. intros xi xi' _.
  eapply (sim_bind any).
  - eapply (sim_foldM eq any); [eapply F2_seq; exact H| |exact I]. intros s t j _ _ <-. destruct (Nat.eqb i j); step.
  - intros. step.
Qed.
Lemma sim_computeEval x x' b b' n e e' be be' : Forall2 any b b' -> Forall2 any e e' ->
  sim any (computeEvaluation x b n e be) (computeEvaluation x' b' n e' be').
Proof.
  intros B E. unfold computeEvaluation. rewrite <- !(F2_len _ _ _ E).
  eapply sim_bind; [apply sim_panic_if; reflexivity|]. intros _ _ _.
  eapply sim_bind; [apply sim_panic_if; reflexivity|]. intros _ _ _.
  eapply sim_bind; [apply sim_root|]. intros g _ <-. cbn zeta.
  eapply sim_bind; [apply sim_panic_if; reflexivity|]. intros _ _ _.
  eapply (sim_bind (Forall2 any)).
  { rewrite (F2_len _ _ _ E) at 4. eapply (sim_enum (Forall2 any) any); [exact E| |apply F2_refl; intros; exact I].
    intros s t [i a] [j c] H <- _. cbn [fst snd]. eapply sim_set_nth; [exact H|exact I]. }
  intros pe pe' PE. eapply sim_bind; [apply sim_expBits; now apply F2_rev|]. intros.
  eapply sim_bind; [apply sim_Mul|]. intros cs cs' _. eapply sim_bind; [apply sim_next|]. intros re re' RE.
  assert (X : Forall2 any ((cs, Zero) :: re) ((cs', Zero) :: re')) by (constructor; [exact I|exact RE]).
  eapply sim_bind; [eapply (sim_mapM eq); [eapply F2_seq; exact X|]|].
  { intros i _ <-. now apply sim_bary. }
  intros. now apply sim_interpolate.
Qed.

Definition qstR (s t : QE * Z * list Z) : Prop := Forall2 any (snd s) (snd t).
Lemma sim_queryStep ch ch' f f' q q' ci ci' s t ia : friChR ch ch' -> friR f f' -> roundR q q' -> Forall2 any ci ci' ->
  qstR s t -> sim qstR (query_step ch f q ci s ia) (query_step ch' f' q' ci' t ia).
Proof.
  intros [FB _] [FC _ _] [_ QS] C S. destruct s as [[oe sx] xb], t as [[oe' sx'] xb'], ia as [i ab].
  unfold qstR in S. cbn [snd] in S. unfold query_step.
  eapply sim_bind; [eapply sim_nth; exact QS|]. intros st st' [Se Ss]. cbn zeta.
  eapply sim_bind; [eapply sim_slice_from; exact S|]. intros co co' CO.
  eapply sim_bind; [eapply sim_slice_to; exact S|]. intros xw xw' XW.
  eapply sim_bind; [apply sim_panic_if; reflexivity|]. intros _ _ _.
  eapply sim_bind; [eapply sim_nth; exact XW|]. intros b0 b0' _.
  eapply sim_bind; [eapply sim_nth; exact XW|]. intros b1 b1' _.
  eapply (sim_bind (Forall2 any)); [step|]. intros ll ll' LL.
  eapply sim_bind; [eapply sim_nth; exact XW|]. intros b2 b2' _.
  eapply sim_bind; [eapply sim_nth; exact XW|]. intros b3 b3' _.
  eapply sim_bind; [eapply sim_nth; exact LL|]. intros l0 l0' _.
  eapply sim_bind; [eapply sim_nth; exact LL|]. intros l1 l1' _.
  eapply sim_bind; [eapply sim_nth; exact LL|]. intros l2 l2' _.
  eapply sim_bind; [eapply sim_nth; exact LL|]. intros l3 l3' _.
  eapply sim_bind; [apply sim_Lookup2|]. intros ne ne' _.
  eapply sim_bind; [apply sim_AssertIsEqual|]. intros _ _ _.
  eapply sim_bind; [apply sim_AssertIsEqual|]. intros _ _ _.
  eapply sim_bind; [eapply sim_nth; exact FB|]. intros be be' _.
  eapply sim_bind; [apply sim_computeEval; eassumption|]. intros ev ev' _.
  eapply sim_bind; [eapply sim_nth; exact FC|]. intros cap cap' CAP.
  eapply sim_bind; [apply sim_verifyMerkle; eassumption|]. intros _ _ _.
  eapply (sim_bind any); [apply sim_repeatM; [intros; apply sim_Mul|exact I]|]. intros.
  constructor. exact CO.
Qed.
Lemma sim_queryRound p i i' ch ch' pe pe' (caps caps' : list FriMerkleCap) f f' x x' n q q' : instR i i' -> friChR ch ch' -> Forall2 any pe pe' ->
  Forall2 (Forall2 any) caps caps' -> friR f f' -> roundR q q' ->
  sim any (verifyQueryRound p i ch pe caps f x n q) (verifyQueryRound p i' ch' pe' caps' f' x' n q').
Proof.
  intros Hi Hc PE K F Q. unfold verifyQueryRound.
  eapply sim_bind; [apply sim_noncanon|]. intros _ _ _.
  eapply sim_bind; [apply sim_Reduce|]. intros xi xi' _.
  eapply sim_bind; [apply sim_to_binary|]. intros bi bi' BI.
  eapply sim_bind; [eapply sim_slice_to; exact BI|]. intros xb xb' XB. rewrite <- (F2_len _ _ _ XB).
  eapply sim_bind; [apply sim_panic_if; reflexivity|]. intros _ _ _.
  eapply sim_bind; [eapply sim_slice_from; exact XB|]. intros ci ci' CI.
  eapply sim_bind; [apply sim_verifyInitial; [exact XB|apply (qr_i _ _ Q)|exact K|exact CI]|]. intros _ _ _.
  eapply sim_bind; [apply sim_subgroupX; exact XB|]. intros sx sx' _.
  eapply sim_bind; [apply sim_combineInitial; [exact Hi|apply (qr_i _ _ Q)|exact PE]|]. intros oe oe' _.
  eapply (sim_bind qstR).
  { eapply (sim_foldM eq qstR); [apply F2_eq| |exact XB].
    intros s t ia _ H <-. now apply sim_queryStep. }
  intros [[oe1 sx1] xb1] [[oe1' sx1'] xb1'] _.
  eapply sim_bind; [apply sim_finalPoly; apply (fr_p _ _ F)|]. intros fe fe' _.
  eapply sim_bind; [apply sim_AssertIsEqual|]. intros _ _ _. apply sim_AssertIsEqual.
Qed.
Lemma sim_VerifyFri p i i' o o' ch ch' (caps caps' : list FriMerkleCap) f f' : instR i i' -> Forall2 (Forall2 any) o o' -> friChR ch ch' ->
  Forall2 (Forall2 any) caps caps' -> friR f f' ->
  sim any (VerifyFriProof p i o ch caps f) (VerifyFriProof p i' o' ch' caps' f').
Proof.
  intros Hi O Hc K F. unfold VerifyFriProof.
  eapply sim_bind; [apply sim_valShape; eassumption|]. intros _ _ _.
  eapply sim_bind; [apply sim_RCM|]. intros _ _ _.
  eapply sim_bind; [apply sim_panic_if; now rewrite (F2_len _ _ _ (fr_q _ _ F))|]. intros _ _ _.
  eapply (sim_bind (Forall2 any)).
  { unfold fromOpeningsAndAlpha. eapply sim_mapM; [exact O|]. intros. now apply sim_RWP. }
  intros pe pe' PE. cbn zeta.
  eapply sim_bind; [apply sim_panic_if; now rewrite (F2_len _ _ _ (fr_q _ _ F)), (F2_len _ _ _ (fc_q _ _ Hc))|]. intros _ _ _.
  eapply sim_iterM; [eapply F2_combine; [apply (fc_q _ _ Hc)|apply (fr_q _ _ F)]|].
  intros [x q] [x' q'] [_ Q]. cbn [fst snd] in *. now apply sim_queryRound.
Qed.

(** ** gates *)
Record varsR (v v' : EvaluationVars) : Prop := {
  va_c : Forall2 any (localConstants v) (localConstants v');
  va_w : Forall2 any (localWires v) (localWires v');
  va_h : Forall2 any (publicInputsHash v) (publicInputsHash v') }.

Lemma sim_RemovePrefix v v' n : varsR v v' -> sim varsR (RemovePrefix v n) (RemovePrefix v' n).
Proof.
  intros [C W H]. unfold RemovePrefix. eapply sim_bind; [eapply sim_slice_from; exact C|]. intros lc lc' LC.
  constructor. now constructor.
Qed.
Lemma sim_GLEA v v' i : Forall2 any (localWires v) (localWires v') -> sim any (GetLocalExtAlgebra v i) (GetLocalExtAlgebra v' i).
Proof. intros W. unfold GetLocalExtAlgebra. step. Qed.
#[export] Hint Resolve sim_GLEA : sim.
Ltac gate := intros [GC GW GH]; step.

Lemma sim_arith n v v' : varsR v v' -> sim (Forall2 any) (eval_arithmetic n v) (eval_arithmetic n v').
Proof. unfold eval_arithmetic, arithmetic_op. gate. Qed.
Lemma sim_arithE n v v' : varsR v v' -> sim (Forall2 any) (eval_arithmetic_ext n v) (eval_arithmetic_ext n v').
Proof.
  intros [GC GW GH]. unfold eval_arithmetic_ext. eapply sim_bind; [eapply sim_nth; exact GC|]. intros.
  eapply sim_bind; [eapply sim_nth; exact GC|]. intros.
  eapply (sim_bind (Forall2 (Forall2 any))); [|intros; step].
  eapply (sim_mapM eq); [apply F2_eq|]. intros i _ <-. unfold arithmetic_ext_op, limbs2. step.
Qed.
Lemma sim_mulE n v v' : varsR v v' -> sim (Forall2 any) (eval_mul_ext n v) (eval_mul_ext n v').
Proof.
  intros [GC GW GH]. unfold eval_mul_ext. eapply sim_bind; [eapply sim_nth; exact GC|]. intros.
  eapply (sim_bind (Forall2 (Forall2 any))); [|intros; step].
  eapply (sim_mapM eq); [apply F2_eq|]. intros i _ <-. unfold mul_ext_op, limbs2. step.
Qed.
Lemma sim_limb b x x' : sim any (limb_check b x) (limb_check b x').
Proof. unfold limb_check. loop (@any QE). Qed.
#[export] Hint Resolve sim_limb : sim.
Lemma sim_baseSum n b v v' : varsR v v' -> sim (Forall2 any) (eval_base_sum n b v) (eval_base_sum n b v').
Proof.
  intros [GC GW GH]. unfold eval_base_sum. eapply sim_bind; [eapply sim_nth; exact GW|]. intros.
  eapply (sim_bind (Forall2 any)); [step|]. intros. step.
Qed.
Lemma sim_constant n v v' : varsR v v' -> sim (Forall2 any) (eval_constant n v) (eval_constant n v').
Proof. unfold eval_constant. gate. Qed.
Lemma sim_publicInput v v' : varsR v v' -> sim (Forall2 any) (eval_public_input v) (eval_public_input v').
Proof. unfold eval_public_input. gate. Qed.
Lemma sim_expStep n b b' pb pb' iv iv' i : Forall2 any pb pb' -> Forall2 any iv iv' ->
  sim any (exp_gate_step n b pb iv i) (exp_gate_step n b' pb' iv' i).
Proof.
  intros P V. unfold exp_gate_step. eapply (sim_bind any); [destruct (Nat.eqb i 0); step|]. intros. step.
Qed.
Lemma sim_exponentiation n v v' : varsR v v' -> sim (Forall2 any) (eval_exponentiation n v) (eval_exponentiation n v').
Proof.
  intros [GC GW GH]. unfold eval_exponentiation. eapply sim_bind; [eapply sim_nth; exact GW|]. intros.
  eapply (sim_bind (Forall2 any)); [step|]. intros pb pb' PB.
  eapply (sim_bind (Forall2 any)); [step|]. intros iv iv' IV.
  eapply sim_bind; [eapply sim_nth; exact GW|]. intros.
  eapply (sim_bind (Forall2 any)).
  { eapply (sim_mapM eq); [apply F2_eq|]. intros i _ <-. now apply sim_expStep. }
  intros. step.
Qed.
Lemma sim_foldPairs b b' n : forall l l', (length l <= n)%nat -> Forall2 any l l' ->
  sim (Forall2 any) (fold_pairs b l) (fold_pairs b' l').
Proof.
  induction n as [|n IH]; intros l l' L H.
  - destruct H; [cbn [fold_pairs]; step|cbn [length] in L; lia].
  - destruct H as [|x x' l l' _ H]; [cbn [fold_pairs]; step|].
    destruct H as [|y y' l l' _ H]; [cbn [fold_pairs]; step|]. cbn [fold_pairs].
    eapply sim_bind; [apply sim_SubE|]. intros. eapply sim_bind; [apply sim_MulE|]. intros.
    eapply sim_bind; [apply sim_AddE|]. intros. eapply sim_bind; [apply IH; [cbn [length] in L; lia|exact H]|].
    intros. step.
Qed.
Lemma sim_raCopy b n e v v' i : varsR v v' -> sim (Forall2 any) (random_access_copy b n e v i) (random_access_copy b n e v' i).
Proof.
  intros [GC GW GH]. unfold random_access_copy. cbn zeta.
  eapply sim_bind; [eapply sim_nth; exact GW|]. intros.
  eapply (sim_bind (Forall2 any)); [step|]. intros li li' LI.
  eapply sim_bind; [eapply sim_nth; exact GW|]. intros.
  eapply (sim_bind (Forall2 any)); [step|]. intros bw bw' BW.
  eapply (sim_bind (Forall2 any)); [step|]. intros cs cs' CS.
  eapply sim_bind; [now apply sim_RWP|]. intros.
  eapply sim_bind; [apply sim_SubE|]. intros.
  eapply (sim_bind (Forall2 any)).
  { eapply (sim_foldM any (Forall2 any)); [exact BW| |exact LI]. intros. now apply sim_foldPairs with (n := length s). }
  intros l2 l2' L2. eapply sim_bind; [apply sim_panic_if; now rewrite (F2_len _ _ _ L2)|]. intros. step.
Qed.
Lemma sim_randomAccess b n e v v' : varsR v v' -> sim (Forall2 any) (eval_random_access b n e v) (eval_random_access b n e v').
Proof.
  intros V. pose proof V as [GC GW GH]. unfold eval_random_access.
  eapply (sim_bind (Forall2 (Forall2 any))).
  { eapply (sim_mapM eq); [apply F2_eq|]. intros i _ <-. now apply sim_raCopy. }
  intros. step.
Qed.
Lemma sim_reducingLoop al al' c c' : Forall2 any c c' -> forall a a' ac ac', Forall2 any ac ac' ->
  sim (Forall2 any) (reducing_loop al a c ac) (reducing_loop al' a' c' ac').
Proof.
  induction 1 as [|x y c c' _ C IH]; intros a a' ac ac' A; cbn [reducing_loop]; [step|].
  destruct A as [|u u' ac ac' _ A]; [step|].
  eapply sim_bind; [apply sim_MulA|]. intros. eapply sim_bind; [apply sim_AddA|]. intros.
  eapply sim_bind; [apply sim_SubA|]. intros. eapply sim_bind; [apply IH; exact A|]. intros. unfold limbs2. step.
Qed.
Lemma sim_reducing n v v' : varsR v v' -> sim (Forall2 any) (eval_reducing n v) (eval_reducing n v').
Proof.
  intros [GC GW GH]. unfold eval_reducing. eapply sim_bind; [now apply sim_GLEA|]. intros.
  eapply sim_bind; [now apply sim_GLEA|]. intros. eapply (sim_bind (Forall2 any)); [step|]. intros co co' CO.
  eapply (sim_bind (Forall2 any)); [step|]. intros. apply sim_reducingLoop; [|assumption].
  eapply F2_map; [exact CO|intros; exact I].
Qed.
Lemma sim_reducingE n v v' : varsR v v' -> sim (Forall2 any) (eval_reducing_ext n v) (eval_reducing_ext n v').
Proof.
  intros [GC GW GH]. unfold eval_reducing_ext. eapply sim_bind; [now apply sim_GLEA|]. intros.
  eapply sim_bind; [now apply sim_GLEA|]. intros. eapply (sim_bind (Forall2 any)); [step|]. intros co co' CO.
  eapply (sim_bind (Forall2 any)); [step|]. intros. now apply sim_reducingLoop.
Qed.
Definition cosetR (s t : QEA * QEA * list QE) : Prop := Forall2 any (snd s) (snd t).
Lemma sim_cosetStep np d st dom va va' w pt pt' v v' s t i : Forall2 any va va' -> varsR v v' -> cosetR s t ->
  sim cosetR (coset_step np d st dom va w pt v s i) (coset_step np d st dom va' w pt' v' t i).
Proof.
  intros VA [GC GW GH] S. destruct s as [[e p] c], t as [[e' p'] c']. unfold cosetR in S. cbn [snd] in S.
  unfold coset_step. cbn zeta.
  eapply sim_bind; [now apply sim_GLEA|]. intros. eapply sim_bind; [now apply sim_GLEA|]. intros.
  eapply sim_bind; [apply sim_SubA|]. intros. eapply sim_bind; [apply sim_SubA|]. intros.
  eapply (sim_bind (Forall2 any)); [apply sim_slice; apply F2_refl; intros; exact I|]. intros.
  eapply (sim_bind (Forall2 any)); [apply sim_slice; exact VA|]. intros.
  eapply (sim_bind (Forall2 any)); [apply sim_slice; apply F2_refl; intros; exact I|]. intros.
  eapply sim_bind; [apply sim_PI; assumption|]. intros [e1 p1] [e1' p1'] _. constructor.
  unfold cosetR. cbn [snd]. unfold limbs2. rel.
Qed.
Lemma sim_coset sb d w v v' : varsR v v' ->
  sim (Forall2 any) (eval_coset_interpolation sb d w v) (eval_coset_interpolation sb d w v').
Proof.
  intros V. pose proof V as [GC GW GH]. unfold eval_coset_interpolation. cbn zeta.
  eapply sim_bind; [apply sim_panic_if; reflexivity|]. intros _ _ _.
  eapply sim_bind; [apply sim_panic_if; reflexivity|]. intros _ _ _.
  eapply sim_bind; [eapply sim_nth; exact GW|]. intros.
  eapply sim_bind; [now apply sim_GLEA|]. intros. eapply sim_bind; [now apply sim_GLEA|]. intros.
  eapply sim_bind; [apply sim_ScalarE|]. intros. eapply sim_bind; [apply sim_ScalarA|]. intros.
  eapply sim_bind; [apply sim_AddA|]. intros. eapply sim_bind; [apply sim_subgroup|]. intros dom _ <-.
  eapply (sim_bind (Forall2 any)); [step|]. intros va va' VA.
  eapply (sim_bind (Forall2 any)); [apply sim_slice_to; apply F2_refl; intros; exact I|]. intros.
  eapply (sim_bind (Forall2 any)); [apply sim_slice_to; exact VA|]. intros.
  eapply (sim_bind (Forall2 any)); [apply sim_slice_to; apply F2_refl; intros; exact I|]. intros.
  eapply sim_bind; [apply sim_PI; assumption|]. intros [e1 p1] [e1' p1'] _.
  eapply (sim_bind cosetR).
  { eapply (sim_foldM eq cosetR); [apply F2_eq| |unfold cosetR, limbs2; cbn [snd]; rel].
    intros s t i _ S <-. now apply sim_cosetStep. }
  intros [[e2 p2] c2] [[e2' p2'] c2'] C2. unfold cosetR in C2. cbn [snd] in C2.
  eapply sim_bind; [now apply sim_GLEA|]. intros. eapply sim_bind; [apply sim_SubA|]. intros.
  unfold limbs2. step.
Qed.

Lemma sim_clE s s' k : sim (Forall2 any) (ConstantLayerExtension s k) (ConstantLayerExtension s' k).
Proof. unfold ConstantLayerExtension. step. Qed.
Lemma sim_sboxE x x' : sim any (SBoxMonomialExtension x) (SBoxMonomialExtension x').
Proof. unfold SBoxMonomialExtension. step. Qed.
#[export] Hint Resolve sim_clE sim_sboxE : sim.
Lemma sim_sblE s s' : Forall2 any s s' -> sim (Forall2 any) (SBoxLayerExtension s) (SBoxLayerExtension s').
Proof. intros. unfold SBoxLayerExtension. step. Qed.
Lemma sim_mdsRowE k s s' : sim any (MdsRowShfExtension k s) (MdsRowShfExtension k s').
Proof. unfold MdsRowShfExtension. eapply (sim_bind any); [loop (@any QE)|]. intros. step. Qed.
#[export] Hint Resolve sim_sblE sim_mdsRowE : sim.
Lemma sim_mdsE s s' : sim (Forall2 any) (MdsLayerExtension s) (MdsLayerExtension s').
Proof. unfold MdsLayerExtension. step. Qed.
Lemma sim_pfcE s s' : sim (Forall2 any) (PartialFirstConstantLayerExtension s) (PartialFirstConstantLayerExtension s').
Proof. unfold PartialFirstConstantLayerExtension. step. Qed.
Lemma sim_initE s s' : sim (Forall2 any) (MdsPartialLayerInitExtension s) (MdsPartialLayerInitExtension s').
Proof.
  unfold MdsPartialLayerInitExtension. eapply (sim_bind (Forall2 any)).
  - eapply (sim_mapM eq); [apply F2_eq|]. intros d _ <-. loop (@any QE).
  - intros. step.
Qed.
Lemma sim_fastE s s' k : sim (Forall2 any) (MdsPartialLayerFastExtension s k) (MdsPartialLayerFastExtension s' k).
Proof.
  unfold MdsPartialLayerFastExtension. eapply sim_bind; [apply sim_MulE|]. intros.
  eapply (sim_bind any); [loop (@any QE)|]. intros. eapply (sim_bind (Forall2 any)); [step|]. intros. step.
Qed.
#[export] Hint Resolve sim_mdsE sim_pfcE sim_initE sim_fastE : sim.
Definition twoR (s t : list QE * list QE) : Prop := pairR (Forall2 any) (Forall2 any) s t.
Lemma sim_checkWires wi wi' s s' k : Forall2 any wi wi' -> Forall2 any s s' -> sim twoR (check_wires wi s k) (check_wires wi' s' k).
Proof.
  intros W S. unfold check_wires, twoR. eapply (sim_bind (Forall2 any)); [step|]. intros sb sb' SB.
  eapply (sim_bind (Forall2 any)); [eapply sim_mapM; [eapply F2_combine; [exact S|exact SB]|intros; apply sim_SubE]|].
  intros. constructor. now split.
Qed.
Lemma sim_gateFull wi wi' s t kr : Forall2 any wi wi' -> twoR s t -> sim twoR (gate_full_round wi s kr) (gate_full_round wi' t kr).
Proof.
  intros W [S C]. destruct s as [s c], t as [s' c'], kr as [k st]. cbn [fst snd] in S, C. unfold gate_full_round.
  eapply sim_bind; [apply sim_clE|]. intros s1 s1' S1.
  eapply (sim_bind twoR).
  { destruct st; [now apply sim_checkWires|]. constructor. split; [exact S1|constructor]. }
  intros [s2 c2] [s2' c2'] [S2 C2]. cbn [fst snd] in S2, C2.
  eapply sim_bind; [now apply sim_sblE|]. intros. eapply sim_bind; [apply sim_mdsE|]. intros.
  constructor. split; cbn [fst snd]; rel.
Qed.
Lemma sim_gatePartial wi wi' s t k : Forall2 any wi wi' -> twoR s t ->
  sim twoR (gate_partial_round wi s k) (gate_partial_round wi' t k).
Proof.
  intros W [S C]. destruct s as [s c], t as [s' c']. cbn [fst snd] in S, C. unfold gate_partial_round.
  eapply sim_bind; [eapply sim_nth; exact W|]. intros. eapply sim_bind; [apply sim_SubE|]. intros.
  eapply sim_bind; [apply sim_sboxE|]. intros.
  eapply (sim_bind any); [destruct (Nat.ltb k 21); step|]. intros.
  eapply sim_bind; [apply sim_fastE|]. intros. constructor. split; cbn [fst snd]; rel.
Qed.
Lemma sim_poseidonGate v v' : varsR v v' -> sim (Forall2 any) (eval_poseidon v) (eval_poseidon v').
Proof.
  intros [GC GW GH]. unfold eval_poseidon. cbn zeta.
  eapply sim_bind; [eapply sim_nth; exact GW|]. intros. eapply sim_bind; [apply sim_SubE|]. intros.
  eapply sim_bind; [apply sim_MulE|]. intros.
  eapply (sim_bind (Forall2 any)); [step|]. intros cs cs' CS.
  eapply (sim_bind (Forall2 any)); [step|]. intros lh lh' LH.
  eapply (sim_bind (Forall2 any)); [step|]. intros rh rh' RH.
  eapply (sim_bind (Forall2 any)); [step|]. intros re re' RE.
  eapply (sim_bind twoR).
  { eapply (sim_foldM eq twoR); [apply F2_eq| |split; cbn [fst snd]; rel].
    intros s t kr _ S <-. now apply sim_gateFull. }
  intros [s1 c1] [s1' c1'] [S1 C1]. cbn [fst snd] in S1, C1.
  eapply sim_bind; [apply sim_pfcE|]. intros. eapply sim_bind; [apply sim_initE|]. intros s2 s2' S2.
  eapply (sim_bind twoR).
  { eapply (sim_foldM eq twoR); [apply F2_eq| |split; [exact S2|exact C1]].
    intros s t k _ S <-. now apply sim_gatePartial. }
  intros s3 t3 ST3. eapply (sim_bind twoR).
  { eapply (sim_foldM eq twoR); [apply F2_eq| |exact ST3]. intros s t kr _ S <-. now apply sim_gateFull. }
  intros [s4 c4] [s4' c4'] [S4 C4]. cbn [fst snd] in S4, C4.
  eapply (sim_bind (Forall2 any)).
  { eapply sim_mapM; [eapply F2_combine; [exact S4|apply F2_eq]|].
    intros [x i] [y j] [_ E]. cbn [fst snd] in *. subst j. step. }
  intros. step.
Qed.
Lemma sim_mdsRowA k l l' : Forall2 any l l' -> sim any (mdsRowShfAlgebra k l) (mdsRowShfAlgebra k l').
Proof. intros H. unfold mdsRowShfAlgebra. eapply (sim_bind any); [loop (@any QEA)|]. intros. step. Qed.
#[export] Hint Resolve sim_mdsRowA : sim.
Lemma sim_poseidonMds v v' : varsR v v' -> sim (Forall2 any) (eval_poseidon_mds v) (eval_poseidon_mds v').
Proof.
  intros [GC GW GH]. unfold eval_poseidon_mds.
  eapply (sim_bind (Forall2 any)); [step|]. intros.
  eapply (sim_bind (Forall2 any)); [step|]. intros co co' CO.
  eapply (sim_bind (Forall2 (Forall2 any))); [|intros; step].
  eapply sim_mapM; [eapply F2_combine; [exact CO|apply F2_eq]|].
  intros [x i] [y j] [_ E]. cbn [fst snd] in *. subst j. unfold limbs2. step.
Qed.
Lemma sim_EvalUnfiltered g v v' : varsR v v' -> sim (Forall2 any) (EvalUnfiltered g v) (EvalUnfiltered g v').
Proof.
  intros V. destruct g; cbn [EvalUnfiltered].
  - now apply sim_arith.
  - now apply sim_arithE.
  - now apply sim_baseSum.
  - now apply sim_constant.
  - now apply sim_coset.
  - now apply sim_exponentiation.
  - now apply sim_mulE.
  - constructor; constructor.
  - now apply sim_poseidonGate.
  - now apply sim_poseidonMds.
  - now apply sim_publicInput.
  - now apply sim_randomAccess.
  - now apply sim_reducingE.
  - now apply sim_reducing.
Qed.
Lemma sim_filter row g s s' m : sim any (computeFilter row g s m) (computeFilter row g s' m).
Proof.
  unfold computeFilter. eapply (sim_bind any).
  - eapply (sim_foldM eq any); [apply F2_eq| |exact I]. intros p q i _ _ <-. destruct (Nat.eqb i row); step.
  - intros. destruct m; step.
Qed.
Lemma sim_evalFiltered g v v' row si gr n : varsR v v' ->
  sim (Forall2 any) (evalFiltered g v row si gr n) (evalFiltered g v' row si gr n).
Proof.
  intros V. unfold evalFiltered. eapply sim_bind; [eapply sim_nth; apply (va_c _ _ V)|]. intros.
  eapply sim_bind; [apply sim_filter|]. intros. eapply sim_bind; [apply sim_RemovePrefix; exact V|]. intros.
  eapply sim_bind; [apply sim_EvalUnfiltered; eassumption|]. intros. step.
Qed.
Lemma sim_addConstraints g g' : Forall2 any g g' -> forall c c', Forall2 any c c' ->
  sim (Forall2 any) (add_constraints c g) (add_constraints c' g').
Proof.
  induction 1 as [|x y g g' _ G IH]; intros c c' C.
  - destruct c, c'; cbn [add_constraints]; constructor; exact C.
  - destruct C as [|u u' c c' _ C]; cbn [add_constraints]; [constructor|].
    eapply sim_bind; [apply sim_AddE|]. intros. eapply sim_bind; [apply IH; exact C|]. intros. step.
Qed.
Lemma sim_EvaluateGates gs n info v v' : varsR v v' ->
  sim (Forall2 any) (EvaluateGateConstraints gs n info v) (EvaluateGateConstraints gs n info v').
Proof.
  intros V. unfold EvaluateGateConstraints.
  eapply (sim_foldM eq (Forall2 any)); [apply F2_eq| |apply F2_refl; intros; exact I].
  intros s t [i g] _ S <-. cbn [fst snd].
  eapply sim_bind; [eapply sim_nth; apply F2_eq|]. intros si _ <-.
  eapply sim_bind; [eapply sim_nth; apply F2_eq|]. intros gr _ <-.
  eapply sim_bind; [apply sim_evalFiltered; exact V|]. intros. now apply sim_addConstraints.
Qed.

(** ** plonk *)
Lemma sim_expPow cd x x' : sim any (expPowerOf2Extension cd x) (expPowerOf2Extension cd x').
Proof. unfold expPowerOf2Extension. apply sim_repeatM; [intros; apply sim_MulE|exact I]. Qed.
Lemma sim_evalL0 cd x x' y y' : sim any (evalL0 cd x y) (evalL0 cd x' y').
Proof. unfold evalL0. step. Qed.
Lemma sim_chunkProducts n n' d d' q i : Forall2 any n n' -> Forall2 any d d' ->
  sim any (chunk_products n d q i) (chunk_products n' d' q i).
Proof.
  intros N D. unfold chunk_products. cbn zeta.
  eapply sim_bind; [eapply sim_nth; exact N|]. intros. eapply sim_bind; [eapply sim_nth; exact D|]. intros.
  loop (@any (QE * QE)).
Qed.
Lemma sim_checkPP cd n n' d d' i o o' : Forall2 any n n' -> Forall2 any d d' -> openR o o' ->
  sim (Forall2 any) (checkPartialProducts cd n d i o) (checkPartialProducts cd n' d' i o').
Proof.
  intros N D [OC OS OW OZ ON OP OQ]. unfold checkPartialProducts. cbn zeta.
  eapply sim_bind; [eapply sim_nth; exact OZ|]. intros. eapply sim_bind; [eapply sim_slice; exact OP|]. intros pp pp' PP.
  eapply sim_bind; [eapply sim_nth; exact ON|]. intros.
  eapply (sim_mapM eq); [apply F2_eq|]. intros k _ <-.
  eapply sim_bind; [apply sim_chunkProducts; eassumption|]. intros [u v] [u' v'] _. step.
Qed.
Lemma sim_wireTerms pc pc' o o' s s' i j : chR pc pc' -> openR o o' -> Forall2 any s s' ->
  sim any (wire_terms pc o s i j) (wire_terms pc' o' s' i j).
Proof. intros [CB CG CA CF] [OC OS OW OZ ON OP OQ] S. unfold wire_terms. step. Qed.
Lemma sim_challengeTerms cd pc pc' o o' s s' l l' i : chR pc pc' -> openR o o' -> Forall2 any s s' ->
  sim (pairR any (Forall2 any)) (challenge_terms cd pc o s l i) (challenge_terms cd pc' o' s' l' i).
Proof.
  intros C O S. unfold challenge_terms.
  eapply sim_bind; [eapply sim_nth; apply (op_z _ _ O)|]. intros. eapply sim_bind; [apply sim_SubE|]. intros.
  eapply sim_bind; [apply sim_MulE|]. intros.
  eapply (sim_bind (Forall2 any)).
  { eapply (sim_mapM eq); [apply F2_eq|]. intros k _ <-. now apply sim_wireTerms. }
  intros nd nd' ND. eapply sim_bind.
  - apply sim_checkPP; [eapply F2_map; [exact ND|intros; exact I]|eapply F2_map; [exact ND|intros; exact I]|exact O].
  - intros. constructor. now split.
Qed.
Lemma sim_evalVanishing cd gs v v' pc pc' o o' z z' : varsR v v' -> chR pc pc' -> openR o o' ->
  sim (Forall2 any) (evalVanishingPoly cd gs v pc o z) (evalVanishingPoly cd gs v' pc' o' z').
Proof.
  intros V C O. unfold evalVanishingPoly.
  eapply sim_bind; [apply sim_EvaluateGates; exact V|]. intros ct ct' CT.
  eapply (sim_bind (Forall2 any)).
  { eapply (sim_mapM eq); [apply F2_eq|]. intros k _ <-. eapply sim_bind; [eapply sim_nth; apply F2_eq|].
    intros. apply sim_ScalarE. }
  intros si si' SI. eapply sim_bind; [apply sim_evalL0|]. intros l0 l0' _. cbn zeta.
  eapply (sim_bind (Forall2 (pairR any (Forall2 any)))).
  { eapply (sim_mapM eq); [apply F2_eq|]. intros k _ <-. now apply sim_challengeTerms. }
  intros te te' TE.
  eapply (sim_foldM any (Forall2 any)).
  - apply F2_rev. apply Forall2_app; [eapply F2_map; [exact TE|intros; exact I]|].
    apply Forall2_app; [apply F2_concat; eapply F2_map; [exact TE|intros a b H; apply H]|exact CT].
  - intros s t x y S _. pose proof (ch_a _ _ C) as CA. step.
  - apply F2_refl. intros. exact I.
Qed.
Lemma sim_PlonkVerify cd gs pc pc' o o' h h' : chR pc pc' -> openR o o' -> Forall2 any h h' ->
  sim any (PlonkVerify cd gs pc o h) (PlonkVerify cd gs pc' o' h').
Proof.
  intros C O H. unfold PlonkVerify. eapply sim_bind; [apply sim_expPow|]. intros.
  eapply sim_bind; [apply sim_evalVanishing; [constructor; [apply (op_c _ _ O)|apply (op_w _ _ O)|exact H]|exact C|exact O]|].
  intros va va' VA. eapply sim_bind; [apply sim_SubE|]. intros.
  eapply sim_iterM; [eapply F2_combine; [eapply F2_seq; exact VA|exact VA]|].
  intros [i x] [j y] [E _]. cbn [fst snd] in *. subst j. pose proof (op_q _ _ O) as OQ. step.
Qed.

(** ** verifier *)
Lemma sim_rangeOpenings o o' : openR o o' -> sim any (rangeCheckOpenings o) (rangeCheckOpenings o').
Proof. intros [OC OS OW OZ ON OP OQ]. unfold rangeCheckOpenings. step. Qed.
Lemma sim_rangeRound q q' : roundR q q' -> sim any (rangeCheckRound q) (rangeCheckRound q').
Proof.
  intros [I S]. unfold rangeCheckRound. eapply sim_bind.
  - eapply sim_iterM; [exact I|]. intros e e' [E _]. step.
  - intros. eapply sim_iterM; [exact S|]. intros e e' [E _]. step.
Qed.
Lemma sim_rangeProof p p' : proofR p p' -> sim any (rangeCheckProof p) (rangeCheckProof p').
Proof.
  intros [W Z Q O F]. unfold rangeCheckProof. eapply sim_bind; [apply sim_rangeOpenings; exact O|]. intros _ _ _.
  eapply sim_bind; [eapply sim_iterM; [apply (fr_q _ _ F)|intros; now apply sim_rangeRound]|]. intros _ _ _.
  eapply sim_bind; [eapply sim_iterM; [apply (fr_p _ _ F)|intros; apply sim_RCQE]|]. intros _ _ _. apply sim_RangeCheck.
Qed.
Lemma sim_Verify w cd gs p p' pis pis' vd vd' : proofR p p' -> Forall2 any pis pis' ->
  Forall2 any (ConstantSigmasCap vd) (ConstantSigmasCap vd') ->
  sim any (Verify w cd gs p pis vd) (Verify w cd gs p' pis' vd').
Proof.
  intros P I V. unfold Verify. eapply sim_bind; [now apply sim_rangeProof|]. intros _ _ _.
  eapply sim_bind; [apply sim_HashNoPad; exact I|]. intros h h' H.
  eapply sim_bind; [apply sim_GetChallenges; [exact P|exact H]|]. intros pc pc' C.
  eapply sim_bind; [apply sim_PlonkVerify; [exact C|apply (pr_o _ _ P)|exact H]|]. intros _ _ _. cbn zeta.
  eapply sim_bind; [apply sim_GetInstance|]. intros i i' Hi.
  apply sim_VerifyFri; [exact Hi|apply openings_R; apply (pr_o _ _ P)|apply (ch_f _ _ C)| |apply (pr_f _ _ P)].
  constructor; [exact V|]. constructor; [apply (pr_w _ _ P)|]. constructor; [apply (pr_z _ _ P)|].
  constructor; [apply (pr_q _ _ P)|constructor].
Qed.
