(** * Property C69: the challenges bind the proof. *)
From Coq Require Import String.
From Coq Require Import ZArith Lia List Bool.
From Verif Require Import Zp GF Circuit Goldilocks PoseidonSpec PoseidonGL PoseidonGLProofs Sponge DenP BN254 BN254Hash Types
  Challenger ChallengerProofs ChallengerPhases Transcript ChallengerTop PoseidonPerm Binding Prop_Challenger Prop_BN254 Prop_Poseidon.
Import ListNotations.
Open Scope Z_scope.

(** After the same number of calls of ObserveElement and GetChallenge the two challengers have different
    sponge states with the same capacity (last four elements). *)
Definition inner_collision (w : Z) (ops ops' : list op) : Prop :=
  exists k o c o' c', run (drive w NewChip (firstn k ops)) = Done (o, c) /\ run (drive w NewChip (firstn k ops')) = Done (o', c') /\
    spongeState c <> spongeState c' /\ skipn 8 (spongeState c) = skipn 8 (spongeState c').
(** the same with the rate (first eight elements) *)
Definition output_collision (w : Z) (ops ops' : list op) : Prop :=
  exists k o c o' c', run (drive w NewChip (firstn k ops)) = Done (o, c) /\ run (drive w NewChip (firstn k ops')) = Done (o', c') /\
    spongeState c <> spongeState c' /\ firstn 8 (spongeState c) = firstn 8 (spongeState c').

Lemma run_drive w ops : 128 <= w -> Forall op_ok ops ->
  exists ys t, mops pgraph ops cst0 ys t /\ run (drive w NewChip ops) = Done (map rep ys, rc t).
Proof.
  intros Hw O. destruct (mops_total pgraph okP_pgraph totalP_pgraph ops cst0 inv0 O) as (ys & t & M).
  exists ys, t. split; [exact M|]. change NewChip with (rc cst0).
  destruct (drive_chg w ops Hw O cst0 inv0) as [H _]. exact (H (ys, t) M).
Qed.
Lemma run_mops w ops ys t : 128 <= w -> Forall op_ok ops -> mops pgraph ops cst0 ys t ->
  run (drive w NewChip ops) = Done (map rep ys, rc t).
Proof.
  intros Hw O M. change NewChip with (rc cst0).
  destruct (drive_chg w ops Hw O cst0 inv0) as [H _]. exact (H (ys, t) M).
Qed.
Lemma firstn_ok k ops : Forall op_ok ops -> Forall op_ok (firstn k ops).
Proof. rewrite !Forall_forall. intros H x Hx. apply H. rewrite <- (firstn_skipn k ops). apply in_or_app. auto. Qed.
Lemma inner_run w k ops ops' : 128 <= w -> Forall op_ok ops -> Forall op_ok ops' -> inner_at k ops ops' -> inner_collision w ops ops'.
Proof.
  intros Hw O O' (u & u' & (y & y' & M & M') & N & E).
  exists k. do 4 eexists. split; [apply run_mops; eauto using firstn_ok|]. split; [apply run_mops; eauto using firstn_ok|].
  rewrite !rc_sp. split; [intros X; now apply map_rep_inj in X|]. now rewrite !skipn_map, E.
Qed.
Lemma rate_run w k ops ops' : 128 <= w -> Forall op_ok ops -> Forall op_ok ops' -> rate_at k ops ops' -> output_collision w ops ops'.
Proof.
  intros Hw O O' (u & u' & (y & y' & M & M') & N & E).
  exists k. do 4 eexists. split; [apply run_mops; eauto using firstn_ok|]. split; [apply run_mops; eauto using firstn_ok|].
  rewrite !rc_sp. split; [intros X; now apply map_rep_inj in X|]. now rewrite !firstn_map, E.
Qed.

(** ** The challenger: two clients that make the same sequence of calls and end with the same state have
       observed the same elements (modulo p), or an inner collision happened on the way *)
Theorem C69_sponge w ops ops' out out' c c' : 128 <= w -> same_calls ops ops' -> Forall op_ok ops -> Forall op_ok ops' ->
  run (drive w NewChip ops) = Done (out, c) -> run (drive w NewChip ops') = Done (out', c') ->
  spongeState c = spongeState c' -> inputBuffer c = inputBuffer c' ->
  map (fun x => x mod p) (observed ops) = map (fun x => x mod p) (observed ops') \/ inner_collision w ops ops'.
Proof.
  intros Hw S O O' R R' E1 E2.
  destruct (run_drive w ops Hw O) as (ys & t & M & Rt). destruct (run_drive w ops' Hw O') as (ys' & t' & M' & Rt').
  rewrite R in Rt. rewrite R' in Rt'. apply Done_inj in Rt, Rt'. injection Rt as -> ->. injection Rt' as -> ->.
  rewrite !rc_sp in E1. rewrite !rc_in in E2. apply map_rep_inj in E1.
  destruct (sponge_binding ops ops' ys ys' t t' S O O' M M') as (_ & _ & B).
  destruct (B E1) as [X|(k & _ & X)]; [now rewrite E2| |right; exact (inner_run w k ops ops' Hw O O' X)].
  left. assert (G : forall l, map (fun x => x mod p) l = map rep (map inj l)) by (intros l; now rewrite map_map).
  now rewrite !G, X.
Qed.

(** the transcript up to the last commitment of the FRI prover *)
Definition transcript_pre (nc : nat) (d : Z) (pih : list Z) (pr : Proof_) : list op :=
  observes (digits56 d ++ pih ++ cap_elems (WiresCap pr)) ++ asks nc ++ asks nc ++
  observes (cap_elems (PlonkZsPartialProductsCap pr)) ++ asks nc ++
  observes (cap_elems (QuotientPolysCap pr)) ++ asks 2 ++ observes (openings_elems (Openings pr)) ++
  asks 2 ++ beta_ops (CommitPhaseMerkleCaps (OpeningProof pr)).
Lemma ops_calls nc nq d d' pih pih' pr pr' : same_lengths pih pih' pr pr' ->
  let pre := transcript_pre nc in
  same_calls (pre d pih pr) (pre d' pih' pr') /\
  (forall d pih pr, transcript_ops nc nq d pih pr =
     pre d pih pr ++ observes (flat_map qe_list (FinalPoly (OpeningProof pr)) ++ [PowWitness (OpeningProof pr)]) ++ asks (1 + nq)) /\
  (forall d pih pr, observed (pre d pih pr) ++ flat_map qe_list (FinalPoly (OpeningProof pr)) ++ [PowWitness (OpeningProof pr)] =
     observed_all d pih pr) /\
  (forall d pih pr, exists b, pre d pih pr = b ++ [OGet]) /\
  (forall d pih pr, gets (pre d pih pr) = (nc + (nc + (nc + (2 + (2 + 2 * length (CommitPhaseMerkleCaps (OpeningProof pr)))))))%nat) /\
  (forall d pih pr, canonical_data d pih pr -> Forall op_ok (pre d pih pr)).
Proof.
  intros (L1 & L2 & L3 & L4 & L5 & L6 & L7 & L8 & L9 & L10 & L11 & L12 & L13) pre. unfold pre, transcript_pre. clear pre.
  split; [|split; [|split; [|split; [|split]]]].
  - repeat apply same_calls_app; auto using same_asks.
    + apply same_observes. rewrite !app_length, !digits_len, !cap_len. lia.
    + apply same_observes. rewrite !cap_len. lia.
    + apply same_observes. rewrite !cap_len. lia.
    + apply same_observes. rewrite !openings_len. lia.
    + clear - L12. revert L12. generalize (CommitPhaseMerkleCaps (OpeningProof pr)) (CommitPhaseMerkleCaps (OpeningProof pr')).
      unfold beta_ops. induction l as [|c l IH]; intros [|c' l'] L; try discriminate; [constructor|].
      cbn [map] in L. injection L as L1 L2. cbn [flat_map]. apply same_calls_app; [|now apply IH].
      apply same_calls_app; [|apply same_asks]. apply same_observes.
      change (length (cap_elems c) = length (cap_elems c')). rewrite !cap_len. lia.
  - intros d0 h q. unfold transcript_ops, fri_ops. rewrite <- !app_assoc. reflexivity.
  - intros d0 h q. rewrite !observed_app, !observed_observes, !observed_asks. unfold observed_all. cbn [app].
    assert (B : forall l, observed (beta_ops l) = flat_map cap_elems l).
    { induction l as [|c l IH]; [reflexivity|]. cbn [beta_ops flat_map]. fold (beta_ops l).
      rewrite !observed_app, observed_observes, observed_asks, app_nil_r, IH. reflexivity. }
    rewrite B, <- !app_assoc. reflexivity.
  - intros d0 h q. match goal with |- exists b, ?a ++ ?b1 ++ ?c ++ ?d1 ++ ?e ++ ?f ++ ?g ++ ?h1 ++ asks 2 ++ beta_ops ?l = _ =>
      destruct (ends_get (a ++ b1 ++ c ++ d1 ++ e ++ f ++ g ++ h1) l) as [b E] end.
    exists b. rewrite <- E, <- !app_assoc. reflexivity.
  - intros d0 h q. rewrite !gets_app, gets_beta_ops, !gets_observes, !gets_asks. lia.
  - intros d0 h q C. apply canonical_ok in C. destruct C as (D1 & D2 & D3 & D4 & D5 & D6 & D7 & D8 & D9).
    rewrite !observes_app, !Forall_app.
    repeat (split; auto using ok_asks, ok_observes, cap_reducible, digits56_reducible, ok_beta_ops).
Qed.

Lemma canonical_all d pih pr : canonical_data d pih pr -> Forall (fun x => 0 <= x < p) (observed_all d pih pr).
Proof.
  intros (D1 & D2 & D3 & D4 & D5 & D6 & D7 & D8 & D9). unfold observed_all.
  assert (K : forall x, inr_ x -> Forall (fun x => 0 <= x < p) (digits56 x)).
  { intros x Hx. destruct (C24_canonical x Hx) as (_ & H & B). eapply Forall_impl; [|exact H]. cbv beta. intros; lia. }
  assert (KC : forall c, Forall inr_ c -> Forall (fun x => 0 <= x < p) (cap_elems c)).
  { intros c. induction 1 as [|x c Hx _ IH]; [constructor|]. unfold cap_elems. cbn [flat_map]. apply Forall_app. auto. }
  assert (KCC : forall l, Forall (Forall inr_) l -> Forall (fun x => 0 <= x < p) (flat_map cap_elems l)).
  { intros l. induction 1 as [|x c Hx _ IH]; [constructor|]. cbn [flat_map]. apply Forall_app. auto. }
  rewrite !Forall_app. repeat (split; [auto|]). now constructor.
Qed.
Lemma canon_map_inj : forall a b, Forall (fun x => 0 <= x < p) a -> Forall (fun x => 0 <= x < p) b -> map inj a = map inj b -> a = b.
Proof.
  induction a as [|x a IH]; intros [|y b] Ha Hb E; try discriminate; [reflexivity|].
  inversion Ha; subst. inversion Hb; subst. cbn [map] in E.
  pose proof (f_equal (hd g0) E) as E1. pose proof (f_equal (@tl _) E) as E2. cbn [hd tl] in E1, E2.
  f_equal; [|now apply IH]. rewrite <- (rep_inj_small x), <- (rep_inj_small y), E1 by assumption. reflexivity.
Qed.
Lemma tail_challenges nc ncaps nq ys ys' :
  length ys = (nc + (nc + (nc + (2 + (2 + 2 * ncaps)))) + (0 + (1 + nq)))%nat ->
  length ys' = (nc + (nc + (nc + (2 + (2 + 2 * ncaps)))) + (0 + (1 + nq)))%nat ->
  challenges_of nc ncaps nq ys = challenges_of nc ncaps nq ys' ->
  skipn (nc + (nc + (nc + (2 + (2 + 2 * ncaps))))) ys = skipn (nc + (nc + (nc + (2 + (2 + 2 * ncaps))))) ys'.
Proof.
  intros Ly Ly' E.
  assert (SK : forall (l : list GF) a b, skipn (a + b) l = skipn b (skipn a l)).
  { clear. intros l a. revert l. induction a as [|a IH]; intros l b; [reflexivity|]. destruct l; [destruct b; reflexivity|]. apply IH. }
  rewrite !SK.
  assert (K : forall l, length l = (nc + (nc + (nc + (2 + (2 + 2 * ncaps)))) + (0 + (1 + nq)))%nat ->
     let z := skipn (2 * ncaps) (skipn 2 (skipn 2 (skipn nc (skipn nc (skipn nc l))))) in
     length z = (1 + nq)%nat /\
     map rep z = FriPowResponse (pc_FriChallenges (challenges_of nc ncaps nq l)) :: FriQueryIndices (pc_FriChallenges (challenges_of nc ncaps nq l))).
  { clear. intros l L z. unfold challenges_of, fri_of. cbn [pc_FriChallenges FriPowResponse FriQueryIndices].
    rewrite (firstn_all2 (n := 2 + 2 * ncaps + (1 + nq))) by (rewrite !skipn_length; lia). fold z.
    assert (Lz : length z = (1 + nq)%nat) by (unfold z; rewrite !skipn_length; lia). split; [exact Lz|].
    destruct z as [|a z]; [discriminate|]. cbn [firstn hd skipn map]. rewrite firstn_all2 by (cbn in Lz; lia). reflexivity. }
  destruct (K ys Ly) as [_ K1]. destruct (K ys' Ly') as [_ K2]. rewrite <- E in K2. rewrite <- K1 in K2.
  symmetry. now apply map_rep_inj.
Qed.

(** ** The transcript: two proofs of the same shape that lead to the same challenges have the same digest, public
       inputs hash, caps, openings, final polynomial and proof of work, or the sponge collided: at some point
       of the two transcripts the two states differ but agree in the capacity or in the rate. *)
Theorem C69_fiat_shamir w cd pr pr' pih pih' vd vd' ch : 128 <= w ->
  (7 <= NumQueryRounds (cc_FriConfig (cd_Config cd)))%nat ->
  canonical_data (CircuitDigest vd) pih pr -> canonical_data (CircuitDigest vd') pih' pr' -> same_lengths pih pih' pr pr' ->
  run (GetChallenges w cd pr pih vd) = Done ch -> run (GetChallenges w cd pr' pih' vd') = Done ch ->
  same_data (CircuitDigest vd) (CircuitDigest vd') pih pih' pr pr' \/
  let ops d h q := transcript_ops (NumChallenges (cd_Config cd)) (NumQueryRounds (cc_FriConfig (cd_Config cd))) d h q in
  inner_collision w (ops (CircuitDigest vd) pih pr) (ops (CircuitDigest vd') pih' pr') \/
  output_collision w (ops (CircuitDigest vd) pih pr) (ops (CircuitDigest vd') pih' pr').
Proof.
  intros Hw Hq C C' L R R'.
  set (nc := NumChallenges (cd_Config cd)) in *. set (nq := NumQueryRounds (cc_FriConfig (cd_Config cd))) in *. cbv zeta.
  set (d := CircuitDigest vd) in *. set (d' := CircuitDigest vd') in *.
  destruct (ops_calls nc nq d d' pih pih' pr pr' L) as (S & T & OB & EG & G & OK).
  pose proof (get_challenges_chf w cd pr pih vd Hw (canonical_ok _ _ _ C)) as [F _].
  pose proof (get_challenges_chf w cd pr' pih' vd' Hw (canonical_ok _ _ _ C')) as [F' _].
  cbv zeta in F, F'. fold nc nq in F, F'. fold d in F. fold d' in F'.
  assert (O : forall d pih pr, canonical_data d pih pr -> Forall op_ok (transcript_ops nc nq d pih pr)).
  { intros d0 h q Cq. rewrite T, !Forall_app. split; [now apply OK|]. split; [|apply ok_asks].
    apply canonical_ok in Cq. destruct Cq as (_ & _ & _ & _ & _ & _ & _ & D8 & D9). apply ok_observes, Forall_app. auto. }
  destruct (mops_total pgraph okP_pgraph totalP_pgraph _ cst0 inv0 (O _ _ _ C)) as (ys & t & M).
  destruct (mops_total pgraph okP_pgraph totalP_pgraph _ cst0 inv0 (O _ _ _ C')) as (ys' & t' & M').
  rewrite (F ys (ex_intro _ t M)) in R. rewrite (F' ys' (ex_intro _ t' M')) in R'.
  assert (E : challenges_of nc (length (CommitPhaseMerkleCaps (OpeningProof pr))) nq ys =
              challenges_of nc (length (CommitPhaseMerkleCaps (OpeningProof pr'))) nq ys').
  { apply Done_inj. now rewrite R, R'. }
  clear F F' R R'.
  assert (LC : length (CommitPhaseMerkleCaps (OpeningProof pr)) = length (CommitPhaseMerkleCaps (OpeningProof pr'))).
  { destruct L as (_ & _ & _ & _ & _ & _ & _ & _ & _ & _ & _ & L12 & _). apply (f_equal (@length _)) in L12. now rewrite !map_length in L12. }
  rewrite <- LC in E. set (ncaps := length (CommitPhaseMerkleCaps (OpeningProof pr))) in *.
  pose proof (mops_len _ _ _ _ _ M) as Ly. pose proof (mops_len _ _ _ _ _ M') as Ly'.
  rewrite T, gets_app, G, gets_app, gets_observes, gets_asks in Ly, Ly'. rewrite <- LC in Ly'. fold ncaps in Ly, Ly'.
  assert (E' : skipn (gets (transcript_pre nc d pih pr)) ys = skipn (gets (transcript_pre nc d' pih' pr')) ys').
  { rewrite !G. rewrite <- LC. fold ncaps. exact (tail_challenges nc ncaps nq ys ys' Ly Ly' E). }
  rewrite !T in *. replace (1 + nq)%nat with (8 + (nq - 7))%nat in * by lia.
  apply canonical_ok in C as K. apply canonical_ok in C' as K'.
  destruct K as (_ & _ & _ & _ & _ & _ & _ & K8 & K9). destruct K' as (_ & _ & _ & _ & _ & _ & _ & K8' & K9').
  pose proof L as (_ & _ & _ & _ & _ & _ & _ & _ & _ & _ & _ & _ & L13).
  set (xs := flat_map qe_list (FinalPoly (OpeningProof pr)) ++ [PowWitness (OpeningProof pr)]) in *.
  set (xs' := flat_map qe_list (FinalPoly (OpeningProof pr')) ++ [PowWitness (OpeningProof pr')]) in *.
  assert (Lx : length xs = length xs') by (unfold xs, xs'; rewrite !app_length, !qes_len; now rewrite L13).
  assert (Nx : xs <> []) by (unfold xs; intros X; apply app_eq_nil in X; destruct X; discriminate).
  assert (Ox : Forall reducible xs) by (apply Forall_app; auto).
  assert (Ox' : Forall reducible xs') by (apply Forall_app; auto).
  assert (B := final_binding (transcript_pre nc d pih pr) (transcript_pre nc d' pih' pr') xs xs' (nq - 7) ys ys' t t'
    (EG d pih pr) (EG d' pih' pr') S Lx Nx (OK _ _ _ C) (OK _ _ _ C') Ox Ox').
  specialize (B M M' E'). destruct B as [X|(k & _ & [X|X])].
  - left. rewrite !OB in X. apply observed_same; [exact L|]. now apply (canon_map_inj _ _ (canonical_all _ _ _ C) (canonical_all _ _ _ C')).
  - right. left. apply (inner_run w k) in X; auto; rewrite <- T; auto.
  - right. right. apply (rate_run w k) in X; auto; rewrite <- T; auto.
Qed.

(** ** The hypotheses are needed *)
Definition pr69 (c s : list QE) (pow : Z) : Proof_ :=
  mkProof [1; r - 1] [2] [3] (mkOpeningSet c s [(5, 6)] [] [(3, 4)] [] []) (mkFriProof [[5]; [6]] [] [(7, 8)] pow).
Definition vd69 : VerifierOnlyCircuitData := mkVerifierOnlyCircuitData [] 10.
Lemma canonical69 c s pow : Forall (fun x => 0 <= x < p) (flat_map qe_list (c ++ s)) -> 0 <= pow < p ->
  canonical_data (CircuitDigest vd69) [1; 2; 3; 4] (pr69 c s pow).
Proof.
  intros H Hp. unfold canonical_data, openings_elems. cbn [pr69 vd69 CircuitDigest WiresCap PlonkZsPartialProductsCap QuotientPolysCap Openings
    OpeningProof CommitPhaseMerkleCaps FinalPoly PowWitness Types.Constants PlonkSigmas Wires PlonkZs PlonkZsNext PartialProducts QuotientPolys].
  repeat rewrite flat_map_app. rewrite flat_map_app in H. apply Forall_app in H. destruct H as [H1 H2].
  rewrite !Forall_app. unfold inr_.
  assert (K : forall x, 0 <= x <= 10 -> 0 <= x < p) by (intros x Hx; assert (10 < p) by reflexivity; lia).
  assert (K' : forall x, 0 <= x <= 10 -> 0 <= x < r) by (intros x Hx; assert (10 < r) by reflexivity; lia).
  repeat split; auto; cbn [flat_map app qe_list fst snd];
    repeat (apply Forall_cons; [try (apply K; lia); try (apply K'; lia); try (repeat constructor; apply K'; lia)|]); try apply Forall_nil;
    try (split; reflexivity || discriminate); try lia; try reflexivity; try (apply K; lia); try (apply K'; lia).
Qed.

(** Without the lengths of the lists of openings: the first constant can be counted among the sigmas. *)
Theorem C69_lengths_refuted w cd : 128 <= w ->
  exists pr pr' pih vd ch, canonical_data (CircuitDigest vd) pih pr /\ canonical_data (CircuitDigest vd) pih pr' /\
    run (GetChallenges w cd pr pih vd) = Done ch /\ run (GetChallenges w cd pr' pih vd) = Done ch /\
    Openings pr <> Openings pr' /\
    forall nc nq, transcript_ops nc nq (CircuitDigest vd) pih pr = transcript_ops nc nq (CircuitDigest vd) pih pr'.
Proof.
  intros Hw. set (a := pr69 [(1, 2)] [] 9). set (b := pr69 [] [(1, 2)] 9).
  assert (K : forall x, 0 <= x <= 10 -> 0 <= x < p) by (intros x Hx; assert (10 < p) by reflexivity; lia).
  assert (Ca : canonical_data (CircuitDigest vd69) [1; 2; 3; 4] a).
  { apply canonical69; [|apply K; lia]. cbn [flat_map app qe_list fst snd]. repeat (apply Forall_cons; [apply K; lia|]). apply Forall_nil. }
  assert (Cb : canonical_data (CircuitDigest vd69) [1; 2; 3; 4] b).
  { apply canonical69; [|apply K; lia]. cbn [flat_map app qe_list fst snd]. repeat (apply Forall_cons; [apply K; lia|]). apply Forall_nil. }
  assert (T : forall nc nq, transcript_ops nc nq (CircuitDigest vd69) [1; 2; 3; 4] a = transcript_ops nc nq (CircuitDigest vd69) [1; 2; 3; 4] b) by reflexivity.
  pose proof (get_challenges_chf w cd a [1; 2; 3; 4] vd69 Hw (canonical_ok _ _ _ Ca)) as [F _].
  pose proof (get_challenges_chf w cd b [1; 2; 3; 4] vd69 Hw (canonical_ok _ _ _ Cb)) as [F' _]. cbv zeta in F, F'.
  rewrite <- T in F'. change (CommitPhaseMerkleCaps (OpeningProof b)) with (CommitPhaseMerkleCaps (OpeningProof a)) in F'.
  assert (X : exists ys t, mops pgraph (transcript_ops (NumChallenges (cd_Config cd)) (NumQueryRounds (cc_FriConfig (cd_Config cd)))
     (CircuitDigest vd69) [1; 2; 3; 4] a) cst0 ys t).
  { apply (mops_total pgraph okP_pgraph totalP_pgraph _ cst0 inv0). 
    destruct (canonical_ok _ _ _ Ca) as (D1 & D2 & D3 & D4 & D5 & D6 & D7 & D8 & D9). unfold transcript_ops.
    rewrite !observes_app, !Forall_app. repeat (split; auto using ok_asks, ok_observes, cap_reducible, digits56_reducible, ok_fri_ops). }
  destruct X as (ys & t & M).
  exists a, b, [1; 2; 3; 4], vd69. eexists.
  split; [exact Ca|]. split; [exact Cb|]. split; [exact (F ys (ex_intro _ t M))|]. split; [exact (F' ys (ex_intro _ t M))|].
  split; [discriminate|exact T].
Qed.

(** the challenger only sees the observed elements modulo p *)
Definition mod_call (o o' : op) : Prop :=
  match o, o' with OObs x, OObs y => inj x = inj y | OGet, OGet => True | _, _ => False end.
Lemma mops_mod P : forall ops ops', Forall2 mod_call ops ops' -> forall s s' ys t,
  cs s = cs s' -> map inj (cin s) = map inj (cin s') -> cout s = cout s' -> mops P ops s ys t ->
  exists t', mops P ops' s' ys t' /\ cs t = cs t' /\ map inj (cin t) = map inj (cin t') /\ cout t = cout t'.
Proof.
  assert (D : forall s s' t, cs s = cs s' -> map inj (cin s) = map inj (cin s') -> dup P s t -> dup P s' t).
  { intros s s' t E1 E2 (st & H & ->). exists st. rewrite <- E1, <- E2. auto. }
  induction 1 as [|o o' ops ops' Ho _ IH]; intros s s' ys t E1 E2 E3 M.
  - destruct M as [-> ->]. exists s'. cbn [mops]. auto.
  - assert (L : length (cin s) = length (cin s')) by (apply (f_equal (@length _)) in E2; now rewrite !map_length in E2).
    destruct o as [x|], o' as [y|]; try contradiction; cbn [mops] in M |- *; cbn in Ho.
    + destruct M as (u & U & M). unfold obs in U. cbn [cin] in U.
      assert (X : map inj (cin s ++ [x]) = map inj (cin s' ++ [y])) by (rewrite !map_app; cbn [map]; congruence).
      destruct (Nat.eqb (length (cin s ++ [x])) 8) eqn:B.
      * destruct (IH u u ys t eq_refl eq_refl eq_refl M) as (t' & M' & R). exists t'. split; [|exact R].
        exists u. split; [|exact M']. unfold obs. cbn [cin].
        assert (B' : Nat.eqb (length (cin s' ++ [y])) 8 = true) by (rewrite app_length, <- L; rewrite app_length in B; exact B).
        rewrite B'. eapply D; [| |exact U]; auto.
      * subst u. destruct (IH (mkCst (cs s) (cin s ++ [x]) []) (mkCst (cs s') (cin s' ++ [y]) []) ys t E1 X eq_refl M) as (t' & M' & R).
        exists t'. split; [|exact R]. eexists. split; [|exact M']. unfold obs. cbn [cin].
        assert (B' : Nat.eqb (length (cin s' ++ [y])) 8 = false) by (rewrite app_length, <- L; rewrite app_length in B; exact B).
        now rewrite B'.
    + destruct M as (u & z & ys' & (v & V & V1 & V2 & V3) & -> & M).
      destruct (negb (Nat.eqb (length (cin s)) 0) || Nat.eqb (length (cout s)) 0) eqn:B.
      * destruct (IH u u ys' t eq_refl eq_refl eq_refl M) as (t' & M' & R). exists t'. split; [|exact R].
        exists u, z, ys'. split; [|auto]. exists v. rewrite <- L, <- E3, B. split; [|auto]. eapply D; eauto.
      * subst v. destruct (IH u (mkCst (cs s') (cin s') (cout u)) ys' t) as (t' & M' & R); [cbn [cs]; now rewrite V2|cbn [cin]; now rewrite V3|reflexivity|exact M|].
        exists t'. split; [|exact R]. exists (mkCst (cs s') (cin s') (cout u)), z, ys'. split; [|auto].
        exists s'. rewrite <- L, <- E3, B. cbn [cs cin cout]. auto.
Qed.
Lemma mod_refl ops : Forall2 mod_call ops ops.
Proof. induction ops as [|[x|] ops IH]; constructor; auto; [reflexivity|exact I]. Qed.
Lemma mod_p x : inj (x + p) = inj x.
Proof. apply GF_eq. rewrite !rep_inj. rewrite <- (Z.mul_1_l p) at 1. apply Z.mod_add. discriminate. Qed.

(** Without canonical values: p can be added to the proof of work witness. *)
Theorem C69_canonical_refuted w cd : 128 <= w ->
  exists pr pr' pih vd ch, transcript_ok (CircuitDigest vd) pih pr /\ transcript_ok (CircuitDigest vd) pih pr' /\
    same_lengths pih pih pr pr' /\
    run (GetChallenges w cd pr pih vd) = Done ch /\ run (GetChallenges w cd pr' pih vd) = Done ch /\
    PowWitness (OpeningProof pr) <> PowWitness (OpeningProof pr').
Proof.
  intros Hw. set (a := pr69 [(1, 2)] [] 9). set (b := pr69 [(1, 2)] [] (9 + p)).
  assert (K : forall x, 0 <= x <= 10 -> 0 <= x < p) by (intros x Hx; assert (10 < p) by reflexivity; lia).
  assert (Ca : transcript_ok (CircuitDigest vd69) [1; 2; 3; 4] a).
  { apply canonical_ok, canonical69; [|apply K; lia]. cbn [flat_map app qe_list fst snd]. repeat (apply Forall_cons; [apply K; lia|]). apply Forall_nil. }
  assert (Cb : transcript_ok (CircuitDigest vd69) [1; 2; 3; 4] b).
  { destruct Ca as (D1 & D2 & D3 & D4 & D5 & D6 & D7 & D8 & D9). repeat (split; [assumption|]).
    unfold reducible. cbn [b pr69 OpeningProof PowWitness]. split; vm_compute; [discriminate|reflexivity]. }
  set (nc := NumChallenges (cd_Config cd)). set (nq := NumQueryRounds (cc_FriConfig (cd_Config cd))).
  assert (X : exists ys t, mops pgraph (transcript_ops nc nq (CircuitDigest vd69) [1; 2; 3; 4] a) cst0 ys t).
  { apply (mops_total pgraph okP_pgraph totalP_pgraph _ cst0 inv0).
    destruct Ca as (D1 & D2 & D3 & D4 & D5 & D6 & D7 & D8 & D9). unfold transcript_ops.
    rewrite !observes_app, !Forall_app. repeat (split; auto using ok_asks, ok_observes, cap_reducible, digits56_reducible, ok_fri_ops). }
  destruct X as (ys & t & M).
  assert (MC : Forall2 mod_call (transcript_ops nc nq (CircuitDigest vd69) [1; 2; 3; 4] a) (transcript_ops nc nq (CircuitDigest vd69) [1; 2; 3; 4] b)).
  { unfold transcript_ops. repeat (apply Forall2_app; [apply mod_refl|]). unfold fri_ops. repeat (apply Forall2_app; [apply mod_refl|]).
    apply Forall2_app; [|apply mod_refl]. rewrite !observes_app. apply Forall2_app; [apply mod_refl|].
    constructor; [|constructor]. cbn [mod_call a b pr69 OpeningProof PowWitness]. symmetry. apply mod_p. }
  destruct (mops_mod pgraph _ _ MC cst0 cst0 ys t eq_refl eq_refl eq_refl M) as (t' & M' & _).
  pose proof (get_challenges_chf w cd a [1; 2; 3; 4] vd69 Hw Ca) as [F _].
  pose proof (get_challenges_chf w cd b [1; 2; 3; 4] vd69 Hw Cb) as [F' _]. cbv zeta in F, F'. fold nc nq in F, F'.
  exists a, b, [1; 2; 3; 4], vd69. eexists.
  split; [exact Ca|]. split; [exact Cb|]. split; [repeat split|]. split; [exact (F ys (ex_intro _ t M))|]. split; [exact (F' ys (ex_intro _ t' M'))|].
  discriminate.
Qed.

(** ** Instances *)
(** two different clients that end with the same state *)
Example C69_sponge_ex : exists out c,
  run (drive 192 NewChip [OObs 1; OGet; OObs 2; OGet]) = Done (out, c) /\
  run (drive 192 NewChip [OObs (1 + p); OGet; OObs 2; OGet]) = Done (out, c) /\
  same_calls [OObs 1; OGet; OObs 2; OGet] [OObs (1 + p); OGet; OObs 2; OGet].
Proof.
  assert (RD : forall x, 0 <= x <= 2 * p -> reducible x).
  { intros x Hx. unfold reducible. assert (2 * p < 2 ^ 144 * p) by reflexivity. lia. }
  assert (Pp : 10 < p) by reflexivity.
  assert (O : forall x, 0 <= x <= 1 + p -> Forall op_ok [OObs x; OGet; OObs 2; OGet]).
  { intros x Hx. repeat constructor; unfold op_ok; apply RD; lia. }
  destruct (mops_total pgraph okP_pgraph totalP_pgraph _ cst0 inv0 (O 1 ltac:(lia))) as (ys & t & M).
  assert (MC : Forall2 mod_call [OObs 1; OGet; OObs 2; OGet] [OObs (1 + p); OGet; OObs 2; OGet]).
  { constructor; [|apply mod_refl]. cbn [mod_call]. symmetry. apply mod_p. }
  destruct (mops_mod pgraph _ _ MC cst0 cst0 ys t eq_refl eq_refl eq_refl M) as (t' & M' & E1 & E2 & E3).
  assert (C : forall x y u, mops pgraph [OObs x; OGet; OObs 2; OGet] cst0 y u -> cin u = []).
  { intros x y u H. apply (mops_asks_cin pgraph [OObs x; OGet; OObs 2] cst0 y u H). }
  exists (map rep ys), (rc t). split; [apply run_mops; [lia|apply O; lia|exact M]|]. split.
  - assert (Et : t = t').
    { pose proof (C _ _ _ M) as C1. pose proof (C _ _ _ M') as C2. destruct t as [a1 a2 a3], t' as [b1 b2 b3]. cbn [cs cin cout] in *. congruence. }
    rewrite Et. apply run_mops; [lia|apply O; lia|exact M'].
  - repeat constructor.
Qed.
(** two proofs that differ in the query rounds meet the hypotheses of C69_fiat_shamir and its conclusion *)
Example C69_fiat_shamir_ex : forall w cd rounds, 128 <= w ->
  let pr := pr69 [(1, 2)] [(3, 4)] 9 in
  let pr' := mkProof (WiresCap pr) (PlonkZsPartialProductsCap pr) (QuotientPolysCap pr) (Openings pr)
     (mkFriProof (CommitPhaseMerkleCaps (OpeningProof pr)) rounds (FinalPoly (OpeningProof pr)) (PowWitness (OpeningProof pr))) in
  exists ch, canonical_data 10 [1; 2; 3; 4] pr /\ canonical_data 10 [1; 2; 3; 4] pr' /\ same_lengths [1; 2; 3; 4] [1; 2; 3; 4] pr pr' /\
    run (GetChallenges w cd pr [1; 2; 3; 4] vd69) = Done ch /\ run (GetChallenges w cd pr' [1; 2; 3; 4] vd69) = Done ch /\
    same_data 10 10 [1; 2; 3; 4] [1; 2; 3; 4] pr pr'.
Proof.
  intros w cd rounds Hw pr pr'.
  assert (K : forall x, 0 <= x <= 10 -> 0 <= x < p) by (intros x Hx; assert (10 < p) by reflexivity; lia).
  assert (Ca : canonical_data 10 [1; 2; 3; 4] pr).
  { apply (canonical69 [(1, 2)] [(3, 4)]); [|apply K; lia]. cbn [flat_map app qe_list fst snd]. repeat (apply Forall_cons; [apply K; lia|]). apply Forall_nil. }
  assert (Cb : canonical_data 10 [1; 2; 3; 4] pr') by exact Ca.
  pose proof (get_challenges_chf w cd pr [1; 2; 3; 4] vd69 Hw (canonical_ok _ _ _ Ca)) as [F _].
  pose proof (get_challenges_chf w cd pr' [1; 2; 3; 4] vd69 Hw (canonical_ok _ _ _ Cb)) as [F' _]. cbv zeta in F, F'.
  assert (X : exists ys t, mops pgraph (transcript_ops (NumChallenges (cd_Config cd)) (NumQueryRounds (cc_FriConfig (cd_Config cd)))
     (CircuitDigest vd69) [1; 2; 3; 4] pr) cst0 ys t).
  { apply (mops_total pgraph okP_pgraph totalP_pgraph _ cst0 inv0).
    destruct (canonical_ok _ _ _ Ca) as (D1 & D2 & D3 & D4 & D5 & D6 & D7 & D8 & D9). unfold transcript_ops.
    rewrite !observes_app, !Forall_app. repeat (split; auto using ok_asks, ok_observes, cap_reducible, digits56_reducible, ok_fri_ops). }
  destruct X as (ys & t & M). eexists. split; [exact Ca|]. split; [exact Cb|]. split; [repeat split|].
  split; [exact (F ys (ex_intro _ t M))|]. split; [exact (F' ys (ex_intro _ t M))|]. repeat split.
Qed.

Print Assumptions C69_sponge.
Print Assumptions C69_fiat_shamir.
Print Assumptions C69_lengths_refuted.
Print Assumptions C69_canonical_refuted.
Print Assumptions C69_sponge_ex.
Print Assumptions C69_fiat_shamir_ex.
