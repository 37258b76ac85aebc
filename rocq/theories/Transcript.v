(** * GetChallenges (verifier/verifier.go): the whole Fiat-Shamir transcript. *)
From Coq Require Import String.
From Coq Require Import ZArith Lia List Bool.
From Verif Require Import Zp GF Circuit Goldilocks PoseidonSpec PoseidonGL Sponge DenP BN254 BN254Hash Types Challenger
  ChallengerProofs ChallengerPhases.
Import ListNotations.
Open Scope Z_scope.
Open Scope circ_scope.

(** circuits that end by forgetting the challenger *)
Definition chf {A} (w : Z) (s : cst) (f : list GF -> A) (c : circ A) (ops : list op) : Prop :=
  denP w f c (fun P ys => exists t, mops P ops s ys t).
Lemma chf_ret {A} w s (a : A) : chf w s (fun _ => a) (Ret a) [].
Proof.
  unfold chf. eapply denP_iff; [apply (denP_ret w (fun _ : list GF => a) [])|]. intros P ys. cbn [mops]. split.
  - intros ->. eauto.
  - now intros (t & -> & _).
Qed.
Lemma chf_ext {A} w s (f g : list GF -> A) c ops :
  chf w s f c ops -> (forall ys, length ys = gets ops -> f ys = g ys) -> chf w s g c ops.
Proof.
  intros [H1 H2] E. split.
  - intros ys [t Hy]. rewrite <- E; [apply H1; eauto|eapply mops_len; eauto].
  - intros z. rewrite H2. split; intros (ys & -> & t & Hy); exists ys; (split; [|eauto]);
      rewrite E; auto; eapply mops_len; eauto.
Qed.
Lemma chf_ops {A} w s (f : list GF -> A) c o1 o2 : chf w s f c o1 -> o1 = o2 -> chf w s f c o2.
Proof. now intros H <-. Qed.
Lemma chd_chf_bind {A} w s c k (f : list GF -> A) xs o2 : Forall reducible xs -> inv s ->
  chd w s c (observes xs) -> (forall u, inv u -> chf w u f (k (rc u)) o2) -> chf w s f (bind c k) (observes xs ++ o2).
Proof.
  intros Hx Hs H1 H2. unfold chf.
  assert (OK : Forall op_ok (observes xs)) by (apply Forall_map; exact Hx).
  eapply denP_iff.
  - eapply (denP_bind w rc); [exact H1|]. intros u Hu. apply H2.
    destruct Hu as [Hu|Hu]; [exact (mops_inv _ _ okP_pgraph OK _ _ _ Hs Hu)|exact (mops_inv _ _ (okP_permw w) OK _ _ _ Hs Hu)].
  - intros P yt. split.
    + intros (u & A1 & t & B). exists t. apply mops_app. exists u, [], yt. auto.
    + intros (t & B). apply mops_app in B. destruct B as (u & y1 & y2 & A1 & B & E).
      pose proof (mops_len _ _ _ _ _ A1) as L. rewrite gets_observes in L.
      apply length_zero_iff_nil in L. subst y1. cbn [app] in E. subst y2. eauto.
Qed.
Lemma chg_chf_bind {A B} w s (c : circ (A * chal)) (k : A * chal -> circ B) (f1 : list GF -> A) (f2 : list GF -> list GF -> B) o1 o2 :
  Forall op_ok o1 -> inv s -> chg w s f1 c o1 ->
  (forall ys u, length ys = gets o1 -> inv u -> chf w u (f2 ys) (k (f1 ys, rc u)) o2) ->
  chf w s (fun zs => f2 (firstn (gets o1) zs) (skipn (gets o1) zs)) (bind c k) (o1 ++ o2).
Proof.
  intros Ho Hs H1 H2. unfold chf.
  assert (HI : forall P x, P = pgraph \/ P = permw w -> mops P o1 s (fst x) (snd x) -> length (fst x) = gets o1 /\ inv (snd x)).
  { intros P x HP Hx. split; [eapply mops_len; eauto|]. eapply mops_inv; eauto. destruct HP as [->| ->]; auto using okP_pgraph, okP_permw. }
  set (g := fun yt : list GF => f2 (firstn (gets o1) yt) (skipn (gets o1) yt)).
  assert (G : forall ys zs, length ys = gets o1 -> g (ys ++ zs) = f2 ys zs).
  { intros ys zs HL. unfold g. rewrite <- HL, firstn_app, Nat.sub_diag, firstn_all. cbn [firstn]. rewrite app_nil_r.
    rewrite skipn_app, skipn_all, Nat.sub_diag. reflexivity. }
  eapply denP_iff.
  - eapply (denP_bind w _ g c k (fun P yt => mops P o1 s (fst yt) (snd yt))
       (fun P x z => exists zs t, mops P o2 (snd x) zs t /\ z = fst x ++ zs)); [exact H1|].
    intros [ys u] Hx. cbn [fst snd].
    assert (HL : length ys = gets o1 /\ inv u).
    { destruct Hx as [Hx|Hx]; [apply (HI pgraph (ys,u))|apply (HI (permw w) (ys,u))]; auto. }
    destruct HL as [HL Hu].
    destruct (H2 ys u HL Hu) as [F1 F2]. split.
    + intros z (zs & t & Hz & E). subst z. rewrite (F1 zs) by eauto. now rewrite G.
    + intros z. rewrite F2. split.
      * intros (zs & -> & t & Hz). exists (ys ++ zs). split; [now rewrite G|eauto].
      * intros (z' & -> & zs & t & Hz & ->). exists zs. split; [now rewrite G|eauto].
  - intros P z. split.
    + intros ([ys u] & A1 & zs & t & B1 & ->). cbn [fst snd] in *. exists t. apply mops_app. eauto 8.
    + intros (t & B1). apply mops_app in B1. destruct B1 as (u & y1 & y2 & A1 & B1 & ->). exists (y1, u). eauto 6.
Qed.

(** ** What is observed and asked, in order *)
Definition cap_elems (cap : FriMerkleCap) : list Z := flat_map digits56 cap.
Definition openings_elems (o : OpeningSet) : list Z :=
  flat_map qe_list (Constants o ++ PlonkSigmas o ++ Wires o ++ PlonkZs o ++ PartialProducts o ++ QuotientPolys o)
  ++ flat_map qe_list (PlonkZsNext o).
Definition transcript_ops (nc nq : nat) (digest : Z) (pih : list Z) (pr : Proof_) : list op :=
  observes (digits56 digest ++ pih ++ cap_elems (WiresCap pr)) ++ asks nc ++ asks nc ++
  observes (cap_elems (PlonkZsPartialProductsCap pr)) ++ asks nc ++
  observes (cap_elems (QuotientPolysCap pr)) ++ asks 2 ++
  observes (openings_elems (Openings pr)) ++
  fri_ops (CommitPhaseMerkleCaps (OpeningProof pr)) (FinalPoly (OpeningProof pr)) (PowWitness (OpeningProof pr)) nq.

(** the challenges, from the flat list of field elements in the order in which they are drawn *)
Definition challenges_of (nc ncaps nq : nat) (ys : list GF) : ProofChallenges :=
  let y1 := skipn nc ys in let y2 := skipn nc y1 in let y3 := skipn nc y2 in
  mkProofChallenges (map rep (firstn nc ys)) (map rep (firstn nc y1)) (map rep (firstn nc y2))
    (toQE (firstn 2 y3)) (fri_of ncaps nq (firstn (2 + 2 * ncaps + (1 + nq)) (skipn 2 y3))).

(** the input data are field elements; the elements hashed as Goldilocks elements are in the range of [Reduce] *)
Definition transcript_ok (digest : Z) (pih : list Z) (pr : Proof_) : Prop :=
  inr_ digest /\ Forall reducible pih /\ Forall inr_ (WiresCap pr) /\ Forall inr_ (PlonkZsPartialProductsCap pr) /\
  Forall inr_ (QuotientPolysCap pr) /\ Forall reducible (openings_elems (Openings pr)) /\
  Forall (Forall inr_) (CommitPhaseMerkleCaps (OpeningProof pr)) /\
  Forall reducible (flat_map qe_list (FinalPoly (OpeningProof pr))) /\ reducible (PowWitness (OpeningProof pr)).

Lemma ok_fri_ops caps fp pow nq : Forall (Forall inr_) caps -> Forall reducible (flat_map qe_list fp) -> reducible pow ->
  Forall op_ok (fri_ops caps fp pow nq).
Proof.
  intros H1 H2 H3. unfold fri_ops. rewrite !Forall_app.
  split; [apply ok_asks|]. split; [now apply ok_beta_ops|]. split; [|apply ok_asks].
  apply ok_observes. rewrite Forall_app. auto.
Qed.
Lemma gets_fri_ops caps fp pow nq : gets (fri_ops caps fp pow nq) = (2 + 2 * length caps + (1 + nq))%nat.
Proof. unfold fri_ops. rewrite !gets_app, gets_beta_ops, gets_observes, !gets_asks. lia. Qed.

Theorem get_challenges_chf w cd pr pih vd : 128 <= w -> transcript_ok (CircuitDigest vd) pih pr ->
  let nc := NumChallenges (cd_Config cd) in
  let nq := NumQueryRounds (cc_FriConfig (cd_Config cd)) in
  chf w cst0 (challenges_of nc (length (CommitPhaseMerkleCaps (OpeningProof pr))) nq)
      (GetChallenges w cd pr pih vd) (transcript_ops nc nq (CircuitDigest vd) pih pr).
Proof.
  intros Hw (D1 & D2 & D3 & D4 & D5 & D6 & D7 & D8 & D9) nc nq. unfold GetChallenges, transcript_ops.
  fold nc. change NewChip with (rc cst0) at 1.
  set (ncaps := length (CommitPhaseMerkleCaps (OpeningProof pr))).
  rewrite !observes_app, <- !app_assoc.
  apply chd_chf_bind; [now apply digits56_reducible|apply inv0|apply observe_bn_chd; auto using inv0|]. intros u1 I1.
  apply chd_chf_bind; [exact D2|exact I1|now apply observe_elements_chd|]. intros u2 I2.
  apply chd_chf_bind; [now apply cap_reducible|exact I2|now apply observe_cap_chd|]. intros u3 I3.
  eapply chf_ext.
  - eapply (chg_chf_bind w u3 _ _ (map rep) (fun ya y1 =>
      let y2 := skipn nc y1 in let y3 := skipn nc y2 in
      mkProofChallenges (map rep ya) (map rep (firstn nc y1)) (map rep (firstn nc y2))
        (toQE (firstn 2 y3)) (fri_of ncaps nq (firstn (2 + 2 * ncaps + (1 + nq)) (skipn 2 y3))))); [apply ok_asks|exact I3|now apply getn_chg|].
    intros ya u4 _ I4. cbn beta iota. eapply chf_ext.
    + eapply (chg_chf_bind w u4 _ _ (map rep) (fun yb y2 => let y3 := skipn nc y2 in
        mkProofChallenges (map rep ya) (map rep yb) (map rep (firstn nc y2))
        (toQE (firstn 2 y3)) (fri_of ncaps nq (firstn (2 + 2 * ncaps + (1 + nq)) (skipn 2 y3))))); [apply ok_asks|exact I4|now apply getn_chg|].
      intros yb u5 _ I5. cbn beta iota.
      apply chd_chf_bind; [now apply cap_reducible|exact I5|now apply observe_cap_chd|]. intros u6 I6.
      eapply chf_ext.
      * eapply (chg_chf_bind w u6 _ _ (map rep) (fun yc y3 =>
          mkProofChallenges (map rep ya) (map rep yb) (map rep yc)
          (toQE (firstn 2 y3)) (fri_of ncaps nq (firstn (2 + 2 * ncaps + (1 + nq)) (skipn 2 y3))))); [apply ok_asks|exact I6|now apply getn_chg|].
        intros yc u7 _ I7. cbn beta iota.
        apply chd_chf_bind; [now apply cap_reducible|exact I7|now apply observe_cap_chd|]. intros u8 I8.
        eapply chf_ext.
        -- eapply (chg_chf_bind w u8 _ _ toQE (fun yd y4 =>
             mkProofChallenges (map rep ya) (map rep yb) (map rep yc) (toQE yd)
              (fri_of ncaps nq (firstn (2 + 2 * ncaps + (1 + nq)) y4)))); [apply ok_asks|exact I8|now apply getext_chg|].
           intros yd u9 _ I9. cbn beta iota.
           assert (EO : openings_elems (Openings pr) = flat_map (flat_map qe_list) (ToOpenings (Openings pr))).
           { unfold openings_elems, ToOpenings. cbn [flat_map]. now rewrite app_nil_r. }
           rewrite EO in *.
           apply chd_chf_bind; [exact D6|exact I9|now apply observe_openings_chd|]. intros u10 I10.
           eapply chf_ops; [|apply app_nil_r]. eapply chf_ext.
           ++ eapply (chg_chf_bind w u10 _ _ (fri_of ncaps nq) (fun y4 _ =>
                mkProofChallenges (map rep ya) (map rep yb) (map rep yc) (toQE yd) (fri_of ncaps nq y4)));
                [|exact I10|now apply friChallenges_chg|].
              ** now apply ok_fri_ops.
              ** intros y4 u11 _ I11. cbn beta iota. apply chf_ret.
           ++ intros y4 _. cbn beta. rewrite gets_fri_ops. reflexivity.
        -- intros y3 _. cbn beta. rewrite gets_asks. reflexivity.
      * intros y2 _. cbn beta. rewrite gets_asks. reflexivity.
    + intros y1 _. cbn beta. rewrite gets_asks. reflexivity.
  - intros ys _. cbn beta. rewrite gets_asks. reflexivity.
Qed.

(** ** The same as a list of phases *)
Definition transcript_phases (nc nq : nat) (digest : Z) (pih : list Z) (pr : Proof_) : list (list Z * nat) :=
  let op := OpeningProof pr in
  [ (digits56 digest ++ pih ++ cap_elems (WiresCap pr), (nc + nc)%nat);
    (cap_elems (PlonkZsPartialProductsCap pr), nc);
    (cap_elems (QuotientPolysCap pr), 2%nat);
    (openings_elems (Openings pr), 2%nat) ]
  ++ map (fun cap => (cap_elems cap, 2%nat)) (CommitPhaseMerkleCaps op)
  ++ [ (flat_map qe_list (FinalPoly op) ++ [PowWitness op], (1 + nq)%nat) ].

Lemma transcript_phase_ops nc nq digest pih pr :
  transcript_ops nc nq digest pih pr = phase_ops (transcript_phases nc nq digest pih pr).
Proof.
  unfold transcript_ops, transcript_phases, phase_ops, fri_ops, beta_ops. rewrite !flat_map_app. cbn [flat_map fst snd].
  rewrite !asks_app, !app_nil_r, <- !app_assoc.
  assert (E : forall l, flat_map (fun ph : list Z * nat => observes (fst ph) ++ asks (snd ph)) (map (fun cap => (cap_elems cap, 2%nat)) l)
              = flat_map (fun cap => observes (flat_map digits56 cap) ++ asks 2) l).
  { induction l as [|c l IH]; cbn [map flat_map fst snd]; [reflexivity|]. rewrite IH. reflexivity. }
  rewrite E. reflexivity.
Qed.
