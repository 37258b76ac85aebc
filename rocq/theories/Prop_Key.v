(** * C78: what an accepted proof says about the verification key

    The key has a digest, which starts the transcript, and a cap of 16 hashes, to which the openings
    of the constants and permutation polynomials lead.  The cap is not in the transcript
    (verifier/verifier.go:45-81) and the digest is not compared with it, so that the cap matters
    only where a query ends: an accepted proof is accepted with another cap exactly if the
    two agree in the entries given by the top four bits of the query indices. *)
From Coq Require Import String.
From Coq Require Import ZArith Lia List Bool Permutation.
From Verif Require Import Zp GF Circuit Goldilocks GLProofs ExtProofs PoseidonSpec PoseidonGL PoseidonGLProofs Sponge DenP BN254 BN254Hash
  Types Challenger ChallengerProofs ChallengerPhases Transcript ChallengerTop Prop_Challenger Roots Fri FriMerkle FriEval FriQuery FriTop Prop_Fri
  Gates GateProofs GateFilter GateAll Prop_Gates Plonk PlonkProofs Prop_Plonk GateIds GateIdProofs GateIdText Verifier VerifierProofs Prop_Poseidon
  Prop_Verifier Malleable Prop_Malleable Prop_Forgery.
Import ListNotations.
Open Scope Z_scope.

(** the entry of the cap in which a query of a domain of size 2^n ends: the top four of n bits *)
Definition entry (n : nat) (x : Z) : nat := Z.to_nat ((x mod 2 ^ Z.of_nat n) / 2 ^ Z.of_nat (n - 4)).
Definition same_lengths (caps caps' : list FriMerkleCap) : Prop := Forall2 (fun c c' : FriMerkleCap => length c = length c') caps caps'.
(** the caps agree wherever one of the queries ends *)
Definition agree_at (n : nat) (xs : list Z) (caps caps' : list FriMerkleCap) : Prop :=
  forall x j, In x xs -> nth (entry n x) (nth j caps []) 0 = nth (entry n x) (nth j caps' []) 0.
Lemma agree_sym n xs caps caps' : agree_at n xs caps caps' -> agree_at n xs caps' caps.
Proof. intros H x j Hx. symmetry. now apply H. Qed.
Lemma same_lengths_sym caps caps' : same_lengths caps caps' -> same_lengths caps' caps.
Proof. intros H. induction H; constructor; [now symmetry|assumption]. Qed.

(** ** The FRI verifier *)
Lemma F2_nth {A} (R : A -> A -> Prop) (d : A) l l' : Forall2 R l l' -> forall j, (j < length l)%nat -> R (nth j l d) (nth j l' d).
Proof. intros H. induction H as [|a b l l' H1 H2 IH]; intros j Hj; [cbn in Hj; lia|]. destruct j; [exact H1|]. apply IH. cbn in Hj. lia. Qed.
Lemma F2_len {A} (R : A -> A -> Prop) l l' : Forall2 R l l' -> length l = length l'.
Proof. intros H. induction H; cbn; congruence. Qed.
Lemma initial_agree i cidx proof caps caps' : same_lengths caps caps' ->
  (forall j, nth (Z.to_nat cidx) (nth j caps []) 0 = nth (Z.to_nat cidx) (nth j caps' []) 0) ->
  initial_ok i cidx proof caps -> initial_ok i cidx proof caps'.
Proof.
  intros SL A [L F]. pose proof (F2_len _ _ _ SL) as LL. split; [congruence|].
  revert proof L F A. clear LL. induction SL as [|c c' l l' H1 H2 IH]; intros proof L F A; destruct proof as [|e proof]; try discriminate L; [constructor|].
  cbn [combine] in *. apply Forall_cons_iff in F. destruct F as [[F1 F2] F3]. cbn [fst snd] in *. constructor.
  - cbn [fst snd]. split; [congruence|]. rewrite F2. exact (A O).
  - apply IH; [now injection L|exact F3|]. intros j. exact (A (S j)).
Qed.
Lemma initial_both i cidx proof caps caps' : initial_ok i cidx proof caps -> initial_ok i cidx proof caps' ->
  forall j, nth (Z.to_nat cidx) (nth j caps []) 0 = nth (Z.to_nat cidx) (nth j caps' []) 0.
Proof.
  intros [L F] [L' F']. revert caps caps' L L' F F'. induction proof as [|e proof IH]; intros caps caps' L L' F F' j.
  - destruct caps; [|discriminate L]. destruct caps'; [|discriminate L']. reflexivity.
  - destruct caps as [|c caps]; [discriminate L|]. destruct caps' as [|c' caps']; [discriminate L'|]. cbn [combine] in *.
    apply Forall_cons_iff in F. apply Forall_cons_iff in F'. destruct F as [[_ F1] F2], F' as [[_ F1'] F2']. cbn [fst snd] in *.
    destruct j as [|j]; cbn [nth]; [congruence|]. apply IH; [now injection L|now injection L'|exact F2|exact F2'].
Qed.
Lemma in_comb {A B} (l : list A) : forall (l' : list B) x, length l = length l' -> In x l -> exists y, In (x, y) (combine l l').
Proof.
  induction l as [|a l IH]; intros [|b l'] x H Hx; try discriminate H; [destruct Hx|]. destruct Hx as [->|Hx]; [exists b; now left|].
  destruct (IH l' x ltac:(now injection H) Hx) as [y Hy]. exists y. now right.
Qed.
Lemma fri_key params oracles points openings alpha betas pow indices caps caps' proof :
  NumQueryRounds (fp_Config params) = 0%nat \/ same_lengths caps caps' -> fri_ok params oracles points openings alpha betas pow indices caps proof ->
  (fri_ok params oracles points openings alpha betas pow indices caps' proof <-> agree_at (LdeBits params) (map rep indices) caps caps').
Proof.
  intros SL (A1 & A2 & A3 & A4 & A5 & F). split.
  - intros (_ & _ & _ & _ & _ & F') x j Hx. apply in_map_iff in Hx. destruct Hx as (y & <- & Hy).
    destruct (in_comb indices (QueryRoundProofs proof) y ltac:(congruence) Hy) as [q Hq].
    rewrite Forall_forall in F, F'. specialize (F _ Hq). specialize (F' _ Hq). cbn [fst snd] in F, F'.
    destruct F as (_ & _ & _ & _ & I & _), F' as (_ & _ & _ & _ & I' & _). exact (initial_both _ _ _ _ _ I I' j).
  - intros A. unfold fri_ok. do 5 (split; [assumption|]). apply Forall_forall. intros [y q] Hq. rewrite Forall_forall in F. specialize (F _ Hq). cbn [fst snd] in *.
    destruct F as (B1 & B2 & B3 & B4 & I & B5 & B6). unfold query_ok. do 4 (split; [assumption|]). split; [|split; assumption].
    destruct SL as [Z0|SL]; [destruct (QueryRoundProofs proof); [destruct indices; destruct Hq|rewrite Z0 in A4; discriminate A4]|].
    apply (initial_agree _ _ _ caps caps' SL); [|exact I]. intros j. apply A. apply in_map. now apply in_combine_l in Hq.
Qed.
Theorem C78_fri : forall params oracles points openings alpha betas pow indices caps caps' proof,
  canon_fri proof -> oracles <> [] -> length points = length openings ->
  NumQueryRounds (fp_Config params) = 0%nat \/ same_lengths caps caps' ->
  let verify caps := VerifyFriProof params
      (mkInstanceInfo oracles (map (fun b => mkBatchInfo (repK (fst b)) (snd b)) points)) (map (map repK) openings)
      (mkFriChallenges (repK alpha) (map repK betas) (rep pow) (map rep indices)) caps proof in
  sat (verify caps) -> (sat (verify caps') <-> agree_at (LdeBits params) (map rep indices) caps caps').
Proof.
  intros params oracles points openings alpha betas pow indices caps caps' proof HC HO HP SL verify S. unfold verify in *.
  apply (proj1 (enforces_sat _ _ _ (C34_fri params oracles points openings alpha betas pow indices caps proof HC HO HP))) in S.
  rewrite (enforces_sat _ _ _ (C34_fri params oracles points openings alpha betas pow indices caps' proof HC HO HP)). now apply fri_key.
Qed.
Print Assumptions C78_fri.

(** ** The whole verifier *)
Section C78.
  Context (orders : nat -> list handler) (cd : CommonCircuitData) (gates : list Gate) (pr : Proof_) (pis : list Z) (digest : Z).
  Context (HO : forall i, Permutation (orders i) gateRegexHandlers) (HG : Forall2 gate_text gates (map str (GateIds cd))).
  Context (HC : circuit_shape cd gates) (HS : proof_shape cd gates pr).
  Definition key (cap : FriMerkleCap) : VerifierOnlyCircuitData := mkVerifierOnlyCircuitData cap digest.
  (** where the queries of a transcript end *)
  Definition same_entries (ch : ProofChallenges) (cap cap' : FriMerkleCap) : Prop :=
    forall x, In x (FriQueryIndices (pc_FriChallenges ch)) ->
      nth (entry (LdeBits (cd_FriParams cd)) x) cap 0 = nth (entry (LdeBits (cd_FriParams cd)) x) cap' 0.

  Lemma native_key cap cap' : native pr pis (key cap) -> native pr pis (key cap').
  Proof. exact (fun H => H). Qed.
  (** the length of the cap matters only if there are queries *)
  Definition same_length (cap cap' : FriMerkleCap) : Prop := NumQueryRounds (fp_Config (cd_FriParams cd)) = 0%nat \/ length cap = length cap'.
  Lemma caps4 cap cap' : same_length cap cap' -> NumQueryRounds (fp_Config (cd_FriParams cd)) = 0%nat \/
    same_lengths [cap; WiresCap pr; PlonkZsPartialProductsCap pr; QuotientPolysCap pr] [cap'; WiresCap pr; PlonkZsPartialProductsCap pr; QuotientPolysCap pr].
  Proof. intros [L|L]; [now left|right]. repeat constructor. exact L. Qed.
  Lemma agree4 n xs cap cap' l : agree_at n xs (cap :: l) (cap' :: l) <-> forall x, In x xs -> nth (entry n x) cap 0 = nth (entry n x) cap' 0.
  Proof.
    split; [intros H x Hx; exact (H x O Hx)|]. intros H x [|j] Hx; [exact (H x Hx)|reflexivity].
  Qed.
  (** whatever permutation relation the transcript is computed with *)
  Lemma accepts_agree P cap cap' : same_length cap cap' ->
    (forall h ch, sponge_rel g0 P (map inj pis) 4 h -> transcript_gives cd pr (map rep h) (key cap) P ch -> same_entries ch cap cap') ->
    accepts cd gates pr pis (key cap) P -> accepts cd gates pr pis (key cap') P.
  Proof.
    intros L A (C1 & C2 & h & c & alpha & betas & pow & indices & H1 & H2 & H3 & H4).
    split; [exact C1|]. split; [exact C2|]. exists h, c, alpha, betas, pow, indices. split; [exact H1|]. split; [exact H2|]. split; [exact H3|].
    apply (fri_key _ _ _ _ _ _ _ _ _ _ _ (caps4 cap cap' L) H4). apply agree4. exact (A h _ H1 H2).
  Qed.

  Lemma transcript_unique cap h ch ch' : native pr pis (key cap) -> canon_proof pr ->
    transcript_gives cd pr (map rep h) (key cap) pgraph ch -> transcript_gives cd pr (map rep h) (key cap) pgraph ch' -> ch = ch'.
  Proof.
    intros HN HP H H'. pose proof (challenges_denP 192 cd gates pr pis (key cap) ltac:(lia) HC HS HN h HP) as [D _].
    apply D in H. apply D in H'. rewrite H in H'. now apply Done_inj in H'.
  Qed.

  (** The honest solver: an accepted proof is accepted with another cap exactly if the caps agree
      in every entry in which a query ends. *)
  Theorem C78_key cap cap' : native pr pis (key cap) -> same_length cap cap' ->
    run (Define orders 192 cd pr pis (key cap)) = Done tt ->
    exists ch, transcript_gives cd pr (map rep (sponge g0 poseidon (map inj pis) 4)) (key cap) pgraph ch /\
      length (FriQueryIndices (pc_FriChallenges ch)) = NumQueryRounds (fp_Config (cd_FriParams cd)) /\
      (run (Define orders 192 cd pr pis (key cap')) = Done tt <-> same_entries ch cap cap').
  Proof.
    intros HN L R. apply (C52_honest orders cd gates pr pis (key cap) HO HG HC HS HN) in R.
    pose proof R as (C1 & C2 & h & c & alpha & betas & pow & indices & H1 & H2 & H3 & H4).
    pose proof (sponge_graph _ _ _ H1) as E. subst h. set (h := sponge g0 poseidon (map inj pis) 4) in *.
    eexists. split; [exact H2|]. split; [cbn [repC pc_FriChallenges fc_of FriQueryIndices]; rewrite map_length; apply H4|].
    rewrite (C52_honest orders cd gates pr pis (key cap') HO HG HC HS (native_key cap cap' HN)). split.
    - intros (_ & _ & h' & c' & alpha' & betas' & pow' & indices' & H1' & H2' & H3' & H4').
      apply sponge_graph in H1'. subst h'. fold h in H2', H3'.
      pose proof (transcript_unique cap h _ _ HN C1 H2 H2') as E.
      assert (c = c' /\ alpha = alpha' /\ betas = betas' /\ pow = pow' /\ indices = indices') as (<- & <- & <- & <- & <-) by (apply repC_inj; exact E).
      apply (fri_key _ _ _ _ _ _ _ _ _ _ _ (caps4 cap cap' L) H4) in H4'. exact (proj1 (agree4 _ _ cap cap' _) H4').
    - intros A. apply (accepts_agree pgraph cap cap' L); [|exact R]. intros h' ch' G1 G2. apply sponge_graph in G1. subst h'. fold h in G2.
      rewrite <- (transcript_unique cap h _ _ HN C1 H2 G2). exact A.
  Qed.
  (** An arbitrary prover: if the caps agree wherever a query of a possible transcript ends, then the one key is as good as the other. *)
  Theorem C78_prover cap cap' : native pr pis (key cap) -> same_length cap cap' ->
    (forall h ch, sponge_rel g0 (permw 192) (map inj pis) 4 h -> transcript_gives cd pr (map rep h) (key cap) (permw 192) ch -> same_entries ch cap cap') ->
    sat (Define orders 192 cd pr pis (key cap)) <-> sat (Define orders 192 cd pr pis (key cap')).
  Proof.
    intros HN L A. rewrite (C52_exact orders cd gates pr pis (key cap) HO HG HC HS HN), (C52_exact orders cd gates pr pis (key cap') HO HG HC HS (native_key cap cap' HN)).
    split; apply accepts_agree; [exact L|exact A|destruct L; [left|right]; congruence|]. intros h ch G1 G2 x Hx. symmetry. exact (A h ch G1 G2 x Hx).
  Qed.
  (** With fewer than 16 queries there is an entry of the cap that can be replaced by anything. *)
  Theorem C78_free_entry cap : native pr pis (key cap) -> length cap = 16%nat -> (NumQueryRounds (fp_Config (cd_FriParams cd)) < 16)%nat ->
    run (Define orders 192 cd pr pis (key cap)) = Done tt ->
    exists j, (j < 16)%nat /\ forall v, run (Define orders 192 cd pr pis (key (firstn j cap ++ v :: skipn (S j) cap))) = Done tt.
  Proof.
    intros HN L16 HQ R. set (n := LdeBits (cd_FriParams cd)).
    destruct (C78_key cap cap HN (or_intror eq_refl) R) as (ch & T & LQ & _). set (es := map (entry n) (FriQueryIndices (pc_FriChallenges ch))).
    assert (exists j, (j < 16)%nat /\ ~ In j es) as (j & Hj & Nj).
    { destruct (Forall_Exists_dec (fun j => In j es) (fun j => in_dec Nat.eq_dec j es) (seq 0 16)) as [F|X].
      - exfalso. assert (I : incl (seq 0 16) es) by (intros j Hj; rewrite Forall_forall in F; now apply F).
        apply NoDup_incl_length in I; [|apply seq_NoDup]. unfold es in I. rewrite seq_length, map_length, LQ in I. lia.
      - apply Exists_exists in X. destruct X as (j & Hj & Nj). apply in_seq in Hj. exists j. split; [lia|exact Nj]. }
    exists j. split; [exact Hj|]. intros v.
    assert (LF : length (firstn j cap) = j) by (apply firstn_length_le; lia).
    assert (L : length cap = length (firstn j cap ++ v :: skipn (S j) cap)) by (rewrite app_length, LF; cbn [length]; rewrite skipn_length; lia).
    destruct (C78_key cap (firstn j cap ++ v :: skipn (S j) cap) HN (or_intror L) R) as (ch' & T' & _ & E). apply E.
    assert (C1 : canon_proof pr) by (apply (C52_honest orders cd gates pr pis (key cap) HO HG HC HS HN) in R; apply R).
    rewrite (transcript_unique cap _ ch' ch HN C1 T' T). intros x Hx. fold n.
    assert (Ne : entry n x <> j) by (intros X; apply Nj; rewrite <- X; now apply in_map). revert Ne. generalize (entry n x). intros k Ne.
    rewrite <- (firstn_skipn j cap) at 1. destruct (Nat.lt_ge_cases k j) as [H|H]; [now rewrite !app_nth1 by lia|].
    rewrite !app_nth2, LF by lia. destruct (k - j)%nat as [|m] eqn:Em; [lia|]. cbn [nth].
    rewrite <- (firstn_skipn 1 (skipn j cap)). rewrite app_nth2 by (rewrite firstn_length, skipn_length; lia).
    rewrite firstn_length, skipn_length, Nat.min_l by lia. replace (S m - 1)%nat with m by lia.
    f_equal. clear. revert j. induction cap as [|c cap IH]; intros [|j]; try reflexivity. cbn [skipn]. apply IH.
  Qed.
End C78.
Print Assumptions C78_key.
Print Assumptions C78_prover.
Print Assumptions C78_free_entry.

(** One query, of index 5 in a domain of size 16: entry 5 of the cap must be right, the others need not be. *)
Example C78_ex : let caps v := [firstn 4 ex_cap ++ v :: skipn 5 ex_cap] in let caps' v := [firstn 5 ex_cap ++ v :: skipn 6 ex_cap] in
  entry 4 (1 + 2 ^ 40 * 16 + 4) = 5%nat /\ ex_run (ex_f 5) [ex_cap] = Done tt /\ ex_run (ex_f 5) (caps 99) = Done tt /\ ex_run (ex_f 5) (caps' 99) = Unsat /\
  agree_at 4 [1 + 2 ^ 40 * 16 + 4] [ex_cap] (caps 99).
Proof.
  cbv zeta. split; [reflexivity|]. split; [vm_compute; reflexivity|]. split; [vm_compute; reflexivity|]. split; [vm_compute; reflexivity|].
  intros x j [<-|[]]. destruct j as [|[|j]]; vm_compute; reflexivity.
Qed.
(** A circuit that meets the hypotheses of the other theorems: the one of [C52_ex], which has no
    queries, so that any cap is accepted. *)
Example C78_ex_circuit : exists pr, native pr [] (key 0 []) /\ forall cap, run (Define (fun _ => gateRegexHandlers) 192 tiny_cd pr [] (key 0 cap)) = Done tt.
Proof.
  destruct C52_ex as (t & HG & HC & HS & HN & _ & R). cbv zeta in *. eexists. split; [exact HN|]. intros cap.
  destruct (C78_key (fun _ => gateRegexHandlers) tiny_cd [NoopGate] _ [] 0 (fun _ => Permutation_refl _) HG HC HS [] cap HN (or_introl eq_refl) R) as (ch & _ & L & E).
  apply E. intros x Hx. destruct (FriQueryIndices (pc_FriChallenges ch)); [destruct Hx|discriminate L].
Qed.
