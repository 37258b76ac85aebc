(** * Property C52: the full statement is false of the code.

    A family of tiny proofs: one routed wire, one challenge, no query rounds.  Their
    vanishing identity says t * (zeta - 1) = 1 for the opening t of the quotient
    polynomial, which is part of the proof and enters the transcript after zeta. *)
From Coq Require Import String.
From Coq Require Import ZArith NArith Lia List Bool Permutation Field.
From Verif Require Import Zp GF Circuit Goldilocks GLProofs ExtProofs PoseidonSpec PoseidonGL PoseidonGLProofs Sponge DenP BN254 BN254Hash
  Types Challenger ChallengerProofs ChallengerPhases Transcript ChallengerTop Prop_Challenger Roots Fri FriMerkle FriEval FriQuery FriTop Prop_Fri
  Gates GateProofs GateFilter GateAll Prop_Gates Plonk PlonkProofs Prop_Plonk GateIds GateIdProofs GateIdText Verifier VerifierProofs Prop_Poseidon
  Prop_Verifier Malleable Prop_Malleable.
Import ListNotations.
Open Scope Z_scope.

Definition tiny_fri : FriConfig := mkFriConfig 0 0 0 0.
Definition tiny_cd : CommonCircuitData :=
  mkCommonCircuitData (mkCircuitConfig 1 1 0 false 0 1 false 1 tiny_fri) (mkFriParams tiny_fri false 0 []) ["NoopGate"%string]
    (mkSelectorsInfo [0%nat] [(0%nat, 1%nat)]) 0 1 0 0 0 [0] 0.
Definition tiny_proof (wires_cap zs_cap quotient_cap : FriMerkleCap) (t : K) : Proof_ :=
  mkProof wires_cap zs_cap quotient_cap
    (mkOpeningSet [(0, 0)] [(0, 0)] [(0, 0)] [(2, 0)] [(2, 0)] [] [repK t])
    (mkFriProof [] [] [(0, 0)] 0).

Section Tiny.
  Context (wc zc qc sc : FriMerkleCap) (digest : Z) (pis : list Z).
  Context (Hw : Forall inr_ wc) (Hz : Forall inr_ zc) (Hq : Forall inr_ qc) (Hd : inr_ digest) (Hp : Forall reducible pis).
  Context (Nz : zc <> []) (Nq : qc <> []).
  Let vd := mkVerifierOnlyCircuitData sc digest.
  Let pr := tiny_proof wc zc qc.

  Lemma tiny_text : Forall2 gate_text [NoopGate] (map str (GateIds tiny_cd)).
  Proof. repeat constructor. Qed.
  Lemma tiny_circuit : circuit_shape tiny_cd [NoopGate].
  Proof.
    pose proof p_pos. split; [|split].
    - cbn. split; [constructor; [unfold canonZ; lia|constructor]|]. repeat split; lia.
    - split; [cbn; lia|]. intros [|i] Hi; [|cbn in Hi; lia]. cbn. split; [lia|]. change (1 <= p). lia.
    - constructor; [|constructor]. cbn. lia.
  Qed.
  Lemma tiny_shape t : proof_shape tiny_cd [NoopGate] (pr t).
  Proof.
    split; [|split; [exact Nz|split; [exact Nq|constructor]]]. split; [cbn; lia|]. constructor; [|constructor]. cbn. auto.
  Qed.
  Lemma tiny_native t : native (pr t) pis vd.
  Proof.
    assert (F : Forall inr_ pis).
    { eapply Forall_impl; [|exact Hp]. intros a [A B]. split; [exact A|]. eapply Z.lt_trans; [exact B|]. reflexivity. }
    unfold native, pr, tiny_proof. cbn [WiresCap PlonkZsPartialProductsCap QuotientPolysCap OpeningProof CommitPhaseMerkleCaps CircuitDigest vd].
    repeat (split; [assumption|]). constructor.
  Qed.
  Lemma tiny_canon t : canon_proof (pr t).
  Proof.
    assert (Z0 : canonQE (0, 0)) by (split; unfold canonZ; cbn; pose proof p_pos; lia).
    assert (Z2 : canonQE (2, 0)) by (split; unfold canonZ; cbn; pose proof p_pos; try lia; split; [lia|reflexivity]).
    assert (ZK : canonQE (repK t)) by (split; apply rep_range).
    assert (P0 : canonZ 0) by (unfold canonZ; pose proof p_pos; lia).
    split; [|split; [|exact P0]].
    - unfold canon_openings, pr, tiny_proof. cbn [Openings Constants PlonkSigmas Wires PlonkZs PlonkZsNext PartialProducts QuotientPolys]. 
      split; [constructor; [assumption|constructor]|]. split; [constructor; [assumption|constructor]|]. split; [constructor; [assumption|constructor]|].
      split; [constructor; [assumption|constructor]|]. split; [constructor; [assumption|constructor]|]. split; constructor; [assumption|constructor].
    - split; [constructor|]. constructor; [assumption|constructor].
  Qed.
  (** the vanishing identity *)
  Lemma tiny_zeta_n c : zeta_n tiny_cd c = c_zeta c.
  Proof. unfold zeta_n. change (2 ^ N.of_nat (cd_DegreeBits tiny_cd))%N with 1%N. apply kpow_1. Qed.
  Lemma tiny_quotient t x : weighted (chunk (QuotientDegreeFactor tiny_cd) 0 (o_qs (injO (Openings (pr t))))) x = t.
  Proof.
    unfold pr, tiny_proof, injO, chunk. cbn [Openings QuotientPolys o_qs map QuotientDegreeFactor tiny_cd Nat.mul skipn firstn]. rewrite injK_repK.
    unfold weighted. cbn [length seq map nth]. unfold ksum. cbn [fold_right]. change (x ^ N.of_nat 0)%K with k1. ring.
  Qed.
  Lemma tiny_terms t h c : c_zeta c <> k1 ->
    weighted (vanishing_terms tiny_cd (map inj (KIs tiny_cd)) c (injO (Openings (pr t))) (gate_sums tiny_cd [NoopGate] (injO (Openings (pr t))) h)) (emb (nth 0 (c_alphas c) g0)) = k1.
  Proof.
    intros N.
    assert (ND : (c_zeta c - k1)%K <> k0) by (intros X; apply N; transitivity ((c_zeta c - k1) + k1)%K; [ring|rewrite X; ring]).
    assert (L0 : lagrange0 tiny_cd c = k1).
    { unfold lagrange0. rewrite tiny_zeta_n. assert (O : order tiny_cd = k1) by (apply K_eq; apply GF_eq; reflexivity). rewrite O. field. exact ND. }
    unfold vanishing_terms. rewrite L0. unfold gate_sums.
    cbn [tiny_cd NumGateConstraints NumChallenges cd_Config NumRoutedWires NumPartialProducts QuotientDegreeFactor KIs seq map flat_map app Nat.add].
    unfold numerator, denominator. cbn [nth map]. unfold pr, tiny_proof, injO. cbn [Openings PlonkZs PlonkZsNext Wires PlonkSigmas PartialProducts o_zs o_zsn o_ws o_sigmas o_pps map nth].
    unfold chunk_check, accumulators, chunk. cbn [o_zs o_zsn o_pps nth firstn skipn app Nat.mul Nat.add].
    set (T1 := injK (2, 0)). assert (I0 : injK (0, 0) = k0) by (apply K_eq; apply GF_eq; reflexivity). rewrite I0.
    assert (E0 : emb (inj 0) = k0) by (apply K_eq; apply GF_eq; reflexivity). rewrite E0.
    assert (T : (T1 - k1)%K = k1) by (apply K_eq; apply GF_eq; reflexivity). rewrite T.
    unfold weighted. cbn [length seq map nth]. unfold kprod, ksum. cbn [fold_right]. change ((emb (nth 0 (c_alphas c) g0)) ^ N.of_nat 0)%K with k1.
    set (A := (emb (nth 0 (c_alphas c) g0) ^ N.of_nat 1)%K). clearbody A T1. ring.
  Qed.
  Lemma tiny_plonk t h c : plonk_ok tiny_cd [NoopGate] (injO (Openings (pr t))) h c <-> c_zeta c <> k1 /\ ((c_zeta c - k1) * t)%K = k1.
  Proof.
    unfold plonk_ok. split; intros [N H]; (split; [exact N|]).
    - specialize (H 0%nat ltac:(cbn; lia)). rewrite tiny_terms, tiny_quotient, tiny_zeta_n in H by exact N. exact (eq_sym H).
    - intros i Hi. cbn in Hi. assert (i = 0%nat) by lia. subst i. rewrite tiny_terms, tiny_quotient, tiny_zeta_n by exact N. exact (eq_sym H).
  Qed.

  Let h := sponge g0 poseidon (map inj pis) 4.
  Let tp t := transcript_phases 1 0 digest (map rep h) (pr t).
  Lemma tiny_transcript t : transcript_shape 1 (pr t).
  Proof. exact (shape_transcript tiny_cd [NoopGate] (pr t) tiny_circuit (tiny_shape t)). Qed.
  (** zeta, if the state before it is squeezed is [st] *)
  Definition zeta_of (st : list GF) : K := injK (rep (nth 7 st g0), rep (nth 6 st g0)).
  Lemma tiny_accepts P st t y1 y2 t' yss2 : P = pgraph \/ P = permw 192 ->
    phases P (tp t) zeros12 ([y1; y2] ++ lanes 2 st t' :: yss2) -> zeta_of st <> k1 -> ((zeta_of st - k1) * t)%K = k1 ->
    accepts tiny_cd [NoopGate] (pr t) pis vd P.
  Proof.
    intros HP H N E. split; [apply tiny_canon|]. split; [exact Hp|].
    destruct (transcript_split P 1 0 _ _ _ _ (okP_of 192 P HP) (tiny_transcript t) H) as (x1 & x2 & x3 & x4 & bs & x5 & Ey & Lb & _ & _ & _ & _ & _ & L5).
    cbn [app] in Ey. assert (E3 : lanes 2 st t' = x3) by exact (f_equal (fun l => hd [] (tl (tl l))) Ey).
    pose proof H as G. cbn [app] in G. rewrite Ey in G.
    pose proof (gives_ch tiny_cd (pr t) (map rep h) vd P x1 x2 x3 x4 bs x5 Lb G) as T.
    destruct (transcript_field 192 tiny_cd (pr t) (map rep h) vd P _ HP (tiny_transcript t) T) as (c & alpha & betas & pow & indices & EC & _).
    assert (ZC : c_zeta c = zeta_of st).
    { pose proof (f_equal PlonkZeta EC) as X. unfold ch_of, repC in X. cbn [PlonkZeta] in X. rewrite <- E3 in X. unfold lanes, toQE in X. cbn [firstn nth] in X.
      rewrite <- (injK_repK (c_zeta c)). rewrite <- X. reflexivity. }
    assert (LI : length indices = 0%nat).
    { pose proof (f_equal (fun ch => FriQueryIndices (pc_FriChallenges ch)) EC) as X. unfold ch_of, repC, fc_of in X. cbn [pc_FriChallenges FriQueryIndices] in X.
      apply (f_equal (@length Z)) in X. rewrite !map_length in X. rewrite <- X. destruct x5 as [|? [|? ?]]; try discriminate L5. reflexivity. }
    rewrite EC in T. exists h, c, alpha, betas, pow, indices. split; [|split; [exact T|split]].
    - destruct HP as [->| ->]; [apply sponge_graph_is|]. apply (sponge_mono pgraph); [apply pgraph_sub; lia|apply sponge_graph_is].
    - apply tiny_plonk. rewrite ZC. auto.
    - apply length_zero_iff_nil in LI. subst indices. unfold fri_ok, fri_shape. cbn [pr tiny_proof OpeningProof CommitPhaseMerkleCaps QueryRoundProofs FinalPoly].
      split; [split; [constructor|split; [constructor|split; [cbn; lia|reflexivity]]]|].
      split; [cbn; lia|]. split; [pose proof (rep_lt_64 pow) as R; cbn [fp_Config cd_FriParams tiny_cd tiny_fri ProofOfWorkBits]; apply R|].
      split; [reflexivity|]. split; [reflexivity|]. constructor.
  Qed.
  Lemma tiny_rejects st t y1 y2 t' yss2 : phases pgraph (tp t) zeros12 ([y1; y2] ++ lanes 2 st t' :: yss2) ->
    accepts tiny_cd [NoopGate] (pr t) pis vd pgraph -> zeta_of st <> k1 /\ ((zeta_of st - k1) * t)%K = k1.
  Proof.
    intros H (A1 & A2 & h' & c & alpha & betas & pow & indices & B1 & B2 & B3 & _). apply sponge_graph in B1. fold h in B1. subst h'.
    apply tiny_plonk in B3.
    destruct (transcript_split pgraph 1 0 _ _ _ _ okP_pgraph (tiny_transcript t) H) as (x1 & x2 & x3 & x4 & bs & x5 & Ey & Lb & _).
    cbn [app] in Ey. assert (E3 : lanes 2 st t' = x3) by exact (f_equal (fun l => hd [] (tl (tl l))) Ey).
    pose proof H as G. cbn [app] in G. rewrite Ey in G.
    pose proof (gives_ch tiny_cd (pr t) (map rep h) vd pgraph x1 x2 x3 x4 bs x5 Lb G) as T.
    assert (ok : transcript_ok digest (map rep h) (pr t)) by exact (ok_transcript (pr t) pis vd (tiny_native t) h (tiny_canon t)).
    destruct (C28_transcript_honest 192 tiny_cd (pr t) (map rep h) vd ltac:(lia) ok (tiny_transcript t)) as (ch & _ & U).
    apply U in T. apply U in B2. rewrite <- B2 in T.
    assert (ZC : c_zeta c = zeta_of st).
    { pose proof (f_equal PlonkZeta T) as X. unfold ch_of, repC in X. cbn [PlonkZeta] in X. rewrite <- E3 in X. unfold lanes, toQE in X. cbn [firstn nth] in X.
      rewrite <- (injK_repK (c_zeta c)). rewrite <- X. reflexivity. }
    rewrite ZC in B3. exact B3.
  Qed.
End Tiny.

Lemma zeta_of_inj s s' : zeta_of s = zeta_of s' -> nth 7 s g0 = nth 7 s' g0.
Proof.
  unfold zeta_of. generalize (nth 7 s g0) (nth 6 s g0) (nth 7 s' g0) (nth 6 s' g0). intros a b c d E.
  apply (f_equal repK) in E. rewrite !repK_injK in E by (split; apply rep_range). apply (f_equal fst) in E. cbn [fst] in E. now apply GF_eq.
Qed.

(** Whatever the circuit digest, the caps and the public inputs: there is a proof with these caps
    that satisfies the circuit and that plonky2's relation rejects. *)
Theorem C52_forgery : forall orders wc zc qc sc digest pis, (forall i, Permutation (orders i) gateRegexHandlers) ->
  Forall inr_ wc -> Forall inr_ zc -> Forall inr_ qc -> inr_ digest -> Forall (fun x => 0 <= x < 2 ^ 144 * p) pis -> zc <> [] -> qc <> [] ->
  exists pr, let vd := mkVerifierOnlyCircuitData sc digest in
    WiresCap pr = wc /\ PlonkZsPartialProductsCap pr = zc /\ QuotientPolysCap pr = qc /\
    proof_shape tiny_cd [NoopGate] pr /\ native pr pis vd /\
    sat (Define orders 192 tiny_cd pr pis vd) /\ ~ accepts tiny_cd [NoopGate] pr pis vd pgraph.
Proof.
  intros orders wc zc qc sc digest pis HO Hw Hz Hq Hd Hp Nz Nq.
  set (h := sponge g0 poseidon (map inj pis) 4).
  destruct (phases_forge_at (cap_elems qc) 2 (caps_nonempty _ Nq) ltac:(lia)
    [(digits56 digest ++ map rep h ++ cap_elems wc, 2%nat); (cap_elems zc, 1%nat)] zeros12 eq_refl) as (yss1 & a & L & H & F).
  destruct yss1 as [|y1 [|y2 [|? ?]]]; try discriminate L.
  assert (D : forall j k, 0 <= j <= 5 -> 0 <= k <= 5 -> j <> k -> zeta_of (forge a (digit j)) <> zeta_of (forge a (digit k))).
  { intros j k Hj Hk N E. exact (forge_differs a j k 7 Hj Hk N ltac:(lia) (zeta_of_inj _ _ E)). }
  assert (C : exists k, 1 <= k <= 5 /\ zeta_of (forge a (digit k)) <> k1).
  { assert (DK : forall x y : K, {x = y} + {x <> y}).
    { intros x y. destruct (GF_dec (fst x) (fst y)) as [E1|E1]; [destruct (GF_dec (snd x) (snd y)) as [E2|E2]|]; [left; now apply K_eq|right; congruence|right; congruence]. }
    destruct (DK (zeta_of (forge a (digit 1))) k1) as [E|E]; [|exists 1; split; [lia|exact E]].
    exists 2. split; [lia|]. intros E2. apply (D 1 2 ltac:(lia) ltac:(lia) ltac:(lia)). congruence. }
  destruct C as (k & Hk & N). set (z := zeta_of (forge a (digit k))) in *.
  assert (ND : (z - k1)%K <> k0) by (intros X; apply N; transitivity ((z - k1) + k1)%K; [ring|rewrite X; ring]).
  set (t := kinv (z - k1)%K). assert (T : ((z - k1) * t)%K = k1) by (transitivity (t * (z - k1))%K; [ring|exact (kinv_l _ ND)]). clearbody t.
  exists (tiny_proof wc zc qc t). cbv zeta. repeat (split; [reflexivity|]).
  pose proof (tiny_shape wc zc qc Nz Nq t) as SH. pose proof (tiny_native wc zc qc sc digest pis Hw Hz Hq Hd Hp t) as NA.
  split; [exact SH|]. split; [exact NA|]. split.
  - apply (C52_exact orders tiny_cd [NoopGate] _ pis _ HO tiny_text tiny_circuit SH NA).
    destruct (F [(openings_elems (Openings (tiny_proof wc zc qc t)), 2%nat); (flat_map qe_list (FinalPoly (OpeningProof (tiny_proof wc zc qc t))) ++ [PowWitness (OpeningProof (tiny_proof wc zc qc t))], 1%nat)]
        (digit k) (digit_ok k ltac:(lia))) as (t' & yss2 & H1).
    exact (tiny_accepts wc zc qc sc digest pis Hp Nz Nq (permw 192) (forge a (digit k)) t y1 y2 t' yss2 (or_intror eq_refl) H1 N T).
  - intros A.
    destruct (H [(openings_elems (Openings (tiny_proof wc zc qc t)), 2%nat); (flat_map qe_list (FinalPoly (OpeningProof (tiny_proof wc zc qc t))) ++ [PowWitness (OpeningProof (tiny_proof wc zc qc t))], 1%nat)])
      as (t' & yss2 & H1).
    destruct (tiny_rejects wc zc qc sc digest pis Hw Hz Hq Hd Hp Nz Nq (poseidon a) t y1 y2 t' yss2 H1 A) as [_ X].
    apply (D k 0 ltac:(lia) ltac:(lia) ltac:(lia)). rewrite forge0. fold z.
    set (z0 := zeta_of (poseidon a)) in *.
    assert (E1 : (z - k1)%K = ((z - k1) * ((z0 - k1) * t))%K) by (rewrite X; ring).
    assert (E2 : ((z - k1) * ((z0 - k1) * t))%K = (((z - k1) * t) * (z0 - k1))%K) by ring.
    rewrite E2, T in E1. transitivity ((z - k1) + k1)%K; [ring|]. rewrite E1. ring.
Qed.
Print Assumptions C52_forgery.
(** the full statement of C52 fails at the width of the code *)
Theorem C52_verify_refuted : exists orders cd gates pr pis vd,
  (forall i, Permutation (orders i) gateRegexHandlers) /\ Forall2 gate_text gates (map str (GateIds cd)) /\
  circuit_shape cd gates /\ proof_shape cd gates pr /\ native pr pis vd /\
  sat (Define orders 192 cd pr pis vd) /\ ~ accepts cd gates pr pis vd pgraph.
Proof.
  assert (O : Forall inr_ [0]) by (constructor; [split; [lia|reflexivity]|constructor]).
  assert (D : inr_ 0) by (split; [lia|reflexivity]).
  destruct (C52_forgery (fun _ => gateRegexHandlers) [0] [0] [0] [] 0 []) as (pr & _ & _ & _ & H1 & H2 & H3 & H4);
    [intros _; apply Permutation_refl|exact O|exact O|exact O|exact D|constructor|discriminate|discriminate|].
  exists (fun _ => gateRegexHandlers), tiny_cd, [NoopGate], pr, [], (mkVerifierOnlyCircuitData [] 0).
  split; [intros _; apply Permutation_refl|]. split; [exact tiny_text|]. split; [exact tiny_circuit|]. auto.
Qed.
Print Assumptions C52_verify_refuted.

(** a proof that meets all hypotheses of C52 and is accepted: the transcript is computed *)
Definition ex_state : list GF :=
  absorb_fn poseidon (map inj (cap_elems [0]))
    (absorb_fn poseidon (map inj (cap_elems [0]))
      (absorb_fn poseidon (map inj (digits56 0 ++ map rep (sponge g0 poseidon [] 4) ++ cap_elems [])) zeros12)).
Lemma ex_zeta : zeta_of ex_state <> k1.
Proof.
  assert (E : rep (snd (zeta_of ex_state)) = 0 -> False); [|intros X; rewrite X in E; now apply E].
  vm_compute. discriminate.
Qed.
Lemma absorb_fn_rel x s : absorb_rel pgraph x s (absorb_fn poseidon x s).
Proof. unfold absorb_rel, absorb_fn. revert s. induction (chunks 8 x) as [|c l IH]; intros s; cbn [chainR fold_left]; [reflexivity|]. eexists. split; [reflexivity|apply IH]. Qed.
Lemma phase_fn xs m s : (1 <= m <= 8)%nat ->
  phase pgraph xs m s (firstn m (rev (firstn 8 (absorb_fn poseidon (map inj xs) s)))) (absorb_fn poseidon (map inj xs) s).
Proof.
  intros Hm. exists (absorb_fn poseidon (map inj xs) s), (rev (firstn 8 (absorb_fn poseidon (map inj xs) s))). split; [apply absorb_fn_rel|].
  rewrite Nat.div_small by lia. cbn [squeezeR]. auto.
Qed.
Lemma absorb_fn_len x s : length s = 12%nat -> length (absorb_fn poseidon x s) = 12%nat.
Proof. unfold absorb_fn. revert s. induction (chunks 8 x) as [|c l IH]; intros s Hs; cbn [fold_left]; [exact Hs|]. apply IH, poseidon_len. Qed.
Example C52_ex : exists t, let pr := tiny_proof [] [0] [0] t in let vd := mkVerifierOnlyCircuitData [] 0 in
  Forall2 gate_text [NoopGate] (map str (GateIds tiny_cd)) /\ circuit_shape tiny_cd [NoopGate] /\ proof_shape tiny_cd [NoopGate] pr /\ native pr [] vd /\
  accepts tiny_cd [NoopGate] pr [] vd pgraph /\ run (Define (fun _ => gateRegexHandlers) 192 tiny_cd pr [] vd) = Done tt.
Proof.
  pose proof ex_zeta as N. unfold ex_state in N.
  set (x1 := digits56 0 ++ map rep (sponge g0 poseidon [] 4) ++ cap_elems []) in *.
  set (s1 := absorb_fn poseidon (map inj x1) zeros12) in *.
  set (s2 := absorb_fn poseidon (map inj (cap_elems [0])) s1) in *.
  set (s3 := absorb_fn poseidon (map inj (cap_elems [0])) s2) in *.
  set (z := zeta_of s3) in *.
  assert (ND : (z - k1)%K <> k0) by (intros X; apply N; transitivity ((z - k1) + k1)%K; [ring|rewrite X; ring]).
  set (t := kinv (z - k1)%K). assert (T : ((z - k1) * t)%K = k1) by (transitivity (t * (z - k1))%K; [ring|exact (kinv_l _ ND)]). clearbody t.
  exists t. cbv zeta. split; [exact tiny_text|]. split; [exact tiny_circuit|].
  assert (O : Forall inr_ [0]) by (constructor; [split; [lia|reflexivity]|constructor]). assert (D : inr_ 0) by (split; [lia|reflexivity]).
  assert (P0 : Forall reducible []) by constructor. assert (W0 : Forall inr_ []) by constructor.
  assert (Nz : [0] <> []) by discriminate.
  pose proof (tiny_shape [] [0] [0] Nz Nz t) as SH. pose proof (tiny_native [] [0] [0] [] 0 [] W0 O O D P0 t) as NA.
  split; [exact SH|]. split; [exact NA|].
  assert (A : accepts tiny_cd [NoopGate] (tiny_proof [] [0] [0] t) [] (mkVerifierOnlyCircuitData [] 0) pgraph).
  { assert (L1 : length s1 = 12%nat) by (apply absorb_fn_len; reflexivity).
    assert (L2 : length s2 = 12%nat) by (apply absorb_fn_len; exact L1).
    assert (L3 : length s3 = 12%nat) by (apply absorb_fn_len; exact L2).
    destruct (rev8 s3 L3) as (t' & E).
    set (l2 := [(openings_elems (Openings (tiny_proof [] [0] [0] t)), 2%nat); (flat_map qe_list (FinalPoly (OpeningProof (tiny_proof [] [0] [0] t))) ++ [PowWitness (OpeningProof (tiny_proof [] [0] [0] t))], 1%nat)]).
    destruct (phases_total pgraph l2 okP_pgraph totalP_pg s3 L3) as (yss2 & Q).
    assert (H : phases pgraph ([(x1, 2%nat); (cap_elems [0], 1%nat); (cap_elems [0], 2%nat)] ++ l2) zeros12
                  ([firstn 2 (rev (firstn 8 s1)); firstn 1 (rev (firstn 8 s2))] ++ lanes 2 s3 t' :: yss2)).
    { cbn [app phases]. eexists _, s1, _. split; [apply phase_fn; lia|]. split; [|reflexivity].
      eexists _, s2, _. split; [apply phase_fn; lia|]. split; [|reflexivity].
      exists (lanes 2 s3 t'), s3, yss2. split; [|split; [exact Q|reflexivity]].
      pose proof (phase_fn (cap_elems [0]) 2 s2 ltac:(lia)) as P3. fold s3 in P3. rewrite E in P3. exact P3. }
    exact (tiny_accepts [] [0] [0] [] 0 [] P0 Nz Nz pgraph s3 t _ _ t' yss2 (or_introl eq_refl) H N T). }
  split; [exact A|].
  exact (proj2 (C52_honest (fun _ => gateRegexHandlers) tiny_cd [NoopGate] _ [] _ (fun _ => Permutation_refl _) tiny_text tiny_circuit SH NA) A).
Qed.
