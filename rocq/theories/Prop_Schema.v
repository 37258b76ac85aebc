(** * Property C72: what the example circuit proves.

    ExampleVerifierCircuit (verifier/util.go:10-17) tags the proof and the verifier data with
    [gnark:"-"].  So the only variables of the compiled circuit are the public inputs; the proof
    is a constant of the circuit, and the proof in the assignment of the prover is not looked at. *)
From Coq Require Import String.
From Coq Require Import ZArith NArith Lia List Bool Permutation.
From Verif Require Import Zp GF Circuit Goldilocks GLProofs ExtProofs PoseidonSpec PoseidonGL PoseidonGLProofs Sponge DenP BN254 BN254Hash
  Types Challenger ChallengerProofs ChallengerPhases Transcript ChallengerTop Prop_Challenger Roots Fri FriMerkle FriEval FriQuery FriTop Prop_Fri
  Gates GateProofs GateFilter GateAll Prop_Gates Plonk PlonkProofs Prop_Plonk GateIds GateIdProofs GateIdText Verifier VerifierProofs Prop_Poseidon
  Prop_Verifier Malleable Prop_Malleable Prop_Forgery Schema SchemaProofs.
Import ListNotations.
Open Scope Z_scope.

(** ** The Go values determine the struct *)
Lemma of_list_inj {A D} (f : A -> node D) : (forall a b, f a = f b -> a = b) -> forall l l', of_list f l = of_list f l' -> l = l'.
Proof.
  intros F l l' E. unfold of_list in E. injection E as E. revert l' E. induction l as [|a l IH]; intros [|b l'] E; try discriminate E; [reflexivity|].
  cbn [map] in E. injection E as E1 E2. f_equal; auto.
Qed.
Section Inj.
  Context {D : Type}.
  Lemma gl_inj a b : of_gl (D := D) a = of_gl b -> a = b.
  Proof. now intros [=]. Qed.
  Lemma bn_inj a b : of_bn254 (D := D) a = of_bn254 b -> a = b.
  Proof. now intros [=]. Qed.
  Lemma qe_inj a b : of_qe (D := D) a = of_qe b -> a = b.
  Proof. destruct a, b. unfold of_qe, of_gl. cbn [fst snd]. now intros [= -> ->]. Qed.
  Lemma cap_inj a b : of_cap (D := D) a = of_cap b -> a = b.
  Proof. apply of_list_inj. exact bn_inj. Qed.
  Lemma merkle_inj a b : of_merkle (D := D) a = of_merkle b -> a = b.
  Proof. intros E. apply (of_list_inj _ (bn_inj)). unfold of_merkle in E. exact (f_equal (fun n => match n with Struct [(_, m)] => m | _ => n end) E). Qed.
  Definition field (k : nat) (n : node D) : node D := match n with Struct l => snd (nth k l (NoTag, n)) | _ => n end.
  Lemma eval_inj a b : of_eval (D := D) a = of_eval b -> a = b.
  Proof.
    destruct a as [a1 a2], b as [b1 b2]. intros E. f_equal.
    - exact (of_list_inj _ gl_inj _ _ (f_equal (field 0) E)).
    - exact (merkle_inj _ _ (f_equal (field 1) E)).
  Qed.
  Lemma step_inj a b : of_step (D := D) a = of_step b -> a = b.
  Proof.
    destruct a as [a1 a2], b as [b1 b2]. intros E. f_equal.
    - exact (of_list_inj _ qe_inj _ _ (f_equal (field 0) E)).
    - exact (merkle_inj _ _ (f_equal (field 1) E)).
  Qed.
  Lemma round_inj a b : of_round (D := D) a = of_round b -> a = b.
  Proof.
    destruct a as [a1 a2], b as [b1 b2]. intros E. f_equal.
    - exact (of_list_inj _ eval_inj _ _ (f_equal (fun n => field 0 (field 0 n)) E)).
    - exact (of_list_inj _ step_inj _ _ (f_equal (field 1) E)).
  Qed.
  Lemma fri_inj a b : of_fri (D := D) a = of_fri b -> a = b.
  Proof.
    destruct a as [a1 a2 a3 a4], b as [b1 b2 b3 b4]. intros E. f_equal.
    - exact (of_list_inj _ cap_inj _ _ (f_equal (field 0) E)).
    - exact (of_list_inj _ round_inj _ _ (f_equal (field 1) E)).
    - exact (of_list_inj _ qe_inj _ _ (f_equal (fun n => field 0 (field 2 n)) E)).
    - exact (gl_inj _ _ (f_equal (field 3) E)).
  Qed.
  Lemma openings_inj a b : of_openings (D := D) a = of_openings b -> a = b.
  Proof.
    destruct a as [a1 a2 a3 a4 a5 a6 a7], b as [b1 b2 b3 b4 b5 b6 b7]. intros E.
    f_equal; [exact (of_list_inj _ qe_inj _ _ (f_equal (field 0) E))|exact (of_list_inj _ qe_inj _ _ (f_equal (field 1) E))|exact (of_list_inj _ qe_inj _ _ (f_equal (field 2) E))|
      exact (of_list_inj _ qe_inj _ _ (f_equal (field 3) E))|exact (of_list_inj _ qe_inj _ _ (f_equal (field 4) E))|exact (of_list_inj _ qe_inj _ _ (f_equal (field 5) E))|exact (of_list_inj _ qe_inj _ _ (f_equal (field 6) E))].
  Qed.
  Lemma proof_inj a b : of_proof (D := D) a = of_proof b -> a = b.
  Proof.
    destruct a as [a1 a2 a3 a4 a5], b as [b1 b2 b3 b4 b5]. intros E.
    f_equal; [exact (cap_inj _ _ (f_equal (field 0) E))|exact (cap_inj _ _ (f_equal (field 1) E))|exact (cap_inj _ _ (f_equal (field 2) E))|exact (openings_inj _ _ (f_equal (field 3) E))|exact (fri_inj _ _ (f_equal (field 4) E))].
  Qed.
  Lemma vd_inj a b : of_vd (D := D) a = of_vd b -> a = b.
  Proof. destruct a as [a1 a2], b as [b1 b2]. intros E. f_equal; [exact (cap_inj _ _ (f_equal (field 0) E))|exact (bn_inj _ _ (f_equal (field 1) E))]. Qed.
End Inj.
Lemma example_inj t t' a b : of_example t t' a = of_example t t' b -> a = b.
Proof.
  destruct a as [a1 a2 a3 a4], b as [b1 b2 b3 b4]. intros E.
  f_equal; [exact (of_list_inj _ gl_inj _ _ (f_equal (field 0) E))|exact (proof_inj _ _ (f_equal (field 1) E))|exact (vd_inj _ _ (f_equal (field 2) E))|].
  apply (f_equal (field 3)) in E. cbn in E. now injection E.
Qed.

Lemma Some_inj {A} (a b : A) : Some a = Some b -> a = b.
Proof. congruence. Qed.

(** ** The public inputs in the walk *)
Lemma gls_leaves {D} u l : leaves (D := D) u (of_list of_gl l) = map (fun x => (match u with Unset => Secret | _ => u end, x)) l.
Proof. unfold of_list. cbn [leaves]. induction l as [|a l IH]; [reflexivity|]. cbn [map flat_map]. rewrite IH. now destruct u. Qed.
Lemma only_all v u l : only v (map (fun x => (u, x)) l) = if eqv u v then l else [].
Proof. unfold only. destruct (eqv u v) eqn:E; induction l as [|a l IH]; try reflexivity; cbn [map filter fst]; rewrite E; cbn [map snd]; now rewrite IH. Qed.

(** ** C72: the public witness is the list of public inputs, the secret witness is empty *)
Theorem C72_variables : forall c, NewWitness (tagged c) = (ex_PublicInputs c, []).
Proof.
  intros c. unfold NewWitness. rewrite !values_leaves. unfold tagged, of_example. cbn [leaves flat_map fst snd].
  rewrite gls_leaves, !app_nil_r, !only_all. reflexivity.
Qed.
Print Assumptions C72_variables.
Definition with_inputs (c : ExampleVerifierCircuit) (ps : list Z) : ExampleVerifierCircuit := mkExample ps (ex_Proof c) (ex_Vd c) (ex_CommonData c).
Lemma assign_gls {D} l : forall ps, Walk (D := D) (assign Public) Public (of_list of_gl l) ps =
  if Nat.leb (length l) (length ps) then Some (of_list of_gl (firstn (length l) ps), skipn (length l) ps) else None.
Proof.
  intros ps. unfold of_list. cbn [Walk].
  assert (E : walk_list (Walk (D := D) (assign Public) Public) (map of_gl l) ps = if Nat.leb (length l) (length ps) then Some (map of_gl (firstn (length l) ps), skipn (length l) ps) else None).
  { revert ps. induction l as [|a l IH]; intros ps; [reflexivity|]. cbn [map]. rewrite walk_cons. destruct ps as [|y ps]; [reflexivity|].
    change (Walk (D := D) (assign Public) Public (of_gl a) (y :: ps)) with (Some (of_gl (D := D) y, ps)). cbv beta iota. rewrite IH. cbn [length Nat.leb firstn skipn map]. now destruct (Nat.leb (length l) (length ps)). }
  rewrite E. now destruct (Nat.leb _ _).
Qed.
Lemma keep_gls {D} l : forall ss, Walk (D := D) (assign Secret) Public (of_list of_gl l) ss = Some (of_list of_gl l, ss).
Proof.
  intros ss. unfold of_list. cbn [Walk].
  assert (E : walk_list (Walk (D := D) (assign Secret) Public) (map of_gl l) ss = Some (map of_gl l, ss)); [|now rewrite E].
  induction l as [|a l IH]; [reflexivity|]. cbn [map]. rewrite walk_cons. change (Walk (D := D) (assign Secret) Public (of_gl a) ss) with (Some (of_gl (D := D) a, ss)). cbv beta iota. now rewrite IH.
Qed.
Lemma instantiate_tagged c ps ss : instantiate (tagged c) (ps, ss) =
  if Nat.eqb (length ps) (length (ex_PublicInputs c)) && Nat.eqb (length ss) 0 then Some (tagged (with_inputs c ps)) else None.
Proof.
  unfold instantiate, tagged, of_example. cbn [fst snd Walk]. rewrite !walk_cons, assign_gls.
  destruct (Nat.leb_spec (length (ex_PublicInputs c)) (length ps)) as [L|L].
  - rewrite !walk_cons. cbn [walk_list Walk]. destruct (skipn (length (ex_PublicInputs c)) ps) as [|y l] eqn:E.
    + apply (f_equal (@length Z)) in E. rewrite skipn_length in E. cbn in E. assert (LE : length ps = length (ex_PublicInputs c)) by lia. rewrite LE, Nat.eqb_refl.
      rewrite keep_gls. rewrite firstn_all2 by lia. destruct ss; reflexivity.
    + apply (f_equal (@length Z)) in E. rewrite skipn_length in E. cbn in E. destruct (Nat.eqb_spec (length ps) (length (ex_PublicInputs c))) as [X|X]; [lia|]. reflexivity.
  - destruct (Nat.eqb_spec (length ps) (length (ex_PublicInputs c))) as [X|X]; [lia|]. reflexivity.
Qed.
(** a witness satisfies the compiled circuit exactly if it has the number of public inputs of the circuit
    and the verifier accepts them with the proof and the verifier data of the circuit *)
Theorem C72_compiled : forall orders c ps ss,
  (satisfied tagged orders c (ps, ss) <->
   length ps = length (ex_PublicInputs c) /\ ss = [] /\ sat (Define orders 192 (ex_CommonData c) (ex_Proof c) ps (ex_Vd c))) /\
  (solved tagged orders c (ps, ss) <->
   length ps = length (ex_PublicInputs c) /\ ss = [] /\ run (Define orders 192 (ex_CommonData c) (ex_Proof c) ps (ex_Vd c)) = Done tt).
Proof.
  intros orders c ps ss. unfold satisfied, solved. rewrite instantiate_tagged.
  destruct (Nat.eqb_spec (length ps) (length (ex_PublicInputs c))) as [L|L]; cbn [andb].
  - destruct ss as [|s ss]; cbn [length Nat.eqb].
    + assert (I : forall c', Some (tagged (with_inputs c ps)) = Some (tagged c') -> c' = with_inputs c ps) by (intros c' E; symmetry; exact (example_inj Omit Omit _ _ (Some_inj _ _ E))).
      split; split.
      * intros (c' & E & S). apply I in E. subst c'. auto.
      * intros (_ & _ & S). exists (with_inputs c ps). auto.
      * intros (c' & E & S). apply I in E. subst c'. auto.
      * intros (_ & _ & S). exists (with_inputs c ps). auto.
    + split; split; [intros (? & ? & _)|intros (_ & ? & _)|intros (? & ? & _)|intros (_ & ? & _)]; discriminate.
  - split; split; [intros (? & ? & _); discriminate|intros (? & _); contradiction|intros (? & ? & _); discriminate|intros (? & _); contradiction].
Qed.
Print Assumptions C72_compiled.
(** so nothing but the public inputs of the assignment matters *)
Theorem C72_ignored : forall orders c a a', ex_PublicInputs a = ex_PublicInputs a' ->
  (satisfied tagged orders c (NewWitness (tagged a)) <-> satisfied tagged orders c (NewWitness (tagged a'))) /\
  (solved tagged orders c (NewWitness (tagged a)) <-> solved tagged orders c (NewWitness (tagged a'))).
Proof. intros orders c a a' E. rewrite !C72_variables, E. split; reflexivity. Qed.
Print Assumptions C72_ignored.
(** in the other direction: no witness can make the circuit use other verifier data *)
Theorem C72_key_fixed : forall orders c a, satisfied tagged orders c (NewWitness (tagged a)) ->
  exists proof, sat (Define orders 192 (ex_CommonData c) proof (ex_PublicInputs a) (ex_Vd c)).
Proof. intros orders c a H. rewrite C72_variables in H. apply C72_compiled in H. destruct H as (_ & _ & H). eauto. Qed.
Print Assumptions C72_key_fixed.

(** ** Without the two tags the circuit would check the proof and the data of the assignment,
    if they have the shape of those the circuit was compiled with *)
Definition same_shape (c a : ExampleVerifierCircuit) : Prop := erase (of_example NoTag NoTag c) = erase (of_example NoTag NoTag a).
Theorem C72_untagged : forall orders c a, same_shape c a ->
  (satisfied (of_example NoTag NoTag) orders c (NewWitness (of_example NoTag NoTag a)) <-> sat (Define orders 192 (ex_CommonData c) (ex_Proof a) (ex_PublicInputs a) (ex_Vd a))) /\
  (solved (of_example NoTag NoTag) orders c (NewWitness (of_example NoTag NoTag a)) <-> run (Define orders 192 (ex_CommonData c) (ex_Proof a) (ex_PublicInputs a) (ex_Vd a)) = Done tt).
Proof.
  intros orders c a S. set (m := mkExample (ex_PublicInputs a) (ex_Proof a) (ex_Vd a) (ex_CommonData c)).
  assert (M : instantiate (of_example NoTag NoTag c) (NewWitness (of_example NoTag NoTag a)) = Some (of_example NoTag NoTag m)).
  { apply instantiate_merge. pose proof (f_equal (field 0) S) as S1. pose proof (f_equal (field 1) S) as S2. pose proof (f_equal (field 2) S) as S3. subst m. unfold of_example. cbn [ex_PublicInputs ex_Proof ex_Vd ex_CommonData].
    assert (ND : forall v, Vis v <> Omit) by discriminate. assert (NN : NoTag <> Omit) by discriminate.
    constructor. constructor; [exact (ND Public)| |].
    - apply same_merges; [exact S1|apply plain_gls].
    - constructor; [exact NN|apply same_merges; [exact S2|apply plain_proof]|]. constructor; [exact NN|apply same_merges; [exact S3|apply plain_vd]|].
      constructor; [exact NN|constructor|constructor]. }
  unfold satisfied, solved. rewrite M.
  assert (I : forall c', Some (of_example NoTag NoTag m) = Some (of_example NoTag NoTag c') -> c' = m) by (intros c' E; symmetry; exact (example_inj NoTag NoTag _ _ (Some_inj _ _ E))).
  split; split.
  - intros (c' & E & H). apply I in E. subst c'. exact H.
  - intros H. exists m. auto.
  - intros (c' & E & H). apply I in E. subst c'. exact H.
  - intros H. exists m. auto.
Qed.
Print Assumptions C72_untagged.

(** ** A circuit compiled with one proof cannot be used for another one *)
(** the state of the transcript before zeta is drawn, for the tiny proofs of Prop_Forgery.v *)
Definition tiny_state (pis : list Z) : list GF :=
  absorb_fn poseidon (map inj (cap_elems [0]))
    (absorb_fn poseidon (map inj (cap_elems [0]))
      (absorb_fn poseidon (map inj (digits56 0 ++ map rep (sponge g0 poseidon (map inj pis) 4) ++ cap_elems [])) zeros12)).
Lemma tiny_run pis t : Forall reducible pis ->
  (run (Define (fun _ => gateRegexHandlers) 192 tiny_cd (tiny_proof [] [0] [0] t) pis (mkVerifierOnlyCircuitData [] 0)) = Done tt <->
   zeta_of (tiny_state pis) <> k1 /\ ((zeta_of (tiny_state pis) - k1) * t)%K = k1).
Proof.
  intros P0. unfold tiny_state.
  set (x1 := digits56 0 ++ map rep (sponge g0 poseidon (map inj pis) 4) ++ cap_elems []).
  set (s1 := absorb_fn poseidon (map inj x1) zeros12).
  set (s2 := absorb_fn poseidon (map inj (cap_elems [0])) s1).
  set (s3 := absorb_fn poseidon (map inj (cap_elems [0])) s2).
  assert (O : Forall inr_ [0]) by (constructor; [split; [lia|reflexivity]|constructor]). assert (D : inr_ 0) by (split; [lia|reflexivity]).
  assert (W0 : Forall inr_ []) by constructor. assert (Nz : [0] <> []) by discriminate.
  pose proof (tiny_shape [] [0] [0] Nz Nz t) as SH. pose proof (tiny_native [] [0] [0] [] 0 pis W0 O O D P0 t) as NA.
  rewrite (C52_honest (fun _ => gateRegexHandlers) tiny_cd [NoopGate] _ pis _ (fun _ => Permutation_refl _) tiny_text tiny_circuit SH NA).
  assert (L1 : length s1 = 12%nat) by (apply absorb_fn_len; reflexivity).
  assert (L2 : length s2 = 12%nat) by (apply absorb_fn_len; exact L1).
  assert (L3 : length s3 = 12%nat) by (apply absorb_fn_len; exact L2).
  destruct (rev8 s3 L3) as (t' & E).
  set (l2 := [(openings_elems (Openings (tiny_proof [] [0] [0] t)), 2%nat); (flat_map qe_list (FinalPoly (OpeningProof (tiny_proof [] [0] [0] t))) ++ [PowWitness (OpeningProof (tiny_proof [] [0] [0] t))], 1%nat)]).
  destruct (phases_total pgraph l2 okP_pgraph totalP_pg s3 L3) as (yss2 & Q).
  assert (H : phases pgraph ([(x1, 2%nat); (cap_elems [0], 1%nat); (cap_elems [0], 2%nat)] ++ l2) zeros12
                ([firstn 2 (rev (firstn 8 s1)); firstn 1 (rev (firstn 8 s2))] ++ lanes 2 s3 t' :: yss2)).
  { cbn [app phases]. eexists _, s1, _. split; [apply phase_fn; lia|]. split; [|reflexivity].
    eexists _, s2, _. split; [apply phase_fn; lia|]. split; [|reflexivity].
    exists (lanes 2 s3 t'), s3, yss2. split; [|split; [exact Q|reflexivity]].
    pose proof (phase_fn (cap_elems [0]) 2 s2 ltac:(lia)) as P3. fold s3 in P3. rewrite E in P3. exact P3. }
  split.
  - intros A. exact (tiny_rejects [] [0] [0] [] 0 pis W0 O O D P0 Nz Nz s3 t _ _ t' yss2 H A).
  - intros [N T]. exact (tiny_accepts [] [0] [0] [] 0 pis P0 Nz Nz pgraph s3 t _ _ t' yss2 (or_introl eq_refl) H N T).
Qed.
Definition different72 (a b : Z) : bool := negb (a =? 0) && negb (b =? 0) && negb (a =? b).
Lemma compute72 : different72 (rep (snd (zeta_of (tiny_state [1])))) (rep (snd (zeta_of (tiny_state [2])))) = true.
Proof. vm_compute. reflexivity. Qed.
Lemma zetas72 : let z i := repK (zeta_of (tiny_state [i])) in snd (z 1) <> 0 /\ snd (z 2) <> 0 /\ snd (z 1) <> snd (z 2).
Proof.
  pose proof compute72 as H. cbv zeta. unfold repK. cbn [snd]. revert H. generalize (rep (snd (zeta_of (tiny_state [1])))) (rep (snd (zeta_of (tiny_state [2])))).
  intros a b H. unfold different72 in H. apply andb_prop in H. destruct H as [H H3]. apply andb_prop in H. destruct H as [H1 H2].
  apply negb_true_iff, Z.eqb_neq in H1, H2, H3. auto.
Qed.
Lemma same_inverse u v t : ((u - k1) * t)%K = k1 -> ((v - k1) * t)%K = k1 -> u = v.
Proof.
  intros Hu Hv. assert (E : (u - k1)%K = (v - k1)%K).
  { transitivity ((u - k1) * ((v - k1) * t))%K; [rewrite Hv; ring|]. transitivity (((u - k1) * t) * (v - k1))%K; [ring|rewrite Hu; ring]. }
  transitivity ((u - k1) + k1)%K; [ring|]. rewrite E. ring.
Qed.
Definition example72 (t : K) (pis : list Z) : ExampleVerifierCircuit := mkExample pis (tiny_proof [] [0] [0] t) (mkVerifierOnlyCircuitData [] 0) tiny_cd.
(** two assignments for the same common data and the same verifier data; the verifier accepts both proofs
    with their public inputs; the circuit compiled with the first cannot be solved for the second *)
Theorem C72_refuted : exists orders c a, (forall i, Permutation (orders i) gateRegexHandlers) /\
  ex_CommonData c = ex_CommonData a /\ ex_Vd c = ex_Vd a /\ same_shape c a /\
  run (define orders c) = Done tt /\ run (define orders a) = Done tt /\
  solved tagged orders c (NewWitness (tagged c)) /\ ~ solved tagged orders c (NewWitness (tagged a)).
Proof.
  destruct zetas72 as (N1 & N2 & N). set (z := fun i => zeta_of (tiny_state [i])) in *.
  assert (Z : forall i, snd (repK (z i)) <> 0 -> exists t, z i <> k1 /\ ((z i - k1) * t)%K = k1).
  { intros i Ni. assert (NK : z i <> k1) by (intros E; apply Ni; now rewrite E).
    assert (ND : (z i - k1)%K <> k0) by (intros X; apply NK; transitivity ((z i - k1) + k1)%K; [ring|rewrite X; ring]).
    exists (kinv (z i - k1)%K). split; [exact NK|]. transitivity (kinv (z i - k1) * (z i - k1))%K; [ring|exact (kinv_l _ ND)]. }
  destruct (Z 1 N1) as (t1 & K1 & T1). destruct (Z 2 N2) as (t2 & K2 & T2). clear Z.
  assert (R : forall i, 0 <= i <= 2 -> Forall reducible [i]).
  { intros i Hi. constructor; [|constructor]. split; [lia|]. apply Z.le_lt_trans with 2; [lia|reflexivity]. }
  exists (fun _ => gateRegexHandlers), (example72 t1 [1]), (example72 t2 [2]).
  split; [intros _; apply Permutation_refl|]. split; [reflexivity|]. split; [reflexivity|]. split; [reflexivity|].
  assert (R1 : run (define (fun _ => gateRegexHandlers) (example72 t1 [1])) = Done tt) by (apply (proj2 (tiny_run [1] t1 (R 1 ltac:(lia)))); split; [exact K1|exact T1]).
  assert (R2 : run (define (fun _ => gateRegexHandlers) (example72 t2 [2])) = Done tt) by (apply (proj2 (tiny_run [2] t2 (R 2 ltac:(lia)))); split; [exact K2|exact T2]).
  split; [exact R1|]. split; [exact R2|]. rewrite !C72_variables. split.
  - apply C72_compiled. split; [reflexivity|]. split; [reflexivity|]. exact R1.
  - intros S. apply C72_compiled in S. destruct S as (_ & _ & S). apply (proj1 (tiny_run [2] t1 (R 2 ltac:(lia)))) in S. destruct S as [_ T]. fold (z 2) in T.
    apply N. apply (f_equal (fun x : K => snd (repK x))). change (z 1 = z 2).
    exact (same_inverse _ _ _ T1 T).
Qed.
Print Assumptions C72_refuted.
(** and with every assignment that it can be solved with it can be solved with one whose proof nobody accepts *)
Theorem C72_any_proof_refuted : forall orders c a, solved tagged orders c (NewWitness (tagged a)) ->
  exists a', ex_PublicInputs a' = ex_PublicInputs a /\ same_shape a a' /\ solved tagged orders c (NewWitness (tagged a')) /\ ~ sat (define orders a').
Proof.
  intros orders c a S. destruct a as [pis [wc zc qc o [cc qr fp pw]] vd cd].
  set (a' := mkExample pis (mkProof wc zc qc o (mkFriProof cc qr fp p)) vd cd).
  exists a'. split; [reflexivity|]. split; [reflexivity|]. split; [apply (proj2 (C72_ignored orders c (mkExample pis (mkProof wc zc qc o (mkFriProof cc qr fp pw)) vd cd) a' eq_refl)); exact S|].
  intros [z R]. unfold define, Define in R. apply reach_bind in R. destruct R as (gates & _ & R).
  pose proof (C53_verify _ _ _ _ _ _ (ex_intro _ z R)) as (_ & _ & _ & X). unfold a' in X. cbn [ex_Proof OpeningProof PowWitness] in X. lia.
Qed.
Print Assumptions C72_any_proof_refuted.

(** ** Examples *)
(** the tags matter: without them everything is part of the witness, in the order of the fields *)
Example C72_ex : let c t := mkExample [5; 6] (mkProof [7] [8] [] (mkOpeningSet [(1, 2)] [] [] [] [] [] []) (mkFriProof [[9]] [] [(3, 4)] 10)) (mkVerifierOnlyCircuitData [11] t) tiny_cd in
  (NewWitness (tagged (c 12)) = ([5; 6], [])) /\ (NewWitness (of_example NoTag NoTag (c 12)) = ([5; 6], [7; 8; 1; 2; 9; 3; 4; 10; 11; 12])) /\
  (NewWitness (of_example (Vis Public) Omit (c 12)) = ([5; 6; 7; 8; 1; 2; 9; 3; 4; 10], [])) /\
  (instantiate (of_example NoTag NoTag (c 12)) ([5; 6], [7; 8; 1; 2; 9; 3; 4; 10; 11; 13]) = Some (of_example NoTag NoTag (c 13))) /\
  (instantiate (tagged (c 12)) ([5; 6], [13]) = None) /\ same_shape (c 12) (c 13).
Proof. repeat split. Qed.
