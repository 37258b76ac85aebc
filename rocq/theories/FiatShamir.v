(** * The challenges of the verifier from a random oracle: the tree of transcripts. *)
From Coq Require Import String.
From Coq Require Import ZArith NArith Arith Lia List Bool.
From Verif Require Import Zp GF Circuit Goldilocks GLProofs ExtProofs BN254 BN254Hash Types Challenger Fri Poly Roots FriMerkle FriEval FriQuery FriTop FriFacts Honest FriSound FriRewind FriExtract Prop_Fri
  Gates GateProofs GateFilter GateAll GateDegree Prop_Gates Plonk PlonkProofs Prop_Plonk PlonkSound PlonkRows PlonkCopy Prop_PlonkSound Verifier VerifierProofs VerifierSound Prop_VerifierSound FriForge Prop_FriSound Prop_FriQuery FriCurve FriProx FriError Game Prop_FriError VerifierError Prop_VerifierError Prop_VerifierPow RandomOracle.
Import ListNotations.
Open Scope Z_scope.
Local Opaque PoseidonBN HashOrNoop TwoToOne.

(** ** C80, from a tree of challenges
    [A alpha betas]: positions opened in runs won after these challenges. *)
Lemma fri_tree params oracles points openings initialCaps cap final ans (wins : list (K * list K * list Z))
    (As : list K) (B : K -> list K -> list K) (A : K -> list K -> list Z) (e : nat) :
  let n := LdeBits params in let k := length (ReductionArityBits params) in let T := length (flat_map snd points) in
  oracles <> [] -> Forall2 (fun b os => length os = length (snd b)) points openings ->
  (2 * e + 2 ^ fp_DegreeBits params < 2 ^ n)%nat ->
  (forall alpha betas positions, In (alpha, betas, positions) wins -> won params oracles points openings initialCaps cap final ans alpha betas positions) ->
  no_collision (fun a => exists alpha betas positions i round, In (alpha, betas, positions) wins /\ opens ans alpha betas positions i round /\
     In a (round_inputs round i)) ->
  NoDup As -> ((T - 1) * (2 ^ n * 2 ^ n) < length As)%nat ->
  (forall alpha pre, In alpha As -> (length pre < k)%nat -> in_tree (B alpha) [] pre ->
     NoDup (B alpha pre) /\ (15 * (2 ^ (n - 4 * Datatypes.S (length pre)) * 2 ^ (n - 4 * Datatypes.S (length pre))) < length (B alpha pre))%nat) ->
  (forall alpha betas, In alpha As -> length betas = k -> in_tree (B alpha) [] betas ->
     NoDup (A alpha betas) /\ (2 ^ n <= length (A alpha betas) + e)%nat /\ forall i, In i (A alpha betas) -> exists is, In (alpha, betas, is) wins /\ In i is) ->
  exists (F : nat * nat -> list GF) (G : list Z), NoDup G /\ Forall (fun i => 0 <= i < 2 ^ Z.of_nat n) G /\ (2 ^ n <= length G + e)%nat /\
    (forall i, In i G -> exists alpha betas positions round, In (alpha, betas, positions) wins /\ opens ans alpha betas positions i round) /\
    forall z polys os op o, In ((z, polys), os) (combine points openings) -> In (op, o) (combine polys os) ->
    (length (F op) <= 2 ^ fp_DegreeBits params + 1)%nat /\
    kpeval (map emb (F op)) z = o /\
    forall alpha betas positions i round, In (alpha, betas, positions) wins -> In i G -> opens ans alpha betas positions i round ->
      nth (snd op) (Elements (nth (fst op) (InitialTreesProof round) no_eval)) 0 = rep (gpeval (F op) (dom g7 n i)).
Proof.
  intros n k T Hor F2 He HW NC NDA LA HB HA.
  assert (Lp : length points = length openings) by (clear - F2; induction F2; cbn [length]; congruence).
  set (S := fun a => exists alpha betas positions i round, _) in NC.
  set (here := fun alpha betas i (w : K * list K * list Z) => (if K_eq_dec (fst (fst w)) alpha then true else false) && (if list_eq_dec K_eq_dec (snd (fst w)) betas then true else false) && member (snd w) i).
  set (round := fun alpha betas i =>
    match find (here alpha betas i) wins with
    | Some w => match find (fun ir : Z * FriQueryRound => fst ir =? i) (combine (snd w) (QueryRoundProofs (t_proof (ans alpha betas (snd w))))) with
                | Some ir => snd ir | None => no_round end
    | None => no_round end).
  assert (ROUND : forall alpha betas i is, In (alpha, betas, is) wins -> In i is -> exists is, In (alpha, betas, is) wins /\ opens ans alpha betas is i (round alpha betas i)).
  { intros alpha betas i is Hw Hi. unfold round. destruct (find _ wins) as [[[a b] y]|] eqn:Fi.
    2:{ exfalso. pose proof (find_none _ _ Fi _ Hw) as N. unfold here in N. cbn [fst snd] in N. apply member_in in Hi. rewrite Hi in N.
        destruct (K_eq_dec alpha alpha) as [_|X]; [|now apply X]. destruct (list_eq_dec K_eq_dec betas betas) as [_|X]; [discriminate N|now apply X]. }
    apply find_some in Fi. destruct Fi as [F1 E1]. unfold here in E1. cbn [fst snd] in *. destruct (K_eq_dec a alpha) as [->|]; [|discriminate E1]. destruct (list_eq_dec K_eq_dec b betas) as [->|]; [|discriminate E1].
    cbn [andb] in E1. apply member_in in E1. exists y. split; [exact F1|]. destruct (won_lengths _ _ _ _ _ _ _ _ _ _ _ Hor Lp (HW _ _ _ F1)) as [Ly Lr].
    destruct (in_combine_some y (QueryRoundProofs (t_proof (ans alpha betas y))) i ltac:(lia) E1) as (r & Hr).
    destruct (find _ (combine _ _)) as [[i' r']|] eqn:Fr.
    - apply find_some in Fr. destruct Fr as [F2' E2]. cbn [fst snd] in *. apply Z.eqb_eq in E2. subst i'. exact F2'.
    - exfalso. pose proof (find_none _ _ Fr _ Hr) as N. cbn [fst] in N. apply Z.eqb_neq in N. now apply N. }
  assert (PA : forall alpha betas, In alpha As -> length betas = k -> in_tree (B alpha) [] betas -> positions_of n (A alpha betas) /\ (2 ^ n <= length (A alpha betas) + e)%nat).
  { intros alpha betas Ia Lb Tb. destruct (HA alpha betas Ia Lb Tb) as (N1 & N2 & N3). split; [split; [exact N1|]|exact N2]. apply Forall_forall. intros i Hi. destruct (N3 i Hi) as (is & Hw & Hi').
    destruct (HW _ _ _ Hw) as (_ & _ & Ei & _). rewrite <- Ei in Hi'. apply in_map_iff in Hi'. destruct Hi' as (x & <- & _). apply Z.mod_pos_bound. fold n. lia. }
  destruct (fri_prox params oracles points openings initialCaps As B cap final A round e) as (alpha & betas & Ia & Lb & Tb & F & HF); try assumption.
  - fold k. intros alpha betas i Ia Lb Tb Ri. destruct (HA alpha betas Ia Lb Tb) as (_ & _ & N3). destruct (N3 i Ri) as (is0 & Hw0 & Hi0). destruct (ROUND alpha betas i is0 Hw0 Hi0) as (is & Hw & Ho).
    exact (won_answered _ _ _ _ _ _ _ _ _ _ _ _ _ (HW _ _ _ Hw) Ho).
  - fold k. intros a b (alpha & betas & i & Ia & Lb & Tb & Ri & Ha) (alpha' & betas' & i' & Ia' & Lb' & Tb' & Ri' & Hb).
    destruct (HA alpha betas Ia Lb Tb) as (_ & _ & N3). destruct (N3 i Ri) as (is0 & Hw0 & Hi0). destruct (ROUND alpha betas i is0 Hw0 Hi0) as (is & Hw & Ho).
    destruct (HA alpha' betas' Ia' Lb' Tb') as (_ & _ & N3'). destruct (N3' i' Ri') as (is0' & Hw0' & Hi0'). destruct (ROUND alpha' betas' i' is0' Hw0' Hi0') as (is' & Hw' & Ho').
    apply NC; [exists alpha, betas, is, i, (round alpha betas i)|exists alpha', betas', is', i', (round alpha' betas' i')]; repeat split; assumption.
  - fold k in Lb. fold k n in HF.
    exists F, (A alpha betas). destruct (PA alpha betas Ia Lb Tb) as [[ND1 RA] LA1]. split; [exact ND1|]. split; [exact RA|]. split; [exact LA1|].
    assert (RD : forall i, In i (A alpha betas) -> exists is, In (alpha, betas, is) wins /\ opens ans alpha betas is i (round alpha betas i)).
    { intros i Hi. destruct (HA alpha betas Ia Lb Tb) as (_ & _ & N3). destruct (N3 i Hi) as (is0 & Hw0 & Hi0). exact (ROUND alpha betas i is0 Hw0 Hi0). }
    split. { intros i Hi. destruct (RD i Hi) as (is & Hw & Ho). exists alpha, betas, is, (round alpha betas i). now split. }
    intros z polys os op o H1 H2. destruct (HF z polys os op o H1 H2) as (LF & EZ & EF). split; [exact LF|]. split; [exact EZ|].
    intros alpha' betas' is' i round' Hw' Hi Ho'. rewrite <- (EF i Hi). destruct (RD i Hi) as (is & Hw & Ho).
    destruct (answered_round _ _ _ _ _ _ _ _ _ _ _ Hor Lp (won_answered _ _ _ _ _ _ _ _ _ _ _ _ _ (HW _ _ _ Hw) Ho)) as ((C1 & _) & (I1 & _) & Sh1 & _ & _ & _ & _ & _ & O1 & _).
    destruct (answered_round _ _ _ _ _ _ _ _ _ _ _ Hor Lp (won_answered _ _ _ _ _ _ _ _ _ _ _ _ _ (HW _ _ _ Hw') Ho')) as ((C2 & _) & (I2 & _) & Sh2 & _ & _ & _ & _ & _ & O2 & _).
    f_equal. apply elements_nth. symmetry. apply (initial_unique S i _ initialCaps NC _ _ O1 O2); try assumption.
    + intros a Ha. exists alpha, betas, is, i, (round alpha betas i). repeat (split; [assumption|]). apply in_or_app. now left.
    + intros a Ha. exists alpha', betas', is', i, round'. repeat (split; [assumption|]). apply in_or_app. now left.
    + eapply shapes_agree; eassumption.
Qed.

(** ** A strategy from a transcript that is alive *)
Section Strategy.
  Context {M X A : Type} (m0 : M) (X_dec : forall a b : X, {a = b} + {a <> b}) (accepts : list (M * X) -> A -> Prop).
  (** the transcript when the messages are st of the challenges before *)
  Fixpoint trans (st : list X -> M) (pre path : list X) : list (M * X) :=
    match path with [] => [] | x :: path' => (st pre, x) :: trans st (pre ++ [x]) path' end.
  Lemma trans_ext st st' : forall path pre pre', (forall q, st (pre ++ q) = st' (pre' ++ q)) -> trans st pre path = trans st' pre' path.
  Proof.
    induction path as [|x path IH]; intros pre pre' H; [reflexivity|]. cbn [trans]. f_equal; [pose proof (H []) as H0; now rewrite !app_nil_r in H0; rewrite H0|].
    apply IH. intros q. rewrite <- !app_assoc. apply H.
  Qed.
  Lemma along_ext (B B' : list X -> list X) : forall path pre pre', (forall q, B (pre ++ q) = B' (pre' ++ q)) -> along B pre path -> along B' pre' path.
  Proof.
    induction path as [|x path IH]; intros pre pre' H A1; [exact I|]. cbn [along] in *. pose proof (H []) as H0. rewrite !app_nil_r in H0. rewrite <- H0. split; [apply A1|].
    apply (IH (pre ++ [x])); [|apply A1]. intros q. rewrite <- !app_assoc. apply H.
  Qed.
  Definition strategic (ls : list (list X * nat)) (tau : list (M * X)) (st : list X -> M) (br : list X -> list X) (an : list X -> A) : Prop :=
    forall path, along br [] path ->
      ((length path < length ls)%nat -> NoDup (br path) /\ incl (br path) (fst (nth (length path) ls ([], 0%nat))) /\ (snd (nth (length path) ls ([], 0%nat)) < length (br path))%nat) /\
      (length path = length ls -> accepts (tau ++ trans st [] path) (an path)).
  Lemma choose_in {B} (R : X -> B -> Prop) l : (forall x, In x l -> exists b, R x b) -> l <> [] -> exists f, forall x, In x l -> R x (f x).
  Proof.
    induction l as [|x l IH]; intros H N; [now destruct N|]. destruct (H x (in_eq _ _)) as (b & Hb). destruct l as [|y l].
    - exists (fun _ => b). intros z [<-|[]]. exact Hb.
    - destruct IH as (f & Hf); [intros z Hz; apply H; now right|discriminate|]. exists (fun z => if X_dec z x then b else f z). intros z Hz.
      destruct (X_dec z x) as [->|N']; [exact Hb|]. apply Hf. destruct Hz as [<-|Hz]; [now destruct N'|exact Hz].
  Qed.
  Lemma alive_strategy : forall ls tau, alive accepts ls tau -> exists st br an, strategic ls tau st br an.
  Proof.
    induction ls as [|[L t] ls IH]; intros tau H; cbn [alive] in H.
    - destruct H as (a & Ha). exists (fun _ => m0), (fun _ => []), (fun _ => a). intros path AL. destruct path as [|x path]; [|destruct AL as [[] _]].
      split; [cbn; lia|]. intros _. cbn [trans]. now rewrite app_nil_r.
    - destruct H as (m & cs & ND & IN & LT & H).
      destruct (choose_in (fun c (f : (list X -> M) * (list X -> list X) * (list X -> A)) => strategic ls (tau ++ [(m, c)]) (fst (fst f)) (snd (fst f)) (snd f)) cs) as (f & Hf).
      { intros c Hc. destruct (IH _ (H c Hc)) as (st & br & an & S). now exists (st, br, an). }
      { intros E. rewrite E in LT. cbn in LT. lia. }
      destruct cs as [|x0 cs0] eqn:Ec; [cbn in LT; lia|]. rewrite <- Ec in *.
      exists (fun p => match p with [] => m | x :: p' => fst (fst (f x)) p' end), (fun p => match p with [] => cs | x :: p' => snd (fst (f x)) p' end), (fun p => match p with [] => snd (f x0) [] | x :: p' => snd (f x) p' end).
      intros path AL. destruct path as [|x path].
      + split; [intros _; cbn [length nth fst snd]; now repeat split|]. intros E. cbn in E. lia.
      + cbn [along app] in AL. destruct AL as [Hx AL]. assert (AL' : along (snd (fst (f x))) [] path) by (revert AL; apply along_ext; intros q; reflexivity).
        destruct (Hf x Hx path AL') as [S1 S2]. split.
        * intros LL. cbn [length] in LL. cbn [length nth]. apply S1. lia.
        * intros LL. cbn [length] in LL. specialize (S2 ltac:(lia)). rewrite <- app_assoc in S2. cbn [app] in S2. cbn [trans]. rewrite (trans_ext _ (fst (fst (f x))) path ([] ++ [x]) []) by reflexivity. exact S2.
  Qed.
  (** all the paths of the tree *)
  Fixpoint paths (br : list X -> list X) (n : nat) (pre : list X) : list (list X) :=
    match n with O => [[]] | S n' => flat_map (fun x => map (cons x) (paths br n' (pre ++ [x]))) (br pre) end.
  Lemma paths_in br n : forall pre p, In p (paths br n pre) <-> along br pre p /\ length p = n.
  Proof.
    induction n as [|n IH]; intros pre p; cbn [paths].
    - split; [intros [<-|[]]; split; [exact I|reflexivity]|]. intros [_ E]. destruct p; [now left|discriminate E].
    - rewrite in_flat_map. split.
      + intros (x & Hx & H). apply in_map_iff in H. destruct H as (p' & <- & H). apply IH in H. destruct H as [H1 H2]. cbn [along length]. split; [now split|now rewrite H2].
      + intros [AL E]. destruct p as [|x p]; [discriminate E|]. cbn [along] in AL. exists x. split; [apply AL|]. apply in_map_iff. exists p. split; [reflexivity|]. apply IH. split; [apply AL|now injection E].
  Qed.
End Strategy.

(** ** Provers that ask the oracle for one run
    The prover of the interactive protocol, with the oracle in the place of the verifier. *)
Section Interactive.
  Context {M X A : Type} (M_dec : forall a b : M, {a = b} + {a <> b}) (X_dec : forall a b : X, {a = b} + {a <> b}) (levels : list (list X * nat)).
  Context (accepts : list (M * X) -> A -> Prop) (st : list X -> M) (an : list X -> A).
  Fixpoint one_run (n : nat) (pre : list X) : asking (list M * A) :=
    match n with
    | O => Return _ (map fst (trans st [] pre), an pre)
    | S n' => Ask _ (trans st [] pre) (st pre) (fun x => one_run n' (pre ++ [x]))
    end.
  Lemma one_run_asks n : forall pre, asks (one_run n pre) n.
  Proof. induction n as [|n IH]; intros pre; cbn [one_run asks]; [exact I|]. intros x. apply IH. Qed.
  Lemma trans_app : forall a pre b, trans st pre (a ++ b) = trans st pre a ++ trans st (pre ++ a) b.
  Proof. induction a as [|x a IH]; intros pre b; cbn [app trans]; [now rewrite app_nil_r|]. f_equal. rewrite IH, <- app_assoc. reflexivity. Qed.
  Lemma trans_length : forall a pre, length (trans st pre a) = length a.
  Proof. induction a as [|x a IH]; intros pre; cbn [trans length]; [reflexivity|]. now rewrite IH. Qed.
  Definition asked (mem : list ((list (M * X) * M) * X)) (pre : list X) : Prop :=
    (forall q x, In (q, x) mem -> (length (fst q) < length pre)%nat) /\ forall p1 x p2, pre = p1 ++ x :: p2 -> lookup M_dec X_dec (trans st [] p1, st p1) mem = Some x.
  Lemma asked_new mem pre : asked mem pre -> lookup M_dec X_dec (trans st [] pre, st pre) mem = None.
  Proof.
    intros [H _]. induction mem as [|[q x] mem IH]; [reflexivity|]. cbn [lookup]. destruct (question_dec M_dec X_dec (trans st [] pre, st pre) q) as [<-|].
    - exfalso. pose proof (H _ _ (in_eq _ _)) as L. cbn [fst] in L. rewrite trans_length in L. lia.
    - apply IH. intros q' x' Hq. apply (H q' x'). now right.
  Qed.
  Lemma asked_snoc mem pre x : asked mem pre -> asked (((trans st [] pre, st pre), x) :: mem) (pre ++ [x]).
  Proof.
    intros H. pose proof H as [H1 H2]. split.
    - intros q y [E|Hq]; rewrite app_length; cbn [length]; [injection E as <- _; cbn [fst]; rewrite trans_length; lia|]. specialize (H1 _ _ Hq). lia.
    - intros p1 y p2 E. cbn [lookup]. destruct p2 as [|z p2 _] using rev_ind.
      + apply app_inj_tail in E. destruct E as [-> ->]. destruct (question_dec M_dec X_dec _ _) as [|N]; [reflexivity|now destruct N].
      + rewrite app_comm_cons, app_assoc in E. apply app_inj_tail in E. destruct E as [-> ->]. destruct (question_dec M_dec X_dec _ _) as [Q|N].
        * exfalso. injection Q as Q _. apply (f_equal (@length _)) in Q. rewrite !trans_length, app_length in Q. cbn [length] in Q. lia.
        * now apply (H2 p1 y p2).
  Qed.
  Lemma checked mem full (a : A) : asked mem full -> forall rest pre, full = pre ++ rest -> play M_dec X_dec levels (check (map fst (trans st pre rest)) (trans st [] pre) a) mem [] = Some (mem, (trans st [] full, a)).
  Proof.
    intros H. induction rest as [|x rest IH]; intros pre E; cbn [trans map check play]; [now rewrite E, app_nil_r|]. cbn [fst]. rewrite (proj2 H pre x rest E).
    assert (TE : trans st [] pre ++ [(st pre, x)] = trans st [] (pre ++ [x])) by (rewrite trans_app; reflexivity). rewrite TE. apply IH. rewrite <- app_assoc. exact E.
  Qed.
  Lemma one_run_plays n : forall pre mem xs, asked mem pre -> length xs = n -> (length pre + n = length levels)%nat ->
    (forall i x, nth_error xs i = Some x -> In x (coins_at levels (length pre + i))) ->
    exists mem', play M_dec X_dec levels (verified levels (one_run n pre)) mem xs = Some (mem', (trans st [] (pre ++ xs), an (pre ++ xs))).
  Proof.
    induction n as [|n IH]; intros pre mem xs AS L LL HC; cbn [one_run verified].
    - destruct xs as [|x xs]; [|discriminate L]. rewrite map_length, trans_length. replace (length pre =? length levels)%nat with true by (symmetry; apply Nat.eqb_eq; lia).
      exists mem. rewrite app_nil_r. exact (checked mem pre (an pre) AS pre [] eq_refl).
    - destruct xs as [|x xs]; [discriminate L|]. cbn [play]. rewrite (asked_new mem pre AS), trans_length.
      destruct (in_dec X_dec x (coins_at levels (length pre))) as [_|N]; [|exfalso; apply N; specialize (HC 0%nat x eq_refl); now rewrite Nat.add_0_r in HC].
      destruct (IH (pre ++ [x]) (((trans st [] pre, st pre), x) :: mem) xs) as (mem' & E).
      + now apply asked_snoc.
      + now injection L.
      + rewrite app_length. cbn [length]. lia.
      + intros i y Hy. rewrite app_length. cbn [length]. rewrite <- Nat.add_assoc. exact (HC (Datatypes.S i) y Hy).
      + exists mem'. rewrite <- app_assoc in E. exact E.
  Qed.
  Lemma one_run_wins xs : length xs = length levels -> (forall i x, nth_error xs i = Some x -> In x (coins_at levels i)) -> accepts (trans st [] xs) (an xs) ->
    wins_with M_dec X_dec levels accepts (one_run (length levels) []) xs.
  Proof.
    intros L HC ACC. destruct (one_run_plays (length levels) [] [] xs) as (mem & E); [split; [intros q x []|intros p1 x p2 E; destruct p1; discriminate E]|exact L|reflexivity|exact HC|].
    exists mem, (trans st [] xs), (an xs). split; [exact E|]. split; [now rewrite trans_length|exact ACC].
  Qed.
  Lemma one_run_proper n : forall pre, (length pre + n = length levels)%nat -> proper levels (one_run n pre).
  Proof. induction n as [|n IH]; intros pre L; cbn [one_run proper]; [exact I|]. rewrite trans_length. split; [lia|]. intros x. apply IH. rewrite app_length. cbn [length]. lia. Qed.
End Interactive.

(** ** The transcript of the verifier
    The messages of the prover, in the order in which GetChallenges absorbs them
    (verifier/verifier.go:45-78, challenger/challenger.go:114-139), and the challenges drawn after
    them: betas and gammas after the hash of the public inputs and the cap of the wires, alphas after the cap of the partial
    products, zeta after the cap of the quotients, the FRI alpha after the openings, a folding
    challenge after every cap of the commit phase, the response to the proof of work and the
    query indices after the final polynomial and the witness of the proof of work. *)
Inductive message := MStart (h : list GF) (wires : FriMerkleCap) | MCap (cap : FriMerkleCap) | MOpenings (o : OpeningSet) | MFinal (f : list QE) (witness : Z).
Inductive chal := XPairs (l : list (GF * GF)) | XAlphas (a : list GF) | XExt (z : K) | XQuery (w : GF) (xs : list GF).
Definition message_dec (a b : message) : {a = b} + {a <> b}.
Proof.
  assert (Q : forall a b : QE, {a = b} + {a <> b}) by (decide equality; apply Z.eq_dec).
  assert (H1 : forall a b : list GF, {a = b} + {a <> b}) by (apply list_eq_dec, GF_eq_dec).
  assert (H2 : forall a b : FriMerkleCap, {a = b} + {a <> b}) by (apply list_eq_dec, Z.eq_dec).
  assert (H3 : forall a b : list QE, {a = b} + {a <> b}) by (apply list_eq_dec, Q).
  assert (H4 : forall a b : OpeningSet, {a = b} + {a <> b}) by (decide equality).
  destruct a as [h w|w|o|f w], b as [h' w'|w'|o'|f' w']; try (right; discriminate).
  - destruct (H1 h h') as [->|N]; [|right; congruence]. destruct (H2 w w') as [->|N]; [now left|right; congruence].
  - destruct (H2 w w') as [->|N]; [now left|right; congruence].
  - destruct (H4 o o') as [->|N]; [now left|right; congruence].
  - destruct (H3 f f') as [->|N]; [|right; congruence]. destruct (Z.eq_dec w w') as [->|N]; [now left|right; congruence].
Defined.
Definition chal_dec (a b : chal) : {a = b} + {a <> b}.
Proof. decide equality; [apply list_eq_dec, pair_dec|apply list_eq_dec, GF_eq_dec|apply K_eq_dec|apply list_eq_dec, GF_eq_dec|apply GF_eq_dec]. Defined.
(** the position of a query index: its low bits (fri/fri.go:400-401) *)
Definition position (cd : CommonCircuitData) (x : GF) : Z := rep x mod 2 ^ Z.of_nat (LdeBits (cd_FriParams cd)).
(** the verifier accepts (VerifyWith, verifier/verifier.go:148-171) the proof with the messages of
    the transcript and the rounds as answers to the queries; [S]: what may be hashed in the Merkle
    trees *)
Definition convinces (cd : CommonCircuitData) (gates : list Gate) (h : list GF) (vd : VerifierOnlyCircuitData) (S : list Z -> Prop)
    (tau : list (message * chal)) (rounds : list FriQueryRound) : Prop :=
  exists wires l zs alphas quotients zeta opens alpha folds f witness w xs,
  tau = (MStart h wires, XPairs l) :: (MCap zs, XAlphas alphas) :: (MCap quotients, XExt zeta) :: (MOpenings opens, XExt alpha) ::
        map (fun cb => (MCap (fst cb), XExt (snd cb))) folds ++ [(MFinal f witness, XQuery w xs)] /\
  openings_shape cd opens /\ Forall siblings_ok rounds /\
  (forall i round a, In (i, round) (combine (map (position cd) xs) rounds) -> In a (round_inputs round i) -> S a) /\
  sat (VerifyWith cd gates (mkProof wires zs quotients opens (mkFriProof (map fst folds) rounds f witness)) (map rep h)
         (repC (mkChalK (map fst l) (map snd l) alphas zeta) (fc_of alpha (map snd folds) w xs)) vd).
(** the challenges of the levels, drawn from the elements gcoins of the field, and the thresholds;
    [b]: at most b elements of gcoins have the same position *)
Definition fs_levels (cd : CommonCircuitData) (gcoins : list GF) (E e b : nat) : list (list chal * nat) :=
  let nc := NumChallenges (cd_Config cd) in let k := length (ReductionArityBits (cd_FriParams cd)) in
  let q := NumQueryRounds (fp_Config (cd_FriParams cd)) in let n := LdeBits (cd_FriParams cd) in
  let t := length (fst (Prop_Fri.layout cd) ++ snd (Prop_Fri.layout cd)) in
  let terms := (nc + nc * (NumPartialProducts cd + 1) + NumGateConstraints cd)%nat in
  let exts := map XExt (list_prod gcoins gcoins) in
  [(map XPairs (tuples nc (list_prod gcoins gcoins)), ((2 * length (cells cd) * length gcoins) ^ nc)%nat);
   (map XAlphas (tuples nc gcoins), (terms ^ nc)%nat);
   (exts, (E * 2 ^ cd_DegreeBits cd)%nat);
   (exts, ((t - 1) * (2 ^ n * 2 ^ n))%nat)] ++
  map (fun j => (exts, (15 * (2 ^ (n - 4 * Datatypes.S j) * 2 ^ (n - 4 * Datatypes.S j)))%nat)) (seq 0 k) ++
  [(map (fun wx => XQuery (fst wx) (snd wx)) (list_prod gcoins (tuples q gcoins)),
    (length (small_responses (ProofOfWorkBits (fp_Config (cd_FriParams cd))) gcoins) * ((2 ^ n - e - 1) * b) ^ q)%nat)].

Lemma pigeon {U V} (V_dec : forall a b : V, {a = b} + {a <> b}) (f : U -> V) (b : nat) l :
  (forall v, length (filter (fun u => if V_dec (f u) v then true else false) l) <= b)%nat -> (length l <= length (nodup V_dec (map f l)) * b)%nat.
Proof.
  intros H. assert (G : forall vs, (forall u, In u l -> In (f u) vs) -> (length l <= list_sum (map (fun v => length (filter (fun u => if V_dec (f u) v then true else false) l)) vs))%nat).
  { clear H. induction l as [|u l IH]; intros vs Hv; [cbn; lia|]. specialize (IH vs (fun x Hx => Hv x (or_intror Hx))). specialize (Hv u (in_eq _ _)). cbn [length].
    assert (Y : forall vs', (list_sum (map (fun v => length (filter (fun u => if V_dec (f u) v then true else false) l)) vs') <= list_sum (map (fun v => length (filter (fun u => if V_dec (f u) v then true else false) (u :: l))) vs'))%nat).
    { induction vs' as [|v vs' IHv]; [cbn; lia|]. cbn [map list_sum fold_right filter] in *. destruct (V_dec (f u) v); cbn [length]; unfold list_sum in IHv; lia. }
    enough (X : (list_sum (map (fun v => length (filter (fun u => if V_dec (f u) v then true else false) l)) vs) + 1 <= list_sum (map (fun v => length (filter (fun u => if V_dec (f u) v then true else false) (u :: l))) vs))%nat) by lia.
    clear IH. induction vs as [|v vs IHv]; [destruct Hv|]. destruct Hv as [->|Hv].
    - specialize (Y vs). cbn [map list_sum fold_right filter] in *. destruct (V_dec (f u) (f u)) as [_|N]; [|now destruct N]. cbn [length]. unfold list_sum in Y. lia.
    - specialize (IHv Hv). cbn [map list_sum fold_right filter] in *. destruct (V_dec (f u) v); cbn [length]; unfold list_sum in IHv; lia. }
  eapply Nat.le_trans; [apply (G (nodup V_dec (map f l))); intros u Hu; apply nodup_In; now apply in_map|]. clear G.
  generalize (nodup V_dec (map f l)). induction l0 as [|v vs IH]; [cbn; lia|]. cbn [map list_sum fold_right length Nat.mul]. specialize (H v). unfold list_sum in IH. lia.
Qed.
Definition pickc {A} (f : chal -> option A) (l : list chal) : list A := flat_map (fun x => match f x with Some a => [a] | None => [] end) l.
Lemma pickc_in {A} (f : chal -> option A) con l a : (forall x a, f x = Some a <-> x = con a) -> In a (pickc f l) <-> In (con a) l.
Proof.
  intros F. unfold pickc. rewrite in_flat_map. split.
  - intros (x & H & H'). destruct (f x) as [a'|] eqn:E; [|destruct H']. destruct H' as [->|[]]. apply F in E. now rewrite <- E.
  - intros H. exists (con a). split; [exact H|]. rewrite (proj2 (F _ _) eq_refl). now left.
Qed.
Lemma pickc_all {A} (f : chal -> option A) con l L : (forall x a, f x = Some a <-> x = con a) -> incl l (map con L) ->
  length (pickc f l) = length l /\ (NoDup l -> NoDup (pickc f l)).
Proof.
  intros F. induction l as [|x l IH]; intros H; [split; [reflexivity|constructor]|]. destruct IH as [I1 I2]; [intros y Hy; apply H; now right|].
  assert (E := H x (in_eq _ _)). apply in_map_iff in E. destruct E as (v & <- & _). unfold pickc in *. cbn [flat_map]. rewrite (proj2 (F _ _) eq_refl). cbn [app length]. split; [now rewrite I1|].
  intros ND. inversion ND as [|? ? N1 N2]; subst. constructor; [|now apply I2]. intros X1. apply N1. now apply (pickc_in f con l).
Qed.
Definition as_pairs x := match x with XPairs l => Some l | _ => None end.
Definition as_alphas x := match x with XAlphas l => Some l | _ => None end.
Definition as_ext x := match x with XExt l => Some l | _ => None end.
Definition as_query x := match x with XQuery w xs => Some (w, xs) | _ => None end.
Definition XQ (wx : GF * list GF) : chal := XQuery (fst wx) (snd wx).
Lemma is_pairsx x a : as_pairs x = Some a <-> x = XPairs a.
Proof. destruct x; cbn; split; intros H; try discriminate H; injection H as ->; reflexivity. Qed.
Lemma is_alphasx x a : as_alphas x = Some a <-> x = XAlphas a.
Proof. destruct x; cbn; split; intros H; try discriminate H; injection H as ->; reflexivity. Qed.
Lemma is_extx x a : as_ext x = Some a <-> x = XExt a.
Proof. destruct x; cbn; split; intros H; try discriminate H; injection H as ->; reflexivity. Qed.
Lemma is_queryx x a : as_query x = Some a <-> x = XQ a.
Proof. destruct a as [w xs]. unfold XQ. cbn [fst snd]. destruct x; cbn; split; intros H; try discriminate H; injection H as -> ->; reflexivity. Qed.
Definition chalK_dec (a b : chalK) : {a = b} + {a <> b}.
Proof. decide equality; [apply K_eq_dec| | |]; apply list_eq_dec, GF_eq_dec. Defined.
Definition capm m := match m with MStart _ c | MCap c => c | _ => [] end.
Definition openm m := match m with MOpenings o => o | _ => mkOpeningSet [] [] [] [] [] [] [] end.
Definition finm m := match m with MFinal f _ => f | _ => [] end.
Definition witm m := match m with MFinal _ w => w | _ => 0 end.

Section Tree.
  Context (cd : CommonCircuitData) (gates : list Gate) (h : list GF) (vd : VerifierOnlyCircuitData) (S : list Z -> Prop) (gcoins : list GF) (E e b : nat).
  Context (SD : sound_data cd gates) (DB : degree_bound cd gates E) (Lh : length h = 4%nat).
  Context (He : (2 * e + 2 ^ cd_DegreeBits cd < 2 ^ LdeBits (cd_FriParams cd))%nat).
  Context (NDg : NoDup gcoins) (FIB : forall i, (length (filter (fun x => if Z.eq_dec (position cd x) i then true else false) gcoins) <= b)%nat).
  Context (NC : no_collision S).
  Notation params := (cd_FriParams cd).
  Notation nc := (NumChallenges (cd_Config cd)).
  Notation k := (length (ReductionArityBits (cd_FriParams cd))).
  Notation q := (NumQueryRounds (fp_Config (cd_FriParams cd))).
  Notation n := (LdeBits (cd_FriParams cd)).
  Notation levels := (fs_levels cd gcoins E e b).
  Context (st : list chal -> message) (br : list chal -> list chal) (an : list chal -> list FriQueryRound).
  Context (TR : strategic (convinces cd gates h vd S) levels [] st br an).

  Notation pc c := [XPairs (combine (c_betas c) (c_gammas c)); XAlphas (c_alphas c); XExt (c_zeta c)].
  Definition node (c : chalK) (alpha : K) (betas : list K) : list chal := pc c ++ XExt alpha :: map XExt betas.
  Definition matching (positions : list Z) (x : chal) : bool :=
    match x with XQuery w xs => if list_eq_dec Z.eq_dec (map (position cd) xs) positions then true else false | _ => false end.
  Definition chosen (c : chalK) (alpha : K) (betas : list K) (positions : list Z) : GF * list GF :=
    match find (matching positions) (br (node c alpha betas)) with Some (XQuery w xs) => (w, xs) | _ => (g0, []) end.
  Definition foldcap (c : chalK) (alpha : K) (pre : list K) : FriMerkleCap := capm (st (node c alpha pre)).
  Definition reply (c : chalK) (alpha : K) (betas : list K) (wx : GF * list GF) : transcript :=
    mkTranscript (mkFriProof (caps_along (foldcap c alpha) [] betas) (an (node c alpha betas ++ [XQ wx])) (finm (st (node c alpha betas))) (witm (st (node c alpha betas)))) (fst wx) (snd wx).
  Definition with_answer (f : chalK -> K -> list K -> list Z -> transcript) : player :=
    mkPlayer (capm (st [])) (fun bs gs => capm (st [XPairs (combine bs gs)])) (fun bs gs a => capm (st [XPairs (combine bs gs); XAlphas a])) (fun c => openm (st (pc c)))
      foldcap (fun c alpha betas => finm (st (node c alpha betas))) f.
  Definition tree_player : player := with_answer (fun c alpha betas positions => reply c alpha betas (chosen c alpha betas positions)).
  Notation P := tree_player.

  Lemma levels_length : length levels = (5 + k)%nat.
  Proof. unfold fs_levels. cbn [app length]. rewrite app_length, map_length, seq_length. cbn [length]. lia. Qed.
  Lemma level_fold j : (j < k)%nat -> nth (4 + j) levels ([], 0%nat) = (map XExt (list_prod gcoins gcoins), (15 * (2 ^ (n - 4 * Datatypes.S j) * 2 ^ (n - 4 * Datatypes.S j)))%nat).
  Proof.
    intros H. unfold fs_levels. cbn [app nth Nat.add]. rewrite app_nth1 by (rewrite map_length, seq_length; exact H). rewrite (nth_map_lt _ _ _ _ O) by (rewrite seq_length; exact H). rewrite seq_nth by exact H. reflexivity.
  Qed.
  Lemma level_last : nth (4 + k) levels ([], 0%nat) = (map XQ (list_prod gcoins (tuples q gcoins)),
    (length (small_responses (ProofOfWorkBits (fp_Config params)) gcoins) * ((2 ^ n - e - 1) * b) ^ q)%nat).
  Proof. unfold fs_levels. cbn [app nth Nat.add]. rewrite app_nth2 by (rewrite map_length, seq_length; lia). rewrite map_length, seq_length, Nat.sub_diag. reflexivity. Qed.
  Lemma node_length c alpha betas : length (node c alpha betas) = (4 + length betas)%nat.
  Proof. unfold node. cbn [app length]. now rewrite map_length. Qed.
  Lemma node_snoc c alpha pre x : node c alpha (pre ++ [x]) = node c alpha pre ++ [XExt x].
  Proof. unfold node. rewrite map_app. rewrite <- app_assoc. reflexivity. Qed.

  (** the branches *)
  Lemma br_in path : along br [] path -> (length path < 5 + k)%nat -> NoDup (br path) /\ incl (br path) (fst (nth (length path) levels ([], 0%nat))) /\ (snd (nth (length path) levels ([], 0%nat)) < length (br path))%nat.
  Proof. intros AL L. apply (TR path AL). now rewrite levels_length. Qed.
  Lemma extend : forall m path, along br [] path -> (length path + m = 5 + k)%nat -> exists r, along br [] (path ++ r) /\ length (path ++ r) = (5 + k)%nat.
  Proof.
    induction m as [|m IH]; intros path AL L; [exists []; rewrite app_nil_r; split; [exact AL|lia]|].
    destruct (br_in path AL ltac:(lia)) as (_ & _ & LT). destruct (br path) as [|x l] eqn:Eb; [cbn in LT; lia|].
    destruct (IH (path ++ [x])) as (r & H1 & H2); [apply along_app; split; [exact AL|]; cbn [along app]; split; [rewrite Eb; now left|exact I]|rewrite app_length; cbn; lia|].
    exists (x :: r). now rewrite <- app_assoc in H1, H2.
  Qed.
  Lemma prefix_along p r : along br [] (p ++ r) -> along br [] p. Proof. intros H. apply along_app in H. apply H. Qed.
  Lemma snoc_along p x : along br [] (p ++ [x]) <-> along br [] p /\ In x (br p).
  Proof. rewrite along_app. cbn [along app]. tauto. Qed.

  (** the tail of the transcript *)
  Lemma trans_folds c alpha w xs f wit w' xs' : forall betas pre folds,
    trans st (node c alpha pre) (map XExt betas ++ [XQuery w xs]) = map (fun cb => (MCap (fst cb), XExt (snd cb))) folds ++ [(MFinal f wit, XQuery w' xs')] ->
    map snd folds = betas /\ map fst folds = caps_along (foldcap c alpha) pre betas /\ st (node c alpha (pre ++ betas)) = MFinal f wit /\ w' = w /\ xs' = xs.
  Proof.
    induction betas as [|x betas IH]; intros pre folds H; destruct folds as [|[cp y] folds]; cbn [map app trans] in H.
    - injection H as H1 H2 H3. rewrite app_nil_r. now repeat split.
    - exfalso. injection H as _ H _. discriminate H.
    - exfalso. injection H as _ H _. discriminate H.
    - cbn [fst snd] in H. injection H as H1 H2 H3. pose proof (IH (pre ++ [x]) folds) as I0. rewrite (node_snoc c alpha pre x) in I0. destruct (I0 H3) as (I1 & I2 & I3 & I4 & I5). cbn [map fst snd caps_along].
      split; [now rewrite I1, H2|]. split; [f_equal; [unfold foldcap; now rewrite H1|exact I2]|]. rewrite <- app_assoc in I3. now repeat split.
  Qed.
  (** a leaf of the tree *)
  Definition even (c : chalK) : Prop := length (c_betas c) = length (c_gammas c).
  Definition leaf (c : chalK) (alpha : K) (betas : list K) (wx : GF * list GF) : Prop := even c /\ length betas = k /\ along br [] (node c alpha betas ++ [XQ wx]).
  Lemma leaf_ok c alpha betas wx : leaf c alpha betas wx -> openings_shape cd (p_opens P c) /\
    (forall i round a, In (i, round) (combine (map (position cd) (snd wx)) (an (node c alpha betas ++ [XQ wx]))) -> In a (round_inputs round i) -> S a) /\
    beats cd gates h vd (with_answer (fun _ _ _ _ => reply c alpha betas wx)) (c, (alpha, betas, map (position cd) (snd wx))).
  Proof.
    intros (EV & Lb & AL). destruct (TR _ AL) as [_ ACC]. rewrite levels_length in ACC. specialize (ACC ltac:(rewrite app_length, node_length; cbn [length]; lia)).
    destruct ACC as (wires & l & zs & alphas & quotients & zeta & opens & alpha' & folds & f & wit & w' & xs' & ET & HO & HS & HH & SAT).
    cbn [app] in ET. unfold node in ET. cbn [app trans] in ET. injection ET as T1 T2 T3 T4 T5 T6 T7 T8 T9.
    change [XPairs (combine (c_betas c) (c_gammas c)); XAlphas (c_alphas c); XExt (c_zeta c); XExt alpha] with (node c alpha []) in T9. unfold XQ in T9. apply trans_folds in T9. cbn [app] in T9.
    destruct T9 as (F1 & F2 & F3 & -> & ->). subst l alphas zeta alpha'. rewrite combine_fst in SAT by exact EV. rewrite combine_snd in SAT by exact EV.
    split; [cbn [p_opens tree_player with_answer]; rewrite T7; exact HO|]. split; [exact HH|].
    cbn [beats p_answer with_answer reply t_proof t_pow t_indices CommitPhaseMerkleCaps FinalPoly QueryRoundProofs p_cap p_final]. split; [reflexivity|]. split; [reflexivity|]. split; [reflexivity|]. split; [exact HS|].
    unfold proof_by. unfold reply. cbn [p_wires p_zs p_quotients p_opens with_answer t_proof]. rewrite T1, T3, T5, T7, F3. cbn [capm openm finm witm]. rewrite F1, F2 in SAT. destruct c as [cb cg ca cz]. cbn [c_betas c_gammas c_alphas c_zeta] in *. exact SAT.
  Qed.
  Lemma leaf_chosen c alpha betas wx : leaf c alpha betas wx -> let wx' := chosen c alpha betas (map (position cd) (snd wx)) in
    leaf c alpha betas wx' /\ map (position cd) (snd wx') = map (position cd) (snd wx).
  Proof.
    intros (EV & Lb & AL). apply snoc_along in AL. destruct AL as [AL Hx]. unfold chosen. destruct (find _ _) as [x|] eqn:Fi.
    - apply find_some in Fi. destruct Fi as [F1 F2]. destruct x as [| | |w xs]; try discriminate F2. cbn [matching] in F2. destruct (list_eq_dec Z.eq_dec _ _) as [F3|]; [|discriminate F2].
      cbv zeta. split; [|exact F3]. split; [exact EV|]. split; [exact Lb|]. apply snoc_along. split; [exact AL|exact F1].
    - exfalso. pose proof (find_none _ _ Fi _ Hx) as N. unfold XQ in N. cbn [matching] in N. destruct (list_eq_dec Z.eq_dec _ _) as [|N']; [discriminate N|now apply N'].
  Qed.
  Lemma leaf_beats c alpha betas wx : leaf c alpha betas wx -> beats cd gates h vd P (c, (alpha, betas, map (position cd) (snd wx))).
  Proof.
    intros LF. destruct (leaf_chosen c alpha betas wx LF) as [LF' EP]. destruct (leaf_ok _ _ _ _ LF') as (_ & _ & B). rewrite EP in B. exact B.
  Qed.

  (** *** The runs of the leaves *)
  Lemma path_shape path : along br [] path -> length path = (5 + k)%nat -> exists c alpha betas wx, path = node c alpha betas ++ [XQ wx] /\ leaf c alpha betas wx.
  Proof.
    intros AL L.
    assert (IN : forall i x, nth_error path i = Some x -> In x (fst (nth i levels ([], 0%nat)))).
    { intros i x Hx. destruct (nth_error_split path i Hx) as (p1 & p2 & Ep & Li). rewrite Ep in AL. apply along_app in AL. destruct AL as [A1 A2]. cbn [along app] in A2. destruct A2 as [A2 _].
      assert (LL : (length p1 < 5 + k)%nat) by (rewrite Ep, app_length in L; cbn [length] in L; lia).
      destruct (br_in p1 A1 LL) as (_ & I1 & _). rewrite Li in I1. now apply I1. }
    destruct path as [|x0 path]; [discriminate L|]. destruct path as [|x1 path]; [discriminate L|]. destruct path as [|x2 path]; [discriminate L|]. destruct path as [|x3 path]; [discriminate L|].
    pose proof (IN 0%nat x0 eq_refl) as I0. pose proof (IN 1%nat x1 eq_refl) as I1. pose proof (IN 2%nat x2 eq_refl) as I2. pose proof (IN 3%nat x3 eq_refl) as I3.
    unfold fs_levels in I0, I1, I2, I3. cbn [app nth fst] in I0, I1, I2, I3. apply in_map_iff in I0, I1, I2, I3.
    destruct I0 as (l & <- & _), I1 as (a & <- & _), I2 as (z & <- & _), I3 as (alpha & <- & _).
    assert (TL : exists betas wx, path = map XExt betas ++ [XQ wx] /\ length betas = k).
    { cbn [length] in L. assert (L' : length path = (k + 1)%nat) by lia.
      assert (FO : forall i x, (i < k)%nat -> nth_error path i = Some x -> exists z, x = XExt z).
      { intros i x Hi Hx. pose proof (IN (4 + i)%nat x Hx) as I4. rewrite (level_fold i Hi) in I4. cbn [fst] in I4. apply in_map_iff in I4. destruct I4 as (z' & <- & _). now exists z'. }
      assert (LA : forall x, nth_error path k = Some x -> exists wx, x = XQ wx).
      { intros x Hx. pose proof (IN (4 + k)%nat x Hx) as I4. rewrite level_last in I4. cbn [fst] in I4. apply in_map_iff in I4. destruct I4 as (wx & <- & _). now exists wx. }
      clear - L' FO LA. revert path L' FO LA. generalize k. intros m. induction m as [|m IH]; intros path L' FO LA.
      - destruct path as [|x [|y path]]; try discriminate L'. destruct (LA x eq_refl) as (wx & ->). exists [], wx. now split.
      - destruct path as [|x path]; [discriminate L'|]. destruct (FO 0%nat x ltac:(lia) eq_refl) as (z & ->).
        destruct (IH path) as (betas & wx & -> & Lb); [cbn [length] in L'; lia|intros i y Hi Hy; apply (FO (Datatypes.S i)); [lia|exact Hy]|exact LA|].
        exists (z :: betas), wx. split; [reflexivity|]. cbn [length]. now rewrite Lb. }
    destruct TL as (betas & wx & -> & Lb). exists (mkChalK (map fst l) (map snd l) a z), alpha, betas, wx.
    assert (EP : XPairs l :: XAlphas a :: XExt z :: XExt alpha :: map XExt betas ++ [XQ wx] = node (mkChalK (map fst l) (map snd l) a z) alpha betas ++ [XQ wx]).
    { unfold node. cbn [c_betas c_gammas c_alphas c_zeta app]. now rewrite combine_eta. }
    split; [exact EP|]. split; [unfold even; cbn [c_betas c_gammas]; now rewrite !map_length|]. split; [exact Lb|]. now rewrite <- EP.
  Qed.
  Definition d0 : chal := XAlphas [].
  Definition decode (p : list chal) : run_ :=
    let l := match nth 0 p d0 with XPairs l => l | _ => [] end in
    let ext x := match x with XExt z => z | _ => k0 end in
    (mkChalK (map fst l) (map snd l) (match nth 1 p d0 with XAlphas a => a | _ => [] end) (ext (nth 2 p d0)),
     (ext (nth 3 p d0), map ext (firstn k (skipn 4 p)), map (position cd) (match nth (4 + k) p d0 with XQuery _ xs => xs | _ => [] end))).
  Lemma decode_leaf c alpha betas wx : even c -> length betas = k -> decode (node c alpha betas ++ [XQ wx]) = (c, (alpha, betas, map (position cd) (snd wx))).
  Proof.
    intros EV Lb. unfold decode, node. cbn [app nth skipn Nat.add]. rewrite combine_fst, combine_snd by exact EV.
    rewrite <- Lb at 2. rewrite app_nth2 by (rewrite map_length; lia). rewrite map_length, <- Lb, Nat.sub_diag. cbn [nth XQ].
    rewrite firstn_app, map_length, Nat.sub_diag, firstn_O, app_nil_r, firstn_all2 by (rewrite map_length; lia). rewrite map_map, map_id. destruct c; reflexivity.
  Qed.
  Definition tree_wins : list run_ := map decode (paths br (5 + k) []).
  Notation wins := tree_wins.
  Lemma wins_leaf r : In r wins <-> exists c alpha betas wx, r = (c, (alpha, betas, map (position cd) (snd wx))) /\ leaf c alpha betas wx.
  Proof.
    unfold tree_wins. rewrite in_map_iff. split.
    - intros (p & <- & Hp). apply paths_in in Hp. destruct Hp as [AL L]. destruct (path_shape p AL L) as (c & alpha & betas & wx & -> & LF). exists c, alpha, betas, wx. split; [|exact LF].
      destruct LF as (EV & Lb & _). now apply decode_leaf.
    - intros (c & alpha & betas & wx & -> & LF). exists (node c alpha betas ++ [XQ wx]). pose proof LF as (EV & Lb & AL). split; [now apply decode_leaf|]. apply paths_in. split; [exact AL|].
      rewrite app_length, node_length. cbn [length]. lia.
  Qed.
  Lemma wins_beats r : In r wins -> beats cd gates h vd P r.
  Proof. intros H. apply wins_leaf in H. destruct H as (c & alpha & betas & wx & -> & LF). now apply leaf_beats. Qed.
  Lemma wins_hashed a : hashed_in P wins a -> S a.
  Proof.
    intros (r & i & round & Hr & Ha & Hi). apply wins_leaf in Hr. destruct Hr as (c & alpha & betas & wx & -> & LF). destruct (leaf_chosen c alpha betas wx LF) as [LF' EP]. destruct (leaf_ok _ _ _ _ LF') as (_ & HH & _).
    apply (HH i round a); [|exact Hi]. unfold answers in Ha. cbn [tree_player with_answer p_answer reply t_proof QueryRoundProofs] in Ha. now rewrite EP.
  Qed.
  Lemma wins_nc : no_collision (hashed_in P wins).
  Proof. exact (no_collision_sub _ _ wins_hashed NC). Qed.

  (** *** The coins of the tree up to zeta *)
  Definition T : coins := mkCoins (map (map fst) (pickc as_pairs (br [])))
    (fun bs => map (map snd) (filter (fun l => if list_eq_dec GF_eq_dec (map fst l) bs then true else false) (pickc as_pairs (br []))))
    (fun bs gs => pickc as_alphas (br [XPairs (combine bs gs)])) (fun bs gs a => pickc as_ext (br [XPairs (combine bs gs); XAlphas a])) (fun _ => []) (fun _ _ _ => []).
  Lemma in_pairs l : In l (pickc as_pairs (br [])) -> In (XPairs l) (br []) /\ length l = nc /\ forall x, In x l -> In (fst x) gcoins /\ In (snd x) gcoins.
  Proof.
    intros Hl. apply (pickc_in _ _ _ _ is_pairsx) in Hl. split; [exact Hl|]. destruct (br_in [] I ltac:(cbn; lia)) as (_ & IN & _). apply IN in Hl. cbn [length nth fs_levels app fst] in Hl.
    apply in_map_iff in Hl. destruct Hl as (l' & X & Hl). injection X as ->. apply tuples_in in Hl. destruct Hl as [Ll Fl]. split; [exact Ll|]. rewrite Forall_forall in Fl. intros [x y] Hx. apply Fl, in_prod_iff in Hx. exact Hx.
  Qed.
  Lemma in_gammas bs gs : In gs (k_gammas T bs) -> In (XPairs (combine bs gs)) (br []) /\ length bs = nc /\ length gs = nc.
  Proof.
    intros Hg. unfold T in Hg. cbn [k_gammas] in Hg. apply in_map_iff in Hg. destruct Hg as (l & <- & Hl). apply filter_In in Hl. destruct Hl as [Hl X].
    destruct (list_eq_dec GF_eq_dec (map fst l) bs) as [<-|]; [|discriminate X]. rewrite combine_eta. destruct (in_pairs l Hl) as (I1 & I2 & _). now rewrite !map_length.
  Qed.
  Lemma pairs_in l : In l (pickc as_pairs (br [])) -> In (map fst l) (k_betas T) /\ In (map snd l) (k_gammas T (map fst l)).
  Proof. intros Hl. unfold T. cbn [k_betas k_gammas]. split; [now apply in_map|]. apply in_map. apply filter_In. split; [exact Hl|]. now destruct (list_eq_dec GF_eq_dec (map fst l) (map fst l)). Qed.
  Lemma in_alphas bs gs a : In (XPairs (combine bs gs)) (br []) -> In a (k_alphas T bs gs) -> In (XAlphas a) (br [XPairs (combine bs gs)]) /\ length a = nc.
  Proof.
    intros Hp Ha. unfold T in Ha. cbn [k_alphas] in Ha. apply (pickc_in _ _ _ _ is_alphasx) in Ha. split; [exact Ha|]. destruct (br_in [XPairs (combine bs gs)] (conj Hp I) ltac:(cbn; lia)) as (_ & IN & _). apply IN in Ha.
    cbn [length nth fs_levels app fst] in Ha. apply in_map_iff in Ha. destruct Ha as (a' & X & Ha). injection X as ->. now apply tuples_in in Ha.
  Qed.
  Lemma drawn_along c : drawn T c -> along br [] (pc c) /\ even c.
  Proof.
    intros (D1 & D2 & D3 & D4). destruct (in_gammas _ _ D2) as (I1 & L1 & L2). destruct (in_alphas _ _ _ I1 D3) as (I2 & _). split; [|unfold even; now rewrite L1, L2].
    cbn [along app]. split; [exact I1|]. split; [exact I2|]. split; [|exact I]. unfold T in D4. cbn [k_zetas] in D4. now apply (pickc_in _ _ _ _ is_extx) in D4.
  Qed.
  Lemma tree_plenty : plenty cd E T.
  Proof.
    unfold plenty. pose proof SD as (((_ & _ & _ & _ & _ & Hnc) & _) & _). split; [|split].
    - destruct (br_in [] I ltac:(cbn; lia)) as (ND0 & IN0 & LT0). cbn [length nth fs_levels app fst snd] in IN0, LT0.
      destruct (pickc_all as_pairs XPairs (br []) _ is_pairsx IN0) as [P1 P2].
      destruct (project pair_dec (g0, g0) (2 * length (cells cd) * length gcoins) nc (pickc as_pairs (br [])) (P2 ND0)) as (ch & Hch & LS).
      + intros v Hv. now apply in_pairs.
      + rewrite P1. exact LT0.
      + set (U := nodup pair_dec (map (fun v => nth ch v (g0, g0)) (pickc as_pairs (br [])))) in *.
        assert (IS : forall x, In x U -> exists l, In l (pickc as_pairs (br [])) /\ nth ch l (g0, g0) = x /\ In x l).
        { intros x Hx. apply nodup_In, in_map_iff in Hx. destruct Hx as (l & <- & Hl). exists l. split; [exact Hl|]. split; [reflexivity|]. apply nth_In. destruct (in_pairs l Hl) as (_ & -> & _). exact Hch. }
        destruct (many_pairs gcoins (length (cells cd)) U NDg (NoDup_nodup _ _)) as (Bs & NB & LB & HB).
        { intros x Hx. destruct (IS x Hx) as (l & Hl & _ & Ix). destruct (in_pairs l Hl) as (_ & _ & F). now apply F. }
        { exact LS. }
        exists ch, Bs, (seconds U). split; [exact Hch|]. split; [exact NB|]. split; [exact LB|]. intros beta Hb. split; [apply seconds_nodup, NoDup_nodup|]. split; [now apply HB|].
        intros gamma Hg. apply seconds_in in Hg. destruct (IS _ Hg) as (l & Hl & X & _). destruct (pairs_in l Hl) as [I1 I2]. exists (map fst l), (map snd l). split; [exact I1|]. split; [exact I2|].
        pose proof (map_nth fst l (g0, g0) ch) as M1. pose proof (map_nth snd l (g0, g0) ch) as M2. rewrite X in M1, M2. now split.
    - intros bs gs Hb Hg. destruct (in_gammas bs gs Hg) as (I1 & L1 & L2). split; [exact L1|]. split; [exact L2|].
      destruct (br_in [XPairs (combine bs gs)] (conj I1 I) ltac:(cbn; lia)) as (ND1 & IN1 & LT1). cbn [length nth fs_levels app fst snd] in IN1, LT1.
      destruct (pickc_all as_alphas XAlphas _ _ is_alphasx IN1) as [P1 P2].
      destruct (project GF_eq_dec g0 (nc + nc * (NumPartialProducts cd + 1) + NumGateConstraints cd) nc (k_alphas T bs gs)) as (i & Hi & LA).
      + exact (P2 ND1).
      + intros v Hv. now apply (in_alphas bs gs).
      + unfold T. cbn [k_alphas]. rewrite P1. exact LT1.
      + exists i, (distinct i (k_alphas T bs gs)). split; [intros a; apply distinct_in|]. split; [exact Hi|]. rewrite distinct_map. split; [apply NoDup_nodup|].
        rewrite <- (map_length (fun a => nth i a g0)), distinct_map. lia.
    - intros bs gs a Hb Hg Ha. destruct (in_gammas bs gs Hg) as (I1 & _). destruct (in_alphas bs gs a I1 Ha) as (I2 & L2). split; [exact L2|].
      destruct (br_in [XPairs (combine bs gs); XAlphas a] (conj I1 (conj I2 I)) ltac:(cbn; lia)) as (ND1 & IN1 & LT1). cbn [length nth fs_levels app fst snd] in IN1, LT1.
      destruct (pickc_all as_ext XExt _ _ is_extx IN1) as [P1 P2]. unfold T. cbn [k_zetas]. split; [exact (P2 ND1)|]. rewrite P1. exact LT1.
  Qed.
  Lemma drawn_opens c : drawn T c -> openings_shape cd (p_opens P c).
  Proof.
    intros D. destruct (drawn_along c D) as [AL EV]. destruct (extend (2 + k) _ AL ltac:(cbn; lia)) as (r & A1 & L1). destruct (path_shape _ A1 L1) as (c' & alpha & betas & wx & Ep & LF).
    assert (c' = c) as ->.
    { pose proof LF as (EV' & _). unfold node in Ep. cbn [app] in Ep. injection Ep as E1 E2 E3 _. destruct c as [b1 g1 a1 z1], c' as [b2 g2 a2 z2]. unfold even in *. cbn [c_betas c_gammas c_alphas c_zeta] in *. subst a2 z2.
      pose proof (f_equal (map fst) E1) as X1. pose proof (f_equal (map snd) E1) as X2. rewrite !combine_fst in X1 by assumption. rewrite !combine_snd in X2 by assumption. now rewrite X1, X2. }
    now destruct (leaf_ok _ _ _ _ LF).
  Qed.
  (** *** The positions opened after the folding challenges *)
  Definition opened_at (c : chalK) (alpha : K) (betas : list K) : list Z :=
    nodup Z.eq_dec (concat (map (fun wx : GF * list GF => map (position cd) (snd wx)) (pickc as_query (br (node c alpha betas))))).
  Lemma opened_many c alpha betas : even c -> length betas = k -> along br [] (node c alpha betas) -> (2 ^ n <= length (opened_at c alpha betas) + e)%nat.
  Proof.
    intros EV Lb AL. assert (LN : length (node c alpha betas) = (4 + k)%nat) by (rewrite node_length; lia).
    destruct (br_in _ AL ltac:(lia)) as (ND & IN & LT). rewrite LN, level_last in IN, LT. cbn [fst snd] in IN, LT.
    destruct (pickc_all as_query XQ _ _ is_queryx IN) as [P1 P2]. specialize (P2 ND). set (R := pickc as_query (br (node c alpha betas))) in *. rewrite <- P1 in LT.
    assert (IR : forall wx, In wx R -> leaf c alpha betas wx /\ In (fst wx) gcoins /\ length (snd wx) = q /\ Forall (fun x => In x gcoins) (snd wx)).
    { intros wx Hw. apply (pickc_in _ _ _ _ is_queryx) in Hw. split; [split; [exact EV|]; split; [exact Lb|]; apply snoc_along; now split|]. apply IN, in_map_iff in Hw. destruct Hw as ([w xs] & X & Hw).
      unfold XQ in X. injection X as X1 X2. apply in_prod_iff in Hw. destruct Hw as [H1 H2]. apply tuples_in in H2. rewrite <- X1, <- X2. now split. }
    set (sm := small_responses (ProofOfWorkBits (fp_Config params)) gcoins) in *. set (C := (((2 ^ n - e - 1) * b) ^ q)%nat) in *.
    assert (SM : forall wx, In wx R -> In (fst wx) sm).
    { intros wx Hw. destruct (IR wx Hw) as (LF & I1 & _). destruct (leaf_ok _ _ _ _ LF) as (_ & _ & B). apply filter_In. split; [exact I1|]. apply Z.ltb_lt.
      exact (beats_pow cd gates h vd _ _ SD B). }
    destruct (Exists_dec (fun w => C < length (seconds R w))%nat sm) as [X|X]; [intros w; apply lt_dec| |].
    2:{ exfalso. pose proof (seconds_sum R sm SM) as SUM. assert (Y : forall w, In w sm -> (length (seconds R w) <= C)%nat) by (intros w Hw; apply Nat.nlt_ge; intros Z; apply X, Exists_exists; now exists w).
        assert (Z : (list_sum (map (fun w => length (seconds R w)) sm) <= length sm * C)%nat); [|lia]. clear - Y. induction sm as [|w l IH]; [cbn; lia|]. cbn [map list_sum fold_right length Nat.mul].
        specialize (IH (fun x Hx => Y x (or_intror Hx))). specialize (Y w (in_eq _ _)). unfold list_sum in IH. lia. }
    apply Exists_exists in X. destruct X as (w & _ & LW).
    pose proof (many_positions GF_eq_dec q (seconds R w) ((2 ^ n - e - 1) * b) (seconds_nodup R w P2)) as MP. specialize (MP ltac:(apply Forall_forall; intros xs Hxs; apply seconds_in in Hxs; now destruct (IR _ Hxs) as (_ & _ & L & _)) LW).
    set (V := nodup GF_eq_dec (concat (seconds R w))) in *.
    assert (PG : (length V <= length (nodup Z.eq_dec (map (position cd) V)) * b)%nat).
    { apply pigeon. intros i. eapply Nat.le_trans; [|apply (FIB i)]. apply NoDup_incl_length; [apply NoDup_filter, NoDup_nodup|]. intros x Hx. apply filter_In in Hx. destruct Hx as [Hx Ex]. apply filter_In. split; [|exact Ex].
      apply nodup_In, in_concat in Hx. destruct Hx as (xs & H1 & H2). apply seconds_in in H1. destruct (IR _ H1) as (_ & _ & _ & F). cbn [snd] in F. rewrite Forall_forall in F. now apply F. }
    assert (IA : (length (nodup Z.eq_dec (map (position cd) V)) <= length (opened_at c alpha betas))%nat).
    { apply NoDup_incl_length; [apply NoDup_nodup|]. intros i Hi. apply nodup_In, in_map_iff in Hi. destruct Hi as (x & <- & Hx). apply nodup_In, in_concat in Hx. destruct Hx as (xs & H1 & H2). apply seconds_in in H1.
      unfold opened_at. apply nodup_In, in_concat. exists (map (position cd) xs). split; [|now apply in_map]. apply in_map_iff. exists (w, xs). now split. }
    assert (MM : (2 ^ n - e - 1 < length (opened_at c alpha betas))%nat) by (apply Nat.nle_gt; intros Z; nia). lia.
  Qed.
  Lemma node_along c alpha : along br [] (pc c) -> In alpha (pickc as_ext (br (pc c))) -> forall betas, (length betas <= k)%nat ->
    in_tree (fun pre => pickc as_ext (br (node c alpha pre))) [] betas -> along br [] (node c alpha betas).
  Proof.
    intros AL Ia betas. apply (pickc_in _ _ _ _ is_extx) in Ia. assert (A0 : along br [] (node c alpha [])) by (unfold node; cbn [map]; apply snoc_along; now split).
    assert (G : forall betas pre, along br [] (node c alpha pre) -> in_tree (fun pre => pickc as_ext (br (node c alpha pre))) pre betas -> along br [] (node c alpha (pre ++ betas))).
    { clear - A0. induction betas as [|x betas IH]; intros pre AL T; [now rewrite app_nil_r|]. cbn [in_tree] in T. destruct T as [Hx T]. replace (pre ++ x :: betas) with ((pre ++ [x]) ++ betas) by (rewrite <- app_assoc; reflexivity).
      apply IH; [|exact T]. rewrite node_snoc. apply snoc_along. split; [exact AL|]. now apply (pickc_in _ _ _ _ is_extx) in Hx. }
    intros _ T. exact (G betas [] A0 T).
  Qed.
  Lemma tree_prox c : drawn T c -> exists F G, prox_of cd P wins e c F G.
  Proof.
    intros D. destruct (drawn_along c D) as [AL EV]. pose proof SD as (((_ & _ & _ & _ & _ & C6) & _) & Ed & Hr & _).
    set (ys := map snd (filter (fun r : run_ => if chalK_dec (fst r) c then true else false) wins)).
    assert (IY : forall y, In y ys <-> In (c, y) wins).
    { intros y. unfold ys. rewrite in_map_iff. split.
      - intros ([c' y'] & <- & H). apply filter_In in H. destruct H as [H X]. cbn [fst snd] in *. destruct (chalK_dec c' c) as [->|]; [exact H|discriminate X].
      - intros H. exists (c, y). split; [reflexivity|]. apply filter_In. split; [exact H|]. cbn [fst]. now destruct (chalK_dec c c). }
    assert (TT : flat_map snd (fri_points cd (c_zeta c)) = fst (Prop_Fri.layout cd) ++ snd (Prop_Fri.layout cd)) by (unfold fri_points; cbn [flat_map snd]; now rewrite app_nil_r).
    assert (TK : forall alpha pre, In alpha (pickc as_ext (br (pc c))) -> (length pre <= k)%nat -> in_tree (fun pre => pickc as_ext (br (node c alpha pre))) [] pre -> along br [] (node c alpha pre)).
    { intros alpha pre Ia Lp Tp. now apply node_along. }
    apply (prox_from cd gates h P T wins e SD Lh He drawn_opens c ys D (fun y => proj1 (IY y)) (fun y => proj2 (IY y))).
    apply (fri_tree params (friOracles cd) (fri_points cd (c_zeta c)) _ [ConstantSigmasCap vd; p_wires P; p_zs P (c_betas c) (c_gammas c); p_quotients P (c_betas c) (c_gammas c) (c_alphas c)]
             (p_cap P c) (p_final P c) (p_answer P c) ys (pickc as_ext (br (pc c))) (fun alpha pre => pickc as_ext (br (node c alpha pre))) (opened_at c) e).
    - discriminate.
    - exact (prox_shape cd h P T Lh drawn_opens c D).
    - now rewrite Ed.
    - intros alpha betas is H. apply IY in H. exact (beats_won cd gates h vd P SD c alpha betas is (wins_beats _ H)).
    - eapply no_collision_sub; [|exact wins_nc]. intros a (alpha & betas & is & i & round & H1 & H2 & H3). apply IY in H1. exists (c, (alpha, betas, is)), i, round. split; [exact H1|]. split; [exact H2|exact H3].
    - destruct (br_in _ AL ltac:(cbn; lia)) as (ND & IN & _). cbn [length nth fs_levels app fst snd] in IN. now apply (pickc_all as_ext XExt _ _ is_extx IN).
    - destruct (br_in _ AL ltac:(cbn; lia)) as (ND & IN & LT). cbn [length nth fs_levels app fst snd] in IN, LT. rewrite TT. now rewrite (proj1 (pickc_all as_ext XExt _ _ is_extx IN)).
    - intros alpha pre Ia Lp Tp. pose proof (TK alpha pre Ia ltac:(lia) Tp) as AN. assert (LN : length (node c alpha pre) = (4 + length pre)%nat) by apply node_length.
      destruct (br_in _ AN ltac:(lia)) as (ND & IN & LT). rewrite LN, (level_fold _ Lp) in IN, LT. cbn [fst snd] in IN, LT. destruct (pickc_all as_ext XExt _ _ is_extx IN) as [P1 P2]. split; [now apply P2|]. now rewrite P1.
    - intros alpha betas Ia Lb Tb. pose proof (TK alpha betas Ia ltac:(lia) Tb) as AN. split; [apply NoDup_nodup|]. split; [now apply opened_many|].
      intros i Hi. unfold opened_at in Hi. apply nodup_In, in_concat in Hi. destruct Hi as (is & H1 & H2). apply in_map_iff in H1. destruct H1 as (wx & <- & Hw). exists (map (position cd) (snd wx)). split; [|exact H2].
      apply IY, wins_leaf. exists c, alpha, betas, wx. split; [reflexivity|]. split; [exact EV|]. split; [exact Lb|]. apply snoc_along. split; [exact AN|]. now apply (pickc_in _ _ _ _ is_queryx) in Hw.
  Qed.
  Lemma tree_refuted cs sigmas :
    length cs = cd_NumConstants cd -> length sigmas = NumRoutedWires (cd_Config cd) -> Forall (fun f => length f <= 2 ^ cd_DegreeBits cd + 1)%nat (cs ++ sigmas) ->
    ConstantSigmasCap vd = key_cap n (cs ++ sigmas) -> (forall a, key_hashed n (cs ++ sigmas) a -> S a) ->
    (forall w, ~ rows_satisfy cd gates h cs sigmas w) -> False.
  Proof.
    intros Lcs Lsg HB KEY HK UNSAT. apply (extract_unsat cd gates h vd P wins e cs sigmas SD He wins_beats Lcs Lsg HB KEY); [|exact UNSAT|].
    - eapply no_collision_sub; [|exact NC]. intros a [Ha|Ha]; [now apply wins_hashed|now apply HK].
    - exact (prox_extract cd gates h vd P T wins E e SD tree_plenty Lh (fun _ => eq_refl) He drawn_opens wins_beats wins_nc tree_prox DB).
  Qed.
End Tree.

(** ** Whatever statement is false
    The hash h of the public inputs is part of the first message: the prover chooses it.  [cs]
    and [sigmas] are the columns of the circuit. *)
Definition convinces_of_falsehood (cd : CommonCircuitData) (gates : list Gate) (vd : VerifierOnlyCircuitData) (cs sigmas : list (list GF)) (S : list Z -> Prop)
    (tau : list (message * chal)) (rounds : list FriQueryRound) : Prop :=
  exists h, length h = 4%nat /\ (forall w, ~ rows_satisfy cd gates h cs sigmas w) /\ convinces cd gates h vd S tau rounds.
Lemma nothing_alive cd gates vd S gcoins E e b cs sigmas :
  let n := LdeBits (cd_FriParams cd) in
  sound_data cd gates -> degree_bound cd gates E -> (2 * e + 2 ^ cd_DegreeBits cd < 2 ^ n)%nat -> NoDup gcoins ->
  (forall i, length (filter (fun x => if Z.eq_dec (position cd x) i then true else false) gcoins) <= b)%nat ->
  no_collision S -> (forall a, key_hashed n (cs ++ sigmas) a -> S a) ->
  length cs = cd_NumConstants cd -> length sigmas = NumRoutedWires (cd_Config cd) -> Forall (fun f => length f <= 2 ^ cd_DegreeBits cd + 1)%nat (cs ++ sigmas) ->
  ConstantSigmasCap vd = key_cap n (cs ++ sigmas) ->
  ~ alive (convinces_of_falsehood cd gates vd cs sigmas S) (fs_levels cd gcoins E e b) [].
Proof.
  intros n SD DB He NDg FIB NC HK Lcs Lsg HB KEY AL.
  destruct (alive_strategy (MStart [] []) chal_dec (convinces_of_falsehood cd gates vd cs sigmas S) (fs_levels cd gcoins E e b) [] AL) as (st & br & an & TR).
  assert (EX : forall m path, along br [] path -> (length path + m = length (fs_levels cd gcoins E e b))%nat -> exists path', along br [] path' /\ length path' = length (fs_levels cd gcoins E e b)).
  { induction m as [|m IH]; intros path A1 L1; [exists path; split; [exact A1|lia]|]. destruct (TR path A1) as [T1 _]. destruct (T1 ltac:(lia)) as (_ & _ & LT). destruct (br path) as [|x l] eqn:Eb; [cbn in LT; lia|].
    apply (IH (path ++ [x])); [apply along_app; split; [exact A1|]; cbn [along app]; rewrite Eb; split; [now left|exact I]|rewrite app_length; cbn [length]; lia]. }
  destruct (EX (length (fs_levels cd gcoins E e b)) [] I eq_refl) as (path0 & A0 & L0). destruct (proj2 (TR path0 A0) L0) as (h & Lh & UNSAT & C0).
  assert (H0 : forall h' path, convinces cd gates h' vd S ([] ++ trans st [] path) (an path) -> exists wires, st [] = MStart h' wires).
  { intros h' path (wires & l & zs & alphas & quotients & zeta & opens & alpha & folds & f & wit & w & xs & ET & _). destruct path as [|x path]; [discriminate ET|]. cbn [trans app] in ET. injection ET as E0 _ _. now exists wires. }
  destruct (H0 _ _ C0) as (wires & Est).
  apply (tree_refuted cd gates h vd S gcoins E e b SD DB Lh He NDg FIB NC st br an) with (cs := cs) (sigmas := sigmas); try assumption.
  intros path A1. destruct (TR path A1) as [T1 T2]. split; [exact T1|]. intros L1. destruct (T2 L1) as (h' & _ & _ & C1). destruct (H0 _ _ C1) as (wires' & Est'). rewrite Est in Est'. injection Est' as <- _. exact C1.
Qed.
Lemma fs_levels_nodup cd gcoins E e b : NoDup gcoins -> Forall (fun l => NoDup (fst l)) (fs_levels cd gcoins E e b).
Proof.
  intros ND. assert (NP : NoDup (list_prod gcoins gcoins)) by now apply prod_nodup.
  assert (NX : NoDup (map XExt (list_prod gcoins gcoins))) by (apply NoDup_map_in; [intros x y _ _ X; now injection X|exact NP]).
  unfold fs_levels. cbv zeta. rewrite !Forall_app. split; [|split].
  - constructor; [|constructor; [|constructor; [|constructor; [|constructor]]]]; cbn [fst]; try exact NX.
    + apply NoDup_map_in; [intros x y _ _ X; now injection X|]. now apply tuples_nodup.
    + apply NoDup_map_in; [intros x y _ _ X; now injection X|]. now apply tuples_nodup.
  - apply Forall_forall. intros l Hl. apply in_map_iff in Hl. destruct Hl as (j & <- & _). exact NX.
  - constructor; [|constructor]. cbn [fst]. apply NoDup_map_in; [intros [w xs] [w' xs'] _ _ X; unfold XQ in X; cbn [fst snd] in X; injection X as -> ->; reflexivity|]. apply prod_nodup; [exact ND|]. now apply tuples_nodup.
Qed.
