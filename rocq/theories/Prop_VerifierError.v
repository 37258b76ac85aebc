(** * Property C81: an upper bound for the soundness error of the whole verifier. *)
From Coq Require Import String.
From Coq Require Import ZArith NArith Arith Lia List Bool Ring.
From Verif Require Import Zp GF Circuit Goldilocks GLProofs ExtProofs BN254 BN254Hash Types Challenger Fri Poly Roots FriMerkle FriEval FriQuery FriTop FriFacts Honest FriSound FriRewind FriExtract Prop_Fri
  Gates GateProofs GateFilter GateCoset GateAll GateDegree Prop_Gates Plonk PlonkProofs Prop_Plonk PlonkSound PlonkRows PlonkCopy Prop_PlonkSound Verifier VerifierProofs VerifierSound Prop_VerifierSound FriForge Prop_FriSound Prop_FriQuery FriCurve FriProx FriError Game Prop_FriError VerifierError.
Import ListNotations.
Open Scope Z_scope.
Local Opaque PoseidonBN HashOrNoop TwoToOne.

(** ** C81
    A run draws NumChallenges betas, gammas and alphas from the list [gcoins], zeta, the FRI
    alpha and one folding challenge per reduction from the list [coins], and NumQueryRounds
    positions out of 2^LdeBits.  The prover sends each message knowing the challenges before it. *)
Definition drawn_from (cd : CommonCircuitData) (gcoins : list GF) (coins : list K) (r : run_) : Prop :=
  let '(c, (alpha, betas, _)) := r in
  let vector l := length l = NumChallenges (cd_Config cd) /\ Forall (fun x => In x gcoins) l in
  vector (c_betas c) /\ vector (c_gammas c) /\ vector (c_alphas c) /\ In (c_zeta c) coins /\
  In alpha coins /\ length betas = length (ReductionArityBits (cd_FriParams cd)) /\ Forall (fun b => In b coins) betas.
(** the number of all runs *)
Definition all_runs (cd : CommonCircuitData) (Qg Q : nat) : nat :=
  let nc := NumChallenges (cd_Config cd) in let k := length (ReductionArityBits (cd_FriParams cd)) in
  (Qg ^ nc * Qg ^ nc * Qg ^ nc * Q * (Q ^ (k + 1) * (2 ^ LdeBits (cd_FriParams cd)) ^ NumQueryRounds (fp_Config (cd_FriParams cd))))%nat.
(** The bound.  Divided by the number of all runs, with N = 2^LdeBits and nc = NumChallenges:
      ((N - e - 1) / N)^NumQueryRounds + t * N^2 / Q + E * 2^DegreeBits / Q + (2 * cells / Qg)^nc + (terms / Qg)^nc
    where t is the number of opened values, E the degree of the constraints in units of 2^DegreeBits. *)
Definition error_bound (cd : CommonCircuitData) (E e Qg Q : nat) : nat :=
  let nc := NumChallenges (cd_Config cd) in let k := length (ReductionArityBits (cd_FriParams cd)) in
  let q := NumQueryRounds (fp_Config (cd_FriParams cd)) in let N := (2 ^ LdeBits (cd_FriParams cd))%nat in
  let t := length (fst (Prop_Fri.layout cd) ++ snd (Prop_Fri.layout cd)) in
  let terms := (nc + nc * (NumPartialProducts cd + 1) + NumGateConstraints cd)%nat in
  let V := (Qg ^ nc)%nat in let D := (Q ^ (k + 1) * N ^ q)%nat in
  (V * V * V * Q * (Q ^ (k + 1) * (N - e - 1) ^ q + t * (N * N) * Q ^ k * N ^ q)
   + V * V * V * (E * 2 ^ cd_DegreeBits cd) * D
   + V * V * terms ^ nc * Q * D
   + V * V * (2 * length (cells cd)) ^ nc * Q * D)%nat.

(** More than m^n vectors of length n take more than m values in some component. *)
Fixpoint cart {A} (ls : list (list A)) : list (list A) := match ls with [] => [[]] | l :: ls' => flat_map (fun x => map (cons x) (cart ls')) l end.
Lemma cart_length {A} m (ls : list (list A)) : Forall (fun l => length l <= m)%nat ls -> (length (cart ls) <= m ^ length ls)%nat.
Proof.
  induction 1 as [|l ls Hl HF IH]; [cbn; lia|]. cbn [cart length Nat.pow].
  assert (E : length (flat_map (fun x => map (cons x) (cart ls)) l) = (length l * length (cart ls))%nat).
  { clear. induction l as [|x l IH]; [reflexivity|]. cbn [flat_map length Nat.mul]. now rewrite app_length, map_length, IH. }
  rewrite E. now apply Nat.mul_le_mono.
Qed.
Lemma cart_in {A} (v : list A) ls : Forall2 (fun x l => In x l) v ls -> In v (cart ls).
Proof. induction 1 as [|x l v ls Hx HF IH]; [now left|]. cbn [cart]. apply in_flat_map. exists x. split; [exact Hx|]. now apply in_map. Qed.
Lemma skipn_nth {A} (d : A) s : forall v, (s < length v)%nat -> skipn s v = nth s v d :: skipn (S s) v.
Proof. induction s as [|s IH]; intros [|x v] H; cbn [length] in H; try lia; [reflexivity|]. cbn [skipn nth]. rewrite IH by lia. reflexivity. Qed.
Lemma project {A} (dec : forall a b : A, {a = b} + {a <> b}) (d : A) m n (l : list (list A)) :
  NoDup l -> (forall v, In v l -> length v = n) -> (m ^ n < length l)%nat ->
  exists i, (i < n)%nat /\ (m < length (nodup dec (map (fun v => nth i v d) l)))%nat.
Proof.
  intros ND Ln LT. set (pr := fun i => nodup dec (map (fun v => nth i v d) l)).
  destruct (Exists_dec (fun i => m < length (pr i))%nat (seq 0 n)) as [X|X]; [intros i; apply lt_dec| |].
  - apply Exists_exists in X. destruct X as (i & Hi & L). apply in_seq in Hi. exists i. split; [lia|exact L].
  - exfalso. assert (F : Forall (fun l => length l <= m)%nat (map pr (seq 0 n))).
    { apply Forall_map, Forall_forall. intros i Hi. apply Nat.nlt_ge. intros L. apply X, Exists_exists. now exists i. }
    apply cart_length in F. rewrite map_length, seq_length in F.
    assert (I : incl l (cart (map pr (seq 0 n)))).
    { intros v Hv. apply cart_in. assert (G : forall k s, length (skipn s v) = k -> Forall2 (fun x l => In x l) (skipn s v) (map pr (seq s k))).
      { induction k as [|k IH]; intros s Lk; cbn [seq map].
        - destruct (skipn s v); [constructor|discriminate Lk].
        - assert (Hs : (s < length v)%nat) by (rewrite skipn_length in Lk; lia). rewrite (skipn_nth d s v Hs) in *. constructor; [|apply IH; cbn [length] in Lk; lia].
          apply nodup_In, in_map_iff. exists v. now split. }
      apply (G n 0%nat). now apply Ln. }
    apply (NoDup_incl_length ND) in I. lia.
Qed.
(** one vector for every value of component i *)
Fixpoint distinct (i : nat) (l : list (list GF)) : list (list GF) :=
  match l with [] => [] | v :: l' => if in_dec GF_eq_dec (nth i v g0) (map (fun b => nth i b g0) l') then distinct i l' else v :: distinct i l' end.
Lemma distinct_in i l v : In v (distinct i l) -> In v l.
Proof. induction l as [|a l IH]; [intros []|]. cbn [distinct]. destruct (in_dec _ _ _); [intros H; right; now apply IH|]. intros [->|H]; [now left|right; now apply IH]. Qed.
Lemma distinct_map i l : map (fun b => nth i b g0) (distinct i l) = nodup GF_eq_dec (map (fun b => nth i b g0) l).
Proof. induction l as [|a l IH]; [reflexivity|]. cbn [distinct map nodup]. destruct (in_dec _ _ _); [exact IH|]. cbn [map]. now rewrite IH. Qed.
(** More than 2 m |L| pairs of elements of L: more than m first components are paired with more than m second components. *)
Definition pair_dec (a b : GF * GF) : {a = b} + {a <> b}. Proof. decide equality; apply GF_eq_dec. Defined.
Definition seconds {B} (S : list (GF * B)) (b : GF) : list B := map snd (filter (fun x => if GF_eq_dec (fst x) b then true else false) S).
Lemma seconds_in {B} (S : list (GF * B)) b g : In g (seconds S b) <-> In (b, g) S.
Proof.
  unfold seconds. rewrite in_map_iff. split.
  - intros ([b' g'] & <- & H). apply filter_In in H. destruct H as [H E]. cbn [fst snd] in *. destruct (GF_eq_dec b' b) as [->|]; [exact H|discriminate E].
  - intros H. exists (b, g). split; [reflexivity|]. apply filter_In. split; [exact H|]. cbn [fst]. now destruct (GF_eq_dec b b).
Qed.
Lemma seconds_nodup {B} (S : list (GF * B)) b : NoDup S -> NoDup (seconds S b).
Proof.
  intros ND. unfold seconds. apply NoDup_map_in; [|now apply NoDup_filter]. intros [x y] [x' y'] H H' E. apply filter_In in H, H'. destruct H as [_ H], H' as [_ H']. cbn [fst snd] in *.
  destruct (GF_eq_dec x b) as [->|]; [|discriminate H]. destruct (GF_eq_dec x' b) as [->|]; [|discriminate H']. now rewrite E.
Qed.
Lemma seconds_sum {B} (S : list (GF * B)) : forall L, (forall x, In x S -> In (fst x) L) -> (length S <= list_sum (map (fun b => length (seconds S b)) L))%nat.
Proof.
  induction S as [|x S IH]; intros L H; [cbn; lia|]. cbn [length]. specialize (IH L (fun y Hy => H y (or_intror Hy))). specialize (H x (in_eq _ _)).
  assert (M : forall b, length (seconds (x :: S) b) = ((if GF_eq_dec (fst x) b then 1 else 0) + length (seconds S b))%nat).
  { intros b. unfold seconds. cbn [filter]. destruct (GF_eq_dec (fst x) b); reflexivity. }
  assert (X : (list_sum (map (fun b => length (seconds S b)) L) + 1 <= list_sum (map (fun b => length (seconds (x :: S) b)) L))%nat); [|lia].
  assert (Y : forall L', (list_sum (map (fun b => length (seconds S b)) L') <= list_sum (map (fun b => length (seconds (x :: S) b)) L'))%nat).
  { induction L' as [|b L' IHL]; [cbn; lia|]. cbn [map list_sum fold_right] in *. rewrite M. unfold list_sum in IHL. lia. }
  clear IH. induction L as [|b L IHL]; [destruct H|]. destruct H as [->|H].
  - specialize (Y L). cbn [map list_sum fold_right] in *. rewrite M. destruct (GF_eq_dec (fst x) (fst x)) as [_|N]; [|now destruct N]. unfold list_sum in Y. lia.
  - specialize (IHL H). cbn [map list_sum fold_right] in *. rewrite M. unfold list_sum in IHL. lia.
Qed.
Lemma many_pairs (L : list GF) m (S : list (GF * GF)) : NoDup L -> NoDup S -> (forall x, In x S -> In (fst x) L /\ In (snd x) L) -> (2 * m * length L < length S)%nat ->
  exists Bs, NoDup Bs /\ (m < length Bs)%nat /\ forall b, In b Bs -> (m < length (seconds S b))%nat.
Proof.
  intros NL NS H LT. exists (filter (fun b => Nat.ltb m (length (seconds S b))) L). split; [now apply NoDup_filter|]. split; [|intros b Hb; apply filter_In in Hb; now apply Nat.ltb_lt].
  apply Nat.nle_gt. intros M. pose proof (seconds_sum S L (fun x Hx => proj1 (H x Hx))) as SUM.
  assert (B : forall b, (length (seconds S b) <= length L)%nat).
  { intros b. apply NoDup_incl_length; [now apply seconds_nodup|]. intros g Hg. apply seconds_in in Hg. now apply (H (b, g)). }
  assert (X : forall q L', (forall b, length (seconds S b) <= q)%nat -> (list_sum (map (fun b => length (seconds S b)) L') <= length (filter (fun b => Nat.ltb m (length (seconds S b))) L') * q + length L' * m)%nat).
  { clear. intros q L' B. induction L' as [|b L' IH]; [cbn; lia|]. cbn [map list_sum fold_right length filter]. unfold list_sum in IH. specialize (B b).
    destruct (Nat.ltb_spec m (length (seconds S b))); cbn [length]; nia. }
  specialize (X (length L) L B). nia.
Qed.
Lemma prod_nodup {A B} (l : list A) (m : list B) : NoDup l -> NoDup m -> NoDup (list_prod l m).
Proof.
  intros Hl Hm. replace (list_prod l m) with (flat_map (fun a => map (pair a) m) l).
  - apply nodup_flat_map; [exact Hl| |].
    + intros a. apply NoDup_map_in; [intros x y _ _ E; now injection E|exact Hm].
    + intros a b x Hx Hy. apply in_map_iff in Hx. apply in_map_iff in Hy. destruct Hx as (y & <- & _). destruct Hy as (y' & E & _). now injection E as -> _.
  - clear Hl. induction l as [|a l IH]; [reflexivity|]. cbn [flat_map list_prod]. now rewrite IH.
Qed.
(** the challenges of the three levels: betas and gammas, alphas, zeta *)
Inductive draw := DPairs (l : list (GF * GF)) | DAlphas (a : list GF) | DZeta (z : K).
Definition draw_dec (a b : draw) : {a = b} + {a <> b}.
Proof. decide equality; [apply list_eq_dec, pair_dec|apply list_eq_dec, GF_eq_dec|apply K_eq_dec]. Defined.
Definition to_pairs x := match x with DPairs l => Some l | _ => None end.
Definition to_alphas x := match x with DAlphas l => Some l | _ => None end.
Definition to_zeta x := match x with DZeta l => Some l | _ => None end.
Definition pick {A} (f : draw -> option A) (l : list draw) : list A := flat_map (fun x => match f x with Some a => [a] | None => [] end) l.
Lemma pick_in {A} (f : draw -> option A) con l a : (forall x a, f x = Some a <-> x = con a) -> In a (pick f l) <-> In (con a) l.
Proof.
  intros F. unfold pick. rewrite in_flat_map. split.
  - intros (x & H & H'). destruct (f x) as [a'|] eqn:E; [|destruct H']. destruct H' as [->|[]]. apply F in E. now rewrite <- E.
  - intros H. exists (con a). split; [exact H|]. rewrite (proj2 (F _ _) eq_refl). now left.
Qed.
Lemma pick_all {A} (f : draw -> option A) con l L : (forall x a, f x = Some a <-> x = con a) -> incl l (map con L) ->
  length (pick f l) = length l /\ (NoDup l -> NoDup (pick f l)).
Proof.
  intros F. induction l as [|x l IH]; intros H; [split; [reflexivity|constructor]|]. destruct IH as [I1 I2]; [intros y Hy; apply H; now right|].
  assert (E := H x (in_eq _ _)). apply in_map_iff in E. destruct E as (v & <- & _). unfold pick in *. cbn [flat_map]. rewrite (proj2 (F _ _) eq_refl). cbn [app length]. split; [now rewrite I1|].
  intros ND. inversion ND as [|? ? N1 N2]; subst. constructor; [|now apply I2]. intros X1. apply N1. now apply (pick_in f con l).
Qed.
Lemma is_pairs x a : to_pairs x = Some a <-> x = DPairs a.
Proof. destruct x; cbn; split; intros H; try discriminate H; injection H as ->; reflexivity. Qed.
Lemma is_alphas x a : to_alphas x = Some a <-> x = DAlphas a.
Proof. destruct x; cbn; split; intros H; try discriminate H; injection H as ->; reflexivity. Qed.
Lemma is_zeta x a : to_zeta x = Some a <-> x = DZeta a.
Proof. destruct x; cbn; split; intros H; try discriminate H; injection H as ->; reflexivity. Qed.
Lemma combine_fst {A B} (a : list A) : forall b : list B, length a = length b -> map fst (combine a b) = a.
Proof. induction a as [|x a IH]; intros [|y b] H; try discriminate H; [reflexivity|]. cbn [combine map fst]. f_equal. apply IH. now injection H. Qed.
Lemma combine_snd {A B} (a : list A) : forall b : list B, length a = length b -> map snd (combine a b) = b.
Proof. induction a as [|x a IH]; intros [|y b] H; try discriminate H; [reflexivity|]. cbn [combine map snd]. f_equal. apply IH. now injection H. Qed.
Lemma combine_eta {A B} (l : list (A * B)) : combine (map fst l) (map snd l) = l.
Proof. induction l as [|[x y] l IH]; [reflexivity|]. cbn [map combine fst snd]. now rewrite IH. Qed.

(** If a prover wins more runs than the bound, then there are polynomials, whose values at a set
    G of at least 2^LdeBits - e positions are the leaves of the first two oracles in all the runs
    won, and whose rows satisfy the gates and the copy constraints. *)
Theorem C81_extract : forall cd gates h vd P gcoins coins wins E e,
  let n := LdeBits (cd_FriParams cd) in
  sound_data cd gates -> degree_bound cd gates E -> length h = 4%nat ->
  (2 * e + 2 ^ cd_DegreeBits cd < 2 ^ n)%nat ->
  NoDup gcoins -> NoDup coins -> NoDup wins ->
  (forall r, In r wins -> drawn_from cd gcoins coins r /\ openings_shape cd (p_opens P (fst r)) /\ beats cd gates h vd P r) ->
  no_collision (hashed_in P wins) ->
  (error_bound cd E e (length gcoins) (length coins) < length wins)%nat ->
  exists cs sigmas ws G,
    (length cs = cd_NumConstants cd /\ length sigmas = NumRoutedWires (cd_Config cd) /\ length ws = NumWires (cd_Config cd)) /\
    Forall (fun f => length f <= 2 ^ cd_DegreeBits cd + 1)%nat (cs ++ sigmas ++ ws) /\
    (positions_of n G /\ (2 ^ n <= length G + e)%nat /\ forall i, In i G -> exists r round, In r wins /\ answers P r i round) /\
    (forall r i round, In r wins -> In i G -> answers P r i round ->
       let values ps := map (fun f => rep (gpeval f (dom g7 n i))) ps in
       firstn (cd_NumConstants cd + NumRoutedWires (cd_Config cd)) (Elements (nth 0 (InitialTreesProof round) no_eval)) = values (cs ++ sigmas) /\
       firstn (NumWires (cd_Config cd)) (Elements (nth 1 (InitialTreesProof round) no_eval)) = values ws) /\
    satisfied cd gates h cs sigmas ws.
Proof.
  intros cd gates h vd P gcoins coins wins E e n SD DB Lh He NDg NDc NDw HW NC HL.
  set (nc := NumChallenges (cd_Config cd)). set (k := length (ReductionArityBits (cd_FriParams cd))). set (q := NumQueryRounds (fp_Config (cd_FriParams cd))).
  set (t := length (fst (Prop_Fri.layout cd) ++ snd (Prop_Fri.layout cd))).
  set (terms := (nc + nc * (NumPartialProducts cd + 1) + NumGateConstraints cd)%nat).
  set (Qg := length gcoins) in *. set (Q := length coins) in *.
  pose proof SD as (((_ & _ & _ & _ & _ & Hnc) & _) & _). fold nc in Hnc.
  set (path := fun c : chalK => [DPairs (combine (c_betas c) (c_gammas c)); DAlphas (c_alphas c); DZeta (c_zeta c)]).
  set (even := fun c : chalK => length (c_betas c) = length (c_gammas c)).
  set (ws := map (fun r : run_ => (path (fst r), snd r)) wins).
  assert (EV : forall c y, In (c, y) wins -> even c).
  { intros c [[alpha betas] is] H. destruct (HW _ H) as (((B1 & _) & (B2 & _) & _) & _). unfold even. now rewrite B1, B2. }
  assert (PI : forall c c', even c -> even c' -> path c = path c' -> c = c').
  { intros [b g a z] [b' g' a' z'] L L' X. unfold even in L, L'. unfold path in X. cbn [c_betas c_gammas c_alphas c_zeta] in *. injection X as X -> ->.
    pose proof (f_equal (map fst) X) as X1. pose proof (f_equal (map snd) X) as X2. rewrite !combine_fst in X1 by assumption. rewrite !combine_snd in X2 by assumption. now rewrite X1, X2. }
  assert (INW : forall c y, even c -> In (path c, y) ws <-> In (c, y) wins).
  { intros c y L. unfold ws. rewrite in_map_iff. split.
    - intros ([c' y'] & X & H). cbn [fst snd] in X. assert (X1 := f_equal fst X). assert (X2 := f_equal snd X). cbn [fst snd] in X1, X2. rewrite <- X2, <- (PI _ _ (EV _ _ H) L X1). exact H.
    - intros H. exists (c, y). now split. }
  assert (NDs : NoDup ws).
  { unfold ws. apply NoDup_map_in; [|exact NDw]. intros [c y] [c' y'] H H' X. assert (X1 := f_equal fst X). assert (X2 := f_equal snd X). cbn [fst snd] in X1, X2. now rewrite (PI _ _ (EV _ _ H) (EV _ _ H') X1), X2. }
  assert (Lws : length ws = length wins) by apply map_length.
  set (ps := tuples nc (list_prod gcoins gcoins)). set (vs := tuples nc gcoins).
  set (m1 := ((2 * length (cells cd) * Qg) ^ nc)%nat). set (m3 := (terms ^ nc)%nat). set (m4 := (E * 2 ^ cd_DegreeBits cd)%nat).
  set (ls := [(map DPairs ps, m1); (map DAlphas vs, m3); (map DZeta coins, m4)]).
  set (all := list_prod (list_prod coins (tuples k coins)) (tuples q (all_indices n))).
  set (C := (Q ^ (k + 1) * (2 ^ n - e - 1) ^ q + t * (2 ^ n * 2 ^ n) * Q ^ k * (2 ^ n) ^ q)%nat).
  assert (Lps : length (map DPairs ps) = (Qg ^ nc * Qg ^ nc)%nat) by (unfold ps; now rewrite map_length, tuples_length, prod_length, Nat.pow_mul_l).
  assert (Lvs : length (map DAlphas vs) = (Qg ^ nc)%nat) by (unfold vs; now rewrite map_length, tuples_length).
  assert (Lss : length (map DZeta coins) = Q) by now rewrite map_length.
  assert (Lall : length all = (Q ^ (k + 1) * (2 ^ n) ^ q)%nat).
  { unfold all. rewrite !prod_length, !tuples_length, all_indices_length. fold Q. now rewrite Nat.add_1_r. }
  assert (PAIRS : forall b g : list GF, length b = nc /\ Forall (fun x => In x gcoins) b -> length g = nc /\ Forall (fun x => In x gcoins) g -> In (combine b g) ps).
  { intros b g (Lb & Fb) (Lg & Fg). apply tuples_in. split; [rewrite combine_length; lia|]. apply Forall_forall. intros [x y] H. rewrite Forall_forall in Fb, Fg.
    apply in_prod; [now apply Fb, (in_combine_l _ _ _ _ H)|now apply Fg, (in_combine_r _ _ _ _ H)]. }
  assert (RUN : Forall (run_of all ls) ws).
  { apply Forall_forall. intros [p y] Hp. unfold ws in Hp. apply in_map_iff in Hp. destruct Hp as ([c [[alpha betas] is]] & X & H). cbn [fst snd] in X. injection X as <- <-.
    destruct (HW _ H) as ((B1 & B2 & B3 & B4 & B5 & B6 & B7) & _ & BT). pose proof (beats_won cd gates h vd P SD c alpha betas is BT) as WON.
    split; cbn [fst snd].
    - unfold path, ls. repeat constructor; cbn [fst]; [apply in_map; now apply PAIRS|apply in_map, tuples_in; exact B3|apply in_map; exact B4].
    - unfold all. apply in_prod; [apply in_prod; [exact B5|apply tuples_in; now split]|]. apply tuples_in.
      split; [exact (proj1 (won_lengths _ _ _ _ _ _ _ _ _ _ _ (oracles_nil cd) (two_batches cd (strat P) c) WON))|]. destruct WON as (_ & _ & Ei & _). rewrite <- Ei. apply Forall_forall. intros i Hi.
      apply in_map_iff in Hi. destruct Hi as (x & <- & _). apply all_indices_in. apply Z.mod_pos_bound. lia. }
  destruct (good draw_dec C ls ws) eqn:GOOD.
  2:{ exfalso. pose proof (not_good draw_dec C all ls ws NDs RUN GOOD) as NG. rewrite Lws in NG. apply (Nat.lt_irrefl (length wins)). eapply Nat.le_lt_trans; [exact NG|]. eapply Nat.le_lt_trans; [|exact HL].
      unfold ls, error_bound. cbn [bound full]. rewrite Lps, Lvs, Lss, Lall. fold nc k q t n. fold terms. fold C. unfold m1. rewrite (Nat.pow_mul_l (2 * length (cells cd)) Qg nc).
      set (V := (Qg ^ nc)%nat). set (D := (Q ^ (k + 1) * (2 ^ n) ^ q)%nat). fold m3 m4. apply Nat.eq_le_incl. ring. }
  (* the tree *)
  set (Br := branches draw_dec C ls ws).
  assert (INJ : forall {A} (con : A -> draw) f L, (forall x a, f x = Some a <-> x = con a) -> NoDup L -> NoDup (map con L)).
  { intros A con f L F NL. apply NoDup_map_in; [|exact NL]. intros x y _ _ X. pose proof (proj2 (F _ _) (eq_refl (con x))) as F1. rewrite X, (proj2 (F _ _) eq_refl) in F1. now injection F1. }
  assert (NDl : Forall (fun l : list draw * nat => NoDup (fst l)) ls).
  { unfold ls. apply Forall_cons; [|apply Forall_cons; [|apply Forall_cons; [|apply Forall_nil]]]; cbn [fst].
    - apply (INJ _ _ _ _ is_pairs). now apply tuples_nodup, prod_nodup.
    - apply (INJ _ _ _ _ is_alphas). now apply tuples_nodup.
    - now apply (INJ _ _ _ _ is_zeta). }
  assert (BN : forall pre, NoDup (Br pre)) by (intros pre; now apply branches_nodup).
  set (T := mkCoins (map (map fst) (pick to_pairs (Br [])))
                    (fun b => map (map snd) (filter (fun l => if list_eq_dec GF_eq_dec (map fst l) b then true else false) (pick to_pairs (Br []))))
                    (fun b g => pick to_alphas (Br [DPairs (combine b g)])) (fun b g a => pick to_zeta (Br [DPairs (combine b g); DAlphas a])) (fun _ => []) (fun _ _ _ => [])).
  assert (INCL : forall pre, incl (Br pre) (fst (nth (length pre) ls ([], 0%nat)))).
  { intros pre x Hx. unfold Br, branches in Hx. now apply filter_In in Hx. }
  assert (INB : forall l, In l (pick to_pairs (Br [])) -> In (DPairs l) (Br []) /\ length l = nc /\ forall x, In x l -> In (fst x) gcoins /\ In (snd x) gcoins).
  { intros l Hl. apply (pick_in _ _ _ _ is_pairs) in Hl. split; [exact Hl|]. apply INCL in Hl. cbn [length nth ls fst] in Hl. apply in_map_iff in Hl. destruct Hl as (l' & X & Hl). injection X as ->.
    apply tuples_in in Hl. destruct Hl as [Ll Fl]. split; [exact Ll|]. rewrite Forall_forall in Fl. intros [x y] Hx. apply Fl, in_prod_iff in Hx. exact Hx. }
  assert (ING : forall b g, In b (k_betas T) -> In g (k_gammas T b) -> In (DPairs (combine b g)) (Br []) /\ length b = nc /\ length g = nc).
  { intros b g _ Hg. unfold T in Hg. cbn [k_gammas] in Hg. apply in_map_iff in Hg. destruct Hg as (l & <- & Hl). apply filter_In in Hl. destruct Hl as [Hl X].
    destruct (list_eq_dec GF_eq_dec (map fst l) b) as [<-|]; [|discriminate X]. rewrite combine_eta. destruct (INB l Hl) as (I1 & I2 & _). now rewrite !map_length. }
  assert (INP : forall l, In l (pick to_pairs (Br [])) -> In (map fst l) (k_betas T) /\ In (map snd l) (k_gammas T (map fst l))).
  { intros l Hl. unfold T. cbn [k_betas k_gammas]. split; [now apply in_map|]. apply in_map. apply filter_In. split; [exact Hl|]. now destruct (list_eq_dec GF_eq_dec (map fst l) (map fst l)). }
  assert (INA : forall b g a, In a (k_alphas T b g) -> In (DAlphas a) (Br [DPairs (combine b g)]) /\ length a = nc).
  { intros b g a Ha. unfold T in Ha. cbn [k_alphas] in Ha. apply (pick_in _ _ _ _ is_alphas) in Ha. split; [exact Ha|]. apply INCL in Ha. cbn [length nth ls fst] in Ha. apply in_map_iff in Ha.
    destruct Ha as (a' & X & Ha). injection X as ->. now apply tuples_in in Ha. }
  assert (MORE : forall pre, (length pre < 3)%nat -> along Br [] pre -> (snd (nth (length pre) ls ([], 0%nat)) < length (Br pre))%nat).
  { intros pre Lp A. pose proof (good_along draw_dec C ls ws pre [] GOOD A) as GA. cbn [app] in GA. exact (good_branches draw_dec C ls ws pre ltac:(cbn [length ls]; lia) GA). }
  assert (PATH : forall c, drawn T c -> along Br [] (path c)).
  { intros c (D1 & D2 & D3 & D4). unfold path. cbn [along app]. split; [now apply ING|]. split; [now apply INA|]. split; [|exact I]. unfold T in D4. cbn [k_zetas] in D4. now apply (pick_in _ _ _ _ is_zeta) in D4. }
  assert (EVEN : forall c, drawn T c -> even c).
  { intros c (D1 & D2 & _). destruct (ING _ _ D1 D2) as (_ & L1 & L2). unfold even. now rewrite L1, L2. }
  assert (EN : plenty cd E T).
  { unfold plenty. fold nc. split; [|split].
    - destruct (pick_all to_pairs DPairs (Br []) _ is_pairs (INCL [])) as [P1 P2].
      destruct (project pair_dec (g0, g0) (2 * length (cells cd) * Qg) nc (pick to_pairs (Br [])) (P2 (BN []))) as (ch & Hch & LS).
      + intros v Hv. now apply INB.
      + rewrite P1. exact (MORE [] ltac:(cbn; lia) I).
      + set (S := nodup pair_dec (map (fun v => nth ch v (g0, g0)) (pick to_pairs (Br [])))) in *.
        assert (IS : forall x, In x S -> exists l, In l (pick to_pairs (Br [])) /\ nth ch l (g0, g0) = x /\ In x l).
        { intros x Hx. apply nodup_In, in_map_iff in Hx. destruct Hx as (l & <- & Hl). exists l. split; [exact Hl|]. split; [reflexivity|]. apply nth_In. destruct (INB l Hl) as (_ & -> & _). exact Hch. }
        destruct (many_pairs gcoins (length (cells cd)) S NDg (NoDup_nodup _ _)) as (Bs & NB & LB & HB).
        { intros x Hx. destruct (IS x Hx) as (l & Hl & _ & Ix). destruct (INB l Hl) as (_ & _ & F). now apply F. }
        { exact LS. }
        exists ch, Bs, (seconds S). split; [exact Hch|]. split; [exact NB|]. split; [exact LB|]. intros beta Hb. split; [apply seconds_nodup, NoDup_nodup|]. split; [now apply HB|].
        intros gamma Hg. apply seconds_in in Hg. destruct (IS _ Hg) as (l & Hl & X & _). destruct (INP l Hl) as [I1 I2]. exists (map fst l), (map snd l). split; [exact I1|]. split; [exact I2|].
        pose proof (map_nth fst l (g0, g0) ch) as M1. pose proof (map_nth snd l (g0, g0) ch) as M2. rewrite X in M1, M2. now split.
    - intros b g Hb Hg. destruct (ING b g Hb Hg) as (I1 & L1 & L2). split; [exact L1|]. split; [exact L2|].
      destruct (pick_all to_alphas DAlphas (Br [DPairs (combine b g)]) _ is_alphas (INCL [DPairs (combine b g)])) as [P1 P2].
      destruct (project GF_eq_dec g0 terms nc (k_alphas T b g)) as (i & Hi & LA).
      + exact (P2 (BN _)).
      + intros v Hv. now apply (INA b g).
      + unfold T. cbn [k_alphas]. rewrite P1. exact (MORE [DPairs (combine b g)] ltac:(cbn; lia) (conj I1 I)).
      + exists i, (distinct i (k_alphas T b g)). split; [intros a; apply distinct_in|]. split; [exact Hi|]. rewrite distinct_map. split; [apply NoDup_nodup|].
        rewrite <- (map_length (fun a => nth i a g0)), distinct_map. fold nc. fold terms. lia.
    - intros b g a Hb Hg Ha. destruct (ING b g Hb Hg) as (I1 & _). destruct (INA b g a Ha) as (I2 & L2). split; [exact L2|].
      destruct (pick_all to_zeta DZeta (Br [DPairs (combine b g); DAlphas a]) _ is_zeta (INCL [DPairs (combine b g); DAlphas a])) as [P1 P2].
      unfold T. cbn [k_zetas]. split; [exact (P2 (BN _))|]. rewrite P1. exact (MORE [DPairs (combine b g); DAlphas a] ltac:(cbn; lia) (conj I1 (conj I2 I))). }
  assert (LEAF : forall c p y, even c -> In (p, y) (subs draw_dec (path c) ws) -> p = [] /\ In (c, y) wins).
  { intros c p y EC H. apply subs_in in H. assert (L : length (path c ++ p) = 3%nat).
    { unfold ws in H. apply in_map_iff in H. destruct H as (r & X & _). apply (f_equal fst) in X. cbn [fst] in X. now rewrite <- X. }
    destruct p as [|x p]; [|cbn [path app length] in L; lia]. rewrite app_nil_r in H. split; [reflexivity|now apply INW]. }
  assert (FEW : forall c, drawn T c -> (C < length (subs draw_dec (path c) ws))%nat).
  { intros c D. exact (good_leaf draw_dec C ls ws (path c) GOOD eq_refl (PATH c D)). }
  assert (HO : forall c, drawn T c -> openings_shape cd (p_opens P c)).
  { intros c D. pose proof (FEW c D) as L. destruct (subs draw_dec (path c) ws) as [|[p y] l] eqn:X; [cbn [length] in L; lia|].
    destruct (LEAF c p y (EVEN c D) ltac:(rewrite X; now left)) as [_ H]. exact (proj1 (proj2 (HW _ H))). }
  assert (WIN : forall r, In r wins -> beats cd gates h vd P r) by (intros r Hr; now apply HW).
  apply (prox_extract cd gates h vd P T wins E e SD EN Lh (fun _ => eq_refl) He HO WIN NC); [|exact DB].
  intros c D. apply (prox_exists cd gates h vd P T wins e SD Lh He HO WIN NC coins c D NDc (map snd (subs draw_dec (path c) ws))).
  - apply snd_nodup; [now apply subs_nodup|]. intros [p y] Hp. exact (proj1 (LEAF c p y (EVEN c D) Hp)).
  - intros y. rewrite in_map_iff. split.
    + intros ([p y'] & <- & Hp). cbn [snd]. exact (proj2 (LEAF c p y' (EVEN c D) Hp)).
    + intros H. exists ([], y). split; [reflexivity|]. apply subs_in. rewrite app_nil_r. apply INW; [now apply EVEN|exact H].
  - intros alpha betas is H. destruct (HW _ H) as ((_ & _ & _ & _ & B5 & B6 & B7) & _). now repeat split.
  - rewrite map_length. exact (FEW c D).
Qed.
Print Assumptions C81_extract.

(** ** False statements
    The verifier data is the Merkle cap of the values of the polynomials cs, sigmas: the constants
    and the permutation of the circuit. *)
Definition key_leaf (n : nat) (ps : list (list GF)) (i : Z) : list Z := map (fun f => rep (gpeval f (dom g7 n i))) ps.
Definition key_cap (n : nat) (ps : list (list GF)) : FriMerkleCap := cap_of (fun i => HashOrNoop (key_leaf n ps i)) (n - 4).
Definition key_hashed (n : nat) (ps : list (list GF)) (a : list Z) : Prop :=
  exists i, 0 <= i < 2 ^ Z.of_nat n /\ In a (opening_inputs (key_leaf n ps i) i (path (fun i => HashOrNoop (key_leaf n ps i)) (n - 4) i)).
(** the table w of wire values (w k: row k) satisfies the gates named by the selectors of the
    rows and is constant along the permutation *)
Definition rows_satisfy (cd : CommonCircuitData) (gates : list Gate) (h : list GF) (cs sigmas : list (list GF)) (w : nat -> list GF) : Prop :=
  (forall k, length (w k) = NumWires (cd_Config cd)) /\
  (forall k j, (k < 2 ^ cd_DegreeBits cd)%nat -> selects (cd_SelectorsInfo cd) (length gates) (map emb (grow cd cs k)) j ->
     computes (EvalUnfiltered (nth j gates NoopGate) (mkvars (skipn (length (groups (cd_SelectorsInfo cd))) (map emb (grow cd cs k))) (map emb (w k)) h))
              (repeat (0, 0) (num_constraints (nth j gates NoopGate)))) /\
  (NoDup (map (cell_label cd (map inj (KIs cd))) (cells cd)) ->
   forall s t, In s (cells cd) -> In t (cells cd) ->
     gcell cd sigmas t = (nth (snd s) (map inj (KIs cd)) g0 * root (cd_DegreeBits cd) ^ N.of_nat (fst s))%GF ->
     nth (snd t) (w (fst t)) g0 = nth (snd s) (w (fst s)) g0).

Lemma no_collision_sub (S S' : list Z -> Prop) : (forall a, S a -> S' a) -> no_collision S' -> no_collision S.
Proof. intros H N a b Ha Hb. apply N; now apply H. Qed.
Lemma key_bound n ps S i round cap caps params oracles : no_collision S -> (forall a, key_hashed n ps a -> S a) -> 0 <= i < 2 ^ Z.of_nat n ->
  n = LdeBits params -> CapHeight (fp_Config params) = 4%nat -> length ps = NumPolys (nth 0 oracles (mkOracleInfo 0 false)) -> Blinding (nth 0 oracles (mkOracleInfo 0 false)) = false -> oracles <> [] ->
  canon_round round -> siblings_ok round -> FriQuery.round_shape params oracles round ->
  initial_ok i (i / 2 ^ Z.of_nat (n - 4)) (InitialTreesProof round) (cap :: caps) -> cap = key_cap n ps ->
  (forall a, In a (round_inputs round i) -> S a) ->
  Elements (nth 0 (InitialTreesProof round) no_eval) = key_leaf n ps i.
Proof.
  intros N HK Hi En Hc Lp Hb Hor (C1 & _) (I1 & _) (Sh1 & Sh2 & _) O1 -> HS.
  destruct oracles as [|o os]; [contradiction|]. cbn [nth] in Lp, Hb. destruct (InitialTreesProof round) as [|e0 tr] eqn:Et; [discriminate Sh1|]. cbn [combine] in Sh2.
  inversion Sh2 as [|? ? [S1 S2] _]; subst. cbn [fst snd] in S1, S2. rewrite Hb in S1. cbn [andb] in S1. rewrite Nat.add_0_r in S1. cbn [nth].
  set (n := LdeBits params) in *. assert (H4 : (4 <= n)%nat) by lia.
  pose proof (initial_nth _ _ 0 _ _ O1 ltac:(cbn [length]; lia)) as R1. cbn [nth] in R1.
  pose proof (initial_nth _ _ 0 _ _ (honest_initial [ps] (fun _ _ => []) n i H4 Hi) ltac:(unfold honest_trees; rewrite map_length, seq_length; cbn [length]; lia)) as R2.
  unfold honest_trees, honest_caps in R2. cbn [length seq map nth Elements ep_Siblings] in R2.
  assert (LE : forall j, honest_leaf [ps] (fun _ _ => []) n 0 j = key_leaf n ps j) by (intros j; unfold honest_leaf; cbn [nth]; apply app_nil_r).
  assert (LD : forall j, leaf_digest [ps] (fun _ _ => []) n 0 j = HashOrNoop (key_leaf n ps j)) by (intros j; unfold leaf_digest; now rewrite LE).
  assert (EX : forall (L L' : Z -> Z), (forall j, L j = L' j) -> forall m, cap_of L m = cap_of L' m /\ forall j, path L m j = path L' m j).
  { intros L L' H m. split.
    - unfold cap_of. apply map_ext. intros j. assert (LV : forall k L L', (forall j, L j = L' j) -> forall j, layer L k j = layer L' k j); [|now apply LV].
      clear. induction k as [|k IH]; intros L L' H j; cbn [layer]; [apply H|]. apply IH. intros x. unfold up. now rewrite !H.
    - revert L L' H. induction m as [|m IH]; intros L L' H j; [reflexivity|]. cbn [path]. f_equal; [apply H|]. apply IH. intros x. unfold up. now rewrite !H. }
  destruct (EX _ _ LD (n - 4)%nat) as [E1 E2]. rewrite E1, E2, LE in R2. clear E1 E2 LE LD EX.
  unfold canon_leaves in C1. inversion C1 as [|? ? C1' _]; subst. inversion I1 as [|? ? I1' _]; subst.
  apply (opening_unique S _ _ i (ep_Siblings e0) (path (fun j => HashOrNoop (key_leaf n ps j)) (n - 4) i) N).
  - intros a Ha. apply HS. unfold round_inputs. apply in_or_app. left. rewrite Et. cbn [flat_map]. apply in_or_app. now left.
  - intros a Ha. apply HK. exists i. now split.
  - unfold key_leaf. now rewrite map_length, Lp.
  - rewrite path_length. fold n in S2. lia.
  - eapply Forall_impl; [exact canon_is64|exact C1'].
  - unfold key_leaf. apply Forall_map, Forall_forall. intros f _. apply canon_is64, rep_range.
  - exact I1'.
  - apply path_range. intros j. apply HashOrNoop_range.
  - rewrite R1, R2. reflexivity.
Qed.

(** no such polynomials if the key is the key of a circuit without an assignment *)
Lemma extract_unsat cd gates h vd P wins e cs sigmas : let n := LdeBits (cd_FriParams cd) in
  sound_data cd gates -> (2 * e + 2 ^ cd_DegreeBits cd < 2 ^ n)%nat ->
  (forall r, In r wins -> beats cd gates h vd P r) ->
  length cs = cd_NumConstants cd -> length sigmas = NumRoutedWires (cd_Config cd) -> Forall (fun f => length f <= 2 ^ cd_DegreeBits cd + 1)%nat (cs ++ sigmas) ->
  ConstantSigmasCap vd = key_cap n (cs ++ sigmas) ->
  no_collision (fun a => hashed_in P wins a \/ key_hashed n (cs ++ sigmas) a) ->
  (forall w, ~ rows_satisfy cd gates h cs sigmas w) ->
  ~ exists cs sigmas ws G,
    (length cs = cd_NumConstants cd /\ length sigmas = NumRoutedWires (cd_Config cd) /\ length ws = NumWires (cd_Config cd)) /\
    Forall (fun f => length f <= 2 ^ cd_DegreeBits cd + 1)%nat (cs ++ sigmas ++ ws) /\
    (positions_of n G /\ (2 ^ n <= length G + e)%nat /\ forall i, In i G -> exists r round, In r wins /\ answers P r i round) /\
    (forall r i round, In r wins -> In i G -> answers P r i round ->
       let values ps := map (fun f => rep (gpeval f (dom g7 n i))) ps in
       firstn (cd_NumConstants cd + NumRoutedWires (cd_Config cd)) (Elements (nth 0 (InitialTreesProof round) no_eval)) = values (cs ++ sigmas) /\
       firstn (NumWires (cd_Config cd)) (Elements (nth 1 (InitialTreesProof round) no_eval)) = values ws) /\
    satisfied cd gates h cs sigmas ws.
Proof.
  intros n SD He WIN Lcs Lsg HB KEY NC UNSAT (cs' & sigmas' & ws & G & (L1 & L2 & L3) & B & (PG & LG & OG) & LV & (SG & SC)). fold n in PG, LG, LV.
  (* the leaves of the key *)
  assert (KL : forall r i round, In r wins -> In i G -> answers P r i round -> key_leaf n (cs ++ sigmas) i = key_leaf n (cs' ++ sigmas') i /\ (n <= 32)%nat).
  { intros [c y] i round Hr Hi Ha. assert (S : seen P wins c i round) by (exists y; now split).
    destruct (seen_answered cd gates h vd P wins SD WIN c i round S) as (alpha & betas & A).
    destruct (answered_round _ _ _ _ _ _ _ _ _ _ _ (oracles_nil cd) (two_batches cd (strat P) c) A) as (C1 & I1 & Sh1 & _ & Hn & Hc & _ & _ & O1 & _). split; [|exact Hn].
    destruct (LV _ _ _ Hr Hi Ha) as [LV1 _].
    assert (KB : Elements (nth 0 (InitialTreesProof round) no_eval) = key_leaf n (cs ++ sigmas) i).
    { refine (key_bound n (cs ++ sigmas) _ i round _ _ (cd_FriParams cd) (friOracles cd) NC (fun a H => or_intror H) _ eq_refl Hc _ eq_refl (oracles_nil cd) C1 I1 Sh1 O1 KEY _).
      - destruct PG as [_ PG]. rewrite Forall_forall in PG. now apply PG.
      - unfold friOracles. cbn [nth NumPolys]. rewrite app_length, Lcs, Lsg. unfold numPreprocessedPolys, sigmasRange. rewrite last_seq; lia.
      - intros a Ha'. left. exists (c, y), i, round. now repeat split. }
    rewrite KB in LV1. rewrite firstn_all2 in LV1; [exact LV1|]. unfold key_leaf. rewrite map_length, app_length. lia. }
  destruct G as [|i0 G']; [cbn [length] in LG; lia|]. destruct (OG i0 (in_eq _ _)) as (r0 & round0 & Hr0 & Ha0). pose proof (proj2 (KL _ _ _ Hr0 (in_eq _ _) Ha0)) as Hn. set (G := i0 :: G') in *. clearbody G.
  assert (SAME : forall j, (j < length (cs ++ sigmas))%nat -> forall x, gpeval (nth j (cs ++ sigmas) []) x = gpeval (nth j (cs' ++ sigmas') []) x).
  { intros j Hj x. apply emb_inj. rewrite <- !kpeval_emb. revert x.
    enough (X : forall x, kpeval (map emb (nth j (cs ++ sigmas) [])) x = kpeval (map emb (nth j (cs' ++ sigmas') [])) x) by (intros x; apply X).
    rewrite Forall_forall in HB, B.
    apply (kpeval_same n G); [unfold TWO_ADICITY; exact Hn|exact PG| | |].
    - rewrite map_length. specialize (HB (nth j (cs ++ sigmas) []) (nth_In _ _ Hj)). lia.
    - rewrite map_length. assert (X : In (nth j (cs' ++ sigmas') []) (cs' ++ sigmas')) by (apply nth_In; rewrite app_length in *; lia).
      specialize (B (nth j (cs' ++ sigmas') [])). rewrite app_assoc in B. specialize (B ltac:(apply in_or_app; now left)). lia.
    - intros i Hi. rewrite !kpeval_emb. f_equal. apply GF_eq. destruct (OG i Hi) as (r & round & Hr & Ha). destruct (KL r i round Hr Hi Ha) as [KE _].
      apply (f_equal (fun l => nth j l 0)) in KE. unfold key_leaf in KE. rewrite !(nth_map_lt _ _ _ _ (@nil GF)) in KE by (rewrite app_length in *; lia). exact KE. }
  assert (GC : forall k, grow cd cs' k = grow cd cs k).
  { intros k. unfold grow. apply (nth_ext _ _ g0 g0); [rewrite !map_length; lia|]. intros j Hj. rewrite map_length in Hj. rewrite !(nth_map_lt _ _ _ _ (@nil GF)) by lia.
    specialize (SAME j ltac:(rewrite app_length; lia)). rewrite !app_nth1 in SAME by lia. symmetry. apply SAME. }
  assert (GS : forall t, (snd t < length sigmas)%nat -> gcell cd sigmas' t = gcell cd sigmas t).
  { intros t Ht. unfold gcell. specialize (SAME (length cs + snd t)%nat ltac:(rewrite app_length; lia)). rewrite !app_nth2 in SAME by lia.
    replace (length cs + snd t - length cs)%nat with (snd t) in SAME by lia. replace (length cs + snd t - length cs')%nat with (snd t) in SAME by lia. symmetry. apply SAME. }
  pose proof SD as (((_ & _ & _ & _ & Hq & _) & _) & _ & _ & (Hw & _) & _).
  assert (CL : forall s, In s (cells cd) -> (snd s < NumRoutedWires (cd_Config cd))%nat).
  { intros [a b] Hs. unfold cells in Hs. apply in_prod_iff in Hs. destruct Hs as [_ Hs]. apply in_seq in Hs. cbn [snd]. lia. }
  apply (UNSAT (grow cd ws)). split; [|split].
  - intros k. unfold grow. now rewrite map_length.
  - intros k j _. rewrite <- GC. apply SG.
  - intros NL s t Hs Ht Est. rewrite <- GS in Est by (rewrite Lsg; now apply CL). pose proof (SC NL s t Hs Ht Est) as X.
    assert (CV : forall u, In u (cells cd) -> nth (snd u) (grow cd ws (fst u)) g0 = gcell cd ws u).
    { intros u Hu. unfold grow, gcell. apply CL in Hu. now rewrite (nth_map_lt _ _ _ _ (@nil GF)) by lia. }
    now rewrite !CV.
Qed.
Theorem C81_error : forall cd gates h vd P gcoins coins wins E e cs sigmas,
  let n := LdeBits (cd_FriParams cd) in
  sound_data cd gates -> degree_bound cd gates E -> length h = 4%nat ->
  (2 * e + 2 ^ cd_DegreeBits cd < 2 ^ n)%nat ->
  NoDup gcoins -> NoDup coins -> NoDup wins ->
  (forall r, In r wins -> drawn_from cd gcoins coins r /\ openings_shape cd (p_opens P (fst r)) /\ beats cd gates h vd P r) ->
  length cs = cd_NumConstants cd -> length sigmas = NumRoutedWires (cd_Config cd) -> Forall (fun f => length f <= 2 ^ cd_DegreeBits cd + 1)%nat (cs ++ sigmas) ->
  ConstantSigmasCap vd = key_cap n (cs ++ sigmas) ->
  no_collision (fun a => hashed_in P wins a \/ key_hashed n (cs ++ sigmas) a) ->
  (forall w, ~ rows_satisfy cd gates h cs sigmas w) ->
  (length wins <= error_bound cd E e (length gcoins) (length coins))%nat.
Proof.
  intros cd gates h vd P gcoins coins wins E e cs sigmas n SD DB Lh He NDg NDc NDw HW Lcs Lsg HB KEY NC UNSAT. apply Nat.nlt_ge. intros HL.
  apply (extract_unsat cd gates h vd P wins e cs sigmas SD He (fun r Hr => proj2 (proj2 (HW r Hr))) Lcs Lsg HB KEY NC UNSAT).
  exact (C81_extract cd gates h vd P gcoins coins wins E e SD DB Lh He NDg NDc NDw HW (no_collision_sub _ _ (fun a H => or_introl H) NC) HL).
Qed.
Print Assumptions C81_error.

(** ** The bound as a fraction of all runs *)
Theorem C81_fraction : forall cd E e Qg Q m a,
  let q := NumQueryRounds (fp_Config (cd_FriParams cd)) in let N := (2 ^ LdeBits (cd_FriParams cd))%nat in
  let t := length (fst (Prop_Fri.layout cd) ++ snd (Prop_Fri.layout cd)) in let nc := NumChallenges (cd_Config cd) in
  let terms := (nc + nc * (NumPartialProducts cd + 1) + NumGateConstraints cd)%nat in let V := (Qg ^ nc)%nat in
  (m * (V * Q * (N - e - 1) ^ q + (V * (t * (N * N) + E * 2 ^ cd_DegreeBits cd) + ((2 * length (cells cd)) ^ nc + terms ^ nc) * Q) * N ^ q) <= a * (V * Q * N ^ q))%nat ->
  (m * error_bound cd E e Qg Q <= a * all_runs cd Qg Q)%nat.
Proof.
  intros cd E e Qg Q m a q N t nc terms V H. unfold error_bound, all_runs. fold nc q N t. fold terms V. set (k := length (ReductionArityBits (cd_FriParams cd))).
  set (cl := ((2 * length (cells cd)) ^ nc)%nat) in *. set (tm := (terms ^ nc)%nat) in *. set (ed := (E * 2 ^ cd_DegreeBits cd)%nat) in *. clearbody cl tm ed V t N q k. clear - H.
  rewrite Nat.add_1_r, Nat.pow_succ_r'.
  apply (Nat.mul_le_mono_l _ _ (V * V * (Q * Q ^ k))) in H.
  set (M := ((N - e - 1) ^ q)%nat) in *. set (Nq := (N ^ q)%nat) in *. set (b := (Q ^ k)%nat) in *. clearbody M Nq b.
  eapply Nat.le_trans; [|eapply Nat.le_trans; [exact H|]]; apply Nat.eq_le_incl; ring.
Qed.
Print Assumptions C81_fraction.

Lemma fraction_mono m V Q M R n2 n1 c x y z x' y' z' : 0 <= m -> 0 <= V -> 0 <= Q -> 0 <= R -> 0 <= n2 -> 0 <= n1 -> x <= x' -> 0 <= y <= y' -> z <= z' ->
  m * (V * Q * M + (V * (x * n2 + z * n1) + (c + y ^ 2) * Q) * R) <= m * (V * Q * M + (V * (x' * n2 + z' * n1) + (c + y' ^ 2) * Q) * R).
Proof.
  intros Hm HV HQ HR H2 H1 Hx Hy Hz. apply Z.mul_le_mono_nonneg_l; [assumption|]. apply Z.add_le_mono_l. apply Z.mul_le_mono_nonneg_r; [assumption|].
  apply Z.add_le_mono.
  - apply Z.mul_le_mono_nonneg_l; [assumption|]. apply Z.add_le_mono; apply Z.mul_le_mono_nonneg_r; assumption.
  - apply Z.mul_le_mono_nonneg_r; [assumption|]. apply Z.add_le_mono_l. now apply Z.pow_le_mono_l.
Qed.

(** The test data of the repository (testdata/decode_block and testdata/step,
    common_circuit_data.json): 2^12 or 2^13 rows, rate 1/8, 28 queries, two reductions, two
    challenges, 80 routed wires, 136 wires, 9 partial products, degree factor 8.  If the
    challenges are drawn from the whole fields, a prover of a false statement wins at most the
    fraction (9/16)^28 + 2^-86 of the runs, which is less than one in 2^23 (the proof of work
    is not counted): all the other challenges together contribute less than 2^-86. *)
Theorem C81_testdata : forall cd E e Qg Q,
  let d := cd_DegreeBits cd in
  (d = 12 \/ d = 13)%nat -> fp_DegreeBits (cd_FriParams cd) = d -> RateBits (fp_Config (cd_FriParams cd)) = 3%nat -> NumQueryRounds (fp_Config (cd_FriParams cd)) = 28%nat ->
  NumChallenges (cd_Config cd) = 2%nat -> NumRoutedWires (cd_Config cd) = 80%nat -> NumWires (cd_Config cd) = 136%nat -> NumPartialProducts cd = 9%nat -> QuotientDegreeFactor cd = 8%nat ->
  (cd_NumConstants cd <= 100)%nat -> (NumGateConstraints cd <= 1000)%nat -> (E <= 100)%nat ->
  e = (7 * 2 ^ (d - 1) - 1)%nat -> Z.of_nat Qg = p -> Z.of_nat Q = p * p ->
  (2 * e + 2 ^ d < 2 ^ LdeBits (cd_FriParams cd))%nat /\
  Z.of_nat (error_bound cd E e Qg Q) * (16 ^ 28 * 2 ^ 86) <= Z.of_nat (all_runs cd Qg Q) * (9 ^ 28 * 2 ^ 86 + 16 ^ 28) /\
  Z.of_nat (error_bound cd E e Qg Q) * 2 ^ 23 <= Z.of_nat (all_runs cd Qg Q).
Proof.
  intros cd E e Qg Q d Hd Ed Hr Hq Hnc Hrw Hw Hpp Hqf Hc Hg HE He HQg HQ.
  assert (EN : LdeBits (cd_FriParams cd) = (4 + (d - 1))%nat) by (unfold LdeBits; destruct Hd; lia).
  assert (P2 : (2 ^ d = 2 * 2 ^ (d - 1))%nat) by (rewrite <- Nat.pow_succ_r'; f_equal; destruct Hd; lia).
  assert (P1 : (1 <= 2 ^ (d - 1))%nat) by (pose proof (Nat.pow_nonzero 2 (d - 1)); lia).
  assert (PN : (2 ^ LdeBits (cd_FriParams cd) = 16 * 2 ^ (d - 1))%nat) by (rewrite EN, Nat.pow_add_r; reflexivity).
  split; [lia|].
  enough (X : Z.of_nat (error_bound cd E e Qg Q) * (16 ^ 28 * 2 ^ 86) <= Z.of_nat (all_runs cd Qg Q) * (9 ^ 28 * 2 ^ 86 + 16 ^ 28)).
  { split; [exact X|]. assert (A : 0 <= Z.of_nat (all_runs cd Qg Q)) by apply Nat2Z.is_nonneg. revert X A. generalize (Z.of_nat (error_bound cd E e Qg Q)) (Z.of_nat (all_runs cd Qg Q)). clear. intros x y X A.
    apply (Z.mul_le_mono_pos_r _ _ (16 ^ 28 * 2 ^ 86)); [now vm_compute|]. rewrite <- Z.mul_assoc, (Z.mul_comm (2 ^ 23)), Z.mul_assoc.
    eapply Z.le_trans; [apply Z.mul_le_mono_nonneg_r; [now vm_compute|exact X]|]. rewrite <- Z.mul_assoc. apply Z.mul_le_mono_nonneg_l; [exact A|]. apply Z.leb_le. vm_compute. reflexivity. }
  destruct (Z_of_nat_complete (16 ^ 28 * 2 ^ 86) ltac:(now vm_compute)) as [m T1]. destruct (Z_of_nat_complete (9 ^ 28 * 2 ^ 86 + 16 ^ 28) ltac:(now vm_compute)) as [a T2].
  rewrite T1, T2, <- !Nat2Z.inj_mul, (Nat.mul_comm _ m), (Nat.mul_comm _ a). apply inj_le. apply C81_fraction.
  apply Nat2Z.inj_le. rewrite PN, Hq, He. replace (16 * 2 ^ (d - 1) - (7 * 2 ^ (d - 1) - 1) - 1)%nat with (9 * 2 ^ (d - 1))%nat by lia.
  assert (T : (length (fst (Prop_Fri.layout cd) ++ snd (Prop_Fri.layout cd)) <= 400)%nat).
  { unfold Prop_Fri.layout. cbn [fst snd]. rewrite !app_length, !map_length, !seq_length. lia. }
  assert (CL : length (cells cd) = (80 * 2 ^ d)%nat) by (unfold cells; rewrite prod_length, !seq_length, Hpp, Hqf; apply Nat.mul_comm).
  rewrite CL, Hnc, Hpp. set (t := length (fst (Prop_Fri.layout cd) ++ snd (Prop_Fri.layout cd))) in *.
  assert (B4 : (2 + 2 * (9 + 1) + NumGateConstraints cd <= 1022)%nat) by lia. set (tm := (2 + 2 * (9 + 1) + NumGateConstraints cd)%nat) in *. clearbody tm.
  repeat first [rewrite Nat2Z.inj_mul | rewrite Nat2Z.inj_add | rewrite Nat2Z.inj_pow]. rewrite HQg, HQ, <- T1, <- T2.
  assert (B1 : 0 <= Z.of_nat t <= 400) by lia. assert (B2 : 0 <= Z.of_nat tm <= 1022) by lia. assert (B3 : 0 <= Z.of_nat E <= 100) by lia.
  revert B1 B2 B3. generalize (Z.of_nat t) (Z.of_nat tm) (Z.of_nat E). clear - Hd. intros x y z B1 B2 B3. fold d. clearbody d.
  eapply Z.le_trans; [apply (fraction_mono _ _ _ _ _ _ _ _ x y z 400 1022 100);
    [apply Z.mul_nonneg_nonneg; apply Z.pow_nonneg; discriminate | apply Z.pow_nonneg; discriminate | discriminate | apply Z.pow_nonneg; repeat apply Z.mul_nonneg_nonneg; try apply Z.pow_nonneg; discriminate
    | repeat apply Z.mul_nonneg_nonneg; try apply Z.pow_nonneg; discriminate | apply Z.pow_nonneg; discriminate | apply B1 | apply B2 | apply B3]|].
  destruct Hd as [-> | ->]; apply Z.leb_le; vm_compute; reflexivity.
Qed.
Print Assumptions C81_testdata.

(** ** Examples
    The circuit of C62: eight rows, in each a ConstantGate with the constant 4 + 6X.  The
    permutation is sg; the prover commits the wires 4 + 6X, Z = 1 and the quotient 0. *)
Definition tables81 (sg : list GF) : list (list (list GF)) := [cs62 ++ [sg]; ws62; [[g1]]; [[]]].
Definition o81 (sg : list GF) (z : K) : opensK := opened cd62 (cols cs62) (cols [sg]) (cols ws62) (cols [[g1]]) [] (cols [[]]) z.
Definition vd81 (sg : list GF) : VerifierOnlyCircuitData := mkVerifierOnlyCircuitData (nth 0 (honest_caps (tables81 sg) (fun _ _ => []) 4) []) 0.
Definition P81 (sg : list GF) : player :=
  let caps := honest_caps (tables81 sg) (fun _ _ => []) 4 in
  let word c alpha := honest_codeword (tables81 sg) (cd_FriParams cd62) alpha (fri_points cd62 (c_zeta c)) in
  mkPlayer (nth 1 caps []) (fun _ _ => nth 2 caps []) (fun _ _ _ => nth 3 caps []) (fun c => repO (o81 sg (c_zeta c)))
    (fun c alpha => honest_cap g7 4 (word c alpha)) (fun c alpha betas => map repK (commit_final (word c alpha) betas))
    (fun c => honest_ans (tables81 sg) (fun _ _ => []) (cd_FriParams cd62) (fri_points cd62 (c_zeta c))).
Lemma shape81 sg b g a z : plonk_shape cd62 g62 [g1] (mkChalK [b] [g] [a] z) (o81 sg z) h61.
Proof.
  unfold plonk_shape. split; [|split].
  - split; [vm_compute; reflexivity|cbn; lia].
  - cbn. lia.
  - split; [split; [cbn; lia|]|].
    + intros i Hi. destruct i as [|i]; [|cbn in Hi; lia]. cbn. unfold p. lia.
    + split; [cbn; lia|]. split; [reflexivity|]. split; repeat constructor.
Qed.
Lemma tms81 sg b g z : (emb b * z)%K = (emb b * kpeval (map emb sg) z)%K ->
  tms cd62 g62 [g1] h61 [b] [g] (emb (root 3)) (cols cs62) (cols [sg]) (cols ws62) (cols [[g1]]) [] z = [k0; k0; k0].
Proof.
  intros Hb. unfold tms. generalize (L0 cd62 z). intros l.
  change (NumChallenges (cd_Config cd62)) with 1%nat. cbn [seq map concat app].
  unfold v_pps. change (NumPartialProducts cd62) with 0%nat. change (QuotientDegreeFactor cd62) with 1%nat. change (NumRoutedWires (cd_Config cd62)) with 1%nat.
  cbn [seq map Nat.add app]. unfold pp_k, accs_k, seg, chunk_prod, opn, opens_at, evals, cols. cbn [o_zs o_zsn o_pps map nth app skipn firstn Nat.mul Nat.add seq Nat.max].
  unfold v_num, v_den, v_beta, v_gamma, chal. cbn [c_betas c_gammas c_zeta o_ws o_sigmas nth map ws62].
  unfold gcons. change (NumGateConstraints cd62) with 1%nat. unfold gate_outs, evals, g62. cbn [map seq total gate_k].
  unfold wire, flt, filter_k, kprod, ws62, cs62. change (ns (cd_SelectorsInfo cd62)) with 1%nat. cbn [Nat.ltb Nat.leb].
  cbn [map seq nth skipn Nat.mul Nat.add fold_right]. revert Hb. generalize (kpeval (map emb sg) z). intros y Hb. unfold kpeval. cbn [peval].
  change (emb g1) with k1. change (emb g0) with k0.
  f_equal; [ring|]. f_equal; [|f_equal; ring].
  ring [Hb].
Qed.
Lemma plonk81 sg b g a z fc : snd z = g1 -> (emb b * z)%K = (emb b * kpeval (map emb sg) z)%K ->
  sat (PlonkVerify cd62 g62 (repC (mkChalK [b] [g] [a] z) fc) (repO (o81 sg z)) (map rep h61)).
Proof.
  intros Hz Hb. change (o81 sg z) with (opens_at (emb (root (cd_DegreeBits cd62))) (cols cs62) (cols [sg]) (cols ws62) (cols [[g1]]) [] (cols [[]]) z).
  apply (proj2 (verify_equation cd62 g62 [g1] h61 [b] [g] [a] (emb (root (cd_DegreeBits cd62))) (cols cs62) (cols [sg]) (cols ws62) (cols [[g1]]) [] (cols [[]]) fc z (shape81 sg b g a z))).
  split.
  - intros ->. apply (f_equal rep) in Hz. vm_compute in Hz. discriminate Hz.
  - intros i Hi. change (cd_DegreeBits cd62) with 3%nat. rewrite (tms81 sg b g z Hb). unfold quot, seg, evals. destruct i as [|i]; [|cbn in Hi; lia].
    change (QuotientDegreeFactor cd62) with 1%nat. cbn [Nat.mul Nat.add firstn skipn map powers_sum cols]. unfold kpeval. cbn [peval]. ring.
Qed.
(** the prover wins if the permutation is the identity or beta = 0 *)
Lemma beats81 sg b g a z alpha i : (length sg <= 8)%nat -> snd z = g1 -> (emb b * z)%K = (emb b * kpeval (map emb sg) z)%K -> 0 <= i < 16 ->
  beats cd62 g62 h61 (vd81 sg) (P81 sg) (mkChalK [b] [g] [a] z, (alpha, [], [i])).
Proof.
  intros Lsg Hz Hb Hi.
  assert (NZ : forall a : GF, rep a <> 0 -> a <> g0) by (intros x H E; apply H; now rewrite E).
  assert (OFF : forall x y : GF, y <> g0 -> emb x <> (emb y * z)%K).
  { intros x y Hy E. apply Hy. apply (f_equal snd) in E. unfold emb, kmul in E. cbn [fst snd] in E. rewrite Hz in E. rewrite E. ring. }
  assert (AC : won (cd_FriParams cd62) (friOracles cd62) (fri_points cd62 z) (open_batches (tables81 sg) (fri_points cd62 z)) (honest_caps (tables81 sg) (fun _ _ => []) 4)
    (fun alpha => honest_cap g7 4 (honest_codeword (tables81 sg) (cd_FriParams cd62) alpha (fri_points cd62 z)))
    (fun alpha betas => map repK (commit_final (honest_codeword (tables81 sg) (cd_FriParams cd62) alpha (fri_points cd62 z)) betas))
    (honest_ans (tables81 sg) (fun _ _ => []) (cd_FriParams cd62) (fri_points cd62 z)) alpha [] [i]).
  { apply (C80_honest (cd_FriParams cd62) (friOracles cd62) (tables81 sg) (fun _ _ => []) (fri_points cd62 z) alpha [] [i]).
    - unfold honest_params. cbn. repeat split; lia.
    - split; [reflexivity|]. split.
      + repeat (apply Forall_cons || apply Forall_nil); cbn; lia.
      + intros o Ho. cbn [friOracles length] in Ho. split; [destruct o as [|[|[|[|o]]]]; try lia; reflexivity|]. intros j. split; [destruct o as [|[|[|[|o]]]]; try lia; reflexivity|apply Forall_nil].
    - discriminate.
    - repeat (apply Forall_cons || apply Forall_nil); split; cbn; lia.
    - exact I.
    - reflexivity.
    - constructor; [exact Hi|constructor].
    - intros i' z' polys _ Hz'. destruct Hz' as [Hz'|[Hz'|[]]]; apply (f_equal fst) in Hz'; cbn [fst] in Hz'; subst z'.
      + replace z with (emb g1 * z)%K by (change (emb g1) with k1; ring). apply OFF. apply NZ. vm_compute. discriminate.
      + apply OFF. apply NZ. vm_compute. discriminate. }
  destruct AC as (A1 & A2 & A3 & A4 & A5 & A6). unfold beats. cbv zeta.
  split; [exact A1|]. split; [exact A2|]. split; [exact A3|]. split; [exact A5|].
  set (t := p_answer (P81 sg) _ alpha [] [i]) in *.
  set (pr := proof_by (P81 sg) (mkChalK [b] [g] [a] z) t).
  assert (C1 : canon_openings (Openings pr)) by apply canon_repO.
  apply (with_sat cd62 g62 pr).
  - split; [exact C1|]. split; [exact A4|]. split; vm_compute; congruence.
  - now apply plonk81.
  - apply (enforces_sat _ _ _ (fri_part cd62 g62 pr (vd81 sg) shape62_data z alpha [] (t_pow t) (t_indices t) C1 A4)).
    apply (enforces_sat _ _ _ (verify_fri_correct (cd_FriParams cd62) (friOracles cd62) (fri_points cd62 z) (fri_values (injO (Openings pr))) alpha [] (t_pow t) (t_indices t)
      [ConstantSigmasCap (vd81 sg); WiresCap pr; PlonkZsPartialProductsCap pr; QuotientPolysCap pr] (OpeningProof pr) A4 ltac:(discriminate) eq_refl)).
    change (Openings pr) with (repO (o81 sg z)). rewrite injO_repO. exact A6.
Qed.
(** the runs: beta from the list Bs, gamma and alpha from gs, zeta and the FRI alpha from ks, any of the sixteen positions *)
Definition runs81 (Bs gs : list GF) (ks : list K) : list run_ :=
  map (fun x => let '(b, (g, (a, (z, (alpha, i))))) := x in (mkChalK [b] [g] [a] z, (alpha, [], [i])))
    (list_prod Bs (list_prod gs (list_prod gs (list_prod ks (list_prod ks (map Z.of_nat (seq 0 16))))))).
Lemma runs81_nodup Bs gs ks : NoDup Bs -> NoDup gs -> NoDup ks -> NoDup (runs81 Bs gs ks).
Proof.
  intros N1 N2 N3. apply NoDup_map_in.
  - intros (b & g & a & z & al & i) (b' & g' & a' & z' & al' & i') _ _ E. injection E as -> -> -> -> -> ->. reflexivity.
  - repeat apply prod_nodup; try assumption. apply NoDup_map_in; [intros x y _ _ E; lia|apply seq_NoDup].
Qed.
Lemma runs81_length Bs gs ks : length (runs81 Bs gs ks) = (length Bs * (length gs * (length gs * (length ks * (length ks * 16)))))%nat.
Proof. unfold runs81. rewrite map_length, !prod_length, map_length, seq_length. reflexivity. Qed.
Lemma runs81_in Bs gs ks r : In r (runs81 Bs gs ks) -> exists b g a z alpha i, r = (mkChalK [b] [g] [a] z, (alpha, [], [i])) /\
  In b Bs /\ In g gs /\ In a gs /\ In z ks /\ In alpha ks /\ 0 <= i < 16.
Proof.
  intros H. apply in_map_iff in H. destruct H as ((b & g & a & z & al & i) & <- & H). repeat (apply in_prod_iff in H; destruct H as [? H]).
  apply in_map_iff in H. destruct H as (j & <- & Hj). apply in_seq in Hj. exists b, g, a, z, al, (Z.of_nat j). repeat split; try assumption; lia.
Qed.
Definition gcoins81 : list GF := map (fun j => inj (Z.of_nat j)) (seq 0 (80 * 100)).
Definition coins81 : list K := map (fun a => (a, g1)) gcoins81.
Lemma gcoins81_nodup : NoDup gcoins81.
Proof.
  apply NoDup_map_in; [|apply seq_NoDup]. intros a b Ha Hb E. apply in_seq in Ha. apply in_seq in Hb. apply (f_equal rep) in E. rewrite !rep_inj_small in E; unfold p; lia.
Qed.
Lemma coins81_nodup : NoDup coins81.
Proof. apply NoDup_map_in; [intros a b _ _ E; now injection E|apply gcoins81_nodup]. Qed.
Lemma coins81_snd z : In z coins81 -> snd z = g1.
Proof. intros H. apply in_map_iff in H. destruct H as (a & <- & _). reflexivity. Qed.
Lemma runs81_won sg Bs : (length sg <= 8)%nat -> (forall b, In b Bs -> In b gcoins81 /\ forall z, (emb b * z)%K = (emb b * kpeval (map emb sg) z)%K) ->
  forall r, In r (runs81 Bs gcoins81 coins81) -> drawn_from cd62 gcoins81 coins81 r /\ openings_shape cd62 (p_opens (P81 sg) (fst r)) /\ beats cd62 g62 h61 (vd81 sg) (P81 sg) r.
Proof.
  intros Lsg HB r Hr. apply runs81_in in Hr. destruct Hr as (b & g & a & z & alpha & i & -> & Ib & Ig & Ia & Iz & Il & Hi). destruct (HB b Ib) as [Ib' Eb]. split; [|split].
  - unfold drawn_from. cbn [c_betas c_gammas c_alphas c_zeta].
    assert (V : forall x, In x gcoins81 -> length [x] = 1%nat /\ Forall (fun x => In x gcoins81) [x]) by (intros x Hx; split; [reflexivity|]; apply Forall_cons; [exact Hx|apply Forall_nil]).
    split; [now apply V|]. split; [now apply V|]. split; [now apply V|]. split; [exact Iz|]. split; [exact Il|]. split; [reflexivity|apply Forall_nil].
  - cbn [fst]. repeat split; reflexivity.
  - apply beats81; try assumption; [now apply coins81_snd|apply Eb].
Qed.
(** nothing is hashed: the leaves have at most three elements, the trees one layer *)
Lemma nothing_hashed81 sg Bs gs ks a : ~ hashed_in (P81 sg) (runs81 Bs gs ks) a.
Proof.
  intros (r & i & round & Hr & Ho & Ha). apply runs81_in in Hr. destruct Hr as (b & g & x & z & alpha & j & -> & _). cbn [answers] in Ho.
  change (QueryRoundProofs (t_proof (p_answer (P81 sg) (mkChalK [b] [g] [x] z) alpha [] [j]))) with
    [honest_round (tables81 sg) (fun _ _ => []) (cd_FriParams cd62) (honest_codeword (tables81 sg) (cd_FriParams cd62) alpha (fri_points cd62 z)) [] (inj j)] in Ho.
  destruct Ho as [E|[]]. injection E as <- <-. exact Ha.
Qed.
Lemma sound_data62 : sound_data cd62 g62.
Proof. split; [exact shape62_data|]. split; [reflexivity|]. split; [cbn; lia|]. split; [cbn; lia|]. repeat constructor. Qed.
Lemma degree62 : degree_bound cd62 g62 2.
Proof. split; [cbn; lia|]. intros [|j] Hj; [|cbn in Hj; lia]. cbn. lia. Qed.
Lemma bound62 m : error_bound cd62 2 3 m m = (m * m * m * m * (12 * m + 16 * (7 * 256 + 35)))%nat.
Proof.
  unfold error_bound. change (NumChallenges (cd_Config cd62)) with 1%nat. change (length (ReductionArityBits (cd_FriParams cd62))) with 0%nat. change (NumQueryRounds (fp_Config (cd_FriParams cd62))) with 1%nat.
  change (2 ^ LdeBits (cd_FriParams cd62))%nat with 16%nat. change (length (fst (Prop_Fri.layout cd62) ++ snd (Prop_Fri.layout cd62))) with 7%nat. change (length (cells cd62)) with 8%nat.
  change (NumPartialProducts cd62) with 0%nat. change (NumGateConstraints cd62) with 1%nat. change (2 ^ cd_DegreeBits cd62)%nat with 8%nat.
  cbv zeta. change (0 + 1)%nat with 1%nat. change (1 - 1)%nat with 0%nat. change (16 - 3 - 1)%nat with 12%nat. rewrite !Nat.pow_1_r, !Nat.pow_0_r. change 256%nat with (16 * 16)%nat. ring.
Qed.
(** C81_extract: the identity permutation, the prover wins all 16 * 8000^5 runs *)
Example C81_ex : exists (cs sigmas ws : list (list GF)) (G : list Z), length ws = 1%nat /\ (13 <= length G)%nat /\
  (forall i, In i G -> 0 <= i < 16 -> rep (gpeval (nth 0 ws []) (dom g7 4 i)) = rep (inj 4 + inj 6 * dom g7 4 i)%GF) /\
  satisfied cd62 g62 h61 cs sigmas ws.
Proof.
  assert (HW := runs81_won [g0; g1] gcoins81 ltac:(cbn; lia)).
  destruct (C81_extract cd62 g62 h61 (vd81 [g0; g1]) (P81 [g0; g1]) gcoins81 coins81 (runs81 gcoins81 gcoins81 coins81) 2 3) as (cs & sigmas & ws & G & (L1 & L2 & L3) & _ & (PG & LG & OG) & LV & SA).
  - exact sound_data62.
  - exact degree62.
  - reflexivity.
  - cbn. lia.
  - exact gcoins81_nodup.
  - exact coins81_nodup.
  - apply runs81_nodup; [exact gcoins81_nodup|exact gcoins81_nodup|exact coins81_nodup].
  - apply HW. intros b Hb. split; [exact Hb|]. intros z. unfold kpeval. cbn [map peval]. change (emb g0) with k0. change (emb g1) with k1. ring.
  - intros a b Ha. exfalso. now apply nothing_hashed81 in Ha.
  - rewrite bound62, runs81_length. assert (LC : length coins81 = length gcoins81) by apply map_length. rewrite LC.
    assert (LG : length gcoins81 = (80 * 100)%nat) by (unfold gcoins81; now rewrite map_length, seq_length). revert LG. generalize (length gcoins81). clear. intros m Hm.
    assert (0 < m * m * m * m)%nat by nia. assert (12 * m + 16 * (7 * 256 + 35) < 16 * m)%nat by lia. replace (m * (m * (m * (m * (m * 16)))))%nat with (m * m * m * m * (16 * m))%nat by ring. now apply Nat.mul_lt_mono_pos_l.
  - exists cs, sigmas, ws, G. change (2 ^ LdeBits (cd_FriParams cd62))%nat with 16%nat in LG. split; [exact L3|]. split; [lia|]. split; [|exact SA].
    intros i Hi Ri. destruct (OG i Hi) as (r & round & Hr & Ho). destruct (LV r i round Hr Hi Ho) as [_ E]. apply runs81_in in Hr. destruct Hr as (b & g & x & z & alpha & j & -> & _). cbn [answers] in Ho.
    change (QueryRoundProofs (t_proof (p_answer (P81 [g0; g1]) (mkChalK [b] [g] [x] z) alpha [] [j]))) with
      [honest_round (tables81 [g0; g1]) (fun _ _ => []) (cd_FriParams cd62) (honest_codeword (tables81 [g0; g1]) (cd_FriParams cd62) alpha (fri_points cd62 z)) [] (inj j)] in Ho.
    destruct Ho as [E'|[]]. injection E' as <- <-. destruct ws as [|w [|? ?]]; try discriminate L3. cbn [map nth] in E. cbn [nth].
    apply (f_equal (fun l => nth 0 l 0)) in E. cbn [nth] in E. etransitivity; [symmetry; exact E|].
    change (rep (gpeval [inj 4; inj 6] (dom g7 4 (rep (inj j) mod 2 ^ Z.of_nat 4))) = rep (inj 4 + inj 6 * dom g7 4 j)%GF).
    rewrite rep_inj_small by (unfold p; lia). change (2 ^ Z.of_nat 4) with 16. rewrite Z.mod_small by exact Ri. f_equal. unfold gpeval. cbn [peval]. ring.
Qed.
(** C81_error: the permutation maps every row to the next one, so all wires must be equal, but
    the constants differ.  The prover wins the 16 * 8000^4 runs with beta = 0. *)
Lemma unsat81 w : ~ rows_satisfy cd62 g62 h61 cs62 [[g0; root 3]] w.
Proof.
  intros (LW & GA & CO).
  assert (W : forall k, (k < 8)%nat -> nth 0 (w k) g0 = (inj 4 + inj 6 * (root 3 ^ N.of_nat k))%GF).
  { intros k Hk. pose proof (GA k 0%nat Hk) as G. unfold grow in G. change (cd_DegreeBits cd62) with 3%nat in G. revert G. generalize (root 3 ^ N.of_nat k)%GF. intros x G. cbn [map cs62] in G.
    specialize (LW k). change (NumWires (cd_Config cd62)) with 1%nat in LW. destruct (w k) as [|w0 [|? ?]]; try discriminate LW. cbn [nth map] in *.
    match type of G with _ -> computes (EvalUnfiltered ?g (mkvars ?cs ?ws ?hh)) ?r => assert (C := gate_computes g cs ws hh) end.
    assert (S : selects (cd_SelectorsInfo cd62) (length g62) [emb (gpeval [] x); emb (gpeval [inj 4; inj 6] x)] 0%nat).
    { split; [cbn; lia|]. split; [cbn; lia|]. split; [cbn; lia|]. intros i Hi. destruct i as [|i]; [|cbn in Hi; lia]. unfold gpeval. cbn [peval]. cbn. unfold kz. now rewrite <- g0_inj. }
    specialize (G S). match type of C with ?A -> ?B -> _ => assert (A1 : A) by (split; cbn; lia); specialize (C A1 eq_refl) end.
    pose proof (computes_functional _ _ _ G C) as Q. cbn [nth g62 gate_k num_constraints repeat seq map skipn length groups cd_SelectorsInfo cd62] in Q. unfold wire in Q. cbn [nth Nat.add Nat.mul] in Q.
    apply (f_equal (hd (0, 0))) in Q. cbn [hd] in Q. change (0, 0) with (repK k0) in Q. apply repK_inj in Q. unfold gpeval in Q. cbn [peval] in Q. rewrite <- ?emb_sub in Q. change k0 with (emb g0) in Q. apply emb_inj in Q.
    transitivity (inj 4 + inj 6 * x - g0)%GF; [|ring]. rewrite Q. ring. }
  specialize (CO ltac:(apply C61_labels; [cbn; lia|]; intros j j' Hj Hj'; cbn in Hj, Hj'; split; [destruct j; [|lia]; intros X'; apply (f_equal rep) in X'; vm_compute in X'; discriminate X'|lia])).
  specialize (CO (1, 0)%nat (0, 0)%nat ltac:(vm_compute; tauto) ltac:(vm_compute; tauto)).
  cbn [fst snd] in CO. rewrite !W in CO by lia.
  assert (Y : (inj 4 + inj 6 * root 3 ^ N.of_nat 0)%GF = (inj 4 + inj 6 * root 3 ^ N.of_nat 1)%GF) by (apply CO; apply GF_eq; vm_compute; reflexivity).
  apply (f_equal rep) in Y. vm_compute in Y. discriminate Y.
Qed.
Example C81_ex_false :
  (forall r, In r (runs81 [g0] gcoins81 coins81) -> beats cd62 g62 h61 (vd81 [g0; root 3]) (P81 [g0; root 3]) r) /\
  (length (runs81 [g0] gcoins81 coins81) <= error_bound cd62 2 3 (length gcoins81) (length coins81))%nat.
Proof.
  assert (HW : forall r, In r (runs81 [g0] gcoins81 coins81) -> drawn_from cd62 gcoins81 coins81 r /\ openings_shape cd62 (p_opens (P81 [g0; root 3]) (fst r)) /\ beats cd62 g62 h61 (vd81 [g0; root 3]) (P81 [g0; root 3]) r).
  { apply (runs81_won [g0; root 3] [g0]); [cbn; lia|]. intros b [<-|[]]. split; [apply in_map_iff; exists 0%nat; split; [apply GF_eq; vm_compute; reflexivity|apply in_seq; lia]|].
    intros z. change (emb g0) with k0. ring. }
  split; [intros r Hr; now apply HW|].
  apply (C81_error cd62 g62 h61 (vd81 [g0; root 3]) (P81 [g0; root 3]) gcoins81 coins81 (runs81 [g0] gcoins81 coins81) 2 3 cs62 [[g0; root 3]]).
  - exact sound_data62.
  - exact degree62.
  - reflexivity.
  - cbn. lia.
  - exact gcoins81_nodup.
  - exact coins81_nodup.
  - apply runs81_nodup; [repeat constructor; intros []|exact gcoins81_nodup|exact coins81_nodup].
  - exact HW.
  - reflexivity.
  - reflexivity.
  - repeat constructor; cbn; lia.
  - reflexivity.
  - assert (NH : forall a, ~ (hashed_in (P81 [g0; root 3]) (runs81 [g0] gcoins81 coins81) a \/ key_hashed 4 (cs62 ++ [[g0; root 3]]) a)).
    { intros a [H|(i & _ & H)]; [now apply nothing_hashed81 in H|exact H]. }
    intros a b Ha. exfalso. exact (NH a Ha).
  - exact unsat81.
Qed.
(** C81_testdata: the parameters of testdata/decode_block; the gates do not matter for the bound *)
Example C81_ex_testdata : forall gates info kis, exists Qg Q : nat,
  let f := mkFriConfig 3 4 16 28 in
  let cd := mkCommonCircuitData (mkCircuitConfig 136 80 2 true 100 2 false 8 f) (mkFriParams f false 12 [4; 4]%nat) gates info 12 8 123 5 0 kis 9 in
  Z.of_nat (error_bound cd 9 (7 * 2 ^ 11 - 1) Qg Q) * 2 ^ 23 <= Z.of_nat (all_runs cd Qg Q).
Proof.
  intros gates info kis. assert (X : forall z, 0 <= z -> exists m, Z.of_nat m = z) by (intros z Hz; destruct (Z_of_nat_complete z Hz) as [m ->]; now exists m).
  destruct (X p ltac:(discriminate)) as [Qg HQg]. destruct (X (p * p) ltac:(discriminate)) as [Q HQ]. clear X. exists Qg, Q. intros f cd.
  refine (proj2 (proj2 (C81_testdata cd 9 _ Qg Q (or_introl eq_refl) eq_refl eq_refl eq_refl eq_refl eq_refl eq_refl eq_refl eq_refl _ _ _ eq_refl HQg HQ))); cbn; lia.
Qed.
