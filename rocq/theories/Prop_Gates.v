(** * Properties C41-C50: filters, the sum over all gates, the gates.

    Wires, constants and constraints are elements of the quadratic extension [K]; wires
    and constants enter the code by their canonical representatives ([mkvars cs ws h],
    [repK]).  [wire ws i] is wire i, [alg ws i] the element of the algebra over [K] whose
    limbs are wires i and i+1, [kz z] the integer z in [K].  [computes c r]: the prover's
    run of the circuit ends with r, and no satisfying assignment makes it end otherwise. *)
From Coq Require Import String.
From Coq Require Import ZArith NArith Lia List Bool Ring.
From Verif Require Import Zp GF Circuit Goldilocks GLProofs ExtProofs PoseidonSpec PoseidonGLProofs PoseidonExt Poly Roots Interp Types Challenger Fri FriMerkle FriEval
  Gates GateProofs GateCoset GatePoseidon GateFilter GateAll.
Import ListNotations.
Open Scope Z_scope.

(** all constraints vanish *)
Notation vanish out := (Forall (fun c : K => c = k0) out).

(** ** C41 *)
Theorem C41_filter_value : forall (row a b : nat) (s : K) (many : bool), Z.of_nat b <= p ->
  computes (computeFilter row (a, b) (repK s) many)
    (repK (kprod (map (fun i => kz (Z.of_nat i) - s)%K (filter (fun i => negb (Nat.eqb i row)) (seq a (b - a)))) *
           (if many then kz (2 ^ 32 - 1) - s else k1))%K).
Proof. intros row a b s many H. exact (filter_computes row (a, b) s many H). Qed.
(** it vanishes exactly on the other rows of the group and, with several groups, on the
    value that says the group is unused *)
Theorem C41_filter_zero : forall (row a b : nat) (s : K) (many : bool), Z.of_nat b <= p ->
  exists f, computes (computeFilter row (a, b) (repK s) many) (repK f) /\
    (f = k0 <-> (exists i, (a <= i < b)%nat /\ i <> row /\ s = kz (Z.of_nat i)) \/ (many = true /\ s = kz (2 ^ 32 - 1))).
Proof.
  intros row a b s many H. exists (filter_k row (a, b) s many). split; [now apply filter_computes|]. apply filter_zero.
Qed.
(** selector values: a gate j of the group selects gate j only; the unused value selects none *)
Theorem C41_selects : forall (row a b : nat) (many : bool) (j : nat),
  (a <= row < b)%nat -> (a <= j < b)%nat -> Z.of_nat b < 2 ^ 32 ->
  exists f, computes (computeFilter row (a, b) (Z.of_nat j, 0) many) (repK f) /\ (f <> k0 <-> j = row).
Proof.
  intros row a b many j Hr Hj Hb. assert (Hp : Z.of_nat b <= p) by (unfold p; lia).
  destruct (C41_filter_zero row a b (kz (Z.of_nat j)) many Hp) as (f & Hf & E). exists f.
  split; [rewrite small_kz by (unfold p; lia); exact Hf|]. rewrite E. split.
  - intros N. destruct (Nat.eq_dec j row) as [J|J]; [exact J|]. exfalso. apply N. left. exists j. auto.
  - intros -> [(i & Hi & Ni & Ei)|(_ & Ei)].
    + apply kz_inj in Ei; [lia|unfold p; lia|unfold p; lia].
    + apply kz_inj in Ei; [lia|unfold p; lia|unfold p; lia].
Qed.
Theorem C41_unused : forall (row a b : nat), Z.of_nat b < 2 ^ 32 ->
  computes (computeFilter row (a, b) (2 ^ 32 - 1, 0) true) (0, 0) /\
  exists f, computes (computeFilter row (a, b) (2 ^ 32 - 1, 0) false) (repK f) /\ f <> k0.
Proof.
  intros row a b Hb. assert (Hp : Z.of_nat b <= p) by (unfold p; lia). rewrite !small_kz by (unfold p; lia). split.
  - destruct (C41_filter_zero row a b (kz (2 ^ 32 - 1)) true Hp) as (f & Hf & E).
    rewrite (proj2 E (or_intror (conj eq_refl eq_refl))) in Hf. exact Hf.
  - destruct (C41_filter_zero row a b (kz (2 ^ 32 - 1)) false Hp) as (f & Hf & E). exists f. split; [exact Hf|].
    rewrite E. intros [(i & Hi & Ni & Ei)|(D & _)]; [|discriminate D].
    apply kz_inj in Ei; [lia|unfold p; lia|unfold p; lia].
Qed.
Example C41_ex : run (computeFilter 1 (0, 3)%nat (1, 0) true) = Done ((p - 1) * (2 ^ 32 - 2) mod p, 0) /\
  run (computeFilter 1 (0, 3)%nat (2, 0) true) = Done (0, 0).
Proof. vm_compute. split; reflexivity. Qed.
(** the unused selector value switches the gate off if there are several groups, and not if there is one *)
Example C41_unused_ex : run (computeFilter 1 (0, 3)%nat (2 ^ 32 - 1, 0) true) = Done (0, 0) /\
  run (computeFilter 1 (0, 3)%nat (2 ^ 32 - 1, 0) false) <> Done (0, 0) /\ run (computeFilter 1 (0, 3)%nat (1, 0) false) = Done (p - 1, 0).
Proof. vm_compute. split; [reflexivity|]. split; [discriminate|reflexivity]. Qed.

(** ** C42: [selectorIndices] and [groups] give every gate its group; the first
    [length groups] constants are the selectors, the rest goes to the gates. *)
Definition selector_of (info : SelectorsInfo) (i : nat) : nat := nth i (selectorIndices info) O.
Definition group_of (info : SelectorsInfo) (i : nat) : nat * nat := nth (selector_of info i) (groups info) (O, O).
Definition layout (info : SelectorsInfo) (n : nat) : Prop :=
  (n <= length (selectorIndices info))%nat /\
  forall i, (i < n)%nat -> (selector_of info i < length (groups info))%nat /\ Z.of_nat (snd (group_of info i)) <= p.
Lemma layout_layout_ok info n : layout info n -> layout_ok info n.
Proof. intros [H1 H2] i Hi. destruct (H2 i Hi) as [A B]. split; [lia|]. split; [exact A|exact B]. Qed.
Theorem C42_sum : forall (gates : list Gate) (num : nat) (info : SelectorsInfo) (cs ws : list K) (h : list GF),
  let n := length (groups info) in
  layout info (length gates) -> (n <= length cs)%nat -> length h = 4%nat ->
  Forall (fits (length cs - n) (length ws)) gates -> Forall (fun g => (num_constraints g <= num)%nat) gates ->
  exists (outs : list (list K)) (fs : list K) (res : list K),
    Forall2 (fun g out => computes (EvalUnfiltered g (mkvars (skipn n cs) ws h)) (map repK out)) gates outs /\
    length fs = length gates /\
    (forall i, (i < length gates)%nat ->
       computes (computeFilter i (group_of info i) (repK (nth (selector_of info i) cs k0)) (Nat.ltb 1 n)) (repK (nth i fs k0))) /\
    computes (EvaluateGateConstraints gates num info (mkvars cs ws h)) (map repK res) /\
    length res = num /\
    forall j, (j < num)%nat -> nth j res k0 = ksum (map (fun i => nth i fs k0 * nth j (nth i outs []) k0)%K (seq 0 (length gates))).
Proof.
  intros gates num info cs ws h n HL Hn Hh HF HN.
  apply layout_layout_ok in HL. pose proof (gates_k_ok cs ws h info gates HF Hh) as G.
  set (outs := map (fun g => gate_k g (skipn (ns info) cs) ws h) gates) in *.
  exists outs, (map (flt cs info) (seq 0 (length gates))), (map (total cs info outs 0) (seq 0 num)).
  split; [exact G|]. split; [now rewrite map_length, seq_length|]. split; [|split; [|split]].
  - intros i Hi. rewrite (nth_map_lt (flt cs info) _ _ _ 0%nat) by (rewrite seq_length; exact Hi). rewrite seq_nth by exact Hi.
    apply filter_computes. apply (HL i Hi).
  - apply EvaluateGateConstraints_computes; [exact Hn|exact G|exact HL|].
    unfold outs. rewrite Forall_map. apply Forall_forall. intros g Hg.
    rewrite Forall_forall in HF, HN. rewrite (gate_length g _ _ _ _ (HF g Hg)). now apply HN.
  - now rewrite map_length, seq_length.
  - intros j Hj. rewrite (nth_map_lt (total cs info outs 0) _ _ _ 0%nat) by (rewrite seq_length; exact Hj). rewrite seq_nth by exact Hj.
    rewrite total_sum. unfold outs at 2. rewrite map_length. apply f_equal. apply map_ext_in. intros i Hi. apply in_seq in Hi.
    rewrite (nth_map_lt (flt cs info) _ _ _ 0%nat) by (rewrite seq_length; lia). now rewrite seq_nth by lia.
Qed.
(** a gate with more constraints than there are slots makes the prover stop *)
Theorem C42_aborts : forall (gates : list Gate) (num : nat) (info : SelectorsInfo) (cs ws : list K) (h : list GF),
  let n := length (groups info) in
  layout info (length gates) -> (n <= length cs)%nat -> length h = 4%nat ->
  Forall (fits (length cs - n) (length ws)) gates -> Exists (fun g => (num < num_constraints g)%nat) gates ->
  (exists m, run (EvaluateGateConstraints gates num info (mkvars cs ws h)) = Panicked m) /\
  forall r, ~ reach (EvaluateGateConstraints gates num info (mkvars cs ws h)) r.
Proof.
  intros gates num info cs ws h n HL Hn Hh HF HN.
  apply layout_layout_ok in HL. pose proof (gates_k_ok cs ws h info gates HF Hh) as G.
  apply (EvaluateGateConstraints_aborts cs ws h info Hn gates _ num G HL).
  apply Exists_exists in HN. destruct HN as (g & Hg & Hlt). apply Exists_exists.
  exists (gate_k g (skipn (ns info) cs) ws h). split; [now apply in_map with (f := fun g => gate_k g (skipn (ns info) cs) ws h)|].
  rewrite Forall_forall in HF. now rewrite (gate_length g _ _ _ _ (HF g Hg)).
Qed.
(** two groups: {Noop, Constant} and {PublicInput}; the selectors 1 and unused pick the constant gate *)
Definition info_ex : SelectorsInfo := mkSelectorsInfo [0; 0; 1]%nat [(0, 2); (2, 3)]%nat.
Example C42_ex : layout info_ex 3 /\
  Forall (fits 1 4) [NoopGate; ConstantGate 1; PublicInputGate] /\
  run (EvaluateGateConstraints [NoopGate; ConstantGate 1; PublicInputGate] 4 info_ex
        (mkEvaluationVars [(1, 0); (2 ^ 32 - 1, 0); (9, 0)] [(7, 0); (0, 0); (0, 0); (5, 0)] [1; 2; 3; 4]))
  = Done [(2 * (p - 2 ^ 32 + 2) mod p, 0); (0, 0); (0, 0); (0, 0)] /\
  (exists m, run (EvaluateGateConstraints [NoopGate; ConstantGate 1; PublicInputGate] 3 info_ex
        (mkEvaluationVars [(1, 0); (2 ^ 32 - 1, 0); (9, 0)] [(7, 0); (0, 0); (0, 0); (5, 0)] [1; 2; 3; 4])) = Panicked m).
Proof.
  split; [|split; [|split]].
  - split; [cbn; lia|]. intros i Hi. destruct i as [|[|[|i]]]; [| | |lia]; cbn; unfold p; lia.
  - repeat constructor.
  - vm_compute. reflexivity.
  - eexists. vm_compute. reflexivity.
Qed.

(** ** C43 *)
Theorem C43_arithmetic : forall n cs ws h, (4 * n <= length ws)%nat -> (2 <= length cs)%nat ->
  exists out, computes (EvalUnfiltered (ArithmeticGate n) (mkvars cs ws h)) (map repK out) /\ length out = n /\
    (vanish out <-> forall i, (i < n)%nat ->
       wire ws (4 * i + 3) = (wire cs 0 * wire ws (4 * i) * wire ws (4 * i + 1) + wire cs 1 * wire ws (4 * i + 2))%K).
Proof.
  intros n cs ws h Hw Hc. exists (map (arith_k cs ws) (seq 0 n)). split; [now apply arithmetic_computes|].
  split; [now rewrite map_length, seq_length|]. change (all0 (map (arith_k cs ws) (seq 0 n)) <-> forall i, (i < n)%nat ->
       wire ws (4 * i + 3) = (wire cs 0 * wire ws (4 * i) * wire ws (4 * i + 1) + wire cs 1 * wire ws (4 * i + 2))%K).
  rewrite all0_seq. split; intros H i Hi; specialize (H i Hi); unfold arith_k in *.
  - apply (proj1 (ksub_eq0 _ _)) in H. rewrite H. ring.
  - apply (proj2 (ksub_eq0 _ _)). rewrite H. ring.
Qed.
Theorem C43_arithmetic_extension : forall n cs ws h, (8 * n <= length ws)%nat -> (2 <= length cs)%nat ->
  exists out, computes (EvalUnfiltered (ArithmeticExtensionGate n) (mkvars cs ws h)) (map repK out) /\ length out = (2 * n)%nat /\
    (vanish out <-> forall i, (i < n)%nat ->
       alg ws (8 * i + 6) = (aemb (wire cs 0) * alg ws (8 * i) * alg ws (8 * i + 2) + aemb (wire cs 1) * alg ws (8 * i + 4))%KA).
Proof.
  intros n cs ws h Hw Hc. exists (concat (map (arith_ext_k cs ws) (seq 0 n))). split; [now apply arithmetic_ext_computes|].
  split; [now rewrite (length_concat_seq _ 2) by reflexivity|]. rewrite (all0_concat_seq (arith_ext_k cs ws)).
  split; intros H i Hi; specialize (H i Hi); unfold arith_ext_k in *.
  - apply (proj1 (all0_klimbs _)), (proj1 (asub_eq0 _ _)) in H. rewrite H. ring.
  - apply (proj2 (all0_klimbs _)), (proj2 (asub_eq0 _ _)). rewrite H. ring.
Qed.
Theorem C43_multiplication_extension : forall n cs ws h, (6 * n <= length ws)%nat -> (1 <= length cs)%nat ->
  exists out, computes (EvalUnfiltered (MultiplicationExtensionGate n) (mkvars cs ws h)) (map repK out) /\ length out = (2 * n)%nat /\
    (vanish out <-> forall i, (i < n)%nat ->
       alg ws (6 * i + 4) = (aemb (wire cs 0) * alg ws (6 * i) * alg ws (6 * i + 2))%KA).
Proof.
  intros n cs ws h Hw Hc. exists (concat (map (mul_ext_k cs ws) (seq 0 n))). split; [now apply mul_ext_computes|].
  split; [now rewrite (length_concat_seq _ 2) by reflexivity|]. rewrite (all0_concat_seq (mul_ext_k cs ws)).
  split; intros H i Hi; specialize (H i Hi); unfold mul_ext_k in *.
  - apply (proj1 (all0_klimbs _)), (proj1 (asub_eq0 _ _)) in H. rewrite H. ring.
  - apply (proj2 (all0_klimbs _)), (proj2 (asub_eq0 _ _)). rewrite H. ring.
Qed.
(** a satisfied operation 31 = 2*3*5 + 1*1, one that is not, and one in the algebra *)
Example C43_ex :
  run (EvalUnfiltered (ArithmeticGate 2) (mkEvaluationVars [(2, 0); (1, 0)]
        [(3, 0); (5, 0); (1, 0); (31, 0); (3, 0); (5, 0); (1, 0); (32, 0)] [])) = Done [(0, 0); (1, 0)] /\
  run (EvalUnfiltered (MultiplicationExtensionGate 1) (mkEvaluationVars [(2, 0)]
        [(0, 0); (1, 0); (0, 0); (3, 0); (42, 0); (0, 0)] [])) = Done [(0, 0); (0, 0)].
Proof. vm_compute. split; reflexivity. Qed.

(** ** C44: the limbs are digits, and the sum wire is the number they write *)
Definition number (base : nat) (ds : list nat) : Z := fold_right (fun d z => Z.of_nat d + Z.of_nat base * z) 0 ds.
Lemma number_sum base ds : number base ds =
  fold_right Z.add 0 (map (fun i => Z.of_nat (nth i ds O) * Z.of_nat base ^ Z.of_nat i) (seq 0 (length ds))).
Proof.
  induction ds as [|d ds IH]; [reflexivity|]. cbn [number fold_right length]. fold (number base ds). rewrite IH.
  change (seq 0 (S (length ds))) with (O :: seq 1 (length ds)). rewrite map_cons, <- seq_shift, map_map. cbn [fold_right nth].
  change (Z.of_nat 0) with 0. rewrite Z.pow_0_r, Z.mul_1_r. apply f_equal. generalize (seq 0 (length ds)). intros l.
  induction l as [|i l IHl]; cbn [map fold_right]; [lia|]. rewrite Z.mul_add_distr_l, IHl. apply f_equal2; [|reflexivity].
  rewrite Nat2Z.inj_succ, Z.pow_succ_r by lia. ring.
Qed.
Lemma number_K base ds : powers_sum (map (fun d => kz (Z.of_nat d)) ds) (kz (Z.of_nat base)) = kz (number base ds).
Proof.
  induction ds as [|d ds IH]; cbn [map powers_sum number fold_right].
  - unfold kz. rewrite <- g0_inj. reflexivity.
  - fold (number base ds). rewrite IH. unfold kz. rewrite <- !emb_mul, <- emb_add. apply f_equal.
    now rewrite inj_add, inj_mul.
Qed.
Lemma digits_list base l : (forall x, In x l -> exists d, (d < base)%nat /\ x = kz (Z.of_nat d)) ->
  exists ds, Forall (fun d => (d < base)%nat) ds /\ l = map (fun d => kz (Z.of_nat d)) ds.
Proof.
  induction l as [|x l IH]; intros H; [exists []; split; [constructor|reflexivity]|].
  destruct IH as (ds & F & ->); [intros; apply H; now right|]. destruct (H x (in_eq _ _)) as (d & Hd & ->).
  exists (d :: ds). split; [now constructor|reflexivity].
Qed.
Theorem C44_base_sum : forall n base cs ws h, (1 + n <= length ws)%nat -> Z.of_nat base < p ->
  exists out, computes (EvalUnfiltered (BaseSumGate n base) (mkvars cs ws h)) (map repK out) /\ length out = (1 + n)%nat /\
    (vanish out <-> exists ds, length ds = n /\ Forall (fun d => (d < base)%nat) ds /\
       (forall i, (i < n)%nat -> wire ws (1 + i) = kz (Z.of_nat (nth i ds O))) /\
       wire ws 0 = kz (fold_right Z.add 0 (map (fun i => Z.of_nat (nth i ds O) * Z.of_nat base ^ Z.of_nat i) (seq 0 n)))).
Proof.
  intros n base cs ws h Hw Hb. exists (base_sum_k n base ws). split; [now apply base_sum_computes|].
  split; [unfold base_sum_k, base_sum_limbs; cbn [length]; now rewrite !map_length, seq_length|].
  unfold base_sum_k. rewrite (all0_cons), (all0_map (digits_k base)). fold (kz (Z.of_nat base)).
  assert (LL : length (base_sum_limbs n ws) = n) by (unfold base_sum_limbs; now rewrite map_length, seq_length).
  assert (LN : forall i, (i < n)%nat -> nth i (base_sum_limbs n ws) k0 = wire ws (1 + i)).
  { intros i Hi. unfold base_sum_limbs. rewrite (nth_map_lt (fun i => wire ws (1 + i)) _ _ _ 0%nat) by (rewrite seq_length; exact Hi).
    now rewrite seq_nth. }
  revert LL LN. generalize (base_sum_limbs n ws). intros limbs LL LN.
  assert (NM : forall ds i, (i < length ds)%nat -> nth i (map (fun d => kz (Z.of_nat d)) ds) k0 = kz (Z.of_nat (nth i ds O))).
  { intros ds i Hi. now rewrite (nth_map_lt (fun d => kz (Z.of_nat d)) _ _ _ 0%nat). }
  split.
  - intros [E H]. apply (proj1 (ksub_eq0 _ _)) in E.
    destruct (digits_list base limbs) as (ds & F & El); [intros x Hx; now apply digits_zero, H|].
    assert (Ld : length ds = n) by (rewrite <- LL, El; now rewrite map_length).
    exists ds. split; [exact Ld|]. split; [exact F|]. split.
    + intros i Hi. rewrite <- LN by exact Hi. rewrite El. apply NM. lia.
    + rewrite <- E, El, number_K, number_sum, Ld. reflexivity.
  - intros (ds & Ld & F & Hi & E0).
    assert (El : limbs = map (fun d => kz (Z.of_nat d)) ds).
    { apply (nth_ext _ _ k0 k0); [now rewrite map_length, LL, Ld|]. intros i Hlt. rewrite LL in Hlt.
      rewrite LN by exact Hlt. rewrite NM by lia. now apply Hi. }
    split.
    + apply (proj2 (ksub_eq0 _ _)). rewrite El, number_K, number_sum, Ld. now symmetry.
    + intros x Hx. rewrite El in Hx. apply in_map_iff in Hx. destruct Hx as (d & <- & Hd). apply digits_zero. exists d.
      rewrite Forall_forall in F. split; [now apply F|reflexivity].
Qed.
Example C44_ex : run (EvalUnfiltered (BaseSumGate 3 4) (mkEvaluationVars [] [(57, 0); (1, 0); (2, 0); (3, 0)] [])) = Done [(0, 0); (0, 0); (0, 0); (0, 0)] /\
  exists a b, run (EvalUnfiltered (BaseSumGate 3 4) (mkEvaluationVars [] [(57, 0); (1, 0); (6, 0); (2, 0)] [])) = Done [(0, 0); (0, 0); (a, b); (0, 0)] /\ (a, b) <> (0, 0).
Proof. split; [vm_compute; reflexivity|]. do 2 eexists. split; [vm_compute; reflexivity|]. intros H. discriminate H. Qed.

(** ** C45: bit wires 1..n hold the binary digits of e, lowest first; intermediate value i
    is the power of the leading i+1 digits. *)
Theorem C45_exponentiation : forall n e cs ws h, (2 + 2 * n <= length ws)%nat -> (1 <= n)%nat -> (e < 2 ^ N.of_nat n)%N ->
  (forall i, (i < n)%nat -> wire ws (1 + i) = if N.testbit e (N.of_nat i) then k1 else k0) ->
  exists out, computes (EvalUnfiltered (ExponentiationGate n) (mkvars cs ws h)) (map repK out) /\ length out = (n + 1)%nat /\
    (vanish out <->
      (forall i, (i < n)%nat -> wire ws (2 + n + i) = (wire ws 0 ^ (e / 2 ^ N.of_nat (n - i - 1)))%K) /\
      wire ws (1 + n) = (wire ws 0 ^ e)%K).
Proof.
  intros n e cs ws h Hw Hn He Hb. eexists. split; [now apply exponentiation_computes|].
  split; [now rewrite app_length, map_length, seq_length|]. exact (exponentiation_iff n ws e Hn He Hb).
Qed.
(** without digits the constraints alone do not make the power wires bits *)
Theorem C45_bits_unchecked : exists cs ws h, length ws = 6%nat /\ wire ws 1 = kz 2 /\
  computes (EvalUnfiltered (ExponentiationGate 1) (mkvars cs ws h)) [(0, 0); (0, 0)].
Proof.
  exists [], [kz 3; kz 2; kz 5; kz 5; k0; k0], []. split; [reflexivity|]. split; [reflexivity|].
  eapply computes_eq; [apply exponentiation_computes; cbn [length]; lia|]. vm_compute. reflexivity.
Qed.
Example C45_ex : run (EvalUnfiltered (ExponentiationGate 3) (mkEvaluationVars []
   [(3, 0); (0, 0); (1, 0); (1, 0); (729, 0); (3, 0); (27, 0); (729, 0)] [])) = Done [(0, 0); (0, 0); (0, 0); (0, 0)].
Proof. vm_compute. reflexivity. Qed.

(** ** C46: copy c has its index at wire v*c (v = 2 + 2^bits), its claimed element next to
    it, then the list; the extra constants follow the copies and the bits come last. *)
Theorem C46_random_access : forall bits copies extra cs ws h, (bits < 64)%nat ->
  ((2 + 2 ^ bits) * copies + extra + copies * bits <= length ws)%nat -> (extra <= length cs)%nat ->
  let v := (2 + 2 ^ bits)%nat in
  exists out, computes (EvalUnfiltered (RandomAccessGate bits copies extra) (mkvars cs ws h)) (map repK out) /\
    length out = (copies * (bits + 2) + extra)%nat /\
    (vanish out <->
      (forall c, (c < copies)%nat -> exists idx, (idx < 2 ^ bits)%nat /\
         (forall i, (i < bits)%nat -> wire ws (v * copies + extra + c * bits + i) = if Nat.testbit idx i then k1 else k0) /\
         wire ws (v * c) = kz (Z.of_nat idx) /\ wire ws (v * c + 1) = wire ws (v * c + 2 + idx)) /\
      (forall i, (i < extra)%nat -> wire ws (v * copies + i) = wire cs i)).
Proof.
  intros bits copies extra cs ws h Hb Hw Hc v. exists (ra_k bits copies extra cs ws). split; [now apply random_access_computes|].
  split; [exact (gate_length (RandomAccessGate bits copies extra) (length cs) cs ws h (conj Hb (conj Hw Hc)))|].
  unfold ra_k. rewrite (all0_app), all0_concat_seq, (all0_seq (fun i => wire cs i - wire ws ((2 + 2 ^ bits) * copies + i))%K). split; intros [H1 H2]; split.
  - intros c Hc'. exact (proj1 (ra_copy_iff _ _ _ _ _) (H1 c Hc')).
  - intros i Hi. specialize (H2 i Hi). apply (proj1 (ksub_eq0 _ _)) in H2. now symmetry.
  - intros c Hc'. exact (proj2 (ra_copy_iff _ _ _ _ _) (H1 c Hc')).
  - intros i Hi. apply (proj2 (ksub_eq0 _ _)). now rewrite H2.
Qed.
Example C46_ex : run (EvalUnfiltered (RandomAccessGate 2 1 1) (mkEvaluationVars [(9, 0)]
   [(2, 0); (12, 0); (10, 0); (11, 0); (12, 0); (13, 0); (9, 0); (0, 0); (1, 0)] [])) = Done [(0, 0); (0, 0); (0, 0); (0, 0); (0, 0)] /\
  exists x, run (EvalUnfiltered (RandomAccessGate 2 1 1) (mkEvaluationVars [(9, 0)]
   [(2, 0); (11, 0); (10, 0); (11, 0); (12, 0); (13, 0); (9, 0); (0, 0); (1, 0)] [])) = Done [(0, 0); (0, 0); (0, 0); (x, 0); (0, 0)] /\ x <> 0.
Proof. split; [vm_compute; reflexivity|]. eexists. split; [vm_compute; reflexivity|discriminate]. Qed.

(** ** C47: output wires 0-1, alpha 2-3, old accumulator 4-5, then the coefficients, then
    the accumulators but the last, which is the output. *)
Theorem C47_reducing : forall n cs ws h, (6 + n + 2 * (n - 1) <= length ws)%nat ->
  let alpha := alg ws 2 in let old := alg ws 4 in
  let coeff i := aemb (wire ws (6 + i)) in
  let acc i := if Nat.eqb i (n - 1) then alg ws 0 else alg ws (6 + n + 2 * i) in
  exists out, computes (EvalUnfiltered (ReducingGate n) (mkvars cs ws h)) (map repK out) /\ length out = (2 * n)%nat /\
    (vanish out <-> forall i, (i < n)%nat ->
       acc i = (old * apow alpha (S i) + asum (fun j => coeff j * apow alpha (i - j)) (S i))%KA).
Proof.
  intros n cs ws h Hw alpha old coeff acc. exists (reducing_gate_k n ws). split; [now apply reducing_computes|].
  split; [exact (gate_length (ReducingGate n) (length cs) cs ws h Hw)|]. unfold reducing_gate_k.
  rewrite (reducing_iff), map_length, seq_length by now rewrite !map_length.
  assert (E : forall i, (i < n)%nat -> nth i (map (acc_at n (6 + n) ws) (seq 0 n)) ka0 = acc i /\
    horner alpha old (firstn (S i) (map coeff (seq 0 n))) = (old * apow alpha (S i) + asum (fun j => coeff j * apow alpha (i - j)) (S i))%KA).
  { intros i Hi. split.
    - rewrite (nth_map_lt (acc_at n (6 + n) ws) _ _ _ 0%nat) by (rewrite seq_length; exact Hi). now rewrite seq_nth.
    - rewrite horner_closed.
      assert (L : length (firstn (S i) (map coeff (seq 0 n))) = S i) by (rewrite firstn_length, map_length, seq_length; lia).
      rewrite L. apply f_equal. unfold asum. apply f_equal. apply map_ext_in. intros j Hj. apply in_seq in Hj.
      rewrite nth_firstn_lt by lia. rewrite (nth_map_lt coeff _ _ _ 0%nat) by (rewrite seq_length; lia). rewrite seq_nth by lia.
      cbn [Nat.add]. replace (S i - 1 - j)%nat with (i - j)%nat by lia. reflexivity. }
  split; intros H i Hi; destruct (E i Hi) as [E1 E2].
  - rewrite <- E1, <- E2. now apply H.
  - rewrite E1. change (acc i = horner alpha old (firstn (S i) (map coeff (seq 0 n)))). rewrite E2. now apply H.
Qed.
Theorem C47_reducing_extension : forall n cs ws h, (6 + 2 * n + 2 * (n - 1) <= length ws)%nat ->
  let alpha := alg ws 2 in let old := alg ws 4 in
  let coeff i := alg ws (6 + 2 * i) in
  let acc i := if Nat.eqb i (n - 1) then alg ws 0 else alg ws (6 + 2 * n + 2 * i) in
  exists out, computes (EvalUnfiltered (ReducingExtensionGate n) (mkvars cs ws h)) (map repK out) /\ length out = (2 * n)%nat /\
    (vanish out <-> forall i, (i < n)%nat ->
       acc i = (old * apow alpha (S i) + asum (fun j => coeff j * apow alpha (i - j)) (S i))%KA).
Proof.
  intros n cs ws h Hw alpha old coeff acc. exists (reducing_ext_gate_k n ws). split; [now apply reducing_ext_computes|].
  split; [exact (gate_length (ReducingExtensionGate n) (length cs) cs ws h Hw)|]. unfold reducing_ext_gate_k.
  rewrite (reducing_iff), map_length, seq_length by now rewrite !map_length.
  assert (E : forall i, (i < n)%nat -> nth i (map (acc_at n (6 + 2 * n) ws) (seq 0 n)) ka0 = acc i /\
    horner alpha old (firstn (S i) (map coeff (seq 0 n))) = (old * apow alpha (S i) + asum (fun j => coeff j * apow alpha (i - j)) (S i))%KA).
  { intros i Hi. split.
    - rewrite (nth_map_lt (acc_at n (6 + 2 * n) ws) _ _ _ 0%nat) by (rewrite seq_length; exact Hi). now rewrite seq_nth.
    - rewrite horner_closed.
      assert (L : length (firstn (S i) (map coeff (seq 0 n))) = S i) by (rewrite firstn_length, map_length, seq_length; lia).
      rewrite L. apply f_equal. unfold asum. apply f_equal. apply map_ext_in. intros j Hj. apply in_seq in Hj.
      rewrite nth_firstn_lt by lia. rewrite (nth_map_lt coeff _ _ _ 0%nat) by (rewrite seq_length; lia). rewrite seq_nth by lia.
      cbn [Nat.add]. replace (S i - 1 - j)%nat with (i - j)%nat by lia. reflexivity. }
  split; intros H i Hi; destruct (E i Hi) as [E1 E2].
  - rewrite <- E1, <- E2. now apply H.
  - rewrite E1. change (acc i = horner alpha old (firstn (S i) (map coeff (seq 0 n)))). rewrite E2. now apply H.
Qed.
(** 2 coefficients, alpha = 10, old accumulator 7: 71, then 712 *)
Example C47_ex : run (EvalUnfiltered (ReducingGate 2) (mkEvaluationVars []
   [(712, 0); (0, 0); (10, 0); (0, 0); (7, 0); (0, 0); (1, 0); (2, 0); (71, 0); (0, 0)] [])) = Done [(0, 0); (0, 0); (0, 0); (0, 0)].
Proof. vm_compute. reflexivity. Qed.

(** ** C48: wire 0 is the shift; then the 2^s values, the evaluation point, the claimed
    value, the intermediate sums, the intermediate products and the shifted point.  The
    weights are parameters of the gate: for the barycentric weights of the subgroup the
    claimed value is that of the interpolant P.  Intermediate i covers the first
    1 + (d-1)(i+1) points; [abary xs ys ws x] is sum_k ws_k ys_k prod_{j<>k} (x - xs_j) and
    [aprodsub x xs] is prod_j (x - xs_j). *)
Theorem C48_coset_interpolation : forall (s d : nat) (wt : list GF) (g : GF) (cs ws : list K) (h : list GF),
  let n := (2 ^ s)%nat in let ni := ((n - 2) / (d - 1))%nat in
  let start := (1 + 2 * n + 4)%nat in
  (1 <= s <= 32)%nat -> (2 <= d <= n)%nat -> length wt = n -> (start + 4 * ni + 2 <= length ws)%nat ->
  computes (PrimitiveRootOfUnity s) (rep g) ->
  let domain := map (fun i => (g ^ N.of_nat i)%GF) (seq 0 n) in
  (forall i, (i < n)%nat -> (nth i wt 0 * gprodsub (g ^ N.of_nat i) (others i domain))%GF = 1%GF) ->
  let values := map (fun i => alg ws (1 + 2 * i)) (seq 0 n) in
  let shifted := alg ws (start + 4 * ni) in
  exists out P, computes (EvalUnfiltered (CosetInterpolationGate s d (map rep wt)) (mkvars cs ws h)) (map repK out) /\
    length out = (4 + 4 * ni)%nat /\
    (length P <= n)%nat /\ (forall i, (i < n)%nat -> apeval P (ae (g ^ N.of_nat i)%GF) = nth i values ka0) /\
    (vanish out <->
       alg ws (1 + 2 * n) = (aemb (wire ws 0) * shifted)%KA /\
       (forall i, (i < ni)%nat -> let m := (1 + (d - 1) * (i + 1))%nat in
          alg ws (start + 2 * i) = abary (map ae (firstn m domain)) (firstn m values) (map ae (firstn m wt)) shifted /\
          alg ws (start + 2 * (ni + i)) = aprodsub shifted (map ae (firstn m domain))) /\
       alg ws (1 + 2 * n + 2) = apeval P shifted).
Proof.
  intros s d wt g cs ws h n ni start Hs Hd Hwt Hws Hg domain Hok values shifted.
  assert (Eg : g = root s).
  { assert (Hr : computes (PrimitiveRootOfUnity s) (rep (root s))) by (apply root_computes; apply Hs).
    pose proof (proj1 Hg I) as R1. pose proof (proj1 Hr I) as R2. rewrite R1 in R2. injection R2 as R2. now apply GF_eq. }
  subst g.
  assert (Hok' : gweights_ok (powers (root s) (2 ^ s)) wt).
  { intros i Hi. unfold powers in Hi. rewrite map_length, seq_length in Hi. specialize (Hok i Hi).
    unfold powers. rewrite (nth_map_lt (fun i => (root s ^ N.of_nat i)%GF) _ _ _ 0%nat) by (rewrite seq_length; exact Hi).
    rewrite seq_nth by exact Hi. exact Hok. }
  destruct (bary_exists _ _ _ _ _ _ KA_ring (map ae domain) values (map ae wt)) as (P & LP & EP & _).
  - apply weights_lift; [unfold domain; now rewrite map_length, seq_length|exact Hok'].
  - unfold values, domain. now rewrite !map_length.
  - assert (HP : (length P <= n)%nat) by (rewrite map_length in LP; unfold domain in LP; now rewrite map_length, seq_length in LP).
    assert (HV : forall i, (i < n)%nat -> apeval P (ae (root s ^ N.of_nat i)%GF) = nth i values ka0).
    { intros i Hi. rewrite <- EP. unfold domain. rewrite !map_map.
      rewrite (nth_map_lt (fun x => peval ka0 aadd amul P (ae (root s ^ N.of_nat x)%GF)) _ _ _ 0%nat) by (rewrite seq_length; exact Hi).
      now rewrite seq_nth. }
    exists (coset_k s d wt ws), P. split; [apply (coset_computes s d wt ws Hs Hd Hwt Hws cs h)|].
    split; [apply (length_coset_k s d wt ws Hs Hd Hwt Hws)|]. split; [exact HP|]. split; [exact HV|].
    etransitivity; [exact (coset_iff s d wt ws Hs Hd Hwt Hws)|].
    rewrite (coset_value s d wt ws P Hs Hd Hwt Hws Hok' HP).
    2:{ intros i Hi. rewrite HV by exact Hi. unfold values.
        rewrite (nth_map_lt (fun i => alg ws (1 + 2 * i)) _ _ _ 0%nat) by (rewrite seq_length; exact Hi). now rewrite seq_nth. }
    apply and_iff_compat_l. apply and_iff_compat_r.
    assert (M : forall i, (i < ni)%nat -> c_pre s d wt ws (c_lo d i) =
       (abary (map ae (firstn (c_lo d i) domain)) (firstn (c_lo d i) values) (map ae (firstn (c_lo d i) wt)) shifted,
        aprodsub shifted (map ae (firstn (c_lo d i) domain)))).
    { intros i Hi. apply (c_pre_closed s d wt ws Hs Hd Hwt Hws). apply Nat.lt_le_incl. exact (c_lo_lt s d wt ws Hs Hd Hwt Hws i Hi). }
    split; intros H i Hi; specialize (H i Hi).
    + rewrite M in H by exact Hi. split; [exact (f_equal fst H)|exact (f_equal snd H)].
    + rewrite M by exact Hi. destruct H as [H1 H2]. exact (f_equal2 pair H1 H2).
Qed.
(** the subgroup of order 4, degree 3: one intermediate *)
Definition wt_ex : list Z := [13835058052060938241; 70368744177664; 4611686017353646080; 18446673700670406657].
Definition coset_ex (value : Z) : list QE :=
  [(7, 0); (3, 0); (0, 0); (5, 0); (0, 0); (8, 0); (0, 0); (13, 0); (0, 0); (70, 0); (0, 0); (value, 0); (0, 0);
   (9260948944098164639, 0); (0, 0); (18418878046720230367, 0); (0, 0); (10, 0); (0, 0)].
Example C48_ex : run (EvalUnfiltered (CosetInterpolationGate 2 3 wt_ex) (mkEvaluationVars [] (coset_ex 4054365563466545770) []))
   = Done [(0, 0); (0, 0); (0, 0); (0, 0); (0, 0); (0, 0); (0, 0); (0, 0)] /\
  run (EvalUnfiltered (CosetInterpolationGate 2 3 wt_ex) (mkEvaluationVars [] (coset_ex 4054365563466545771) []))
   = Done [(0, 0); (0, 0); (0, 0); (0, 0); (0, 0); (0, 0); (1, 0); (0, 0)].
Proof. vm_compute. split; reflexivity. Qed.
Example C48_ex_weights : let g := inj 281474976710656 in let domain := map (fun i => (g ^ N.of_nat i)%GF) (seq 0 4) in
  run (PrimitiveRootOfUnity 2) = Done (rep g) /\
  forall i, (i < 4)%nat -> (nth i (map inj wt_ex) 0 * gprodsub (g ^ N.of_nat i) (others i domain))%GF = 1%GF.
Proof.
  cbv zeta. split; [vm_compute; reflexivity|]. intros i Hi. apply GF_eq.
  destruct i as [|[|[|[|i]]]]; [| | | |lia]; vm_compute; reflexivity.
Qed.

(** ** C49: inputs 0-11, outputs 12-23, swap flag 24, deltas 25-28, then what enters the
    S-boxes: of full rounds 1-3 (29-64), of partial rounds 4-25 (65-86), of full rounds
    26-29 (87-134).  [psbox_in x k] is what enters the S-boxes in round k of the
    permutation of x, [pstate x 30] its result. *)
Theorem C49_poseidon_gate : forall cs ws h, (135 <= length ws)%nat ->
  let input := if keqb (wire ws 24) k0 then map (wire ws) (seq 0 12) else map (wire ws) (seq 4 4 ++ seq 0 4 ++ seq 8 4) in
  exists out, computes (EvalUnfiltered PoseidonGate (mkvars cs ws h)) (map repK out) /\ length out = 123%nat /\
    (vanish out <->
      (wire ws 24 = k0 \/ wire ws 24 = k1) /\
      (forall i, (i < 4)%nat -> wire ws (25 + i) = (wire ws 24 * (wire ws (i + 4) - wire ws i))%K) /\
      (forall k i, (1 <= k < 4)%nat -> (i < 12)%nat -> wire ws (29 + 12 * (k - 1) + i) = nth i (psbox_in input k) k0) /\
      (forall r, (r < 22)%nat -> wire ws (65 + r) = nth 0 (psbox_in input (4 + r)) k0) /\
      (forall k i, (k < 4)%nat -> (i < 12)%nat -> wire ws (87 + 12 * k + i) = nth i (psbox_in input (26 + k)) k0) /\
      (forall i, (i < 12)%nat -> wire ws (12 + i) = nth i (pstate input 30) k0)).
Proof.
  intros cs ws h Hw input. exists (poseidon_gate_k ws). split; [now apply poseidon_gate_computes|].
  split; [now apply length_poseidon_gate|]. etransitivity; [exact (poseidon_gate_iff ws Hw)|].
  unfold swap_ok, poseidon_wires. change (gate_input ws) with input. rewrite and_assoc. reflexivity.
Qed.
(** on base field inputs that is the permutation of C18 *)
Theorem C49_base_field : forall (x : list GF), pstate (map emb x) 30 = map emb (poseidon x).
Proof. exact pstate_emb. Qed.
(** any twelve inputs and either swap flag can be completed to satisfying wires *)
Theorem C49_complete : forall (x : list K) (b : bool) cs h, length x = 12%nat ->
  exists ws, length ws = 135%nat /\ firstn 12 ws = x /\ wire ws 24 = (if b then k1 else k0) /\
    computes (EvalUnfiltered PoseidonGate (mkvars cs ws h)) (repeat (0, 0) 123).
Proof.
  intros x b cs h Hx. exists (pos_wires (fun i => nth i x k0) b).
  assert (L : length (pos_wires (fun i => nth i x k0) b) = 135%nat) by (unfold pos_wires; now rewrite map_length, seq_length).
  split; [exact L|]. split; [|split].
  - apply (nth_ext _ _ k0 k0); [rewrite firstn_length, L, Hx; reflexivity|]. intros i Hi. rewrite firstn_length, L in Hi.
    rewrite nth_firstn_lt by lia. change (wire (pos_wires (fun i => nth i x k0) b) i = nth i x k0). rewrite wire_pos by lia.
    unfold pos_wire. rewrite (proj2 (Nat.ltb_lt _ _)) by lia. reflexivity.
  - rewrite wire_pos by lia. reflexivity.
  - destruct (C49_poseidon_gate cs (pos_wires (fun i => nth i x k0) b) h) as (out & C & Lo & E); [rewrite L; lia|].
    destruct (pos_wires_ok (fun i => nth i x k0) b) as [[S1 S2] W].
    assert (V : vanish out) by (apply E; split; [exact S1|split; [exact S2|exact W]]).
    eapply computes_eq; [exact C|]. rewrite <- Lo. clear - V. induction V as [|y l Hy _ IH]; cbn [map length repeat]; [reflexivity|].
    now rewrite Hy, IH, repK_0.
Qed.
Theorem C49_mds_gate : forall cs ws h, (48 <= length ws)%nat ->
  let inputs := map (fun i => alg ws (2 * i)) (seq 0 12) in
  let outputs := map (fun i => alg ws (2 * (12 + i))) (seq 0 12) in
  exists out, computes (EvalUnfiltered PoseidonMdsGate (mkvars cs ws h)) (map repK out) /\ length out = 24%nat /\
    (vanish out <-> map fst outputs = mds_k (map fst inputs) /\ map snd outputs = mds_k (map snd inputs)).
Proof.
  intros cs ws h Hw inputs outputs. exists (mds_gate_k ws). split; [now apply mds_gate_computes|].
  split; [apply length_mds_gate|]. unfold outputs. rewrite !map_map. exact (mds_gate_iff ws).
Qed.

(** all inputs 1: the rows of the MDS matrix add up to 256, the first one to 264 *)
Definition ex_mds (first last : Z) := run (EvalUnfiltered PoseidonMdsGate (mkEvaluationVars []
  (flat_map (fun x => [(x, 0); (0, 0)]) (repeat 1 12 ++ first :: repeat 256 10 ++ [last])) [])).
Example C49_ex : ex_mds 264 256 = Done (repeat (0, 0) 24) /\ ex_mds 264 258 = Done (repeat (0, 0) 22 ++ [(2, 0); (0, 0)]) /\
  ex_mds 255 256 = Done ((p - 9, 0) :: repeat (0, 0) 23).
Proof. vm_compute. repeat split. Qed.

(** ** C50 *)
Theorem C50_constant : forall n cs ws h, (n <= length ws)%nat -> (n <= length cs)%nat ->
  exists out, computes (EvalUnfiltered (ConstantGate n) (mkvars cs ws h)) (map repK out) /\ length out = n /\
    (vanish out <-> forall i, (i < n)%nat -> wire ws i = wire cs i).
Proof.
  intros n cs ws h Hw Hc. eexists. split; [now apply constant_computes|]. split; [now rewrite map_length, seq_length|].
  rewrite (all0_seq (fun i => wire cs i - wire ws i)%K). split; intros H i Hi; specialize (H i Hi).
  - apply (proj1 (ksub_eq0 _ _)) in H. now symmetry.
  - apply (proj2 (ksub_eq0 _ _)). now symmetry.
Qed.
Theorem C50_public_input : forall cs ws h, (4 <= length ws)%nat -> length h = 4%nat ->
  exists out, computes (EvalUnfiltered PublicInputGate (mkvars cs ws h)) (map repK out) /\ length out = 4%nat /\
    (vanish out <-> firstn 4 ws = map emb h).
Proof.
  intros cs ws h Hw Hh. eexists. split; [now apply public_input_computes|]. split; [reflexivity|].
  rewrite (all0_seq (fun i => wire ws i - hash_part h i)%K).
  assert (E : forall i, (i < 4)%nat -> nth i (firstn 4 ws) k0 = wire ws i /\ nth i (map emb h) k0 = hash_part h i).
  { intros i Hi. split; [now rewrite nth_firstn_lt|]. unfold hash_part. now rewrite (nth_map_lt emb _ _ _ g0) by lia. }
  split.
  - intros H. apply (nth_ext _ _ k0 k0); [rewrite firstn_length, map_length; lia|]. intros i Hi. rewrite firstn_length in Hi.
    destruct (E i ltac:(lia)) as [-> ->]. apply ksub_eq0, H. lia.
  - intros H i Hi. destruct (E i Hi) as [E1 E2]. apply (proj2 (ksub_eq0 _ _)). now rewrite <- E1, <- E2, H.
Qed.
Theorem C50_noop : forall cs ws h, computes (EvalUnfiltered NoopGate (mkvars cs ws h)) [].
Proof. intros. apply computes_ret. Qed.
Example C50_ex : run (EvalUnfiltered (ConstantGate 2) (mkEvaluationVars [(5, 0); (6, 1)] [(5, 0); (6, 0)] [])) = Done [(0, 0); (0, 1)] /\
  run (EvalUnfiltered PublicInputGate (mkEvaluationVars [] [(1, 0); (2, 0); (3, 0); (5, 0)] [1; 2; 3; 4])) = Done [(0, 0); (0, 0); (0, 0); (1, 0)].
Proof. vm_compute. split; reflexivity. Qed.

(** the hypotheses of C42 hold for the gates of testdata/decode_block: every gate fits its
    135 (or 136) wires and 2 constants *)
Example gates_fit : Forall (fits 2 136)
  [NoopGate; ConstantGate 2; PoseidonMdsGate; PublicInputGate; BaseSumGate 63 2; ReducingExtensionGate 33; ReducingGate 44;
   ArithmeticExtensionGate 10; ArithmeticGate 20; MultiplicationExtensionGate 13; RandomAccessGate 4 4 2;
   CosetInterpolationGate 4 6 (repeat 1 16); PoseidonGate].
Proof.
  repeat (apply Forall_cons; [cbn; unfold p; repeat split; try lia; repeat (apply Forall_cons; [lia|]); try apply Forall_nil|]).
  apply Forall_nil.
Qed.

Print Assumptions C41_filter_value.
Print Assumptions C41_filter_zero.
Print Assumptions C41_selects.
Print Assumptions C41_unused.
Print Assumptions C42_sum.
Print Assumptions C42_aborts.
Print Assumptions C43_arithmetic.
Print Assumptions C43_arithmetic_extension.
Print Assumptions C43_multiplication_extension.
Print Assumptions C44_base_sum.
Print Assumptions C45_exponentiation.
Print Assumptions C45_bits_unchecked.
Print Assumptions C46_random_access.
Print Assumptions C47_reducing.
Print Assumptions C47_reducing_extension.
Print Assumptions C48_coset_interpolation.
Print Assumptions C49_poseidon_gate.
Print Assumptions C49_base_field.
Print Assumptions C49_complete.
Print Assumptions C49_mds_gate.
Print Assumptions C50_constant.
Print Assumptions C50_public_input.
Print Assumptions C50_noop.
