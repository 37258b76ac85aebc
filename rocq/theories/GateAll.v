(** * Every gate: when its wires and constants suffice, and how many constraints it has. *)
From Coq Require Import String.
From Coq Require Import ZArith NArith Lia List Bool Ring.
From Verif Require Import Zp GF Circuit Goldilocks GLProofs ExtProofs Poly Roots Interp Types Challenger Fri FriMerkle FriEval Gates GateProofs GateCoset GatePoseidon GateFilter.
Import ListNotations.
Open Scope Z_scope.

(** enough constants (nc) and wires (nw) for the gate, parameters the code can handle *)
Definition fits (nc nw : nat) (g : Gate) : Prop :=
  match g with
  | ArithmeticGate n => (4 * n <= nw)%nat /\ (2 <= nc)%nat
  | ArithmeticExtensionGate n => (8 * n <= nw)%nat /\ (2 <= nc)%nat
  | BaseSumGate n base => (1 + n <= nw)%nat /\ Z.of_nat base < p
  | ConstantGate n => (n <= nw)%nat /\ (n <= nc)%nat
  | CosetInterpolationGate s d wt =>
      (1 <= s <= 32)%nat /\ (2 <= d <= 2 ^ s)%nat /\ length wt = (2 ^ s)%nat /\ Forall (fun x => 0 <= x < p) wt /\
      (1 + 2 * 2 ^ s + 4 + 4 * ((2 ^ s - 2) / (d - 1)) + 2 <= nw)%nat
  | ExponentiationGate n => (2 + 2 * n <= nw)%nat /\ (1 <= n)%nat
  | MultiplicationExtensionGate n => (6 * n <= nw)%nat /\ (1 <= nc)%nat
  | NoopGate => True
  | PoseidonGate => (135 <= nw)%nat
  | PoseidonMdsGate => (48 <= nw)%nat
  | PublicInputGate => (4 <= nw)%nat
  | RandomAccessGate bits copies extra => (bits < 64)%nat /\ ((2 + 2 ^ bits) * copies + extra + copies * bits <= nw)%nat /\ (extra <= nc)%nat
  | ReducingExtensionGate n => (6 + 2 * n + 2 * (n - 1) <= nw)%nat
  | ReducingGate n => (6 + n + 2 * (n - 1) <= nw)%nat
  end.
Definition num_constraints (g : Gate) : nat :=
  match g with
  | ArithmeticGate n => n
  | ArithmeticExtensionGate n => 2 * n
  | BaseSumGate n _ => 1 + n
  | ConstantGate n => n
  | CosetInterpolationGate s d _ => 4 + 4 * ((2 ^ s - 2) / (d - 1))
  | ExponentiationGate n => n + 1
  | MultiplicationExtensionGate n => 2 * n
  | NoopGate => 0
  | PoseidonGate => 123
  | PoseidonMdsGate => 24
  | PublicInputGate => 4
  | RandomAccessGate bits copies extra => copies * (bits + 2) + extra
  | ReducingExtensionGate n | ReducingGate n => 2 * n
  end.
(** what the constraints of a gate are, as elements of the extension field *)
Definition gate_k (g : Gate) (cs ws : list K) (h : list GF) : list K :=
  match g with
  | ArithmeticGate n => map (arith_k cs ws) (seq 0 n)
  | ArithmeticExtensionGate n => concat (map (arith_ext_k cs ws) (seq 0 n))
  | BaseSumGate n base => base_sum_k n base ws
  | ConstantGate n => map (fun i => wire cs i - wire ws i)%K (seq 0 n)
  | CosetInterpolationGate s d wt => coset_k s d (map inj wt) ws
  | ExponentiationGate n => map (exp_k n ws) (seq 0 n) ++ [(wire ws (1 + n) - wire ws (2 + n + (n - 1)))%K]
  | MultiplicationExtensionGate n => concat (map (mul_ext_k cs ws) (seq 0 n))
  | NoopGate => []
  | PoseidonGate => poseidon_gate_k ws
  | PoseidonMdsGate => mds_gate_k ws
  | PublicInputGate => map (fun i => wire ws i - hash_part h i)%K (seq 0 4)
  | RandomAccessGate bits copies extra => ra_k bits copies extra cs ws
  | ReducingExtensionGate n => reducing_ext_gate_k n ws
  | ReducingGate n => reducing_gate_k n ws
  end.
Lemma map_rep_inj wt : Forall (fun x => 0 <= x < p) wt -> map rep (map inj wt) = wt.
Proof. induction 1 as [|x l Hx _ IH]; cbn [map]; [reflexivity|]. now rewrite rep_inj_small, IH by exact Hx. Qed.
Lemma gate_computes g cs ws h : fits (length cs) (length ws) g -> length h = 4%nat ->
  computes (EvalUnfiltered g (mkvars cs ws h)) (map repK (gate_k g cs ws h)).
Proof.
  intros F Hh. destruct g; cbn [fits gate_k] in *.
  - now apply arithmetic_computes.
  - now apply arithmetic_ext_computes.
  - now apply base_sum_computes.
  - now apply constant_computes.
  - destruct F as (Hs & Hd & Hw & Hr & Hn). rewrite <- (map_rep_inj _ Hr) at 1. apply coset_computes.
    + exact Hs.
    + exact Hd.
    + now rewrite map_length.
    + exact Hn.
  - now apply exponentiation_computes.
  - now apply mul_ext_computes.
  - apply computes_ret.
  - now apply poseidon_gate_computes.
  - now apply mds_gate_computes.
  - now apply public_input_computes.
  - now apply random_access_computes.
  - now apply reducing_ext_computes.
  - now apply reducing_computes.
Qed.
Lemma gate_length g nc cs ws h : fits nc (length ws) g -> length (gate_k g cs ws h) = num_constraints g.
Proof.
  intros F. destruct g; cbn [fits gate_k num_constraints] in *.
  - now rewrite map_length, seq_length.
  - now rewrite (length_concat_seq _ 2) by reflexivity.
  - unfold base_sum_k, base_sum_limbs. cbn [length]. now rewrite !map_length, seq_length.
  - now rewrite map_length, seq_length.
  - unfold coset_k. rewrite !app_length, (length_concat_seq _ 4) by reflexivity. cbn [klimbs length].
    unfold c_ni, numIntermediates. lia.
  - now rewrite app_length, map_length, seq_length.
  - now rewrite (length_concat_seq _ 2) by reflexivity.
  - reflexivity.
  - now apply length_poseidon_gate.
  - apply length_mds_gate.
  - reflexivity.
  - unfold ra_k. rewrite app_length, map_length, seq_length. rewrite (length_concat_seq _ (bits + 2)).
    + lia.
    + intros i. unfold ra_copy_k, ra_bits. cbv zeta. rewrite app_length, !map_length, seq_length. reflexivity.
  - unfold reducing_ext_gate_k. rewrite length_reducing_k by now rewrite !map_length. now rewrite map_length, seq_length.
  - unfold reducing_gate_k. rewrite length_reducing_k by now rewrite !map_length. now rewrite map_length, seq_length.
Qed.
Lemma gates_k_ok cs ws h info gates : Forall (fits (length cs - ns info) (length ws)) gates -> length h = 4%nat ->
  gates_ok cs ws h info gates (map (fun g => gate_k g (skipn (ns info) cs) ws h) gates).
Proof.
  intros F Hh. unfold gates_ok. induction F as [|g gates Hg F IH]; cbn [map]; constructor; [|exact IH].
  apply gate_computes; [|exact Hh]. now rewrite skipn_length.
Qed.

(** the product of the differences and the partial barycentric sums of the coset gate *)
Lemma coset_value s d wt ws P : (1 <= s <= 32)%nat -> (2 <= d <= 2 ^ s)%nat -> length wt = (2 ^ s)%nat ->
  (c_start s + 4 * c_ni s d + 2 <= length ws)%nat -> gweights_ok (powers (root s) (2 ^ s)) wt ->
  (length P <= 2 ^ s)%nat ->
  (forall i, (i < 2 ^ s)%nat -> apeval P (ae (root s ^ N.of_nat i)%GF) = alg ws (1 + 2 * i)) ->
  fst (c_pre s d wt ws (2 ^ s)) = apeval P (c_shifted s d ws).
Proof.
  intros Hs Hd Hwt Hws Hok HP Hv.
  rewrite (c_pre_closed s d wt ws Hs Hd Hwt Hws (2 ^ s) (le_n _)). cbn [fst].
  rewrite !firstn_all2 by (rewrite ?len_dom, ?len_val, ?Hwt; lia).
  unfold abary. apply (bary_interpolates _ _ _ _ _ _ KA_ring).
  - apply weights_lift; [now rewrite len_dom, Hwt|exact Hok].
  - exists P. split; [now rewrite map_length, len_dom|reflexivity].
  - rewrite map_length. now rewrite len_val, len_dom.
  - apply (nth_ext _ _ ka0 ka0); [now rewrite !map_length, len_dom, len_val|]. intros i Hi.
    rewrite !map_length, len_dom in Hi. rewrite map_map.
    rewrite (nth_map_lt (fun x => apeval P (ae x)) _ _ _ 0%GF) by now rewrite len_dom.
    unfold c_dom, powers, c_val. rewrite (nth_map_lt (fun i => (root s ^ N.of_nat i)%GF) _ _ _ 0%nat) by now rewrite seq_length.
    rewrite (nth_map_lt (fun i => alg ws (1 + 2 * i)) _ _ _ 0%nat) by now rewrite seq_length.
    rewrite seq_nth by exact Hi. now apply Hv.
Qed.

(** wires that satisfy the Poseidon gate, for any inputs and either value of the swap flag *)
Definition pos_in (x : nat -> K) (b : bool) : list K := map x (if b then seq 4 4 ++ seq 0 4 ++ seq 8 4 else seq 0 12).
Definition pos_wire (x : nat -> K) (b : bool) (i : nat) : K :=
  let y := pos_in x b in
  if Nat.ltb i 12 then x i else
  if Nat.ltb i 24 then nth (i - 12) (pstate y 30) k0 else
  if Nat.eqb i 24 then bit_k b else
  if Nat.ltb i 29 then (bit_k b * (x (i - 25 + 4)%nat - x (i - 25)%nat))%K else
  if Nat.ltb i 65 then nth ((i - 29) mod 12) (psbox_in y (1 + (i - 29) / 12)) k0 else
  if Nat.ltb i 87 then nth 0 (psbox_in y (4 + (i - 65))) k0 else
  nth ((i - 87) mod 12) (psbox_in y (26 + (i - 87) / 12)) k0.
Definition pos_wires (x : nat -> K) (b : bool) : list K := map (pos_wire x b) (seq 0 135).
Lemma wire_pos x b i : (i < 135)%nat -> wire (pos_wires x b) i = pos_wire x b i.
Proof.
  intros H. unfold wire, pos_wires. rewrite (nth_map_lt (pos_wire x b) _ _ _ 0%nat) by (rewrite seq_length; exact H).
  now rewrite seq_nth.
Qed.
Lemma divmod12 k i : (i < 12)%nat -> ((12 * k + i) / 12 = k /\ (12 * k + i) mod 12 = i)%nat.
Proof.
  intros H. split.
  - rewrite Nat.mul_comm, Nat.div_add_l by lia. rewrite Nat.div_small by exact H. lia.
  - rewrite Nat.mul_comm, Nat.add_comm, Nat.mod_add by lia. now apply Nat.mod_small.
Qed.
Ltac ltb_f := rewrite (proj2 (Nat.ltb_ge _ _)) by lia.
Ltac ltb_t := rewrite (proj2 (Nat.ltb_lt _ _)) by lia.
Ltac eqb_f := rewrite (proj2 (Nat.eqb_neq _ _)) by lia.
Lemma pos_gate_input x b : gate_input (pos_wires x b) = pos_in x b.
Proof.
  unfold gate_input. rewrite wire_pos by lia. change (pos_wire x b 24) with (bit_k b). unfold pos_in.
  assert (E : forall l, (forall i, In i l -> (i < 12)%nat) -> map (wire (pos_wires x b)) l = map x l).
  { intros l Hl. apply map_ext_in. intros i Hi. apply Hl in Hi. rewrite wire_pos by lia. unfold pos_wire. now ltb_t. }
  destruct b; cbn [bit_k].
  - destruct (keqb k1 k0) eqn:D.
    + apply keqb_eq in D. exfalso. apply (f_equal fst) in D. now apply g1_neq_g0.
    + apply E. intros i Hi. cbn in Hi. lia.
  - rewrite (proj2 (keqb_eq k0 k0) eq_refl). apply E. intros i Hi. apply in_seq in Hi. lia.
Qed.
Local Opaque pstate psbox_in pos_in.
Lemma pos_wires_ok x b : swap_ok (pos_wires x b) /\ poseidon_wires (pos_wires x b) (gate_input (pos_wires x b)).
Proof.
  rewrite pos_gate_input. split; [split|].
  - rewrite wire_pos by lia. change (pos_wire x b 24) with (bit_k b). destruct b; [now right|now left].
  - intros i Hi. rewrite !wire_pos by lia. change (pos_wire x b 24) with (bit_k b). unfold pos_wire. cbv zeta.
    do 2 ltb_f. eqb_f. do 3 ltb_t. replace (25 + i - 25)%nat with i by lia. reflexivity.
  - split; [|split; [|split]].
    + intros k i Hk Hi. rewrite wire_pos by lia. unfold pos_wire. cbv zeta. do 2 ltb_f. eqb_f. ltb_f. ltb_t.
      replace (29 + 12 * (k - 1) + i - 29)%nat with (12 * (k - 1) + i)%nat by lia.
      destruct (divmod12 (k - 1) i Hi) as [-> ->]. replace (1 + (k - 1))%nat with k by lia. reflexivity.
    + intros r Hr. rewrite wire_pos by lia. unfold pos_wire. cbv zeta. do 2 ltb_f. eqb_f. do 2 ltb_f. ltb_t.
      replace (65 + r - 65)%nat with r by lia. reflexivity.
    + intros k i Hk Hi. rewrite wire_pos by lia. unfold pos_wire. cbv zeta. do 2 ltb_f. eqb_f. do 3 ltb_f.
      replace (87 + 12 * k + i - 87)%nat with (12 * k + i)%nat by lia.
      destruct (divmod12 k i Hi) as [-> ->]. reflexivity.
    + intros i Hi. rewrite wire_pos by lia. unfold pos_wire. cbv zeta. ltb_f. ltb_t.
      replace (12 + i - 12)%nat with i by lia. reflexivity.
Qed.
