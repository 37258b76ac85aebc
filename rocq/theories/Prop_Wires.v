(** * C73: the positions of the wires of a gate, computed with uint64.

    EvalUnfiltered64 and EvaluateGateConstraints64 (Wires) compute every wire position with the
    position functions of the code, whose arithmetic wraps around modulo 2^64. *)
From Coq Require Import String.
From Coq Require Import Ascii ZArith NArith Lia List Bool Permutation.
From Verif Require Import Zp Circuit Goldilocks Types Challenger Fri Gates GateIds GateIdProofs GateIdText Wires WiresProofs WiresLayout.
Import ListNotations.
Open Scope Z_scope.

Lemma text_parameters g t : gate_text g t -> parameters_ok g.
Proof. intros H. destruct H; cbn; unfold int_text, uint64_text in *; tauto. Qed.
Lemma parsed_parameters order id g : incl order gateRegexHandlers -> GateInstanceFromId order id = Ret g -> parameters_ok g.
Proof. intros H K. destruct (sound id order g H K) as (t & Ht & _). exact (text_parameters g t Ht). Qed.

(** whatever gate a string names, and whatever a variable that was never set is taken for: with
    fewer than 2^31 wires and constants the wrap-around makes no difference to the results, for a
    prover free to choose the hints and for the honest solver *)
Theorem C73_gate : forall order id g unset vars,
  Permutation order gateRegexHandlers -> GateInstanceFromId order id = Ret g ->
  Z.of_nat (length (localWires vars)) < 2 ^ 31 -> Z.of_nat (length (localConstants vars)) < 2 ^ 31 ->
  forall cs, (reach (EvalUnfiltered64 unset g vars) cs <-> reach (EvalUnfiltered g vars) cs) /\
             (run (EvalUnfiltered64 unset g vars) = Done cs <-> run (EvalUnfiltered g vars) = Done cs).
Proof.
  intros order id g unset vars HP H Hw Hc cs.
  exact (same_gate unset vars Hw Hc g (parsed_parameters order id g (fun h Hh => Permutation_in _ HP Hh) H) cs).
Qed.
Print Assumptions C73_gate.

(** the same for the constraints of all gates of a circuit *)
Theorem C73_constraints : forall orders ids gates n info unset vars,
  (forall i, Permutation (orders i) gateRegexHandlers) -> createdGates orders ids = Ret gates ->
  Z.of_nat (length (localWires vars)) < 2 ^ 31 -> Z.of_nat (length (localConstants vars)) < 2 ^ 31 ->
  forall cs, (reach (EvaluateGateConstraints64 unset gates n info vars) cs <-> reach (EvaluateGateConstraints gates n info vars) cs) /\
             (run (EvaluateGateConstraints64 unset gates n info vars) = Done cs <-> run (EvaluateGateConstraints gates n info vars) = Done cs).
Proof.
  intros orders ids gates n info unset vars HP H Hw Hc cs. apply (same_constraints unset gates n info vars Hw Hc).
  pose proof (created_inv orders gates ids (fun i h Hh => Permutation_in _ (HP i) Hh) H) as F. clear H.
  induction F as [|g id gates ids (t & Ht & _) F IH]; constructor; [exact (text_parameters g t Ht)|exact IH].
Qed.
Print Assumptions C73_constraints.

(** the roles of a gate, in the order of the documentation, take the wires 0, 1, 2, ... one after the
    other: no position function panics on a valid argument, no wire has two roles, none is left out *)
Theorem C73_layout : forall order id g,
  Permutation order gateRegexHandlers -> GateInstanceFromId order id = Ret g ->
  match g with
  | CosetInterpolationGate s _ _ => (1 <= s < 64)%nat
  | RandomAccessGate b _ _ => (b < 64)%nat
  | _ => True
  end ->
  Z.of_nat (numWires g) < 2 ^ 64 ->
  layout g = Ret (map Z.of_nat (seq 0 (numWires g))).
Proof.
  intros order id g HP H Hb Hn. apply layout_all; [|now destruct g|exact Hn].
  exact (parsed_parameters order id g (fun h Hh => Permutation_in _ HP Hh) H).
Qed.
Print Assumptions C73_layout.
(** positions the functions for single numbers give, beside the layout *)
Theorem C73_ends :
  (P_WiresEnd = Z.of_nat (numWires PoseidonGate)) /\
  (forall b c x, (b < 64)%nat -> Z.of_nat (numWires (RandomAccessGate b c x)) < 2 ^ 64 ->
     RA_NumRoutedWires (Z.of_nat b) (Z.of_nat c) (Z.of_nat x) = Z.of_nat (numWires (RandomAccessGate b c x)) - Z.of_nat (b * c)) /\
  (forall n start, (0 < n)%nat -> Z.of_nat n < 2 ^ 64 -> R_wiresAccs (Z.of_nat n) start (Z.of_nat (n - 1)) = Ret R_wiresOutput).
Proof.
  split; [reflexivity|]. split.
  - intros b c x Hb H. cbn [numWires] in *. unfold RA_NumRoutedWires, RA_startExtraConstants, RA_vecSize.
    rewrite shl1_vec. unfold vecSize. rewrite (proj2 (Nat.ltb_lt b 64)) by lia. set (v := Nat.pow 2 b) in *. clearbody v.
    destruct (Nat.eq_dec c 0) as [->|Hc].
    + unfold mul64. rewrite Z.mul_0_r. change (u64 0) with 0. rewrite add64_small by lia. lia.
    + rewrite (add64_small 2) by nia. rewrite mul64_small by nia. rewrite add64_small by nia. nia.
  - intros n start H0 H. unfold R_wiresAccs. rewrite (proj2 (Z.leb_gt (Z.of_nat n) _)) by lia. cbn [panic_if bind].
    rewrite sub64_small by lia. rewrite (proj2 (Z.eqb_eq _ _)) by lia. reflexivity.
Qed.
Print Assumptions C73_ends.

(** a gate reads all its wires: when the proof opens fewer, there is no result *)
Theorem C73_reads : forall order id g unset vars,
  Permutation order gateRegexHandlers -> GateInstanceFromId order id = Ret g ->
  Z.of_nat (length (localWires vars)) < 2 ^ 31 -> Z.of_nat (length (localConstants vars)) < 2 ^ 31 ->
  (length (localWires vars) < numWires g)%nat ->
  forall cs, ~ reach (EvalUnfiltered64 unset g vars) cs.
Proof.
  intros order id g unset vars HP H Hw Hc Hl cs R. apply (C73_gate order id g unset vars HP H Hw Hc cs) in R.
  exact (reads_all vars g Hl cs R).
Qed.
Print Assumptions C73_reads.

(** the bound on the number of wires in C73_layout is needed: a string the verifier accepts for
    which the first bit of the index sits on the wire of the index itself *)
Definition id73 : string :=
  "RandomAccessGate { bits: 1, num_copies: 1, num_extra_constants: 18446744073709551612, _phantom: PhantomData<plonky2_field::goldilocks_field::GoldilocksField> }<D=2>".
Theorem C73_wrap_refuted : exists id g b c x,
  GateInstanceFromId gateRegexHandlers id = Ret g /\ g = RandomAccessGate b c x /\ (b < 64)%nat /\
  RA_WireAccessIndex (Z.of_nat b) (Z.of_nat c) 0 = Ret 0 /\
  RA_WireBit (Z.of_nat b) (Z.of_nat c) (Z.of_nat x) 0 0 = Ret 0.
Proof.
  set (x := Z.to_nat (2 ^ 64 - 4)). assert (Ex : Z.of_nat x = 2 ^ 64 - 4) by (apply Z2Nat.id; discriminate).
  exists id73, (RandomAccessGate 1 1 x), 1%nat, 1%nat, x. split.
  - clearbody x. apply (complete (RandomAccessGate 1 1 x) id73); [|apply Permutation_refl].
    refine (t_random_access 1 1 x ["1"%char] ["1"%char] (str "18446744073709551612") ["2"%char] _ _ _ _).
    + split; [|reflexivity]. split; [discriminate|]. split; [|reflexivity]. intros c [<-|[]]; vm_compute; split; discriminate.
    + split; [|reflexivity]. split; [discriminate|]. split; [|reflexivity]. intros c [<-|[]]; vm_compute; split; discriminate.
    + split; [|rewrite Ex; reflexivity]. split; [discriminate|]. split; [|rewrite Ex; reflexivity].
      intros c Hc. repeat (destruct Hc as [<-|Hc]; [vm_compute; split; discriminate|]). destruct Hc.
    + split; [discriminate|]. split; [|reflexivity]. intros c [<-|[]]; vm_compute; split; discriminate.
  - split; [reflexivity|]. split; [lia|]. rewrite Ex. split; reflexivity.
Qed.
Print Assumptions C73_wrap_refuted.

(** a gate with table, extra constant and bits: 2 copies of 2 + 4 wires, 1 constant, 2 * 2 bits *)
Definition id_ex : string :=
  "RandomAccessGate { bits: 2, num_copies: 2, num_extra_constants: 1, _phantom: PhantomData<plonky2_field::goldilocks_field::GoldilocksField> }<D=2>".
Example C73_ex : GateInstanceFromId gateRegexHandlers id_ex = Ret (RandomAccessGate 2 2 1) /\
  layout (RandomAccessGate 2 2 1) = Ret (map Z.of_nat (seq 0 17)) /\
  RA_WireListItem 2 2 3 1 = Ret 11 /\ RA_WireBit 2 2 1 0 1 = Ret 15.
Proof. split; [vm_compute; reflexivity|]. repeat split. Qed.
(** an arithmetic gate that has a result: 3 * 4 * 2 + 5 * 1 = 29 *)
Example C73_ex_run :
  run (EvalUnfiltered64 (0, 0) (ArithmeticGate 1) (mkEvaluationVars [(2, 0); (1, 0)] [(3, 0); (4, 0); (5, 0); (29, 0)] [])) = Done [(0, 0)].
Proof. vm_compute. reflexivity. Qed.
