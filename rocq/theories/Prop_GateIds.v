(** * Property C51: gate identifiers are parsed unambiguously.

    [gate_text g t] (GateIdText) says that t is a text plonky2 prints for the gate g: the
    name and the decimal parameters, up to leading zeros, blanks around the interpolation
    weights and the choice of their representatives.  [order] is the order in which the
    table of regular expressions is iterated: any permutation of it. *)
From Coq Require Import String.
From Coq Require Import Ascii ZArith NArith Lia List Bool Permutation.
From Verif Require Import Zp Circuit Goldilocks Types Gates GateIds GateIdProofs GateIdText GateFilter.
Import ListNotations.
Open Scope Z_scope.

Lemma aborts_panic {A} m : aborts (@Panic A m).
Proof. split; [now exists m|intros a []]. Qed.

(** every identifier is parsed to its gate, whatever the order *)
Theorem C51_parse : forall g id order, gate_text g (str id) -> Permutation order gateRegexHandlers ->
  GateInstanceFromId order id = Ret g.
Proof. exact complete. Qed.
Print Assumptions C51_parse.

(** no identifier stands for two gates *)
Theorem C51_unambiguous : forall g g' t, gate_text g t -> gate_text g' t -> g = g'.
Proof.
  intros g g' t H H'. rewrite <- (list_ascii_of_string_of_list_ascii t) in H, H'.
  pose proof (complete _ _ _ H (Permutation_refl _)) as E. rewrite (complete _ _ _ H' (Permutation_refl _)) in E. now injection E as ->.
Qed.
Print Assumptions C51_unambiguous.

(** a gate is only returned if one of its identifiers occurs in the string *)
Theorem C51_sound : forall g id order, Permutation order gateRegexHandlers ->
  GateInstanceFromId order id = Ret g -> exists a t b, gate_text g t /\ str id = (a ++ t ++ b)%list.
Proof.
  intros g id order HP H. destruct (sound id order g (fun h Hh => Permutation_in _ HP Hh) H) as (t & Ht & a & b & E). now exists a, t, b.
Qed.
Print Assumptions C51_sound.

(** strings in which no identifier occurs abort *)
Theorem C51_unknown : forall id order, Permutation order gateRegexHandlers ->
  (forall g a t b, gate_text g t -> str id <> (a ++ t ++ b)%list) -> aborts (GateInstanceFromId order id).
Proof.
  intros id order HP H. destruct (settled_gate order id (fun h Hh => Permutation_in _ HP Hh)) as [[g E]|[m E]].
  - exfalso. destruct (C51_sound g id order HP E) as (a & t & b & Ht & Es). exact (H g a t b Ht Es).
  - rewrite E. apply aborts_panic.
Qed.
Print Assumptions C51_unknown.

(** the gates of a circuit *)
Theorem C51_circuit : forall gates ids orders, (forall i, Permutation (orders i) gateRegexHandlers) ->
  Forall2 gate_text gates (map str ids) -> createdGates orders ids = Ret gates.
Proof. intros gates ids orders HP H. now apply created_ok. Qed.
Print Assumptions C51_circuit.

(** Unambiguity does not extend to all strings: the expressions are not anchored, so a
    string with two gate names gives different gates for different orders, and text
    around an identifier is ignored. *)
Theorem C51_all_strings_refuted : exists id order order', Permutation order gateRegexHandlers /\ Permutation order' gateRegexHandlers /\
  GateInstanceFromId order id = Ret NoopGate /\ GateInstanceFromId order' id = Ret PublicInputGate.
Proof.
  exists "NoopGatePublicInputGate"%string, gateRegexHandlers, (rev gateRegexHandlers).
  split; [apply Permutation_refl|]. split; [apply Permutation_sym, Permutation_rev|]. split; vm_compute; reflexivity.
Qed.
Print Assumptions C51_all_strings_refuted.
Theorem C51_exact_refuted : exists id, (forall order, Permutation order gateRegexHandlers -> GateInstanceFromId order id = Ret NoopGate) /\
  forall g, ~ gate_text g (str id).
Proof.
  exists "xNoopGate"%string. split.
  - intros order HP. apply (unique_handler order (noopGateRegex, fun _ => Ret NoopGate) _ []).
    + apply (Permutation_in _ (Permutation_sym HP)). in_handlers.
    + vm_compute. reflexivity.
    + intros h Hh. apply (Permutation_in _ HP) in Hh.
      repeat (destruct Hh as [<-|Hh]; [first [right; vm_compute; reflexivity | left; reflexivity]|]). destruct Hh.
  - intros g H. inversion H.
Qed.
Print Assumptions C51_exact_refuted.

(** Id is parsed back, except for three gates *)
Definition id_range (g : Gate) : Prop :=
  match g with
  | ArithmeticGate n | ArithmeticExtensionGate n | ConstantGate n | MultiplicationExtensionGate n | ReducingExtensionGate n | ReducingGate n => Z.of_nat n < 2 ^ 63
  | BaseSumGate n b => Z.of_nat n < 2 ^ 63 /\ Z.of_nat b < 2 ^ 63
  | NoopGate | PoseidonGate | PoseidonMdsGate | PublicInputGate => True
  | CosetInterpolationGate _ _ _ | ExponentiationGate _ | RandomAccessGate _ _ _ => False
  end.
Theorem C51_Id : forall sprint g order, id_range g -> Permutation order gateRegexHandlers -> GateInstanceFromId order (Id sprint g) = Ret g.
Proof. intros sprint g order H HP. apply complete; [now apply Id_text|exact HP]. Qed.
Print Assumptions C51_Id.
(** [sprint] prints digits, blanks, signs and brackets *)
Theorem C51_Id_refuted : forall sprint order, Permutation order gateRegexHandlers ->
  (forall ws, str (sprint ws) <> [] /\ forall c, In c (str (sprint ws)) -> (N_of_ascii c < 65 \/ N_of_ascii c = 91 \/ N_of_ascii c = 93)%N) ->
  forall g, match g with CosetInterpolationGate _ _ _ | ExponentiationGate _ | RandomAccessGate _ _ _ => True | _ => False end ->
  aborts (GateInstanceFromId order (Id sprint g)).
Proof.
  intros sprint order HP Hs g Hg. assert (HI : incl order gateRegexHandlers) by (intros h Hh; exact (Permutation_in _ HP Hh)).
  destruct g; try (destruct Hg; fail).
  - rewrite (Id_coset_rejected order sprint _ _ _ HI (proj1 (Hs _)) (proj2 (Hs _))). apply aborts_panic.
  - rewrite Id_exp_rejected by exact HI. apply aborts_panic.
  - rewrite Id_ra_rejected by exact HI. apply aborts_panic.
Qed.
Print Assumptions C51_Id_refuted.

(** testdata/step/common_circuit_data.json:45-57; some of the weights are not canonical *)
Definition ids_ex : list string :=
  ["NoopGate"; "PoseidonMdsGate(PhantomData<plonky2_field::goldilocks_field::GoldilocksField>)<WIDTH=12>"; "PublicInputGate";
   "BaseSumGate { num_limbs: 63 } + Base: 2"; "ReducingExtensionGate { num_coeffs: 33 }"; "ReducingGate { num_coeffs: 44 }";
   "ArithmeticExtensionGate { num_ops: 10 }"; "ArithmeticGate { num_ops: 20 }"; "MulExtensionGate { num_ops: 13 }";
   "ExponentiationGate { num_power_bits: 67, _phantom: PhantomData<plonky2_field::goldilocks_field::GoldilocksField> }<D=2>";
   "RandomAccessGate { bits: 4, num_copies: 4, num_extra_constants: 2, _phantom: PhantomData<plonky2_field::goldilocks_field::GoldilocksField> }<D=2>";
   "CosetInterpolationGate { subgroup_bits: 4, degree: 6, barycentric_weights: [17293822565076172801, 18446744069415632897], _phantom: PhantomData<plonky2_field::goldilocks_field::GoldilocksField> }<D=2>";
   "PoseidonGate(PhantomData<plonky2_field::goldilocks_field::GoldilocksField>)<WIDTH=12>"]%string.
Definition gates_ex : list Gate :=
  [NoopGate; PoseidonMdsGate; PublicInputGate; BaseSumGate 63 2; ReducingExtensionGate 33; ReducingGate 44; ArithmeticExtensionGate 10; ArithmeticGate 20;
   MultiplicationExtensionGate 13; ExponentiationGate 67; RandomAccessGate 4 4 2; CosetInterpolationGate 4 6 [17293822565076172801; 1048576]; PoseidonGate].
Ltac num := apply numeral_iff; split; [discriminate|split; reflexivity].
Ltac int := split; [num|reflexivity].
Example C51_ex : Forall2 gate_text gates_ex (map str ids_ex).
Proof.
  unfold gates_ex, ids_ex. cbn [map].
  constructor; [exact t_noop|]. constructor; [exact t_poseidon_mds_full|]. constructor; [exact t_public_input|].
  constructor; [apply (t_base_sum 63 2 (str "63") (str "2")); int|].
  constructor; [apply (t_reducing_extension 33 (str "33")); int|]. constructor; [apply (t_reducing 44 (str "44")); int|].
  constructor; [apply (t_arithmetic_extension 10 (str "10")); int|]. constructor; [apply (t_arithmetic 20 (str "20")); int|].
  constructor; [apply (t_mul_extension 13 (str "13")); int|].
  constructor; [apply (t_exponentiation 67 (str "67") (str "2")); [int|num]|].
  constructor; [apply (t_random_access 4 4 2 (str "4") (str "4") (str "2") (str "2")); [int|int|int|num]|].
  constructor; [|constructor; [exact t_poseidon_full|constructor]].
  apply (t_coset 4 6 _ (str "4") (str "6") (str "17293822565076172801, 18446744069415632897")); [int|int|lia|].
  apply (weights_more [] (str "17293822565076172801") [] 17293822565076172801 [1048576] (str " 18446744069415632897"));
    [constructor|constructor|num|reflexivity|].
  apply (weights_one (str " ") (str "18446744069415632897") [] 18446744069415632897); [repeat constructor|constructor|num|reflexivity].
Qed.
Example C51_unknown_ex : forall g a t b, gate_text g t -> str "LookupGate { num_slots: 40 }" <> (a ++ t ++ b)%list.
Proof.
  intros g a t b H E.
  assert (G : forall l r, t = (l ++ r)%list -> occursb l (str "LookupGate { num_slots: 40 }") = true).
  { intros l r ->. apply occurs_b. exists a, (r ++ b)%list. rewrite E. now rewrite app_assoc_reverse. }
  destruct H; try (specialize (G _ _ eq_refl); vm_compute in G; discriminate G).
  all: match type of E with _ = (_ ++ ?l ++ _)%list => specialize (G l [] (eq_sym (app_nil_r l))) end; vm_compute in G; discriminate G.
Qed.
