(** * The number of requests of the circuits of testdata, counted.

    The circuit asks for the same requests for all inputs of one shape (C77), so they can be
    counted for a placeholder.  The values in it are never computed: the evaluation is lazy. *)
From Coq Require Import String.
From Coq Require Import ZArith NArith Lia List Bool.
From Verif Require Import Zp Circuit Goldilocks Types Challenger Fri Gates Plonk GateIds Verifier Uniform TestData.
Import ListNotations.
Open Scope Z_scope.

(** ** Counting *)
(** how often [f] holds in a list of requests *)
Definition occurrences {A} (f : A -> bool) (l : list A) : N := N.of_nat (length (filter f l)).
Definition is_hint (e : event) : bool := match e with EHint _ => true | _ => false end.
Definition is_assert (e : event) : bool := match e with EAssert => true | _ => false end.
Definition is_range (width : Z) (e : event) : bool := match e with ERange n => n =? width | _ => false end.

(** All at once, with accumulators.  The comparison with 2^22 makes the accumulator a number at
    each step, which the lazy evaluation would otherwise put off to the end. *)
Definition small (n : N) : bool := N.leb n 4194304.
Definition totals : Type := (N * N) * (N * N * N * N).
Fixpoint census {A} (c : circ A) (h a n32 n48 n144 n192 : N) : option totals :=
  match c with
  | Ret _ => Some ((h, a), (n32, n48, n144, n192))
  | Hint _ n k => if small h then census (k (fit n [])) (N.succ h) a n32 n48 n144 n192 else None
  | Assert _ k => if small a then census k h (N.succ a) n32 n48 n144 n192 else None
  | Range _ n k =>
      if n =? 32 then if small n32 then census k h a (N.succ n32) n48 n144 n192 else None
      else if n =? 144 then if small n144 then census k h a n32 n48 (N.succ n144) n192 else None
      else if n =? 192 then if small n192 then census k h a n32 n48 n144 (N.succ n192) else None
      else if n =? 48 then census k h a n32 (N.succ n48) n144 n192
      else None
  | Panic _ => None
  end.

Definition panics_ (e : event) : bool := match e with EPanic _ => true | _ => false end.
Definition other (e : event) : bool :=
  match e with ERange n => negb ((n =? 32) || (n =? 48) || (n =? 144) || (n =? 192)) | EPanic _ => true | _ => false end.
Definition sums (h a n32 n48 n144 n192 : N) (e : list event) : totals :=
  ((h + occurrences is_hint e, a + occurrences is_assert e),
   (n32 + occurrences (is_range 32) e, n48 + occurrences (is_range 48) e, n144 + occurrences (is_range 144) e, n192 + occurrences (is_range 192) e))%N.
Lemma occ_cons {A} (f : A -> bool) x l : occurrences f (x :: l) = ((if f x then 1 else 0) + occurrences f l)%N.
Proof. unfold occurrences. cbn [filter]. destruct (f x); [|reflexivity]. cbn [length]. lia. Qed.
Lemma census_layout {A} (c : circ A) : forall h a n32 n48 n144 n192 out, census c h a n32 n48 n144 n192 = Some out ->
  out = sums h a n32 n48 n144 n192 (layout c []) /\ filter other (layout c []) = [].
Proof.
  induction c as [x|g n k IH|b k IH|x n k IH|m]; intros h a n32 n48 n144 n192 out H; cbn [census layout hd tl] in *.
  - injection H as <-. split; [|reflexivity]. unfold sums, occurrences. cbn [filter length N.of_nat]. now rewrite !N.add_0_r.
  - destruct (small h); [|discriminate H]. apply IH in H. destruct H as [-> Q]. split; [|exact Q]. unfold sums. rewrite !occ_cons. cbn [is_hint is_assert is_range].
    repeat apply (f_equal2 (@pair _ _)); lia.
  - destruct (small a); [|discriminate H]. apply IH in H. destruct H as [-> Q]. split; [|exact Q]. unfold sums. rewrite !occ_cons. cbn [is_hint is_assert is_range].
    repeat apply (f_equal2 (@pair _ _)); lia.
  - destruct (Z.eqb_spec n 32) as [->|E1]; [destruct (small n32); [|discriminate H]|
     destruct (Z.eqb_spec n 144) as [->|E2]; [destruct (small n144); [|discriminate H]|
     destruct (Z.eqb_spec n 192) as [->|E3]; [destruct (small n192); [|discriminate H]|
     destruct (Z.eqb_spec n 48) as [->|E4]; [|discriminate H]]]];
    apply IH in H; destruct H as [-> Q]; (split; [|exact Q]); unfold sums; rewrite !occ_cons; cbn [is_hint is_assert is_range Z.eqb Pos.eqb]; repeat apply (f_equal2 (@pair _ _)); lia.
  - discriminate H.
Qed.

(** ** A placeholder of the shape of the test proofs *)
Definition zeros : nat -> list Z := repeat 0.
Definition qzeros : nat -> list QE := repeat (0, 0).
(** the step circuit has one constant more and its polynomials have twice the degree *)
Definition extra (t : testcase) : nat := match t with Block => 0 | Step => 1 end.
Definition nbPublicInputs (t : testcase) : nat := match t with Block => 0 | Step => 36 end.
Definition placeholder (t : testcase) : Proof_ :=
  let d := extra t in
  mkProof (zeros 16) (zeros 16) (zeros 16)
    (mkOpeningSet (qzeros (5 + d)) (qzeros 80) (qzeros 136) (qzeros 2) (qzeros 2) (qzeros 18) (qzeros 16))
    (mkFriProof [zeros 16; zeros 16]
       (repeat (mkFriQueryRound (map (fun n => mkFriEvalProof (zeros n) (zeros (11 + d))) [85 + d; 136; 20; 16]%nat)
          [mkFriQueryStep (qzeros 16) (zeros (7 + d)); mkFriQueryStep (qzeros 16) (zeros (3 + d))]) 28)
       (qzeros (match t with Block => 16 | Step => 32 end)) 0).
Definition placeholder_circuit (t : testcase) : circ unit :=
  Verify 192 (data t) (gates_of t) (placeholder t) (zeros (nbPublicInputs t)) (mkVerifierOnlyCircuitData (zeros 16) 0).

(** ** The counts *)
Lemma census_block : census (placeholder_circuit Block) 0 0 0 0 0 0 = Some ((428653, 923062), (480616, 1, 114572, 29500))%N.
Proof. exact_no_check (@eq_refl (option totals) (Some ((428653, 923062), (480616, 1, 114572, 29500))%N)). Qed.
Lemma census_step : census (placeholder_circuit Step) 0 0 0 0 0 0 = Some ((448677, 965270), (502464, 1, 119786, 31624))%N.
Proof. exact_no_check (@eq_refl (option totals) (Some ((448677, 965270), (502464, 1, 119786, 31624))%N)). Qed.
