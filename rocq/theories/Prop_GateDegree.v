(** * Property C60: the degree of the constraints of every gate. *)
From Coq Require Import String.
From Coq Require Import ZArith NArith Lia List Bool Ring.
From Verif Require Import Zp GF Circuit Goldilocks GLProofs ExtProofs Types Challenger Fri FriMerkle FriEval Poly Roots FriSound
  Gates GateProofs GateCoset GateFilter GateAll GateDegree Plonk PlonkProofs Prop_Gates Prop_Plonk PlonkSound.
Import ListNotations.
Open Scope Z_scope.

Lemma dl_polys M e F : dl M e F -> exists fs, Forall (fun f => (length f <= e * M + 1)%nat) fs /\ forall x, F x = map (fun f => kpeval f x) fs.
Proof.
  intros (gs & H & E). enough (G : exists fs, Forall (fun f => (length f <= e * M + 1)%nat) fs /\ forall x, map (fun g => g x) gs = map (fun f => kpeval f x) fs).
  { destruct G as (fs & L & G). exists fs. split; [exact L|]. intros x. now rewrite E, G. }
  clear F E. induction H as [|g gs (f & Lf & Ef) H IH]; [exists []; split; [constructor|reflexivity]|].
  destruct IH as (fs & L & G). exists (f :: fs). split; [constructor; [lia|exact L]|]. intros x. cbn [map]. rewrite <- G. f_equal. apply Ef.
Qed.

(** ** C60
    [gate_degree] lists the degrees of the gates ([degree] in plonky2): 3 for the arithmetic gates,
    B for BaseSumGate, 1 for ConstantGate, PoseidonMdsGate and PublicInputGate, 4 for ExponentiationGate,
    7 for PoseidonGate, bits + 1 for RandomAccessGate, 2 for the reducing gates, 0 for NoopGate, and the
    degree named in the id for CosetInterpolationGate.
    If the wires and constants are polynomials of degree at most M in x then so are the constraints,
    of degree at most [gate_degree] times M. *)
Theorem C60_gate_degree : forall g (cs ws : list (list K)) (h : list GF) M,
  fits (length cs) (length ws) g -> length h = 4%nat ->
  Forall (fun f => (length f <= M + 1)%nat) cs -> Forall (fun f => (length f <= M + 1)%nat) ws ->
  exists fs, Forall (fun f => (length f <= gate_degree g * M + 1)%nat) fs /\ length fs = num_constraints g /\
    forall x, computes (EvalUnfiltered g (mkvars (map (fun f => kpeval f x) cs) (map (fun f => kpeval f x) ws) h)) (map repK (map (fun f => kpeval f x) fs)).
Proof.
  intros g cs ws h M F Hh Bc Bw.
  destruct (dl_polys M (gate_degree g) (fun x => gate_k g (evals cs x) (evals ws x) h)) as (fs & L & E).
  { apply (dl_gate M (evals cs) (evals ws) h g (length cs) (length ws)); [| |exact F]; intros i; now apply (dg_col M _ i 1); [|lia]. }
  exists fs. split; [exact L|].
  assert (F' : forall x, fits (length (evals cs x)) (length (evals ws x)) g) by (intros x; now rewrite !length_evals).
  split.
  - rewrite <- (gate_length g _ (evals cs k0) (evals ws k0) h (F' k0)), E. now rewrite map_length.
  - intros x. rewrite <- E. exact (gate_computes g _ _ h (F' x) Hh).
Qed.
Print Assumptions C60_gate_degree.

(** the filtered sum over all gates: every gate adds the other members of its group, and one more if there are several groups *)
Theorem C60_filtered : forall gates num info (cs ws : list (list K)) (h : list GF) M E,
  let n := length (groups info) in
  layout info (length gates) -> (n <= length cs)%nat -> length h = 4%nat ->
  Forall (fits (length cs - n) (length ws)) gates -> Forall (fun g => (num_constraints g <= num)%nat) gates ->
  (forall i, (i < length gates)%nat -> (fst (group_of info i) <= i < snd (group_of info i))%nat /\
     (gate_degree (nth i gates NoopGate) + (snd (group_of info i) - fst (group_of info i) - 1) + (if Nat.ltb 1 n then 1 else 0) <= E)%nat) ->
  Forall (fun f => (length f <= M + 1)%nat) cs -> Forall (fun f => (length f <= M + 1)%nat) ws ->
  exists fs, Forall (fun f => (length f <= E * M + 1)%nat) fs /\ length fs = num /\
    forall x, computes (EvaluateGateConstraints gates num info (mkvars (map (fun f => kpeval f x) cs) (map (fun f => kpeval f x) ws) h))
                       (map repK (map (fun f => kpeval f x) fs)).
Proof.
  intros gates num info cs ws h M E n HL Hn Hh HF HN HE Bc Bw.
  destruct (dl_polys M E (fun x => map (total (evals cs x) info (gate_outs (evals cs) (evals ws) h info gates x) 0) (seq 0 num))) as (fs & L & Efs).
  { apply (dl_map M E (fun j x => total (evals cs x) info (gate_outs (evals cs) (evals ws) h info gates x) 0 j)). intros j _.
    apply (dg_total M (evals cs) (evals ws) h info) with (nc := (length cs - n)%nat) (nw := length ws); [| | |exact HF]; try (intros i; now apply (dg_col M _ i 1); [|lia]).
    intros i Hi. destruct (HE i Hi) as [G1 G2]. cbn [Nat.add]. unfold filter_degree. change (group info i) with (group_of info i). change (ns info) with n.
    rewrite others_length by exact G1. lia. }
  exists fs. split; [exact L|]. split; [transitivity (length (map (fun f => kpeval f k0) fs)); [now rewrite map_length|rewrite <- Efs; now rewrite map_length, seq_length]|].
  intros x. rewrite <- Efs. apply EvaluateGateConstraints_computes.
  - now rewrite length_evals.
  - apply gates_k_ok; [|exact Hh]. unfold evals. rewrite !map_length. exact HF.
  - now apply layout_layout_ok.
  - unfold gate_outs. rewrite Forall_map. apply Forall_forall. intros g Hg. rewrite Forall_forall in HF, HN.
    rewrite (gate_length g (length cs - n)); [now apply HN|]. rewrite length_evals. now apply HF.
Qed.
Print Assumptions C60_filtered.

(** ** Examples: the bounds are reached *)
Definition X_poly : list K := [k0; k1].
Lemma X_poly_eval x : kpeval X_poly x = x. Proof. unfold kpeval, X_poly. cbn [peval]. ring. Qed.
(** c0 = c1 = w0 = w1 = X, w2 = w3 = 0: the constraint of ArithmeticGate is -X^3 *)
Example C60_ex_arithmetic : fits 2 4 (ArithmeticGate 1) /\ gate_degree (ArithmeticGate 1) = 3%nat /\
  forall x, computes (EvalUnfiltered (ArithmeticGate 1) (mkvars (map (fun f => kpeval f x) [X_poly; X_poly]) (map (fun f => kpeval f x) [X_poly; X_poly; []; []]) []))
    (map repK (map (fun f => kpeval f x) [[k0; k0; k0; (k0 - k1)%K]])).
Proof.
  split; [cbn; lia|]. split; [reflexivity|]. intros x. eapply computes_eq; [apply arithmetic_computes; cbn [map length]; lia|].
  cbn [map seq]. do 2 f_equal. unfold arith_k, wire. cbn [nth map Nat.mul Nat.add]. rewrite X_poly_eval. unfold kpeval. cbn [peval]. ring.
Qed.
(** the base-4 digit X of BaseSumGate gives X (X-1) (X-2) (X-3) *)
Example C60_ex_base_sum : fits 0 2 (BaseSumGate 1 4) /\ gate_degree (BaseSumGate 1 4) = 4%nat /\
  forall x, computes (EvalUnfiltered (BaseSumGate 1 4) (mkvars [] (map (fun f => kpeval f x) [X_poly; X_poly]) []))
    (map repK [k0; (x * (x - kz 1) * (x - kz 2) * (x - kz 3))%K]).
Proof.
  split; [cbn; unfold p; lia|]. split; [reflexivity|]. intros x. eapply computes_eq; [apply base_sum_computes; cbn; unfold p; lia|].
  unfold base_sum_k, base_sum_limbs, wire. cbn [seq map nth length Nat.add]. rewrite X_poly_eval. f_equal. f_equal.
  - cbn [powers_sum]. ring.
  - cbn [map]. apply (f_equal (fun t => [repK t])). unfold digits_k, kprod, kz. cbn [map seq fold_left]. change (Z.of_nat 0) with 0. change (Z.of_nat 1) with 1. change (Z.of_nat 2) with 2. change (Z.of_nat 3) with 3.
    replace (emb (inj 0)) with k0 by (unfold k0; now rewrite <- g0_inj). ring.
Qed.
(** the gates of C42_ex: degree 1 plus one other member plus one for the second group *)
Example C60_ex_filtered : layout info_ex 3 /\ forall i, (i < 3)%nat ->
  (fst (group_of info_ex i) <= i < snd (group_of info_ex i))%nat /\
  (gate_degree (nth i [NoopGate; ConstantGate 1; PublicInputGate] NoopGate) + (snd (group_of info_ex i) - fst (group_of info_ex i) - 1) + 1 <= 3)%nat.
Proof. split; [apply C42_ex|]. intros i Hi. destruct i as [|[|[|i]]]; [| | |lia]; cbn; lia. Qed.
