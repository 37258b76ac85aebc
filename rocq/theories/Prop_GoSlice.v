(** * Property C71: appending to the slice of an opening set changes no opening. *)
From Coq Require Import ZArith Lia List Bool Arith.
From Verif Require Import Zp Circuit Goldilocks Types Challenger GoSlice.
Import ListNotations.
Open Scope nat_scope.

(** variables/plonk.go:5-13: the slices of an OpeningSet *)
Record oset := OSet { oConstants : slice; oPlonkSigmas : slice; oWires : slice; oPlonkZs : slice; oPlonkZsNext : slice;
                      oPartialProducts : slice; oQuotientPolys : slice }.
Definition slices_of (c : oset) : list slice :=
  [oConstants c; oPlonkSigmas c; oWires c; oPlonkZs c; oPlonkZsNext c; oPartialProducts c; oQuotientPolys c].
(** the openings they hold *)
Definition openings_in (h : list (list QE)) (c : oset) : OpeningSet :=
  mkOpeningSet (sread h (oConstants c)) (sread h (oPlonkSigmas c)) (sread h (oWires c)) (sread h (oPlonkZs c))
               (sread h (oPlonkZsNext c)) (sread h (oPartialProducts c)) (sread h (oQuotientPolys c)).
Definition zeroQE : QE := (0%Z, 0%Z).

(** fri/fri.go:63-73 [ToOpenings] *)
Definition ToOpeningsS (grow : nat -> nat -> nat) (h : list (list QE)) (c : oset) : list (list QE) * list slice :=
  let values := oConstants c in
  let '(h, values) := append_all zeroQE grow [oPlonkSigmas c; oWires c; oPlonkZs c; oPartialProducts c; oQuotientPolys c] h values in
  (h, [values; oPlonkZsNext c]).
(** variables/deserialize.go:33-51 [DeserializeOpeningSet], on the pairs of limbs *)
Definition DeserializeOpeningSetS (grow : nat -> nat -> nat) (h : list (list QE)) (o : OpeningSet) : list (list QE) * option oset :=
  let '(h', ss) := build_all zeroQE grow [Constants o; PlonkSigmas o; Wires o; PlonkZs o; PlonkZsNext o; PartialProducts o; QuotientPolys o] h in
  (h', match ss with [a; b; c; d; e; f; g] => Some (OSet a b c d e f g) | _ => None end).

(** ** Slices that have nothing in the spare capacity of Constants: the batches are those of the model, and no opening changes *)
Theorem C71_ToOpenings grow h c h' bs : Forall (wf h) (slices_of c) -> Forall (apart (oConstants c)) (slices_of c) ->
  ToOpeningsS grow h c = (h', bs) ->
  map (sread h') bs = ToOpenings (openings_in h c) /\ openings_in h' c = openings_in h c /\ Forall (wf h') (slices_of c).
Proof.
  intros W AP E. unfold ToOpeningsS in E. cbv zeta in E.
  destruct (append_all zeroQE grow [oPlonkSigmas c; oWires c; oPlonkZs c; oPartialProducts c; oQuotientPolys c] h (oConstants c)) as [h1 v] eqn:E1.
  injection E as <- <-. pose proof W as W0. pose proof AP as AP0. rewrite Forall_forall in W, AP.
  apply append_all_spec in E1; [|apply W; cbn; tauto|repeat (constructor; [apply W; cbn; tauto|]); constructor|repeat (constructor; [apply AP; cbn; tauto|]); constructor].
  destruct E1 as (R & W' & L & F).
  assert (SAME : forall t, In t (slices_of c) -> sread h1 t = sread h t /\ wf h1 t).
  { rewrite Forall_forall in W0, AP0. intros t Ht. destruct (F t (W0 t Ht) (AP0 t Ht)) as (E & W1 & _). auto. }
  split; [|split].
  - cbn [map]. rewrite R. cbn [map concat]. rewrite app_nil_r. unfold ToOpenings, openings_in. cbn.
    rewrite (proj1 (SAME (oPlonkZsNext c) ltac:(cbn; tauto))). reflexivity.
  - unfold openings_in. f_equal; apply SAME; cbn; tauto.
  - apply Forall_forall. intros t Ht. now apply SAME.
Qed.

(** ** The program: the opening set is deserialised, ToOpenings is called by GetChallenges (verifier/verifier.go:68) and by Verify
       (verifier/verifier.go:165).  Whatever capacities the runtime chooses, both calls give what the model says. *)
Theorem C71_verifier grow h0 o : exists h1 c h2 b1 h3 b2,
  DeserializeOpeningSetS grow h0 o = (h1, Some c) /\ openings_in h1 c = o /\
  ToOpeningsS grow h1 c = (h2, b1) /\ map (sread h2) b1 = ToOpenings o /\ openings_in h2 c = o /\
  ToOpeningsS grow h2 c = (h3, b2) /\ map (sread h3) b2 = ToOpenings o /\ openings_in h3 c = o.
Proof.
  unfold DeserializeOpeningSetS.
  destruct (build_all zeroQE grow [Constants o; PlonkSigmas o; Wires o; PlonkZs o; PlonkZsNext o; PartialProducts o; QuotientPolys o] h0) as [h1 ss] eqn:E.
  apply build_all_spec in E. destruct E as (R & W & _ & _ & S & _).
  destruct ss as [|s1 [|s2 [|s3 [|s4 [|s5 [|s6 [|s7 [|]]]]]]]]; try discriminate R. cbn [map] in R.
  set (c := OSet s1 s2 s3 s4 s5 s6 s7).
  assert (W1 : Forall (wf h1) (slices_of c)) by exact W.
  assert (AP : Forall (apart (oConstants c)) (slices_of c)).
  { constructor; [apply apart_self|]. inversion S as [|? ? S1 _]; subst. eapply Forall_impl; [|exact S1]. intros t. apply separate_apart. }
  assert (RO : openings_in h1 c = o). { unfold openings_in, c. cbn. injection R as -> -> -> -> -> -> ->. now destruct o. }
  destruct (ToOpeningsS grow h1 c) as [h2 b1] eqn:E1. destruct (C71_ToOpenings _ _ _ _ _ W1 AP E1) as (R1 & O1 & W2).
  destruct (ToOpeningsS grow h2 c) as [h3 b2] eqn:E2. destruct (C71_ToOpenings _ _ _ _ _ W2 AP E2) as (R2 & O2 & W3).
  exists h1, c, h2, b1, h3, b2. rewrite O1, RO in *. rewrite R1, R2, O2. auto 9.
Qed.

(** ** Without the hypothesis: an opening set whose Constants share their array with the Wires (as slices of one array would)
       loses openings *)
Theorem C71_shared_refuted : exists grow h c h' bs, Forall (wf h) (slices_of c) /\ ToOpeningsS grow h c = (h', bs) /\
  map (sread h') bs <> ToOpenings (openings_in h c) /\ openings_in h' c <> openings_in h c.
Proof.
  exists (fun _ n => n), [[(1, 0); (2, 0); (3, 0)]; [(7, 0); (8, 0)]]%Z,
    (OSet (Sl 0 0 1 3) (Sl 1 0 2 2) (Sl 0 1 2 2) nil_slice nil_slice nil_slice nil_slice).
  do 2 eexists. split; [repeat constructor; cbn; lia|]. split; [vm_compute; reflexivity|]. split; vm_compute; discriminate.
Qed.

(** ** Spare capacity does occur: with doubling, five constants leave room for three sigmas, and ToOpenings writes there *)
Example C71_ex :
  let q := fun i => (Z.of_nat i, 0%Z) in
  let o := mkOpeningSet (map q (seq 1 5)) (map q (seq 6 3)) (map q (seq 9 2)) [q 11] [q 12] [] [q 13] in
  let grow := fun cap n => Nat.max n (2 * cap) in
  let '(h1, c) := DeserializeOpeningSetS grow [] o in
  match c with
  | None => False
  | Some c =>
      s_len (oConstants c) = 5 /\ s_cap (oConstants c) = 8 /\ Forall (wf h1) (slices_of c) /\ Forall (apart (oConstants c)) (slices_of c) /\
      let '(h2, bs) := ToOpeningsS grow h1 c in
      nth (s_arr (oConstants c)) h1 [] <> nth (s_arr (oConstants c)) h2 [] /\
      map (sread h2) bs = [map q (seq 1 11 ++ [13]); [q 12]]
  end.
Proof.
  vm_compute. split; [reflexivity|]. split; [reflexivity|]. split; [repeat (constructor; [lia|]); constructor|].
  split; [repeat (constructor; [lia|]); constructor|]. split; [discriminate|reflexivity].
Qed.

Print Assumptions C71_ToOpenings.
Print Assumptions C71_verifier.
Print Assumptions C71_shared_refuted.
