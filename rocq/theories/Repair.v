(** * The requests of the circuits of testdata, for an arbitrary width of the S-box.

    As in Census.v the circuit of a placeholder is evaluated lazily; now with a variable for the
    width, which the definition of the circuit never looks at. *)
From Coq Require Import String.
From Coq Require Import ZArith NArith Lia List Bool Ring.
From Verif Require Import Zp GF Circuit Goldilocks LinAlg PoseidonSpec PoseidonGLConst PoseidonGL PoseidonGLProofs Sponge DenP ChallengerProofs ChallengerPhases ChallengerTop Malleable Types Challenger Fri Gates Plonk GateIds Verifier Uniform TestData Census.
Import ListNotations.
Open Scope Z_scope.

(** ** From 190 bits on the S-box has a second output: the quotient of the cube plus r fits *)
Lemma red_more w X m : 190 <= w -> 0 <= X <= (p - 1) * ((p - 1) * (p - 1)) -> m = (inj X + inj r)%GF -> red w X m.
Proof.
  intros Hw HX ->. pose proof p_pos. pose proof r_pos. exists ((X + r) / p). rewrite <- inj_add, rep_inj.
  assert (B : (X + r) / p < 2 ^ 190).
  { apply Z.div_lt_upper_bound; [lia|]. assert ((p - 1) * ((p - 1) * (p - 1)) + r < p * 2 ^ 190) by reflexivity. lia. }
  assert (B' : 2 ^ 190 <= 2 ^ w) by (apply Z.pow_le_mono_r; lia). assert (B'' : 2 ^ 190 < r) by reflexivity.
  assert (Q : 0 <= (X + r) / p) by (apply Z.div_pos; lia).
  split; [revert Q B B'; generalize (2 ^ 190) (2 ^ w); lia|]. split; [revert B B''; generalize (2 ^ 190); lia|].
  rewrite Z.mul_comm, <- Z.div_mod by lia. replace (X + r) with (X + 1 * r) by ring. rewrite Z.mod_add by lia.
  apply Z.mod_small. pose proof p3_r. lia.
Qed.
Lemma sbox_more w x k : 190 <= w -> k = 0 \/ k = 1 -> Sbox_rel w x (x ^ 7 + inj (k * r))%GF.
Proof.
  intros Hw [->| ->].
  - replace (x ^ 7 + inj (0 * r))%GF with (x ^ 7)%GF; [apply sbox_honest; lia|]. rewrite Z.mul_0_l, <- g0_inj. ring.
  - exists (x * (x * x))%GF. split; [apply red_cube; lia|]. apply red_more; [exact Hw|apply cube_bound|].
    rewrite inj_cube, Z.mul_1_l. ring.
Qed.
Lemma perm_more w s : 190 <= w -> permw w s (forge s (digit 1)).
Proof.
  intros Hw. pose (d := digit 1). assert (Ld : length d = 12%nat) by reflexivity.
  assert (Hd : Forall (fun k => k = 0 \/ k = 1) d) by (unfold d, digit; repeat constructor). fold d. clearbody d.
  assert (La : length (add_rc_g 29 (before_last s)) = 12%nat) by (apply length_rc; [apply length_before_last|lia]).
  assert (F : Forall2 (Sbox_rel w) (add_rc_g 29 (before_last s)) (vadd gadd (map sbox7 (add_rc_g 29 (before_last s))) (map (fun k => inj (k * r)) d))).
  { assert (L : length (add_rc_g 29 (before_last s)) = length d) by (rewrite La, Ld; reflexivity). clear La Ld. revert d Hd L.
    generalize (add_rc_g 29 (before_last s)). induction l as [|x l IH]; intros [|k d] Hd L; try discriminate L; cbn [map]; [constructor|].
    inversion Hd; subst. change (vadd gadd (sbox7 x :: map sbox7 l) (inj (k * r) :: map (fun k => inj (k * r)) d))
      with ((sbox7 x + inj (k * r))%GF :: vadd gadd (map sbox7 l) (map (fun k => inj (k * r)) d)).
    constructor; [now apply sbox_more|]. apply IH; [assumption|]. now injection L. }
  pose proof (perm_last w s _ ltac:(lia) F) as P.
  assert (E : mds_g (vadd gadd (map sbox7 (add_rc_g 29 (before_last s))) (map (fun k => inj (k * r)) d)) = forge s d); [|rewrite E in P; exact P].
  assert (LM : length (map sbox7 (add_rc_g 29 (before_last s))) = length (map (fun k => inj (k * r)) d)) by now rewrite !map_length, La, Ld.
  unfold mds_g at 1, mds. rewrite (matvec_vadd g0 g1 gadd gmul gsub gopp GF_ring idg MDS _ _ LM).
  change (matvec g0 gadd gmul idg MDS (map sbox7 (add_rc_g 29 (before_last s)))) with (poseidon s).
  change (matvec g0 gadd gmul idg MDS (map (fun k => inj (k * r)) d)) with (mds_g (map (fun k => inj (k * r)) d)).
  apply (nth_ext _ _ g0 g0).
  - unfold forge. rewrite map_length, seq_length. unfold vadd. rewrite length_map2; [apply poseidon_len|]. rewrite poseidon_len, length_mds_g. reflexivity.
  - intros i Hi. assert (L12 : (i < 12)%nat).
    { unfold vadd in Hi. rewrite length_map2 in Hi; [now rewrite poseidon_len in Hi|]. rewrite poseidon_len, length_mds_g. reflexivity. }
    rewrite vadd_nth by (rewrite poseidon_len, length_mds_g; reflexivity). rewrite mds_shift by exact L12.
    symmetry. now apply forge_nth.
Qed.
Lemma more_differs s i : (i < 12)%nat -> nth i (forge s (digit 1)) g0 <> nth i (poseidon s) g0.
Proof.
  intros Hi E. apply (forge_differs s 1 0 i); try lia. rewrite E. rewrite forge_nth by exact Hi. unfold shift. rewrite zdot_digit, Z.mul_0_r, Z.mul_0_l, <- g0_inj. ring.
Qed.

(** ** The requests *)
(** the widths of the range checks among the requests *)
Definition widths_of (e : list event) : list Z := flat_map (fun x => match x with ERange n => [n] | _ => [] end) e.
(** how many range checks there are, if there is no panic *)
Fixpoint range_count {A} (c : circ A) (acc : N) : option N :=
  match c with
  | Ret _ => Some acc
  | Hint _ n k => range_count (k (fit n [])) acc
  | Assert _ k => range_count k acc
  | Range _ _ k => if small acc then range_count k (N.succ acc) else None
  | Panic _ => None
  end.
Lemma range_count_layout {A} (c : circ A) : forall acc n, range_count c acc = Some n -> n = (acc + N.of_nat (length (widths_of (layout c []))))%N.
Proof.
  induction c as [x|g n k IH|b k IH|x n k IH|m]; intros acc out H; cbn [range_count layout hd tl widths_of flat_map app length] in *.
  - injection H as <-. cbn [N.of_nat]. now rewrite N.add_0_r.
  - exact (IH _ _ _ H).
  - exact (IH _ _ H).
  - destruct (small acc); [|discriminate H]. apply IH in H. subst out. rewrite Nat2N.inj_succ. fold (widths_of (layout k [])). lia.
  - discriminate H.
Qed.
(** the width of the range check number [n], counting from 0 *)
Fixpoint width_at {A} (c : circ A) (n : N) : option Z :=
  match c with
  | Ret _ => None
  | Hint _ m k => width_at (k (fit m [])) n
  | Assert _ k => width_at k n
  | Range _ b k => match n with N0 => Some b | Npos _ => width_at k (N.pred n) end
  | Panic _ => None
  end.
Lemma width_at_layout {A} (c : circ A) : forall n b, width_at c n = Some b -> In b (widths_of (layout c [])).
Proof.
  induction c as [x|g n k IH|b k IH|x n k IH|m]; intros i out H; cbn [width_at layout hd tl widths_of flat_map app] in *.
  - discriminate H.
  - exact (IH _ _ _ H).
  - exact (IH _ _ H).
  - destruct i; [injection H as <-; now left|]. right. exact (IH _ _ H).
  - discriminate H.
Qed.

(** the circuit of the placeholder, with width [w] in place of the 192 of poseidon/goldilocks.go:141 and :144 *)
Definition placeholder_with (w : Z) (t : testcase) : circ unit :=
  Verify w (data t) (gates_of t) (placeholder t) (zeros (nbPublicInputs t)) (mkVerifierOnlyCircuitData (zeros 16) 0).
Lemma count_block w : range_count (placeholder_with w Block) 0 = Some 624689%N.
Proof. exact_no_check (@eq_refl (option N) (Some 624689%N)). Qed.
Lemma count_step w : range_count (placeholder_with w Step) 0 = Some 653875%N.
Proof. exact_no_check (@eq_refl (option N) (Some 653875%N)). Qed.
(** the first S-box *)
Lemma sbox_block w : width_at (placeholder_with w Block) 19150 = Some w.
Proof. exact_no_check (@eq_refl (option Z) (Some w)). Qed.
Lemma sbox_step w : width_at (placeholder_with w Step) 19358 = Some w.
Proof. exact_no_check (@eq_refl (option Z) (Some w)). Qed.
