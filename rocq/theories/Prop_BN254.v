(** * Properties C22-C25: BN254 Poseidon, packing and digests. *)
From Coq Require Import ZArith Lia List Bool.
From Verif Require Import Zp Circuit Fr LinAlg Sparse Sponge BN254Const BN254Spec BN254 BN254Proofs BN254Hash.
Import ListNotations.
Open Scope Z_scope.

(** ** C22: for every state the code computes the Hades permutation, whose constants
       are the output of the Grain LFSR and a Cauchy matrix *)
Theorem C22_poseidon_textbook : forall s : list Fr, length s = 4%nat ->
  PoseidonBN (map frep s) = map frep (hades s).
Proof. exact PoseidonBN_hades. Qed.

Theorem C22_round_constants : fst grain = RCtable /\
  (forall i j, (i < 4)%nat -> (j < 4)%nat ->
     (nth j (nth i MDSt []) 0 * (nth i (snd grain) 0 + nth (4 + j) (snd grain) 0)) mod r = 1).
Proof.
  rewrite grain_constants. split; [reflexivity|]. intros i j Hi Hj.
  pose proof cauchy as C. unfold cauchy_ok in C.
  pose proof (proj1 (forallb_forall _ _) C i (proj2 (in_seq 4 0 i) (conj (Nat.le_0_l i) Hi))) as C1.
  pose proof (proj1 (forallb_forall _ _) C1 j (proj2 (in_seq 4 0 j) (conj (Nat.le_0_l j) Hj))) as C2.
  apply Z.eqb_eq in C2. exact C2.
Qed.

(** poseidon/bn254_test.go, first vector *)
Definition bn_zero_out : list Z :=
  [5317387130258456662214331362918410991734007599705406860481038345552731150762;
   17768273200467269691696191901389126520069745877826494955630904743826040320364;
   19413739268543925182080121099097652227979760828059217876810647045303340666757;
   3717738800218482999400886888123026296874264026760636028937972004600663725187].
Example C22_vector : PoseidonBN [0; 0; 0; 0] = bn_zero_out.
Proof. vm_compute. reflexivity. Qed.

(** ** C23: packing *)
(** the sponge written with the textbook permutation and the base-2^64 value of each
    group of three limbs; lane 0 is the capacity, lanes not filled keep their value *)
Definition blocks (x : list Z) : list (list Fr) :=
  map (fun c => map (fun g => finj (val64 g)) (chunks 3 c)) (chunks 9 x).
Definition absorb_block (s b : list Fr) : list Fr :=
  hades (firstn 1 s ++ b ++ skipn (1 + length b) s).

Theorem C23_hash_no_pad : forall x,
  HashNoPadBN x = frep (nth 0 (fold_left absorb_block (blocks x) [f0; f0; f0; f0]) f0).
Proof.
  intros x. unfold HashNoPadBN, blocks. rewrite <- (map_nth frep). change (frep f0) with 0. apply (f_equal (fun l => nth 0 l 0)).
  change [0; 0; 0; 0] with (map frep [f0; f0; f0; f0]).
  assert (H9 : forall c, In c (chunks 9 x) -> (length c <= 9)%nat).
  { intros c Hc. apply (chunks_length 9 (length x) x); auto. lia. }
  assert (L : length [f0; f0; f0; f0] = 4%nat) by reflexivity.
  revert H9 L. generalize [f0; f0; f0; f0] (chunks 9 x). intros s l. revert s.
  induction l as [|c l IH]; intros s H9 Ls; cbn [map fold_left]; [reflexivity|].
  assert (Lc : (length c <= 9)%nat) by apply H9, in_eq.
  set (b := map (fun g => finj (val64 g)) (chunks 3 c)).
  assert (E : absorb9 (map frep s) c = map frep (firstn 1 s ++ b ++ skipn (1 + length b) s)).
  { rewrite absorb9_lanes by (rewrite ?map_length; auto). rewrite !map_app, firstn_map, skipn_map.
    unfold lanes, b. rewrite !map_length, !map_map. f_equal. f_equal. apply map_ext. intros g. apply pack_val. }
  rewrite E, PoseidonBN_hades.
  - apply IH; [intros; apply H9; now apply in_cons|]. apply len_hades.
  - pose proof (absorb9_len (map frep s) c ltac:(rewrite map_length; auto) Lc) as L4.
    rewrite E, map_length in L4. exact L4.
Qed.

(** equal-length inputs of 64-bit limbs with the same blocks are equal *)
Theorem C23_packing_injective : forall x y, length x = length y ->
  Forall is64 x -> Forall is64 y -> blocks x = blocks y -> x = y.
Proof.
  intros x y L Hx Hy E. eapply (chunks_same_inj 9 (length x) (fun _ => True)); [lia|lia|exact L|].
  unfold blocks, chunks in E. rewrite <- L in E.
  pose proof (chunks_same_len 9 (length x) x y L) as F2.
  pose proof (chunks_Forall is64 9 (length x) x Hx) as F. pose proof (chunks_Forall is64 9 (length x) y Hy) as F'.
  assert (S9 : forall g, In g (chunks_ (length x) 9 x) -> (length g <= 9)%nat).
  { intros g Hg. apply (chunks_length 9 (length x) x); auto. lia. }
  revert E F2 F F' S9. generalize (chunks_ (length x) 9 x) (chunks_ (length x) 9 y). clear.
  intros l l' E F2. revert E. induction F2 as [|a b l l' Lab F2 IH]; intros E F F' S9; [reflexivity|].
  inversion F; subst. inversion F'; subst.
  pose proof (f_equal (@tl (list Fr)) E) as E2. pose proof (f_equal (hd []) E) as E1. cbn [map tl hd] in E1, E2.
  apply f_equal2; [|apply IH; auto; intros; apply S9; now apply in_cons].
  apply lanes_inj; auto; [apply S9, in_eq|]. unfold lanes.
  apply (f_equal (map frep)) in E1. rewrite !map_map in E1.
  rewrite (map_ext pack (fun g => frep (finj (val64 g)))) by apply pack_val.
  rewrite (map_ext pack (fun g => frep (finj (val64 g)))) by apply pack_val. exact E1.
Qed.

(** up to three limbs are packed exactly, without hashing *)
Theorem C23_noop : forall x, (length x <= 3)%nat -> Forall is64 x -> HashOrNoop x = val64 x.
Proof.
  intros x L H. unfold HashOrNoop. rewrite (proj2 (Nat.leb_le _ _) L). now apply pack_exact.
Qed.

(** equal digests of different equal-length inputs give two different states, among those
    met while hashing the two inputs, with the same lane-0 output of the permutation *)
Fixpoint met_states (s : list Z) (l : list (list Z)) : list (list Z) :=
  match l with [] => [] | c :: l' => absorb9 s c :: met_states (PoseidonBN (absorb9 s c)) l' end.
Definition met (x : list Z) : list (list Z) := met_states [0; 0; 0; 0] (chunks 9 x).
Theorem C23_collision : forall x y, length x = length y -> Forall is64 x -> Forall is64 y -> x <> y ->
  HashNoPadBN x = HashNoPadBN y ->
  exists s s', In s (met x) /\ In s' (met y) /\
               length s = 4%nat /\ length s' = 4%nat /\ Forall inr_ s /\ Forall inr_ s' /\ s <> s' /\
               nth 0 (PoseidonBN s) 0 = nth 0 (PoseidonBN s') 0.
Proof. exact hash_no_pad_collision. Qed.
Theorem C23_or_noop_collision : forall x y, length x = length y -> Forall is64 x -> Forall is64 y -> x <> y ->
  HashOrNoop x = HashOrNoop y ->
  (3 < length x)%nat /\
  exists s s', In s (met x) /\ In s' (met y) /\
               length s = 4%nat /\ length s' = 4%nat /\ Forall inr_ s /\ Forall inr_ s' /\ s <> s' /\
               nth 0 (PoseidonBN s) 0 = nth 0 (PoseidonBN s') 0.
Proof.
  intros x y L Hx Hy N E. unfold HashOrNoop in E. rewrite <- L in E.
  destruct (Nat.leb_spec (length x) 3) as [H3|H3].
  - exfalso. apply N. now apply pack_inj.
  - split; [lia|]. now apply (hash_no_pad_collision x y).
Qed.

(** without fixing the length the packing is not injective: appending a zero *)
Theorem C23_any_length_refuted : exists x y, Forall is64 x /\ Forall is64 y /\ x <> y /\
  HashOrNoop x = HashOrNoop y.
Proof.
  exists [1], [1; 0]. repeat split; try (repeat constructor; discriminate); try discriminate.
Qed.
Theorem C23_append_zero : forall x, (length x <= 2)%nat -> HashOrNoop (x ++ [0]) = HashOrNoop x.
Proof.
  intros x L. unfold HashOrNoop. rewrite app_length. cbn [length].
  rewrite (proj2 (Nat.leb_le _ _)) by lia. rewrite (proj2 (Nat.leb_le _ _)) by lia.
  rewrite !pack_val. f_equal. induction x as [|a x IH]; cbn [val64 app] in *; [reflexivity|].
  rewrite IH by (cbn in L; lia). reflexivity.
Qed.
Theorem C23_append_zero_hash : forall a b c d, HashNoPadBN [a; b; c; d; 0] = HashNoPadBN [a; b; c; d].
Proof.
  intros a b c d. rewrite !C23_hash_no_pad. unfold blocks, chunks. cbn [length chunks_ firstn skipn map val64].
  rewrite Z.mul_0_r. reflexivity.
Qed.

Example C23_ex : HashOrNoop [1; 2; 3] = 1 + 2 * 2 ^ 64 + 3 * 2 ^ 128 /\
  HashNoPadBN [0; 0; 0; 0] = nth 0 bn_zero_out 0.
Proof.
  split; [vm_compute; reflexivity|].
  change (HashNoPadBN [0; 0; 0; 0]) with (nth 0 (PoseidonBN [0; 0; 0; 0]) 0). now rewrite C22_vector.
Qed.
(** equal lengths are needed: blocks of different messages with a zero more are the same *)
Example C23_packing_ex : blocks [1; 2; 3; 4] <> blocks [1; 2; 3; 5] /\ blocks [1; 2; 3; 4; 0] = blocks [1; 2; 3; 4] /\ Forall is64 [1; 2; 3; 4; 0].
Proof. split; [discriminate|]. split; [reflexivity|]. repeat constructor; discriminate. Qed.

(** ** C24: a digest is decomposed into its five base-2^56 digits *)
Theorem C24_digits : forall x, 0 <= x < r -> computes (ToVec x) (digits56 x).
Proof. exact ToVec_digits. Qed.
Theorem C24_canonical : forall x, 0 <= x < r ->
  length (digits56 x) = 5%nat /\ Forall (fun d => 0 <= d < 2 ^ 56) (digits56 x) /\ 2 ^ 56 < p.
Proof.
  intros x Hx. split; [reflexivity|]. split; [|reflexivity].
  assert (B : forall y, 0 <= y mod 2 ^ 56 < 2 ^ 56) by (intros; apply Z.mod_pos_bound; reflexivity).
  unfold digits56. repeat constructor; try apply B.
  - apply Z.div_pos; [lia|reflexivity].
  - apply Z.div_lt_upper_bound; [reflexivity|]. rewrite <- Z.pow_add_r by lia.
    eapply Z.lt_trans; [apply Hx|reflexivity].
Qed.
Theorem C24_injective : forall x y v, 0 <= x < r -> 0 <= y < r ->
  reach (ToVec x) v -> reach (ToVec y) v -> x = y.
Proof.
  intros x y v Hx Hy Rx Ry.
  apply (computes_reach _ _ _ (C24_digits x Hx)) in Rx. apply (computes_reach _ _ _ (C24_digits y Hy)) in Ry.
  rewrite (digits56_value x), (digits56_value y). rewrite <- Rx, <- Ry. reflexivity.
Qed.
Theorem C24_value : forall x v, 0 <= x < r -> reach (ToVec x) v ->
  x = fold_right (fun d acc => d + 2 ^ 56 * acc) 0 v.
Proof.
  intros x v Hx R. apply (computes_reach _ _ _ (C24_digits x Hx)) in R. subst v.
  rewrite (digits56_value x) at 1. unfold digits56. cbn [nth fold_right]. ring.
Qed.
Example C24_ex : run (ToVec (2 ^ 200 + 7)) = Done [7; 0; 0; 2 ^ 32; 0].
Proof.
  rewrite (computes_run _ _ (C24_digits (2 ^ 200 + 7) ltac:(split; [discriminate|reflexivity]))).
  vm_compute. reflexivity.
Qed.
Example C24_injective_ex : exists v, reach (ToVec (2 ^ 200 + 7)) v /\ ~ reach (ToVec (2 ^ 200 + 8)) v.
Proof.
  exists [7; 0; 0; 2 ^ 32; 0]. pose proof (run_reach _ _ C24_ex) as R. split; [exact R|]. intros R'.
  assert (X : 2 ^ 200 + 7 = 2 ^ 200 + 8) by (apply (C24_injective _ _ [7; 0; 0; 2 ^ 32; 0]); [split; [discriminate|reflexivity]|split; [discriminate|reflexivity]|exact R|exact R']).
  lia.
Qed.

(** ** C25: two-to-one compression *)
Theorem C25_two_to_one : forall a b : Fr,
  TwoToOne (frep a) (frep b) = frep (nth 0 (hades [f0; f0; a; b]) f0).
Proof.
  intros a b. unfold TwoToOne. change [0; 0; frep a; frep b] with (map frep [f0; f0; a; b]).
  rewrite PoseidonBN_hades by reflexivity. change 0 with (frep f0) at 1. apply map_nth.
Qed.
Theorem C25_range : forall a b, inr_ a -> inr_ b -> inr_ (TwoToOne a b).
Proof.
  intros a b Ha Hb. rewrite <- (frep_inj_small a Ha), <- (frep_inj_small b Hb).
  rewrite C25_two_to_one. apply frep_range.
Qed.
Lemma TwoToOne_def a b : TwoToOne a b = nth 0 (PoseidonBN [0; 0; a; b]) 0.
Proof. reflexivity. Qed.
(** equal results of different arguments are a lane-0 collision *)
Theorem C25_collision : forall a b a' b', inr_ a -> inr_ b -> inr_ a' -> inr_ b' -> (a, b) <> (a', b') ->
  TwoToOne a b = TwoToOne a' b' ->
  let s := [0; 0; a; b] in let s' := [0; 0; a'; b'] in
  Forall inr_ s /\ Forall inr_ s' /\ s <> s' /\ nth 0 (PoseidonBN s) 0 = nth 0 (PoseidonBN s') 0.
Proof.
  intros a b a' b' Ha Hb Ha' Hb' N E s s'. rewrite !TwoToOne_def in E.
  assert (Z0 : inr_ 0) by (split; [apply Z.le_refl|exact r_pos]).
  split; [repeat apply Forall_cons; auto|]. split; [repeat apply Forall_cons; auto|].
  split; [|exact E]. clear E. intros Q. apply N.
  pose proof (f_equal (fun l => nth 2 l 0) Q) as Q1. pose proof (f_equal (fun l => nth 3 l 0) Q) as Q2.
  subst s s'. cbn [nth] in Q1, Q2. now rewrite Q1, Q2.
Qed.
(** so exchanging different arguments gives a different result unless it exhibits
    such a collision *)
Theorem C25_swap : forall a b, inr_ a -> inr_ b -> a <> b -> TwoToOne a b = TwoToOne b a ->
  let s := [0; 0; a; b] in let s' := [0; 0; b; a] in
  Forall inr_ s /\ Forall inr_ s' /\ s <> s' /\ nth 0 (PoseidonBN s) 0 = nth 0 (PoseidonBN s') 0.
Proof.
  intros a b Ha Hb N. apply C25_collision; auto.
  intros Q. apply N. exact (f_equal fst Q).
Qed.
Example C25_ex : TwoToOne 0 0 = nth 0 bn_zero_out 0.
Proof. change (TwoToOne 0 0) with (nth 0 (PoseidonBN [0; 0; 0; 0]) 0). now rewrite C22_vector. Qed.

Print Assumptions C22_poseidon_textbook.
Print Assumptions C22_round_constants.
Print Assumptions C23_hash_no_pad.
Print Assumptions C23_packing_injective.
Print Assumptions C23_noop.
Print Assumptions C23_collision.
Print Assumptions C23_or_noop_collision.
Print Assumptions C23_any_length_refuted.
Print Assumptions C23_append_zero.
Print Assumptions C23_append_zero_hash.
Print Assumptions C24_digits.
Print Assumptions C24_canonical.
Print Assumptions C24_injective.
Print Assumptions C24_value.
Print Assumptions C25_two_to_one.
Print Assumptions C25_range.
Print Assumptions C25_collision.
Print Assumptions C25_swap.
