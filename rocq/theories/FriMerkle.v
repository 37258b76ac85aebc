(** * Merkle paths, query points (fri/fri.go): specification and proofs. *)
From Coq Require Import String.
From Coq Require Import ZArith NArith Lia List Bool.
From Verif Require Import Zp GF Circuit Goldilocks GLProofs BN254 BN254Hash Types Challenger Fri Roots.
Import ListNotations.
Open Scope Z_scope.
Open Scope circ_scope.
Local Opaque PoseidonBN HashOrNoop.

(** ** Small circuit lemmas *)
Lemma computes_nth {A} (l : list A) i d : (i < length l)%nat -> computes (nth_ l i) (nth i l d).
Proof. intros H. apply computes_of_opt. now apply nth_error_nth'. Qed.
Lemma computes_panic_if b m : b = false -> computes (panic_if b m) tt.
Proof. intros ->. apply computes_ret. Qed.
Lemma enforces_panic_if b m : enforces (panic_if b m) (b = false) tt.
Proof.
  destruct b; [|eapply enforces_iff; [apply enforces_ret|tauto]]. split; [discriminate|]. intros a' [].
Qed.
Lemma enforces_false_bind {A B} (c : circ A) (f : A -> circ B) b : (forall a, ~ reach c a) -> enforces (bind c f) False b.
Proof. intros H. split; [tauto|]. intros a' R. apply reach_bind in R. destruct R as (a & R & _). exfalso. eapply H; eauto. Qed.
Lemma enforces_panic_bind {B} b m (f : unit -> circ B) Q y :
  (b = false -> enforces (f tt) Q y) -> enforces (bind (panic_if b m) f) (b = false /\ Q) y.
Proof. intros H. eapply enforces_bind; [apply enforces_panic_if|exact H]. Qed.
Lemma computes_slice_to {A} (l : list A) n : (n <= length l)%nat -> computes (slice_to l n) (firstn n l).
Proof. intros H. unfold slice_to. rewrite (proj2 (Nat.leb_le _ _) H). apply computes_ret. Qed.
Lemma computes_slice_from {A} (l : list A) n : (n <= length l)%nat -> computes (slice_from l n) (skipn n l).
Proof. intros H. unfold slice_from. rewrite (proj2 (Nat.leb_le _ _) H). apply computes_ret. Qed.
Lemma enforces_slice_to {A} (l : list A) n : enforces (slice_to l n) (n <= length l)%nat (firstn n l).
Proof.
  unfold slice_to. destruct (Nat.leb_spec n (length l)) as [H|H].
  - eapply enforces_iff; [apply enforces_ret|tauto].
  - split; [lia|intros a' []].
Qed.
Lemma enforces_slice_from {A} (l : list A) n : enforces (slice_from l n) (n <= length l)%nat (skipn n l).
Proof.
  unfold slice_from. destruct (Nat.leb_spec n (length l)) as [H|H].
  - eapply enforces_iff; [apply enforces_ret|tauto].
  - split; [lia|intros a' []].
Qed.
Lemma enforces_nth {A} (l : list A) i d : enforces (nth_ l i) (i < length l)%nat (nth i l d).
Proof.
  unfold nth_. destruct (Nat.lt_ge_cases i (length l)) as [H|H].
  - rewrite (nth_error_nth' l d H). eapply enforces_iff; [apply enforces_ret|tauto].
  - rewrite (proj2 (nth_error_None l i) H). split; [lia|intros a' []].
Qed.
Lemma computes_select_z b i1 i2 : b = 0 \/ b = 1 -> computes (api_select b i1 i2) (if b =? 1 then i1 else i2).
Proof. intros [-> | ->]; [apply (computes_select false)|apply (computes_select true)]. Qed.

(** ** Bits of an index *)
Lemma nth_bits n : forall i x, (i < n)%nat -> nth i (bits_of n x) 0 = (x / 2 ^ Z.of_nat i) mod 2.
Proof.
  induction n as [|n IH]; intros i x Hi; [lia|]. destruct i as [|i]; cbn [bits_of nth].
  - change (2 ^ Z.of_nat 0) with 1. now rewrite Z.div_1_r.
  - rewrite IH by lia. rewrite Nat2Z.inj_succ, Z.pow_succ_r, Z.div_div by lia. reflexivity.
Qed.
Lemma mod2_bool x : x mod 2 = 0 \/ x mod 2 = 1.
Proof. pose proof (Z.mod_pos_bound x 2 ltac:(lia)). lia. Qed.

(** ** Merkle paths *)
(** the root obtained from a digest at position [idx] of its layer *)
Fixpoint merkle_root (digest : Z) (idx : Z) (siblings : list Z) {struct siblings} : Z :=
  match siblings with
  | [] => digest
  | s :: l => merkle_root (if Z.odd idx then TwoToOne s digest else TwoToOne digest s) (idx / 2) l
  end.

Lemma TwoToOne_state a b : TwoToOne a b = nth 0 (PoseidonBN [0; 0; a; b]) 0. Proof. reflexivity. Qed.
Lemma merkle_fold sibs : forall n idx cur k, (k + length sibs <= n)%nat ->
  computes (foldM (merkle_step (bits_of n idx)) cur (combine (seq k (length sibs)) sibs))
           (merkle_root cur (idx / 2 ^ Z.of_nat k) sibs).
Proof.
  induction sibs as [|s sibs IH]; intros n idx cur k H; cbn [length seq combine foldM merkle_root]; [apply computes_ret|].
  cbn [length] in H. unfold merkle_step at 1.
  set (b := idx / 2 ^ Z.of_nat k).
  assert (Eb : nth k (bits_of n idx) 0 = b mod 2) by (apply nth_bits; lia).
  assert (C : computes (bit <- nth_ (bits_of n idx) k;; input2 <- api_select bit s cur;; input3 <- api_select bit cur s;;
                Ret (nth 0 (PoseidonBN [0; 0; input2; input3]) 0)) (if Z.odd b then TwoToOne s cur else TwoToOne cur s)).
  { eapply computes_bind; [apply (computes_nth _ _ 0); rewrite length_bits_of; lia|]. rewrite Eb.
    eapply computes_bind; [apply computes_select_z, mod2_bool|].
    eapply computes_bind; [apply computes_select_z, mod2_bool|]. cbn beta.
    assert (Eo : (b mod 2 =? 1) = Z.odd b).
    { rewrite Zmod_odd. destruct (Z.odd b); reflexivity. }
    rewrite Eo, !TwoToOne_state. destruct (Z.odd b); apply computes_ret. }
  eapply computes_bind; [exact C|].
  replace (b / 2) with (idx / 2 ^ Z.of_nat (S k)).
  - apply IH. lia.
  - unfold b. rewrite Nat2Z.inj_succ, Z.pow_succ_r by lia. rewrite (Z.mul_comm 2), <- Z.div_div by lia. reflexivity.
Qed.

(** two levels of four-way selection over a list of sixteen entries *)
Definition sel4 {A} (b0 b1 : bool) (x0 x1 x2 x3 : A) : A := if b1 then (if b0 then x3 else x2) else (if b0 then x1 else x0).
Lemma sel16 {A} (d : A) (l : list A) i : length l = 16%nat -> 0 <= i < 16 ->
  let b k := Z.odd (i / 2 ^ k) in
  let leaf j := sel4 (b 0) (b 1) (nth (j * 4) l d) (nth (j * 4 + 1) l d) (nth (j * 4 + 2) l d) (nth (j * 4 + 3) l d) in
  sel4 (b 2) (b 3) (leaf 0%nat) (leaf 1%nat) (leaf 2%nat) (leaf 3%nat) = nth (Z.to_nat i) l d.
Proof.
  intros L Hi. do 16 (destruct l as [|? l]; [discriminate L|]). destruct l; [|discriminate L].
  assert (C : i = 0 \/ i = 1 \/ i = 2 \/ i = 3 \/ i = 4 \/ i = 5 \/ i = 6 \/ i = 7 \/ i = 8 \/ i = 9 \/ i = 10 \/ i = 11 \/ i = 12 \/ i = 13 \/ i = 14 \/ i = 15) by lia.
  clear Hi L. repeat destruct C as [->|C]; try subst i; reflexivity.
Qed.
Lemma bits4 i : bits_of 4 i = [Z.b2z (Z.odd (i / 2 ^ 0)); Z.b2z (Z.odd (i / 2 ^ 1)); Z.b2z (Z.odd (i / 2 ^ 2)); Z.b2z (Z.odd (i / 2 ^ 3))].
Proof.
  assert (E : forall x, x mod 2 = Z.b2z (Z.odd x)) by (intros x; rewrite Zmod_odd; now destruct (Z.odd x)).
  cbn [bits_of]. rewrite !E. rewrite !Z.div_div by lia. change (2 ^ 0) with 1. rewrite Z.div_1_r. reflexivity.
Qed.

Lemma merkle_enforces leaf n idx cidx cap sibs : (length sibs <= n)%nat -> 0 <= cidx < 16 -> length cap = 16%nat ->
  enforces (verifyMerkleProofToCapWithCapIndex leaf (bits_of n idx) (bits_of 4 cidx) cap sibs)
           (merkle_root (HashOrNoop leaf) idx sibs = nth (Z.to_nat cidx) cap 0) tt.
Proof.
  intros Hn Hc Lc. unfold verifyMerkleProofToCapWithCapIndex.
  eapply computes_enforces_bind; [apply (merkle_fold sibs n idx (HashOrNoop leaf) 0); exact Hn|].
  change (2 ^ Z.of_nat 0) with 1. rewrite Z.div_1_r.
  eapply computes_enforces_bind; [apply computes_panic_if; now rewrite length_bits_of, Lc|].
  rewrite bits4. set (b0 := Z.odd (cidx / 2 ^ 0)). set (b1 := Z.odd (cidx / 2 ^ 1)).
  set (b2 := Z.odd (cidx / 2 ^ 2)). set (b3 := Z.odd (cidx / 2 ^ 3)).
  do 4 (eapply computes_enforces_bind; [apply computes_of_opt; reflexivity|]).
  set (leafv := fun j => sel4 b0 b1 (nth (j * 4) cap 0) (nth (j * 4 + 1) cap 0) (nth (j * 4 + 2) cap 0) (nth (j * 4 + 3) cap 0)).
  eapply computes_enforces_bind.
  { apply (computes_mapM _ leafv). intros j Hj. apply in_seq in Hj.
    do 4 (eapply computes_bind; [apply (computes_nth _ _ 0); lia|]). apply computes_lookup2. }
  cbn [seq map]. do 4 (eapply computes_enforces_bind; [apply computes_of_opt; reflexivity|]).
  eapply computes_enforces_bind; [apply computes_lookup2|].
  eapply enforces_iff; [apply enforces_assert_eq|].
  assert (E : (if b3 then if b2 then leafv 3%nat else leafv 2%nat else if b2 then leafv 1%nat else leafv 0%nat) = nth (Z.to_nat cidx) cap 0)
    by exact (sel16 0 cap cidx Lc Hc).
  rewrite E. reflexivity.
Qed.

(** ** Binding *)
(** the states to which the permutation is applied along a path *)
Fixpoint path_states (digest : Z) (idx : Z) (siblings : list Z) {struct siblings} : list (list Z) :=
  match siblings with
  | [] => []
  | s :: l => let st := if Z.odd idx then [0; 0; s; digest] else [0; 0; digest; s] in
              st :: path_states (nth 0 (PoseidonBN st) 0) (idx / 2) l
  end.
Lemma PoseidonBN_lane_range s : length s = 4%nat -> Forall inr_ s -> inr_ (nth 0 (PoseidonBN s) 0).
Proof.
  intros L F. destruct (PoseidonBN_state s L F) as [L' F']. rewrite Forall_forall in F'. apply F', nth_In. rewrite L'. lia.
Qed.
Lemma state_ok a b : inr_ a -> inr_ b -> length [0; 0; a; b] = 4%nat /\ Forall inr_ [0; 0; a; b].
Proof.
  intros Ha Hb. split; [reflexivity|]. assert (Z0 : inr_ 0) by (split; [apply Z.le_refl|exact r_pos]).
  repeat apply Forall_cons; auto.
Qed.
Lemma state_inj a b c d : [0; 0; a; b] = [0; 0; c; d] -> a = c /\ b = d.
Proof. intros E. split; [exact (f_equal (fun l => nth 2 l 0) E)|exact (f_equal (fun l => nth 3 l 0) E)]. Qed.

Lemma merkle_binding s1 : forall s2 d1 d2 idx, length s1 = length s2 -> inr_ d1 -> inr_ d2 -> Forall inr_ s1 -> Forall inr_ s2 ->
  merkle_root d1 idx s1 = merkle_root d2 idx s2 -> d1 <> d2 \/ s1 <> s2 ->
  lane0_collision (path_states d1 idx s1) (path_states d2 idx s2).
Proof.
  induction s1 as [|x s1 IH]; intros [|y s2] d1 d2 idx L H1 H2 F1 F2 E N; try discriminate L.
  - cbn [merkle_root] in E. destruct N as [N|N]; [congruence|now elim N].
  - inversion F1 as [|? ? Hx F1']; subst. inversion F2 as [|? ? Hy F2']; subst.
    apply (f_equal pred) in L. cbn [length pred] in L.
    cbn [merkle_root path_states] in E |- *. rewrite !TwoToOne_state in E.
    set (t1 := if Z.odd idx then [0; 0; x; d1] else [0; 0; d1; x]).
    set (t2 := if Z.odd idx then [0; 0; y; d2] else [0; 0; d2; y]).
    assert (O1 : length t1 = 4%nat /\ Forall inr_ t1) by (unfold t1; destruct (Z.odd idx); now apply state_ok).
    assert (O2 : length t2 = 4%nat /\ Forall inr_ t2) by (unfold t2; destruct (Z.odd idx); now apply state_ok).
    assert (E' : merkle_root (nth 0 (PoseidonBN t1) 0) (idx / 2) s1 = merkle_root (nth 0 (PoseidonBN t2) 0) (idx / 2) s2).
    { unfold t1, t2. destruct (Z.odd idx); exact E. }
    clear E. destruct O1 as [L1 O1]. destruct O2 as [L2 O2].
    destruct (list_eq_dec Z.eq_dec t1 t2) as [Et|Nt].
    + assert (Ed : x = y /\ d1 = d2).
      { unfold t1, t2 in Et. destruct (Z.odd idx); apply state_inj in Et; tauto. }
      destruct Ed as [-> ->]. rewrite Et in *.
      eapply collision_mono; [| |apply (IH s2 (nth 0 (PoseidonBN t2) 0) (nth 0 (PoseidonBN t2) 0) (idx / 2))];
        auto using PoseidonBN_lane_range.
      * intros z Hz. now apply in_cons.
      * intros z Hz. now apply in_cons.
      * right. destruct N as [N|N]; [congruence|]. intros ->. now apply N.
    + destruct (Z.eq_dec (nth 0 (PoseidonBN t1) 0) (nth 0 (PoseidonBN t2) 0)) as [Eq|Ne].
      * exists t1, t2. split; [apply in_eq|]. split; [apply in_eq|]. auto 10.
      * assert (C : lane0_collision (path_states (nth 0 (PoseidonBN t1) 0) (idx / 2) s1) (path_states (nth 0 (PoseidonBN t2) 0) (idx / 2) s2)).
        { apply (IH s2 _ _ _ L); [now apply PoseidonBN_lane_range|now apply PoseidonBN_lane_range|exact F1'|exact F2'|exact E'|left; exact Ne]. }
        eapply collision_mono; [| |exact C]; intros z Hz; now apply in_cons.
Qed.

(** ** Powers from bits *)
Lemma powm_gpow (g : GF) e : 0 <= e -> powm MODULUS (rep g) e = rep (g ^ Z.to_N e)%GF.
Proof.
  intros H. rewrite powm_spec by (try exact H; reflexivity). rewrite rep_gpow, Z2N.id by exact H. reflexivity.
Qed.
Lemma exp_bits_step_correct (g pr : GF) i b : g <> 0%GF -> b = 0 \/ b = 1 ->
  computes (exp_bits_step (rep g) (rep pr) (i, b)) (rep (pr * g ^ (Z.to_N b * 2 ^ N.of_nat i))%GF).
Proof.
  intros Hg Hb. unfold exp_bits_step. rewrite powm_gpow by (apply Z.pow_nonneg; lia).
  replace (Z.to_N (2 ^ Z.of_nat i)) with (2 ^ N.of_nat i)%N.
  2:{ rewrite Z2N.inj_pow by lia. rewrite <- (nat_N_Z i), N2Z.id. reflexivity. }
  set (q := (g ^ (2 ^ N.of_nat i))%GF).
  assert (Hq : q <> g0) by (apply gpow_nz; exact Hg).
  assert (E : (rep q - 1) mod 2 ^ 64 = rep (q - 1)%GF).
  { pose proof (rep_range q) as Rq. assert (rep q <> 0) by (intros E; apply Hq, GF_eq; exact E).
    rewrite Z.mod_small by (split; [lia|apply Z.lt_trans with p; [lia|reflexivity]]).
    change (rep (q - 1)%GF) with ((rep q - 1) mod p). symmetry. apply Z.mod_small. lia. }
  rewrite E.
  eapply computes_bind; [apply gmul_correct|].
  assert (Rb : b = rep (inj b)) by (destruct Hb as [-> | ->]; reflexivity).
  rewrite Rb at 1. eapply computes_bind; [apply gmul_correct|].
  eapply computes_eq; [apply gadd_correct|]. apply f_equal.
  destruct Hb as [-> | ->].
  - rewrite <- g0_inj. change (Z.to_N 0 * 2 ^ N.of_nat i)%N with 0%N. rewrite gpow_0. ring.
  - rewrite <- g1_inj. change (Z.to_N 1) with 1%N. rewrite N.mul_1_l. fold q. ring.
Qed.
Fixpoint bits_N (l : list Z) : N := match l with [] => 0%N | b :: l' => (Z.to_N b + 2 * bits_N l')%N end.
Lemma exp_bits_fold (g : GF) l : g <> 0%GF -> Forall (fun b => b = 0 \/ b = 1) l -> forall k pr,
  computes (foldM (exp_bits_step (rep g)) (rep pr) (combine (seq k (length l)) l)) (rep (pr * g ^ (bits_N l * 2 ^ N.of_nat k))%GF).
Proof.
  intros Hg. induction 1 as [|b l Hb Hl IH]; intros k pr; cbn [length seq combine foldM bits_N].
  - eapply computes_eq; [apply computes_ret|]. rewrite N.mul_0_l, gpow_0. apply f_equal. ring.
  - eapply computes_bind; [now apply exp_bits_step_correct|]. eapply computes_eq; [apply IH|]. apply f_equal.
    rewrite Nat2N.inj_succ, N.pow_succ_r'.
    replace ((Z.to_N b + 2 * bits_N l) * 2 ^ N.of_nat k)%N with (Z.to_N b * 2 ^ N.of_nat k + bits_N l * (2 * 2 ^ N.of_nat k))%N by lia.
    rewrite gpow_add. ring.
Qed.
Lemma exp_bits_correct (g : GF) l : g <> 0%GF -> Forall (fun b => b = 0 \/ b = 1) l ->
  computes (expFromBitsConstBase (rep g) l) (rep (g ^ bits_N l)%GF).
Proof.
  intros Hg Hl. unfold expFromBitsConstBase. change One with (rep g1).
  eapply computes_eq; [apply (exp_bits_fold g l Hg Hl 0 g1)|]. apply f_equal. change (2 ^ N.of_nat 0)%N with 1%N. rewrite N.mul_1_r. ring.
Qed.
Lemma bits_N_bits n : forall x, 0 <= x -> bits_N (bits_of n x) = Z.to_N (x mod 2 ^ Z.of_nat n).
Proof.
  induction n as [|n IH]; intros x Hx; cbn [bits_of bits_N].
  - change (2 ^ Z.of_nat 0) with 1. now rewrite Z.mod_1_r.
  - rewrite IH by (apply Z.div_pos; lia). rewrite Nat2Z.inj_succ, Z.pow_succ_r by lia.
    rewrite Z.rem_mul_r by lia.
    pose proof (Z.mod_pos_bound x 2 ltac:(lia)).
    pose proof (Z.mod_pos_bound (x / 2) (2 ^ Z.of_nat n) ltac:(lia)).
    rewrite Z2N.inj_add, Z2N.inj_mul by lia. reflexivity.
Qed.

(** ** Bit reversal *)
(** the n low bits of x in reverse order *)
Fixpoint bitrev (n : nat) (x : Z) : Z :=
  match n with O => 0 | S n' => (x mod 2) * 2 ^ Z.of_nat n' + bitrev n' (x / 2) end.
Lemma bitrev_range n : forall x, 0 <= bitrev n x < 2 ^ Z.of_nat n.
Proof.
  induction n as [|n IH]; intros x; cbn [bitrev]; [change (2 ^ Z.of_nat 0) with 1; lia|].
  rewrite Nat2Z.inj_succ, Z.pow_succ_r by lia. specialize (IH (x / 2)). pose proof (Z.mod_pos_bound x 2 ltac:(lia)). nia.
Qed.
Lemma bits_of_snoc n : forall x, bits_of (S n) x = bits_of n x ++ [(x / 2 ^ Z.of_nat n) mod 2].
Proof.
  induction n as [|n IH]; intros x.
  - cbn [bits_of app]. change (2 ^ Z.of_nat 0) with 1. now rewrite Z.div_1_r.
  - change (bits_of (S (S n)) x) with (x mod 2 :: bits_of (S n) (x / 2)). rewrite IH.
    change (bits_of (S n) x) with (x mod 2 :: bits_of n (x / 2)). cbn [app].
    rewrite Z.div_div by lia. rewrite Nat2Z.inj_succ, Z.pow_succ_r by lia. reflexivity.
Qed.
Lemma bits_of_add_high n : forall a b, 0 <= b < 2 ^ Z.of_nat n -> 0 <= a < 2 ->
  bits_of (S n) (a * 2 ^ Z.of_nat n + b) = bits_of n b ++ [a].
Proof.
  intros a b Hb Ha. rewrite bits_of_snoc. f_equal.
  - clear Ha. revert b Hb. induction n as [|n IH]; intros b Hb; [reflexivity|]. cbn [bits_of].
    rewrite Nat2Z.inj_succ, Z.pow_succ_r in * by lia.
    replace (a * (2 * 2 ^ Z.of_nat n) + b) with (b + (a * 2 ^ Z.of_nat n) * 2) by ring.
    rewrite Z.mod_add, Z.div_add by lia. f_equal. rewrite Z.add_comm. apply IH.
    split; [apply Z.div_pos; lia|apply Z.div_lt_upper_bound; lia].
  - apply (f_equal (fun z => [z])). rewrite Z.add_comm, Z.div_add, Z.div_small, Z.add_0_l by lia. apply Z.mod_small. lia.
Qed.
Lemma rev_bits_of n : forall x, rev (bits_of n x) = bits_of n (bitrev n x).
Proof.
  induction n as [|n IH]; intros x; [reflexivity|].
  change (rev (bits_of (S n) x)) with (rev (bits_of n (x / 2)) ++ [x mod 2]). cbn [bitrev].
  rewrite IH, bits_of_add_high; [reflexivity|apply bitrev_range|]. apply Z.mod_pos_bound. lia.
Qed.
Lemma bits_of_inj n x y : 0 <= x < 2 ^ Z.of_nat n -> 0 <= y < 2 ^ Z.of_nat n -> bits_of n x = bits_of n y -> x = y.
Proof. intros Hx Hy E. rewrite <- (of_bits_of n x Hx), <- (of_bits_of n y Hy). now rewrite E. Qed.
Lemma bitrev_involutive n x : 0 <= x < 2 ^ Z.of_nat n -> bitrev n (bitrev n x) = x.
Proof.
  intros Hx. apply (bits_of_inj n); [apply bitrev_range|exact Hx|].
  rewrite <- !rev_bits_of. apply rev_involutive.
Qed.
Lemma bits_bool n x : Forall (fun b => b = 0 \/ b = 1) (bits_of n x).
Proof. apply Forall_forall. intros b Hb. eapply bits_of_bool; eauto. Qed.

(** the query point *)
Definition query_point (n : nat) (idx : Z) : GF := (g7 * root n ^ Z.to_N (bitrev n idx))%GF.
Lemma subgroup_x_correct n idx : (n <= TWO_ADICITY)%nat ->
  computes (calculateSubgroupX (bits_of n idx) n) (rep (query_point n idx)).
Proof.
  intros Hn. unfold calculateSubgroupX. eapply computes_bind; [now apply root_computes|].
  rewrite rev_bits_of.
  eapply computes_bind; [apply exp_bits_correct; [now apply root_nz|apply bits_bool]|].
  rewrite bits_N_bits by apply bitrev_range. rewrite Z.mod_small by apply bitrev_range.
  change MULTIPLICATIVE_GROUP_GENERATOR with (rep g7). apply gmul_correct.
Qed.
Lemma g7_nz : g7 <> 0%GF. Proof. intros E. apply (f_equal rep) in E. discriminate E. Qed.
Lemma query_point_inj n i j : (n <= TWO_ADICITY)%nat -> 0 <= i < 2 ^ Z.of_nat n -> 0 <= j < 2 ^ Z.of_nat n ->
  query_point n i = query_point n j -> i = j.
Proof.
  intros Hn Hi Hj E. unfold query_point in E.
  assert (E' : (root n ^ Z.to_N (bitrev n i) = root n ^ Z.to_N (bitrev n j))%GF).
  { assert (D : (g7 * (root n ^ Z.to_N (bitrev n i) - root n ^ Z.to_N (bitrev n j)))%GF = 0%GF).
    { replace (g7 * (root n ^ Z.to_N (bitrev n i) - root n ^ Z.to_N (bitrev n j)))%GF
        with (g7 * root n ^ Z.to_N (bitrev n i) - g7 * root n ^ Z.to_N (bitrev n j))%GF by ring. rewrite E. ring. }
    apply gmul_eq0 in D. destruct D as [D|D]; [now apply g7_nz in D|]. now apply gsub_eq0. }
  assert (B : forall x, (Z.to_N (bitrev n x) < 2 ^ N.of_nat n)%N).
  { intros x. pose proof (bitrev_range n x) as R. rewrite <- (N2Z.id (2 ^ N.of_nat n)). apply Z2N.inj_lt; lia. }
  apply root_pow_inj in E'; auto.
  apply Z2N.inj in E'; try apply bitrev_range.
  rewrite <- (bitrev_involutive n i Hi), <- (bitrev_involutive n j Hj). now rewrite E'.
Qed.
