(** * A fast way to compute the Goldilocks Poseidon permutation of PoseidonSpec, for examples.

    On integers, reduced lazily with 2^64 = 2^32 - 1 mod p; nothing here is in /repo. *)
From Coq Require Import ZArith NArith Lia List Bool Ring.
From Verif Require Import Zp GF Circuit LinAlg PoseidonSpec PoseidonGLConst PoseidonGL PoseidonGLProofs Sponge Malleable.
Import ListNotations.
Open Scope Z_scope.

Definition ones64 : Z := Z.ones 64.
Definition red1 (x : Z) : Z := let hi := Z.shiftr x 64 in Z.land x ones64 + (Z.shiftl hi 32 - hi).
Definition red (x : Z) : Z := red1 (red1 x).
Lemma red1_ok x : inj (red1 x) = inj x.
Proof.
  apply inj_eq. unfold red1, ones64. rewrite Z.land_ones, Z.shiftr_div_pow2, Z.shiftl_mul_pow2 by lia.
  rewrite (Z.div_mod x (2 ^ 64)) at 4 by lia. set (h := x / 2 ^ 64). set (l := x mod 2 ^ 64).
  replace (l + (h * 2 ^ 32 - h)) with (2 ^ 64 * h + l + (- h) * p) by (unfold p; ring).
  apply Z.mod_add. discriminate.
Qed.
Lemma red_ok x : inj (red x) = inj x. Proof. unfold red. now rewrite !red1_ok. Qed.

Definition fsbox (x : Z) : Z := let x2 := red (x * x) in let x4 := red (x2 * x2) in let x6 := red (x4 * x2) in red (x6 * x).
Definition frc (k : nat) (s : list Z) : list Z := map2 Z.add s (RCz k).
Definition fmds (s : list Z) : list Z := map (fun row => red1 (zdot row s)) MDSz.
Definition ffull (s : list Z) (k : nat) : list Z := fmds (map fsbox (frc k s)).
Definition fpartial (s : list Z) (k : nat) : list Z := let u := frc k s in fmds (fsbox (hd 0 u) :: tl u).
Definition fposeidon (s : list Z) : list Z :=
  map (fun x => x mod p) (fold_left ffull (seq 26 4) (fold_left fpartial (seq 4 22) (fold_left ffull (seq 0 4) s))).

Lemma fsbox_ok x : inj (fsbox x) = sbox7 (inj x).
Proof. unfold fsbox, sbox7. cbv zeta. repeat rewrite ?red_ok, ?inj_mul. ring. Qed.
Lemma frc_ok k s : map inj (frc k s) = add_rc_g k (map inj s).
Proof.
  unfold frc, add_rc_g, add_rc, vadd, RC, RCz. rewrite map_map. unfold idg. generalize (firstn 12 (skipn (12 * k) ALL_ROUND_CONSTANTS)).
  induction s as [|x s IH]; intros [|c l]; try reflexivity. cbn [map map2]. now rewrite inj_add, IH.
Qed.
Lemma zdot_ok row : forall s, inj (zdot row s) = dotp g0 gadd gmul idg (map inj row) (map inj s).
Proof.
  induction row as [|a row IH]; intros [|x s]; cbn [zdot map dotp]; try (now rewrite g0_inj). rewrite inj_add, inj_mul, IH. reflexivity.
Qed.
Lemma fmds_ok s : map inj (fmds s) = mds_g (map inj s).
Proof.
  unfold fmds, mds_g, mds, matvec. rewrite MDS_z, !map_map. apply map_ext. intros row. rewrite red1_ok. apply zdot_ok.
Qed.
Lemma ffull_ok s k : map inj (ffull s k) = full_round_fn k (map inj s).
Proof. unfold ffull, full_round_fn. rewrite fmds_ok, <- frc_ok, !map_map. f_equal. apply map_ext. intros x. apply fsbox_ok. Qed.
Lemma fpartial_ok s k : map inj (fpartial s k) = partial_round_fn k (map inj s).
Proof.
  unfold fpartial, partial_round_fn. cbv zeta. rewrite fmds_ok, <- frc_ok. cbn [map]. rewrite fsbox_ok. f_equal.
  destruct (frc k s); cbn [map hd tl]; [now rewrite g0_inj|reflexivity].
Qed.
Lemma folds_ok (f : list Z -> nat -> list Z) (g : nat -> list GF -> list GF) : (forall s k, map inj (f s k) = g k (map inj s)) ->
  forall l s, map inj (fold_left f l s) = fold_left (fun s k => g k s) l (map inj s).
Proof. intros H. induction l as [|k l IH]; intros s; cbn [fold_left]; [reflexivity|]. now rewrite IH, H. Qed.
Theorem fposeidon_ok s : map inj (fposeidon s) = poseidon (map inj s).
Proof.
  unfold fposeidon. rewrite map_map. rewrite (map_ext _ inj) by (intros; apply inj_mod).
  now rewrite (folds_ok _ _ ffull_ok), (folds_ok _ _ fpartial_ok), (folds_ok _ _ ffull_ok).
Qed.
Example fast_ex : fposeidon (repeat 0 12) = [4330397376401421145; 14124799381142128323; 8742572140681234676;
        14345658006221440202; 15524073338516903644; 5091405722150716653;
        15002163819607624508; 2047012902665707362; 16106391063450633726;
        4680844749859802542; 15019775476387350140; 1698615465718385111].
Proof. vm_compute. reflexivity. Qed.
