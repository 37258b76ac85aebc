(** * Soundness of the FRI verifier by rewinding: a prover's answers.

    The prover is any collection of answers: caps that depend on the challenges drawn before
    them, a final polynomial, and a query round for every index. *)
From Coq Require Import String.
From Coq Require Import ZArith NArith Lia List Bool.
From Verif Require Import Zp GF Circuit Goldilocks GLProofs ExtProofs BN254 BN254Hash Types Challenger Fri Poly Roots FriMerkle FriEval FriQuery FriTop FriFacts FriSound.
Import ListNotations.
Open Scope Z_scope.
Local Opaque PoseidonBN HashOrNoop TwoToOne.

(** ** Hashed states *)
Definition leaf_inputs (leaf : list Z) : list (list Z) := if Nat.leb (length leaf) 3 then [] else hash_inputs leaf.
Definition opening_inputs (leaf : list Z) (idx : Z) (sibs : list Z) : list (list Z) :=
  leaf_inputs leaf ++ path_states (HashOrNoop leaf) idx sibs.
Fixpoint steps_inputs (steps : list FriQueryStep) (i : Z) : list (list Z) :=
  match steps with
  | [] => []
  | st :: rest => opening_inputs (flat_evals (Evals st)) (i / 16) (st_Siblings st) ++ steps_inputs rest (i / 16)
  end.
(** all states to which the permutation is applied when a round is checked for the query index i *)
Definition round_inputs (round : FriQueryRound) (i : Z) : list (list Z) :=
  flat_map (fun e => opening_inputs (Elements e) i (ep_Siblings e)) (InitialTreesProof round) ++ steps_inputs (Steps round) i.
Definition no_collision (S : list Z -> Prop) : Prop :=
  forall a b, S a -> S b -> nth 0 (PoseidonBN a) 0 = nth 0 (PoseidonBN b) 0 -> a = b.
(** siblings are circuit variables, elements of the scalar field *)
Definition siblings_ok (round : FriQueryRound) : Prop :=
  Forall (fun e => Forall inr_ (ep_Siblings e)) (InitialTreesProof round) /\ Forall (fun st => Forall inr_ (st_Siblings st)) (Steps round).

Lemma no_collision_false S A B : no_collision S -> (forall a, In a A -> S a) -> (forall b, In b B -> S b) -> ~ lane0_collision A B.
Proof. intros N HA HB (a & b & Ha & Hb & _ & _ & _ & _ & Ne & E). apply Ne. apply N; auto. Qed.
Lemma opening_unique S leaf leaf' idx sibs sibs' : no_collision S ->
  (forall a, In a (opening_inputs leaf idx sibs) -> S a) -> (forall a, In a (opening_inputs leaf' idx sibs') -> S a) ->
  length leaf = length leaf' -> length sibs = length sibs' -> Forall is64 leaf -> Forall is64 leaf' -> Forall inr_ sibs -> Forall inr_ sibs' ->
  merkle_root (HashOrNoop leaf) idx sibs = merkle_root (HashOrNoop leaf') idx sibs' -> leaf = leaf'.
Proof.
  intros N HS HS' Ll Ls Hl Hl' Hs Hs' E. unfold opening_inputs in HS, HS'.
  destruct (list_eq_dec Z.eq_dec leaf leaf') as [->|Nl]; [reflexivity|exfalso].
  destruct (Z.eq_dec (HashOrNoop leaf) (HashOrNoop leaf')) as [Ed|Nd].
  - destruct (HashOrNoop_collision leaf leaf' Ll Hl Hl' Nl Ed) as [L3 C].
    refine (no_collision_false S _ _ N _ _ C); intros a Ha; [apply HS|apply HS']; apply in_or_app; left; unfold leaf_inputs;
      rewrite <- ?Ll, (proj2 (Nat.leb_gt _ _) L3); exact Ha.
  - assert (C : lane0_collision (path_states (HashOrNoop leaf) idx sibs) (path_states (HashOrNoop leaf') idx sibs')).
    { apply merkle_binding; auto using HashOrNoop_range. }
    refine (no_collision_false S _ _ N _ _ C); intros a Ha; [apply HS|apply HS']; apply in_or_app; now right.
Qed.
Lemma canon_is64 x : canonZ x -> is64 x.
Proof. unfold canonZ, is64. assert (p < 2 ^ 64) by reflexivity. lia. Qed.
Lemma flat_evals_is64 l : Forall canonQE l -> Forall is64 (flat_evals l).
Proof.
  induction 1 as [|x l [H1 H2] F IH]; [constructor|]. cbn [flat_evals flat_map app].
  apply Forall_cons; [now apply canon_is64|]. apply Forall_cons; [now apply canon_is64|exact IH].
Qed.
Lemma flat_evals_inj a : forall b, flat_evals a = flat_evals b -> a = b.
Proof.
  induction a as [|[x y] a IH]; intros [|[x' y'] b] E; try discriminate E; [reflexivity|].
  cbn [flat_evals flat_map app fst snd] in E. injection E as -> -> E. f_equal. now apply IH.
Qed.
Lemma flat_evals_length l : length (flat_evals l) = (2 * length l)%nat.
Proof. induction l as [|x l IH]; [reflexivity|]. cbn [flat_evals flat_map app length]. unfold flat_evals in IH. rewrite IH. lia. Qed.

(** ** Trees of folding challenges *)
Fixpoint in_tree (B : list K -> list K) (pre betas : list K) : Prop :=
  match betas with [] => True | b :: bs => In b (B pre) /\ in_tree B (pre ++ [b]) bs end.
Fixpoint caps_along (cap : list K -> FriMerkleCap) (pre betas : list K) : list FriMerkleCap :=
  match betas with [] => [] | b :: bs => cap pre :: caps_along cap (pre ++ [b]) bs end.
Fixpoint first_path (B : list K -> list K) (k : nat) (pre : list K) : list K :=
  match k with O => [] | S k' => hd k0 (B pre) :: first_path B k' (pre ++ [hd k0 (B pre)]) end.
Lemma first_path_length B k : forall pre, length (first_path B k pre) = k.
Proof. induction k as [|k IH]; intros pre; [reflexivity|]. cbn [first_path length]. now rewrite IH. Qed.
Lemma first_path_in B k : forall j pre, (length pre + k <= j)%nat -> (forall q, (length q < j)%nat -> length (B q) = 16%nat) -> in_tree B pre (first_path B k pre).
Proof.
  induction k as [|k IH]; intros j pre L HB; cbn [first_path in_tree]; [exact I|]. split.
  - specialize (HB pre ltac:(lia)). destruct (B pre) as [|b l]; [discriminate HB|]. now left.
  - apply (IH j); [rewrite app_length; cbn [length]; lia|exact HB].
Qed.
Lemma pow16_Z j : 16 ^ Z.of_nat j = 2 ^ Z.of_nat (4 * j).
Proof. rewrite Nat2Z.inj_mul, Z.pow_mul_r by lia. reflexivity. Qed.
Lemma div16_S i j : i / 16 ^ Z.of_nat (S j) = i / 16 ^ Z.of_nat j / 16.
Proof. rewrite Nat2Z.inj_succ, Z.pow_succ_r by lia. rewrite Z.div_div by lia. f_equal. lia. Qed.

(** the indices of a list, as seen by the layer after j reductions *)
Definition at_layer (G : list Z) (j : nat) (t : Z) : Prop := exists i, In i G /\ i / 16 ^ Z.of_nat j = t.
Definition pick (G : list Z) (j : nat) (t : Z) : Z := match find (fun i => i / 16 ^ Z.of_nat j =? t) G with Some i => i | None => 0 end.
Lemma pick_spec G j t : at_layer G j t -> In (pick G j t) G /\ pick G j t / 16 ^ Z.of_nat j = t.
Proof.
  intros (i & Hi & Ei). unfold pick. destruct (find _ G) as [i'|] eqn:F.
  - apply find_some in F. destruct F as [F1 F2]. split; [exact F1|now apply Z.eqb_eq].
  - exfalso. pose proof (find_none _ _ F i Hi) as N. cbn beta in N. apply Z.eqb_neq in N. contradiction.
Qed.
Lemma layer_cosets G j t : cosets (at_layer G j) t <-> at_layer G (S j) t.
Proof.
  split.
  - intros (u & (i & Hi & <-) & <-). exists i. split; [exact Hi|apply div16_S].
  - intros (i & Hi & <-). exists (i / 16 ^ Z.of_nat j). split; [exists i; now split|]. symmetry. apply div16_S.
Qed.
Lemma tree_ok_incl m k : forall (D D' : Z -> Prop) s n old, (forall i, D' i -> D i) -> tree_ok m k D s n old -> tree_ok m k D' s n old.
Proof.
  induction k as [|k IH]; intros D D' s n old I H; cbn [tree_ok] in *.
  - destruct H as (f & Lf & Ef). exists f. split; [exact Lf|]. intros i Hi. now apply Ef, I.
  - destruct H as (bs & ND & Lb & E & HE & H). exists bs. split; [exact ND|]. split; [exact Lb|]. exists E. split; [intros i Hi; now apply HE, I|].
    intros b Hb. apply (IH (cosets D)); [|now apply H]. intros t (i & Hi & Et). exists i. split; [now apply I|exact Et].
Qed.

Section Tree.
  Context (n0 k : nat) (B : list K -> list K) (cap : list K -> FriMerkleCap) (final : list K -> list QE) (steps : list K -> Z -> list FriQueryStep).
  Context (S : list Z -> Prop) (NC : no_collision S).
  Context (HB : forall pre, (length pre < k)%nat -> NoDup (B pre) /\ length (B pre) = 16%nat).
  Context (m : nat) (HF : forall betas, length betas = k -> in_tree B [] betas -> (length (final betas) <= m)%nat).
  Context (Hn0 : (n0 <= TWO_ADICITY)%nat).
  Context (G : list Z).

  Definition good_steps (r : nat) (n : nat) (st : list FriQueryStep) (i : Z) : Prop :=
    steps_shape 4 (Z.of_nat n) st (repeat 4%nat r) /\ Forall (fun s => Forall canonQE (Evals s)) st /\
    Forall (fun s => Forall inr_ (st_Siblings s)) st /\ forall a, In a (steps_inputs st i) -> S a.
  Definition inv (r : nat) (pre : list K) (s : GF) (old : Z -> K) : Prop :=
    forall betas, length betas = r -> in_tree B pre betas -> forall i, In i G ->
      let j := length pre in let st := skipn j (steps (pre ++ betas) i) in
      good_steps r (n0 - 4 * j) st (i / 16 ^ Z.of_nat j) /\
      chain_ok (map injK (final (pre ++ betas))) (i / 2 ^ Z.of_nat (n0 - 4)) st betas (caps_along cap pre betas) s (n0 - 4 * j)
        (i / 16 ^ Z.of_nat j) (old (i / 16 ^ Z.of_nat j)).

  Lemma in_tree_app pre b betas : in_tree B pre (b :: betas) <-> In b (B pre) /\ in_tree B (pre ++ [b]) betas. Proof. reflexivity. Qed.
  Lemma in_tree_prefix : forall pre q betas, in_tree B q pre -> in_tree B (q ++ pre) betas -> in_tree B q (pre ++ betas).
  Proof.
    induction pre as [|b pre IH]; intros q betas H1 H2; [now rewrite app_nil_r in H2|]. cbn [app in_tree] in *.
    destruct H1 as [Hb H1]. split; [exact Hb|]. apply IH; [exact H1|]. now rewrite <- app_assoc.
  Qed.

  Lemma tree_of_answers r : forall pre s old, (length pre + r = k)%nat -> in_tree B [] pre -> s <> 0%GF ->
    (4 * k + 4 <= n0)%nat -> inv r pre s old -> tree_ok m r (at_layer G (length pre)) s (n0 - 4 * length pre) old.
  Proof.
    induction r as [|r IH]; intros pre s old Lk Hp Hs H4 H; cbn [tree_ok].
    - exists (map injK (final pre)). rewrite map_length. split; [apply HF; [lia|exact Hp]|].
      intros i Hi. set (j := length pre) in *. destruct Hi as (i0 & Ri & Ei).
      destruct (H [] eq_refl I i0 Ri) as [(Q & _) C]. fold j in Q, C. rewrite app_nil_r in Q, C.
      rewrite Ei in C. destruct (skipn j (steps pre i0)) as [|st rest]; [|cbn in Q; destruct Q].
      cbn [chain_ok] in C. now symmetry.
    - set (j := length pre) in *. set (n := (n0 - 4 * j)%nat) in *.
      destruct (HB pre ltac:(lia)) as [ND LB]. exists (B pre). split; [exact ND|]. split; [exact LB|].
      set (path0 := first_path B (Datatypes.S r) pre).
      assert (L0 : length path0 = Datatypes.S r) by apply first_path_length.
      assert (T0 : in_tree B pre path0) by (apply (first_path_in B _ k); [lia|intros q Hq; now apply HB]).
      set (dst := mkFriQueryStep [] []).
      set (E0 := fun t => Evals (hd dst (skipn j (steps (pre ++ path0) (pick G (Datatypes.S j) t))))).
      assert (P16 : forall a, 0 < 16 ^ Z.of_nat a) by (intros; lia).
      (* the evaluations depend on the prefix and the coset only *)
      assert (CO : forall betas i, length betas = Datatypes.S r -> in_tree B pre betas -> In i G ->
        exists st rest, skipn j (steps (pre ++ betas) i) = st :: rest /\ Evals st = E0 (i / 16 ^ Z.of_nat (Datatypes.S j)) /\ length (Evals st) = 16%nat).
      { intros betas i Lb Tb Ri. set (t := i / 16 ^ Z.of_nat (Datatypes.S j)). set (i1 := pick G (Datatypes.S j) t).
        assert (Lt : at_layer G (Datatypes.S j) t) by (exists i; now split). destruct (pick_spec G _ t Lt) as [R1 E1]. fold i1 in R1, E1.
        destruct (H betas Lb Tb i Ri) as [(Q & Gc & Gs & GS) C]. destruct (H path0 L0 T0 i1 R1) as [(Q' & Gc' & Gs' & GS') C']. fold j n in Q, Gc, Gs, GS, C, Q', Gc', Gs', GS', C'.
        unfold E0. fold t i1.
        destruct (skipn j (steps (pre ++ betas) i)) as [|st rest]; [destruct Q|]. destruct (skipn j (steps (pre ++ path0) i1)) as [|st' rest']; [destruct Q'|].
        exists st, rest. split; [reflexivity|]. cbn [hd].
        cbn [repeat steps_shape] in Q, Q'. destruct Q as (G1 & G2 & _). destruct Q' as (G1' & G2' & _).
        change (shl_int (Z.of_nat 4)) with 16 in G1, G1'. split; [|lia].
        apply flat_evals_inj.
        assert (Ei : i1 / 16 ^ Z.of_nat j / 16 = i / 16 ^ Z.of_nat j / 16).
        { rewrite <- !div16_S. exact E1. }
        assert (Ec : i1 / 2 ^ Z.of_nat (n0 - 4) = i / 2 ^ Z.of_nat (n0 - 4)).
        { replace (n0 - 4)%nat with (4 * Datatypes.S j + (n0 - 4 - 4 * Datatypes.S j))%nat by lia.
          rewrite Nat2Z.inj_add, Z.pow_add_r, <- pow16_Z by lia. rewrite <- !Z.div_div by (try apply P16; lia).
          now rewrite E1. }
        destruct betas as [|b betas]; [discriminate Lb|]. unfold path0 in C'. cbn [first_path caps_along chain_ok] in C, C'.
        destruct C as (_ & M & _). destruct C' as (_ & M' & _). rewrite Ec, Ei in M'.
        inversion Gc as [|? ? Gc1 _]; subst. inversion Gc' as [|? ? Gc1' _]; subst. inversion Gs as [|? ? Gs1 _]; subst. inversion Gs' as [|? ? Gs1' _]; subst.
        cbn [steps_inputs] in GS, GS'. rewrite Ei in GS'.
        apply (opening_unique S _ _ (i / 16 ^ Z.of_nat j / 16) (st_Siblings st) (st_Siblings st') NC).
        - intros a Ha. apply GS. apply in_or_app. now left.
        - intros a Ha. apply GS'. apply in_or_app. now left.
        - rewrite !flat_evals_length. lia.
        - lia.
        - now apply flat_evals_is64.
        - now apply flat_evals_is64.
        - exact Gs1.
        - exact Gs1'.
        - exact (eq_trans M (eq_sym M')). }
      exists (fun t => map injK (E0 t)). split.
      + intros i (i0 & Ri & Ei).
        destruct (CO path0 i0 L0 T0 Ri) as (st & rest & Est & EE & LE). destruct (H path0 L0 T0 i0 Ri) as [_ C]. fold j n in C. rewrite Est in C.
        rewrite div16_S, Ei in EE. unfold path0 in C. cbn [first_path caps_along chain_ok] in C. rewrite Ei in C. destruct C as (_ & _ & C & _).
        pose proof (Z.mod_pos_bound i 16 ltac:(lia)) as M. rewrite <- EE. rewrite (nth_map_lt _ _ _ _ no_qe) by lia. exact C.
      + intros b Hb. replace (n - 4)%nat with (n0 - 4 * length (pre ++ [b]))%nat by (unfold n; rewrite app_length; cbn [length]; lia).
        apply (tree_ok_incl m r (at_layer G (length (pre ++ [b])))).
        { intros t Ht. rewrite app_length, Nat.add_1_r. now apply layer_cosets. }
        apply IH.
        * rewrite app_length. cbn [length]. lia.
        * apply in_tree_prefix; [exact Hp|]. cbn [app in_tree]. tauto.
        * now apply gpow16_nz.
        * exact H4.
        * intros betas Lb Tb i Ri. cbv zeta. rewrite <- app_assoc. cbn [app].
          assert (TT : in_tree B pre (b :: betas)) by (split; assumption).
          assert (LL : length (b :: betas) = Datatypes.S r) by (cbn [length]; lia).
          destruct (CO (b :: betas) i LL TT Ri) as (st & rest & Est & EE & LE). destruct (H (b :: betas) LL TT i Ri) as [(Q & Gc & Gs & GS) C].
          fold j n in Q, Gc, Gs, GS, C. rewrite Est in Q, Gc, Gs, GS, C.
          assert (Lp : length (pre ++ [b]) = Datatypes.S j) by (rewrite app_length; cbn [length]; fold j; lia). rewrite Lp.
          rewrite (proj2 (skipn_cons_nth _ _ _ _ Est)). rewrite div16_S. replace (n0 - 4 * Datatypes.S j)%nat with (n - 4)%nat by (unfold n; lia).
          cbn [repeat steps_shape] in Q. destruct Q as (G1 & G2 & G3). split.
          -- split; [|split; [|split]].
             ++ replace (Z.of_nat (n - 4)) with (Z.of_nat n - Z.of_nat 4) by (unfold n; lia). exact G3.
             ++ now inversion Gc.
             ++ now inversion Gs.
             ++ intros a Ha. apply GS. cbn [steps_inputs]. apply in_or_app. now right.
          -- cbn [caps_along chain_ok] in C. destruct C as (_ & _ & _ & _ & P & HP & C).
             set (t := i / 16 ^ Z.of_nat j / 16) in *. rewrite div16_S in EE. fold t in EE. rewrite <- EE.
             assert (HP' : interpolant s n (16 * t) (Evals st) P).
             { destruct HP as [LP HP]. split; [exact LP|]. intros q Hq. rewrite <- HP by exact Hq. do 3 f_equal.
               rewrite (Z.mul_comm 16 t), Z.div_mul by lia. unfold t. reflexivity. }
             rewrite <- (coset_value_interpolant s n t (Evals st) P b); [exact C|assumption|unfold n; lia|unfold n; lia|exact LE|exact HP'].
  Qed.
End Tree.
