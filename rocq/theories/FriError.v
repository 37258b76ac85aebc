(** * The soundness error of the FRI verifier: a prover that is not always accepted.

    The prover is any collection of answers, as in FriRewind; here the positions at which it is
    accepted depend on the challenges. *)
From Coq Require Import String.
From Coq Require Import ZArith NArith Arith Lia List Bool.
From Verif Require Import Zp GF Circuit Goldilocks GLProofs ExtProofs BN254 BN254Hash Types Challenger Fri Poly Roots FriMerkle FriEval FriQuery FriTop FriFacts Honest FriSound FriRewind FriExtract FriCurve FriProx.
Import ListNotations.
Open Scope Z_scope.
Local Opaque PoseidonBN HashOrNoop TwoToOne.

(** ** All the accepted runs of a tree of challenges *)
Fixpoint runs (B : list K -> list K) (A : list K -> list Z) (r : nat) (pre : list K) : list (list K * Z) :=
  match r with
  | O => map (pair []) (A pre)
  | S r' => flat_map (fun b => map (fun bi => (b :: fst bi, snd bi)) (runs B A r' (pre ++ [b]))) (B pre)
  end.
Lemma runs_in B A r : forall pre betas i, In (betas, i) (runs B A r pre) <-> length betas = r /\ in_tree B pre betas /\ In i (A (pre ++ betas)).
Proof.
  induction r as [|r IH]; intros pre betas i; cbn [runs].
  - rewrite in_map_iff. split.
    + intros (x & E & Hx). injection E as <- <-. rewrite app_nil_r. now repeat split.
    + intros (L & _ & H). destruct betas as [|b betas]; [|discriminate L]. rewrite app_nil_r in H. now exists i.
  - rewrite in_flat_map. split.
    + intros (b & Hb & H). apply in_map_iff in H. destruct H as ([betas' i'] & E & H). cbn [fst snd] in E. injection E as <- <-.
      apply IH in H. destruct H as (L & T & H). rewrite <- app_assoc in H. cbn [length app in_tree] in *. repeat split; try assumption. lia.
    + intros (L & T & H). destruct betas as [|b betas]; [discriminate L|]. cbn [in_tree length] in *. destruct T as [Hb T]. exists b. split; [exact Hb|].
      apply in_map_iff. exists (betas, i). split; [reflexivity|]. apply IH. rewrite <- app_assoc. cbn [app]. repeat split; try assumption. lia.
Qed.

Section Tree.
  Context (n0 k : nat) (B : list K -> list K) (cap : list K -> FriMerkleCap) (final : list K -> list QE) (steps : list K -> Z -> list FriQueryStep).
  Context (S : list Z -> Prop) (NC : no_collision S) (A : list K -> list Z) (m e : nat).
  Context (HB : forall pre, (length pre < k)%nat -> in_tree B [] pre -> NoDup (B pre) /\ (15 * (2 ^ (n0 - 4 * Datatypes.S (length pre)) * 2 ^ (n0 - 4 * Datatypes.S (length pre))) < length (B pre))%nat).
  Context (HA : forall betas, length betas = k -> in_tree B [] betas -> positions_of n0 (A betas) /\ (2 ^ n0 <= length (A betas) + e)%nat).
  Context (HF : forall betas, length betas = k -> in_tree B [] betas -> (length (final betas) <= m)%nat).
  Context (Hn0 : (n0 <= TWO_ADICITY)%nat) (H4 : (4 * k + 4 <= n0)%nat) (He : (2 * e + 16 ^ k * m <= 2 ^ n0)%nat).

  Definition inv_on (r : nat) (pre : list K) (s : GF) (old : Z -> K) : Prop :=
    forall betas, length betas = r -> in_tree B pre betas -> forall i, In i (A (pre ++ betas)) ->
      let j := length pre in let st := skipn j (steps (pre ++ betas) i) in
      good_steps S r (n0 - 4 * j) st (i / 16 ^ Z.of_nat j) /\
      chain_ok (map injK (final (pre ++ betas))) (i / 2 ^ Z.of_nat (n0 - 4)) st betas (caps_along cap pre betas) s (n0 - 4 * j)
        (i / 16 ^ Z.of_nat j) (old (i / 16 ^ Z.of_nat j)).

  Lemma tree_prox r : forall pre s old, (length pre + r = k)%nat -> in_tree B [] pre -> s <> 0%GF -> inv_on r pre s old ->
    exists betas P, length betas = r /\ in_tree B pre betas /\ (length P <= 16 ^ r * m)%nat /\
      forall i, In i (A (pre ++ betas)) -> let x := i / 16 ^ Z.of_nat (length pre) in old x = kpeval P (emb (dom s (n0 - 4 * length pre) x)).
  Proof.
    induction r as [|r IH]; intros pre s old Lk Hp Hs H.
    - exists [], (map injK (final pre)). split; [reflexivity|]. split; [exact I|]. rewrite map_length. split; [cbn; rewrite Nat.add_0_r; apply HF; [lia|exact Hp]|].
      rewrite app_nil_r. intros i Hi. destruct (H [] eq_refl I i) as [(Q & _) C]; [now rewrite app_nil_r|]. cbv zeta in *. rewrite app_nil_r in Q, C.
      destruct (skipn (length pre) (steps pre i)) as [|st rest]; [|cbn in Q; destruct Q]. cbn [chain_ok] in C. now symmetry.
    - set (j := length pre) in *. set (n := (n0 - 4 * j)%nat) in *.
      destruct (HB pre ltac:(lia) Hp) as [ND LB]. fold j in LB.
      set (dst := mkFriQueryStep [] []).
      set (E0 := fun t => match find (fun bi : list K * Z => snd bi / 16 ^ Z.of_nat (Datatypes.S j) =? t) (runs B A (Datatypes.S r) pre) with
                          | Some bi => Evals (hd dst (skipn j (steps (pre ++ fst bi) (snd bi)))) | None => [] end).
      assert (P16 : forall a, 0 < 16 ^ Z.of_nat a) by (intros; lia).
      (* the evaluations depend on the prefix and the coset only *)
      assert (CO : forall betas i, length betas = Datatypes.S r -> in_tree B pre betas -> In i (A (pre ++ betas)) ->
        exists st rest, skipn j (steps (pre ++ betas) i) = st :: rest /\ Evals st = E0 (i / 16 ^ Z.of_nat (Datatypes.S j)) /\ length (Evals st) = 16%nat).
      { intros betas i Lb Tb Ri. set (t := i / 16 ^ Z.of_nat (Datatypes.S j)).
        assert (X : exists path0 i1, E0 t = Evals (hd dst (skipn j (steps (pre ++ path0) i1))) /\ length path0 = Datatypes.S r /\ in_tree B pre path0 /\ In i1 (A (pre ++ path0)) /\ i1 / 16 ^ Z.of_nat (Datatypes.S j) = t).
        { unfold E0. destruct (find _ _) as [[path0 i1]|] eqn:F.
          - apply find_some in F. destruct F as [F1 F2]. cbn [fst snd] in *. apply runs_in in F1. destruct F1 as (G1 & G2 & G3). exists path0, i1.
            apply Z.eqb_eq in F2. now repeat split.
          - exfalso. pose proof (find_none _ _ F (betas, i) (proj2 (runs_in B A _ pre betas i) (conj Lb (conj Tb Ri)))) as N. cbn beta in N. cbn [snd] in N.
            apply Z.eqb_neq in N. now apply N. }
        destruct X as (path0 & i1 & -> & L0 & T0 & R1 & E1).
        destruct (H betas Lb Tb i Ri) as [(Q & Gc & Gs & GS) C]. destruct (H path0 L0 T0 i1 R1) as [(Q' & Gc' & Gs' & GS') C']. fold j n in Q, Gc, Gs, GS, C, Q', Gc', Gs', GS', C'.
        destruct (skipn j (steps (pre ++ betas) i)) as [|st rest]; [destruct Q|]. destruct (skipn j (steps (pre ++ path0) i1)) as [|st' rest']; [destruct Q'|].
        exists st, rest. split; [reflexivity|]. cbn [hd].
        cbn [repeat steps_shape] in Q, Q'. destruct Q as (G1 & G2 & _). destruct Q' as (G1' & G2' & _).
        change (shl_int (Z.of_nat 4)) with 16 in G1, G1'. split; [|lia].
        apply flat_evals_inj.
        assert (Ei : i1 / 16 ^ Z.of_nat j / 16 = i / 16 ^ Z.of_nat j / 16) by (rewrite <- !div16_S; exact E1).
        assert (Ec : i1 / 2 ^ Z.of_nat (n0 - 4) = i / 2 ^ Z.of_nat (n0 - 4)).
        { replace (n0 - 4)%nat with (4 * Datatypes.S j + (n0 - 4 - 4 * Datatypes.S j))%nat by lia.
          rewrite Nat2Z.inj_add, Z.pow_add_r, <- pow16_Z by lia. rewrite <- !Z.div_div by (try apply P16; lia).
          now rewrite E1. }
        destruct betas as [|b betas]; [discriminate Lb|]. destruct path0 as [|b' path0]; [discriminate L0|]. cbn [caps_along chain_ok] in C, C'.
        destruct C as (_ & M & _). destruct C' as (_ & M' & _). rewrite Ec, Ei in M'.
        inversion Gc as [|? ? Gc1 _]; subst. inversion Gc' as [|? ? Gc1' _]; subst. inversion Gs as [|? ? Gs1 _]; subst. inversion Gs' as [|? ? Gs1' _]; subst.
        cbn [steps_inputs] in GS, GS'. rewrite Ei in GS'.
        apply (opening_unique S _ _ (i / 16 ^ Z.of_nat j / 16) (st_Siblings st) (st_Siblings st') NC).
        - intros a Ha. apply GS. apply in_or_app. now left.
        - intros a Ha. apply GS'. apply in_or_app. now left.
        - rewrite !flat_evals_length. lia.
        - lia.
        - now apply flat_evals_is64.
        - now apply flat_evals_is64.
        - exact Gs1.
        - exact Gs1'.
        - exact (eq_trans M (eq_sym M')). }
      (* what follows each folding challenge *)
      assert (NEXT : forall b, In b (B pre) -> exists bq : list K * list K, length (fst bq) = r /\ in_tree B (pre ++ [b]) (fst bq) /\ (length (snd bq) <= 16 ^ r * m)%nat /\
        forall i, In i (A (pre ++ b :: fst bq)) -> let t := i / 16 ^ Z.of_nat (Datatypes.S j) in coset_value s n t (map injK (E0 t)) b = kpeval (snd bq) (emb (dom (s ^ 16)%GF (n - 4) t))).
      { intros b Hb. assert (Lp : length (pre ++ [b]) = Datatypes.S j) by (rewrite app_length; cbn [length]; fold j; lia).
        destruct (IH (pre ++ [b]) (s ^ 16)%GF (fun t => coset_value s n t (map injK (E0 t)) b)) as (betas & P & Lb & Tb & LP & EP).
        - rewrite Lp. lia.
        - apply in_tree_prefix; [exact Hp|]. cbn [app in_tree]. tauto.
        - now apply gpow16_nz.
        - intros betas Lb Tb i Ri. cbv zeta. rewrite <- app_assoc in Ri |- *. cbn [app] in Ri |- *.
          assert (TT : in_tree B pre (b :: betas)) by (split; assumption).
          assert (LL : length (b :: betas) = Datatypes.S r) by (cbn [length]; lia).
          destruct (CO (b :: betas) i LL TT Ri) as (st & rest & Est & EE & LE). destruct (H (b :: betas) LL TT i Ri) as [(Q & Gc & Gs & GS) C].
          fold j n in Q, Gc, Gs, GS, C. rewrite Est in Q, Gc, Gs, GS, C. rewrite Lp.
          rewrite (proj2 (skipn_cons_nth _ _ _ _ Est)). rewrite div16_S. replace (n0 - 4 * Datatypes.S j)%nat with (n - 4)%nat by (unfold n; lia).
          cbn [repeat steps_shape] in Q. destruct Q as (G1 & G2 & G3). split.
          + split; [|split; [|split]].
            * replace (Z.of_nat (n - 4)) with (Z.of_nat n - Z.of_nat 4) by (unfold n; lia). exact G3.
            * now inversion Gc.
            * now inversion Gs.
            * intros a Ha. apply GS. cbn [steps_inputs]. apply in_or_app. now right.
          + cbn [caps_along chain_ok] in C. destruct C as (_ & _ & _ & _ & P & HP & C).
            set (t := i / 16 ^ Z.of_nat j / 16) in *. rewrite div16_S in EE. fold t in EE. rewrite <- EE.
            assert (HP' : interpolant s n (16 * t) (Evals st) P).
            { destruct HP as [LP HP]. split; [exact LP|]. intros q Hq. rewrite <- HP by exact Hq. do 3 f_equal.
              rewrite (Z.mul_comm 16 t), Z.div_mul by lia. unfold t. reflexivity. }
            rewrite <- (coset_value_interpolant s n t (Evals st) P b); [exact C|assumption|unfold n; lia|unfold n; lia|exact LE|exact HP'].
        - exists (betas, P). cbn [fst snd]. split; [exact Lb|]. split; [exact Tb|]. split; [exact LP|].
          intros i Ri. cbv zeta in EP. rewrite Lp in EP. specialize (EP i). rewrite <- app_assoc in EP. cbn [app] in EP. specialize (EP Ri).
          cbv zeta. replace (n - 4)%nat with (n0 - 4 * Datatypes.S j)%nat by (unfold n; lia). exact EP. }
      destruct (finite_choice (@nil K, @nil K) _ (B pre) NEXT) as (bq & Hbq).
      assert (FULL : forall b, In b (B pre) -> length (pre ++ b :: fst (bq b)) = k /\ in_tree B [] (pre ++ b :: fst (bq b))).
      { intros b Hb. destruct (Hbq b Hb) as (L1 & T1 & _). split; [rewrite app_length; cbn [length]; fold j; lia|].
        apply in_tree_prefix; [exact Hp|]. cbn [app in_tree]. now split. }
      assert (C0 : (16 ^ Datatypes.S j <> 0)%nat) by (apply Nat.pow_nonzero; lia).
      assert (CN : (16 ^ Datatypes.S j * 2 ^ (n0 - 4 * Datatypes.S j) = 2 ^ n0)%nat).
      { rewrite (pow16 (Datatypes.S j)), <- Nat.pow_add_r. f_equal. lia. }
      destruct (fold_prox s n (fun t => map injK (E0 t)) (B pre) (fun b => snd (bq b)) (fun b => image n0 (Datatypes.S j) (A (pre ++ b :: fst (bq b)))) (16 ^ r * m) (e / 16 ^ Datatypes.S j))
        as (b & P & Hb & LP & EP); try assumption; try (unfold n; lia).
      + replace (n - 4)%nat with (n0 - 4 * Datatypes.S j)%nat by (unfold n; lia). exact LB.
      + intros b Hb. destruct (FULL b Hb) as [F1 F2]. destruct (HA _ F1 F2) as [A1 A2]. destruct (Hbq b Hb) as (_ & _ & L2 & E2).
        replace (n - 4)%nat with (n0 - 4 * Datatypes.S j)%nat by (unfold n; lia).
        split; [exact L2|]. split; [apply image_positions|]. split.
        * pose proof (image_length n0 (Datatypes.S j) (A (pre ++ b :: fst (bq b))) ltac:(lia) A1) as IL.
          set (I := length (image n0 (Datatypes.S j) (A (pre ++ b :: fst (bq b))))) in *. set (N' := (2 ^ (n0 - 4 * Datatypes.S j))%nat) in *. set (c := (16 ^ Datatypes.S j)%nat) in *.
          assert (X : (N' - I <= e / c)%nat); [|lia]. apply Nat.div_le_lower_bound; [exact C0|]. rewrite Nat.mul_sub_distr_l. lia.
        * intros t Ht. apply image_in in Ht; [|lia|exact A1]. destruct Ht as (i & Hi & <-). replace (n0 - 4 * Datatypes.S j)%nat with (n - 4)%nat by (unfold n; lia). now apply E2.
      + replace (n - 4)%nat with (n0 - 4 * Datatypes.S j)%nat by (unfold n; lia).
        apply (Nat.mul_le_mono_pos_l _ _ (16 ^ Datatypes.S j)); [lia|]. rewrite CN, Nat.mul_add_distr_l, (Nat.mul_assoc _ (16 ^ r) m), <- (Nat.pow_add_r 16). replace (Datatypes.S j + r)%nat with k by lia.
        pose proof (Nat.mul_div_le e (16 ^ Datatypes.S j) C0) as D. set (c := (16 ^ Datatypes.S j)%nat) in *. set (d := (e / c)%nat) in *. assert (c * (2 * d) = 2 * (c * d))%nat by ring. lia.
      + destruct (Hbq b Hb) as (L1 & T1 & _). exists (b :: fst (bq b)), P. split; [cbn [length]; lia|]. split; [split; assumption|].
        split; [cbn [Nat.pow]; lia|]. intros i Ri. cbv zeta. destruct (FULL b Hb) as [F1 F2]. destruct (HA _ F1 F2) as [A1 A2].
        rewrite <- EP by (rewrite <- div16_S; apply image_in; [lia|exact A1|now exists i]).
        assert (LL : length (b :: fst (bq b)) = Datatypes.S r) by (cbn [length]; lia). assert (TT : in_tree B pre (b :: fst (bq b))) by (split; assumption).
        destruct (CO _ i LL TT Ri) as (st & rest & Est & EE & LE). destruct (H _ LL TT i Ri) as [_ C]. fold j n in C. rewrite Est in C.
        cbn [caps_along chain_ok] in C. destruct C as (_ & _ & C & _). rewrite div16_S in EE. rewrite <- EE.
        pose proof (Z.mod_pos_bound (i / 16 ^ Z.of_nat j) 16 ltac:(lia)) as M. rewrite (nth_map_lt _ _ _ _ no_qe) by lia. symmetry. exact C.
  Qed.
End Tree.

(** ** Extraction
    accepted by VerifyFriProof, with these commitments and final polynomial, [round] being the
    answer to a query at i, in any of the query rounds *)
Definition answered (params : FriParams) (oracles : list OracleInfo) (points : list (K * list (nat * nat))) (openings : list (list K))
    (initialCaps : list FriMerkleCap) (alpha : K) (betas : list K) (caps : list FriMerkleCap) (final : list QE) (i : Z) (round : FriQueryRound) : Prop :=
  exists t, CommitPhaseMerkleCaps (t_proof t) = caps /\ FinalPoly (t_proof t) = final /\
  (exists x, In (x, round) (combine (t_indices t) (QueryRoundProofs (t_proof t))) /\ rep x mod 2 ^ Z.of_nat (LdeBits params) = i) /\
  canon_fri (t_proof t) /\ siblings_ok round /\
  sat (VerifyFriProof params
      (mkInstanceInfo oracles (map (fun b => mkBatchInfo (repK (fst b)) (snd b)) points)) (map (map repK) openings)
      (mkFriChallenges (repK alpha) (map repK betas) (rep (t_pow t)) (map rep (t_indices t))) initialCaps (t_proof t)).
Lemma answered_round params oracles points openings initialCaps alpha betas caps final i round :
  oracles <> [] -> length points = length openings ->
  answered params oracles points openings initialCaps alpha betas caps final i round ->
  let n := LdeBits params in let k := length (ReductionArityBits params) in
  canon_round round /\ siblings_ok round /\ round_shape params oracles round /\ length final = (2 ^ (fp_DegreeBits params - 4 * k))%nat /\
  (n <= TWO_ADICITY)%nat /\ CapHeight (fp_Config params) = 4%nat /\ ReductionArityBits params = repeat 4%nat k /\ (4 * k <= fp_DegreeBits params)%nat /\
  initial_ok i (i / 2 ^ Z.of_nat (n - 4)) (InitialTreesProof round) initialCaps /\
  combine_cond (InitialTreesProof round) (emb (dom g7 n i)) (fri_batches alpha points openings) /\
  chain_ok (map injK final) (i / 2 ^ Z.of_nat (n - 4)) (Steps round) betas caps g7 n i
    (combined (InitialTreesProof round) alpha (emb (dom g7 n i)) (fri_batches alpha points openings)).
Proof.
  intros Hor Lp (t & Ec & Ef & (x & Hx & Ei) & Hc & Hs & SAT). cbv zeta.
  apply (enforces_sat _ _ _ (verify_fri_correct params oracles points openings alpha betas (t_pow t) (t_indices t) initialCaps (t_proof t) Hc Hor Lp)) in SAT.
  destruct SAT as ((_ & Sh & Ta & Lf) & _ & _ & L1 & L2 & Q). destruct Hc as [Hc _].
  pose proof (in_combine_r _ _ _ _ Hx) as Hr. rewrite Forall_forall in Hc, Sh, Q.
  specialize (Hc _ Hr). specialize (Sh _ Hr). specialize (Q _ Hx). cbn [fst snd] in Q.
  destruct Q as (_ & Hn & Hh & Har & Q1 & Q2 & Q3). subst caps final i.
  pose proof (all_4 _ Har) as Er.
  assert (ET : TotalArities params = (4 * length (ReductionArityBits params))%nat) by (unfold TotalArities; rewrite Er at 1; apply list_sum_repeat).
  rewrite ET in Ta, Lf. unfold TWO_ADICITY in *.
  repeat (split; [assumption|]). split.
  { rewrite shl_small in Lf by (unfold LdeBits in Hn; lia). rewrite <- pow2_nat_Z in Lf. lia. }
  tauto.
Qed.

Lemma tree_path B k : (forall pre, (length pre < k)%nat -> in_tree B [] pre -> B pre <> []) ->
  forall r pre, (length pre + r = k)%nat -> in_tree B [] pre -> exists betas, length betas = r /\ in_tree B pre betas.
Proof.
  intros HB. induction r as [|r IH]; intros pre Lr Hp; [now exists []|].
  pose proof (HB pre ltac:(lia) Hp) as N. destruct (B pre) as [|b l] eqn:E; [contradiction|].
  assert (Hb : In b (B pre)) by (rewrite E; now left).
  destruct (IH (pre ++ [b])) as (betas & L & T); [rewrite app_length; cbn [length]; lia| |].
  - apply in_tree_prefix; [exact Hp|]. cbn [app in_tree]. now split.
  - exists (b :: betas). cbn [length in_tree]. split; [lia|now split].
Qed.

(** the prover is accepted, in every run of the trees, at all positions but e *)
Theorem fri_prox params oracles points openings initialCaps
    (alphas : list K) (B : K -> list K -> list K) (cap : K -> list K -> FriMerkleCap) (final : K -> list K -> list QE)
    (A : K -> list K -> list Z) (round : K -> list K -> Z -> FriQueryRound) (e : nat) :
  let n := LdeBits params in let k := length (ReductionArityBits params) in let T := length (flat_map snd points) in
  oracles <> [] -> Forall2 (fun b os => length os = length (snd b)) points openings ->
  NoDup alphas -> ((T - 1) * (2 ^ n * 2 ^ n) < length alphas)%nat ->
  (forall alpha pre, In alpha alphas -> (length pre < k)%nat -> in_tree (B alpha) [] pre ->
     NoDup (B alpha pre) /\ (15 * (2 ^ (n - 4 * Datatypes.S (length pre)) * 2 ^ (n - 4 * Datatypes.S (length pre))) < length (B alpha pre))%nat) ->
  (forall alpha betas, In alpha alphas -> length betas = k -> in_tree (B alpha) [] betas -> positions_of n (A alpha betas) /\ (2 ^ n <= length (A alpha betas) + e)%nat) ->
  (2 * e + 2 ^ fp_DegreeBits params < 2 ^ n)%nat ->
  (forall alpha betas i, In alpha alphas -> length betas = k -> in_tree (B alpha) [] betas -> In i (A alpha betas) ->
     answered params oracles points openings initialCaps alpha betas (caps_along (cap alpha) [] betas) (final alpha betas) i (round alpha betas i)) ->
  no_collision (fun a => exists alpha betas i, In alpha alphas /\ length betas = k /\ in_tree (B alpha) [] betas /\ In i (A alpha betas) /\
     In a (round_inputs (round alpha betas i) i)) ->
  exists alpha betas, In alpha alphas /\ length betas = k /\ in_tree (B alpha) [] betas /\
  exists F : nat * nat -> list GF, forall z polys os op o, In ((z, polys), os) (combine points openings) -> In (op, o) (combine polys os) ->
    (length (F op) <= 2 ^ fp_DegreeBits params + 1)%nat /\
    kpeval (map emb (F op)) z = o /\
    forall i, In i (A alpha betas) -> nth (snd op) (Elements (nth (fst op) (InitialTreesProof (round alpha betas i)) no_eval)) 0 = rep (gpeval (F op) (dom g7 n i)).
Proof.
  intros n k T Hor F2 NDa La HB HPA He HA NC.
  set (S := fun a => exists alpha betas i, _) in NC.
  assert (Lp : length points = length openings) by (clear - F2; induction F2; cbn [length]; congruence).
  assert (P2 : (1 <= 2 ^ n)%nat) by (pose proof (Nat.pow_nonzero 2 n); lia).
  assert (NE : forall alpha betas, In alpha alphas -> length betas = k -> in_tree (B alpha) [] betas -> exists i, In i (A alpha betas)).
  { intros alpha betas Ia Lb Tb. destruct (HPA alpha betas Ia Lb Tb) as [_ LA]. destruct (A alpha betas) as [|i l]; [cbn [length] in LA; lia|]. exists i. now left. }
  assert (PATH : forall alpha, In alpha alphas -> exists betas, length betas = k /\ in_tree (B alpha) [] betas).
  { intros alpha Ia. apply (tree_path (B alpha) k); [|reflexivity|exact I]. intros pre Lpre Tpre E. destruct (HB alpha pre Ia Lpre Tpre) as [_ L]. rewrite E in L. cbn [length] in L. lia. }
  assert (A0 : exists alpha0, In alpha0 alphas) by (clear - La; destruct alphas as [|a l]; [cbn [length] in La; lia|exists a; now left]).
  destruct A0 as (alpha0 & Ha0). destruct (PATH alpha0 Ha0) as (betas0 & Lb0 & Tb0). destruct (NE alpha0 betas0 Ha0 Lb0 Tb0) as (i0 & R0).
  destruct (answered_round _ _ _ _ _ _ _ _ _ _ _ Hor Lp (HA alpha0 betas0 i0 Ha0 Lb0 Tb0 R0)) as (_ & _ & Sh0 & _ & Hn & Hh & Har & Hkd & _).
  fold n in Hn. fold k in Har, Hkd.
  assert (Hroom : (4 * k + 4 <= n)%nat).
  { destruct Sh0 as (E1 & E2 & E3). rewrite Hh, Har in E3. fold n in E3.
    destruct k as [|k'] eqn:Ek.
    - destruct oracles as [|or oracles']; [contradiction|]. destruct (InitialTreesProof _) as [|ep l]; [discriminate E1|].
      cbn [combine] in E2. inversion E2 as [|? ? [_ E4] _]; subst. fold n in E4. rewrite Hh in E4. lia.
    - apply steps_shape_room in E3; lia. }
  (* the leaves do not depend on the challenges *)
  set (all := flat_map (fun alpha => map (pair alpha) (runs (B alpha) (A alpha) k [])) alphas).
  assert (IN : forall alpha betas i, In (alpha, (betas, i)) all <-> In alpha alphas /\ length betas = k /\ in_tree (B alpha) [] betas /\ In i (A alpha betas)).
  { intros alpha betas i. unfold all. rewrite in_flat_map. split.
    - intros (a & Ia & H). apply in_map_iff in H. destruct H as ([b i'] & E & H). injection E as <- <- <-. apply runs_in in H. tauto.
    - intros (Ia & H). exists alpha. split; [exact Ia|]. apply in_map_iff. exists (betas, i). split; [reflexivity|]. now apply runs_in. }
  set (lv := fun i => match find (fun abi : K * (list K * Z) => snd (snd abi) =? i) all with
                      | Some abi => InitialTreesProof (round (fst abi) (fst (snd abi)) i) | None => [] end).
  assert (CO : forall alpha betas i, In alpha alphas -> length betas = k -> in_tree (B alpha) [] betas -> In i (A alpha betas) ->
    map Elements (InitialTreesProof (round alpha betas i)) = map Elements (lv i)).
  { intros alpha betas i Ia Lb Tb Ri. unfold lv.
    destruct (find _ all) as [[alpha1 [betas1 i1]]|] eqn:Fi.
    2:{ exfalso. pose proof (find_none _ _ Fi (alpha, (betas, i)) (proj2 (IN alpha betas i) (conj Ia (conj Lb (conj Tb Ri))))) as N. cbn [snd] in N. apply Z.eqb_neq in N. now apply N. }
    apply find_some in Fi. destruct Fi as [F1 E1]. cbn [fst snd] in E1. apply Z.eqb_eq in E1. subst i1. apply IN in F1. destruct F1 as (Ia1 & Lb1 & Tb1 & Ri1). cbn [fst snd].
    destruct (answered_round _ _ _ _ _ _ _ _ _ _ _ Hor Lp (HA alpha betas i Ia Lb Tb Ri)) as ((C1 & _) & (I1 & _) & Sh1 & _ & _ & _ & _ & _ & O1 & _).
    destruct (answered_round _ _ _ _ _ _ _ _ _ _ _ Hor Lp (HA alpha1 betas1 i Ia1 Lb1 Tb1 Ri1)) as ((C2 & _) & (I2 & _) & Sh2 & _ & _ & _ & _ & _ & O2 & _).
    apply (initial_unique S i _ initialCaps NC _ _ O1 O2); try assumption.
    - intros a Ha. exists alpha, betas, i. repeat (split; [assumption|]). apply in_or_app. now left.
    - intros a Ha. exists alpha1, betas1, i. repeat (split; [assumption|]). apply in_or_app. now left.
    - eapply shapes_agree; eassumption. }
  set (u := fun i => map (quotient (lv i) (emb (dom g7 n i))) (targets points openings)).
  assert (Q : forall p1 p2 x t, map Elements p1 = map Elements p2 -> quotient p1 x t = quotient p2 x t).
  { intros p1 p2 x [[z op] o] E. unfold quotient. now rewrite (leaf_value_elements _ _ op E). }
  (* every combination is close to a low degree word *)
  assert (LOW : forall alpha, In alpha alphas -> exists bP : list K * list K, length (fst bP) = k /\ in_tree (B alpha) [] (fst bP) /\ (length (snd bP) <= 2 ^ fp_DegreeBits params)%nat /\
     forall i, In i (A alpha (fst bP)) -> kpeval (u i) alpha = kpeval (snd bP) (emb (dom g7 n i))).
  { intros alpha Ia.
    destruct (tree_prox n k (B alpha) (cap alpha) (final alpha) (fun betas i => Steps (round alpha betas i)) S NC (A alpha) (2 ^ (fp_DegreeBits params - 4 * k)) e)
      with (r := k) (pre := @nil K) (s := g7) (old := fun i => kpeval (u i) alpha) as (betas & P & Lb & Tb & LP & EP); try assumption.
    - intros pre Lpre Tpre. now apply HB.
    - intros betas Lb Tb. now apply HPA.
    - intros betas Lb Tb. destruct (NE alpha betas Ia Lb Tb) as (i & Ri). destruct (answered_round _ _ _ _ _ _ _ _ _ _ _ Hor Lp (HA alpha betas i Ia Lb Tb Ri)) as (_ & _ & _ & Lf & _). fold k in Lf. lia.
    - rewrite pow16, <- Nat.pow_add_r. replace (4 * k + (fp_DegreeBits params - 4 * k))%nat with (fp_DegreeBits params) by lia. lia.
    - reflexivity.
    - exact I.
    - exact g7_nz.
    - intros betas Lb Tb i Ri. cbv zeta. cbn [length app skipn] in Ri |- *. change (16 ^ Z.of_nat 0) with 1. rewrite Z.div_1_r. replace (n - 4 * 0)%nat with n by lia.
      destruct (answered_round _ _ _ _ _ _ _ _ _ _ _ Hor Lp (HA alpha betas i Ia Lb Tb Ri)) as ((_ & C1) & (_ & I1) & (_ & _ & Sh1) & _ & _ & _ & _ & _ & _ & _ & CH).
      fold n in CH, Sh1. rewrite Hh, Har in Sh1. split.
      + split; [exact Sh1|]. split; [exact C1|]. split; [exact I1|]. intros a Ha. exists alpha, betas, i. repeat (split; [assumption|]). apply in_or_app. now right.
      + rewrite combined_targets in CH by exact F2. unfold u. rewrite (map_ext (quotient (lv i) (emb (dom g7 n i))) (quotient (InitialTreesProof (round alpha betas i)) (emb (dom g7 n i)))); [exact CH|].
        intros t. apply Q. symmetry. now apply CO.
    - exists (betas, P). cbn [fst snd]. split; [exact Lb|]. split; [exact Tb|]. split.
      + rewrite pow16, <- Nat.pow_add_r in LP. replace (4 * k + (fp_DegreeBits params - 4 * k))%nat with (fp_DegreeBits params) in LP by lia. exact LP.
      + intros i Ri. specialize (EP i Ri). cbv zeta in EP. cbn [length] in EP. change (16 ^ Z.of_nat 0) with 1 in EP. rewrite Z.div_1_r in EP. replace (n - 4 * 0)%nat with n in EP by lia. exact EP. }
  destruct (finite_choice (@nil K, @nil K) _ alphas LOW) as (bP & HbP).
  assert (LT : length (targets points openings) = T) by (rewrite targets_length by exact F2; reflexivity).
  destruct (batch_prox g7 n u T alphas (fun a => snd (bP a)) (fun a => A a (fst (bP a))) (2 ^ fp_DegreeBits params) e) as (alpha & Ia & BS); try assumption; [exact g7_nz|intros i; unfold u; now rewrite map_length| |lia|].
  { intros a Ha. destruct (HbP a Ha) as (L1 & T1 & L2 & E2). destruct (HPA a _ Ha L1 T1) as [A1 A2]. split; [exact L2|]. split; [exact A1|]. split; [exact A2|exact E2]. }
  destruct (HbP alpha Ia) as (Lb & Tb & _ & _). set (betas := fst (bP alpha)) in *. destruct (HPA alpha betas Ia Lb Tb) as [HG LG]. set (G := A alpha betas) in *.
  exists alpha, betas. split; [exact Ia|]. split; [exact Lb|]. split; [exact Tb|].
  assert (LG' : (2 ^ fp_DegreeBits params < length G)%nat) by nia.
  (* one polynomial per target *)
  assert (TG : forall z op o, In (z, op, o) (targets points openings) -> exists F : list GF, (length F <= 2 ^ fp_DegreeBits params + 1)%nat /\
     kpeval (map emb F) z = o /\ forall i, In i G -> leaf_value (lv i) op = emb (gpeval F (dom g7 n i))).
  { intros z op o Ht. apply (In_nth _ _ (z, op, o)) in Ht. destruct Ht as (j & Hj & Ej).
    destruct (BS j) as (U & LU & EU).
    assert (D : kdeg (Datatypes.S (2 ^ fp_DegreeBits params)) (fun x => (o + (x - z) * kpeval U x)%K)).
    { apply kdeg_add; [apply kdeg_const|]. apply kdeg_linear. exists U. split; [exact LU|reflexivity]. }
    destruct D as (V & LV & EV). assert (EV' : forall x, kpeval V x = (o + (x - z) * kpeval U x)%K) by (intros x; symmetry; exact (EV x)). clear EV.
    assert (V_at : forall i, In i G -> kpeval V (emb (dom g7 n i)) = leaf_value (lv i) op).
    { intros i Ri. rewrite EV'. rewrite <- (EU i Ri). unfold u. rewrite (nth_map_lt _ _ _ _ (z, op, o)) by exact Hj. rewrite Ej. unfold quotient.
      destruct (answered_round _ _ _ _ _ _ _ _ _ _ _ Hor Lp (HA alpha betas i Ia Lb Tb Ri)) as (_ & _ & _ & _ & _ & _ & _ & _ & _ & CC & _).
      assert (Nz : (emb (dom g7 n i) - z <> 0)%K).
      { assert (Ht : In (z, op, o) (targets points openings)) by (rewrite <- Ej; now apply nth_In).
        apply in_targets in Ht. destruct Ht as (polys & os & H1 & _). unfold combine_cond, fri_batches in CC. rewrite Forall_forall in CC. fold n in CC.
        intros E. apply (proj1 (ksub_eq0 _ _)) in E. exact (proj2 (CC _ (in_combine_sum _ _ (z, polys) os alpha H1)) E). }
      unfold kdiv. pose proof (kinv_l _ Nz) as I1.
      transitivity (o + (kinv (emb (dom g7 n i) - z) * (emb (dom g7 n i) - z)) * (leaf_value (lv i) op - o))%K; [ring|]. rewrite I1. ring. }
    assert (BF : forall x, kpeval (map emb (map fst V)) x = kpeval V x).
    { apply (base_field n G V (fun i => inj (nth (snd op) (Elements (nth (fst op) (lv i) no_eval)) 0)) Hn HG); [lia|exact V_at]. }
    exists (map fst V). split; [rewrite map_length, Nat.add_1_r; exact LV|]. split.
    - rewrite BF, EV'. ring.
    - intros i Ri. rewrite <- kpeval_emb, BF. symmetry. now apply V_at. }
  (* the polynomials of the targets of one committed word are the same *)
  destruct (choice_ops (@nil GF) (fun op F => (length F <= 2 ^ fp_DegreeBits params + 1)%nat /\
     (forall z o, In (z, op, o) (targets points openings) -> kpeval (map emb F) z = o) /\
     forall i, In i G -> leaf_value (lv i) op = emb (gpeval F (dom g7 n i))) (map (fun t : target => snd (fst t)) (targets points openings))) as (F & HF).
  { intros op Hop. apply in_map_iff in Hop. destruct Hop as ([[z op'] o] & E & Ht). cbn [fst snd] in E. subst op'.
    destruct (TG z op o Ht) as (F & LF & _ & EF). exists F. split; [exact LF|]. split; [|exact EF].
    intros z' o' Ht'. destruct (TG z' op o' Ht') as (F' & LF' & EZ' & EF'). rewrite <- EZ'.
    apply (kpeval_same n G); [exact Hn|exact HG|rewrite map_length; lia|rewrite map_length; lia|].
    intros i Ri. rewrite !kpeval_emb, <- EF, <- EF' by exact Ri. reflexivity. }
  exists F. intros z polys os op o H1 H2.
  assert (Ht : In (z, op, o) (targets points openings)) by (apply in_targets; exists polys, os; now split).
  destruct (HF op) as (LF & EZ & EF); [apply in_map_iff; exists (z, op, o); now split|].
  split; [exact LF|]. split; [now apply EZ|].
  intros i Ri.
  destruct (answered_round _ _ _ _ _ _ _ _ _ _ _ Hor Lp (HA alpha betas i Ia Lb Tb Ri)) as ((C1 & _) & _ & _ & _ & _ & _ & _ & _ & _ & CC & _).
  pose proof (EF i Ri) as E. rewrite <- (leaf_value_elements _ _ op (CO alpha betas i Ia Lb Tb Ri)) in E. unfold leaf_value in E. apply emb_inj in E.
  rewrite <- E. symmetry. apply rep_inj_small.
  assert (PI : (fst op < length (InitialTreesProof (round alpha betas i)) /\
     snd op < length (Elements (nth (fst op) (InitialTreesProof (round alpha betas i)) no_eval)))%nat).
  { unfold combine_cond, fri_batches in CC. rewrite Forall_forall in CC.
    destruct (CC _ (in_combine_sum _ _ (z, polys) os alpha H1)) as [P _]. cbn [fst snd] in P. unfold polys_in in P. rewrite Forall_forall in P. apply P. now apply in_combine_l in H2. }
  unfold canon_leaves in C1. rewrite Forall_forall in C1. specialize (C1 _ (nth_In _ no_eval (proj1 PI))). rewrite Forall_forall in C1. apply C1. now apply nth_In.
Qed.
