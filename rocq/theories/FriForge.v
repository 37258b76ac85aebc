(** * The FRI prover that lies: what passes when the queries stay within a set of positions.

    Like Honest this is the prover's side, of which /repo contains nothing, in the data types of
    variables/fri.go:8-80.  The prover commits to leaves that need not be values of polynomials. *)
From Coq Require Import String.
From Coq Require Import ZArith NArith Lia List Bool.
From Verif Require Import Zp GF Circuit Goldilocks GLProofs ExtProofs BN254 BN254Hash Types Challenger Fri Poly Roots FriMerkle FriEval FriQuery FriTop FriFacts Honest.
Import ListNotations.
Open Scope Z_scope.
Local Opaque PoseidonBN HashOrNoop TwoToOne.

(** ** A polynomial through given points *)
Lemma kprodsub_nz x l : ~ In x l -> prodsub k1 kmul ksub x l <> k0.
Proof.
  induction l as [|a l IH]; intros H; cbn [prodsub]; [exact k1_neq_k0|]. intros E. apply kmul_eq0 in E. destruct E as [E|E].
  - apply H. left. symmetry. now apply ksub_eq0.
  - apply IH in E; [exact E|]. intros I. apply H. now right.
Qed.
Lemma through_points (l : list (K * K)) : NoDup (map fst l) ->
  exists c : list K, (length c <= length l)%nat /\ forall x y, In (x, y) l -> kpeval c x = y.
Proof.
  induction l as [|[x0 y0] l IH]; intros H; [exists []; split; [reflexivity|intros x y []]|].
  cbn [map fst] in H. inversion H as [|? ? Hn Hd]; subst. destruct (IH Hd) as (c & Lc & Ec).
  destruct (prodsub_deg k0 k1 kadd kmul ksub kopp K_ring (map fst l)) as (d & Ld & Ed). rewrite map_length in Ld.
  pose proof (kprodsub_nz x0 (map fst l) Hn) as Hz.
  exists (paddl kadd c (pscale kmul ((y0 - kpeval c x0) / prodsub k1 kmul ksub x0 (map fst l))%K d)). split.
  - cbn [length]. apply paddl_len; [lia|]. unfold pscale. now rewrite map_length.
  - intros x y I. rewrite kpaddl, kpscale. unfold kpeval at 3. rewrite <- Ed. destruct I as [I|I].
    + injection I as <- <-. field. exact Hz.
    + rewrite (prodsub_zero k0 k1 kadd kmul ksub kopp K_ring (map fst l) x (in_map fst l (x, y) I)). rewrite (Ec x y I). ring.
Qed.

(** ** The proof *)
Section Forge.
  (** the leaf at a position of the tree of oracle number o *)
  Context (leaves : nat -> Z -> list Z).
  Definition forged_digest (o : nat) (i : Z) : Z := HashOrNoop (leaves o i).
  Definition forged_caps (m n : nat) : list FriMerkleCap := map (fun o => cap_of (forged_digest o) (n - 4)) (seq 0 m).
  Definition forged_trees (m n : nat) (i : Z) : list FriEvalProof :=
    map (fun o => mkFriEvalProof (leaves o i) (path (forged_digest o) (n - 4) i)) (seq 0 m).
  (** c is the polynomial whose codeword is folded *)
  Definition forged_fri (m : nat) (params : FriParams) (c betas : list K) (indices : list GF) (witness : Z) : FriProof :=
    let n := LdeBits params in
    mkFriProof (commit_caps g7 n c betas)
      (map (fun x => let i := rep x mod 2 ^ Z.of_nat n in mkFriQueryRound (forged_trees m n i) (commit_steps g7 n c betas i)) indices)
      (map repK (commit_final c betas)) witness.
  (** leaves of field elements, in the numbers required of the oracles *)
  Definition leaves_ok (params : FriParams) (oracles : list OracleInfo) : Prop :=
    forall o i, (o < length oracles)%nat ->
      let orc := nth o oracles (mkOracleInfo 0 false) in
      length (leaves o i) = (NumPolys orc + (if Blinding orc && Hiding params then 4 else 0))%nat /\ Forall canonZ (leaves o i).
  (** the polynomials that are opened exist *)
  Definition polys_exist (oracles : list OracleInfo) (polys : list (nat * nat)) : Prop :=
    Forall (fun op => fst op < length oracles /\ snd op < NumPolys (nth (fst op) oracles (mkOracleInfo 0 false)))%nat polys.

  Lemma forged_nth m n i o : (o < m)%nat -> nth o (forged_trees m n i) no_eval = mkFriEvalProof (leaves o i) (path (forged_digest o) (n - 4) i).
  Proof. intros H. unfold forged_trees. rewrite (nth_map_lt _ _ _ _ 0%nat) by now rewrite seq_length. now rewrite seq_nth. Qed.
  Lemma forged_initial m n i : (4 <= n)%nat -> 0 <= i < 2 ^ Z.of_nat n ->
    initial_ok i (i / 2 ^ Z.of_nat (n - 4)) (forged_trees m n i) (forged_caps m n).
  Proof.
    intros H4 Hi. unfold initial_ok, forged_trees, forged_caps. rewrite !map_length. split; [reflexivity|].
    assert (Hr : 0 <= i / 2 ^ Z.of_nat (n - 4) < 16).
    { split; [apply Z.div_pos; lia|]. apply Z.div_lt_upper_bound; [lia|].
      change 16 with (2 ^ Z.of_nat 4). rewrite <- Z.pow_add_r, <- Nat2Z.inj_add by lia. replace (n - 4 + 4)%nat with n by lia. lia. }
    apply Forall_forall. intros pc Hpc. apply in_combine_maps in Hpc. destruct Hpc as (o & _ & ->).
    cbn [fst snd Elements ep_Siblings]. split; [apply cap_length|]. rewrite cap_nth by assumption.
    apply (path_root (n - 4) (forged_digest o)).
  Qed.

  (** c need only agree with the quotient at the positions that are queried *)
  Theorem forged_ok params oracles points openings alpha betas pow indices witness c :
    honest_params params (length betas) -> leaves_ok params oracles -> polys_exist oracles (flat_map snd points) ->
    length c = (2 ^ fp_DegreeBits params)%nat -> betas_off g7 (LdeBits params) betas ->
    (forall x, In x indices -> let i := rep x mod 2 ^ Z.of_nat (LdeBits params) in
       kpeval c (emb (dom g7 (LdeBits params) i)) =
       combined (forged_trees (length oracles) (LdeBits params) i) alpha (emb (dom g7 (LdeBits params) i)) (fri_batches alpha points openings)) ->
    (forall x z polys, In x indices -> In (z, polys) points -> emb (dom g7 (LdeBits params) (rep x mod 2 ^ Z.of_nat (LdeBits params))) <> z) ->
    length indices = NumQueryRounds (fp_Config params) ->
    rep pow < 2 ^ (64 - Z.of_nat (ProofOfWorkBits (fp_Config params))) ->
    let proof := forged_fri (length oracles) params c betas indices witness in
    canon_fri proof /\
    fri_ok params oracles points openings alpha betas pow indices (forged_caps (length oracles) (LdeBits params)) proof.
  Proof.
    intros (Hr & Hc & Hw & Ha & Hk & Hn) HT Hp Lc Hb HQ Hz Hi Hpow. cbv zeta.
    set (n := LdeBits params) in *. set (d := fp_DegreeBits params) in *. unfold forged_fri. fold n.
    assert (T : TotalArities params = (4 * length betas)%nat) by (unfold TotalArities; now rewrite Ha, list_sum_repeat).
    assert (Lf : length (commit_final c betas) = (2 ^ (d - 4 * length betas))%nat).
    { rewrite final_length, Lc, pow16. rewrite Nat.pow_sub_r by lia. reflexivity. }
    split; [|split; [|split; [exact Hw|split; [exact Hpow|split; [cbn [QueryRoundProofs]; now rewrite map_length|split; [exact Hi|]]]]]].
    - split.
      + cbn [QueryRoundProofs]. apply Forall_forall. intros rd Hrd. apply in_map_iff in Hrd. destruct Hrd as (x & <- & _).
        split; [|apply honest_steps_canon]. cbn [InitialTreesProof]. unfold canon_leaves, forged_trees.
        apply Forall_forall. intros e He. apply in_map_iff in He. destruct He as (o & <- & Ho). apply in_seq in Ho.
        cbn [Elements]. apply HT. lia.
      + cbn [FinalPoly]. apply Forall_forall. intros q Hq. apply in_map_iff in Hq. destruct Hq as (a & <- & _). apply canonQE_repK.
    - unfold fri_shape. cbn [CommitPhaseMerkleCaps QueryRoundProofs FinalPoly]. rewrite Hc, T. split; [|split; [|split; [exact Hk|]]].
      + eapply Forall_impl; [|apply caps_shape]. cbn beta. intros cap ->. reflexivity.
      + apply Forall_forall. intros rd Hrd. apply in_map_iff in Hrd. destruct Hrd as (x & <- & _).
        set (i := rep x mod 2 ^ Z.of_nat n). cbv zeta. unfold round_shape. cbn [InitialTreesProof Steps].
        unfold forged_trees. rewrite map_length, seq_length. split; [reflexivity|]. split.
        * apply Forall_forall. intros eo Heo. apply (in_combine_seq _ (mkOracleInfo 0 false)) in Heo.
          destruct Heo as (o & Ho & ->). cbn [fst snd Nat.add Elements ep_Siblings]. destruct (HT o i Ho) as [HN _].
          rewrite path_length, Hc. split; [exact HN|]. fold n. lia.
        * rewrite Hc, Ha. apply honest_steps_shape. fold n. lia.
      + rewrite map_length, Lf. fold d. rewrite shl_small, pow2_nat_Z; [reflexivity|]. unfold n, LdeBits in Hn. fold d in Hn. lia.
    - cbn [QueryRoundProofs]. apply Forall_forall. intros xr Hxr. apply in_combine_map_r in Hxr. destruct Hxr as (x & Hx & ->).
      cbn [fst snd]. unfold query_ok. fold n. set (i := rep x mod 2 ^ Z.of_nat n).
      cbn [InitialTreesProof Steps FinalPoly CommitPhaseMerkleCaps].
      assert (Ri : 0 <= i < 2 ^ Z.of_nat n) by (apply Z.mod_pos_bound; lia).
      split; [exact Hr|]. split; [unfold TWO_ADICITY; lia|]. split; [exact Hc|]. split; [rewrite Ha; apply Forall_forall; intros a; apply repeat_spec|].
      split; [apply forged_initial; [lia|exact Ri]|]. split.
      + unfold combine_cond, fri_batches. apply Forall_forall. intros b Hb'. destruct b as [[z polys] o]. apply in_combine_l in Hb'.
        cbn [fst snd]. split; [|now apply (Hz x z polys)]. apply Forall_forall. intros op Hop.
        assert (P : In op (flat_map snd points)). { apply in_flat_map. exists (z, polys). split; [exact Hb'|exact Hop]. }
        unfold polys_exist in Hp. rewrite Forall_forall in Hp. destruct (Hp op P) as [P1 P2].
        unfold forged_trees at 1. rewrite map_length, seq_length. split; [exact P1|].
        rewrite forged_nth by exact P1. cbn [Elements]. rewrite (proj1 (HT (fst op) i P1)). lia.
      + specialize (HQ x Hx). cbv zeta in HQ. fold i in HQ. rewrite <- HQ.
        rewrite map_map. replace (map (fun x0 : K => injK (repK x0)) (commit_final c betas)) with (commit_final c betas).
        2:{ rewrite <- map_id at 1. apply map_ext. intros a. now rewrite injK_repK. }
        apply (honest_chain betas g7 n c); [unfold TWO_ADICITY; lia|lia| |exact Ri|reflexivity|exact Hb].
        rewrite Lc, pow16. replace d with (4 * length betas + (d - 4 * length betas))%nat by lia.
        rewrite Nat.pow_add_r, Nat.mul_comm. apply Nat.mod_mul. apply Nat.pow_nonzero. lia.
  Qed.

  (** at 2^DegreeBits positions such a polynomial exists, whatever is claimed *)
  Lemma forged_codeword params (f : Z -> K) (S : list Z) : (LdeBits params <= TWO_ADICITY)%nat ->
    NoDup S -> Forall (fun i => 0 <= i < 2 ^ Z.of_nat (LdeBits params)) S -> (length S <= 2 ^ fp_DegreeBits params)%nat ->
    exists c, length c = (2 ^ fp_DegreeBits params)%nat /\ forall i, In i S -> kpeval c (emb (dom g7 (LdeBits params) i)) = f i.
  Proof.
    intros Hn Hd HS L. destruct (through_points (map (fun i => (emb (dom g7 (LdeBits params) i), f i)) S)) as (c & Lc & Ec).
    - rewrite map_map. cbn [fst]. rewrite Forall_forall in HS. clear - Hn Hd HS. induction Hd as [|i S Hi Hd IH]; cbn [map]; [constructor|].
      constructor; [|apply IH; intros j Hj; apply HS; now right]. intros I. apply in_map_iff in I. destruct I as (j & E & Hj).
      apply (f_equal fst) in E. cbn [emb fst] in E. apply (query_point_inj (LdeBits params)) in E; [now subst|exact Hn|apply HS; now right|apply HS; now left].
    - rewrite map_length in Lc. exists (pad (2 ^ fp_DegreeBits params) c). split; [apply pad_length; lia|]. intros i Hi. rewrite pad_eval.
      apply Ec. apply in_map_iff. now exists i.
  Qed.
End Forge.
