(** * C75: what a lying FRI prover achieves: the soundness error is at least rate^queries. *)
From Coq Require Import String.
From Coq Require Import ZArith NArith Lia List Bool.
From Verif Require Import Zp GF Circuit Goldilocks GLProofs ExtProofs BN254 BN254Hash Types Challenger Fri Poly Roots FriMerkle FriEval FriQuery FriTop FriFacts Honest FriForge.
Import ListNotations.
Open Scope Z_scope.
Local Opaque PoseidonBN HashOrNoop TwoToOne.

(** The prover fixes any leaves of the oracles, whether or not they are values of polynomials, any
    claimed openings, and any set of at most 2^DegreeBits positions of the domain.  After seeing
    alpha the prover picks the polynomial c.  Whatever the betas (which determine the
    folds of c in [commit_caps], each after the cap before it) the verifier accepts if the
    query indices fall into the set. *)
Theorem C75_forge : forall params oracles leaves points openings alpha (k : nat) (S : list Z),
  (* parameters *)
  (RateBits (fp_Config params) <= 15)%nat -> CapHeight (fp_Config params) = 4%nat -> (ProofOfWorkBits (fp_Config params) <= 64)%nat ->
  ReductionArityBits params = repeat 4%nat k -> (4 * k <= fp_DegreeBits params)%nat -> (4 * k + 4 <= LdeBits params <= 32)%nat ->
  (* leaves, openings *)
  leaves_ok leaves params oracles -> oracles <> [] -> polys_exist oracles (flat_map snd points) -> length points = length openings ->
  (* positions *)
  NoDup S -> Forall (fun i => 0 <= i < 2 ^ Z.of_nat (LdeBits params)) S -> (length S <= 2 ^ fp_DegreeBits params)%nat ->
  (forall i z polys, In i S -> In (z, polys) points -> emb (dom g7 (LdeBits params) i) <> z) ->
  exists c, forall betas pow indices witness,
    length betas = k -> betas_off g7 (LdeBits params) betas -> rep pow < 2 ^ (64 - Z.of_nat (ProofOfWorkBits (fp_Config params))) ->
    length indices = NumQueryRounds (fp_Config params) -> Forall (fun x => In (rep x mod 2 ^ Z.of_nat (LdeBits params)) S) indices ->
    run (VerifyFriProof params
      (mkInstanceInfo oracles (map (fun b => mkBatchInfo (repK (fst b)) (snd b)) points)) (map (map repK) openings)
      (mkFriChallenges (repK alpha) (map repK betas) (rep pow) (map rep indices))
      (forged_caps leaves (length oracles) (LdeBits params)) (forged_fri leaves (length oracles) params c betas indices witness)) = Done tt.
Proof.
  intros params oracles leaves points openings alpha k S H1 H2 H3 H4 H5 H6 HL Ho HP Lo ND HS LS HZ.
  destruct (forged_codeword params (fun i => combined (forged_trees leaves (length oracles) (LdeBits params) i) alpha
    (emb (dom g7 (LdeBits params) i)) (fri_batches alpha points openings)) S) as (c & Lc & Ec); try assumption; [unfold TWO_ADICITY; lia|].
  exists c. intros betas pow indices witness Lb Hb Hpow Li Hi. rewrite Forall_forall in Hi. subst k.
  destruct (forged_ok leaves params oracles points openings alpha betas pow indices witness c) as [C F]; try assumption.
  { unfold honest_params. tauto. }
  { intros x Hx. cbv zeta. apply Ec, Hi, Hx. }
  { intros x z polys Hx. apply HZ, Hi, Hx. }
  apply (proj1 (verify_fri_correct params oracles points openings alpha betas pow indices _ _ C Ho Lo)). exact F.
Qed.
Print Assumptions C75_forge.

(** all tuples of q elements *)
Fixpoint tuples {A} (q : nat) (l : list A) : list (list A) :=
  match q with O => [[]] | S q' => flat_map (fun x => map (cons x) (tuples q' l)) l end.
Lemma tuples_length {A} q (l : list A) : length (tuples q l) = (length l ^ q)%nat.
Proof.
  induction q as [|q IH]; cbn [tuples Nat.pow]; [reflexivity|]. rewrite <- IH. generalize (tuples q l). intros t. clear IH.
  induction l as [|x l IH]; cbn [flat_map length]; [reflexivity|]. rewrite app_length, map_length, IH. lia.
Qed.
Lemma in_tuples {A} q : forall (l t : list A), In t (tuples q l) -> length t = q /\ Forall (fun x => In x l) t.
Proof.
  induction q as [|q IH]; intros l t H; cbn [tuples] in H; [destruct H as [<-|[]]; split; [reflexivity|constructor]|].
  apply in_flat_map in H. destruct H as (x & Hx & H). apply in_map_iff in H. destruct H as (t' & <- & H). destruct (IH l t' H) as [L F].
  split; [cbn [length]; lia|now constructor].
Qed.
Lemma tuples_nodup {A} q (l : list A) : NoDup l -> NoDup (tuples q l).
Proof.
  intros H. induction q as [|q IH]; cbn [tuples]; [repeat constructor; intros []|]. revert IH. generalize (tuples q l). intros t Ht.
  induction H as [|x l Hx H IH]; cbn [flat_map]; [constructor|]. 
  assert (D : forall a, In a (map (cons x) t) -> ~ In a (flat_map (fun x => map (cons x) t) l)).
  { intros a Ha I. apply in_map_iff in Ha. destruct Ha as (b & <- & _). apply in_flat_map in I. destruct I as (y & Hy & I).
    apply in_map_iff in I. destruct I as (b' & E & _). injection E as -> _. contradiction. }
  assert (M : NoDup (map (cons x) t)).
  { clear - Ht. induction Ht as [|a t Ha Ht IH]; cbn [map]; constructor; [|exact IH]. intros I. apply in_map_iff in I. destruct I as (b & E & Hb).
    injection E as ->. contradiction. }
  revert M D. generalize (map (cons x) t). intros u M D. induction M as [|a u Ha M IHu]; cbn [app]; [exact IH|].
  constructor; [|apply IHu; intros b Hb; apply D; now right]. intros I. apply in_app_or in I. destruct I as [I|I]; [contradiction|]. exact (D a (or_introl eq_refl) I).
Qed.

(** ** The soundness error
    Of the (2^LdeBits)^rounds tuples of query positions at least (2^DegreeBits)^rounds pass, so at
    least the fraction 2^(- RateBits * rounds): no analysis of this verifier can give more than
    RateBits bits per query (besides the proof of work). *)
Theorem C75_error : forall params oracles leaves points openings alpha (k : nat),
  (RateBits (fp_Config params) <= 15)%nat -> CapHeight (fp_Config params) = 4%nat -> (ProofOfWorkBits (fp_Config params) <= 64)%nat ->
  ReductionArityBits params = repeat 4%nat k -> (4 * k <= fp_DegreeBits params)%nat -> (4 * k + 4 <= LdeBits params <= 32)%nat ->
  leaves_ok leaves params oracles -> oracles <> [] -> polys_exist oracles (flat_map snd points) -> length points = length openings ->
  (forall i z polys, 0 <= i < 2 ^ Z.of_nat (LdeBits params) -> In (z, polys) points -> emb (dom g7 (LdeBits params) i) <> z) ->
  exists c (good : list (list Z)), NoDup good /\ length good = ((2 ^ fp_DegreeBits params) ^ NumQueryRounds (fp_Config params))%nat /\
    Forall (fun t => length t = NumQueryRounds (fp_Config params) /\ Forall (fun i => 0 <= i < 2 ^ Z.of_nat (LdeBits params)) t) good /\
    forall betas pow indices witness,
    length betas = k -> betas_off g7 (LdeBits params) betas -> rep pow < 2 ^ (64 - Z.of_nat (ProofOfWorkBits (fp_Config params))) ->
    In (map (fun x => rep x mod 2 ^ Z.of_nat (LdeBits params)) indices) good ->
    run (VerifyFriProof params
      (mkInstanceInfo oracles (map (fun b => mkBatchInfo (repK (fst b)) (snd b)) points)) (map (map repK) openings)
      (mkFriChallenges (repK alpha) (map repK betas) (rep pow) (map rep indices))
      (forged_caps leaves (length oracles) (LdeBits params)) (forged_fri leaves (length oracles) params c betas indices witness)) = Done tt.
Proof.
  intros params oracles leaves points openings alpha k H1 H2 H3 H4 H5 H6 HL Ho HP Lo HZ.
  set (S := map Z.of_nat (seq 0 (2 ^ fp_DegreeBits params))).
  assert (NS : NoDup S).
  { unfold S. generalize (seq_NoDup (2 ^ fp_DegreeBits params) 0). generalize (seq 0 (2 ^ fp_DegreeBits params)). intros l H.
    induction H as [|x l Hx H IH]; cbn [map]; constructor; [|exact IH]. intros I. apply in_map_iff in I. destruct I as (y & E & Hy).
    apply Nat2Z.inj in E. now subst. }
  assert (LS : length S = (2 ^ fp_DegreeBits params)%nat) by (unfold S; now rewrite map_length, seq_length).
  assert (RS : Forall (fun i => 0 <= i < 2 ^ Z.of_nat (LdeBits params)) S).
  { apply Forall_forall. intros i Hi. unfold S in Hi. apply in_map_iff in Hi. destruct Hi as (j & <- & Hj). apply in_seq in Hj.
    assert (L : Z.of_nat (2 ^ fp_DegreeBits params) <= 2 ^ Z.of_nat (LdeBits params)); [|lia].
    rewrite pow2_nat_Z. apply Z.pow_le_mono_r; [lia|]. unfold LdeBits. lia. }
  destruct (C75_forge params oracles leaves points openings alpha k S) as (c & Hc); try assumption; [lia| |].
  { intros i z polys Hi. apply HZ. rewrite Forall_forall in RS. now apply RS. }
  exists c, (tuples (NumQueryRounds (fp_Config params)) S). split; [now apply tuples_nodup|]. split; [rewrite tuples_length, LS; reflexivity|]. split.
  - apply Forall_forall. intros t Ht. apply in_tuples in Ht. destruct Ht as [L F]. split; [exact L|].
    rewrite Forall_forall in *. intros i Hi. apply RS, F, Hi.
  - intros betas pow indices witness Lb Hb Hp Hi. apply in_tuples in Hi. destruct Hi as [L F]. rewrite map_length in L. apply Hc; try assumption.
    rewrite Forall_forall in *. intros x Hx. apply F. apply in_map_iff. now exists x.
Qed.
Print Assumptions C75_error.

(** ** Rate 1
    RateBits = 0 is not rejected.  Then the positions are all of the domain: any openings of any
    leaves are accepted, for all query indices. *)
Theorem C75_rate_one : forall params oracles leaves points openings alpha (k : nat),
  RateBits (fp_Config params) = 0%nat -> CapHeight (fp_Config params) = 4%nat -> (ProofOfWorkBits (fp_Config params) <= 64)%nat ->
  ReductionArityBits params = repeat 4%nat k -> (4 * k + 4 <= fp_DegreeBits params <= 32)%nat ->
  leaves_ok leaves params oracles -> oracles <> [] -> polys_exist oracles (flat_map snd points) -> length points = length openings ->
  (forall i z polys, 0 <= i < 2 ^ Z.of_nat (LdeBits params) -> In (z, polys) points -> emb (dom g7 (LdeBits params) i) <> z) ->
  exists c, forall betas pow indices witness,
    length betas = k -> betas_off g7 (LdeBits params) betas -> rep pow < 2 ^ (64 - Z.of_nat (ProofOfWorkBits (fp_Config params))) ->
    length indices = NumQueryRounds (fp_Config params) ->
    run (VerifyFriProof params
      (mkInstanceInfo oracles (map (fun b => mkBatchInfo (repK (fst b)) (snd b)) points)) (map (map repK) openings)
      (mkFriChallenges (repK alpha) (map repK betas) (rep pow) (map rep indices))
      (forged_caps leaves (length oracles) (LdeBits params)) (forged_fri leaves (length oracles) params c betas indices witness)) = Done tt.
Proof.
  intros params oracles leaves points openings alpha k H1 H2 H3 H4 H5 HL Ho HP Lo HZ.
  assert (E : LdeBits params = fp_DegreeBits params) by (unfold LdeBits; lia).
  set (S := map Z.of_nat (seq 0 (2 ^ fp_DegreeBits params))).
  assert (I : forall i, 0 <= i < 2 ^ Z.of_nat (LdeBits params) <-> In i S).
  { intros i. rewrite E. unfold S. rewrite in_map_iff. rewrite <- pow2_nat_Z. split.
    - intros R. exists (Z.to_nat i). split; [lia|]. apply in_seq. lia.
    - intros (j & <- & Hj). apply in_seq in Hj. lia. }
  destruct (C75_forge params oracles leaves points openings alpha k S) as (c & Hc); try assumption; try (rewrite ?H1, ?E; lia).
  - unfold S. generalize (seq_NoDup (2 ^ fp_DegreeBits params) 0). generalize (seq 0 (2 ^ fp_DegreeBits params)). intros l H.
    induction H as [|x l Hx H IH]; cbn [map]; constructor; [|exact IH]. intros J. apply in_map_iff in J. destruct J as (y & Ey & Hy).
    apply Nat2Z.inj in Ey. now subst.
  - apply Forall_forall. intros i. apply I.
  - unfold S. rewrite map_length, seq_length. lia.
  - intros i z polys Hi. apply HZ, I, Hi.
  - exists c. intros betas pow indices witness Lb Hb Hp Li. apply Hc; try assumption. apply Forall_forall. intros x _. apply I. apply Z.mod_pos_bound. lia.
Qed.
Print Assumptions C75_rate_one.

(** one oracle with one polynomial whose 16 leaves are 0, 1, 4, 9, ..., claimed to be 5 at X *)
Definition ex75_params := mkFriParams (mkFriConfig 0 4 16 2) false 4 [].
Definition ex75_leaves (o : nat) (i : Z) : list Z := [(i * i) mod p].
Example C75_ex :
  RateBits (fp_Config ex75_params) = 0%nat /\ ReductionArityBits ex75_params = repeat 4%nat 0 /\ (4 * 0 + 4 <= fp_DegreeBits ex75_params <= 32)%nat /\
  leaves_ok ex75_leaves ex75_params [mkOracleInfo 1 true] /\ polys_exist [mkOracleInfo 1 true] (flat_map snd [(kX, [(0, 0)%nat])]) /\
  length [(kX, [(0, 0)%nat])] = length [[emb (inj 5)]] /\
  (forall i z polys, 0 <= i < 2 ^ Z.of_nat (LdeBits ex75_params) -> In (z, polys) [(kX, [(0, 0)%nat])] -> emb (dom g7 (LdeBits ex75_params) i) <> z) /\
  betas_off g7 (LdeBits ex75_params) [] /\ length [inj 5; inj 1000] = NumQueryRounds (fp_Config ex75_params) /\
  rep (inj 77) < 2 ^ (64 - Z.of_nat (ProofOfWorkBits (fp_Config ex75_params))).
Proof.
  do 2 (split; [reflexivity|]). split; [cbn; lia|]. split.
  { intros o i Ho. destruct o as [|o]; [|cbn in Ho; lia]. split; [reflexivity|]. constructor; [|constructor]. apply Z.mod_pos_bound. reflexivity. }
  split; [repeat constructor|]. split; [reflexivity|]. split.
  { intros i z polys _ [E|[]] K. injection E as <- _. apply (f_equal snd) in K. vm_compute in K. discriminate K. }
  split; [exact I|]. split; [reflexivity|vm_compute; reflexivity].
Qed.
