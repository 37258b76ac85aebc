(** * Property C58: the FRI verifier accepts every honest proof. *)
From Coq Require Import String.
From Coq Require Import ZArith NArith Lia List Bool.
From Verif Require Import Zp GF Circuit Goldilocks GLProofs ExtProofs BN254 BN254Hash Types Challenger Fri Poly Roots FriMerkle FriEval FriQuery FriTop FriFacts Honest.
Import ListNotations.
Open Scope Z_scope.
Local Opaque PoseidonBN HashOrNoop TwoToOne.

(** ** C58
    Any polynomials of degree < 2^DegreeBits, any opening points, any challenges.  The prover
    commits to the values on the coset, opens the points, divides, folds with the betas and
    sends the last fold ([honest_fri], [honest_caps], [open_batches] in Honest.v).  The only
    conditions on the challenges are those that the verifier's divisions need and the proof
    of work. *)
Theorem C58_fri_complete : forall params oracles tables salts points alpha betas pow indices witness,
  (* parameters *)
  (RateBits (fp_Config params) <= 15)%nat -> CapHeight (fp_Config params) = 4%nat -> (ProofOfWorkBits (fp_Config params) <= 64)%nat ->
  ReductionArityBits params = repeat 4%nat (length betas) -> (4 * length betas <= fp_DegreeBits params)%nat ->
  (4 * length betas + 4 <= LdeBits params <= 32)%nat -> length indices = NumQueryRounds (fp_Config params) ->
  (* polynomials *)
  honest_tables params oracles tables salts -> oracles <> [] -> Forall (poly_in tables) (flat_map snd points) ->
  (* challenges *)
  betas_off g7 (LdeBits params) betas ->
  (forall x z polys, In x indices -> In (z, polys) points -> emb (dom g7 (LdeBits params) (rep x mod 2 ^ Z.of_nat (LdeBits params))) <> z) ->
  rep pow < 2 ^ (64 - Z.of_nat (ProofOfWorkBits (fp_Config params))) ->
  run (VerifyFriProof params
      (mkInstanceInfo oracles (map (fun b => mkBatchInfo (repK (fst b)) (snd b)) points)) (map (map repK) (open_batches tables points))
      (mkFriChallenges (repK alpha) (map repK betas) (rep pow) (map rep indices))
      (honest_caps tables salts (LdeBits params)) (honest_fri tables salts params points alpha betas indices witness)) = Done tt.
Proof.
  intros params oracles tables salts points alpha betas pow indices witness H1 H2 H3 H4 H5 H6 H7 H8 H9 H10 H11 H12 H13.
  destruct (honest_fri_ok params oracles tables salts points alpha betas pow indices witness) as [C F]; try assumption.
  { unfold honest_params. tauto. }
  apply (proj1 (verify_fri_correct params oracles points (open_batches tables points) alpha betas pow indices
    (honest_caps tables salts (LdeBits params)) _ C H9 ltac:(unfold open_batches; now rewrite map_length))). exact F.
Qed.
Print Assumptions C58_fri_complete.

(** what the honest prover sends, independently of the verifier *)
(** the siblings and the cap belong to one tree: every layer hashes pairs of the one below *)
Theorem C58_tree : forall L k i, 0 <= i < 2 ^ Z.of_nat (k + 4) ->
  merkle_root (L i) i (path L k i) = nth (Z.to_nat (i / 2 ^ Z.of_nat k)) (cap_of L k) 0.
Proof.
  intros L k i Hi. rewrite path_root, cap_nth; [reflexivity|]. split; [apply Z.div_pos; lia|].
  apply Z.div_lt_upper_bound; [lia|]. rewrite Nat2Z.inj_add, Z.pow_add_r in Hi by lia. exact (proj2 Hi).
Qed.
Print Assumptions C58_tree.
(** folding at x itself gives back the value at x: the folds are even-odd splittings by powers of 16 *)
Theorem C58_fold : forall c x, (length c mod 16 = 0)%nat -> kpeval (fold16 c x) (x ^ 16)%K = kpeval c x /\ length (fold16 c x) = (length c / 16)%nat.
Proof.
  intros c x H. split; [|apply fold16_length]. apply fold_n_eval. pose proof (Nat.div_mod (length c) 16 ltac:(lia)). lia.
Qed.
Print Assumptions C58_fold.
Theorem C58_fold_at_0 : forall c, kpeval (fold16 c k0) k0 = if Nat.ltb (length c) 16 then k0 else hd k0 c.
Proof.
  intros c. unfold fold16. destruct (Nat.ltb_spec (length c) 16) as [L|L].
  - rewrite Nat.div_small by assumption. reflexivity.
  - assert (Q : (1 <= length c / 16)%nat) by (apply Nat.div_le_lower_bound; lia).
    destruct (length c / 16)%nat as [|q]; [lia|]. cbn [fold_n]. destruct c as [|a c]; [cbn in L; lia|]. unfold kpeval. cbn [firstn peval hd]. ring.
Qed.
Print Assumptions C58_fold_at_0.

(** one oracle with f = 4 + 6X and g = X^31, one blinded with X^2; opened at two points, one reduction, two queries *)
Definition x31 : list GF := repeat g0 31 ++ [g1].
Definition ex58_params := mkFriParams (mkFriConfig 3 4 16 2) true 5 [4%nat].
Definition ex58_tables : list (list (list GF)) := [[[inj 4; inj 6]; x31]; [[g0; g0; g1]]].
Definition ex58_oracles := [mkOracleInfo 2 false; mkOracleInfo 1 true].
Definition ex58_salts (o : nat) (i : Z) : list Z := if Nat.eqb o 1 then [i mod p; 1; 2; 3] else [].
Definition ex58_points : list (K * list (nat * nat)) := [(kX, [(0, 0); (0, 1); (1, 0)]%nat); ((kX * emb g7)%K, [(1, 0)%nat])].
Example C58_ex :
  (RateBits (fp_Config ex58_params) <= 15)%nat /\ ReductionArityBits ex58_params = repeat 4%nat (length [kX]) /\
  (4 * length [kX] + 4 <= LdeBits ex58_params <= 32)%nat /\ honest_tables ex58_params ex58_oracles ex58_tables ex58_salts /\
  Forall (poly_in ex58_tables) (flat_map snd ex58_points) /\ betas_off g7 (LdeBits ex58_params) [kX] /\
  (forall x z polys, In x [inj 5; inj 1000] -> In (z, polys) ex58_points ->
     emb (dom g7 (LdeBits ex58_params) (rep x mod 2 ^ Z.of_nat (LdeBits ex58_params))) <> z) /\
  length [inj 5; inj 1000] = NumQueryRounds (fp_Config ex58_params) /\ rep (inj 77) < 2 ^ (64 - Z.of_nat (ProofOfWorkBits (fp_Config ex58_params))).
Proof.
  assert (N : forall x z, snd z <> g0 -> emb x <> z) by (intros x z H E; apply H; now rewrite <- E).
  split; [cbn; lia|]. split; [reflexivity|]. split; [cbn; lia|]. split; [|split; [|split; [|split; [|split; [reflexivity|vm_compute; reflexivity]]]]].
  - split; [reflexivity|]. split.
    + repeat (apply Forall_cons || apply Forall_nil); vm_compute; lia.
    + intros o Ho. unfold ex58_oracles in Ho. cbn [length] in Ho.
      destruct o as [|[|o]]; [| |lia]; (split; [reflexivity|]); intros i; (split; [reflexivity|]); cbn [ex58_salts Nat.eqb]; [apply Forall_nil|].
      apply Forall_cons; [apply Z.mod_pos_bound, p_pos|]. repeat (apply Forall_cons || apply Forall_nil); split; vm_compute; congruence.
  - repeat (apply Forall_cons || apply Forall_nil); split; vm_compute; lia.
  - split; [|exact I]. intros i E. apply (N (dom g7 (LdeBits ex58_params) i) kX); [|now symmetry]. intros X. now apply (f_equal rep) in X.
  - intros x z polys _ Hz. apply N. destruct Hz as [Hz|[Hz|[]]]; apply (f_equal fst) in Hz; cbn [fst] in Hz; subst z; intros X; apply (f_equal rep) in X; vm_compute in X; discriminate X.
Qed.
