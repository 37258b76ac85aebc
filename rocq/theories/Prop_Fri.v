(** * Properties C29-C38: Merkle proofs, query points, interpolation, the FRI verifier. *)
From Coq Require Import String.
From Coq Require Import ZArith NArith Lia List Bool.
From Verif Require Import Zp GF Circuit Goldilocks GLProofs ExtProofs BN254 BN254Hash Types Challenger Fri Poly Roots FriMerkle FriEval FriQuery FriTop FriFacts.
Import ListNotations.
Open Scope Z_scope.
Local Opaque PoseidonBN.

(** ** C29: Merkle paths *)
(** [merkle_root] hashes the digest with each sibling, on the side given by the parity of
    the index at that level *)
Theorem C29_exact : forall leaf n idx cidx cap sibs,
  (length sibs <= n)%nat -> 0 <= cidx < 16 -> length cap = 16%nat ->
  enforces (verifyMerkleProofToCapWithCapIndex leaf (bits_of n idx) (bits_of 4 cidx) cap sibs)
           (merkle_root (HashOrNoop leaf) idx sibs = nth (Z.to_nat cidx) cap 0) tt.
Proof. intros. now apply merkle_enforces. Qed.
(** a cap height other than 4, or a cap that does not have 16 entries, is never accepted *)
Theorem C29_only_height_4 : forall leaf n idx h cidx cap sibs, (length sibs <= n)%nat -> (h = 4%nat -> 0 <= cidx < 16) ->
  sat (verifyMerkleProofToCapWithCapIndex leaf (bits_of n idx) (bits_of h cidx) cap sibs) -> h = 4%nat /\ length cap = 16%nat.
Proof.
  intros leaf n idx h cidx cap sibs H1 H2 S.
  apply (proj1 (enforces_sat _ _ _ (merkle_enforces_h leaf n idx h cidx cap sibs H1 H2))) in S. tauto.
Qed.
(** the states permuted while hashing a leaf (none up to three elements) *)
Definition leaf_states (leaf : list Z) : list (list Z) := if Nat.leb (length leaf) 3 then [] else hash_inputs leaf.
Theorem C29_binding : forall leaf leaf' n idx cidx cap sibs sibs',
  (length sibs <= n)%nat -> 0 <= cidx < 16 -> length cap = 16%nat ->
  length leaf = length leaf' -> length sibs = length sibs' -> Forall is64 leaf -> Forall is64 leaf' ->
  Forall inr_ sibs -> Forall inr_ sibs' ->
  sat (verifyMerkleProofToCapWithCapIndex leaf (bits_of n idx) (bits_of 4 cidx) cap sibs) ->
  sat (verifyMerkleProofToCapWithCapIndex leaf' (bits_of n idx) (bits_of 4 cidx) cap sibs') ->
  leaf <> leaf' \/ sibs <> sibs' ->
  exists s s', In s (leaf_states leaf ++ path_states (HashOrNoop leaf) idx sibs) /\
               In s' (leaf_states leaf' ++ path_states (HashOrNoop leaf') idx sibs') /\
               length s = 4%nat /\ length s' = 4%nat /\ Forall inr_ s /\ Forall inr_ s' /\ s <> s' /\
               nth 0 (PoseidonBN s) 0 = nth 0 (PoseidonBN s') 0.
Proof.
  intros leaf leaf' n idx cidx cap sibs sibs' Hn Hc Lc Ll Ls Hl Hl' Hs Hs' S S' N.
  apply (proj1 (enforces_sat _ _ _ (merkle_enforces leaf n idx cidx cap sibs Hn Hc Lc))) in S.
  rewrite Ls in Hn. apply (proj1 (enforces_sat _ _ _ (merkle_enforces leaf' n idx cidx cap sibs' Hn Hc Lc))) in S'.
  assert (E : merkle_root (HashOrNoop leaf) idx sibs = merkle_root (HashOrNoop leaf') idx sibs') by congruence.
  destruct (Z.eq_dec (HashOrNoop leaf) (HashOrNoop leaf')) as [Ed|Nd].
  - destruct (list_eq_dec Z.eq_dec leaf leaf') as [<-|Nl].
    + assert (C : lane0_collision (path_states (HashOrNoop leaf) idx sibs) (path_states (HashOrNoop leaf) idx sibs')).
      { apply merkle_binding; auto using HashOrNoop_range. right. destruct N; congruence. }
      eapply collision_mono; [| |exact C]; intros z Hz; apply in_or_app; now right.
    + destruct (HashOrNoop_collision leaf leaf' Ll Hl Hl' Nl Ed) as [L3 C].
      eapply collision_mono; [| |exact C]; intros z Hz; apply in_or_app; left; unfold leaf_states; rewrite <- ?Ll, (proj2 (Nat.leb_gt _ _) L3); exact Hz.
  - assert (C : lane0_collision (path_states (HashOrNoop leaf) idx sibs) (path_states (HashOrNoop leaf') idx sibs')).
    { apply merkle_binding; auto using HashOrNoop_range. }
    eapply collision_mono; [| |exact C]; intros z Hz; apply in_or_app; now right.
Qed.

(** a leaf of two elements is its own digest; without siblings it must be the cap entry *)
Example C29_ex : let cap := map Z.of_nat (seq 100 16) in
  run (verifyMerkleProofToCapWithCapIndex [107; 0] (bits_of 0 0) (bits_of 4 7) cap []) = Done tt /\
  run (verifyMerkleProofToCapWithCapIndex [107; 1] (bits_of 0 0) (bits_of 4 7) cap []) = Unsat /\
  run (verifyMerkleProofToCapWithCapIndex [107; 0] (bits_of 0 0) (bits_of 4 8) cap []) = Unsat.
Proof. vm_compute. repeat split. Qed.
(** and other cap heights panic *)
Example C29_height_ex : exists m, run (verifyMerkleProofToCapWithCapIndex [107; 0] (bits_of 0 0) (bits_of 3 7) (map Z.of_nat (seq 100 8)) []) = Panicked m.
Proof. eexists. vm_compute. reflexivity. Qed.

(** ** C30: proof of work *)
Theorem C30_pow : forall (x : GF) config,
  enforces (assertLeadingZeros (rep x) config)
    ((ProofOfWorkBits config <= 64)%nat /\ rep x < 2 ^ (64 - Z.of_nat (ProofOfWorkBits config))) tt.
Proof. exact leading_zeros_correct. Qed.
(** in terms of the 64 bits, most significant first *)
Theorem C30_leading_zeros : forall (x : GF) config, (ProofOfWorkBits config <= 64)%nat ->
  (sat (assertLeadingZeros (rep x) config) <->
   firstn (ProofOfWorkBits config) (rev (bits_of 64 (rep x))) = repeat 0 (ProofOfWorkBits config)).
Proof.
  intros x config H. rewrite (enforces_sat _ _ _ (C30_pow x config)).
  set (k := ProofOfWorkBits config) in *. rewrite (leading_bits_zero 64 k (rep x)) by (auto; apply rep_lt_64).
  replace (64 - Z.of_nat k) with (Z.of_nat (64 - k)) by lia. tauto.
Qed.
Example C30_ex : run (assertLeadingZeros (2 ^ 48 - 1) (mkFriConfig 3 4 16 28)) = Done tt /\
  run (assertLeadingZeros (2 ^ 48) (mkFriConfig 3 4 16 28)) = Unsat /\
  run (assertLeadingZeros 0 (mkFriConfig 3 4 65 28)) = Unsat.
Proof. vm_compute. repeat split. Qed.

(** ** C31: the query point *)
Theorem C31_exp_from_bits : forall (g : GF) n e, g <> 0%GF -> 0 <= e < 2 ^ Z.of_nat n ->
  computes (expFromBitsConstBase (rep g) (bits_of n e)) (rep (g ^ Z.to_N e)%GF).
Proof.
  intros g n e Hg He. eapply computes_eq; [apply exp_bits_correct; [exact Hg|apply bits_bool]|].
  rewrite bits_N_bits by lia. now rewrite Z.mod_small.
Qed.
(** [bitrev n i] has the n bits of i in reverse order *)
Theorem C31_bitrev : forall n i, rev (bits_of n i) = bits_of n (bitrev n i) /\ 0 <= bitrev n i < 2 ^ Z.of_nat n.
Proof. intros n i. split; [apply rev_bits_of|apply bitrev_range]. Qed.
Theorem C31_query_point : forall n i, (n <= 32)%nat ->
  exists g : GF, computes (PrimitiveRootOfUnity n) (rep g) /\
    computes (calculateSubgroupX (bits_of n i) n) (rep (g7 * g ^ Z.to_N (bitrev n i))%GF).
Proof. intros n i H. exists (root n). split; [now apply root_computes|now apply subgroup_x_correct]. Qed.
Theorem C31_distinct : forall n i j v, (n <= 32)%nat -> 0 <= i < 2 ^ Z.of_nat n -> 0 <= j < 2 ^ Z.of_nat n ->
  reach (calculateSubgroupX (bits_of n i) n) v -> reach (calculateSubgroupX (bits_of n j) n) v -> i = j.
Proof.
  intros n i j v H Hi Hj Ri Rj.
  apply (computes_reach _ _ _ (subgroup_x_correct n i H)) in Ri. apply (computes_reach _ _ _ (subgroup_x_correct n j H)) in Rj.
  apply (query_point_inj n); auto. apply GF_eq. congruence.
Qed.
Example C31_ex : run (calculateSubgroupX (bits_of 4 1) 4) = Done (p - 7) /\ bitrev 4 1 = 8 /\ bitrev 4 13 = 11.
Proof. vm_compute. repeat split. Qed.

(** ** C32: evaluation of the folded polynomial.
    The 2^a evaluations belong, in bit-reversed order, to the points c, c g, c g^2, ... where
    g = PrimitiveRootOfUnity(a) and c g^(bitrev j) is the point x.  P is any polynomial of
    degree < 2^a with these values. *)
Theorem C32_interpolates : forall a (x g c : GF) j (ys : list K) (beta : K) (P : list K),
  (a <= 7)%nat -> x <> 0%GF -> computes (PrimitiveRootOfUnity a) (rep g) -> (c * g ^ Z.to_N (bitrev a j))%GF = x ->
  length ys = (2 ^ a)%nat -> (length P <= 2 ^ a)%nat ->
  (forall i, (i < 2 ^ a)%nat -> kpeval P (emb (c * g ^ Z.to_N (bitrev a (Z.of_nat i)))%GF) = nth i ys k0) ->
  enforces (computeEvaluation (rep x) (bits_of a j) a (map repK ys) (repK beta))
    (forall i, (i < 2 ^ a)%nat -> beta <> emb (c * g ^ N.of_nat i)%GF) (repK (kpeval P beta)).
Proof.
  intros a x g c j ys beta P Ha Hx Hg Hc L LP H.
  assert (Ha' : (a <= TWO_ADICITY)%nat) by (unfold TWO_ADICITY; lia).
  assert (Eg : g = root a).
  { apply GF_eq. apply computes_run in Hg. pose proof (computes_run _ _ (root_computes a Ha')) as R. rewrite Hg in R. now injection R. }
  subst g.
  assert (Ec : coset_start a x j = c) by now apply coset_start_unique.
  rewrite <- Ec in *.
  eapply enforces_iff; [apply (compute_evaluation_poly a x j ys beta P); auto|].
  - intros i Hi. rewrite <- H by exact Hi. rewrite <- rev_bits_bitrev, <- nat_N_Z, N2Z.id. reflexivity.
  - unfold coset. rewrite in_map_iff. split.
    + intros N i Hi E. apply N. exists i. split; [now symmetry|apply in_seq; lia].
    + intros N (i & E & Hi). apply in_seq in Hi. apply (N i); [lia|now symmetry].
Qed.
(** such a polynomial exists, whatever the evaluations *)
Theorem C32_exists : forall a (g c : GF) (ys : list K), (a <= 32)%nat -> c <> 0%GF ->
  computes (PrimitiveRootOfUnity a) (rep g) -> length ys = (2 ^ a)%nat ->
  exists P, (length P <= 2 ^ a)%nat /\
    forall i, (i < 2 ^ a)%nat -> kpeval P (emb (c * g ^ Z.to_N (bitrev a (Z.of_nat i)))%GF) = nth i ys k0.
Proof.
  intros a g c ys Ha Hc Hg L.
  assert (Eg : g = root a).
  { apply GF_eq. apply computes_run in Hg. pose proof (computes_run _ _ (root_computes a Ha)) as R. rewrite Hg in R. now injection R. }
  subst g. destruct (coset_poly_exists a c ys Ha L Hc) as (P & LP & H). exists P. split; [exact LP|].
  intros i Hi. rewrite <- H by exact Hi. rewrite <- rev_bits_bitrev, <- nat_N_Z, N2Z.id. reflexivity.
Qed.
(** for arity 2^8 the counting loop never ends, above it panics *)
Theorem C32_arity : forall a x bits ys beta, (8 <= a)%nat -> ~ sat (computeEvaluation x bits a ys beta).
Proof. exact compute_evaluation_arity. Qed.
(** P = 3 + 5X on {c, -c}, c = 9, the query point being -9 *)
Example C32_ex : run (computeEvaluation (p - 9) (bits_of 1 1) 1 [(48, 0); (p - 42, 0)] (10, 1)) = Done (53, 5) /\
  run (computeEvaluation (p - 9) (bits_of 1 1) 1 [(48, 0); (p - 42, 0)] (9, 0)) = Unsat.
Proof. vm_compute. split; reflexivity. Qed.

(** ** C33: initial combination *)
(** [combined]: sum over the batches of alpha^(number of polynomials in later batches)
    (sum_i alpha^i v_i - o)/(x - z), v_i the leaf values and o the combined opening *)
Theorem C33_combination : forall proof alpha x bs oracles, canon_leaves proof ->
  enforces (friCombineInitial (mkInstanceInfo oracles (map (fun b => mkBatchInfo (repK (fst (fst b))) (snd (fst b))) bs)) proof
              (repK alpha) (repK x) (map repK (map snd bs)))
    (Forall (fun b : K * list (nat * nat) * K => polys_in proof (snd (fst b)) /\ x <> fst (fst b)) bs)
    (repK (combined proof alpha x bs)).
Proof. intros. now apply combine_correct. Qed.
(** two batches, as in the protocol, with one opening per polynomial *)
Theorem C33_two_batches : forall proof alpha x z z' polys polys' (os os' : list K),
  length os = length polys -> length os' = length polys' ->
  combined proof alpha x [(z, polys, powers_sum os alpha); (z', polys', powers_sum os' alpha)] =
  (alpha ^ N.of_nat (length polys') * (powers_sum (map (fun vo => fst vo - snd vo) (combine (map (leaf_value proof) polys) os)) alpha / (x - z))
   + powers_sum (map (fun vo => fst vo - snd vo) (combine (map (leaf_value proof) polys') os')) alpha / (x - z'))%K.
Proof. exact combined_two. Qed.

(** alpha = 10 and x = 3: 10 * ((7 + 10 * 9) - (5 + 10 * 8)) / (3 - 1) + (7 - 4) / (3 - 2) = 63 *)
Definition ex_combine (x : QE) (os : list QE) := run (friCombineInitial
  (mkInstanceInfo [] [mkBatchInfo (1, 0) [(0, 0); (1, 1)]%nat; mkBatchInfo (2, 0) [(0, 0)%nat]]) [mkFriEvalProof [7] []; mkFriEvalProof [8; 9] []] (10, 0) x os).
Example C33_ex : ex_combine (3, 0) [(5 + 10 * 8, 0); (4, 0)] = Done (63, 0) /\ ex_combine (2, 0) [(5 + 10 * 8, 0); (4, 0)] = Unsat /\
  exists m, ex_combine (3, 0) [(85, 0)] = Panicked m.
Proof. vm_compute. split; [reflexivity|]. split; [reflexivity|]. eexists. reflexivity. Qed.

(** ** C34: the FRI verifier is the conjunction of its checks *)
Theorem C34_fri : forall params oracles points openings alpha betas pow indices initialCaps proof,
  canon_fri proof -> oracles <> [] -> length points = length openings ->
  enforces (VerifyFriProof params
      (mkInstanceInfo oracles (map (fun b => mkBatchInfo (repK (fst b)) (snd b)) points)) (map (map repK) openings)
      (mkFriChallenges (repK alpha) (map repK betas) (rep pow) (map rep indices)) initialCaps proof)
    (fri_ok params oracles points openings alpha betas pow indices initialCaps proof) tt.
Proof. exact verify_fri_correct. Qed.

(** an accepted proof without reductions: f = 4 + 6X opened at zeta = X, alpha = 1, one
    query at index 5; the leaves are the values themselves *)
Definition ex_params := mkFriParams (mkFriConfig 3 4 16 1) false 1 [].
Definition ex_f (i : Z) : Z := (4 + 6 * rep (dom g7 4 i)) mod p.
Definition ex_cap : list Z := map (fun i => ex_f (Z.of_nat i)) (seq 0 16).
Definition ex_proof (v : Z) := mkFriProof [] [mkFriQueryRound [mkFriEvalProof [v] []] []] [(6, 0); (0, 0)] 0.
Definition ex_run (v : Z) (caps : list (list Z)) := run (VerifyFriProof ex_params
  (mkInstanceInfo [mkOracleInfo 1 true] [mkBatchInfo (0, 1) [(0, 0)%nat]]) [[(4, 6)]]
  (mkFriChallenges (1, 0) [] 77 [1 + 2 ^ 40 * 16 + 4]) caps (ex_proof v)).
Example C34_ex : ex_run (ex_f 5) [ex_cap] = Done tt /\ ex_run (ex_f 5 + 1) [ex_cap] = Unsat /\
  ex_run (ex_f 6) [repeat (ex_f 6) 16] = Unsat /\ canon_fri (ex_proof (ex_f 5)).
Proof.
  split; [vm_compute; reflexivity|]. split; [vm_compute; reflexivity|]. split; [vm_compute; reflexivity|].
  split; repeat (apply Forall_cons || apply Forall_nil || split); vm_compute; congruence.
Qed.

(** ** C35: shape *)
Theorem C35_shape : forall proof inst params,
  enforces (validateFriProofShape proof inst params) (fri_shape proof (Oracles inst) params) tt.
Proof. exact validate_shape_correct. Qed.
(** the checks of VerifyFriProof are all made: lists run over in parallel have equal lengths *)
Theorem C35_no_check_skipped : forall params oracles points openings alpha betas pow indices initialCaps proof,
  fri_ok params oracles points openings alpha betas pow indices initialCaps proof ->
  length indices = length (QueryRoundProofs proof) /\
  Forall (fun round => length (InitialTreesProof round) = length oracles /\
                       length (Steps round) = length (ReductionArityBits params)) (QueryRoundProofs proof) /\
  (QueryRoundProofs proof <> [] -> length initialCaps = length oracles /\
     (length (ReductionArityBits params) <= length betas)%nat /\
     (length (ReductionArityBits params) <= length (CommitPhaseMerkleCaps proof))%nat).
Proof. exact fri_ok_lengths. Qed.

(** two coefficients and one tree are required by the parameters of C34_ex *)
Example C35_ex : let panics c := exists m, run c = Panicked m in let inst := mkInstanceInfo [mkOracleInfo 1 true] [] in
  run (validateFriProofShape (ex_proof 7) inst ex_params) = Done tt /\
  panics (validateFriProofShape (mkFriProof [] [mkFriQueryRound [mkFriEvalProof [7] []] []] [(6, 0)] 0) inst ex_params) /\
  panics (validateFriProofShape (mkFriProof [] [mkFriQueryRound [] []] [(6, 0); (0, 0)] 0) inst ex_params) /\
  panics (validateFriProofShape (mkFriProof [repeat 0 15] [] [(6, 0); (0, 0)] 0) inst ex_params).
Proof. split; [vm_compute; reflexivity|]. repeat split; eexists; vm_compute; reflexivity. Qed.

(** ** C36: the final polynomial *)
Theorem C36_final_poly : forall (P : list K) x, computes (finalPolyEval (map repK P) (repK x)) (repK (kpeval P x)).
Proof. exact final_poly_correct. Qed.
Theorem C36_kpeval : forall (P : list K) x,
  kpeval P x = fold_right kadd k0 (map (fun i => (nth i P k0 * x ^ N.of_nat i)%K) (seq 0 (length P))).
Proof. exact kpeval_sum. Qed.
Example C36_ex : run (finalPolyEval [] (5, 0)) = Done (0, 0) /\ run (finalPolyEval [(1, 0); (2, 0); (3, 1)] (10, 0)) = Done (321, 100).
Proof. vm_compute. split; reflexivity. Qed.

(** ** C37: order of polynomials and openings *)
Definition layout (c : CommonCircuitData) : list (nat * nat) * list (nat * nat) :=
  let nc := cd_NumConstants c in let nr := NumRoutedWires (cd_Config c) in let ch := NumChallenges (cd_Config c) in
  (map (pair 0%nat) (seq 0 nc) ++                        (* constants *)
   map (pair 0%nat) (seq nc nr) ++                       (* sigmas *)
   map (pair 1%nat) (seq 0 (NumWires (cd_Config c))) ++  (* wires *)
   map (pair 2%nat) (seq 0 ch) ++                        (* Zs *)
   map (pair 2%nat) (seq ch (ch * NumPartialProducts c)) ++ (* partial products *)
   map (pair 3%nat) (seq 0 (ch * QuotientDegreeFactor c)),  (* quotient chunks *)
   map (pair 2%nat) (seq 0 ch)).
Theorem C37_instance : forall c (zeta : K), (cd_DegreeBits c <= 32)%nat ->
  exists g : GF, computes (PrimitiveRootOfUnity (cd_DegreeBits c)) (rep g) /\
  computes (GetInstance c (repK zeta))
    (mkInstanceInfo (friOracles c) [mkBatchInfo (repK zeta) (fst (layout c)); mkBatchInfo (repK (emb g * zeta)%K) (snd (layout c))]).
Proof.
  intros c zeta H. exists (root (cd_DegreeBits c)). split; [now apply root_computes|].
  unfold GetInstance. eapply computes_bind; [now apply root_computes|].
  rewrite <- repK_emb. eapply computes_bind; [apply mul_ext_correct|].
  eapply computes_eq; [apply computes_ret|]. rewrite all_polys_layout. unfold friZSPolys. rewrite range_0. reflexivity.
Qed.
(** the first batch opens every polynomial of every oracle exactly once *)
Theorem C37_complete : forall c o j, (count_occ pair_dec (fst (layout c)) (o, j) =
  match nth_error (friOracles c) o with Some orc => if Nat.ltb j (NumPolys orc) then 1 else 0 | None => 0 end)%nat.
Proof. intros c o j. unfold layout. cbn [fst]. rewrite <- all_polys_layout. apply all_polys_count. Qed.
(** the k-th opening is that of the k-th polynomial: the six groups have the same
    lengths in the same order *)
Definition openings_shape (c : CommonCircuitData) (o : OpeningSet) : Prop :=
  let ch := NumChallenges (cd_Config c) in
  length (Constants o) = cd_NumConstants c /\ length (PlonkSigmas o) = NumRoutedWires (cd_Config c) /\
  length (Wires o) = NumWires (cd_Config c) /\ length (PlonkZs o) = ch /\ length (PlonkZsNext o) = ch /\
  length (PartialProducts o) = (ch * NumPartialProducts c)%nat /\ length (QuotientPolys o) = (ch * QuotientDegreeFactor c)%nat.
Theorem C37_openings : forall c o, openings_shape c o ->
  exists zs zsnext, ToOpenings o = [zs; zsnext] /\
  combine (fst (layout c)) zs =
    combine (map (pair 0%nat) (seq 0 (cd_NumConstants c))) (Constants o) ++
    combine (map (pair 0%nat) (seq (cd_NumConstants c) (NumRoutedWires (cd_Config c)))) (PlonkSigmas o) ++
    combine (map (pair 1%nat) (seq 0 (NumWires (cd_Config c)))) (Wires o) ++
    combine (map (pair 2%nat) (seq 0 (NumChallenges (cd_Config c)))) (PlonkZs o) ++
    combine (map (pair 2%nat) (seq (NumChallenges (cd_Config c)) (NumChallenges (cd_Config c) * NumPartialProducts c))) (PartialProducts o) ++
    combine (map (pair 3%nat) (seq 0 (NumChallenges (cd_Config c) * QuotientDegreeFactor c))) (QuotientPolys o) /\
  combine (snd (layout c)) zsnext = combine (map (pair 2%nat) (seq 0 (NumChallenges (cd_Config c)))) (PlonkZsNext o) /\
  length (fst (layout c)) = length zs /\ length (snd (layout c)) = length zsnext.
Proof.
  intros c o (L1 & L2 & L3 & L4 & L5 & L6 & L7). exists (Constants o ++ PlonkSigmas o ++ Wires o ++ PlonkZs o ++ PartialProducts o ++ QuotientPolys o), (PlonkZsNext o).
  split; [reflexivity|]. unfold layout. cbn [fst snd]. split; [|split; [reflexivity|]].
  - rewrite !combine_app_eq by (rewrite map_length, seq_length; congruence). reflexivity.
  - rewrite !app_length, !map_length, !seq_length. lia.
Qed.

(** one constant, two routed of three wires, one challenge, one partial product, two quotient chunks *)
Example C37_ex : let f := mkFriConfig 3 4 16 1 in
  let c := mkCommonCircuitData (mkCircuitConfig 3 2 1 false 100 1 false 2 f) (mkFriParams f false 1 []) [] (mkSelectorsInfo [] []) 1 2 1 1 0 [1; 7] 1 in
  run (GetInstance c (1, 1)) = Done (mkInstanceInfo (friOracles c)
    [mkBatchInfo (1, 1) [(0, 0); (0, 1); (0, 2); (1, 0); (1, 1); (1, 2); (2, 0); (2, 1); (3, 0); (3, 1)]%nat; mkBatchInfo (p - 1, p - 1) [(2, 0)%nat]]) /\
  map NumPolys (friOracles c) = [3; 3; 2; 2]%nat /\
  ToOpenings (mkOpeningSet [(10, 0)] [(11, 0); (12, 0)] [(20, 0); (21, 0); (22, 0)] [(30, 0)] [(40, 0)] [(31, 0)] [(50, 0); (51, 0)]) =
    [[(10, 0); (11, 0); (12, 0); (20, 0); (21, 0); (22, 0); (30, 0); (31, 0); (50, 0); (51, 0)]; [(40, 0)]].
Proof. vm_compute. repeat split. Qed.

(** ** C38: bits of the query index *)
(** whatever 64 bits satisfy the constraints of api.ToBinary, they are those of the value *)
Theorem C38_unique : forall (x : GF) bits, length bits = 64%nat -> Forall (fun b => b = 0 \/ b = 1) bits ->
  of_bits bits mod r = rep x -> bits = bits_of 64 (rep x).
Proof.
  intros x bits L B E. pose proof (of_bits_range bits B) as R. rewrite L in R.
  rewrite Z.mod_small in E by (split; [lia|apply Z.lt_trans with (2 ^ Z.of_nat 64); [lia|reflexivity]]).
  rewrite <- E, <- L. symmetry. now apply bits_of_of_bits.
Qed.
(** the n low bits are those of the challenge modulo 2^n, and the last four of them those
    of its quotient by 2^(n-4) *)
Theorem C38_slices : forall (x : GF) n, (4 <= n <= 64)%nat ->
  let bits := firstn n (bits_of 64 (rep x)) in let i := rep x mod 2 ^ Z.of_nat n in
  bits = bits_of n i /\ skipn (length bits - 4) bits = bits_of 4 (i / 2 ^ Z.of_nat (n - 4)) /\
  0 <= i / 2 ^ Z.of_nat (n - 4) < 16.
Proof. exact query_slices. Qed.
(** the outcome of a query round is a function of that index: challenges equal modulo 2^n
    are treated alike, and hints have no influence *)
Theorem C38_index : forall params oracles bs alpha challenges initialCaps proof (x y : GF) round,
  Forall canonQE (FinalPoly proof) -> canon_round round -> round_shape params oracles round -> oracles <> [] ->
  FriAlpha challenges = repK alpha -> FriBetas challenges = map repK (map injK (FriBetas challenges)) ->
  rep x mod 2 ^ Z.of_nat (LdeBits params) = rep y mod 2 ^ Z.of_nat (LdeBits params) ->
  let inst := mkInstanceInfo oracles (map (fun b => mkBatchInfo (repK (fst (fst b))) (snd (fst b))) bs) in
  let q z := verifyQueryRound params inst challenges (map repK (map snd bs)) initialCaps proof (rep z) (LdeBits params) round in
  sat (q x) <-> sat (q y).
Proof.
  intros params oracles bs alpha ch caps proof x y round Hf Hc Hs Ho Ea Eb E inst q. unfold q, inst.
  rewrite (enforces_sat _ _ _ (query_round_correct params oracles bs alpha ch caps proof x round Hf Hc Hs Ho Ea Eb)).
  rewrite (enforces_sat _ _ _ (query_round_correct params oracles bs alpha ch caps proof y round Hf Hc Hs Ho Ea Eb)).
  unfold query_ok. rewrite E. reflexivity.
Qed.

Example C38_ex : firstn 5 (bits_of 64 (rep (inj (2 ^ 40 + 22)))) = [0; 1; 1; 0; 1] /\ 22 / 2 ^ Z.of_nat (5 - 4) = 11.
Proof. vm_compute. split; reflexivity. Qed.

Print Assumptions C29_exact.
Print Assumptions C29_only_height_4.
Print Assumptions C29_binding.
Print Assumptions C30_pow.
Print Assumptions C30_leading_zeros.
Print Assumptions C31_exp_from_bits.
Print Assumptions C31_bitrev.
Print Assumptions C31_query_point.
Print Assumptions C31_distinct.
Print Assumptions C32_interpolates.
Print Assumptions C32_exists.
Print Assumptions C32_arity.
Print Assumptions C33_combination.
Print Assumptions C33_two_batches.
Print Assumptions C34_fri.
Print Assumptions C35_shape.
Print Assumptions C35_no_check_skipped.
Print Assumptions C36_final_poly.
Print Assumptions C36_kpeval.
Print Assumptions C37_instance.
Print Assumptions C37_complete.
Print Assumptions C37_openings.
Print Assumptions C38_unique.
Print Assumptions C38_slices.
Print Assumptions C38_index.
