(** * The honest FRI prover: polynomials, their codewords, Merkle trees and folds.

    /repo contains only the verifier; this file is the specification of what plonky2's
    prover sends for given polynomials, in the data types read by the verifier
    (variables/fri.go:8-80).  It uses none of the verifier's functions but the two hashes. *)
From Coq Require Import String.
From Coq Require Import ZArith NArith Lia List Bool.
From Verif Require Import Zp GF Circuit Goldilocks GLProofs ExtProofs BN254 BN254Hash Types Challenger Fri Poly Roots FriMerkle FriEval FriQuery FriTop FriFacts.
Import ListNotations.
Open Scope Z_scope.
Local Opaque PoseidonBN HashOrNoop TwoToOne.

(** ** Merkle trees *)
(** the layer above a layer of digests *)
Definition up (L : Z -> Z) (j : Z) : Z := TwoToOne (L (2 * j)) (L (2 * j + 1)).
(** the layer [k] levels above *)
Fixpoint layer (L : Z -> Z) (k : nat) : Z -> Z := match k with O => L | S k' => layer (up L) k' end.
Definition sibling (i : Z) : Z := if Z.odd i then i - 1 else i + 1.
(** the siblings on the way from position [i] to the layer [k] levels above *)
Fixpoint path (L : Z -> Z) (k : nat) (i : Z) : list Z :=
  match k with O => [] | S k' => L (sibling i) :: path (up L) k' (i / 2) end.
(** the sixteen digests [k] levels above *)
Definition cap_of (L : Z -> Z) (k : nat) : list Z := map (fun j => layer L k (Z.of_nat j)) (seq 0 16).

Lemma path_length k : forall L i, length (path L k i) = k.
Proof. induction k as [|k IH]; intros L i; [reflexivity|]. cbn [path length]. now rewrite IH. Qed.
Lemma up_sibling L i : up L (i / 2) = if Z.odd i then TwoToOne (L (sibling i)) (L i) else TwoToOne (L i) (L (sibling i)).
Proof.
  unfold up, sibling. pose proof (Z.div_mod i 2 ltac:(lia)) as D. rewrite Zmod_odd in D.
  destruct (Z.odd i).
  - replace (2 * (i / 2)) with (i - 1) by lia. replace (i - 1 + 1) with i by lia. reflexivity.
  - replace (2 * (i / 2)) with i by lia. reflexivity.
Qed.
Lemma path_root k : forall L i, merkle_root (L i) i (path L k i) = layer L k (i / 2 ^ Z.of_nat k).
Proof.
  induction k as [|k IH]; intros L i; cbn [path merkle_root layer].
  - change (2 ^ Z.of_nat 0) with 1. now rewrite Z.div_1_r.
  - rewrite <- up_sibling, IH. rewrite Z.div_div by lia. rewrite Nat2Z.inj_succ, Z.pow_succ_r by lia. reflexivity.
Qed.
Lemma cap_nth L k j : 0 <= j < 16 -> nth (Z.to_nat j) (cap_of L k) 0 = layer L k j.
Proof.
  intros H. unfold cap_of. rewrite (nth_map_lt _ _ _ _ 0%nat) by (rewrite seq_length; lia).
  rewrite seq_nth by lia. f_equal. lia.
Qed.
Lemma cap_length L k : length (cap_of L k) = 16%nat. Proof. unfold cap_of. now rewrite map_length, seq_length. Qed.

(** ** Folding: c = sum_k X^(16 k) c_k(X), every c_k of degree < 16, becomes sum_k X^k c_k(beta) *)
Fixpoint fold_n (m : nat) (c : list K) (beta : K) : list K :=
  match m with O => [] | S m' => kpeval (firstn 16 c) beta :: fold_n m' (skipn 16 c) beta end.
Definition fold16 (c : list K) (beta : K) : list K := fold_n (length c / 16) c beta.
(** sum_k y^k c_k *)
Fixpoint rows (m : nat) (c : list K) (y : K) : list K :=
  match m with O => [] | S m' => paddl kadd (firstn 16 c) (pscale kmul y (rows m' (skipn 16 c) y)) end.

Lemma kpaddl c d x : kpeval (paddl kadd c d) x = (kpeval c x + kpeval d x)%K.
Proof. apply (paddl_eval k0 k1 kadd kmul ksub kopp K_ring). Qed.
Lemma kpscale a c x : kpeval (pscale kmul a c) x = (a * kpeval c x)%K.
Proof. apply (pscale_eval k0 k1 kadd kmul ksub kopp K_ring). Qed.
Lemma kpeval_app c d x : kpeval (c ++ d) x = (kpeval c x + x ^ N.of_nat (length c) * kpeval d x)%K.
Proof.
  unfold kpeval. induction c as [|a c IH]; cbn [app peval length].
  - change (N.of_nat 0) with 0%N. rewrite kpow_0. ring.
  - rewrite IH, Nat2N.inj_succ, kpow_succ. ring.
Qed.
Lemma rows_length m : forall c y, (length (rows m c y) <= 16)%nat.
Proof.
  induction m as [|m IH]; intros c y; cbn [rows]; [cbn; lia|].
  apply paddl_len; [rewrite firstn_length; lia|]. unfold pscale. now rewrite map_length.
Qed.
Lemma rows_eval m : forall c y x, kpeval (rows m c y) x = kpeval (fold_n m c x) y.
Proof.
  induction m as [|m IH]; intros c y x; cbn [rows fold_n]; [reflexivity|].
  rewrite kpaddl, kpscale, IH. reflexivity.
Qed.
Lemma fold_n_eval m : forall c x, length c = (16 * m)%nat -> kpeval (fold_n m c x) (x ^ 16)%K = kpeval c x.
Proof.
  induction m as [|m IH]; intros c x H.
  - destruct c; [reflexivity|cbn in H; lia].
  - cbn [fold_n]. rewrite <- (firstn_skipn 16 c) at 3. rewrite kpeval_app, firstn_length.
    replace (N.of_nat (Nat.min 16 (length c))) with 16%N by lia.
    rewrite <- (IH (skipn 16 c) x) by (rewrite skipn_length; lia). reflexivity.
Qed.
Lemma fold_n_length m : forall c x, length (fold_n m c x) = m.
Proof. induction m as [|m IH]; intros c x; [reflexivity|]. cbn [fold_n length]. now rewrite IH. Qed.
Lemma fold16_length c beta : length (fold16 c beta) = (length c / 16)%nat.
Proof. apply fold_n_length. Qed.

(** ** The commit phase *)
(** the sixteen values of the coset of number [t], in the order of the domain *)
Definition evals_at (s : GF) (n : nat) (c : list K) (t : Z) : list QE :=
  map (fun j => repK (kpeval c (emb (dom s n (16 * t + Z.of_nat j))))) (seq 0 16).
Definition coset_digest (s : GF) (n : nat) (c : list K) (t : Z) : Z := HashOrNoop (flat_evals (evals_at s n c t)).
Fixpoint commit_caps (s : GF) (n : nat) (c : list K) (betas : list K) : list FriMerkleCap :=
  match betas with
  | [] => []
  | beta :: betas' => cap_of (coset_digest s n c) (n - 8) :: commit_caps (s ^ 16)%GF (n - 4) (fold16 c beta) betas'
  end.
Fixpoint commit_steps (s : GF) (n : nat) (c : list K) (betas : list K) (i : Z) : list FriQueryStep :=
  match betas with
  | [] => []
  | beta :: betas' => mkFriQueryStep (evals_at s n c (i / 16)) (path (coset_digest s n c) (n - 8) (i / 16))
                      :: commit_steps (s ^ 16)%GF (n - 4) (fold16 c beta) betas' (i / 16)
  end.
Definition commit_final (c : list K) (betas : list K) : list K := fold_left fold16 betas c.
(** no beta is a point of the domain it is used on *)
Fixpoint betas_off (s : GF) (n : nat) (betas : list K) : Prop :=
  match betas with
  | [] => True
  | beta :: betas' => (forall i, beta <> emb (dom s n i)) /\ betas_off (s ^ 16)%GF (n - 4) betas'
  end.

Lemma evals_length s n c t : length (evals_at s n c t) = 16%nat.
Proof. unfold evals_at. now rewrite map_length, seq_length. Qed.
Lemma evals_nth s n c t j : (j < 16)%nat -> injK (nth j (evals_at s n c t) no_qe) = kpeval c (emb (dom s n (16 * t + Z.of_nat j))).
Proof.
  intros H. unfold evals_at. rewrite (nth_map_lt _ _ _ _ 0%nat) by now rewrite seq_length.
  rewrite seq_nth by assumption. apply injK_repK.
Qed.
Lemma kpow_emb16 x : (emb x ^ 16)%K = emb (x ^ 16)%GF. Proof. now rewrite emb_pow. Qed.
Lemma dom_coset_pow s n i j : (4 <= n)%nat -> (n <= TWO_ADICITY)%nat -> (j < 16)%nat ->
  (dom s n (16 * (i / 16) + Z.of_nat j) ^ 16 = dom (s ^ 16) (n - 4) (i / 16))%GF.
Proof.
  intros H4 Hn Hj. rewrite dom_fold by assumption. f_equal.
  rewrite Z.add_comm, (Z.mul_comm 16), Z.div_add, Z.div_small by lia. lia.
Qed.
Lemma honest_interpolant s n c i : (4 <= n)%nat -> (n <= TWO_ADICITY)%nat -> (length c mod 16 = 0)%nat ->
  interpolant s n i (evals_at s n c (i / 16)) (rows (length c / 16) c (emb (dom (s ^ 16)%GF (n - 4) (i / 16)))).
Proof.
  intros H4 Hn Hc. split; [apply rows_length|]. intros j Hj. rewrite evals_nth by assumption.
  rewrite rows_eval, <- (dom_coset_pow s n i j), <- kpow_emb16 by assumption. apply fold_n_eval.
  pose proof (Nat.div_mod (length c) 16 ltac:(lia)). lia.
Qed.

Theorem honest_chain betas : forall s n c i cidx,
  (n <= TWO_ADICITY)%nat -> (4 * length betas + 4 <= n)%nat -> (length c mod 16 ^ length betas = 0)%nat ->
  0 <= i < 2 ^ Z.of_nat n -> cidx = i / 2 ^ Z.of_nat (n - 4) -> betas_off s n betas ->
  chain_ok (commit_final c betas) cidx (commit_steps s n c betas i) betas (commit_caps s n c betas) s n i (kpeval c (emb (dom s n i))).
Proof.
  induction betas as [|beta betas IH]; intros s n c i cidx Hn Hl Hc Hi Hx Ho; cbn [commit_steps commit_caps chain_ok].
  - reflexivity.
  - destruct Ho as [Hb Ho]. cbn [length] in Hl, Hc.
    assert (Hm : (length c mod 16 = 0)%nat).
    { apply Nat.mod_divides in Hc; [|apply Nat.pow_nonzero; lia]. destruct Hc as (q & ->).
      cbn [Nat.pow]. rewrite <- Nat.mul_assoc, Nat.mul_comm. apply Nat.mod_mul. lia. }
    assert (Hq : i / 16 / 2 ^ Z.of_nat (n - 8) = cidx).
    { rewrite Z.div_div by lia. rewrite Hx. f_equal. replace (n - 4)%nat with (4 + (n - 8))%nat by lia.
      rewrite Nat2Z.inj_add, Z.pow_add_r by lia. reflexivity. }
    assert (Hr : 0 <= cidx < 16).
    { rewrite Hx. split; [apply Z.div_pos; lia|]. apply Z.div_lt_upper_bound; [lia|].
      change 16 with (2 ^ Z.of_nat 4). rewrite <- Z.pow_add_r, <- Nat2Z.inj_add by lia. replace (n - 4 + 4)%nat with n by lia. lia. }
    split; [apply cap_length|]. split.
    { cbn [Evals st_Siblings]. rewrite cap_nth by assumption. rewrite <- Hq. apply (path_root (n - 8) (coset_digest s n c)). }
    split.
    { cbn [Evals]. pose proof (Z.mod_pos_bound i 16 ltac:(lia)) as M. rewrite evals_nth by lia. rewrite Z2Nat.id by lia.
      rewrite <- Z.div_mod by lia. reflexivity. }
    split; [intros j _; apply Hb|].
    exists (rows (length c / 16) c (emb (dom (s ^ 16)%GF (n - 4) (i / 16)))). split.
    { cbn [Evals]. apply honest_interpolant; [lia|assumption|assumption]. }
    rewrite rows_eval. fold (fold16 c beta).
    change (commit_final c (beta :: betas)) with (commit_final (fold16 c beta) betas).
    apply IH; [lia|lia| | | |assumption].
    + rewrite fold16_length. apply Nat.mod_divides in Hc; [|apply Nat.pow_nonzero; lia]. destruct Hc as (q & ->).
      cbn [Nat.pow]. rewrite <- Nat.mul_assoc, (Nat.mul_comm 16), Nat.div_mul by lia.
      rewrite Nat.mul_comm. apply Nat.mod_mul. apply Nat.pow_nonzero. lia.
    + split; [apply Z.div_pos; lia|]. apply Z.div_lt_upper_bound; [lia|].
      change 16 with (2 ^ Z.of_nat 4). rewrite <- Z.pow_add_r, <- Nat2Z.inj_add by lia. replace (4 + (n - 4))%nat with n by lia. lia.
    + rewrite <- Hq. do 3 f_equal. lia.
Qed.

Lemma steps_length betas : forall s n c i, length (commit_steps s n c betas i) = length betas.
Proof. induction betas as [|b betas IH]; intros; [reflexivity|]. cbn [commit_steps length]. now rewrite IH. Qed.
Lemma honest_steps_shape betas : forall s n c i, (4 * length betas + 4 <= n)%nat ->
  steps_shape 4 (Z.of_nat n) (commit_steps s n c betas i) (repeat 4%nat (length betas)).
Proof.
  induction betas as [|b betas IH]; intros s n c i H; cbn [commit_steps length repeat steps_shape]; [exact I|].
  cbn [length] in H. cbn [Evals st_Siblings]. rewrite evals_length, path_length. split; [reflexivity|]. split; [lia|].
  replace (Z.of_nat n - Z.of_nat 4) with (Z.of_nat (n - 4)) by lia. apply IH. lia.
Qed.
Lemma canonQE_repK a : canonQE (repK a).
Proof. split; apply rep_range. Qed.
Lemma honest_steps_canon betas : forall s n c i, Forall (fun st => Forall canonQE (Evals st)) (commit_steps s n c betas i).
Proof.
  induction betas as [|b betas IH]; intros; cbn [commit_steps]; [apply Forall_nil|]. apply Forall_cons; [|apply IH].
  cbn [Evals]. unfold evals_at. apply Forall_forall. intros q Hq. apply in_map_iff in Hq. destruct Hq as (j & <- & _). apply canonQE_repK.
Qed.
Lemma caps_shape betas : forall s n c, Forall (fun cap : FriMerkleCap => length cap = 16%nat) (commit_caps s n c betas).
Proof. induction betas as [|b betas IH]; intros; cbn [commit_caps]; [apply Forall_nil|]. apply Forall_cons; [apply cap_length|apply IH]. Qed.
Lemma final_length betas : forall c, length (commit_final c betas) = (length c / 16 ^ length betas)%nat.
Proof.
  induction betas as [|b betas IH]; intros c; [symmetry; apply Nat.div_1_r|].
  change (commit_final c (b :: betas)) with (commit_final (fold16 c b) betas). rewrite IH, fold16_length.
  cbn [length Nat.pow]. apply Nat.div_div; [lia|apply Nat.pow_nonzero; lia].
Qed.

(** ** The polynomial whose codeword is folded *)
(** sum_i alpha^i f_i *)
Definition comb (alpha : K) (fs : list (list K)) : list K := fold_right (fun f acc => paddl kadd f (pscale kmul alpha acc)) [] fs.
Lemma comb_eval alpha fs x : kpeval (comb alpha fs) x = powers_sum (map (fun f => kpeval f x) fs) alpha.
Proof.
  induction fs as [|f fs IH]; cbn [comb fold_right map powers_sum]; [reflexivity|].
  fold (comb alpha fs). now rewrite kpaddl, kpscale, IH.
Qed.
Lemma comb_length alpha N fs : Forall (fun f => length f <= N)%nat fs -> (length (comb alpha fs) <= N)%nat.
Proof.
  induction 1 as [|f fs H F IH]; cbn [comb fold_right]; [cbn; lia|]. fold (comb alpha fs).
  apply paddl_len; [exact H|]. unfold pscale. now rewrite map_length.
Qed.
(** the quotient of f - f(z) by X - z *)
Definition kquot (f : list K) (z : K) : list K := psynth k0 kadd kmul f z.
Lemma kquot_eval f z x : x <> z -> kpeval (kquot f z) x = ((kpeval f x - kpeval f z) / (x - z))%K.
Proof.
  intros H. unfold kquot, kpeval. rewrite (psynth_spec k0 k1 kadd kmul ksub kopp K_ring f z x) at 1. field.
  intros E. now apply H, ksub_eq0.
Qed.

Section Batch.
  (** the polynomials of every oracle, over the base field *)
  Context (tables : list (list (list GF))).
  Definition poly_of (op : nat * nat) : list K := map emb (nth (snd op) (nth (fst op) tables []) []).
  Definition open_batches (points : list (K * list (nat * nat))) : list (list K) :=
    map (fun b : K * list (nat * nat) => map (fun op => kpeval (poly_of op) (fst b)) (snd b)) points.
  (** sum over the batches of alpha^(number of polynomials of the later batches) (F - F(z))/(X - z), F = sum_i alpha^i f_i *)
  Fixpoint batch_quotient (alpha : K) (points : list (K * list (nat * nat))) : list K :=
    match points with
    | [] => []
    | (z, polys) :: rest =>
        paddl kadd (pscale kmul (alpha ^ N.of_nat (length (flat_map snd rest)))%K (kquot (comb alpha (map poly_of polys)) z))
                   (batch_quotient alpha rest)
    end.
  (** with zeros up to N coefficients *)
  Definition pad (N : nat) (c : list K) : list K := c ++ repeat k0 (N - length c).
End Batch.
Lemma kpeval_zeros n x : kpeval (repeat k0 n) x = k0.
Proof. unfold kpeval. induction n as [|n IH]; cbn [repeat peval]; [reflexivity|]. rewrite IH. ring. Qed.
Lemma pad_eval N c x : kpeval (pad N c) x = kpeval c x.
Proof. unfold pad. rewrite kpeval_app, kpeval_zeros. ring. Qed.
Lemma pad_length N c : (length c <= N)%nat -> length (pad N c) = N.
Proof. intros H. unfold pad. rewrite app_length, repeat_length. lia. Qed.
Lemma quotient_length tables alpha N points :
  (forall op, length (poly_of tables op) <= N)%nat -> (length (batch_quotient tables alpha points) <= N)%nat.
Proof.
  intros H. induction points as [|[z polys] rest IH]; cbn [batch_quotient]; [cbn; lia|].
  apply paddl_len; [|exact IH]. unfold pscale, kquot. rewrite map_length, psynth_len.
  assert (L : (length (comb alpha (map (poly_of tables) polys)) <= N)%nat).
  { apply comb_length. apply Forall_forall. intros f Hf. apply in_map_iff in Hf. destruct Hf as (op & <- & _). apply H. }
  lia.
Qed.
Definition gpeval (f : list GF) (x : GF) : GF := peval g0 gadd gmul f x.
Lemma kpeval_emb f x : kpeval (map emb f) (emb x) = emb (gpeval f x).
Proof.
  unfold kpeval, gpeval. induction f as [|a f IH]; cbn [map peval]; [reflexivity|]. now rewrite IH, emb_add, emb_mul.
Qed.
Lemma flat_map_batches alpha points : forall openings, length openings = length points ->
  flat_map (fun b : K * list (nat * nat) * K => snd (fst b)) (fri_batches alpha points openings) = flat_map snd points.
Proof.
  unfold fri_batches. induction points as [|[z polys] points IH]; intros [|o openings] L; try discriminate L; [reflexivity|].
  cbn [map combine flat_map fst snd]. f_equal. apply IH. now injection L.
Qed.
Lemma combined_honest tables proof alpha (y : GF) points :
  (forall op, In op (flat_map snd points) -> leaf_value proof op = kpeval (poly_of tables op) (emb y)) ->
  (forall z polys, In (z, polys) points -> emb y <> z) ->
  combined proof alpha (emb y) (fri_batches alpha points (open_batches tables points)) =
  kpeval (batch_quotient tables alpha points) (emb y).
Proof.
  induction points as [|[z polys] rest IH]; intros HL HZ; [reflexivity|].
  cbn [batch_quotient]. rewrite kpaddl, kpscale, kquot_eval by (apply (HZ z polys), in_eq).
  rewrite <- IH.
  - change (fri_batches alpha ((z, polys) :: rest) (open_batches tables ((z, polys) :: rest))) with
      ((z, polys, powers_sum (map (fun op => kpeval (poly_of tables op) z) polys) alpha) :: fri_batches alpha rest (open_batches tables rest)).
    cbn [combined]. rewrite flat_map_batches by (unfold open_batches; now rewrite map_length).
    rewrite !comb_eval, !map_map. do 5 f_equal. apply map_ext_in. intros op Hop. apply HL. cbn [flat_map snd]. apply in_or_app. now left.
  - intros op Hop. apply HL. cbn [flat_map]. apply in_or_app. now right.
  - intros z' polys' H. apply (HZ z' polys'). now apply in_cons.
Qed.

Lemma in_combine_maps {A B C} (f : A -> B) (g : A -> C) l pc : In pc (combine (map f l) (map g l)) -> exists x, In x l /\ pc = (f x, g x).
Proof.
  induction l as [|a l IH]; [intros []|]. intros [<-|H]; [exists a; split; [apply in_eq|reflexivity]|].
  destruct (IH H) as (x & Hx & E). exists x. split; [now apply in_cons|exact E].
Qed.
Lemma in_combine_map_r {A B} (f : A -> B) l pc : In pc (combine l (map f l)) -> exists x, In x l /\ pc = (x, f x).
Proof. rewrite <- (map_id l) at 1. intros H. apply in_combine_maps in H. exact H. Qed.
Lemma in_combine_seq {A B} (f : nat -> B) (d : A) pc : forall l s, In pc (combine (map f (seq s (length l))) l) ->
  exists o, (o < length l)%nat /\ pc = (f (s + o)%nat, nth o l d).
Proof.
  induction l as [|a l IH]; intros s; cbn [length seq map combine]; [intros []|]. intros [<-|H].
  - exists 0%nat. split; [lia|]. rewrite Nat.add_0_r. reflexivity.
  - destruct (IH _ H) as (o & Ho & ->). exists (S o). split; [lia|]. rewrite Nat.add_succ_r. reflexivity.
Qed.

(** ** The proof *)
Section Proof.
  Context (tables : list (list (list GF))).
  (** what is appended to the leaf of index i of oracle o (the salt of a blinded oracle) *)
  Context (salts : nat -> Z -> list Z).
  Definition honest_leaf (n : nat) (o : nat) (i : Z) : list Z :=
    map (fun f => rep (gpeval f (dom g7 n i))) (nth o tables []) ++ salts o i.
  Definition leaf_digest (n o : nat) (i : Z) : Z := HashOrNoop (honest_leaf n o i).
  Definition honest_caps (n : nat) : list FriMerkleCap := map (fun o => cap_of (leaf_digest n o) (n - 4)) (seq 0 (length tables)).
  Definition honest_trees (n : nat) (i : Z) : list FriEvalProof :=
    map (fun o => mkFriEvalProof (honest_leaf n o i) (path (leaf_digest n o) (n - 4) i)) (seq 0 (length tables)).
  Definition honest_codeword (params : FriParams) (alpha : K) (points : list (K * list (nat * nat))) : list K :=
    pad (2 ^ fp_DegreeBits params) (batch_quotient tables alpha points).
  Definition honest_round (params : FriParams) (c betas : list K) (x : GF) : FriQueryRound :=
    let n := LdeBits params in
    let i := rep x mod 2 ^ Z.of_nat n in
    mkFriQueryRound (honest_trees n i) (commit_steps g7 n c betas i).
  Definition honest_fri (params : FriParams) (points : list (K * list (nat * nat))) (alpha : K) (betas : list K) (indices : list GF) (witness : Z) : FriProof :=
    let c := honest_codeword params alpha points in
    mkFriProof (commit_caps g7 (LdeBits params) c betas) (map (honest_round params c betas) indices) (map repK (commit_final c betas)) witness.

  Lemma trees_nth n i o : (o < length tables)%nat ->
    nth o (honest_trees n i) no_eval = mkFriEvalProof (honest_leaf n o i) (path (leaf_digest n o) (n - 4) i).
  Proof.
    intros H. unfold honest_trees. rewrite (nth_map_lt _ _ _ _ 0%nat) by now rewrite seq_length. now rewrite seq_nth.
  Qed.
  Lemma leaf_nth n o i j : (j < length (nth o tables []))%nat ->
    nth j (honest_leaf n o i) 0 = rep (gpeval (nth j (nth o tables []) []) (dom g7 n i)).
  Proof.
    intros H. unfold honest_leaf. rewrite app_nth1 by now rewrite map_length.
    now rewrite (nth_map_lt _ _ _ _ (@nil GF)).
  Qed.
  Definition poly_in (op : nat * nat) : Prop := (fst op < length tables /\ snd op < length (nth (fst op) tables []))%nat.
  Lemma honest_leaf_value n i op : poly_in op -> leaf_value (honest_trees n i) op = kpeval (poly_of tables op) (emb (dom g7 n i)).
  Proof.
    intros [H1 H2]. unfold leaf_value. rewrite trees_nth by assumption. cbn [Elements]. rewrite leaf_nth by assumption.
    rewrite inj_rep. unfold poly_of. now rewrite kpeval_emb.
  Qed.
  Lemma honest_initial n i : (4 <= n)%nat -> 0 <= i < 2 ^ Z.of_nat n ->
    initial_ok i (i / 2 ^ Z.of_nat (n - 4)) (honest_trees n i) (honest_caps n).
  Proof.
    intros H4 Hi. unfold initial_ok, honest_trees, honest_caps. rewrite !map_length. split; [reflexivity|].
    assert (Hr : 0 <= i / 2 ^ Z.of_nat (n - 4) < 16).
    { split; [apply Z.div_pos; lia|]. apply Z.div_lt_upper_bound; [lia|].
      change 16 with (2 ^ Z.of_nat 4). rewrite <- Z.pow_add_r, <- Nat2Z.inj_add by lia. replace (n - 4 + 4)%nat with n by lia. lia. }
    apply Forall_forall. intros pc Hpc.
    apply in_combine_maps in Hpc. destruct Hpc as (o & _ & ->).
    cbn [fst snd Elements ep_Siblings]. split; [apply cap_length|]. rewrite cap_nth by assumption.
    apply (path_root (n - 4) (leaf_digest n o)).
  Qed.
End Proof.

(** parameters with reductions by 16 and caps of 16 digests, the only ones ever accepted *)
Definition honest_params (params : FriParams) (k : nat) : Prop :=
  (RateBits (fp_Config params) <= 15)%nat /\ CapHeight (fp_Config params) = 4%nat /\ (ProofOfWorkBits (fp_Config params) <= 64)%nat /\
  ReductionArityBits params = repeat 4%nat k /\ (4 * k <= fp_DegreeBits params)%nat /\ (4 * k + 4 <= LdeBits params <= 32)%nat.
(** the polynomials are those of the oracles and have degree < 2^DegreeBits; blinded oracles carry four field elements of salt *)
Definition honest_tables (params : FriParams) (oracles : list OracleInfo) (tables : list (list (list GF))) (salts : nat -> Z -> list Z) : Prop :=
  length tables = length oracles /\
  Forall (Forall (fun f => length f <= 2 ^ fp_DegreeBits params)%nat) tables /\
  forall o, (o < length oracles)%nat ->
    let orc := nth o oracles (mkOracleInfo 0 false) in
    length (nth o tables []) = NumPolys orc /\
    forall i, length (salts o i) = (if Blinding orc && Hiding params then 4 else 0)%nat /\ Forall canonZ (salts o i).

Lemma list_sum_repeat a k : list_sum (repeat a k) = (a * k)%nat.
Proof. induction k as [|k IH]; cbn [repeat]; [cbn; lia|]. change (list_sum (a :: repeat a k)) with (a + list_sum (repeat a k))%nat. lia. Qed.
Lemma shl_small n : n < 63 -> shl_int n = 2 ^ n.
Proof. intros H. unfold shl_int. now rewrite (proj2 (Z.ltb_lt _ _) H). Qed.
Lemma pow16 k : (16 ^ k = 2 ^ (4 * k))%nat.
Proof. rewrite Nat.pow_mul_r. reflexivity. Qed.
Lemma poly_of_length params oracles tables salts op : honest_tables params oracles tables salts ->
  (length (poly_of tables op) <= 2 ^ fp_DegreeBits params)%nat.
Proof.
  intros (_ & H & _). unfold poly_of. rewrite map_length.
  destruct (nth_in_or_default (fst op) tables []) as [Hi|E].
  - rewrite Forall_forall in H. specialize (H _ Hi). rewrite Forall_forall in H.
    destruct (nth_in_or_default (snd op) (nth (fst op) tables []) []) as [Hj|E]; [now apply H|]. rewrite E. cbn. lia.
  - rewrite E. destruct (snd op); cbn; lia.
Qed.

Theorem honest_fri_ok params oracles tables salts points alpha betas pow indices witness :
  honest_params params (length betas) -> honest_tables params oracles tables salts ->
  Forall (poly_in tables) (flat_map snd points) ->
  betas_off g7 (LdeBits params) betas ->
  (forall x z polys, In x indices -> In (z, polys) points -> emb (dom g7 (LdeBits params) (rep x mod 2 ^ Z.of_nat (LdeBits params))) <> z) ->
  length indices = NumQueryRounds (fp_Config params) ->
  rep pow < 2 ^ (64 - Z.of_nat (ProofOfWorkBits (fp_Config params))) ->
  let proof := honest_fri tables salts params points alpha betas indices witness in
  canon_fri proof /\
  fri_ok params oracles points (open_batches tables points) alpha betas pow indices (honest_caps tables salts (LdeBits params)) proof.
Proof.
  intros (Hr & Hc & Hw & Ha & Hk & Hn) HT Hp Hb Hz Hi Hpow. cbv zeta.
  set (n := LdeBits params) in *. set (d := fp_DegreeBits params) in *.
  unfold honest_fri. set (c := honest_codeword tables params alpha points).
  assert (Lc : length c = (2 ^ d)%nat).
  { unfold c, honest_codeword. apply pad_length. apply quotient_length. intros op. now apply (poly_of_length params oracles tables salts). }
  assert (T : TotalArities params = (4 * length betas)%nat) by (unfold TotalArities; now rewrite Ha, list_sum_repeat).
  assert (Lf : length (commit_final c betas) = (2 ^ (d - 4 * length betas))%nat).
  { rewrite final_length, Lc, pow16. rewrite Nat.pow_sub_r by lia. reflexivity. }
  destruct HT as (Lt & Hd & HT).
  split; [|split; [|split; [exact Hw|split; [exact Hpow|split; [cbn [QueryRoundProofs]; now rewrite map_length|split; [exact Hi|]]]]]].
  - split.
    + cbn [QueryRoundProofs]. apply Forall_forall. intros rd Hrd. apply in_map_iff in Hrd. destruct Hrd as (x & <- & _).
      split; [|apply honest_steps_canon]. cbn [InitialTreesProof honest_round]. unfold canon_leaves, honest_trees.
      apply Forall_forall. intros e He. apply in_map_iff in He. destruct He as (o & <- & Ho). apply in_seq in Ho.
      cbn [Elements]. unfold honest_leaf. apply Forall_app. split.
      * apply Forall_forall. intros v Hv. apply in_map_iff in Hv. destruct Hv as (f & <- & _). apply rep_range.
      * apply (HT o). lia.
    + cbn [FinalPoly]. apply Forall_forall. intros q Hq. apply in_map_iff in Hq. destruct Hq as (a & <- & _). apply canonQE_repK.
  - unfold fri_shape. cbn [CommitPhaseMerkleCaps QueryRoundProofs FinalPoly]. rewrite Hc, T. split; [|split; [|split; [exact Hk|]]].
    + eapply Forall_impl; [|apply caps_shape]. cbn beta. intros cap ->. reflexivity.
    + apply Forall_forall. intros rd Hrd. apply in_map_iff in Hrd. destruct Hrd as (x & <- & _).
      unfold honest_round. fold n. set (i := rep x mod 2 ^ Z.of_nat n). unfold round_shape. cbn [InitialTreesProof Steps].
      unfold honest_trees. rewrite map_length, seq_length. split; [exact Lt|]. split.
      * apply Forall_forall. intros eo Heo. rewrite Lt in Heo. apply (in_combine_seq _ (mkOracleInfo 0 false)) in Heo.
        destruct Heo as (o & Ho & ->). cbn [fst snd Nat.add Elements ep_Siblings]. destruct (HT o Ho) as [HN HS].
        unfold honest_leaf. rewrite app_length, map_length, HN, (proj1 (HS i)), path_length, Hc. split; [reflexivity|]. fold n. lia.
      * rewrite Hc, Ha. apply honest_steps_shape. fold n. lia.
    + rewrite map_length, Lf. fold d. rewrite shl_small, pow2_nat_Z; [reflexivity|]. unfold n, LdeBits in Hn. fold d in Hn. lia.
  - cbn [QueryRoundProofs]. apply Forall_forall. intros xr Hxr. apply in_combine_map_r in Hxr. destruct Hxr as (x & Hx & ->).
    cbn [fst snd]. unfold query_ok. fold n. unfold honest_round. fold n. set (i := rep x mod 2 ^ Z.of_nat n).
    cbn [InitialTreesProof Steps FinalPoly CommitPhaseMerkleCaps].
    assert (Ri : 0 <= i < 2 ^ Z.of_nat n) by (apply Z.mod_pos_bound; lia).
    assert (Hpi : forall op, In op (flat_map snd points) -> poly_in tables op) by (apply Forall_forall; exact Hp).
    split; [exact Hr|]. split; [unfold TWO_ADICITY; lia|]. split; [exact Hc|]. split; [rewrite Ha; apply Forall_forall; intros a; apply repeat_spec|].
    split; [apply honest_initial; [lia|exact Ri]|]. split.
    + unfold combine_cond, fri_batches. apply Forall_forall. intros b Hb'. destruct b as [[z polys] o]. apply in_combine_l in Hb'.
      cbn [fst snd]. split; [|now apply (Hz x z polys)]. apply Forall_forall. intros op Hop.
      assert (P : poly_in tables op). { apply Hpi. apply in_flat_map. exists (z, polys). split; [exact Hb'|exact Hop]. }
      destruct P as [P1 P2]. unfold honest_trees at 1. rewrite map_length, seq_length. split; [exact P1|].
      rewrite trees_nth by exact P1. cbn [Elements]. unfold honest_leaf. rewrite app_length, map_length. lia.
    + rewrite combined_honest with (tables := tables).
      * rewrite <- (pad_eval (2 ^ d)). fold (honest_codeword tables params alpha points). fold c.
        rewrite map_map. replace (map (fun x0 : K => injK (repK x0)) (commit_final c betas)) with (commit_final c betas).
        2:{ rewrite <- map_id at 1. apply map_ext. intros a. now rewrite injK_repK. }
        apply (honest_chain betas g7 n c); [unfold TWO_ADICITY; lia|lia| |exact Ri|reflexivity|exact Hb].
        rewrite Lc, pow16. replace d with (4 * length betas + (d - 4 * length betas))%nat by lia.
        rewrite Nat.pow_add_r, Nat.mul_comm. apply Nat.mod_mul. apply Nat.pow_nonzero. lia.
      * intros op Hop. apply honest_leaf_value. now apply Hpi.
      * intros z polys Hzp. now apply (Hz x z polys).
Qed.
