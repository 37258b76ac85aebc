(** * Properties C18-C21: Goldilocks Poseidon, the sponge, the extension layers.

    [poseidon] is the textbook permutation (PoseidonGLProofs.v: round constants,
    x^7, circulant + diagonal matrix, 4 + 22 + 4 rounds, no fast constants). *)
From Coq Require Import String.
From Coq Require Import ZArith Lia List Bool.
From Verif Require Import Zp GF Circuit Goldilocks GLProofs ExtProofs LinAlg PoseidonGLConst PoseidonSpec
  PoseidonGL PoseidonGLProofs Sponge PoseidonExt.
Import ListNotations.
Open Scope Z_scope.

Lemma canon_list s : Forall (fun x => 0 <= x < p) s -> exists g, s = map rep g.
Proof.
  induction 1 as [|x s Hx _ [g ->]]; [now exists []|].
  destruct (canon_rep_exists x Hx) as [a <-]. now exists (a :: g).
Qed.

Lemma Done_inj {A} (a b : A) : Done a = Done b -> a = b. Proof. now injection 1. Qed.

(** C18: honest execution succeeds on every canonical state and gives the
    textbook permutation. *)
Theorem C18_poseidon_textbook s :
  length s = 12%nat -> Forall (fun x => 0 <= x < p) s ->
  run (Poseidon s) = Done (map rep (poseidon (map inj s))).
Proof.
  intros L H. destruct (canon_list s H) as [g ->]. rewrite map_length in L. rewrite unrep.
  exact (denotes_run _ _ _ _ (poseidon_denotes 192 g L) ltac:(lia)).
Qed.
(** the specification itself is spelled out by its rounds *)
Theorem C18_spec_rounds s t :
  t = poseidon s <->
  exists u v,
    chain (map (fun k a b => b = mds_g (map (fun x => x ^ 7)%GF (add_rc_g k a))) (seq 0 4)) s u /\
    chain (map (fun k a b => b = mds_g ((hd g0 (add_rc_g k a) ^ 7)%GF :: tl (add_rc_g k a))) (seq 4 22)) u v /\
    chain (map (fun k a b => b = mds_g (map (fun x => x ^ 7)%GF (add_rc_g k a))) (seq 26 4)) v t.
Proof.
  assert (C : forall (f : list GF -> nat -> list GF) l a b,
     chain (map (fun k a b => b = f a k) l) a b <-> b = fold_left f l a).
  { intros f l. induction l as [|k l IH]; intros a b; cbn [map chain fold_left]; [reflexivity|]. split.
    - intros (u & -> & H). now apply IH.
    - intros ->. eexists. split; [reflexivity|]. now apply IH. }
  split.
  - intros ->. do 2 eexists.
    split; [apply (C (fun s k => full_round_fn k s)); reflexivity|].
    split; [apply (C (fun s k => partial_round_fn k s)); reflexivity|].
    apply (C (fun s k => full_round_fn k s)). reflexivity.
  - intros (u & v & H1 & H2 & H3).
    apply (C (fun s k => full_round_fn k s)) in H1. apply (C (fun s k => partial_round_fn k s)) in H2.
    apply (C (fun s k => full_round_fn k s)) in H3. now subst.
Qed.
(** the repository's test vector, through the theorem *)
Example C18_zero : map rep (poseidon (repeat g0 12)) =
   [4330397376401421145; 14124799381142128323; 8742572140681234676; 14345658006221440202;
    15524073338516903644; 5091405722150716653; 15002163819607624508; 2047012902665707362;
    16106391063450633726; 4680844749859802542; 15019775476387350140; 1698615465718385111].
Proof.
  pose proof (denotes_run _ _ _ _ (poseidon_denotes 192 (repeat g0 12) eq_refl) ltac:(lia)) as E.
  pose proof poseidon_zero as V. unfold Poseidon, SBOX_BITS in V.
  change (map rep (repeat g0 12)) with (repeat 0 12) in E. rewrite V in E. exact (eq_sym (Done_inj _ _ E)).
Qed.

(** C19: false of the code.  With the S-box width 192 a prover can replace one
    hint answer and obtain a different output for the same input. *)
Definition C19_forged_hint : list Z :=
  let x := at_ ALL_ROUND_CONSTANTS 0 in [(x * x * x + r) / p; (x * x * x + r) mod p].
Theorem C19_single_output_refuted :
  exists s t t', length s = 12%nat /\ Forall (fun x => 0 <= x < p) s /\
    reach (Poseidon s) t /\ reach (Poseidon s) t' /\ t <> t'.
Proof.
  exists (repeat 0 12).
  exists [4330397376401421145; 14124799381142128323; 8742572140681234676; 14345658006221440202;
    15524073338516903644; 5091405722150716653; 15002163819607624508; 2047012902665707362;
    16106391063450633726; 4680844749859802542; 15019775476387350140; 1698615465718385111].
  exists [18238748136366269069; 16295756127863836493; 2403696898850601839;
          984360993995126439; 5787871697081076314; 2428066074285341504;
          8245092917531146810; 12402473303430046845; 7120379380529286275;
          15506815946751507017; 1154233478355614467; 14570185606433058058].
  split; [reflexivity|]. split; [repeat (constructor; [split; reflexivity || discriminate|]); constructor|].
  split; [apply run_reach, poseidon_zero|]. split; [|discriminate].
  apply (exec_reach _ (repeat None 36 ++ [Some C19_forged_hint])). vm_compute. reflexivity.
Qed.

(** The exact set of outputs with the width of the code: each of the two
    reductions in each S-box may be off by k*r for 0 <= k <= 5. *)
Theorem C19_exact_outputs s t :
  length s = 12%nat -> Forall (fun x => 0 <= x < p) s ->
  (reach (Poseidon s) t <->
   exists g, t = map rep g /\ poseidon_rel g0 gadd gmul idg sbox_wrapped (map inj s) g).
Proof.
  intros L H. destruct (canon_list s H) as [g ->]. rewrite map_length in L. rewrite unrep.
  rewrite (denR_reach _ _ _ _ _ t (poseidon_denR SBOX_BITS g L)).
  split; intros (x & -> & Hx); exists x; split; auto; now apply perm_192.
Qed.
(** Partial: the claim holds for every S-box width between 128 and 189 (with 189
    or less, quotient * p + remainder cannot wrap around r).  Missing: the width
    192 that the code passes. *)
Theorem C19_single_output_partial w s :
  128 <= w <= 189 -> length s = 12%nat -> Forall (fun x => 0 <= x < p) s ->
  computes (Poseidon_w w s) (map rep (poseidon (map inj s))).
Proof.
  intros Hw L H. destruct (canon_list s H) as [g ->]. rewrite map_length in L. rewrite unrep.
  apply (denR_computes_of (map rep) _ (128 <= w)); [lia|].
  eapply denR_iff; [apply (poseidon_denR w g L)| |tauto|reflexivity].
  intros t. now apply perm_sound.
Qed.
(** the forged hint is rejected at width 128 *)
Example C19_w128_forged : exec (Poseidon_w 128 (repeat 0 12)) (repeat None 36 ++ [Some C19_forged_hint]) = Unsat.
Proof. vm_compute. reflexivity. Qed.

(** C20: completeness of the code's sponge, for every length and output count. *)
Theorem C20_sponge_honest input n :
  Forall (fun x => 0 <= x < p) input -> (1 <= n)%nat ->
  run (HashNToMNoPad input n) = Done (map rep (sponge g0 poseidon (map inj input) n)).
Proof.
  intros H Hn. destruct (canon_list input H) as [g ->]. rewrite unrep.
  exact (denR_run _ _ _ _ _ (hash_n_to_m_denR SBOX_BITS g n Hn) ltac:(unfold SBOX_BITS; lia)).
Qed.
(** exactly n elements come out *)
Lemma squeeze_fn_length k : forall s, length s = 12%nat -> length (squeeze_fn poseidon k s) = (8 * S k)%nat.
Proof.
  induction k as [|k IH]; intros s Hs; cbn [squeeze_fn].
  - rewrite firstn_length, Hs. reflexivity.
  - rewrite app_length, firstn_length, IH, Hs by apply poseidon_len. cbn [Nat.min]. lia.
Qed.
Lemma absorb_fn_length input : length (absorb_fn poseidon input (repeat g0 12)) = 12%nat.
Proof.
  unfold absorb_fn. generalize (chunks 8 input). intros l. clear input.
  assert (G : forall s, length s = 12%nat -> length (fold_left (fun s c => poseidon (overwrite c s)) l s) = 12%nat).
  { induction l as [|c l IH]; intros s Hs; cbn [fold_left]; [exact Hs|]. apply IH, poseidon_len. }
  now apply G.
Qed.
Theorem C20_output_count input n : (1 <= n)%nat -> length (sponge g0 poseidon input n) = n.
Proof.
  intros Hn. unfold sponge. rewrite firstn_length, squeeze_fn_length by apply absorb_fn_length.
  apply Nat.min_l. pose proof (Nat.div_mod (n - 1) 8 ltac:(lia)) as D.
  pose proof (Nat.mod_upper_bound (n - 1) 8 ltac:(lia)). lia.
Qed.
(** the blocks are the input, in order, at most 8 elements each *)
Theorem C20_blocks (input : list GF) :
  concat (chunks 8 input) = input /\ Forall (fun c => (1 <= length c <= 8)%nat) (chunks 8 input).
Proof.
  split; [apply chunks_concat; unfold chunks; lia|].
  apply Forall_forall. intros c Hc. eapply chunks_length; [|exact Hc]. lia.
Qed.
(** HashNoPad depends only on the residues of its inputs, which may be unreduced *)
Theorem C20_hash_no_pad input :
  Forall (fun x => 0 <= x < 2 ^ 144 * p) input ->
  run (HashNoPad input) = Done (map rep (sponge g0 poseidon (map inj input) 4)).
Proof.
  intros H. exact (denR_run _ _ _ _ _ (hash_no_pad_denR SBOX_BITS input H) ltac:(unfold SBOX_BITS; lia)).
Qed.
(** Partial uniqueness: at sound S-box widths the sponge output is the only
    satisfying value.  Missing: width 192, where C19 is refuted. *)
Theorem C20_unique_partial w input n :
  128 <= w <= 189 -> Forall (fun x => 0 <= x < 2 ^ 144 * p) input -> (1 <= n)%nat ->
  computes (HashNoPad_w w input) (map rep (sponge g0 poseidon (map inj input) 4)) /\
  (Forall (fun x => 0 <= x < p) input ->
   computes (HashNToMNoPad_w w input n) (map rep (sponge g0 poseidon (map inj input) n))).
Proof.
  intros Hw H Hn. split.
  - apply (denR_computes_of (map rep) _ (128 <= w)); [lia|].
    eapply denR_iff; [apply (hash_no_pad_denR w input H)| |tauto|reflexivity]. intros o. now apply sponge_sound.
  - intros HC. destruct (canon_list input HC) as [g ->]. rewrite unrep.
    apply (denR_computes_of (map rep) _ (128 <= w)); [lia|].
    eapply denR_iff; [apply (hash_n_to_m_denR w g n Hn)| |tauto|reflexivity]. intros o. now apply sponge_sound.
Qed.
(** the exact outputs of the code's HashNoPad, for every prover *)
Theorem C20_exact_outputs input out :
  Forall (fun x => 0 <= x < 2 ^ 144 * p) input ->
  (reach (HashNoPad input) out <->
   exists g, out = map rep g /\ sponge_rel g0 (poseidon_rel g0 gadd gmul idg (Sbox_rel 192)) (map inj input) 4 g).
Proof. intros H. exact (denR_reach _ _ _ _ _ out (hash_no_pad_denR SBOX_BITS input H)). Qed.
(** asking for no output does not terminate *)
Theorem C20_zero_outputs input : ~ sat (HashNToMNoPad input 0).
Proof.
  intros [t Ht]. apply reach_bind in Ht. destruct Ht as (s & _ & Hs). exact Hs.
Qed.
Example C20_vector : map rep (sponge g0 poseidon (map inj [0; 1; 3736710860384812976]) 4)
  = [8416658900775745054; 12574228347150446423; 9629056739760131473; 3119289788404190010].
Proof.
  pose proof (C20_hash_no_pad [0; 1; 3736710860384812976]) as E. rewrite hash_no_pad_vector in E.
  assert (H : Done [8416658900775745054; 12574228347150446423; 9629056739760131473; 3119289788404190010]
    = Done (map rep (sponge g0 poseidon (map inj [0; 1; 3736710860384812976]) 4))).
  { apply E. repeat constructor; discriminate. }
  exact (eq_sym (Done_inj _ _ H)).
Qed.
(** the residues only: an unreduced input *)
Example C20_unreduced : run (HashNoPad [p; p + 1; 3736710860384812976]) = run (HashNoPad [0; 1; 3736710860384812976]).
Proof.
  rewrite !C20_hash_no_pad by (repeat constructor; discriminate).
  replace (map inj [p; p + 1; 3736710860384812976]) with (map inj [0; 1; 3736710860384812976]); [reflexivity|].
  cbn [map]. rewrite inj_add, inj_p, g0_inj. repeat apply f_equal2; auto; now apply GF_eq.
Qed.
(** two blocks in, two blocks out *)
Example C20_two_blocks : exists o, run (HashNToMNoPad (map Z.of_nat (seq 0 11)) 13) = Done o /\ length o = 13%nat.
Proof.
  eexists. split; [apply C20_sponge_honest; [repeat constructor; discriminate|lia]|].
  rewrite map_length. apply C20_output_count. lia.
Qed.
(** no padding: a trailing zero in the last block is invisible when the state is
    zero there (first block), so inputs of different lengths collide *)
Theorem C20_length_extension_collision : forall input, (length input < 8)%nat ->
  sponge g0 poseidon (input ++ [g0]) 4 = sponge g0 poseidon input 4 \/ input = [].
Proof.
  intros input L. destruct input as [|x input]; [now right|left].
  unfold sponge, absorb_fn.
  assert (E : forall l : list GF, (1 <= length l <= 8)%nat -> chunks 8 l = [l]).
  { intros l Hl. unfold chunks. destruct l as [|y l]; [cbn in Hl; lia|]. cbn [length chunks_].
    rewrite firstn_all2, skipn_all2 by lia. f_equal. now destruct (length l). }
  rewrite !E by (rewrite ?app_length; cbn [length] in *; lia).
  assert (O : overwrite ((x :: input) ++ [g0]) (repeat g0 12) = overwrite (x :: input) (repeat g0 12)).
  { unfold overwrite. rewrite app_length. cbn [length Nat.add] in *.
    assert (S : forall n, (n < 12)%nat -> skipn n (repeat g0 12) = g0 :: skipn (n + 1) (repeat g0 12)).
    { intros n Hn. do 12 (destruct n as [|n]; [reflexivity|]). lia. }
    rewrite <- app_assoc. rewrite (S (Datatypes.S (length input))) by lia. reflexivity. }
  cbn [fold_left]. rewrite O. reflexivity.
Qed.

(** C21: the extension layers compute the layers of the permutation over K, with
    constants embedded. *)
Theorem C21_extension_layers v k i :
  length v = 12%nat -> (k < 30)%nat -> (i < 22)%nat ->
  computes (ConstantLayerExtension (map repK v) k) (map repK (add_rc kadd emb k v)) /\
  computes (SBoxLayerExtension (map repK v)) (map repK (map (fun x => x ^ 7)%K v)) /\
  computes (MdsLayerExtension (map repK v)) (map repK (mds k0 kadd kmul emb v)) /\
  computes (PartialFirstConstantLayerExtension (map repK v)) (map repK (vadd kadd v (map emb FC))) /\
  computes (MdsPartialLayerInitExtension (map repK v)) (map repK (fast_init k0 kadd kmul emb v)) /\
  computes (MdsPartialLayerFastExtension (map repK v) i) (map repK (fast_mds k0 kadd kmul emb i v)).
Proof.
  intros Hv Hk Hi. split; [now apply constant_layer_ext_correct|].
  split; [apply sbox_layer_ext_correct|]. split; [now apply mds_layer_ext_correct|].
  split; [now apply partial_first_ext_correct|]. split; [now apply init_ext_correct|now apply fast_ext_correct].
Qed.
(** the matrix applied by MdsLayerExtension, entry by entry *)
Theorem C21_mds_entries v i : length v = 12%nat -> (i < 12)%nat ->
  nth i (mds k0 kadd kmul emb v) k0 =
  (fold_left (fun acc j => acc + nth ((j + i) mod 12) v k0 * emb (inj (nth j MDS_MATRIX_CIRC 0%Z))) (seq 0 12) k0
   + nth i v k0 * emb (inj (nth i MDS_MATRIX_DIAG 0%Z)))%K.
Proof.
  intros Hv Hi. symmetry. exact (mds_row k0 k1 kadd kmul ksub kopp K_ring emb eq_refl emb_add v i Hv Hi).
Qed.
(** on embedded base field states they agree with the base field layers *)
Theorem C21_embedded v k : length v = 12%nat -> (k < 30)%nat ->
  (exists o, run (mdsLayer (map rep v)) = Done o /\
             run (MdsLayerExtension (map (fun x => (x, 0)) (map rep v))) = Done (map (fun x => (x, 0)) o)) /\
  (exists o, run (constantLayer (map rep v) k) = Done o /\
             run (ConstantLayerExtension (map (fun x => (x, 0)) (map rep v)) k) = Done (map (fun x => (x, 0)) o)).
Proof.
  intros Hv Hk.
  assert (E : forall u, map (fun x : Z => (x, 0)) (map rep u) = map repK (map emb u)).
  { intros u. rewrite !map_map. reflexivity. }
  split; eexists; rewrite E.
  - split; [apply computes_run, mds_layer_correct; exact Hv|].
    rewrite E, <- mds_emb. apply computes_run, mds_layer_ext_correct. now rewrite map_length.
  - split; [apply computes_run, constant_layer_correct; auto|].
    rewrite E, <- add_rc_emb. apply computes_run, constant_layer_ext_correct; auto. now rewrite map_length.
Qed.
Example C21_case : exists o, run (MdsLayerExtension (map (fun i => (Z.of_nat i, p - 1)) (seq 0 12))) = Done o
  /\ nth 0 o (0, 0) = (1496, p - 264).
Proof. eexists. split; [vm_compute; reflexivity|]. vm_compute. reflexivity. Qed.

Print Assumptions C18_poseidon_textbook.
Print Assumptions C18_spec_rounds.
Print Assumptions C19_single_output_refuted.
Print Assumptions C19_exact_outputs.
Print Assumptions C19_single_output_partial.
Print Assumptions C20_sponge_honest.
Print Assumptions C20_output_count.
Print Assumptions C20_blocks.
Print Assumptions C20_hash_no_pad.
Print Assumptions C20_unique_partial.
Print Assumptions C20_exact_outputs.
Print Assumptions C20_zero_outputs.
Print Assumptions C20_length_extension_collision.
Print Assumptions C21_extension_layers.
Print Assumptions C21_mds_entries.
Print Assumptions C21_embedded.
