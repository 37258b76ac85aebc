(** * Gate filters and the sum over all gates (evaluate_gates.go). *)
From Coq Require Import String.
From Coq Require Import ZArith NArith Lia List Bool Ring.
From Verif Require Import Zp GF Circuit Goldilocks GLProofs ExtProofs Types Challenger Fri FriMerkle FriEval Gates GateProofs.
Import ListNotations.
Open Scope Z_scope.
Open Scope circ_scope.

(** product over a list *)
Definition kprod (l : list K) : K := fold_right kmul k1 l.
Definition ksum (l : list K) : K := fold_right kadd k0 l.
Lemma kprod_app a b : kprod (a ++ b) = (kprod a * kprod b)%K.
Proof. induction a as [|x a IH]; cbn [app kprod fold_right]; [unfold kprod; ring|]. fold (kprod (a ++ b)) (kprod a). rewrite IH. ring. Qed.
Lemma kprod_eq0 l : kprod l = k0 <-> In k0 l.
Proof.
  induction l as [|x l IH]; cbn [kprod fold_right In].
  - split; [intros E; exfalso; apply (f_equal fst) in E; now apply g1_neq_g0|tauto].
  - fold (kprod l). rewrite <- IH. split; [intros E; apply kmul_eq0 in E; tauto|].
    intros [-> | ->]; ring.
Qed.
Lemma kprod_fold {A} (f : A -> K) l : forall a, fold_left (fun acc x => (acc * f x)%K) l a = (a * kprod (map f l))%K.
Proof.
  induction l as [|x l IH]; intros a; cbn [fold_left map kprod fold_right]; [unfold kprod; cbn; ring|]. fold (kprod (map f l)). rewrite IH. ring.
Qed.
Definition kz (z : Z) : K := emb (inj z).

Definition others_of (row a b : nat) : list nat := filter (fun i => negb (Nat.eqb i row)) (seq a (b - a)).
Definition filter_k (row : nat) (group : nat * nat) (s : K) (many : bool) : K :=
  (kprod (map (fun i => (kz (Z.of_nat i) - s)%K) (others_of row (fst group) (snd group))) *
   (if many then kz UNUSED_SELECTOR - s else k1))%K.

Lemma small_kz x : 0 <= x < p -> (x, Zero) = repK (kz x).
Proof. intros H. unfold kz, repK, emb. cbn [fst snd]. rewrite rep_inj_small by exact H. reflexivity. Qed.
Lemma filter_computes row group s many : Z.of_nat (snd group) <= p ->
  computes (computeFilter row group (repK s) many) (repK (filter_k row group s many)).
Proof.
  intros Hb. destruct group as [a b]. cbn [fst snd] in *. unfold computeFilter, filter_k, others_of. cbn [fst snd].
  assert (F : forall l acc, (forall i, In i l -> Z.of_nat i < p) ->
    computes (foldM (fun product i => if Nat.eqb i row then Ret product
                      else t <- SubExtension (Z.of_nat i, Zero) (repK s);; MulExtension product t) (repK acc) l)
             (repK (acc * kprod (map (fun i => (kz (Z.of_nat i) - s)%K) (filter (fun i => negb (Nat.eqb i row)) l)))%K)).
  { induction l as [|i l IH]; intros acc Hl; cbn [foldM filter].
    - eapply computes_eq; [apply computes_ret|]. f_equal. unfold kprod. cbn. ring.
    - pose proof (Hl i (in_eq _ _)) as Hi. assert (Hl' : forall i, In i l -> Z.of_nat i < p) by (intros; apply Hl; now right).
      destruct (Nat.eqb i row); cbn [negb].
      + eapply computes_bind; [apply computes_ret|]. now apply IH.
      + eapply computes_bind.
        * rewrite small_kz by lia. eapply computes_bind; [apply sub_ext_correct|]. apply mul_ext_correct.
        * eapply computes_eq; [now apply IH|]. cbn [map kprod fold_right]. fold (kprod (map (fun i => (kz (Z.of_nat i) - s)%K) (filter (fun i => negb (Nat.eqb i row)) l))).
          f_equal. ring. }
  eapply computes_bind.
  - rewrite <- repK_1. apply F. intros i Hi. apply in_seq in Hi. lia.
  - destruct many.
    + rewrite small_kz by (unfold UNUSED_SELECTOR, p; lia).
      eapply computes_bind; [apply sub_ext_correct|]. eapply computes_eq; [apply mul_ext_correct|]. f_equal. ring.
    + eapply computes_eq; [apply computes_ret|]. f_equal. ring.
Qed.
Lemma filter_zero row a b s many : filter_k row (a, b) s many = k0 <->
  (exists i, (a <= i < b)%nat /\ i <> row /\ s = kz (Z.of_nat i)) \/ (many = true /\ s = kz UNUSED_SELECTOR).
Proof.
  unfold filter_k, others_of. cbn [fst snd].
  assert (E : kprod (map (fun i => (kz (Z.of_nat i) - s)%K) (filter (fun i => negb (Nat.eqb i row)) (seq a (b - a)))) = k0 <->
              exists i, (a <= i < b)%nat /\ i <> row /\ s = kz (Z.of_nat i)).
  { rewrite kprod_eq0, in_map_iff. split; intros (i & H).
    - destruct H as [E Hi]. apply filter_In in Hi. destruct Hi as [Hi Hn]. apply in_seq in Hi.
      apply negb_true_iff, Nat.eqb_neq in Hn. exists i. split; [lia|]. split; [exact Hn|]. now apply (proj1 (ksub_eq0 _ _)) in E.
    - destruct H as (Hi & Hn & ->). exists i. split; [ring|]. apply filter_In. split; [apply in_seq; lia|]. now apply negb_true_iff, Nat.eqb_neq. }
  assert (M : (if many then (kz UNUSED_SELECTOR - s)%K else k1) = k0 <-> many = true /\ s = kz UNUSED_SELECTOR).
  { destruct many.
    - split; [intros H; split; [reflexivity|]; now apply (proj1 (ksub_eq0 _ _)) in H|intros [_ ->]; ring].
    - split; [intros H; exfalso; apply (f_equal fst) in H; now apply g1_neq_g0|intros [H _]; discriminate H]. }
  rewrite <- E, <- M. split; [intros H; now apply kmul_eq0 in H|]. intros [-> | ->]; ring.
Qed.
Lemma kz_inj x y : 0 <= x < p -> 0 <= y < p -> kz x = kz y -> x = y.
Proof.
  intros Hx Hy E. apply emb_inj in E. apply (f_equal rep) in E. now rewrite !rep_inj_small in E by assumption.
Qed.

(** ** All gates *)
Section AllGates.
  Context (cs ws : list K) (h : list GF) (info : SelectorsInfo).
  Definition ns : nat := NumSelectors info.
  Definition sel (i : nat) : nat := nth i (selectorIndices info) O.
  Definition group (i : nat) : nat * nat := nth (sel i) (groups info) (O, O).
  Definition flt (i : nat) : K := filter_k i (group i) (nth (sel i) cs k0) (Nat.ltb 1 ns).
  (** j-th sum over the gates numbered from k on *)
  Fixpoint total (outs : list (list K)) (k j : nat) : K :=
    match outs with [] => k0 | o :: outs' => (nth j o k0 * flt k + total outs' (S k) j)%K end.

  Context (Hns : (ns <= length cs)%nat).
  Definition layout_ok (n : nat) : Prop :=
    forall i, (i < n)%nat -> (i < length (selectorIndices info))%nat /\ (sel i < ns)%nat /\ Z.of_nat (snd (group i)) <= p.

  Lemma evalFiltered_computes g i n out : layout_ok n -> (i < n)%nat ->
    computes (EvalUnfiltered g (mkvars (skipn ns cs) ws h)) (map repK out) ->
    computes (evalFiltered g (mkvars cs ws h) i (sel i) (group i) ns) (map repK (map (fun u => (u * flt i)%K) out)).
  Proof.
    intros HL Hi Hg. destruct (HL i Hi) as (H1 & H2 & H3). unfold evalFiltered. cbn [localConstants mkvars].
    eapply computes_bind; [apply computes_wire; lia|].
    eapply computes_bind; [now apply filter_computes|].
    eapply computes_bind.
    { unfold RemovePrefix. cbn [localConstants localWires publicInputsHash mkvars].
      eapply computes_bind; [apply computes_slice_from; rewrite map_length; lia|]. apply computes_ret. }
    rewrite skipn_map. change (mkEvaluationVars (map repK (skipn ns cs)) (map repK ws) (map rep h)) with (mkvars (skipn ns cs) ws h).
    eapply computes_bind; [exact Hg|]. rewrite map_map. apply (computes_mapM2 _ repK). intros u _. apply mul_ext_correct.
  Qed.
  (** position-wise sum; the first list keeps its length *)
  Fixpoint vsum (a b : list K) {struct b} : list K :=
    match b with [] => a | y :: b' => match a with [] => [] | x :: a' => (x + y)%K :: vsum a' b' end end.
  Lemma add_constraints_computes b : forall a, (length b <= length a)%nat ->
    computes (add_constraints (map repK a) (map repK b)) (map repK (vsum a b)).
  Proof.
    induction b as [|y b IH]; intros a L; cbn [map add_constraints vsum]; [apply computes_ret|].
    destruct a as [|x a]; [cbn in L; lia|]. cbn [map length] in *.
    eapply computes_bind; [apply add_ext_correct|]. eapply computes_bind; [apply IH; lia|]. apply computes_ret.
  Qed.
  Definition aborts {A} (c : circ A) : Prop := (exists m, run c = Panicked m) /\ forall a, ~ reach c a.
  Lemma aborts_bind {A B} (c : circ A) (f : A -> circ B) a : computes c a -> aborts (f a) -> aborts (bind c f).
  Proof.
    intros C [[m R] N]. split.
    - exists m. rewrite run_bind. rewrite (proj1 C I). exact R.
    - intros b Hb. apply reach_bind in Hb. destruct Hb as (a' & Ha & Hb). apply (proj2 C) in Ha. destruct Ha as [_ ->]. exact (N b Hb).
  Qed.
  Lemma aborts_here {A B} (c : circ A) (f : A -> circ B) : aborts c -> aborts (bind c f).
  Proof.
    intros [[m R] N]. split.
    - exists m. now rewrite run_bind, R.
    - intros b Hb. apply reach_bind in Hb. destruct Hb as (a' & Ha & Hb). exact (N a' Ha).
  Qed.
  Lemma add_constraints_aborts b : forall a, (length a < length b)%nat -> aborts (add_constraints (map repK a) (map repK b)).
  Proof.
    induction b as [|y b IH]; intros a L; [cbn in L; lia|]. cbn [map add_constraints].
    destruct a as [|x a]; cbn [map].
    - split; [eexists; reflexivity|intros z []].
    - cbn [length] in L. eapply aborts_bind; [apply add_ext_correct|]. apply aborts_here, IH. lia.
  Qed.
  Lemma length_vsum b : forall a, length (vsum a b) = length a.
  Proof. induction b as [|y b IH]; intros [|x a]; cbn [vsum length]; auto. Qed.
  Lemma nth_vsum b : forall a j, (length b <= length a)%nat -> nth j (vsum a b) k0 = (nth j a k0 + nth j b k0)%K.
  Proof.
    induction b as [|y b IH]; intros a j L; cbn [vsum].
    - replace (nth j [] k0) with k0 by (destruct j; reflexivity). ring.
    - destruct a as [|x a]; [cbn in L; lia|]. cbn [length] in L. destruct j as [|j]; cbn [nth]; [reflexivity|]. apply IH. lia.
  Qed.

  Definition gates_ok (gates : list Gate) (outs : list (list K)) : Prop :=
    Forall2 (fun g out => computes (EvalUnfiltered g (mkvars (skipn ns cs) ws h)) (map repK out)) gates outs.
  Notation body := (fun constraints (ig : nat * Gate) =>
    selectorIndex <- nth_ (selectorIndices info) (fst ig);;
    group <- nth_ (groups info) selectorIndex;;
    gateConstraints <- evalFiltered (snd ig) (mkvars cs ws h) (fst ig) selectorIndex group (NumSelectors info);;
    add_constraints constraints gateConstraints).
  Lemma all_gates_loop n gates : forall outs k acc, gates_ok gates outs -> layout_ok n -> (k + length gates <= n)%nat ->
    Forall (fun o => (length o <= length acc)%nat) outs ->
    exists l, computes (foldM body (map repK acc) (combine (seq k (length gates)) gates)) (map repK l) /\
      length l = length acc /\ forall j, nth j l k0 = (nth j acc k0 + total outs k j)%K.
  Proof.
    induction gates as [|g gates IH]; intros outs k acc G HL Hk HF; inversion G as [|? o ? outs' Hg G']; subst; cbn [length seq combine foldM total].
    - exists acc. split; [apply computes_ret|]. split; [reflexivity|]. intros j. ring.
    - cbn [length] in Hk. inversion HF as [|? ? Ho HF']; subst.
      destruct (HL k ltac:(lia)) as (H1 & H2 & H3).
      destruct (IH outs' (S k) (vsum acc (map (fun u => (u * flt k)%K) o)) G' HL ltac:(lia)) as (l & Hl & Ll & El).
      { rewrite length_vsum. exact HF'. }
      exists l. split; [|split].
      + eapply computes_bind; [|exact Hl]. cbn [fst snd].
        eapply computes_bind; [apply (computes_nth _ _ O H1)|]. fold (sel k).
        eapply computes_bind; [apply (computes_nth _ _ (O, O) H2)|]. fold (group k).
        eapply computes_bind; [apply (evalFiltered_computes g k n o HL ltac:(lia) Hg)|].
        apply add_constraints_computes. now rewrite map_length.
      + now rewrite Ll, length_vsum.
      + intros j. rewrite El, nth_vsum by now rewrite map_length.
        replace (nth j (map (fun u => (u * flt k)%K) o) k0) with (nth j o k0 * flt k)%K; [ring|].
        clear. revert j. induction o as [|x o IH]; intros [|j]; cbn [map nth]; try ring. apply IH.
  Qed.
  Lemma all_gates_abort n gates : forall outs k acc, gates_ok gates outs -> layout_ok n -> (k + length gates <= n)%nat ->
    Exists (fun o => (length acc < length o)%nat) outs ->
    aborts (foldM body (map repK acc) (combine (seq k (length gates)) gates)).
  Proof.
    induction gates as [|g gates IH]; intros outs k acc G HL Hk HE; inversion G as [|? o ? outs' Hg G']; subst; cbn [length seq combine foldM].
    - inversion HE.
    - cbn [length] in Hk. destruct (HL k ltac:(lia)) as (H1 & H2 & H3).
      destruct (Nat.le_gt_cases (length o) (length acc)) as [Ho|Ho].
      + eapply aborts_bind.
        * cbn [fst snd]. eapply computes_bind; [apply (computes_nth _ _ O H1)|]. fold (sel k).
          eapply computes_bind; [apply (computes_nth _ _ (O, O) H2)|]. fold (group k).
          eapply computes_bind; [apply (evalFiltered_computes g k n o HL ltac:(lia) Hg)|].
          apply add_constraints_computes. now rewrite map_length.
        * apply (IH outs' (S k) (vsum acc (map (fun u => (u * flt k)%K) o)) G' HL ltac:(lia)). rewrite length_vsum.
          inversion HE; subst; [lia|assumption].
      + apply aborts_here. cbn [fst snd].
        eapply aborts_bind; [apply (computes_nth _ _ O H1)|]. fold (sel k).
        eapply aborts_bind; [apply (computes_nth _ _ (O, O) H2)|]. fold (group k).
        eapply aborts_bind; [apply (evalFiltered_computes g k n o HL ltac:(lia) Hg)|].
        apply add_constraints_aborts. now rewrite map_length.
  Qed.
  Lemma repeat_zero n : repeat ZeroExtension n = map repK (repeat k0 n).
  Proof. induction n as [|n IH]; cbn [repeat map]; [reflexivity|]. now rewrite <- IH, repK_0. Qed.
  Lemma nth_repeat0 n j : nth j (repeat k0 n) k0 = k0.
  Proof. revert j. induction n as [|n IH]; intros [|j]; cbn [repeat nth]; auto. Qed.
  Lemma EvaluateGateConstraints_computes gates outs num : gates_ok gates outs -> layout_ok (length gates) ->
    Forall (fun o => (length o <= num)%nat) outs ->
    computes (EvaluateGateConstraints gates num info (mkvars cs ws h)) (map repK (map (total outs 0) (seq 0 num))).
  Proof.
    intros G HL HF. unfold EvaluateGateConstraints. rewrite repeat_zero.
    destruct (all_gates_loop (length gates) gates outs 0 (repeat k0 num) G HL (le_n _)) as (l & Hl & Ll & El).
    { now rewrite repeat_length. }
    eapply computes_eq; [exact Hl|]. apply f_equal. rewrite repeat_length in Ll.
    apply (nth_ext _ _ k0 k0); [now rewrite map_length, seq_length|]. intros j Hj. rewrite Ll in Hj.
    rewrite El, nth_repeat0. rewrite (nth_map_lt (total outs 0) _ _ _ 0%nat), seq_nth by (rewrite ?seq_length; exact Hj). cbn [Nat.add]. ring.
  Qed.
  Lemma EvaluateGateConstraints_aborts gates outs num : gates_ok gates outs -> layout_ok (length gates) ->
    Exists (fun o => (num < length o)%nat) outs -> aborts (EvaluateGateConstraints gates num info (mkvars cs ws h)).
  Proof.
    intros G HL HE. unfold EvaluateGateConstraints. rewrite repeat_zero.
    apply (all_gates_abort (length gates) gates outs 0 (repeat k0 num) G HL (le_n _)). now rewrite repeat_length.
  Qed.
  Lemma total_sum outs : forall k j, total outs k j = ksum (map (fun i => (flt (k + i) * nth j (nth i outs []) k0)%K) (seq 0 (length outs))).
  Proof.
    induction outs as [|o outs IH]; intros k j; [reflexivity|]. cbn [total length].
    change (seq 0 (S (length outs))) with (O :: seq 1 (length outs)). rewrite <- seq_shift, map_cons, map_map. cbn [ksum fold_right nth].
    rewrite IH. unfold ksum. rewrite Nat.add_0_r. f_equal; [ring|]. f_equal. apply map_ext. intros i. now rewrite Nat.add_succ_comm.
  Qed.
End AllGates.
