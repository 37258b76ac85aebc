(** * The coset interpolation gate. *)
From Coq Require Import String.
From Coq Require Import ZArith NArith Lia List Bool Ring.
From Verif Require Import Zp GF Circuit Goldilocks GLProofs ExtProofs Types Challenger Fri Poly Roots Interp FriMerkle FriEval Gates GateProofs.
Import ListNotations.
Open Scope Z_scope.

(** Go [l[a:b]] *)
Definition seg {A} (l : list A) (a b : nat) : list A := skipn a (firstn b l).
Lemma seg_combine {A B} (a : list A) (b : list B) i j : combine (seg a i j) (seg b i j) = seg (combine a b) i j.
Proof.
  unfold seg. rewrite combine_firstn. generalize (firstn j a) (firstn j b). clear.
  induction i as [|i IH]; intros l l0; [reflexivity|]. destruct l, l0; cbn [skipn combine]; try reflexivity; [|apply IH].
  destruct (skipn i l); reflexivity.
Qed.
Lemma seg_length {A} (l : list A) i j : (j <= length l)%nat -> length (seg l i j) = (j - i)%nat.
Proof. intros H. unfold seg. rewrite skipn_length, firstn_length. lia. Qed.
Lemma computes_slice {A} (l : list A) i j : (i <= j <= length l)%nat -> computes (slice l i j) (seg l i j).
Proof.
  intros H. unfold slice. eapply computes_bind; [apply computes_slice_to; lia|].
  apply computes_slice_from. rewrite firstn_length. lia.
Qed.
Lemma seg_map {A B} (f : A -> B) l i j : seg (map f l) i j = map f (seg l i j).
Proof. unfold seg. now rewrite firstn_map, skipn_map. Qed.
Lemma seg_join {A} (l : list A) i j : (i <= j <= length l)%nat -> firstn i l ++ seg l i j = firstn j l.
Proof.
  intros H. unfold seg. rewrite <- (firstn_skipn i (firstn j l)) at 2. f_equal. rewrite firstn_firstn. f_equal. lia.
Qed.
Section Coset.
  Context (s d : nat) (wt : list GF) (ws : list K).
  Notation NP := (2 ^ s)%nat.
  Definition c_dom : list GF := powers (root s) NP.
  Definition c_val : list KA := map (fun i => alg ws (1 + 2 * i)) (seq 0 NP).
  Definition c_items : list (KA * GF * GF) := combine (combine c_val c_dom) wt.
  Definition c_ni : nat := numIntermediates NP d.
  Definition c_start : nat := 1 + 2 * NP + 4.
  Definition c_shifted : KA := alg ws (c_start + 4 * c_ni).
  Definition c_point : KA := alg ws (1 + 2 * NP).
  Definition c_value : KA := alg ws (1 + 2 * NP + 2).
  Definition c_ie (i : nat) : KA := alg ws (c_start + 2 * i).
  Definition c_ip (i : nat) : KA := alg ws (c_start + 2 * (c_ni + i)).
  Definition c_lo (i : nat) : nat := 1 + (d - 1) * (i + 1).
  Definition c_hi (i : nat) : nat := Nat.min (c_lo i + d - 1) NP.
  Definition c_fold (l : list (KA * GF * GF)) (st : KA * KA) : KA * KA := fold_left (interp_step c_shifted) l st.
  Definition c_st (i : nat) : KA * KA :=
    match i with
    | O => c_fold (firstn d c_items) (ka0, ka1)
    | S j => c_fold (seg c_items (c_lo j) (c_hi j)) (c_ie j, c_ip j)
    end.
  Definition c_cons (i : nat) : list K := klimbs (c_ie i - fst (c_st i))%KA ++ klimbs (c_ip i - snd (c_st i))%KA.
  Definition coset_k : list K :=
    klimbs (aemb (wire ws 0 * emb (- (1))%GF) * c_shifted + c_point)%KA ++
    concat (map c_cons (seq 0 c_ni)) ++ klimbs (c_value - fst (c_st c_ni))%KA.

  Context (Hs : (1 <= s <= TWO_ADICITY)%nat) (Hd : (2 <= d <= NP)%nat) (Hwt : length wt = NP)
          (Hws : (c_start + 4 * c_ni + 2 <= length ws)%nat).

  Lemma NP2 : (2 <= NP)%nat.
  Proof. clear - Hs. destruct s as [|n]; [lia|]. cbn [Nat.pow]. pose proof (pow2_gt0 n). lia. Qed.
  Lemma c_ni_le : ((d - 1) * c_ni <= NP - 2)%nat.
  Proof. unfold c_ni, numIntermediates. rewrite Nat.mul_comm, Nat.mul_comm. apply Nat.mul_div_le. lia. Qed.
  Lemma c_ni_gt : (NP - 2 < (d - 1) * (c_ni + 1))%nat.
  Proof. unfold c_ni, numIntermediates. rewrite Nat.add_1_r. apply Nat.mul_succ_div_gt. lia. Qed.
  Lemma c_lo_lt i : (i < c_ni)%nat -> (c_lo i < NP)%nat.
  Proof. intros H. pose proof c_ni_le. pose proof NP2. unfold c_lo. assert ((d - 1) * (i + 1) <= (d - 1) * c_ni)%nat by (apply Nat.mul_le_mono_l; lia). lia. Qed.
  Lemma c_lo_S i : c_lo (S i) = (c_lo i + d - 1)%nat. Proof. unfold c_lo. nia. Qed.
  Lemma c_hi_lo i : (S i < c_ni)%nat -> c_hi i = c_lo (S i).
  Proof. intros H. unfold c_hi. rewrite <- c_lo_S. apply Nat.min_l. apply c_lo_lt in H. lia. Qed.
  Lemma c_hi_last i : S i = c_ni -> c_hi i = NP.
  Proof.
    intros H. unfold c_hi. apply Nat.min_r. rewrite <- c_lo_S, H. unfold c_lo. pose proof c_ni_gt. lia.
  Qed.
  Lemma c_hi_gt i : (i < c_ni)%nat -> (c_lo i < c_hi i <= NP)%nat.
  Proof. intros H. apply c_lo_lt in H. unfold c_hi. lia. Qed.
  Lemma len_dom : length c_dom = NP. Proof. unfold c_dom, powers. now rewrite map_length, seq_length. Qed.
  Lemma len_val : length c_val = NP. Proof. unfold c_val. now rewrite map_length, seq_length. Qed.


  Lemma seg_interp i j ev pr : (i < j <= NP)%nat ->
    computes (PartialInterpolateExtAlgebra (map rep (seg c_dom i j)) (map repA (seg c_val i j)) (map rep (seg wt i j))
                (repA c_shifted) (repA ev) (repA pr)) (repA2 (c_fold (seg c_items i j) (ev, pr))).
  Proof.
    intros H. unfold c_fold, c_items. rewrite <- !seg_combine. apply partial_interpolate_correct.
    - now rewrite !seg_length by (rewrite ?len_dom, ?len_val; lia).
    - now rewrite !seg_length by (rewrite ?Hwt, ?len_val; lia).
    - intros E. apply (f_equal (@length KA)) in E. rewrite seg_length in E by (rewrite len_val; lia). cbn in E. lia.
  Qed.

  Lemma coset_loop cs h n : forall k cons, (k + n <= c_ni)%nat ->
    computes (foldM (coset_step NP d c_start (map rep c_dom) (map repA c_val) (map rep wt) (repA c_shifted) (mkvars cs ws h))
                (repA (fst (c_st k)), repA (snd (c_st k)), map repK cons) (seq k n))
             (repA (fst (c_st (k + n))), repA (snd (c_st (k + n))), map repK (cons ++ concat (map c_cons (seq k n)))).
  Proof.
    induction n as [|n IH]; intros k cons Hk.
    - cbn [seq foldM map concat]. rewrite Nat.add_0_r, app_nil_r. apply computes_ret.
    - change (seq k (S n)) with (k :: seq (S k) n). cbn [foldM map concat].
      assert (Hi : (k < c_ni)%nat) by lia. pose proof (c_hi_gt k Hi) as Hh.
      eapply computes_bind.
      + unfold coset_step, D. fold c_ni. fold (c_lo k). fold (c_hi k).
        eapply computes_bind; [apply (computes_alg _ _ _ _ _ (c_start + 2 * k)); lia|].
        eapply computes_bind; [apply (computes_alg _ _ _ _ _ (c_start + 2 * (c_ni + k))); lia|].
        fold (c_ie k) (c_ip k).
        eapply computes_bind; [apply sub_alg_correct|]. eapply computes_bind; [apply sub_alg_correct|]. cbv zeta.
        eapply computes_bind; [apply computes_slice; rewrite map_length, len_dom; lia|].
        eapply computes_bind; [apply computes_slice; rewrite map_length, len_val; lia|].
        eapply computes_bind; [apply computes_slice; rewrite map_length, Hwt; lia|].
        rewrite !seg_map. eapply computes_bind; [apply seg_interp; lia|]. cbv beta iota. apply computes_ret.
      + cbv beta. rewrite !limbs2_rep, <- !map_app. fold (c_cons k).
        replace (k + S n)%nat with (S k + n)%nat by lia. rewrite app_assoc. apply (IH (S k) (cons ++ c_cons k)). lia.
  Qed.

  Lemma coset_computes cs h :
    computes (EvalUnfiltered (CosetInterpolationGate s d (map rep wt)) (mkvars cs ws h)) (map repK coset_k).
  Proof.
    pose proof NP2 as N2. unfold EvalUnfiltered, eval_coset_interpolation.
    assert (V : vecSize s = NP).
    { unfold vecSize. assert (L : (s < 64)%nat) by (unfold TWO_ADICITY in Hs; lia). now rewrite (proj2 (Nat.ltb_lt s 64) L). }
    rewrite V. cbv zeta. fold c_ni.
    eapply computes_bind; [apply computes_panic_if, Nat.ltb_ge; lia|].
    eapply computes_bind; [apply computes_panic_if, Nat.ltb_ge; lia|].
    unfold D.
    replace (1 + NP * 2 + 2 + 2)%nat with c_start by (unfold c_start; lia).
    eapply computes_bind; [apply computes_wire; lia|].
    eapply computes_bind; [apply (computes_alg _ _ _ _ _ (1 + 2 * NP)); unfold c_start in Hws; lia|]. fold c_point.
    eapply computes_bind; [apply (computes_alg _ _ _ _ _ (c_start + 4 * c_ni)); lia|]. fold c_shifted.
    eapply computes_bind; [change NegOne with (rep (- (1))%GF); apply scalarmul_ext_correct|].
    eapply computes_bind; [apply scalar_alg_correct|]. eapply computes_bind; [apply add_alg_correct|].
    eapply computes_bind; [apply two_adic_subgroup_computes; lia|]. fold c_dom.
    eapply computes_bind; [apply (mapM_seq_K _ (fun i => alg ws (1 + 2 * i)) repA); intros i Hi; apply computes_alg; unfold c_start in Hws; lia|].
    fold c_val.
    eapply computes_bind; [apply computes_slice_to; rewrite map_length, len_dom; lia|].
    eapply computes_bind; [apply computes_slice_to; rewrite map_length, len_val; lia|].
    eapply computes_bind; [apply computes_slice_to; rewrite map_length, Hwt; lia|].
    rewrite !firstn_map. rewrite <- repA_0, <- repA_1.
    eapply computes_bind; [apply (seg_interp 0 d); lia|].
    unfold repA2. cbv beta iota. rewrite limbs2_rep.
    eapply computes_bind; [apply (coset_loop cs h c_ni 0); lia|]. cbv beta iota. cbn [Nat.add].
    eapply computes_bind; [apply (computes_alg _ _ _ _ _ (1 + 2 * NP + 2)); unfold c_start in *; lia|]. fold c_value.
    eapply computes_bind; [apply sub_alg_correct|].
    eapply computes_eq; [apply computes_ret|]. rewrite limbs2_rep, <- map_app. unfold coset_k. now rewrite <- app_assoc.
  Qed.
  Lemma length_coset_k : length coset_k = (4 + 4 * c_ni)%nat.
  Proof.
    unfold coset_k. rewrite !app_length. rewrite (length_concat_seq c_cons 4) by reflexivity. cbn [klimbs length]. lia.
  Qed.

  Lemma len_items : length c_items = NP.
  Proof. unfold c_items. rewrite !combine_length, len_val, len_dom, Hwt. lia. Qed.

  (** the first m points: partial evaluation and partial product *)
  Definition c_pre (m : nat) : KA * KA := c_fold (firstn m c_items) (ka0, ka1).
  Lemma c_chain : (forall i, (i < c_ni)%nat -> (c_ie i, c_ip i) = c_st i) <->
                  (forall i, (i < c_ni)%nat -> (c_ie i, c_ip i) = c_pre (c_lo i)).
  Proof.
    assert (S0 : c_st 0 = c_pre (c_lo 0)).
    { cbn [c_st]. unfold c_pre, c_lo. do 2 f_equal. lia. }
    assert (SS : forall i, (S i < c_ni)%nat -> (c_ie i, c_ip i) = c_pre (c_lo i) -> c_st (S i) = c_pre (c_lo (S i))).
    { intros i Hi E. cbn [c_st]. rewrite E. unfold c_pre, c_fold. rewrite <- fold_left_app, seg_join.
      - now rewrite c_hi_lo.
      - rewrite len_items. pose proof (c_hi_gt i ltac:(lia)). lia. }
    split; intros H i; induction i as [|i IH]; intros Hi; rewrite H by exact Hi; auto.
    - apply SS; [exact Hi|]. apply IH. lia.
    - symmetry. apply SS; [exact Hi|]. apply H. lia.
  Qed.
  Lemma c_last : (forall i, (i < c_ni)%nat -> (c_ie i, c_ip i) = c_pre (c_lo i)) -> c_st c_ni = c_pre NP.
  Proof.
    intros H. assert (C : c_ni = O \/ exists i, c_ni = S i) by (clear; destruct c_ni; eauto).
    destruct C as [E|[i E]]; rewrite E.
    - cbn [c_st]. unfold c_pre. do 2 f_equal. pose proof c_ni_gt as G. rewrite E in G. lia.
    - cbn [c_st]. rewrite H by lia. unfold c_pre, c_fold. rewrite <- fold_left_app, seg_join.
      + now rewrite c_hi_last by (now symmetry).
      + rewrite len_items. pose proof (c_hi_gt i ltac:(lia)). lia.
  Qed.
  Lemma neg_emb : emb (- (1))%GF = (- k1)%K. Proof. now rewrite emb_opp, emb_1. Qed.
  Lemma pair_sub0 (a b c e : KA) : (a - b)%KA = ka0 /\ (c - e)%KA = ka0 <-> (a, c) = (b, e).
  Proof. rewrite !asub_eq0. split; [intros []; congruence|intros E; injection E; auto]. Qed.
  Lemma coset_iff : all0 coset_k <->
    c_point = (aemb (wire ws 0) * c_shifted)%KA /\
    (forall i, (i < c_ni)%nat -> (c_ie i, c_ip i) = c_pre (c_lo i)) /\
    c_value = fst (c_pre NP).
  Proof.
    unfold coset_k. rewrite !all0_app, !all0_klimbs, all0_concat_seq.
    assert (E1 : (aemb (wire ws 0 * emb (- (1))%GF) * c_shifted + c_point)%KA = ka0 <-> c_point = (aemb (wire ws 0) * c_shifted)%KA).
    { replace (aemb (wire ws 0 * emb (- (1))%GF) * c_shifted + c_point)%KA with (c_point - aemb (wire ws 0) * c_shifted)%KA.
      - apply asub_eq0.
      - rewrite neg_emb. apply KA_eq; unfold aemb, asub, aadd, amul; cbn [fst snd]; ring. }
    assert (E2 : (forall i, (i < c_ni)%nat -> all0 (c_cons i)) <-> (forall i, (i < c_ni)%nat -> (c_ie i, c_ip i) = c_st i)).
    { split; intros H i Hi; specialize (H i Hi); revert H; unfold c_cons; rewrite all0_app, !all0_klimbs, pair_sub0, <- surjective_pairing; auto. }
    rewrite E1, E2, c_chain, asub_eq0. split.
    - intros (A & B & C). split; [exact A|]. split; [exact B|]. now rewrite <- c_last.
    - intros (A & B & C). split; [exact A|]. split; [exact B|]. now rewrite c_last.
  Qed.

  (** closed form of the partial values *)
  Lemma c_pre_closed m : (m <= NP)%nat ->
    c_pre m = (abary (map ae (firstn m c_dom)) (firstn m c_val) (map ae (firstn m wt)) c_shifted,
               aprodsub c_shifted (map ae (firstn m c_dom))).
  Proof.
    intros Hm. unfold c_pre, c_fold, c_items. rewrite !combine_firstn, interp_fold.
    assert (L1 : length (firstn m c_dom) = length (firstn m c_val)) by (rewrite !firstn_length, len_dom, len_val; lia).
    assert (L2 : length (firstn m wt) = length (firstn m c_val)) by (rewrite !firstn_length, Hwt, len_val; lia).
    rewrite psum_bary by assumption. rewrite a_start_ev, a_start_pr.
    assert (E1 : map (fun it : KA * GF * GF => ae (snd (fst it))) (combine (combine (firstn m c_val) (firstn m c_dom)) (firstn m wt))
                 = map ae (firstn m c_dom)).
    { revert L1 L2. generalize (firstn m c_dom) (firstn m c_val) (firstn m wt). clear. intros dd v. revert dd.
      induction v as [|a v IH]; intros [|x dd] [|w l] L1 L2; try discriminate L1; try discriminate L2; [reflexivity|].
      cbn [combine map fst snd]. apply f_equal. apply IH; [now injection L1|now injection L2]. }
    now rewrite E1.
  Qed.
End Coset.
