(** * Gate constraints of base field wires and constants lie in the base field. *)
From Coq Require Import String.
From Coq Require Import ZArith NArith Lia List Bool Ring.
From Verif Require Import Zp GF Circuit Goldilocks GLProofs ExtProofs LinAlg PoseidonGLConst PoseidonSpec PoseidonExt Poly Roots Interp Types Challenger Fri FriMerkle FriEval
  Gates GateProofs GateCoset GatePoseidon GateFilter GateAll.
Import ListNotations.
Open Scope Z_scope.

(** ** The base field inside K *)
Definition isb (x : K) : Prop := snd x = g0.
Definition isa (a : KA) : Prop := isb (fst a) /\ isb (snd a).
Notation isl := (Forall isb).
Lemma isb_emb x : isb (emb x). Proof. reflexivity. Qed.
Lemma isb_fst x : isb x -> x = emb (fst x). Proof. destruct x as [a b]. unfold isb. cbn [snd fst]. intros ->. reflexivity. Qed.
Lemma isb_0 : isb k0. Proof. reflexivity. Qed.
Lemma isb_1 : isb k1. Proof. reflexivity. Qed.
Lemma isb_kz z : isb (kz z). Proof. reflexivity. Qed.
Lemma isb_add a b : isb a -> isb b -> isb (a + b)%K.
Proof. intros Ha Hb. rewrite (isb_fst a Ha), (isb_fst b Hb), <- emb_add. apply isb_emb. Qed.
Lemma isb_sub a b : isb a -> isb b -> isb (a - b)%K.
Proof. intros Ha Hb. rewrite (isb_fst a Ha), (isb_fst b Hb), <- emb_sub. apply isb_emb. Qed.
Lemma isb_mul a b : isb a -> isb b -> isb (a * b)%K.
Proof. intros Ha Hb. rewrite (isb_fst a Ha), (isb_fst b Hb), <- emb_mul. apply isb_emb. Qed.
Lemma isb_pow a n : isb a -> isb (a ^ n)%K.
Proof. intros Ha. rewrite (isb_fst a Ha), <- emb_pow. apply isb_emb. Qed.
Lemma isb_sb7 a : isb a -> isb (sb7 a). Proof. apply isb_pow. Qed.
Lemma isb_kprod {A} (F : A -> K) l : (forall i, In i l -> isb (F i)) -> isb (kprod (map F l)).
Proof.
  induction l as [|i l IH]; intros H; cbn [map kprod fold_right]; [apply isb_1|]. apply isb_mul; [apply H; now left|]. apply IH. intros; apply H; now right.
Qed.
Lemma isb_ksum {A} (F : A -> K) l : (forall i, In i l -> isb (F i)) -> isb (ksum (map F l)).
Proof.
  induction l as [|i l IH]; intros H; cbn [map ksum fold_right]; [apply isb_0|]. apply isb_add; [apply H; now left|]. apply IH. intros; apply H; now right.
Qed.
Lemma isl_nth l j : isl l -> isb (nth j l k0).
Proof. intros H. revert j. induction H as [|x l Hx H IH]; intros [|j]; cbn [nth]; try apply isb_0; [exact Hx|apply IH]. Qed.
Lemma isl_wire l j : isl l -> isb (wire l j). Proof. apply isl_nth. Qed.
Lemma isl_hd l : isl l -> isb (hd k0 l). Proof. intros H. destruct H; [apply isb_0|assumption]. Qed.
Lemma isl_tl l : isl l -> isl (tl l). Proof. intros H. destruct H; cbn [tl]; auto. Qed.
Lemma isl_app a b : isl a -> isl b -> isl (a ++ b). Proof. intros. apply Forall_app. now split. Qed.
Lemma isl_firstn n l : isl l -> isl (firstn n l).
Proof. intros H. apply Forall_forall. intros x Hx. apply (proj1 (Forall_forall _ _) H). rewrite <- (firstn_skipn n l). apply in_or_app. now left. Qed.
Lemma isl_skipn n l : isl l -> isl (skipn n l).
Proof. intros H. apply Forall_forall. intros x Hx. apply (proj1 (Forall_forall _ _) H). rewrite <- (firstn_skipn n l). apply in_or_app. now right. Qed.
Lemma isl_map {A} (F : A -> K) l : (forall i, isb (F i)) -> isl (map F l).
Proof. intros H. apply Forall_map, Forall_forall. intros i _. apply H. Qed.
Lemma isl_each g l : isl l -> (forall x, isb x -> isb (g x)) -> isl (map g l).
Proof. intros H G. apply Forall_map. eapply Forall_impl; [|exact H]. exact G. Qed.
Lemma isl_concat {A} (F : A -> list K) l : (forall i, isl (F i)) -> isl (concat (map F l)).
Proof. intros H. induction l as [|i l IH]; cbn [map concat]; [constructor|]. now apply isl_app. Qed.
Lemma isl_embs l : isl (map emb l). Proof. apply isl_map. intros; apply isb_emb. Qed.
Lemma isl_vadd a c : isl a -> isl c -> isl (vadd kadd a c).
Proof.
  intros H. unfold vadd. revert c. induction H as [|x a Hx H IH]; intros c Hc; cbn [map2]; [constructor|]. destruct Hc as [|y c Hy Hc]; constructor; [now apply isb_add|now apply IH].
Qed.
Lemma isb_dotp row v : isl v -> isb (dotp k0 kadd kmul emb row v).
Proof.
  intros H. revert row. induction H as [|x v Hx H IH]; intros [|a row]; cbn [dotp]; try apply isb_0. apply isb_add; [apply isb_mul; [apply isb_emb|exact Hx]|apply IH].
Qed.
Lemma isl_matvec A v : isl v -> isl (matvec k0 kadd kmul emb A v).
Proof. intros H. unfold matvec. apply isl_map. intros row. now apply isb_dotp. Qed.
Lemma isb_powers_sum l b : isl l -> isb b -> isb (powers_sum l b).
Proof. intros H Hb. induction H as [|x l Hx H IH]; cbn [powers_sum]; [apply isb_0|]. apply isb_add; [exact Hx|]. now apply isb_mul. Qed.

Lemma isa_emb x : isb x -> isa (aemb x). Proof. intros H. split; [exact H|apply isb_0]. Qed.
Lemma isa_0 : isa ka0. Proof. split; apply isb_0. Qed.
Lemma isa_1 : isa ka1. Proof. split; [apply isb_1|apply isb_0]. Qed.
Lemma isa_add a b : isa a -> isa b -> isa (a + b)%KA.
Proof. intros [H1 H2] [G1 G2]. split; cbn [aadd fst snd]; now apply isb_add. Qed.
Lemma isa_sub a b : isa a -> isa b -> isa (a - b)%KA.
Proof. intros [H1 H2] [G1 G2]. split; cbn [asub fst snd]; now apply isb_sub. Qed.
Lemma isa_mul a b : isa a -> isa b -> isa (a * b)%KA.
Proof. intros [H1 H2] [G1 G2]. split; cbn [amul fst snd]; repeat (apply isb_add || apply isb_mul || apply isb_emb); assumption. Qed.
Lemma isl_klimbs a : isa a -> isl (klimbs a). Proof. intros [H1 H2]. unfold klimbs. repeat constructor; assumption. Qed.
Lemma isa_alg ws i : isl ws -> isa (alg ws i). Proof. intros H. split; cbn [alg fst snd]; now apply isl_wire. Qed.

Ltac base := repeat (assumption || apply isb_emb || apply isb_0 || apply isb_1 || apply isb_kz || (apply isl_wire; assumption) || (apply isl_nth; assumption) || (apply isa_alg; assumption)
  || apply isb_add || apply isb_sub || apply isb_mul || apply isb_pow || apply isa_add || apply isa_sub || apply isa_mul || apply isa_emb || apply isl_klimbs || apply isl_app || (constructor; fail)).

(** ** The gates *)
Section Gates.
  Context (cs ws : list K) (h : list GF) (Hcs : isl cs) (Hws : isl ws).
  Lemma isb_arith i : isb (arith_k cs ws i). Proof. unfold arith_k. base. Qed.
  Lemma isl_arith_ext i : isl (arith_ext_k cs ws i). Proof. unfold arith_ext_k. base. Qed.
  Lemma isl_mul_ext i : isl (mul_ext_k cs ws i). Proof. unfold mul_ext_k. base. Qed.
  Lemma isb_digits b x : isb x -> isb (digits_k b x).
  Proof.
    intros H. unfold digits_k.
    assert (G : forall l acc, isb acc -> isb (fold_left (fun acc i => (acc * (x - emb (inj (Z.of_nat i))))%K) l acc)).
    { induction l as [|i l IH]; intros acc Ha; cbn [fold_left]; [exact Ha|]. apply IH. base. }
    apply G, isb_1.
  Qed.
  Lemma isl_base_sum n b : isl (base_sum_k n b ws).
  Proof.
    unfold base_sum_k, base_sum_limbs. constructor.
    - apply isb_sub; [|base]. apply isb_powers_sum; [|base]. apply isl_map. intros i. base.
    - apply isl_each; [apply isl_map; intros i; base|]. intros x. apply isb_digits.
  Qed.
  Lemma isb_exp n i : isb (exp_k n ws i).
  Proof. unfold exp_k, exp_prev. destruct (Nat.eqb i 0); base. Qed.
  Definition isp (a : KA * KA) : Prop := isa (fst a) /\ isa (snd a).
  Lemma isp_fold P (l : list (KA * GF * GF)) : isa P -> Forall (fun it => isa (fst (fst it))) l -> forall st, isp st -> isp (fold_left (interp_step P) l st).
  Proof.
    intros HP H. induction H as [|[[v d] w] l Hv H IH]; intros [e q] [Se Sp]; cbn [fold_left]; [now split|]. apply IH. cbn [fst snd] in *. split; unfold interp_step; cbn [fst snd]; base.
  Qed.
  Lemma isp_items s wt : Forall (fun it => isa (fst (fst it))) (c_items s wt ws).
  Proof.
    unfold c_items. apply Forall_forall. intros [[v d] w] H. apply in_combine_l in H. cbn [fst]. apply in_combine_l in H. apply in_map_iff in H.
    destruct H as (i & <- & _). apply isa_alg. exact Hws.
  Qed.
  Lemma isp_st s d wt i : isp (c_st s d wt ws i).
  Proof.
    assert (SUB : forall l l' : list (KA * GF * GF), (forall x, In x l' -> In x l) -> Forall (fun it => isa (fst (fst it))) l -> Forall (fun it => isa (fst (fst it))) l').
    { intros l l' I H. apply Forall_forall. intros x Hx. apply (proj1 (Forall_forall _ _) H). now apply I. }
    unfold c_st, c_fold. destruct i as [|j].
    - apply isp_fold; [unfold c_shifted; now apply isa_alg| |split; [apply isa_0|apply isa_1]].
      eapply SUB; [|apply (isp_items s wt)]. intros x Hx. rewrite <- (firstn_skipn d). apply in_or_app. now left.
    - apply isp_fold; [unfold c_shifted; now apply isa_alg| |split; unfold c_ie, c_ip; now apply isa_alg].
      eapply SUB; [|apply (isp_items s wt)]. intros x Hx. unfold seg in Hx.
      assert (I : In x (firstn (c_hi s d j) (c_items s wt ws))) by (rewrite <- (firstn_skipn (c_lo d j) (firstn _ _)); apply in_or_app; now right).
      rewrite <- (firstn_skipn (c_hi s d j)). apply in_or_app. now left.
  Qed.
  Lemma isl_coset s d wt : isl (coset_k s d wt ws).
  Proof.
    unfold coset_k. apply isl_app; [|apply isl_app].
    - apply isl_klimbs, isa_add; [|now apply isa_alg]. apply isa_mul; [|now apply isa_alg]. apply isa_emb. base.
    - apply isl_concat. intros i. unfold c_cons. destruct (isp_st s d wt i) as [E P]. apply isl_app; apply isl_klimbs, isa_sub; try assumption; now apply isa_alg.
    - apply isl_klimbs, isa_sub; [now apply isa_alg|]. apply (isp_st s d wt (c_ni s d)).
  Qed.
  Lemma isl_mds_k v : isl v -> isl (mds_k v). Proof. apply isl_matvec. Qed.
  Lemma isl_add_rc k v : isl v -> isl (add_rc_k k v). Proof. intros H. apply isl_vadd; [exact H|]. apply isl_embs. Qed.
  Lemma isl_init v : isl v -> isl (init_k v).
  Proof. intros H. unfold init_k, fast_init. constructor; [now apply isl_hd|]. now apply isl_matvec, isl_tl. Qed.
  Lemma isl_fast_mds r v : isl v -> isl (fast_mds_k r v).
  Proof.
    intros H. unfold fast_mds_k, fast_mds. pose proof (isl_hd _ H) as HH. constructor.
    - apply isb_add; [base|]. now apply isb_dotp, isl_tl.
    - pose proof (isl_tl _ H) as HT. revert HT. generalize (tl v). induction (VSr r) as [|t l IH]; intros u Hu; cbn [map2]; [constructor|].
      destruct Hu as [|y u Hy Hu]; constructor; [base|now apply IH].
  Qed.
  Lemma isl_wires12 s0 : isl (wires12 ws s0). Proof. unfold wires12. apply isl_map. intros i. base. Qed.
  Lemma isl_subs a b : isl a -> isl b -> isl (subs a b).
  Proof.
    intros Ha. unfold subs. revert b. induction Ha as [|x a Hx Ha IH]; intros b Hb; cbn [combine map]; [constructor|].
    destruct Hb as [|y b Hy Hb]; cbn [combine map fst snd]; constructor; [base|now apply IH].
  Qed.
  Definition iss (S : list K * list K) : Prop := isl (fst S) /\ isl (snd S).
  Lemma iss_full S ks : iss S -> iss (gfull_k ws S ks).
  Proof.
    destruct ks as [k [s0|]]; intros [H1 H2]; split; cbn [gfull_k fst snd].
    - apply isl_mds_k, isl_each; [apply isl_wires12|]. intros x; apply isb_sb7.
    - apply isl_app; [exact H2|]. apply isl_subs; [now apply isl_add_rc|apply isl_wires12].
    - apply isl_mds_k, isl_each; [now apply isl_add_rc|]. intros x; apply isb_sb7.
    - apply isl_app; [exact H2|constructor].
  Qed.
  Lemma iss_part S r : iss S -> iss (gpart_k ws S r).
  Proof.
    intros [H1 H2]. split; cbn [gpart_k fst snd].
    - apply isl_fast_mds. constructor; [|now apply isl_tl]. apply isb_add; [|base]. apply isb_sb7. base.
    - apply isl_app; [exact H2|]. repeat constructor. apply isb_sub; [now apply isl_hd|base].
  Qed.
  Lemma iss_fold {A} (f : list K * list K -> A -> list K * list K) l : (forall S a, iss S -> iss (f S a)) -> forall S, iss S -> iss (fold_left f l S).
  Proof. intros Hf. induction l as [|a l IH]; intros S H; cbn [fold_left]; [exact H|]. apply IH. now apply Hf. Qed.
  Lemma iss_start : iss (swapped_in ws, swap_cons ws).
  Proof.
    split; cbn [fst snd].
    - unfold swapped_in. apply isl_app; [|apply isl_app]; apply isl_map; intros i; base.
    - unfold swap_cons. constructor; [base|]. apply isl_map. intros i. base.
  Qed.
  Lemma isl_poseidon : isl (poseidon_gate_k ws).
  Proof.
    assert (A : iss (pgA ws)) by (unfold pgA; apply iss_fold; [intros; now apply iss_full|apply iss_start]).
    assert (B : iss (pgB ws (pgA ws))).
    { unfold pgB. apply iss_fold; [intros; now apply iss_part|]. destruct A as [A1 A2]. split; cbn [fst snd]; [|exact A2]. apply isl_init, isl_vadd; [exact A1|apply isl_embs]. }
    assert (C : iss (pgC ws (pgB ws (pgA ws)))) by (unfold pgC; apply iss_fold; [intros; now apply iss_full|exact B]).
    unfold poseidon_gate_k, pgD. destruct C as [C1 C2]. apply isl_app; [exact C2|]. revert C1. generalize (fst (pgC ws (pgB ws (pgA ws)))).
    intros l Hl. generalize (seq 0 12). induction Hl as [|x l Hx Hl IH]; intros [|i m]; cbn [map combine fst snd]; constructor; [base|apply IH].
  Qed.
  Lemma isl_mds : isl (mds_gate_k ws).
  Proof.
    unfold mds_gate_k. apply isl_concat. intros i. apply isl_klimbs, isa_sub; [now apply isa_alg|].
    assert (I : forall (sel : KA -> K), sel = fst \/ sel = snd -> isl (map sel (mds_in ws))).
    { intros sel Hs. unfold mds_in. rewrite map_map. apply isl_map. intros j. destruct Hs as [-> | ->]; cbn [alg fst snd]; base. }
    split.
    - change (fst (nth i (mds_a (mds_in ws)) ka0)) with ((@fst K K) (nth i (mds_a (mds_in ws)) ka0)). rewrite <- (map_nth (@fst K K)), mds_a_fst. apply isl_nth, isl_mds_k, I. now left.
    - rewrite <- (map_nth (@snd K K)), mds_a_snd. apply isl_nth, isl_mds_k, I. now right.
  Qed.
  Lemma isl_pairs b l : isb b -> isl l -> isl (pairs_k b l).
  Proof.
    intros Hb. induction l as [|f|f g l IH] using list_ind2; intros H; cbn [pairs_k]; try constructor.
    - inversion H as [|? ? Hf H1]; subst. inversion H1 as [|? ? Hg H2]; subst. base.
    - apply IH. inversion H as [|? ? Hf H1]; subst. now inversion H1.
  Qed.
  Lemma isl_ra_copy bits copies extra copy : isl (ra_copy_k bits copies extra ws copy).
  Proof.
    unfold ra_copy_k, ra_bits. cbv zeta.
    assert (BB : isl (map (ra_bit bits copies extra ws copy) (seq 0 bits))) by (apply isl_map; intros i; unfold ra_bit; base).
    apply isl_app; [|repeat constructor].
    - apply isl_each; [exact BB|]. intros x Hx. base.
    - apply isb_sub; [|base]. apply isb_powers_sum; [exact BB|base].
    - apply isb_sub; [|base]. apply isl_nth.
      assert (IT : isl (ra_items bits ws copy)) by (unfold ra_items; apply isl_map; intros i; base).
      revert IT BB. generalize (ra_items bits ws copy) (map (ra_bit bits copies extra ws copy) (seq 0 bits)). intros items l. revert items.
      induction l as [|b l IH]; intros items IT BB; cbn [fold_left]; [exact IT|]. inversion BB; subst. apply IH; [now apply isl_pairs|assumption].
  Qed.
  Lemma isl_ra bits copies extra : isl (ra_k bits copies extra cs ws).
  Proof. unfold ra_k. apply isl_app; [apply isl_concat; intros; apply isl_ra_copy|]. apply isl_map. intros i. base. Qed.
  Lemma isl_reducing al c : isa al -> Forall isa c -> forall a acc, Forall isa a -> isa acc -> isl (reducing_k al acc c a).
  Proof.
    intros Hal. induction c as [|x c IH]; intros Hc a acc Ha Hacc; [destruct a; constructor|]. destruct a as [|y a]; cbn [reducing_k]; [constructor|].
    inversion Hc; subst. inversion Ha; subst. apply isl_app; [|now apply IH]. base.
  Qed.
  Lemma isa_acc n start i : isa (acc_at n start ws i). Proof. unfold acc_at. destruct (Nat.eqb i (n - 1)); now apply isa_alg. Qed.
  Theorem isl_gate g : isl (gate_k g cs ws h).
  Proof.
    assert (IM : forall {A} (F : A -> KA) l, (forall i, isa (F i)) -> Forall isa (map F l)) by (intros A F l H; apply Forall_map, Forall_forall; intros i _; apply H).
    destruct g; cbn [gate_k].
    - apply isl_map. apply isb_arith.
    - apply isl_concat. apply isl_arith_ext.
    - apply isl_base_sum.
    - apply isl_map. intros i. base.
    - apply isl_coset.
    - apply isl_app; [apply isl_map; intros; apply isb_exp|]. repeat constructor. base.
    - apply isl_concat. apply isl_mul_ext.
    - constructor.
    - apply isl_poseidon.
    - apply isl_mds.
    - apply isl_map. intros i. unfold hash_part. base.
    - apply isl_ra.
    - unfold reducing_ext_gate_k. apply isl_reducing; try (now apply isa_alg); apply IM; intros; [now apply isa_alg|apply isa_acc].
    - unfold reducing_gate_k. apply isl_reducing; try (now apply isa_alg); apply IM; intros; [apply isa_emb; base|apply isa_acc].
  Qed.
End Gates.
Lemma isb_flt cs info i : isl cs -> isb (flt cs info i).
Proof.
  intros H. unfold flt, filter_k. apply isb_mul.
  - apply isb_kprod. intros j _. base.
  - destruct (Nat.ltb 1 (ns info)); base.
Qed.
Lemma isb_total cs ws h info gates : isl cs -> isl ws -> forall k j, isb (total cs info (map (fun g => gate_k g (skipn (ns info) cs) ws h) gates) k j).
Proof.
  intros Hcs Hws. induction gates as [|g gates IH]; intros k j; cbn [map total]; [apply isb_0|]. apply isb_add; [|apply IH].
  apply isb_mul; [|now apply isb_flt]. apply isl_nth, isl_gate; [now apply isl_skipn|exact Hws].
Qed.
