(** * The gates compute the following polynomials of their wires and constants. *)
From Coq Require Import String.
From Coq Require Import ZArith NArith Lia List Bool Ring.
From Verif Require Import Zp GF Circuit Goldilocks GLProofs ExtProofs PoseidonGLConst PoseidonGL PoseidonGLProofs Types
  Challenger Fri FriMerkle FriEval Gates.
Import ListNotations.
Open Scope Z_scope.

(** evaluation variables with the given values *)
Definition mkvars (cs ws : list K) (h : list GF) : EvaluationVars :=
  mkEvaluationVars (map repK cs) (map repK ws) (map rep h).
(** value of wire i, of the algebra element in wires i and i+1, of constant i *)
Definition wire (ws : list K) (i : nat) : K := nth i ws k0.
Definition alg (ws : list K) (i : nat) : KA := (wire ws i, wire ws (S i)).
Definition klimbs (x : KA) : list K := [fst x; snd x].
Definition all0 (l : list K) : Prop := Forall (fun c => c = k0) l.

Lemma computes_wire l i : (i < length l)%nat -> computes (nth_ (map repK l) i) (repK (wire l i)).
Proof.
  intros H. unfold wire. rewrite <- (map_nth repK). apply computes_nth. now rewrite map_length.
Qed.
Lemma computes_alg cs ws h a b i : a = i -> b = (i + 2)%nat -> (i + 1 < length ws)%nat ->
  computes (GetLocalExtAlgebra (mkvars cs ws h) (a, b)) (repA (alg ws i)).
Proof.
  intros -> -> H. unfold GetLocalExtAlgebra. cbn [fst snd mkvars localWires].
  eapply computes_bind; [apply computes_panic_if; unfold D; rewrite negb_false_iff; apply Nat.eqb_eq; lia|].
  eapply computes_bind; [apply computes_wire; lia|].
  eapply computes_bind; [apply computes_wire; exact H|].
  eapply computes_eq; [apply computes_ret|]. unfold repA, alg. cbn [fst snd]. now rewrite Nat.add_1_r.
Qed.
Lemma limbs2_rep x : limbs2 (repA x) = map repK (klimbs x). Proof. reflexivity. Qed.

Lemma mapM_seq_K {B C} (f : nat -> circ B) (g : nat -> C) (R : C -> B) k n :
  (forall i, (k <= i < k + n)%nat -> computes (f i) (R (g i))) ->
  computes (mapM f (seq k n)) (map R (map g (seq k n))).
Proof. apply computes_mapM_seq. Qed.
Lemma concat_map_repK (l : list (list K)) : concat (map (map repK) l) = map repK (concat l).
Proof. now rewrite concat_map. Qed.

Lemma all0_map {A} (f : A -> K) l : all0 (map f l) <-> forall x, In x l -> f x = k0.
Proof. unfold all0. rewrite Forall_map, Forall_forall. reflexivity. Qed.
Lemma all0_seq (f : nat -> K) n : all0 (map f (seq 0 n)) <-> forall i, (i < n)%nat -> f i = k0.
Proof.
  rewrite all0_map. split; intros H i Hi; apply H; [apply in_seq; lia|apply in_seq in Hi; lia].
Qed.
Lemma all0_app a b : all0 (a ++ b) <-> all0 a /\ all0 b.
Proof. apply Forall_app. Qed.
Lemma all0_cons a b : all0 (a :: b) <-> a = k0 /\ all0 b.
Proof. unfold all0. split; [intros H; inversion H; auto|intros []; now constructor]. Qed.
Lemma all0_nil : all0 [] <-> True. Proof. split; constructor. Qed.
Lemma all0_concat l : all0 (concat l) <-> Forall all0 l.
Proof.
  induction l as [|a l IH]; cbn [concat]; [split; constructor|]. rewrite all0_app, IH.
  split; [intros []; now constructor|intros H; inversion H; auto].
Qed.
Lemma all0_concat_seq (f : nat -> list K) n : all0 (concat (map f (seq 0 n))) <-> forall i, (i < n)%nat -> all0 (f i).
Proof.
  rewrite all0_concat, Forall_map, Forall_forall. split; intros H i Hi; apply H; [apply in_seq; lia|apply in_seq in Hi; lia].
Qed.
Lemma all0_klimbs x : all0 (klimbs x) <-> x = ka0.
Proof.
  unfold klimbs. rewrite !all0_cons, all0_nil. split; [intros (H1 & H2 & _); apply KA_eq; assumption|intros ->; auto].
Qed.
Lemma asub_eq0 a b : (a - b)%KA = ka0 <-> a = b.
Proof.
  split.
  - intros E. apply KA_eq; apply ksub_eq0; [now apply (f_equal fst) in E|now apply (f_equal snd) in E].
  - intros ->. ring.
Qed.
Lemma length_concat_seq {A} (f : nat -> list A) m : (forall i, length (f i) = m) -> forall n k, length (concat (map f (seq k n))) = (m * n)%nat.
Proof.
  intros H. induction n as [|n IH]; intros k; cbn [seq map concat]; [rewrite Nat.mul_0_r; reflexivity|].
  rewrite app_length, H, IH. lia.
Qed.

(** ** Arithmetic gates *)
Definition arith_k (cs ws : list K) (i : nat) : K :=
  (wire ws (4 * i + 3) - (wire ws (4 * i) * wire ws (4 * i + 1) * wire cs 0 + wire ws (4 * i + 2) * wire cs 1))%K.
Lemma arithmetic_computes n cs ws h : (4 * n <= length ws)%nat -> (2 <= length cs)%nat ->
  computes (EvalUnfiltered (ArithmeticGate n) (mkvars cs ws h)) (map repK (map (arith_k cs ws) (seq 0 n))).
Proof.
  intros Hw Hc. unfold EvalUnfiltered, eval_arithmetic. cbn [mkvars localConstants].
  eapply computes_bind; [apply computes_wire; lia|]. eapply computes_bind; [apply computes_wire; lia|].
  apply mapM_seq_K. intros i Hi. unfold arithmetic_op. cbn [mkvars localWires].
  do 4 (eapply computes_bind; [apply computes_wire; lia|]).
  eapply computes_bind; [apply mul_ext_correct|]. eapply computes_bind; [apply mul_ext_correct|].
  eapply computes_bind; [apply mul_ext_correct|]. eapply computes_bind; [apply add_ext_correct|].
  apply sub_ext_correct.
Qed.

Definition arith_ext_k (cs ws : list K) (i : nat) : list K :=
  klimbs (alg ws (8 * i + 6) - (aemb (wire cs 1) * alg ws (8 * i + 4) + aemb (wire cs 0) * (alg ws (8 * i) * alg ws (8 * i + 2))))%KA.
Lemma arithmetic_ext_computes n cs ws h : (8 * n <= length ws)%nat -> (2 <= length cs)%nat ->
  computes (EvalUnfiltered (ArithmeticExtensionGate n) (mkvars cs ws h)) (map repK (concat (map (arith_ext_k cs ws) (seq 0 n)))).
Proof.
  intros Hw Hc. unfold EvalUnfiltered, eval_arithmetic_ext. cbn [mkvars localConstants].
  eapply computes_bind; [apply computes_wire; lia|]. eapply computes_bind; [apply computes_wire; lia|].
  eapply computes_bind; [apply (mapM_seq_K _ (arith_ext_k cs ws) (map repK))|].
  - intros i Hi. unfold arithmetic_ext_op, D. change (mkEvaluationVars (map repK cs) (map repK ws) (map rep h)) with (mkvars cs ws h).
    eapply computes_bind; [apply (computes_alg _ _ _ _ _ (8 * i)); lia|].
    eapply computes_bind; [apply (computes_alg _ _ _ _ _ (8 * i + 2)); lia|].
    eapply computes_bind; [apply (computes_alg _ _ _ _ _ (8 * i + 4)); lia|].
    eapply computes_bind; [apply (computes_alg _ _ _ _ _ (8 * i + 6)); lia|].
    eapply computes_bind; [apply mul_alg_correct|]. eapply computes_bind; [apply scalar_alg_correct|].
    eapply computes_bind; [apply scalar_alg_correct|]. eapply computes_bind; [apply add_alg_correct|].
    eapply computes_bind; [apply sub_alg_correct|]. apply computes_ret.
  - rewrite concat_map_repK. apply computes_ret.
Qed.

Definition mul_ext_k (cs ws : list K) (i : nat) : list K :=
  klimbs (alg ws (6 * i + 4) - aemb (wire cs 0) * (alg ws (6 * i) * alg ws (6 * i + 2)))%KA.
Lemma mul_ext_computes n cs ws h : (6 * n <= length ws)%nat -> (1 <= length cs)%nat ->
  computes (EvalUnfiltered (MultiplicationExtensionGate n) (mkvars cs ws h)) (map repK (concat (map (mul_ext_k cs ws) (seq 0 n)))).
Proof.
  intros Hw Hc. unfold EvalUnfiltered, eval_mul_ext. cbn [mkvars localConstants].
  eapply computes_bind; [apply computes_wire; lia|].
  eapply computes_bind; [apply (mapM_seq_K _ (mul_ext_k cs ws) (map repK))|].
  - intros i Hi. unfold mul_ext_op, D. change (mkEvaluationVars (map repK cs) (map repK ws) (map rep h)) with (mkvars cs ws h).
    eapply computes_bind; [apply (computes_alg _ _ _ _ _ (6 * i)); lia|].
    eapply computes_bind; [apply (computes_alg _ _ _ _ _ (6 * i + 2)); lia|].
    eapply computes_bind; [apply (computes_alg _ _ _ _ _ (6 * i + 4)); lia|].
    eapply computes_bind; [apply mul_alg_correct|]. eapply computes_bind; [apply scalar_alg_correct|].
    eapply computes_bind; [apply sub_alg_correct|]. apply computes_ret.
  - rewrite concat_map_repK. apply computes_ret.
Qed.

(** ** Constant, public input and noop gates *)
Lemma constant_computes n cs ws h : (n <= length ws)%nat -> (n <= length cs)%nat ->
  computes (EvalUnfiltered (ConstantGate n) (mkvars cs ws h)) (map repK (map (fun i => wire cs i - wire ws i)%K (seq 0 n))).
Proof.
  intros Hw Hc. apply mapM_seq_K. intros i Hi. cbn [mkvars localWires localConstants].
  do 2 (eapply computes_bind; [apply computes_wire; lia|]). apply sub_ext_correct.
Qed.
Definition hash_part (h : list GF) (i : nat) : K := emb (nth i h g0).
Lemma public_input_computes cs ws h : (4 <= length ws)%nat -> length h = 4%nat ->
  computes (EvalUnfiltered PublicInputGate (mkvars cs ws h)) (map repK (map (fun i => wire ws i - hash_part h i)%K (seq 0 4))).
Proof.
  intros Hw Hc. apply mapM_seq_K. intros i Hi. cbn [mkvars localWires publicInputsHash].
  eapply computes_bind; [apply (computes_nth _ _ 0); rewrite map_length; lia|].
  eapply computes_bind; [apply computes_wire; lia|]. rewrite nth_map_rep.
  apply (sub_ext_correct _ (emb (nth i h g0))).
Qed.

(** ** Base sum gate *)
Lemma small_repK i : 0 <= i < p -> (i, Zero) = repK (emb (inj i)).
Proof. intros H. unfold repK, emb. cbn [fst snd]. now rewrite rep_inj_small. Qed.
Definition digits_k (base : nat) (x : K) : K :=
  fold_left (fun acc i => acc * (x - emb (inj (Z.of_nat i))))%K (seq 0 base) k1.
Lemma limb_check_computes base x : Z.of_nat base <= p ->
  computes (limb_check base (repK x)) (repK (digits_k base x)).
Proof.
  intros Hb. unfold limb_check, digits_k. rewrite <- repK_1. rewrite <- (map_id (seq 0 base)) at 1.
  apply (computes_foldM _ repK (fun i : nat => i) (fun acc i => acc * (x - emb (inj (Z.of_nat i))))%K).
  intros acc i Hi. apply in_seq in Hi. rewrite small_repK by lia.
  eapply computes_bind; [apply sub_ext_correct|apply mul_ext_correct].
Qed.
Definition base_sum_limbs (n : nat) (ws : list K) : list K := map (fun i => wire ws (1 + i)) (seq 0 n).
Definition base_sum_k (n base : nat) (ws : list K) : list K :=
  (powers_sum (base_sum_limbs n ws) (emb (inj (Z.of_nat base))) - wire ws 0)%K :: map (digits_k base) (base_sum_limbs n ws).
Lemma base_sum_computes n base cs ws h : (1 + n <= length ws)%nat -> Z.of_nat base < p ->
  computes (EvalUnfiltered (BaseSumGate n base) (mkvars cs ws h)) (map repK (base_sum_k n base ws)).
Proof.
  intros Hw Hb. unfold EvalUnfiltered, eval_base_sum. cbn [mkvars localWires].
  eapply computes_bind; [apply computes_wire; lia|].
  eapply computes_bind; [apply (mapM_seq_K _ (fun i => wire ws (1 + i)) repK); intros i Hi; apply computes_wire; lia|].
  fold (base_sum_limbs n ws). cbv zeta. rewrite small_repK by lia.
  eapply computes_bind; [apply reduce_with_powers_correct|].
  eapply computes_bind; [apply sub_ext_correct|].
  eapply computes_bind.
  - rewrite <- (map_map (digits_k base) repK) || idtac.
    apply (computes_mapM2 (limb_check base) repK (fun x => repK (digits_k base x))).
    intros x _. apply limb_check_computes. lia.
  - eapply computes_eq; [apply computes_ret|]. unfold base_sum_k. cbn [map]. now rewrite map_map.
Qed.
Lemma digits_zero base x : digits_k base x = k0 <-> exists d, (d < base)%nat /\ x = emb (inj (Z.of_nat d)).
Proof.
  unfold digits_k.
  assert (G : forall l acc, fold_left (fun acc i => acc * (x - emb (inj (Z.of_nat i))))%K l acc = k0 <->
            acc = k0 \/ exists d, In d l /\ x = emb (inj (Z.of_nat d))).
  { induction l as [|i l IH]; intros acc; cbn [fold_left].
    - split; [auto|]. intros [H|(d & [] & _)]; exact H.
    - rewrite IH. split.
      + intros [H|(d & Hd & E)]; [|right; exists d; auto using in_cons].
        apply kmul_eq0 in H. destruct H as [H|H]; [now left|]. right. exists i. split; [apply in_eq|]. now apply ksub_eq0.
      + intros [->|(d & [->|Hd] & E)]; [left; ring| |right; eauto].
        left. rewrite (proj2 (ksub_eq0 _ _) E). ring. }
  rewrite G. split.
  - intros [H|(d & Hd & E)]; [now destruct (k1_neq_k0)|]. apply in_seq in Hd. exists d. split; [lia|exact E].
  - intros (d & Hd & E). right. exists d. split; [apply in_seq; lia|exact E].
Qed.

(** ** Exponentiation gate *)
Definition exp_prev (n : nat) (ws : list K) (i : nat) : K :=
  if Nat.eqb i 0 then k1 else (wire ws (2 + n + (i - 1)) * wire ws (2 + n + (i - 1)))%K.
Definition exp_k (n : nat) (ws : list K) (i : nat) : K :=
  (exp_prev n ws i * (wire ws (1 + (n - i - 1)) * wire ws 0 - (wire ws (1 + (n - i - 1)) * k1 - k1)) - wire ws (2 + n + i))%K.
Lemma exponentiation_computes n cs ws h : (2 + 2 * n <= length ws)%nat -> (1 <= n)%nat ->
  computes (EvalUnfiltered (ExponentiationGate n) (mkvars cs ws h))
           (map repK (map (exp_k n ws) (seq 0 n) ++ [(wire ws (1 + n) - wire ws (2 + n + (n - 1)))%K])).
Proof.
  intros Hw Hn. unfold EvalUnfiltered, eval_exponentiation. cbn [mkvars localWires].
  assert (N : forall (f : nat -> K) i, (i < n)%nat -> computes (nth_ (map repK (map f (seq 0 n))) i) (repK (f i))).
  { intros f i Hi. rewrite map_map. eapply computes_eq; [apply (computes_nth _ _ (repK (f O)))|].
    - now rewrite map_length, seq_length.
    - rewrite (map_nth (fun i => repK (f i))), seq_nth by exact Hi. reflexivity. }
  eapply computes_bind; [apply computes_wire; lia|].
  eapply computes_bind; [apply (mapM_seq_K _ (fun i => wire ws (1 + i)) repK); intros i Hi; apply computes_wire; lia|].
  eapply computes_bind; [apply (mapM_seq_K _ (fun i => wire ws (2 + n + i)) repK); intros i Hi; apply computes_wire; lia|].
  eapply computes_bind; [apply computes_wire; lia|].
  eapply computes_bind; [apply (mapM_seq_K _ (exp_k n ws) repK)|].
  - intros i Hi. unfold exp_gate_step, exp_k.
    assert (P : computes (if Nat.eqb i 0 then Ret OneExtension
                          else v <- nth_ (map repK (map (fun i => wire ws (2 + n + i)) (seq 0 n))) (i - 1);; MulExtension v v)%circ
                         (repK (exp_prev n ws i))).
    { unfold exp_prev. destruct (Nat.eqb_spec i 0) as [E|E].
      - rewrite <- repK_1. apply computes_ret.
      - eapply computes_bind; [apply (N (fun i => wire ws (2 + n + i)) (i - 1)%nat); lia|]. apply mul_ext_correct. }
    eapply computes_bind; [exact P|].
    eapply computes_bind; [apply (N (fun i => wire ws (1 + i)) (n - i - 1)%nat); lia|].
    eapply computes_bind; [rewrite <- repK_1; apply mul_ext_correct|].
    eapply computes_bind; [rewrite <- repK_1; apply sub_ext_correct|].
    eapply computes_bind; [apply mul_ext_correct|]. eapply computes_bind; [apply sub_ext_correct|].
    eapply computes_bind; [apply mul_ext_correct|].
    eapply computes_bind; [apply (N (fun i => wire ws (2 + n + i)) i); lia|]. apply sub_ext_correct.
  - eapply computes_bind; [apply computes_panic_if, Nat.eqb_neq; lia|].
    eapply computes_bind; [apply (N (fun i => wire ws (2 + n + i)) (n - 1)%nat); lia|].
    eapply computes_bind; [apply sub_ext_correct|].
    rewrite map_app. apply computes_ret.
Qed.

Lemma exp_base (b : K) (x : bool) : ((if x then k1 else k0) * b - ((if x then k1 else k0) * k1 - k1))%K = if x then b else k1.
Proof. destruct x; ring. Qed.
(** bit wires holding the binary digits of e *)
Definition bit_k (b : bool) : K := if b then k1 else k0.
Lemma N_shift_step e n i : (i < n)%nat -> (e / 2 ^ N.of_nat (n - i - 1) = 2 * (e / 2 ^ N.of_nat (n - i)) + N.b2n (N.testbit e (N.of_nat (n - i - 1))))%N.
Proof.
  intros H. replace (N.of_nat (n - i)) with (N.succ (N.of_nat (n - i - 1))) by lia.
  rewrite N.pow_succ_r', (N.mul_comm 2 (2 ^ _)), <- N.div_div by (try apply N.pow_nonzero; discriminate).
  rewrite N.testbit_spec'. apply N.div_mod. discriminate.
Qed.
Lemma exponentiation_iff n ws e : (1 <= n)%nat -> (e < 2 ^ N.of_nat n)%N ->
  (forall i, (i < n)%nat -> wire ws (1 + i) = bit_k (N.testbit e (N.of_nat i))) ->
  all0 (map (exp_k n ws) (seq 0 n) ++ [(wire ws (1 + n) - wire ws (2 + n + (n - 1)))%K]) <->
  (forall i, (i < n)%nat -> wire ws (2 + n + i) = (wire ws 0 ^ (e / 2 ^ N.of_nat (n - i - 1)))%K) /\
  wire ws (1 + n) = (wire ws 0 ^ e)%K.
Proof.
  intros Hn He Hb. rewrite all0_app, all0_seq, all0_cons, all0_nil.
  assert (S : forall i, (i < n)%nat -> exp_k n ws i = k0 <->
     wire ws (2 + n + i) = (exp_prev n ws i * (if N.testbit e (N.of_nat (n - i - 1)) then wire ws 0 else k1))%K).
  { intros i Hi. unfold exp_k. rewrite Hb by lia. unfold bit_k. rewrite exp_base, ksub_eq0. split; congruence. }
  assert (L : (e / 2 ^ N.of_nat (n - (n - 1) - 1) = e)%N).
  { replace (n - (n - 1) - 1)%nat with O by lia. apply N.div_1_r. }
  assert (I : (forall i, (i < n)%nat -> exp_k n ws i = k0) <->
              (forall i, (i < n)%nat -> wire ws (2 + n + i) = (wire ws 0 ^ (e / 2 ^ N.of_nat (n - i - 1)))%K)).
  { assert (Z : (e / 2 ^ N.of_nat n = 0)%N) by now apply N.div_small.
    assert (Step : forall i, (i < n)%nat -> (i = O \/ wire ws (2 + n + (i - 1)) = (wire ws 0 ^ (e / 2 ^ N.of_nat (n - (i - 1) - 1)))%K) ->
       (exp_prev n ws i * (if N.testbit e (N.of_nat (n - i - 1)) then wire ws 0 else k1))%K = (wire ws 0 ^ (e / 2 ^ N.of_nat (n - i - 1)))%K).
    { intros i Hi Hp. rewrite (N_shift_step e n i Hi), kpow_add.
      assert (E1 : exp_prev n ws i = (wire ws 0 ^ (2 * (e / 2 ^ N.of_nat (n - i))))%K).
      { unfold exp_prev. destruct (Nat.eqb_spec i 0) as [->|Ni].
        - rewrite Nat.sub_0_r, Z. reflexivity.
        - destruct Hp as [->|Hp]; [congruence|]. rewrite Hp.
          replace (n - (i - 1) - 1)%nat with (n - i)%nat by lia. rewrite <- kpow_add. f_equal. lia. }
      rewrite E1. destruct (N.testbit e (N.of_nat (n - i - 1))); reflexivity. }
    split; intros H.
    - intros i. induction i as [|i IH]; intros Hi.
      + rewrite (proj1 (S O Hi) (H O Hi)). apply Step; auto.
      + rewrite (proj1 (S _ Hi) (H _ Hi)). apply Step; [exact Hi|]. right.
        replace (Datatypes.S i - 1)%nat with i by lia. apply IH. lia.
    - intros i Hi. apply S; [exact Hi|]. rewrite Step; [now apply H|exact Hi|].
      destruct i as [|i]; [now left|right]. apply H. lia. }
  rewrite I, ksub_eq0. split.
  - intros (H & E & _). split; [exact H|]. rewrite E, H by lia. now rewrite L.
  - intros (H & E). split; [exact H|]. split; [|exact Logic.I]. rewrite E, H by lia. now rewrite L.
Qed.

(** ** Random access gate *)
Fixpoint pairs_k (b : K) (l : list K) : list K :=
  match l with x :: y :: rest => (x + b * (y - x))%K :: pairs_k b rest | _ => [] end.
Lemma list_ind2 {A} (P : list A -> Prop) : P [] -> (forall x, P [x]) -> (forall x y l, P l -> P (x :: y :: l)) -> forall l, P l.
Proof.
  intros H0 H1 H2 l. assert (H : P l /\ forall x, P (x :: l)); [|apply H].
  induction l as [|a l [IH1 IH2]]; [auto|]. split; [apply IH2|]. intros x. now apply H2.
Qed.
Lemma pairs_computes b l : forall m, length l = (2 * m)%nat ->
  computes (fold_pairs (repK b) (map repK l)) (map repK (pairs_k b l)) /\ length (pairs_k b l) = m.
Proof.
  induction l as [|x|x y l IH] using list_ind2; intros m H; cbn [length] in H.
  - split; [apply computes_ret|]. cbn. lia.
  - lia.
  - destruct m as [|m]; [lia|]. destruct (IH m ltac:(lia)) as [C L]. split; [|cbn [pairs_k length]; now rewrite L].
    cbn [map fold_pairs pairs_k].
    eapply computes_bind; [apply sub_ext_correct|]. eapply computes_bind; [apply mul_ext_correct|].
    eapply computes_bind; [apply add_ext_correct|]. eapply computes_bind; [exact C|]. apply computes_ret.
Qed.
Lemma select_computes bits : forall l, length l = (2 ^ length bits)%nat ->
  computes (foldM (fun items b => fold_pairs b items) (map repK l) (map repK bits))
           (map repK (fold_left (fun items b => pairs_k b items) bits l)) /\
  length (fold_left (fun items b => pairs_k b items) bits l) = 1%nat.
Proof.
  induction bits as [|b bits IH]; intros l H; cbn [map foldM fold_left].
  - split; [apply computes_ret|exact H].
  - destruct (pairs_computes b l (2 ^ length bits)) as [C L]; [rewrite H; reflexivity|].
    destruct (IH _ L) as [C' L']. split; [|exact L']. eapply computes_bind; [exact C|exact C'].
Qed.
Definition ra_items (bits : nat) (ws : list K) (copy : nat) : list K :=
  map (fun i => wire ws ((2 + 2 ^ bits) * copy + 2 + i)) (seq 0 (2 ^ bits)).
Definition ra_bit (bits copies extra : nat) (ws : list K) (copy i : nat) : K :=
  wire ws ((2 + 2 ^ bits) * copies + extra + copy * bits + i).
Definition ra_bits (bits copies extra : nat) (ws : list K) (copy : nat) : list K :=
  map (ra_bit bits copies extra ws copy) (seq 0 bits).
Definition ra_copy_k (bits copies extra : nat) (ws : list K) (copy : nat) : list K :=
  let bs := ra_bits bits copies extra ws copy in
  map (fun b => b * b - b)%K bs ++
  [(powers_sum bs (emb (inj 2)) - wire ws ((2 + 2 ^ bits) * copy))%K;
   (wire (fold_left (fun items b => pairs_k b items) bs (ra_items bits ws copy)) 0 - wire ws ((2 + 2 ^ bits) * copy + 1))%K].
Definition ra_wires (bits copies extra : nat) : nat := (2 + 2 ^ bits) * copies + extra + copies * bits.
Definition ra_k (bits copies extra : nat) (cs ws : list K) : list K :=
  concat (map (ra_copy_k bits copies extra ws) (seq 0 copies)) ++
  map (fun i => wire cs i - wire ws ((2 + 2 ^ bits) * copies + i))%K (seq 0 extra).
Lemma random_access_computes bits copies extra cs ws h : (bits < 64)%nat ->
  (ra_wires bits copies extra <= length ws)%nat -> (extra <= length cs)%nat ->
  computes (EvalUnfiltered (RandomAccessGate bits copies extra) (mkvars cs ws h)) (map repK (ra_k bits copies extra cs ws)).
Proof.
  intros Hb Hw Hc. unfold ra_wires in Hw. unfold EvalUnfiltered, eval_random_access.
  assert (V : vecSize bits = (2 ^ bits)%nat) by (unfold vecSize; now rewrite (proj2 (Nat.ltb_lt bits 64) Hb)).
  rewrite V. eapply computes_bind; [apply (mapM_seq_K _ (ra_copy_k bits copies extra ws) (map repK))|].
  - intros c Hi. unfold random_access_copy. cbn [mkvars localWires]. rewrite V. cbv zeta.
    set (N := (2 ^ bits)%nat) in *.
    assert (B : ((2 + N) * c + (2 + N) <= (2 + N) * copies)%nat) by nia.
    assert (B' : (c * bits + bits <= copies * bits)%nat) by nia.
    eapply computes_bind; [apply computes_wire; lia|].
    eapply computes_bind; [apply (mapM_seq_K _ (fun i => wire ws ((2 + N) * c + 2 + i)) repK); intros i Hi'; apply computes_wire; lia|].
    eapply computes_bind; [apply computes_wire; lia|].
    eapply computes_bind; [apply (mapM_seq_K _ (ra_bit bits copies extra ws c) repK); intros i Hi'; apply computes_wire; lia|].
    fold (ra_bits bits copies extra ws c). fold (ra_items bits ws c).
    eapply computes_bind.
    { apply (computes_mapM2 _ repK (fun b => repK (b * b - b)%K)). intros b _.
      eapply computes_bind; [apply mul_ext_correct|apply sub_ext_correct]. }
    eapply computes_bind; [rewrite (small_repK 2) by (vm_compute; split; [discriminate|reflexivity]); apply reduce_with_powers_correct|].
    eapply computes_bind; [apply sub_ext_correct|].
    destruct (select_computes (ra_bits bits copies extra ws c) (ra_items bits ws c)) as [C L].
    { unfold ra_bits, ra_items. now rewrite !map_length, !seq_length. }
    eapply computes_bind; [exact C|].
    eapply computes_bind; [apply computes_panic_if; rewrite map_length, L; reflexivity|].
    eapply computes_bind; [apply computes_wire; rewrite L; lia|].
    eapply computes_bind; [apply sub_ext_correct|].
    eapply computes_eq; [apply computes_ret|]. unfold ra_copy_k. cbv zeta. rewrite map_app, map_map. reflexivity.
  - eapply computes_bind.
    { apply (mapM_seq_K _ (fun i => wire cs i - wire ws ((2 + 2 ^ bits) * copies + i))%K repK). intros i Hi.
      cbn [mkvars localWires localConstants]. do 2 (eapply computes_bind; [apply computes_wire; lia|]). apply sub_ext_correct. }
    eapply computes_eq; [apply computes_ret|]. unfold ra_k. rewrite map_app, concat_map_repK. reflexivity.
Qed.

(** selection by boolean values is indexing *)
Lemma pairs_bool (b : bool) l : forall m i, length l = (2 * m)%nat -> (i < m)%nat ->
  nth i (pairs_k (bit_k b) l) k0 = nth (2 * i + Nat.b2n b) l k0.
Proof.
  induction l as [|x|x y l IH] using list_ind2; intros m i H Hi; cbn [length] in H; [lia|lia|].
  destruct m as [|m]; [lia|]. cbn [pairs_k]. destruct i as [|i].
  - destruct b; cbn [nth Nat.b2n Nat.mul Nat.add bit_k]; ring.
  - cbn [nth]. rewrite (IH m i) by lia. replace (2 * S i + Nat.b2n b)%nat with (S (S (2 * i + Nat.b2n b))) by lia. reflexivity.
Qed.
Lemma select_bool : forall (bs : list K) idx l, (idx < 2 ^ length bs)%nat -> length l = (2 ^ length bs)%nat ->
  (forall i, (i < length bs)%nat -> nth i bs k0 = bit_k (Nat.testbit idx i)) ->
  wire (fold_left (fun items b => pairs_k b items) bs l) 0 = nth idx l k0.
Proof.
  induction bs as [|b bs IH]; intros idx l Hi Hl Hb.
  - cbn in Hi. replace idx with O by lia. reflexivity.
  - cbn [fold_left]. cbn [length Nat.pow] in Hi, Hl.
    assert (L : length l = (2 * 2 ^ length bs)%nat) by lia.
    assert (E : (idx = 2 * Nat.div2 idx + Nat.b2n (Nat.odd idx))%nat) by apply Nat.div2_odd.
    assert (D2 : (Nat.div2 idx < 2 ^ length bs)%nat) by (destruct (Nat.odd idx); cbn [Nat.b2n] in E; lia).
    pose proof (Hb O ltac:(cbn; lia)) as E0. cbn [nth] in E0. rewrite Nat.bit0_odd in E0. subst b.
    rewrite (IH (Nat.div2 idx)).
    + rewrite (pairs_bool _ l (2 ^ length bs) _ L D2). now rewrite <- E.
    + exact D2.
    + now apply (pairs_computes (bit_k (Nat.odd idx)) l _ L).
    + intros i Hi'. specialize (Hb (S i) ltac:(cbn; lia)). cbn [nth] in Hb. rewrite Hb. reflexivity.
Qed.

Lemma bool_k b : (b * b - b)%K = k0 <-> b = k0 \/ b = k1.
Proof.
  split.
  - intros E. replace (b * b - b)%K with (b * (b - k1))%K in E by ring. apply kmul_eq0 in E.
    destruct E as [E|E]; [now left|right]. now apply ksub_eq0.
  - intros [->| ->]; ring.
Qed.
Lemma k_two : emb (inj 2) = (k1 + k1)%K. Proof. apply K_eq; apply GF_eq; vm_compute; reflexivity. Qed.
(** boolean values are the digits of a number, which is their sum with powers of two *)
Lemma bits_number (bs : list K) : (forall b, In b bs -> b = k0 \/ b = k1) ->
  exists idx, (idx < 2 ^ length bs)%nat /\ forall i, (i < length bs)%nat -> nth i bs k0 = bit_k (Nat.testbit idx i).
Proof.
  induction bs as [|b bs IH]; intros H; [exists O; split; [cbn; lia|cbn; lia]|].
  destruct IH as (idx & Hi & E); [intros; apply H; now right|].
  assert (B : exists c : bool, b = bit_k c) by (destruct (H b (or_introl eq_refl)) as [->| ->]; [exists false|exists true]; reflexivity).
  destruct B as [c ->]. exists (Nat.b2n c + 2 * idx)%nat. cbn [length Nat.pow]. split; [destruct c; cbn [Nat.b2n]; lia|].
  intros [|i] Hi'.
  - cbn [nth]. f_equal. symmetry. apply Nat.add_b2n_double_bit0.
  - cbn [nth]. cbn [length] in Hi'. rewrite E by lia. f_equal.
    change (Nat.testbit (Nat.b2n c + 2 * idx) (S i)) with (Nat.testbit (Nat.div2 (Nat.b2n c + 2 * idx)) i).
    f_equal. rewrite Nat.div2_div. symmetry. apply Nat.add_b2n_double_div2.
Qed.
Lemma bits_sum (bs : list K) : forall idx, (idx < 2 ^ length bs)%nat ->
  (forall i, (i < length bs)%nat -> nth i bs k0 = bit_k (Nat.testbit idx i)) ->
  powers_sum bs (emb (inj 2)) = emb (inj (Z.of_nat idx)).
Proof.
  induction bs as [|b bs IH]; intros idx Hi E.
  - cbn in Hi. replace idx with O by lia. cbn [powers_sum]. change (Z.of_nat 0) with 0. rewrite <- g0_inj. reflexivity.
  - cbn [powers_sum]. cbn [length Nat.pow] in Hi.
    pose proof (Nat.div2_odd idx) as Eo.
    rewrite (IH (Nat.div2 idx)).
    + pose proof (E O ltac:(cbn; lia)) as E0. cbn [nth] in E0. rewrite Nat.bit0_odd in E0. subst b.
      rewrite <- emb_mul, <- inj_mul.
      replace (bit_k (Nat.odd idx)) with (emb (inj (Z.of_nat (Nat.b2n (Nat.odd idx)))))
        by (destruct (Nat.odd idx); cbn [Nat.b2n bit_k]; [change (Z.of_nat 1) with 1; rewrite <- g1_inj|change (Z.of_nat 0) with 0; rewrite <- g0_inj]; reflexivity).
      rewrite <- emb_add, <- inj_add. do 2 f_equal. lia.
    + destruct (Nat.odd idx); cbn [Nat.b2n] in Eo; lia.
    + intros i Hi'. specialize (E (S i) ltac:(cbn; lia)). exact E.
Qed.
Lemma ra_copy_iff bits copies extra ws copy :
  all0 (ra_copy_k bits copies extra ws copy) <->
  exists idx, (idx < 2 ^ bits)%nat /\
    (forall i, (i < bits)%nat -> ra_bit bits copies extra ws copy i = bit_k (Nat.testbit idx i)) /\
    wire ws ((2 + 2 ^ bits) * copy) = emb (inj (Z.of_nat idx)) /\
    wire ws ((2 + 2 ^ bits) * copy + 1) = wire ws ((2 + 2 ^ bits) * copy + 2 + idx).
Proof.
  unfold ra_copy_k. cbv zeta. rewrite all0_app, !all0_cons, all0_nil, all0_map, !ksub_eq0.
  assert (Lb : length (ra_bits bits copies extra ws copy) = bits) by (unfold ra_bits; now rewrite map_length, seq_length).
  assert (Li : length (ra_items bits ws copy) = (2 ^ bits)%nat) by (unfold ra_items; now rewrite map_length, seq_length).
  assert (Nb : forall i, (i < bits)%nat -> nth i (ra_bits bits copies extra ws copy) k0 = ra_bit bits copies extra ws copy i).
  { intros i Hi. unfold ra_bits. rewrite (nth_map_lt _ _ _ _ O) by now rewrite seq_length. now rewrite seq_nth. }
  assert (Ni : forall i, (i < 2 ^ bits)%nat -> nth i (ra_items bits ws copy) k0 = wire ws ((2 + 2 ^ bits) * copy + 2 + i)).
  { intros i Hi. unfold ra_items. rewrite (nth_map_lt _ _ _ _ O) by now rewrite seq_length. now rewrite seq_nth. }
  split.
  - intros (H1 & H2 & H3 & _).
    destruct (bits_number (ra_bits bits copies extra ws copy)) as (idx & Hi & E).
    { intros b Hb. apply bool_k. now apply H1. }
    rewrite Lb in Hi, E. exists idx. split; [exact Hi|]. split; [intros i Hi'; rewrite <- Nb by exact Hi'; now apply E|].
    split; [rewrite <- H2; apply bits_sum; rewrite Lb; assumption|].
    rewrite <- H3, <- Ni by exact Hi. apply select_bool; rewrite Lb; assumption.
  - intros (idx & Hi & E & H2 & H3).
    assert (E' : forall i, (i < length (ra_bits bits copies extra ws copy))%nat ->
              nth i (ra_bits bits copies extra ws copy) k0 = bit_k (Nat.testbit idx i)).
    { intros i Hi'. rewrite Lb in Hi'. rewrite Nb by exact Hi'. now apply E. }
    split.
    + intros b Hb. apply bool_k. apply (In_nth _ _ k0) in Hb. destruct Hb as (i & Hi' & <-).
      rewrite E' by exact Hi'. destruct (Nat.testbit idx i); [now right|now left].
    + split; [rewrite H2; apply bits_sum; [now rewrite Lb|exact E']|]. split; [|exact I].
      rewrite H3, <- Ni by exact Hi. apply select_bool; [now rewrite Lb|now rewrite Lb|exact E'].
Qed.

(** ** Reducing gates *)
Fixpoint reducing_k (alpha acc : KA) (coeffs accs : list KA) : list K :=
  match coeffs, accs with
  | c :: coeffs', a :: accs' => klimbs (acc * alpha + c - a)%KA ++ reducing_k alpha a coeffs' accs'
  | _, _ => []
  end.
Lemma reducing_loop_computes alpha coeffs : forall acc accs,
  computes (reducing_loop (repA alpha) (repA acc) (map repA coeffs) (map repA accs)) (map repK (reducing_k alpha acc coeffs accs)).
Proof.
  induction coeffs as [|c coeffs IH]; intros acc [|a accs]; cbn [map reducing_loop reducing_k]; try apply computes_ret.
  eapply computes_bind; [apply mul_alg_correct|]. eapply computes_bind; [apply add_alg_correct|].
  eapply computes_bind; [apply sub_alg_correct|]. eapply computes_bind; [apply IH|].
  rewrite map_app. apply computes_ret.
Qed.
(** wires of accumulator i: the last one is the output *)
Definition acc_at (n start : nat) (ws : list K) (i : nat) : KA := if Nat.eqb i (n - 1) then alg ws 0 else alg ws (start + 2 * i).
Lemma accs_computes n start cs ws h : (start + 2 * (n - 1) <= length ws)%nat -> (2 <= length ws)%nat ->
  computes (mapM (fun i => GetLocalExtAlgebra (mkvars cs ws h) (wiresAccs n start i)) (seq 0 n))
           (map repA (map (acc_at n start ws) (seq 0 n))).
Proof.
  intros H H2. apply mapM_seq_K. intros i Hi. unfold wiresAccs, acc_at, D.
  destruct (Nat.eqb_spec i (n - 1)) as [->|Ni]; apply computes_alg; lia.
Qed.
Definition reducing_gate_k (n : nat) (ws : list K) : list K :=
  reducing_k (alg ws 2) (alg ws 4) (map (fun i => aemb (wire ws (6 + i))) (seq 0 n)) (map (acc_at n (6 + n) ws) (seq 0 n)).
Lemma reducing_computes n cs ws h : (6 + n + 2 * (n - 1) <= length ws)%nat ->
  computes (EvalUnfiltered (ReducingGate n) (mkvars cs ws h)) (map repK (reducing_gate_k n ws)).
Proof.
  intros Hw. unfold EvalUnfiltered, eval_reducing, D.
  eapply computes_bind; [apply (computes_alg _ _ _ _ _ 2); lia|].
  eapply computes_bind; [apply (computes_alg _ _ _ _ _ 4); lia|].
  eapply computes_bind; [apply (mapM_seq_K _ (fun i => wire ws (6 + i)) repK); intros i Hi; apply computes_wire; lia|].
  eapply computes_bind; [apply accs_computes; lia|].
  rewrite !(map_map (fun i => wire ws (6 + i))), map_map. unfold reducing_gate_k. change (3 * 2 + n)%nat with (6 + n)%nat.
  replace (map (fun x => ToQuadraticExtensionAlgebra (repK (wire ws (6 + x)))) (seq 0 n))
    with (map repA (map (fun i => aemb (wire ws (6 + i))) (seq 0 n))) by now rewrite map_map.
  apply reducing_loop_computes.
Qed.
Definition reducing_ext_gate_k (n : nat) (ws : list K) : list K :=
  reducing_k (alg ws 2) (alg ws 4) (map (fun i => alg ws (6 + 2 * i)) (seq 0 n)) (map (acc_at n (6 + 2 * n) ws) (seq 0 n)).
Lemma reducing_ext_computes n cs ws h : (6 + 2 * n + 2 * (n - 1) <= length ws)%nat ->
  computes (EvalUnfiltered (ReducingExtensionGate n) (mkvars cs ws h)) (map repK (reducing_ext_gate_k n ws)).
Proof.
  intros Hw. unfold EvalUnfiltered, eval_reducing_ext, D.
  eapply computes_bind; [apply (computes_alg _ _ _ _ _ 2); lia|].
  eapply computes_bind; [apply (computes_alg _ _ _ _ _ 4); lia|].
  eapply computes_bind; [apply (mapM_seq_K _ (fun i => alg ws (6 + 2 * i)) repA); intros i Hi; apply computes_alg; lia|].
  replace (3 * 2 + n * 2)%nat with (6 + 2 * n)%nat by lia.
  eapply computes_bind; [apply accs_computes; lia|].
  apply reducing_loop_computes.
Qed.
Fixpoint horner (alpha acc : KA) (coeffs : list KA) : KA :=
  match coeffs with [] => acc | c :: l => horner alpha (acc * alpha + c)%KA l end.
Lemma reducing_iff alpha coeffs : forall acc accs, length accs = length coeffs ->
  all0 (reducing_k alpha acc coeffs accs) <->
  forall i, (i < length coeffs)%nat -> nth i accs ka0 = horner alpha acc (firstn (S i) coeffs).
Proof.
  induction coeffs as [|c coeffs IH]; intros acc [|a accs] L; cbn [length] in L; try discriminate L.
  - cbn. split; [intros _ i Hi; lia|constructor].
  - injection L as L. cbn [reducing_k]. rewrite all0_app, all0_klimbs, asub_eq0, (IH a accs L). split.
    + intros (E & H) [|i] Hi; cbn [firstn horner nth]; [now symmetry|]. cbn [length] in Hi. rewrite E. apply H. lia.
    + intros H. pose proof (H O ltac:(cbn; lia)) as E. cbn [firstn horner nth] in E. split; [now symmetry|].
      intros i Hi. specialize (H (S i) ltac:(cbn; lia)). cbn [nth] in H. rewrite H. cbn [firstn horner]. now rewrite E.
Qed.
Lemma length_reducing_k alpha coeffs : forall acc accs, length accs = length coeffs -> length (reducing_k alpha acc coeffs accs) = (2 * length coeffs)%nat.
Proof.
  induction coeffs as [|c coeffs IH]; intros acc [|a accs] L; cbn [length] in L; try discriminate L; [reflexivity|].
  injection L as L. cbn [reducing_k length klimbs app]. rewrite IH by exact L. lia.
Qed.
(** powers and weighted sums in the algebra *)
Fixpoint apow (x : KA) (n : nat) : KA := match n with O => ka1 | S m => (x * apow x m)%KA end.
Definition asum (f : nat -> KA) (n : nat) : KA := fold_right aadd ka0 (map f (seq 0 n)).
Lemma asum_S f n : asum f (S n) = (f O + asum (fun i => f (S i)) n)%KA.
Proof. unfold asum. change (seq 0 (S n)) with (O :: seq 1 n). cbn [map fold_right]. rewrite <- seq_shift, map_map. reflexivity. Qed.
Lemma horner_closed alpha coeffs : forall acc,
  horner alpha acc coeffs = (acc * apow alpha (length coeffs) + asum (fun j => nth j coeffs ka0 * apow alpha (length coeffs - 1 - j)) (length coeffs))%KA.
Proof.
  induction coeffs as [|c coeffs IH]; intros acc; [cbn; unfold asum; cbn; ring|].
  cbn [horner length]. rewrite IH, asum_S. cbn [nth apow].
  replace (S (length coeffs) - 1 - 0)%nat with (length coeffs) by lia.
  replace (asum (fun i => nth i coeffs ka0 * apow alpha (S (length coeffs) - 1 - S i))%KA (length coeffs))
    with (asum (fun j => nth j coeffs ka0 * apow alpha (length coeffs - 1 - j))%KA (length coeffs)).
  - ring.
  - unfold asum. f_equal. apply map_ext. intros j. do 2 f_equal. lia.
Qed.
