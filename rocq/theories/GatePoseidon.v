(** * The Poseidon gate and the Poseidon MDS gate. *)
From Coq Require Import String.
From Coq Require Import ZArith NArith Lia List Bool Ring.
From Verif Require Import Zp GF Circuit Goldilocks GLProofs ExtProofs LinAlg PoseidonGLConst PoseidonSpec PoseidonGL PoseidonGLProofs PoseidonExt
  Types Challenger Fri FriMerkle FriEval Interp Gates GateProofs.
Import ListNotations.
Open Scope Z_scope.

(** ** The textbook permutation over K, round by round *)
Definition sb7 (x : K) : K := (x ^ 7)%K.
Definition full_k (s : list K) (k : nat) : list K := mds_k (map sb7 (add_rc_k k s)).
Definition partial_k (s : list K) (k : nat) : list K := mds_k (sb7 (hd k0 (add_rc_k k s)) :: tl (add_rc_k k s)).
Definition pround (s : list K) (k : nat) : list K := if (Nat.leb 4 k && Nat.ltb k 26)%bool then partial_k s k else full_k s k.
(** state before round k, and what enters the S-boxes in round k *)
Definition pstate (s : list K) (k : nat) : list K := fold_left pround (seq 0 k) s.
Definition psbox_in (s : list K) (k : nat) : list K := add_rc_k k (pstate s k).
Lemma pstate_S s k : pstate s (S k) = pround (pstate s k) k.
Proof. unfold pstate. rewrite seq_S, fold_left_app. reflexivity. Qed.
Lemma length_full_k s k : length (full_k s k) = 12%nat. Proof. apply length_mds_k. Qed.
Lemma length_partial_k s k : length (partial_k s k) = 12%nat. Proof. apply length_mds_k. Qed.
Lemma length_pstate s k : length s = 12%nat -> length (pstate s k) = 12%nat.
Proof.
  intros H. destruct k as [|k]; [exact H|]. rewrite pstate_S. unfold pround. destruct (_ && _)%bool; [apply length_partial_k|apply length_full_k].
Qed.
Lemma length_add_rc k s : length s = 12%nat -> (k < 30)%nat -> length (add_rc_k k s) = 12%nat.
Proof.
  intros Hs Hk. unfold add_rc_k, add_rc, vadd. rewrite length_map2; [exact Hs|]. now rewrite map_length, length_RC.
Qed.


Lemma pround_part s n : forall k, (4 <= k)%nat -> (k + n <= 26)%nat -> fold_left pround (seq k n) s = fold_left partial_k (seq k n) s.
Proof.
  revert s. induction n as [|n IH]; intros s k H1 H2; cbn [seq fold_left]; [reflexivity|].
  replace (pround s k) with (partial_k s k); [apply IH; lia|].
  unfold pround. now rewrite (proj2 (Nat.leb_le 4 k)), (proj2 (Nat.ltb_lt k 26)) by lia.
Qed.
Lemma pstate_add s a b : pstate s (a + b) = fold_left pround (seq a b) (pstate s a).
Proof. unfold pstate. rewrite seq_app, fold_left_app. reflexivity. Qed.
Lemma pstate_part s i : (i <= 22)%nat -> pstate s (4 + i) = fold_left partial_k (seq 4 i) (pstate s 4).
Proof. intros H. rewrite pstate_add. apply pround_part; lia. Qed.

Lemma pround_full s k : (26 <= k)%nat -> pround s k = full_k s k.
Proof. intros H. unfold pround. rewrite (proj2 (Nat.ltb_ge k 26) H), andb_false_r. reflexivity. Qed.

(** ** the gate *)
Section PG.
  Context (ws : list K).
  Notation w := (wire ws).
  Definition wires12 (s0 : nat) : list K := map (fun i => w (s0 + i)) (seq 0 12).
  Definition subs (a b : list K) : list K := map (fun xy : K * K => (fst xy - snd xy)%K) (combine a b).
  Definition gfull_k (st : list K * list K) (kr : nat * option nat) : list K * list K :=
    let u := add_rc_k (fst kr) (fst st) in
    match snd kr with
    | Some s0 => (mds_k (map sb7 (wires12 s0)), snd st ++ subs u (wires12 s0))
    | None => (mds_k (map sb7 u), snd st ++ [])
    end.
  Definition gpart_k (st : list K * list K) (r : nat) : list K * list K :=
    (fast_mds_k r ((sb7 (w (START_PARTIAL + r)) + emb (FRC r))%K :: tl (fst st)), snd st ++ [(hd k0 (fst st) - w (START_PARTIAL + r))%K]).
  Definition swapped_in : list K :=
    map (fun i => (w i + w (START_DELTA + i))%K) (seq 0 4) ++ map (fun i => (w (i + 4) - w (START_DELTA + i))%K) (seq 0 4) ++ map w (seq 8 4).
  Definition swap_cons : list K :=
    (w 24 * (w 24 - k1))%K :: map (fun i => (w 24 * (w (i + 4) - w i) - w (START_DELTA + i))%K) (seq 0 4).
  Definition rounds1 : list (nat * option nat) := [(0, None); (1, Some START_FULL_0); (2, Some (START_FULL_0 + 12)); (3, Some (START_FULL_0 + 24))]%nat.
  Definition rounds2 : list (nat * option nat) :=
    [(26, Some START_FULL_1); (27, Some (START_FULL_1 + 12)); (28, Some (START_FULL_1 + 24)); (29, Some (START_FULL_1 + 36))]%nat.
  Definition pgA : list K * list K := fold_left gfull_k rounds1 (swapped_in, swap_cons).
  Definition pgB (st : list K * list K) : list K * list K := fold_left gpart_k (seq 0 22) (init_k (vadd kadd (fst st) (map emb FC)), snd st).
  Definition pgC (st : list K * list K) : list K * list K := fold_left gfull_k rounds2 st.
  Definition pgD (st : list K * list K) : list K := snd st ++ map (fun si : K * nat => (fst si - w (12 + snd si))%K) (combine (fst st) (seq 0 12)).
  Definition poseidon_gate_k : list K := pgD (pgC (pgB pgA)).

  Context (Hws : (135 <= length ws)%nat).
  Definition rep2 (st : list K * list K) : list QE * list QE := (map repK (fst st), map repK (snd st)).

  Lemma check_wires_computes st s0 : (s0 + 12 <= length ws)%nat ->
    computes (check_wires (map repK ws) (map repK st) s0) (map repK (wires12 s0), map repK (subs st (wires12 s0))).
  Proof.
    intros H. unfold check_wires. eapply computes_bind.
    - apply (mapM_seq_K _ (fun i => w (s0 + i)) repK). intros i Hi. apply computes_wire. lia.
    - eapply computes_bind; [|apply computes_ret].
      fold (wires12 s0). rewrite combine_map. unfold subs. rewrite map_map.
      apply (computes_mapM2 (fun si : QE * QE => SubExtension (fst si) (snd si)) (fun xy : K * K => (repK (fst xy), repK (snd xy)))).
      intros [x y] _. apply sub_ext_correct.
  Qed.
  Lemma length_gfull st kr : length (fst (gfull_k st kr)) = 12%nat.
  Proof. unfold gfull_k. destruct (snd kr); apply length_mds_k. Qed.
  Lemma gfull_computes st kr : length (fst st) = 12%nat -> (fst kr < 30)%nat ->
    (forall s0, snd kr = Some s0 -> (s0 + 12 <= length ws)%nat) ->
    computes (gate_full_round (map repK ws) (rep2 st) kr) (rep2 (gfull_k st kr)).
  Proof.
    intros Hs Hk Hw. destruct st as [s c], kr as [k o]. cbn [fst snd] in Hs, Hk, Hw.
    unfold gate_full_round, rep2 at 1. cbn [fst snd].
    eapply computes_bind; [now apply constant_layer_ext_correct|]. unfold gfull_k. cbn [fst snd].
    destruct o as [s0|].
    - eapply computes_bind; [apply check_wires_computes; now apply Hw|]. cbv beta iota.
      eapply computes_bind; [apply sbox_layer_ext_correct|].
      eapply computes_bind; [apply mds_layer_ext_correct; unfold wires12; now rewrite !map_length, seq_length|].
      unfold rep2. cbn [fst snd]. rewrite map_app. apply computes_ret.
    - eapply computes_bind; [apply computes_ret|]. cbv beta iota.
      eapply computes_bind; [apply sbox_layer_ext_correct|].
      eapply computes_bind; [apply mds_layer_ext_correct; rewrite map_length; now apply length_add_rc|].
      unfold rep2. cbn [fst snd]. rewrite map_app. apply computes_ret.
  Qed.
  Lemma rounds_computes l : forall st, length (fst st) = 12%nat ->
    (forall kr, In kr l -> (fst kr < 30)%nat /\ forall s0, snd kr = Some s0 -> (s0 + 12 <= length ws)%nat) ->
    computes (foldM (gate_full_round (map repK ws)) (rep2 st) l) (rep2 (fold_left gfull_k l st)).
  Proof.
    induction l as [|kr l IH]; intros st Hs Hl; cbn [foldM fold_left]; [apply computes_ret|].
    destruct (Hl kr (in_eq _ _)) as [A B].
    eapply computes_bind; [now apply gfull_computes|]. apply IH; [apply length_gfull|]. intros; apply Hl; now right.
  Qed.
  Lemma length_fast_mds r s : length s = 12%nat -> (r < 22)%nat -> length (fast_mds_k r s) = 12%nat.
  Proof.
    intros Hs Hr. assert (A : forallb (fun l => Nat.eqb (length l) 11) FAST_PARTIAL_ROUND_VS = true) by reflexivity.
    rewrite forallb_forall in A.
    assert (HV : In (nth r FAST_PARTIAL_ROUND_VS []) FAST_PARTIAL_ROUND_VS) by (apply nth_In; exact Hr).
    apply A in HV. apply Nat.eqb_eq in HV.
    unfold fast_mds_k, fast_mds. destruct s as [|x s]; [discriminate|]. cbn [length tl] in *. apply f_equal.
    rewrite length_map2; unfold VSr; rewrite map_length, HV; [reflexivity|]. lia.
  Qed.
  Lemma tl_len (s : list K) x : length s = 12%nat -> length (x :: tl s) = 12%nat.
  Proof. destruct s; [discriminate|]. auto. Qed.
  Lemma length_gpart st r : length (fst st) = 12%nat -> (r < 22)%nat -> length (fst (gpart_k st r)) = 12%nat.
  Proof. intros Hs Hr. unfold gpart_k. cbn [fst]. apply length_fast_mds; [now apply tl_len|exact Hr]. Qed.
  Lemma gpart_computes st r : length (fst st) = 12%nat -> (r < 22)%nat ->
    computes (gate_partial_round (map repK ws) (rep2 st) r) (rep2 (gpart_k st r)).
  Proof.
    intros Hs Hr. destruct st as [s c]. cbn [fst snd] in Hs.
    unfold gate_partial_round, rep2 at 1. cbn [fst snd].
    eapply computes_bind; [apply computes_wire; unfold START_PARTIAL, START_FULL_0, START_DELTA; lia|].
    rewrite at_repK. eapply computes_bind; [apply sub_ext_correct|].
    eapply computes_bind; [apply sbox_ext_correct|]. fold (sb7 (w (START_PARTIAL + r))).
    eapply computes_bind.
    - assert (E : computes (if Nat.ltb r 21 then AddExtension (repK (sb7 (w (START_PARTIAL + r)))) (at_ FAST_PARTIAL_ROUND_CONSTANTS r, Zero)
                            else Ret (repK (sb7 (w (START_PARTIAL + r))))) (repK (sb7 (w (START_PARTIAL + r)) + emb (FRC r))%K)).
      { destruct (Nat.ltb_spec r 21) as [L|L].
        - rewrite const_repK by reflexivity. apply add_ext_correct.
        - assert (R : r = 21%nat) by lia. subst r. assert (F : FRC 21 = 0%GF) by (apply GF_eq; reflexivity).
          rewrite F. eapply computes_eq; [apply computes_ret|]. f_equal. change (emb 0%GF) with k0. ring. }
      exact E.
    - assert (T : tl (map repK s) = map repK (tl s)) by (destruct s; reflexivity). rewrite T, <- map_cons.
      eapply computes_bind; [apply fast_ext_correct; [now apply tl_len|exact Hr]|].
      unfold rep2, gpart_k. cbn [fst snd]. rewrite map_app.
      replace (nth 0 s k0) with (hd k0 s) by (destruct s; reflexivity). apply computes_ret.
  Qed.
  Lemma parts_computes l : forall st, length (fst st) = 12%nat -> (forall r, In r l -> (r < 22)%nat) ->
    computes (foldM (gate_partial_round (map repK ws)) (rep2 st) l) (rep2 (fold_left gpart_k l st)).
  Proof.
    induction l as [|r l IH]; intros st Hs Hl; cbn [foldM fold_left]; [apply computes_ret|].
    pose proof (Hl r (in_eq _ _)) as A.
    eapply computes_bind; [now apply gpart_computes|]. apply IH; [now apply length_gpart|]. intros; apply Hl; now right.
  Qed.
  Lemma length_fold_gfull l : forall st, length (fst st) = 12%nat -> length (fst (fold_left gfull_k l st)) = 12%nat.
  Proof. induction l as [|kr l IH]; intros st Hs; cbn [fold_left]; [exact Hs|]. apply IH, length_gfull. Qed.
  Lemma length_fold_gpart l : forall st, length (fst st) = 12%nat -> (forall r, In r l -> (r < 22)%nat) ->
    length (fst (fold_left gpart_k l st)) = 12%nat.
  Proof.
    induction l as [|r l IH]; intros st Hs Hl; cbn [fold_left]; [exact Hs|].
    apply IH; [apply length_gpart; [exact Hs|apply Hl, in_eq]|]. intros; apply Hl; now right.
  Qed.
  Lemma length_swapped : length swapped_in = 12%nat.
  Proof. reflexivity. Qed.
  Lemma length_init s : length (init_k s) = 12%nat.
  Proof. unfold init_k, fast_init. cbn [length]. apply f_equal. apply (length_matvec k0 kadd kmul emb INITt). Qed.
  Lemma in_seq22 r : In r (seq 0 22) -> (r < 22)%nat. Proof. intros H. apply in_seq in H. lia. Qed.

  Lemma length_pgA : length (fst pgA) = 12%nat. Proof. apply length_fold_gfull. reflexivity. Qed.
  Lemma length_pgB st : length (fst (pgB st)) = 12%nat. Proof. apply length_fold_gpart; [apply length_init|exact in_seq22]. Qed.
  Lemma length_pgC st : length (fst st) = 12%nat -> length (fst (pgC st)) = 12%nat. Proof. apply length_fold_gfull. Qed.
  Lemma pgA_computes : computes (foldM (gate_full_round (map repK ws)) (map repK swapped_in, map repK swap_cons) rounds1) (rep2 pgA).
  Proof.
    unfold pgA. generalize swapped_in, length_swapped, swap_cons. intros i0 Hi0 c0.
    apply (rounds_computes rounds1 (i0, c0) Hi0).
    intros kr [<-|[<-|[<-|[<-|[]]]]]; (split; [cbn; lia|]); intros s0 E; cbn [snd] in E; try discriminate E; injection E as <-;
        unfold START_FULL_0, START_DELTA; lia.
  Qed.
  Lemma pgB_computes st : length (fst st) = 12%nat ->
    computes (foldM (gate_partial_round (map repK ws)) (map repK (init_k (vadd kadd (fst st) (map emb FC))), map repK (snd st)) (seq 0 22))
             (rep2 (pgB st)).
  Proof.
    intros Hs. unfold pgB. generalize (init_k (vadd kadd (fst st) (map emb FC))), (length_init (vadd kadd (fst st) (map emb FC))), (snd st).
    intros i0 Hi0 c0. apply (parts_computes (seq 0 22) (i0, c0) Hi0 in_seq22).
  Qed.
  Lemma pgC_computes st : length (fst st) = 12%nat -> computes (foldM (gate_full_round (map repK ws)) (rep2 st) rounds2) (rep2 (pgC st)).
  Proof.
    intros Hs. unfold pgC. apply (rounds_computes rounds2 st Hs).
    intros kr [<-|[<-|[<-|[<-|[]]]]]; (split; [cbn; lia|]); intros s0 E; cbn [snd] in E; try discriminate E; injection E as <-;
        unfold START_FULL_1, START_PARTIAL, START_FULL_0, START_DELTA; lia.
  Qed.
  Lemma pgD_computes st :
    computes (let '(state, constraints) := rep2 st in
              outs <- mapM (fun si : QE * nat => o <- nth_ (map repK ws) (12 + snd si);; SubExtension (fst si) o) (combine state (seq 0 12));;
              Ret (constraints ++ outs)) (map repK (pgD st)).
  Proof.
    destruct st as [s c]. unfold rep2, pgD. cbn [fst snd]. cbv beta iota.
    eapply computes_bind.
    { replace (combine (map repK s) (seq 0 12)) with (map (fun si : K * nat => (repK (fst si), snd si)) (combine s (seq 0 12))).
      - apply (computes_mapM2 (fun si : QE * nat => o <- nth_ (map repK ws) (12 + snd si);; SubExtension (fst si) o)
                 (fun si : K * nat => (repK (fst si), snd si)) (fun si => repK (fst si - w (12 + snd si))%K)).
        intros [x i] Hi. apply in_combine_r in Hi. apply in_seq in Hi. cbn [fst snd].
        eapply computes_bind; [apply computes_wire; lia|]. apply sub_ext_correct.
      - generalize (seq 0 12). clear. induction s as [|x l IH]; intros [|i s]; cbn [map combine]; try reflexivity. now rewrite IH. }
    rewrite <- (map_map (fun si : K * nat => (fst si - w (12 + snd si))%K) repK), <- map_app. apply computes_ret.
  Qed.
  Definition gate_rest (st : list QE * list QE) : circ (list QE) :=
    let '(state, constraints) := st in
    state <- PartialFirstConstantLayerExtension state;;
    state <- MdsPartialLayerInitExtension state;;
    st <- foldM (gate_partial_round (map repK ws)) (state, constraints) (seq 0 22);;
    st <- foldM (gate_full_round (map repK ws)) st rounds2;;
    let '(state, constraints) := st in
    outs <- mapM (fun si : QE * nat => o <- nth_ (map repK ws) (12 + snd si);; SubExtension (fst si) o) (combine state (seq 0 12));;
    Ret (constraints ++ outs).
  Lemma gate_rest_computes st : length (fst st) = 12%nat -> computes (gate_rest (rep2 st)) (map repK (pgD (pgC (pgB st)))).
  Proof.
    intros Hs. pose proof (pgB_computes st Hs) as HB. pose proof (pgC_computes (pgB st) (length_pgB st)) as HC.
    revert HB HC. generalize (pgB st). intros sb HB. generalize (pgC sb). intros sc HC.
    destruct st as [s c]. unfold gate_rest, rep2 at 1. cbn [fst snd] in *. cbv beta iota.
    eapply computes_bind; [now apply partial_first_ext_correct|].
    eapply computes_bind; [apply init_ext_correct; unfold vadd; rewrite length_map2; [exact Hs|rewrite map_length; exact Hs]|].
    eapply computes_bind; [exact HB|]. eapply computes_bind; [exact HC|]. apply pgD_computes.
  Qed.

  Lemma poseidon_gate_computes cs h : computes (EvalUnfiltered PoseidonGate (mkvars cs ws h)) (map repK poseidon_gate_k).
  Proof.
    unfold poseidon_gate_k. pose proof (gate_rest_computes pgA length_pgA) as HR.
    pose proof pgA_computes as HA. revert HA HR. generalize (pgD (pgC (pgB pgA))). generalize pgA. intros sa out HA HR.
    change (EvalUnfiltered PoseidonGate (mkvars cs ws h)) with (eval_poseidon (mkvars cs ws h)).
    unfold eval_poseidon. cbn [localWires mkvars].
    assert (W : forall i, (i < 135)%nat -> computes (nth_ (map repK ws) i) (repK (w i))) by (intros; apply computes_wire; lia).
    eapply computes_bind; [apply W; lia|]. rewrite <- repK_1.
    eapply computes_bind; [apply sub_ext_correct|]. eapply computes_bind; [apply mul_ext_correct|].
    eapply computes_bind.
    { apply (mapM_seq_K _ (fun i => (w 24 * (w (i + 4) - w i) - w (START_DELTA + i))%K) repK). intros i Hi.
      eapply computes_bind; [apply W; lia|]. eapply computes_bind; [apply W; lia|].
      eapply computes_bind; [apply W; unfold START_DELTA; lia|].
      eapply computes_bind; [apply sub_ext_correct|]. eapply computes_bind; [apply mul_ext_correct|]. apply sub_ext_correct. }
    eapply computes_bind.
    { apply (mapM_seq_K _ (fun i => (w i + w (START_DELTA + i))%K) repK). intros i Hi.
      eapply computes_bind; [apply W; unfold START_DELTA; lia|]. eapply computes_bind; [apply W; lia|]. apply add_ext_correct. }
    eapply computes_bind.
    { apply (mapM_seq_K _ (fun i => (w (i + 4) - w (START_DELTA + i))%K) repK). intros i Hi.
      eapply computes_bind; [apply W; unfold START_DELTA; lia|]. eapply computes_bind; [apply W; lia|]. apply sub_ext_correct. }
    eapply computes_bind.
    { apply (mapM_seq_K _ w repK). intros i Hi. apply W. lia. }
    rewrite <- map_cons, <- !map_app. eapply computes_bind; [exact HA|]. exact HR.
  Qed.

  (** ** what the constraints say *)
  Lemma subs_iff a : forall b, length a = length b -> all0 (subs a b) <-> b = a.
  Proof.
    clear. unfold subs. induction a as [|x a IH]; intros [|y b] L; try discriminate L; cbn [combine map]; [rewrite all0_nil; tauto|].
    injection L as L. rewrite all0_cons, (IH b L). cbn [fst snd]. rewrite ksub_eq0.
    split; [intros [-> ->]; reflexivity|intros E; injection E as -> ->; auto].
  Qed.
  Transparent gfull_k gpart_k.
  (** one step each: the new constraints vanish iff the wires hold the S-box inputs, and then the state is that of the round *)
  Fixpoint wok {A} (W : A -> list K -> Prop) (F : list K -> A -> list K) (l : list A) (s : list K) : Prop :=
    match l with [] => True | a :: l' => W a s /\ wok W F l' (F s a) end.
  Lemma fold_iff {A} (G : list K * list K -> A -> list K * list K) (W : A -> list K -> Prop) (F : list K -> A -> list K) l :
    (forall a s c, In a l -> length s = 12%nat -> (all0 (snd (G (s, c) a)) <-> all0 c /\ W a s)) ->
    (forall a s c, In a l -> length s = 12%nat -> W a s -> fst (G (s, c) a) = F s a) ->
    (forall a s, In a l -> length s = 12%nat -> length (F s a) = 12%nat) ->
    (forall a st c, In a l -> all0 (snd (G (st, c) a)) -> all0 c) ->
    forall s c, length s = 12%nat ->
    (all0 (snd (fold_left G l (s, c))) <-> all0 c /\ wok W F l s) /\
    (wok W F l s -> fst (fold_left G l (s, c)) = fold_left F l s).
  Proof.
    clear. induction l as [|a l IH]; intros H1 H2 H3 H4 s c Hs; cbn [fold_left wok fst snd]; [tauto|].
    assert (M : forall st, all0 (snd (fold_left G l st)) -> all0 (snd st)).
    { clear - H4. assert (H5 : forall b st c, In b l -> all0 (snd (G (st, c) b)) -> all0 c) by (intros; eapply H4; eauto; now right).
      clear H4. induction l as [|b l IH]; intros [s c] H; cbn [fold_left] in H; [exact H|].
      apply IH in H; [|intros; eapply H5; eauto; now right]. cbn [snd]. eapply H5; [apply in_eq|exact H]. }
    assert (IH' : forall s c, length s = 12%nat ->
       (all0 (snd (fold_left G l (s, c))) <-> all0 c /\ wok W F l s) /\ (wok W F l s -> fst (fold_left G l (s, c)) = fold_left F l s)).
    { apply IH; intros; [apply H1|apply H2|apply H3|eapply H4]; eauto; now right. }
    pose proof (H1 a s c (in_eq _ _) Hs) as E1. pose proof (H2 a s c (in_eq _ _) Hs) as E2.
    pose proof (H3 a s (in_eq _ _) Hs) as E3.
    destruct (G (s, c) a) as [s' c'] eqn:EG. cbn [fst snd] in E1, E2.
    split.
    - split.
      + intros H. pose proof (M _ H) as Hc. cbn [snd] in Hc. apply E1 in Hc. destruct Hc as [Hc Hw]. split; [exact Hc|]. split; [exact Hw|].
        rewrite (E2 Hw) in H. now apply (proj1 (IH' _ c' E3)).
      + intros (Hc & Hw & Hr). rewrite (E2 Hw). apply (IH' _ c' E3). split; [|exact Hr]. now apply E1.
    - intros (Hw & Hr). rewrite (E2 Hw). now apply (proj2 (IH' _ c' E3)).
  Qed.
  Definition wfull (kr : nat * option nat) (s : list K) : Prop :=
    match snd kr with Some s0 => wires12 s0 = add_rc_k (fst kr) s | None => True end.
  Definition wpart (r : nat) (s : list K) : Prop := w (START_PARTIAL + r) = hd k0 s.
  Lemma length_wires12 s0 : length (wires12 s0) = 12%nat. Proof. unfold wires12. now rewrite map_length, seq_length. Qed.
  Lemma gfull_iff l s c : length s = 12%nat -> (forall kr, In kr l -> (fst kr < 30)%nat) ->
    (all0 (snd (fold_left gfull_k l (s, c))) <-> all0 c /\ wok wfull (fun s kr => full_k s (fst kr)) l s) /\
    (wok wfull (fun s kr => full_k s (fst kr)) l s -> fst (fold_left gfull_k l (s, c)) = fold_left (fun s kr => full_k s (fst kr)) l s).
  Proof.
    intros Hs Hl. apply fold_iff; [| | | |exact Hs].
    - intros [k [s0|]] t d Hin Ht; unfold gfull_k, wfull; cbn [fst snd]; rewrite all0_app.
      + rewrite subs_iff by (rewrite length_wires12; apply length_add_rc; [exact Ht|apply (Hl _ Hin)]). reflexivity.
      + rewrite all0_nil. reflexivity.
    - intros [k [s0|]] t d Hin Ht; unfold gfull_k, wfull, full_k; cbn [fst snd]; [intros ->|]; reflexivity.
    - intros. apply length_full_k.
    - intros [k [s0|]] t d Hin; unfold gfull_k; cbn [fst snd]; rewrite all0_app; tauto.
  Qed.
  Definition fast_k (v : list K) (i : nat) : list K := fast_mds_k i ((sb7 (hd k0 v) + emb (FRC i))%K :: tl v).
  Lemma gpart_iff s c : length s = 12%nat ->
    (all0 (snd (fold_left gpart_k (seq 0 22) (s, c))) <-> all0 c /\ wok wpart fast_k (seq 0 22) s) /\
    (wok wpart fast_k (seq 0 22) s -> fst (fold_left gpart_k (seq 0 22) (s, c)) = fold_left fast_k (seq 0 22) s).
  Proof.
    intros Hs. apply fold_iff; [| | | |exact Hs].
    - intros r t d Hin Ht. unfold gpart_k, wpart. cbn [fst snd]. rewrite all0_app, all0_cons, all0_nil, ksub_eq0.
      split; [intros (? & ? & _); split; [assumption|now symmetry]|intros (? & ?); repeat split; [assumption|now symmetry]].
    - intros r t d Hin Ht E. unfold gpart_k, fast_k. cbn [fst snd]. now rewrite E.
    - intros r t Hin Ht. apply length_fast_mds; [now apply tl_len|now apply in_seq22].
    - intros r t d Hin. unfold gpart_k. cbn [fst snd]. rewrite all0_app. tauto.
  Qed.
  Lemma wok_fast n : forall r v, wok wpart fast_k (seq r n) v <->
    map (fun i => w (START_PARTIAL + i)) (seq r n) = ftrace k0 kadd kmul emb sb7 (seq r n) v.
  Proof.
    induction n as [|n IH]; intros r v; cbn [seq wok map ftrace]; [tauto|]. rewrite IH. unfold wpart.
    split; [intros [-> ->]; reflexivity|intros E; injection E as E1 E2; auto].
  Qed.
  Lemma nth_ptrace n : forall k s i, (i < n)%nat ->
    nth i (ptrace k0 kadd kmul emb sb7 (seq k n) s) k0 = hd k0 (add_rc_k (k + i) (fold_left partial_k (seq k i) s)).
  Proof.
    induction n as [|n IH]; intros k s i Hi; [lia|]. cbn [seq ptrace]. destruct i as [|i]; [rewrite Nat.add_0_r; reflexivity|].
    cbn [nth seq fold_left]. rewrite IH by lia. rewrite Nat.add_succ_comm. reflexivity.
  Qed.
  Lemma length_ptrace l : forall s, length (ptrace k0 kadd kmul emb sb7 l s) = length l.
  Proof. induction l as [|k l IH]; intros s; cbn [ptrace length]; [reflexivity|]. now rewrite IH. Qed.

  (** swap and deltas *)
  Definition swap_ok : Prop :=
    (w 24 = k0 \/ w 24 = k1) /\ forall i, (i < 4)%nat -> w (25 + i) = (w 24 * (w (i + 4) - w i))%K.
  Lemma swap_iff : all0 swap_cons <-> swap_ok.
  Proof.
    unfold swap_cons, swap_ok. rewrite all0_cons, all0_seq. unfold START_DELTA. change (2 * 12 + 1)%nat with 25%nat.
    assert (B : (w 24 * (w 24 - k1))%K = k0 <-> w 24 = k0 \/ w 24 = k1).
    { split; [intros E; apply kmul_eq0 in E; destruct E as [E|E]; [now left|right; now apply ksub_eq0]|].
      intros [-> | ->]; ring. }
    rewrite B. split; intros [H1 H2]; (split; [exact H1|]); intros i Hi; specialize (H2 i Hi); cbv beta in *.
    - apply (proj1 (ksub_eq0 _ _)) in H2. exact (eq_sym H2).
    - apply (proj2 (ksub_eq0 _ _)). exact (eq_sym H2).
  Qed.
  (** with the swap flag set the first four inputs change places with the next four *)
  Definition gate_input : list K :=
    if keqb (w 24) k0 then map w (seq 0 12) else map w (seq 4 4 ++ seq 0 4 ++ seq 8 4).
  Lemma swapped_input : swap_ok -> swapped_in = gate_input.
  Proof.
    intros [B H]. unfold gate_input.
    assert (D4 : forall i, (i < 4)%nat -> w (START_DELTA + i) = (w 24 * (w (i + 4) - w i))%K) by exact H.
    pose proof (D4 0%nat ltac:(lia)) as D0. pose proof (D4 1%nat ltac:(lia)) as D1. pose proof (D4 2%nat ltac:(lia)) as D2.
    pose proof (D4 3%nat ltac:(lia)) as D3. clear D4 H.
    destruct (keqb (w 24) k0) eqn:E.
    - apply keqb_eq in E. unfold swapped_in. cbn [map seq app]. rewrite D0, D1, D2, D3, E.
      repeat (apply f_equal2; [cbn [Nat.add]; ring|]). reflexivity.
    - destruct B as [B|B]; [rewrite B in E; rewrite (proj2 (keqb_eq k0 k0) eq_refl) in E; discriminate E|].
      unfold swapped_in. cbn [map seq app]. rewrite D0, D1, D2, D3, B.
      repeat (apply f_equal2; [cbn [Nat.add]; ring|]). reflexivity.
  Qed.
  Lemma length_gate_input : length gate_input = 12%nat.
  Proof. unfold gate_input. destruct (keqb _ _); reflexivity. Qed.
  Lemma wires12_iff s0 l : length l = 12%nat -> (wires12 s0 = l <-> forall i, (i < 12)%nat -> w (s0 + i) = nth i l k0).
  Proof.
    intros L. unfold wires12. split.
    - intros <- i Hi. rewrite (nth_map_lt (fun i => w (s0 + i)) _ _ _ 0%nat) by (rewrite seq_length; exact Hi). now rewrite seq_nth.
    - intros H. apply (nth_ext _ _ k0 k0); [now rewrite map_length, seq_length|]. intros i Hi. rewrite map_length, seq_length in Hi.
      rewrite (nth_map_lt (fun i => w (s0 + i)) _ _ _ 0%nat) by (rewrite seq_length; exact Hi). rewrite seq_nth by exact Hi. now apply H.
  Qed.
  Lemma outs_iff st : length st = 12%nat ->
    all0 (map (fun si : K * nat => (fst si - w (12 + snd si))%K) (combine st (seq 0 12))) <-> forall i, (i < 12)%nat -> w (12 + i) = nth i st k0.
  Proof.
    intros L. rewrite <- wires12_iff by exact L.
    replace (map (fun si : K * nat => (fst si - w (12 + snd si))%K) (combine st (seq 0 12))) with (subs st (wires12 12)).
    - apply subs_iff. now rewrite length_wires12.
    - unfold subs, wires12. generalize (seq 0 12). clear. induction st as [|x l IH]; intros [|i s]; cbn [map combine]; try reflexivity. now rewrite IH.
  Qed.

  Definition poseidon_wires (x : list K) : Prop :=
    (forall k i, (1 <= k < 4)%nat -> (i < 12)%nat -> w (29 + 12 * (k - 1) + i) = nth i (psbox_in x k) k0) /\
    (forall r, (r < 22)%nat -> w (65 + r) = nth 0 (psbox_in x (4 + r)) k0) /\
    (forall k i, (k < 4)%nat -> (i < 12)%nat -> w (87 + 12 * k + i) = nth i (psbox_in x (26 + k)) k0) /\
    (forall i, (i < 12)%nat -> w (12 + i) = nth i (pstate x 30) k0).

  Lemma rounds1_iff x : length x = 12%nat -> wok wfull (fun s kr => full_k s (fst kr)) rounds1 x <->
    (forall k i, (1 <= k < 4)%nat -> (i < 12)%nat -> w (29 + 12 * (k - 1) + i) = nth i (psbox_in x k) k0).
  Proof.
    intros L. assert (P1 : full_k x 0 = pstate x 1) by reflexivity.
    assert (P2 : full_k (pstate x 1) 1 = pstate x 2) by reflexivity.
    assert (P3 : full_k (pstate x 2) 2 = pstate x 3) by reflexivity.
    unfold rounds1. cbn [wok fst]. rewrite P1, P2, P3. unfold wfull. cbn [fst snd].
    fold (psbox_in x 1) (psbox_in x 2) (psbox_in x 3).
    rewrite !wires12_iff by (unfold psbox_in; apply length_add_rc; [now apply length_pstate|lia]).
    split.
    - intros (_ & H1 & H2 & H3 & _) k i Hk Hi. assert (C : k = 1%nat \/ k = 2%nat \/ k = 3%nat) by lia.
      destruct C as [->|[->| ->]]; [apply (H1 i Hi)|apply (H2 i Hi)|apply (H3 i Hi)].
    - intros H. split; [exact I|]. split; [|split; [|split; [|exact I]]]; intros i Hi; [apply (H 1%nat)|apply (H 2%nat)|apply (H 3%nat)]; lia.
  Qed.
  Lemma rounds1_state x : fold_left (fun s kr => full_k s (fst kr)) rounds1 x = pstate x 4.
  Proof. reflexivity. Qed.
  Lemma rounds2_iff x : length x = 12%nat -> wok wfull (fun s kr => full_k s (fst kr)) rounds2 (pstate x 26) <->
    (forall k i, (k < 4)%nat -> (i < 12)%nat -> w (87 + 12 * k + i) = nth i (psbox_in x (26 + k)) k0).
  Proof.
    intros L.
    assert (PP : forall k, (26 <= k)%nat -> full_k (pstate x k) k = pstate x (S k)) by (intros; now rewrite pstate_S, pround_full).
    unfold rounds2. cbn [wok fst]. rewrite !PP by lia. unfold wfull. cbn [fst snd].
    fold (psbox_in x 26) (psbox_in x 27) (psbox_in x 28) (psbox_in x 29).
    rewrite !wires12_iff by (unfold psbox_in; apply length_add_rc; [now apply length_pstate|lia]).
    split.
    - intros (H0 & H1 & H2 & H3 & _) k i Hk Hi. assert (C : k = 0%nat \/ k = 1%nat \/ k = 2%nat \/ k = 3%nat) by lia.
      destruct C as [->|[->|[->| ->]]]; [apply (H0 i Hi)|apply (H1 i Hi)|apply (H2 i Hi)|apply (H3 i Hi)].
    - intros H. split; [|split; [|split; [|split; [|exact I]]]]; intros i Hi; [apply (H 0%nat)|apply (H 1%nat)|apply (H 2%nat)|apply (H 3%nat)]; lia.
  Qed.
  Lemma rounds2_state x : fold_left (fun s kr => full_k s (fst kr)) rounds2 (pstate x 26) = pstate x 30.
  Proof.
    assert (PP : forall k, (26 <= k)%nat -> full_k (pstate x k) k = pstate x (S k)) by (intros; now rewrite pstate_S, pround_full).
    unfold rounds2. cbn [fold_left fst]. now rewrite !PP by lia.
  Qed.
  Lemma parts_iff x : length x = 12%nat ->
    let v := init_k (vadd kadd (pstate x 4) (map emb FC)) in
    (wok wpart fast_k (seq 0 22) v <-> forall r, (r < 22)%nat -> w (65 + r) = nth 0 (psbox_in x (4 + r)) k0) /\
    fold_left fast_k (seq 0 22) v = pstate x 26.
  Proof.
    intros L v.
    destruct (fast_trace k0 k1 kadd kmul ksub kopp K_ring emb eq_refl eq_refl emb_add emb_mul sb7 (pstate x 4) (length_pstate x 4 L)) as [T1 T2].
    split.
    - rewrite wok_fast. change (fast_init k0 kadd kmul emb (vadd kadd (pstate x 4) (map emb FC))) with v in T1. rewrite T1.
      assert (N : forall r, (r < 22)%nat -> nth r (ptrace k0 kadd kmul emb sb7 (seq 4 22) (pstate x 4)) k0 = nth 0 (psbox_in x (4 + r)) k0).
      { intros r Hr. rewrite nth_ptrace by exact Hr. unfold psbox_in. rewrite pstate_part by lia. destruct (add_rc_k _ _); reflexivity. }
      split.
      + intros E r Hr. rewrite <- N by exact Hr. rewrite <- E.
        rewrite (nth_map_lt (fun i => w (START_PARTIAL + i)) _ _ _ 0%nat) by (rewrite seq_length; exact Hr). now rewrite seq_nth.
      + intros H. apply (nth_ext _ _ k0 k0); [now rewrite map_length, length_ptrace, !seq_length|].
        intros r Hr. rewrite map_length, seq_length in Hr. rewrite N, <- H by exact Hr.
        rewrite (nth_map_lt (fun i => w (START_PARTIAL + i)) _ _ _ 0%nat) by (rewrite seq_length; exact Hr). now rewrite seq_nth.
    - change 26%nat with (4 + 22)%nat. rewrite (pstate_part x 22) by lia. exact T2.
  Qed.

  Lemma pgC_fst st : pgC st = fold_left gfull_k rounds2 (fst st, snd st). Proof. destruct st. reflexivity. Qed.
  Opaque gfull_k gpart_k.
  Lemma poseidon_gate_iff : all0 poseidon_gate_k <-> swap_ok /\ poseidon_wires gate_input.
  Proof.
    unfold poseidon_gate_k, pgD. rewrite all0_app, outs_iff by apply length_pgC, length_pgB.
    rewrite pgC_fst.
    assert (R2 : forall kr, In kr rounds2 -> (fst kr < 30)%nat) by (intros kr [<-|[<-|[<-|[<-|[]]]]]; cbn; lia).
    assert (R1 : forall kr, In kr rounds1 -> (fst kr < 30)%nat) by (intros kr [<-|[<-|[<-|[<-|[]]]]]; cbn; lia).
    destruct (gfull_iff rounds2 (fst (pgB pgA)) (snd (pgB pgA)) (length_pgB pgA) R2) as [C1 C2]. rewrite C1.
    destruct (gfull_iff rounds1 swapped_in swap_cons length_swapped R1) as [A1 A2]. fold pgA in A1, A2.
    destruct (gpart_iff (init_k (vadd kadd (fst pgA) (map emb FC))) (snd pgA) (length_init _)) as [B1 B2]. fold (pgB pgA) in B1, B2.
    rewrite B1, A1, swap_iff. clear B1 C1 A1.
    pose proof (rounds1_iff gate_input length_gate_input) as E1. pose proof (parts_iff gate_input length_gate_input) as E2.
    pose proof (rounds2_iff gate_input length_gate_input) as E3. cbv zeta in E2. destruct E2 as [E2 E2'].
    unfold poseidon_wires. split.
    - intros ((((Hs & W1) & W2) & W3) & Ho). split; [exact Hs|].
      rewrite (A2 W1), (swapped_input Hs), rounds1_state in W2, B2. rewrite (C2 W3) in Ho. rewrite (swapped_input Hs) in W1.
      rewrite (B2 W2), E2' in W3, Ho. rewrite rounds2_state in Ho.
      split; [now apply E1|]. split; [now apply E2|]. split; [now apply E3|exact Ho].
    - intros (Hs & W1 & W2 & W3 & Ho). apply E1 in W1. apply E2 in W2. apply E3 in W3.
      rewrite (swapped_input Hs) in *. rewrite (A2 W1), rounds1_state in *. specialize (B2 W2). rewrite E2' in B2.
      rewrite B2 in *. rewrite (C2 W3), rounds2_state. auto.
  Qed.
End PG.
Opaque gfull_k gpart_k.

(** on base-field inputs the permutation is that of C18 *)
Lemma full_k_emb s k : full_k (map emb s) k = map emb (full_round_fn k s).
Proof.
  unfold full_k, full_round_fn. rewrite add_rc_emb, map_map, <- mds_emb, map_map. f_equal. apply map_ext. intros x. unfold sb7, sbox7. now rewrite emb_pow.
Qed.
Lemma partial_k_emb s k : partial_k (map emb s) k = map emb (partial_round_fn k s).
Proof.
  unfold partial_k, partial_round_fn. cbv zeta. rewrite add_rc_emb, <- mds_emb. f_equal.
  destruct (add_rc_g k s) as [|x u]; cbn [map hd tl]; unfold sb7, sbox7; now rewrite emb_pow.
Qed.
Lemma pstate_emb s : pstate (map emb s) 30 = map emb (poseidon s).
Proof.
  assert (F : forall l s, fold_left full_k l (map emb s) = map emb (fold_left (fun s k => full_round_fn k s) l s)).
  { induction l as [|k l IH]; intros s0; cbn [fold_left]; [reflexivity|]. now rewrite full_k_emb, IH. }
  assert (P : forall l s, fold_left partial_k l (map emb s) = map emb (fold_left (fun s k => partial_round_fn k s) l s)).
  { induction l as [|k l IH]; intros s0; cbn [fold_left]; [reflexivity|]. now rewrite partial_k_emb, IH. }
  unfold poseidon. cbv zeta. rewrite <- F, <- P, <- F.
  change (fold_left full_k (seq 0 4) (map emb s)) with (pstate (map emb s) 4).
  change 30%nat with (26 + 4)%nat. rewrite pstate_add. change 26%nat with (4 + 22)%nat at 2. rewrite (pstate_part _ 22) by lia.
  generalize (fold_left partial_k (seq 4 22) (pstate (map emb s) 4)). intros v. cbn [seq fold_left].
  now rewrite !pround_full by lia.
Qed.

(** number of constraints *)
Transparent gfull_k gpart_k.
Lemma len_gfull ws st k s0 : length (fst st) = 12%nat -> (k < 30)%nat ->
  length (snd (gfull_k ws st (k, Some s0))) = (length (snd st) + 12)%nat.
Proof.
  intros H Hk. unfold gfull_k, subs. cbn [fst snd]. rewrite app_length, map_length, combine_length, length_wires12, length_add_rc by assumption.
  reflexivity.
Qed.
Lemma len_fold_gpart ws l : forall st, length (snd (fold_left (gpart_k ws) l st)) = (length (snd st) + length l)%nat.
Proof.
  induction l as [|r l IH]; intros st; cbn [fold_left length]; [lia|]. rewrite IH. unfold gpart_k. cbn [snd]. rewrite app_length. cbn [length]. lia.
Qed.
Opaque gfull_k gpart_k.
Lemma length_poseidon_gate ws : (135 <= length ws)%nat -> length (poseidon_gate_k ws) = 123%nat.
Proof.
  intros Hws. assert (LB : forall st, length (fst (pgB ws st)) = 12%nat) by (intros; now apply length_pgB).
  unfold poseidon_gate_k, pgD. rewrite app_length, map_length, combine_length, length_pgC, seq_length by apply LB.
  assert (C : forall st, length (fst st) = 12%nat -> length (snd (pgC ws st)) = (length (snd st) + 48)%nat).
  { intros st Hs. unfold pgC, rounds2. cbn [fold_left]. rewrite !len_gfull by (try apply length_gfull; try exact Hs; lia). lia. }
  assert (A : length (snd (pgA ws)) = 41%nat).
  { unfold pgA, rounds1. cbn [fold_left]. rewrite !len_gfull by (try apply length_gfull; lia).
    replace (length (snd (gfull_k ws (swapped_in ws, swap_cons ws) (0%nat, None)))) with 5%nat; [reflexivity|].
    Transparent gfull_k. unfold gfull_k. cbn [fst snd]. rewrite app_length. reflexivity. }
  rewrite C by apply LB. unfold pgB. rewrite len_fold_gpart. cbn [snd]. rewrite A, seq_length. reflexivity.
Qed.

(** ** The MDS gate: the matrix acts on both components *)
Definition mds_a : list KA -> list KA := mds ka0 aadd amul ae.
Lemma ae_add x y : ae (x + y)%GF = (ae x + ae y)%KA.
Proof. unfold ae. rewrite emb_add. apply KA_eq; unfold aemb, aadd; cbn [fst snd]; ring. Qed.
Lemma mds_a_fst v : map fst (mds_a v) = mds_k (map fst v).
Proof.
  unfold mds_a, mds_k, mds, matvec. rewrite map_map. apply map_ext. intros row. revert v.
  induction row as [|a row IH]; intros [|x v]; cbn [map dotp]; try reflexivity. rewrite <- IH. unfold aadd, amul, ae, aemb. cbn [fst snd]. ring.
Qed.
Lemma mds_a_snd v : map snd (mds_a v) = mds_k (map snd v).
Proof.
  unfold mds_a, mds_k, mds, matvec. rewrite map_map. apply map_ext. intros row. revert v.
  induction row as [|a row IH]; intros [|x v]; cbn [map dotp]; try reflexivity. rewrite <- IH. unfold aadd, amul, ae, aemb. cbn [fst snd]. ring.
Qed.
Lemma length_mds_a v : length (mds_a v) = 12%nat. Proof. apply (length_mds ka0 aadd amul). Qed.
Lemma mds_row_alg_correct r v : length v = 12%nat -> (r < 12)%nat -> computes (mdsRowShfAlgebra r (map repA v)) (repA (nth r (mds_a v) ka0)).
Proof.
  intros Hv Hr. unfold mdsRowShfAlgebra, mds_a.
  rewrite <- (mds_row ka0 ka1 aadd amul asub aopp KA_ring ae eq_refl ae_add v r Hv Hr). unfold wsum.
  assert (N : forall i, (i < 12)%nat -> computes (nth_ (map repA v) i) (repA (nth i v ka0))).
  { intros i Hi. rewrite <- (map_nth repA). apply computes_nth. rewrite map_length. lia. }
  assert (C : forall T i x, table_ok T = true -> computes (ScalarMulExtensionAlgebra (at_ T i, Zero) (repA x)) (repA (x * ae (inj (at_ T i)))%KA)).
  { intros T i x HT. rewrite const_repK by exact HT. eapply computes_eq; [apply scalar_alg_correct|]. f_equal. unfold ae. ring. }
  eapply computes_bind.
  - assert (F : forall l a, (forall i, In i l -> (i < 12)%nat) ->
      computes (foldM (fun res i => x <- nth_ (map repA v) ((i + r) mod 12);; t <- ScalarMulExtensionAlgebra (at_ MDS_MATRIX_CIRC i, Zero) x;; AddExtensionAlgebra res t) (repA a) l)
               (repA (fold_left (fun acc j => (acc + nth ((j + r) mod 12) v ka0 * ae (inj (at_ MDS_MATRIX_CIRC_VARS j)))%KA) l a))).
    { induction l as [|i l IH]; intros a Hl; cbn [foldM fold_left]; [apply computes_ret|].
      eapply computes_bind; [|apply IH; intros; apply Hl; now right].
      eapply computes_bind; [apply N, Nat.mod_upper_bound; discriminate|].
      eapply computes_bind; [now apply (C MDS_MATRIX_CIRC i)|]. apply add_alg_correct. }
    rewrite <- repA_0. apply (F (seq 0 12) ka0). intros i Hi. apply in_seq in Hi. lia.
  - eapply computes_bind; [now apply N|]. eapply computes_bind; [now apply (C MDS_MATRIX_DIAG r)|]. apply add_alg_correct.
Qed.
Section MG.
  Context (ws : list K).
  Definition mds_in : list KA := map (fun i => alg ws (2 * i)) (seq 0 12).
  Definition mds_out (i : nat) : KA := alg ws (2 * (12 + i)).
  Definition mds_gate_k : list K := concat (map (fun i => klimbs (mds_out i - nth i (mds_a mds_in) ka0)%KA) (seq 0 12)).
  Context (Hws : (48 <= length ws)%nat).
  Lemma mds_gate_computes cs h : computes (EvalUnfiltered PoseidonMdsGate (mkvars cs ws h)) (map repK mds_gate_k).
  Proof.
    unfold EvalUnfiltered, eval_poseidon_mds, D.
    eapply computes_bind; [apply (mapM_seq_K _ (fun i => alg ws (2 * i)) repA); intros i Hi; apply computes_alg; lia|]. fold mds_in.
    eapply computes_bind; [apply (mapM_seq_K _ (fun r => nth r (mds_a mds_in) ka0) repA); intros i Hi; apply mds_row_alg_correct; [reflexivity|lia]|].
    eapply computes_bind.
    { rewrite map_map.
      assert (E : combine (map (fun x => repA (nth x (mds_a mds_in) ka0)) (seq 0 12)) (seq 0 12)
                  = map (fun i => (repA (nth i (mds_a mds_in) ka0), i)) (seq 0 12)) by reflexivity.
      rewrite E.
      apply (computes_mapM2 _ (fun i => (repA (nth i (mds_a mds_in) ka0), i)) (fun i => map repK (klimbs (mds_out i - nth i (mds_a mds_in) ka0)%KA))).
      intros i Hi. apply in_seq in Hi. cbn [fst snd].
      eapply computes_bind; [apply (computes_alg _ _ _ _ _ (2 * (12 + i))); lia|].
      eapply computes_bind; [apply sub_alg_correct|]. rewrite limbs2_rep. apply computes_ret. }
    unfold mds_gate_k. rewrite <- concat_map_repK, map_map. apply computes_ret.
  Qed.
  Lemma mds_gate_iff : all0 mds_gate_k <->
    map (fun i => fst (mds_out i)) (seq 0 12) = mds_k (map fst mds_in) /\ map (fun i => snd (mds_out i)) (seq 0 12) = mds_k (map snd mds_in).
  Proof.
    unfold mds_gate_k. rewrite all0_concat_seq, <- mds_a_fst, <- mds_a_snd.
    pose proof (length_mds_a mds_in) as L. revert L. generalize (mds_a mds_in). intros v L.
    transitivity (map mds_out (seq 0 12) = v).
    - split.
      + intros H. apply (nth_ext _ _ ka0 ka0); [now rewrite map_length, seq_length|]. intros i Hi. rewrite map_length, seq_length in Hi.
        rewrite (nth_map_lt mds_out _ _ _ 0%nat), seq_nth by (rewrite ?seq_length; exact Hi).
        apply (proj1 (asub_eq0 _ _)). apply all0_klimbs. now apply H.
      + intros <- i Hi. apply all0_klimbs, (proj2 (asub_eq0 _ _)).
        now rewrite (nth_map_lt mds_out _ _ _ 0%nat), seq_nth by (rewrite ?seq_length; exact Hi).
    - split; [intros <-; now rewrite !map_map|]. intros [E1 E2].
      apply (nth_ext _ _ ka0 ka0); [now rewrite map_length, seq_length|]. intros i Hi. rewrite map_length, seq_length in Hi.
      rewrite (nth_map_lt mds_out _ _ _ 0%nat), seq_nth by (rewrite ?seq_length; exact Hi). cbn [Nat.add].
      apply (f_equal (fun l => nth i l k0)) in E1, E2.
      rewrite (nth_map_lt (fun i => fst (mds_out i)) _ _ _ 0%nat), seq_nth in E1 by (rewrite ?seq_length; exact Hi).
      rewrite (nth_map_lt (fun i => snd (mds_out i)) _ _ _ 0%nat), seq_nth in E2 by (rewrite ?seq_length; exact Hi).
      assert (F1 : nth i (map fst v) k0 = fst (nth i v ka0)) by exact (map_nth fst v ka0 i).
      assert (F2 : nth i (map snd v) k0 = snd (nth i v ka0)) by exact (map_nth snd v ka0 i).
      rewrite F1 in E1. rewrite F2 in E2.
      apply KA_eq; [exact E1|exact E2].
  Qed.
  Lemma length_mds_gate : length mds_gate_k = 24%nat. Proof. reflexivity. Qed.
End MG.
