(** * Protocols made non-interactive with a random oracle.

    A protocol has one level per challenge: the prover sends a message and the verifier draws a
    challenge from the list of the level.  The verdict depends on the messages, the challenges
    and the last answer of the prover.  The challenger of the code (challenger/challenger.go)
    computes every challenge by hashing what was absorbed before; here the hash is a random
    oracle: it is asked with the transcript so far and the next message, and answers a challenge
    drawn uniformly from the list of the level, the same whenever it is asked the same.
    If no strategy keeps more than a threshold of the challenges of a level alive, then whoever
    asks the oracle q times convinces the verifier with probability at most
    (q + number of levels) * eps, where eps is the largest threshold as a fraction of its list. *)
From Coq Require Import ZArith Arith Lia List Bool QArith.
Import ListNotations.
Open Scope nat_scope.
From Verif Require Import Game.

Section Oracle.
  Context {M X A : Type} (M_dec : forall a b : M, {a = b} + {a <> b}) (X_dec : forall a b : X, {a = b} + {a <> b}).
  (** the challenges of the levels with their thresholds *)
  Context (levels : list (list X * nat)) (LND : Forall (fun l => NoDup (fst l)) levels).
  Notation transcript := (list (M * X)).
  (** the transcript and the last answer convince the verifier *)
  Context (accepts : transcript -> A -> Prop).
  Definition coins_at (i : nat) : list X := fst (nth i levels ([], 0)).
  Definition threshold (i : nat) : nat := snd (nth i levels ([], 0)).

  (** ** Interaction
      After the transcript, the prover has a message that more than the threshold of the
      challenges leave alive; after the last challenge, it has an answer that convinces. *)
  Fixpoint alive (ls : list (list X * nat)) (tau : transcript) : Prop :=
    match ls with
    | [] => exists a, accepts tau a
    | (L, t) :: ls' => exists m cs, NoDup cs /\ incl cs L /\ t < length cs /\ forall c, In c cs -> alive ls' (tau ++ [(m, c)])
    end.

  (** ** The oracle
      A computation that asks the oracle.  Questions: transcript so far and next message. *)
  Inductive asking (O : Type) := Return (o : O) | Ask (tau : transcript) (m : M) (k : X -> asking O).
  Arguments Return {O}. Arguments Ask {O}.
  Notation memory := (list ((transcript * M) * X)).
  Definition question_dec (a b : transcript * M) : {a = b} + {a <> b}.
  Proof. decide equality; apply list_eq_dec. decide equality. Defined.
  Fixpoint lookup (q : transcript * M) (mem : memory) : option X :=
    match mem with [] => None | (q', x) :: mem' => if question_dec q q' then Some x else lookup q mem' end.
  (** the computation with [xs] as the answers to the new questions, in order *)
  Fixpoint play {O} (G : asking O) (mem : memory) (xs : list X) : option (memory * O) :=
    match G with
    | Return o => match xs with [] => Some (mem, o) | _ => None end
    | Ask tau m k =>
        match lookup (tau, m) mem with
        | Some x => play (k x) mem xs
        | None => match xs with
                  | x :: xs' => if in_dec X_dec x (coins_at (length tau)) then play (k x) (((tau, m), x) :: mem) xs' else None
                  | [] => None
                  end
        end
    end.
  (** the probability that these are the answers *)
  Fixpoint weight {O} (G : asking O) (mem : memory) (xs : list X) : Q :=
    match G with
    | Return o => 1
    | Ask tau m k =>
        match lookup (tau, m) mem with
        | Some x => weight (k x) mem xs
        | None => match xs with
                  | x :: xs' => / inject_Z (Z.of_nat (length (coins_at (length tau)))) * weight (k x) (((tau, m), x) :: mem) xs'
                  | [] => 0
                  end
        end
    end.
  Definition sumq {B} (f : B -> Q) (l : list B) : Q := fold_right (fun b s => f b + s)%Q 0%Q l.
  (** at most q questions *)
  Fixpoint asks {O} (G : asking O) (q : nat) : Prop :=
    match G with Return _ => True | Ask _ _ k => match q with 0 => False | S q' => forall x, asks (k x) q' end end.

  (** The adversary returns messages and an answer.  The verifier asks the oracle for the
      challenges and returns the transcript. *)
  Fixpoint check (ms : list M) (tau : transcript) (a : A) : asking (transcript * A) :=
    match ms with [] => Return (tau, a) | m :: ms' => Ask tau m (fun x => check ms' (tau ++ [(m, x)]) a) end.
  Fixpoint verified (G : asking (list M * A)) : asking (transcript * A) :=
    match G with
    | Return (ms, a) => if length ms =? length levels then check ms [] a else Return ([], a)
    | Ask tau m k => Ask tau m (fun x => verified (k x))
    end.
  (** the outcome xs of the oracle lets the adversary win *)
  Definition wins_with (G : asking (list M * A)) (xs : list X) : Prop :=
    exists mem tau a, play (verified G) [] xs = Some (mem, (tau, a)) /\ length tau = length levels /\ accepts tau a.

  (** *** Sums *)
  Lemma sumq_le {B} (f g : B -> Q) l : (forall b, In b l -> f b <= g b)%Q -> (sumq f l <= sumq g l)%Q.
  Proof. induction l as [|b l IH]; intros H; cbn [sumq fold_right]; [apply Qle_refl|]. apply Qplus_le_compat; [apply H; now left|]. apply IH. intros c Hc. apply H. now right. Qed.
  Lemma sumq_scale {B} (f : B -> Q) c l : (sumq (fun b => c * f b) l == c * sumq f l)%Q.
  Proof. induction l as [|b l IH]; cbn [sumq fold_right] in *; [ring|]. unfold sumq in IH. rewrite IH. ring. Qed.
  Lemma sumq_plus {B} (f g : B -> Q) l : (sumq (fun b => f b + g b) l == sumq f l + sumq g l)%Q.
  Proof. induction l as [|b l IH]; cbn [sumq fold_right] in *; [ring|]. unfold sumq in IH. rewrite IH. ring. Qed.
  Lemma sumq_const {B} c (l : list B) : (sumq (fun _ => c) l == c * inject_Z (Z.of_nat (length l)))%Q.
  Proof.
    induction l as [|b l IH]; [cbn; ring|]. cbn [sumq fold_right length] in *. unfold sumq in IH. rewrite IH, Nat2Z.inj_succ. unfold Z.succ. rewrite inject_Z_plus. ring.
  Qed.
  Lemma sumq_filter {B} c (b : B -> bool) l : (sumq (fun x => if b x then c else 0) l == c * inject_Z (Z.of_nat (length (filter b l))))%Q.
  Proof.
    induction l as [|x l IH]; [cbn; ring|]. cbn [sumq fold_right filter] in *. unfold sumq in IH. rewrite IH. destruct (b x); [|ring].
    cbn [length]. rewrite Nat2Z.inj_succ. unfold Z.succ. rewrite inject_Z_plus. ring.
  Qed.
  Lemma sumq_nonneg {B} (f : B -> Q) l : (forall b, In b l -> 0 <= f b)%Q -> (0 <= sumq f l)%Q.
  Proof. intros H. eapply Qle_trans; [|apply (sumq_le (fun _ => 0%Q) f l H)]. rewrite sumq_const. setoid_replace (0 * inject_Z (Z.of_nat (length l)))%Q with 0%Q by ring. apply Qle_refl. Qed.
  (** the rests of the sequences that start with x *)
  Definition headed (x : X) (w : list X) : bool := match w with [] => false | y :: _ => if X_dec y x then true else false end.
  Definition tails (x : X) (ws : list (list X)) : list (list X) := map (@tl X) (filter (headed x) ws).
  Lemma tails_in x ws w : In w (tails x ws) <-> In (x :: w) ws.
  Proof.
    unfold tails. rewrite in_map_iff. split.
    - intros (v & E & H). apply filter_In in H. destruct H as [H S]. destruct v as [|y v]; [discriminate S|]. cbn [headed tl] in *. destruct (X_dec y x) as [->|]; [|discriminate S]. now rewrite <- E.
    - intros H. exists (x :: w). split; [reflexivity|]. apply filter_In. split; [exact H|]. cbn [headed]. now destruct (X_dec x x).
  Qed.
  Lemma tails_nodup x ws : NoDup ws -> NoDup (tails x ws).
  Proof.
    induction 1 as [|w l N ND IH]; [constructor|]. unfold tails in *. cbn [filter]. destruct (headed x w) eqn:S; [|exact IH]. cbn [map]. constructor; [|exact IH].
    intros H. apply N. apply (tails_in x l) in H. destruct w as [|y w]; [discriminate S|]. cbn [headed tl] in *. destruct (X_dec y x) as [->|]; [exact H|discriminate S].
  Qed.
  Lemma split_sum (f : list X -> Q) L ws : (forall w, In w ws -> 0 <= f w)%Q -> (forall w, In w ws -> exists x w', w = x :: w' /\ In x L) ->
    (sumq f ws <= sumq (fun x => sumq (fun w => f (x :: w)) (tails x ws)) L)%Q.
  Proof.
    induction ws as [|w ws IH]; intros H0 H.
    - apply sumq_nonneg. intros x _. apply Qle_refl.
    - specialize (IH (fun v Hv => H0 v (or_intror Hv)) (fun v Hv => H v (or_intror Hv))). destruct (H w (in_eq _ _)) as (x & w' & -> & Hx). specialize (H0 _ (in_eq _ _)). clear H.
      cbn [sumq fold_right]. eapply Qle_trans; [apply Qplus_le_compat; [apply Qle_refl|exact IH]|]. clear IH.
      assert (Y : forall y, (sumq (fun v => f (y :: v)) (tails y ((x :: w') :: ws)) == (if X_dec x y then f (x :: w') else 0) + sumq (fun v => f (y :: v)) (tails y ws))%Q).
      { intros y. unfold tails. cbn [filter headed]. destruct (X_dec x y) as [->|]; [reflexivity|]. rewrite Qplus_0_l. reflexivity. }
      induction L as [|y L IHL]; [destruct Hx|]. cbn [sumq fold_right] in *.
      assert (Z : forall L', (sumq (fun y => sumq (fun v => f (y :: v)) (tails y ws)) L' <= sumq (fun y => sumq (fun v => f (y :: v)) (tails y ((x :: w') :: ws))) L')%Q).
      { intros L'. apply sumq_le. intros z _. rewrite Y. destruct (X_dec x z); [|rewrite Qplus_0_l; apply Qle_refl].
        rewrite <- (Qplus_0_l (sumq (fun v => f (z :: v)) (tails z ws))) at 1. apply Qplus_le_compat; [exact H0|apply Qle_refl]. }
      unfold sumq in Y, Z |- *. destruct Hx as [->|Hx].
      + rewrite Y. destruct (X_dec x x) as [_|N]; [|now destruct N]. rewrite <- Qplus_assoc. apply Qplus_le_compat; [apply Qle_refl|]. apply Qplus_le_compat; [apply Qle_refl|]. apply Z.
      + specialize (IHL Hx). rewrite Y. destruct (X_dec x y) as [<-|].
        * rewrite <- Qplus_assoc. apply Qplus_le_compat; [apply Qle_refl|]. apply Qplus_le_compat; [apply Qle_refl|]. apply Z.
        * rewrite Qplus_0_l, Qplus_assoc, (Qplus_comm (f (x :: w'))), <- Qplus_assoc. apply Qplus_le_compat; [apply Qle_refl|]. exact IHL.
  Qed.

  (** *** Playing *)
  Lemma weight_nonneg {O} (G : asking O) : forall mem xs, (0 <= weight G mem xs)%Q.
  Proof.
    induction G as [o|tau m k IH]; intros mem xs; cbn [weight]; [discriminate|]. destruct (lookup (tau, m) mem); [apply IH|]. destruct xs as [|x xs]; [apply Qle_refl|].
    apply Qmult_le_0_compat; [|apply IH]. apply Qinv_le_0_compat. change 0%Q with (inject_Z 0). rewrite <- Zle_Qle. apply Nat2Z.is_nonneg.
  Qed.
  Lemma inv_nonneg n : (0 <= / inject_Z (Z.of_nat n))%Q.
  Proof. apply Qinv_le_0_compat. change 0%Q with (inject_Z 0). rewrite <- Zle_Qle. apply Nat2Z.is_nonneg. Qed.
  Lemma inv_mul n : n <> 0 -> (/ inject_Z (Z.of_nat n) * inject_Z (Z.of_nat n) == 1)%Q.
  Proof. intros H. rewrite Qmult_comm. apply Qmult_inv_r. intros E. unfold Qeq in E. cbn [inject_Z Qnum Qden] in E. lia. Qed.
  Lemma coins_nodup i : NoDup (coins_at i).
  Proof.
    unfold coins_at. destruct (Nat.lt_ge_cases i (length levels)) as [H|H]; [|rewrite nth_overflow by exact H; constructor].
    rewrite Forall_forall in LND. apply LND. now apply nth_In.
  Qed.
  (** one question: the weight of the answers that satisfy b, and a bound for what follows the others *)
  Lemma one_question {O} (k : X -> asking O) tau m mem ws (b : X -> bool) (r : Q) : lookup (tau, m) mem = None -> NoDup ws -> (0 <= r)%Q ->
    (forall w, In w ws -> exists x w', w = x :: w' /\ In x (coins_at (length tau))) ->
    (forall x, In x (coins_at (length tau)) -> sumq (weight (k x) (((tau, m), x) :: mem)) (tails x ws) <= (if b x then 1 else 0) + r)%Q ->
    (sumq (weight (Ask tau m k) mem) ws <= / inject_Z (Z.of_nat (length (coins_at (length tau)))) * inject_Z (Z.of_nat (length (filter b (coins_at (length tau))))) + r)%Q.
  Proof.
    intros LU ND R0 HD H. set (L := coins_at (length tau)) in *. destruct (Nat.eq_dec (length L) 0) as [L0|L0].
    { destruct ws as [|w ws].
      - destruct L; [|discriminate L0]. cbn [filter length sumq fold_right]. rewrite Qmult_0_r, Qplus_0_l. exact R0.
      - exfalso. destruct (HD w (in_eq _ _)) as (x & _ & _ & Hx). destruct L; [destruct Hx|discriminate L0]. }
    eapply Qle_trans; [apply (split_sum _ L); [intros w _; apply weight_nonneg|exact HD]|].
    eapply Qle_trans; [apply (sumq_le _ (fun x => / inject_Z (Z.of_nat (length L)) * ((if b x then 1 else 0) + r))%Q)|].
    - intros x Hx. cbn [weight]. rewrite LU. fold L. rewrite sumq_scale. rewrite !(Qmult_comm (/ _)). apply Qmult_le_compat_r; [now apply H|apply inv_nonneg].
    - rewrite sumq_scale, sumq_plus, sumq_filter, sumq_const, Qmult_1_l, Qmult_plus_distr_r. apply Qplus_le_compat; [apply Qle_refl|].
      rewrite (Qmult_comm r), Qmult_assoc, (inv_mul _ L0), Qmult_1_l. apply Qle_refl.
  Qed.
  Lemma total {O} (G : asking O) : forall mem ws, NoDup ws -> (forall xs, In xs ws -> play G mem xs <> None) -> (sumq (weight G mem) ws <= 1)%Q.
  Proof.
    induction G as [o|tau m k IH]; intros mem ws ND H.
    - destruct ws as [|w ws]; [discriminate|]. assert (E : forall v, In v (w :: ws) -> v = []) by (intros v Hv; specialize (H v Hv); cbn [play] in H; destruct v; [reflexivity|now destruct H]).
      assert (ws = []) as ->; [|cbn; discriminate]. destruct ws as [|w' ws]; [reflexivity|]. exfalso. inversion ND as [|? ? N _]; subst. apply N. left. rewrite (E w (in_eq _ _)). apply E. right. now left.
    - destruct (lookup (tau, m) mem) as [x|] eqn:LU; [cbn [play weight] in *; rewrite LU in *; now apply IH|].
      assert (HD : forall w, In w ws -> exists x w', w = x :: w' /\ In x (coins_at (length tau)) /\ play (k x) (((tau, m), x) :: mem) w' <> None).
      { intros w Hw. specialize (H w Hw). cbn [play] in H. rewrite LU in H. destruct w as [|x w]; [now destruct H|]. exists x, w. split; [reflexivity|]. destruct (in_dec X_dec x _); [now split|now destruct H]. }
      eapply Qle_trans; [apply (one_question k tau m mem ws (fun _ => true) 0 LU ND ltac:(discriminate))|].
      + intros w Hw. destruct (HD w Hw) as (x & w' & E & Hx & _). now exists x, w'.
      + intros x Hx. apply IH; [now apply tails_nodup|]. intros xs Hxs. apply tails_in in Hxs. destruct (HD _ Hxs) as (y & w' & E & _ & P). injection E as <- <-. exact P.
      + rewrite Qplus_0_r. destruct (Nat.eq_dec (length (coins_at (length tau))) 0) as [E|E].
        * rewrite E. replace (length (filter _ _)) with 0; [discriminate|]. destruct (coins_at (length tau)); [reflexivity|discriminate E].
        * replace (filter (fun _ => true) (coins_at (length tau))) with (coins_at (length tau)); [rewrite (inv_mul _ E); apply Qle_refl|].
          generalize (coins_at (length tau)). induction l as [|y l IHl]; [reflexivity|]. cbn [filter]. now rewrite <- IHl.
  Qed.

  Lemma weight_pos {O} (G : asking O) : forall mem xs, play G mem xs <> None -> (0 < weight G mem xs)%Q.
  Proof.
    induction G as [o|tau m k IH]; intros mem xs H; cbn [weight play] in *; [reflexivity|]. destruct (lookup (tau, m) mem); [now apply IH|]. destruct xs as [|x xs]; [now destruct H|].
    destruct (in_dec X_dec x (coins_at (length tau))) as [Hx|]; [|now destruct H]. rewrite <- (Qmult_0_r (/ inject_Z (Z.of_nat (length (coins_at (length tau)))))). apply Qmult_lt_l; [|now apply IH].
    apply Qinv_lt_0_compat. change 0%Q with (inject_Z 0). rewrite <- Zlt_Qlt. destruct (coins_at (length tau)); [destruct Hx|cbn [length]; lia].
  Qed.

  (** *** All the outcomes *)
  Fixpoint outcomes {O} (G : asking O) (mem : memory) : list (list X) :=
    match G with
    | Return _ => [[]]
    | Ask tau m k =>
        match lookup (tau, m) mem with
        | Some x => outcomes (k x) mem
        | None => flat_map (fun x => map (cons x) (outcomes (k x) (((tau, m), x) :: mem))) (coins_at (length tau))
        end
    end.
  (** all the questions belong to a level *)
  Fixpoint proper {O} (G : asking O) : Prop := match G with Return _ => True | Ask tau _ k => length tau < length levels /\ forall x, proper (k x) end.
  Lemma outcomes_in {O} (G : asking O) : forall mem xs, In xs (outcomes G mem) <-> play G mem xs <> None.
  Proof.
    induction G as [o|tau m k IH]; intros mem xs; cbn [outcomes play].
    - destruct xs as [|x xs]; split; [discriminate|now left|intros [E|[]]; discriminate E|intros H; now destruct H].
    - destruct (lookup (tau, m) mem) as [x|]; [apply IH|]. rewrite in_flat_map. split.
      + intros (x & Hx & H). apply in_map_iff in H. destruct H as (w & <- & H). destruct (in_dec X_dec x (coins_at (length tau))) as [_|N]; [now apply IH|now destruct N].
      + destruct xs as [|x xs]; [intros H; now destruct H|]. destruct (in_dec X_dec x (coins_at (length tau))) as [Hx|]; [|intros H; now destruct H]. intros H. exists x. split; [exact Hx|]. apply in_map. now apply IH.
  Qed.
  Lemma nodup_app {B} (l l' : list B) : NoDup l -> NoDup l' -> (forall x, In x l -> ~ In x l') -> NoDup (l ++ l').
  Proof.
    induction 1 as [|x l N ND IH]; intros N' H; [exact N'|]. cbn [app]. constructor; [|apply IH; [exact N'|]; intros y Hy; apply H; now right].
    rewrite in_app_iff. intros [H1|H1]; [now apply N|]. now apply (H x (in_eq _ _)).
  Qed.
  Lemma nodup_cons (x : X) l : NoDup l -> NoDup (map (cons x) l).
  Proof. induction 1 as [|y l N ND IH]; [constructor|]. cbn [map]. constructor; [|exact IH]. intros H. apply in_map_iff in H. destruct H as (z & E & H). injection E as ->. now apply N. Qed.
  Lemma outcomes_nodup {O} (G : asking O) : forall mem, NoDup (outcomes G mem).
  Proof.
    induction G as [o|tau m k IH]; intros mem; cbn [outcomes]; [repeat constructor; intros []|]. destruct (lookup (tau, m) mem) as [x|]; [apply IH|].
    pose proof (coins_nodup (length tau)) as ND. induction ND as [|x L N ND IHL]; [constructor|]. cbn [flat_map]. apply nodup_app.
    - apply nodup_cons, IH.
    - exact IHL.
    - intros w H1 H2. apply in_map_iff in H1. destruct H1 as (w1 & <- & _). apply in_flat_map in H2. destruct H2 as (y & Hy & H2). apply in_map_iff in H2. destruct H2 as (w2 & E & _). injection E as -> _. now apply N.
  Qed.
  Lemma sumq_map {B C} (f : C -> Q) (g : B -> C) l : sumq f (map g l) = sumq (fun b => f (g b)) l.
  Proof. induction l as [|b l IH]; [reflexivity|]. cbn [map sumq fold_right] in *. unfold sumq in IH. now rewrite IH. Qed.
  Lemma sumq_app {B} (f : B -> Q) l l' : (sumq f (l ++ l') == sumq f l + sumq f l')%Q.
  Proof. induction l as [|b l IH]; cbn [app sumq fold_right] in *; [rewrite Qplus_0_l; reflexivity|]. unfold sumq in IH. rewrite IH. apply Qplus_assoc. Qed.
  Lemma sumq_flat {B C} (f : C -> Q) (g : B -> list C) l : (sumq f (flat_map g l) == sumq (fun b => sumq f (g b)) l)%Q.
  Proof. induction l as [|b l IH]; [reflexivity|]. cbn [flat_map]. rewrite sumq_app, IH. reflexivity. Qed.
  Lemma sumq_ext {B} (f g : B -> Q) l : (forall b, In b l -> f b == g b)%Q -> (sumq f l == sumq g l)%Q.
  Proof. induction l as [|b l IH]; intros H; [reflexivity|]. cbn [sumq fold_right] in *. unfold sumq in IH. rewrite (H b (in_eq _ _)), IH; [reflexivity|]. intros c Hc. apply H. now right. Qed.
  Lemma outcomes_total {O} (G : asking O) : (forall i, i < length levels -> coins_at i <> []) -> proper G -> forall mem, (sumq (weight G mem) (outcomes G mem) == 1)%Q.
  Proof.
    intros NE. induction G as [o|tau m k IH]; intros PR mem; cbn [outcomes weight]; [reflexivity|]. cbn [proper] in PR. destruct PR as [LT PR]. destruct (lookup (tau, m) mem) as [x|] eqn:LU.
    - rewrite (sumq_ext _ (weight (k x) mem)); [now apply IH|]. intros w _. reflexivity.
    - set (L := coins_at (length tau)). rewrite sumq_flat. assert (L0 : length L <> 0) by (intros E; apply (NE _ LT); fold L; destruct L; [reflexivity|discriminate E]).
      rewrite (sumq_ext _ (fun _ => / inject_Z (Z.of_nat (length L)))%Q).
      + rewrite sumq_const. now apply inv_mul.
      + intros x _. rewrite sumq_map. rewrite sumq_scale, (IH x (PR x)). apply Qmult_1_r.
  Qed.
  Lemma check_proper a : forall ms tau, length tau + length ms = length levels -> proper (check ms tau a).
  Proof.
    induction ms as [|m ms IH]; intros tau L; cbn [check proper]; [exact I|]. cbn [length] in L. split; [lia|]. intros x. apply IH. rewrite app_length. cbn [length]. lia.
  Qed.
  Lemma verified_proper G : proper G -> proper (verified G).
  Proof.
    induction G as [[ms a]|tau m k IH]; cbn [verified proper]; intros PR.
    - destruct (Nat.eqb_spec (length ms) (length levels)); [now apply check_proper|exact I].
    - destruct PR as [L PR]. split; [exact L|]. intros x. now apply IH.
  Qed.

  (** ** The bound *)
  Notation live tau := (alive (skipn (length tau) levels) tau).
  (** no answer in the memory has brought a transcript to life *)
  Definition safe (mem : memory) : Prop := forall tau m x, In ((tau, m), x) mem -> length tau < length levels -> ~ live tau -> ~ live (tau ++ [(m, x)]).
  Lemma nn_decide (P : X -> Prop) l : ~ ~ exists b : X -> bool, forall x, In x l -> if b x then P x else ~ P x.
  Proof.
    induction l as [|x l IH]; [intros H; apply H; now exists (fun _ => true)|]. intros H. apply IH. intros (b & Hb). apply (fun H => H : ~ ~ (P x \/ ~ P x)); [tauto|]. intros D. apply H.
    destruct D as [D|D].
    - exists (fun y => if X_dec y x then true else b y). intros y [<-|Hy]; [now destruct (X_dec x x)|]. destruct (X_dec y x) as [->|]; [exact D|now apply Hb].
    - exists (fun y => if X_dec y x then false else b y). intros y [<-|Hy]; [now destruct (X_dec x x)|]. destruct (X_dec y x) as [->|]; [exact D|now apply Hb].
  Qed.
  Context (eps : Q) (EPS : (0 <= eps)%Q) (HE : forall L t, In (L, t) levels -> (inject_Z (Z.of_nat t) <= eps * inject_Z (Z.of_nat (length L)))%Q).
  Lemma qle_nn (a b : Q) : ~ ~ (a <= b)%Q -> (a <= b)%Q.
  Proof. intros H. destruct (Qlt_le_dec b a) as [L|L]; [|exact L]. exfalso. apply H. now apply Qlt_not_le. Qed.
  Lemma few_alive tau m cs : length tau < length levels -> ~ live tau -> NoDup cs -> incl cs (coins_at (length tau)) -> (forall x, In x cs -> live (tau ++ [(m, x)])) ->
    (inject_Z (Z.of_nat (length cs)) <= eps * inject_Z (Z.of_nat (length (coins_at (length tau)))))%Q.
  Proof.
    intros Lt D ND IN H. assert (LE : length cs <= threshold (length tau)).
    { apply Nat.nlt_ge. intros LT. apply D. assert (E : skipn (length tau) levels = nth (length tau) levels ([], 0) :: skipn (S (length tau)) levels).
      { clear - Lt. revert Lt. generalize (length tau). induction levels as [|l ls IH]; intros [|n] H; cbn [length] in H; try lia; [reflexivity|]. cbn [skipn nth]. rewrite IH by lia. reflexivity. }
      rewrite E. unfold coins_at in IN. unfold threshold in LT. destruct (nth (length tau) levels ([], 0)) as [L t]. cbn [fst snd] in *. cbn [alive]. exists m, cs. repeat (split; [assumption|]).
      intros x Hx. specialize (H x Hx). rewrite app_length in H. cbn [length] in H. rewrite Nat.add_1_r in H. exact H. }
    eapply Qle_trans; [rewrite <- Zle_Qle; apply Nat2Z.inj_le; exact LE|]. apply HE. unfold coins_at, threshold. rewrite <- surjective_pairing. now apply nth_In.
  Qed.
  Lemma unsafe_bound {O} (G : asking O) : forall mem q ws, asks G q -> safe mem -> NoDup ws ->
    (forall xs, In xs ws -> exists mem' o, play G mem xs = Some (mem', o) /\ ~ safe mem') ->
    (sumq (weight G mem) ws <= inject_Z (Z.of_nat q) * eps)%Q.
  Proof.
    induction G as [o|tau m k IH]; intros mem q ws AQ SM ND H.
    - destruct ws as [|w ws].
      + cbn [sumq fold_right]. apply Qmult_le_0_compat; [|exact EPS]. change 0%Q with (inject_Z 0). rewrite <- Zle_Qle. apply Nat2Z.is_nonneg.
      + exfalso. destruct (H w (in_eq _ _)) as (mem' & o' & E & NS). cbn [play] in E. destruct w; [|discriminate E]. injection E as <- _. now apply NS.
    - cbn [asks] in AQ. destruct q as [|q]; [destruct AQ|]. destruct (lookup (tau, m) mem) as [x|] eqn:LU.
      + cbn [play weight] in *. rewrite LU in *. eapply Qle_trans; [apply (IH x mem q ws (AQ x) SM ND H)|]. apply Qmult_le_compat_r; [|exact EPS]. rewrite <- Zle_Qle. lia.
      + set (L := coins_at (length tau)).
        assert (HD : forall w, In w ws -> exists x w', w = x :: w' /\ In x L /\ exists mem' o, play (k x) (((tau, m), x) :: mem) w' = Some (mem', o) /\ ~ safe mem').
        { intros w Hw. destruct (H w Hw) as (mem' & o & E & NS). cbn [play] in E. rewrite LU in E. destruct w as [|x w]; [discriminate E|]. exists x, w. split; [reflexivity|].
          destruct (in_dec X_dec x _) as [Hx|]; [|discriminate E]. split; [exact Hx|]. now exists mem', o. }
        assert (R0 : (0 <= inject_Z (Z.of_nat q) * eps)%Q).
        { apply Qmult_le_0_compat; [|exact EPS]. change 0%Q with (inject_Z 0). rewrite <- Zle_Qle. apply Nat2Z.is_nonneg. }
        apply qle_nn. intros NLE. apply (nn_decide (fun x => length tau < length levels /\ ~ live tau /\ live (tau ++ [(m, x)])) L). intros (b & Hb). apply NLE. clear NLE.
        eapply Qle_trans; [apply (one_question k tau m mem ws b (inject_Z (Z.of_nat q) * eps) LU ND R0)|].
        * intros w Hw. destruct (HD w Hw) as (x & w' & E & Hx & _). now exists x, w'.
        * intros x Hx. fold L in Hx. specialize (Hb x Hx).
          assert (TL : forall xs, In xs (tails x ws) -> exists mem' o, play (k x) (((tau, m), x) :: mem) xs = Some (mem', o) /\ ~ safe mem').
          { intros xs Hxs. apply tails_in in Hxs. destruct (HD _ Hxs) as (y & w' & E & _ & P). injection E as <- <-. exact P. }
          destruct (b x).
          -- eapply Qle_trans; [apply (total (k x) _ (tails x ws) (tails_nodup x ws ND)); intros xs Hxs; destruct (TL xs Hxs) as (mem' & o & E & _); now rewrite E|].
             rewrite <- (Qplus_0_r 1) at 1. apply Qplus_le_compat; [apply Qle_refl|exact R0].
          -- rewrite Qplus_0_l. apply (IH x _ q (tails x ws) (AQ x)); [|now apply tails_nodup|exact TL].
             intros tau' m' x' [E|I] Lt ND' AL; [|exact (SM _ _ _ I Lt ND' AL)]. injection E as <- <- <-. apply Hb. now split.
        * fold L. replace (Z.of_nat (S q)) with (1 + Z.of_nat q)%Z by lia. rewrite inject_Z_plus, Qmult_plus_distr_l. apply Qplus_le_compat; [|apply Qle_refl]. rewrite Qmult_1_l.
          destruct (filter b L) as [|x0 l] eqn:EF; [rewrite Qmult_0_r; exact EPS|]. rewrite <- EF.
          assert (H0 : In x0 L /\ b x0 = true) by (apply filter_In; rewrite EF; now left). destruct H0 as [H0 B0]. pose proof (Hb x0 H0) as BAD. rewrite B0 in BAD. destruct BAD as (Lt & DEAD & _).
          assert (FA : (inject_Z (Z.of_nat (length (filter b L))) <= eps * inject_Z (Z.of_nat (length L)))%Q).
          { apply (few_alive tau m); [exact Lt|exact DEAD|apply NoDup_filter, coins_nodup|intros x Hx; now apply filter_In in Hx|].
            intros x Hx. apply filter_In in Hx. destruct Hx as [Hx Bx]. specialize (Hb x Hx). rewrite Bx in Hb. apply Hb. }
          assert (LZ : length L <> 0) by (destruct L; [destruct H0|discriminate]).
          rewrite Qmult_comm. eapply Qle_trans; [apply Qmult_le_compat_r; [exact FA|apply inv_nonneg]|].
          rewrite <- Qmult_assoc, (Qmult_comm (inject_Z _)), (inv_mul _ LZ), Qmult_1_r. apply Qle_refl.
  Qed.

  (** *** The verifier *)
  Lemma lookup_in q mem x : lookup q mem = Some x -> In (q, x) mem.
  Proof. induction mem as [|[q' y] mem IH]; cbn [lookup]; [discriminate|]. destruct (question_dec q q') as [<-|]; [intros E; injection E as ->; now left|right; now apply IH]. Qed.
  Lemma play_grows {O} (G : asking O) : forall mem xs mem' o, play G mem xs = Some (mem', o) -> incl mem mem'.
  Proof.
    induction G as [o|tau m k IH]; intros mem xs mem' o' E; cbn [play] in E.
    - destruct xs; [injection E as <- _; apply incl_refl|discriminate E].
    - destruct (lookup (tau, m) mem) as [x|]; [now apply (IH x mem xs mem' o')|]. destruct xs as [|x xs]; [discriminate E|]. destruct (in_dec X_dec x _); [|discriminate E].
      apply IH in E. intros y Hy. apply E. now right.
  Qed.
  (** the transcript tau is answered in the memory after the part pre *)
  Fixpoint recorded (mem : memory) (pre tau : transcript) : Prop :=
    match tau with [] => True | (m, x) :: tau' => In ((pre, m), x) mem /\ recorded mem (pre ++ [(m, x)]) tau' end.
  Lemma check_recorded ms : forall pre a mem xs mem' tau a', play (check ms pre a) mem xs = Some (mem', (tau, a')) -> exists tau', tau = pre ++ tau' /\ recorded mem' pre tau'.
  Proof.
    induction ms as [|m ms IH]; intros pre a mem xs mem' tau a' E; cbn [check play] in E.
    - destruct xs; [|discriminate E]. injection E as <- <- _. exists []. now rewrite app_nil_r.
    - assert (X1 : exists x mem1 xs1, In ((pre, m), x) mem1 /\ play (check ms (pre ++ [(m, x)]) a) mem1 xs1 = Some (mem', (tau, a'))).
      { destruct (lookup (pre, m) mem) as [x|] eqn:LU; [exists x, mem, xs; split; [now apply lookup_in|exact E]|]. destruct xs as [|x xs]; [discriminate E|]. destruct (in_dec X_dec x _); [|discriminate E].
        exists x, (((pre, m), x) :: mem), xs. split; [now left|exact E]. }
      destruct X1 as (x & mem1 & xs1 & I1 & E1). destruct (IH _ _ _ _ _ _ _ E1) as (tau' & -> & R). exists ((m, x) :: tau'). rewrite <- app_assoc. split; [reflexivity|]. cbn [recorded]. split; [|exact R].
      exact (play_grows _ _ _ _ _ E1 _ I1).
  Qed.
  Lemma verified_recorded G : forall mem xs mem' tau a, play (verified G) mem xs = Some (mem', (tau, a)) -> recorded mem' [] tau.
  Proof.
    induction G as [[ms a0]|tau0 m k IH]; intros mem xs mem' tau a E; cbn [verified] in E.
    - destruct (length ms =? length levels); [now destruct (check_recorded _ _ _ _ _ _ _ _ E) as (tau' & -> & R)|]. cbn [play] in E. destruct xs; [|discriminate E]. now injection E as <- <- _.
    - cbn [play] in E. destruct (lookup (tau0, m) mem) as [x|]; [exact (IH x _ _ _ _ _ E)|]. destruct xs as [|x xs]; [discriminate E|]. destruct (in_dec X_dec x _); [exact (IH x _ _ _ _ _ E)|discriminate E].
  Qed.
  Lemma recorded_dead mem : safe mem -> forall tau pre, recorded mem pre tau -> length (pre ++ tau) <= length levels -> ~ live pre -> ~ live (pre ++ tau).
  Proof.
    intros SM. induction tau as [|[m x] tau IH]; intros pre R Lt D; [now rewrite app_nil_r|]. cbn [recorded] in R. destruct R as [I R].
    replace (pre ++ (m, x) :: tau) with ((pre ++ [(m, x)]) ++ tau) in * by (rewrite <- app_assoc; reflexivity). apply IH; [exact R|exact Lt|].
    apply (SM _ _ _ I); [|exact D]. rewrite !app_length in Lt. cbn [length] in Lt. lia.
  Qed.
  Lemma check_asks ms : forall pre a, asks (check ms pre a) (length ms).
  Proof. induction ms as [|m ms IH]; intros pre a; cbn [check asks length]; [exact I|]. intros x. apply IH. Qed.
  Lemma verified_asks G : forall q, asks G q -> asks (verified G) (q + length levels).
  Proof.
    induction G as [[ms a]|tau m k IH]; intros q H; cbn [verified].
    - destruct (Nat.eqb_spec (length ms) (length levels)) as [<-|]; [|exact I]. assert (MON : forall (O : Type) (G : asking O) n r, asks G n -> asks G (r + n)).
      { clear. intros O G. induction G as [o|tau m k IH]; intros n r H; [exact I|]. cbn [asks] in *. destruct n as [|n]; [destruct H|]. rewrite Nat.add_succ_r. intros x. apply IH, H. }
      apply MON, check_asks.
    - cbn [asks] in *. destruct q as [|q]; [destruct H|]. intros x. apply IH, H.
  Qed.
  Theorem oracle_bound (G : asking (list M * A)) q ws : ~ alive levels [] -> asks G q -> NoDup ws -> (forall xs, In xs ws -> wins_with G xs) ->
    (sumq (weight (verified G) []) ws <= inject_Z (Z.of_nat (q + length levels)) * eps)%Q.
  Proof.
    intros D AQ ND H. apply (unsafe_bound _ [] _ ws (verified_asks G q AQ)); [intros tau m x []|exact ND|].
    intros xs Hxs. destruct (H xs Hxs) as (mem & tau & a & E & Lt & ACC). exists mem, (tau, a). split; [exact E|]. intros SM.
    pose proof (recorded_dead mem SM tau [] (verified_recorded G _ _ _ _ _ E)) as R. cbn [app length skipn] in R. apply R; [lia|exact D|]. rewrite Lt, skipn_all. now exists a.
  Qed.
End Oracle.
