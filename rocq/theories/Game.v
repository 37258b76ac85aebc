(** * Counting the runs a prover wins.

    A run is a sequence of challenges, one per level, each taken from the finite list of the
    level, together with what comes after them.  If a prover wins more runs than the bound below,
    there is a tree of challenges with more than the threshold of branches at every node, all of
    whose leaves have more than C winning continuations.  (The usual averaging argument, with
    counts in the place of probabilities.) *)
From Coq Require Import Arith Lia List Bool.
Import ListNotations.

Section Game.
  Context {X Y : Type} (X_dec : forall a b : X, {a = b} + {a <> b}).
  (** [C]: threshold for the continuations; [D]: number of all continuations *)
  Context (C : nat) (all : list Y).
  Notation D := (length all).
  (** the challenges of a level and its threshold *)
  Notation level := (list X * nat)%type.
  Notation runl := (list X * Y)%type.

  Definition starts (b : X) (w : runl) : bool := match fst w with [] => false | a :: _ => if X_dec a b then true else false end.
  (** the rest of the runs that start with b *)
  Definition sub (b : X) (ws : list runl) : list runl := map (fun w => (tl (fst w), snd w)) (filter (starts b) ws).
  Fixpoint subs (pre : list X) (ws : list runl) : list runl := match pre with [] => ws | b :: pre' => subs pre' (sub b ws) end.
  Fixpoint good (ls : list level) (ws : list runl) : bool :=
    match ls with
    | [] => C <? length ws
    | (L, t) :: ls' => t <? length (filter (fun b => good ls' (sub b ws)) L)
    end.
  (** the runs of the whole game, and the bound *)
  Fixpoint full (ls : list level) : nat := match ls with [] => D | (L, _) :: ls' => length L * full ls' end.
  Fixpoint bound (ls : list level) : nat := match ls with [] => C | (L, t) :: ls' => t * full ls' + length L * bound ls' end.
  (** runs of the game: the challenges come from the lists of the levels *)
  Definition run_of (ls : list level) (w : runl) : Prop := Forall2 (fun b l => In b (fst l)) (fst w) ls /\ In (snd w) all.

  Lemma sub_in b ws p y : In (p, y) (sub b ws) <-> In (b :: p, y) ws.
  Proof.
    unfold sub. rewrite in_map_iff. split.
    - intros ([q z] & E & H). apply filter_In in H. destruct H as [H S]. cbn [fst snd] in *. injection E as <- <-.
      unfold starts in S. cbn [fst] in S. destruct q as [|a q]; [discriminate S|]. destruct (X_dec a b) as [->|]; [exact H|discriminate S].
    - intros H. exists (b :: p, y). split; [reflexivity|]. apply filter_In. split; [exact H|]. unfold starts. cbn [fst]. now destruct (X_dec b b).
  Qed.
  Lemma subs_in pre : forall ws p y, In (p, y) (subs pre ws) <-> In (pre ++ p, y) ws.
  Proof.
    induction pre as [|b pre IH]; intros ws p y; cbn [subs app]; [reflexivity|]. rewrite IH. apply sub_in.
  Qed.
  Lemma subs_app pre : forall q ws, subs (pre ++ q) ws = subs q (subs pre ws).
  Proof. induction pre as [|b pre IH]; intros q ws; [reflexivity|]. cbn [app subs]. apply IH. Qed.
  Lemma sub_nodup b ws : NoDup ws -> NoDup (sub b ws).
  Proof.
    intros ND. unfold sub. assert (NF : NoDup (filter (starts b) ws)) by now apply NoDup_filter.
    assert (S : forall w, In w (filter (starts b) ws) -> starts b w = true) by (intros w H; now apply filter_In in H).
    induction NF as [|w l Hw NF IH]; cbn [map]; [constructor|]. constructor; [|apply IH; intros; apply S; now right].
    intros H. apply in_map_iff in H. destruct H as (w' & E & H). apply Hw. replace w with w'; [exact H|].
    pose proof (S w (in_eq _ _)) as S1. pose proof (S w' (in_cons _ _ _ H)) as S2. destruct w as [p y], w' as [p' y']. unfold starts in S1, S2. cbn [fst snd] in *.
    destruct p as [|a p]; [discriminate S1|]. destruct p' as [|a' p']; [discriminate S2|]. destruct (X_dec a b) as [->|]; [|discriminate S1]. destruct (X_dec a' b) as [->|]; [|discriminate S2].
    cbn [tl] in E. now injection E as -> ->.
  Qed.
  Lemma subs_nodup pre : forall ws, NoDup ws -> NoDup (subs pre ws).
  Proof. induction pre as [|b pre IH]; intros ws H; [exact H|]. cbn [subs]. apply IH. now apply sub_nodup. Qed.
  Lemma sub_run L t ls b ws : Forall (run_of ((L, t) :: ls)) ws -> Forall (run_of ls) (sub b ws).
  Proof.
    intros H. rewrite Forall_forall in *. intros [p y] Hw. apply sub_in in Hw. specialize (H _ Hw). destruct H as [H1 H2]. cbn [fst snd] in *.
    inversion H1; subst. now split.
  Qed.
  Lemma split_heads L t ls ws : Forall (run_of ((L, t) :: ls)) ws -> length ws <= list_sum (map (fun b => length (sub b ws)) L).
  Proof.
    intros H. assert (I : forall w, In w ws -> exists b, In b L /\ starts b w = true).
    { rewrite Forall_forall in H. intros [p y] Hw. destruct (H _ Hw) as [H1 _]. cbn [fst] in H1. inversion H1 as [|b ? p' ? Hb _]; subst.
      exists b. split; [exact Hb|]. unfold starts. cbn [fst]. now destruct (X_dec b b). }
    clear H. unfold sub. induction ws as [|w ws IH]; [cbn; lia|].
    destruct (I w (in_eq _ _)) as (b & Hb & Sb). assert (IH' := IH (fun w' Hw' => I w' (or_intror Hw'))). clear IH I.
    assert (M : forall L', list_sum (map (fun b => length (map (fun w : runl => (tl (fst w), snd w)) (filter (starts b) ws))) L') <=
                list_sum (map (fun b => length (map (fun w : runl => (tl (fst w), snd w)) (filter (starts b) (w :: ws)))) L')).
    { induction L' as [|c L' IHL]; [cbn; lia|]. cbn [map list_sum fold_right filter] in *. destruct (starts c w); rewrite ?map_length in *; cbn [length]; unfold list_sum in IHL; lia. }
    assert (S : list_sum (map (fun b => length (map (fun w : runl => (tl (fst w), snd w)) (filter (starts b) ws))) L) + 1 <=
                list_sum (map (fun b => length (map (fun w : runl => (tl (fst w), snd w)) (filter (starts b) (w :: ws)))) L)).
    { clear IH'. induction L as [|c L IHL]; [destruct Hb|]. destruct Hb as [->|Hb].
      - specialize (M L). cbn [map list_sum fold_right filter] in *. rewrite Sb. rewrite !map_length in *. cbn [length]. unfold list_sum in M. lia.
      - specialize (IHL Hb). cbn [map list_sum fold_right filter] in *. destruct (starts c w); rewrite ?map_length in *; cbn [length]; unfold list_sum in IHL; lia. }
    eapply Nat.le_trans; [|exact S]. cbn [length]. rewrite Nat.add_1_r. apply le_n_S. exact IH'.
  Qed.
  Lemma snd_nodup ws : NoDup ws -> (forall w : runl, In w ws -> fst w = []) -> NoDup (map snd ws).
  Proof.
    intros ND Z. induction ND as [|w l Hw ND IH]; cbn [map]; [constructor|]. constructor; [|apply IH; intros; apply Z; now right].
    intros I. apply in_map_iff in I. destruct I as (w' & E & I). apply Hw. replace w with w'; [exact I|].
    pose proof (Z w (in_eq _ _)). pose proof (Z w' (in_cons _ _ _ I)). destruct w, w'. cbn [fst snd] in *. congruence.
  Qed.
  Lemma full_bound ls : forall ws, NoDup ws -> Forall (run_of ls) ws -> length ws <= full ls.
  Proof.
    induction ls as [|[L t] ls IH]; intros ws ND H; cbn [full].
    - rewrite <- (map_length snd ws). apply NoDup_incl_length.
      + rewrite Forall_forall in H. apply snd_nodup; [exact ND|]. intros w Hw. destruct (H w Hw) as [H1 _]. now inversion H1.
      + intros y Hy. apply in_map_iff in Hy. destruct Hy as (w & <- & Hw). rewrite Forall_forall in H. now apply H.
    - etransitivity; [exact (split_heads L t ls ws H)|].
      assert (G : forall b, length (sub b ws) <= full ls) by (intros b; apply IH; [now apply sub_nodup|now apply (sub_run L t)]).
      clear - G. induction L as [|b L IHL]; [cbn; lia|]. cbn [map list_sum fold_right length]. specialize (G b). unfold list_sum in IHL. lia.
  Qed.
  (** too few wins to be good *)
  Lemma not_good ls : forall ws, NoDup ws -> Forall (run_of ls) ws -> good ls ws = false -> length ws <= bound ls.
  Proof.
    induction ls as [|[L t] ls IH]; intros ws ND H G; cbn [good bound] in *.
    - now apply Nat.ltb_ge in G.
    - apply Nat.ltb_ge in G. etransitivity; [exact (split_heads L t ls ws H)|].
      assert (G1 : forall b, length (sub b ws) <= full ls) by (intros b; apply full_bound; [now apply sub_nodup|now apply (sub_run L t)]).
      assert (G2 : forall b, good ls (sub b ws) = false -> length (sub b ws) <= bound ls) by (intros b; apply IH; [now apply sub_nodup|now apply (sub_run L t)]).
      assert (S : list_sum (map (fun b => length (sub b ws)) L) <= length (filter (fun b => good ls (sub b ws)) L) * full ls + length L * bound ls); [|nia].
      clear - G1 G2. induction L as [|b L IHL]; [cbn; lia|]. cbn [map list_sum fold_right length filter]. unfold list_sum in IHL.
      destruct (good ls (sub b ws)) eqn:Eb; cbn [length]; [specialize (G1 b)|specialize (G2 b Eb)]; nia.
  Qed.

  (** the branches at a node of the tree *)
  Definition branches (ls : list level) (ws : list runl) (pre : list X) : list X :=
    filter (fun b => good (skipn (S (length pre)) ls) (subs (pre ++ [b]) ws)) (fst (nth (length pre) ls ([], 0))).
  Fixpoint along (B : list X -> list X) (pre q : list X) : Prop :=
    match q with [] => True | b :: q' => In b (B pre) /\ along B (pre ++ [b]) q' end.
  Lemma good_along ls ws : forall q pre, good (skipn (length pre) ls) (subs pre ws) = true -> along (branches ls ws) pre q ->
    good (skipn (length (pre ++ q)) ls) (subs (pre ++ q) ws) = true.
  Proof.
    induction q as [|b q IH]; intros pre G A; [now rewrite app_nil_r|]. cbn [along] in A. destruct A as [Hb A].
    replace (pre ++ b :: q) with ((pre ++ [b]) ++ q) by (rewrite <- app_assoc; reflexivity).
    apply IH; [|exact A]. unfold branches in Hb. apply filter_In in Hb. rewrite app_length. cbn [length]. rewrite Nat.add_1_r. exact (proj2 Hb).
  Qed.
  Lemma good_branches ls ws pre : length pre < length ls -> good (skipn (length pre) ls) (subs pre ws) = true ->
    snd (nth (length pre) ls ([], 0)) < length (branches ls ws pre).
  Proof.
    intros Hp G. unfold branches. assert (E : skipn (length pre) ls = nth (length pre) ls ([], 0) :: skipn (S (length pre)) ls).
    { clear G. revert Hp. generalize (length pre). induction ls as [|l ls IH]; intros [|m] H; cbn [length] in H; try lia; [reflexivity|].
      cbn [skipn nth]. rewrite IH by lia. reflexivity. }
    rewrite E in G. destruct (nth (length pre) ls ([], 0)) as [L t] eqn:N. cbn [good fst snd] in *. apply Nat.ltb_lt in G.
    replace (filter (fun b => good (skipn (S (length pre)) ls) (subs (pre ++ [b]) ws)) L) with (filter (fun b => good (skipn (S (length pre)) ls) (sub b (subs pre ws))) L); [exact G|].
    apply filter_ext. intros b. now rewrite subs_app.
  Qed.
  Lemma branches_nodup ls ws pre : Forall (fun l : level => NoDup (fst l)) ls -> NoDup (branches ls ws pre).
  Proof.
    intros H. apply NoDup_filter. destruct (Nat.lt_ge_cases (length pre) (length ls)) as [L|L].
    - rewrite Forall_forall in H. apply H. now apply nth_In.
    - rewrite nth_overflow by exact L. constructor.
  Qed.
  (** at a leaf *)
  Lemma good_leaf ls ws path : good ls ws = true -> length path = length ls -> along (branches ls ws) [] path -> C < length (subs path ws).
  Proof.
    intros G L A. pose proof (good_along ls ws path [] G A) as R. cbn [app] in R. rewrite L, skipn_all in R. cbn [good] in R. now apply Nat.ltb_lt.
  Qed.
  Lemma along_app B : forall p pre q, along B pre (p ++ q) <-> along B pre p /\ along B (pre ++ p) q.
  Proof.
    induction p as [|b p IH]; intros pre q; cbn [app along]; [rewrite app_nil_r; tauto|]. rewrite IH, <- app_assoc. cbn [app]. tauto.
  Qed.
End Game.

(** ** Tuples *)
Fixpoint tuples {A} (q : nat) (l : list A) : list (list A) :=
  match q with O => [[]] | S q' => flat_map (fun a => map (cons a) (tuples q' l)) l end.
Lemma tuples_length {A} q (l : list A) : length (tuples q l) = length l ^ q.
Proof.
  induction q as [|q IH]; [reflexivity|]. cbn [tuples Nat.pow]. rewrite <- IH. generalize (tuples q l). clear IH. intros T.
  induction l as [|a l IHl]; [reflexivity|]. cbn [flat_map length]. now rewrite app_length, map_length, IHl.
Qed.
Lemma tuples_in {A} q (l : list A) x : In x (tuples q l) <-> length x = q /\ Forall (fun a => In a l) x.
Proof.
  revert x. induction q as [|q IH]; intros x; cbn [tuples].
  - split; [intros [<-|[]]; now split|]. intros [L _]. destruct x; [now left|discriminate L].
  - rewrite in_flat_map. split.
    + intros (a & Ha & H). apply in_map_iff in H. destruct H as (y & <- & H). apply IH in H. destruct H as [L F]. cbn [length]. split; [lia|now constructor].
    + intros [L F]. destruct x as [|a x]; [discriminate L|]. inversion F; subst. exists a. split; [assumption|]. apply in_map_iff. exists x. split; [reflexivity|].
      apply IH. split; [now injection L|assumption].
Qed.
(** a prover that wins many tuples wins with many positions *)
Lemma many_positions {A} (A_dec : forall a b : A, {a = b} + {a <> b}) q (W : list (list A)) m : NoDup W -> Forall (fun x => length x = q) W ->
  m ^ q < length W -> m < length (nodup A_dec (concat W)).
Proof.
  intros ND H L. apply Nat.nle_gt. intros M. assert (I : incl W (tuples q (nodup A_dec (concat W)))).
  { rewrite Forall_forall in H. intros x Hx. apply tuples_in. split; [now apply H|]. apply Forall_forall. intros a Ha. apply nodup_In. apply in_concat. now exists x. }
  apply (NoDup_incl_length ND) in I. rewrite tuples_length in I. pose proof (Nat.pow_le_mono_l _ _ q M). lia.
Qed.

(** ** The bound when all the levels have the same challenges *)
Lemma full_uniform {X Y} (all : list Y) (L : list X) thr : full all (map (pair L) thr) = length L ^ length thr * length all.
Proof. induction thr as [|t thr IH]; cbn [map full length Nat.pow]; [lia|]. rewrite IH. lia. Qed.
Lemma bound_uniform {X Y} C (all : list Y) (L : list X) thr : length L * bound C all (map (pair L) thr) = length L ^ S (length thr) * C + list_sum thr * length L ^ length thr * length all.
Proof.
  induction thr as [|t thr IH]; cbn [map bound length list_sum fold_right]; [cbn; lia|].
  rewrite full_uniform. unfold list_sum in IH. cbn [Nat.pow] in *. rewrite Nat.mul_add_distr_l, IH. ring.
Qed.
