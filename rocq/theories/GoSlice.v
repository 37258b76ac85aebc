(** * Slices of Go: [append] writes into the spare capacity of its first argument.

    Elsewhere in this model a slice is the list of its elements.  In Go it is a window into an array, and [append] writes into
    the array if the capacity suffices.  The slices of an OpeningSet are made by appending one element after the other
    (goldilocks/utils.go:40-46) and so may have spare capacity, and [ToOpenings] (fri/fri.go:63-73) appends to one of them. *)
From Coq Require Import ZArith Lia List Bool Arith.
Import ListNotations.

Record slice := Sl { s_arr : nat; s_off : nat; s_len : nat; s_cap : nat }.
Definition nil_slice : slice := Sl 0 0 0 0.

Section Slices.
  Context {A : Type} (d : A).
  (** the capacity of a new array, given the old capacity and the length needed; the runtime is free to choose a larger one *)
  Context (grow : nat -> nat -> nat).
  Definition heap := list (list A).
  Definition arr (h : heap) (a : nat) : list A := nth a h [].
  Definition sread (h : heap) (s : slice) : list A := firstn (s_len s) (skipn (s_off s) (arr h (s_arr s))).
  (** l with xs written over it from position i on *)
  Definition over (l : list A) (i : nat) (xs : list A) : list A := firstn i l ++ xs ++ skipn (i + length xs) l.
  Definition write (h : heap) (a i : nat) (xs : list A) : heap := firstn a h ++ over (arr h a) i xs :: skipn (S a) h.
  (** append(s, xs...) *)
  Definition sappend (h : heap) (s : slice) (xs : list A) : heap * slice :=
    let n := s_len s + length xs in
    if Nat.leb n (s_cap s) then (write h (s_arr s) (s_off s + s_len s) xs, Sl (s_arr s) (s_off s) n (s_cap s))
    else let c := Nat.max n (grow (s_cap s) n) in
         (h ++ [sread h s ++ xs ++ repeat d (c - n)], Sl (length h) 0 n c).
  (** goldilocks/utils.go:40-46 and the like: [var output []T], one append per element *)
  Fixpoint build_ (xs : list A) (h : heap) (s : slice) : heap * slice :=
    match xs with [] => (h, s) | x :: xs' => let '(h', s') := sappend h s [x] in build_ xs' h' s' end.
  Definition build (xs : list A) (h : heap) : heap * slice := build_ xs h nil_slice.
  (** several slices, one after the other (variables/deserialize.go) *)
  Fixpoint build_all (xss : list (list A)) (h : heap) : heap * list slice :=
    match xss with
    | [] => (h, [])
    | xs :: xss' => let '(h1, s) := build xs h in let '(h2, ss) := build_all xss' h1 in (h2, s :: ss)
    end.
  (** append(append(s, t1...), t2...) ... *)
  Fixpoint append_all (ts : list slice) (h : heap) (s : slice) : heap * slice :=
    match ts with [] => (h, s) | t :: ts' => let '(h', s') := sappend h s (sread h t) in append_all ts' h' s' end.

  (** the window lies in the array *)
  Definition wf (h : heap) (s : slice) : Prop :=
    s_len s <= s_cap s /\ (s_cap s = 0 \/ s_arr s < length h /\ s_off s + s_cap s <= length (arr h (s_arr s))).
  (** t has no element in the spare capacity of s *)
  Definition apart (s t : slice) : Prop :=
    s_len t = 0 \/ s_arr t <> s_arr s \/ s_off t + s_len t <= s_off s + s_len s \/ s_off s + s_cap s <= s_off t.
  Lemma apart_self s : apart s s. Proof. right. right. left. lia. Qed.

  Lemma arr_write h a i xs b : a < length h -> arr (write h a i xs) b = if b =? a then over (arr h a) i xs else arr h b.
  Proof.
    intros L. unfold write, arr. destruct (Nat.eqb_spec b a) as [->|N].
    - rewrite app_nth2; rewrite firstn_length, Nat.min_l by lia; [|lia]. now rewrite Nat.sub_diag.
    - destruct (Nat.lt_ge_cases b a) as [Q|Q].
      + rewrite app_nth1 by (rewrite firstn_length; lia). rewrite <- (firstn_skipn a h) at 2. now rewrite app_nth1 by (rewrite firstn_length; lia).
      + rewrite app_nth2 by (rewrite firstn_length; lia). rewrite firstn_length, Nat.min_l by lia.
        replace (b - a) with (S (b - a - 1)) by lia. cbn [nth]. rewrite <- (firstn_skipn (S a) h) at 2.
        rewrite app_nth2 by (rewrite firstn_length; lia). rewrite firstn_length, Nat.min_l by lia. f_equal. lia.
  Qed.
  Lemma write_length h a i xs : a < length h -> length (write h a i xs) = length h.
  Proof. intros L. unfold write. rewrite app_length, firstn_length. cbn [length]. rewrite skipn_length. lia. Qed.
  Lemma over_length l i xs : i + length xs <= length l -> length (over l i xs) = length l.
  Proof. intros L. unfold over. rewrite !app_length, firstn_length, skipn_length. lia. Qed.
  Lemma window_before (l : list A) i xs o n : o + n <= i -> i + length xs <= length l -> firstn n (skipn o (over l i xs)) = firstn n (skipn o l).
  Proof.
    intros L1 L2. unfold over. rewrite <- (firstn_skipn i l) at 3. rewrite !skipn_app, !firstn_app, !skipn_length, !firstn_length.
    replace (n - (Nat.min i (length l) - o)) with 0 by lia. reflexivity.
  Qed.
  Lemma skipn_skipn_ n m (l : list A) : skipn n (skipn m l) = skipn (m + n) l.
  Proof. revert l. induction m as [|m IH]; intros l; [reflexivity|]. destruct l; cbn [skipn Nat.add]; [now rewrite skipn_nil|apply IH]. Qed.
  Lemma window_after (l : list A) i xs o n : i + length xs <= o -> i + length xs <= length l -> firstn n (skipn o (over l i xs)) = firstn n (skipn o l).
  Proof.
    intros L1 L2. f_equal. unfold over. rewrite app_assoc, skipn_app.
    assert (E : length (firstn i l ++ xs) = i + length xs) by (rewrite app_length, firstn_length; lia).
    rewrite E, skipn_all2 by lia. cbn [app]. rewrite skipn_skipn_. f_equal. lia.
  Qed.
  Lemma window_at (l : list A) i xs o : o <= i -> i + length xs <= length l ->
    firstn (i - o + length xs) (skipn o (over l i xs)) = firstn (i - o) (skipn o l) ++ xs.
  Proof.
    intros L1 L2. unfold over. assert (E : length (firstn i l) = i) by (rewrite firstn_length; lia).
    rewrite skipn_app, E. replace (o - i) with 0 by lia. cbn [skipn].
    assert (E2 : length (skipn o (firstn i l)) = i - o) by (rewrite skipn_length; lia).
    rewrite firstn_app, E2, firstn_all2 by lia. rewrite skipn_firstn_comm. f_equal.
    rewrite firstn_app. replace (i - o + length xs - (i - o)) with (length xs) by lia. rewrite Nat.sub_diag, firstn_all. cbn [firstn]. now rewrite app_nil_r.
  Qed.

  Lemma sread_length h s : wf h s -> length (sread h s) = s_len s.
  Proof. intros [L W]. unfold sread. rewrite firstn_length, skipn_length. destruct W as [W|[_ W]]; lia. Qed.

  (** append returns the concatenation and changes no slice that has nothing in the spare capacity *)
  Lemma sappend_spec h s xs h' s' : wf h s -> sappend h s xs = (h', s') ->
    sread h' s' = sread h s ++ xs /\ wf h' s' /\ length h <= length h' /\
    forall t, wf h t -> apart s t -> sread h' t = sread h t /\ wf h' t /\ apart s' t.
  Proof.
    intros W. unfold sappend. destruct (Nat.leb_spec (s_len s + length xs) (s_cap s)) as [F|F]; intros E; injection E as <- <-.
    - destruct s as [a o n c]. cbn [s_arr s_off s_len s_cap] in *. destruct xs as [|x xs0] eqn:EX.
      + (* nothing to append *)
        assert (WR : forall b, arr (write h a (o + n) []) b = arr h b).
        { intros b. unfold write, over, arr. cbn [app length]. rewrite Nat.add_0_r, firstn_skipn. destruct (Nat.lt_ge_cases a (length h)) as [L|L].
          - pose proof (arr_write h a (o + n) [] b L) as P. unfold write, over, arr in P. cbn [app length] in P. rewrite Nat.add_0_r, firstn_skipn in P.
            rewrite P. destruct (Nat.eqb_spec b a) as [->|]; reflexivity.
          - rewrite firstn_all2 by lia. rewrite (skipn_all2 (n := S a)) by lia. rewrite (nth_overflow h) with (n := a) by lia.
            destruct (Nat.lt_ge_cases b (length h)) as [Q|Q]; [now rewrite app_nth1|]. rewrite app_nth2, (nth_overflow h) by lia.
            destruct (b - length h) as [|[|]]; reflexivity. }
        assert (WL : length h <= length (write h a (o + n) [])).
        { unfold write. rewrite app_length, firstn_length. cbn [length]. rewrite skipn_length. lia. }
        cbn [length] in *. rewrite Nat.add_0_r, app_nil_r in *. unfold sread, wf in *. cbn [s_arr s_off s_len s_cap] in *.
        split; [now rewrite WR|]. split; [rewrite WR; split; [lia|]; destruct W as [_ [W|[W1 W2]]]; [auto|right; split; [lia|exact W2]]|]. split; [exact WL|].
        intros t [T1 T2] AP. rewrite WR. split; [reflexivity|]. split; [|exact AP]. split; [exact T1|]. rewrite ?WR. destruct T2 as [T2|[T2 T3]]; [auto|right; split; [lia|exact T3]].
      + rewrite <- EX in *. assert (LX : 1 <= length xs) by (rewrite EX; cbn; lia). clear EX x xs0.
        destruct W as [W0 [W|[W1 W2]]]; cbn [s_arr s_off s_len s_cap] in *; [lia|].
        unfold sread, wf. cbn [s_arr s_off s_len s_cap]. rewrite write_length, !arr_write, !Nat.eqb_refl by exact W1.
        split; [|split; [|split; [lia|]]].
        * pose proof (window_at (arr h a) (o + n) xs o ltac:(lia) ltac:(lia)) as P. now replace (o + n - o) with n in P by lia.
        * split; [exact F|]. right. split; [exact W1|]. rewrite over_length by lia. lia.
        * intros t [T1 T2] AP. unfold apart in *. cbn [s_arr s_off s_len s_cap] in *.
          split; [|split; [|destruct AP as [?|[?|[?|?]]]; [left|right; left|right; right; left|right; right; right]; auto; lia]].
          -- rewrite arr_write by exact W1. destruct (Nat.eqb_spec (s_arr t) a) as [Ea|]; [|reflexivity]. rewrite Ea.
             destruct AP as [->|[?|[?|?]]]; [reflexivity|contradiction|apply window_before; lia|apply window_after; lia].
          -- split; [exact T1|]. destruct T2 as [T2|[T2 T3]]; [auto|]. right. split; [lia|]. rewrite arr_write by exact W1.
             destruct (Nat.eqb_spec (s_arr t) a) as [Ea|]; [|exact T3]. rewrite Ea in T3. rewrite over_length by lia. exact T3.
    - set (c := Nat.max (s_len s + length xs) (grow (s_cap s) (s_len s + length xs))). assert (Lc : s_len s + length xs <= c) by (unfold c; lia). clearbody c.
      pose proof (sread_length h s W) as SL.
      assert (AN : arr (h ++ [sread h s ++ xs ++ repeat d (c - (s_len s + length xs))]) (length h) = sread h s ++ xs ++ repeat d (c - (s_len s + length xs))) by apply nth_middle.
      assert (AO : forall b, b < length h -> forall x, arr (h ++ [x]) b = arr h b) by (intros b Lb x; unfold arr; now apply app_nth1).
      split; [|split; [|split]].
      + unfold sread at 1. cbn [s_arr s_off s_len s_cap skipn]. rewrite AN, app_assoc, firstn_app, app_length, SL, Nat.sub_diag, firstn_all2 by (rewrite app_length; lia).
        cbn [firstn]. apply app_nil_r.
      + split; [exact Lc|]. right. cbn [s_arr s_off s_len s_cap]. rewrite AN, !app_length, repeat_length, SL. cbn. lia.
      + rewrite app_length. lia.
      + intros t [T1 T2] AP. destruct T2 as [T2|[T2 T3]].
        * assert (T0 : s_len t = 0) by lia. unfold sread. rewrite T0. split; [reflexivity|]. split; [split; auto|]. left. exact T0.
        * unfold sread. rewrite AO by exact T2. split; [reflexivity|]. split; [split; [exact T1|]; right; rewrite app_length, AO by exact T2; split; [lia|exact T3]|].
          right. left. cbn [s_arr]. lia.
  Qed.

  Lemma append_all_spec ts : forall h s h' s', wf h s -> Forall (wf h) ts -> Forall (apart s) ts -> append_all ts h s = (h', s') ->
    sread h' s' = sread h s ++ concat (map (sread h) ts) /\ wf h' s' /\ length h <= length h' /\
    forall t, wf h t -> apart s t -> sread h' t = sread h t /\ wf h' t /\ apart s' t.
  Proof.
    induction ts as [|t ts IH]; intros h s h' s' W WT AP E; cbn [append_all] in E.
    - injection E as <- <-. cbn. rewrite app_nil_r. repeat (split; auto).
    - inversion WT as [|? ? W1 W2]; subst. inversion AP as [|? ? A1 A2]; subst. clear WT AP.
      destruct (sappend h s (sread h t)) as [h1 s1] eqn:E1. destruct (sappend_spec _ _ _ _ _ W E1) as (R1 & WF1 & L1 & F1).
      destruct (IH h1 s1 h' s' WF1) as (R2 & WF2 & L2 & F2); auto.
      + rewrite Forall_forall in *. intros u Hu. apply F1; auto.
      + rewrite Forall_forall in *. intros u Hu. apply F1; auto.
      + split; [|split; [exact WF2|split; [lia|]]].
        * rewrite R2, R1, <- app_assoc. cbn [map concat]. do 2 f_equal. f_equal. rewrite Forall_forall in *. apply map_ext_in. intros u Hu. apply F1; auto.
        * intros u Wu Au. destruct (F1 u Wu Au) as (E3 & W3 & A3). destruct (F2 u W3 A3) as (E4 & W4 & A4). split; [congruence|]. auto.
  Qed.

  (** slices built by appending have their arrays to themselves *)
  Definition own (h : heap) (s : slice) : Prop := s = nil_slice \/ length h <= s_arr s /\ 0 < s_cap s.
  Lemma build__spec xs : forall h0 h s h' s', length h0 <= length h -> wf h s -> own h0 s -> build_ xs h s = (h', s') ->
    sread h' s' = sread h s ++ xs /\ wf h' s' /\ own h0 s' /\ length h <= length h' /\
    forall t, wf h t -> s_cap t = 0 \/ s_arr t < length h0 -> sread h' t = sread h t /\ wf h' t.
  Proof.
    induction xs as [|x xs IH]; intros h0 h s h' s' L W O E; cbn [build_] in E.
    - injection E as <- <-. rewrite app_nil_r. repeat (split; auto).
    - destruct (sappend h s [x]) as [h1 s1] eqn:E1. destruct (sappend_spec _ _ _ _ _ W E1) as (R1 & W1 & L1 & F1).
      assert (O1 : own h0 s1).
      { unfold sappend in E1. cbn [length] in E1. destruct (Nat.leb_spec (s_len s + 1) (s_cap s)); injection E1 as <- <-; right; cbn [s_arr s_cap]; [|lia].
        destruct O as [->|O]; [cbn in *; lia|exact O]. }
      destruct (IH h0 h1 s1 h' s' ltac:(lia) W1 O1 E) as (R2 & W2 & O2 & L2 & F2).
      split; [rewrite R2, R1, <- app_assoc; reflexivity|]. split; [exact W2|]. split; [exact O2|]. split; [lia|].
      intros t Wt Ht. assert (AP : apart s t).
      { destruct Ht as [Ht|Ht]; [left; destruct Wt; lia|]. destruct O as [->|O]; [|right; left; lia]. right. right. right. cbn. lia. }
      destruct (F1 t Wt AP) as (E3 & W3 & _). destruct (F2 t W3 Ht) as [E4 W4]. split; [congruence|exact W4].
  Qed.
  Lemma build_spec xs h h' s : build xs h = (h', s) ->
    sread h' s = xs /\ wf h' s /\ own h s /\ length h <= length h' /\ forall t, wf h t -> sread h' t = sread h t /\ wf h' t.
  Proof.
    intros E. destruct (build__spec xs h h nil_slice h' s (le_n _)) as (R & W & O & L & F); auto.
    - split; [cbn; lia|now left].
    - now left.
    - split; [exact R|]. split; [exact W|]. split; [exact O|]. split; [exact L|]. intros t Wt. apply F; auto. destruct Wt as [_ [Wt|[Wt _]]]; auto.
  Qed.
  (** different slices of the list have different arrays *)
  Definition separate (s t : slice) : Prop := s = nil_slice \/ t = nil_slice \/ s_arr s <> s_arr t.
  Lemma build_all_spec xss : forall h h' ss, build_all xss h = (h', ss) ->
    map (sread h') ss = xss /\ Forall (wf h') ss /\ Forall (own h) ss /\ length h <= length h' /\ ForallOrdPairs separate ss /\
    forall t, wf h t -> sread h' t = sread h t /\ wf h' t.
  Proof.
    induction xss as [|xs xss IH]; intros h h' ss E; cbn [build_all] in E.
    - injection E as <- <-. cbn. repeat (split; auto); constructor.
    - destruct (build xs h) as [h1 s] eqn:E1. destruct (build_all xss h1) as [h2 ss2] eqn:E2. injection E as <- <-.
      destruct (build_spec _ _ _ _ E1) as (R1 & W1 & O1 & L1 & F1). destruct (IH _ _ _ E2) as (R2 & W2 & O2 & L2 & S2 & F2).
      destruct (F2 s W1) as [R3 W3]. split; [cbn; congruence|]. split; [constructor; auto|]. split; [constructor; [exact O1|]|].
      { clear - O2 L1. induction O2 as [|t ts [->|O] _ IHO]; constructor; auto; [now left|right; lia]. }
      split; [lia|]. split; [constructor; [|exact S2]|].
      + clear - O1 O2 W1. rewrite Forall_forall in *. intros t Ht. destruct O1 as [->|O1]; [now left|]. destruct W1 as [_ [W1|[W1 _]]]; [lia|]. right.
        destruct (O2 t Ht) as [->|O]; [now left|right; lia].
      + intros t Wt. destruct (F1 t Wt) as [E3 W4]. destruct (F2 t W4) as [E5 W5]. split; [congruence|exact W5].
  Qed.
  Lemma separate_apart s t : separate s t -> apart s t.
  Proof. intros [->|[->|N]]; [right; right; right; cbn; lia|now left|right; left; auto]. Qed.
End Slices.
