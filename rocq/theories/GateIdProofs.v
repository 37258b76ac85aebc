(** * Gate ids: what the regular expressions match, unambiguity. *)
From Coq Require Import String.
From Coq Require Import Ascii ZArith NArith Lia List Bool Permutation.
From Verif Require Import Zp Circuit Goldilocks Types Gates GateIds.
Import ListNotations.
Open Scope Z_scope.
Open Scope circ_scope.

Definition occurs {A} (k s : list A) : Prop := exists a b, s = a ++ k ++ b.

(** ** Matching *)
Lemma strip_app l s : strip l (l ++ s) = Some s.
Proof. induction l as [|a l IH]; [reflexivity|]. cbn [strip app]. now rewrite Ascii.eqb_refl. Qed.
Lemma strip_inv l : forall s s', strip l s = Some s' -> s = l ++ s'.
Proof.
  induction l as [|a l IH]; intros s s' H; [now injection H as <-|]. destruct s as [|b s]; [discriminate H|]. cbn [strip] in H.
  destruct (Ascii.eqb_spec a b) as [->|]; [|discriminate H]. cbn [app]. f_equal. now apply IH.
Qed.
Definition stops (cls : ascii -> bool) (s : list ascii) : Prop := match s with c :: _ => cls c = false | [] => True end.
Lemma span_app cls v s : forallb cls v = true -> stops cls s -> span cls (v ++ s) = length v.
Proof.
  induction v as [|c v IH]; intros Hv Hs.
  - destruct s as [|c s]; [reflexivity|]. cbn in *. now rewrite Hs.
  - cbn [forallb] in Hv. apply andb_prop in Hv. destruct Hv as [Hc Hv]. cbn [app span length]. rewrite Hc. now rewrite IH.
Qed.
Lemma span_forall cls s : forall n, (n <= span cls s)%nat -> forallb cls (firstn n s) = true.
Proof.
  induction s as [|c s IH]; intros n H; [now rewrite firstn_nil|]. destruct n as [|n]; [reflexivity|]. cbn [span] in H.
  destruct (cls c) eqn:E; [|lia]. cbn [firstn forallb]. rewrite E. cbn. apply IH. lia.
Qed.
Lemma span_le cls s : (span cls s <= length s)%nat.
Proof. induction s as [|c s IH]; cbn [span length]; [lia|]. destruct (cls c); lia. Qed.
Lemma try_down_first {A} n lo (k : nat -> option A) a : (lo <= n)%nat -> k n = Some a -> try_down n lo k = Some a.
Proof. intros H E. destruct n; cbn [try_down]; rewrite (proj2 (Nat.ltb_ge _ _)) by lia; now rewrite E. Qed.
Lemma try_down_inv {A} n lo (k : nat -> option A) a : try_down n lo k = Some a -> exists m, (lo <= m <= n)%nat /\ k m = Some a.
Proof.
  induction n as [|n IH]; cbn [try_down]; intros H.
  - destruct (Nat.ltb 0 lo) eqn:E; [discriminate H|]. apply Nat.ltb_ge in E. destruct (k O) eqn:K; [|discriminate H].
    exists O. split; [lia|]. now rewrite K.
  - destruct (Nat.ltb (S n) lo) eqn:E; [discriminate H|]. apply Nat.ltb_ge in E. destruct (k (S n)) eqn:K.
    + exists (S n). split; [lia|]. now rewrite K.
    + destruct (IH H) as (m & Hm & Km). exists m. split; [lia|exact Km].
Qed.
Lemma at_lit l r s : regex_at (Lit l :: r) (chars l ++ s) = regex_at r s.
Proof. cbn [regex_at]. now rewrite strip_app. Qed.
Lemma at_lit_end l : forall s, regex_at [Lit l] (chars l ++ s) = Some [].
Proof. intros s. now rewrite at_lit. Qed.
Lemma at_cap name cls r v s m : v <> [] -> forallb cls v = true -> stops cls s -> regex_at r s = Some m ->
  regex_at (Cap name cls :: r) (v ++ s) = Some ((name, v) :: m).
Proof.
  intros Hn Hv Hs E. cbn [regex_at]. rewrite span_app by assumption. apply try_down_first.
  - destruct v; [now exfalso|cbn; lia].
  - rewrite skipn_app, skipn_all, Nat.sub_diag. cbn [app skipn]. rewrite E.
    now rewrite firstn_app, firstn_all, Nat.sub_diag, firstn_O, app_nil_r.
Qed.
Lemma at_dot s : regex_at [DotStar] s = Some [].
Proof. cbn [regex_at]. apply try_down_first; [lia|reflexivity]. Qed.
Lemma lit_inv l r s m : regex_at (Lit l :: r) s = Some m -> exists s', s = chars l ++ s' /\ regex_at r s' = Some m.
Proof. cbn [regex_at]. destruct (strip (chars l) s) as [s'|] eqn:E; [|discriminate]. intros H. exists s'. split; [now apply strip_inv|exact H]. Qed.
Lemma cap_inv name cls r s m : regex_at (Cap name cls :: r) s = Some m ->
  exists v s' m', s = v ++ s' /\ v <> [] /\ forallb cls v = true /\ m = (name, v) :: m' /\ regex_at r s' = Some m'.
Proof.
  cbn [regex_at]. intros H. apply try_down_inv in H. destruct H as (n & Hn & H).
  destruct (regex_at r (skipn n s)) as [m'|] eqn:E; [|discriminate H]. injection H as <-.
  pose proof (span_le cls s) as L.
  exists (firstn n s), (skipn n s), m'. split; [now rewrite firstn_skipn|]. split; [|split; [apply span_forall; lia|split; [reflexivity|exact E]]].
  intros Z. apply (f_equal (@length ascii)) in Z. rewrite firstn_length in Z. cbn in Z. lia.
Qed.
Lemma find_here r s m : regex_at r s = Some m -> find r s = Some m.
Proof. destruct s; cbn [find]; intros ->; reflexivity. Qed.
Lemma find_inv r s m : find r s = Some m -> exists a s', s = a ++ s' /\ regex_at r s' = Some m.
Proof.
  induction s as [|c s IH]; cbn [find]; intros H.
  - exists [], []. split; [reflexivity|]. destruct (regex_at r []); [exact H|discriminate H].
  - destruct (regex_at r (c :: s)) as [m'|] eqn:E.
    + exists [], (c :: s). split; [reflexivity|]. now rewrite E.
    + destruct (IH H) as (a & s' & -> & E'). exists (c :: a), s'. split; [reflexivity|exact E'].
Qed.

(** ** Gate names inside a text *)
Fixpoint occursb (k s : list ascii) : bool :=
  match strip k s with
  | Some _ => true
  | None => match s with [] => false | _ :: s' => occursb k s' end
  end.
Lemma occurs_b k s : occurs k s -> occursb k s = true.
Proof.
  intros (a & b & ->). induction a as [|c a IH]; cbn [app].
  - destruct (k ++ b) eqn:E; cbn [occursb]; rewrite <- E, strip_app; reflexivity.
  - cbn [occursb]. destruct (strip k (c :: a ++ k ++ b)); [reflexivity|exact IH].
Qed.
Lemma prefix_stop {A} (c : A) k : forall a w y, ~ In c k -> a ++ c :: w = k ++ y -> exists z, a = k ++ z.
Proof.
  induction k as [|d k IH]; intros a w y Hc E; [now exists a|]. destruct a as [|e a].
  - cbn in E. injection E as -> _. exfalso. apply Hc. now left.
  - cbn in E. injection E as -> E. destruct (IH a w y (fun X => Hc (or_intror X)) E) as [z ->]. now exists z.
Qed.
Lemma occurs_split {A} (c : A) k a w : ~ In c k -> occurs k (a ++ c :: w) -> occurs k a \/ occurs k w.
Proof.
  intros Hc (x & y & E). revert a E. induction x as [|h x IH]; intros a E.
  - destruct (prefix_stop c k a w y Hc E) as [z ->]. left. now exists [], z.
  - destruct a as [|h' a]; cbn in E.
    + injection E as -> E. right. now exists x, y.
    + injection E as -> E. destruct (IH a E) as [(u & v & ->)|R]; [|now right]. left. now exists (h :: u), v.
Qed.
Lemma occurs_sep {A} (k : list A) a v w : k <> [] -> v <> [] -> (forall c, In c v -> ~ In c k) ->
  occurs k (a ++ v ++ w) -> occurs k a \/ occurs k w.
Proof.
  intros Hk. revert a. induction v as [|c v IH]; intros a Hv Hd H; [now exfalso|]. cbn [app] in H.
  destruct (occurs_split c k a (v ++ w) (Hd c (or_introl eq_refl)) H) as [L|R]; [now left|].
  destruct v as [|d v]; [now right|]. destruct (IH [] ltac:(discriminate) (fun c' Hc' => Hd c' (or_intror Hc')) R) as [E|R']; [|now right].
  exfalso. destruct E as (x & y & E). symmetry in E. apply app_eq_nil in E. destruct E as [_ E]. apply app_eq_nil in E. now apply Hk.
Qed.

(** a text: a literal, then variable parts (nonempty, no letters) each followed by a literal *)
Fixpoint flatten (l : list ascii) (segs : list (list ascii * list ascii)) : list ascii :=
  match segs with [] => l | (v, l') :: segs' => l ++ v ++ flatten l' segs' end.
Fixpoint lits (l : list ascii) (segs : list (list ascii * list ascii)) : list (list ascii) :=
  match segs with [] => [l] | (_, l') :: segs' => l :: lits l' segs' end.
Definition var_ok (v : list ascii) : Prop := v <> [] /\ forallb is_list_char v = true.
Definition is_letter (c : ascii) : bool := (65 <=? N_of_ascii c)%N.
Lemma letter_not_list c : is_letter c = true -> is_list_char c = false.
Proof.
  unfold is_letter, is_list_char, is_digit. intros H. apply N.leb_le in H.
  rewrite (proj2 (N.leb_gt _ 57)) by lia. rewrite andb_false_r. cbn [orb].
  apply orb_false_intro; apply Ascii.eqb_neq; intros ->; cbn in H; lia.
Qed.
Lemma occurs_flatten k segs : forall l, k <> [] -> forallb is_letter k = true -> Forall (fun vl => var_ok (fst vl)) segs ->
  occurs k (flatten l segs) -> exists t, In t (lits l segs) /\ occurs k t.
Proof.
  induction segs as [|[v l'] segs IH]; intros l Hk Hl Hs H; cbn [flatten lits] in *; [exists l; split; [now left|exact H]|].
  inversion Hs as [|? ? [Hv1 Hv2] Hs']; subst. cbn [fst] in *.
  apply occurs_sep in H; [|exact Hk|exact Hv1|].
  - destruct H as [H|H]; [exists l; split; [now left|exact H]|].
    destruct (IH l' Hk Hl Hs' H) as (t & Ht & Ot). exists t. split; [now right|exact Ot].
  - intros c Hc Hc'. rewrite forallb_forall in Hv2, Hl. specialize (Hv2 c Hc). specialize (Hl c Hc').
    rewrite (letter_not_list c Hl) in Hv2. discriminate Hv2.
Qed.
(** the gate name a regular expression starts with *)
Fixpoint letters (s : list ascii) : list ascii :=
  match s with c :: s' => if is_letter c then c :: letters s' else [] | [] => [] end.
Definition key (r : list item) : list ascii := match r with Lit l :: _ => letters (chars l) | _ => [] end.
Lemma letters_prefix s : exists z, s = letters s ++ z.
Proof.
  induction s as [|c s [z E]]; [now exists []|]. cbn [letters]. destruct (is_letter c); [|now exists (c :: s)].
  exists z. cbn [app]. now rewrite <- E.
Qed.
Lemma letters_ok s : forallb is_letter (letters s) = true.
Proof. induction s as [|c s IH]; [reflexivity|]. cbn [letters]. destruct (is_letter c) eqn:E; [|reflexivity]. cbn [forallb]. now rewrite E. Qed.
Lemma find_occurs r s m : find r s = Some m -> occurs (key r) s.
Proof.
  intros H. apply find_inv in H. destruct H as (a & s' & -> & H). destruct r as [|[l| |] r]; cbn [key]; try (exists a, s'; reflexivity).
  apply lit_inv in H. destruct H as (s'' & -> & _). destruct (letters_prefix (chars l)) as [z E].
  exists a, (z ++ s''). rewrite E at 1. now rewrite app_assoc_reverse.
Qed.
Lemma key_letters r : forallb is_letter (key r) = true.
Proof. destruct r as [|[l| |] r]; try reflexivity. apply letters_ok. Qed.
Definition absent (r : list item) (ls : list (list ascii)) : bool :=
  match key r with [] => false | _ => forallb (fun t => negb (occursb (key r) t)) ls end.
Lemma absent_find r l segs : Forall (fun vl => var_ok (fst vl)) segs -> absent r (lits l segs) = true -> find r (flatten l segs) = None.
Proof.
  intros Hs Ha. destruct (find r (flatten l segs)) as [m|] eqn:E; [|reflexivity]. exfalso. apply find_occurs in E.
  unfold absent in Ha. assert (Hk : key r <> []) by (intros Z; now rewrite Z in Ha).
  destruct (occurs_flatten (key r) segs l Hk (key_letters r) Hs E) as (t & Ht & Ot).
  destruct (key r) as [|c k] eqn:K; [now apply Hk|]. rewrite forallb_forall in Ha. specialize (Ha t Ht).
  now rewrite (occurs_b _ _ Ot) in Ha.
Qed.

(** ** One handler matches *)
Lemma unique_handler order (h : handler) id m : In h order -> find (fst h) (chars id) = Some m ->
  (forall h', In h' order -> h' = h \/ find (fst h') (chars id) = None) -> GateInstanceFromId order id = snd h m.
Proof.
  intros Hin Hf Hu. induction order as [|[r f] order IH]; [destruct Hin|]. cbn [GateInstanceFromId].
  destruct (Hu (r, f) (or_introl eq_refl)) as [E|E].
  - rewrite <- E in Hf. cbn [fst] in Hf. rewrite Hf. rewrite <- E. reflexivity.
  - cbn [fst] in E. rewrite E. apply IH; [|intros h' Hh'; apply Hu; now right].
    destruct Hin as [<-|Hin]; [|exact Hin]. cbn [fst] in Hf. rewrite Hf in E. discriminate E.
Qed.
Lemma some_handler order id g : GateInstanceFromId order id = Ret g -> exists h m, In h order /\ find (fst h) (chars id) = Some m /\ snd h m = Ret g.
Proof.
  induction order as [|[r f] order IH]; cbn [GateInstanceFromId]; [discriminate|].
  destruct (find r (chars id)) as [m|] eqn:E; intros H.
  - exists (r, f), m. split; [now left|]. split; [exact E|exact H].
  - destruct (IH H) as (h & m & Hin & Hf & Hr). exists h, m. split; [now right|]. split; [exact Hf|exact Hr].
Qed.
Lemma no_handler order id : (forall h, In h order -> find (fst h) (chars id) = None) -> GateInstanceFromId order id = Panic ("Unknown gate ID " ++ id).
Proof.
  induction order as [|[r f] order IH]; intros H; [reflexivity|]. cbn [GateInstanceFromId].
  pose proof (H (r, f) (or_introl eq_refl)) as E. cbn [fst] in E. rewrite E. apply IH. intros h Hh. apply H. now right.
Qed.

(** ** Numbers and lists *)
Lemma digits_list ds : forallb is_digit ds = true -> forallb is_list_char ds = true.
Proof. rewrite !forallb_forall. intros H c Hc. unfold is_list_char. now rewrite (H c Hc). Qed.
Lemma Atoi_ok ds : ds <> [] -> forallb is_digit ds = true -> dec ds < 2 ^ 63 -> Atoi ds = Some (dec ds).
Proof. intros H1 H2 H3. unfold Atoi. destruct ds; [now exfalso|]. rewrite H2. now rewrite (proj2 (Z.ltb_lt _ _) H3). Qed.
Lemma ParseUint_ok ds : ds <> [] -> forallb is_digit ds = true -> dec ds < 2 ^ 64 -> ParseUint ds = Some (dec ds).
Proof. intros H1 H2 H3. unfold ParseUint. destruct ds; [now exfalso|]. rewrite H2. now rewrite (proj2 (Z.ltb_lt _ _) H3). Qed.
Lemma Atoi_inv ds z : Atoi ds = Some z -> ds <> [] /\ forallb is_digit ds = true /\ z = dec ds /\ dec ds < 2 ^ 63.
Proof.
  unfold Atoi. destruct ds as [|c ds]; [discriminate|]. destruct (forallb is_digit (c :: ds)) eqn:E; [|discriminate].
  destruct (Z.ltb_spec (dec (c :: ds)) (2 ^ 63)) as [L|L]; [|discriminate]. intros H. injection H as <-.
  split; [discriminate|]. split; [reflexivity|]. split; [reflexivity|exact L].
Qed.
Lemma ParseUint_inv ds z : ParseUint ds = Some z -> ds <> [] /\ forallb is_digit ds = true /\ z = dec ds /\ dec ds < 2 ^ 64.
Proof.
  unfold ParseUint. destruct ds as [|c ds]; [discriminate|]. destruct (forallb is_digit (c :: ds)) eqn:E; [|discriminate].
  destruct (Z.ltb_spec (dec (c :: ds)) (2 ^ 64)) as [L|L]; [|discriminate]. intros H. injection H as <-.
  split; [discriminate|]. split; [reflexivity|]. split; [reflexivity|exact L].
Qed.
Lemma of_opt_ret {A} msg (o : option A) a : of_opt msg o = Ret a -> o = Some a.
Proof. unfold of_opt. destruct o; [intros H; now injection H as <-|discriminate]. Qed.
Lemma bind_ret {A B} (m : circ A) (f : A -> circ B) b : bind m f = Ret b -> exists a, m = Ret a /\ f a = Ret b.
Proof. destruct m; cbn [bind]; try discriminate. intros H. now exists a. Qed.
Lemma number_ret parse msg s n : number parse msg s = Ret n -> exists z, parse s = Some z /\ n = Z.to_nat z.
Proof. unfold number. intros H. apply bind_ret in H. destruct H as (z & H1 & H2). apply of_opt_ret in H1. injection H2 as <-. now exists z. Qed.

Definition comma : ascii := ",".
Definition blanks (s : list ascii) : Prop := Forall (fun c => c = " "%char) s.
Lemma split_nocomma w : ~ In comma w -> split_comma w = [w].
Proof.
  induction w as [|c w IH]; intros H; [reflexivity|]. cbn [split_comma]. destruct (Ascii.eqb_spec c ",") as [->|].
  - exfalso. apply H. now left.
  - rewrite IH; [reflexivity|]. intros X. apply H. now right.
Qed.
Lemma split_cons w t : ~ In comma w -> split_comma (w ++ comma :: t) = w :: split_comma t.
Proof.
  induction w as [|c w IH]; intros H; [reflexivity|]. cbn [app split_comma]. destruct (Ascii.eqb_spec c ",") as [->|].
  - exfalso. apply H. now left.
  - rewrite IH; [reflexivity|]. intros X. apply H. now right.
Qed.
Lemma split_cases s : (~ In comma s /\ split_comma s = [s]) \/
  exists w t, s = w ++ comma :: t /\ ~ In comma w /\ split_comma s = w :: split_comma t.
Proof.
  assert (H : ~ In comma s \/ exists w t, s = w ++ comma :: t /\ ~ In comma w).
  { induction s as [|c s IH]; [left; intros []|]. destruct (ascii_dec c comma) as [->|N].
    - right. exists [], s. split; [reflexivity|intros []].
    - destruct IH as [H|(w & t & -> & H)].
      + left. intros [->|X]; [now apply N|now apply H].
      + right. exists (c :: w), t. split; [reflexivity|]. intros [->|X]; [now apply N|now apply H]. }
  destruct H as [H|(w & t & -> & H)]; [left; split; [exact H|now apply split_nocomma]|].
  right. exists w, t. split; [reflexivity|]. split; [exact H|now apply split_cons].
Qed.
Lemma trim_left_blanks a s : blanks a -> trim_left (a ++ s) = trim_left s.
Proof. induction 1 as [|c a -> Ha IH]; [reflexivity|]. cbn [app trim_left]. exact IH. Qed.
Lemma trim_left_id s : match s with c :: _ => c <> " "%char | [] => True end -> trim_left s = s.
Proof. destruct s as [|c s]; [reflexivity|]. intros H. cbn [trim_left]. destruct (Ascii.eqb_spec c " "); [now exfalso|reflexivity]. Qed.
Lemma trim_left_inv s : exists a, blanks a /\ s = a ++ trim_left s.
Proof.
  induction s as [|c s (a & Ha & E)]; [exists []; split; [constructor|reflexivity]|]. cbn [trim_left]. destruct (Ascii.eqb_spec c " ") as [->|].
  - exists (" "%char :: a). split; [now constructor|]. cbn [app]. now rewrite <- E.
  - exists []. split; [constructor|reflexivity].
Qed.
Lemma blanks_rev s : blanks s -> blanks (rev s).
Proof. unfold blanks. apply Forall_rev. Qed.
Lemma digit_not_blank c : is_digit c = true -> c <> " "%char.
Proof. intros H ->. discriminate H. Qed.
Lemma digit_not_comma c : is_digit c = true -> c <> comma.
Proof. intros H ->. discriminate H. Qed.
Lemma nonblank_head s : forallb is_digit s = true -> match s with c :: _ => c <> " "%char | [] => True end.
Proof. destruct s as [|c s]; [trivial|]. cbn [forallb]. intros H. apply andb_prop in H. now apply digit_not_blank. Qed.
Lemma forallb_rev {A} (f : A -> bool) s : forallb f s = true -> forallb f (rev s) = true.
Proof. rewrite !forallb_forall. intros H c Hc. apply H. now apply in_rev. Qed.
Lemma Trim_ok a ds b : blanks a -> ds <> [] -> forallb is_digit ds = true -> blanks b -> TrimSpace (a ++ ds ++ b) = ds.
Proof.
  intros Ha Hn Hd Hb. unfold TrimSpace. rewrite trim_left_blanks by exact Ha.
  rewrite (trim_left_id (ds ++ b)).
  2: { destruct ds as [|c ds]; [now exfalso|]. cbn [app]. apply (nonblank_head _ Hd). }
  rewrite rev_app_distr, trim_left_blanks by now apply blanks_rev.
  rewrite trim_left_id by (apply nonblank_head; now apply forallb_rev). apply rev_involutive.
Qed.
Lemma Trim_inv s : exists a b, blanks a /\ blanks b /\ s = a ++ TrimSpace s ++ b.
Proof.
  unfold TrimSpace. destruct (trim_left_inv s) as (a & Ha & E). destruct (trim_left_inv (rev (trim_left s))) as (b & Hb & E').
  exists a, (rev b). split; [exact Ha|]. split; [now apply blanks_rev|]. rewrite E at 1. f_equal.
  rewrite <- rev_app_distr, <- E'. now rewrite rev_involutive.
Qed.
Lemma blanks_list s : blanks s -> forallb is_list_char s = true.
Proof. induction 1 as [|c s -> H IH]; [reflexivity|exact IH]. Qed.
Lemma blanks_nocomma s : blanks s -> ~ In comma s.
Proof. intros H X. unfold blanks in H. rewrite Forall_forall in H. specialize (H _ X). discriminate H. Qed.
