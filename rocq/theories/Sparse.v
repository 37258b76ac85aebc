(** * Partial rounds with sparse matrices are the textbook partial rounds.

    Generic in a commutative ring R, the width n+1, and the S-box relation.  The
    conditions on the constants are checked by computation over Z modulo m. *)
From Coq Require Import ZArith Lia List Bool Ring.
From Verif Require Import LinAlg.
Import ListNotations.

Section Vec.
  Context {R : Type} (rO rI : R) (radd rmul rsub : R -> R -> R) (ropp : R -> R).

  Fixpoint dot (a x : list R) : R :=
    match a, x with u :: a', y :: x' => radd (rmul u y) (dot a' x') | _, _ => rO end.
  Definition mv (M : list (list R)) (x : list R) : list R := map (fun row => dot row x) M.
  Definition va : list R -> list R -> list R := map2 radd.
  Definition vs : list R -> list R -> list R := map2 rsub.
  Definition sc (c : R) : list R -> list R := map (rmul c).
  (** row vector times matrix with n columns *)
  Fixpoint vm (n : nat) (a : list R) (M : list (list R)) : list R :=
    match a, M with u :: a', row :: M' => va (sc u row) (vm n a' M') | _, _ => repeat rO n end.
  Definition mm (n : nat) (A B : list (list R)) : list (list R) := map (fun a => vm n a B) A.

  Context (Rth : ring_theory rO rI radd rmul rsub ropp eq).
  Add Ring Rring5 : Rth.

  Lemma len_mv M x : length (mv M x) = length M. Proof. apply map_length. Qed.
  Lemma len_sc c x : length (sc c x) = length x. Proof. apply map_length. Qed.
  Lemma len_va x y : length x = length y -> length (va x y) = length x. Proof. apply length_map2. Qed.
  Lemma len_vs x y : length x = length y -> length (vs x y) = length x. Proof. apply length_map2. Qed.

  Lemma dot_va a : forall x y, length x = length y -> dot a (va x y) = radd (dot a x) (dot a y).
  Proof.
    induction a as [|u a IH]; intros [|x xs] [|y ys] H; try discriminate; cbn; try ring.
    injection H as H. fold (va xs ys). rewrite IH by auto. ring.
  Qed.
  Lemma dot_vs a : forall x y, length x = length y -> dot a (vs x y) = rsub (dot a x) (dot a y).
  Proof.
    induction a as [|u a IH]; intros [|x xs] [|y ys] H; try discriminate; cbn; try ring.
    injection H as H. fold (vs xs ys). rewrite IH by auto. ring.
  Qed.
  Lemma dot_sc a c : forall x, dot a (sc c x) = rmul c (dot a x).
  Proof.
    induction a as [|u a IH]; intros [|x xs]; cbn; try ring. fold (sc c xs). rewrite IH. ring.
  Qed.
  Lemma mv_va M x y : length x = length y -> mv M (va x y) = va (mv M x) (mv M y).
  Proof.
    intros H. unfold mv. induction M as [|a M IH]; [reflexivity|]. cbn [map].
    rewrite IH, (dot_va a x y H). reflexivity.
  Qed.
  Lemma mv_vs M x y : length x = length y -> mv M (vs x y) = vs (mv M x) (mv M y).
  Proof.
    intros H. unfold mv. induction M as [|a M IH]; [reflexivity|]. cbn [map].
    rewrite IH, (dot_vs a x y H). reflexivity.
  Qed.
  Lemma mv_sc M c x : mv M (sc c x) = sc c (mv M x).
  Proof.
    unfold mv. induction M as [|a M IH]; [reflexivity|]. cbn [map].
    rewrite IH, (dot_sc a c x). reflexivity.
  Qed.

  Lemma dot_0 n x : dot (repeat rO n) x = rO.
  Proof. revert x. induction n as [|n IH]; intros [|y x]; cbn; auto. rewrite IH. ring. Qed.
  Lemma va_dot a : forall b x, length a = length b -> dot (va a b) x = radd (dot a x) (dot b x).
  Proof.
    induction a as [|u a IH]; intros [|v b] x H; try discriminate; [cbn; ring|].
    injection H as H. destruct x as [|y x]; cbn; [ring|]. fold (va a b). rewrite IH by auto. ring.
  Qed.
  Lemma sc_dot c a : forall x, dot (sc c a) x = rmul c (dot a x).
  Proof.
    induction a as [|u a IH]; intros x; [cbn; ring|]. destruct x as [|y x]; cbn; [ring|].
    fold (sc c a). rewrite IH. ring.
  Qed.
  Lemma len_vm n M : (forall b, In b M -> length b = n) -> forall a, length (vm n a M) = n.
  Proof.
    induction M as [|b M IH]; intros H [|u a]; cbn [vm]; try apply repeat_length.
    rewrite len_va; [rewrite len_sc; apply H, in_eq|].
    rewrite len_sc, IH by (intros; apply H; now apply in_cons). apply H, in_eq.
  Qed.
  Lemma vm_dot n M : (forall b, In b M -> length b = n) ->
    forall a x, dot (vm n a M) x = dot a (mv M x).
  Proof.
    induction M as [|b M IH]; intros H [|u a] x; cbn [vm mv map dot]; try apply dot_0.
    assert (HM : forall b, In b M -> length b = n) by (intros; apply H; now apply in_cons).
    rewrite va_dot, sc_dot, IH; auto. rewrite len_sc, len_vm by auto. apply H, in_eq.
  Qed.
  Lemma mm_mv n A B x : (forall b, In b B -> length b = n) -> mv (mm n A B) x = mv A (mv B x).
  Proof.
    intros H. unfold mm. unfold mv at 1 2. rewrite map_map. apply map_ext. intros a. now apply vm_dot.
  Qed.

  Lemma iter_len M k x : length M = length x -> length (Nat.iter k (mv M) x) = length x.
  Proof. intros H. destruct k; cbn; [reflexivity|]. now rewrite len_mv. Qed.
  Lemma iter_va M k x y : length M = length x -> length x = length y ->
    Nat.iter k (mv M) (va x y) = va (Nat.iter k (mv M) x) (Nat.iter k (mv M) y).
  Proof.
    intros H1 H2. induction k as [|k IH]; [reflexivity|]. change (Nat.iter (S k) ?f ?x) with (f (Nat.iter k f x)).
    rewrite IH. apply mv_va. rewrite !iter_len; congruence.
  Qed.
  Lemma iter_succ_r {A} (f : A -> A) k x : Nat.iter (S k) f x = Nat.iter k f (f x).
  Proof.
    induction k as [|k IH]; [reflexivity|].
    change (Nat.iter (S (S k)) f x) with (f (Nat.iter (S k) f x)). rewrite IH. reflexivity.
  Qed.
  Lemma iter_sc M k c x : Nat.iter k (mv M) (sc c x) = sc c (Nat.iter k (mv M) x).
  Proof.
    induction k as [|k IH]; [reflexivity|]. change (Nat.iter (S k) ?f ?x) with (f (Nat.iter k f x)).
    rewrite IH. apply mv_sc.
  Qed.

  (** ** The rounds *)
  (** [Cend]: constants added after the last round *)
  Context (n : nat) (m00 : R) (vrow wcol Cend : list R) (Mh : list (list R)).
  Context (Sb : R -> R -> Prop).
  Definition mdsf (s : list R) : list R :=
    radd (rmul m00 (hd rO s)) (dot vrow (tl s)) :: va (sc (hd rO s) wcol) (mv Mh (tl s)).
  Record rdata := { rC : list R; rF : R; rW : list R; rV : list R }.
  Definition nround (d : rdata) (s t : list R) : Prop :=
    exists y, Sb (hd rO (va s (rC d))) y /\ t = mdsf (y :: tl (va s (rC d))).
  Definition fmds (d : rdata) (s : list R) : list R :=
    radd (rmul m00 (hd rO s)) (dot (rW d) (tl s)) :: va (sc (hd rO s) (rV d)) (tl s).
  Definition fround (d : rdata) (s t : list R) : Prop :=
    exists y, Sb (hd rO s) y /\ t = fmds d (radd y (rF d) :: tl s).
  Fixpoint chn (F : rdata -> list R -> list R -> Prop) (l : list rdata) (s t : list R) : Prop :=
    match l with [] => t = s | d :: l' => exists u, F d s u /\ chn F l' u t end.

  Definition hdC (l : list rdata) : list R := match l with [] => Cend | d :: _ => rC d end.
  Definition hdW (l : list rdata) : list R := match l with [] => vrow | d :: _ => rW d end.
  Definition nextV (l : list rdata) : list R := match l with [] => wcol | d :: _ => mv Mh (rV d) end.
  Fixpoint good (l : list rdata) (b : list R) : Prop :=
    match l with
    | [] => b = repeat rO n /\ length Cend = S n
    | d :: l' =>
        length (rC d) = S n /\
        vm n (rW d) Mh = hdW l' /\ rV d = nextV l' /\
        radd (dot vrow b) (hd rO (hdC l')) = rmul m00 (rF d) /\
        good l' (vs (va (mv Mh b) (tl (hdC l'))) (sc (rF d) wcol))
    end.

  Context (Lv : length vrow = n) (Lw : length wcol = n) (LM : length Mh = n)
          (LR : forall a, In a Mh -> length a = n).

  Lemma good_V l : forall b, good l b -> nextV l = Nat.iter (length l) (mv Mh) wcol.
  Proof.
    induction l as [|d l IH]; intros b G; [reflexivity|].
    destruct G as (_ & _ & EV & _ & G). apply IH in G. cbn [nextV length]. rewrite EV, G. reflexivity.
  Qed.
  Lemma good_W l : forall b, good l b -> forall x, dot (hdW l) (Nat.iter (length l) (mv Mh) x) = dot vrow x.
  Proof.
    induction l as [|d l IH]; intros b G x; [reflexivity|].
    destruct G as (_ & EW & _ & _ & G). cbn [hdW length]. change (Nat.iter (S (length l)) (mv Mh) x) with (mv Mh (Nat.iter (length l) (mv Mh) x)).
    rewrite <- (vm_dot n Mh LR), EW. now apply (IH _ G).
  Qed.

  Lemma vec_identity y f : forall (w U b C : list R),
    length w = length U -> length U = length b -> length b = length C ->
    va (sc (radd y f) w) (vs U b) = vs (va (va (sc y w) U) C) (vs (va b C) (sc f w)).
  Proof.
    induction w as [|w0 w IH]; intros [|u U] [|b0 b] [|c C] H1 H2 H3; try discriminate; [reflexivity|].
    injection H1 as H1. injection H2 as H2. injection H3 as H3.
    cbn [sc map va vs map2]. f_equal; [ring|]. now apply IH.
  Qed.
  Lemma vs_0 x : vs x (repeat rO (length x)) = x.
  Proof. induction x as [|a x IH]; cbn; [reflexivity|]. f_equal; [ring|exact IH]. Qed.
  Lemma va_0 x : va x (repeat rO (length x)) = x.
  Proof. induction x as [|a x IH]; cbn; [reflexivity|]. f_equal; [ring|exact IH]. Qed.

  Lemma len_hdC l b : good l b -> length (hdC l) = S n.
  Proof. destruct l; intros G; apply G. Qed.
  Lemma len_mdsf s : length (mdsf s) = S n.
  Proof.
    unfold mdsf. cbn [length]. f_equal. rewrite len_va; rewrite ?len_sc, ?len_mv; congruence.
  Qed.

  (** naive state with constants added: u; fast state: v *)
  Definition rel (k : nat) (b u v : list R) : Prop :=
    v = hd rO u :: Nat.iter k (mv Mh) (vs (tl u) b).

  Lemma tl_va x y : tl (va x y) = va (tl x) (tl y).
  Proof. destruct x, y; cbn; auto. destruct x; reflexivity. Qed.

  Lemma step_rel d l b u v y : length b = n -> length u = S n -> good (d :: l) b ->
    rel (S (length l)) b u v ->
    hd rO u = hd rO v /\
    rel (length l) (vs (va (mv Mh b) (tl (hdC l))) (sc (rF d) wcol))
      (va (mdsf (y :: tl u)) (hdC l)) (fmds d (radd y (rF d) :: tl v)).
  Proof.
    intros Lb Lu (LC & EW & EV & EC & G) Hr. rewrite Hr. split; [reflexivity|].
    pose proof (len_hdC l _ G) as LC'.
    destruct (hdC l) as [|c0 ct] eqn:EhC; [discriminate|]. injection LC' as Lct.
    destruct u as [|u0 ut]; [discriminate|]. injection Lu as Lut.
    unfold rel, fmds, mdsf. cbn [hd tl].
    change (va (?x :: ?xs) (c0 :: ct)) with (radd x c0 :: va xs ct). cbn [hd tl].
    f_equal.
    - change (Nat.iter (S (length l)) (mv Mh) (vs ut b)) with (mv Mh (Nat.iter (length l) (mv Mh) (vs ut b))).
      rewrite <- (vm_dot n Mh LR), EW, (good_W l _ G), dot_vs by congruence.
      assert (E : rmul m00 (rF d) = radd (dot vrow b) c0) by (rewrite <- EC; reflexivity).
      replace (rmul m00 (radd y (rF d))) with (radd (rmul m00 y) (rmul m00 (rF d))) by ring.
      rewrite E. ring.
    - rewrite EV, (good_V l _ G), <- iter_sc.
      rewrite iter_succ_r, mv_vs by congruence.
      rewrite <- iter_va; rewrite ?len_sc; rewrite ?len_vs; rewrite ?len_mv; try congruence.
      f_equal. apply vec_identity; rewrite ?len_mv; congruence.
  Qed.

  Theorem sparse_equiv l : forall b s v t, length b = n -> length s = S n -> good l b ->
    rel (length l) b (va s (hdC l)) v ->
    ((exists t0, chn nround l s t0 /\ t = va t0 Cend) <-> chn fround l v t).
  Proof.
    induction l as [|d l IH]; intros b s v t Lb Ls G Hr.
    - cbn [chn]. destruct G as [G LE]. subst b. unfold rel in Hr. cbn [hdC length] in Hr.
      change (Nat.iter 0 (mv Mh) ?x) with x in Hr.
      assert (E : length (va s Cend) = S n) by (rewrite len_va; congruence).
      assert (Ev : v = va s Cend).
      { rewrite Hr. destruct (va s Cend) as [|s0 st]; [discriminate|]. injection E as E.
        cbn [hd tl]. now rewrite <- E, vs_0. }
      rewrite Ev. split; [intros (t0 & -> & ->); reflexivity|intros ->; eauto].
    - assert (LC : length (rC d) = S n) by apply G.
      assert (Lu : length (va s (rC d)) = S n) by (rewrite len_va; congruence).
      cbn [hdC] in Hr. cbn [chn length] in *.
      assert (Gl : good l (vs (va (mv Mh b) (tl (hdC l))) (sc (rF d) wcol))) by apply G.
      pose proof (len_hdC l _ Gl) as LC'.
      assert (Lb' : length (vs (va (mv Mh b) (tl (hdC l))) (sc (rF d) wcol)) = n).
      { destruct (hdC l) as [|c0 ct]; [discriminate|]. injection LC' as LC'. cbn [tl].
        rewrite len_vs; rewrite ?len_va; rewrite ?len_mv, ?len_sc; congruence. }
      split.
      + intros (t0 & (u & (y & Hy & ->) & C) & ->).
        destruct (step_rel d l b _ v y Lb Lu G Hr) as [Hh Hs].
        exists (fmds d (radd y (rF d) :: tl v)). split; [exists y; split; auto; now rewrite <- Hh|].
        eapply IH; [exact Lb'| |exact Gl|exact Hs|exists t0; split; [exact C|reflexivity]]. apply len_mdsf.
      + intros (u & (y & Hy & ->) & C).
        destruct (step_rel d l b _ v y Lb Lu G Hr) as [Hh Hs].
        eapply IH in C; [|exact Lb'| |exact Gl|exact Hs]; [|apply len_mdsf].
        destruct C as (t0 & C & ->). exists t0. split; [|reflexivity].
        exists (mdsf (y :: tl (va s (rC d)))). split; [exists y; split; auto; now rewrite Hh|exact C].
  Qed.

  (** for a functional S-box: both forms apply it to the same values *)
  Definition nstep (f : R -> R) (d : rdata) (s : list R) : list R := mdsf (f (hd rO (va s (rC d))) :: tl (va s (rC d))).
  Definition fstep (f : R -> R) (d : rdata) (v : list R) : list R := fmds d (radd (f (hd rO v)) (rF d) :: tl v).
  Fixpoint ntr (f : R -> R) (l : list rdata) (s : list R) : list R :=
    match l with [] => [] | d :: l' => hd rO (va s (rC d)) :: ntr f l' (nstep f d s) end.
  Fixpoint ftr (f : R -> R) (l : list rdata) (v : list R) : list R :=
    match l with [] => [] | d :: l' => hd rO v :: ftr f l' (fstep f d v) end.
  Lemma trace_equiv f l : forall b s v, length b = n -> length s = S n -> good l b ->
    rel (length l) b (va s (hdC l)) v ->
    ntr f l s = ftr f l v /\ va (fold_left (fun s d => nstep f d s) l s) Cend = fold_left (fun v d => fstep f d v) l v.
  Proof.
    induction l as [|d l IH]; intros b s v Lb Ls G Hr.
    - cbn [ntr ftr fold_left]. split; [reflexivity|]. destruct G as [G LE]. subst b. unfold rel in Hr. cbn [hdC length] in Hr.
      change (Nat.iter 0 (mv Mh) ?x) with x in Hr.
      assert (E : length (va s Cend) = S n) by (rewrite len_va; congruence).
      rewrite Hr. destruct (va s Cend) as [|s0 st]; [discriminate|]. injection E as E. cbn [hd tl]. now rewrite <- E, vs_0.
    - assert (LC : length (rC d) = S n) by apply G.
      assert (Lu : length (va s (rC d)) = S n) by (rewrite len_va; congruence).
      cbn [hdC length] in Hr. cbn [ntr ftr fold_left].
      assert (Gl : good l (vs (va (mv Mh b) (tl (hdC l))) (sc (rF d) wcol))) by apply G.
      pose proof (len_hdC l _ Gl) as LC'.
      assert (Lb' : length (vs (va (mv Mh b) (tl (hdC l))) (sc (rF d) wcol)) = n).
      { destruct (hdC l) as [|c0 ct]; [discriminate|]. injection LC' as LC'. cbn [tl].
        rewrite len_vs; rewrite ?len_va; rewrite ?len_mv, ?len_sc; congruence. }
      destruct (step_rel d l b _ v (f (hd rO (va s (rC d)))) Lb Lu G Hr) as [Hh Hs].
      rewrite Hh in Hs at 2.
      destruct (IH _ (nstep f d s) (fstep f d v) Lb' (len_mdsf _) Gl Hs) as [E1 E2].
      split; [|exact E2]. now rewrite Hh, E1.
  Qed.
End Vec.
Arguments rdata : clear implicits.

(** ** Checking the conditions over Z modulo m *)
Section Check.
  Open Scope Z_scope.
  Context (m : Z) (m_pos : 0 < m).
  Notation zdot := (dot 0 Z.add Z.mul).
  Notation zmv := (mv 0 Z.add Z.mul).
  Notation zvm := (vm 0 Z.add Z.mul).
  Definition zm (l : list Z) : list Z := map (fun x => x mod m) l.
  Fixpoint zeqb (a b : list Z) : bool :=
    match a, b with
    | [], [] => true
    | x :: a', y :: b' => ((x - y) mod m =? 0) && zeqb a' b'
    | _, _ => false
    end.
  Fixpoint zmeqb (a b : list (list Z)) : bool :=
    match a, b with
    | [], [] => true
    | x :: a', y :: b' => zeqb x y && zmeqb a' b'
    | _, _ => false
    end.

  Context (n : nat) (m00 : Z) (vrow wcol Cend : list Z) (Mh : list (list Z)).
  Definition leq {A} (l : list A) (k : nat) : bool := Nat.eqb (length l) k.
  Fixpoint goodb (l : list (rdata Z)) (b : list Z) : bool :=
    match l with
    | [] => zeqb b (repeat 0 n) && leq Cend (S n)
    | d :: l' =>
        leq (rC d) (S n) &&
        zeqb (zvm n (rW d) Mh) (hdW vrow l') &&
        zeqb (rV d) (nextV 0 Z.add Z.mul wcol Mh l') &&
        ((zdot vrow b + hd 0 (hdC Cend l') - m00 * rF d) mod m =? 0) &&
        goodb l' (zm (vs Z.sub (va Z.add (zmv Mh b) (tl (hdC Cend l'))) (sc Z.mul (rF d) wcol)))
    end.
  Fixpoint zpow (k : nat) : list (list Z) :=
    match k with
    | O => map (fun i => map (fun j => if Nat.eqb i j then 1 else 0) (seq 0 n)) (seq 0 n)
    | S k' => map zm (mm 0 Z.add Z.mul n Mh (zpow k'))
    end.

  Context {R : Type} (rO rI : R) (radd rmul rsub : R -> R -> R) (ropp : R -> R).
  Context (Rth : ring_theory rO rI radd rmul rsub ropp eq).
  Add Ring Rring6 : Rth.
  Context (psi : Z -> R) (psi0 : psi 0 = rO) (psi1 : psi 1 = rI)
          (psi_add : forall a b, psi (a + b) = radd (psi a) (psi b))
          (psi_mul : forall a b, psi (a * b) = rmul (psi a) (psi b))
          (psi_m : psi m = rO).

  Lemma psi_sub a b : psi (a - b) = rsub (psi a) (psi b).
  Proof.
    assert (E : psi a = radd (psi (a - b)) (psi b)) by (rewrite <- psi_add; f_equal; lia).
    rewrite E. ring.
  Qed.
  Lemma psi_mod a : psi (a mod m) = psi a.
  Proof.
    rewrite (Z.div_mod a m) at 2 by lia. rewrite psi_add, psi_mul, psi_m. ring.
  Qed.
  Lemma psi_eq a b : ((a - b) mod m =? 0) = true -> psi a = psi b.
  Proof.
    rewrite Z.eqb_eq. intros H. assert (E : psi (a - b) = rO) by (rewrite <- psi_mod, H; exact psi0).
    rewrite psi_sub in E. replace (psi a) with (radd (rsub (psi a) (psi b)) (psi b)) by ring.
    rewrite E. ring.
  Qed.
  Definition psv (l : list Z) : list R := map psi l.
  Lemma psv_zm l : psv (zm l) = psv l.
  Proof. unfold psv, zm. rewrite map_map. apply map_ext. apply psi_mod. Qed.
  Lemma zeqb_eq a : forall b, zeqb a b = true -> psv a = psv b.
  Proof.
    induction a as [|x a IH]; intros [|y b] H; try discriminate; [reflexivity|].
    cbn [zeqb] in H. apply andb_prop in H. destruct H as [H1 H2].
    cbn [psv map]. f_equal; [now apply psi_eq|now apply IH].
  Qed.
  Lemma zmeqb_eq a : forall b, zmeqb a b = true -> map psv a = map psv b.
  Proof.
    induction a as [|x a IH]; intros [|y b] H; try discriminate; [reflexivity|].
    cbn [zmeqb] in H. apply andb_prop in H. destruct H as [H1 H2].
    cbn [map]. f_equal; [now apply zeqb_eq|now apply IH].
  Qed.
  Lemma psi_dot a : forall x, psi (zdot a x) = dot rO radd rmul (psv a) (psv x).
  Proof.
    induction a as [|u a IH]; intros [|y x]; cbn [dot psv map]; auto.
    rewrite psi_add, psi_mul, IH. reflexivity.
  Qed.
  Lemma psv_mv M x : psv (zmv M x) = mv rO radd rmul (map psv M) (psv x).
  Proof. unfold mv, psv. rewrite !map_map. apply map_ext. intros a. apply psi_dot. Qed.
  Lemma psv_va a : forall b, psv (va Z.add a b) = va radd (psv a) (psv b).
  Proof.
    induction a as [|x a IH]; intros [|y b]; auto. unfold va in *. cbn [map2 psv map]. rewrite psi_add.
    f_equal. apply IH.
  Qed.
  Lemma psv_vs a : forall b, psv (vs Z.sub a b) = vs rsub (psv a) (psv b).
  Proof.
    induction a as [|x a IH]; intros [|y b]; auto. unfold vs in *. cbn [map2 psv map]. rewrite psi_sub.
    f_equal. apply IH.
  Qed.
  Lemma psv_sc c a : psv (sc Z.mul c a) = sc rmul (psi c) (psv a).
  Proof. unfold psv, sc. rewrite !map_map. apply map_ext. intros x. apply psi_mul. Qed.
  Lemma psv_0 k : psv (repeat 0 k) = repeat rO k.
  Proof. induction k; cbn; [reflexivity|]. rewrite psi0. f_equal. exact IHk. Qed.
  Lemma psv_vm k a : forall M, psv (zvm k a M) = vm rO radd rmul k (psv a) (map psv M).
  Proof.
    induction a as [|u a IH]; intros [|row M]; cbn [vm psv map]; try apply psv_0.
    rewrite psv_va, psv_sc, IH. reflexivity.
  Qed.
  Definition psd (d : rdata Z) : rdata R :=
    {| rC := psv (rC d); rF := psi (rF d); rW := psv (rW d); rV := psv (rV d) |}.

  Lemma psv_hdC l : psv (hdC Cend l) = hdC (psv Cend) (map psd l).
  Proof. destruct l; reflexivity. Qed.
  Lemma psv_tl l : psv (tl l) = tl (psv l). Proof. now destruct l. Qed.
  Lemma psi_hd l : psi (hd 0 l) = hd rO (psv l). Proof. destruct l; [exact psi0|reflexivity]. Qed.

  Lemma goodb_good l : forall b, goodb l b = true ->
    good rO radd rmul rsub n (psi m00) (psv vrow) (psv wcol) (psv Cend) (map psv Mh) (map psd l) (psv b).
  Proof.
    induction l as [|d l IH]; intros b H; cbn [goodb] in H; cbn [good map].
    - apply andb_prop in H. destruct H as [H HL]. apply zeqb_eq in H. rewrite psv_0 in H.
      split; [exact H|]. unfold psv. rewrite map_length. now apply Nat.eqb_eq in HL.
    - rewrite !andb_true_iff in H. destruct H as ((((H1 & H2) & H3) & H4) & H5).
      unfold leq in H1. apply Nat.eqb_eq in H1.
      apply zeqb_eq in H2. apply zeqb_eq in H3. apply psi_eq in H4. apply IH in H5.
      rewrite psv_zm, psv_vs, psv_va, psv_mv, psv_sc, psv_tl, psv_hdC in H5.
      rewrite psi_add, psi_mul, psi_dot, psi_hd, psv_hdC in H4.
      rewrite psv_vm in H2.
      split; [cbn [psd rC]; unfold psv; now rewrite map_length|].
      split; [cbn [psd rW]; rewrite H2; destruct l; reflexivity|].
      split; [cbn [psd rV]; rewrite H3; destruct l; [reflexivity|apply psv_mv]|].
      split; [exact H4|exact H5].
  Qed.

  Context (LM : length Mh = n) (LR : forall a, In a Mh -> length a = n).

  Lemma zpow_rows k : forall a, In a (zpow k) -> length a = n.
  Proof.
    induction k as [|k IH]; intros a Ha; cbn [zpow] in Ha.
    - apply in_map_iff in Ha. destruct Ha as (i & <- & _). now rewrite map_length, seq_length.
    - unfold mm in Ha. rewrite map_map in Ha. apply in_map_iff in Ha. destruct Ha as (b & <- & _).
      unfold zm. rewrite map_length. apply len_vm. exact IH.
  Qed.
  Lemma dot_unit i k : forall s v, (s <= i)%nat -> (i < s + k)%nat -> length v = k ->
    dot rO radd rmul (psv (map (fun j => if Nat.eqb i j then 1 else 0) (seq s k))) v = nth (i - s) v rO.
  Proof.
    induction k as [|k IH]; intros s v H1 H2 H3; [lia|].
    destruct v as [|x v]; [discriminate|]. injection H3 as H3. cbn [seq map psv dot].
    destruct (Nat.eqb_spec i s) as [->|N].
    - rewrite psi1, Nat.sub_diag. cbn [nth].
      assert (E : forall q, (s < q)%nat -> map psi (map (fun j => if Nat.eqb s j then 1 else 0) (seq q k)) = repeat rO k).
      { clear - psi0. induction k as [|k IH]; intros q H; cbn; [reflexivity|].
        destruct (Nat.eqb_spec s q); [lia|]. rewrite psi0. f_equal. apply IH. lia. }
      rewrite E by lia. rewrite (dot_0 rO rI radd rmul rsub ropp Rth). ring.
    - rewrite psi0. fold (psv (map (fun j => if Nat.eqb i j then 1 else 0) (seq (S s) k))).
      rewrite IH by lia. replace (i - s)%nat with (S (i - S s)) by lia. cbn [nth]. ring.
  Qed.
  Lemma zpow_act k x : length x = n ->
    mv rO radd rmul (map psv (zpow k)) x = Nat.iter k (mv rO radd rmul (map psv Mh)) x.
  Proof.
    intros Lx. induction k as [|k IH]; cbn [zpow].
    - cbn [Nat.iter nat_rect]. unfold mv. rewrite !map_map.
      transitivity (map (fun i => nth i x rO) (seq 0 n)).
      + apply map_ext_in. intros i Hi. apply in_seq in Hi. rewrite dot_unit by lia. now rewrite Nat.sub_0_r.
      + clear - Lx. subst n. induction x as [|a x IH]; [reflexivity|]. cbn [length seq map nth]. f_equal.
        rewrite <- seq_shift, map_map. exact IH.
    - change (Nat.iter (S k) (mv rO radd rmul (map psv Mh)) x)
        with (mv rO radd rmul (map psv Mh) (Nat.iter k (mv rO radd rmul (map psv Mh)) x)).
      rewrite <- IH. rewrite map_map.
      rewrite (map_ext _ psv) by apply psv_zm. unfold mm. rewrite map_map.
      rewrite (map_ext _ (fun a => vm rO radd rmul n (psv a) (map psv (zpow k)))) by (intros; apply psv_vm).
      rewrite <- (mm_mv rO rI radd rmul rsub ropp Rth n).
      + unfold mm. now rewrite map_map.
      + intros b Hb. apply in_map_iff in Hb. destruct Hb as (a & <- & Ha). unfold psv. rewrite map_length.
        now apply (zpow_rows k).
  Qed.
End Check.
