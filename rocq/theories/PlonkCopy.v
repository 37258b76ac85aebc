(** * Equal grand products for enough beta and gamma: the copy constraints hold. *)
From Coq Require Import String.
From Coq Require Import ZArith NArith Lia List Bool Ring.
From Verif Require Import Zp GF Circuit Goldilocks GLProofs ExtProofs Poly Roots Interp FriMerkle FriEval FriQuery FriSound FriRewind FriExtract GateFilter GateDegree.
Import ListNotations.
Open Scope Z_scope.

Section Copy.
  Context {A : Type} (eqA : forall a b : A, {a = b} + {a <> b}) (C : list A).
  Lemma product_inclusion (a b : A -> K) (gs : list K) : NoDup gs -> (length C < length gs)%nat ->
    (forall g, In g gs -> kprod (map (fun c => (a c + g)%K) C) = kprod (map (fun c => (b c + g)%K) C)) ->
    forall s, In s C -> exists t, In t C /\ a s = b t.
  Proof.
    intros ND L H s Hs.
    assert (D : forall f : A -> K, dg 1 (length C) (fun g => kprod (map (fun c => (f c + g)%K) C))).
    { intros f. apply (dg_kprod 1 (fun c g => (f c + g)%K)); [|lia]. intros c _. apply dg_add; [apply dg_const|].
      exists [k0; k1]. split; [cbn; lia|]. intros x. cbn [peval]. ring. }
    destruct (dg_sub 1 _ _ _ (D a) (D b)) as (f & Lf & Ef).
    change (forall x, (kprod (map (fun c => (a c + x)%K) C) - kprod (map (fun c => (b c + x)%K) C))%K = kpeval f x) in Ef.
    assert (Z : kpeval f (- a s)%K = k0).
    { apply (kfew_roots gs f ND); [lia|]. intros g Hg. rewrite <- Ef. apply (proj2 (ksub_eq0 _ _)). now apply H. }
    rewrite <- Ef in Z. apply (proj1 (ksub_eq0 _ _)) in Z.
    assert (P : kprod (map (fun c => (a c + - a s)%K) C) = k0).
    { apply kprod_eq0. apply in_map_iff. exists s. split; [ring|exact Hs]. }
    rewrite P in Z. symmetry in Z. apply kprod_eq0 in Z. apply in_map_iff in Z. destruct Z as (t & E & Ht). exists t. split; [exact Ht|].
    symmetry. apply (proj1 (ksub_eq0 _ _)). rewrite <- E. ring.
  Qed.
  Lemma dup_or_nodup (l : list A) (dflt : A) : NoDup l \/ exists i j, (i < j < length l)%nat /\ nth i l dflt = nth j l dflt.
  Proof.
    induction l as [|x l IH]; [left; constructor|]. destruct (in_dec eqA x l) as [I|I].
    - right. apply (In_nth _ _ dflt) in I. destruct I as (j & Hj & E). exists O, (S j). cbn [length nth]. split; [lia|now symmetry].
    - destruct IH as [ND|(i & j & Hij & E)]; [left; now constructor|]. right. exists (S i), (S j). cbn [length nth]. split; [lia|exact E].
  Qed.
  Lemma pigeonhole {B} (bs : list B) (R : B -> A -> Prop) (db : B) : NoDup bs -> (length C < length bs)%nat ->
    (forall b, In b bs -> exists t, In t C /\ R b t) -> exists b b' t, b <> b' /\ In t C /\ R b t /\ R b' t.
  Proof.
    intros ND L H.
    assert (G : exists ts, Forall2 (fun b t => In t C /\ R b t) bs ts).
    { clear L ND. induction bs as [|b bs IH]; [exists []; constructor|]. destruct (H b (in_eq _ _)) as (t & Ht).
      destruct IH as (ts & F); [intros; apply H; now right|]. exists (t :: ts). now constructor. }
    destruct G as (ts & F). assert (Lt : length ts = length bs) by (clear - F; induction F; cbn; congruence).
    destruct C as [|c0 C'] eqn:EC.
    { destruct bs as [|b bs]; [cbn in L; lia|]. destruct (H b (in_eq _ _)) as (t & [] & _). }
    rewrite <- EC in *.
    assert (N : forall k, (k < length bs)%nat -> In (nth k ts c0) C /\ R (nth k bs db) (nth k ts c0)).
    { clear - F. induction F as [|b t bs ts Hb F IH]; intros k Hk; cbn [length] in Hk; [lia|]. destruct k as [|k]; cbn [nth]; [exact Hb|]. apply IH. lia. }
    destruct (dup_or_nodup ts c0) as [NT|(i & j & Hij & E)].
    - exfalso. assert (I : incl ts C). { intros t Ht. apply (In_nth _ _ c0) in Ht. destruct Ht as (k & Hk & <-). apply N. lia. }
      pose proof (NoDup_incl_length NT I). lia.
    - exists (nth i bs db), (nth j bs db), (nth i ts c0). destruct (N i ltac:(lia)) as [I1 R1]. destruct (N j ltac:(lia)) as [_ R2]. rewrite <- E in R2.
      split; [|repeat split; assumption]. intros E'. apply (proj1 (NoDup_nth bs db) ND) in E'; lia.
  Qed.
  Context (w id sigma : A -> K).
  Lemma copy_sound (bs : list K) (gs : K -> list K) : NoDup bs -> (length C < length bs)%nat ->
    (forall b, In b bs -> NoDup (gs b) /\ (length C < length (gs b))%nat) ->
    (forall b g, In b bs -> In g (gs b) -> kprod (map (fun c => (w c + b * id c + g)%K) C) = kprod (map (fun c => (w c + b * sigma c + g)%K) C)) ->
    forall s, In s C -> exists t, In t C /\ sigma t = id s /\ w t = w s.
  Proof.
    intros ND L HG H s Hs.
    destruct (pigeonhole bs (fun b t => (w s + b * id s)%K = (w t + b * sigma t)%K) k0 ND L) as (b & b' & t & Hb & Ht & E & E').
    { intros b Hb. destruct (HG b Hb) as [NG LG].
      apply (product_inclusion (fun c => (w c + b * id c)%K) (fun c => (w c + b * sigma c)%K) (gs b) NG LG); [|exact Hs]. intros g Hg. now apply H. }
    exists t. split; [exact Ht|].
    assert (Z : ((b - b') * (sigma t - id s))%K = k0).
    { assert (E2 : ((w s + b * id s) - (w s + b' * id s) = (w t + b * sigma t) - (w t + b' * sigma t))%K) by (rewrite E, E'; reflexivity).
      apply (proj2 (ksub_eq0 _ _)) in E2. symmetry in E2. transitivity (k0 - ((w s + b * id s) - (w s + b' * id s) - ((w t + b * sigma t) - (w t + b' * sigma t))))%K; [ring|].
      rewrite <- E2. ring. }
    apply kmul_eq0 in Z. destruct Z as [Z|Z]; [exfalso; apply Hb; now apply (proj1 (ksub_eq0 _ _)) in Z|].
    apply (proj1 (ksub_eq0 _ _)) in Z. split; [exact Z|]. rewrite Z in E.
    transitivity ((w t + b * id s) - b * id s)%K; [ring|]. rewrite <- E. ring.
  Qed.
  (** the labels are then permuted, so every cell equals the cell whose label it carries *)
  Lemma copy_constraints : NoDup C -> NoDup (map id C) -> (forall s, In s C -> exists t, In t C /\ sigma t = id s /\ w t = w s) ->
    forall s t, In s C -> In t C -> sigma t = id s -> w t = w s.
  Proof.
    intros NC NI H s t Hs Ht E.
    assert (G : exists ts, Forall2 (fun s t => In t C /\ sigma t = id s /\ w t = w s) C ts).
    { clear - H. revert H. assert (G : forall l, (forall s, In s l -> exists t, In t C /\ sigma t = id s /\ w t = w s) ->
        exists ts, Forall2 (fun s t => In t C /\ sigma t = id s /\ w t = w s) l ts).
      { induction l as [|c l IH]; intros H; [exists []; constructor|]. destruct (H c (in_eq _ _)) as (t & Ht).
        destruct IH as (ts & F); [intros; apply H; now right|]. exists (t :: ts). now constructor. }
      intros H. now apply G. }
    destruct G as (ts & F). assert (Lt : length ts = length C) by (clear - F; induction F; cbn; congruence).
    assert (M : map sigma ts = map id C).
    { clear - F. induction F as [|a b l ts Hab F IH]; [reflexivity|]. cbn [map]. rewrite IH. f_equal. apply Hab. }
    assert (NT : NoDup ts) by (apply (NoDup_map_inv sigma); now rewrite M).
    assert (I : incl ts C).
    { intros x Hx. clear - F Hx. revert F. generalize C at 2. intros l F. induction F as [|a b l ts Hab F IH]; [destruct Hx|].
      destruct Hx as [<-|Hx]; [apply Hab|now apply IH]. }
    assert (J : incl C ts) by (apply NoDup_length_incl; [exact NT|lia|exact I]).
    specialize (J t Ht). assert (K : exists s', In s' C /\ sigma t = id s' /\ w t = w s').
    { clear - F J. revert F. generalize C at 2 3. intros l F. induction F as [|a b l ts Hab F IH]; [destruct J|].
      destruct J as [->|J]; [exists a; split; [now left|apply Hab]|]. destruct (IH J) as (s' & Hs' & P). exists s'. split; [now right|exact P]. }
    destruct K as (s' & Hs' & E1 & E2). rewrite E2. f_equal.
    rewrite E in E1. clear - NI Hs Hs' E1. revert NI Hs Hs'. induction C as [|c C' IH]; intros NI Hs Hs'; [destruct Hs|]. cbn [map] in NI. inversion NI as [|? ? NI1 NI2]; subst.
    destruct Hs as [->|Hs], Hs' as [->|Hs']; [reflexivity| | |now apply IH].
    - exfalso. apply NI1. rewrite E1. now apply in_map.
    - exfalso. apply NI1. rewrite <- E1. now apply in_map.
  Qed.
End Copy.
