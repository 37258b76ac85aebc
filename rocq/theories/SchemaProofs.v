(** * The walk over a circuit struct: what it collects and what it assigns. *)
From Coq Require Import ZArith Lia List Bool.
From Verif Require Import Circuit Types Goldilocks GateIds Verifier Schema.
Import ListNotations.
Open Scope Z_scope.

Section Node.
  Context {D : Type}.
  Lemma node_ind' (P : node D -> Prop) : (forall x, P (Var x)) -> (forall d, P (Data d)) -> (forall l, Forall P l -> P (Slice l)) ->
    (forall l, Forall (fun f => P (snd f)) l -> P (Struct l)) -> forall n, P n.
  Proof.
    intros HV HD HS HF. fix IH 1. intros [x|d|l|l]; [apply HV|apply HD|apply HS|apply HF].
    - induction l as [|a l IHl]; constructor; [apply IH|exact IHl].
    - induction l as [|[t a] l IHl]; constructor; [apply IH|exact IHl].
  Qed.
  (** ** The variables of a struct, read off directly *)
  Fixpoint leaves (v : visibility) (n : node D) : list (visibility * Z) :=
    match n with
    | Var x => [(match v with Unset => Secret | _ => v end, x)]
    | Data _ => []
    | Slice l => flat_map (leaves v) l
    | Struct l => flat_map (fun f => match fst f with Omit => [] | NoTag => leaves v (snd f) | Vis u => leaves u (snd f) end) l
    end.
  Definition only (v : visibility) (l : list (visibility * Z)) : list Z := map snd (filter (fun e => eqv (fst e) v) l).
  Lemma only_app v l l' : only v (l ++ l') = only v l ++ only v l'.
  Proof. unfold only. now rewrite filter_app, map_app. Qed.
  Lemma collect_walk v n : forall u s, Walk (collect v) u n s = Some (n, s ++ only v (leaves u n)).
  Proof.
    induction n as [x|d|l IH|l IH] using node_ind'; intros u s; cbn [Walk leaves].
    - unfold collect, only. cbn [filter map fst snd]. destruct (eqv _ v); cbn [map]; [reflexivity|now rewrite app_nil_r].
    - unfold only. cbn. now rewrite app_nil_r.
    - assert (E : forall s, walk_list (Walk (collect v) u) l s = Some (l, s ++ only v (flat_map (leaves u) l))).
      { induction IH as [|a l Ha _ IHl]; intros s'; cbn [walk_list flat_map]; [now rewrite app_nil_r|]. rewrite Ha. cbn [walk_list] in IHl. rewrite IHl. now rewrite only_app, app_assoc. }
      now rewrite E.
    - match goal with |- context [walk_list ?g l s] => assert (E : forall s, walk_list g l s = Some (l, s ++ only v (flat_map (fun f => match fst f with Omit => [] | NoTag => leaves u (snd f) | Vis u' => leaves u' (snd f) end) l))) end.
      { induction IH as [|[t a] l Ha _ IHl]; intros s'; cbn [walk_list flat_map]; [now rewrite app_nil_r|]. cbn [fst snd] in *.
        destruct t as [| |u']; [rewrite (Ha u s')|cbn [app]|rewrite (Ha u' s')]; cbn [walk_list] in IHl; rewrite IHl; now rewrite ?only_app, ?app_assoc. }
      now rewrite E.
  Qed.
  Lemma values_leaves v n : values v n = only v (leaves Unset n).
  Proof. unfold values. now rewrite collect_walk. Qed.

  (** ** [merges c a m]: m has the walked leaves of [a], and of [c] what is not walked *)
  Inductive merges : node D -> node D -> node D -> Prop :=
  | m_var x y : merges (Var x) (Var y) (Var y)
  | m_data d e : merges (Data d) (Data e) (Data d)
  | m_slice l1 l2 l3 : mergesl l1 l2 l3 -> merges (Slice l1) (Slice l2) (Slice l3)
  | m_struct l1 l2 l3 : mergesf l1 l2 l3 -> merges (Struct l1) (Struct l2) (Struct l3)
  with mergesl : list (node D) -> list (node D) -> list (node D) -> Prop :=
  | ml_nil : mergesl [] [] []
  | ml_cons a b c l1 l2 l3 : merges a b c -> mergesl l1 l2 l3 -> mergesl (a :: l1) (b :: l2) (c :: l3)
  with mergesf : list (tag * node D) -> list (tag * node D) -> list (tag * node D) -> Prop :=
  | mf_nil : mergesf [] [] []
  | mf_omit a b l1 l2 l3 : mergesf l1 l2 l3 -> mergesf ((Omit, a) :: l1) ((Omit, b) :: l2) ((Omit, a) :: l3)
  | mf_cons t a b c l1 l2 l3 : t <> Omit -> merges a b c -> mergesf l1 l2 l3 -> mergesf ((t, a) :: l1) ((t, b) :: l2) ((t, c) :: l3).
  Scheme merges_i := Induction for merges Sort Prop with mergesl_i := Induction for mergesl Sort Prop with mergesf_i := Induction for mergesf Sort Prop.

  Lemma walk_cons {A S} (f : A -> S -> option (A * S)) a l s :
    walk_list f (a :: l) s = match f a s with Some (a', s1) => match walk_list f l s1 with Some (l', s2) => Some (a' :: l', s2) | None => None end | None => None end.
  Proof. reflexivity. Qed.
  (** the two passes of Compile *)
  Lemma assign_walk c a m : merges c a m -> forall u s s', exists n1,
    Walk (assign Public) u c (only Public (leaves u a) ++ s) = Some (n1, s) /\ Walk (assign Secret) u n1 (only Secret (leaves u a) ++ s') = Some (m, s').
  Proof.
    intros H.
    refine (merges_i (fun c a m _ => forall u s s', exists n1, Walk (assign Public) u c (only Public (leaves u a) ++ s) = Some (n1, s) /\ Walk (assign Secret) u n1 (only Secret (leaves u a) ++ s') = Some (m, s'))
      (fun c a m _ => forall u s s', exists n1, walk_list (Walk (assign Public) u) c (only Public (flat_map (leaves u) a) ++ s) = Some (n1, s) /\ walk_list (Walk (assign Secret) u) n1 (only Secret (flat_map (leaves u) a) ++ s') = Some (m, s'))
      (fun c a m _ => forall u s s', let fields v := fun (f : tag * node D) s =>
                 match f with
                 | (Omit, m) => Some ((Omit, m), s)
                 | (NoTag, m) => match Walk (assign v) u m s with Some (m', s') => Some ((NoTag, m'), s') | None => None end
                 | (Vis u, m) => match Walk (assign v) u m s with Some (m', s') => Some ((Vis u, m'), s') | None => None end
                 end in let lv := flat_map (fun f : tag * node D => match fst f with Omit => [] | NoTag => leaves u (snd f) | Vis u => leaves u (snd f) end) in
          exists n1, walk_list (fields Public) c (only Public (lv a) ++ s) = Some (n1, s) /\ walk_list (fields Secret) n1 (only Secret (lv a) ++ s') = Some (m, s')) _ _ _ _ _ _ _ _ _ c a m H); clear c a m H.
    - intros x y u s s'. destruct u; cbn; eauto.
    - intros d e u s s'. cbn. eauto.
    - intros l1 l2 l3 _ IH u s s'. destruct (IH u s s') as (n1 & E1 & E2). exists (Slice n1). cbn [Walk leaves]. now rewrite E1, E2.
    - intros l1 l2 l3 _ IH u s s'. destruct (IH u s s') as (n1 & E1 & E2). exists (Struct n1). cbn [Walk leaves]. now rewrite E1, E2.
    - intros u s s'. exists []. split; reflexivity.
    - intros a b c l1 l2 l3 _ IH _ IHl u s s'. destruct (IHl u s s') as (n2 & E3 & E4).
      destruct (IH u (only Public (flat_map (leaves u) l2) ++ s) (only Secret (flat_map (leaves u) l2) ++ s')) as (n1 & E1 & E2).
      exists (n1 :: n2). cbn [flat_map]. rewrite !walk_cons, !only_app, <- !app_assoc, E1, E2, E3, E4. auto.
    - intros u s s'. exists []. split; reflexivity.
    - intros a b l1 l2 l3 _ IHl u s s' fields lv. destruct (IHl u s s' : exists n1, walk_list (fields Public) l1 (only Public (lv l2) ++ s) = Some (n1, s) /\ walk_list (fields Secret) n1 (only Secret (lv l2) ++ s') = Some (l3, s')) as (n2 & E3 & E4). exists ((Omit, a) :: n2).
      change (lv ((Omit, b) :: l2)) with (lv l2). rewrite !walk_cons.
      assert (EF : forall v x, fields v (Omit, a) x = Some ((Omit, a), x)) by reflexivity. clearbody fields lv. rewrite !EF, E3, E4. auto.
    - intros t a b c l1 l2 l3 Ht _ IH _ IHl u s s' fields lv. destruct (IHl u s s' : exists n1, walk_list (fields Public) l1 (only Public (lv l2) ++ s) = Some (n1, s) /\ walk_list (fields Secret) n1 (only Secret (lv l2) ++ s') = Some (l3, s')) as (n2 & E3 & E4).
      set (u' := match t with Vis v => v | _ => u end).
      assert (EL : lv ((t, b) :: l2) = leaves u' b ++ lv l2) by (subst lv u'; destruct t; [reflexivity|congruence|reflexivity]).
      assert (EF : forall v n x, fields v (t, n) x = match Walk (assign v) u' n x with Some (m', y) => Some ((t, m'), y) | None => None end).
      { intros v n x. subst fields u'. destruct t; [reflexivity|congruence|reflexivity]. }
      clearbody u' fields lv. destruct (IH u' (only Public (lv l2) ++ s) (only Secret (lv l2) ++ s')) as (n1 & E1 & E2).
      exists ((t, n1) :: n2). rewrite EL, !walk_cons, !EF, !only_app, <- !app_assoc, E1, E2, E3, E4. auto.
  Qed.
  Lemma instantiate_merge c a m : merges c a m -> instantiate c (NewWitness a) = Some m.
  Proof.
    intros H. destruct (assign_walk c a m H Unset [] []) as (n1 & E1 & E2). unfold instantiate, NewWitness. cbn [fst snd]. rewrite !values_leaves.
    rewrite !app_nil_r in *. now rewrite E1, E2.
  Qed.

  (** ** Structs of the same shape *)
  (** all values forgotten *)
  Fixpoint erase (n : node D) : node unit :=
    match n with Var _ => Var 0 | Data _ => Data tt | Slice l => Slice (map erase l) | Struct l => Struct (map (fun f => (fst f, erase (snd f))) l) end.
  (** nothing in it is skipped *)
  Fixpoint plain (n : node D) : Prop :=
    match n with Var _ => True | Data _ => False | Slice l => fold_right (fun a => and (plain a)) True l | Struct l => fold_right (fun f => and (fst f <> Omit /\ plain (snd f))) True l end.
  Lemma same_merges c : forall a, erase c = erase a -> plain a -> merges c a a.
  Proof.
    induction c as [x|d|l IH|l IH] using node_ind'; intros [y|e|l'|l'] E P; try discriminate E; cbn [plain] in P.
    - constructor.
    - contradiction.
    - constructor. cbn [erase] in E. injection E as E. revert l' E P. induction IH as [|a l Ha _ IHl]; intros [|b l'] E P; try discriminate E; constructor; cbn [map fold_right] in E, P; injection E as E1 E2; destruct P; auto.
    - constructor. cbn [erase] in E. injection E as E. revert l' E P. induction IH as [|[t a] l Ha _ IHl]; intros [|[t' b] l'] E P; try discriminate E; [constructor|]. cbn [map fold_right fst snd] in E, P, Ha. injection E as <- E1 E2. destruct P as [[Pt Pb] P]. constructor; auto.
  Qed.
End Node.

Section Plain.
  Context {D : Type}.
  Lemma plain_list {A} (f : A -> node D) l : (forall a, plain (f a)) -> plain (of_list f l).
  Proof. intros H. unfold of_list. cbn [plain]. induction l as [|a l IH]; cbn; auto. Qed.
  Ltac pl := cbn [plain fold_right fst snd map]; repeat match goal with |- _ /\ _ => split | |- True => exact I | |- NoTag <> Omit => discriminate end; try (apply plain_list; intros).
  Lemma plain_proof p : plain (D := D) (of_proof p).
  Proof.
    assert (G : forall x, plain (D := D) (of_gl x)) by (intros x; unfold of_gl; pl).
    assert (B : forall x, plain (D := D) (of_bn254 x)) by (intros x; exact I).
    assert (Q : forall x, plain (D := D) (of_qe x)) by (intros x; unfold of_qe; pl; apply G).
    assert (M : forall x, plain (D := D) (of_merkle x)) by (intros x; unfold of_merkle; pl; apply B).
    assert (C : forall x, plain (D := D) (of_cap x)) by (intros x; unfold of_cap; pl; apply B).
    assert (E : forall x, plain (D := D) (of_eval x)) by (intros x; unfold of_eval; pl; [exact (G _)|exact (M _)]).
    assert (S : forall x, plain (D := D) (of_step x)) by (intros x; unfold of_step; pl; [exact (Q _)|exact (M _)]).
    assert (R : forall x, plain (D := D) (of_round x)) by (intros x; unfold of_round; pl; [exact (E _)|exact (S _)]).
    unfold of_proof, of_openings, of_fri. pl. all: try first [exact (B _)|exact (C _)|exact (Q _)|exact (R _)|exact (G _)].
  Qed.
  Lemma plain_vd v : plain (D := D) (of_vd v).
  Proof. unfold of_vd, of_cap. pl. all: exact I. Qed.
  Lemma plain_gls l : plain (D := D) (of_list of_gl l).
  Proof. apply plain_list. intros x. unfold of_gl. pl. Qed.
End Plain.
