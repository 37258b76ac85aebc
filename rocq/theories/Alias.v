(** * gnark's [MulAcc] may overwrite its first argument.

    Elsewhere in this model a frontend.Variable is its value and nothing can change it.  In gnark an expression is a
    slice, and the documentation of [frontend.API.MulAcc] says: "MulAcc sets and return a = a + (b*c).  The method may
    mutate a without allocating a new result.  If the result is used elsewhere, first do to init variable:
    acc := api.Mul(a, 1)".  Here the functions of /repo that call MulAcc (goldilocks/base.go:196-220 and all of
    poseidon/bn254.go) are written down once more as programs over references to expressions, with the calls in the order
    of the Go code.  They are run in two ways:
    - [prun] marks the first argument of a MulAcc as dead and fails when a dead expression is read (the contract);
    - [srun] is any implementation in which expressions are slices and MulAcc writes into the array of its first argument
      whenever it likes, leaving in the rest of the array whatever it likes. *)
From Coq Require Import ZArith Lia List Bool Arith.
From Verif Require Import Zp Circuit Goldilocks BN254Const Sponge BN254.
Import ListNotations.
Open Scope Z_scope.

(** A frontend.Variable: a Go constant or the n-th expression made so far.  Copying a frontend.Variable (an interface
    value) copies the reference. *)
Inductive ref := RConst (z : Z) | RLoc (n : nat).

(** Programs: [PNew] makes an expression with a given value (an output of a hint, an input of the circuit), [PRead] hands
    an expression to something that looks at it (an assertion, a range check, a hint). *)
Inductive prog (A : Type) : Type :=
| PRet (a : A)
| PNew (v : Z) (k : ref -> prog A)
| PAdd (a b : ref) (k : ref -> prog A)
| PMul (a b : ref) (k : ref -> prog A)
| PMulAcc (a b c : ref) (k : ref -> prog A)
| PRead (a : ref) (k : Z -> prog A).
Arguments PRet {A}. Arguments PNew {A}. Arguments PAdd {A}. Arguments PMul {A}. Arguments PMulAcc {A}. Arguments PRead {A}.

Fixpoint pbind {A B} (m : prog A) (f : A -> prog B) : prog B :=
  match m with
  | PRet a => f a
  | PNew v k => PNew v (fun x => pbind (k x) f)
  | PAdd a b k => PAdd a b (fun x => pbind (k x) f)
  | PMul a b k => PMul a b (fun x => pbind (k x) f)
  | PMulAcc a b c k => PMulAcc a b c (fun x => pbind (k x) f)
  | PRead a k => PRead a (fun x => pbind (k x) f)
  end.
Declare Scope prog_scope.
Delimit Scope prog_scope with prog.
Notation "x <- c ;; d" := (pbind c (fun x => d)) (at level 61, c at next level, right associativity) : prog_scope.
Open Scope prog_scope.
Definition pnew (v : Z) : prog ref := PNew v PRet.
Definition padd (a b : ref) : prog ref := PAdd a b PRet.
Definition pmul (a b : ref) : prog ref := PMul a b PRet.
Definition pmulacc (a b c : ref) : prog ref := PMulAcc a b c PRet.
Definition pread (a : ref) : prog Z := PRead a PRet.

Fixpoint pmap {X A} (f : X -> prog A) (l : list X) : prog (list A) :=
  match l with [] => PRet [] | x :: l' => y <- f x;; ys <- pmap f l';; PRet (y :: ys) end.
Fixpoint pfold {X A} (f : A -> X -> prog A) (l : list X) (acc : A) : prog A :=
  match l with [] => PRet acc | x :: l' => acc' <- f acc x;; pfold f l' acc' end.

(** ** The contract *)
Definition heap := list (option Z).
Definition look (h : heap) (x : ref) : option Z := match x with RConst z => Some z | RLoc n => nth n h None end.
Definition kill (h : heap) (x : ref) : heap :=
  match x with RConst _ => h | RLoc n => firstn n h ++ None :: skipn (S n) h end.
Fixpoint prun {A} (m : prog A) (h : heap) : option (A * heap) :=
  match m with
  | PRet a => Some (a, h)
  | PNew v k => prun (k (RLoc (length h))) (h ++ [Some v])
  | PAdd a b k =>
      match look h a, look h b with
      | Some x, Some y => prun (k (RLoc (length h))) (h ++ [Some (api_add x y)])
      | _, _ => None end
  | PMul a b k =>
      match look h a, look h b with
      | Some x, Some y => prun (k (RLoc (length h))) (h ++ [Some (api_mul x y)])
      | _, _ => None end
  | PMulAcc a b c k =>
      match look h a, look h b, look h c with
      | Some x, Some y, Some z => prun (k (RLoc (length h))) (kill h a ++ [Some (api_mulacc x y z)])
      | _, _, _ => None end
  | PRead a k => match look h a with Some x => prun (k x) h | None => None end
  end.

(** ** Slices.  An expression is a pair of an array and a length; the contents of an array say which value a slice of each
    length has.  For the MulAcc that makes the n-th expression, [o n = None] says that it allocates, [Some (l, g)] that
    it writes in place, the result having length l and slices of other lengths then having the values g. *)
Record smem := SMem { env : list (nat * nat); arrays : list (nat -> Z) }.
Definition sget (s : smem) (n : nat) : Z := let '(a, l) := nth n (env s) (O, O) in nth a (arrays s) (fun _ => 0) l.
Definition slook (s : smem) (x : ref) : Z := match x with RConst z => z | RLoc n => sget s n end.
Definition sput (s : smem) (v : Z) : smem :=
  SMem (env s ++ [(length (arrays s), 1%nat)]) (arrays s ++ [fun _ => v]).
Definition swrite (s : smem) (x : ref) (l : nat) (g : nat -> Z) (v : Z) : smem :=
  match x with
  | RConst _ => sput s v
  | RLoc n =>
      let a := fst (nth n (env s) (O, O)) in
      SMem (env s ++ [(a, l)])
           (firstn a (arrays s) ++ (fun l' => if Nat.eqb l' l then v else g l') :: skipn (S a) (arrays s))
  end.
Fixpoint srun (o : nat -> option (nat * (nat -> Z))) {A} (m : prog A) (s : smem) : A * smem :=
  match m with
  | PRet a => (a, s)
  | PNew v k => srun o (k (RLoc (length (env s)))) (sput s v)
  | PAdd a b k => srun o (k (RLoc (length (env s)))) (sput s (api_add (slook s a) (slook s b)))
  | PMul a b k => srun o (k (RLoc (length (env s)))) (sput s (api_mul (slook s a) (slook s b)))
  | PMulAcc a b c k =>
      let v := api_mulacc (slook s a) (slook s b) (slook s c) in
      srun o (k (RLoc (length (env s))))
        match o (length (env s)) with None => sput s v | Some (l, g) => swrite s a l g v end
  | PRead a k => srun o (k (slook s a)) s
  end.

(** ** A program that keeps the contract computes the same in every implementation *)
Record sim (h : heap) (s : smem) : Prop := Sim {
  sim_len : length (env s) = length h;
  sim_arr : forall n, (n < length h)%nat -> (fst (nth n (env s) (O, O)) < length (arrays s))%nat;
  sim_val : forall n v, nth n h None = Some v -> sget s n = v;
  sim_sep : forall n m v w, nth n h None = Some v -> nth m h None = Some w -> n <> m ->
              fst (nth n (env s) (O, O)) <> fst (nth m (env s) (O, O)) }.

Lemma nth_live (h : heap) n v : nth n h None = Some v -> (n < length h)%nat.
Proof. intros H. destruct (Nat.lt_ge_cases n (length h)) as [|L]; [easy|]. now rewrite nth_overflow in H. Qed.
Lemma sim_look h s x v : sim h s -> look h x = Some v -> slook s x = v.
Proof. intros S. destruct x as [z|n]; cbn; [congruence|apply (sim_val h s S)]. Qed.
Lemma nth_snoc {A} (l : list A) x d n :
  nth n (l ++ [x]) d = if (n <? length l)%nat then nth n l d else if (n =? length l)%nat then x else d.
Proof.
  destruct (Nat.ltb_spec n (length l)) as [L|L]; [now apply app_nth1|].
  rewrite app_nth2 by easy. destruct (Nat.eqb_spec n (length l)) as [->|N]; [now rewrite Nat.sub_diag|].
  apply nth_overflow. cbn. lia.
Qed.
Lemma upd_len {A} (l : list A) n x : (n < length l)%nat -> length (firstn n l ++ x :: skipn (S n) l) = length l.
Proof. intros L. rewrite app_length, firstn_length. cbn [length]. rewrite skipn_length. lia. Qed.
Lemma upd_nth {A} (l : list A) n x d m : (n < length l)%nat ->
  nth m (firstn n l ++ x :: skipn (S n) l) d = if (m =? n)%nat then x else nth m l d.
Proof.
  intros L. destruct (Nat.eqb_spec m n) as [->|N].
  - rewrite app_nth2; rewrite firstn_length, Nat.min_l by lia; [|lia]. now rewrite Nat.sub_diag.
  - rewrite <- (firstn_skipn n l) at 3. destruct (Nat.lt_ge_cases m n) as [Q|Q].
    + rewrite !app_nth1 by (rewrite firstn_length; lia). reflexivity.
    + rewrite !app_nth2 by (rewrite firstn_length; lia). rewrite firstn_length, Nat.min_l by lia.
      replace (m - n)%nat with (S (m - n - 1)) by lia. cbn [nth].
      destruct (skipn n l) as [|y t] eqn:E.
      * assert (length (skipn n l) = O) by now rewrite E. rewrite skipn_length in *. lia.
      * assert (X : skipn (S n) l = t); [|now rewrite X].
        clear - E. revert n E. induction l as [|z l IH]; intros [|n] E; cbn in *; try discriminate; [congruence|].
        specialize (IH n E). destruct l; exact IH.
Qed.

Lemma sim_put h s v : sim h s -> sim (h ++ [Some v]) (sput s v).
Proof.
  intros [L A V D]. unfold sput. constructor; cbn [env arrays].
  - rewrite !app_length, L. reflexivity.
  - intros n Hn. rewrite app_length in Hn |- *. cbn in Hn |- *. rewrite nth_snoc, L.
    destruct (Nat.ltb_spec n (length h)) as [Q|Q]; [specialize (A n Q); lia|].
    replace (n =? length h)%nat with true by (symmetry; apply Nat.eqb_eq; lia). cbn. lia.
  - intros n w. unfold sget. cbn [env arrays]. rewrite !nth_snoc, L.
    destruct (Nat.ltb_spec n (length h)) as [Q|Q]; intros Hn.
    + specialize (A n Q). specialize (V n w Hn). unfold sget in V. destruct (nth n (env s) (O, O)) as [a l]. cbn in A.
      now rewrite app_nth1.
    + destruct (Nat.eqb_spec n (length h)) as [->|N]; [|discriminate]. injection Hn as <-.
      now rewrite nth_middle.
  - intros n m w w'. rewrite !nth_snoc, L.
    destruct (Nat.ltb_spec n (length h)) as [Q|Q], (Nat.ltb_spec m (length h)) as [Q'|Q']; intros Hn Hm N.
    + eapply D; eassumption.
    + destruct (Nat.eqb_spec m (length h)); [|discriminate]. cbn. specialize (A n Q). lia.
    + destruct (Nat.eqb_spec n (length h)); [|discriminate]. cbn. specialize (A m Q'). lia.
    + destruct (Nat.eqb_spec n (length h)), (Nat.eqb_spec m (length h)); try discriminate; lia.
Qed.

Lemma kill_len h x v : look h x = Some v -> length (kill h x) = length h.
Proof. destruct x as [z|n]; cbn; [reflexivity|]. intros H. apply upd_len. eapply nth_live; eassumption. Qed.
Lemma kill_nth h x v n : look h x = Some v ->
  nth n (kill h x) None = match x with RLoc m => if (n =? m)%nat then None else nth n h None | _ => nth n h None end.
Proof. destruct x as [z|m]; cbn; [reflexivity|]. intros H. apply upd_nth. eapply nth_live; eassumption. Qed.
Lemma sim_kill h s x v : sim h s -> look h x = Some v -> sim (kill h x) s.
Proof.
  intros [L A V D] Hx. pose proof (kill_len h x v Hx) as K.
  assert (W : forall n w, nth n (kill h x) None = Some w -> nth n h None = Some w).
  { intros n w. rewrite (kill_nth h x v n Hx). destruct x as [z|m]; [easy|]. destruct (n =? m)%nat; easy. }
  constructor.
  - congruence.
  - intros n. rewrite K. apply A.
  - intros n w H. apply V, W, H.
  - intros n m w w' H H'. exact (D n m w w' (W _ _ H) (W _ _ H')).
Qed.
Lemma sim_write h s x v l g w : sim h s -> look h x = Some v -> sim (kill h x ++ [Some w]) (swrite s x l g w).
Proof.
  intros S Hx. destruct x as [z|m]; [exact (sim_put _ _ _ S)|].
  pose proof (sim_kill _ _ _ _ S Hx) as S'. pose proof (kill_len _ _ _ Hx) as K. pose proof (kill_nth h (RLoc m) v) as KN.
  cbn in Hx. pose proof (nth_live _ _ _ Hx) as Lm. destruct S as [L A V D]. destruct S' as [L' A' V' D'].
  pose proof (A m Lm) as Am. unfold swrite. set (a := fst (nth m (env s) (O, O))) in *.
  assert (SEP : forall n u, nth n (kill h (RLoc m)) None = Some u -> fst (nth n (env s) (O, O)) <> a).
  { intros n u Hn. rewrite KN in Hn by exact Hx. destruct (Nat.eqb_spec n m) as [->|N]; [discriminate|]. eapply D; eassumption. }
  constructor; cbn [env arrays].
  - rewrite !app_length, L'. reflexivity.
  - intros n Hn. rewrite app_length, K in Hn. cbn in Hn. rewrite upd_len by exact Am. rewrite nth_snoc, L.
    destruct (Nat.ltb_spec n (length h)) as [Q|Q]; [exact (A n Q)|].
    replace (n =? length h)%nat with true by (symmetry; apply Nat.eqb_eq; lia). exact Am.
  - intros n u. unfold sget. cbn [env arrays]. rewrite !nth_snoc, L', K.
    destruct (Nat.ltb_spec n (length h)) as [Q|Q]; intros Hn.
    + specialize (SEP n u Hn). specialize (V' n u Hn). unfold sget in V'. destruct (nth n (env s) (O, O)) as [a' l']. cbn in SEP.
      rewrite upd_nth by exact Am. now replace (a' =? a)%nat with false by (symmetry; now apply Nat.eqb_neq).
    + destruct (Nat.eqb_spec n (length h)) as [->|N]; [|discriminate]. injection Hn as <-.
      rewrite upd_nth by exact Am. now rewrite !Nat.eqb_refl.
  - intros n n' w1 w2. rewrite !nth_snoc, L', K.
    destruct (Nat.ltb_spec n (length h)) as [Q|Q], (Nat.ltb_spec n' (length h)) as [Q'|Q']; intros Hn Hm N.
    + exact (D' n n' w1 w2 Hn Hm N).
    + destruct (Nat.eqb_spec n' (length h)); [|discriminate]. cbn. exact (SEP n w1 Hn).
    + destruct (Nat.eqb_spec n (length h)); [|discriminate]. cbn. intros X. exact (SEP n' w2 Hm (eq_sym X)).
    + destruct (Nat.eqb_spec n (length h)), (Nat.eqb_spec n' (length h)); try discriminate; lia.
Qed.

Theorem prun_srun o {A} (m : prog A) : forall h s a h', sim h s -> prun m h = Some (a, h') ->
  exists s', srun o m s = (a, s') /\ sim h' s'.
Proof.
  induction m as [a|v k IH|a b k IH|a b k IH|a b c k IH|a k IH]; intros h s res h' S H; cbn [prun srun] in *.
  - injection H as <- <-. eauto.
  - rewrite (sim_len h s S). eapply IH; [|exact H]. now apply sim_put.
  - destruct (look h a) as [x|] eqn:Ea; [|discriminate]. destruct (look h b) as [y|] eqn:Eb; [|discriminate].
    rewrite (sim_len h s S), (sim_look h s a x S Ea), (sim_look h s b y S Eb). eapply IH; [|exact H]. now apply sim_put.
  - destruct (look h a) as [x|] eqn:Ea; [|discriminate]. destruct (look h b) as [y|] eqn:Eb; [|discriminate].
    rewrite (sim_len h s S), (sim_look h s a x S Ea), (sim_look h s b y S Eb). eapply IH; [|exact H]. now apply sim_put.
  - destruct (look h a) as [x|] eqn:Ea; [|discriminate]. destruct (look h b) as [y|] eqn:Eb; [|discriminate].
    destruct (look h c) as [z|] eqn:Ec; [|discriminate].
    rewrite (sim_len h s S), (sim_look h s a x S Ea), (sim_look h s b y S Eb), (sim_look h s c z S Ec).
    eapply IH; [|exact H]. destruct (o (length h)) as [[l g]|].
    + eapply sim_write; eassumption.
    + apply sim_put. eapply sim_kill; eassumption.
  - destruct (look h a) as [x|] eqn:Ea; [|discriminate]. rewrite (sim_look h s a x S Ea). eapply IH; eassumption.
Qed.

(** ** The functions of /repo that call MulAcc *)
Definition pnth (s : list ref) (i : nat) : ref := nth i s (RConst 0).
(** poseidon/bn254.go:181-185 [exp5] *)
Definition pexp5 (x : ref) : prog ref := x2 <- pmul x x;; x4 <- pmul x2 x2;; pmul x4 x.
(** poseidon/bn254.go:187-192 [exp5state] *)
Definition pexp5state (s : list ref) : prog (list ref) := pmap (fun i => pexp5 (pnth s i)) (seq 0 4).
(** poseidon/bn254.go:171-179 [ark] *)
Definition park (s : list ref) (it : nat) : prog (list ref) :=
  pmap (fun i => padd (pnth s i) (RConst (nth (it + i) cConstants 0))) (seq 0 4).
(** poseidon/bn254.go:194-208 [mix] *)
Definition pmix (s : list ref) (M : list (list Z)) : prog (list ref) :=
  pmap (fun i => pfold (fun acc j => pmulacc acc (RConst (nth i (nth j M []) 0)) (pnth s j)) (seq 0 4) (RConst 0)) (seq 0 4).
(** poseidon/bn254.go:130-150 [fullRounds] *)
Definition pfullRounds (s : list ref) (isFirst : bool) : prog (list ref) :=
  s <- pfold (fun s i => s <- pexp5state s;;
                         s <- park s (if isFirst then (i + 1) * 4 else (4 + 1) * 4 + 56 + i * 4)%nat;;
                         pmix s mMatrix) (seq 0 3) s;;
  s <- pexp5state s;;
  if isFirst then s <- park s (4 * 4);; pmix s pMatrix else pmix s mMatrix.
(** poseidon/bn254.go:152-169 [partialRounds]; the loop at 162-164 assigns to state[1], state[2], state[3] in turn *)
Definition ppartialRound (s : list ref) (i : nat) : prog (list ref) :=
  s0 <- pexp5 (pnth s 0);;
  s0 <- padd s0 (RConst (nth ((4 + 1) * 4 + i) cConstants 0));;
  newState0 <- pfold (fun acc j => pmulacc acc (RConst (nth ((4 * 2 - 1) * i + j) sConstants 0)) (pnth (s0 :: tl s) j))
                     (seq 0 4) (RConst 0);;
  s' <- pmap (fun k => pmulacc (pnth s k) s0 (RConst (nth ((4 * 2 - 1) * i + 4 + k - 1) sConstants 0))) (seq 1 3);;
  PRet (newState0 :: s').
Definition ppartialRounds (s : list ref) : prog (list ref) := pfold ppartialRound (seq 0 56) s.
(** poseidon/bn254.go:39-45 [Poseidon] *)
Definition pPoseidon (s : list ref) : prog (list ref) :=
  s <- park s 0;; s <- pfullRounds s true;; s <- ppartialRounds s;; pfullRounds s false.
(** poseidon/bn254.go:65-68, 81-88; see [pack] *)
Definition ppack (l : list ref) : prog ref :=
  pfold (fun acc kx => pmulacc acc (snd kx) (RConst ((2 ^ 64) ^ Z.of_nat (fst kx)))) (combine (seq 0 (length l)) l) (RConst 0).
Definition pupd (s : list ref) (i : nat) (x : ref) : list ref := firstn i s ++ x :: skipn (S i) s.
(** poseidon/bn254.go:61-71 *)
Definition pabsorb9 (s : list ref) (chunk : list ref) : prog (list ref) :=
  pfold (fun s ig => inter <- ppack (snd ig);; PRet (pupd s (fst ig + 1) inter))
        (combine (seq 0 (length (chunks 3 chunk))) (chunks 3 chunk)) s.
(** poseidon/bn254.go:47-77 [HashNoPad] *)
Definition pHashNoPad (input : list ref) : prog ref :=
  s <- pfold (fun s c => s <- pabsorb9 s c;; pPoseidon s) (chunks 9 input) (repeat (RConst 0) 4);;
  PRet (pnth s 0).
(** poseidon/bn254.go:79-94 [HashOrNoop] *)
Definition pHashOrNoop (input : list ref) : prog ref :=
  if Nat.leb (length input) 3 then ppack input else pHashNoPad input.
(** poseidon/bn254.go:96-104 [TwoToOne] *)
Definition pTwoToOne (left right : ref) : prog ref :=
  s <- pPoseidon [RConst 0; RConst 0; left; right];; PRet (pnth s 0).

(** ** Every expression the caller holds keeps its value *)
Definition frame (B : nat) (h h' : heap) : Prop :=
  (length h <= length h')%nat /\ forall n v, (n < B)%nat -> nth n h None = Some v -> nth n h' None = Some v.
Definition keeps (h h' : heap) : Prop := frame (length h) h h'.
Lemma keeps_refl h : keeps h h. Proof. split; auto. Qed.
Lemma frame_trans B h1 h2 h3 : frame B h1 h2 -> frame B h2 h3 -> frame B h1 h3.
Proof. intros [L1 F1] [L2 F2]. split; [lia|]. auto. Qed.
Lemma frame_le B B' h h' : (B' <= B)%nat -> frame B h h' -> frame B' h h'.
Proof. intros L [L1 F1]. split; [lia|]. intros n v N. apply F1. lia. Qed.
Lemma keeps_trans h1 h2 h3 : keeps h1 h2 -> keeps h2 h3 -> keeps h1 h3.
Proof. intros F G. eapply frame_trans; [exact F|]. eapply frame_le; [|exact G]. apply F. Qed.
Lemma keeps_look h h' x v : keeps h h' -> look h x = Some v -> look h' x = Some v.
Proof. intros [L F]. destruct x as [z|n]; cbn; [easy|]. intros H. apply F; [|exact H]. eapply nth_live; eassumption. Qed.
Definition looks (h : heap) := Forall2 (fun x v => look h x = Some v).
Lemma keeps_looks h h' xs vs : keeps h h' -> looks h xs vs -> looks h' xs vs.
Proof. intros K. induction 1; constructor; eauto using keeps_look. Qed.

(** m runs in h, and its result and the heap afterwards are related by Q *)
Definition wp {A} (m : prog A) (h : heap) (Q : A -> heap -> Prop) : Prop := exists a h', prun m h = Some (a, h') /\ Q a h'.
Lemma wp_bind {A B} (m : prog A) (f : A -> prog B) h Q : wp m h (fun a h' => wp (f a) h' Q) -> wp (pbind m f) h Q.
Proof.
  revert h. induction m as [a|v k IH|a b k IH|a b k IH|a b c k IH|a k IH]; intros h (x & h1 & H & W); unfold wp in *; cbn [pbind prun] in *.
  - injection H as <- <-. exact W.
  - eapply IH; eauto.
  - destruct (look h a), (look h b); try discriminate; eapply IH; eauto.
  - destruct (look h a), (look h b); try discriminate; eapply IH; eauto.
  - destruct (look h a), (look h b), (look h c); try discriminate; eapply IH; eauto.
  - destruct (look h a); try discriminate; eapply IH; eauto.
Qed.
Lemma wp_ret {A} (a : A) h (Q : A -> heap -> Prop) : Q a h -> wp (PRet a) h Q.
Proof. intros H. exists a, h. auto. Qed.
Lemma wp_imp {A} (m : prog A) h (Q Q' : A -> heap -> Prop) : wp m h Q -> (forall a h', Q a h' -> Q' a h') -> wp m h Q'.
Proof. intros (a & h' & H & X) I. exists a, h'. auto. Qed.

(** x is an expression made after the first B, still alive, with value v *)
Definition fresh (B : nat) (h' : heap) (x : ref) (v : Z) : Prop :=
  exists n, x = RLoc n /\ (B <= n)%nat /\ nth n h' None = Some v.
Lemma fresh_look B h x v : fresh B h x v -> look h x = Some v.
Proof. intros (n & -> & _ & H). exact H. Qed.
Lemma fresh_le B B' h x v : (B' <= B)%nat -> fresh B h x v -> fresh B' h x v.
Proof. intros L (n & -> & Ln & H). exists n. repeat split; auto. lia. Qed.
Lemma fresh_keeps B h h' x v : keeps h h' -> fresh B h x v -> fresh B h' x v.
Proof. intros K (n & -> & Ln & H). exists n. repeat split; auto. exact (keeps_look h h' (RLoc n) v K H). Qed.
Lemma keeps_snoc h v : keeps h (h ++ [v]).
Proof. split; [rewrite app_length; lia|]. intros n w N. now rewrite app_nth1. Qed.
Lemma fresh_snoc (h h1 : heap) v : length h1 = length h -> fresh (length h) (h1 ++ [Some v]) (RLoc (length h)) v.
Proof. intros E. exists (length h). split; [reflexivity|]. split; [lia|]. rewrite <- E. apply nth_middle. Qed.

Lemma wp_new h v : wp (pnew v) h (fun c h' => keeps h h' /\ fresh (length h) h' c v).
Proof. unfold wp, pnew. cbn [prun]. do 2 eexists. split; [reflexivity|]. split; [apply keeps_snoc|now apply fresh_snoc]. Qed.
Lemma wp_read h a x : look h a = Some x -> wp (pread a) h (fun v h' => v = x /\ h' = h).
Proof. intros A. unfold wp, pread. cbn [prun]. rewrite A. eauto. Qed.
Lemma wp_add h a b x y : look h a = Some x -> look h b = Some y ->
  wp (padd a b) h (fun c h' => keeps h h' /\ fresh (length h) h' c (api_add x y)).
Proof.
  intros A B. unfold wp, padd. cbn [prun]. rewrite A, B. do 2 eexists. split; [reflexivity|]. split; [apply keeps_snoc|now apply fresh_snoc].
Qed.
Lemma wp_mul h a b x y : look h a = Some x -> look h b = Some y ->
  wp (pmul a b) h (fun c h' => keeps h h' /\ fresh (length h) h' c (api_mul x y)).
Proof.
  intros A B. unfold wp, pmul. cbn [prun]. rewrite A, B. do 2 eexists. split; [reflexivity|]. split; [apply keeps_snoc|now apply fresh_snoc].
Qed.
(** MulAcc leaves all but its first argument alone *)
Definition but (x : ref) (h h' : heap) : Prop :=
  forall e v, look h e = Some v -> match x with RLoc n => e <> RLoc n | _ => True end -> look h' e = Some v.
Lemma wp_mulacc h a b c x y z : look h a = Some x -> look h b = Some y -> look h c = Some z ->
  wp (pmulacc a b c) h (fun d h' => length h' = S (length h) /\ d = RLoc (length h) /\ look h' d = Some (api_mulacc x y z) /\ but a h h').
Proof.
  intros A B C. unfold wp, pmulacc. cbn [prun]. rewrite A, B, C. do 2 eexists. split; [reflexivity|].
  pose proof (kill_len h a x A) as K. split; [rewrite app_length, K; cbn; lia|]. split; [reflexivity|]. split.
  - cbn. rewrite <- K. apply nth_middle.
  - intros e v E N. destruct e as [w|n]; cbn in *; [exact E|]. pose proof (nth_live _ _ _ E).
    rewrite app_nth1 by lia. rewrite (kill_nth h a x n A). destruct a as [w|m]; [exact E|].
    destruct (Nat.eqb_spec n m) as [->|]; [now destruct N|exact E].
Qed.

(** a loop of MulAccs starting from a constant or from an expression made by this function *)
Definition owned (B : nat) (h : heap) (x : ref) (v : Z) : Prop := x = RConst v \/ fresh B h x v.
Lemma owned_look B h x v : owned B h x v -> look h x = Some v.
Proof. intros [->|F]; [reflexivity|exact (fresh_look _ _ _ _ F)]. Qed.
Lemma wp_acc1 h h1 acc v b c y z : keeps h h1 -> owned (length h) h1 acc v -> look h b = Some y -> look h c = Some z ->
  wp (pmulacc acc b c) h1 (fun d h' => keeps h h' /\ fresh (length h) h' d (api_mulacc v y z)).
Proof.
  intros K O Hb Hc.
  eapply wp_imp; [eapply wp_mulacc; [exact (owned_look _ _ _ _ O)|eapply keeps_look; eassumption|eapply keeps_look; eassumption]|].
  intros d h2 (L2 & -> & D & F). split.
  - split; [destruct K; lia|]. intros n u N E.
    apply (F (RLoc n) u (keeps_look h h1 (RLoc n) u K E)). destruct O as [->|(m & -> & Lm & _)]; [exact I|].
    intros Q. injection Q as ->. lia.
  - exists (length h1). split; [reflexivity|]. destruct K. split; [lia|exact D].
Qed.
Lemma wp_accum {X} (fb fc : X -> ref) (vb vc : X -> Z) h : forall (l : list X) h1 acc v,
  keeps h h1 -> fresh (length h) h1 acc v ->
  (forall j, In j l -> look h (fb j) = Some (vb j) /\ look h (fc j) = Some (vc j)) ->
  wp (pfold (fun acc j => pmulacc acc (fb j) (fc j)) l acc) h1
     (fun d h' => keeps h h' /\ fresh (length h) h' d (fold_left (fun acc j => api_mulacc acc (vb j) (vc j)) l v)).
Proof.
  induction l as [|j l IH]; intros h1 acc v K O H; cbn [pfold fold_left].
  - apply wp_ret. auto.
  - apply wp_bind. destruct (H j (or_introl eq_refl)) as [Hb Hc].
    eapply wp_imp; [exact (wp_acc1 h h1 acc v _ _ _ _ K (or_intror O) Hb Hc)|].
    intros d h2 [K2 F2]. apply IH; auto. intros j' I. apply H. now right.
Qed.
Lemma wp_accum0 {X} (fb fc : X -> ref) (vb vc : X -> Z) h (l : list X) v : l <> [] ->
  (forall j, In j l -> look h (fb j) = Some (vb j) /\ look h (fc j) = Some (vc j)) ->
  wp (pfold (fun acc j => pmulacc acc (fb j) (fc j)) l (RConst v)) h
     (fun d h' => keeps h h' /\ fresh (length h) h' d (fold_left (fun acc j => api_mulacc acc (vb j) (vc j)) l v)).
Proof.
  destruct l as [|j l]; [congruence|]. intros _ H. cbn [pfold fold_left]. apply wp_bind.
  destruct (H j (or_introl eq_refl)) as [Hb Hc].
  eapply wp_imp; [exact (wp_acc1 h h (RConst v) v _ _ _ _ (keeps_refl h) (or_introl eq_refl) Hb Hc)|].
  intros d h2 [K2 F2]. apply wp_accum; auto. intros j' I. apply H. now right.
Qed.

(** lists of different new expressions *)
Definition freshes (B : nat) (h : heap) (xs : list ref) (vs : list Z) : Prop := Forall2 (fresh B h) xs vs /\ NoDup xs.
Lemma freshes_looks B h xs vs : freshes B h xs vs -> looks h xs vs.
Proof. intros [F _]. induction F; constructor; eauto using fresh_look. Qed.
Lemma all_fresh_le B B' h xs vs : (B' <= B)%nat -> Forall2 (fresh B h) xs vs -> Forall2 (fresh B' h) xs vs.
Proof. intros L F. induction F; constructor; eauto using fresh_le. Qed.
Lemma freshes_le B B' h xs vs : (B' <= B)%nat -> freshes B h xs vs -> freshes B' h xs vs.
Proof. intros L [F N]. split; [|exact N]. eauto using all_fresh_le. Qed.
Lemma wp_map {X} (f : X -> prog ref) (v : X -> Z) h : forall (l : list X) h1, keeps h h1 ->
  (forall i h2, In i l -> keeps h h2 -> wp (f i) h2 (fun x h' => keeps h2 h' /\ fresh (length h2) h' x (v i))) ->
  wp (pmap f l) h1 (fun xs h' => keeps h1 h' /\ freshes (length h1) h' xs (map v l)).
Proof.
  induction l as [|i l IH]; intros h1 K H; cbn [pmap map].
  - apply wp_ret. split; [apply keeps_refl|]. split; constructor.
  - apply wp_bind. eapply wp_imp; [apply (H i h1 (or_introl eq_refl) K)|]. intros x h2 [K2 F2].
    apply wp_bind. eapply wp_imp; [apply IH; [eapply keeps_trans; eassumption|intros i' h3 I; apply H; now right]|].
    intros xs h3 [K3 [F3 N3]]. apply wp_ret. split; [eapply keeps_trans; eassumption|]. split.
    + constructor; [eapply fresh_keeps; eassumption|]. destruct K2 as [L2 _]. eauto using all_fresh_le.
    + constructor; [|exact N3]. intros I. destruct F2 as (n & -> & _ & E). apply nth_live in E.
      clear - I F3 E. induction F3 as [|y w ys ws (m & -> & Lm & _) _ IHF]; [easy|]. destruct I as [Q|I]; [injection Q as ->; lia|auto].
Qed.

Lemma looks_len h xs vs : looks h xs vs -> length xs = length vs.
Proof. induction 1; cbn; congruence. Qed.
Lemma looks_nth h xs vs i : looks h xs vs -> look h (pnth xs i) = Some (nth i vs 0).
Proof.
  intros H. revert i. unfold pnth. induction H; intros [|i]; cbn; auto.
Qed.

Lemma wp_exp5 h x v : look h x = Some v -> wp (pexp5 x) h (fun y h' => keeps h h' /\ fresh (length h) h' y (exp5 v)).
Proof.
  intros H. unfold pexp5. apply wp_bind. eapply wp_imp; [exact (wp_mul _ _ _ _ _ H H)|]. intros x2 h2 [K2 F2].
  apply wp_bind. eapply wp_imp; [exact (wp_mul _ _ _ _ _ (fresh_look _ _ _ _ F2) (fresh_look _ _ _ _ F2))|]. intros x4 h4 [K4 F4].
  assert (K : keeps h h4) by (eapply keeps_trans; eassumption).
  eapply wp_imp; [exact (wp_mul _ _ _ _ _ (fresh_look _ _ _ _ F4) (keeps_look _ _ _ _ K H))|]. intros y h5 [K5 F5].
  split; [eapply keeps_trans; eassumption|]. eapply fresh_le; [|exact F5]. apply K.
Qed.
Lemma wp_exp5state h s vs : looks h s vs -> wp (pexp5state s) h (fun xs h' => keeps h h' /\ freshes (length h) h' xs (exp5state vs)).
Proof.
  intros H. apply (wp_map _ (fun i => exp5 (nth i vs 0)) h); [apply keeps_refl|]. intros i h2 _ K.
  apply wp_exp5. eapply keeps_look; [exact K|]. now apply looks_nth.
Qed.
Lemma wp_ark h s vs it : looks h s vs -> wp (park s it) h (fun xs h' => keeps h h' /\ freshes (length h) h' xs (ark vs it)).
Proof.
  intros H. apply (wp_map _ (fun i => api_add (nth i vs 0) (nth (it + i) cConstants 0)) h); [apply keeps_refl|]. intros i h2 _ K.
  apply wp_add; [|reflexivity]. eapply keeps_look; [exact K|]. now apply looks_nth.
Qed.
Lemma wp_mix h s vs M : looks h s vs -> wp (pmix s M) h (fun xs h' => keeps h h' /\ freshes (length h) h' xs (mix vs M)).
Proof.
  intros H. apply (wp_map _ (fun i => fold_left (fun acc j => api_mulacc acc (nth i (nth j M []) 0) (nth j vs 0)) (seq 0 4) 0) h); [apply keeps_refl|].
  intros i h2 _ K. apply (wp_accum0 _ _ (fun j => nth i (nth j M []) 0) (fun j => nth j vs 0)); [discriminate|].
  intros j _. split; [reflexivity|]. eapply keeps_look; [exact K|]. now apply looks_nth.
Qed.
Lemma wp_fullRounds h s vs b : looks h s vs ->
  wp (pfullRounds s b) h (fun xs h' => keeps h h' /\ freshes (length h) h' xs (fullRounds vs b)).
Proof.
  intros H. unfold pfullRounds, fullRounds. apply wp_bind.
  set (g := fun (s : list ref) (i : nat) => _). set (gv := fun (s : list Z) (i : nat) => _).
  assert (G : forall l h1 s vs, keeps h h1 -> looks h1 s vs ->
    wp (pfold g l s) h1 (fun xs h' => keeps h h' /\ looks h' xs (fold_left gv l vs))).
  { induction l as [|i l IH]; intros h1 s1 v1 K1 H1; cbn [pfold fold_left]; [apply wp_ret; auto|].
    apply wp_bind. eapply wp_imp with (Q := fun xs h' => keeps h h' /\ looks h' xs (gv v1 i)); [|intros xs h2 [K2 H2]; now apply IH].
    unfold g, gv. apply wp_bind. eapply wp_imp; [exact (wp_exp5state _ _ _ H1)|]. intros s2 h2 [K2 F2].
    apply wp_bind. eapply wp_imp; [exact (wp_ark _ _ _ _ (freshes_looks _ _ _ _ F2))|]. intros s3 h3 [K3 F3].
    eapply wp_imp; [exact (wp_mix _ _ _ _ (freshes_looks _ _ _ _ F3))|]. intros s4 h4 [K4 F4].
    split; [eauto using keeps_trans|]. destruct b; exact (freshes_looks _ _ _ _ F4). }
  eapply wp_imp; [exact (G _ _ _ _ (keeps_refl h) H)|]. intros s1 h1 [K1 H1].
  apply wp_bind. eapply wp_imp; [exact (wp_exp5state _ _ _ H1)|]. intros s2 h2 [K2 F2].
  assert (L : (length h <= length h2)%nat) by (destruct K1, K2; lia).
  destruct b.
  - apply wp_bind. eapply wp_imp; [exact (wp_ark _ _ _ _ (freshes_looks _ _ _ _ F2))|]. intros s3 h3 [K3 F3].
    eapply wp_imp; [exact (wp_mix _ _ _ _ (freshes_looks _ _ _ _ F3))|]. intros s4 h4 [K4 F4].
    split; [eauto 6 using keeps_trans|]. eapply freshes_le; [|exact F4]. destruct K3. lia.
  - eapply wp_imp; [exact (wp_mix _ _ _ _ (freshes_looks _ _ _ _ F2))|]. intros s4 h4 [K4 F4].
    split; [eauto 6 using keeps_trans|]. eapply freshes_le; [|exact F4]. lia.
Qed.

(** The state of [partialRounds] is overwritten: its entries must be different expressions that nobody else needs. *)
Lemma wp_partialRound B h s vs i : (B <= length h)%nat -> length vs = 4%nat -> freshes B h s vs ->
  wp (ppartialRound s i) h (fun xs h' => frame B h h' /\ freshes B h' xs (partialRound vs i)).
Proof.
  intros LB L4 [F N]. unfold ppartialRound, partialRound.
  destruct vs as [|v0 [|v1 [|v2 [|v3 [|]]]]]; try discriminate L4. clear L4.
  inversion F as [|x0 ? ? ? F0 Fa]; subst. inversion Fa as [|x1 ? ? ? F1 Fb]; subst. inversion Fb as [|x2 ? ? ? F2 Fc]; subst.
  inversion Fc as [|x3 ? ? ? F3 Fd]; subst. inversion Fd; subst. clear F Fa Fb Fc Fd.
  apply wp_bind. eapply wp_imp; [exact (wp_exp5 _ _ _ (fresh_look _ _ _ _ F0))|]. intros y ha [Ka Fa].
  apply wp_bind. eapply wp_imp; [exact (wp_add _ _ (RConst _) _ _ (fresh_look _ _ _ _ Fa) eq_refl)|]. intros s0 hb [Kb Fb].
  assert (Kab : keeps h hb) by (eapply keeps_trans; eassumption).
  pose proof (fresh_keeps _ _ _ _ _ Kab F1) as G1. pose proof (fresh_keeps _ _ _ _ _ Kab F2) as G2. pose proof (fresh_keeps _ _ _ _ _ Kab F3) as G3.
  set (v := api_add (exp5 (nth 0 [v0; v1; v2; v3] 0)) (nth ((4 + 1) * 4 + i) cConstants 0)).
  change (fresh (length ha) hb s0 v) in Fb.
  assert (LK : looks hb [s0; x1; x2; x3] [v; v1; v2; v3]) by (repeat constructor; eauto using fresh_look).
  apply wp_bind. cbn [tl].
  eapply wp_imp; [apply (wp_accum0 _ _ (fun j => nth ((4 * 2 - 1) * i + j) sConstants 0) (fun j => nth j [v; v1; v2; v3] 0) hb);
    [discriminate|intros j _; split; [reflexivity|now apply looks_nth]]|].
  intros n0 hc [Kc Fn].
  set (w := fold_left _ _ 0) in *.
  pose proof (fresh_keeps _ _ _ _ _ Kc Fb) as Fs. pose proof (fresh_keeps _ _ _ _ _ Kc G1) as I1.
  pose proof (fresh_keeps _ _ _ _ _ Kc G2) as I2. pose proof (fresh_keeps _ _ _ _ _ Kc G3) as I3.
  assert (Khc : keeps h hc) by (eapply keeps_trans; eassumption).
  assert (Lb : (length ha <= length hb)%nat) by apply Kb. assert (La : (length h <= length ha)%nat) by apply Ka.
  assert (Lc : (length hb <= length hc)%nat) by apply Kc.
  clear LK G1 G2 G3 Kab Kc Kb Ka.
  destruct F1 as (m1 & -> & M1 & X1), F2 as (m2 & -> & M2 & X2), F3 as (m3 & -> & M3 & X3).
  apply nth_live in X1, X2, X3.
  destruct Fs as (ms & -> & Ms & Xs), Fn as (mn & -> & Mn & Xn).
  pose proof (nth_live _ _ _ Xs) as Xs'. pose proof (nth_live _ _ _ Xn) as Xn'.
  assert (Ns : ms <> mn). { destruct Fb as (ms' & Es & _ & Xs2). injection Es as <-. apply nth_live in Xs2. lia. }
  assert (N12 : m1 <> m2 /\ m1 <> m3 /\ m2 <> m3).
  { inversion N as [|? ? _ N']; subst. inversion N' as [|? ? A1 N'']; subst. inversion N'' as [|? ? A2 _]; subst.
    cbn in A1, A2. repeat split; intros ->; tauto. }
  destruct N12 as (N12 & N13 & N23). clear N Fb F0.
  apply fresh_look in I1, I2, I3. change (look hc (RLoc ms) = Some v) in Xs.
  apply wp_bind. cbn [pmap seq pnth nth].
  apply wp_bind. eapply wp_imp; [exact (wp_mulacc hc _ _ (RConst _) _ _ _ I1 Xs eq_refl)|]. intros d1 h1 (L1 & -> & D1 & B1).
  apply wp_bind. apply wp_bind.
  eapply wp_imp; [refine (wp_mulacc h1 _ _ (RConst _) _ _ _ (B1 _ _ I2 _) (B1 _ _ Xs _) eq_refl); intros E; injection E; lia|].
  intros d2 h2 (L2 & -> & D2 & B2).
  apply wp_bind. apply wp_bind.
  eapply wp_imp; [refine (wp_mulacc h2 _ _ (RConst _) _ _ _ (B2 _ _ (B1 _ _ I3 _) _) (B2 _ _ (B1 _ _ Xs _) _) eq_refl); intros E; injection E; lia|].
  intros d3 h3 (L3 & -> & D3 & B3).
  repeat (apply wp_bind || apply wp_ret).
  assert (T : forall n u, nth n hc None = Some u -> n <> m1 -> n <> m2 -> n <> m3 -> nth n h3 None = Some u).
  { intros n u E A1 A2 A3. apply (B3 (RLoc n)); [apply (B2 (RLoc n)); [apply (B1 (RLoc n)); [exact E|]|]|]; intros Q; injection Q; auto. }
  split.
  - split; [destruct Khc; lia|]. intros n u Ln E. apply T; [apply Khc; [lia|exact E]|lia|lia|lia].
  - split.
    + constructor; [exists mn; split; [reflexivity|]; split; [lia|]; apply T; [exact Xn|lia|lia|lia]|].
      constructor; [exists (length hc); split; [reflexivity|]; split; [lia|]|].
      { apply (B3 (RLoc _)); [apply (B2 (RLoc _)); [exact D1|]|]; intros Q; injection Q; lia. }
      constructor; [exists (length h1); split; [reflexivity|]; split; [lia|]|].
      { apply (B3 (RLoc _)); [exact D2|]; intros Q; injection Q; lia. }
      constructor; [exists (length h2); split; [reflexivity|]; split; [lia|exact D3]|constructor].
    + repeat constructor; cbn; intros Q; repeat destruct Q as [Q|Q]; try injection Q; try lia; easy.
Qed.

Lemma wp_partialRounds h s vs : length vs = 4%nat -> forall h1, keeps h h1 -> freshes (length h) h1 s vs ->
  wp (ppartialRounds s) h1 (fun xs h' => keeps h h' /\ freshes (length h) h' xs (partialRounds vs)).
Proof.
  unfold ppartialRounds, partialRounds. generalize (seq 0 56). intros l. revert s vs.
  induction l as [|i l IH]; intros s vs L h1 K F; cbn [pfold fold_left]; [apply wp_ret; auto|].
  apply wp_bind. eapply wp_imp; [apply (wp_partialRound (length h)); [apply K|exact L|exact F]|].
  intros xs h2 [K2 F2]. apply IH; [reflexivity| |exact F2]. eapply frame_trans; eassumption.
Qed.
Lemma wp_Poseidon h s vs : looks h s vs -> wp (pPoseidon s) h (fun xs h' => keeps h h' /\ freshes (length h) h' xs (PoseidonBN vs)).
Proof.
  intros H. unfold pPoseidon, PoseidonBN.
  apply wp_bind. eapply wp_imp; [exact (wp_ark _ _ _ 0 H)|]. intros s1 h1 [K1 F1].
  apply wp_bind. eapply wp_imp; [exact (wp_fullRounds _ _ _ true (freshes_looks _ _ _ _ F1))|]. intros s2 h2 [K2 F2].
  apply wp_bind. eapply wp_imp; [refine (wp_partialRounds h1 s2 _ _ h2 K2 F2); reflexivity|]. intros s3 h3 [K3 F3].
  eapply wp_imp; [exact (wp_fullRounds _ _ _ false (freshes_looks _ _ _ _ F3))|]. intros s4 h4 [K4 F4].
  split; [eauto using keeps_trans|]. eapply freshes_le; [|exact F4]. destruct K1, K3. lia.
Qed.
Lemma looks_combine h (l : list ref) (vs : list Z) : looks h l vs ->
  forall a, Forall2 (fun kx kv => fst kx = fst kv /\ look h (snd kx) = Some (snd kv)) (combine (seq a (length l)) l) (combine (seq a (length vs)) vs).
Proof. induction 1; intros a; cbn; constructor; auto. Qed.
(** the packing loop only reads the limbs *)
Lemma wp_pack h l vs : looks h l vs -> wp (ppack l) h (fun x h' => keeps h h' /\ owned (length h) h' x (pack vs)).
Proof.
  intros H. unfold ppack, pack. pose proof (looks_combine h l vs H O) as C.
  set (kl := combine (seq 0 (length l)) l) in *. set (kv := combine (seq 0 (length vs)) vs) in *. clearbody kl kv.
  set (g := fun (acc : ref) (kx : nat * ref) => _). set (gv := fun (acc : Z) (kx : nat * Z) => _).
  assert (G : forall h1 acc v, keeps h h1 -> owned (length h) h1 acc v ->
    wp (pfold g kl acc) h1 (fun x h' => keeps h h' /\ owned (length h) h' x (fold_left gv kv v))).
  { clear H. induction C as [|[k x] [k' v] kl kv [E L] C IH]; intros h1 acc u K O; cbn [pfold fold_left]; [apply wp_ret; auto|].
    cbn [fst snd] in *. subst k'. apply wp_bind. eapply wp_imp; [exact (wp_acc1 h h1 acc u x (RConst _) _ _ K O L eq_refl)|].
    intros d h2 [K2 F2]. apply IH; [exact K2|right; exact F2]. }
  apply G; [apply keeps_refl|now left].
Qed.

Lemma pupd_looks h s vs i x v : looks h s vs -> look h x = Some v -> looks h (pupd s i x) (upd vs i v).
Proof.
  intros H X. unfold pupd, upd. apply Forall2_app; [|constructor; [exact X|]].
  - clear X. revert i. induction H; intros [|i]; cbn; constructor; auto.
  - clear X. generalize (S i). clear i. intros i. revert i. induction H; intros [|i]; cbn; auto; constructor; auto.
Qed.
Lemma firstn_looks h s vs n : looks h s vs -> looks h (firstn n s) (firstn n vs).
Proof. intros H. revert n. induction H; intros [|n]; cbn; constructor; auto. now apply IHForall2. Qed.
Lemma skipn_looks h s vs n : looks h s vs -> looks h (skipn n s) (skipn n vs).
Proof. intros H. revert n. induction H; intros [|n]; cbn; auto; constructor; auto. Qed.
Lemma chunks_looks h k s vs : looks h s vs -> Forall2 (looks h) (chunks k s) (chunks k vs).
Proof.
  intros H. unfold chunks. rewrite (looks_len _ _ _ H). generalize (length vs). intros n. revert s vs H.
  induction n as [|n IH]; intros s vs H; [constructor|]. cbn [chunks_]. destruct H as [|x v s vs X H]; [constructor|].
  constructor; [apply firstn_looks; now constructor|]. apply IH, skipn_looks. now constructor.
Qed.
Lemma chunks_len_eq {A B} k (s : list A) (vs : list B) : length s = length vs -> length (chunks k s) = length (chunks k vs).
Proof.
  intros E. unfold chunks.
  enough (G : forall n (s : list A) (vs : list B), length s = length vs -> length (chunks_ n k s) = length (chunks_ n k vs)) by (rewrite E; now apply G).
  clear. induction n as [|n IH]; intros s vs E; [reflexivity|]. cbn [chunks_].
  destruct s as [|x s], vs as [|v vs]; try discriminate; [reflexivity|]. cbn [length]. f_equal. apply IH. rewrite !skipn_length. congruence.
Qed.
Lemma all_keeps h h' ls vss : keeps h h' -> Forall2 (looks h) ls vss -> Forall2 (looks h') ls vss.
Proof. intros K. induction 1; constructor; eauto using keeps_looks. Qed.

Lemma wp_absorb9 h s vs c cv : looks h s vs -> looks h c cv ->
  wp (pabsorb9 s c) h (fun xs h' => keeps h h' /\ looks h' xs (absorb9 vs cv)).
Proof.
  intros H C. unfold pabsorb9, absorb9.
  set (g := fun (s : list ref) (ig : nat * list ref) => _). set (gv := fun (s : list Z) (ig : nat * list Z) => _).
  rewrite (chunks_len_eq 3 c cv (looks_len _ _ _ C)). apply (chunks_looks h 3) in C.
  revert C. generalize (chunks 3 c) (chunks 3 cv). intros cs cvs. generalize (length cvs). intros n. generalize O as a.
  revert h s vs H cs cvs. induction n as [|n IH]; intros h s vs H cs cvs a C; cbn [seq combine pfold fold_left]; [apply wp_ret; split; [apply keeps_refl|exact H]|].
  destruct C as [|l lv cs cvs L C]; cbn [pfold fold_left]; [apply wp_ret; split; [apply keeps_refl|exact H]|].
  apply wp_bind. unfold g at 1. cbn [fst snd]. apply wp_bind. eapply wp_imp; [exact (wp_pack _ _ _ L)|]. intros x h2 [K2 O2].
  apply wp_ret. eapply wp_imp; [apply (IH h2 _ (gv vs (a, lv))); [|eapply all_keeps; eassumption]|].
  - unfold gv. cbn [fst snd]. apply pupd_looks; [eapply keeps_looks; eassumption|exact (owned_look _ _ _ _ O2)].
  - intros xs h3 [K3 L3]. split; [eapply keeps_trans; eassumption|exact L3].
Qed.

(** the result is a constant or a new expression *)
Definition result (h h' : heap) (x : ref) (v : Z) : Prop := keeps h h' /\ owned (length h) h' x v.
Lemma wp_HashNoPad h l vs : looks h l vs -> wp (pHashNoPad l) h (fun x h' => result h h' x (HashNoPadBN vs)).
Proof.
  intros H. unfold pHashNoPad, HashNoPadBN. apply (chunks_looks h 9) in H. apply wp_bind.
  set (g := fun (s : list ref) (c : list ref) => _). set (gv := fun (s : list Z) (c : list Z) => _).
  assert (G : forall h1 s sv, keeps h h1 -> Forall2 (owned (length h) h1) s sv -> Forall2 (looks h) (chunks 9 l) (chunks 9 vs) ->
    wp (pfold g (chunks 9 l) s) h1 (fun xs h' => keeps h h' /\ Forall2 (owned (length h) h') xs (fold_left gv (chunks 9 vs) sv))).
  { clear H. generalize (chunks 9 l) (chunks 9 vs). intros cs cvs h1 s sv K F C. revert h1 s sv K F.
    induction C as [|c cv cs cvs L C IH]; intros h1 s sv K F; cbn [pfold fold_left]; [apply wp_ret; auto|].
    apply wp_bind. unfold g at 1. apply wp_bind.
    assert (F' : looks h1 s sv) by (clear - F; induction F; constructor; eauto using owned_look).
    eapply wp_imp; [exact (wp_absorb9 _ _ _ _ _ F' (keeps_looks _ _ _ _ K L))|]. intros s2 h2 [K2 L2].
    eapply wp_imp; [exact (wp_Poseidon _ _ _ L2)|]. intros s3 h3 [K3 [F3 _]].
    apply IH; [eauto using keeps_trans|]. assert (LE : (length h <= length h2)%nat) by (destruct K, K2; lia).
    clear - F3 LE. unfold gv at 1. induction F3; constructor; auto. right. eauto using fresh_le. }
  eapply wp_imp; [apply (G h (repeat (RConst 0) 4) [0; 0; 0; 0] (keeps_refl h)); [repeat constructor|exact H]|].
  intros s2 h2 [K2 F2]. apply wp_ret. split; [exact K2|]. unfold pnth. destruct F2; cbn [nth]; [now left|assumption].
Qed.
Lemma wp_HashOrNoop h l vs : looks h l vs -> wp (pHashOrNoop l) h (fun x h' => result h h' x (HashOrNoop vs)).
Proof.
  intros H. unfold pHashOrNoop, HashOrNoop. rewrite (looks_len _ _ _ H). destruct (Nat.leb (length vs) 3); [now apply wp_pack|now apply wp_HashNoPad].
Qed.
Lemma wp_TwoToOne h a b x y : look h a = Some x -> look h b = Some y ->
  wp (pTwoToOne a b) h (fun c h' => result h h' c (TwoToOne x y)).
Proof.
  intros A B. unfold pTwoToOne, TwoToOne. apply wp_bind.
  assert (L : looks h [RConst 0; RConst 0; a; b] [0; 0; x; y]) by (repeat constructor; assumption).
  eapply wp_imp; [exact (wp_Poseidon _ _ _ L)|]. intros s h2 [K2 [F2 _]]. apply wp_ret. split; [exact K2|].
  unfold pnth. destruct F2; cbn [nth]; [now left|now right].
Qed.

(** ** goldilocks/base.go *)
(** goldilocks/base.go:217-220 [MulAddNoReduce] *)
Definition pMulAddNoReduce (a b c : ref) : prog ref := cLimbCopy <- pmul c (RConst 1);; pmulacc cLimbCopy a b.
(** goldilocks/base.go:202-207; q and m are the outputs of the hint *)
Definition pMulAddBody (a b c : ref) (q m : Z) : prog (ref * ref * ref * ref) :=
  quotient <- pnew q;;
  remainder <- pnew m;;
  cLimbCopy <- pmul c (RConst 1);;
  lhs <- pmulacc cLimbCopy a b;;
  rhs <- pmulacc remainder (RConst MODULUS) quotient;;
  PRet (lhs, rhs, quotient, remainder).
(** goldilocks/base.go:196-213 [MulAdd]: the assertion, the range checks and the caller see what the expressions stand for after
    both MulAccs *)
Definition MulAddR (o : nat -> option (nat * (nat -> Z))) (a b c : ref) (s : smem) : circ (ref * smem) :=
  (result <- hint_ (MulAddHint (slook s a) (slook s b) (slook s c)) 2;;
   q <- nth_ result 0;;
   m <- nth_ result 1;;
   let '((lhs, rhs, quotient, remainder), s') := srun o (pMulAddBody a b c q m) s in
   api_assert_eq (slook s' lhs) (slook s' rhs);;;
   RangeCheck (slook s' quotient);;;
   RangeCheck (slook s' remainder);;;
   Ret (remainder, s'))%circ.

Lemma wp_MulAddNoReduce h a b c x y z : look h a = Some x -> look h b = Some y -> look h c = Some z ->
  wp (pMulAddNoReduce a b c) h (fun d h' => result h h' d (api_mulacc (api_mul z 1) x y)).
Proof.
  intros A B C. unfold pMulAddNoReduce. apply wp_bind. eapply wp_imp; [exact (wp_mul h c (RConst 1) z 1 C eq_refl)|].
  intros cp h1 [K1 F1]. eapply wp_imp; [exact (wp_acc1 h h1 cp _ _ _ _ _ K1 (or_intror F1) A B)|].
  intros d h2 [K2 F2]. split; [exact K2|now right].
Qed.

(** the same with an rhs that is always a new expression *)
Definition pMulAddBody' (a b c : ref) (q m : Z) : prog (ref * ref * ref * ref) :=
  quotient <- pnew q;;
  remainder <- pnew m;;
  cLimbCopy <- pmul c (RConst 1);;
  lhs <- pmulacc cLimbCopy a b;;
  vm <- pread remainder;;
  vq <- pread quotient;;
  rhs <- pnew (api_mulacc vm MODULUS vq);;
  PRet (lhs, rhs, quotient, remainder).
Lemma env_sput s v : length (env (sput s v)) = S (length (env s)).
Proof. unfold sput. cbn [env]. rewrite app_length. cbn. lia. Qed.
Lemma env_swrite s x l g v : length (env (swrite s x l g v)) = S (length (env s)).
Proof. destruct x; unfold swrite; [apply env_sput|]. cbn [env]. rewrite app_length. cbn. lia. Qed.
Lemma body_no_write o a b c q m s : o (4 + length (env s))%nat = None ->
  srun o (pMulAddBody a b c q m) s = srun o (pMulAddBody' a b c q m) s.
Proof.
  intros O. unfold pMulAddBody, pMulAddBody', pnew, pmul, pmulacc, pread. cbn [pbind srun].
  set (s1 := sput s q). set (s2 := sput s1 m). set (s3 := sput s2 _). set (s4 := match o (length (env s3)) with None => _ | Some _ => _ end).
  assert (E : length (env s4) = (4 + length (env s))%nat).
  { unfold s4. destruct (o (length (env s3))) as [[l g]|]; rewrite ?env_swrite, ?env_sput; unfold s3; rewrite env_sput; unfold s2; rewrite env_sput;
      unfold s1; rewrite env_sput; reflexivity. }
  rewrite E, O. reflexivity.
Qed.
Lemma wp_MulAddBody' h a b c x y z q m : look h a = Some x -> look h b = Some y -> look h c = Some z ->
  wp (pMulAddBody' a b c q m) h (fun t h' => keeps h h' /\
    let '(lhs, rhs, quotient, remainder) := t in
    look h' lhs = Some (api_mulacc (api_mul z 1) x y) /\ look h' rhs = Some (api_mulacc m MODULUS q) /\
    look h' quotient = Some q /\ look h' remainder = Some m).
Proof.
  intros A B C. unfold pMulAddBody'.
  apply wp_bind. eapply wp_imp; [exact (wp_new h q)|]. intros qr h1 [K1 F1].
  apply wp_bind. eapply wp_imp; [exact (wp_new h1 m)|]. intros mr h2 [K2 F2].
  assert (K12 : keeps h h2) by (eapply keeps_trans; eassumption).
  apply wp_bind. eapply wp_imp; [exact (wp_mul h2 c (RConst 1) z 1 (keeps_look _ _ _ _ K12 C) eq_refl)|]. intros cp h3 [K3 F3].
  apply wp_bind. eapply wp_imp; [exact (wp_acc1 h2 h3 cp _ _ _ _ _ K3 (or_intror F3) (keeps_look _ _ _ _ K12 A) (keeps_look _ _ _ _ K12 B))|].
  intros l h4 [K4 F4].
  assert (Q4 : look h4 qr = Some q) by exact (keeps_look _ _ _ _ K4 (keeps_look _ _ _ _ K2 (fresh_look _ _ _ _ F1))).
  assert (M4 : look h4 mr = Some m) by exact (keeps_look _ _ _ _ K4 (fresh_look _ _ _ _ F2)).
  apply wp_bind. eapply wp_imp; [exact (wp_read _ _ _ M4)|]. intros ? ? [-> ->].
  apply wp_bind. eapply wp_imp; [exact (wp_read _ _ _ Q4)|]. intros ? ? [-> ->].
  apply wp_bind. eapply wp_imp; [exact (wp_new h4 _)|]. intros rr h5 [K5 F5]. apply wp_ret.
  split; [eauto using keeps_trans|]. repeat split.
  - exact (keeps_look _ _ _ _ K5 (fresh_look _ _ _ _ F4)).
  - exact (fresh_look _ _ _ _ F5).
  - exact (keeps_look _ _ _ _ K5 Q4).
  - exact (keeps_look _ _ _ _ K5 M4).
Qed.

(** ** The rule of gnark v0.9.1: the sum is computed in a buffer and copied into the array of the first argument if it fits.
    An expression is a list of terms (variable, coefficient) sorted by variable.  This describes the R1CS builder of gnark, which is not
    part of /repo. *)
Definition term := (nat * Z)%type.
Fixpoint lins (t : term) (l : list term) : list term :=
  match l with
  | [] => [t]
  | u :: l' =>
      if (fst t <? fst u)%nat then t :: l
      else if (fst t =? fst u)%nat
      then (if (snd t + snd u) mod r =? 0 then l' else (fst t, (snd t + snd u) mod r) :: l')
      else u :: lins t l'
  end.
Definition ladd (a b : list term) : list term :=
  match fold_right lins a b with [] => [(O, 0)] | l => l end.
Definition lscale (k : Z) (l : list term) : list term := map (fun t => (fst t, (k * snd t) mod r)) l.
Fixpoint leval (rho : nat -> Z) (l : list term) : Z :=
  match l with [] => 0 | t :: l' => (snd t * rho (fst t) + leval rho l') mod r end.
(** [len(result) <= cap(a)] *)
Definition fits (cap : nat) (a : list term) (k : Z) (c : list term) : bool := (length (ladd a (lscale k c)) <=? cap)%nat.
