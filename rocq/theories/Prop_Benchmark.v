(** * Property C66: what a successful run of the benchmark command means. *)
From Coq Require Import String.
From Coq Require Import ZArith Lia List Bool.
From Verif Require Import Circuit TrustedSetup Benchmark.
Import ListNotations.
Open Scope Z_scope.

Lemma pbind_ok {A B} (c : prog A) (f : A -> prog B) ev b : pbind c f = (ev, Ok b) <-> exists e1 a e2, c = (e1, Ok a) /\ f a = (e2, Ok b) /\ ev = e1 ++ e2.
Proof.
  unfold pbind. destruct c as [e1 [a| |m]]; cbn [fst snd].
  - destruct (f a) as [e2 x] eqn:E. cbn [fst snd]. split.
    + intros [= <- ->]. exists e1, a, e2. auto.
    + intros (e1' & a' & e2' & [= -> ->] & F & ->). rewrite E in F. now injection F as -> ->.
  - split; [discriminate|]. intros (? & ? & ? & ? & _). discriminate.
  - split; [discriminate|]. intros (? & ? & ? & ? & _). discriminate.
Qed.
Lemma must_ok {A} (x : option A) m e a : must x m = (e, Ok a) -> x = Some a /\ e = [].
Proof. unfold must, stop. destruct x; intros [=]; subst; auto. Qed.
Lemma try_ok {A} (x : option A) e a : try_ x = (e, Ok a) -> x = Some a /\ e = [].
Proof. unfold try_, stop, orExit. destruct x; intros [=]; subst; auto. Qed.
Lemma unless_ok b e u : stop (unlessExit b) = (e, Ok u) -> b = true /\ e = [].
Proof. unfold stop, unlessExit. destruct b; intros [=]; subst; auto. Qed.

(** the events of saving, as far as other events are concerned *)
Definition saving (l : list event) : Prop := Forall (fun e => exists f, e = Saved f) l.
Lemma save_ok B sv vk e u : saveKeys B sv vk = (e, Ok u) -> saving e /\ (sv = true -> vk <> None).
Proof.
  destruct sv, vk as [vk|]; cbn; intros [=]; subst; split; try discriminate; repeat constructor; eauto.
Qed.
Lemma prove_ok B s cs pk a sv e x : proveWith B s cs pk a sv = (e, Ok x) -> saving e /\
  exists w, newWitness B a = Some w /\ prove B s cs pk w = Some (fst x) /\ snd x = public_ B w.
Proof.
  unfold proveWith. intros H. apply pbind_ok in H. destruct H as (e1 & w & e2 & H1 & H & ->). apply must_ok in H1. destruct H1 as [Hw ->].
  apply pbind_ok in H. destruct H as (e3 & u & e4 & H3 & H & ->). apply pbind_ok in H. destruct H as (e5 & pr & e6 & H5 & H & ->). apply try_ok in H5. destruct H5 as [Hp ->].
  apply pbind_ok in H. destruct H as (e7 & u' & e8 & H7 & H & ->). injection H as <- <-.
  split; [|exists w; auto]. destruct sv; cbn in H3, H7; injection H3 as <- _; injection H7 as <- _; cbn; repeat constructor; eauto.
Qed.

(** ** C66
    If the command succeeds with the plonk backend, or with groth16 and a real setup, then the
    proof was made from the witness of the files and the backend accepted it for their public part. *)
Definition proved_and_verified (B : backend) (s : system) (name : string) (vk_from : CS B -> PK B -> VK B -> Prop) (proof : OuterProof B) : Prop :=
  exists inputs cs pk vk w, load B name = Some inputs /\ compile B s inputs = Some cs /\ vk_from cs pk vk /\
    newWitness B inputs = Some w /\ prove B s cs pk w = Some proof /\ verify B s proof vk (public_ B w) = true.
Theorem C66_plonk : forall B name dummy save ev, main B name "plonk" dummy save = (ev, Ok tt) ->
  exists proof saved, saving saved /\ ev = saved ++ [Verified; PrintedBytes (raw B proof)] /\
  proved_and_verified B Plonk name (fun cs pk vk => exists srs, plonkSetup B cs srs = Some (pk, vk) /\
    (if dummy then testSRS B cs = Some srs else readSRS B = Some srs /\ (statSRS B = false -> download B = Ok tt))) proof.
Proof.
  intros B name dummy save ev. unfold main. destruct (String.eqb name ""); [discriminate|]. unfold runBenchmark. intros H.
  apply pbind_ok in H. destruct H as (e1 & inputs & e2 & H1 & H & ->). apply must_ok in H1. destruct H1 as [HL ->].
  change (String.eqb "plonk" "plonk") with true in H. cbn iota in H. apply pbind_ok in H. destruct H as (e3 & s & e4 & H3 & H & ->). injection H3 as <- <-.
  apply pbind_ok in H. destruct H as (e5 & cs & e6 & H5 & H & ->). apply try_ok in H5. destruct H5 as [HC ->].
  unfold plonkProof in H. apply pbind_ok in H. destruct H as (e7 & inputs' & e8 & H7 & H & ->). apply must_ok in H7. destruct H7 as [HL' ->]. assert (inputs' = inputs) as -> by congruence.
  apply pbind_ok in H. destruct H as (e9 & srs & e10 & H9 & H & ->).
  assert (HS : e9 = [] /\ if dummy then testSRS B cs = Some srs else readSRS B = Some srs /\ (statSRS B = false -> download B = Ok tt)).
  { destruct dummy; [apply must_ok in H9; tauto|]. apply pbind_ok in H9. destruct H9 as (a1 & u & a2 & A1 & A2 & ->). apply must_ok in A2. destruct A2 as [A2 ->].
    destruct (statSRS B); [injection A1 as <- <-; repeat split; [exact A2|discriminate]|]. injection A1 as <- A1. destruct u. repeat split; [exact A2|now intros _]. }
  destruct HS as [-> HS]. apply pbind_ok in H. destruct H as (e11 & [pk vk] & e12 & H11 & H & ->). apply try_ok in H11. destruct H11 as [HK ->].
  apply pbind_ok in H. destruct H as (e13 & u & e14 & H13 & H & ->). apply save_ok in H13. destruct H13 as [S1 _].
  apply pbind_ok in H. destruct H as (e15 & [proof pub] & e16 & H15 & H & ->). apply prove_ok in H15. destruct H15 as (S2 & w & Hw & Hp & Hb). cbn [fst snd] in Hp, Hb. subst pub.
  apply pbind_ok in H. destruct H as (e17 & u' & e18 & H17 & H & ->). apply unless_ok in H17. destruct H17 as [HV ->]. cbn in H. injection H as <-.
  exists proof, (e13 ++ e15). split; [now apply Forall_app|]. split; [cbn; now rewrite <- app_assoc|].
  exists inputs, cs, pk, vk, w. repeat split; try assumption. exists srs. now split.
Qed.
Print Assumptions C66_plonk.
(** the words printed are the big endian values of eight blocks of 32 bytes *)
Definition be (l : list Z) : Z := fold_right (fun ab acc => acc + fst ab * 256 ^ Z.of_nat (snd ab)) 0 (combine l (rev (seq 0 (length l)))).
Lemma SetBytes_be l : SetBytes l = be l.
Proof.
  unfold SetBytes. assert (G : forall l acc, fold_left (fun acc x => 256 * acc + x) l acc = acc * 256 ^ Z.of_nat (length l) + be l).
  { clear l. induction l as [|x l IH]; intros acc; [cbn; ring|]. cbn [fold_left]. rewrite IH. unfold be. cbn [length]. rewrite seq_S, rev_app_distr. cbn [rev app combine fold_right fst snd Nat.add].
    rewrite Nat2Z.inj_succ, Z.pow_succ_r by lia. ring. }
  rewrite G. ring.
Qed.
Lemma words_ok n : forall i l ws, words n i l = Some ws -> ws = map (fun j => be (firstn 32 (skipn (32 * j) l))) (seq i n) /\ (n = O \/ 32 * (i + n) <= length l)%nat.
Proof.
  induction n as [|n IH]; intros i l ws H; cbn [words] in H; [injection H as <-; auto|].
  unfold slice in H. destruct (Nat.leb_spec (32 * (i + 1)) (length l)); [|discriminate]. destruct (words n (i + 1) l) as [ws'|] eqn:E; [|discriminate]. apply (f_equal (fun o => match o with Some x => x | None => [] end)) in H. cbv beta iota in H. subst ws.
  apply IH in E. destruct E as [-> E]. replace (32 * (i + 1) - 32 * i)%nat with 32%nat by lia. cbn [seq map]. rewrite SetBytes_be. replace (i + 1)%nat with (S i) by lia. split; [reflexivity|]. right. lia.
Qed.
Theorem C66_groth16 : forall B name save ev, main B name "groth16" false save = (ev, Ok tt) ->
  exists proof saved ws, saving saved /\ ev = saved ++ [Verified; PrintedWords ws] /\
  (256 <= length (raw B proof))%nat /\ ws = map (fun j => be (firstn 32 (skipn (32 * j) (raw B proof)))) (seq 0 8) /\
  proved_and_verified B Groth16 name (fun cs pk vk => groth16Setup B cs = Some (pk, vk)) proof.
Proof.
  intros B name save ev. unfold main. destruct (String.eqb name ""); [discriminate|]. unfold runBenchmark. intros H.
  apply pbind_ok in H. destruct H as (e1 & inputs & e2 & H1 & H & ->). apply must_ok in H1. destruct H1 as [HL ->].
  change (String.eqb "groth16" "plonk") with false in H. change (String.eqb "groth16" "groth16") with true in H. cbn iota in H.
  apply pbind_ok in H. destruct H as (e3 & s & e4 & H3 & H & ->). injection H3 as <- <-.
  apply pbind_ok in H. destruct H as (e5 & cs & e6 & H5 & H & ->). apply try_ok in H5. destruct H5 as [HC ->].
  unfold groth16Proof in H. apply pbind_ok in H. destruct H as (e7 & inputs' & e8 & H7 & H & ->). apply must_ok in H7. destruct H7 as [HL' ->]. assert (inputs' = inputs) as -> by congruence.
  apply pbind_ok in H. destruct H as (e11 & [pk ovk] & e12 & H11 & H & ->). apply try_ok in H11. destruct H11 as [HK ->].
  destruct (groth16Setup B cs) as [[pk' vk]|] eqn:EG; [|discriminate HK]. injection HK as <- <-.
  apply pbind_ok in H. destruct H as (e13 & u & e14 & H13 & H & ->). apply save_ok in H13. destruct H13 as [S1 _].
  apply pbind_ok in H. destruct H as (e15 & [proof pub] & e16 & H15 & H & ->). apply prove_ok in H15. destruct H15 as (S2 & w & Hw & Hp & Hb). cbn [fst snd] in Hp, Hb. subst pub.
  apply pbind_ok in H. destruct H as (e17 & u' & e18 & H17 & H & ->). apply unless_ok in H17. destruct H17 as [HV ->].
  apply pbind_ok in H. destruct H as (e19 & u2 & e20 & H19 & H & ->). injection H19 as <- _.
  apply pbind_ok in H. destruct H as (e21 & ws & e22 & H21 & H & ->). apply must_ok in H21. destruct H21 as [HW ->]. injection H as <-.
  apply words_ok in HW. destruct HW as [EW [?|LW]]; [lia|].
  exists proof, (e13 ++ e15), ws. split; [now apply Forall_app|]. split; [cbn; now rewrite <- app_assoc|]. split; [lia|]. split; [exact EW|].
  exists inputs, cs, pk', vk, w. repeat split; assumption.
Qed.
Print Assumptions C66_groth16.
(** with groth16 and the dummy setup, nothing is verified: the outcome does not depend on the backend's verifier *)
Definition with_verify (B : backend) (v : system -> OuterProof B -> VK B -> PublicWitness B -> bool) : backend :=
  mkBackend (Inputs B) (CS B) (PK B) (VK B) (Params B) (Witness B) (PublicWitness B) (OuterProof B) (load B) (compile B) (testSRS B) (statSRS B) (download B) (readSRS B)
    (plonkSetup B) (groth16Dummy B) (groth16Setup B) (newWitness B) (public_ B) (prove B) v (raw B).
Theorem C66_dummy : forall B name save v, main (with_verify B v) name "groth16" true save = main B name "groth16" true save /\
  ~ In Verified (fst (main B name "groth16" true save)).
Proof.
  intros B name save v. unfold main. destruct (String.eqb name ""); [split; [reflexivity|intros []]|]. unfold runBenchmark, groth16Proof, proveWith, must, try_, pbind, stop, emit, ret, when_, saveKeys.
  cbn. destruct (load B name) as [inputs|]; cbn; [|split; [reflexivity|intros []]]. destruct (compile B Groth16 inputs) as [cs|]; cbn; [|split; [reflexivity|intros []]].
  destruct (groth16Dummy B cs) as [pk|]; cbn; [|split; [reflexivity|intros []]].
  destruct save; cbn; [split; [reflexivity|]; intros [H|[]]; discriminate|].
  destruct (newWitness B inputs) as [w|]; cbn; [|split; [reflexivity|intros []]]. destruct (prove B Groth16 cs pk w) as [pr|]; cbn; [|split; [reflexivity|intros []]].
  split; [reflexivity|]. intros [H|[]]; discriminate.
Qed.
Print Assumptions C66_dummy.
(** and if it is asked to save the artifacts it never succeeds: the verifying key is nil *)
Theorem C66_dummy_save_refuted : forall B name inputs cs pk, name <> ""%string -> load B name = Some inputs -> compile B Groth16 inputs = Some cs -> groth16Dummy B cs = Some pk ->
  main B name "groth16" true true = ([Saved "proving.key"], Abort "nil pointer dereference").
Proof.
  intros B name inputs cs pk N HL HC HG. unfold main. destruct (String.eqb_spec name ""); [congruence|]. unfold runBenchmark, groth16Proof, must, try_, pbind, stop, emit, ret, when_, saveKeys.
  cbn. rewrite HL. cbn. rewrite HC. cbn. rewrite HG. reflexivity.
Qed.
Print Assumptions C66_dummy_save_refuted.

(** ** Example: a backend whose proofs are the witness and whose raw proof is 0, 1, 2, ... *)
Definition B66 : backend := mkBackend Z Z Z Z unit Z Z Z (fun s => if String.eqb s "step" then Some 7 else None) (fun _ i => Some i) (fun _ => Some tt) true (Ok tt) (Some tt)
  (fun cs _ => Some (cs, cs)) (fun cs => Some cs) (fun cs => Some (cs, cs)) (fun i => Some (i + 1)) (fun w => w) (fun _ _ _ w => Some w) (fun _ pr _ w => Z.eqb pr w) (fun _ => map Z.of_nat (seq 0 256)).
Example C66_ex : snd (main B66 "step" "plonk" true true) = Ok tt /\
  fst (main B66 "step" "plonk" false false) = [Verified; PrintedBytes (map Z.of_nat (seq 0 256))] /\
  snd (main B66 "step" "groth16" false true) = Ok tt /\
  main B66 "step" "groth16" true false = ([Skipped], Ok tt) /\ snd (main B66 "step" "groth16" true true) = Abort "nil pointer dereference" /\ snd (main B66 "step" "stark" true true) = Exit.
Proof. repeat split. Qed.
