(** * Property C65: the SRS comes from a chain of contributions that was checked link by link. *)
From Coq Require Import String.
From Coq Require Import ZArith NArith Lia List Bool Ring.
From Verif Require Import Zp Circuit Fr TrustedSetup.
Import ListNotations.
Open Scope Z_scope.

Add Ring FrRing65 : Fr_ring.

(** ** Evaluation *)
Fixpoint fpow (x : Fr) (n : nat) : Fr := match n with O => f1 | S n' => fmul x (fpow x n') end.
Definition fsum (l : list Fr) : Fr := fold_right fadd f0 l.
(** Horner's rule: eval returns the sum of p[i] point^i, for every polynomial but the empty one *)
Lemma fsum_app a b : fsum (a ++ b) = fadd (fsum a) (fsum b).
Proof. induction a as [|x a IH]; cbn [app fsum fold_right]; [change (fold_right fadd f0 b) with (fsum b); ring|]. fold (fsum (a ++ b)). rewrite IH. fold (fsum a). ring. Qed.
Lemma evalLoop_spec p x : forall i res, evalLoop p i x res = fadd (fmul res (fpow x i)) (fsum (map (fun j => fmul (nth j p f0) (fpow x j)) (seq 0 i))).
Proof.
  induction i as [|i IH]; intros res; cbn [evalLoop]; [cbn; ring|]. rewrite IH, seq_S, map_app, fsum_app. cbn [map fsum fold_right fpow Nat.add]. ring.
Qed.
Lemma index_ok {A} (l : list A) i (d : A) : 0 <= i < Z.of_nat (length l) -> index l i = Ok (nth (Z.to_nat i) l d).
Proof.
  intros H. unfold index. replace (i <? 0) with false by (symmetry; apply Z.ltb_ge; lia). rewrite (nth_error_nth' l d); [reflexivity|]. lia.
Qed.
Lemma index_inv {A} (l : list A) i a : index l i = Ok a -> 0 <= i < Z.of_nat (length l) /\ nth_error l (Z.to_nat i) = Some a.
Proof.
  unfold index. destruct (Z.ltb_spec i 0); [discriminate|]. destruct (nth_error l (Z.to_nat i)) as [b|] eqn:E; [|discriminate]. intros [= ->].
  split; [|reflexivity]. apply nth_error_Some_lt in E || (assert (nth_error l (Z.to_nat i) <> None) by congruence; apply nth_error_Some in H0; lia).
Qed.
Theorem C65_eval : forall p x, eval p x = match p with [] => Abort "index out of range" | _ => Ok (fsum (map (fun j => fmul (nth j p f0) (fpow x j)) (seq 0 (length p)))) end.
Proof.
  intros [|a p] x; [reflexivity|]. unfold eval. rewrite (index_ok _ _ f0) by (cbn [length]; lia). cbn [rbind].
  replace (length (a :: p) - 1)%nat with (length p) by (cbn [length]; lia). f_equal. rewrite evalLoop_spec.
  cbn [length]. rewrite seq_S, map_app, fsum_app. replace (Z.to_nat (Z.of_nat (S (length p)) - 1)) with (length p) by lia.
  cbn [map fsum fold_right Nat.add]. ring.
Qed.
Print Assumptions C65_eval.
Example C65_eval_ex : eval [finj 5; finj 0; finj 3] (finj 10) = Ok (finj 305).
Proof. rewrite C65_eval. cbn [length seq map nth fpow]. unfold fsum. cbn [fold_right]. f_equal. Qed.

(** ** The chain
    The file is written only if every participant from startIdx on could be downloaded, each of
    them follows the one before, and the sanity check passed; what is written is built from the last one. *)
Definition link (I : ignition) (c : nat -> Contribution I) (i : nat) : Prop := Follows I (c (S i)) (c i) = true.
Definition srs_of {I : ignition} (c : Contribution I) (srs : SRS I) : Prop :=
  pkG1 srs = cG1 I c /\ nth_error (cG1 I c) 0 = Some (vkG1 srs) /\ fst (vkG2 srs) = g2gen I /\ nth_error (cG2 I c) 0 = Some (snd (vkG2 srs)).
Definition checked {I : ignition} (K : kzg I) (srs : SRS I) : Prop :=
  let f := map (random K) (seq 0 60) in
  exists d o, Commit K f (pkG1 srs) = Some d /\ Open_ K f (finj 4321) (pkG1 srs) = Some o /\
    ClaimedValue K o = fsum (map (fun j => fmul (random K j) (fpow (finj 4321) j)) (seq 0 60)) /\
    VerifyOpening K d o (finj 4321) (vkG1 srs, vkG2 srs) = true.
Lemma sanity_checked {I} (K : kzg I) srs : sanityCheck K srs = Ok tt <-> checked K srs.
Proof.
  unfold sanityCheck, checked, randomPolynomial. rewrite C65_eval.
  remember (map (random K) (seq 0 60)) as f eqn:Ef.
  assert (V : match f with [] => Abort "index out of range" | _ => Ok (fsum (map (fun j => fmul (nth j f f0) (fpow (finj 4321) j)) (seq 0 (length f)))) end =
              Ok (fsum (map (fun j => fmul (random K j) (fpow (finj 4321) j)) (seq 0 60)))).
  { assert (Lf : length f = 60%nat) by (subst f; now rewrite map_length, seq_length). destruct f as [|x f']; [discriminate Lf|]. f_equal. f_equal. rewrite Lf.
    apply map_ext_in. intros j Hj. apply in_seq in Hj. f_equal. rewrite Ef. rewrite (nth_indep _ f0 (random K 0)) by (rewrite map_length, seq_length; lia).
    rewrite map_nth, seq_nth by lia. reflexivity. }
  rewrite V. clear V Ef. set (e := fsum _). destruct (Commit K f (pkG1 srs)) as [d|]; cbn [orExit rbind]; [|split; [discriminate|intros (? & ? & ? & _); discriminate]].
  destruct (Open_ K f (finj 4321) (pkG1 srs)) as [o|]; cbn [orExit rbind]; [|split; [discriminate|intros (? & ? & _ & ? & _); discriminate]].
  destruct (Z.eqb_spec (frep (ClaimedValue K o)) (frep e)) as [E|E]; cbn [unlessExit rbind].
  - destruct (VerifyOpening K d o (finj 4321) (vkG1 srs, vkG2 srs)) eqn:EV; cbn [unlessExit].
    + split; [intros _|reflexivity]. exists d, o. repeat split; try assumption. now apply Fr_eq.
    + split; [discriminate|]. intros (d' & o' & Hd & Ho & _ & HV). injection Hd as <-. injection Ho as <-. congruence.
  - split; [discriminate|]. intros (d' & o' & Hd & Ho & HV & _). injection Hd as <-. injection Ho as <-. now rewrite HV in E.
Qed.
Section Chain.
  Context (I : ignition) (ps : list (Participant I)).
  Lemma get_inv s b i s' : get_ I ps s b i = Ok s' -> exists p c, 0 <= i < Z.of_nat (length ps) /\ nth_error ps (Z.to_nat i) = Some p /\ Get I p = Some c /\ s' = set_ I s b c.
  Proof.
    unfold get_. destruct (index ps i) as [p| |m] eqn:E; cbn [rbind]; try discriminate. apply index_inv in E. destruct E as [R N].
    destruct (Get I p) as [c|] eqn:G; cbn [orExit rbind]; [|discriminate]. intros [= <-]. now exists p, c.
  Qed.
  Lemma get_ok s b i p c : nth_error ps i = Some p -> Get I p = Some c -> get_ I ps s b (Z.of_nat i) = Ok (set_ I s b c).
  Proof.
    intros N G. unfold get_. assert (i < length ps)%nat by (apply nth_error_Some; congruence). rewrite (index_ok _ _ p) by lia. rewrite Nat2Z.id, (nth_error_nth _ _ p N).
    cbn [rbind]. now rewrite G.
  Qed.
  Definition got (i : nat) (c : Contribution I) : Prop := exists p, nth_error ps i = Some p /\ Get I p = Some c.
  Lemma got_fun i c c' : got i c -> got i c' -> c = c'.
  Proof. intros (p & N & G) (p' & N' & G'). congruence. Qed.
  (** the loop: next holds contribution i - 1 *)
  Lemma chain_ok n : forall i s s', next I s = negb (current I s) -> got (i - 1) (cells I s (next I s)) -> (1 <= i)%nat ->
    chain I ps n (Z.of_nat i) s = Ok s' <->
    exists c : nat -> Contribution I, c (i - 1)%nat = cells I s (next I s) /\ (forall j, (i <= j < i + n)%nat -> got j (c j) /\ link I c (j - 1)) /\
      chain I ps n (Z.of_nat i) s = Ok s' /\ cells I s' (next I s') = c (i + n - 1)%nat.
  Proof.
    induction n as [|n IH]; intros i s s' Hn Hg Hi.
    - split; [|intros (c & _ & _ & H & _); exact H]. intros H. exists (fun _ => cells I s (next I s)). split; [reflexivity|]. split; [lia|]. split; [exact H|].
      cbn [chain] in H. now injection H as <-.
    - split; [|intros (c & _ & _ & H & _); exact H]. intros H. pose proof H as H0. cbn [chain] in H. cbn [next current cells] in H.
      destruct (get_ I ps (mkStore I (cells I s) (next I s) (current I s)) (current I s) (Z.of_nat i)) as [s2| |m] eqn:E; cbn [rbind] in H; try discriminate.
      apply get_inv in E. destruct E as (p & ci & _ & N & G & ->). rewrite Nat2Z.id in N.
      set (s2 := set_ I (mkStore I (cells I s) (next I s) (current I s)) (current I s) ci) in *.
      assert (C1 : cells I s2 (next I s2) = ci) by (unfold s2, set_; cbn; now rewrite Bool.eqb_reflx).
      assert (C2 : cells I s2 (current I s2) = cells I s (next I s)).
      { unfold s2, set_. cbn. rewrite Hn. now destruct (current I s). }
      unfold follows_ in H. rewrite C1, C2 in H. destruct (Follows I ci (cells I s (next I s))) eqn:F; cbn [unlessExit rbind] in H; [|discriminate].
      replace (Z.of_nat i + 1) with (Z.of_nat (S i)) in H by lia.
      assert (Hn2 : next I s2 = negb (current I s2)) by (unfold s2, set_; cbn; rewrite Hn; now destruct (current I s)).
      apply IH in H; [|exact Hn2|rewrite C1; replace (S i - 1)%nat with i by lia; now exists p|lia].
      destruct H as (c & Hc & HL & _ & HE). replace (S i - 1)%nat with i in Hc by lia. rewrite C1 in Hc.
      exists (fun j => if Nat.eqb j (i - 1) then cells I s (next I s) else c j). rewrite Nat.eqb_refl. split; [reflexivity|]. split; [|split; [exact H0|]].
      + intros j Hj. replace (Nat.eqb j (i - 1)) with false by (symmetry; apply Nat.eqb_neq; lia). destruct (Nat.eq_dec j i) as [->|Nj].
        * split; [rewrite Hc; now exists p|]. unfold link. rewrite Nat.eqb_refl. replace (S (i - 1)) with i by lia. replace (Nat.eqb i (i - 1)) with false by (symmetry; apply Nat.eqb_neq; lia). now rewrite Hc.
        * destruct (HL j ltac:(lia)) as [A B]. split; [exact A|]. unfold link in *. replace (S (j - 1)) with j in * by lia.
          replace (Nat.eqb j (i - 1)) with false by (symmetry; apply Nat.eqb_neq; lia). replace (Nat.eqb (j - 1) (i - 1)) with false by (symmetry; apply Nat.eqb_neq; lia). exact B.
      + replace (Nat.eqb (i + S n - 1) (i - 1)) with false by (symmetry; apply Nat.eqb_neq; lia). rewrite HE. f_equal. lia.
  Qed.
  Lemma chain_complete n : forall i s (c : nat -> Contribution I), next I s = negb (current I s) -> (1 <= i)%nat -> cells I s (next I s) = c (i - 1)%nat ->
    (forall j, (i <= j < i + n)%nat -> got j (c j) /\ link I c (j - 1)) -> exists s', chain I ps n (Z.of_nat i) s = Ok s' /\ cells I s' (next I s') = c (i + n - 1)%nat.
  Proof.
    induction n as [|n IH]; intros i s c Hn Hi Hc HL.
    - exists s. split; [reflexivity|]. rewrite Hc. f_equal. lia.
    - destruct (HL i ltac:(lia)) as [(p & N & G) L]. cbn [chain]. cbn [next current cells].
      rewrite (get_ok _ _ i p (c i) N G). cbn [rbind].
      set (s2 := set_ I (mkStore I (cells I s) (next I s) (current I s)) (current I s) (c i)).
      assert (C1 : cells I s2 (next I s2) = c i) by (unfold s2, set_; cbn; now rewrite Bool.eqb_reflx).
      assert (C2 : cells I s2 (current I s2) = c (i - 1)%nat).
      { rewrite <- Hc. unfold s2, set_. cbn. rewrite Hn. now destruct (current I s). }
      unfold follows_. rewrite C1, C2. unfold link in L. replace (S (i - 1)) with i in L by lia. rewrite L. cbn [unlessExit rbind].
      replace (Z.of_nat i + 1) with (Z.of_nat (S i)) by lia.
      destruct (IH (S i) s2 c) as (s' & E1 & E2).
      + unfold s2, set_; cbn; rewrite Hn; now destruct (current I s).
      + lia.
      + rewrite C1. f_equal. lia.
      + intros j Hj. apply HL. lia.
      + exists s'. split; [exact E1|]. rewrite E2. f_equal. lia.
  Qed.
End Chain.
Theorem C65_chain : forall I (K : kzg I) manifest start srs, DownloadAndSaveAztecIgnitionSrs I K manifest start = Ok srs <->
  cacheDir I = true /\ create K = true /\ write K srs = true /\ checked K srs /\
  exists ps (c : nat -> Contribution I), manifest = Some ps /\ 0 <= start /\ start + 1 < Z.of_nat (length ps) /\
    (forall i, (Z.to_nat start <= i < length ps)%nat -> exists p, nth_error ps i = Some p /\ Get I p = Some (c i)) /\
    (forall i, (Z.to_nat start <= i)%nat -> (S i < length ps)%nat -> Follows I (c (S i)) (c i) = true) /\
    srs_of (c (length ps - 1)%nat) srs.
Proof.
  intros I K manifest start srs. unfold DownloadAndSaveAztecIgnitionSrs. split.
  - destruct (cacheDir I); cbn [unlessExit rbind]; [|discriminate]. destruct manifest as [ps|] ; cbn [orExit rbind]; [|discriminate].
    cbn [current next]. intros H.
    destruct (get_ I ps _ false start) as [s1| |m] eqn:E1; cbn [rbind] in H; try discriminate. apply get_inv in E1. destruct E1 as (p0 & c0 & R0 & N0 & G0 & ->).
    destruct (get_ I ps _ _ (start + 1)) as [s2| |m] eqn:E2 in H; cbn [rbind] in H; try discriminate. apply get_inv in E2. destruct E2 as (p1 & c1 & R1 & N1 & G1 & ->).
    destruct (follows_ I _) as [u| |m] eqn:EF in H; try discriminate. unfold follows_ in EF. cbn in EF. destruct (Follows I c1 c0) eqn:F; [|discriminate]. clear EF.
    cbn [rbind] in H.
    replace (Z.to_nat (start + 1)) with (S (Z.to_nat start)) in N1 by lia.
    replace (start + 2) with (Z.of_nat (Z.to_nat start + 2)) in H by lia.
    destruct (chain I ps _ _ _) as [s3| |m] eqn:EC in H; cbn [rbind] in H; try discriminate.
    set (n := Z.to_nat (Z.of_nat (length ps) - Z.of_nat (Z.to_nat start + 2))) in *.
    apply chain_ok in EC; [|reflexivity| |lia].
    2:{ cbn. replace (Z.to_nat start + 2 - 1)%nat with (S (Z.to_nat start)) by lia. now exists p1. }
    destruct EC as (c & Hc & HL & _ & HE). cbn in Hc. rewrite HE in H. clear HE.
    replace (Z.to_nat start + 2 - 1)%nat with (S (Z.to_nat start)) in Hc by lia.
    replace (Z.to_nat start + 2 + n - 1)%nat with (length ps - 1)%nat in H by lia.
    set (cl := c (length ps - 1)%nat) in *.
    destruct (index (cG1 I cl) 0) as [x1| |m] eqn:X1; cbn [rbind] in H; try discriminate. apply index_inv in X1. destruct X1 as [_ X1]. change (Z.to_nat 0) with O in X1.
    destruct (index (cG2 I cl) 0) as [x2| |m] eqn:X2; cbn [rbind] in H; try discriminate. apply index_inv in X2. destruct X2 as [_ X2]. change (Z.to_nat 0) with O in X2.
    destruct (sanityCheck K _) as [[]| |m] eqn:SC in H; cbn [rbind] in H; try discriminate. apply sanity_checked in SC.
    destruct (create K); cbn [unlessExit rbind] in H; [|discriminate].
    destruct (write K _) eqn:EW in H; cbn [unlessExit rbind] in H; [|discriminate]. injection H as <-.
    split; [reflexivity|]. split; [reflexivity|]. split; [exact EW|]. split; [exact SC|].
    exists ps, (fun j => if Nat.eqb j (Z.to_nat start) then c0 else c j). split; [reflexivity|]. split; [lia|]. split; [lia|]. split; [|split].
    + intros i Hi. destruct (Nat.eqb_spec i (Z.to_nat start)) as [->|Ni]; [now exists p0|]. destruct (Nat.eq_dec i (S (Z.to_nat start))) as [->|Ni']; [rewrite Hc; now exists p1|].
      apply HL. lia.
    + intros i Hi Hi'. replace (Nat.eqb (S i) (Z.to_nat start)) with false by (symmetry; apply Nat.eqb_neq; lia).
      destruct (Nat.eqb_spec i (Z.to_nat start)) as [->|Ni]; [now rewrite Hc|]. destruct (HL (S i) ltac:(lia)) as [_ L]. unfold link in L. replace (S i - 1)%nat with i in L by lia. exact L.
    + replace (Nat.eqb (length ps - 1) (Z.to_nat start)) with false by (symmetry; apply Nat.eqb_neq; lia). fold cl. unfold srs_of. cbn. auto.
  - intros (H1 & H2 & H3 & H4 & ps & c & EM & S0 & S1 & HG & HF & (E1 & E2 & E3 & E4)). rewrite H1, EM. cbn [unlessExit orExit rbind current next].
    destruct (HG (Z.to_nat start) ltac:(lia)) as (p0 & N0 & G0). destruct (HG (S (Z.to_nat start)) ltac:(lia)) as (p1 & N1 & G1).
    replace (get_ I ps (mkStore I (fun _ => NewContribution I) false true) false start) with (get_ I ps (mkStore I (fun _ => NewContribution I) false true) false (Z.of_nat (Z.to_nat start))) by (f_equal; lia).
    rewrite (get_ok I ps _ _ _ _ _ N0 G0). cbn [rbind].
    set (s1 := set_ I _ false _). replace (start + 1) with (Z.of_nat (S (Z.to_nat start))) by lia. rewrite (get_ok I ps _ _ _ _ _ N1 G1). cbn [rbind].
    match goal with |- context [follows_ I ?s] => assert (FO : follows_ I s = Ok tt) by (unfold follows_; cbn; now rewrite (HF (Z.to_nat start) ltac:(lia) ltac:(lia))); rewrite FO end. cbn [rbind].
    replace (start + 2) with (Z.of_nat (Z.to_nat start + 2)) by lia.
    set (n := Z.to_nat (Z.of_nat (length ps) - Z.of_nat (Z.to_nat start + 2))).
    match goal with |- context [chain I ps n _ ?s] => destruct (chain_complete I ps n (Z.to_nat start + 2) s c) as (s' & C1 & C2) end.
    + reflexivity.
    + lia.
    + cbn. f_equal. lia.
    + intros j Hj. split; [apply HG; lia|]. unfold link. apply HF; lia.
    + rewrite C1. cbn [rbind]. rewrite C2. replace (Z.to_nat start + 2 + n - 1)%nat with (length ps - 1)%nat by lia.
      unfold index. change (0 <? 0) with false. change (Z.to_nat 0) with O. cbn iota. rewrite E2, E4. cbn [rbind].
      replace (mkSRS (cG1 I (c (length ps - 1)%nat)) (vkG1 srs) (g2gen I, snd (vkG2 srs))) with srs.
      2:{ destruct srs as [a b [d e]]. cbn in *. congruence. }
      rewrite (proj2 (sanity_checked K srs) H4). cbn [rbind]. now rewrite H2, H3.
Qed.
Print Assumptions C65_chain.

(** ** What is not checked: the contributions before startIdx (benchmark.go starts at 174) have no influence *)
Lemma index_prefix {A} (a b l : list A) i : length a = length b -> Z.of_nat (length a) <= i -> index (a ++ l) i = index (b ++ l) i.
Proof.
  intros L H. unfold index. destruct (i <? 0); [reflexivity|]. rewrite !nth_error_app2 by lia. now rewrite L.
Qed.
Lemma chain_prefix I (a b l : list (Participant I)) n : length a = length b -> forall i s, Z.of_nat (length a) <= i -> chain I (a ++ l) n i s = chain I (b ++ l) n i s.
Proof.
  intros L. induction n as [|n IH]; intros i s H; [reflexivity|]. cbn [chain]. unfold get_. rewrite (index_prefix a b l i L H).
  destruct (rbind (index (b ++ l) i) _) as [s2| |m]; cbn [rbind]; [|reflexivity|reflexivity]. destruct (follows_ I s2); cbn [rbind]; [|reflexivity|reflexivity]. apply IH. lia.
Qed.
Theorem C65_unchecked : forall I (K : kzg I) before before' after start, Z.of_nat (length before) = start -> length before' = length before ->
  DownloadAndSaveAztecIgnitionSrs I K (Some (before ++ after)) start = DownloadAndSaveAztecIgnitionSrs I K (Some (before' ++ after)) start.
Proof.
  intros I K a b l start Hs L. symmetry in L. unfold DownloadAndSaveAztecIgnitionSrs. destruct (cacheDir I); cbn [unlessExit orExit rbind]; [|reflexivity].
  unfold get_. rewrite (index_prefix a b l start L) by lia. rewrite (index_prefix a b l (start + 1) L) by lia. rewrite !app_length, L.
  destruct (index (b ++ l) start); cbn [rbind]; try reflexivity. destruct (orExit _); cbn [rbind]; try reflexivity. destruct (index (b ++ l) (start + 1)); cbn [rbind]; try reflexivity.
  destruct (orExit _); cbn [rbind]; try reflexivity. destruct (follows_ I _); cbn [rbind]; try reflexivity. rewrite (chain_prefix I a b l) by (try exact L; lia). reflexivity.
Qed.
Print Assumptions C65_unchecked.

(** ** Example: contribution i is the number 2^i, which follows 2^(i-1); participants are downloaded as their number *)
Definition I65 : ignition := mkIgnition Z Z Z Z true 1 (fun p => if p <? 0 then None else Some (2 ^ p)) (fun x y => Z.eqb x (2 * y)) (fun c => [1; c; c * c]) (fun c => [c]) 1.
Definition K65 : kzg I65 := mkKzg I65 unit Fr (fun _ _ => Some tt) (fun f x _ => match eval f x with Ok v => Some v | _ => None end) (fun v => v) (fun _ _ _ _ => true) (fun n => finj (Z.of_nat n)) true (fun _ => true).
Example C65_ex : DownloadAndSaveAztecIgnitionSrs I65 K65 (Some [-1; 5; 6; 7]) 1 = Ok (mkSRS (I := I65) [1; 128; 16384] 1 (1, 128)) /\
  DownloadAndSaveAztecIgnitionSrs I65 K65 (Some [-1; 5; 7; 8]) 1 = Exit /\
  DownloadAndSaveAztecIgnitionSrs I65 K65 (Some [-1; 5; 6; 8]) 1 = Exit /\
  DownloadAndSaveAztecIgnitionSrs I65 K65 (Some [4; 5; 6; 7]) 3 = Abort "index out of range".
Proof.
  split; [|repeat split; vm_compute; reflexivity]. apply C65_chain. repeat (split; [reflexivity|]). split.
  - exists tt. eexists. split; [reflexivity|]. split; [cbn [Open_ K65]; rewrite C65_eval; reflexivity|]. split; [reflexivity|reflexivity].
  - exists [-1; 5; 6; 7], (fun i => 2 ^ (Z.of_nat i + 4)). split; [reflexivity|]. split; [lia|]. split; [cbn; lia|]. split; [|split].
    + intros i Hi. cbn in Hi. destruct i as [|[|[|[|i]]]]; try lia; (eexists; split; [reflexivity|reflexivity]).
    + intros i Hi Hi'. cbn in Hi, Hi'. destruct i as [|[|[|i]]]; try lia; reflexivity.
    + repeat split.
Qed.
