(** * The BN254 Poseidon of bn254.go is the textbook permutation. *)
From Coq Require Import ZArith Lia List Bool Ring.
From Verif Require Import Zp Circuit Fr LinAlg Sparse BN254Const BN254Spec BN254.
Import ListNotations.
Open Scope Z_scope.

Add Ring Fr_ring_ : Fr_ring.

Notation rl := (map frep).
Notation FrMv := (mv f0 fadd fmul).
Notation fva := (va fadd).

(** ** The code's layers as vector operations *)
Lemma api_add_const a c : api_add (frep a) c = frep (fadd a (finj c)).
Proof. unfold api_add, fadd. cbn [frep finj]. now rewrite Zplus_mod_idemp_r. Qed.
Lemma api_mul_rep a b : api_mul (frep a) (frep b) = frep (fmul a b).
Proof. reflexivity. Qed.
Lemma mulacc_cl a c b : api_mulacc (frep a) c (frep b) = frep (fadd a (fmul (finj c) b)).
Proof.
  unfold api_mulacc, fadd, fmul. cbn [frep finj].
  now rewrite Zmult_mod_idemp_l, Zplus_mod_idemp_r.
Qed.
Lemma mulacc_cr a b c : api_mulacc (frep a) (frep b) c = frep (fadd a (fmul b (finj c))).
Proof.
  unfold api_mulacc, fadd, fmul. cbn [frep finj].
  now rewrite Zmult_mod_idemp_r, Zplus_mod_idemp_r.
Qed.
Lemma exp5_rep a : exp5 (frep a) = frep (pow5 a).
Proof. unfold exp5. rewrite !api_mul_rep. apply f_equal. unfold pow5. ring. Qed.

Lemma four {A} (P : list A -> Prop) : (forall a b c d, P [a; b; c; d]) -> forall s, length s = 4%nat -> P s.
Proof.
  intros H [|a [|b [|c [|d [|e s]]]]] E; try discriminate E. apply H.
Qed.

Lemma exp5state_rep s : length s = 4%nat -> exp5state (rl s) = rl (map pow5 s).
Proof.
  revert s. apply four. intros a b c d. unfold exp5state. cbn [seq map nth]. now rewrite !exp5_rep.
Qed.
Definition cz (it : nat) : list Z := map (fun i => nth (it + i) cConstants 0) (seq 0 4).
Lemma ark_rep s it : length s = 4%nat -> ark (rl s) it = rl (fva s (map finj (cz it))).
Proof.
  revert s. apply four. intros a b c d. unfold ark, cz. cbn [seq map nth]. rewrite !api_add_const. reflexivity.
Qed.
(** columns as rows *)
Definition trow (M : list (list Z)) (i : nat) : list Z := map (fun j => nth i (nth j M []) 0) (seq 0 4).
Definition tr (M : list (list Z)) : list (list Z) := map (trow M) (seq 0 4).
Lemma mix_rep s M : length s = 4%nat -> mix (rl s) M = rl (FrMv (map (map finj) (tr M)) s).
Proof.
  revert s. apply four. intros a b c d. unfold mix, mv, tr. rewrite !map_map. apply map_ext. intros i.
  unfold trow. cbn [seq map fold_left nth dot].
  change 0 with (frep f0) at 1. rewrite !mulacc_cl. apply f_equal. ring.
Qed.

Definition m00z : Z := nth 0 (nth 0 mMatrix []) 0.
Definition dataz (i : nat) : rdata Z :=
  {| rC := map (fun j => nth (4 * (4 + i) + j) RCtable 0) (seq 0 4);
     rF := nth ((4 + 1) * 4 + i) cConstants 0;
     rW := map (fun j => nth ((4 * 2 - 1) * i + j) sConstants 0) (seq 1 3);
     rV := map (fun k => nth ((4 * 2 - 1) * i + 4 + k - 1) sConstants 0) (seq 1 3) |}.
Definition psd := Sparse.psd finj.

Definition round_fn (d : rdata Fr) (m : Fr) (s : list Fr) : list Fr :=
  fmds f0 fadd fmul m d (fadd (pow5 (hd f0 s)) (rF d) :: tl s).
Lemma partialRound_rep s i : length s = 4%nat ->
  partialRound (rl s) i
  = rl (round_fn (psd (dataz i)) (finj (nth ((4 * 2 - 1) * i) sConstants 0)) s).
Proof.
  revert s. apply four. intros a b c d. unfold partialRound, round_fn, fmds.
  cbn [map hd tl nth]. rewrite exp5_rep, api_add_const.
  cbn [psd Sparse.psd dataz rF rW rV]. set (x := fadd (pow5 a) _).
  generalize ((4 * 2 - 1) * i)%nat. intros q. cbn [seq fold_left nth map psv Sparse.psv dot sc va map2 hd tl].
  rewrite Nat.add_0_r. change 0 with (frep f0) at 1. rewrite !mulacc_cl, !mulacc_cr.
  apply f_equal2; [apply f_equal; ring|].
  repeat (apply f_equal2; [apply f_equal; ring|]). reflexivity.
Qed.

(** ** Constant checks over Z modulo r *)
Notation zmv := (mv 0 Z.add Z.mul).
Definition Az : list (list Z) := tr mMatrix.
Definition Pz : list (list Z) := tr pMatrix.
Definition RCz (k : nat) : list Z := map (fun i => nth (4 * k + i) RCtable 0) (seq 0 4).
Definition mhz : list (list Z) := map (@tl Z) (tl Az).
Definition vrowz : list Z := tl (hd [] Az).
Definition wcolz : list Z := map (hd 0) (tl Az).
Definition Ac16 : list Z := zm r (zmv Az (cz 16)).
Definition b0z : list Z := vs Z.sub (tl (RCz 4)) (tl Ac16).
Definition zsq (M N : list (list Z)) : list (list Z) := map (zm r) (mm 0 Z.add Z.mul 3 M N).
Definition mh56 : list (list Z) :=
  let m2 := zsq mhz mhz in let m4 := zsq m2 m2 in let m8 := zsq m4 m4 in
  let m16 := zsq m8 m8 in let m32 := zsq m16 m16 in zsq (zsq m32 m16) m8.
Lemma chk_A : zmeqb r MDSt Az = true. Proof. vm_compute. reflexivity. Qed.
Lemma chk_0 : zeqb r (cz 0) (RCz 0) = true. Proof. vm_compute. reflexivity. Qed.
Lemma chk_first : forallb (fun k => zeqb r (zmv Az (cz ((k + 1) * 4))) (RCz (S k))) (seq 0 3) = true.
Proof. vm_compute. reflexivity. Qed.
Lemma chk_last : forallb (fun k => zeqb r (zmv Az (cz ((4 + 1) * 4 + 56 + k * 4))) (RCz (S (60 + k)))) (seq 0 3) = true.
Proof. vm_compute. reflexivity. Qed.
Lemma chk_16 : hd 0 Ac16 = hd 0 (RCz 4). Proof. vm_compute. reflexivity. Qed.
Lemma chk_P : zmeqb r Pz (hd [] Az :: map (zm r) (mm 0 Z.add Z.mul 4 mh56 (tl Az))) = true.
Proof. vm_compute. reflexivity. Qed.
Lemma chk_m00 : forallb (fun i => nth ((4 * 2 - 1) * i) sConstants 0 =? m00z) (seq 0 56) = true.
Proof. vm_compute. reflexivity. Qed.
Lemma chk_good : goodb r 3 m00z vrowz wcolz (RCz 60) mhz (map dataz (seq 0 56)) b0z = true.
Proof. vm_compute. reflexivity. Qed.

(** ** Lifting the checks to Fr *)
Notation psv := (Sparse.psv finj).
Lemma psi0 : finj 0 = f0. Proof. now rewrite f0_inj. Qed.
Lemma psi1 : finj 1 = f1. Proof. now rewrite f1_inj. Qed.

Lemma psv_RC k : psv (RCz k) = RCb k.
Proof. unfold Sparse.psv, RCz, RCb. now rewrite map_map. Qed.
Lemma ZE a b : zeqb r a b = true -> psv a = psv b.
Proof. exact (zeqb_eq r r_pos f0 f1 fadd fmul fsub fopp Fr_ring finj psi0 finj_add finj_mul finj_r a b). Qed.
Lemma ZM a b : zmeqb r a b = true -> map psv a = map psv b.
Proof. exact (zmeqb_eq r r_pos f0 f1 fadd fmul fsub fopp Fr_ring finj psi0 finj_add finj_mul finj_r a b). Qed.
Lemma cp_0 : psv (cz 0) = RCb 0.
Proof. rewrite <- psv_RC. exact (ZE _ _ chk_0). Qed.
Lemma cp_first k : (k < 3)%nat -> psv (zmv Az (cz ((k + 1) * 4))) = RCb (S k).
Proof.
  intros Hk. rewrite <- psv_RC. apply ZE.
  exact (proj1 (forallb_forall _ _) chk_first k (proj2 (in_seq 3 0 k) (conj (Nat.le_0_l k) Hk))).
Qed.
Lemma cp_last k : (k < 3)%nat -> psv (zmv Az (cz ((4 + 1) * 4 + 56 + k * 4))) = RCb (S (60 + k)).
Proof.
  intros Hk. rewrite <- psv_RC. apply ZE.
  exact (proj1 (forallb_forall _ _) chk_last k (proj2 (in_seq 3 0 k) (conj (Nat.le_0_l k) Hk))).
Qed.
Lemma cp_P : map psv Pz = map psv (hd [] Az :: map (zm r) (mm 0 Z.add Z.mul 4 mh56 (tl Az))).
Proof. exact (ZM _ _ chk_P). Qed.
Lemma cp_m00 i : (i < 56)%nat -> nth ((4 * 2 - 1) * i) sConstants 0 = m00z.
Proof.
  intros Hi. apply Z.eqb_eq.
  exact (proj1 (forallb_forall _ _) chk_m00 i (proj2 (in_seq 56 0 i) (conj (Nat.le_0_l i) Hi))).
Qed.
Lemma cp_good :
  good f0 fadd fmul fsub 3 (finj m00z) (psv vrowz) (psv wcolz) (psv (RCz 60)) (map psv mhz)
    (map psd (map dataz (seq 0 56))) (psv b0z).
Proof.
  exact (goodb_good r r_pos 3 m00z vrowz wcolz (RCz 60) mhz f0 f1 fadd fmul fsub fopp Fr_ring finj psi0
           finj_add finj_mul finj_r _ _ chk_good).
Qed.

Lemma Ab_Az : Ab = map psv Az.
Proof. exact (ZM _ _ chk_A). Qed.
Lemma map_psv M : map (map finj) M = map psv M. Proof. reflexivity. Qed.
Lemma len_Ab x : length (FrMv Ab x) = 4%nat. Proof. rewrite len_mv. reflexivity. Qed.
Lemma len_RCb k : length (RCb k) = 4%nat. Proof. reflexivity. Qed.
Lemma len_cz k : length (map finj (cz k)) = 4%nat. Proof. reflexivity. Qed.
Lemma psv_zmv M x : psv (zmv M x) = FrMv (map psv M) (psv x).
Proof. apply (psv_mv f0 fadd fmul finj psi0 finj_add finj_mul). Qed.
Lemma mvA_va x y : length x = length y -> FrMv Ab (fva x y) = fva (FrMv Ab x) (FrMv Ab y).
Proof. apply (mv_va f0 f1 fadd fmul fsub fopp Fr_ring). Qed.
Lemma len_round k s : length (hades_round k s) = 4%nat. Proof. apply len_Ab. Qed.

(** invariant: the code's state is the textbook state plus the next round constants *)
Lemma full_step s k it : length s = 4%nat -> (k < 4 \/ 60 <= k)%nat -> psv (zmv Az (cz it)) = RCb (S k) ->
  mix (ark (exp5state (rl (fva s (RCb k)))) it) mMatrix = rl (fva (hades_round k s) (RCb (S k))).
Proof.
  intros Ls Hk E.
  assert (L1 : length (fva s (RCb k)) = 4%nat) by (rewrite len_va; rewrite ?len_RCb; exact Ls).
  rewrite exp5state_rep by exact L1.
  rewrite ark_rep by (rewrite map_length; exact L1).
  rewrite mix_rep by (rewrite len_va; rewrite ?map_length; rewrite ?L1; reflexivity).
  apply f_equal. rewrite map_psv. fold Az. rewrite <- Ab_Az. rewrite mvA_va by (rewrite map_length, L1; reflexivity).
  rewrite <- E, psv_zmv, <- Ab_Az. apply f_equal2; [|reflexivity].
  unfold hades_round.
  replace (Nat.ltb k 4 || Nat.leb 60 k) with true; [reflexivity|].
  symmetry. apply orb_true_iff. rewrite Nat.ltb_lt, Nat.leb_le. exact Hk.
Qed.

Lemma last_step s k : length s = 4%nat -> (60 <= k)%nat ->
  mix (exp5state (rl (fva s (RCb k)))) mMatrix = rl (hades_round k s).
Proof.
  intros Ls Hk.
  assert (L1 : length (fva s (RCb k)) = 4%nat) by (rewrite len_va; rewrite ?len_RCb; exact Ls).
  rewrite exp5state_rep by exact L1.
  rewrite mix_rep by (rewrite map_length; exact L1).
  apply f_equal. rewrite map_psv. fold Az. rewrite <- Ab_Az. unfold hades_round.
  replace (Nat.ltb k 4 || Nat.leb 60 k) with true; [reflexivity|].
  symmetry. apply orb_true_iff. rewrite Nat.ltb_lt, Nat.leb_le. auto.
Qed.

(** mh56 acts as the 56-fold application of Mh *)
Notation Mhf := (FrMv (map psv mhz)).
Definition square3 (M : list (list Z)) : Prop := length M = 3%nat /\ forall a, In a M -> length a = 3%nat.
Lemma zsq_square M N : square3 M -> square3 N -> square3 (zsq M N).
Proof.
  intros [L1 _] [_ R2]. unfold zsq, mm. rewrite map_map. split; [now rewrite map_length|].
  intros a Ha. apply in_map_iff in Ha. destruct Ha as (x & <- & _). unfold zm. rewrite map_length. now apply len_vm.
Qed.
Lemma zsq_act M N x : (forall a, In a N -> length a = 3%nat) ->
  FrMv (map psv (zsq M N)) x = FrMv (map psv M) (FrMv (map psv N) x).
Proof.
  intros HN. unfold zsq. rewrite map_map.
  rewrite (map_ext _ psv) by apply (psv_zm r r_pos f0 f1 fadd fmul fsub fopp Fr_ring finj finj_add finj_mul finj_r).
  unfold mm. rewrite map_map.
  rewrite (map_ext _ (fun a => vm f0 fadd fmul 3 (psv a) (map psv N)))
    by (intros; apply (psv_vm f0 fadd fmul finj psi0 finj_add finj_mul)).
  rewrite <- (mm_mv f0 f1 fadd fmul fsub fopp Fr_ring 3).
  - unfold mm. now rewrite map_map.
  - intros b Hb. apply in_map_iff in Hb. destruct Hb as (a & <- & Ha). unfold Sparse.psv. rewrite map_length. auto.
Qed.
Lemma iter_plus {A} (f : A -> A) a b x : Nat.iter a f (Nat.iter b f x) = Nat.iter (a + b) f x.
Proof. induction a as [|a IH]; [reflexivity|]. cbn [Nat.iter nat_rect Nat.add]. now apply f_equal. Qed.
Definition is_pow (M : list (list Z)) (k : nat) : Prop :=
  square3 M /\ forall x, FrMv (map psv M) x = Nat.iter k Mhf x.
Lemma is_pow_mul M N a b : is_pow M a -> is_pow N b -> is_pow (zsq M N) (a + b).
Proof.
  intros [S1 H1] [S2 H2]. split; [now apply zsq_square|]. intros x.
  rewrite zsq_act by apply S2. now rewrite H1, H2, iter_plus.
Qed.
Lemma mh_square : square3 mhz.
Proof. split; [reflexivity|]. apply Forall_forall. vm_compute. repeat constructor. Qed.
Lemma mh56_pow : is_pow mh56 56.
Proof.
  assert (P1 : is_pow mhz 1) by (split; [apply mh_square|reflexivity]).
  unfold mh56. change 56%nat with (((1+1+(1+1)+(1+1+(1+1))+(1+1+(1+1)+(1+1+(1+1))) + (1+1+(1+1)+(1+1+(1+1))+(1+1+(1+1)+(1+1+(1+1)))))
    + (1+1+(1+1)+(1+1+(1+1))+(1+1+(1+1)+(1+1+(1+1))))) + (1+1+(1+1)+(1+1+(1+1))))%nat.
  repeat apply is_pow_mul; exact P1.
Qed.

Lemma AzE : Az = (m00z :: vrowz) :: map2 cons wcolz mhz. Proof. vm_compute. reflexivity. Qed.
Lemma mvA_mdsf s : length s = 4%nat ->
  FrMv Ab s = mdsf f0 fadd fmul (finj m00z) (psv vrowz) (psv wcolz) (map psv mhz) s.
Proof.
  intros H. rewrite Ab_Az, AzE. destruct s as [|x s]; [discriminate H|]. unfold mdsf. cbn [hd tl].
  cbn [map mv dot Sparse.psv]. apply f_equal.
  generalize wcolz mhz. induction l as [|w W IH]; intros [|r0 M]; try reflexivity.
  unfold mv, va, sc, Sparse.psv in *. cbn [map2 map dot]. apply f_equal2; [ring|]. apply IH.
Qed.

Lemma first_mix s : length s = 4%nat ->
  rel f0 fadd fmul fsub (map psv mhz) 56 (psv b0z) (fva (hades_round 3 s) (RCb 4))
      (FrMv (map psv Pz) (fva (map pow5 (fva s (RCb 3))) (map finj (cz 16)))).
Proof.
  intros Ls. pose proof chk_16 as Eh. pose proof cp_P as EP. unfold rel.
  rewrite EP. cbn [map]. unfold mv at 1. cbn [map].
  set (x := fva (map pow5 (fva s (RCb 3))) (map finj (cz 16))).
  change (map (fun row => dot f0 fadd fmul row x) (map psv (map (zm r) (mm 0 Z.add Z.mul 4 mh56 (tl Az)))))
    with (FrMv (map psv (map (zm r) (mm 0 Z.add Z.mul 4 mh56 (tl Az)))) x).
  assert (E2 : FrMv (map psv (map (zm r) (mm 0 Z.add Z.mul 4 mh56 (tl Az)))) x
             = Nat.iter 56 Mhf (FrMv (map psv (tl Az)) x)).
  { rewrite <- (proj2 mh56_pow). rewrite map_map.
    rewrite (map_ext _ psv) by apply (psv_zm r r_pos f0 f1 fadd fmul fsub fopp Fr_ring finj finj_add finj_mul finj_r).
    unfold mm. rewrite map_map.
    rewrite (map_ext _ (fun a => vm f0 fadd fmul 4 (psv a) (map psv (tl Az))))
      by (intros; apply (psv_vm f0 fadd fmul finj psi0 finj_add finj_mul)).
    rewrite <- (mm_mv f0 f1 fadd fmul fsub fopp Fr_ring 4).
    - unfold mm. now rewrite map_map.
    - apply Forall_forall. vm_compute. repeat constructor. }
  rewrite E2. clear E2 EP.
  assert (EA : fva (hades_round 3 s) (psv Ac16) = dot f0 fadd fmul (psv (hd [] Az)) x :: FrMv (map psv (tl Az)) x).
  { transitivity (FrMv Ab x).
    - unfold x. rewrite mvA_va.
      + apply f_equal2; [reflexivity|]. unfold Ac16.
        rewrite (psv_zm r r_pos f0 f1 fadd fmul fsub fopp Fr_ring finj finj_add finj_mul finj_r).
        rewrite psv_zmv, <- Ab_Az. reflexivity.
      + rewrite map_length, len_va; [rewrite Ls; reflexivity|rewrite Ls; reflexivity].
    - rewrite Ab_Az, AzE. reflexivity. }
  rewrite <- psv_RC. unfold b0z.
  assert (L16 : length Ac16 = 4%nat) by reflexivity.
  assert (LR : length (RCz 4) = 4%nat) by reflexivity.
  generalize dependent (hades_round 3 s). intros t EA.
  destruct Ac16 as [|a0 at_]; [discriminate L16|]. destruct (RCz 4) as [|c0 ct]; [discriminate LR|].
  cbn [hd] in Eh. subst c0. cbn [tl]. cbn [length] in L16, LR.
  destruct t as [|t0 t].
  { exfalso. cbn [va map2] in EA. discriminate EA. }
  unfold va in EA |- *. cbn [Sparse.psv map map2 hd tl] in EA |- *.
  assert (H1 : fadd t0 (finj a0) = dot f0 fadd fmul (psv (hd [] Az)) x) by exact (f_equal (hd f0) EA).
  assert (H2 : map2 fadd t (map finj at_) = FrMv (map psv (tl Az)) x) by exact (f_equal (@tl Fr) EA).
  rewrite H1. apply f_equal. rewrite <- H2. apply f_equal.
  change (map finj ?l) with (psv l). rewrite (psv_vs f0 f1 fadd fmul fsub fopp Fr_ring finj finj_add).
  clear - L16 LR.
  assert (Lq : length at_ = length ct) by congruence. clear L16 LR. unfold vs. revert t ct Lq.
  induction at_ as [|a at_ IH]; intros [|u t] [|c ct] E; try discriminate; try reflexivity.
  cbn [length] in E. injection E as E. cbn [Sparse.psv map map2]. apply f_equal2; [ring|]. now apply IH.
Qed.

(** ** The partial rounds *)
Definition Sb5 (x y : Fr) : Prop := y = pow5 x.
Definition dataf (i : nat) : rdata Fr := psd (dataz i).
Lemma len_round_fn i m s : length s = 4%nat -> length (round_fn (dataf i) m s) = 4%nat.
Proof. revert s. apply four. intros a b c d. reflexivity. Qed.

Lemma partial_fast l : (forall i, In i l -> (i < 56)%nat) -> forall v, length v = 4%nat ->
  exists t, chn (fround f0 fadd fmul (finj m00z) Sb5) (map dataf l) v t /\
            fold_left partialRound l (rl v) = rl t /\ length t = 4%nat.
Proof.
  induction l as [|i l IH]; intros Hl v Lv; cbn [map chn fold_left].
  - exists v. auto.
  - rewrite partialRound_rep by exact Lv. rewrite cp_m00 by (apply Hl, in_eq).
    destruct (IH (fun j Hj => Hl j (in_cons _ _ _ Hj)) (round_fn (dataf i) (finj m00z) v)
                (len_round_fn i _ v Lv)) as (t & C & E & L).
    exists t. split; [|auto]. exists (round_fn (dataf i) (finj m00z) v). split; [|exact C].
    exists (pow5 (hd f0 v)). split; reflexivity.
Qed.

Lemma nround_hades i s t : (i < 56)%nat -> length s = 4%nat ->
  nround f0 fadd fmul (finj m00z) (psv vrowz) (psv wcolz) (map psv mhz) Sb5 (dataf i) s t ->
  t = hades_round (4 + i) s.
Proof.
  intros Hi Ls (y & Hy & ->). unfold Sb5 in Hy. subst y.
  change (rC (dataf i)) with (psv (RCz (4 + i))). rewrite psv_RC. unfold hades_round.
  replace (Nat.ltb (4 + i) 4 || Nat.leb 60 (4 + i)) with false
    by (symmetry; apply orb_false_iff; rewrite Nat.ltb_ge, Nat.leb_gt; lia).
  revert s Ls. apply four. intros a b c d. symmetry. apply mvA_mdsf. reflexivity.
Qed.
Lemma chn_hades l : (forall i, In i l -> (i < 56)%nat) -> forall s t, length s = 4%nat ->
  chn (nround f0 fadd fmul (finj m00z) (psv vrowz) (psv wcolz) (map psv mhz) Sb5) (map dataf l) s t ->
  t = fold_left (fun s k => hades_round k s) (map (Nat.add 4) l) s.
Proof.
  induction l as [|i l IH]; intros Hl s t Ls C; cbn [map chn fold_left] in *; [exact C|].
  destruct C as (u & Hu & C). apply nround_hades in Hu; [|apply Hl, in_eq|exact Ls]. subst u.
  apply IH; [intros; apply Hl; now apply in_cons|apply len_round|exact C].
Qed.

Lemma partial_equiv s v : length s = 4%nat -> length v = 4%nat ->
  rel f0 fadd fmul fsub (map psv mhz) 56 (psv b0z) (fva s (RCb 4)) v ->
  partialRounds (rl v) = rl (fva (fold_left (fun s k => hades_round k s) (seq 4 56) s) (RCb 60)).
Proof.
  intros Ls Lv Hr. unfold partialRounds.
  assert (H56 : forall i, In i (seq 0 56) -> (i < 56)%nat) by (intros i Hi; apply in_seq in Hi; lia).
  destruct (partial_fast (seq 0 56) H56 v Lv) as (t & C & E & _). rewrite E. apply f_equal.
  pose proof cp_good as G. rewrite map_map in G. change (fun x => psd (dataz x)) with dataf in G.
  assert (LR : forall a, In a (map psv mhz) -> length a = 3%nat).
  { intros a Ha. apply in_map_iff in Ha. destruct Ha as (x & <- & Hx). unfold Sparse.psv. rewrite map_length.
    now apply (proj2 mh_square). }
  pose proof (sparse_equiv f0 f1 fadd fmul fsub fopp Fr_ring 3 (finj m00z) (psv vrowz) (psv wcolz) (psv (RCz 60))
              (map psv mhz) Sb5 eq_refl eq_refl LR (map dataf (seq 0 56)) (psv b0z) s v t eq_refl Ls G) as SE.
  rewrite map_length, seq_length in SE.
  change (hdC (psv (RCz 60)) (map dataf (seq 0 56))) with (psv (RCz 4)) in SE. rewrite psv_RC in SE.
  apply (proj2 (SE Hr)) in C. destruct C as (t0 & C & ->). rewrite psv_RC.
  apply chn_hades in C; [|exact H56|exact Ls]. rewrite C.
  change (seq 4 56) with (map (Nat.add 4) (seq 0 56)). reflexivity.
Qed.

(** ** The whole permutation *)
Lemma fold_hades_app l1 l2 s :
  fold_left (fun s k => hades_round k s) (l1 ++ l2) s
  = fold_left (fun s k => hades_round k s) l2 (fold_left (fun s k => hades_round k s) l1 s).
Proof. apply fold_left_app. Qed.

Theorem PoseidonBN_hades s : length s = 4%nat -> PoseidonBN (rl s) = rl (hades s).
Proof.
  intros Ls. unfold PoseidonBN, hades.
  rewrite ark_rep by exact Ls. change (map finj (cz 0)) with (psv (cz 0)). rewrite cp_0.
  change (seq 0 64) with ([0; 1; 2; 3]%nat ++ seq 4 56 ++ [60; 61; 62; 63]%nat).
  rewrite !fold_hades_app.
  assert (F : fullRounds (rl (fva s (RCb 0))) true
     = rl (FrMv (map psv Pz) (fva (map pow5 (fva (hades_round 2 (hades_round 1 (hades_round 0 s))) (RCb 3))) (map finj (cz 16))))).
  { unfold fullRounds. cbn [seq fold_left].
    rewrite (full_step s 0); [|exact Ls|lia|apply (cp_first 0); lia].
    rewrite (full_step _ 1); [|apply len_round|lia|apply (cp_first 1); lia].
    rewrite (full_step _ 2); [|apply len_round|lia|apply (cp_first 2); lia].
    set (s3 := hades_round 2 _).
    assert (L3 : length (fva s3 (RCb 3)) = 4%nat) by (rewrite len_va; rewrite ?len_RCb; apply len_round).
    rewrite exp5state_rep by exact L3.
    rewrite ark_rep by (rewrite map_length; exact L3).
    rewrite mix_rep by (rewrite len_va; rewrite ?map_length; rewrite ?L3; reflexivity).
    reflexivity. }
  rewrite F. clear F. set (s3 := hades_round 2 (hades_round 1 (hades_round 0 s))).
  assert (L3 : length s3 = 4%nat) by apply len_round.
  pose proof (first_mix s3 L3) as Hr.
  rewrite (partial_equiv (hades_round 3 s3)); [|apply len_round|rewrite len_mv; reflexivity|exact Hr].
  change (fold_left (fun s k => hades_round k s) [0; 1; 2; 3]%nat s) with (hades_round 3 s3).
  set (s60 := fold_left (fun s k => hades_round k s) (seq 4 56) (hades_round 3 s3)).
  assert (L60 : length s60 = 4%nat).
  { unfold s60. change (seq 4 56) with (seq 4 55 ++ [59]%nat). rewrite fold_hades_app. apply len_round. }
  clearbody s60. unfold fullRounds. cbn [seq fold_left].
  rewrite (full_step s60 60); [|exact L60|lia|apply (cp_last 0); lia].
  rewrite (full_step _ 61); [|apply len_round|lia|apply (cp_last 1); lia].
  rewrite (full_step _ 62); [|apply len_round|lia|apply (cp_last 2); lia].
  rewrite (last_step _ 63); [|apply len_round|lia]. reflexivity.
Qed.
