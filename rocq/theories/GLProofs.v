(** * Correctness of the goldilocks chip (base field part). *)
From Coq Require Import String.
From Coq Require Import ZArith Znumtheory Lia List Bool.
From Verif Require Import Zp GF Circuit Goldilocks.
Import ListNotations.
Open Scope Z_scope.

Lemma len1 {A} (l : list A) : length l = 1%nat -> exists a, l = [a].
Proof. destruct l as [|a [|b l]]; try discriminate. intros _. eauto. Qed.
Lemma len2 {A} (l : list A) : length l = 2%nat -> exists a b, l = [a; b].
Proof. destruct l as [|a [|b [|c l]]]; try discriminate. intros _. eauto. Qed.

Lemma modr_small x : 0 <= x < r -> x mod r = x. Proof. apply Z.mod_small. Qed.
Lemma modulus_p : MODULUS = p. Proof. reflexivity. Qed.

Lemma reach_hint2 {A} h (f : list Z -> circ A) a :
  reach (bind (hint_ h 2) f) a <-> exists x y, inr_ x /\ inr_ y /\ reach (f [x; y]) a.
Proof.
  cbn [hint_ bind reach]. split.
  - intros (l & Hl & Hr & H). destruct (len2 l Hl) as (x & y & ->).
    inversion_clear Hr as [|? ? Hx Hr']. inversion_clear Hr' as [|? ? Hy _]. eauto.
  - intros (x & y & Hx & Hy & H). exists [x; y]. auto.
Qed.
Lemma reach_hint1 {A} h (f : list Z -> circ A) a :
  reach (bind (hint_ h 1) f) a <-> exists x, inr_ x /\ reach (f [x]) a.
Proof.
  cbn [hint_ bind reach]. split.
  - intros (l & Hl & Hr & H). destruct (len1 l Hl) as (x & ->).
    inversion_clear Hr as [|? ? Hx Hr']. eauto.
  - intros (x & Hx & H). exists [x]. auto.
Qed.

Definition E32 : Z := 4294967296.
Lemma pow32 : 2 ^ 32 = E32. Proof. reflexivity. Qed.
Lemma p_E32 : p = E32 * E32 - E32 + 1. Proof. reflexivity. Qed.
Lemma E64_r : E32 * E32 < r. Proof. reflexivity. Qed.
Lemma E32_pos : 0 < E32. Proof. reflexivity. Qed.
Global Opaque E32.

Lemma b2z_is_zero x : api_is_zero x = Z.b2z (x =? 0).
Proof. unfold api_is_zero. now destruct (x =? 0). Qed.

(** ** RangeCheck *)
Theorem range_check_correct x : enforces (RangeCheck x) (0 <= x < p) tt.
Proof.
  pose proof p_E32 as PE. pose proof E64_r as E64. pose proof E32_pos as EP. pose proof r_pos.
  split.
  - intros Hx. unfold RangeCheck, SplitLimbsHint. rewrite !pow32, modulus_p.
    destruct (Z.leb_spec p x) as [?|_]; [lia|].
    pose proof (Z.mod_pos_bound x E32 EP) as Hl. pose proof (Z.div_mod x E32 ltac:(lia)) as Hd.
    assert (Hh : 0 <= x / E32 < E32).
    { split; [apply Z.div_pos; lia|apply Z.div_lt_upper_bound; nia]. }
    set (hi := x / E32) in *. set (lo := x mod E32) in *. clearbody hi lo.
    cbn [bind hint_ run length Nat.eqb map nth_ nth_error of_opt].
    rewrite !(modr_small hi), !(modr_small lo) by nia.
    unfold api_assert_eq at 1. cbn [assert_ bind run].
    unfold api_mul, api_add. rewrite (modr_small (hi * E32)) by nia.
    rewrite (modr_small (hi * E32 + lo)) by nia.
    destruct (Z.eqb_spec (hi * E32 + lo) x) as [_|?]; [|lia].
    cbn [range_ bind run]. rewrite !pow32.
    destruct (Z.leb_spec 0 hi) as [_|?]; [|lia]. destruct (Z.ltb_spec hi E32) as [_|?]; [|lia].
    cbn [andb run].
    destruct (Z.leb_spec 0 lo) as [_|?]; [|lia]. destruct (Z.ltb_spec lo E32) as [_|?]; [|lia].
    cbn [andb]. rewrite b2z_is_zero. unfold api_sub.
    destruct (Z.eqb_spec ((hi - (E32 - 1)) mod r) 0) as [E|E]; cbn [Z.b2z].
    + assert (hi = E32 - 1).
      { destruct (Z.eq_dec hi (E32 - 1)) as [|N]; [assumption|].
        assert (hi - (E32 - 1) + r = (hi - (E32 - 1)) mod r).
        { apply Z.mod_unique with (q := -1); lia. } nia. }
      assert (lo = 0) by nia. subst lo. reflexivity.
    + reflexivity.
  - intros [] H1. split; [|reflexivity]. unfold RangeCheck in H1.
    apply reach_hint2 in H1. destruct H1 as (hi & lo & Hhi & Hlo & R). unfold inr_ in *.
    cbn [nth_ nth_error of_opt bind] in R. rewrite !pow32 in R.
    unfold api_assert_eq in R at 1. cbn [assert_ bind reach range_] in R.
    destruct R as (E & R1 & R2 & R). apply Z.eqb_eq in E. rewrite pow32 in R1, R2.
    unfold api_mul, api_add in E. rewrite (modr_small (hi * E32)), modr_small in E by nia.
    rewrite b2z_is_zero in R. unfold api_sub in R.
    destruct (Z.eqb_spec ((hi - (E32 - 1)) mod r) 0) as [Q|Q]; cbn in R.
    + destruct R as (_ & R & _). apply Z.eqb_eq in R. subst lo.
      subst x. nia.
    + assert (hi <> E32 - 1). { intros ->. rewrite Z.sub_diag in Q. now apply Q. }
      subst x. nia.
Qed.

Lemma range_check_rep a : computes (RangeCheck (rep a)) tt.
Proof.
  eapply enforces_iff; [apply range_check_correct|]. pose proof (rep_range a). tauto.
Qed.

Lemma p_sq_lt_r : p * p < r. Proof. reflexivity. Qed.

(** Euclidean division is unique. *)
Lemma div_unique_p q q' m m' : 0 <= m < p -> 0 <= m' < p -> q * p + m = q' * p + m' -> m = m'.
Proof.
  intros Hm Hm' E.
  assert (H := Z.mod_unique (q * p + m) p q m (or_introl Hm) ltac:(ring)).
  assert (H' := Z.mod_unique (q * p + m) p q' m' (or_introl Hm') ltac:(rewrite E; ring)).
  congruence.
Qed.

(** ** MulAdd and friends *)
Lemma muladd_correct (a b c : GF) : computes (MulAdd (rep a) (rep b) (rep c)) (rep (a * b + c)%GF).
Proof.
  pose proof (rep_range a) as Ha. pose proof (rep_range b) as Hb. pose proof (rep_range c) as Hc.
  pose proof p_sq_lt_r as Hpr. pose proof p_lt_r. pose proof p_pos.
  set (s := rep a * rep b + rep c).
  assert (Hs : 0 <= s < p * p) by (unfold s; nia).
  assert (Hres : rep (a * b + c)%GF = s mod p).
  { unfold gadd, gmul. rewrite !rep_inj. rewrite Z.add_mod_idemp_l by lia. reflexivity. }
  assert (Hq : 0 <= s / p < p). { split; [apply Z.div_pos; lia|apply Z.div_lt_upper_bound; lia]. }
  pose proof (Z.mod_pos_bound s p ltac:(lia)) as Hm.
  assert (Hmod1 : api_mul (rep c) 1 = rep c). { unfold api_mul. rewrite Z.mul_1_r. apply modr_small. lia. }
  assert (Hlhs : api_mulacc (rep c) (rep a) (rep b) = s).
  { unfold api_mulacc. rewrite modr_small; unfold s; [ring|nia]. }
  apply computes_intro.
  - unfold MulAdd, MulAddHint. rewrite modulus_p.
    destruct (Z.leb_spec p (rep a)); [lia|]. destruct (Z.leb_spec p (rep b)); [lia|].
    destruct (Z.leb_spec p (rep c)); [lia|]. cbn [orb]. fold s.
    rewrite Z.rem_mod_nonneg by lia.
    cbn [bind hint_ run length Nat.eqb map nth_ nth_error of_opt].
    rewrite !(modr_small (s / p)), !(modr_small (s mod p)) by lia.
    unfold api_assert_eq. cbn [assert_ bind run].
    rewrite Hmod1, Hlhs.
    assert (Hrhs : api_mulacc (s mod p) p (s / p) = s).
    { unfold api_mulacc. pose proof (Z.div_mod s p ltac:(lia)). rewrite modr_small; lia. }
    rewrite Hrhs, Z.eqb_refl.
    eapply run_bind_done; [apply (enforces_run _ _ _ (range_check_correct _)); lia|].
    eapply run_bind_done; [apply (enforces_run _ _ _ (range_check_correct _)); lia|].
    cbn [run]. now rewrite Hres.
  - intros x R. unfold MulAdd in R. apply reach_hint2 in R. destruct R as (q & m & Iq & Im & R).
    cbn [nth_ nth_error of_opt bind] in R.
    apply reach_bind in R. destruct R as ([] & R1 & R).
    apply enforces_assert_eq in R1. destruct R1 as [E _]. rewrite modulus_p in E.
    apply reach_bind in R. destruct R as ([] & R2 & R). apply range_check_correct in R2. destruct R2 as [R2 _].
    apply reach_bind in R. destruct R as ([] & R3 & R). apply range_check_correct in R3. destruct R3 as [R3 _].
    cbn in R. subst x. rewrite Hmod1, Hlhs in E. unfold api_mulacc in E.
    rewrite modr_small in E by nia. rewrite Hres.
    apply Z.mod_unique with (q := q); [left; lia|lia].
Qed.

Lemma gadd_correct a b : computes (Add (rep a) (rep b)) (rep (a + b)%GF).
Proof.
  unfold Add. change 1 with (rep g1) at 1. eapply computes_eq; [apply muladd_correct|].
  f_equal. ring.
Qed.
Lemma NegOne_rep : NegOne = rep (- (1))%GF. Proof. reflexivity. Qed.
Lemma gsub_correct a b : computes (Sub (rep a) (rep b)) (rep (a - b)%GF).
Proof.
  unfold Sub. rewrite NegOne_rep. eapply computes_eq; [apply muladd_correct|].
  f_equal. ring.
Qed.
Lemma gmul_correct a b : computes (Mul (rep a) (rep b)) (rep (a * b)%GF).
Proof.
  unfold Mul. change Zero with (rep g0). eapply computes_eq; [apply muladd_correct|].
  f_equal. ring.
Qed.

(** ** Reduction *)

(** The exact set of values [ReduceWithMaxBits x n] may return to a cheating
    prover: residues of [x + k*r] for every [k] allowed by the quotient range. *)
Theorem reduce_reach x n m :
  inr_ x ->
  reach (ReduceWithMaxBits x n) m <->
  0 <= m < p /\ exists q, 0 <= q < 2 ^ n /\ q < r /\ (q * p + m) mod r = x.
Proof.
  intros Hx. pose proof p_lt_r. unfold inr_ in Hx. split.
  - intros R. unfold ReduceWithMaxBits in R. apply reach_hint2 in R.
    destruct R as (q & m' & Iq & Im & R). unfold inr_ in *.
    cbn [nth_ nth_error of_opt bind range_ reach] in R. destruct R as [Rq R].
    apply reach_bind in R. destruct R as ([] & R1 & R). apply range_check_correct in R1. destruct R1 as [R1 _].
    apply reach_bind in R. destruct R as ([] & R2 & R). apply enforces_assert_eq in R2. destruct R2 as [R2 _].
    cbn in R. subst m'. split; [exact R1|]. exists q. repeat split; try lia.
    unfold api_add, api_mul in R2. rewrite Z.add_mod_idemp_l in R2 by (pose proof r_pos; lia).
    rewrite modulus_p in R2. symmetry. exact R2.
  - intros (Hm & q & Hq & Hqr & E). unfold ReduceWithMaxBits. apply reach_hint2.
    exists q, m. unfold inr_. split; [lia|]. split; [lia|].
    cbn [nth_ nth_error of_opt bind range_ reach]. split; [lia|].
    apply reach_bind. exists tt. split; [apply run_reach, (enforces_run _ _ _ (range_check_correct _)); lia|].
    apply reach_bind. exists tt. split.
    + apply run_reach, (enforces_run _ _ _ (enforces_assert_eq _ _)). unfold api_add, api_mul.
      rewrite Z.add_mod_idemp_l by (pose proof r_pos; lia). rewrite modulus_p. now symmetry.
    + reflexivity.
Qed.

Lemma reduce_run x n :
  0 <= x < r -> x / p < 2 ^ n -> run (ReduceWithMaxBits x n) = Done (x mod p).
Proof.
  intros Hx Hn. pose proof p_pos. pose proof p_lt_r.
  assert (Hq : 0 <= x / p <= x). { split; [apply Z.div_pos; lia|apply Z.div_le_upper_bound; nia]. }
  pose proof (Z.mod_pos_bound x p ltac:(lia)) as Hm. pose proof (Z.div_mod x p ltac:(lia)) as Hd.
  unfold ReduceWithMaxBits, ReduceHint. rewrite modulus_p, Z.rem_mod_nonneg by lia.
  cbn [bind hint_ run length Nat.eqb map nth_ nth_error of_opt].
  rewrite !(modr_small (x / p)), !(modr_small (x mod p)) by lia.
  cbn [range_ bind run].
  destruct (Z.leb_spec 0 (x / p)); [|lia]. destruct (Z.ltb_spec (x / p) (2 ^ n)); [|lia]. cbn [andb].
  eapply run_bind_done; [apply (enforces_run _ _ _ (range_check_correct _)); lia|].
  assert (E : api_add (api_mul (x / p) p) (x mod p) = x).
  { unfold api_add, api_mul. rewrite Z.add_mod_idemp_l by lia.
    replace (x / p * p + x mod p) with x by lia. apply modr_small; lia. }
  rewrite E. eapply run_bind_done; [apply (enforces_run _ _ _ (enforces_assert_eq _ _)); reflexivity|]. reflexivity.
Qed.

(** Sound whenever the quotient range excludes wrap-around. *)
Theorem reduce_with_max_bits_sound x n :
  0 <= x < r -> 2 ^ n * p <= r -> 
  enforces (ReduceWithMaxBits x n) (x / p < 2 ^ n) (x mod p).
Proof.
  intros Hx Hn. pose proof p_pos. split.
  - intros H1. now apply reduce_run.
  - intros m R. apply reduce_reach in R; [|exact Hx]. destruct R as (Hm & q & Hq & _ & E).
    rewrite modr_small in E by nia. subst x.
    rewrite Z.add_comm, Z.mod_add, Z.mod_small, Z.div_add, Z.div_small by lia. lia.
Qed.

Lemma reduce144_ok : 2 ^ RANGE_CHECK_NB_BITS * p <= r. Proof. vm_compute. discriminate. Qed.

Theorem reduce_correct x : 0 <= x < r -> enforces (Reduce x) (x < 2 ^ 144 * p) (x mod p).
Proof.
  intros Hx. pose proof p_pos. eapply enforces_iff.
  - apply reduce_with_max_bits_sound; [exact Hx|exact reduce144_ok].
  - unfold RANGE_CHECK_NB_BITS. generalize (2 ^ 144). intros M. split; intros H1.
    + pose proof (Z.div_mod x p ltac:(lia)). pose proof (Z.mod_pos_bound x p ltac:(lia)). nia.
    + apply Z.div_lt_upper_bound; lia.
Qed.

(** ** Lazily reduced values *)
Definition lz (x B : Z) (a : GF) : Prop := 0 <= x <= B /\ inj x = a.

Lemma lz_rep a : lz (rep a) (p - 1) a.
Proof. split; [pose proof (rep_range a); lia|apply inj_rep]. Qed.
Lemma lz_weaken x B C a : lz x B a -> B <= C -> lz x C a.
Proof. intros [H E] HC. split; [lia|exact E]. Qed.
Lemma lz_add x y B C a b :
  lz x B a -> lz y C b -> B + C < r -> lz (api_add x y) (B + C) (a + b)%GF.
Proof.
  intros [Hx <-] [Hy <-] H. unfold api_add. rewrite modr_small by lia.
  split; [lia|apply inj_add].
Qed.
Lemma lz_mul x y B C a b :
  lz x B a -> lz y C b -> B * C < r -> lz (api_mul x y) (B * C) (a * b)%GF.
Proof.
  intros [Hx <-] [Hy <-] H. unfold api_mul.
  assert (0 <= x * y <= B * C) by (split; [nia|apply Z.mul_le_mono_nonneg; lia]).
  rewrite modr_small by lia. split; [lia|apply inj_mul].
Qed.
Lemma lz_mulacc x y z A B C a b c :
  lz x A a -> lz y B b -> lz z C c -> A + B * C < r ->
  lz (api_mulacc x y z) (A + B * C) (a + b * c)%GF.
Proof.
  intros [Hx <-] [Hy <-] [Hz <-] H. unfold api_mulacc.
  assert (0 <= y * z <= B * C) by (split; [nia|apply Z.mul_le_mono_nonneg; lia]).
  rewrite modr_small by lia. split; [lia|now rewrite inj_add, inj_mul].
Qed.
Lemma lz_const x : 0 <= x -> lz x x (inj x).
Proof. intros H. split; [lia|reflexivity]. Qed.
Lemma lz_inr x B a : lz x B a -> B < r -> inr_ x.
Proof. intros [H _] HB. unfold inr_. lia. Qed.

Lemma computes_reduce x B a : lz x B a -> B < 2 ^ 144 * p -> computes (Reduce x) (rep a).
Proof.
  intros [Hx <-] HB.
  assert (2 ^ 144 * p < r) by (vm_compute; reflexivity).
  eapply enforces_iff; [eapply enforces_eq; [apply reduce_correct; lia|reflexivity]|]. lia.
Qed.

(** ** Inverse *)
Lemma inverse_hint_ok (x : GF) : InverseHint (rep x) = Some [rep (ginv x)].
Proof.
  pose proof (rep_range x) as Hx.
  unfold InverseHint. rewrite modulus_p.
  destruct (Z.leb_spec p (rep x)); [lia|]. do 2 f_equal.
  unfold ginv. rewrite rep_inj. rewrite powm_spec by (try exact p_pos; discriminate).
  symmetry. apply Z.mod_mod. discriminate.
Qed.

Lemma inverse_run (x : GF) : run (Inverse (rep x)) = Done (rep (ginv x), Z.b2z (negb (geqb x g0))).
Proof.
  pose proof (rep_range x) as Hx. pose proof p_lt_r.
  unfold Inverse. rewrite inverse_hint_ok.
  assert (Hinv := ginv_l x). revert Hinv. generalize (ginv x) as i. intros i Hinv.
  cbn [bind hint_ run length Nat.eqb map nth_ nth_error of_opt].
  pose proof (rep_range i) as Hi.
  rewrite !(modr_small (rep i)) by lia.
  eapply run_bind_done; [apply (enforces_run _ _ _ (range_check_correct _)); lia|].
  eapply run_bind_done; [apply computes_run, gmul_correct|].
  rewrite b2z_is_zero. unfold geqb. change (rep g0) with 0.
  destruct (Z.eqb_spec (rep x) 0) as [E|E].
  - change (api_sub 1 (Z.b2z true)) with 0. cbn. reflexivity.
  - change (api_sub 1 (Z.b2z false)) with 1.
    rewrite Hinv; [reflexivity|]. intros ->. now apply E.
Qed.

Theorem inverse_correct (x : GF) y h :
  reach (Inverse (rep x)) (y, h) ->
  exists a, y = rep a /\ h = Z.b2z (negb (geqb x g0)) /\ (x <> g0 -> a = ginv x).
Proof.
  intros R. unfold Inverse in R. apply reach_hint1 in R. destruct R as (i & Ii & R).
  cbn [nth_ nth_error of_opt bind] in R.
  apply reach_bind in R. destruct R as ([] & R1 & R). apply range_check_correct in R1. destruct R1 as [R1 _].
  destruct (canon_rep_exists i R1) as (a & <-).
  apply reach_bind in R. destruct R as (m & R2 & R).
  apply (computes_reach _ _ _ (gmul_correct a x)) in R2. subst m.
  exists a. rewrite b2z_is_zero in R. unfold geqb. change (rep g0) with 0.
  destruct (Z.eqb_spec (rep x) 0) as [E|E].
  - change (api_sub 1 (Z.b2z true)) with 0 in R. cbn in R. destruct R as (_ & _ & R).
    injection R as <- <-. repeat split. intros N. exfalso. apply N, GF_eq, E.
  - change (api_sub 1 (Z.b2z false)) with 1 in R. cbn in R. destruct R as (_ & R & R').
    injection R' as <- <-. repeat split. intros N.
    apply Z.eqb_eq in R.
    assert (Q : (a * x = 1)%GF) by (apply GF_eq; exact R).
    transitivity (a * x * ginv x)%GF; [field; exact N|rewrite Q; ring].
Qed.

(** For [x = 0] the first result is any canonical value. *)
Lemma inverse_zero_free (a : GF) : reach (Inverse 0) (rep a, 0).
Proof.
  pose proof (rep_range a). pose proof p_lt_r.
  unfold Inverse. apply reach_hint1. exists (rep a). split; [unfold inr_; lia|].
  cbn [nth_ nth_error of_opt bind].
  apply reach_bind. exists tt. split; [apply run_reach, computes_run, range_check_rep|].
  apply reach_bind. exists (rep (a * g0)%GF). split.
  - apply run_reach, computes_run. exact (gmul_correct a g0).
  - cbn. repeat split.
Qed.

Lemma inverse_nz (x : GF) : x <> g0 -> computes (Inverse (rep x)) (rep (ginv x), 1).
Proof.
  intros Hx. assert (E : geqb x g0 = false) by now apply geqb_neq.
  apply computes_intro.
  - rewrite inverse_run, E. reflexivity.
  - intros [y h] R. apply inverse_correct in R. destruct R as (a & -> & -> & Ha).
    rewrite Ha, E by exact Hx. reflexivity.
Qed.
