(** * Packing, hashing and digests over BN254: proofs. *)
From Coq Require Import ZArith Lia List Bool Ring.
From Verif Require Import Zp Circuit Fr LinAlg Sponge BN254Spec BN254 BN254Proofs.
Import ListNotations.
Open Scope Z_scope.

(** little-endian value in base 2^64 *)
Fixpoint val64 (l : list Z) : Z := match l with [] => 0 | x :: l' => x + 2 ^ 64 * val64 l' end.
Definition is64 (x : Z) : Prop := 0 <= x < 2 ^ 64.

Lemma r_gt_192 : 2 ^ 192 < r. Proof. reflexivity. Qed.
Lemma val64_range l : Forall is64 l -> 0 <= val64 l < 2 ^ (64 * Z.of_nat (length l)).
Proof.
  induction 1 as [|x l Hx Hl IH]; cbn [val64 length]; [change (2 ^ (64 * Z.of_nat 0)) with 1; lia|].
  replace (64 * Z.of_nat (S (length l))) with (64 + 64 * Z.of_nat (length l)) by lia.
  rewrite Z.pow_add_r by lia. unfold is64 in Hx. nia.
Qed.
Lemma val64_inj l : forall l', length l = length l' -> Forall is64 l -> Forall is64 l' ->
  val64 l = val64 l' -> l = l'.
Proof.
  induction l as [|x l IH]; intros [|y l'] L H H' E; try discriminate; [reflexivity|].
  injection L as L. inversion H as [|? ? Hx Hl]; subst. inversion H' as [|? ? Hy Hl']; subst.
  cbn [val64] in E. unfold is64 in *.
  assert (x = y /\ val64 l = val64 l') as [-> E'].
  { set (b := 2 ^ 64) in *. assert (0 < b) by reflexivity.
    assert (E1 : (x + b * val64 l) mod b = (y + b * val64 l') mod b) by now rewrite E.
    rewrite !(Z.mul_comm b), !Z.mod_add, !Z.mod_small in E1 by lia. subst y. split; [reflexivity|].
    apply Z.mul_reg_l with b; lia. }
  f_equal. now apply IH.
Qed.

Lemma pack_gen l : forall k acc,
  fold_left (fun acc kx => api_mulacc acc (snd kx) ((2 ^ 64) ^ Z.of_nat (fst kx)))
            (combine (seq k (length l)) l) acc mod r
  = (acc + (2 ^ 64) ^ Z.of_nat k * val64 l) mod r.
Proof.
  induction l as [|x l IH]; intros k acc; cbn [length seq combine fold_left val64]; [f_equal; ring|].
  rewrite IH. unfold api_mulacc. cbn [fst snd].
  rewrite Zplus_mod_idemp_l. f_equal. rewrite Nat2Z.inj_succ, Z.pow_succ_r by lia. ring.
Qed.
Lemma pack_mod l : pack l mod r = pack l.
Proof.
  unfold pack. destruct l as [|x l] using rev_ind; [reflexivity|]. clear IHl.
  rewrite app_length, seq_app. cbn [length seq].
  assert (E : forall A B (a a' : list A) (b b' : list B), length a = length b ->
            combine (a ++ a') (b ++ b') = combine a b ++ combine a' b').
  { clear. induction a as [|u a IH]; intros a' [|v b] b' L; try discriminate; [reflexivity|].
    injection L as L. cbn. f_equal. now apply IH. }
  rewrite E by apply seq_length. cbn [combine]. rewrite fold_left_app. cbn [fold_left].
  unfold api_mulacc at 1 3. apply Z.mod_mod. discriminate.
Qed.
Lemma pack_val l : pack l = val64 l mod r.
Proof. rewrite <- pack_mod. unfold pack. rewrite pack_gen. f_equal. change (Z.of_nat 0) with 0. rewrite Z.pow_0_r. ring. Qed.
Lemma pack_exact l : (length l <= 3)%nat -> Forall is64 l -> pack l = val64 l.
Proof.
  intros L H. rewrite pack_val. apply Z.mod_small. pose proof (val64_range l H) as R.
  split; [lia|]. eapply Z.lt_trans; [|exact r_gt_192].
  eapply Z.lt_le_trans; [apply R|]. apply Z.pow_le_mono_r; lia.
Qed.
Lemma pack_range l : 0 <= pack l < r.
Proof. rewrite pack_val. apply Z.mod_pos_bound, r_pos. Qed.
Lemma pack_inj l l' : (length l <= 3)%nat -> length l = length l' -> Forall is64 l -> Forall is64 l' ->
  pack l = pack l' -> l = l'.
Proof.
  intros L E H H'. rewrite !pack_exact by (auto; lia). now apply val64_inj.
Qed.

(** ** Chunks of two lists of the same length *)
Lemma chunks_same_inj {A} n fuel (F : list A -> Prop) : forall l l' : list A, (1 <= n)%nat ->
  (length l <= fuel)%nat -> length l = length l' -> chunks_ fuel n l = chunks_ fuel n l' -> l = l'.
Proof.
  intros l l' Hn Hf E C. rewrite <- (chunks_concat n Hn fuel l Hf), C. apply chunks_concat; auto. lia.
Qed.
Lemma Forall_firstn {A} (P : A -> Prop) n l : Forall P l -> Forall P (firstn n l).
Proof. intros H. rewrite <- (firstn_skipn n l) in H. now apply Forall_app in H. Qed.
Lemma Forall_skipn {A} (P : A -> Prop) n l : Forall P l -> Forall P (skipn n l).
Proof. intros H. rewrite <- (firstn_skipn n l) in H. now apply Forall_app in H. Qed.
Lemma chunks_Forall {A} (P : A -> Prop) n fuel : forall l, Forall P l -> Forall (Forall P) (chunks_ fuel n l).
Proof.
  induction fuel as [|fuel IH]; intros l H; cbn [chunks_]; [constructor|].
  destruct l as [|x l]; [constructor|]. constructor; [now apply Forall_firstn|]. apply IH. now apply Forall_skipn.
Qed.
Lemma chunks_same_len {A} n fuel : forall l l' : list A, length l = length l' ->
  Forall2 (fun a b => length a = length b) (chunks_ fuel n l) (chunks_ fuel n l').
Proof.
  induction fuel as [|fuel IH]; intros l l' E; cbn [chunks_]; [constructor|].
  destruct l as [|x l], l' as [|y l']; try discriminate; constructor.
  - rewrite !firstn_length. now rewrite E.
  - apply IH. rewrite !skipn_length. now rewrite E.
Qed.

Lemma Forall2_len {A B} (R : A -> B -> Prop) l l' : Forall2 R l l' -> length l = length l'.
Proof. induction 1; cbn; auto. Qed.

(** ** The lanes of a block *)
Definition lanes (c : list Z) : list Z := map pack (chunks 3 c).
Lemma chunks3_len (c : list Z) : (length c <= 9)%nat -> (length (chunks 3 c) <= 3)%nat.
Proof.
  intros H. unfold chunks.
  do 10 (destruct c as [|? c]; [cbn; lia|]). cbn in H. lia.
Qed.
Lemma absorb9_lanes s c : length s = 4%nat -> (length c <= 9)%nat ->
  absorb9 s c = firstn 1 s ++ lanes c ++ skipn (1 + length (lanes c)) s.
Proof.
  intros Ls Lc. unfold absorb9, lanes. rewrite map_length. pose proof (chunks3_len c Lc) as L3.
  revert s Ls. apply four. intros s0 s1 s2 s3.
  destruct (chunks 3 c) as [|a [|b [|d [|e q]]]]; cbn in L3; try lia; reflexivity.
Qed.
Lemma lanes_len c : length (lanes c) = length (chunks 3 c). Proof. apply map_length. Qed.
Lemma absorb9_len s c : length s = 4%nat -> (length c <= 9)%nat -> length (absorb9 s c) = 4%nat.
Proof.
  intros Ls Lc. rewrite absorb9_lanes by auto.
  rewrite !app_length, firstn_length, skipn_length, lanes_len, Ls.
  pose proof (chunks3_len c Lc). change (Nat.min 1 4) with 1%nat. lia.
Qed.
Lemma absorb9_range s c : length s = 4%nat -> (length c <= 9)%nat -> Forall inr_ s -> Forall inr_ (absorb9 s c).
Proof.
  intros Ls Lc H. rewrite absorb9_lanes by auto. apply Forall_app. split; [now apply Forall_firstn|].
  apply Forall_app. split; [|now apply Forall_skipn].
  unfold lanes. apply Forall_forall. intros x Hx. apply in_map_iff in Hx. destruct Hx as (g & <- & _). apply pack_range.
Qed.
Lemma lanes_inj c c' : (length c <= 9)%nat -> length c = length c' -> Forall is64 c -> Forall is64 c' ->
  lanes c = lanes c' -> c = c'.
Proof.
  intros L E H H' HL. eapply (chunks_same_inj 3 (length c) (fun _ => True)); [lia|lia|exact E|].
  unfold lanes, chunks in HL. rewrite <- E in HL.
  pose proof (chunks_same_len 3 (length c) c c' E) as F2.
  pose proof (chunks_Forall is64 3 (length c) c H) as F. pose proof (chunks_Forall is64 3 (length c) c' H') as F'.
  assert (S3 : forall g, In g (chunks_ (length c) 3 c) -> (length g <= 3)%nat).
  { intros g Hg. apply (chunks_length 3 (length c) c); auto. }
  revert HL F2 F F' S3. generalize (chunks_ (length c) 3 c) (chunks_ (length c) 3 c'). clear.
  intros l l' HL F2. revert HL. induction F2 as [|a b l l' Lab F2 IH]; intros HL F F' S3; [reflexivity|].
  cbn [map] in HL. injection HL as HL1 HL2. inversion F; subst. inversion F'; subst.
  f_equal; [apply pack_inj; auto; apply S3, in_eq|]. apply IH; auto. intros; apply S3; now apply in_cons.
Qed.

Lemma absorb9_inj s s' c c' : length s = 4%nat -> length s' = 4%nat -> (length c <= 9)%nat -> length c = length c' ->
  Forall is64 c -> Forall is64 c' -> absorb9 s c = absorb9 s' c' -> nth 0 s 0 = nth 0 s' 0 /\ c = c'.
Proof.
  intros Ls Ls' Lc E H H' HA. rewrite !absorb9_lanes in HA by (auto; lia).
  assert (LL : length (lanes c) = length (lanes c')).
  { rewrite !lanes_len. unfold chunks. rewrite <- E. eapply Forall2_len. now apply chunks_same_len. }
  destruct s as [|s0 s]; [discriminate|]. destruct s' as [|s0' s']; [discriminate|].
  cbn [firstn app skipn Nat.add] in HA. injection HA as H0 HA. split; [exact H0|].
  apply lanes_inj; auto.
  assert (E1 : firstn (length (lanes c)) (lanes c ++ skipn (length (lanes c)) s)
             = firstn (length (lanes c)) (lanes c' ++ skipn (length (lanes c')) s')) by now rewrite HA.
  rewrite LL in E1 at 3.
  now rewrite !firstn_app, !Nat.sub_diag, !firstn_O, !app_nil_r, !firstn_all in E1.
Qed.

Lemma len_hades s : length (hades s) = 4%nat.
Proof.
  unfold hades. change (seq 0 64) with (seq 0 63 ++ [63]%nat). rewrite fold_hades_app. apply len_round.
Qed.

(** ** Lane-0 collisions *)
Lemma PoseidonBN_state s : length s = 4%nat -> Forall inr_ s ->
  length (PoseidonBN s) = 4%nat /\ Forall inr_ (PoseidonBN s).
Proof.
  intros Ls Hs. assert (E : exists S, s = map frep S /\ length S = 4%nat).
  { exists (map finj s). split; [|now rewrite map_length]. rewrite map_map.
    rewrite <- (map_id s) at 1. apply map_ext_in. intros x Hx. symmetry. apply frep_inj_small.
    rewrite Forall_forall in Hs. now apply Hs. }
  destruct E as (S & -> & LS). rewrite PoseidonBN_hades by exact LS. split.
  - rewrite map_length. apply len_hades.
  - apply Forall_forall. intros x Hx. apply in_map_iff in Hx. destruct Hx as (y & <- & _). apply frep_range.
Qed.

Definition absorb_all (s : list Z) (l : list (list Z)) : list Z :=
  fold_left (fun s c => PoseidonBN (absorb9 s c)) l s.
Lemma absorb_all_state l : (forall c, In c l -> (length c <= 9)%nat) -> forall s, length s = 4%nat -> Forall inr_ s ->
  length (absorb_all s l) = 4%nat /\ Forall inr_ (absorb_all s l).
Proof.
  induction l as [|c l IH]; intros Hl s Ls Hs; cbn [absorb_all fold_left]; [auto|].
  destruct (PoseidonBN_state (absorb9 s c)) as [L F].
  - apply absorb9_len; auto using in_eq.
  - apply absorb9_range; auto using in_eq.
  - apply IH; auto using in_cons.
Qed.

(** the states to which the permutation is applied while the chunks [l] are absorbed *)
Fixpoint perm_inputs (s : list Z) (l : list (list Z)) : list (list Z) :=
  match l with [] => [] | c :: l' => absorb9 s c :: perm_inputs (PoseidonBN (absorb9 s c)) l' end.
Lemma perm_inputs_snoc l c : forall s, perm_inputs s (l ++ [c]) = perm_inputs s l ++ [absorb9 (absorb_all s l) c].
Proof. induction l as [|d l IH]; intros s; [reflexivity|]. cbn [app perm_inputs]. now rewrite IH. Qed.
(** two of the given states are different and have the same lane 0 after the permutation *)
Definition lane0_collision (A B : list (list Z)) : Prop := exists s s' : list Z, In s A /\ In s' B /\
  length s = 4%nat /\ length s' = 4%nat /\ Forall inr_ s /\ Forall inr_ s' /\ s <> s' /\
  nth 0 (PoseidonBN s) 0 = nth 0 (PoseidonBN s') 0.
Lemma collision_mono A A' B B' : (forall x, In x A -> In x A') -> (forall x, In x B -> In x B') ->
  lane0_collision A B -> lane0_collision A' B'.
Proof. intros HA HB (s & s' & H1 & H2 & H). exists s, s'. auto. Qed.

Lemma absorb_collision s l : length s = 4%nat -> Forall inr_ s ->
  (forall c, In c l -> (length c <= 9)%nat) -> Forall (Forall is64) l ->
  forall l', Forall2 (fun a b : list Z => length a = length b) l l' -> Forall (Forall is64) l' -> l <> l' ->
  nth 0 (absorb_all s l) 0 = nth 0 (absorb_all s l') 0 -> lane0_collision (perm_inputs s l) (perm_inputs s l').
Proof.
  intros Ls Hs. induction l as [|c l IH] using rev_ind; intros L9 F l' F2 F' N E.
  - inversion F2. subst. congruence.
  - apply Forall2_app_inv_l in F2. destruct F2 as (l1 & l2 & F2 & F2' & ->).
    inversion F2' as [|? c' ? ? Lc Fn]; subst. inversion Fn; subst.
    apply Forall_app in F. destruct F as [F Fc]. inversion Fc as [|? ? Hc _]; subst.
    apply Forall_app in F'. destruct F' as [F' Fc']. inversion Fc' as [|? ? Hc' _]; subst.
    unfold absorb_all in E. rewrite !fold_left_app in E. cbn [fold_left] in E.
    fold (absorb_all s l) in E. fold (absorb_all s l1) in E.
    assert (L9c : (length c <= 9)%nat) by (apply L9, in_or_app; right; apply in_eq).
    assert (L9l : forall c, In c l -> (length c <= 9)%nat) by (intros; apply L9, in_or_app; auto).
    assert (L9l1 : forall c, In c l1 -> (length c <= 9)%nat).
    { clear - F2 L9l. induction F2; intros z Hz; [destruct Hz|]. destruct Hz as [<-|Hz].
      - rewrite <- H. apply L9l, in_eq.
      - apply IHF2; auto. intros; apply L9l; now apply in_cons. }
    destruct (absorb_all_state l L9l s Ls Hs) as [A1 A2].
    destruct (absorb_all_state l1 L9l1 s Ls Hs) as [B1 B2].
    destruct (list_eq_dec Z.eq_dec (absorb9 (absorb_all s l) c) (absorb9 (absorb_all s l1) c')) as [Eq|Ne].
    + apply absorb9_inj in Eq; auto. destruct Eq as [E0 ->].
      rewrite !perm_inputs_snoc.
      eapply collision_mono; [| |eapply (IH L9l F l1 F2 F'); [intros ->; now apply N|exact E0]];
        intros z Hz; apply in_or_app; auto.
    + rewrite !perm_inputs_snoc. exists (absorb9 (absorb_all s l) c), (absorb9 (absorb_all s l1) c').
      split; [apply in_or_app; right; apply in_eq|]. split; [apply in_or_app; right; apply in_eq|].
      repeat split; auto; try (apply absorb9_len; auto; lia); apply absorb9_range; auto; lia.
Qed.

(** the states to which the permutation is applied while [x] is hashed *)
Definition hash_inputs (x : list Z) : list (list Z) := perm_inputs [0; 0; 0; 0] (chunks 9 x).
Lemma hash_no_pad_collision x y : length x = length y -> Forall is64 x -> Forall is64 y -> x <> y ->
  HashNoPadBN x = HashNoPadBN y -> lane0_collision (hash_inputs x) (hash_inputs y).
Proof.
  intros L Hx Hy N E. unfold HashNoPadBN in E. unfold hash_inputs. unfold chunks in E |- *. rewrite <- L in E |- *.
  eapply (absorb_collision [0; 0; 0; 0] (chunks_ (length x) 9 x)) with (l' := chunks_ (length x) 9 y);
    [reflexivity| | | | | | |exact E].
  - apply Forall_forall. intros z Hz. unfold inr_.
    destruct Hz as [<-|[<-|[<-|[<-|[]]]]]; (split; [apply Z.le_refl|exact r_pos]).
  - intros c Hc. apply (chunks_length 9 (length x) x); auto. lia.
  - now apply chunks_Forall.
  - now apply chunks_same_len.
  - now apply chunks_Forall.
  - intros C. apply N. eapply (chunks_same_inj 9 (length x) (fun _ => True)); eauto. lia.
Qed.

(** ** ToVec *)
Lemma firstn_bits k : forall n x, (k <= n)%nat -> firstn k (bits_of n x) = bits_of k x.
Proof.
  induction k as [|k IH]; intros n x H; [reflexivity|]. destruct n as [|n]; [lia|].
  cbn [bits_of firstn]. f_equal. apply IH. lia.
Qed.
Lemma skipn_bits k : forall n x, (k <= n)%nat -> skipn k (bits_of n x) = bits_of (n - k) (x / 2 ^ Z.of_nat k).
Proof.
  induction k as [|k IH]; intros n x H.
  - cbn [skipn]. rewrite Nat.sub_0_r. change (2 ^ Z.of_nat 0) with 1. now rewrite Z.div_1_r.
  - destruct n as [|n]; [lia|]. cbn [bits_of skipn Nat.sub]. rewrite IH by lia.
    rewrite Nat2Z.inj_succ, Z.pow_succ_r, Z.div_div by lia. reflexivity.
Qed.
Lemma of_bits_mod k : forall x, of_bits (bits_of k x) = x mod 2 ^ Z.of_nat k.
Proof.
  induction k as [|k IH]; intros x; cbn [bits_of of_bits].
  - change (2 ^ Z.of_nat 0) with 1. now rewrite Z.mod_1_r.
  - rewrite IH, Nat2Z.inj_succ, Z.pow_succ_r by lia.
    rewrite Z.rem_mul_r by lia. reflexivity.
Qed.
Lemma from_binary_bits k x : (k <= 200)%nat -> computes (api_from_binary (bits_of k x)) (x mod 2 ^ Z.of_nat k).
Proof.
  intros Hk. unfold api_from_binary.
  assert (B : forallb is_bool (bits_of k x) = true).
  { apply forallb_forall. intros b Hb. apply is_bool_iff. now apply (bits_of_bool k x). }
  rewrite B, of_bits_mod.
  assert (P : 0 < 2 ^ Z.of_nat k) by (apply Z.pow_pos_nonneg; lia).
  assert (Hm : (x mod 2 ^ Z.of_nat k) mod r = x mod 2 ^ Z.of_nat k).
  { apply Z.mod_small. pose proof (Z.mod_pos_bound x _ P). split; [lia|].
    eapply Z.lt_trans with (2 ^ 200 + 1); [|reflexivity].
    assert (2 ^ Z.of_nat k <= 2 ^ 200) by (apply Z.pow_le_mono_r; lia). lia. }
  apply computes_intro; [cbn [run]; now rewrite Hm|]. cbn [reach]. intros a' [_ <-]. exact Hm.
Qed.

Definition digits56 (x : Z) : list Z :=
  [x mod 2 ^ 56; (x / 2 ^ 56) mod 2 ^ 56; (x / 2 ^ 112) mod 2 ^ 56; (x / 2 ^ 168) mod 2 ^ 56; x / 2 ^ 224].

Lemma ToVec_digits x : 0 <= x < r -> computes (ToVec x) (digits56 x).
Proof.
  intros Hx. unfold ToVec.
  assert (R254 : r < 2 ^ 254) by reflexivity.
  eapply enforces_iff.
  - eapply enforces_bind; [apply enforces_to_binary|]. intros _.
    assert (C : chunks 56 (bits_of 254 x)
      = [bits_of 56 x; bits_of 56 (x / 2 ^ 56); bits_of 56 (x / 2 ^ 112); bits_of 56 (x / 2 ^ 168); bits_of 30 (x / 2 ^ 224)]).
    { unfold chunks. rewrite length_bits_of.
      assert (St : forall f n y, chunks_ (S f) 56 (bits_of (S n) y)
                 = firstn 56 (bits_of (S n) y) :: chunks_ f 56 (skipn 56 (bits_of (S n) y))) by reflexivity.
      rewrite St, firstn_bits, skipn_bits by lia. change (S 253 - 56)%nat with (S 197).
      rewrite St, firstn_bits, skipn_bits by lia. change (S 197 - 56)%nat with (S 141).
      rewrite St, firstn_bits, skipn_bits by lia. change (S 141 - 56)%nat with (S 85).
      rewrite St, firstn_bits, skipn_bits by lia. change (S 85 - 56)%nat with (S 29).
      rewrite St. rewrite firstn_all2 by (rewrite length_bits_of; lia).
      rewrite skipn_all2 by (rewrite length_bits_of; lia).
      change (Z.of_nat 56) with 56.
      rewrite !Z.div_div by (try apply Z.pow_nonzero; lia). rewrite <- !Z.pow_add_r by lia.
      change (56 + 56) with 112. change (112 + 56) with 168. change (168 + 56) with 224.
      reflexivity. }
    rewrite C. eapply enforces_eq.
    + change (bits_of 30 (x / 2 ^ 224)) with (bits_of (fst (30%nat, x / 2 ^ 224)) (snd (30%nat, x / 2 ^ 224))).
      apply (computes_mapM2 api_from_binary (fun kv : nat * Z => bits_of (fst kv) (snd kv))
              (fun kv => snd kv mod 2 ^ Z.of_nat (fst kv))
              [(56%nat, x); (56%nat, x / 2 ^ 56); (56%nat, x / 2 ^ 112); (56%nat, x / 2 ^ 168); (30%nat, x / 2 ^ 224)]).
      intros kv Hkv. apply from_binary_bits.
      destruct Hkv as [<-|[<-|[<-|[<-|[<-|[]]]]]]; cbn [fst]; lia.
    + cbn [map fst snd]. change (Z.of_nat 56) with 56. change (Z.of_nat 30) with 30. unfold digits56.
      repeat (apply f_equal2; [reflexivity|]). apply f_equal2; [|reflexivity].
      apply Z.mod_small. split; [apply Z.div_pos; [lia|reflexivity]|].
      apply Z.div_lt_upper_bound; [reflexivity|]. rewrite <- Z.pow_add_r by lia. lia.
  - change (Z.of_nat 254) with 254. intuition lia.
Qed.

Lemma digits56_value x : let d := digits56 x in
  x = nth 0 d 0 + 2 ^ 56 * (nth 1 d 0 + 2 ^ 56 * (nth 2 d 0 + 2 ^ 56 * (nth 3 d 0 + 2 ^ 56 * nth 4 d 0))).
Proof.
  unfold digits56. cbn [nth].
  set (b := 2 ^ 56). assert (Hb : b <> 0) by discriminate.
  replace (2 ^ 112) with (b * b) by reflexivity. replace (2 ^ 168) with (b * b * b) by reflexivity.
  replace (2 ^ 224) with (b * b * b * b) by reflexivity.
  assert (Pb : 0 < b) by reflexivity. clearbody b.
  rewrite <- !Z.div_div by nia.
  pose proof (Z.div_mod x b Hb). pose proof (Z.div_mod (x / b) b Hb).
  pose proof (Z.div_mod (x / b / b) b Hb). pose proof (Z.div_mod (x / b / b / b) b Hb). lia.
Qed.
