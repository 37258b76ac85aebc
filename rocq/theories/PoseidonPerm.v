(** * Both Poseidon permutations are permutations: the S-boxes and the matrices have inverses. *)
From Coq Require Import ZArith Znumtheory Zpow_facts Lia List Bool.
From Verif Require Import Zp GF Fr LinAlg Sparse PoseidonGLConst PoseidonSpec PoseidonGLProofs BN254Spec Pocklington.
Import ListNotations.
Open Scope Z_scope.

(** a bijection of the lists of length [n] *)
Definition perm_on {A} (n : nat) (f : list A -> list A) : Prop :=
  exists g, forall s, length s = n ->
    length (f s) = n /\ length (g s) = n /\ g (f s) = s /\ f (g s) = s.

Lemma perm_ext {A} n (f h : list A -> list A) :
  (forall s, length s = n -> f s = h s) -> perm_on n f -> perm_on n h.
Proof.
  intros E [g G]. exists g. intros s L. destruct (G s L) as (G1 & G2 & G3 & G4).
  rewrite <- (E s L), <- (E (g s) G2). auto.
Qed.
Lemma perm_comp {A} n (f h : list A -> list A) : perm_on n f -> perm_on n h -> perm_on n (fun s => h (f s)).
Proof.
  intros [f' F] [h' H]. exists (fun s => f' (h' s)). intros s L.
  destruct (F s L) as (F1 & _ & F3 & _). destruct (H _ F1) as (H1 & _ & H3 & _).
  destruct (H s L) as (_ & H2 & _ & H4). destruct (F _ H2) as (_ & F2 & _ & F4).
  rewrite H3, F3, F4, H4. auto.
Qed.
Lemma perm_id {A} n : perm_on n (fun s : list A => s).
Proof. exists (fun s => s). auto. Qed.
Lemma perm_fold {A B} n (f : B -> list A -> list A) l : (forall k, In k l -> perm_on n (f k)) ->
  perm_on n (fold_left (fun s k => f k s) l).
Proof.
  induction l as [|k l IH]; intros H; cbn [fold_left]; [apply perm_id|].
  apply (perm_comp n (f k) (fold_left (fun s k => f k s) l)); [apply H, in_eq|].
  apply IH. intros; apply H; now apply in_cons.
Qed.
Lemma perm_map {A} n (f g : A -> A) : (forall x, g (f x) = x) -> (forall x, f (g x) = x) -> perm_on n (map f).
Proof.
  intros H1 H2. exists (map g). intros s L. rewrite !map_length, !map_map.
  repeat split; auto; rewrite <- (map_id s) at 2; apply map_ext; auto.
Qed.
Lemma perm_head {A} n (f g : A -> A) (d : A) : (forall x, g (f x) = x) -> (forall x, f (g x) = x) ->
  perm_on (S n) (fun s => f (hd d s) :: tl s).
Proof.
  intros H1 H2. exists (fun s => g (hd d s) :: tl s). intros s L.
  destruct s as [|x s]; [discriminate|]. cbn [hd tl]. rewrite H1, H2. auto.
Qed.
Lemma perm_shift {A} (add : A -> A -> A) (opp : A -> A) n c : length c = n ->
  (forall x y, add (add x y) (opp y) = x) -> (forall x y, add (add x (opp y)) y = x) ->
  perm_on n (fun s => map2 add s c).
Proof.
  intros Lc H1 H2. exists (fun s => map2 add s (map opp c)). intros s L.
  repeat split.
  - rewrite length_map2; congruence.
  - rewrite length_map2; rewrite ?map_length; congruence.
  - revert c Lc. clear - H1 L. revert n L. induction s as [|x s IH]; intros n L [|y c] Lc; subst n; try discriminate; [reflexivity|].
    cbn [map map2]. rewrite H1. f_equal. apply (IH (length s)); auto.
  - revert c Lc. clear - H2 L. revert n L. induction s as [|x s IH]; intros n L [|y c] Lc; subst n; try discriminate; [reflexivity|].
    cbn [map map2]. rewrite H2. f_equal. apply (IH (length s)); auto.
Qed.
Lemma perm_inj {A} n (f : list A -> list A) : perm_on n f ->
  forall s t, length s = n -> length t = n -> f s = f t -> s = t.
Proof.
  intros [g G] s t Ls Lt E. destruct (G s Ls) as (_ & _ & <- & _). destruct (G t Lt) as (_ & _ & <- & _).
  now rewrite E.
Qed.
Lemma perm_onto {A} n (f : list A -> list A) : perm_on n f ->
  forall t, length t = n -> exists s, length s = n /\ f s = t.
Proof. intros [g G] t L. exists (g t). destruct (G t L) as (_ & ? & _ & ?). auto. Qed.

(** ** The S-boxes: raising to the power [e] is inverted by the power 1/e mod (q-1) *)
Lemma pow_root q e d k x : prime q -> 0 < e -> 0 < d -> 0 <= k -> e * d = k * (q - 1) + 1 ->
  ((x ^ e) ^ d) mod q = x mod q.
Proof.
  intros P He Hd Hk E. pose proof (prime_ge_2 q P) as Q.
  rewrite <- Z.pow_mul_r, E by lia.
  rewrite Z.pow_add_r, Z.pow_1_r by nia.
  destruct (Z.eq_dec (x mod q) 0) as [Z0|N].
  - rewrite Zmult_mod, Z0, Z.mul_0_r. reflexivity.
  - rewrite (Z.mul_comm k), Z.pow_mul_r by lia.
    rewrite Zmult_mod, (Zpower_mod (x ^ (q - 1)) k q) by lia.
    rewrite (fermat q x P N), Z.pow_1_l by lia.
    rewrite (Z.mod_small 1 q) by lia. rewrite Z.mul_1_l, Z.mod_mod by lia. reflexivity.
Qed.
Lemma pow_mod_l q x d : 0 < q -> ((x mod q) ^ d) mod q = (x ^ d) mod q.
Proof. intros Q. symmetry. now apply Zpower_mod. Qed.

Definition d7 : Z := 10540996611094048183.
Definition d5 : Z := 17510594297471420177797124596205820070838691520332827474958563349260646796493.
Lemma d7_ok : 7 * d7 = 4 * (p - 1) + 1. Proof. vm_compute. reflexivity. Qed.
Lemma d5_ok : 5 * d5 = 4 * (r - 1) + 1. Proof. vm_compute. reflexivity. Qed.
Lemma d7_pos : 0 < d7. Proof. reflexivity. Qed.
Lemma d5_pos : 0 < d5. Proof. reflexivity. Qed.

Lemma sbox7_rep x : rep (sbox7 x) = (rep x ^ 7) mod p.
Proof.
  unfold sbox7. change (x ^ 7)%GF with (gpow x 7).
  assert (E : gpow x 7 = (x * (x * (x * (x * (x * (x * x))))))%GF).
  { change 7%N with (N.succ (N.succ (N.succ (N.succ (N.succ (N.succ 1)))))). rewrite !gpow_succ, gpow_1. reflexivity. }
  rewrite E. rewrite <- rep_inj. apply f_equal.
  replace (rep x ^ 7) with (rep x * (rep x * (rep x * (rep x * (rep x * (rep x * rep x)))))) by ring.
  now rewrite !inj_mul, !inj_rep.
Qed.
Lemma pow5_rep x : frep (pow5 x) = (frep x ^ 5) mod r.
Proof.
  rewrite <- frep_inj. apply f_equal. unfold pow5.
  replace (frep x ^ 5) with (frep x * (frep x * (frep x * (frep x * frep x)))) by ring.
  now rewrite !finj_mul, !finj_rep.
Qed.
Definition root7 (x : GF) : GF := inj (rep x ^ d7).
Definition root5 (x : Fr) : Fr := finj (frep x ^ d5).
Lemma root7_sbox x : root7 (sbox7 x) = x.
Proof.
  apply GF_eq. unfold root7. rewrite rep_inj, sbox7_rep, pow_mod_l by reflexivity.
  rewrite (pow_root p 7 d7 4) by (exact p_prime || exact d7_pos || exact d7_ok || lia).
  apply Z.mod_small, rep_range.
Qed.
Lemma sbox7_root x : sbox7 (root7 x) = x.
Proof.
  apply GF_eq. rewrite sbox7_rep. unfold root7. rewrite rep_inj, pow_mod_l by reflexivity.
  rewrite (pow_root p d7 7 4) by (exact p_prime || exact d7_pos || (rewrite Z.mul_comm; exact d7_ok) || lia).
  apply Z.mod_small, rep_range.
Qed.
Lemma root5_pow x : root5 (pow5 x) = x.
Proof.
  apply Fr_eq. unfold root5. rewrite frep_inj, pow5_rep, pow_mod_l by reflexivity.
  rewrite (pow_root r 5 d5 4) by (exact prime_r || exact d5_pos || exact d5_ok || lia).
  apply Z.mod_small, frep_range.
Qed.
Lemma pow5_root x : pow5 (root5 x) = x.
Proof.
  apply Fr_eq. rewrite pow5_rep. unfold root5. rewrite frep_inj, pow_mod_l by reflexivity.
  rewrite (pow_root r d5 5 4) by (exact prime_r || exact d5_pos || (rewrite Z.mul_comm; exact d5_ok) || lia).
  apply Z.mod_small, frep_range.
Qed.

(** ** The matrices *)
Definition MDSinv : list (list GF) := map (map inj)
  [ [2891478276878408554; 7123496211716975600; 2792499011700802346; 15046731739407394332; 6410245340094436434; 7372329164078188003; 13428475461483594930; 17159454736860167210; 14158379621130694125; 18371355498955898534; 4560121475298374916; 6968089110401027555];
    [6968089110401027555; 12665952108105860207; 17554403955230404538; 496719562732243969; 3966069705740507678; 7128070894764834394; 18360948357832051426; 17398923894478128366; 14545639727925577436; 9628159230077411243; 7469488439948578618; 14384315376451899266];
    [4560121475298374916; 1343089054943182702; 12239558723860853872; 17650707237194657990; 10584718175091408691; 8210291421292071025; 1129686729411870300; 11301721104518408112; 6882867935175067023; 11173460702287064452; 1779290966603982008; 7469488439948578618];
    [18371355498955898534; 9963564827820038973; 1177280366644348402; 14472390581364912377; 5278845790599327763; 7703493745629883262; 10562315004165152719; 468678927663289166; 15571952736825813724; 9121569064106077322; 11173460702287064452; 9628159230077411243];
    [14158379621130694125; 17705885695116005561; 3897240325230150643; 9746689866682589923; 17808499455397427455; 8887451184218647973; 8883727162586465222; 15722913892279841390; 2295443704351999741; 15571952736825813724; 6882867935175067023; 14545639727925577436];
    [17159454736860167210; 6113701443457804411; 15581803319430693456; 13606215340324125922; 3461238349614554975; 1480274134911063096; 214591790752956809; 13327264449340499668; 15722913892279841390; 468678927663289166; 11301721104518408112; 17398923894478128366];
    [13428475461483594930; 1364329046505537679; 6190952913522913855; 16434138627858689075; 8498436624474622748; 12020007687449131841; 5030707027883125620; 214591790752956809; 8883727162586465222; 10562315004165152719; 1129686729411870300; 18360948357832051426];
    [7372329164078188003; 13484425339609914190; 5837229360514110263; 8370718165562942351; 18287545747427792766; 13325566947137949947; 12020007687449131841; 1480274134911063096; 8887451184218647973; 7703493745629883262; 8210291421292071025; 7128070894764834394];
    [6410245340094436434; 5606386466065293762; 5174201521531423242; 6313814229429576995; 10947634719753150918; 18287545747427792766; 8498436624474622748; 3461238349614554975; 17808499455397427455; 5278845790599327763; 10584718175091408691; 3966069705740507678];
    [15046731739407394332; 9225162492632027557; 2680727443991262911; 12235082229167212012; 6313814229429576995; 8370718165562942351; 16434138627858689075; 13606215340324125922; 9746689866682589923; 14472390581364912377; 17650707237194657990; 496719562732243969];
    [2792499011700802346; 2555263881341987052; 3711099788214643511; 2680727443991262911; 5174201521531423242; 5837229360514110263; 6190952913522913855; 15581803319430693456; 3897240325230150643; 1177280366644348402; 12239558723860853872; 17554403955230404538];
    [7123496211716975600; 14011168963828279864; 2555263881341987052; 9225162492632027557; 5606386466065293762; 13484425339609914190; 1364329046505537679; 6113701443457804411; 17705885695116005561; 9963564827820038973; 1343089054943182702; 12665952108105860207] ].
Definition Abinv : list (list Fr) := map (map finj)
  [ [11239114693084128058350549425958125915870892581960291781646776687851667760511; 10105904584143632958783842630590907635614410488137638706977141480225053827069; 8104036960966147189101800989775920647625500664553165383841890478993922009615; 13547822514978294959002052115353920741235948502815086056188194139721200024529];
    [17180212420275995557616871030357493081845313999414438317117909921536406425240; 19496189677657170031134895716482846603070791663007046765701745588750816355082; 20717396551825803561945124640512316642676745150324919037843884938555531187946; 7233549595790842876984150095673077175891799131667941095056312107187582589289];
    [63293749764506713865852125670478415142242049702559418529190374291922314342; 20997613103829603118088736833887667029833486054585021560711906801368797395132; 11769043381262369061021694927441780830851691633245557709188905335734193934562; 14794618957752837215478846153093682160082798435133416241093865496020999948315];
    [18435995467914368338030649447291416156023519009803181931225356018791817292716; 11647559130835872936137947916676891100033865740710437890043099087099063384814; 9703722530472974316472023849920669712779958964331855495701344579696333617860; 11305307883196156176954142544556220438612092089945530529670534119088904997747] ].
Lemma MDSinv_l : mat_eqb (matmul 12 MDSinv MDS) (ident 12) = true. Proof. vm_compute. reflexivity. Qed.
Lemma MDSinv_r : mat_eqb (matmul 12 MDS MDSinv) (ident 12) = true. Proof. vm_compute. reflexivity. Qed.
Lemma MDS_rows : forallb (fun b => Nat.eqb (length b) 12) MDS = true. Proof. vm_compute. reflexivity. Qed.
Lemma MDSinv_rows : forallb (fun b => Nat.eqb (length b) 12) MDSinv = true. Proof. vm_compute. reflexivity. Qed.
Lemma rows_all {A} n (M : list (list A)) : forallb (fun b => Nat.eqb (length b) n) M = true ->
  forall b, In b M -> length b = n.
Proof. intros H b Hb. apply Nat.eqb_eq. exact (proj1 (forallb_forall _ _) H b Hb). Qed.

Lemma gmatvec_inv A B : (forall b, In b B -> length b = 12%nat) -> mat_eqb (matmul 12 A B) (ident 12) = true ->
  forall s, length s = 12%nat -> matvec g0 gadd gmul idg A (matvec g0 gadd gmul idg B s) = s.
Proof.
  intros HB E s L. rewrite <- (matvec_matmul g0 g1 gadd gmul gsub gopp GF_ring idg eq_refl (fun _ _ => eq_refl) (fun _ _ => eq_refl) 12%nat A B s HB). rewrite (mat_eqb_eq _ _ E), <- L. apply (matvec_ident g0 g1 gadd gmul gsub gopp GF_ring idg eq_refl eq_refl).
Qed.
Lemma mds_perm : perm_on 12 mds_g.
Proof.
  exists (matvec g0 gadd gmul idg MDSinv). intros s L. unfold mds_g, mds.
  repeat split; try apply length_matvec.
  - apply gmatvec_inv; [apply rows_all, MDS_rows|exact MDSinv_l|exact L].
  - apply gmatvec_inv; [apply rows_all, MDSinv_rows|exact MDSinv_r|exact L].
Qed.

Definition identF : list (list Fr) :=
  map (fun i => map (fun j => if Nat.eqb i j then f1 else f0) (seq 0 4)) (seq 0 4).
Lemma fmat_eq : forall A B : list (list Fr), map (map frep) A = map (map frep) B -> A = B.
Proof.
  assert (V : forall a b : list Fr, map frep a = map frep b -> a = b).
  { induction a as [|x a IH]; intros [|y b] H; try discriminate; [reflexivity|].
    cbn [map] in H. injection H as H1 H2. f_equal; [now apply Fr_eq|now apply IH]. }
  induction A as [|x A IH]; intros [|y B] H; try discriminate; [reflexivity|].
  cbn [map] in H. pose proof (f_equal (hd []) H) as H1. pose proof (f_equal (@tl _) H) as H2. cbn [hd tl] in H1, H2.
  f_equal; [now apply V|now apply IH].
Qed.
Lemma Abinv_l : mm f0 fadd fmul 4 Abinv Ab = identF. Proof. apply fmat_eq. vm_compute. reflexivity. Qed.
Lemma Abinv_r : mm f0 fadd fmul 4 Ab Abinv = identF. Proof. apply fmat_eq. vm_compute. reflexivity. Qed.
Lemma Ab_rows : forallb (fun b => Nat.eqb (length b) 4) Ab = true. Proof. vm_compute. reflexivity. Qed.
Lemma Abinv_rows : forallb (fun b => Nat.eqb (length b) 4) Abinv = true. Proof. vm_compute. reflexivity. Qed.
Add Ring FrRing68 : Fr_ring.
Lemma mv_ident s : length s = 4%nat -> mv f0 fadd fmul identF s = s.
Proof.
  intros L. destruct s as [|a [|b [|c [|d [|e s]]]]]; try discriminate.
  cbn [identF mv map seq Nat.eqb dot]. repeat f_equal; ring.
Qed.
Lemma mv_perm : perm_on 4 (mv f0 fadd fmul Ab).
Proof.
  exists (mv f0 fadd fmul Abinv). intros s L.
  repeat split; try apply len_mv.
  - rewrite <- (mm_mv f0 f1 fadd fmul fsub fopp Fr_ring 4) by (apply rows_all, Ab_rows).
    rewrite Abinv_l. now apply mv_ident.
  - rewrite <- (mm_mv f0 f1 fadd fmul fsub fopp Fr_ring 4) by (apply rows_all, Abinv_rows).
    rewrite Abinv_r. now apply mv_ident.
Qed.

(** ** The permutations *)
Add Ring GFRing68 : GF_ring.
Lemma add_rc_perm k : (k < 30)%nat -> perm_on 12 (add_rc_g k).
Proof.
  intros Hk. unfold add_rc_g, add_rc, vadd. apply (perm_shift gadd gopp).
  - rewrite map_length. unfold RC. rewrite map_length, firstn_length, skipn_length.
    change (length ALL_ROUND_CONSTANTS) with 360%nat. lia.
  - intros; ring.
  - intros; ring.
Qed.
Lemma full_round_perm k : (k < 30)%nat -> perm_on 12 (full_round_fn k).
Proof.
  intros Hk. unfold full_round_fn.
  apply (perm_comp 12 (fun s => map sbox7 (add_rc_g k s)) mds_g); [|apply mds_perm].
  apply (perm_comp 12 (add_rc_g k) (map sbox7)); [now apply add_rc_perm|].
  exact (perm_map 12 sbox7 root7 root7_sbox sbox7_root).
Qed.
Lemma partial_round_perm k : (k < 30)%nat -> perm_on 12 (partial_round_fn k).
Proof.
  intros Hk. unfold partial_round_fn.
  apply (perm_comp 12 (fun s => sbox7 (hd g0 (add_rc_g k s)) :: tl (add_rc_g k s)) mds_g); [|apply mds_perm].
  apply (perm_comp 12 (add_rc_g k) (fun u => sbox7 (hd g0 u) :: tl u)); [now apply add_rc_perm|].
  exact (perm_head 11 sbox7 root7 g0 root7_sbox sbox7_root).
Qed.
Theorem poseidon_perm : perm_on 12 poseidon.
Proof.
  unfold poseidon.
  apply (perm_comp 12 (fun s => fold_left (fun s k => partial_round_fn k s) (seq 4 22)
     (fold_left (fun s k => full_round_fn k s) (seq 0 4) s)) (fold_left (fun s k => full_round_fn k s) (seq 26 4))).
  - apply (perm_comp 12 (fold_left (fun s k => full_round_fn k s) (seq 0 4))
      (fold_left (fun s k => partial_round_fn k s) (seq 4 22))).
    + apply perm_fold. intros k Hk. apply in_seq in Hk. apply full_round_perm. lia.
    + apply perm_fold. intros k Hk. apply in_seq in Hk. apply partial_round_perm. lia.
  - apply perm_fold. intros k Hk. apply in_seq in Hk. apply full_round_perm. lia.
Qed.

Lemma hades_round_perm k : perm_on 4 (hades_round k).
Proof.
  assert (S : perm_on 4 (fun s => va fadd s (RCb k))).
  { unfold va. apply (perm_shift fadd fopp); [reflexivity|intros; ring|intros; ring]. }
  unfold hades_round. cbv zeta.
  destruct (Nat.ltb k 4 || Nat.leb 60 k).
  - apply (perm_comp 4 (fun s => map pow5 (va fadd s (RCb k))) (mv f0 fadd fmul Ab)); [|apply mv_perm].
    apply (perm_comp 4 (fun s => va fadd s (RCb k)) (map pow5)); [exact S|].
    exact (perm_map 4 pow5 root5 root5_pow pow5_root).
  - apply (perm_comp 4 (fun s => match va fadd s (RCb k) with x :: t => pow5 x :: t | [] => [] end) (mv f0 fadd fmul Ab)); [|apply mv_perm].
    apply (perm_comp 4 (fun s => va fadd s (RCb k)) (fun u => match u with x :: t => pow5 x :: t | [] => [] end)); [exact S|].
    apply (perm_ext 4 (fun s => pow5 (hd f0 s) :: tl s)); [|exact (perm_head 3 pow5 root5 f0 root5_pow pow5_root)].
    intros [|x s] L; [discriminate|reflexivity].
Qed.
Theorem hades_perm : perm_on 4 hades.
Proof. unfold hades. apply perm_fold. intros k _. apply hades_round_perm. Qed.
