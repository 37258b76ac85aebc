(** * Fast ways to compute the transcripts of Complete and ForgeSbox, for examples. *)
From Coq Require Import String.
From Coq Require Import ZArith NArith Lia List Bool Ring.
From Verif Require Import Zp GF Circuit LinAlg PoseidonSpec PoseidonGLConst PoseidonGL PoseidonGLProofs Sponge Malleable PoseidonFast Complete ForgeSbox.
Import ListNotations.
Open Scope Z_scope.

Fixpoint fsqueeze (k : nat) (s : list Z) : list Z * list Z :=
  match k with O => (rev (firstn 8 s), s) | S k' => let (bl, s') := fsqueeze k' (fposeidon s) in (rev (firstn 8 s) ++ bl, s') end.
Definition fask (xs : list Z) (m : nat) (s : list Z) : list Z * list Z :=
  let (bl, s') := fsqueeze ((m - 1) / 8) (fold_left (fun s c => fposeidon (overwrite c s)) (chunks 8 xs) s) in (firstn m bl, s').
Definition fforge (s d : list Z) : list Z := map2 (fun x row => (x + zdot row d * r) mod p) (fposeidon s) MDSz.
Fixpoint fabsorb_moved (ds : list (list Z)) (cs : list (list Z)) (s : list Z) : list Z * list (list Z) :=
  match cs with [] => (s, ds) | c :: cs' => fabsorb_moved (tl ds) cs' (fforge (overwrite c s) (next ds)) end.
Fixpoint fsqueeze_moved (ds : list (list Z)) (k : nat) (s : list Z) : list Z * list Z :=
  match k with O => (rev (firstn 8 s), s) | S k' => let (bl, s') := fsqueeze_moved (tl ds) k' (fforge s (next ds)) in (rev (firstn 8 s) ++ bl, s') end.
Definition fask_moved (ds : list (list Z)) (xs : list Z) (m : nat) (s : list Z) : list Z * list Z :=
  let (st, ds') := fabsorb_moved ds (chunks 8 xs) s in
  let (bl, s') := fsqueeze_moved ds' ((m - 1) / 8) st in (firstn m bl, s').

Notation injs := (map inj).
Definition both (q : list Z * list Z) : list GF * list GF := (injs (fst q), injs (snd q)).
Lemma chunks_injs xs : chunks 8 (injs xs) = map injs (chunks 8 xs).
Proof.
  unfold chunks. rewrite map_length. generalize (length xs). intros k. revert xs. induction k as [|k IH]; intros xs; [reflexivity|].
  destruct xs as [|x xs]; [reflexivity|]. cbn [chunks_ map]. rewrite <- IH. f_equal; [now rewrite <- firstn_map|]. f_equal. now rewrite <- skipn_map.
Qed.
Lemma overwrite_injs c s : overwrite (injs c) (injs s) = injs (overwrite c s).
Proof. unfold overwrite. now rewrite map_length, map_app, skipn_map. Qed.
Lemma rev8_injs s : rev (firstn 8 (injs s)) = injs (rev (firstn 8 s)).
Proof. now rewrite firstn_map, map_rev. Qed.
Lemma fabsorb_ok cs : forall s, injs (fold_left (fun s c => fposeidon (overwrite c s)) cs s) = fold_left (fun s c => poseidon (overwrite c s)) (map injs cs) (injs s).
Proof. induction cs as [|c cs IH]; intros s; [reflexivity|]. cbn [map fold_left]. now rewrite IH, fposeidon_ok, overwrite_injs. Qed.
Lemma fsqueeze_ok k : forall s, squeeze_st k (injs s) = both (fsqueeze k s).
Proof.
  induction k as [|k IH]; intros s; cbn [squeeze_st fsqueeze]; unfold both; cbn [fst snd]; [now rewrite rev8_injs|].
  rewrite <- fposeidon_ok, IH. destruct (fsqueeze k (fposeidon s)) as [bl s']. unfold both. cbn [fst snd]. now rewrite map_app, rev8_injs.
Qed.
Theorem fask_ok xs m s : ask xs m (injs s) = both (fask xs m s).
Proof.
  unfold ask, fask, absorb_fn. rewrite chunks_injs, <- fabsorb_ok, fsqueeze_ok. destruct (fsqueeze _ _) as [bl s']. unfold both. cbn [fst snd]. now rewrite firstn_map.
Qed.
Lemma fposeidon_length s : length (fposeidon s) = 12%nat.
Proof. rewrite <- (map_length inj), fposeidon_ok. apply poseidon_len. Qed.
Lemma fforge_ok s d : injs (fforge s d) = forge (injs s) d.
Proof.
  assert (E : forall t l, length t = length l -> injs (map2 (fun x row => (x + zdot row d * r) mod p) t l) =
      map (fun i => (nth i (injs t) g0 + inj (zdot (nth i l []) d * r))%GF) (seq 0 (length t))).
  { induction t as [|x t IH]; intros [|row l] L; try discriminate L; [reflexivity|]. cbn [map2 map length seq nth]. rewrite inj_mod, inj_add. f_equal.
    rewrite <- seq_shift, map_map. now rewrite IH by now injection L. }
  unfold fforge, forge, shift. rewrite E by now rewrite fposeidon_length. now rewrite fposeidon_length, fposeidon_ok.
Qed.
Lemma fabsorb_moved_ok cs : forall ds s, absorb_moved ds (map injs cs) (injs s) = (injs (fst (fabsorb_moved ds cs s)), snd (fabsorb_moved ds cs s)).
Proof. induction cs as [|c cs IH]; intros ds s; [reflexivity|]. cbn [map absorb_moved fabsorb_moved]. now rewrite overwrite_injs, <- fforge_ok, IH. Qed.
Lemma fsqueeze_moved_ok k : forall ds s, squeeze_moved ds k (injs s) = both (fsqueeze_moved ds k s).
Proof.
  induction k as [|k IH]; intros ds s; cbn [squeeze_moved fsqueeze_moved]; unfold both; cbn [fst snd]; [now rewrite rev8_injs|].
  rewrite <- fforge_ok, IH. destruct (fsqueeze_moved _ k _) as [bl s']. unfold both. cbn [fst snd]. now rewrite map_app, rev8_injs.
Qed.
Theorem fask_moved_ok ds xs m s : ask_moved ds xs m (injs s) = both (fask_moved ds xs m s).
Proof.
  unfold ask_moved, fask_moved. rewrite chunks_injs, fabsorb_moved_ok. destruct (fabsorb_moved _ _ _) as [st ds']. cbn [fst snd].
  rewrite fsqueeze_moved_ok. destruct (fsqueeze_moved _ _ _) as [bl s']. unfold both. cbn [fst snd]. now rewrite firstn_map.
Qed.
(** one block of output *)
Definition fsponge (xs : list Z) (n : nat) : list Z := firstn n (firstn 8 (fold_left (fun s c => fposeidon (overwrite c s)) (chunks 8 xs) (repeat 0 12))).
Theorem fsponge_ok xs : sponge g0 poseidon (injs xs) 4 = injs (fsponge xs 4).
Proof.
  unfold sponge, fsponge, absorb_fn. change ((4 - 1) / 8)%nat with O. cbn [squeeze_fn]. rewrite <- !firstn_map, fabsorb_ok, chunks_injs. cbn [repeat map]. now rewrite <- g0_inj.
Qed.
