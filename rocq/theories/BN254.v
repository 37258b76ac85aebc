(** * Model of poseidon/bn254.go.

    The gnark API operations used are [Add], [Mul] and [MulAcc] on values in
    [0, r), modelled by [api_add], [api_mul], [api_mulacc] (Circuit.v), and
    [ToBinary]/[FromBinary].  A [BN254State] ([4]frontend.Variable) is a list of
    length 4; every index below is a constant in range, so [nth] with a default
    stands for the array access.  The chip needs the native field to be the BN254
    scalar field (NewBN254Chip panics otherwise), which the model assumes. *)
From Coq Require Import ZArith Lia List Bool.
From Verif Require Import Zp Circuit BN254Const Sponge.
Import ListNotations.
Open Scope Z_scope.

(** poseidon/bn254.go:181-185 [exp5] *)
Definition exp5 (x : Z) : Z :=
  let x2 := api_mul x x in
  let x4 := api_mul x2 x2 in
  api_mul x4 x.

(** poseidon/bn254.go:187-192 [exp5state] *)
Definition exp5state (s : list Z) : list Z := map (fun i => exp5 (nth i s 0)) (seq 0 4).

(** poseidon/bn254.go:171-179 [ark] *)
Definition ark (s : list Z) (it : nat) : list Z :=
  map (fun i => api_add (nth i s 0) (nth (it + i) cConstants 0)) (seq 0 4).

(** poseidon/bn254.go:194-208 [mix] *)
Definition mix (s : list Z) (M : list (list Z)) : list Z :=
  map (fun i =>
         fold_left (fun acc j => api_mulacc acc (nth i (nth j M []) 0) (nth j s 0)) (seq 0 4) 0)
      (seq 0 4).

(** poseidon/bn254.go:130-150 [fullRounds] *)
Definition fullRounds (s : list Z) (isFirst : bool) : list Z :=
  let s := fold_left (fun s i =>
             let s := exp5state s in
             let s := if isFirst then ark s ((i + 1) * 4)
                      else ark s ((4 + 1) * 4 + 56 + i * 4)%nat in
             mix s mMatrix) (seq 0 3) s in
  let s := exp5state s in
  if isFirst then mix (ark s (4 * 4)) pMatrix else mix s mMatrix.

(** poseidon/bn254.go:152-169 [partialRounds]; one iteration *)
Definition partialRound (s : list Z) (i : nat) : list Z :=
  let s0 := exp5 (nth 0 s 0) in
  let s0 := api_add s0 (nth ((4 + 1) * 4 + i) cConstants 0) in
  let st := s0 :: tl s in
  let newState0 :=
    fold_left (fun acc j => api_mulacc acc (nth ((4 * 2 - 1) * i + j) sConstants 0) (nth j st 0))
              (seq 0 4) 0 in
  newState0 ::
    map (fun k => api_mulacc (nth k st 0) s0 (nth ((4 * 2 - 1) * i + 4 + k - 1) sConstants 0)) (seq 1 3).
Definition partialRounds (s : list Z) : list Z := fold_left partialRound (seq 0 56) s.

(** poseidon/bn254.go:39-45 [Poseidon] *)
Definition PoseidonBN (s : list Z) : list Z :=
  let s := ark s 0 in
  let s := fullRounds s true in
  let s := partialRounds s in
  fullRounds s false.

(** poseidon/bn254.go:65-68, 83-88.  Packing of up to three limbs: the inner loop of [HashNoPad] and the loop of
    [HashOrNoop].  two_to_64^k is a big.Int constant. *)
Definition pack (l : list Z) : Z :=
  fold_left (fun acc kx => api_mulacc acc (snd kx) ((2 ^ 64) ^ Z.of_nat (fst kx)))
            (combine (seq 0 (length l)) l) 0.

Definition upd (s : list Z) (i : nat) (x : Z) : list Z := firstn i s ++ x :: skipn (S i) s.

(** poseidon/bn254.go:61-71.  The middle loop of [HashNoPad]: state[stateIdx+1] = inter for each group of
    three of a chunk of at most nine elements. *)
Definition absorb9 (s : list Z) (chunk : list Z) : list Z :=
  fold_left (fun s ig => upd s (fst ig + 1) (pack (snd ig)))
            (combine (seq 0 (length (chunks 3 chunk))) (chunks 3 chunk)) s.

(** poseidon/bn254.go:47-77 [HashNoPad]: input[i:min(len, i+9)] for i = 0, 9, ... is [chunks 9]. *)
Definition HashNoPadBN (input : list Z) : Z :=
  nth 0 (fold_left (fun s c => PoseidonBN (absorb9 s c)) (chunks 9 input) [0; 0; 0; 0]) 0.

(** poseidon/bn254.go:79-94 [HashOrNoop] *)
Definition HashOrNoop (input : list Z) : Z :=
  if Nat.leb (length input) 3 then pack input else HashNoPadBN input.

(** poseidon/bn254.go:96-104 [TwoToOne] *)
Definition TwoToOne (left right : Z) : Z := nth 0 (PoseidonBN [0; 0; left; right]) 0.

(** poseidon/bn254.go:106-120 [ToVec]: [api.ToBinary(hash)] uses the bit length of the field, 254, and gnark
    v0.9.1 then also asserts that the bits are below the modulus, so they are the
    bits of the canonical value; that contract is part of the trusted base. *)
Definition ToVec (hash : Z) : circ (list Z) :=
  bits <- api_to_binary hash 254;;
  mapM api_from_binary (chunks 56 bits).
