(** * Model of poseidon/goldilocks.go.

    States are lists of 12 limbs.  The Go arrays have fixed size 12, so element
    accesses cannot fail; loops that update every element in index order are
    [mapM] over the elements.  The argument [w] of the S-box functions is the
    width passed to ReduceWithMaxBits; the code uses 192 ([SBOX_BITS]). *)
From Coq Require Import String.
From Coq Require Import ZArith Lia List Bool.
From Verif Require Import Zp Circuit Goldilocks PoseidonGLConst.
Import ListNotations.
Open Scope Z_scope.
Open Scope circ_scope.

(** goldilocks.go:8-12 *)
Definition HALF_N_FULL_ROUNDS : nat := 4.
Definition N_PARTIAL_ROUNDS : nat := 22.
Definition SPONGE_WIDTH : nat := 12.
Definition SPONGE_RATE : nat := 8.
Definition POSEIDON_GL_HASH_SIZE : nat := 4.
(** goldilocks.go:139,142 *)
Definition SBOX_BITS : Z := 192.

Definition at_ (l : list Z) (i : nat) : Z := nth i l 0.
Definition row_ (l : list (list Z)) (i : nat) : list Z := nth i l [].

(** goldilocks.go:117-125 *)
Definition constantLayer (state : list Z) (roundCounter : nat) : circ (list Z) :=
  mapM (fun i => Add (at_ state i) (at_ ALL_ROUND_CONSTANTS (i + SPONGE_WIDTH * roundCounter)))
       (seq 0 12).

(** goldilocks.go:138-145 *)
Definition sBoxMonomial (w : Z) (x : Z) : circ Z :=
  let x2 := MulNoReduce x x in
  let x3 := MulNoReduce x x2 in
  x3 <- ReduceWithMaxBits x3 w;;
  let x6 := MulNoReduce x3 x3 in
  let x7 := MulNoReduce x x6 in
  ReduceWithMaxBits x7 w.

(** goldilocks.go:154-161 *)
Definition sBoxLayer (w : Z) (state : list Z) : circ (list Z) := mapM (sBoxMonomial w) state.

(** goldilocks.go:172-183 *)
Definition mdsRowShf (r : nat) (v : list Z) : circ Z :=
  let res := fold_left (fun res i =>
      MulAddNoReduce (at_ v ((i + r) mod SPONGE_WIDTH)) (at_ MDS_MATRIX_CIRC_VARS i) res) (seq 0 12) Zero in
  let res := MulAddNoReduce (at_ v r) (at_ MDS_MATRIX_DIAG_VARS r) res in
  Reduce res.

(** goldilocks.go:203-216 *)
Definition mdsLayer (state : list Z) : circ (list Z) :=
  mapM (fun r => mdsRowShf r state) (seq 0 12).

(** goldilocks.go:92-100 *)
Definition fullRounds (w : Z) (state : list Z) (roundCounter : nat) : circ (list Z) :=
  foldM (fun state k =>
      state <- constantLayer state k;;
      state <- sBoxLayer w state;;
      mdsLayer state) state (seq roundCounter HALF_N_FULL_ROUNDS).

(** goldilocks.go:231-238 *)
Definition partialFirstConstantLayer (state : list Z) : circ (list Z) :=
  mapM (fun i => Add (at_ state i) (at_ FAST_PARTIAL_FIRST_ROUND_CONSTANT i)) (seq 0 12).

(** goldilocks.go:251-275; result[d] accumulates over r in increasing order. *)
Definition mdsPartialLayerInit (state : list Z) : circ (list Z) :=
  let result := at_ state 0 ::
    map (fun d => fold_left (fun acc r =>
           MulAddNoReduce (at_ state r) (at_ (row_ FAST_PARTIAL_ROUND_INITIAL_MATRIX (r - 1)) (d - 1)) acc)
         (seq 1 11) Zero) (seq 1 11) in
  mapM Reduce result.

(** goldilocks.go:300-331 *)
Definition mdsPartialLayerFast (state : list Z) (r : nat) : circ (list Z) :=
  let dSum := fold_left (fun acc i =>
      MulAddNoReduce (at_ state i) (at_ (row_ FAST_PARTIAL_ROUND_W_HATS_VARS r) (i - 1)) acc)
      (seq 1 11) Zero in
  d <- Reduce (MulAddNoReduce (at_ state 0) MDS0TO0_VAR dSum);;
  let result := d :: map (fun i =>
      MulAddNoReduce (at_ state 0) (at_ (row_ FAST_PARTIAL_ROUND_VS r) (i - 1)) (at_ state i)) (seq 1 11) in
  mapM Reduce result.

(** goldilocks.go:102-115 *)
Definition partialRounds (w : Z) (state : list Z) : circ (list Z) :=
  state <- partialFirstConstantLayer state;;
  state <- mdsPartialLayerInit state;;
  foldM (fun state i =>
      s0 <- sBoxMonomial w (at_ state 0);;
      s0 <- Add s0 (at_ FAST_PARTIAL_ROUND_CONSTANTS i);;
      mdsPartialLayerFast (s0 :: tl state) i) state (seq 0 N_PARTIAL_ROUNDS).

(** goldilocks.go:30-37; roundCounter is 0, 4, 26 at the three calls. *)
Definition Poseidon_w (w : Z) (input : list Z) : circ (list Z) :=
  state <- fullRounds w input 0;;
  state <- partialRounds w state;;
  fullRounds w state (HALF_N_FULL_ROUNDS + N_PARTIAL_ROUNDS).
(** goldilocks.go:30-37 *)
Definition Poseidon (input : list Z) : circ (list Z) := Poseidon_w SBOX_BITS input.

(** goldilocks.go:41-67.  [absorb] is the first loop; each pass overwrites the
    first state elements with at most 8 inputs.  The unbounded squeezing loop is
    modelled with fuel [nbOutputs]: each pass emits up to 8 outputs, so for
    nbOutputs >= 1 the fuel is never exhausted; for nbOutputs <= 0 the Go loop does
    not terminate, which is modelled as a panic. *)
Fixpoint absorb (w : Z) (fuel : nat) (state input : list Z) : circ (list Z) :=
  match fuel with
  | O => Ret state
  | S fuel' =>
      match input with
      | [] => Ret state
      | _ => state <- Poseidon_w w (firstn SPONGE_RATE input ++ skipn (length (firstn SPONGE_RATE input)) state);;
             absorb w fuel' state (skipn SPONGE_RATE input)
      end
  end.
Fixpoint squeeze (w : Z) (fuel : nat) (state : list Z) (n : nat) : circ (list Z) :=
  match fuel with
  | O => Panic "does not terminate"
  | S fuel' =>
      if Nat.eqb n 0 then Panic "does not terminate"
      else if Nat.leb n SPONGE_RATE then Ret (firstn n state)
      else state' <- Poseidon_w w state;;
           rest <- squeeze w fuel' state' (n - SPONGE_RATE);;
           Ret (firstn SPONGE_RATE state ++ rest)
  end.
(** goldilocks.go:41-68 *)
Definition HashNToMNoPad_w (w : Z) (input : list Z) (nbOutputs : nat) : circ (list Z) :=
  state <- absorb w (length input) (repeat 0 12) input;;
  squeeze w (S nbOutputs) state nbOutputs.

(** goldilocks.go:72-86 *)
Definition HashNoPad_w (w : Z) (input : list Z) : circ (list Z) :=
  inputVars <- mapM Reduce input;;
  outputVars <- HashNToMNoPad_w w inputVars POSEIDON_GL_HASH_SIZE;;
  Ret (firstn POSEIDON_GL_HASH_SIZE outputVars).
(** goldilocks.go:41-68 *)
Definition HashNToMNoPad := HashNToMNoPad_w SBOX_BITS.
(** goldilocks.go:72-86 *)
Definition HashNoPad := HashNoPad_w SBOX_BITS.

(** ** Extension-field layers (used by the gate evaluators) *)
Definition atE (l : list QE) (i : nat) : QE := nth i l (0, 0).

(** goldilocks.go:127-136 *)
Definition ConstantLayerExtension (state : list QE) (roundCounter : nat) : circ (list QE) :=
  mapM (fun i => AddExtension (atE state i) (at_ ALL_ROUND_CONSTANTS (i + SPONGE_WIDTH * roundCounter), Zero))
       (seq 0 12).
(** goldilocks.go:147-152 *)
Definition SBoxMonomialExtension (x : QE) : circ QE :=
  x2 <- MulExtension x x;;
  x4 <- MulExtension x2 x2;;
  x3 <- MulExtension x x2;;
  MulExtension x4 x3.
(** goldilocks.go:163-170 *)
Definition SBoxLayerExtension (state : list QE) : circ (list QE) := mapM SBoxMonomialExtension state.
(** goldilocks.go:185-201 *)
Definition MdsRowShfExtension (r : nat) (v : list QE) : circ QE :=
  res <- foldM (fun res i =>
           res1 <- MulExtension (atE v ((i + r) mod SPONGE_WIDTH)) (at_ MDS_MATRIX_CIRC i, Zero);;
           AddExtension res res1) ZeroExtension (seq 0 12);;
  res1 <- MulExtension (atE v r) (at_ MDS_MATRIX_DIAG r, Zero);;
  AddExtension res res1.
(** goldilocks.go:218-229 *)
Definition MdsLayerExtension (state : list QE) : circ (list QE) :=
  mapM (fun r => MdsRowShfExtension r state) (seq 0 12).
(** goldilocks.go:240-249 *)
Definition PartialFirstConstantLayerExtension (state : list QE) : circ (list QE) :=
  mapM (fun i => AddExtension (atE state i) (at_ FAST_PARTIAL_FIRST_ROUND_CONSTANT i, Zero)) (seq 0 12).
(** goldilocks.go:277-298.  The Go loop nest runs r outside and d inside; the
    additions to result[d] for different d are independent, so they are grouped by
    d here (same constraints, different order of emission). *)
Definition MdsPartialLayerInitExtension (state : list QE) : circ (list QE) :=
  rest <- mapM (fun d => foldM (fun acc r =>
             t <- MulExtension (atE state r) (at_ (row_ FAST_PARTIAL_ROUND_INITIAL_MATRIX (r - 1)) (d - 1), Zero);;
             AddExtension acc t) ZeroExtension (seq 1 11)) (seq 1 11);;
  Ret (atE state 0 :: rest).
(** goldilocks.go:333-357 *)
Definition MdsPartialLayerFastExtension (state : list QE) (r : nat) : circ (list QE) :=
  d <- MulExtension (atE state 0) (MDS0TO0, Zero);;
  d <- foldM (fun d i =>
         t <- MulExtension (atE state i) (at_ (row_ FAST_PARTIAL_ROUND_W_HATS r) (i - 1), Zero);;
         AddExtension d t) d (seq 1 11);;
  rest <- mapM (fun i =>
         t <- MulExtension (atE state 0) (at_ (row_ FAST_PARTIAL_ROUND_VS r) (i - 1), Zero);;
         AddExtension t (atE state i)) (seq 1 11);;
  Ret (d :: rest).

(** goldilocks_test.go: the permutation of the zero state. *)
Example poseidon_zero :
  run (Poseidon (repeat 0 12)) = Done
   [4330397376401421145; 14124799381142128323; 8742572140681234676; 14345658006221440202;
    15524073338516903644; 5091405722150716653; 15002163819607624508; 2047012902665707362;
    16106391063450633726; 4680844749859802542; 15019775476387350140; 1698615465718385111].
Proof. vm_compute. reflexivity. Qed.
(** public_inputs_hash_test.go *)
Example hash_no_pad_vector :
  run (HashNoPad [0; 1; 3736710860384812976])
  = Done [8416658900775745054; 12574228347150446423; 9629056739760131473; 3119289788404190010].
Proof. vm_compute. reflexivity. Qed.
