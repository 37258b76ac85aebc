(** * Model of the range checking machinery of the chip: the selection of the
      range checker, the registry of chips, the collection of requests and their
      deferred hand-over to gnark, and the cost model (goldilocks/base.go,
      goldilocks/range_checker_utils.go, goldilocks/utils.go).

    In Circuit.v a [Range x n] node stands for a request [rangeCheckerCheck(x, n)].
    Here the requests issued while a circuit is defined go through the chip; what
    the constraint system enforces of them in the end is a list of [constraint]s.

    gnark's side (version 0.9.1 of go.mod) is modelled from its documented contract:
    [Compiler().Defer] appends a callback, the callbacks run in order after the
    circuit has been defined; [rangecheck.New] returns the api itself, one shared
    committing checker per compiler, or the plain checker; the committing checker
    defers its own [commit], panics on requests made after it, and decomposes each
    value into [decompSize bits base] limbs of [base] bits, [base] being the optimum
    of gnark's own copy of the cost model. *)
From Coq Require Import String.
From Coq Require Import ZArith Lia List Bool Arith.
From Verif Require Import Zp Circuit Goldilocks.
Import ListNotations.
Open Scope Z_scope.

(** ** Cost model.  The Go ints are 64 bit; here they do not overflow. *)
(** goldilocks/range_checker_utils.go:22-25 [checkedVariable]: value and width *)
Notation checkedVariable := (Z * Z)%type (only parsing).

(** goldilocks/range_checker_utils.go:53-55 ; Go division truncates *)
Definition decompSize (varSize limbSize : Z) : Z := Z.quot (varSize + limbSize - 1) limbSize.

(** the loop over [collected] shared by the two cost functions *)
Definition nbDecomposed (baseLength : Z) (collected : list checkedVariable) : Z :=
  fold_left (fun n v => n + decompSize (snd v) baseLength) collected 0.

(** goldilocks/range_checker_utils.go:57-66 *)
Definition nbR1CSConstraints (baseLength : Z) (collected : list checkedVariable) : Z :=
  let eqs := Z.of_nat (length collected) in
  let nbRight := nbDecomposed baseLength collected in
  let nbleft := Z.shiftl 1 baseLength in
  nbleft + nbRight + eqs + 1.

(** goldilocks/range_checker_utils.go:68-77 *)
Definition nbPLONKConstraints (baseLength : Z) (collected : list checkedVariable) : Z :=
  let eqs := nbDecomposed baseLength collected in
  let nbRight := 3 * nbDecomposed baseLength collected in
  let nbleft := 3 * Z.shiftl 1 baseLength in
  nbleft + nbRight + eqs + 1.

Definition MaxInt64 : Z := 2 ^ 63 - 1.

(** goldilocks/range_checker_utils.go:39-51 : the loop for j from 2 to 17 with
    the pair (min, minVal) as its state *)
Definition optimalWidth (countFn : Z -> list checkedVariable -> Z) (collected : list checkedVariable) : Z :=
  snd (fold_left (fun st j => let current := countFn j collected in
                              if current <? fst st then (current, j) else st)
                 [2; 3; 4; 5; 6; 7; 8; 9; 10; 11; 12; 13; 14; 15; 16; 17] (MaxInt64, 0)).

(** goldilocks/range_checker_utils.go:11-16 [Type] *)
Inductive ftype := R1CS | SCS.

(** ** What the chip can learn about an api.

    [frontendTyper] is the answer of [FrontendType()] if the api has a method of that
    name returning the [Type] of THIS package (range_checker_utils.go:18-20).  The method
    of gnark's builders returns gnark's own type, so for them it is [None];
    [gnarkType] is what gnark itself sees. *)
Record Api := mkApi {
  isRangechecker : bool;
  isCommitter : bool;
  frontendTyper : option ftype;
  gnarkType : ftype
}.

Definition widthFor (t : ftype) : list checkedVariable -> Z :=
  optimalWidth (match t with R1CS => nbR1CSConstraints | SCS => nbPLONKConstraints end).

(** goldilocks/range_checker_utils.go:27-37 *)
Definition getOptimalBasewidth (api : Api) (collected : list checkedVariable) : Z :=
  match frontendTyper api with
  | Some R1CS => optimalWidth nbR1CSConstraints collected
  | Some SCS => optimalWidth nbPLONKConstraints collected
  | None => optimalWidth nbR1CSConstraints collected
  end.

(** goldilocks/base.go:87-93 [RangeCheckerType] *)
Inductive RangeCheckerType := NATIVE_RANGE_CHECKER | COMMIT_RANGE_CHECKER | BIT_DECOMP_RANGE_CHECKER.

(** goldilocks/range_checker_utils.go:79-89 *)
Definition gnarkRangeCheckerSelector (api : Api) : RangeCheckerType :=
  if isRangechecker api then NATIVE_RANGE_CHECKER
  else if isCommitter api then COMMIT_RANGE_CHECKER
  else BIT_DECOMP_RANGE_CHECKER.

(** ** Constraints *)
Inductive constraint :=
| CNative (x n : Z)        (** handed to the api's own checker *)
| CBits (x n : Z)          (** bits.ToBinary(x, n) *)
| CLimbs (w x n : Z).      (** limbs of w bits of the committing checker *)

(** value of little-endian digits to base 2^w *)
Fixpoint limbs_value (w : Z) (l : list Z) : Z :=
  match l with [] => 0 | d :: l' => d + 2 ^ w * limbs_value w l' end.

(** An assignment of the internal wires of the gadget exists. *)
Definition holds (c : constraint) : Prop :=
  match c with
  | CNative x n => 0 <= x < 2 ^ n
  | CBits x n =>
      exists bits, length bits = Z.to_nat n /\ Forall (fun b => b = 0 \/ b = 1) bits /\
                   of_bits bits mod r = x
  | CLimbs w x n =>
      exists limbs, length limbs = Z.to_nat (decompSize n w) /\
                    Forall (fun d => 0 <= d < 2 ^ w) limbs /\ limbs_value w limbs mod r = x
  end.

(** ** State *)
(** goldilocks/base.go:96-104 [Chip]; [ctype] also determines [rangeChecker]: the plain
    checker of utils.go for BIT_DECOMP, else what rangecheck.New returned. *)
Record Chip := mkChip { ctype : RangeCheckerType; collected : list checkedVariable }.

Inductive callback := CheckCollected | GnarkCommit.

(** gnark's compiler behind one api: deferred callbacks, the shared committing checker
    (its requests and whether it is closed), the constraints emitted so far *)
Record Builder := mkBuilder {
  deferred : list callback;
  checker : option (list checkedVariable * bool);
  emitted : list constraint
}.
Definition fresh : Builder := mkBuilder [] None [].

Definition api_id := nat.
(** [chips] is the map [poseidonChips] (base.go:106-109). The mutexes make each operation
    atomic. *)
Record World := mkWorld { chips : list (api_id * Chip); builders : api_id -> Builder }.
Definition start : World := mkWorld [] (fun _ => fresh).

Fixpoint lookup (a : api_id) (m : list (api_id * Chip)) : option Chip :=
  match m with
  | [] => None
  | (b, c) :: m' => if Nat.eqb a b then Some c else lookup a m'
  end.
Fixpoint update (a : api_id) (c : Chip) (m : list (api_id * Chip)) : list (api_id * Chip) :=
  match m with
  | [] => [(a, c)]
  | (b, d) :: m' => if Nat.eqb a b then (a, c) :: m' else (b, d) :: update a c m'
  end.
Definition set_builder (a : api_id) (b : Builder) (f : api_id -> Builder) : api_id -> Builder :=
  fun a' => if Nat.eqb a' a then b else f a'.

Section Machine.
(** the value of the environment variable USE_BIT_DECOMPOSITION_RANGE_CHECK is "true" *)
Variable useBitDecomp : bool.
Variable api : api_id -> Api.

(** [api.Compiler().Defer(cb)] *)
Definition Defer (cb : callback) (b : Builder) : Builder :=
  mkBuilder (deferred b ++ [cb]) (checker b) (emitted b).

(** gnark's [rangecheck.New]: only the committing checker has state *)
Definition rangecheck_New (i : Api) (b : Builder) : Builder :=
  if isRangechecker i then b
  else if isCommitter i then
    match checker b with
    | Some _ => b
    | None => let b' := Defer GnarkCommit b in mkBuilder (deferred b') (Some ([], false)) (emitted b')
    end
  else b.

(** goldilocks/base.go:134-139 *)
Definition chosen (a : api_id) : RangeCheckerType :=
  if useBitDecomp then BIT_DECOMP_RANGE_CHECKER else gnarkRangeCheckerSelector (api a).

(** goldilocks/base.go:112-159 *)
Definition New (a : api_id) (w : World) : World :=
  match lookup a (chips w) with
  | Some _ => w
  | None =>
      let t := chosen a in
      let b := builders w a in
      let b' := match t with
                | BIT_DECOMP_RANGE_CHECKER => b
                | COMMIT_RANGE_CHECKER => rangecheck_New (api a) (Defer CheckCollected b)
                | NATIVE_RANGE_CHECKER => rangecheck_New (api a) b
                end in
      mkWorld (update a (mkChip t []) (chips w)) (set_builder a b' (builders w))
  end.

(** goldilocks/utils.go:52-54 ([bitDecompChecker]): [bits.WithNbDigits] refuses
    widths that are not positive *)
Definition bitDecomp_Check (x n : Z) (b : Builder) : option Builder :=
  if n <=? 0 then None else Some (mkBuilder (deferred b) (checker b) (emitted b ++ [CBits x n])).

(** goldilocks/base.go:411-421 : in Go a case does not fall through, so the case
    NATIVE_RANGE_CHECKER, whose body is empty, does nothing.  [None] is a panic.  The chip
    [p] is the one registered for [a]; without one there is no receiver to call. *)
Definition rangeCheckerCheck (a : api_id) (x nbBits : Z) (w : World) : option World :=
  match lookup a (chips w) with
  | None => None
  | Some p =>
      match ctype p with
      | NATIVE_RANGE_CHECKER => Some w
      | BIT_DECOMP_RANGE_CHECKER =>
          match bitDecomp_Check x nbBits (builders w a) with
          | Some b => Some (mkWorld (chips w) (set_builder a b (builders w)))
          | None => None
          end
      | COMMIT_RANGE_CHECKER =>
          Some (mkWorld (update a (mkChip (ctype p) (collected p ++ [(x, nbBits)])) (chips w)) (builders w))
      end
  end.

(** the committing checker's [Check]: panics once closed *)
Definition commit_Check (v : checkedVariable) (b : Builder) : option Builder :=
  match checker b with
  | Some (l, false) => Some (mkBuilder (deferred b) (Some (l ++ [v], false)) (emitted b))
  | _ => None
  end.

(** the loop of checkCollected *)
Fixpoint handOver (nbBits : Z) (l : list checkedVariable) (b : Builder) : option Builder :=
  match l with
  | [] => Some b
  | v :: l' =>
      if Z.rem (snd v) nbBits =? 0 then
        match commit_Check v b with Some b' => handOver nbBits l' b' | None => None end
      else None
  end.

(** goldilocks/base.go:423-442 *)
Definition checkCollected (a : api_id) (p : Chip) (b : Builder) : option Builder :=
  match ctype p with
  | COMMIT_RANGE_CHECKER =>
      let nbBits := getOptimalBasewidth (api a) (collected p) in
      if nbBits =? EXPECTED_OPTIMAL_BASEWIDTH then handOver nbBits (collected p) b else None
  | _ => None
  end.

(** gnark's [commitChecker.commit] *)
Definition gnarkCommit (i : Api) (b : Builder) : option Builder :=
  match checker b with
  | Some (l, false) =>
      let base := widthFor (gnarkType i) l in
      Some (mkBuilder (deferred b) (Some (l, true)) (emitted b ++ map (fun v => CLimbs base (fst v) (snd v)) l))
  | _ => Some b
  end.

Definition runCallback (a : api_id) (p : option Chip) (cb : callback) (b : Builder) : option Builder :=
  match cb with
  | CheckCollected => match p with Some c => checkCollected a c b | None => None end
  | GnarkCommit => gnarkCommit (api a) b
  end.

Fixpoint runCallbacks (a : api_id) (p : option Chip) (cbs : list callback) (b : Builder) : option Builder :=
  match cbs with
  | [] => Some b
  | cb :: l => match runCallback a p cb b with Some b' => runCallbacks a p l b' | None => None end
  end.

(** End of the compilation of [a]: the deferred callbacks run in order; the result is the
    list of range constraints of the constraint system, [None] a panic. *)
Definition finish (a : api_id) (w : World) : option (list constraint) :=
  match runCallbacks a (lookup a (chips w)) (deferred (builders w a)) (builders w a) with
  | Some b => Some (emitted b)
  | None => None
  end.

(** What the program does: create a chip ([New] is called by every gadget), issue a
    request through the chip of an api, or call gnark's rangecheck.New directly, as a
    gadget outside this repository might. *)
Inductive event := ENew (a : api_id) | ECheck (a : api_id) (x n : Z) | EForeign (a : api_id).

Definition step (e : event) (w : World) : option World :=
  match e with
  | ENew a => Some (New a w)
  | ECheck a x n => rangeCheckerCheck a x n w
  | EForeign a => Some (mkWorld (chips w) (set_builder a (rangecheck_New (api a) (builders w a)) (builders w)))
  end.

Fixpoint play (evs : list event) (w : World) : option World :=
  match evs with
  | [] => Some w
  | e :: l => match step e w with Some w' => play l w' | None => None end
  end.

(** The whole compilation of [a] within a program. *)
Definition compile (a : api_id) (evs : list event) : option (list constraint) :=
  match play evs start with Some w => finish a w | None => None end.
End Machine.

(** The requests made for [a], in order. *)
Fixpoint requests (a : api_id) (evs : list event) : list checkedVariable :=
  match evs with
  | [] => []
  | ECheck b x n :: l => if Nat.eqb a b then (x, n) :: requests a l else requests a l
  | _ :: l => requests a l
  end.

(** ** Circuits with their trace of requests

    [traces c v l]: some witness makes the circuit reach the result [v] with all of
    its equations satisfied, having issued the requests [l]; the requests themselves
    are not yet enforced. *)
Fixpoint traces {A} (c : circ A) (v : A) (l : list checkedVariable) : Prop :=
  match c with
  | Ret x => x = v /\ l = []
  | Hint _ n k => exists h, length h = n /\ Forall inr_ h /\ traces (k h) v l
  | Assert b k => b = true /\ traces k v l
  | Range x n k => exists l', l = (x, n) :: l' /\ traces k v l'
  | Panic _ => False
  end.

(** The circuit compiled for api [a] accepts with result [v]: it is defined by a program
    [evs] whose requests for [a] are those of the trace, and what has been emitted holds. *)
Definition accepts (ubd : bool) (api : api_id -> Api) (a : api_id) {A} (c : circ A) (v : A) : Prop :=
  exists l cs, traces c v l /\
    compile ubd api a (ENew a :: map (fun q => ECheck a (fst q) (snd q)) l) = Some cs /\ Forall holds cs.
