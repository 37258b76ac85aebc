(** * Model of the gate id parser: plonk/gates/gates.go and the regular expressions and
      deserialize functions of plonk/gates/*_gate.go.

    A string is its list of bytes.  The regular expressions of the code are
    concatenations of literals, greedy character class repetitions (captured) and one
    trailing ".*"; [regex_at] matches one at the beginning of a string with the
    backtracking order of Go's regexp package (longest repetition first), and [find]
    takes the leftmost match (FindStringSubmatch; the expressions are not anchored). *)
From Coq Require Import String.
From Coq Require Import Ascii ZArith NArith Lia List Bool.
From Verif Require Import Zp Circuit Goldilocks Types Gates.
Import ListNotations.
Open Scope Z_scope.
Open Scope circ_scope.

Definition chars (s : string) : list ascii := list_ascii_of_string s.

(** ** Regular expressions *)
Inductive item : Set :=
| Lit (s : string)                            (* literal text *)
| Cap (name : string) (cls : ascii -> bool)   (* (?P<name>[cls]+) *)
| DotStar.                                    (* .* *)
Definition is_digit (c : ascii) : bool := (48 <=? N_of_ascii c)%N && (N_of_ascii c <=? 57)%N.
(** the class [0-9, ] *)
Definition is_list_char (c : ascii) : bool := is_digit c || Ascii.eqb c "," || Ascii.eqb c " ".
Definition not_newline (c : ascii) : bool := negb (N_of_ascii c =? 10)%N.

(** the rest after the literal [l], if [s] begins with it *)
Fixpoint strip (l s : list ascii) : option (list ascii) :=
  match l, s with
  | [], _ => Some s
  | a :: l', b :: s' => if Ascii.eqb a b then strip l' s' else None
  | _, [] => None
  end.
(** length of the longest prefix of characters in the class *)
Fixpoint span (cls : ascii -> bool) (s : list ascii) : nat :=
  match s with c :: s' => if cls c then S (span cls s') else O | [] => O end.
(** try the prefix lengths n, n-1, ..., lo *)
Fixpoint try_down {A} (n lo : nat) (k : nat -> option A) : option A :=
  if Nat.ltb n lo then None else
  match k n with
  | Some a => Some a
  | None => match n with O => None | S n' => try_down n' lo k end
  end.
Fixpoint regex_at (r : list item) (s : list ascii) {struct r} : option (list (string * list ascii)) :=
  match r with
  | [] => Some []
  | Lit l :: r' => match strip (chars l) s with Some s' => regex_at r' s' | None => None end
  | Cap name cls :: r' =>
      try_down (span cls s) 1 (fun n =>
        match regex_at r' (skipn n s) with Some m => Some ((name, firstn n s) :: m) | None => None end)
  | DotStar :: r' => try_down (span not_newline s) 0 (fun n => regex_at r' (skipn n s))
  end.
(** the named groups of the leftmost match *)
Fixpoint find (r : list item) (s : list ascii) : option (list (string * list ascii)) :=
  match regex_at r s with
  | Some m => Some m
  | None => match s with [] => None | _ :: s' => find r s' end
  end.

(** ** Numbers *)
Definition digit_val (c : ascii) : Z := Z.of_N (N_of_ascii c) - 48.
Definition dec (s : list ascii) : Z := fold_left (fun acc c => 10 * acc + digit_val c) s 0.
(** strconv.ParseUint(s, 10, 64) *)
Definition ParseUint (s : list ascii) : option Z :=
  match s with
  | [] => None
  | _ => if forallb is_digit s && (dec s <? 2 ^ 64) then Some (dec s) else None
  end.
(** strconv.Atoi (64-bit int) on strings without a sign; the captured strings have none *)
Definition Atoi (s : list ascii) : option Z :=
  match s with
  | [] => None
  | _ => if forallb is_digit s && (dec s <? 2 ^ 63) then Some (dec s) else None
  end.
(** strings.Split(s, ",") *)
Fixpoint split_comma (s : list ascii) : list (list ascii) :=
  match s with
  | [] => [[]]
  | c :: s' =>
      if Ascii.eqb c "," then [] :: split_comma s'
      else match split_comma s' with w :: ws => (c :: w) :: ws | [] => [[c]] end
  end.
(** strings.TrimSpace, for strings whose only white space is the blank *)
Fixpoint trim_left (s : list ascii) : list ascii :=
  match s with c :: s' => if Ascii.eqb c " " then trim_left s' else s | [] => [] end.
Definition TrimSpace (s : list ascii) : list ascii := rev (trim_left (rev (trim_left s))).

(** ** deserialize functions *)
Definition params : Type := list (string * list ascii).
Fixpoint lookup (name : string) (ps : params) : option (list ascii) :=
  match ps with
  | [] => None
  | (n, v) :: ps' => if String.eqb n name then Some v else lookup name ps'
  end.
Definition field (name msg : string) (ps : params) : circ (list ascii) := of_opt msg (lookup name ps).
Definition number (parse : list ascii -> option Z) (msg : string) (s : list ascii) : circ nat :=
  z <- of_opt msg (parse s);; Ret (Z.to_nat z).

(** one numeric field read with strconv.Atoi: plonk/gates/arithmetic_gate.go:14-28,
    plonk/gates/arithmetic_extension_gate.go:14-27,
    plonk/gates/constant_gate.go:14-27,
    plonk/gates/multiplication_extension_gate.go:14-27,
    plonk/gates/reducing_extension_gate.go:14-27,
    plonk/gates/reducing_gate.go:14-27 *)
Definition deserialize1 (name : string) (mk : nat -> Gate) (ps : params) : circ Gate :=
  s <- field name "Missing field" ps;;
  n <- number Atoi "Invalid field" s;;
  Ret (mk n).
(** plonk/gates/base_sum_gate.go:14-34 *)
Definition deserializeBaseSumGate (ps : params) : circ Gate :=
  numLimbs <- field "numLimbs" "Missing field num_limbs or base in BaseSumGate" ps;;
  base <- field "base" "Missing field num_limbs or base in BaseSumGate" ps;;
  numLimbsInt <- number Atoi "Invalid num_limbs field in BaseSumGate" numLimbs;;
  baseInt <- number Atoi "Invalid base field in BaseSumGate" base;;
  Ret (BaseSumGate numLimbsInt baseInt).
(** plonk/gates/coset_interpolation_gate.go:16-51;
    SetUint64 reduces modulo the field order *)
Definition deserializeCosetInterpolationGate (ps : params) : circ Gate :=
  subgroupBits <- field "subgroupBits" "missing subgroupBits, degree or barycentricWeights in CosetInterpolationGate" ps;;
  degree <- field "degree" "missing subgroupBits, degree or barycentricWeights in CosetInterpolationGate" ps;;
  barycentricWeights <- field "barycentricWeights" "missing subgroupBits, degree or barycentricWeights in CosetInterpolationGate" ps;;
  subgroupBitsInt <- number ParseUint "invalid subgroupBits in CosetInterpolationGate" subgroupBits;;
  degreeInt <- number ParseUint "invalid degree in CosetInterpolationGate" degree;;
  (if Nat.ltb degreeInt 2 then Panic "degree must be at least 2 in CosetInterpolationGate" else Ret tt);;;
  weights <- mapM (fun w => z <- of_opt "invalid barycentricWeights in CosetInterpolationGate" (ParseUint (TrimSpace w));;
                            Ret (z mod MODULUS)) (split_comma barycentricWeights);;
  Ret (CosetInterpolationGate subgroupBitsInt degreeInt weights).
(** plonk/gates/exponentiation_gate.go:14-41 *)
Definition deserializeExponentiationGate (ps : params) : circ Gate :=
  numPowerBits <- field "numPowerBits" "Missing field num_power_bits in ExponentiationGate" ps;;
  numPowerBitsInt <- number Atoi "Invalid num_power_bits field in ExponentiationGate" numPowerBits;;
  base <- field "base" "Missing field base in ExponentiationGate" ps;;
  baseInt <- number Atoi "Invalid base field in ExponentiationGate" base;;
  (if Nat.eqb baseInt D then Ret tt else Panic "Expected base field in ExponentiationGate to equal gl.D");;;
  Ret (ExponentiationGate numPowerBitsInt).
(** plonk/gates/random_access_gate.go:14-54 *)
Definition deserializeRandomAccessGate (ps : params) : circ Gate :=
  bits <- field "bits" "missing bits, numCopies, numExtraConstants or base in RandomAccessGate" ps;;
  numCopies <- field "numCopies" "missing bits, numCopies, numExtraConstants or base in RandomAccessGate" ps;;
  numExtraConstants <- field "numExtraConstants" "missing bits, numCopies, numExtraConstants or base in RandomAccessGate" ps;;
  bitsInt <- number ParseUint "invalid bits in RandomAccessGate" bits;;
  numCopiesInt <- number ParseUint "invalid numCopies in RandomAccessGate" numCopies;;
  numExtraConstantsInt <- number ParseUint "invalid numExtraConstants in RandomAccessGate" numExtraConstants;;
  base <- field "base" "Missing field base in RandomAccessGate" ps;;
  baseInt <- number Atoi "Invalid base field in RandomAccessGate" base;;
  (if Nat.eqb baseInt D then Ret tt else Panic "Expected base field in RandomAccessGate to equal gl.D");;;
  Ret (RandomAccessGate bitsInt numCopiesInt numExtraConstantsInt).

(** ** The handler table *)
Definition handler : Type := list item * (params -> circ Gate).
Definition arithmeticGateRegex := [Lit "ArithmeticGate { num_ops: "; Cap "numOps" is_digit; Lit " }"].
Definition arithmeticExtensionGateRegex := [Lit "ArithmeticExtensionGate { num_ops: "; Cap "numOps" is_digit; Lit " }"].
Definition baseSumGateRegex :=
  [Lit "BaseSumGate { num_limbs: "; Cap "numLimbs" is_digit; Lit " } + Base: "; Cap "base" is_digit].
Definition constantGateRegex := [Lit "ConstantGate { num_consts: "; Cap "numConsts" is_digit; Lit " }"].
Definition phantom : string := ", _phantom: PhantomData<plonky2_field::goldilocks_field::GoldilocksField> }<D=".
Definition cosetInterpolationGateRegex :=
  [Lit "CosetInterpolationGate { subgroup_bits: "; Cap "subgroupBits" is_digit; Lit ", degree: "; Cap "degree" is_digit;
   Lit ", barycentric_weights: ["; Cap "barycentricWeights" is_list_char; Lit ("]" ++ phantom ++ "2>")].
Definition exponentiationGateRegex :=
  [Lit "ExponentiationGate { num_power_bits: "; Cap "numPowerBits" is_digit; Lit phantom; Cap "base" is_digit; Lit ">"].
Definition mulExtensionGateRegex := [Lit "MulExtensionGate { num_ops: "; Cap "numOps" is_digit; Lit " }"].
Definition noopGateRegex := [Lit "NoopGate"].
Definition poseidonGateRegex := [Lit "PoseidonGate"; DotStar].
Definition poseidonMdsGateRegex := [Lit "PoseidonMdsGate"; DotStar].
Definition publicInputGateRegex := [Lit "PublicInputGate"].
Definition randomAccessGateRegex :=
  [Lit "RandomAccessGate { bits: "; Cap "bits" is_digit; Lit ", num_copies: "; Cap "numCopies" is_digit;
   Lit ", num_extra_constants: "; Cap "numExtraConstants" is_digit; Lit phantom; Cap "base" is_digit; Lit ">"].
Definition reducingExtensionGateRegex := [Lit "ReducingExtensionGate { num_coeffs: "; Cap "numCoeffs" is_digit; Lit " }"].
Definition reducingGateRegex := [Lit "ReducingGate { num_coeffs: "; Cap "numCoeffs" is_digit; Lit " }"].

(** plonk/gates/gates.go:20-35; the regular expressions are those of line 12 (10, 11 or 14) of
    the gate files *)
Definition gateRegexHandlers : list handler :=
  [(arithmeticGateRegex, deserialize1 "numOps" ArithmeticGate);
   (arithmeticExtensionGateRegex, deserialize1 "numOps" ArithmeticExtensionGate);
   (baseSumGateRegex, deserializeBaseSumGate);
   (constantGateRegex, deserialize1 "numConsts" ConstantGate);
   (cosetInterpolationGateRegex, deserializeCosetInterpolationGate);
   (exponentiationGateRegex, deserializeExponentiationGate);
   (mulExtensionGateRegex, deserialize1 "numOps" MultiplicationExtensionGate);
   (noopGateRegex, fun _ => Ret NoopGate);
   (poseidonGateRegex, fun _ => Ret PoseidonGate);
   (poseidonMdsGateRegex, fun _ => Ret PoseidonMdsGate);
   (publicInputGateRegex, fun _ => Ret PublicInputGate);
   (randomAccessGateRegex, deserializeRandomAccessGate);
   (reducingExtensionGateRegex, deserialize1 "numCoeffs" ReducingExtensionGate);
   (reducingGateRegex, deserialize1 "numCoeffs" ReducingGate)].

(** plonk/gates/gates.go:37-54.  [order] is the order in which the map is
    iterated; Go picks one at random for every call. *)
Fixpoint GateInstanceFromId (order : list handler) (gateId : string) : circ Gate :=
  match order with
  | [] => Panic ("Unknown gate ID " ++ gateId)
  | (regex, handle) :: order' =>
      match find regex (chars gateId) with
      | Some parameters => handle parameters
      | None => GateInstanceFromId order' gateId
      end
  end.
(** plonk/plonk.go:27-31: the gates of the circuit; call number i iterates the map in the
    order [orders i] *)
Definition createdGates (orders : nat -> list handler) (gateIds : list string) : circ (list Gate) :=
  mapM (fun ii => GateInstanceFromId (orders (fst ii)) (snd ii)) (combine (seq 0 (length gateIds)) gateIds).

(** ** Id *)
(** fmt's %d for a value that is not negative *)
Fixpoint show_fuel (fuel : nat) (n : N) : string :=
  match fuel with
  | O => ""
  | S f => if (n <? 10)%N then String (ascii_of_N (48 + n)) "" else show_fuel f (n / 10) ++ String (ascii_of_N (48 + n mod 10)) ""
  end.
Definition show (n : nat) : string := show_fuel (S (N.size_nat (N.of_nat n))) (N.of_nat n).
(** Id of every gate: plonk/gates/arithmetic_gate.go:40-42, plonk/gates/arithmetic_extension_gate.go:39-41,
    plonk/gates/base_sum_gate.go:53-55, plonk/gates/constant_gate.go:39-41,
    plonk/gates/coset_interpolation_gate.go:67-75, plonk/gates/exponentiation_gate.go:53-55,
    plonk/gates/multiplication_extension_gate.go:39-41, plonk/gates/noop_gate.go:24-26,
    plonk/gates/poseidon_gate.go:25-27, plonk/gates/poseidon_mds_gate.go:25-27,
    plonk/gates/public_input_gate.go:24-26, plonk/gates/random_access_gate.go:70-72,
    plonk/gates/reducing_extension_gate.go:41-43, plonk/gates/reducing_gate.go:41-43.
    [sprint] is what fmt.Sprint prints for a slice of gnark-crypto elements. *)
Definition Id (sprint : list Z -> string) (g : Gate) : string :=
  match g with
  | ArithmeticGate n => "ArithmeticGate { num_ops: " ++ show n ++ " }"
  | ArithmeticExtensionGate n => "ArithmeticExtensionGate { num_ops: " ++ show n ++ " }"
  | BaseSumGate n b => "BaseSumGate { num_limbs: " ++ show n ++ " } + Base: " ++ show b
  | ConstantGate n => "ConstantGate { num_consts: " ++ show n ++ " }"
  | CosetInterpolationGate n d ws =>
      "CosetInterpolationGate { subgroup_bits: " ++ show n ++ ", degree: " ++ show d ++ ", barycentric_weights: " ++ sprint ws ++ " }"
  | ExponentiationGate n => "ExponentiationGate { num_power_bits: " ++ show n ++ " }"
  | MultiplicationExtensionGate n => "MulExtensionGate { num_ops: " ++ show n ++ " }"
  | NoopGate => "NoopGate"
  | PoseidonGate => "PoseidonGate"
  | PoseidonMdsGate => "PoseidonMdsGate"
  | PublicInputGate => "PublicInputGate"
  | RandomAccessGate b c x =>
      "RandomAccessGate { bits: " ++ show b ++ ", num_copies: " ++ show c ++ ", num_extra_constants: " ++ show x ++ " }"
  | ReducingExtensionGate n => "ReducingExtensionGate { num_coeffs: " ++ show n ++ " }"
  | ReducingGate n => "ReducingGate { num_coeffs: " ++ show n ++ " }"
  end.
