(** * Which values of a circuit struct become variables: gnark's schema, and verifier/util.go.

    gnark finds the variables of a circuit by walking over the Go struct (frontend/schema): every
    leaf of type frontend.Variable is visited in the order of the fields and of the elements.  The
    tag [gnark:",public"] or [gnark:",secret"] sets the visibility of all leaves below
    (nested tags do not occur in /repo; here the inner one wins); without one a leaf is secret; below a field with the tag [gnark:"-"] nothing is visited.
    [frontend.Compile] overwrites the visited leaves by the variables of the circuit, public ones
    first, and then calls Define; what is not visited keeps the value it has in the struct, a
    constant of the circuit.  [frontend.NewWitness] reads the visited leaves of the assignment in
    the same order.  This is the trusted contract here.  As elsewhere a variable is its value. *)
From Coq Require Import ZArith List Bool.
From Verif Require Import Circuit Types Goldilocks GateIds Verifier.
Import ListNotations.
Open Scope Z_scope.

Inductive visibility := Unset | Secret | Public.
Inductive tag := NoTag | Omit | Vis (v : visibility).
(** a Go value as the walk sees it; [D] is what contains no variables *)
Inductive node (D : Type) :=
| Var (x : Z)
| Data (d : D)
| Slice (l : list (node D))                 (* slices and arrays *)
| Struct (l : list (tag * node D)).
Arguments Var {D}. Arguments Data {D}. Arguments Slice {D}. Arguments Struct {D}.

Section Walk.
  Context {D S : Type} (handler : visibility -> Z -> S -> option (Z * S)).
  (** schema.Walk: the handler may replace a leaf or give up *)
  Definition walk_list {A} (f : A -> S -> option (A * S)) : list A -> S -> option (list A * S) :=
    fix go l s := match l with
                  | [] => Some ([], s)
                  | a :: l => match f a s with
                              | Some (a', s1) => match go l s1 with Some (l', s2) => Some (a' :: l', s2) | None => None end
                              | None => None
                              end
                  end.
  Fixpoint Walk (v : visibility) (n : node D) (s : S) : option (node D * S) :=
    match n with
    | Var x => match handler (match v with Unset => Secret | _ => v end) x s with Some (y, s') => Some (Var y, s') | None => None end
    | Data d => Some (Data d, s)
    | Slice l => match walk_list (Walk v) l s with Some (l', s') => Some (Slice l', s') | None => None end
    | Struct l =>
        match walk_list (fun (f : tag * node D) s =>
                 match f with
                 | (Omit, m) => Some ((Omit, m), s)
                 | (NoTag, m) => match Walk v m s with Some (m', s') => Some ((NoTag, m'), s') | None => None end
                 | (Vis u, m) => match Walk u m s with Some (m', s') => Some ((Vis u, m'), s') | None => None end
                 end) l s with
        | Some (l', s') => Some (Struct l', s')
        | None => None
        end
    end.
End Walk.
Definition eqv (a b : visibility) : bool :=
  match a, b with Unset, Unset | Secret, Secret | Public, Public => true | _, _ => false end.
(** frontend.NewWitness: one walk for the public values, one for the secret ones *)
Definition collect (v : visibility) (u : visibility) (x : Z) (s : list Z) : option (Z * list Z) :=
  Some (x, if eqv u v then s ++ [x] else s).
Definition values {D} (v : visibility) (n : node D) : list Z :=
  match Walk (collect v) Unset n [] with Some (_, l) => l | None => [] end.
Definition NewWitness {D} (n : node D) : list Z * list Z := (values Public n, values Secret n).
(** frontend.Compile, with the values the solver is given for the variables; a witness of the wrong
    length is refused *)
Definition assign (v : visibility) (u : visibility) (x : Z) (s : list Z) : option (Z * list Z) :=
  if eqv u v then match s with y :: s' => Some (y, s') | [] => None end else Some (x, s).
Definition instantiate {D} (n : node D) (witness : list Z * list Z) : option (node D) :=
  match Walk (assign Public) Unset n (fst witness) with
  | Some (n1, []) => match Walk (assign Secret) Unset n1 (snd witness) with Some (n2, []) => Some n2 | _ => None end
  | _ => None
  end.

(** ** The structs *)
(** goldilocks/base.go:62-64 *)
Definition of_gl {D} (x : Z) : node D := Struct [(NoTag, Var x)].
(** poseidon/bn254.go:29: the variable itself *)
Definition of_bn254 {D} (x : Z) : node D := Var x.
(** goldilocks/quadratic_extension.go:12, an array of two *)
Definition of_qe {D} (x : QE) : node D := Slice [of_gl (fst x); of_gl (snd x)].
Definition of_list {A D} (f : A -> node D) (l : list A) : node D := Slice (map f l).
(** variables/fri.go:16 *)
Definition of_cap {D} (c : FriMerkleCap) : node D := of_list of_bn254 c.
(** variables/fri.go:22-24 *)
Definition of_merkle {D} (siblings : list Z) : node D := Struct [(NoTag, of_list of_bn254 siblings)].
(** variables/fri.go:30-33 *)
Definition of_eval {D} (e : FriEvalProof) : node D := Struct [(NoTag, of_list of_gl (Elements e)); (NoTag, of_merkle (ep_Siblings e))].
(** variables/fri.go:47-50 *)
Definition of_step {D} (s : FriQueryStep) : node D := Struct [(NoTag, of_list of_qe (Evals s)); (NoTag, of_merkle (st_Siblings s))].
(** variables/fri.go:39-41 and 59-62 *)
Definition of_round {D} (q : FriQueryRound) : node D :=
  Struct [(NoTag, Struct [(NoTag, of_list of_eval (InitialTreesProof q))]); (NoTag, of_list of_step (Steps q))].
(** variables/fri.go:8-10 and 68-73 *)
Definition of_fri {D} (f : FriProof) : node D :=
  Struct [(NoTag, of_list of_cap (CommitPhaseMerkleCaps f)); (NoTag, of_list of_round (QueryRoundProofs f));
          (NoTag, Struct [(NoTag, of_list of_qe (FinalPoly f))]); (NoTag, of_gl (PowWitness f))].
(** variables/plonk.go:5-13 *)
Definition of_openings {D} (o : OpeningSet) : node D :=
  Struct (map (fun l => (NoTag, of_list of_qe l)) [Constants o; PlonkSigmas o; Wires o; PlonkZs o; PlonkZsNext o; PartialProducts o; QuotientPolys o]).
(** variables/circuit.go:8-14 *)
Definition of_proof {D} (p : Proof_) : node D :=
  Struct [(NoTag, of_cap (WiresCap p)); (NoTag, of_cap (PlonkZsPartialProductsCap p)); (NoTag, of_cap (QuotientPolysCap p));
          (NoTag, of_openings (Openings p)); (NoTag, of_fri (OpeningProof p))].
(** variables/circuit.go:21-24 *)
Definition of_vd {D} (v : VerifierOnlyCircuitData) : node D :=
  Struct [(NoTag, of_cap (ConstantSigmasCap v)); (NoTag, of_bn254 (CircuitDigest v))].

(** verifier/util.go:10-17 *)
Record ExampleVerifierCircuit := mkExample {
  ex_PublicInputs : list Z; ex_Proof : Proof_; ex_Vd : VerifierOnlyCircuitData; ex_CommonData : CommonCircuitData }.
(** with arbitrary tags of the proof and of the verifier data; types.CommonCircuitData
    (types/types.go:74-86) has no field of type frontend.Variable *)
Definition of_example (proofTag vdTag : tag) (c : ExampleVerifierCircuit) : node CommonCircuitData :=
  Struct [(Vis Public, of_list of_gl (ex_PublicInputs c)); (proofTag, of_proof (ex_Proof c)); (vdTag, of_vd (ex_Vd c)); (NoTag, Data (ex_CommonData c))].
(** verifier/util.go:11-13 *)
Definition tagged : ExampleVerifierCircuit -> node CommonCircuitData := of_example Omit Omit.
(** verifier/util.go:19-24 *)
Definition define (orders : nat -> list handler) (c : ExampleVerifierCircuit) : circ unit :=
  Define orders 192 (ex_CommonData c) (ex_Proof c) (ex_PublicInputs c) (ex_Vd c).
(** the circuit compiled from [c] holds for the witness, with hints chosen by the prover;
    the solver finds the hints itself *)
Definition satisfied (s : ExampleVerifierCircuit -> node CommonCircuitData) orders (c : ExampleVerifierCircuit) (witness : list Z * list Z) : Prop :=
  exists c', instantiate (s c) witness = Some (s c') /\ sat (define orders c').
Definition solved (s : ExampleVerifierCircuit -> node CommonCircuitData) orders (c : ExampleVerifierCircuit) (witness : list Z * list Z) : Prop :=
  exists c', instantiate (s c) witness = Some (s c') /\ run (define orders c') = Done tt.
