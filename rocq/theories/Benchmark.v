(** * Model of benchmark.go: the command that proves the verifier circuit with gnark.

    gnark itself is not modelled: [backend] is what the command uses of it, arbitrary functions
    in the theorems.  Modelled are the order of the calls, which errors end the process, which
    are ignored, and nil values.  Left out: profiling, time stamps, the wording of messages. *)
From Coq Require Import String.
From Coq Require Import ZArith List Bool.
From Verif Require Import Circuit TrustedSetup.
Import ListNotations.
Open Scope Z_scope.

(** what can be observed besides the outcome *)
Inductive event :=
| Saved (file : string)            (* the artifact is written *)
| Verified                         (* Verify of the backend returned no error *)
| Skipped                          (* the message that verification is skipped *)
| PrintedBytes (l : list Z)
| PrintedWords (l : list Z).
Definition prog (A : Type) : Type := (list event * result A)%type.
Definition ret {A} (a : A) : prog A := ([], Ok a).
Definition stop {A} (x : result A) : prog A := ([], x).
Definition emit (e : event) : prog unit := ([e], Ok tt).
Definition pbind {A B} (c : prog A) (f : A -> prog B) : prog B :=
  match snd c with
  | Ok a => (fst c ++ fst (f a), snd (f a))
  | Exit => (fst c, Exit)
  | Abort m => (fst c, Abort m)
  end.
Notation "x <~ c ;; d" := (pbind c (fun x => d)) (at level 61, c at next level, right associativity).
(** [os.Exit(1)], [panic(err)] on an error *)
Definition try_ {A} (x : option A) : prog A := stop (orExit x).
Definition must {A} (x : option A) (msg : string) : prog A := stop (match x with Some a => Ok a | None => Abort msg end).
Definition when_ (b : bool) (c : prog unit) : prog unit := if b then c else ret tt.

Inductive system := Plonk | Groth16.
Record backend := mkBackend {
  Inputs : Type; CS : Type; PK : Type; VK : Type; Params : Type; Witness : Type; PublicWitness : Type; OuterProof : Type;
  load : string -> option Inputs;                  (* the readers of types and variables; None: a panic *)
  compile : system -> Inputs -> option CS;         (* frontend.Compile with the builder of the system *)
  testSRS : CS -> option Params;                   (* test.NewKZGSRS *)
  statSRS : bool;                                  (* srs_setup exists *)
  download : result unit;                          (* trusted_setup.DownloadAndSaveAztecIgnitionSrs(174, "srs_setup") *)
  readSRS : option Params;                         (* ReadFrom, also for a file that could not be opened *)
  plonkSetup : CS -> Params -> option (PK * VK);
  groth16Dummy : CS -> option PK;
  groth16Setup : CS -> option (PK * VK);
  newWitness : Inputs -> option Witness;           (* None: nil *)
  public_ : Witness -> PublicWitness;
  prove : system -> CS -> PK -> Witness -> option OuterProof;
  verify : system -> OuterProof -> VK -> PublicWitness -> bool;
  raw : OuterProof -> list Z }.                    (* WriteRawTo *)

(** big.Int.SetBytes: big endian *)
Definition SetBytes (l : list Z) : Z := fold_left (fun acc x => 256 * acc + x) l 0.
(** the slice l[a:b]; simplified: the capacity of l is its length, so that a larger b panics *)
Definition slice {A} (l : list A) (a b : nat) : option (list A) :=
  if Nat.leb b (length l) then Some (firstn (b - a) (skipn a l)) else None.
Section Run.
  Context (B : backend).
  (** benchmark.go:137-150 and 224-237 save the keys, in both functions in the same way *)
  Definition saveKeys (saveArtifacts : bool) (vk : option (VK B)) : prog unit :=
    when_ saveArtifacts
      (_ <~ emit (Saved "proving.key");;
       _ <~ match vk with Some _ => emit (Saved "verifying.key") | None => ret tt end;;
       match vk with Some _ => emit (Saved "proof.sol") | None => stop (Abort "nil pointer dereference") end).
  (** benchmark.go:152-171 and 239-258: the witness, whose errors are ignored, and the proof *)
  Definition proveWith (s : system) (cs : CS B) (pk : PK B) (assignment : Inputs B) (saveArtifacts : bool) : prog (OuterProof B * PublicWitness B) :=
    witness <~ must (newWitness B assignment) "nil pointer dereference";;
    let publicWitness := public_ B witness in
    _ <~ when_ saveArtifacts (emit (Saved "witness"));;
    proof <~ try_ (prove B s cs pk witness);;
    _ <~ when_ saveArtifacts (emit (Saved "proof.proof"));;
    ret (proof, publicWitness).
  (** benchmark.go:80-190 *)
  Definition plonkProof (cs : CS B) (circuitName : string) (dummy saveArtifacts : bool) : prog unit :=
    assignment <~ must (load B circuitName) "error reading files";;
    srs <~ (if dummy then must (testSRS B cs) "error of the test setup"
            else _ <~ (if statSRS B then ret tt else stop (download B));;
                 must (readSRS B) "error reading srs_setup");;
    keys <~ try_ (plonkSetup B cs srs);;
    let (pk, vk) := keys in
    _ <~ saveKeys saveArtifacts (Some vk);;
    pw <~ proveWith Plonk cs pk assignment saveArtifacts;;
    let (proof, publicWitness) := pw in
    _ <~ stop (unlessExit (verify B Plonk proof vk publicWitness));;
    _ <~ emit Verified;;
    emit (PrintedBytes (raw B proof)).
  (** benchmark.go:284-291 *)
  Fixpoint words (n : nat) (i : nat) (proofBytes : list Z) : option (list Z) :=
    match n with
    | O => Some []
    | S n' => match slice proofBytes (32 * i) (32 * (i + 1)) with
              | Some l => match words n' (i + 1) proofBytes with Some ws => Some (SetBytes l :: ws) | None => None end
              | None => None
              end
    end.
  (** benchmark.go:192-304 *)
  Definition groth16Proof (cs : CS B) (circuitName : string) (dummy saveArtifacts : bool) : prog unit :=
    assignment <~ must (load B circuitName) "error reading files";;
    keys <~ try_ (if dummy then match groth16Dummy B cs with Some pk => Some (pk, None) | None => None end
                  else match groth16Setup B cs with Some (pk, vk) => Some (pk, Some vk) | None => None end);;
    let (pk, vk) := keys in
    _ <~ saveKeys saveArtifacts vk;;
    pw <~ proveWith Groth16 cs pk assignment saveArtifacts;;
    let (proof, publicWitness) := pw in
    match vk with
    | None => emit Skipped
    | Some vk =>
        _ <~ stop (unlessExit (verify B Groth16 proof vk publicWitness));;
        _ <~ emit Verified;;
        ws <~ must (words 8 0 (raw B proof)) "slice bounds out of range";;
        emit (PrintedWords ws)
    end.
  (** benchmark.go:27-78 *)
  Definition runBenchmark (plonky2Circuit proofSystem : string) (dummy saveArtifacts : bool) : prog unit :=
    inputs <~ must (load B plonky2Circuit) "error reading files";;
    s <~ (if String.eqb proofSystem "plonk" then ret Plonk else if String.eqb proofSystem "groth16" then ret Groth16 else stop Exit);;
    cs <~ try_ (compile B s inputs);;
    match s with
    | Plonk => plonkProof cs plonky2Circuit dummy saveArtifacts
    | Groth16 => groth16Proof cs plonky2Circuit dummy saveArtifacts
    end.
  (** benchmark.go:306-324 *)
  Definition main (plonky2Circuit proofSystem : string) (dummySetup saveArtifacts : bool) : prog unit :=
    if String.eqb plonky2Circuit "" then stop Exit else runBenchmark plonky2Circuit proofSystem dummySetup saveArtifacts.
End Run.
