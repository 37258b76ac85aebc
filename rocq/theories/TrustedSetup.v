(** * Model of trusted_setup/trusted_setup.go: the SRS of the Aztec Ignition ceremony.

    gnark-ignition-verifier and gnark-crypto are not modelled: [ignition] and [kzg] are what the
    code uses of them, arbitrary functions in the theorems.  A contribution holds slices, and
    Get fills them in place; so the model has two cells, and the variables current and next
    say which cell they own.  Log output is left out. *)
From Coq Require Import String.
From Coq Require Import ZArith List Bool.
From Verif Require Import Zp Circuit Fr.
Import ListNotations.
Open Scope Z_scope.

(** ** Outcomes of a Go program: a value, the end of the process, a panic *)
Inductive result (A : Type) := Ok (a : A) | Exit | Abort (msg : string).
Arguments Ok {A}. Arguments Exit {A}. Arguments Abort {A}.
Definition rbind {A B} (x : result A) (f : A -> result B) : result B :=
  match x with Ok a => f a | Exit => Exit | Abort m => Abort m end.
Notation "x <-- c ;; d" := (rbind c (fun x => d)) (at level 61, c at next level, right associativity).
(** log.Fatal unless the call succeeded *)
Definition orExit {A} (x : option A) : result A := match x with Some a => Ok a | None => Exit end.
Definition unlessExit (b : bool) : result unit := if b then Ok tt else Exit.
(** slice access *)
Definition index {A} (l : list A) (i : Z) : result A :=
  if i <? 0 then Abort "index out of range" else match nth_error l (Z.to_nat i) with Some a => Ok a | None => Abort "index out of range" end.

(** ** What is used of the libraries *)
Record ignition := mkIgnition {
  Participant : Type; Contribution : Type; G1Point : Type; G2Point : Type;
  cacheDir : bool;                              (* os.MkdirAll succeeds *)
  NewContribution : Contribution;
  Get : Participant -> option Contribution;     (* what the receiver holds afterwards *)
  Follows : Contribution -> Contribution -> bool;   (* receiver, argument *)
  cG1 : Contribution -> list G1Point; cG2 : Contribution -> list G2Point;
  g2gen : G2Point }.
(** trusted_setup.go:116-127, kzg_bn254.SRS *)
Record SRS (I : ignition) := mkSRS { pkG1 : list (G1Point I); vkG1 : G1Point I; vkG2 : G2Point I * G2Point I }.
Arguments mkSRS {I}. Arguments pkG1 {I}. Arguments vkG1 {I}. Arguments vkG2 {I}.
Record kzg (I : ignition) := mkKzg {
  Digest : Type; Opening : Type;
  Commit : list Fr -> list (G1Point I) -> option Digest;
  Open_ : list Fr -> Fr -> list (G1Point I) -> option Opening;
  ClaimedValue : Opening -> Fr;
  VerifyOpening : Digest -> Opening -> Fr -> G1Point I * (G2Point I * G2Point I) -> bool;
  random : nat -> Fr;                           (* successive SetRandom *)
  create : bool; write : SRS I -> bool }.       (* the file *)
Arguments Digest {I}. Arguments Opening {I}. Arguments Commit {I}. Arguments Open_ {I}. Arguments ClaimedValue {I}.
Arguments VerifyOpening {I}. Arguments random {I}. Arguments create {I}. Arguments write {I}.

(** trusted_setup.go:45-51 *)
Definition randomPolynomial (rnd : nat -> Fr) (size : nat) : list Fr := map rnd (seq 0 size).
(** trusted_setup.go:55-63: from the last coefficient down *)
Fixpoint evalLoop (p : list Fr) (i : nat) (point res : Fr) : Fr :=
  match i with O => res | S i' => evalLoop p i' point (fadd (fmul res point) (nth i' p f0)) end.
Definition eval (p : list Fr) (point : Fr) : result Fr :=
  last <-- index p (Z.of_nat (length p) - 1);; Ok (evalLoop p (length p - 1) point last).
(** trusted_setup.go:13-43 *)
Definition sanityCheck {I} (K : kzg I) (srs : SRS I) : result unit :=
  let f := randomPolynomial (random K) 60 in
  digest <-- orExit (Commit K f (pkG1 srs));;
  let point := finj 4321 in
  proof <-- orExit (Open_ K f point (pkG1 srs));;
  expected <-- eval f point;;
  _ <-- unlessExit (Z.eqb (frep (ClaimedValue K proof)) (frep expected));;
  unlessExit (VerifyOpening K digest proof point (vkG1 srs, vkG2 srs)).

Section Download.
  Context (I : ignition) (K : kzg I).
  (** two cells and who owns them *)
  Record store := mkStore { cells : bool -> Contribution I; current : bool; next : bool }.
  Definition set_ (s : store) (b : bool) (c : Contribution I) : store :=
    mkStore (fun x => if Bool.eqb x b then c else cells s x) (current s) (next s).
  (** [v.Get(participants[i], config)] for the variable that owns cell b *)
  Definition get_ (participants : list (Participant I)) (s : store) (b : bool) (i : Z) : result store :=
    p <-- index participants i;; c <-- orExit (Get I p);; Ok (set_ s b c).
  Definition follows_ (s : store) : result unit := unlessExit (Follows I (cells s (next s)) (cells s (current s))).
  (** trusted_setup.go:101-110; n iterations from i *)
  Fixpoint chain (participants : list (Participant I)) (n : nat) (i : Z) (s : store) : result store :=
    match n with
    | O => Ok s
    | S n' =>
        let s1 := mkStore (cells s) (next s) (current s) in
        s2 <-- get_ participants s1 (next s1) i;;
        _ <-- follows_ s2;;
        chain participants n' (i + 1) s2
    end.
  (** trusted_setup.go:65-145; [manifest] are the participants that ignition.NewManifest returns, the result the contents of the file *)
  Definition DownloadAndSaveAztecIgnitionSrs (manifest : option (list (Participant I))) (startIdx : Z) : result (SRS I) :=
    _ <-- unlessExit (cacheDir I);;
    participants <-- orExit manifest;;
    let s0 := mkStore (fun _ => NewContribution I) false true in
    s1 <-- get_ participants s0 (current s0) startIdx;;
    s2 <-- get_ participants s1 (next s1) (startIdx + 1);;
    _ <-- follows_ s2;;
    s3 <-- chain participants (Z.to_nat (Z.of_nat (length participants) - (startIdx + 2))) (startIdx + 2) s2;;
    let c := cells s3 (next s3) in
    g1 <-- index (cG1 I c) 0;;
    g2 <-- index (cG2 I c) 0;;
    let srs := mkSRS (cG1 I c) g1 (g2gen I, g2) in
    _ <-- sanityCheck K srs;;
    _ <-- unlessExit (create K);;
    _ <-- unlessExit (write K srs);;
    Ok srs.
End Download.
