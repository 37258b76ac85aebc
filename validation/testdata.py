# Runs the model on the proofs in /repo/testdata, as TestStepVerifier and TestDecodeBlockFriVerification do with the code.
#
# The model is extracted to OCaml (integers become zarith's), compiled and run outside the build, because the
# kernel would need hours for one proof.  Usage: testdata.py [number of changed proofs to try per circuit]
# Needs the compiled theories in /verif/rocq/theories, ocamlfind and zarith.  This is a test of the model: nothing
# in rocq/ depends on it.
#
# Result (both circuits): the proof is accepted; the challenges of decode_block are the constants asserted in
# fri/fri_test.go:37-67; every proof with one number changed by one is rejected; the key is rejected when its digest
# or an entry of its cap is changed, except for the entries that none of the 28 queries ends in (see C78).
import os, re, subprocess, sys, tempfile

EXT = r"""
From Coq Require Import ExtrOcamlBasic ExtrOcamlZBigInt ExtrOcamlString.
From Coq Require Import ZArith.
From Verif Require Import Circuit Deser Verifier GateIds Types Challenger.
Extract Constant Z.pow => "(fun x y -> if Big_int_Z.sign_big_int y < 0 then Big_int_Z.zero_big_int else Big_int_Z.power_big_int_positive_big_int x y)".
Extract Constant Z.leb => "Big_int_Z.le_big_int".
Extract Constant Z.ltb => "Big_int_Z.lt_big_int".
Extraction "m.ml" run Define gateRegexHandlers loadProof loadVerifierData ReadCommonCircuitData Verifier.GetPublicInputsHash Challenger.GetChallenges NewVerifierChip.
"""

MAIN = r"""
open M
let explode s = List.init (String.length s) (String.get s)
let parse (s : string) : json =
  let n = String.length s in
  let pos = ref 0 in
  let rec ws () = if !pos < n && (match s.[!pos] with ' '|'\n'|'\t'|'\r' -> true | _ -> false) then (incr pos; ws ()) in
  let expect c = ws (); if !pos < n && s.[!pos] = c then incr pos else failwith (Printf.sprintf "json: %c expected at %d" c !pos) in
  let str () =
    expect '"'; let b = Buffer.create 80 in
    while s.[!pos] <> '"' do
      if s.[!pos] = '\\' then failwith "json: escape";
      Buffer.add_char b s.[!pos]; incr pos done; incr pos; Buffer.contents b in
  let rec value () = ws (); match s.[!pos] with
    | '"' -> JStr (explode (str ()))
    | '[' -> incr pos; ws (); if s.[!pos] = ']' then (incr pos; JArr []) else
        let rec go acc = let v = value () in ws (); match s.[!pos] with
          | ',' -> incr pos; go (v :: acc) | ']' -> incr pos; JArr (List.rev (v :: acc)) | _ -> failwith "json" in go []
    | '{' -> incr pos; ws (); if s.[!pos] = '}' then (incr pos; JObj []) else
        let rec go acc = ws (); let k = str () in expect ':'; let v = value () in ws (); match s.[!pos] with
          | ',' -> incr pos; go ((explode k, v) :: acc) | '}' -> incr pos; JObj (List.rev ((explode k, v) :: acc)) | _ -> failwith "json" in go []
    | 't' -> pos := !pos + 4; JBool true | 'f' -> pos := !pos + 5; JBool false | 'n' -> pos := !pos + 4; JNull
    | '0'..'9' -> let a = !pos in while !pos < n && (match s.[!pos] with '0'..'9' -> true | _ -> false) do incr pos done;
        JUint (Big_int_Z.big_int_of_string (String.sub s a (!pos - a)))
    | c -> failwith (Printf.sprintf "json: %c" c) in
  let v = value () in ws (); if !pos <> n then failwith "json: trailing"; v
let read f = let c = open_in_bin f in let s = really_input_string c (in_channel_length c) in close_in c; parse s
let some m = function Some x -> x | None -> failwith m
let show = function Done _ -> "Done" | Panicked m -> "Panicked " ^ String.of_seq (List.to_seq m) | HintFailed -> "HintFailed" | Unsat -> "Unsat"
let z = Big_int_Z.big_int_of_int
(* number of range checks that the honest solver is asked for (C88) *)
let rec requests n = function
  | Ret _ -> n
  | Hint (Some l, _, k) -> requests n (k l)
  | Hint (None, _, _) | Panic _ -> failwith "requests"
  | Assert (_, k) -> requests n k
  | Range (_, _, k) -> requests (n + 1) k
(* change the k-th number or hash of a tree by one *)
let rec leaves = function JUint _ | JStr _ -> 1 | JArr l -> List.fold_left (fun a x -> a + leaves x) 0 l | JObj l -> List.fold_left (fun a (_, x) -> a + leaves x) 0 l | _ -> 0
let bump k j =
  let c = ref (-1) and path = ref "" in
  let rec go pre = function
    | JUint n -> incr c; if !c = k then (path := pre; JUint (Big_int_Z.succ_big_int n)) else JUint n
    | JStr s -> incr c; if !c = k then (path := pre;
        JStr (explode (Big_int_Z.string_of_big_int (Big_int_Z.succ_big_int (Big_int_Z.big_int_of_string (String.of_seq (List.to_seq s))))))) else JStr s
    | JArr l -> JArr (List.mapi (fun i x -> go (pre ^ "/" ^ string_of_int i) x) l)
    | JObj l -> JObj (List.map (fun (n, x) -> (n, go (pre ^ "/" ^ String.of_seq (List.to_seq n)) x)) l)
    | x -> x in
  let j' = go "" j in (j', !path)
let () =
  let dir = Sys.argv.(1) and samples = int_of_string Sys.argv.(2) in
  let jc = read (dir ^ "/common_circuit_data.json") and jp = read (dir ^ "/proof_with_public_inputs.json") and jv = read (dir ^ "/verifier_only_circuit_data.json") in
  let cd = some "common" (readCommonCircuitData jc) in
  let w = z 192 in
  let verify jp jv =
    let (proof, pis) = some "proof" (loadProof jp) and vd = some "verifier" (loadVerifierData jv) in
    show (run (define (fun _ -> gateRegexHandlers) w cd proof pis vd)) in
  let (proof, pis) = some "proof" (loadProof jp) and vd = some "verifier" (loadVerifierData jv) in
  (match run (getPublicInputsHash w pis) with
   | Done h -> (match run (getChallenges w cd proof h vd) with
     | Done c ->
       let fc = c.pc_FriChallenges in
       List.iter (fun (n, x) -> Printf.printf "%s = %s\n" n (Big_int_Z.string_of_big_int x))
         ["plonkBetas[0]", List.hd c.plonkBetas; "plonkGammas[0]", List.hd c.plonkGammas; "plonkAlphas[0]", List.hd c.plonkAlphas; "plonkZeta[0]", fst c.plonkZeta;
          "FriAlpha[0]", fst fc.friAlpha; "FriBetas[0][0]", fst (List.hd fc.friBetas); "FriPowResponse", fc.friPowResponse; "FriQueryIndices[0]", List.hd fc.friQueryIndices]
     | o -> print_endline (show o))
   | o -> print_endline (show o));
  Printf.printf "proof as it is: %s\n%!" (verify jp jv);
  Printf.printf "%d range checks\n%!" (requests 0 (define (fun _ -> gateRegexHandlers) w cd proof pis vd));
  Random.init 1;
  let n = leaves jp in
  Printf.printf "%d numbers in the proof\n%!" n;
  let accepted = ref 0 in
  for _ = 1 to samples do
    let (jp', path) = bump (Random.int n) jp in
    let o = verify jp' jv in
    if o = "Done" then incr accepted;
    Printf.printf "changed %s: %s\n%!" path o
  done;
  for k = 0 to leaves jv - 1 do
    let (jv', path) = bump k jv in
    Printf.printf "changed key %s: %s\n%!" path (verify jp jv')
  done;
  Printf.printf "%d of %d changed proofs accepted\n" !accepted samples
"""

def literals(path):
    """replaces the binary numerals of the extracted file by constants"""
    s = open(path).read()
    A = '((fun x -> Big_int_Z.succ_big_int (Big_int_Z.mult_int_big_int 2 x))'
    B = '(Big_int_Z.mult_int_big_int 2'
    alt = re.escape(A) + '|' + re.escape(B)
    names = {}
    def number(m):
        bits = re.findall(alt, m.group(1))
        v = 1
        for b in reversed(bits): v = 2 * v + (b == A)
        names.setdefault(v, 'lit%d' % len(names))
        return ' ' + names[v] + ')' * (len(m.group(2)) - len(bits))
    t = re.sub('((?:(?:' + alt + r')\s*)+)' + re.escape('Big_int_Z.unit_big_int') + r'(\)+)', number, s)
    open(path, 'w').write(''.join('let %s = Big_int_Z.big_int_of_string "%d"\n' % (n, v) for v, n in names.items()) + t)

d = tempfile.mkdtemp()
open(d + '/Ext.v', 'w').write(EXT)
open(d + '/main.ml', 'w').write(MAIN)
subprocess.run(['coqc', '-Q', '/verif/rocq/theories', 'Verif', 'Ext.v'], cwd=d, check=True)
literals(d + '/m.ml')
os.remove(d + '/m.mli')
subprocess.run('ocamlfind ocamlopt -w -a -package zarith -linkpkg m.ml main.ml -o verify', shell=True, cwd=d, check=True)
samples = sys.argv[1] if len(sys.argv) > 1 else '20'
ok = True
for c in ['decode_block', 'step']:
    print(c, flush=True)
    p = subprocess.run('ulimit -s unlimited; %s/verify /repo/testdata/%s %s' % (d, c, samples), shell=True, stdout=subprocess.PIPE, text=True)
    print(p.stdout, flush=True)
    ok = ok and p.returncode == 0 and 'proof as it is: Done' in p.stdout and '\n0 of' in p.stdout
    if c == 'decode_block':
        test = open('/repo/fri/fri_test.go').read()
        for v in re.findall(r' = (\d+)\n', p.stdout): ok = ok and v in test
print('ok' if ok else 'FAILED')
