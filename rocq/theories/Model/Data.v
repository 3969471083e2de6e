(** Model of dec/data.py: the JSON store and the memoization cache.

    Values, JSON text (as a sequence of tokens; white space is dropped) and a small file system.
    json.dump writes the text piece by piece into the opened (truncated) file, so a failure or a crash
    leaves a prefix of the text. *)
From Coq Require Import ZArith Reals List String Arith.
From Verif Require Import Model.Num.
Import ListNotations.
Local Open Scope string_scope.

(** Python values handed to the store.  Numbers are real numbers (ints and floats are written with repr
    and read back unchanged; nan and inf are left out).  [VArray]: a one-dimensional numpy array.
    Dictionary keys are strings, as in every use in dec.  [VObj]: anything json cannot encode. *)
Inductive pyval : Type :=
  | VNone | VBool (b : bool) | VNum (r : R) | VStr (s : string)
  | VList (l : list pyval) | VTuple (l : list pyval) | VArray (l : list R)
  | VDict (l : list (string * pyval)) | VObj.

(** What json.load returns. *)
Inductive json : Type :=
  | JNull | JBool (b : bool) | JNum (r : R) | JStr (s : string)
  | JList (l : list json) | JDict (l : list (string * json)).

Inductive token : Type :=
  | TNull | TBool (b : bool) | TNum (r : R) | TStr (s : string)
  | TLb | TRb | TLc | TRc | TComma | TColon
  | TBad. (* a token cut in the middle *)

(** Sorting of dictionary keys (sort_keys=True), insertion sort *)
Section Sort.
Context {A : Type}.
Fixpoint insert (p : string * A) (l : list (string * A)) : list (string * A) :=
  match l with
  | [] => [p]
  | q :: l' => if String.leb (fst p) (fst q) then p :: q :: l' else q :: insert p l'
  end.
Fixpoint ksort (l : list (string * A)) : list (string * A) :=
  match l with [] => [] | p :: l' => insert p (ksort l') end.
End Sort.

(** Text written and whether the encoder finished: [(ts, true)], or [(ts, false)] when it raised
    TypeError after writing ts. *)
Definition out := (list token * bool)%type.
Definition seqo (a b : out) : out := if snd a then (fst a ++ fst b, snd b)%list else a.
Definition emit1 (t : token) : out := ([t], true).
Section Emit.
Variable emit : pyval -> out.
(** elements separated by commas; the comma is written with the element that follows *)
Fixpoint emit_items (l : list pyval) : out :=
  match l with
  | [] => ([], true)
  | [v] => emit v
  | v :: l' => seqo (emit v) (seqo (emit1 TComma) (emit_items l'))
  end.
Fixpoint emit_pairs (l : list (string * pyval)) : out :=
  match l with
  | [] => ([], true)
  | [(k, v)] => seqo (emit1 (TStr k)) (seqo (emit1 TColon) (emit v))
  | (k, v) :: l' => seqo (emit1 (TStr k)) (seqo (emit1 TColon) (seqo (emit v) (seqo (emit1 TComma) (emit_pairs l'))))
  end.
End Emit.
(** json.dump with data.py:7-12 [JSONEncoder]: lists and tuples as lists, arrays through tolist,
    dictionaries with sorted keys.  (Keys are sorted beforehand, in [VDict], by [prep].) *)
Fixpoint emit (v : pyval) : out :=
  match v with
  | VNone => emit1 TNull
  | VBool b => emit1 (TBool b)
  | VNum r => emit1 (TNum r)
  | VStr s => emit1 (TStr s)
  | VList l | VTuple l => seqo (emit1 TLb) (seqo (emit_items emit l) (emit1 TRb))
  | VArray l => seqo (emit1 TLb) (seqo (emit_items (fun v => match v with VNum r => emit1 (TNum r) | _ => ([], false) end) (map VNum l)) (emit1 TRb))
  | VDict l => seqo (emit1 TLc) (seqo (emit_pairs emit l) (emit1 TRc))
  | VObj => ([], false)
  end.
(** sort_keys=True at every level *)
Fixpoint prep (v : pyval) : pyval :=
  match v with
  | VList l => VList (map prep l)
  | VTuple l => VTuple (map prep l)
  | VDict l => VDict (ksort (map (fun p => (fst p, prep (snd p))) l))
  | _ => v
  end.
Definition dump (v : pyval) : out := emit (prep v).

(** json.load: recursive descent; [fuel] bounds the depth of recursion and is taken from the length
    of the text, which suffices. *)
Fixpoint parse (fuel : nat) (ts : list token) : option (json * list token) :=
  match fuel with
  | O => None
  | S fuel =>
    match ts with
    | TNull :: ts => Some (JNull, ts)
    | TBool b :: ts => Some (JBool b, ts)
    | TNum r :: ts => Some (JNum r, ts)
    | TStr s :: ts => Some (JStr s, ts)
    | TLb :: TRb :: ts => Some (JList [], ts)
    | TLb :: ts => match parse_items fuel ts with Some (l, ts) => Some (JList l, ts) | None => None end
    | TLc :: TRc :: ts => Some (JDict [], ts)
    | TLc :: ts => match parse_pairs fuel ts with Some (l, ts) => Some (JDict l, ts) | None => None end
    | _ => None
    end
  end
with parse_items (fuel : nat) (ts : list token) : option (list json * list token) :=
  match fuel with
  | O => None
  | S fuel =>
    match parse fuel ts with
    | Some (j, TRb :: ts) => Some ([j], ts)
    | Some (j, TComma :: ts) => match parse_items fuel ts with Some (l, ts) => Some (j :: l, ts) | None => None end
    | _ => None
    end
  end
with parse_pairs (fuel : nat) (ts : list token) : option (list (string * json) * list token) :=
  match fuel with
  | O => None
  | S fuel =>
    match ts with
    | TStr k :: TColon :: ts =>
      match parse fuel ts with
      | Some (j, TRc :: ts) => Some ([(k, j)], ts)
      | Some (j, TComma :: ts) => match parse_pairs fuel ts with Some (l, ts) => Some ((k, j) :: l, ts) | None => None end
      | _ => None
      end
    | _ => None
    end
  end.
(** json.load of a whole file: text after the value is an error; failures are ValueError *)
Definition load (ts : list token) : res json :=
  match parse (2 * List.length ts + 1) ts with
  | Some (j, []) => Ok j
  | _ => Err ValueError
  end.

(** ** Files.  A path is the list of its components relative to dec/data (data.py:3-5 [get_data_dir]). *)
Definition path := list string.
Inductive node : Type := File (ts : list token) | Dir.
Definition fs := list (path * node).
Definition path_eqb (p q : path) : bool := if list_eq_dec string_dec p q then true else false.
Fixpoint find (p : path) (s : fs) : option node :=
  match s with [] => None | (q, n) :: s' => if path_eqb p q then Some n else find p s' end.
Definition remove (p : path) (s : fs) : fs := filter (fun e => negb (path_eqb p (fst e))) s.
Definition put (p : path) (n : node) (s : fs) : fs := (p, n) :: remove p s.
(** the data directory itself is the empty path and always exists *)
Definition exists_ (p : path) (s : fs) : bool := match p with [] => true | _ => match find p s with Some _ => true | None => false end end.
Definition isdir (p : path) (s : fs) : bool := match p with [] => true | _ => match find p s with Some Dir => true | _ => false end end.
Definition dirname (p : path) : path := removelast p.

(** os.makedirs: create every missing ancestor and p itself; an ancestor that is a file raises.
    [pre] is the part of the path already visited. *)
Fixpoint makedirs (pre todo : path) (s : fs) : fs * res unit :=
  match todo with
  | [] => (s, Ok tt)
  | c :: todo' =>
    let p := (pre ++ [c])%list in
    match find p s with
    | Some Dir => makedirs p todo' s
    | Some (File _) => (s, Err OSError)
    | None => makedirs p todo' (put p Dir s)
    end
  end.

(** data.py:14-20 [getitem] *)
Definition getitem (name : path) (s : fs) : res json :=
  match name with
  | [] => Err OSError
  | _ => match find name s with
         | None => Err FileNotFoundError
         | Some Dir => Err OSError
         | Some (File ts) => load ts
         end
  end.

(** data.py:22-34 [setitem]: the file is truncated by open(.., 'w') before anything is written *)
Definition setitem (name : path) (v : pyval) (s : fs) : fs * res unit :=
  match name with
  | [] => (s, Err OSError)
  | _ =>
    let '(s, r) := if exists_ (dirname name) s then (s, Ok tt) else makedirs [] (dirname name) s in
    match r with
    | Err e => (s, Err e)
    | Ok _ =>
      if isdir (dirname name) s then
        match find name s with
        | Some Dir => (s, Err OSError)
        | _ => let '(ts, ok) := dump v in
               (put name (File ts) s, if ok : bool then Ok tt else Err TypeError)
        end
      else (s, Err OSError)
    end
  end.

(** data.py:36-41 [delitem]: os.rmdir raises unless the directory is empty *)
Definition has_children (p : path) (s : fs) : bool :=
  existsb (fun e => path_eqb (dirname (fst e)) p && negb (path_eqb (fst e) p) && negb (path_eqb (fst e) []))%bool s.
Definition delitem (name : path) (s : fs) : fs * res unit :=
  match name with
  | [] => (s, Err OSError)
  | _ => match find name s with
         | Some Dir => if has_children name s then (s, Err OSError) else (remove name s, Ok tt)
         | Some (File _) => (remove name s, Ok tt)
         | None => (s, Err FileNotFoundError)
         end
  end.

(** ** data.py:76-102 [memoize].
    X: the argument type; Y: results; process may raise.  [fin] is applied to arguments and results
    (in dec both are sympy expressions, so X = Y; the model keeps one type), [fout] reads a stored
    result back. *)
Section Memoize.
Context {X : Type}.
Variable process : X -> res X.
Variable fin : X -> string.
Variable fout : string -> res X.

(** The dictionary in memory; JSON values other than strings are kept (they can only come from a file
    written by something else). *)
Fixpoint jlookup (k : string) (d : list (string * json)) : option json :=
  match d with [] => None | (k', j) :: d' => if String.eqb k k' then Some j else jlookup k d' end.
Record mem := MkMem { dct : list (string * json); changed : bool; computed : list string (* keys processed, ghost *) }.

(** decorator: read the cache file *)
Definition memo_start (name : path) (s : fs) : res mem :=
  match getitem name s with
  | Ok (JDict d) => Ok (MkMem d false [])
  | Ok _ => Ok (MkMem [] false []) (* not a dictionary: not modelled further *)
  | Err FileNotFoundError => Ok (MkMem [] true [])
  | Err e => Err e
  end.
(** the wrapped function *)
Definition memo_call (m : mem) (e : X) : mem * res X :=
  match jlookup (fin e) (dct m) with
  | Some (JStr t) => (m, fout t)
  | Some _ => (m, Err TypeError)
  | None =>
    match process e with
    | Err ex => (m, Err ex)
    | Ok r => (MkMem ((fin e, JStr (fin r)) :: dct m) true (fin e :: computed m), Ok r)
    end
  end.
Fixpoint to_py (j : json) : pyval :=
  match j with
  | JNull => VNone | JBool b => VBool b | JNum r => VNum r | JStr s => VStr s
  | JList l => VList (map to_py l)
  | JDict l => VDict (map (fun p => (fst p, to_py (snd p))) l)
  end.
(** commit, registered with atexit *)
Definition memo_commit (name : path) (m : mem) (s : fs) : fs :=
  if changed m then fst (setitem name (to_py (JDict (dct m))) s) else s.
(** the text a commit writes: data.py:31-34 [json.dump] of the dictionary *)
Definition cache_text (m : mem) : list token := fst (dump (to_py (JDict (dct m)))).
End Memoize.
