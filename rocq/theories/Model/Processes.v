(** Model of several processes sharing one memoization cache file (dec/data.py:76-102), in any interleaving.

    Each process imports the module (reads the file, data.py:79-83), calls the memoized function, and at
    its end opens the file for writing (data.py:30, open(.., 'w') empties it) and writes the text of its own
    dictionary chunk by chunk, at its own file offset (json.dump, data.py:31-34); it may die at any moment.
    Offsets are counted in tokens.  Simplification: the directory of the file exists ([storable]). *)
From Coq Require Import ZArith Reals List String Arith Lia Bool.
From Verif Require Import Model.Num Model.Data.
Import ListNotations.
Local Open Scope list_scope.

Section Processes.
Context {X : Type}.
Variables (process : X -> res X) (fin : X -> string) (fout : string -> res X) (name : path).

Inductive pstate := Idle | Running (m : mem) | Writing (m : mem) (pos : nat).
Inductive pevent :=
  | Start (i : nat)              (** process i imports the module *)
  | PCall (i : nat) (e : X)      (** process i calls the memoized function *)
  | Open (i : nat)               (** process i ends: commit opens the file (only if something changed) *)
  | Write (i : nat) (k : nat)    (** process i writes its next k tokens *)
  | Close (i : nat)              (** process i writes what is left and is gone *)
  | Kill (i : nat).              (** process i dies *)
Inductive answer := Answer (i : nat) (e : X) (a : res X) (ran : bool) | NoImport (i : nat) (x : exn).
Definition world := (fs * (nat -> pstate))%type.
Definition upd (ps : nat -> pstate) (i : nat) (p : pstate) : nat -> pstate := fun j => if Nat.eqb j i then p else ps j.
(** write [chunk] at offset [pos]: what lies beyond stays; a gap is filled with garbage *)
Definition write_at (pos : nat) (chunk old : list token) : list token :=
  firstn pos (old ++ repeat TBad (pos - List.length old)) ++ chunk ++ skipn (pos + List.length chunk) old.
Definition content (s : fs) : list token := match find name s with Some (File ts) => ts | _ => [] end.
Definition write_chunk (m : mem) (pos k : nat) (s : fs) : fs :=
  put name (File (write_at pos (firstn k (skipn pos (cache_text m))) (content s))) s.

(** One step of one process: Start is data.py:79-83, PCall data.py:85-97, Open, Write and Close data.py:99-101
    with data.py:28-34; Kill is the process dying. *)
Definition pstep (w : world) (ev : pevent) : world * list answer :=
  let '(s, ps) := w in
  match ev with
  | Start i => match ps i with
      | Idle => match memo_start name s with
                | Ok m => ((s, upd ps i (Running m)), [])
                | Err x => (w, [NoImport i x])
                end
      | _ => (w, []) end
  | PCall i e => match ps i with
      | Running m => let '(m', a) := memo_call process fin fout m e in
          ((s, upd ps i (Running m')), [Answer i e a (match jlookup (fin e) (dct m) with None => true | Some _ => false end)])
      | _ => (w, []) end
  | Open i => match ps i with
      | Running m => if changed m then ((put name (File []) s, upd ps i (Writing m 0)), []) else ((s, upd ps i Idle), [])
      | _ => (w, []) end
  | Write i k => match ps i with
      | Writing m pos => ((write_chunk m pos k s, upd ps i (Writing m (pos + List.length (firstn k (skipn pos (cache_text m)))))), [])
      | _ => (w, []) end
  | Close i => match ps i with
      | Writing m pos => ((write_chunk m pos (List.length (cache_text m)) s, upd ps i Idle), [])
      | _ => (w, []) end
  | Kill i => ((s, upd ps i Idle), [])
  end.
Fixpoint prun (w : world) (evs : list pevent) : world * list answer :=
  match evs with
  | [] => (w, [])
  | ev :: evs' => let '(w1, o1) := pstep w ev in let '(w2, o2) := prun w1 evs' in (w2, o1 ++ o2)
  end.
End Processes.
