(** When a JSON value stands for a Python value, and the abstract map a store should implement. *)
From Coq Require Import Reals List String.
From Verif Require Import Model.Num Model.Data.
Import ListNotations.

Fixpoint assoc {A} (k : string) (l : list (string * A)) : option A :=
  match l with [] => None | (k', a) :: l' => if String.eqb k k' then Some a else assoc k l' end.

(** the JSON image: arrays and tuples as lists, dictionaries as maps (the order of keys is irrelevant) *)
Inductive opt_rel {A B} (R : A -> B -> Prop) : option A -> option B -> Prop :=
  | opt_none : opt_rel R None None
  | opt_some a b : R a b -> opt_rel R (Some a) (Some b).
Inductive represents : json -> pyval -> Prop :=
  | rep_null : represents JNull VNone
  | rep_bool b : represents (JBool b) (VBool b)
  | rep_num r : represents (JNum r) (VNum r)
  | rep_str s : represents (JStr s) (VStr s)
  | rep_list js l : Forall2 represents js l -> represents (JList js) (VList l)
  | rep_tuple js l : Forall2 represents js l -> represents (JList js) (VTuple l)
  | rep_array l : represents (JList (map JNum l)) (VArray l)
  | rep_dict d l : (forall k, opt_rel represents (assoc k d) (assoc k l)) -> represents (JDict d) (VDict l).

(** the same JSON value up to the order of the entries of dictionaries *)
Inductive same_json : json -> json -> Prop :=
  | same_null : same_json JNull JNull
  | same_bool b : same_json (JBool b) (JBool b)
  | same_num r : same_json (JNum r) (JNum r)
  | same_str s : same_json (JStr s) (JStr s)
  | same_list l l' : Forall2 same_json l l' -> same_json (JList l) (JList l')
  | same_dict d d' : (forall k, opt_rel same_json (assoc k d) (assoc k d')) -> same_json (JDict d) (JDict d').

(** nothing inside v is an object json cannot encode *)
Fixpoint serialisable (v : pyval) : bool :=
  match v with
  | VObj => false
  | VList l | VTuple l => forallb serialisable l
  | VDict l => forallb (fun p => serialisable (snd p)) l
  | _ => true
  end.

(** The abstract store: a name is absent, holds a value, or was destroyed by a failed store. *)
Inductive slot := Absent | Holds (v : pyval) | Destroyed.
Inductive op := Set_ (n : string) (v : pyval) | Del (n : string).
Definition abs_step (m : string -> slot) (o : op) : string -> slot :=
  match o with
  | Set_ n v => fun k => if String.eqb k n then (if serialisable v then Holds v else Destroyed) else m k
  | Del n => fun k => if String.eqb k n then Absent else m k
  end.
