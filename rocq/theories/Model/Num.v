(** Numbers and results used by the model.

    The Python code is polymorphic in the numeric type of its arrays (int64, float64, complex128).
    Functions that only add, subtract, negate or multiply are written once over the class [Num]
    and used at Z, R and C.  Floating point rounding is not modelled (see DESIGN.md). *)
From Coq Require Import ZArith Reals Ring List.
From Coquelicot Require Import Complex.
Import ListNotations.

(** Arithmetic of the elements of a numpy array. *)
Class Num (A : Type) := MkNum {
  nzero : A; none : A;
  nadd : A -> A -> A; nmul : A -> A -> A; nsub : A -> A -> A; nopp : A -> A }.

(** The commutative ring laws; they hold for the three instances below. *)
Class NumLaws (A : Type) {N : Num A} : Prop :=
  num_ring : ring_theory nzero none nadd nmul nsub nopp (@eq A).

#[export] Instance NumZ : Num Z := MkNum Z 0%Z 1%Z Z.add Z.mul Z.sub Z.opp.
#[export] Instance NumR : Num R := MkNum R 0%R 1%R Rplus Rmult Rminus Ropp.
#[export] Instance NumC : Num C := MkNum C (RtoC 0) (RtoC 1) Cplus Cmult Cminus Copp.

(** Python exceptions the model distinguishes. *)
Inductive exn : Set :=
  | ValueError | TypeError | KeyError | IndexError | AssertionError | AttributeError
  | NotImplementedError | UnboundLocalError | ZeroDivisionError | LinAlgError
  | NameError | FileNotFoundError | OSError (* and its other subclasses: IsADirectoryError, NotADirectoryError, FileExistsError *).

(** Outcome of a Python call: a value, or an exception. *)
Inductive res (A : Type) : Type :=
  | Ok  (a : A)
  | Err (e : exn).
Arguments Ok {A} a.
Arguments Err {A} e.

Definition bind {A B} (x : res A) (f : A -> res B) : res B :=
  match x with Ok a => f a | Err e => Err e end.

(** [sum(f(i) for i in range(n))]. *)
Fixpoint bsum {A} `{Num A} (n : nat) (f : nat -> A) : A :=
  match n with O => nzero | S k => nadd (bsum k f) (f k) end.

(** The same sum, directly at R and C (used by the spectral part). *)
Fixpoint Rsum (n : nat) (f : nat -> R) : R :=
  match n with O => 0%R | S k => (Rsum k f + f k)%R end.
Fixpoint Csum (n : nat) (f : nat -> C) : C :=
  match n with O => RtoC 0 | S k => Cplus (Csum k f) (f k) end.
