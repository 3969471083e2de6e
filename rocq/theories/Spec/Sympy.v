(** What the theorems about discretisation assume of sympy. *)
From Coq Require Import ZArith Reals List Arith Bool.
From Verif Require Import Model.Sym.
From Coquelicot Require Import Coquelicot.
From Verif Require Import Model.Num Model.Np Model.Grids1 Model.Common Model.Decform Model.Grid2 Model.Discretise Spec.Ext.
Notation expr := Model.Sym.expr.
Import ListNotations.
Local Open Scope R_scope.

(** Rewriting keeps the value of an expression at every point and introduces no names. *)
Definition sound_auto (auto : expr -> expr) : Prop := forall e,
  (forall r, eval r (auto e) = eval r e) /\ (forall v, In v (free (auto e)) -> In v (free e)) /\ (undefined (auto e) = true -> undefined e = true).
(** The closed form of Integral(f, (x, x0, x1)) mentions x0, x1 and the other names of f, and where f is
    continuous in x between the bounds it is the Riemann integral. *)
Definition sound_closed (closed : expr -> nat -> nat -> nat -> option expr) : Prop := forall f x x0 x1 e, closed f x x0 x1 = Some e ->
  (forall v, In v (free e) -> v = x0 \/ v = x1 \/ (In v (free f) /\ v <> x)) /\ (undefined e = true -> undefined f = true) /\
  forall r, (forall t, Rmin (sval r x0) (sval r x1) <= t <= Rmax (sval r x0) (sval r x1) -> continuous (fun t => eval (upd r x t) f) t) ->
    eval r e = RInt (fun t => eval (upd r x t) f) (sval r x0) (sval r x1).

(** The expression as a function of the coordinate x of a 1D chart, or of the coordinates x and y. *)
Definition fn1 (x : nat) (e : expr) (t : R) : R := eval (env_of [x] [t]) e.
Definition fn2 (e : expr) (x y : R) : R := eval (env_of [0%nat; 1%nat] [x; y]) e.
