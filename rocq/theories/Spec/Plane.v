(** Smooth functions of two variables, and integrals over rectangles.  Independent of the model. *)
From Coq Require Import Reals.
From Coquelicot Require Import Coquelicot.
Local Open Scope R_scope.

(** f is continuous on the plane *)
Definition cont2 (f : R -> R -> R) : Prop := forall x y, continuity_2d_pt f x y.
(** fx, fy are the partial derivatives of f *)
Definition partial_x (f fx : R -> R -> R) : Prop := forall x y, is_derive (fun x => f x y) x (fx x y).
Definition partial_y (f fy : R -> R -> R) : Prop := forall x y, is_derive (fun y => f x y) y (fy x y).
(** f is continuously differentiable with partial derivatives fx, fy *)
Definition C1_with (f fx fy : R -> R -> R) : Prop := partial_x f fx /\ partial_y f fy /\ cont2 fx /\ cont2 fy.
