(** Finite sums of products u(x) v(y).  Independent of the model. *)
From Coq Require Import Reals List.
Import ListNotations.
Local Open Scope R_scope.
Fixpoint sum_uv (l : list ((R -> R) * (R -> R))) (x y : R) : R :=
  match l with [] => 0 | (u, v) :: l' => u x * v y + sum_uv l' x y end.
(** f(x, y) = u_1(x) v_1(y) + ... + u_k(x) v_k(y) with every u_i in A and every v_i in B.  With A and B the trigonometric
    polynomials (polynomials) of degree at most m and n these are the trigonometric polynomials (polynomials) of
    degree at most m in x and n in y *)
Definition separable (A B : (R -> R) -> Prop) (f : R -> R -> R) : Prop :=
  exists l, (forall u v, In (u, v) l -> A u /\ B v) /\ forall x y, f x y = sum_uv l x y.
