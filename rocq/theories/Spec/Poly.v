(** Polynomial functions of one real variable, by coefficients. *)
From Coq Require Import Reals.
From Verif Require Import Model.Num.
Local Open Scope R_scope.
(** p(x) = c_0 + c_1 x + .. + c_d x^d *)
Definition polynomial (d : nat) (p : R -> R) : Prop :=
  exists c : nat -> R, forall x, p x = Rsum (S d) (fun i => c i * x ^ i).
