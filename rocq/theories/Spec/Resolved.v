(** The functions a grid with m degrees of freedom represents exactly.  Independent of the model. *)
From Coq Require Import Reals.
From Verif Require Import Model.Num Spec.Trig Spec.Poly.
Local Open Scope R_scope.
(** p(x) = a_0 + a_1 cos(x) + .. + a_K cos(Kx) *)
Definition cos_degree (K : nat) (p : R -> R) : Prop :=
  exists a : nat -> R, forall x, p x = a 0%nat + Rsum K (fun k => a (S k) * cos (INR (S k) * x)).
(** on a periodic grid: trigonometric polynomials of degree K with 2K < m;
    on a regular grid: cosine polynomials of degree < m; on a Chebyshev grid: polynomials of degree < m *)
Definition resolved_periodic (m : nat) (f : R -> R) : Prop := exists K, (2 * K < m)%nat /\ trig_degree K f.
Definition resolved_regular (m : nat) (f : R -> R) : Prop := cos_degree (m - 1) f.
Definition resolved_chebyshev (m : nat) (f : R -> R) : Prop := polynomial (m - 1) f.
