(** Fourier series. Independent of the model. *)
From Coq Require Import Reals.
From Coquelicot Require Import Coquelicot.
Local Open Scope R_scope.
(** the mode of frequency k with amplitudes a k and b k, and a bound of its values *)
Definition mode_at (a b : nat -> R) (k : nat) (x : R) : R := a k * cos (INR k * x) + b k * sin (INR k * x).
Definition amplitude (a b : nat -> R) (k : nat) : R := Rabs (a k) + Rabs (b k).
(** f is the sum of its Fourier series, at every point *)
Definition fourier_series (a b : nat -> R) (f : R -> R) : Prop := forall x, is_series (fun k => mode_at a b k x) (f x).
(** the sum of w k from k = m on *)
Definition tail (w : nat -> R) (m : nat) : R := Series (fun k => w (m + k)%nat).
(** the modes that a grid of n points does not resolve are those of frequency k with 2k >= n *)
Definition first_unresolved (n : nat) : nat := ((n + 1) / 2)%nat.
(** f is the sum of its cosine series on [0, pi] *)
Definition cosine_series (a : nat -> R) (f : R -> R) : Prop := forall x, 0 <= x <= PI -> is_series (fun k => a k * cos (INR k * x)) (f x).
(** f is the sum of its Chebyshev series on [-1, 1]; the Chebyshev polynomials are T_k(x) = cos(k arccos x) *)
Definition chebyshev_series (a : nat -> R) (f : R -> R) : Prop := forall x, -1 <= x <= 1 -> is_series (fun k => a k * cos (INR k * acos x)) (f x).
