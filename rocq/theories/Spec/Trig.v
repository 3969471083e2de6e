(** Vocabulary for statements about trigonometric interpolation. Independent of the model. *)
From Coq Require Import ZArith Reals List.
From Coquelicot Require Import Complex.
From Verif Require Import Model.Num.
Import ListNotations.
Local Open Scope R_scope.

(** a_0 + sum_{k=1}^{K} a_k cos(kx) + b_k sin(kx) *)
Definition trig (K : nat) (a b : nat -> R) (x : R) : R :=
  a 0%nat + Rsum K (fun k => a (S k) * cos (INR (S k) * x) + b (S k) * sin (INR (S k) * x)).

(** p is a trigonometric polynomial of degree at most K *)
Definition trig_degree (K : nat) (p : R -> R) : Prop :=
  exists a b, forall x, p x = trig K a b x.

(** p is of the shape used for interpolation at N equispaced points: degree at most N/2 and, when
    N = 2K, without sin(Kx) (which vanishes on the grid). *)
Definition trig_interpolant (N : nat) (p : R -> R) : Prop :=
  exists a b, (Nat.even N = true -> b (N / 2)%nat = 0) /\ forall x, p x = trig (N / 2) a b x.

(** p takes the values v at the points 2*pi*j/N *)
Definition samples (v : list R) (p : R -> R) : Prop :=
  forall j, (j < length v)%nat -> nth j v 0 = p (2 * PI * INR j / INR (length v)).

(** Complex trigonometric polynomials with the N frequencies -(N//2) .. (N-1)//2. *)
Definition ctrig_interpolant (N : nat) (q : R -> C) : Prop :=
  exists c : nat -> C, forall x, q x = Csum N (fun i =>
    Cmult (c i) (cos (IZR (Z.of_nat i - Z.of_nat (N / 2)) * x), sin (IZR (Z.of_nat i - Z.of_nat (N / 2)) * x))).
(** q takes the values v at the points 2*pi*j/N *)
Definition csamples (v : list C) (q : R -> C) : Prop :=
  forall j, (j < length v)%nat -> nth j v (RtoC 0) = q (2 * PI * INR j / INR (length v)).

(** the trigonometric polynomial with Fourier coefficients y, in numpy's order shifted to -N/2, ..:
    (1/N) sum_i y_i exp(1j*(i - N//2)*t) *)
Definition of_coeffs (y : list C) (t : R) : C :=
  Cmult (RtoC (/ INR (length y))) (Csum (length y) (fun i =>
    Cmult (nth i y (RtoC 0)) (cos (IZR (Z.of_nat i - Z.of_nat (length y / 2)) * t), sin (IZR (Z.of_nat i - Z.of_nat (length y / 2)) * t)))).
