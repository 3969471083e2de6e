(** Model of dec/integrate.py.  scipy's quad and dblquad and sympy's Integral are the Riemann integral (that
    [process] finds a closed form, and the error estimates quad returns, are not modelled).  Functions of the
    plane take two numbers.  (integration_2d_regular and n_integration_2d_regular are in Model/Grid2.v.) *)
From Coq Require Import Reals List.
From Coquelicot Require Import Coquelicot.
From Verif Require Import Model.Num Model.Np.
Import ListNotations.
Local Open Scope R_scope.

(** integrate.py:287-298 [integrate_simpson] *)
Definition integrate_simpson (a b : R) (f : R -> R) : R :=
  ((b - a) / 6) * (f a + 4 * f ((a + b) / 2) + f b).
(** integrate.py:300-316 [integrate_boole] *)
Definition integrate_boole (x1 x5 : R) (f : R -> R) : R :=
  let h := (x5 - x1) / 4 in
  let x2 := x1 + h in let x3 := x1 + 2 * h in let x4 := x1 + 3 * h in
  (2 * h / 45) * (7 * f x1 + 32 * f x2 + 12 * f x3 + 32 * f x4 + 7 * f x5).
(** integrate.py:318-324 [integrate_boole1]: the rule is applied to the arrays x[:-1], x[1:], elementwise *)
Definition integrate_boole1 (x : list R) (f : R -> R) : list R :=
  zipw (fun a b => integrate_boole a b f) (init x) (tl x).
(** integrate.py:326-336 [integrate_boole2]: the points are numpy arrays with two entries *)
Definition point := (R * R)%type.
Definition integrate_boole2 (x1 x5 : point) (f : R -> R -> R) : R :=
  let h := ((fst x5 - fst x1) / 4, (snd x5 - snd x1) / 4) in
  let at_ k := f (fst x1 + k * fst h) (snd x1 + k * snd h) in
  (2 * sqrt (fst h ^ 2 + snd h ^ 2) / 45) * (7 * at_ 0 + 32 * at_ 1 + 12 * at_ 2 + 32 * at_ 3 + 7 * f (fst x5) (snd x5)).
(** integrate.py:338-339 [slow_integration] *)
Definition slow_integration (a b : list R) (f : R -> R) : list R := zipw (fun a b => RInt f a b) a b.

(** integrate.py:341-361 [integrate_1form]: the value, without the error estimate *)
Definition integrate_1form (edge : point * point) (f : R -> R -> point) : R :=
  let '((x0, y0), (x1, y1)) := edge in
  let dx := x1 - x0 in let dy := y1 - y0 in
  RInt (fun t => let v := f (x0 + t * dx) (y0 + t * dy) in fst v * dx + snd v * dy) 0 1.
(** integrate.py:363-377 [_integrate_2form]: dblquad(_f, 0, 1, g, h) integrates its first argument u from
    g(v) = 0 to h(v) = 1 - v and then v from 0 to 1 *)
Definition tri_integral (face : point * point * point) (f : R -> R -> R) : R :=
  let '((x0, y0), (x1, y1), (x2, y2)) := face in
  let dx1 := x1 - x0 in let dy1 := y1 - y0 in let dx2 := x2 - x0 in let dy2 := y2 - y0 in
  RInt (fun v => RInt (fun u => f (x0 + u * dx1 + v * dx2) (y0 + u * dy1 + v * dy2) * (dx1 * dy2 - dy1 * dx2)) 0 (1 - v)) 0 1.
(** integrate.py:379-397 [integrate_2form]: the sum over zip(face[1:-1], face[2:]); face[0] raises IndexError *)
Definition integrate_2form (face : list point) (f : R -> R -> R) : res R :=
  match face with
  | [] => Err IndexError
  | a :: _ => Ok (fold_left Rplus (zipw (fun b c => tri_integral (a, b, c) f) (inner face) (skipn 2 face)) 0)
  end.

(** integrate.py:19-42 [averages_1d]; A0(f), A1(f) at the points x0, x1 *)
Definition A0_1d (f : R -> R) (x0 : R) : R := f x0.
Definition A1_1d (f : R -> R) (x0 x1 : R) : R := RInt (fun s => f (x0 * (1 - s) + x1 * s)) 0 1.
(** integrate.py:44-80 [averages_2d]; sympy's Integral(g, (t, 0, 1-s), (s, 0, 1)) integrates t first *)
Definition A1_2d (f : R -> R -> R) (x0 y0 x1 y1 : R) : R := RInt (fun s => f (x0 * (1 - s) + x1 * s) (y0 * (1 - s) + y1 * s)) 0 1.
Definition A2_2d (f : R -> R -> R) (x0 y0 x1 y1 x2 y2 : R) : R :=
  RInt (fun s => RInt (fun t => 2 * f (x0 * (1 - s - t) + x1 * s + x2 * t) (y0 * (1 - s - t) + y1 * s + y2 * t)) 0 (1 - s)) 0 1.
(** integrate.py:82-98 [integration_1d] *)
Definition P1_1d (f : R -> R) (x0 x1 : R) : R := RInt f x0 x1.
(** integrate.py:100-150 [integration_2d] and integrate.py:219-248 [n_integration_2d] (the same formulas; the
    double integral of the numeric version is written with its two variables in the other order, see below) *)
Definition P1_2d (fx fy : R -> R -> R) (x0 y0 x1 y1 : R) : R :=
  let lx := x1 - x0 in let ly := y1 - y0 in
  RInt (fun s => fx (x0 * (1 - s) + x1 * s) (y0 * (1 - s) + y1 * s) * lx + fy (x0 * (1 - s) + x1 * s) (y0 * (1 - s) + y1 * s) * ly) 0 1.
Definition P2_2d (f : R -> R -> R) (x0 y0 x1 y1 x2 y2 : R) : R :=
  let A := (x1 - x0) * (y2 - y0) - (x2 - x0) * (y1 - y0) in
  RInt (fun s => RInt (fun t => f (x0 * (1 - s - t) + x1 * s + x2 * t) (y0 * (1 - s - t) + y1 * s + y2 * t) * A) 0 (1 - s)) 0 1.
(** dblquad(integrand, 0, 1, lambda s: 0, lambda s: 1-s) calls integrand(s, t) with s inner, t outer *)
Definition nP2_2d (f : R -> R -> R) (x0 y0 x1 y1 x2 y2 : R) : R :=
  let A := (x1 - x0) * (y2 - y0) - (x2 - x0) * (y1 - y0) in
  RInt (fun t => RInt (fun s => f (x0 * (1 - s - t) + x1 * s + x2 * t) (y0 * (1 - s - t) + y1 * s + y2 * t) * A) 0 (1 - t)) 0 1.
