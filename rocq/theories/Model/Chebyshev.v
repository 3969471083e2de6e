(** Model of the Hodge stars, of the interpolation between primal and dual vertices and of the
    refinements of dec/chebyshev.py (cells, bases and derivatives are in Model/Grids1.v).
    [close] is the guard numpy.isclose used by fourier_K_inv. *)
From Coq Require Import ZArith Reals List Lia.
From Coquelicot Require Import Complex.
From Verif Require Import Model.Num Model.Np Model.Spectral Model.Regular.
Import ListNotations.
Local Open Scope R_scope.

(** numpy.isclose(a, b) with its default tolerances, abs(a - b) <= atol + rtol*abs(b), rtol = 1e-5,
    atol = 1e-8 (called in spectral.py:533-564 fourier_K_inv) *)
Definition np_isclose (a b : C) : bool :=
  if Rle_dec (Cmod (Cminus a b)) (/ 10 ^ 8 + / 10 ^ 5 * Cmod b) then true else false.

(** chebyshev.py:103-111 [H0d_cheb] *)
Definition H0d_cheb (f : list R) : res (list R) :=
  let f := cplxv (mirror1 1 f) in
  bind (with_h f (fun h =>
  let f := F f in
  let f := fourier_S f (- h / 2) in
  let f := fourier_K f 0 h in
  let f := Finv f in
  Ok (unmirror1 f))) (fun f => Ok (realv f)).

(** chebyshev.py:113-121 [H1_cheb] *)
Definition H1_cheb (close : C -> C -> bool) (f : list R) : res (list R) :=
  let f := cplxv (mirror1 (-1) f) in
  bind (with_h f (fun h =>
  let f := F f in
  bind (fourier_K_inv close f 0 h) (fun f =>
  let f := fourier_S f (h / 2) in
  let f := Finv f in
  Ok (unmirror1 f)))) (fun f => Ok (realv f)).

(** chebyshev.py:123-135 [H0_cheb] *)
Definition H0_cheb (f : list R) : res (list R) :=
  let f := cplxv (mirror0 1 f) in
  bind (with_h f (fun h =>
  let f := F f in
  let f := fourier_K f 0 (h / 2) in
  let f := Finv f in
  Ok (fold0 (RtoC (-1)) f))) (fun f => Ok (realv f)).

(** chebyshev.py:137-160 [H1d_cheb].  h = pi/(N-1) raises on N = 1; on N = 0 the subtraction of arrays of
    lengths 0 and 2 in endpoints raises ValueError. *)
Definition H1d_cheb_endpoints (h : R) (f : list C) : list C :=
  let f0 := mirror0 (RtoC (-1)) (matC f) in
  let aa := vsub f (unmirror0 (I_space 0 (h / 2) (I_space_inv (- h / 2) (h / 2) f0))) in
  let bb := vsub f (unmirror0 (I_space (- h / 2) 0 (I_space_inv (- h / 2) (h / 2) f0))) in
  vadd (matB aa) (matB1 bb).
Definition H1d_cheb_midpoints (h : R) (f : list C) : list C :=
  let f := mirror0 (RtoC (-1)) (matC f) in
  let f := I_space_inv (- h / 2) (h / 2) f in
  let f := T_space (h / 2) f in
  let f := vdiv f (cplxv (Omega_d (length f))) in
  let f := T_space (- h / 2) f in
  unmirror0 f.
Definition H1d_cheb (f : list R) : res (list R) :=
  match length f with
  | O => Err ValueError
  | S O => Err ZeroDivisionError
  | N => let h := PI / INR (N - 1) in let f := cplxv f in
         Ok (realv (vadd (H1d_cheb_midpoints h f) (H1d_cheb_endpoints h f)))
  end.

(** chebyshev.py:162-177 [S_cheb] *)
Definition S_cheb (f : list R) : res (list R) :=
  let f := cplxv (mirror0 1 f) in
  let N := length f in
  bind (with_h f (fun h =>
  let f := Finv (vmul (F f) (S_diag N (h / 2))) in
  Ok (unmirror1 f))) (fun f => Ok (realv f)).

(** chebyshev.py:179-200 [S_cheb_pinv] *)
Definition S_cheb_pinv (f : list R) : res (list R) :=
  let f := cplxv (mirror1 1 f) in
  let N := length f in
  bind (with_h f (fun h =>
  let f := Finv (vmul (F f) (S_diag N (- h / 2))) in
  Ok (unmirror0 f))) (fun f => Ok (realv f)).
