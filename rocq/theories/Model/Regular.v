(** Model of the Hodge stars and refinements of dec/regular.py (cells, bases and derivatives are in
    Model/Grids1.v).  The arrays are complex: Finv returns complex arrays and regular.py keeps them. *)
From Coq Require Import ZArith Reals List Lia.
From Coquelicot Require Import Complex.
From Verif Require Import Model.Num Model.Np Model.Spectral.
Import ListNotations.
Local Open Scope R_scope.

(** N = f.shape[0]; h = 2*pi/N: dividing by the int 0 raises *)
Definition with_h (f : list C) (k : R -> res (list C)) : res (list C) :=
  match length f with O => Err ZeroDivisionError | N => k (hstep N) end.

(** regular.py:90-105 [H1d_regular] *)
Definition H1d_regular (f : list C) : res (list C) :=
  bind (A_diag (length f)) (fun d =>
  let f := vdiv f (cplxv d) in
  let f := mirror0 (RtoC 1) f in
  with_h f (fun h => 
  let f := I_space_inv (- h / 2) (h / 2) f in
  Ok (unmirror0 f))).

(** regular.py:107-122 [H0_regular] *)
Definition H0_regular (f : list C) : res (list C) :=
  let f := mirror0 (RtoC 1) f in
  with_h f (fun h =>
  let f := I_space (- h / 2) (h / 2) f in
  let f := unmirror0 f in
  bind (A_diag (length f)) (fun d => Ok (vmul f (cplxv d)))).

(** regular.py:124-137 [H1_regular] *)
Definition H1_regular (f : list C) : res (list C) :=
  let f := mirror1 (RtoC 1) f in
  with_h f (fun h =>
  let f := I_space_inv (- h / 2) (h / 2) f in
  Ok (unmirror1 f)).

(** regular.py:139-152 [H0d_regular] *)
Definition H0d_regular (f : list C) : res (list C) :=
  let f := mirror1 (RtoC 1) f in
  with_h f (fun h =>
  let f := I_space (- h / 2) (h / 2) f in
  Ok (unmirror1 f)).
