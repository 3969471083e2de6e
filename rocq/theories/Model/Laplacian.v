(** Model of the operator tuples of 1D grids (grid1.py) and of spectral.py [laplacian]. *)
From Coq Require Import ZArith Reals List Arith Bool.
From Verif Require Import Model.Sym.
From Coquelicot Require Import Complex.
From Verif Require Import Model.Num Model.Np Model.Spectral Model.Grids1 Model.Common.
Import ListNotations.

Definition deriv1 := list R -> res rarr.
(** grid1.py:102-106 [Grid_1D.derivative] *)
Definition derivative1 (d : dec1) : res (deriv1 * deriv1) :=
  bind (tget (dD d) (0, true)) (fun D0 => bind (tget (dD d) (0, false)) (fun D0d => Ok (D0, D0d))).
(** grid1.py:108-114 [Grid_1D.hodge_star] *)
Definition hodge_star1 (d : dec1) : res (op1 * op1 * op1 * op1) :=
  bind (tget (dH d) (0, true)) (fun H0 => bind (tget (dH d) (1, true)) (fun H1 =>
  bind (tget (dH d) (0, false)) (fun H0d => bind (tget (dH d) (1, false)) (fun H1d => Ok (H0, H1, H0d, H1d))))).
(** using the result of a derivative as an array: the operators ask the int 0 for its shape or length *)
Definition as_arr (r : rarr) : res (list R) := match r with RArr a => Ok a | RZero => Err TypeError end.
Definition darr (D : deriv1) : op1 := fun f => bind (D f) as_arr.
(** spectral.py:1134-1144 [laplacian] *)
Definition laplacian (d : dec1) : res (op1 * op1) :=
  bind (derivative1 d) (fun '(D, DD) => bind (hodge_star1 d) (fun '(H0, H1, H0d, H1d) =>
  let L : op1 := fun x => bind (darr D x) (fun x => bind (H1 x) (fun x => bind (darr DD x) H1d)) in
  let Ld : op1 := fun x => bind (darr DD x) (fun x => bind (H1d x) (fun x => bind (darr D x) H1)) in
  Ok (L, Ld))).
