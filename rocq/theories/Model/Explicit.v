(** Operators of dec/periodic.py and dec/chebyshev.py that are not stored in the operator tables: the
    switches between primal and dual 0-forms, the explicit wedge products and the Toeplitz matrices. *)
From Coq Require Import ZArith Reals List.
From Coquelicot Require Import Complex.
From Verif Require Import Model.Num Model.Np Model.Spectral Model.Basis Model.Grids1 Model.Chebyshev Model.Common.
Import ListNotations.
Local Open Scope R_scope.

(** periodic.py:98-103 [switch] *)
Definition switch_periodic : op1 * op1 := (spec opS, spec opSinv).
(** chebyshev.py:100-101 [switch] *)
Definition switch_cheb : op1 * op1 := (S_cheb, S_cheb_pinv).

(** periodic.py:109-110 [w00] *)
Definition w00 : op2 := fun alpha beta => np_bin Rmult alpha beta.
(** periodic.py:111-113 [_w01], "the associative implementation": S(H(alpha * Hinv(Sinv(beta)))) *)
Definition w01_assoc : op2 := fun alpha beta =>
  bind (bind (spec opSinv beta) (spec opHinv)) (fun g =>
  bind (np_bin Rmult alpha g) (fun p =>
  bind (spec opH p) (spec opS))).
(** spectral.py:566-576 [refine] of an array of floats, with the errors of [S] and [interweave] *)
Definition sp_refine : op1 := fun x => bind (spec opS x) (fun s => interweave x s).
(** periodic.py:114-121 [w01], "the non-associative implementation" *)
Definition w01 : op2 := fun alpha beta =>
  bind (sp_refine alpha) (fun a =>
  bind (bind (bind (spec opSinv beta) (spec opHinv)) sp_refine) (fun b =>
  bind (np_bin Rmult a b) (fun p =>
  bind (bind (spec opH p) (spec opS)) pair_sum))).
(** periodic.py:105-122 [wedge_explicit] *)
Definition wedge_explicit : op2 * op2 * op2 := (w00, w01, w01_assoc).

(** scipy.linalg.toeplitz(c, r): entry (i, j) is c[i-j] on and below the diagonal and r[j-i] above it
    (r[0] is ignored), as a list of rows *)
Definition toeplitz (c r : list R) : list (list R) :=
  tab (length c) (fun i => tab (length r) (fun j => if Nat.leb j i then nth (i - j) c 0 else nth (j - i) r 0)).
(** periodic.py:152-160 [hodge_star_toeplitz], for the grid with cells c and g.n = n *)
Definition hodge_star_toeplitz (n : nat) (c : cells1) : list (list R) :=
  let column := P1d c (tot (alpha0 n)) in
  let row := firstn 1 column ++ rev (skipn 1 column) in
  toeplitz column row.
(** a matrix (list of rows) times a vector, for use of the two functions above *)
Definition matvec (m : list (list R)) (x : list R) : list R := map (fun r => lsum (zipw Rmult r x)) m.
