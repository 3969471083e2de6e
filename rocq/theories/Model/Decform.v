(** Model of dec/decform.py.  A discrete form refers to its grid; [heap] gives the grid behind a
    reference and [is] compares references.  [X] is the type of the refined forms g.refine.T returns. *)
From Coq Require Import ZArith Reals List Arith Bool.
From Coquelicot Require Import Complex.
From Verif Require Import Model.Num Model.Np Model.Spectral Model.Basis Model.Grids1 Model.Common.
Import ListNotations.

(** the attributes of a grid the forms use: grid.dimension, grid.N, grid.dec.{D,H,W,C,B,I}, grid.refine.T.
    A basis function takes the coordinates of a point and returns its components.  [gI] is the entry I of
    the bunch [dec], if there is one. *)
Record grid (X : Type) := MkGrid {
  gdim : nat; gN : table nat;
  gD : table (list R -> res rarr); gH : table op1;
  gW : option (dict wkey op2); gC : option (dict ckey op2);
  gB : table (nat -> list R -> option (list R));
  gI : option (table (list R -> res X)); gT : table (list R -> res X) }.
Arguments MkGrid {X}. Arguments gdim {X}. Arguments gN {X}. Arguments gD {X}. Arguments gH {X}. Arguments gW {X}. Arguments gC {X}.
Arguments gB {X}. Arguments gI {X}. Arguments gT {X}.

(** decform.py:8-12 [__init__] *)
Record decform := MkForm { degree : nat; isprimal : bool; gref : nat; array : list R }.

(** the right operand of a binary operator *)
Inductive operand := OForm (f : decform) | ONum (r : R) | OArr (a : list R).
Inductive bop := Badd | Bradd | Bmul | Brmul | Bsub | Brsub | Bdiv | Btruediv.
(** the method of numpy.ndarray of that name; ndarray has no __div__ in Python 3.  Dividing by zero
    (inf or nan in numpy) is whatever Rinv 0 is: theorems only speak of non-zero divisors. *)
Definition bop_fn (o : bop) : res (R -> R -> R) :=
  match o with
  | Badd => Ok Rplus | Bradd => Ok (fun x y => (y + x)%R)
  | Bmul => Ok Rmult | Brmul => Ok (fun x y => (y * x)%R)
  | Bsub => Ok Rminus | Brsub => Ok (fun x y => (y - x)%R)
  | Bdiv => Err AttributeError | Btruediv => Ok Rdiv
  end.

(** numpy.allclose(a, b): abs(a-b) <= atol + rtol*abs(b) everywhere, rtol = 1e-5, atol = 1e-8 *)
Definition close1 (x y : R) : bool :=
  if Rle_dec (Rabs (x - y)) (/ 100000000 + / 100000 * Rabs y) then true else false.
Definition allclose (a b : list R) : res bool :=
  bind (np_bin close1 a b) (fun l => Ok (forallb (fun c => c) l)).

(** what .D and .C return: the int 0 or a form *)
Inductive zform := ZZero | ZForm (f : decform).

Section Forms.
Context {X : Type}.
Variable heap : nat -> grid X.

(** decform.py:30-40 [binary] *)
Definition binary (o : bop) (self : decform) (other : operand) : res decform :=
  let mk arr := Ok (MkForm (degree self) (isprimal self) (gref self) arr) in
  match other with
  | OForm g =>
    if negb (Nat.eqb (degree self) (degree g)) then Err AssertionError
    else if negb (Nat.eqb (gref self) (gref g)) then Err AssertionError
    else if negb (Bool.eqb (isprimal self) (isprimal g)) then Err AssertionError
    else bind (bop_fn o) (fun op => bind (np_bin op (array self) (array g)) mk)
  | ONum r => bind (bop_fn o) (fun op => mk (map (fun x => op x r) (array self)))
  | OArr a => bind (bop_fn o) (fun op => bind (np_bin op (array self) a) mk)
  end.
(** decform.py:42-46 [unary], __neg__ *)
Definition neg (self : decform) : decform :=
  MkForm (degree self) (isprimal self) (gref self) (map Ropp (array self)).

(** decform.py:18-22 [__eq__]: other must have the attribute degree *)
Definition form_eq (self : decform) (other : operand) : res bool :=
  match other with
  | OForm g =>
    if Nat.eqb (degree self) (degree g) && Bool.eqb (isprimal self) (isprimal g) && Nat.eqb (gref self) (gref g)
    then allclose (array self) (array g) else Ok false
  | _ => Err AttributeError
  end.
(** decform.py:24-25 [__ne__] *)
Definition form_ne (self : decform) (other : operand) : res bool :=
  bind (form_eq self other) (fun b => Ok (negb b)).

(** decform.py:50-58 [R]: sum(a[i]*g.dec.B[d, p](i)( * x) for i in range(g.N[d, p])), starting from the
    number 0, which numpy adds to arrays of any length *)
Definition vsum (l : list (list R)) : list R :=
  match l with [] => [0%R] | v :: l' => fold_left (zipw Rplus) l' v end.
Fixpoint all_some {A} (l : list (option A)) : option (list A) :=
  match l with
  | [] => Some []
  | Some a :: l' => match all_some l' with Some r => Some (a :: r) | None => None end
  | None :: _ => None
  end.
Definition form_R (f : decform) (x : list R) : res (option (list R)) :=
  let g := heap (gref f) in let k := (degree f, isprimal f) in
  bind (tget (gN g) k) (fun n => bind (tget (gB g) k) (fun B =>
  if Nat.ltb (length (array f)) n then Err IndexError
  else Ok (match all_some (map (fun i => match B i x with
             Some v => Some (map (Rmult (nth i (array f) 0%R)) v) | None => None end) (seq 0 n)) with
           | Some l => Some (vsum l) | None => None end))).
(** decform.py:61-67 [I] *)
Definition form_I (f : decform) : res X :=
  let g := heap (gref f) in
  match gI g with
  | None => Err KeyError
  | Some ti => bind (tget ti (degree f, isprimal f)) (fun i => i (array f))
  end.
(** decform.py:70-76 [Rf] *)
Definition form_Rf (f : decform) : res X :=
  bind (tget (gT (heap (gref f))) (degree f, isprimal f)) (fun t => t (array f)).
(** decform.py:80-87 [D] *)
Definition form_D (f : decform) : res zform :=
  let g := heap (gref f) in
  bind (tget (gD g) (degree f, isprimal f)) (fun d => bind (d (array f)) (fun a =>
  match a with RZero => Ok ZZero | RArr a => Ok (ZForm (MkForm (degree f + 1) (isprimal f) (gref f) a)) end)).
(** decform.py:90-97 [H] *)
Definition form_H (f : decform) : res decform :=
  let g := heap (gref f) in
  bind (tget (gH g) (degree f, isprimal f)) (fun h => bind (h (array f)) (fun a =>
  Ok (MkForm (gdim g - degree f) (negb (isprimal f)) (gref f) a))).
(** decform.py:99-107 [W]; subscripting None raises TypeError *)
Definition form_W (toprimal : bool) (self other : decform) : res decform :=
  if negb (Nat.eqb (gref self) (gref other)) then Err AssertionError
  else match gW (heap (gref self)) with
  | None => Err TypeError
  | Some W =>
    bind (dget wkey_eqb W ((degree self, isprimal self), (degree other, isprimal other), toprimal)) (fun w =>
    bind (w (array self) (array other)) (fun a =>
    Ok (MkForm (degree self + degree other) toprimal (gref self) a)))
  end.
(** decform.py:27-28 [__xor__] *)
Definition form_xor := form_W true.
(** decform.py:109-118 [C] *)
Definition form_C (toprimal : bool) (self other : decform) : res decform :=
  if negb (Nat.eqb (gref self) (gref other) && Nat.eqb (degree self) 1) then Err AssertionError
  else match gC (heap (gref self)) with
  | None => Err TypeError
  | Some C =>
    bind (dget ckey_eqb C (isprimal self, (degree other, isprimal other), toprimal)) (fun c =>
    bind (c (array self) (array other)) (fun a =>
    Ok (MkForm (degree other - 1) toprimal (gref self) a)))
  end.
End Forms.

(** ** 1D grids: grid1.py:28-37 [Grid_1D.__init__] on the arguments of the three [make] functions;
    dec=bunch(P, B, D, H, W, C) has no entry I *)
Definition lift1 (b : nat -> R -> option R) (i : nat) (x : list R) : option (list R) :=
  match x with [x] => match b i x with Some y => Some [y] | None => None end | _ => None end.
Definition basis_of (k : kind1) : nat -> nat -> bool -> nat -> R -> option R :=
  match k with Periodic => B_periodic | Regular => B_regular | Chebyshev => B_chebyshev end.
Definition tab4 {V} (v : nat -> bool -> V) : table V :=
  [((0, true), v 0 true); ((1, true), v 1 true); ((0, false), v 0 false); ((1, false), v 1 false)].
Definition grid_1d (close : C -> C -> bool) (k : kind1) (n : nat) : grid (list R) :=
  let d := dec_of close k in
  MkGrid 1 (tab4 (grid_N k n)) (dD d) (dH d) (dW d) (dC d)
    (tab4 (fun deg p => lift1 (basis_of k n deg p))) None (rT (refine_of close k)).
