(** Model of the discretisation of symbolic forms: symform.py:123-124 [form.P], symform.py:155-186
    [to_discrete], grid2.py:242-246 [Grid_2D.P], with integrate.py:82-98 [integration_1d] and the names of
    symbolic.py:71-73 [cell_coords] and symbolic.py:92-104 [enumerate_coords].

    sympy itself appears as two parameters: [auto], the rewriting sympy does whenever it builds an expression,
    and the closed form that [process] (integrate.py:10-15) computes for an integral, which may fail.  What is
    assumed of them is stated in Spec/Sympy.v and is a hypothesis of the theorems. *)
From Coq Require Import ZArith Reals List Arith Bool.
From Verif Require Import Model.Sym.
From Coquelicot Require Import Complex.
From Verif Require Import Model.Num Model.Np Model.Grids1 Model.Common Model.Decform Model.Grid2.
Import ListNotations.
Local Open Scope nat_scope.

(** symbolic.py:104: the symbol called '{c.name}{i}', for i = 0, 1, 2 (the only indices used).  These names
    are different for different (c, i), and differ from 'x' and 'y', the symbols 0 and 1. *)
Definition cell (v i : nat) : nat := 3 * v + i + 2.
(** symbolic.py:92-104 [enumerate_coords] *)
Definition enumerate_coords (coord : list nat) (deg : nat) : list nat :=
  flat_map (fun i => map (fun c => cell c i) coord) (seq 0 (deg + 1)).
(** symbolic.py:71-73 [Chart.cell_coords] *)
Definition cell_coords (c : chart) (deg : nat) : res (list nat) :=
  if Nat.leb deg (dimension c) then Ok (enumerate_coords (coords c) deg) else Err AssertionError.

(** e.subs(v, w), for symbols v and w *)
Fixpoint subs (v w : nat) (e : expr) : expr :=
  match e with
  | Cst c => Cst c
  | Sym u => if Nat.eqb u v then Sym w else Sym u
  | App f i j => App f i j
  | Add a b => Add (subs v w a) (subs v w b)
  | Mul a b => Mul (subs v w a) (subs v w b)
  | Opp a => Opp (subs v w a)
  | Inv a => Inv (subs v w a)
  | Pow a n => Pow (subs v w a) n
  | Sin a => Sin (subs v w a)
  | Cos a => Cos (subs v w a)
  | Exp a => Exp (subs v w a)
  | Sqrt a => Sqrt (subs v w a)
  end.
(** the names an expression uses: its symbols, and its undefined functions *)
Fixpoint free (e : expr) : list nat :=
  match e with
  | Cst _ | App _ _ _ => []
  | Sym u => [u]
  | Add a b | Mul a b => free a ++ free b
  | Opp a | Inv a | Pow a _ | Sin a | Cos a | Exp a | Sqrt a => free a
  end.
Fixpoint undefined (e : expr) : bool :=
  match e with
  | Cst _ | Sym _ => false
  | App _ _ _ => true
  | Add a b | Mul a b => undefined a || undefined b
  | Opp a | Inv a | Pow a _ | Sin a | Cos a | Exp a | Sqrt a => undefined a
  end.
Definition only (args : list nat) (e : expr) : bool :=
  negb (undefined e) && forallb (fun v => existsb (Nat.eqb v) args) (free e).

(** What the lambdified function returns: a number when the expression uses none of its arguments,
    an array otherwise. *)
Inductive nd := Scal (c : R) | Arr (l : list R).
(** the values of the symbols args are vals, in this order *)
Fixpoint assign (args : list nat) (vals : list R) : nat -> R :=
  match args, vals with
  | a :: args', c :: vals' => fun v => if Nat.eqb v a then c else assign args' vals' v
  | _, _ => fun _ => 0%R
  end.
Definition env_of (args : list nat) (vals : list R) : env := MkEnv (assign args vals) (fun _ _ _ _ _ => 0%R).
(** sympy.lambdify(args, e, 'numpy') called with one array of numbers for each argument (all of length n): a
    name that is no argument raises NameError *)
Definition lambdify (args : list nat) (e : expr) (n : nat) (arrays : list (list R)) : res nd :=
  if only args e then
    match free e with
    | [] => Ok (Scal (eval (env_of [] []) e))
    | _ => Ok (Arr (tab n (fun i => eval (env_of args (map (fun a => nth i a 0%R) arrays)) e)))
    end
  else Err NameError.

(** a form with such a value: decform(d, isprimal, g, a) *)
Record dform := MkDform { fdeg : nat; fprimal : bool; fref : nat; fval_ : nd }.
(** ordinary forms *)
Definition dform_of (f : decform) : dform := MkDform (degree f) (isprimal f) (gref f) (Arr (array f)).

Section Sympy.
(** sympy's rewriting, and the closed form of Integral(f, (x, x0, x1)) that [process] returns, if there is one *)
Variable auto : expr -> expr.
Variable closed : expr -> nat -> nat -> nat -> option expr.
(** whether [process] evaluates the integrals of the components that the two-dimensional code asks for:
    integrate.py:100-150 [integration_2d] (triangles), integrate.py:152-192 [integration_2d_regular] *)
Variable closed2 : nat -> list expr -> bool.

Definition process (o : option expr) : res expr := match o with Some e => Ok e | None => Err ValueError end.
(** [f, = sy.sympify(f)] *)
Definition single {A} (c : list A) : res A := match c with [f] => Ok f | _ => Err ValueError end.
(** integrate.py:82-98 [integration_1d] *)
Definition integration_1d (x x0 x1 : nat) (d : nat) : res (list expr -> res expr) :=
  match d with
  | 0 => Ok (fun c => bind (single c) (fun f => Ok (auto (subs x x0 f))))
  | 1 => Ok (fun c => bind (single c) (fun f => process (closed f x x0 x1)))
  | _ => Err IndexError
  end.

(** symform.py:155-186 [to_discrete] on a one-dimensional grid with cells cl, referred to by r *)
Definition to_discrete1 (f : sform) (r : nat) (cl : cells1) (t : bool) : res dform :=
  let d := sdeg f in let ch := sgrid f in
  if Nat.eqb 1 (dimension ch) then
    match coords ch with
    | [x] =>
      bind (integration_1d x (cell x 0) (cell x 1) d) (fun P => bind (P (scomps f)) (fun e =>
      bind (cell_coords ch d) (fun args =>
      let arrays := match d with
        | 0 => [if t then verts cl else verts_dual cl]
        | _ => let es := if t then edges cl else edges_dual cl in [fst es; snd es] end in
      bind (lambdify args e (length (hd [] arrays)) arrays) (fun a => Ok (MkDform d t r a)))))
    | _ => Err AssertionError
    end
  else Err AssertionError.

(** grid2.py:242-246 [Grid_2D.P]: the form's components are integrated as expressions of the symbols x and y
    of grid2.py:455, whatever the coordinates of the form's chart are called.  (Components that mention the
    names x0, y0, x1, y1, which the code uses itself, are not modelled: NameError here.) *)
Definition component (e : expr) : res (R -> R -> R) :=
  let e := auto e in
  if only [0; 1] e then Ok (fun x y => eval (env_of [0; 1] [x; y]) e) else Err NameError.
Fixpoint all_ok {A B} (f : A -> res B) (l : list A) : res (list B) :=
  match l with [] => Ok [] | a :: l' => bind (f a) (fun b => bind (all_ok f l') (fun r => Ok (b :: r))) end.
Definition grid_P (f : sform) (r : nat) (G : grid2) (t : bool) : res decform :=
  if closed2 (sdeg f) (scomps f) then
    bind (all_ok component (scomps f)) (fun fs => bind (tget (g2P G) (sdeg f, t)) (fun P => bind (P fs) (fun a =>
    Ok (MkForm (sdeg f) t r a))))
  else Err ValueError.
(** symform.py:155-186 [to_discrete] on a two-dimensional grid: the integrals over triangles of lines 164-165
    are computed and thrown away (closed2 covers them) *)
Definition to_discrete2 (f : sform) (r : nat) (G : grid2) (t : bool) : res decform :=
  if Nat.eqb 2 (dimension (sgrid f)) then grid_P f r G t else Err AssertionError.
End Sympy.
