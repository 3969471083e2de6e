(** Model of the numerical projections and boundary terms of dec/grid2.py: [projection_2d], the module level
    [boundary_condition] and [Grid_2D.boundary_condition], on the flattened cells of Model/Grid2.v.  The forms
    are Python callables: f(x, y) is a number (degree 0, 2) or a pair (degree 1).  scipy's quad and dblquad are
    the Riemann integral, as in Model/Integrate.v. *)
From Coq Require Import ZArith Reals List Arith Bool.
From Verif Require Import Model.Sym.
From Coquelicot Require Import Coquelicot.
From Verif Require Import Model.Num Model.Np Model.Spectral Model.Basis Model.Grids1 Model.Common Model.Decform Model.Grid2 Model.Integrate.
Import ListNotations.
Local Open Scope nat_scope.

(** arrays of points and of edges, quads: the coordinates are separate arrays of one length *)
Definition pts := (list R * list R)%type.
Definition points_of (p : pts) : list point := combine (fst p) (snd p).
(** integrate.py:341-361 [integrate_1form] on arrays: numpy.vectorize without otypes raises ValueError on empty arrays *)
Definition vec_1form (p q : pts) (f : R -> R -> point) : res (list R) :=
  match points_of p with [] => Err ValueError | _ => Ok (zipw (fun a b => integrate_1form (a, b) f) (points_of p) (points_of q)) end.
(** integrate.py:363-377 [_integrate_2form] on arrays *)
Definition vec_tri (p q r : pts) (f : R -> R -> R) : res (list R) :=
  match points_of p with
  | [] => Err ValueError
  | _ => Ok (zipw (fun ab c => tri_integral (fst ab, snd ab, c) f) (combine (points_of p) (points_of q)) (points_of r))
  end.
(** integrate.py:379-397 [integrate_2form] on the four arrays of corners: integral = 0.0; integral += i, twice *)
Definition vec_2form (c : pts * pts * pts * pts) (f : R -> R -> R) : res (list R) :=
  let '(a, b, c, d) := c in
  bind (vec_tri a b c f) (fun i => bind (vec_tri a c d f) (fun j => Ok (zipw Rplus (map (Rplus 0) i) j))).
(** grid2.py:262-274 [projection_2d]; the keys hold functions of different types, so one definition per degree *)
Definition projection_0 (c : fcells) (t : bool) (f : R -> R -> R) : list R := zipw f (fst (f0 c t)) (snd (f0 c t)).
Definition projection_1 (c : fcells) (t : bool) (f : R -> R -> point) : res (list R) := vec_1form (fst (f1 c t)) (snd (f1 c t)) f.
Definition projection_2 (c : fcells) (t : bool) (f : R -> R -> R) : res (list R) := vec_2form (f2 c t) f.

(** x[ma] for a boolean array ma of the length of x *)
Definition select {A} (ma : list bool) (l : list A) : list A := map snd (filter fst (combine ma l)).
Definition selectp (ma : list bool) (p : pts) : pts := (select ma (fst p), select ma (snd p)).
(** bc[ma] = op(bc[ma], v) for v of the length of bc[ma] *)
Fixpoint update (op : R -> R -> R) (ma : list bool) (v bc : list R) : list R :=
  match ma, bc with
  | true :: ma', b :: bc' => match v with a :: v' => op b a :: update op ma' v' bc' | [] => b :: bc' end
  | false :: ma', b :: bc' => b :: update op ma' v bc'
  | _, _ => bc
  end.
(** f(x[ma], y[ma]) for a function acting elementwise *)
Definition vals (f : R -> R -> R) (ma : list bool) (p : pts) : list R := zipw f (select ma (fst p)) (select ma (snd p)).
Definition eqm (x : list R) (v : R) : list bool := map (fun a => Reqb a v) x.
(** grid2.py:281-312 [boundary_condition]: BC0 *)
Definition boundary_0 (edges_dual : pts * pts) (xmin xmax ymin ymax : R) (f : R -> R -> R) : list R :=
  let '(p0, p1) := edges_dual in
  let bc := zeros (length (fst p0)) in
  let bc := update Rminus (eqm (fst p0) xmin) (vals f (eqm (fst p0) xmin) p0) bc in
  let bc := update Rplus (eqm (fst p1) xmax) (vals f (eqm (fst p1) xmax) p1) bc in
  let bc := update Rminus (eqm (snd p0) ymin) (vals f (eqm (snd p0) ymin) p0) bc in
  update Rplus (eqm (snd p1) ymax) (vals f (eqm (snd p1) ymax) p1) bc.
(** grid2.py:281-312 [boundary_condition]: BC1 *)
Definition boundary_1 (faces_dual : pts * pts * pts * pts) (xmin xmax ymin ymax : R) (f : R -> R -> point) : res (list R) :=
  let '(p0, p1, p2, p3) := faces_dual in
  let step ma a b bc := bind (vec_1form (selectp ma a) (selectp ma b) f) (fun v => Ok (update Rplus ma v bc)) in
  bind (step (eqm (snd p0) ymin) p0 p1 (zeros (length (fst p0)))) (fun bc =>
  bind (step (eqm (fst p1) xmax) p1 p2 bc) (fun bc =>
  bind (step (eqm (snd p2) ymax) p2 p3 bc) (fun bc =>
  step (eqm (fst p3) xmin) p3 p0 bc))).
(** grid2.py:227-234 [Grid_2D.boundary_condition]; unshape of a flat array returns it unchanged *)
Definition boundary_condition_0 (gx gy : grid1) (g : grid2) : (R -> R -> R) -> list R :=
  boundary_0 (f1 (g2cells g) false) (lo gx) (hi gx) (lo gy) (hi gy).
Definition boundary_condition_1 (gx gy : grid1) (g : grid2) : (R -> R -> point) -> res (list R) :=
  boundary_1 (f2 (g2cells g) false) (lo gx) (hi gx) (lo gy) (hi gy).
