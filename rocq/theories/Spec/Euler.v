(** Incompressible flow in the plane (doc/sample_advection.rst). *)
From Coq Require Import Reals List.
From Coquelicot Require Import Coquelicot.
Import ListNotations.
Local Open Scope R_scope.

(** fx and fy are the partial derivatives of f everywhere *)
Definition partials (f fx fy : R -> R -> R) : Prop := forall x y,
  is_derive (fun t => f t y) x (fx x y) /\ is_derive (fun t => f x t) y (fy x y).
(** At the time considered (u, v) is the velocity, p the pressure and (ut, vt) the acceleration:
    dv/dt + (v . grad) v = - grad p, with v and dv/dt free of divergence. *)
Definition euler (u v p ut vt : R -> R -> R) : Prop :=
  exists ux uy vx vy px py utx uty vtx vty,
    partials u ux uy /\ partials v vx vy /\ partials p px py /\ partials ut utx uty /\ partials vt vtx vty /\
    forall x y,
      ux x y + vy x y = 0 /\ utx x y + vty x y = 0 /\
      ut x y + (u x y * ux x y + v x y * uy x y) = - px x y /\
      vt x y + (u x y * vx x y + v x y * vy x y) = - py x y.
(** w is the vorticity of (u, v) *)
Definition vorticity (u v w : R -> R -> R) : Prop :=
  exists ux uy vx vy, partials u ux uy /\ partials v vx vy /\ forall x y, w x y = vx x y - uy x y.
Definition periodic2 (f : R -> R -> R) : Prop := forall x y, f (x + 2 * PI) y = f x y /\ f x (y + 2 * PI) = f x y.

(** The five examples of doc/sample_advection.rst: velocity, vorticity, pressure and acceleration, with the
    pressure as printed there. *)
Record flow := MkFlow { fu : R -> R -> R; fv : R -> R -> R; fw : R -> R -> R; fp : R -> R -> R; fut : R -> R -> R; fvt : R -> R -> R }.
Definition documented : list flow :=
  [ MkFlow (fun x y => -2 * cos (x / 2) ^ 2 * sin y) (fun x y => 2 * sin x * cos (y / 2) ^ 2)
      (fun x y => 2 * cos x * cos y + cos x + cos y)
      (fun x y => 1 / 20 * (cos (2 * x) * (4 * cos y + 5) + 4 * cos x * (5 * cos y + cos (2 * y) + 5) + 5 * (4 * cos y + cos (2 * y))))
      (fun x y => 1 / 5 * sin x * (cos x * cos y - cos (2 * y))) (fun x y => - (1 / 5) * sin y * (cos (2 * x) - cos x * cos y));
    MkFlow (fun x y => - sin (y / 2) * cos (x / 2)) (fun x y => sin (x / 2) * cos (y / 2))
      (fun x y => cos (x / 2) * cos (y / 2)) (fun x y => - (1 / 4) * cos x - 1 / 4 * cos y)
      (fun _ _ => 0) (fun _ _ => 0);
    MkFlow (fun x y => - sin y) (fun x y => sin x) (fun x y => cos x + cos y) (fun x y => cos x * cos y)
      (fun _ _ => 0) (fun _ _ => 0);
    MkFlow (fun x y => - sin (2 * y)) (fun x y => sin x) (fun x y => cos x + 2 * cos (2 * y)) (fun x y => 4 / 5 * cos x * cos (2 * y))
      (fun x y => 6 / 5 * sin x * cos (2 * y)) (fun x y => 1 / 5 * -3 * cos x * sin (2 * y));
    MkFlow (fun _ _ => 1) (fun _ _ => 0) (fun _ _ => 0) (fun _ _ => 0) (fun _ _ => 0) (fun _ _ => 0) ].
