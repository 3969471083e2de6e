(** Model of the constructors and accessor methods of grid1.py [Grid_1D] and grid2.py [Grid_2D]: the tuples of operators they
    return and the forms they build. *)
From Coq Require Import ZArith Reals List Arith Bool.
From Verif Require Import Model.Sym.
From Coquelicot Require Import Coquelicot.
From Verif Require Import Model.Num Model.Np Model.Spectral Model.Basis Model.Grids1 Model.Common Model.Decform Model.Grid2.
Import ListNotations.
Local Open Scope nat_scope.

(** the 1D grid made with the default extents of periodic.py:6-62 [make], regular.py:6-65 [make], chebyshev.py:6-63 [make] *)
Definition default1 (k : kind1) (n : nat) : grid1 :=
  match k with Periodic => MkGrid1 Periodic n 0 (2 * PI) | Regular => MkGrid1 Regular n 0 PI | Chebyshev => MkGrid1 Chebyshev n (-1) 1 end.
(** grid2.py:146-147 [Grid_2D.periodic], grid2.py:150-151 [Grid_2D.regular], grid2.py:154-155 [Grid_2D.chebyshev] *)
Definition square (close : C -> C -> bool) (k : kind1) (N M : nat) : res grid2 := product close (default1 k N) (default1 k M).
(** grid2.py:158-159 [Grid_2D.points] *)
Definition points2 (gx gy : grid1) : res (arr R * arr R) :=
  bind (cells_of gx) (fun sx => bind (points sx) (fun px => bind (cells_of gy) (fun sy => bind (points sy) (fun py => Ok (meshgrid px py))))).
(** the tuple of all entries of a table: grid2.py:185-193 [Grid_2D.projection] (of Pn), grid2.py:203-211 [Grid_2D.hodge_star] *)
Definition six {V} (T : table V) : res (V * V * V * V * V * V) :=
  bind (tget T (0, true)) (fun a => bind (tget T (1, true)) (fun b => bind (tget T (2, true)) (fun c =>
  bind (tget T (0, false)) (fun d => bind (tget T (1, false)) (fun e => bind (tget T (2, false)) (fun f => Ok (a, b, c, d, e, f))))))).
Definition projection2 (G : grid2) := six (g2Pn G).
Definition hodge_star2 (G : grid2) := six (g2H G).
(** grid2.py:195-201 [Grid_2D.derivative] *)
Definition derivative2 (G : grid2) : res (op1 * op1 * op1 * op1) :=
  bind (tget (g2D G) (0, true)) (fun a => bind (tget (g2D G) (1, true)) (fun b =>
  bind (tget (g2D G) (0, false)) (fun d => bind (tget (g2D G) (1, false)) (fun e => Ok (a, b, d, e))))).
(** grid2.py:213-221 [Grid_2D.basis_fn]: [B[d, t](i) for i in range(N[d, t])] *)
Definition bfun2 := R -> R -> option (list R).
Definition basis_list (G : grid2) (k : key) : res (list bfun2) :=
  bind (tget (g2B G) k) (fun B => bind (tget (g2N G) k) (fun n => mapM (fun i => B (Z.of_nat i)) (seq 0 n))).
Definition basis_fn2 (G : grid2) : res (list (list bfun2)) :=
  mapM (basis_list G) [(0, true); (1, true); (2, true); (0, false); (1, false); (2, false)].
(** spectral.py:665-673 [reconstruction] for functions of two variables with values in arrays; a[i] raises IndexError *)
Definition recon2 (B : list bfun2) (a : list R) (x y : R) : res (option (list R)) :=
  if Nat.ltb (length a) (length B) then Err IndexError
  else Ok (match all_some (map (fun i => match nth i B (fun _ _ => None) x y with
             Some v => Some (map (Rmult (nth i a 0%R)) v) | None => None end) (seq 0 (length B))) with
           | Some l => Some (vsum l) | None => None end).
(** grid2.py:223-225 [Grid_2D.reconstruction]; the list of functions, in the order of the tuple *)
Definition reconstruction2 (G : grid2) : res (list (list R -> R -> R -> res (option (list R)))) :=
  bind (basis_fn2 G) (fun l => Ok (map recon2 l)).
(** grid1.py:82-88 [Grid_1D.projection] of common.py:23-32 [projection] *)
Definition projection1 (c : cells1) : list ((R -> R) -> list R) := [P0 c; P1 c; P0d c; P1d c].
(** grid1.py:98-100 [Grid_1D.reconstruction] *)
Definition reconstruction1 (g : grid1) : list (list R -> R -> option R) :=
  let r d t := R_form (basis_of (kd g) (sz g)) (grid_N (kd g) (sz g)) d t in [r 0 true; r 1 true; r 0 false; r 1 false].

(** a symbolic form given by its degree and its components as functions, see Model/Discretise.v for expressions.
    grid2.py:248-252 [Grid_2D.Pn], grid2.py:254-260 [Grid_2D.BC] on the grid with reference r *)
Definition grid_Pn (G : grid2) (r d : nat) (w : sym) (t : bool) : res decform :=
  bind (tget (g2Pn G) (d, t)) (fun P => bind (P w) (fun a => Ok (MkForm d t r a))).
Definition grid_BC (G : grid2) (r d : nat) (w : sym) : res decform :=
  bind (tget (g2BC G) (d + 1, false)) (fun BC => bind (BC w) (fun a => Ok (MkForm (d + 1) false r a))).
(** grid1.py:67-71 [Grid_1D.rand], grid2.py:236-240 [Grid_2D.rand]: numpy.random.rand(n) gives some array [rng n] of n numbers *)
Definition grid_rand {X} (heap : nat -> grid X) (r d : nat) (t : bool) (rng : nat -> list R) : res decform :=
  bind (tget (gN (heap r)) (d, t)) (fun n => Ok (MkForm d t r (rng n))).
