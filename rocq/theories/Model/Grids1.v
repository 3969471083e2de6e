(** Model of the grid constructors of dec/periodic.py, dec/regular.py, dec/chebyshev.py, of the
    projections of dec/common.py and of the accessors of dec/grid1.py. *)
From Coq Require Import ZArith Reals List Lia.
From Coquelicot Require Import Coquelicot.
From Verif Require Import Model.Num Model.Np Model.Spectral Model.Basis.
Import ListNotations.
Local Open Scope R_scope.

(** The dictionaries [cells] and [Delta]: cells[0,True], cells[1,True], cells[0,False], cells[1,False],
    Delta[True], Delta[False]. *)
Record cells1 := MkCells {
  verts : list R; edges : list R * list R;
  verts_dual : list R; edges_dual : list R * list R;
  delta_p : list R; delta_d : list R }.

(** [edges_dual[0][0] -= lenx] *)
Definition sub_first (c : R) (l : list R) : list R :=
  match l with [] => [] | a :: l' => (a - c) :: l' end.

(** periodic.py:6-62 [make], lines 8-18 and 25-31: the cells *)
Definition periodic_cells (n : nat) (xmin xmax : R) : cells1 :=
  let pnts := linspace xmin xmax (n + 1) in
  let lenx := Rabs (xmax - xmin) in
  let delta := diff pnts in
  let vs := init pnts in
  let es := (init pnts, tl pnts) in
  let vd := vadd vs (map (Rmult (/2)) delta) in
  let ed := (sub_first lenx (roll 1 vd), vd) in
  MkCells vs es vd ed delta delta.

(** regular.py:6-65 [make]: assert xmax > xmin; the cells *)
Definition regular_cells (n : nat) (xmin xmax : R) : res cells1 :=
  if Rlt_dec xmin xmax then
    let pnts := linspace xmin xmax n in
    let delta := diff pnts in
    let vs := pnts in
    let vd := vadd (init vs) (map (Rmult (/2)) delta) in
    let es := (init pnts, tl pnts) in
    let tmp := [xmin] ++ vd ++ [xmax] in
    Ok (MkCells vs es vd (init tmp, tl tmp) delta (diff tmp))
  else Err AssertionError.

(** chebyshev.py:6-63 [make]: the cells; linspace raises ValueError for a negative number of points
    (n = 0) *)
Definition chebyshev_cells (n : nat) (xmin xmax : R) : res cells1 :=
  match n with
  | O => Err ValueError
  | _ =>
    let x := map sin (linspace (- PI / 2) (PI / 2) (2 * n - 1)) in
    let pnts := map (fun x => /2 * (xmin * (1 - x) + xmax * (1 + x))) x in
    let vs := evens pnts in
    let delta := diff vs in
    let es := (init vs, tl vs) in
    let vd := odds pnts in
    let tmp := [hd 0 pnts] ++ vd ++ [last pnts 0] in
    Ok (MkCells vs es vd (init tmp, tl tmp) delta (diff tmp))
  end.

(** The default extents: periodic.py:6, regular.py:6, chebyshev.py:6 *)
Definition periodic_default (n : nat) := periodic_cells n 0 (2 * PI).
Definition regular_default (n : nat) := regular_cells n 0 PI.
Definition chebyshev_default (n : nat) := chebyshev_cells n (-1) 1.

(** The sizes N[deg, isprimal] (periodic.py:20-23, regular.py:24-27, chebyshev.py:21-24). *)
Definition sizes_periodic (n deg : nat) (primal : bool) : nat := n.
Definition sizes_interval (n deg : nat) (primal : bool) : nat :=
  match deg, primal with
  | O, true => n | O, false => (n - 1)%nat
  | _, true => (n - 1)%nat | _, false => n
  end.

(** grid1.py:59-65 [points]: p = zeros(..); p[0::2] = verts; p[1::2] = verts_dual (ValueError when the
    lengths do not fit the strided stores; numpy would broadcast a length-1 array, which can only happen
    for sizes where the lengths fit anyway) *)
Definition points (c : cells1) : res (list R) :=
  let nv := length (verts c) in let nd := length (verts_dual c) in
  if (Nat.eqb nv ((nv + nd + 1) / 2) && Nat.eqb nd ((nv + nd) / 2))%bool
  then Ok (weave (verts c) (verts_dual c)) else Err ValueError.

(** grid1.py:76-80 [boundary_condition]; assignment order bc[0] then bc[-1]; n = 0 raises IndexError *)
Definition boundary_condition (n : nat) (xmin xmax : R) (f : R -> R) : res (list R) :=
  match n with
  | O => Err IndexError
  | S O => Ok [f xmax]
  | S (S k) => Ok ([- f xmin] ++ zeros k ++ [f xmax])
  end.

(** common.py:23-32 [projection] with integrate.py slow_integration (scipy quad per cell), quad being
    the exact Riemann integral *)
Definition proj0 {B} (vs : list R) (f : R -> B) : list B := map f vs.
Definition proj1 (es : list R * list R) (f : R -> R) : list R :=
  zipw (fun a b => RInt f a b) (fst es) (snd es).
Definition P0 {B} (c : cells1) (f : R -> B) := proj0 (verts c) f.
Definition P0d {B} (c : cells1) (f : R -> B) := proj0 (verts_dual c) f.
Definition P1 (c : cells1) (f : R -> R) := proj1 (edges c) f.
Definition P1d (c : cells1) (f : R -> R) := proj1 (edges_dual c) f.

(** The derivative tables.  periodic.py:38-41; D[1,*] = lambda f: 0 (the scalar 0) *)
Definition D0_periodic {A} `{Num A} (f : list A) : list A := vsub (roll (-1) f) f.
Definition D0d_periodic {A} `{Num A} (f : list A) : list A := roll 1 (D0_periodic f).
(** regular.py:42-45 and chebyshev.py:39-42 *)
Definition D0_interval {A} `{Num A} (f : list A) : list A := diff f.
Definition D0d_interval {A} `{Num A} (f : list A) : list A := diff ([nzero] ++ f ++ [nzero]).

(** periodic.py:124-139 [derivative_matrix]: triplets (row, column, value) of the sparse matrix D; the
    second matrix is -D.T.  csr_matrix sums duplicate entries. *)
Definition derivative_triplets (n : nat) : list (nat * nat * Z) :=
  combine (combine (seq 0 n) (roll (-1) (seq 0 n))) (repeat 1%Z n) ++
  combine (combine (seq 0 n) (seq 0 n)) (repeat (-1)%Z n).
Definition sparse_entry (t : list (nat * nat * Z)) (i j : nat) : Z :=
  fold_left (fun acc e => let '(r, c, v) := e in
     if (Nat.eqb r i && Nat.eqb c j)%bool then (acc + v)%Z else acc) t 0%Z.
Definition derivative_matrix (n : nat) : (nat -> nat -> Z) * (nat -> nat -> Z) :=
  let D := sparse_entry (derivative_triplets n) in (D, fun i j => (- D j i)%Z).

(** The basis functions (periodic.py:33-36, regular.py:37-40, chebyshev.py:34-37) *)
Definition somef (f : R -> R) (x : R) : option R := Some (f x).
Definition B_periodic (n deg : nat) (primal : bool) (i : nat) : R -> option R :=
  match deg, primal with
  | O, true => phi0 n i | O, false => phid0 n i
  | _, true => somef (phi1 n i) | _, false => somef (phid1 n i)
  end.
Definition B_regular (n deg : nat) (primal : bool) (i : nat) : R -> option R :=
  match deg, primal with
  | O, true => kappa0 n i | O, false => kappad0 n i
  | _, true => somef (kappa1_symm n i) | _, false => somef (kappad1_symm n i)
  end.
Definition B_chebyshev (n deg : nat) (primal : bool) (i : nat) : R -> option R :=
  match deg, primal with
  | O, true => psi0 n i | O, false => psid0 n i
  | _, true => psi1 n i | _, false => psid1 n i
  end.

(** grid1.py:90-96 [basis_fn] and grid1.py:98-100 [reconstruction] *)
Definition basis_fn (B : nat -> bool -> nat -> R -> option R) (sz : nat -> bool -> nat)
   (deg : nat) (primal : bool) : list (R -> option R) := map (B deg primal) (seq 0 (sz deg primal)).
Definition R_form (B : nat -> bool -> nat -> R -> option R) (sz : nat -> bool -> nat)
   (deg : nat) (primal : bool) (a : list R) : R -> option R := recon a (basis_fn B sz deg primal).

(** The Hodge stars of the periodic grid (periodic.py:43-46); [real] of an already real array *)
Definition H0_periodic (x : list R) : list R := opH x.
Definition H1_periodic (x : list R) : list R := opHinv x.
Definition H0d_periodic (x : list R) : list R := H0_periodic x.
Definition H1d_periodic (x : list R) : list R := H1_periodic x.

(** spectral.py:653-663 [hodge_star_matrix]: entry (i,j) of H0 is P1d(B0[j])[i], and so on *)
Definition hodge_star_matrix (c : cells1) (B0 B1 B0d B1d : list (R -> option R)) :
   list (list R) * list (list (option R)) * list (list R) * list (list (option R)) :=
  (map (fun b => P1d c (tot b)) B0, map (fun b => P0d c b) B1,
   map (fun b => P1 c (tot b)) B0d, map (fun b => P0 c b) B1d).

(** grid1.py:23-25: the three constructors [Grid_1D.periodic], [.regular], [.chebyshev] *)
Inductive kind1 : Set := Periodic | Regular | Chebyshev.
(** the cells and lengths of the grid (periodic.py:17 raises IndexError for n = 0: edges_dual[0][0]) *)
Definition make_cells (k : kind1) (n : nat) (xmin xmax : R) : res cells1 :=
  match k with
  | Periodic => match n with O => Err IndexError | _ => Ok (periodic_cells n xmin xmax) end
  | Regular => regular_cells n xmin xmax
  | Chebyshev => chebyshev_cells n xmin xmax
  end.
(** grid1.py:28-37 [Grid_1D.__init__]: g.N *)
Definition grid_N (k : kind1) (n deg : nat) (primal : bool) : nat :=
  match k with Periodic => sizes_periodic n deg primal | _ => sizes_interval n deg primal end.
(** g.dec.D[0, True] and g.dec.D[0, False] *)
Definition grid_D0 {A} `{Num A} (k : kind1) (f : list A) : list A :=
  match k with Periodic => D0_periodic f | _ => D0_interval f end.
Definition grid_D0d {A} `{Num A} (k : kind1) (f : list A) : list A :=
  match k with Periodic => D0d_periodic f | _ => D0d_interval f end.
