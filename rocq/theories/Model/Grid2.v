(** Model of dec/grid2.py: two-dimensional product grids. *)
From Coq Require Import ZArith Reals List Arith Bool.
From Verif Require Import Model.Sym.
From Coquelicot Require Import Coquelicot.
From Verif Require Import Model.Num Model.Np Model.Spectral Model.Basis Model.Grids1 Model.Common Model.Decform.
Import ListNotations.
Local Open Scope nat_scope.

(** ** numpy arrays with two axes, stored in C order: entry [i, j] of an array of shape (nr, nc) is
    number i*nc + j of [dat] *)
Record arr (A : Type) := MkArr { nr : nat; nc : nat; dat : list A }.
Arguments MkArr {A}. Arguments nr {A}. Arguments nc {A}. Arguments dat {A}.
Definition at2 {A} `{Num A} (x : arr A) (i j : nat) : A := nth (i * nc x + j) (dat x) nzero.
Definition mk2 {A} (r c : nat) (f : nat -> nat -> A) : arr A := MkArr r c (tab (r * c) (fun k => f (k / c) (k mod c))).
Definition row {A} `{Num A} (x : arr A) (i : nat) : list A := tab (nc x) (fun j => at2 x i j).
Definition transpose {A} `{Num A} (x : arr A) : arr A := mk2 (nc x) (nr x) (fun i j => at2 x j i).
(** numpy.meshgrid(X, Y) *)
Definition meshgrid (X Y : list R) : arr R * arr R :=
  (mk2 (length Y) (length X) (fun i j => nth j X 0%R), mk2 (length Y) (length X) (fun i j => nth i Y 0%R)).
(** elementwise operations on arrays of one shape; numpy broadcasts or raises on other shapes, which
    cannot happen below, where the operands always have the same shape: modelled as ValueError *)
Definition same_shape {A B} (x : arr A) (y : arr B) : bool := Nat.eqb (nr x) (nr y) && Nat.eqb (nc x) (nc y).
Definition bin2 {A} (op : A -> A -> A) (x y : arr A) : res (arr A) :=
  if same_shape x y then Ok (MkArr (nr x) (nc x) (zipw op (dat x) (dat y))) else Err ValueError.
Definition neg2 {A} `{Num A} (x : arr A) : arr A := MkArr (nr x) (nc x) (map nopp (dat x)).

(** numpy.apply_along_axis(h, 1, x): ValueError when there is no row; h is called on every row, and the
    results must have one length (the model calls h on all rows before comparing the lengths) *)
Fixpoint mapM {A B} (h : A -> res B) (l : list A) : res (list B) :=
  match l with [] => Ok [] | a :: l' => bind (h a) (fun b => bind (mapM h l') (fun r => Ok (b :: r))) end.
Definition stack {A} (L : list (list A)) : res (arr A) :=
  match L with
  | [] => Err ValueError
  | r :: _ => if forallb (fun s => Nat.eqb (length s) (length r)) L
              then Ok (MkArr (length L) (length r) (concat L)) else Err ValueError
  end.
(** grid2.py:119-127 [apply_operators]: numpy.apply_along_axis(h, axis, x) for axis 1 and 0 *)
Definition along1 {A} `{Num A} (h : list A -> res (list A)) (x : arr A) : res (arr A) :=
  bind (mapM h (map (row x) (seq 0 (nr x)))) stack.
(** numpy.apply_along_axis(h, 0, x) *)
Definition along0 {A} `{Num A} (h : list A -> res (list A)) (x : arr A) : res (arr A) :=
  bind (along1 h (transpose x)) (fun y => Ok (transpose y)).

(** ** Shapes and blocks: an array of shape (r, c), or a tuple of arrays; [BInt]: the int 0 *)
Inductive shp := SInt (r c : nat) | STup (l : list (nat * nat)).
Inductive blk (A : Type) := BArr (a : arr A) | BTup (l : list (arr A)) | BInt.
Arguments BArr {A}. Arguments BTup {A}. Arguments BInt {A}.

(** grid2.py:70-76 [cumul_index] *)
Fixpoint cumul_from (acc : nat) (l : list (nat * nat)) : list nat :=
  match l with [] => [] | (r, c) :: l' => let s := (acc + r * c)%nat in s :: cumul_from s l' end.
Definition cumul_index (l : list (nat * nat)) : list nat := cumul_from 0 l.

(** numpy.split(x, idx): x[0:i0], x[i0:i1], ..., x[ik:] *)
Fixpoint np_split {A} (x : list A) (start : nat) (idx : list nat) : list (list A) :=
  match idx with
  | [] => [skipn start x]
  | i :: idx' => skipn start (firstn i x) :: np_split x i idx'
  end.
(** x.reshape((r, c)) of a flat array *)
Definition reshape1 {A} (x : list A) (s : nat * nat) : res (arr A) :=
  if Nat.eqb (length x) (fst s * snd s) then Ok (MkArr (fst s) (snd s) x) else Err ValueError.
(** grid2.py:101-117 [reshape]; shape[0] of the empty tuple raises IndexError *)
Definition reshape {A} (x : list A) (s : shp) : res (blk A) :=
  match s with
  | SInt r c => bind (reshape1 x (r, c)) (fun a => Ok (BArr a))
  | STup [] => Err IndexError
  | STup l => bind (mapM (fun p => reshape1 (fst p) (snd p)) (combine (np_split x 0 (removelast (cumul_index l))) l))
                   (fun t => Ok (BTup t))
  end.
(** grid2.py:78-99 [unshape]; concatenate of no arrays raises ValueError *)
Definition shape_of {A} (a : arr A) : nat * nat := (nr a, nc a).
Definition unshape {A} (X : blk A) : res (list A * shp) :=
  match X with
  | BArr a => Ok (dat a, SInt (nr a) (nc a))
  | BTup [] => Err ValueError
  | BTup l => Ok (concat (map dat l), STup (map shape_of l))
  | BInt => Err TypeError
  end.
(** grid2.py:19-38 [arange2] *)
Definition arange2 (s : shp) : res (blk Z) :=
  let n := last (cumul_index (match s with SInt r c => [(r, c)] | STup l => l end)) 0%nat in
  match s with STup [] => Err IndexError | _ => reshape (map Z.of_nat (seq 0 n)) s end.
(** numpy.unravel_index(i, (r, c)) *)
Definition unravel_index (i : Z) (s : nat * nat) : res (nat * nat) :=
  if ((0 <=? i) && (i <? Z.of_nat (fst s * snd s)))%Z%bool
  then Ok (Z.to_nat i / snd s, Z.to_nat i mod snd s)%nat else Err ValueError.
(** grid2.py:40-58 [unravel_idx] *)
Fixpoint unravel_from (i : Z) (k a : nat) (l : list (nat * nat)) : res (nat * (nat * nat)) :=
  match l with
  | [] => Err ValueError
  | (r, c) :: l' =>
    let b := (a + r * c)%nat in
    if ((Z.of_nat a <=? i) && (i <? Z.of_nat b))%Z%bool
    then bind (unravel_index (i - Z.of_nat a) (r, c)) (fun ij => Ok (k, ij))
    else unravel_from i (S k) b l'
  end.
Definition unravel_idx (i : Z) (l : list (nat * nat)) : res (nat * (nat * nat)) := unravel_from i 0 0 l.
(** grid2.py:60-68 [cartesian_product] *)
Definition cartesian_product (X Y : list R) : list R * list R := let (x, y) := meshgrid X Y in (dat x, dat y).

(** ** The one-dimensional factors: kind, number of points, extent (Grid_1D.periodic(n, xmin, xmax), ...) *)
Record grid1 := MkGrid1 { kd : kind1; sz : nat; lo : R; hi : R }.
Definition cells_of (g : grid1) : res cells1 := make_cells (kd g) (sz g) (lo g) (hi g).
Definition v1 (c : cells1) (t : bool) : list R := if t then verts c else verts_dual c.
Definition e1 (c : cells1) (t : bool) : list R * list R := if t then edges c else edges_dual c.
(** g.dec.D[0, t] *)
Definition d1 (k : kind1) (t : bool) : op1 := fun f => Ok (if t then grid_D0 k f else grid_D0d k f).

(** ** Cells: grid2.py:412-444 [product_cells]; the arrays y and x of [edges] are assigned twice and the
    second assignment is what is returned *)
Record cells2 := MkCells2 {
  c0 : bool -> arr R * arr R;
  c1 : bool -> ((arr R * arr R) * arr R) * (arr R * (arr R * arr R));
  c2 : bool -> (arr R * arr R) * (arr R * arr R) }.
Definition product_cells (sx sy : cells1) : cells2 :=
  MkCells2
    (fun t => meshgrid (v1 sx t) (v1 sy t))
    (fun t => let vx := v1 sx t in let vy := v1 sy t in let ex := e1 sx t in let ey := e1 sy t in
       (((fst (meshgrid (fst ex) vy), fst (meshgrid (snd ex) vy)), snd (meshgrid (snd ex) vy)),
        (fst (meshgrid vx (snd ey)), (snd (meshgrid vx (fst ey)), snd (meshgrid vx (snd ey))))))
    (fun t => let ex := e1 sx t in let ey := e1 sy t in
       (meshgrid (fst ex) (fst ey), meshgrid (snd ex) (snd ey))).

(** grid2.py:649-681 [flatten_cells]; get_f(k) stores the shape of the array it is applied to, so shape[k]
    is the shape of the last array of the [map] *)
Record fcells := MkFCells {
  f0 : bool -> list R * list R;
  f1 : bool -> (list R * list R) * (list R * list R);
  f2 : bool -> (list R * list R) * (list R * list R) * (list R * list R) * (list R * list R) }.
Definition flat2 {A} (x y : arr A) : list A := dat x ++ dat y.
Definition flatten_cells (c : cells2) : fcells * table shp :=
  (MkFCells
    (fun t => let (x, y) := c0 c t in (dat x, dat y))
    (fun t => let '(((x0, x1), y), (x, (y0, y1))) := c1 c t in
       ((flat2 x0 x, flat2 y y0), (flat2 x1 x, flat2 y y1)))
    (fun t => let '((x0, y0), (x1, y1)) := c2 c t in
       ((dat x0, dat y0), (dat x1, dat y0), (dat x1, dat y1), (dat x0, dat y1))),
   flat_map (fun t =>
     [((0, t), let (x, y) := c0 c t in SInt (nr y) (nc y));
      ((1, t), let '(((x0, x1), y), (x, (y0, y1))) := c1 c t in STup [shape_of y; shape_of y1]);
      ((2, t), let '((x0, y0), (x1, y1)) := c2 c t in SInt (nr y1) (nc y1))]) bools).
(** grid2.py:683-707 [countshape]; unpacking a shape of another form raises ValueError or TypeError *)
Definition count1 (e : key * shp) : res (key * nat) :=
  match fst e, snd e with
  | (1, t), STup [(a, b); (c, d)] => Ok ((1, t), a * b + c * d)
  | (1, t), _ => Err TypeError
  | (d, t), SInt a b => Ok ((d, t), a * b)
  | _, STup _ => Err TypeError
  end.
Definition countshape (s : table shp) : res (table nat) := mapM count1 s.

(** ** Operators on blocks.  get_arr, get_comp: using a block as an array, as a tuple of two *)
Definition get_arr {A} (b : blk A) : res (arr A) := match b with BArr a => Ok a | _ => Err TypeError end.
Definition get_pair {A} (b : blk A) : res (arr A * arr A) := match b with BTup [x; y] => Ok (x, y) | _ => Err TypeError end.
Definition bop1 := blk R -> res (blk R).
Definition table6 {V} (v : nat -> bool -> V) : table V :=
  [((0, true), v 0 true); ((1, true), v 1 true); ((2, true), v 2 true);
   ((0, false), v 0 false); ((1, false), v 1 false); ((2, false), v 2 false)].

(** grid2.py:326-349 [derivative] *)
Definition D2_0 (dx dy : op1) : bop1 := fun f => bind (get_arr f) (fun f =>
  bind (along1 dx f) (fun a => bind (along0 dy f) (fun b => Ok (BTup [a; b])))).
Definition D2_1 (dx dy : op1) : bop1 := fun f => bind (get_pair f) (fun f =>
  bind (along0 dy (fst f)) (fun a => bind (along1 dx (snd f)) (fun b =>
  bind (bin2 Rplus (neg2 a) b) (fun c => Ok (BArr c))))).
Definition derivative (dx dy : bool -> op1) : table bop1 :=
  table6 (fun d t => match d with 0 => D2_0 (dx t) (dy t) | 1 => D2_1 (dx t) (dy t) | _ => fun _ => Ok BInt end).

(** grid2.py:351-378 [hodge_star]; H0x = h[0, t] along axis 1, H1y = h[1, t] along axis 0, ... *)
Definition H2_0 (h0x h0y : op1) : bop1 := fun f => bind (get_arr f) (fun f =>
  bind (along0 h0y f) (fun g => bind (along1 h0x g) (fun r => Ok (BArr r)))).
Definition H2_1 (h0x h1x h0y h1y : op1) : bop1 := fun f => bind (get_pair f) (fun f =>
  bind (along0 h1y (snd f)) (fun a => bind (along1 h0x a) (fun a =>
  bind (along1 h1x (fst f)) (fun b => bind (along0 h0y b) (fun b => Ok (BTup [neg2 a; b])))))).
Definition hodge_star (hx hy : table op1) : res (table bop1) :=
  bind (tget hx (0, true)) (fun H0x => bind (tget hx (1, true)) (fun H1x =>
  bind (tget hx (0, false)) (fun H0dx => bind (tget hx (1, false)) (fun H1dx =>
  bind (tget hy (0, true)) (fun H0y => bind (tget hy (1, true)) (fun H1y =>
  bind (tget hy (0, false)) (fun H0dy => bind (tget hy (1, false)) (fun H1dy =>
  Ok (table6 (fun d t => match d, t with
    | 0, true => H2_0 H0x H0y | 1, true => H2_1 H0x H1x H0y H1y | _, true => H2_0 H1x H1y
    | 0, false => H2_0 H0dx H0dy | 1, false => H2_1 H0dx H1dx H0dy H1dy | _, false => H2_0 H1dx H1dy
    end)))))))))).

(** grid2.py:380-394 [to_refine]; Tx[d, t] is looked up when the operator is called *)
Definition tyx (y x : table op1) (dy dx : nat) (t : bool) (f : arr R) : res (arr R) :=
  bind (tget x (dx, t)) (fun tx => bind (along1 tx f) (fun g => bind (tget y (dy, t)) (fun ty => along0 ty g))).
Definition to_refine (tx ty : table op1) : table (blk R -> res (list (arr R))) :=
  table6 (fun d t f => match d with
    | 1 => bind (get_pair f) (fun f => bind (tyx ty tx 0 1 t (fst f)) (fun a => bind (tyx ty tx 1 0 t (snd f)) (fun b => Ok [a; b])))
    | _ => bind (get_arr f) (fun f => bind (tyx ty tx (d / 2) (d / 2) t f) (fun a => Ok [a]))
    end).
(** grid2.py:396-410 [from_refine] restricted to the lines 353-369; f[0], f[1] raise IndexError *)
Definition item {A} (l : list A) (i : nat) : res A := match nth_error l i with Some a => Ok a | None => Err IndexError end.
Definition from_refine (ux uy : table op1) : table (list (arr R) -> res (blk R)) :=
  table6 (fun d t f => match d with
    | 1 => bind (item f 0) (fun a => bind (tyx uy ux 0 1 t a) (fun a => bind (item f 1) (fun b => bind (tyx uy ux 1 0 t b) (fun b => Ok (BTup [a; b])))))
    | _ => bind (item f 0) (fun a => bind (tyx uy ux (d / 2) (d / 2) t a) (fun a => Ok (BArr a)))
    end).

(** ** Projections.  A symbolic form is given by its components, functions of x and y; sympy's integrals are
    the Riemann integrals (that [process] finds a closed form is assumed).
    grid2.py:455-491 [symprojection] with integrate.py:152-192 [integration_2d_regular] *)
Definition sym := list (R -> R -> R).
Definition map2a (f : R -> R -> R) (X Y : arr R) : arr R := MkArr (nr X) (nc X) (zipw f (dat X) (dat Y)).
Definition map3a (f : R -> R -> R -> R) (X Y Z : arr R) : arr R :=
  MkArr (nr X) (nc X) (zipw (fun p z => f (fst p) (snd p) z) (combine (dat X) (dat Y)) (dat Z)).
Definition map4a (f : R -> R -> R -> R -> R) (X Y Z W : arr R) : arr R :=
  MkArr (nr X) (nc X) (zipw (fun p q => f (fst p) (snd p) (fst q) (snd q)) (combine (dat X) (dat Y)) (combine (dat Z) (dat W))).
(** Ix(fx), Iy(fy), Ix(Iy(f)) *)
Definition Ix (f : R -> R -> R) (x0 x1 y : R) : R := RInt (fun x => f x y) x0 x1.
Definition Iy (f : R -> R -> R) (x y0 y1 : R) : R := RInt (fun y => f x y) y0 y1.
Definition Ixy (f : R -> R -> R) (x0 y0 x1 y1 : R) : R := RInt (fun x => RInt (fun y => f x y) y0 y1) x0 x1.
Definition one_comp (s : sym) : res (R -> R -> R) := match s with [f] => Ok f | _ => Err ValueError end.
Definition two_comps (s : sym) : res ((R -> R -> R) * (R -> R -> R)) := match s with [f; g] => Ok (f, g) | _ => Err ValueError end.
Definition symprojection (c : cells2) : table (sym -> res (blk R)) :=
  table6 (fun d t s => match d with
    | 0 => bind (one_comp s) (fun f => let (X, Y) := c0 c t in Ok (BArr (map2a f X Y)))
    | 1 => bind (two_comps s) (fun f => let '(((X0, X1), Y), (X, (Y0, Y1))) := c1 c t in
             Ok (BTup [map3a (Ix (fst f)) X0 X1 Y; map3a (Iy (snd f)) X Y0 Y1]))
    | _ => bind (one_comp s) (fun f => let '((X0, Y0), (X1, Y1)) := c2 c t in Ok (BArr (map4a (Ixy f) X0 Y0 X1 Y1)))
    end).
(** grid2.py:493-531 [numprojection] with integrate.py:250-280 [n_integration_2d_regular], for a callable
    f; dblquad(f, y0, y1, x0, x1) integrates f(x, y) over x first *)
Definition Iyx (f : R -> R -> R) (x0 y0 x1 y1 : R) : R := RInt (fun y => RInt (fun x => f x y) x0 x1) y0 y1.
Definition numprojection (c : cells2) : table (sym -> res (blk R)) :=
  table6 (fun d t s => match d with
    | 0 => bind (one_comp s) (fun f => let (X, Y) := c0 c t in Ok (BArr (map2a f X Y)))
    | 1 => bind (two_comps s) (fun f => let '(((X0, X1), Y), (X, (Y0, Y1))) := c1 c t in
             Ok (BTup [map3a (Ix (fst f)) X0 X1 Y; map3a (Iy (snd f)) X Y0 Y1]))
    | _ => bind (one_comp s) (fun f => let '((X0, Y0), (X1, Y1)) := c2 c t in Ok (BArr (map4a (Iyx f) X0 Y0 X1 Y1)))
    end).

(** grid2.py:578-625 [symboundary]: beta[m] -= v only changes the entries where the mask m holds *)
Definition Reqb (x y : R) : bool := if Req_EM_T x y then true else false.
Definition when (b : bool) (v : R) : R := if b then v else 0%R.
Definition symboundary (c : cells2) (xmin xmax ymin ymax : R) : table (sym -> res (blk R)) :=
  [((1, false), fun s => bind (one_comp s) (fun f => let '(((X0, X1), Y), (X, (Y0, Y1))) := c1 c false in
      Ok (BTup [map3a (fun x0 x1 y => 0 - when (Reqb x0 xmin) (f x0 y) + when (Reqb x1 xmax) (f x1 y))%R X0 X1 Y;
                map3a (fun x y0 y1 => 0 - when (Reqb y0 ymin) (f x y0) + when (Reqb y1 ymax) (f x y1))%R X Y0 Y1])));
   ((2, false), fun s => bind (two_comps s) (fun f => let '((X0, Y0), (X1, Y1)) := c2 c false in
      Ok (BArr (map4a (fun x0 y0 x1 y1 =>
        0 + when (Reqb y0 ymin) (Ix (fst f) x0 x1 y0) + when (Reqb x1 xmax) (Iy (snd f) x1 y0 y1)
          + when (Reqb y1 ymax) (Ix (fst f) x1 x0 y1) + when (Reqb x0 xmin) (Iy (snd f) x0 y1 y0))%R X0 Y0 X1 Y1))))].

(** grid2.py:314-324 [basis_fn] (the function of that name at module level): B[d, t](j, i)(x, y) *)
Definition obin (op : R -> R -> R) (a b : option R) : option R := match a, b with Some a, Some b => Some (op a b) | _, _ => None end.
Definition basis := nat -> nat -> R -> R -> option (list R).
Definition bprod (bx by_ : nat -> R -> option R) (wrap : R -> list R) : basis :=
  fun j i x y => match obin Rmult (bx i x) (by_ j y) with Some v => Some (wrap v) | None => None end.
Definition basis2 (Bx By : nat -> bool -> nat -> R -> option R) (d : nat) (t : bool) : list basis :=
  match d with
  | 0 => [bprod (Bx 0 t) (By 0 t) (fun v => [v])]
  | 1 => [bprod (Bx 1 t) (By 0 t) (fun v => [v; 0%R]); bprod (Bx 0 t) (By 1 t) (fun v => [0%R; v])]
  | _ => [bprod (Bx 1 t) (By 1 t) (fun v => [v])]
  end.
(** grid2.py:739-752 [reshapeB] *)
Definition reshapeB1 (s : shp) (b : list basis) (i : Z) : res (R -> R -> option (list R)) :=
  match s with
  | STup l => bind (unravel_idx i l) (fun kij => bind (item b (fst kij)) (fun f => Ok (f (fst (snd kij)) (snd (snd kij)))))
  | SInt r c => bind (unravel_index i (r, c)) (fun ij => bind (item b 0) (fun f => Ok (f (fst ij) (snd ij))))
  end.

(** ** Flattening: grid2.py:754-762 [reshapeT] *)
Definition reshapeT {Y} (s : table shp) (T : table (blk R -> res Y)) : table (list R -> res Y) :=
  map (fun e => (fst e, fun f => bind (tget s (fst e)) (fun s => bind (reshape f s) (snd e)))) T.
(** grid2.py:764-772 [reshapeU] *)
Definition reshapeU {X} (U : table (X -> res (blk R))) : table (X -> res (list R)) :=
  map (fun e => (fst e, fun f => bind (snd e f) (fun b => bind (unshape b) (fun r => Ok (fst r))))) U.
(** grid2.py:774-782 [reshapeO] *)
Definition reshapeO (s : table shp) (O : table bop1) : table op1 := reshapeU (reshapeT s O).

(** ** Wedge and contraction: grid2.py:805-828 [wedge] *)
#[export] Instance Arr2Ops : CompOps (res (arr R)) :=
  MkCompOps (res (arr R))
    (fun x y => bind x (fun a => bind y (bin2 Rmult a)))
    (fun x y => bind x (fun a => bind y (bin2 Rminus a)))
    (fun x y => bind x (fun a => bind y (bin2 Rplus a)))
    (fun x => bind x (fun a => Ok (neg2 a))).
Definition keys2 : list key := list_prod [0; 1; 2]%nat bools.
Definition refineT := table (list R -> res (list (arr R))).
Definition refineU := table (list (arr R) -> res (list R)).
Definition missing2 : res (arr R) := Err IndexError.
Definition get_w2 (T : refineT) (U : refineU) (d0 : nat) (p0 : bool) (d1 : nat) (p1 p2 : bool) : op2 := fun a b =>
  bind (tget T (d0, p0)) (fun t0 => bind (t0 a) (fun a =>
  bind (tget T (d1, p1)) (fun t1 => bind (t1 b) (fun b =>
  bind (match wget (wedge_2d missing2) d0 d1 with Some w => Ok w | None => Err KeyError end) (fun w =>
  bind (mapM (fun c => c) (w (map Ok a) (map Ok b))) (fun c =>
  bind (tget U (d0 + d1, p2)) (fun u => u c))))))).
Definition wedge2 (T : refineT) (U : refineU) : dict wkey op2 :=
  flat_map (fun k : wkey => let '((d0, p0), (d1, p1), p2) := k in
    if Nat.ltb 2 (d0 + d1) then []
    else if direct d0 p0 d1 p1 p2 then [(k, np_bin Rmult)]
    else [(k, get_w2 T U d0 p0 d1 p1 p2)])
  (list_prod (list_prod keys2 keys2) bools).
(** grid2.py:830-849 [contraction] *)
Definition get_c2 (T : refineT) (U : refineU) (p0 : bool) (d1 : nat) (p1 p2 : bool) : op2 := fun a b =>
  bind (tget T (1, p0)) (fun t0 => bind (t0 a) (fun a =>
  bind (tget T (d1, p1)) (fun t1 => bind (t1 b) (fun b =>
  bind (match nth_error (contraction_2d missing2) d1 with Some c => Ok c | None => Err IndexError end) (fun w =>
  bind (match w (map Ok a) (map Ok b) with Comps l => mapM (fun c => c) l | CZero => Err TypeError end) (fun c =>
  bind (tget U (d1 - 1, p2)) (fun u => u c))))))).
Definition contraction2 (T : refineT) (U : refineU) : dict ckey op2 :=
  flat_map (fun k : ckey => let '(p0, (d1, p1), p2) := k in
    if Nat.ltb d1 1 then [] else [(k, get_c2 T U p0 d1 p1 p2)])
  (list_prod (list_prod bools keys2) bools).

(** ** grid2.py:709-737 [cartesian_product_grids], grid2.py:784-801 [flatten_grid], grid2.py:141-143 [Grid_2D.product] *)
Record grid2 := MkGrid2 {
  g2cells : fcells; g2shape : table shp; g2N : table nat;
  g2P : table (sym -> res (list R)); g2Pn : table (sym -> res (list R)); g2BC : table (sym -> res (list R));
  g2B : table (Z -> res (R -> R -> option (list R)));
  g2D : table op1; g2H : table op1; g2W : dict wkey op2; g2C : dict ckey op2;
  g2T : refineT; g2U : refineU }.
Section Product.
Variable close : C -> C -> bool.
Definition product (gx gy : grid1) : res grid2 :=
  bind (cells_of gx) (fun sx => bind (cells_of gy) (fun sy =>
  let cells := product_cells sx sy in
  bind (hodge_star (Common.dH (dec_of close (kd gx))) (Common.dH (dec_of close (kd gy)))) (fun H =>
  let rx := refine_of close (kd gx) in let ry := refine_of close (kd gy) in
  let (fc, shape) := flatten_cells cells in
  bind (countshape shape) (fun N =>
  let T := reshapeT shape (to_refine (rT rx) (rT ry)) in
  let U := reshapeU (from_refine (rU rx) (rU ry)) in
  Ok (MkGrid2 fc shape N
    (reshapeU (symprojection cells)) (reshapeU (numprojection cells))
    (reshapeU (symboundary cells (lo gx) (hi gx) (lo gy) (hi gy)))
    (map (fun e => (fst e, reshapeB1 (snd e) (basis2 (basis_of (kd gx) (sz gx)) (basis_of (kd gy) (sz gy)) (fst (fst e)) (snd (fst e))))) shape)
    (reshapeO shape (derivative (d1 (kd gx)) (d1 (kd gy)))) (reshapeO shape H)
    (wedge2 T U) (contraction2 T U) T U))))).
End Product.
(** the attributes the forms of decform.py use *)
Definition grid_of2 (g : grid2) : grid (list (arr R)) :=
  MkGrid 2 (g2N g) (map (fun e => (fst e, fun f => bind (snd e f) (fun a => Ok (RArr a)))) (g2D g)) (g2H g)
    (Some (g2W g)) (Some (g2C g))
    (map (fun e => (fst e, fun i x => match x with [x; y] => match snd e (Z.of_nat i) with Ok b => b x y | Err _ => None end | _ => None end)) (g2B g))
    None (g2T g).
