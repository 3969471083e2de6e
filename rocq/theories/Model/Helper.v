(** Model of dec/helper.py (to_matrix, to_matrix_by_index, sparse_diag, sparse_matrix, apply_map, bndry_with_zeros,
    interweave, is_equidistant), of dec/schur.py, and of the refinements of integer arrays. *)
From Coq Require Import ZArith Reals List Arith Bool.
From Verif Require Import Model.Sym.
From Coquelicot Require Import Coquelicot.
From Verif Require Import Model.Num Model.Np Model.Spectral Model.Basis Model.Grids1 Model.Chebyshev Model.Common Model.Decform Model.Grid2.
Import ListNotations.
Local Open Scope nat_scope.

(** ** Rounding.  numpy.rint: to the nearest integer, halves to the even one *)
Definition floor (x : R) : Z := (up x - 1)%Z.
Definition rint (x : R) : Z :=
  let n := floor x in
  if Rlt_dec (x - IZR n) (1/2) then n
  else if Rlt_dec (1/2) (x - IZR n) then (n + 1)%Z
  else if Z.even n then n else (n + 1)%Z.
(** numpy.round_(x, k) is rint(x * 10**k) / 10**k: two rounded numbers are equal when the integers are *)
Definition rounded (k : nat) (x : R) : Z := rint (x * 10 ^ k).
(** helper.py:31-35 [approx] on two real numbers *)
Definition approx (a b : R) : bool := Z.eqb (rounded 10 a) (rounded 10 b).
(** helper.py:228-236 [is_equidistant]; d[0] raises IndexError when there are fewer than two points *)
Definition is_equidistant (x : list R) : res bool :=
  match diff x with
  | [] => Err IndexError
  | d0 :: _ => Ok (forallb (fun d => Z.eqb (rounded 8 d) (rounded 8 d0)) (diff x))
  end.

(** ** Matrices.  numpy.eye(N)[i] *)
Definition eye_row (N i : nat) : list R := tab N (fun k => if Nat.eqb k i then 1%R else 0%R).
(** M.dot(x) for a matrix and a vector; ValueError when the sizes differ *)
Definition dot {A} `{Num A} (M : arr A) (x : list A) : res (list A) :=
  if Nat.eqb (nc M) (length x) then Ok (tab (nr M) (fun i => bsum (nc M) (fun j => nmul (at2 M i j) (nth j x nzero))))
  else Err ValueError.
(** the matrix [to_matrix] returns has real or complex entries *)
Inductive matrix := MReal (M : arr R) | MCplx (M : arr C).
(** helper.py:37-53 [to_matrix].  f is called on the rows of eye(N) and returns a one-dimensional real or complex
    array; vstack raises ValueError when there is none and when the lengths differ.  real(M) and M agree
    after rounding to 10 decimals when the imaginary parts round to zero *)
Definition to_matrix (f : list R -> res (list C)) (N : nat) : res matrix :=
  bind (mapM f (map (eye_row N) (seq 0 N))) (fun L => bind (stack L) (fun V =>
    let M := transpose V in
    Ok (if forallb (fun z => Z.eqb (rounded 10 (Im z)) 0) (dat M)
        then MReal (MkArr (nr M) (nc M) (map Re (dat M))) else MCplx M))).
(** helper.py:55-67 [to_matrix_by_index] *)
Definition to_matrix_by_index (f : nat -> nat -> R) (N : nat) : arr R := mk2 N N f.
(** a csr_matrix built from triplets (row, column, value): ValueError when a row or a column is out of
    range; the dense matrix adds the values at equal positions *)
Definition csr_matrix (t : list (nat * nat * R)) (N M : nat) : res (arr R) :=
  if forallb (fun e => let '(r, c, _) := e in Nat.ltb r N && Nat.ltb c M) t
  then Ok (mk2 N M (fun i j => fold_left (fun acc e => let '(r, c, v) := e in
         if (Nat.eqb r i && Nat.eqb c j)%bool then (acc + v)%R else acc) t 0%R))
  else Err ValueError.
(** helper.py:69-81 [sparse_diag] *)
Definition sparse_diag (x : list R) : res (arr R) :=
  let N := length x in csr_matrix (combine (combine (seq 0 N) (seq 0 N)) x) N N.
(** helper.py:83-94 [sparse_matrix] *)
Definition sparse_matrix (ijk : list (nat * nat * R)) (N M : nat) : res (arr R) := csr_matrix ijk N M.

(** ** helper.py:163-173 [apply_map]; the shape of [faces] is kept, [data] is its flat contents.
    Position of index k in an array of n entries: negative indices count from the end *)
Definition index_of (n : nat) (k : Z) : res nat :=
  if ((0 <=? k) && (k <? Z.of_nat n))%Z%bool then Ok (Z.to_nat k)
  else if ((- Z.of_nat n <=? k) && (k <? 0))%Z%bool then Ok (Z.to_nat (Z.of_nat n + k)) else Err IndexError.
Fixpoint set_at {A} (l : list A) (i : nat) (v : A) : list A :=
  match l, i with
  | [], _ => []
  | _ :: l', O => v :: l'
  | a :: l', S i' => a :: set_at l' i' v
  end.
(** mp[keys] = values *)
Fixpoint store (mp : list Z) (kv : list (Z * Z)) : res (list Z) :=
  match kv with
  | [] => Ok mp
  | (k, v) :: kv' => bind (index_of (length mp) k) (fun i => store (set_at mp i v) kv')
  end.
Definition apply_map (data : list Z) (identify : list (Z * Z)) : res (list Z) :=
  match data with
  | [] => Err ValueError
  | d :: data' =>
    let m := fold_left Z.max data' d in
    bind (store (map Z.of_nat (seq 0 (Z.to_nat (m + 1)))) identify) (fun mp =>
    mapM (fun k => bind (index_of (length mp) k) (fun i => Ok (nth i mp 0%Z))) data)
  end.

(** ** helper.py:175-193 [bndry_with_zeros] on arrays with one axis, and with two (axis = 0, axis = -1) *)
Definition pad0 {A} `{Num A} (x : list A) : list A := [nzero] ++ x ++ [nzero].
Definition bndry_with_zeros1 {A} `{Num A} (a : list A) : list A := pad0 a.
Definition bndry_with_zeros2 {A} `{Num A} (axis0 : bool) (a : arr A) : res (arr A) :=
  (if axis0 then along0 else along1) (fun x => Ok (pad0 x)) a.

(** ** helper.py:195-226 [interweave] on arrays with two axes.  c[0::2] = x: the sizes agree or x has one entry *)
Definition fit {A} (slots : nat) (x : list A) : res (list A) :=
  if Nat.eqb (length x) slots then Ok x else match x with [v] => Ok (repeat v slots) | _ => Err ValueError end.
Definition interweave_flat {A} (size : nat) (a b : list A) : res (list A) :=
  bind (fit ((size + 1) / 2) a) (fun a' => bind (fit (size / 2) b) (fun b' => Ok (weave a' b'))).
Definition interweave_last {A} (a b : arr A) : res (arr A) :=
  bind (interweave_flat (nr a * (nc a + nc b)) (dat a) (dat b)) (fun c => Ok (MkArr (nr a) (nc a + nc b) c)).
Definition interweave2 {A} `{Num A} (axis0 : bool) (a b : arr A) : res (arr A) :=
  if axis0 then bind (interweave_last (transpose a) (transpose b)) (fun c => Ok (transpose c)) else interweave_last a b.

(** ** Arrays of integers and arrays of floats (dtype int64 or float64).  A float stored in an array of integers is
    truncated towards zero *)
Inductive nda := AInt (l : list Z) | AFlt (l : list R).
Definition floats (a : nda) : list R := match a with AInt l => map IZR l | AFlt l => l end.
Definition trunc (x : R) : Z := if Rlt_dec x 0 then (- floor (- x))%Z else floor x.
Definition ints (a : nda) : list Z := match a with AInt l => l | AFlt l => map trunc l end.
(** helper.py:195-226 [interweave]: c = empty(shape, dtype=b.dtype) *)
Definition interweave_nd (a b : nda) : res nda :=
  match b with
  | AInt lb => bind (interweave (ints a) lb) (fun c => Ok (AInt c))
  | AFlt lb => bind (interweave (floats a) lb) (fun c => Ok (AFlt c))
  end.
(** the operators of numpy.fft return floats whatever the dtype of their argument *)
Definition flt (o : op1) (f : nda) : res nda := bind (o (floats f)) (fun g => Ok (AFlt g)).
(** periodic.py:64-83 [to_refine] *)
Definition T0_nd (f : nda) : res nda := bind (flt (spec opS) f) (fun s => interweave_nd f s).
Definition T0d_nd (f : nda) : res nda := bind (flt (spec opSinv) f) (fun s => interweave_nd s f).
Definition T1_nd (f : nda) : res nda := bind (flt (spec opHinv) f) T0d_nd.
Definition T1d_nd (f : nda) : res nda := bind (flt (spec opHinv) f) T0_nd.
(** chebyshev.py:65-84 [to_refine] *)
Definition T0_cheb_nd (f : nda) : res nda := bind (flt S_cheb f) (fun s => interweave_nd f s).
Definition T0d_cheb_nd (f : nda) : res nda := bind (flt S_cheb_pinv f) (fun s => interweave_nd s f).
Definition T1_cheb_nd close (f : nda) : res nda := bind (flt (H1_cheb close) f) T0d_cheb_nd.
Definition T1d_cheb_nd (f : nda) : res nda := bind (flt H1d_cheb f) T0_cheb_nd.

(** ** dec/schur.py.  numpy.linalg.inv is a parameter; vectors have one axis *)
Section Schur.
Variable inv : arr R -> res (arr R).
(** schur.py:6-31 [schur]; [array(rows).T], which for no rows is array([]) of shape (0,); its difference with D of shape
    (0, 0) has shape (0, 0) *)
Definition columns (m : nat) (L : list (list R)) : res (arr R) :=
  match L with [] => Ok (mk2 m 0 (fun _ _ => 0%R)) | _ => bind (stack L) (fun V => Ok (transpose V)) end.
Definition col (B : arr R) (j : nat) : list R := tab (nr B) (fun i => at2 B i j).
Definition minv (Sinv : arr R) (Ainv : list R -> list R) (B C : list R -> res (list R)) (f g : list R) : res (list R * list R) :=
  bind (bind (C (Ainv f)) (fun u => np_bin Rminus u g)) (fun r => bind (dot Sinv r) (fun l =>
  bind (bind (B l) (fun u => np_bin Rminus f u)) (fun r => Ok (Ainv r, l)))).
Definition schur (Ainv : list R -> list R) (B C D : arr R) : res (list R -> list R -> res (list R * list R)) :=
  let n := nr B in let m := nc B in
  if (Nat.eqb (nr C) m && Nat.eqb (nc C) n && (Nat.eqb (nr D) m && Nat.eqb (nc D) m))%bool then
    bind (mapM (fun j => dot C (Ainv (col B j))) (seq 0 m)) (fun L => bind (columns m L) (fun CAinvB =>
    bind (bin2 Rminus CAinvB D) (fun S => bind (inv S) (fun Sinv => Ok (minv Sinv Ainv (dot B) (dot C))))))
  else Err AssertionError.
(** schur.py:33-53 [schurλ]; for m = 0 both arrays have shape (0,) and numpy.linalg.inv of an array with one axis
    raises LinAlgError *)
Definition schur_fn (Ainv B C D : list R -> list R) (n m : nat) : res (list R -> list R -> res (list R * list R)) :=
  match m with
  | O => Err LinAlgError
  | _ =>
    bind (columns m (map (fun i => C (Ainv (B (eye_row m i)))) (seq 0 m))) (fun CAinvB =>
    bind (columns m (map (fun i => D (eye_row m i)) (seq 0 m))) (fun D' =>
    bind (bin2 Rminus CAinvB D') (fun S => bind (inv S) (fun Sinv =>
    Ok (minv Sinv Ainv (fun x => Ok (B x)) (fun x => Ok (C x)))))))
  end.
End Schur.
