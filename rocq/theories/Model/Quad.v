(** Model of the quadrature functions of dec/spectral.py. *)
From Coq Require Import ZArith Reals List Arith Bool.
From Verif Require Import Model.Sym.
From Coquelicot Require Import Coquelicot.
From Verif Require Import Model.Num Model.Np Model.Spectral Model.Basis Model.Common Model.Helper.
Import ListNotations.
Local Open Scope R_scope.

Definition assert_ {A} (b : res bool) (k : res A) : res A := bind b (fun b => if b then k else Err AssertionError).
(** x[:-1] + 0.5*diff(x) *)
Definition midpoints (x : list R) : list R := zipw Rplus (init x) (map (Rmult (1 / 2)) (diff x)).
(** spectral.py:578-587 [subdivide] *)
Definition subdivide (x : list R) : res (list R) :=
  if Nat.ltb (length x) 2 then Ok x else
  assert_ (is_equidistant x)
    (bind (interweave (init x) (midpoints x)) (fun y => Ok (y ++ [last x 0]))).
(** spectral.py:589-598 [integrate_spectral_coarse]; f is called on an array and acts on its entries *)
Definition integrate_spectral_coarse (x : list R) (f : R -> R) : res (list R) :=
  assert_ (is_equidistant x)
  (assert_ (Ok (approx (2 * PI) (last x 0 - hd 0 x))) (spec opH (map f (midpoints x)))).
(** x[k::s] *)
Definition strided (k s : nat) (x : list R) : list R := tab ((length x - k + (s - 1)) / s) (fun i => nth (k + i * s) x 0).
(** spectral.py:600-611 [integrate_spectral] *)
Definition integrate_spectral (x : list R) (f : R -> R) : res (list R) :=
  assert_ (is_equidistant x)
  (bind (bind (bind (subdivide x) subdivide) subdivide) (fun y =>
   bind (integrate_spectral_coarse y f) (fun f1 =>
   let s k := strided k 8 f1 in
   fold_left (fun acc k => bind acc (fun a => np_bin Rplus a (s k))) [1; 2; 3; 4; 5; 6; 7]%nat (Ok (s 0%nat))))).
(** spectral.py:613-627 [integrate_chebyshev]; the points lie in [-1, 1] *)
Definition integrate_chebyshev (xi : list R) (f : R -> R) : res (list R) :=
  match xi with
  | [] => Err IndexError
  | _ =>
    assert_ (Ok (approx 2 (last xi 0 - hd 0 xi)))
    (let F theta := f (- cos theta) * sin theta in
     let x := map varphi xi in
     assert_ (is_equidistant x)
     (bind (integrate_spectral (x ++ map (fun t => t + PI) (tl x)) F) (fun r => Ok (firstn (length xi - 1) r))))
  end.
(** spectral.py:629-638 [integrate_chebyshev_dual]; reshape(-1, 2) raises ValueError when the number of entries is odd *)
Definition integrate_chebyshev_dual (xi : list R) (f : R -> R) : res (list R) :=
  match map varphi xi with
  | [] => Err IndexError
  | (x0 :: _) as x =>
    bind (subdivide (inner x)) (fun s =>
    let z := map varphi_inv ([x0] ++ s ++ [last x 0]) in
    bind (integrate_chebyshev z f) (fun I =>
    let c := [0] ++ I ++ [0] in
    if Nat.even (length c) then Ok (zipw Rplus (evens c) (odds c)) else Err ValueError))
  end.
(** spectral.py:640-647 [split_args]; numpy.testing.assert_almost_equal compares with seven decimals *)
Definition almost_equal (a b : R) : bool := if Rlt_dec (Rabs (b - a)) (15 / 10 ^ 8) then true else false.
Definition split_args (I : list R -> (R -> R) -> res (list R)) (x0 x1 : list R) (f : R -> R) : res (list R) :=
  if (Nat.eqb (length (tl x0)) (length (init x1)) && forallb (fun b => b) (zipw almost_equal (tl x0) (init x1)))%bool then
    match x1 with [] => Err IndexError | _ => I (x0 ++ [last x1 0]) f end
  else Err AssertionError.
