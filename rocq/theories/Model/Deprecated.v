(** Model of dec/deprecated/spectral.py. *)
From Coq Require Import ZArith Reals List Lia.
From Coquelicot Require Import Complex.
From Verif Require Import Model.Num Model.Np Model.Spectral Model.Regular.
Import ListNotations.
Local Open Scope R_scope.

(** x/2j *)
Definition half_j (x : C) : C := Cdiv x (0, 2).

(** deprecated/spectral.py:7-20 [H_exp]; h = 2*pi/N raises on the empty array *)
Definition H_exp (a : list C) : res (list C) :=
  with_h a (fun h =>
  let N := length a in
  let c := I_diag (N + 2) (- h / 2) (h / 2) in
  let a := F a in
  Ok (Finv (roll 1 (vmul (skipn 2 c) a)))).

(** deprecated/spectral.py:22-40 [H_sin]; c[:-2] has the first N of the N + 2 entries *)
Definition H_sin (a : list C) : res (list C) :=
  with_h a (fun h =>
  let N := length a in
  let a := F a in
  let c := I_diag (N + 2) (- h / 2) (h / 2) in
  Ok (Finv (map half_j (vsub (roll 1 (vmul (skipn 2 c) a)) (roll (-1) (vmul (firstn N c) a)))))).

(** deprecated/spectral.py:42-61 [H_sin_dual] *)
Definition H_sin_dual (a : list C) : res (list C) :=
  with_h a (fun h =>
  let N := length a in
  let a := F a in
  let c := I_diag (N + 2) (- h / 2) (h / 2) in
  let s := cis (h / 2) in
  Ok (Finv (map half_j (vsub (map (fun z => Cmult z s) (roll 1 (vmul (skipn 2 c) a))) (map (fun z => Cdiv z s) (roll (-1) (vmul (firstn N c) a))))))).

(** deprecated/spectral.py:63-69 [I_sin]; numpy's fft refuses the empty array *)
Definition I_sin (a b : R) (v : list C) : res (list C) :=
  match v with
  | [] => Err ValueError
  | _ =>
    let v := F v in
    let c := I_diag (length v) a b in
    Ok (Finv (map half_j (vsub (roll 1 (vmul c v)) (roll (-1) (vmul c v)))))
  end.

(** deprecated/spectral.py:73-90 [H0d_cheb] *)
Definition dep_H0d_cheb (f : list R) : res (list R) :=
  let f := cplxv (mirror1 1 f) in
  let N := length f in
  bind (with_h f (fun h =>
  let f := vmul f (cplxv (Omega_d N)) in
  let f := I_space (- h / 2) (h / 2) f in
  Ok (unmirror1 f))) (fun f => Ok (realv f)).

(** deprecated/spectral.py:92-109 [H1_cheb] *)
Definition dep_H1_cheb (f : list R) : res (list R) :=
  let f := cplxv (mirror1 (-1) f) in
  let N := length f in
  bind (with_h f (fun h =>
  let f := I_space_inv (- h / 2) (h / 2) f in
  let f := vdiv f (cplxv (Omega_d N)) in
  Ok (unmirror1 f))) (fun f => Ok (realv f)).

(** x[i] = 0 *)
Definition set0 (i : nat) (x : list C) : res (list C) :=
  if Nat.ltb i (length x) then Ok (tab (length x) (fun j => if Nat.eqb j i then RtoC 0 else nth j x (RtoC 0))) else Err IndexError.

(** deprecated/spectral.py:111-133 [H0_cheb_alternate]; mirror0 of an array of length 1 is the array itself, of the empty array it is
    empty, and h = 2*pi/f.shape[0] raises *)
Definition dep_H0_cheb_alternate (f : list R) : res (list R) :=
  let N := length f in
  let f := cplxv (mirror0 1 f) in
  bind (with_h f (fun h =>
  let f := E_space 1 f in
  let f := vmul f (cplxv (Omega (length f))) in
  let l := I_space (- h / 2) 0 f in
  let r := I_space 0 (h / 2) f in
  bind (E_space_inv 1 l) (fun l => bind (E_space_inv 1 r) (fun r =>
  bind (set0 0 l) (fun l => bind (set0 (N - 1) r) (fun r =>
  Ok (unmirror0 (vadd l r)))))))) (fun f => Ok (realv f)).

(** deprecated/spectral.py:135-155 [H0_cheb]; h = pi/(N-1) raises on N = 1; on N = 0 numpy's fft refuses the empty array *)
Definition dep_H0_cheb (f : list R) : res (list R) :=
  match length f with
  | O => Err ValueError
  | S O => Err ZeroDivisionError
  | N =>
    let h := PI / INR (N - 1) in
    let f := cplxv (mirror0 1 f) in
    let f := E_space (N - 1) f in
    let f := vmul f (cplxv (Omega (length f))) in
    let f := I_space 0 (h / 2) f in
    let f := unmirror1 f in
    bind (matA f) (fun f => Ok (realv f))
  end.

(** deprecated/spectral.py:157-185 [H1d_cheb]; unlike chebyshev.py it does not take the real part *)
Definition dep_H1d_endpoints (h : R) (f : list C) : list C :=
  let f0 := mirror0 (RtoC (-1)) (matC f) in
  let aa := vsub f (unmirror0 (I_space 0 (h / 2) (I_space_inv (- h / 2) (h / 2) f0))) in
  let bb := vsub f (unmirror0 (I_space (- h / 2) 0 (I_space_inv (- h / 2) (h / 2) f0))) in
  vadd (matB aa) (matB1 bb).
Definition dep_H1d_midpoints (h : R) (f : list C) : list C :=
  let f := mirror0 (RtoC (-1)) (matC f) in
  let f := I_space_inv (- h / 2) (h / 2) f in
  let f := T_space (h / 2) f in
  let f := vdiv f (cplxv (Omega_d (length f))) in
  let f := T_space (- h / 2) f in
  unmirror0 f.
Definition dep_H1d_cheb (f : list R) : res (list C) :=
  match length f with
  | O => Err ValueError
  | S O => Err ZeroDivisionError
  | N => let h := PI / INR (N - 1) in let f := cplxv f in
         Ok (vadd (dep_H1d_midpoints h f) (dep_H1d_endpoints h f))
  end.
