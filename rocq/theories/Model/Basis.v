(** Model of the basis functions of dec/spectral.py (lines 19-390). *)
From Coq Require Import ZArith Reals List Lia.
From Coquelicot Require Import Complex.
From Verif Require Import Model.Num Model.Np.
Import ListNotations.
Local Open Scope R_scope.

(** Python floats for which the exact value is the indeterminate 0/0 are [None] (nan). *)
Definition omap2 (f : R -> R -> R) (a b : option R) : option R :=
  match a, b with Some x, Some y => Some (f x y) | _, _ => None end.
Definition omap (f : R -> R) (a : option R) : option R :=
  match a with Some x => Some (f x) | None => None end.
(** A value used where only the integral matters: a nan at a single point is ignored. *)
Definition tot (f : R -> option R) (x : R) : R := match f x with Some y => y | None => 0 end.

(** spectral.py:19-33 [alpha0_alt].  (1-(-1)^N) and (1+(-1)^N) select the parity. *)
Definition alpha0_alt (N : nat) (x : R) : option R :=
  if Req_EM_T x 0 then Some 1
  else if Req_EM_T (sin (x / 2)) 0 then None
  else Some (sin (INR N * x / 2) * (cos (x / 2) * (1 - (-1) ^ N) + (1 + (-1) ^ N)) / sin (x / 2) / INR N / 2).

(** spectral.py:35-61 [alpha0].  x = 0 is overwritten by 1; when sin(x/2) = 0 for another x the
    quotient is 0/0 in exact arithmetic ([None]; in floating point it is a quotient of two rounding
    errors).  For N even and cos(x/2) = 0, tan(x/2) is infinite and the quotient is 0. *)
Definition alpha0 (N : nat) (x : R) : option R :=
  if Req_EM_T x 0 then Some 1
  else if Req_EM_T (sin (x / 2)) 0 then None
  else if Nat.even N then
    if Req_EM_T (cos (x / 2)) 0 then Some 0
    else Some (sin (INR N * x / 2) / tan (x / 2) / INR N)
  else Some (sin (INR N * x / 2) / sin (x / 2) / INR N).

(** spectral.py:63-85 [beta0]; the loop over n in range(1, ..) as a sum over n = S i *)
Definition beta0 (N : nat) (x : R) : R :=
  if Nat.even N then
    1 / (2 * PI) - cos (INR N * x / 2) / 4
    + Rsum (N / 2) (fun i => let n := INR (S i) in n * cos (n * x) / sin (n * PI / INR N) / INR N)
  else
    1 / (2 * PI) + 0 * x
    + Rsum ((N - 1) / 2) (fun i => let n := INR (S i) in n * cos (n * x) / sin (n * PI / INR N) / INR N).

(** spectral.py:87-93 [alpha]; n may be a half integer, hence a real *)
Definition alpha (N : nat) (n : R) (x : R) : option R := alpha0 N (x - 2 * PI / INR N * n).

(** spectral.py:95-101 [beta] *)
Definition beta (N : nat) (n : R) (x : R) : R := beta0 N (x - 2 * PI / INR N * n).

(** spectral.py:103-128 [gamma] *)
Definition gamma (N k : nat) : R :=
  if Nat.even N then
    1 / (2 * INR N) - (-1) ^ k / (2 * INR N)
    + Rsum (N / 2) (fun i => let n := INR (S i) in
        (sin (2 * n * INR k * PI / INR N) - sin ((2 * INR k - 1) * n * PI / INR N))
          / sin (n * PI / INR N) / INR N)
  else
    1 / (2 * INR N)
    + Rsum ((N - 1) / 2) (fun i => let n := INR (S i) in
        (sin (2 * n * INR k * PI / INR N) - sin ((2 * INR k - 1) * n * PI / INR N))
          / sin (n * PI / INR N) / INR N).

(** spectral.py:134-141 [phi0] *)
Definition phi0 (N n : nat) (x : R) : option R := alpha N (INR n) x.
(** spectral.py:143-150 [phi1] *)
Definition phi1 (N n : nat) (x : R) : R := beta N (INR n + /2) x.
(** spectral.py:152-159 [phid0] *)
Definition phid0 (N n : nat) (x : R) : option R := alpha N (INR n + /2) x.
(** spectral.py:161-168 [phid1] *)
Definition phid1 (N n : nat) (x : R) : R := beta N (INR n) x.

(** spectral.py:174-185 [varphi] *)
Definition varphi (x : R) : R := acos (- x).
(** spectral.py:187-198 [varphi_inv] *)
Definition varphi_inv (x : R) : R := - cos x.

(** spectral.py:204-212 [delta] *)
Definition delta (N : nat) (x : R) : option R :=
  omap (fun a => ((INR N - 1) ^ 2 * a + /2 * cos ((INR N - 1) * x)) * sin x) (alpha (2 * N - 2) 0 x).

(** spectral.py:214-220 [rho] *)
Definition rho (N n : nat) (x : R) : option R :=
  omap2 (fun a b => 2 * gamma (2 * N - 2) n * a + 2 * gamma (2 * N - 2) (N - n - 1) * b)
    (delta N x) (delta N (PI - x)).

(** spectral.py:222-237 [kappa0] *)
Definition kappa0 (N n : nat) (x : R) : option R :=
  if (Nat.eqb n 0 || Nat.eqb n (N - 1))%bool then alpha (2 * N - 2) (INR n) x
  else omap2 Rplus (alpha (2 * N - 2) (INR n) x) (alpha (2 * N - 2) (INR n) (2 * PI - x)).

(** spectral.py:239-248 [kappad0] *)
Definition kappad0 (N n : nat) (x : R) : option R :=
  omap2 Rplus (alpha (2 * N - 2) (INR n + /2) x) (alpha (2 * N - 2) (INR n + /2) (2 * PI - x)).

(** spectral.py:250-260 [kappa1] *)
Definition kappa1 (N n : nat) (x : R) : R :=
  beta (2 * N - 2) (INR n + /2) x - beta (2 * N - 2) (INR n + /2) (2 * PI - x).

(** spectral.py:262-272 [kappa1_symm] *)
Definition kappa1_symm (N n : nat) (x : R) : R :=
  beta (2 * N - 2) (INR n + /2) x + beta (2 * N - 2) (INR n + /2) (2 * PI - x).

(** spectral.py:274-294 [kappad1] *)
Definition kappad1 (N n : nat) (x : R) : option R :=
  if Nat.eqb n 0 then delta N x
  else if Nat.eqb n (N - 1) then delta N (PI - x)
  else omap (fun r => beta (2 * N - 2) (INR n) x - beta (2 * N - 2) (INR n) (2 * PI - x) - r) (rho N n x).

(** spectral.py:296-305 [kappad1_symm] *)
Definition kappad1_symm (N n : nat) (x : R) : R :=
  beta (2 * N - 2) (INR n) x + beta (2 * N - 2) (INR n) (2 * PI - x).

(** spectral.py:327-334 [psi0] *)
Definition psi0 (N n : nat) (x : R) : option R := kappa0 N n (acos (- x)).
(** spectral.py:336-345 [psi1]: [None] where 1 - x**2 <= 0 (x/0 or sqrt of a negative number) *)
Definition psi1 (N n : nat) (x : R) : option R :=
  if Rlt_dec 0 (1 - x ^ 2) then Some (kappa1 N n (acos (- x)) / sqrt (1 - x ^ 2)) else None.
(** spectral.py:347-354 [psid0] *)
Definition psid0 (N n : nat) (x : R) : option R := kappad0 N n (acos (- x)).
(** spectral.py:356-364 [psid1].  The helper __fix_singularity_at_boundary (spectral.py:316-325)
    moves the two points x = -1, +1 inwards by 1e-16, which in floating point changes -1 and +1 by
    half an ulp or not at all; here those two points are left undefined. *)
Definition psid1 (N n : nat) (x : R) : option R :=
  if Rlt_dec 0 (1 - x ^ 2) then omap (fun k => k / sqrt (1 - x ^ 2)) (kappad1 N n (acos (- x))) else None.

(** spectral.py:370-395 [lagrange_polynomials].  [reduce] over an empty generator raises TypeError. *)
Definition lagrange_factors (x : list R) (i : nat) (y : R) : list R :=
  map (fun j => (y - nth j x 0) / (nth i x 0 - nth j x 0))
      (filter (fun j => negb (Nat.eqb j i)) (seq 0 (length x))).
Definition lagrange (x : list R) (i : nat) (y : R) : res R :=
  match lagrange_factors x i y with
  | [] => Err TypeError
  | a :: l => Ok (fold_left Rmult l a)
  end.

(** spectral.py:665-673 [reconstruction]: sum(a[i]*f(x) for i, f in enumerate(B)), starting from 0 *)
Definition osum (n : nat) (f : nat -> option R) : option R :=
  fold_left (fun acc i => omap2 Rplus acc (f i)) (seq 0 n) (Some 0).
Definition recon (a : list R) (B : list (R -> option R)) (x : R) : option R :=
  osum (length B) (fun i => omap (Rmult (nth i a 0)) (nth i B (fun _ => None) x)).
