(** Model of the Fourier part of dec/spectral.py (lines 396-618, 640-1110). *)
From Coq Require Import ZArith Reals List Lia.
From Coquelicot Require Import Complex.
From Verif Require Import Model.Num Model.Np.
Import ListNotations.
Local Open Scope R_scope.

(** spectral.py:397-404 [freq]: fftshift(fftfreq(N)*N) *)
Definition freq (N : nat) : list Z := fftshift (fftfreqN N).

(** spectral.py:406 [F] *)
Definition F (x : list C) : list C := fftshift (fft x).
(** spectral.py:407 [Finv] *)
Definition Finv (x : list C) : list C := ifft (ifftshift x).

(** spectral.py:409-413 [method_in_fourier_space]: the decorated function, without the extra arguments *)
Definition method_in_fourier_space (g : list C -> list C) (x : list C) : list C := Finv (g (F x)).

(** One entry of [I_diag] (spectral.py:465-467); y[n==0] = b - a overwrites the 0/0 entry. *)
Definition I_entry (n : Z) (a b : R) : C :=
  if Z.eqb n 0 then RtoC (b - a)
  else Cdiv (Cminus (cis (IZR n * b)) (cis (IZR n * a))) (Cmult Ci (RtoC (IZR n))).

(** spectral.py:455-471 [I_diag] *)
Definition I_diag (N : nat) (a b : R) : list C := map (fun n => I_entry n a b) (freq N).

(** spectral.py:473-482 [S_diag]: exp(1j*n*a) *)
Definition S_diag (N : nat) (a : R) : list C := map (fun n => cis (IZR n * a)) (freq N).

Definition vdiv : list C -> list C -> list C := zipw Cdiv.

(** h = 2*pi/N *)
Definition hstep (N : nat) : R := 2 * PI / INR N.

(** spectral.py:415-424 [H] *)
Definition opH (a : list R) : list R :=
  let N := length a in let h := hstep N in
  realv (Finv (vmul (F (cplxv a)) (I_diag N (- h / 2) (h / 2)))).

(** spectral.py:426-435 [Hinv] *)
Definition opHinv (a : list R) : list R :=
  let N := length a in let h := hstep N in
  realv (Finv (vdiv (F (cplxv a)) (I_diag N (- h / 2) (h / 2)))).

(** spectral.py:437-439 [I] *)
Definition opI (a : list C) (x0 x1 : R) : list C :=
  Finv (vmul (I_diag (length a) x0 x1) (F a)).

(** spectral.py:441-443 [Iinv] *)
Definition opIinv (a : list C) (x0 x1 : R) : list C :=
  Finv (vdiv (F a) (I_diag (length a) x0 x1)).

(** spectral.py:445-448 [S] *)
Definition opS (a : list R) : list R :=
  let N := length a in let h := hstep N in
  realv (Finv (vmul (F (cplxv a)) (S_diag N (h / 2)))).

(** spectral.py:450-453 [Sinv] *)
Definition opSinv (a : list R) : list R :=
  let N := length a in let h := hstep N in
  realv (Finv (vmul (F (cplxv a)) (S_diag N (- h / 2)))).

(** spectral.py:484-492 [fourier_I] *)
Definition fourier_I (x : list C) (a b : R) : list C := vmul x (I_diag (length x) a b).
(** spectral.py:494-499 [fourier_I_inv] *)
Definition fourier_I_inv (x : list C) (a b : R) : list C := vdiv x (I_diag (length x) a b).
(** spectral.py:501-503 [fourier_S] *)
Definition fourier_S (x : list C) (a : R) : list C := vmul x (S_diag (length x) a).
(** spectral.py:505-507 [fourier_S_inv]: x*exp(-1j*n*a) *)
Definition fourier_S_inv (x : list C) (a : R) : list C := vmul x (S_diag (length x) (- a)).
(** spectral.py:509-515 [fourier_T] *)
Definition fourier_T (x : list C) (h : R) : list C := vmul x (S_diag (length x) h).

(** spectral.py:517-531 [fourier_K].  [rslt = x[1:-1]] is a view, the two in-place additions
    [rslt[0] += x[-1]], [rslt[-1] += x[0]] act on it in that order; x[0] and x[-1] lie outside it. *)
Definition add_first (c : C) (l : list C) : list C :=
  match l with [] => [] | a :: l' => Cplus a c :: l' end.
Definition add_last (c : C) (l : list C) : list C := rev (add_first c (rev l)).
Definition fourier_K (x0 : list C) (a b : R) : list C :=
  let N := length x0 in
  let x := [RtoC 0] ++ x0 ++ [RtoC 0] in
  let x := vsub (roll 1 x) (roll (-1) x) in
  let x := vmul x (map (fun y => Cdiv y (Cmult (RtoC 2) Ci)) (I_diag (N + 2) a b)) in
  let rslt := inner x in
  let rslt := add_first (last x (RtoC 0)) rslt in
  add_last (hd (RtoC 0) x) rslt.

(** spectral.py:533-564 [fourier_K_inv].  The [isclose] guards are an argument [close] (numpy's
    isclose has an absolute/relative tolerance); [y[::2]], [y[1::2]] are strided stores. *)
Definition fourier_K_inv (close : C -> C -> bool) (x0 : list C) (a b : R) : res (list C) :=
  let N := length x0 in
  let I := I_diag (N + 2) a b in
  let i k := nth k I (RtoC 0) in
  let x := vdiv x0 (inner I) in
  if (close (i 0%nat) (i N) || close (i 1%nat) (i (N + 1)%nat)
      || close (Cmult (i 0%nat) (i 1%nat)) (Cmult (i N) (i (N + 1)%nat)))%bool
  then Err ValueError
  else
    let E := lsum (evens x) in
    let O := lsum (odds x) in
    let one := RtoC 1 in
    let y0 := if Nat.even N
              then Cdiv O (Cminus one (Cdiv (i 0%nat) (i N)))
              else Cdiv (Cplus (Cmult (Cdiv (i 1%nat) (i (N+1)%nat)) E) O)
                        (Cminus one (Cdiv (Cdiv (Cmult (i 1%nat) (i 0%nat)) (i N)) (i (N+1)%nat))) in
    let yl := if Nat.even N
              then Cdiv E (Cminus (Cdiv (i (N+1)%nat) (i 1%nat)) one)
              else Cdiv (Cplus (Cmult (Cdiv (i N) (i 0%nat)) E) O)
                        (Cminus (Cdiv (Cdiv (Cmult (i N) (i (N+1)%nat)) (i 0%nat)) (i 1%nat)) one) in
    (* for N = 1, y[0] and y[-1] are the same cell: the second store wins *)
    let y0 := if Nat.eqb N 1 then yl else y0 in
    let x := add_first (Copp (Cdiv (Cmult yl (i (N+1)%nat)) (i 1%nat))) x in
    let x := add_last (Cdiv (Cmult y0 (i 0%nat)) (i N)) x in
    let x := [Copp y0] ++ x ++ [yl] in
    let ye := map Copp (removelast (cumsum (evens x))) in
    let yo := rev (removelast (cumsum (rev (odds x)))) in
    Ok (map (fun z => Cmult z (Cmult (RtoC 2) Ci)) (weave ye yo)).

(** spectral.py:566-576 [refine]; interweave of two arrays of equal length *)
Definition refine (x : list R) : list R := weave x (opS x).

(** spectral.py:675-689 [A_diag]; assert N > 1 *)
Definition A_diag (N : nat) : res (list R) :=
  if Nat.ltb 1 N then Ok ([/2] ++ repeat 1 (N - 2) ++ [/2]) else Err AssertionError.

(** spectral.py:769-776 [_extend] *)
Definition _extend {A} `{Num A} (f : list A) (n : nat) : list A := zeros n ++ f ++ zeros n.

(** Python's f[n:-n], f[-n:], f[:n] and x[-n:] for 0 <= n; with n = 0, -0 = 0 so
    f[0:-0] = [] and f[-0:] = f. *)
Definition slice_n_mn {A} (f : list A) (n : nat) : list A :=
  match n with O => [] | _ => skipn n (firstn (length f - n) f) end.
Definition slice_last {A} (f : list A) (n : nat) : list A :=
  match n with O => f | _ => skipn (length f - n) f end.

(** x[:n] += y: numpy raises ValueError when the lengths differ, unless len(y) = 1 (broadcast). *)
Definition iadd_seg {A} `{Num A} (seg y : list A) : res (list A) :=
  if Nat.eqb (length seg) (length y) then Ok (vadd seg y)
  else match y with [c] => Ok (map (fun a => nadd a c) seg) | _ => Err ValueError end.

(** spectral.py:778-791 [_unextend] *)
Definition _unextend {A} `{Num A} (f : list A) (n : nat) : res (list A) :=
  if negb (Nat.leb (2 * n) (length f)) then Err AssertionError else
  let x := slice_n_mn f n in
  bind (iadd_seg (firstn n x) (slice_last f n)) (fun s =>
  let x := s ++ skipn n x in
  let k := match n with O => O | _ => (length x - n)%nat end in
  bind (iadd_seg (skipn k x) (firstn n f)) (fun s => Ok (firstn k x ++ s))).

(** spectral.py:691-724 [extend] *)
Definition extend (f : list C) (n : nat) : list C :=
  let N := length f in
  map (Cmult (RtoC ((INR N + 2 * INR n) / INR N))) (_extend f n).

(** spectral.py:726-767 [unextend] *)
Definition unextend (f : list C) (n : nat) : res (list C) :=
  let N := length f in
  bind (_unextend f n) (fun u => Ok (map (Cmult (RtoC ((INR N - 2 * INR n) / INR N))) u)).

(** spectral.py:793-828 [mirror0]: concatenate((f, sign*f[::-1][1:-1])) *)
Definition mirror0 {A} `{Num A} (sign : A) (f : list A) : list A :=
  f ++ map (nmul sign) (inner (rev f)).

(** spectral.py:830-868 [mirror1]: concatenate((f, sign*f[::-1])) *)
Definition mirror1 {A} `{Num A} (sign : A) (f : list A) : list A :=
  f ++ map (nmul sign) (rev f).

(** spectral.py:870-892 [unmirror0]: f[:(len(f)/2+1)]; len(f)/2 truncated (old numpy) *)
Definition unmirror0 {A} (f : list A) : list A := firstn (length f / 2 + 1) f.

(** spectral.py:894-914 [unmirror1] *)
Definition unmirror1 {A} (f : list A) : list A := firstn (length f / 2) f.

(** spectral.py:916-926 [Omega] *)
Definition Omega (N : nat) : list R := tab N (fun n => sin (INR n * hstep N)).

(** spectral.py:928-946 [Omega_d] *)
Definition Omega_d (N : nat) : list R := tab N (fun n => sin ((INR n + /2) * hstep N)).

(** spectral.py:948-972 [half_edge_base]; a[0] += .. raises IndexError on N = 0 *)
Definition half_edge_base (N : nat) : list R :=
  tab N (fun i => /2 + (if Nat.odd i then -1 else 0) + (if Nat.eqb i 0 then (INR N - 1)^2 else 0)).

(** spectral.py:974-985 [half_edge_integrals] *)
Definition half_edge_integrals (f : list R) : C :=
  let N := length f in let h := hstep N in
  let f := opHinv f in
  let p := opI (cplxv f) 0 (h/2) in nth 0 p (RtoC 0).

(** spectral.py:987-1024 [pick]; f[n] counts from the end for negative n *)
Definition pick (f : list R) (n : Z) : res (list R) :=
  let N := Z.of_nat (length f) in
  if ((- N <=? n) && (n <? N))%Z%bool
  then Ok (map (Rmult (nth (Z.to_nat (if (n <? 0)%Z then (N + n)%Z else n)) f 0)) (repeat 1 (length f)))
  else Err IndexError.

(** spectral.py:1026-1056 [reverse] *)
Definition reverse {A} (f : list A) : list A := rev f.

(** spectral.py:1058-1059 [S_space] *)
Definition S_space (a : R) (f : list C) : list C := Finv (vmul (F f) (S_diag (length f) a)).
(** spectral.py:1061-1062 [S_space_inv] *)
Definition S_space_inv (a : R) (f : list C) : list C := Finv (vdiv (F f) (S_diag (length f) a)).
(** spectral.py:1064-1065 [I_space] *)
Definition I_space (a b : R) (f : list C) : list C := Finv (vmul (F f) (I_diag (length f) a b)).
(** spectral.py:1067-1068 [I_space_inv] *)
Definition I_space_inv (a b : R) (f : list C) : list C := Finv (vdiv (F f) (I_diag (length f) a b)).
(** spectral.py:1070-1071 [K_space] *)
Definition K_space (a b : R) (f : list C) : list C := Finv (fourier_K (F f) a b).
(** spectral.py:1073-1074 [K_space_inv] *)
Definition K_space_inv close (a b : R) (f : list C) : res (list C) :=
  bind (fourier_K_inv close (F f) a b) (fun y => Ok (Finv y)).
(** spectral.py:1076-1077 [T_space] *)
Definition T_space (a : R) (f : list C) : list C := Finv (vmul (F f) (S_diag (length f) a)).
(** spectral.py:1079-1080 [T_space_inv] *)
Definition T_space_inv (a : R) (f : list C) : list C := Finv (vdiv (F f) (S_diag (length f) a)).
(** spectral.py:1082-1083 [E_space] *)
Definition E_space (n : nat) (f : list C) : list C := Finv (extend (F f) n).
(** spectral.py:1085-1086 [E_space_inv] *)
Definition E_space_inv (n : nat) (f : list C) : res (list C) :=
  bind (unextend (F f) n) (fun y => Ok (Finv y)).

(** numpy's u + v for one-dimensional arrays: an array of length 1 is broadcast *)
Definition badd {A} `{Num A} (u v : list A) : res (list A) :=
  if Nat.eqb (length u) (length v) then Ok (vadd u v)
  else match u, v with
       | [c], _ => Ok (map (nadd c) v)
       | _, [c] => Ok (map (fun a => nadd a c) u)
       | _, _ => Err ValueError
       end.
(** spectral.py:1088-1089 [matA]: concatenate(([a[0]], a[1:-1:2]+a[2:-1:2], [a[-1]])) *)
Definition matA {A} `{Num A} (a : list A) : res (list A) :=
  match a with
  | [] => Err IndexError
  | a0 :: _ => bind (badd (evens (inner a)) (odds (inner a))) (fun m => Ok ([a0] ++ m ++ [last a nzero]))
  end.

(** spectral.py:1091-1093 [matB]: half_edge_base(N)*f[0] *)
Definition matB (f : list C) : list C :=
  map (fun b => Cmult (RtoC b) (hd (RtoC 0) f)) (half_edge_base (length f)).
(** spectral.py:1095-1097 [matB1]: half_edge_base(N)[::-1]*f[-1] *)
Definition matB1 (f : list C) : list C :=
  map (fun b => Cmult (RtoC b) (last f (RtoC 0))) (rev (half_edge_base (length f))).
(** spectral.py:1099-1100 [matC]: concatenate(([0], f[1:-1], [0])) *)
Definition matC {A} `{Num A} (f : list A) : list A := [nzero] ++ inner f ++ [nzero].

(** spectral.py:1102-1111 [fold1] *)
Definition fold1 {A} `{Num A} (sgn : A) (f : list A) : list A :=
  let k := (length f / 2)%nat in
  vadd (firstn k f) (map (nmul sgn) (firstn k (rev f))).

(** spectral.py:1114-1124 [fold0] *)
Definition fold0 {A} `{Num A} (sgn : A) (f : list A) : list A :=
  let k := (length f / 2)%nat in
  vadd (firstn k f ++ [nzero]) (map (nmul sgn) ([nzero] ++ firstn k (rev f))).

(** spectral.py:1126-1132 [unfold0]: hstack([[f[0]], .5*f[1:-1], [-f[-1]], -.5*f[1:-1][::-1]]) *)
Definition unfold0 (f : list R) : list R :=
  [hd 0 f] ++ map (Rmult (/2)) (inner f) ++ [- last f 0] ++ map (Rmult (- /2)) (rev (inner f)).
