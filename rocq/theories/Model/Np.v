(** The fragment of numpy used by dec, from numpy's documented semantics.  Arrays are lists. *)
From Coq Require Import ZArith Reals List Lia.
From Coquelicot Require Import Complex.
From Verif Require Import Model.Num.
Import ListNotations.

(** [array([f(0), ..., f(n-1)])]. *)
Definition tab {A} (n : nat) (f : nat -> A) : list A := map f (seq 0 n).

(** Elementwise binary operation on two arrays of equal length
    (callers in dec always combine arrays of equal length; on a mismatch numpy raises or broadcasts,
    which is not modelled here: the model truncates to the shorter array). *)
Fixpoint zipw {A B D} (op : A -> B -> D) (x : list A) (y : list B) : list D :=
  match x, y with
  | a :: x', b :: y' => op a b :: zipw op x' y'
  | _, _ => []
  end.

Definition vadd {A} `{Num A} := zipw (@nadd A _).
Definition vsub {A} `{Num A} := zipw (@nsub A _).
Definition vmul {A} `{Num A} := zipw (@nmul A _).

(** [numpy.roll(x, shift=k)]: element i moves to position (i + k) mod n. *)
Definition roll {A} (k : Z) (l : list A) : list A :=
  let s := Z.to_nat ((- k) mod Z.of_nat (length l)) in
  skipn s l ++ firstn s l.

(** [numpy.diff(x)]. *)
Definition diff {A} `{Num A} (l : list A) : list A := vsub (tl l) l.

(** [x[0::2]] and [x[1::2]]. *)
Fixpoint evens {A} (l : list A) : list A :=
  match l with
  | [] => []
  | [a] => [a]
  | a :: _ :: l' => a :: evens l'
  end.
Definition odds {A} (l : list A) : list A := evens (tl l).

(** [x[:-1]], [x[1:-1]]. *)
Definition init {A} (l : list A) : list A := removelast l.
Definition inner {A} (l : list A) : list A := removelast (tl l).

(** [c[0::2] = a; c[1::2] = b]: the strided stores of [interweave]. *)
Fixpoint weave {A} (a b : list A) : list A :=
  match a with
  | [] => []
  | x :: a' => match b with [] => [x] | y :: b' => x :: y :: weave a' b' end
  end.

(** [numpy.linspace(start, stop, num)]; num = 1 gives [start]. *)
Definition linspace (start stop : R) (num : nat) : list R :=
  match num with
  | O => []
  | S O => [start]
  | S k => tab num (fun i => start + INR i * ((stop - start) / INR k))%R
  end.

(** [numpy.zeros(n)], [numpy.ones(n)]. *)
Definition zeros {A} `{Num A} (n : nat) : list A := repeat nzero n.
Definition ones {A} `{Num A} (n : nat) : list A := repeat none n.

(** [numpy.cumsum(x)]. *)
Fixpoint cumsum_from {A} `{Num A} (acc : A) (l : list A) : list A :=
  match l with
  | [] => []
  | a :: l' => let s := nadd acc a in s :: cumsum_from s l'
  end.
Definition cumsum {A} `{Num A} (l : list A) : list A := cumsum_from nzero l.

(** [sum(x)]. *)
Definition lsum {A} `{Num A} (l : list A) : A := fold_left nadd l nzero.

(** exp(1j*t) = cos t + 1j*sin t. *)
Definition cis (t : R) : C := (cos t, sin t).

(** [numpy.fft.fft(x)]: y[k] = sum_m x[m] exp(-2j*pi*k*m/n). *)
Definition fft (x : list C) : list C :=
  let n := length x in
  tab n (fun k => Csum n (fun m =>
    Cmult (nth m x (RtoC 0)) (cis (- (2 * PI * INR k * INR m / INR n))))).

(** [numpy.fft.ifft(y)]: x[m] = (1/n) sum_k y[k] exp(2j*pi*k*m/n). *)
Definition ifft (y : list C) : list C :=
  let n := length y in
  tab n (fun m => Cmult (RtoC (/ INR n)) (Csum n (fun k =>
    Cmult (nth k y (RtoC 0)) (cis (2 * PI * INR k * INR m / INR n))))).

(** [numpy.fft.fftshift(x)] = roll(x, n//2); [ifftshift(x)] = roll(x, -(n//2)). *)
Definition fftshift {A} (x : list A) : list A := roll (Z.of_nat (length x / 2)) x.
Definition ifftshift {A} (x : list A) : list A := roll (- Z.of_nat (length x / 2)) x.

(** [numpy.fft.fftfreq(N)*N] = [0, 1, ..., (N-1)//2, -(N//2), ..., -1]. *)
Definition fftfreqN (N : nat) : list Z :=
  map Z.of_nat (seq 0 ((N - 1) / 2 + 1)) ++
  map (fun i => (Z.of_nat i - Z.of_nat (N / 2))%Z) (seq 0 (N / 2)).

(** [real(x)]. *)
Definition realv (x : list C) : list R := map Re x.
(** Coercion of a real array to a complex one. *)
Definition cplxv (x : list R) : list C := map RtoC x.
