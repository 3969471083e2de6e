(** Model of dec/common.py (refinement tables, wedge and contraction tables of 1D grids), of
    helper.py interweave on one-dimensional arrays, and of the refinements of dec/periodic.py and
    dec/chebyshev.py.  Arrays are real. *)
From Coq Require Import ZArith Reals List Arith Bool.
From Verif Require Import Model.Sym.
From Coquelicot Require Import Complex.
From Verif Require Import Model.Num Model.Np Model.Spectral Model.Regular Model.Chebyshev Model.Grids1.
Import ListNotations.

(** ** Python dictionaries with tuple keys *)
Definition key : Set := nat * bool.              (* (degree, isprimal) *)
Definition wkey : Set := key * key * bool.       (* ((d0, p0), (d1, p1), p2) *)
Definition ckey : Set := bool * key * bool.      (* (p0, (d1, p1), p2) *)
Definition key_eqb (a b : key) : bool := Nat.eqb (fst a) (fst b) && Bool.eqb (snd a) (snd b).
Definition wkey_eqb (a b : wkey) : bool :=
  key_eqb (fst (fst a)) (fst (fst b)) && key_eqb (snd (fst a)) (snd (fst b)) && Bool.eqb (snd a) (snd b).
Definition ckey_eqb (a b : ckey) : bool :=
  Bool.eqb (fst (fst a)) (fst (fst b)) && key_eqb (snd (fst a)) (snd (fst b)) && Bool.eqb (snd a) (snd b).
Definition dict (K V : Type) := list (K * V).
(** [d[k]]: KeyError when absent.  The dictionaries below have no duplicate keys. *)
Fixpoint dget {K V} (eqb : K -> K -> bool) (d : dict K V) (k : K) : res V :=
  match d with
  | [] => Err KeyError
  | (k', v) :: d' => if eqb k k' then Ok v else dget eqb d' k
  end.
Definition table (V : Type) := dict key V.
Definition tget {V} (t : table V) (k : key) : res V := dget key_eqb t k.

(** ** numpy broadcasting of a binary operation on one-dimensional arrays *)
Definition np_bin {A B} (op : A -> A -> B) (a b : list A) : res (list B) :=
  if Nat.eqb (length a) (length b) then Ok (zipw op a b)
  else match a, b with
       | [x], _ => Ok (map (op x) b)
       | _, [y] => Ok (map (fun x => op x y) a)
       | _, _ => Err ValueError
       end.
(** the components handled by the tables of dec/symbolic.py when these are applied to arrays *)
#[export] Instance ArrOps : CompOps (res (list R)) :=
  MkCompOps (res (list R))
    (fun x y => bind x (fun a => bind y (np_bin Rmult a)))
    (fun x y => bind x (fun a => bind y (np_bin Rminus a)))
    (fun x y => bind x (fun a => bind y (np_bin Rplus a)))
    (fun x => bind x (fun a => Ok (map Ropp a))).

(** ** helper.py:195-226 [interweave] on one-dimensional arrays of floats; the strided stores need
    len(a) = ceil(n/2), len(b) = floor(n/2) for n = len(a)+len(b) (broadcasting of a length-1 array adds
    no further case) *)
Definition interweave {A} (a b : list A) : res (list A) :=
  let la := length a in let lb := length b in
  if (Nat.eqb la ((la + lb + 1) / 2) && Nat.eqb lb ((la + lb) / 2))%bool
  then Ok (weave a b) else Err ValueError.

Definition op1 := list R -> res (list R).
(** [f[0::2] + f[1::2]] *)
Definition pair_sum (f : list R) : res (list R) := np_bin Rplus (evens f) (odds f).
(** sp.H, sp.Hinv, sp.S, sp.Sinv divide by N = len(a) *)
Definition spec (g : list R -> list R) : op1 := fun f =>
  match f with [] => Err ZeroDivisionError | _ => Ok (g f) end.

Record refinement := MkRefine { rT : table op1; rU : table op1 }.
(** common.py:8-21 [wrap_refine] *)
Definition wrap_refine (t : op1 * op1 * op1 * op1) (u : op1 * op1 * op1 * op1) : refinement :=
  let '(T0, T1, T0d, T1d) := t in let '(U0, U1, U0d, U1d) := u in
  MkRefine [((0, true), T0); ((1, true), T1); ((0, false), T0d); ((1, false), T1d)]
           [((0, true), U0); ((1, true), U1); ((0, false), U0d); ((1, false), U1d)].

(** periodic.py:64-83 [to_refine] *)
Definition T0_periodic : op1 := fun f => bind (spec opS f) (fun s => interweave f s).
Definition T0d_periodic : op1 := fun f => bind (spec opSinv f) (fun s => interweave s f).
Definition T1_periodic : op1 := fun f => bind (spec opHinv f) T0d_periodic.
Definition T1d_periodic : op1 := fun f => bind (spec opHinv f) T0_periodic.
(** periodic.py:85-96 [from_refine] *)
Definition U0_periodic : op1 := fun f => Ok (evens f).
Definition U0d_periodic : op1 := fun f => Ok (odds f).
Definition U1_periodic : op1 := fun f => bind (bind (spec opS f) (spec opH)) pair_sum.
Definition U1d_periodic : op1 := fun f => bind (bind (spec opSinv f) (spec opH)) pair_sum.
Definition refine_periodic : refinement :=
  wrap_refine (T0_periodic, T1_periodic, T0d_periodic, T1d_periodic)
              (U0_periodic, U1_periodic, U0d_periodic, U1d_periodic).

Section Cheb.
Variable close : C -> C -> bool.
(** chebyshev.py:65-84 [to_refine] *)
Definition T0_cheb : op1 := fun f => bind (S_cheb f) (fun s => interweave f s).
Definition T0d_cheb : op1 := fun f => bind (S_cheb_pinv f) (fun s => interweave s f).
Definition T1_cheb : op1 := fun f => bind (H1_cheb close f) T0d_cheb.
Definition T1d_cheb : op1 := fun f => bind (H1d_cheb f) T0_cheb.
(** chebyshev.py:86-98 [from_refine]; f[0] and f[-1] raise IndexError on an empty array *)
Definition U0_cheb : op1 := fun f => Ok (evens f).
Definition U0d_cheb : op1 := fun f => Ok (odds f).
Definition U1_cheb : op1 := fun f => bind (bind (S_cheb f) H0d_cheb) pair_sum.
Definition U1d_cheb : op1 := fun f => bind (bind (S_cheb f) H0d_cheb) (fun f =>
  match f with
  | [] => Err IndexError
  | x :: _ => bind (pair_sum (inner f)) (fun m => Ok ([x] ++ m ++ [last f 0%R]))
  end).
Definition refine_cheb : refinement :=
  wrap_refine (T0_cheb, T1_cheb, T0d_cheb, T1d_cheb) (U0_cheb, U1_cheb, U0d_cheb, U1d_cheb).
End Cheb.

(** regular.py:67-76 [to_refine], [from_refine] *)
Definition raise_NI : op1 := fun _ => Err NotImplementedError.
Definition refine_regular : refinement :=
  wrap_refine (raise_NI, raise_NI, raise_NI, raise_NI) (raise_NI, raise_NI, raise_NI, raise_NI).

(** [itertools.product] *)
Definition bools : list bool := [true; false].
Definition keys1 : list key := list_prod [0; 1] bools.
Definition op2 := list R -> list R -> res (list R).

(** [(c,) = t]: ValueError unless t has one element *)
Definition unpack1 {A} (t : list (res A)) : res A := match t with [c] => c | _ => Err ValueError end.
Definition missing : res (list R) := Err IndexError. (* a[i] out of range on a tuple *)

(** common.py:34-59 [wedge] *)
Definition get_w (r : refinement) (d0 : nat) (p0 : bool) (d1 : nat) (p1 p2 : bool) : op2 := fun a b =>
  bind (tget (rT r) (d0, p0)) (fun t0 => bind (t0 a) (fun a =>
  bind (tget (rT r) (d1, p1)) (fun t1 => bind (t1 b) (fun b =>
  bind (match wget (wedge_1d missing) d0 d1 with Some w => Ok w | None => Err KeyError end) (fun w =>
  bind (unpack1 (w [Ok a] [Ok b])) (fun c =>
  bind (tget (rU r) (d0 + d1, p2)) (fun u => u c))))))).
Definition direct (d0 : nat) (p0 : bool) (d1 : nat) (p1 p2 : bool) : bool :=
  Bool.eqb p0 p1 && Bool.eqb p1 p2 && Nat.eqb d0 d1 && Nat.eqb d1 0.
Definition wedge (r : refinement) : dict wkey op2 :=
  flat_map (fun k : wkey => let '((d0, p0), (d1, p1), p2) := k in
    if Nat.ltb 1 (d0 + d1) then []
    else if direct d0 p0 d1 p1 p2 then [(k, np_bin Rmult)]
    else [(k, get_w r d0 p0 d1 p1 p2)])
  (list_prod (list_prod keys1 keys1) bools).

(** common.py:61-82 [contraction] *)
Definition get_c (r : refinement) (p0 : bool) (d1 : nat) (p1 p2 : bool) : op2 := fun a b =>
  bind (tget (rT r) (1, p0)) (fun t0 => bind (t0 a) (fun a =>
  bind (tget (rT r) (d1, p1)) (fun t1 => bind (t1 b) (fun b =>
  bind (match nth_error (contraction_1d missing) d1 with Some c => Ok c | None => Err IndexError end) (fun w =>
  bind (match w [Ok a] [Ok b] with Comps l => unpack1 l | CZero => Err TypeError end) (fun c =>
  bind (tget (rU r) (d1 - 1, p2)) (fun u => u c))))))).
Definition contraction (r : refinement) : dict ckey op2 :=
  flat_map (fun k : ckey => let '(p0, (d1, p1), p2) := k in
    if Nat.ltb d1 1 then [] else [(k, get_c r p0 d1 p1 p2)])
  (list_prod (list_prod bools keys1) bools).

(** ** The operator tables of the three 1D grids.
    [0] returned by D[1, *] is the Python int 0. *)
Inductive rarr : Type := RZero | RArr (a : list R).
Definition real_of (o : list C -> res (list C)) : op1 := fun f =>
  bind (o (cplxv f)) (fun g => Ok (realv g)).
Record dec1 := MkDec1 {
  dD : table (list R -> res rarr); dH : table op1;
  dW : option (dict wkey op2); dC : option (dict ckey op2) }.
(** periodic.py:38-46, regular.py:42-50, chebyshev.py:39-47: the tables D and H; W and C are None on
    regular grids.  The Hodge stars of regular grids return complex arrays with zero imaginary part
    (theorem C22): their real part is taken here.  n is the number given to the constructor; no
    operator depends on it. *)
Definition dec_of (close : C -> C -> bool) (k : kind1) : dec1 :=
  let D := [((0, true), fun f => Ok (RArr (grid_D0 k f))); ((1, true), fun _ => Ok RZero);
            ((0, false), fun f => Ok (RArr (grid_D0d k f))); ((1, false), fun _ => Ok RZero)] in
  match k with
  | Periodic => MkDec1 D [((0, true), spec opH); ((1, true), spec opHinv); ((0, false), spec opH); ((1, false), spec opHinv)]
                  (Some (wedge refine_periodic)) (Some (contraction refine_periodic))
  | Regular => MkDec1 D [((0, true), real_of H0_regular); ((1, true), real_of H1_regular);
                         ((0, false), real_of H0d_regular); ((1, false), real_of H1d_regular)] None None
  | Chebyshev => MkDec1 D [((0, true), H0_cheb); ((1, true), H1_cheb close); ((0, false), H0d_cheb); ((1, false), H1d_cheb)]
                  (Some (wedge (refine_cheb close))) (Some (contraction (refine_cheb close)))
  end.
Definition refine_of (close : C -> C -> bool) (k : kind1) : refinement :=
  match k with Periodic => refine_periodic | Regular => refine_regular | Chebyshev => refine_cheb close end.
