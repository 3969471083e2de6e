(** Model of the sample flows of dec/symbolic.py ([V] and [p]) and of the expressions [plot] draws. *)
From Coq Require Import ZArith Reals List Arith.
From Verif Require Import Model.Num Model.Sym.
Import ListNotations.

(** symbolic.py:11 the coordinates x and y; [half a] is a/2 *)
Definition X : expr := Sym 0.
Definition Y : expr := Sym 1.
Definition half (a : expr) : expr := Mul a (Inv (Cst 2)).
Definition sub (a b : expr) : expr := Add a (Opp b).
Definition num (z : R) : expr := Cst z.

(** symbolic.py:22-29 [V], the velocity fields *)
Definition V : list (list expr) :=
  [ [ Opp (Mul (Mul (num 2) (Sin Y)) (Pow (Cos (half X)) 2)); Mul (Mul (num 2) (Sin X)) (Pow (Cos (half Y)) 2) ];
    [ Opp (Mul (Cos (half X)) (Sin (half Y))); Mul (Sin (half X)) (Cos (half Y)) ];
    [ Opp (Sin Y); Sin X ];
    [ Opp (Sin (Mul (num 2) Y)); Sin X ];
    [ num 1; num 0 ] ].

(** symbolic.py:34-40 [p], the pressures *)
Definition p : list expr :=
  [ Mul (sub (sub (Opp (Mul (Cos (Mul (num 2) X)) (Add (num 5) (Mul (num 4) (Cos Y)))))
                  (Mul (num 5) (Add (Mul (num 4) (Cos Y)) (Cos (Mul (num 2) Y)))))
             (Mul (Mul (num 4) (Cos X)) (Add (Add (num 5) (Mul (num 5) (Cos Y))) (Cos (Mul (num 2) Y)))))
        (Inv (num 20));
    Opp (Mul (Add (Cos X) (Cos Y)) (Inv (num 4)));
    Opp (Mul (Cos X) (Cos Y));
    Opp (Mul (Mul (Mul (num 4) (Cos X)) (Cos (Mul (num 2) Y))) (Inv (num 5)));
    num 0 ].

(** symbolic.py:536-581 [plot]: the expressions behind the four pictures, that is the field itself, the
    acceleration [-adv(V) - grad(p)], the vorticity and the pressure.  [simplify] is left out (it keeps
    values), and so are the drawing calls. *)
Record pictures := MkPictures { velocity : list expr; vdot : list expr; omega : expr; pressure : expr }.
Definition plot (v : list expr) (q : expr) : res pictures :=
  bind (adv v) (fun a => bind (grad q) (fun g =>
  match a, g with
  | a0 :: a1 :: _, g0 :: g1 :: _ =>
      bind (vort v) (fun w => Ok (MkPictures v [sub (Opp a0) g0; sub (Opp a1) g1] w q))
  | _, _ => Err IndexError
  end)).

(** symbolic.py:538 the check plot carries in a comment: [div(adv(V)) + div(grad(p))], "must be zero" *)
Definition must_be_zero (v : list expr) (q : expr) : res expr :=
  bind (adv v) (fun a => bind (div a) (fun x => bind (grad q) (fun g => bind (div g) (fun y => Ok (Add x y))))).

(** symbolic.py:518-534 [lambdify2]: l0 gives the value of an expression, l1 those of the first two
    components of a pair, as functions of x and y *)
Definition at_xy (x y : R) : env := MkEnv (fun v => if Nat.eqb v 0 then x else if Nat.eqb v 1 then y else 0%R) (fun _ _ _ _ _ => 0%R).
Definition l0 (f : expr) (x y : R) : R := eval (at_xy x y) f.
Definition l1 (f : list expr) (x y : R) : res (R * R) :=
  match f with a :: b :: _ => Ok (l0 a x y, l0 b x y) | _ => Err IndexError end.
