(** Model of dec/symbolic.py and dec/symform.py.

    sympy expressions are modelled by their syntax trees [expr], [sympy.diff] by the usual rules, and
    the number an expression stands for by [eval].  sympy's automatic rewriting (x*0 -> 0, ...) is not
    modelled: theorems compare expressions by value, on every environment. *)
From Coq Require Import ZArith Reals List String Arith.
From Verif Require Import Model.Num.
Import ListNotations.
Local Open Scope nat_scope.

(** ** Component operations.
    The tables of dec/symbolic.py are used with sympy expressions (symbolic forms) and with numpy
    arrays (discrete forms); [CompOps] are the operations the lambdas apply to the components:
    [a*b], [a-b], [a+b], [-a]. *)
Class CompOps (A : Type) := MkCompOps {
  pmul : A -> A -> A; psub : A -> A -> A; padd : A -> A -> A; popp : A -> A }.

(** What the operators return: the number 0 or a tuple of components. *)
Inductive cz (A : Type) : Type := CZero | Comps (l : list A).
Arguments CZero {A}. Arguments Comps {A} l.

Section Tables.
Context {A : Type} {O : CompOps A}.
(** [c[i]] on a tuple of components; forms always carry the number of components their degree
    requires (symform.py:__init__), so the default is never reached on forms. *)
Variable dflt : A.
Notation "c .[ i ]" := (nth i c dflt) (at level 2, i at level 200).

Definition wtable := list ((nat * nat) * (list A -> list A -> list A)).
(** [W[k, l]] ; None is KeyError *)
Fixpoint wget (W : wtable) (k l : nat) : option (list A -> list A -> list A) :=
  match W with
  | [] => None
  | ((k', l'), w) :: W' => if andb (Nat.eqb k k') (Nat.eqb l l') then Some w else wget W' k l
  end.

(** [c * (-1)**(k*l)] *)
Definition sgn_mul (kl : nat) (c : A) : A := if Nat.even kl then c else popp c.

(** symbolic.py:202-215 [antisymmetrize_wedge] (the loop runs over the keys present at the start; the
    lambda it stores looks up W[k, l] when called, which the loop does not overwrite) *)
Definition antisymmetrize_wedge (W : wtable) : wtable :=
  W ++ flat_map (fun e : (nat * nat) * (list A -> list A -> list A) =>
         let '((k, l), w) := e in
         if Nat.eqb k l then [] else [((l, k), fun a b => map (sgn_mul (k * l)) (w b a))]) W.

(** symbolic.py:217-232 [wedge_1d] *)
Definition wedge_1d : wtable := antisymmetrize_wedge
  [ ((0,0), fun a b => [pmul (a.[0]) (b.[0])]);
    ((0,1), fun a b => [pmul (a.[0]) (b.[0])]) ].

(** symbolic.py:234-257 [wedge_2d] *)
Definition wedge_2d : wtable := antisymmetrize_wedge
  [ ((0,0), fun a b => [pmul (a.[0]) (b.[0])]);
    ((0,1), fun a b => [pmul (a.[0]) (b.[0]); pmul (a.[0]) (b.[1])]);
    ((0,2), fun a b => [pmul (a.[0]) (b.[0])]);
    ((1,1), fun a b => [psub (pmul (a.[0]) (b.[1])) (pmul (a.[1]) (b.[0]))]) ].

(** symbolic.py:259-272 [contraction_1d] *)
Definition contraction_1d : list (list A -> list A -> cz A) :=
  [ (fun X f => CZero); (fun X f => Comps [pmul (X.[0]) (f.[0])]) ].

(** symbolic.py:274-291 [contraction_2d] *)
Definition contraction_2d : list (list A -> list A -> cz A) :=
  [ (fun X f => CZero);
    (fun X f => Comps [padd (pmul (X.[0]) (f.[0])) (pmul (X.[1]) (f.[1]))]);
    (fun X f => Comps [pmul (popp (X.[1])) (f.[0]); pmul (X.[0]) (f.[0])]) ].

(** symbolic.py:175-185 [hodge_star_1d] *)
Definition hodge_star_1d : list (list A -> list A) := [ (fun f => f); (fun f => f) ].

(** symbolic.py:187-200 [hodge_star_2d] *)
Definition hodge_star_2d : list (list A -> list A) :=
  [ (fun f => f); (fun f => [popp (f.[1]); f.[0]]); (fun f => f) ].
End Tables.

(** ** sympy expressions.
    [Sym v]: the symbol number v.  [App f i j]: an undefined function f of the symbols 0 and 1
    (x and y of symbolic.py:11-18), differentiated i times in x and j times in y. *)
Inductive expr : Type :=
  | Cst (c : R) | Sym (v : nat) | App (f i j : nat)
  | Add (a b : expr) | Mul (a b : expr) | Opp (a : expr) | Inv (a : expr)
  | Pow (a : expr) (n : nat) | Sin (a : expr) | Cos (a : expr) | Exp (a : expr) | Sqrt (a : expr).

#[export] Instance ExprOps : CompOps expr :=
  MkCompOps expr Mul (fun a b => Add a (Opp b)) Add Opp.
Definition e0 : expr := Cst 0.

(** [sympy.diff(e, v)] for a symbol v *)
Fixpoint sdiff (e : expr) (v : nat) : expr :=
  match e with
  | Cst _ => Cst 0
  | Sym w => if Nat.eqb v w then Cst 1 else Cst 0
  | App f i j => if Nat.eqb v 0 then App f (S i) j else if Nat.eqb v 1 then App f i (S j) else Cst 0
  | Add a b => Add (sdiff a v) (sdiff b v)
  | Mul a b => Add (Mul (sdiff a v) b) (Mul a (sdiff b v))
  | Opp a => Opp (sdiff a v)
  | Inv a => Opp (Mul (sdiff a v) (Mul (Inv a) (Inv a)))
  | Pow a O => Cst 0
  | Pow a (S n) => Mul (Mul (Cst (INR (S n))) (Pow a n)) (sdiff a v)
  | Sin a => Mul (Cos a) (sdiff a v)
  | Cos a => Opp (Mul (Sin a) (sdiff a v))
  | Exp a => Mul (Exp a) (sdiff a v)
  | Sqrt a => Mul (sdiff a v) (Inv (Mul (Cst 2) (Sqrt a)))
  end.

(** Values: numbers for the symbols, functions of two variables (with their formal partial
    derivatives) for the undefined functions. *)
Record env := MkEnv { sval : nat -> R; fval : nat -> nat -> nat -> R -> R -> R }.
Fixpoint eval (r : env) (e : expr) : R :=
  match e with
  | Cst c => c
  | Sym v => sval r v
  | App f i j => fval r f i j (sval r 0) (sval r 1)
  | Add a b => eval r a + eval r b
  | Mul a b => eval r a * eval r b
  | Opp a => - eval r a
  | Inv a => / eval r a
  | Pow a n => eval r a ^ n
  | Sin a => sin (eval r a)
  | Cos a => cos (eval r a)
  | Exp a => exp (eval r a)
  | Sqrt a => sqrt (eval r a)
  end%R.

(** ** Charts: symbolic.py:42-76 [Chart].  Charts have no __eq__, so == compares identity: [cid]. *)
Record chart := MkChart { cid : nat; coords : list nat }.
Definition dimension (c : chart) : nat := List.length (coords c).
Definition chart_eqb (a b : chart) : bool := Nat.eqb (cid a) (cid b).

(** symbolic.py:141-153 [derivative_1d] *)
Definition derivative_1d (x : nat) : list (list expr -> cz expr) :=
  [ (fun f => Comps [sdiff (nth 0 f e0) x]); (fun f => CZero) ].
(** symbolic.py:155-173 [derivative_2d] *)
Definition derivative_2d (x y : nat) : list (list expr -> cz expr) :=
  let Dx := fun f => sdiff f x in
  let Dy := fun f => sdiff f y in
  [ (fun f => Comps [Dx (nth 0 f e0); Dy (nth 0 f e0)]);
    (fun f => Comps [Add (Opp (Dy (nth 0 f e0))) (Dx (nth 1 f e0))]);
    (fun f => CZero) ].

(** symbolic.py:42-76 [Chart]: the tables a chart carries; other dimensions raise *)
Record decs := MkDecs {
  dD : list (list expr -> cz expr); dH : list (list expr -> list expr);
  dW : @wtable expr; dC : list (list expr -> list expr -> cz expr) }.
Definition chart_dec (c : chart) : res decs :=
  match coords c with
  | [x] => Ok (MkDecs (derivative_1d x) (hodge_star_1d (A := expr)) (wedge_1d e0) (contraction_1d e0))
  | [x; y] => Ok (MkDecs (derivative_2d x y) (hodge_star_2d e0) (wedge_2d e0) (contraction_2d e0))
  | _ => Err NotImplementedError
  end.

(** ** helper.py:7-29 [nCr]; factorial of a negative number raises ValueError *)
Definition factorial (n : Z) : res Z := if (n <? 0)%Z then Err ValueError else Ok (Z.of_nat (fact (Z.to_nat n))).
Definition nCr (n r : Z) : res Z :=
  bind (factorial n) (fun fn => bind (factorial r) (fun fr => bind (factorial (n - r)) (fun fnr =>
    Ok (fn / fr / fnr)%Z))).

(** ** Forms: symform.py:5-150 [symform_factory] *)
Record sform := MkSform { sdeg : nat; sgrid : chart; scomps : list expr }.

(** symform.py:33-39 [__init__] *)
Definition sform_init (degree : Z) (g : chart) (c : list expr) : res sform :=
  if (degree <=? Z.of_nat (dimension g))%Z then
    bind (nCr (Z.of_nat (dimension g)) degree) (fun k =>
      if Z.eqb (Z.of_nat (List.length c)) k then Ok (MkSform (Z.to_nat degree) g c) else Err AssertionError)
  else Err AssertionError.

(** Values the operators work with: the int 0, or a form. *)
Inductive sval_ : Type := SZero | SForm (f : sform).

Definition of_cz (degree : Z) (g : chart) (c : cz expr) : res sval_ :=
  match c with CZero => Ok SZero | Comps l => bind (sform_init degree g l) (fun f => Ok (SForm f)) end.

(** [t[d]] on a tuple of functions *)
Definition tget {B} (t : list B) (d : nat) : res B :=
  match nth_error t d with Some b => Ok b | None => Err IndexError end.

(** symform.py:83-87 [D] *)
Definition sD (f : sform) : res sval_ :=
  bind (chart_dec (sgrid f)) (fun dc => bind (tget (dD dc) (sdeg f)) (fun op =>
    of_cz (Z.of_nat (sdeg f) + 1) (sgrid f) (op (scomps f)))).
(** symform.py:90-95 [H] *)
Definition sH (f : sform) : res sval_ :=
  bind (chart_dec (sgrid f)) (fun dc => bind (tget (dH dc) (sdeg f)) (fun op =>
    of_cz (Z.of_nat (dimension (sgrid f)) - Z.of_nat (sdeg f)) (sgrid f) (Comps (op (scomps f))))).
(** symform.py:97-101 [W] *)
Definition sW (a b : sform) : res sform :=
  if chart_eqb (sgrid a) (sgrid b) then
    bind (chart_dec (sgrid a)) (fun dc =>
      match wget (dW dc) (sdeg a) (sdeg b) with
      | None => Err KeyError
      | Some w => sform_init (Z.of_nat (sdeg a) + Z.of_nat (sdeg b)) (sgrid a) (w (scomps a) (scomps b))
      end)
  else Err AssertionError.
(** symform.py:103-110 [C] *)
Definition sC (X f : sform) : res sval_ :=
  if Nat.eqb (sdeg X) 1 then
    if chart_eqb (sgrid X) (sgrid f) then
      bind (chart_dec (sgrid X)) (fun dc => bind (tget (dC dc) (sdeg f)) (fun op =>
        of_cz (Z.of_nat (sdeg f) - 1) (sgrid X) (op (scomps X) (scomps f))))
    else Err AssertionError
  else Err AssertionError.

(** symform.py:65-74 [binary] *)
Inductive operand : Type := OForm (f : sform) | OScal (c : expr).
Definition sbinary (op : expr -> expr -> expr) (a : sform) (o : operand) : res sform :=
  match o with
  | OForm b =>
      if Nat.eqb (sdeg a) (sdeg b) then
        if chart_eqb (sgrid a) (sgrid b) then
          sform_init (Z.of_nat (sdeg a)) (sgrid a) (map (fun p => op (fst p) (snd p)) (combine (scomps a) (scomps b)))
        else Err AssertionError
      else Err AssertionError
  | OScal c => sform_init (Z.of_nat (sdeg a)) (sgrid a) (map (fun s => op s c) (scomps a))
  end.
(** __add__, __radd__ (o + s), __sub__, __truediv__, installed at symform.py:141-149 *)
Definition s_add := sbinary Add.
Definition s_radd := sbinary (fun s o => Add o s).
Definition s_sub := sbinary (fun s o => Add s (Opp o)).
Definition s_rsub := sbinary (fun s o => Add o (Opp s)).
Definition s_truediv := sbinary (fun s o => Mul s (Inv o)).
(** symform.py:76-80 [unary] with __neg__ *)
Definition s_neg (a : sform) : res sform :=
  sform_init (Z.of_nat (sdeg a)) (sgrid a) (map Opp (scomps a)).
(** symform.py:53-57 [__rmul__]: the call [type(self)(self.degree, <generator>)] passes two of the three
    required arguments, so it raises before anything is computed *)
Inductive rmul_arg : Type := Callable (g : sform -> res sform) | Scalar (c : expr).
Definition s_rmul (o : rmul_arg) (f : sform) : res sform :=
  match o with Callable g => g f | Scalar _ => Err TypeError end.

(** Python's [a + b] on results: int + int, int + form (form.__radd__), form + int (form.__add__) *)
Definition py_add (a b : sval_) : res sval_ :=
  match a, b with
  | SZero, SZero => Ok SZero
  | SZero, SForm f => bind (s_radd f (OScal (Cst 0))) (fun r => Ok (SForm r))
  | SForm f, SZero => bind (s_add f (OScal (Cst 0))) (fun r => Ok (SForm r))
  | SForm f, SForm g => bind (s_add f (OForm g)) (fun r => Ok (SForm r))
  end.

(** ** Module level functions *)
(** symbolic.py:353-362 [D] *)
Definition D (a : sval_) : res sval_ := match a with SZero => Ok SZero | SForm f => sD f end.
(** symbolic.py:368-377 [H] *)
Definition H (a : sval_) : res sval_ := match a with SZero => Ok SZero | SForm f => sH f end.
(** symbolic.py:383-394 [W] : the int 0 has no attribute W *)
Definition W (a b : sval_) : res sval_ :=
  match a, b with
  | SForm f, SForm g => bind (sW f g) (fun r => Ok (SForm r))
  | _, _ => Err AttributeError
  end.
(** symbolic.py:400-415 [Dot] *)
Definition Dot (a b : sval_) : res sval_ := bind (H b) (fun hb => bind (W a hb) H).
(** symbolic.py:421-435 [C] *)
Definition C (X f : sval_) : res sval_ :=
  match X, f with SForm X, SForm f => sC X f | _, _ => Ok SZero end.
(** symbolic.py:441-461 [Lie] *)
Definition Lie (X f : sval_) : res sval_ :=
  bind (D f) (fun df => bind (C X df) (fun a => bind (C X f) (fun cf => bind (D cf) (fun b => py_add a b)))).
(** symbolic.py:467-477 [Laplacian] *)
Definition Laplacian (f : sval_) : res sval_ :=
  bind (D f) (fun a => bind (H a) (fun a => bind (D a) (fun a => bind (H a) (fun a =>
  bind (H f) (fun b => bind (D b) (fun b => bind (H b) (fun b => bind (D b) (fun b => py_add a b)))))))).

(** symbolic.py:293-321 [simplified_forms], on the module's chart Chart(x, y): symbols 0 and 1 *)
Definition chart_xy : chart := MkChart 0 [0; 1].
Definition F0 (f : expr) : res sform := sform_init 0 chart_xy [f].
Definition F1 (f : list expr) : res sform := sform_init 1 chart_xy f.
Definition F2 (f : expr) : res sform := sform_init 2 chart_xy [f].

(** [tuple(form)] / [form[0]]; on the int 0 indexing and iteration raise TypeError *)
Definition as_tuple (a : sval_) : res (list expr) :=
  match a with SZero => Err TypeError | SForm f => Ok (scomps f) end.
Definition item0 (a : sval_) : res expr :=
  match a with SZero => Err TypeError | SForm f => match scomps f with e :: _ => Ok e | [] => Err IndexError end end.

(** symbolic.py:483-489 [grad] *)
Definition grad (f : expr) : res (list expr) := bind (F0 f) (fun a => bind (D (SForm a)) as_tuple).
(** symbolic.py:491-498 [div] *)
Definition div (V : list expr) : res expr :=
  bind (F1 V) (fun f => bind (H (SForm f)) (fun a => bind (D a) (fun a => bind (H a) item0))).
(** symbolic.py:500-507 [vort] *)
Definition vort (V : list expr) : res expr :=
  bind (F1 V) (fun f => bind (D (SForm f)) (fun a => bind (H a) item0)).
(** symbolic.py:509-516 [adv] *)
Definition adv (V : list expr) : res (list expr) :=
  match V with
  | v0 :: v1 :: _ =>
      bind (grad (Add (Pow v0 2) (Pow v1 2))) (fun G => bind (F1 V) (fun V_ => bind (F1 G) (fun G_ =>
      bind (Lie (SForm V_) (SForm V_)) (fun L => bind (s_truediv G_ (OScal (Cst 2))) (fun G2 =>
      match L with
      | SZero => Err TypeError
      | SForm L => bind (s_sub L (OForm G2)) (fun r => Ok (scomps r))
      end)))))
  | _ => Err IndexError
  end.

(** ** symbolic.py:106-139 [simplex_measure].
    Local variables are a partial map from names to values; the names assigned anywhere in the
    function are local everywhere in it, so reading one that this path did not assign raises
    UnboundLocalError. *)
Definition locals := list (string * R).
Fixpoint read (v : string) (l : locals) : res R :=
  match l with
  | [] => Err UnboundLocalError
  | (w, c) :: l' => if String.eqb v w then Ok c else read v l'
  end.
(** [((n00, n01, ..), (n10, ..), ..) = sigma]: assigned left to right, so later names win *)
Fixpoint assign1 (ns : list string) (vs : list R) (l : locals) : res locals :=
  match ns, vs with
  | [], [] => Ok l
  | n :: ns', v :: vs' => assign1 ns' vs' ((n, v) :: l)
  | _, _ => Err ValueError
  end.
Fixpoint unpack (ns : list (list string)) (vs : list (list R)) (l : locals) : res locals :=
  match ns, vs with
  | [], [] => Ok l
  | n :: ns', v :: vs' => bind (assign1 n v l) (unpack ns' vs')
  | _, _ => Err ValueError
  end.
Local Open Scope string_scope.
Definition simplex_measure (s : list (list R)) : res (option R) :=
  match s with
  | [] => Err IndexError
  | s0 :: _ =>
    let n := List.length s0 in let k := List.length s in
    if forallb (fun v => Nat.eqb n (List.length v)) s then
      match n, k with
      | 1, 1 => Ok (Some 1%R)
      | 1, 2 => bind (unpack [["x0"]; ["x1"]] s []) (fun l =>
          bind (read "x1" l) (fun x1 => bind (read "x0" l) (fun x0 => Ok (Some (x1 - x0)%R))))
      | 2, 1 => Ok (Some 1%R)
      | 2, 2 => bind (unpack [["x0"; "y0"]; ["x1"; "y1"]] s []) (fun l =>
          bind (read "x1" l) (fun x1 => bind (read "x0" l) (fun x0 =>
          bind (read "y1" l) (fun y1 => bind (read "y0" l) (fun y0 =>
            Ok (Some (sqrt ((x1 - x0)^2 + (y1 - y0)^2))%R))))))
      | 2, 3 => bind (unpack [["x0"; "y0"]; ["x1"; "y1"]; ["y1"; "y2"]] s []) (fun l =>
          bind (read "x1" l) (fun x1 => bind (read "x0" l) (fun x0 =>
          bind (read "y2" l) (fun y2 => bind (read "y0" l) (fun y0 =>
          bind (read "x2" l) (fun x2 => bind (read "y1" l) (fun y1 =>
            Ok (Some (((x1-x0)*(y2-y0) - (x2-x0)*(y1-y0))/2))%R)))))))
      | 3, 1 => Ok (Some 1%R)
      | 3, 2 => bind (unpack [["x0"; "y0"; "z0"]; ["x1"; "y1"; "z1"]] s []) (fun l =>
          bind (read "x1" l) (fun x1 => bind (read "x0" l) (fun x0 =>
          bind (read "y1" l) (fun y1 => bind (read "y0" l) (fun y0 =>
          bind (read "z1" l) (fun z1 => bind (read "z0" l) (fun z0 =>
            Ok (Some (sqrt ((x1 - x0)^2 + (y1 - y0)^2 + (z1 - z0)^2))%R))))))))
      | 3, 3 => bind (unpack [["x0";"y0";"z0"]; ["x1";"y1";"z1"]; ["x2";"y2";"z2"]] s []) (fun _ => Err NotImplementedError)
      | 3, 4 => bind (unpack [["x0";"y0";"z0"]; ["x1";"y1";"z1"]; ["x2";"y2";"z2"]; ["x3";"y3";"z3"]] s []) (fun _ => Err NotImplementedError)
      | _, _ => Ok None
      end
    else Err AssertionError
  end.
