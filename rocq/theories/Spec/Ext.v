(** Vocabulary for the statements about symbolic forms. *)
From Coq Require Import ZArith Reals List.
From Verif Require Import Model.Num Model.Sym.
Import ListNotations.
Local Open Scope R_scope.

(** A form as users build them: [form(degree, Chart(..), components)] for a 1D or 2D chart. *)
Definition valid (f : sform) : Prop :=
  (dimension (sgrid f) = 1 \/ dimension (sgrid f) = 2)%nat /\
  sform_init (Z.of_nat (sdeg f)) (sgrid f) (scomps f) = Ok f.

(** The number of components of a k-form in dimension n <= 2. *)
Definition ncomp (n k : nat) : nat := match n, k with 2, 1 => 2 | _, _ => 1 end%nat.

(** The value of component i at the point (and functions) r. *)
Definition val (r : env) (f : sform) (i : nat) : R := eval r (nth i (scomps f) (Cst 0)).

(** Two forms that agree at every point. *)
Definition same (a b : sform) : Prop :=
  sdeg a = sdeg b /\ sgrid a = sgrid b /\ length (scomps a) = length (scomps b) /\
  forall r i, (i < length (scomps a))%nat -> val r a i = val r b i.

(** The form is zero at every point. *)
Definition vanishes (a : sval_) : Prop :=
  match a with SZero => True | SForm f => forall r i, (i < length (scomps f))%nat -> val r f i = 0 end.

(** [a = b + s * c] at every point *)
Definition is_sum (a b : sform) (s : R) (c : sform) : Prop :=
  sdeg a = sdeg b /\ sdeg a = sdeg c /\ length (scomps a) = length (scomps b) /\ length (scomps a) = length (scomps c) /\
  forall r i, (i < length (scomps a))%nat -> val r a i = val r b i + s * val r c i.

(** What the components mean: a 1-form is a linear function of a vector, a 2-form in the plane an
    alternating bilinear function of two vectors. *)
Definition on1 (r : env) (f : sform) (v : list R) : R :=
  match scomps f, v with
  | [a], [v1] => eval r a * v1
  | [a; b], [v1; v2] => eval r a * v1 + eval r b * v2
  | _, _ => 0
  end.
Definition on2 (r : env) (f : sform) (v w : R * R) : R :=
  val r f 0 * (fst v * snd w - snd v * fst w).

(** The partial derivative of (the value of) e in the symbol v. *)
Definition upd (r : env) (v : nat) (t : R) : env :=
  MkEnv (fun w => if Nat.eqb w v then t else sval r w) (fval r).

(** Pascal's triangle *)
Fixpoint choose (n k : nat) : nat :=
  match n, k with
  | _, O => 1
  | O, S _ => 0
  | S n', S k' => choose n' k' + choose n' (S k')
  end%nat.

(** The sum of f over the coordinates of a chart. *)
Fixpoint coord_sum (cs : list nat) (f : nat -> nat -> R) (i : nat) : R :=
  match cs with [] => 0 | v :: cs' => f i v + coord_sum cs' f (S i) end.
