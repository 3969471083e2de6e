(** Model of dec/forms.py: the enumeration of the operators with their domains and codomains.
    Degrees in operators_lambda are Python ints (Z); the dimension n of operators_by_degree and operators
    is a natural number (range of a negative number is empty). *)
From Coq Require Import ZArith List String Decimal DecimalNat DecimalString Bool.
From Verif Require Import Model.Num.
Import ListNotations.
Local Open Scope string_scope.

(** forms.py:3-24 [operators_lambda] *)
Definition lam_D (k : Z) : Z := (k + 1)%Z.
Definition lam_H (n k : Z) : Z := (n - k)%Z.
Definition lam_W (k l : Z) : Z := (k + l)%Z.
Definition lam_C (k l : Z) : res Z := if Z.eqb k 1 then Ok (l - 1)%Z else Err AssertionError.

(** forms.py:26-49 [operators_by_degree]; for n a natural number all the entries are natural numbers *)
Record by_degree := MkBy { bD : list (nat * nat); bH : list (nat * nat); bW : list ((nat * nat) * nat); bC : list ((nat * nat) * nat) }.
Definition operators_by_degree (n : nat) : by_degree :=
  MkBy (map (fun k => (k, k + 1)) (seq 0 n))
       (map (fun k => (k, n - k)) (seq 0 (n + 1)))
       (map (fun p => (p, fst p + snd p))
          (filter (fun p => Nat.leb (fst p) (snd p) && Nat.leb (fst p + snd p) n)
             (list_prod (seq 0 (n + 1)) (seq 0 (n + 1)))))
       (map (fun k => ((1, k), k - 1)) (seq 1 n)).

(** forms.py:52-85 [operators]: a form is (degree, isprimal); None is a continuous form *)
Definition form := (nat * bool)%type.
Definition operator := (string * option form * option form)%type.
(** '{0}{1}{2}'.format(n, k, 'd' if not t else '') *)
Definition str (k : nat) : string := NilEmpty.string_of_uint (Nat.to_uint k).
Definition name (o : string) (k : nat) (t : bool) : string := o ++ str k ++ (if t then "" else "d").
Record all_ops := MkOps { oP : list operator; oR : list operator; oD : list operator; oH : list operator }.
Definition all_forms (n : nat) : list form := list_prod (seq 0 (n + 1)) [true; false].
Definition operators (n : nat) : all_ops :=
  MkOps (map (fun f => (name "P" (fst f) (snd f), None, Some f)) (all_forms n))
        (map (fun f => (name "R" (fst f) (snd f), Some f, None)) (all_forms n))
        (map (fun f => (name "D" (fst f) (snd f), Some f, Some (fst f + 1, snd f)))
           (filter (fun f => Nat.ltb (fst f) n) (all_forms n)))
        (map (fun f => (name "H" (fst f) (snd f), Some f, Some (n - fst f, negb (snd f)))) (all_forms n)).
