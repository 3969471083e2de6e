(** The integral of a complex function of a real variable, by its real and imaginary parts. *)
From Coq Require Import Reals.
From Coquelicot Require Import Coquelicot.
Definition is_CRInt (f : R -> C) (a b : R) (v : C) : Prop :=
  is_RInt (fun t => Re (f t)) a b (Re v) /\ is_RInt (fun t => Im (f t)) a b (Im v).
