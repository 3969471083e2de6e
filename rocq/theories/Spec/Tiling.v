(** Consecutive non-degenerate intervals covering [lo, hi]. Independent of the model. *)
From Coq Require Import Reals List.
Import ListNotations.
Local Open Scope R_scope.

(** l and r are the left and right ends of the intervals, in order. *)
Definition tiles (lo hi : R) (l r : list R) : Prop :=
  length l = length r /\ (0 < length l)%nat /\
  nth 0 l 0 = lo /\ nth (length r - 1) r 0 = hi /\
  (forall j, (j + 1 < length l)%nat -> nth j r 0 = nth (j + 1) l 0) /\
  (forall j, (j < length l)%nat -> nth j l 0 < nth j r 0).

(** d are the lengths of the intervals *)
Definition lengths_of (d l r : list R) : Prop :=
  length d = length l /\ forall j, (j < length l)%nat -> nth j d 0 = nth j r 0 - nth j l 0.

Definition increasing (l : list R) : Prop :=
  forall i j, (i < j < length l)%nat -> nth i l 0 < nth j l 0.
