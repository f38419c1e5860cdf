(** The same ions or compounds listed in another order. *)
From Coq Require Import Reals Arith.

(** [p]: place [i] of the new list holds what was at place [p i]. *)
Definition relabelling (n : nat) (p : nat -> nat) : Prop :=
  (forall i, (i < n)%nat -> (p i < n)%nat) /\
  forall i j, (i < n)%nat -> (j < n)%nat -> p i = p j -> i = j.
