(** Specification for C201: how far apart two columns are in the resin at the inlet, and a resin loaded to capacity there. *)
From Coq Require Import Reals Arith.
From Verif Require Import Lib_Sum.
Open Scope R_scope.

(** sum over radial points and ions of the differences in loading *)
Definition inlet_distance (nr n : nat) (u v : nat -> nat -> nat -> R) : R :=
  rsum nr (fun r => rsum n (fun i => Rabs (u (S r) i 0%nat - v (S r) i 0%nat))).
(** the beads at the inlet hold what they can, nothing negative, and some presaturant *)
Definition loaded_inlet (nr n : nat) (Q : R) (u : nat -> nat -> nat -> R) : Prop :=
  forall r, (1 <= r <= nr)%nat -> 0 < u r 0%nat 0%nat /\ (forall i, (i < n)%nat -> 0 <= u r i 0%nat) /\ rsum n (fun i => u r i 0%nat) = Q.
