(** Specification of batch-reactor runs. *)
From Coq Require Import Reals Arith.
From Verif Require Import Lib_Sum Lib_Traj.
Open Scope R_scope.

(** [y] follows, from 0 to [Tf], a right-hand side that may be undefined. *)
Definition is_batch_trajectory (nr NION : nat) (rhs : (nat -> nat -> R) -> option (nat -> nat -> R))
  (Tf : R) (y : R -> nat -> nat -> R) : Prop :=
  exists d : R -> nat -> nat -> R,
    (forall T, 0 < T < Tf -> rhs (y T) = Some (d T)) /\
    forall r i, (r <= nr)%nat -> (i < NION)%nat ->
      evolves 0 Tf (fun T => y T r i) (fun T => d T r i).

(** Amount of ion [i]: liquid volume times concentration plus resin volume times
    the bead average 3 sum(W u) (the weights integrate r^2 over the unit sphere). *)
Definition amount (nr : nat) (W : nat -> R) (VL VR : R) (u : nat -> nat -> R) (i : nat) : R :=
  VL * u 0%nat i + VR * (3 * rsum nr (fun m => W m * u (S m) i)).
