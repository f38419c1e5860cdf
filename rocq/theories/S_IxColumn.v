(** Specification vocabulary for column models. *)
From Coq Require Import Reals List Arith.
From Verif Require Import Lib_Sum Lib_Traj S_Colloc S_IxEq.
Open Scope R_scope.

(** A history of the state array u[phase, ion, depth] on the time interval [0,Tf]
    that solves du/dT = rhs T u: every entry is continuous on the interval and has
    the prescribed derivative inside it. *)
Definition is_trajectory (nr NION nz : nat) (rhs : R -> (nat -> nat -> nat -> R) -> nat -> nat -> nat -> R)
  (Tf : R) (y : R -> nat -> nat -> nat -> R) : Prop :=
  forall r i z, (r <= nr)%nat -> (i < NION)%nat -> (z < nz)%nat ->
    evolves 0 Tf (fun T => y T r i z) (fun T => rhs T (y T) r i z).

(** Two states agree everywhere but possibly at one entry. *)
Definition agree_except (nr NION nz : nat) (u1 u2 : nat -> nat -> nat -> R) (r' i' z' : nat) : Prop :=
  forall r i z, (r <= nr)%nat -> (i < NION)%nat -> (z < nz)%nat ->
    (r, i, z) <> (r', i', z') -> u1 r i z = u2 r i z.

(** Average over a bead with quadrature weights for the sphere (they sum to 1/3). *)
Definition bead_average (nr : nat) (W : nat -> R) (f : nat -> R) : R :=
  3 * rsum nr (fun m => W m * f m).

Definition strictly_increasing (l : list R) : Prop :=
  forall i j, (i < j)%nat -> (j < length l)%nat -> nth i l 0 < nth j l 0.

(** scipy's root finders return increasing points strictly inside (0,1). *)
Definition good_roots (legendre : nat -> nat -> R) (jacobi : nat -> R -> R -> nat -> R) : Prop :=
  (forall m, interior_roots m (legendre m)) /\ (forall m p q, interior_roots m (jacobi m p q)).

(** A resin composition and a liquid in equilibrium: mass action when the sheet has
    a divalent ion, separation factors when it has none. *)
Definition in_equilibrium (n : nat) (K : nat -> R) (z : nat -> nat) (q C : nat -> R) : Prop :=
  ((exists i, (i < n)%nat /\ z i = 2%nat) /\ mass_action_law n K z q C) \/
  ((forall i, (i < n)%nat -> z i <> 2%nat) /\ separation_law n K q C).

(** Even polynomial of degree < 2n, and the Laplacian of a radial function in a sphere. *)
Definition even_polynomial (n : nat) (f : R -> R) : Prop :=
  exists c, forall r, f r = poly n c (r ^ 2).
Definition sphere_laplacian (f' f'' : R -> R) (r : R) : R := f'' r + 2 / r * f' r.
