(** Specification vocabulary for the granular-carbon column. *)
From Coq Require Import Reals List Arith.
From Verif Require Import Lib_Sum Lib_Pow Lib_Traj S_Colloc.
Open Scope R_scope.

Definition delta (i j : nat) : R := if Nat.eqb i j then 1 else 0.

(** [B] is the inverse of the n x n matrix [A]. *)
Definition inverts (n : nat) (A B : nat -> nat -> R) : Prop :=
  forall i j, (i < n)%nat -> (j < n)%nat ->
    rsum n (fun k => A i k * B k j) = delta i j /\ rsum n (fun k => B i k * A k j) = delta i j.

(** What numpy.linalg.inv is relied on for: the inverse of an n x n matrix that has one. *)
Definition inverter (inv : nat -> (nat -> nat -> R) -> nat -> nat -> R) (n : nat) : Prop :=
  forall Q, (exists M, inverts n Q M) -> inverts n Q (inv n Q).

(** [v] is the integral of [f] from 0 to 1. *)
Definition integral01 (f : R -> R) (v : R) : Prop :=
  exists F, derivative F f /\ v = F 1 - F 0.

(** Product of (u - u_i) over the first [n] points. *)
Fixpoint node_product (n : nat) (x : nat -> R) (u : R) : R :=
  match n with O => 1 | S m => node_product m x u * (u - x m) end.

(** What scipy.special.j_roots(m, 1, 0.5) is documented to return: m increasing points
    inside (-1, 1), the zeros of the Jacobi polynomial.  With u = (1+x)/2 = r^2 the
    node polynomial is orthogonal to every polynomial of lower degree for the weight
    (1-u) sqrt(u) du, that is r^2 (1 - r^2) dr. *)
Definition jacobi_nodes (m : nat) (x : nat -> R) : Prop :=
  (forall i, (i < m)%nat -> -1 < x i < 1) /\
  (forall i j, (i < j)%nat -> (j < m)%nat -> x i < x j) /\
  forall c, integral01
    (fun r => r ^ 2 * (1 - r ^ 2) * node_product m (fun i => (x i + 1) / 2) (r ^ 2) * poly m c (r ^ 2)) 0.

(** Two states agree everywhere but possibly at one entry (compound, row, depth). *)
Definition agree_but (n nr nz : nat) (u1 u2 : nat -> nat -> nat -> R) (i' r' z' : nat) : Prop :=
  forall i r z, (i < n)%nat -> (r <= nr)%nat -> (z < nz)%nat ->
    (i, r, z) <> (i', r', z') -> u1 i r z = u2 i r z.

(** A history of the state solving dy/dT = rhs T y on [0, Tf]. *)
Definition gac_trajectory (n nr nz : nat) (rhs : R -> (nat -> nat -> nat -> R) -> nat -> nat -> nat -> R)
  (Tf : R) (y : R -> nat -> nat -> nat -> R) : Prop :=
  forall i r z, (i < n)%nat -> (r <= nr)%nat -> (z < nz)%nat ->
    evolves 0 Tf (fun T => y T i r z) (fun T => rhs T (y T) i r z).

(** Ideal adsorbed solution theory with Freundlich isotherms (K, 1/n = xn): a mixture
    loading [q] in equilibrium with concentrations [C].  Every compound has a
    single-compound reference state (C0, q0) on its own isotherm, all at the same
    spreading pressure [P]; the mixture obeys Raoult's law, and the reference loadings
    add up ideally. *)
Definition ideal_adsorbed (n : nat) (K xn q C : nat -> R) : Prop :=
  let Q := rsum n q in
  exists P C0 q0, 0 < P /\
    (forall i, (i < n)%nat ->
       0 < C0 i /\ q0 i = K i * rpow (C0 i) (xn i) /\ q0 i / xn i = P /\ C i = q i / Q * C0 i) /\
    rsum n (fun i => q i / Q / q0 i) = 1 / Q.
