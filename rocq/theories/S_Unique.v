(** Specification vocabulary for runs that are determined by their inputs. *)
From Coq Require Import Reals Arith Bool.
From Verif Require Import Lib_Sum S_IxEq.
Open Scope R_scope.

(** [p] is continuous on [a, b], seen from inside the interval. *)
Definition continuous_between (a b : R) (p : R -> R) : Prop :=
  forall t, a <= t <= b -> forall e, 0 < e -> exists d, 0 < d /\
    forall s, a <= s <= b -> Rabs (s - t) < d -> Rabs (p s - p t) < e.

(** Two column states are equal: phase, ion and depth, in this order. *)
Definition same_state (nr n nz : nat) (u v : nat -> nat -> nat -> R) : Prop :=
  forall r i z, (r <= nr)%nat -> (i < n)%nat -> (z < nz)%nat -> u r i z = v r i z.
(** Equal but perhaps in the liquid at the inlet, where the model reads the influent instead. *)
Definition same_but_inlet (nr n nz : nat) (u v : nat -> nat -> nat -> R) : Prop :=
  forall r i z, (r <= nr)%nat -> (i < n)%nat -> (z < nz)%nat -> ~ (r = 0%nat /\ z = 0%nat) -> u r i z = v r i z.

(** The exchange equilibrium of the resin loadings [q] with a liquid of total charge [CT] has a
    solution, by a margin [m].  With monovalent ions only, the loadings weighted by the
    selectivities add up to at least [m]; otherwise the equation a x^2 + b x = CT for the
    presaturant's concentration over its loading has coefficient b and discriminant of at least
    [m], and so is the presaturant's loading.  Loadings and concentrations may be negative. *)
Definition solvable (m : R) (n : nat) (K : nat -> R) (val : nat -> nat) (q : nat -> R) (CT : R) : Prop :=
  ((forall i, (i < n)%nat -> val i <> 2%nat) -> m <= rsum n (fun i => q i / K i)) /\
  ((exists i, (i < n)%nat /\ val i = 2%nat) ->
     let a := rsum n (fun i => if Nat.eqb (val i) 2 then q i / K i else 0) in
     let b := q 0%nat + rsum n (fun i => if Nat.eqb (val i) 1 && negb (Nat.eqb i 0) then q i / K i else 0) in
     m <= q 0%nat /\ m <= b /\ m <= b ^ 2 + 4 * a * CT).

(** A column in normal use by a margin [m], with influent [Cin]: wherever the exchange equilibrium
    is computed it has a solution.  That is at every depth, at the surface of the beads and, when
    the beads have pores, at every radius ([solid] is their solid share). *)
Definition in_use_by (m : R) (pores : bool) (solid : R) (nr n nz : nat) (K : nat -> R) (val : nat -> nat)
  (Cin : nat -> R) (u : nat -> nat -> nat -> R) : Prop :=
  forall r z, (1 <= r <= nr)%nat -> (pores = true \/ r = nr) -> (z < nz)%nat ->
    solvable m n K val (fun i => u r i z / solid) (rsum n (fun i => if Nat.eqb z 0 then Cin i else u 0%nat i z)).
Definition in_normal_use (pores : bool) (solid : R) (nr n nz : nat) (K : nat -> R) (val : nat -> nat)
  (Cin : nat -> R) (u : nat -> nat -> nat -> R) : Prop :=
  exists m, 0 < m /\ in_use_by m pores solid nr n nz K val Cin u.

(** The same of a batch with total charge [CT]; its formula moreover divides by a. *)
Definition batch_in_use_by (m : R) (pores : bool) (solid : R) (nr n : nat) (K : nat -> R) (val : nat -> nat)
  (CT : R) (u : nat -> nat -> R) : Prop :=
  forall r, (1 <= r <= nr)%nat -> (pores = true \/ r = nr) ->
    solvable m n K val (fun i => u r i / solid) CT /\
    ((exists i, (i < n)%nat /\ val i = 2%nat) -> m <= rsum n (fun i => if Nat.eqb (val i) 2 then u r i / solid / K i else 0)).
