(** Specification of the radial grid. *)
From Coq Require Import Reals List Arith.
From Verif Require Import Lib_Sum S_Colloc.
Import ListNotations.
Open Scope R_scope.

(** The integral of [f] from [a] to [b] is [v]. *)
Definition integral (f : R -> R) (a b v : R) : Prop :=
  exists G, (forall x, derivable_pt_lim G x (f x)) /\ G b - G a = v.

(** The product of x - r i, i < m. *)
Fixpoint factors (m : nat) (r : nat -> R) (x : R) : R :=
  match m with O => 1 | S k => factors k r x * (x - r k) end.

(** What scipy's roots_sh_jacobi(m, a/2 + 1, a/2) is relied on for: m increasing points inside
    (0,1), the zeros of the polynomial of degree m that is orthogonal, with the weight
    (1 - x) x^(a/2 - 1) on (0,1), to every polynomial of lower degree.  With x = s^2 the weight
    becomes s^(a-1) (1 - s^2); [d] is a - 1: 0 for a slab, 1 for a cylinder, 2 for a sphere. *)
Definition jacobi_roots (d m : nat) (r : nat -> R) : Prop :=
  interior_roots m r /\
  forall c, integral (fun s => s ^ d * (1 - s ^ 2) * factors m r (s ^ 2) * poly m c (s ^ 2)) 0 1 0.
