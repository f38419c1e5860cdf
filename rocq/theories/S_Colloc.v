(** Specification of collocation operators. *)
From Coq Require Import Reals List Arith.
From Verif Require Import Lib_Sum.
Import ListNotations.
Open Scope R_scope.

(** The polynomial with coefficients c 0 .. c (n-1). *)
Definition poly (n : nat) (c : nat -> R) (x : R) : R := rsum n (fun k => c k * x ^ k).

(** The first [n] grid points are pairwise distinct. *)
Definition distinct (n : nat) (x : nat -> R) : Prop :=
  forall i j, (i < n)%nat -> (j < n)%nat -> x i = x j -> i = j.

(** Row [i] of a matrix applied to a grid function. *)
Definition apply_row (n : nat) (M : nat -> nat -> R) (f : nat -> R) (i : nat) : R :=
  rsum n (fun j => M i j * f j).

(** [g] is the derivative of [f] everywhere. *)
Definition derivative (f g : R -> R) : Prop := forall x, derivable_pt_lim f x (g x).

(** What scipy's root finders are relied on for: roots_sh_legendre(m) returns m
    increasing points strictly inside (0,1); so does roots_sh_jacobi. *)
Definition interior_roots (m : nat) (r : nat -> R) : Prop :=
  (forall i, (i < m)%nat -> 0 < r i < 1) /\
  (forall i j, (i < j)%nat -> (j < m)%nat -> r i < r j).
