(** Specification of ion-exchange equilibria. *)
From Coq Require Import Reals Arith.
From Verif Require Import Lib_Sum.
Open Scope R_scope.

(** [C] carries the total charge [CT]. *)
Definition electroneutral (n : nat) (C : nat -> R) (CT : R) : Prop := rsum n C = CT.

(** Constant separation factors K_i/K_j between every pair of monovalent ions. *)
Definition separation_law (n : nat) (K q C : nat -> R) : Prop :=
  forall i j, (i < n)%nat -> (j < n)%nat -> q i * C j = K i / K j * (q j * C i).

(** Mass action of ion i (valence z_i) against the monovalent presaturant, ion 0:
    z_i presaturant ions leave the resin for one ion i. *)
Definition mass_action_law (n : nat) (K : nat -> R) (z : nat -> nat) (q C : nat -> R) : Prop :=
  forall i, (1 <= i)%nat -> (i < n)%nat -> C i * K i * q 0%nat ^ z i = q i * C 0%nat ^ z i.

(** Resin composition with the presaturant present. *)
Definition resin_composition (n : nat) (q : nat -> R) : Prop :=
  0 < q 0%nat /\ forall i, (i < n)%nat -> 0 <= q i.
Definition selectivities (n : nat) (K : nat -> R) : Prop := forall i, (i < n)%nat -> 0 < K i.
Definition mono_or_divalent (n : nat) (z : nat -> nat) : Prop :=
  z 0%nat = 1%nat /\ forall i, (i < n)%nat -> z i = 1%nat \/ z i = 2%nat.
