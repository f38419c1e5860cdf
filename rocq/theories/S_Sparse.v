(** What scipy's integrator does with a declared sparsity (scipy.integrate, num_jac with a
    structure, as asked for by the argument jac_sparsity of hsdmix.py 546, psdmix.py 362 and
    PSDM.py 1626): columns of the Jacobian that are declared to share no row are examined
    together, with one call of the right-hand side; entries outside the structure are zero. *)
From Coq Require Import Reals List Arith Bool.
Import ListNotations.
Open Scope R_scope.

Section Sparse.
Context {I : Type}.
Variables (dom : I -> Prop) (structure : I -> I -> bool) (F : (I -> R) -> I -> R).

(** A grouping of the columns (scipy's group_columns): two columns of a group share no row. *)
Definition compatible (group : I -> nat) : Prop :=
  forall k j j', dom k -> dom j -> dom j' -> structure k j = true -> structure k j' = true ->
  group j = group j' -> j = j'.
(** Steps for the columns of [j]'s group; the others stay.  (In a second round scipy keeps some
    members of the group where they are: their step is zero.) *)
Definition group_steps (group : I -> nat) (j : I) (steps : I -> R) : Prop :=
  forall m, group m <> group j -> steps m = 0.
(** Entry of the Jacobian found so. *)
Definition sparse_entry (z steps : I -> R) (k j : I) : R :=
  if structure k j then (F (fun m => z m + steps m) k - F z k) / steps j else 0.

(** [z'] is [z] with [h] added to entry [j]. *)
Definition shifted (z : I -> R) (j : I) (h : R) (z' : I -> R) : Prop :=
  z' j = z j + h /\ forall m, m <> j -> z' m = z m.
(** The difference quotient. *)
Definition quotient (z z' : I -> R) (h : R) (k : I) : R := (F z' k - F z k) / h.
End Sparse.
