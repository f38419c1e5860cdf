(** Specification for the granular-carbon correlations. *)
From Coq Require Import List String Reals Sorted.
Import ListNotations.
Open Scope R_scope.

(** [f] never increases (decreases) on an interval. *)
Definition nonincreasing_on (P : R -> Prop) (f : R -> R) : Prop :=
  forall t1 t2, P t1 -> P t2 -> t1 <= t2 -> f t2 <= f t1.
Definition nondecreasing_on (P : R -> Prop) (f : R -> R) : Prop :=
  forall t1 t2, P t1 -> P t2 -> t1 <= t2 -> f t1 <= f t2.

(** A search grid of [n] points spanning [lo, hi] evenly: the requested number of
    points, increasing, from [lo] to [hi], with equal steps. *)
Definition spans (l : list R) (n : nat) (lo hi : R) : Prop :=
  List.length l = n /\ StronglySorted Rlt l /\
  nth 0 l 0 = lo /\ nth (n - 1) l 0 = hi /\
  (forall x, In x l -> lo <= x <= hi) /\
  (forall i, (i + 1 < n)%nat -> nth (i + 1) l 0 - nth i l 0 = (hi - lo) / INR (n - 1)).

(** Largest and smallest entry of a list. *)
Definition largest (l : list R) (m : R) : Prop := In m l /\ forall x, In x l -> x <= m.
Definition smallest (l : list R) (m : R) : Prop := In m l /\ forall x, In x l -> m <= x.
