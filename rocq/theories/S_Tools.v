(** Specification vocabulary for C46, C47, C48 and C77. *)
From Coq Require Import Reals List Arith Bool String ZArith.
From Verif Require Import Lib_Py Lib_Sum M_GacFun M_Tools.
Import ListNotations.
Open Scope R_scope.

(** Contact time and bed density of a cylindrical column. *)
Definition contact_time (s : specs) : R := PI * (s_diam s / 2) ^ 2 * s_L s / s_flrt s.
Definition density (s : specs) : R := s_wt s / (PI * (s_diam s / 2) ^ 2 * s_L s).

(** Beds in groups replaced one after the other every [i] days: on day [t] of a cycle
    group [j] has been in use for t + j*i days. *)
Definition blended (w : list R) (s : nat -> R) (i t : nat) : R :=
  lsum (map (fun j => nth j w 0 * s (t + j * i)%nat) (seq 0 (List.length w))).
(** [total] beds in groups of [per], as many groups as it takes; the beds that are over, if any,
    are a group of their own, the first.  The share of the flow each group treats. *)
Definition shares (total per : nat) : list R :=
  map (fun j => INR (if Nat.eqb j 0 then S ((total - 1) mod per) else per) / INR total) (seq 0 (S ((total - 1) / per))).
Definition complies (w : list R) (s : nat -> R) (target : R) (i : nat) : Prop :=
  forall t, (t < i)%nat -> blended w s i t <= target.
(** A daily curve known to day [m], continued along its last step. *)
Definition continued (m : nat) (s : nat -> R) (d : nat) : R :=
  if Nat.leb d m then s d else s m + INR (d - m) * (s m - s (m - 1)%nat).
Definition nondecreasing (m : nat) (s : nat -> R) : Prop := forall d, (d < m)%nat -> s d <= s (S d).

(** [d] is the first of the days 0..n-1 on which [f] exceeds [m]. *)
Definition first_day (n : nat) (f : nat -> R) (m : R) (d : nat) : Prop :=
  (d < n)%nat /\ m < f d /\ forall d', (d' < d)%nat -> f d' <= m.
(** What is reported: the day before that, or nothing. *)
Definition reported (n : nat) (f : nat -> R) (m : R) (p : option Z) : Prop :=
  match p with
  | Some z => exists d, first_day n f m d /\ z = (Z.of_nat d - 1)%Z
  | None => forall d, (d < n)%nat -> f d <= m
  end.
(** Order of intervals, no interval being the longest. *)
Definition no_longer (a b : option Z) : Prop :=
  match a, b with
  | _, None => True
  | Some x, Some y => (x <= y)%Z
  | None, Some _ => False
  end.

(** Frames a simulation hands over. *)
Definition tidy (d : dframe) : Prop :=
  NoDup (keys (columns d)) /\ index d <> [] /\ (forall p, In p (columns d) -> List.length (snd p) = List.length (index d)) /\
  0 <= last (index d) 0 /\ ~ In "HI"%string (keys (columns d)).
(** Concentration of a compound on a day, none if it was not simulated. *)
Definition conc (d : dframe) (c : string) (day : nat) : R :=
  match lookup c (columns d) with Some v => per_day d v day | None => 0 end.
Definition hazard_index (d : dframe) (day : nat) : R :=
  conc d "PFHxS" day / 10 + conc d "PFNA" day / 10 + conc d "GenX" day / 10 + conc d "PFBS" day / 2000.
Fixpoint increasing (xs : list R) : Prop :=
  match xs with x :: ((y :: _) as r) => x < y /\ increasing r | _ => True end.
