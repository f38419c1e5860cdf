(** Specification vocabulary for the granular-carbon web application, with the units of
    S_RIexApp. *)
From Coq Require Import Reals List String.
From Verif Require Import M_GacShiny.
Import ListNotations.
Open Scope R_scope.
Open Scope string_scope.
Local Notation length := List.length.

Definition pound : R := 45359237 / 100000.
Inductive grams : string -> R -> Prop := | w_kg : grams "kg" 1000 | w_g : grams "g" 1 | w_lb : grams "lb" pound.

(** Days in a unit: months of 30 days, years of twelve of them. *)
Inductive days : string -> R -> Prop :=
| d_Hours : days "Hours" (1 / 24) | d_hr : days "hr" (1 / 24) | d_hours : days "hours" (1 / 24) | d_hrs : days "hrs" (1 / 24)
| d_Days : days "Days" 1 | d_day : days "day" 1 | d_days : days "days" 1
| d_Months : days "Months" 30 | d_month : days "month" 30 | d_Years : days "Years" 360 | d_year : days "year" 360.

(** A table: one value per time in every column, no name twice. *)
Definition table_ok (w : timed) : Prop :=
  NoDup (map fst (f_cols w)) /\ Forall (fun p => length (snd p) = length (f_time w)) (f_cols w).
(** At time [t] the table says [v] for compound [n]. *)
Definition says (w : timed) (t : R) (n : string) (v : R) : Prop :=
  exists col k, In (n, col) (f_cols w) /\ nth_error (f_time w) k = Some t /\ nth_error col k = Some v.
(** The first value of a compound. *)
Definition starts_at (w : timed) (n : string) (v : R) : Prop := exists col, In (n, col) (f_cols w) /\ nth_error col 0 = Some v.
