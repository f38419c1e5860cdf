(** Specification vocabulary for the ion-exchange web application: units from their
    definitions in metres, seconds and milliequivalents. *)
From Coq Require Import Reals List String.
Import ListNotations.
Open Scope R_scope.
Open Scope string_scope.

Definition inch : R := 254 / 10000.
Definition foot : R := 12 * inch.
Definition gallon : R := 231 * inch ^ 3.
Definition minute : R := 60.
Definition hour : R := 60 * minute.
Definition day : R := 24 * hour.

(** The size of a unit in SI units. *)
Inductive metres : string -> R -> Prop :=
| u_m : metres "m" 1 | u_cm : metres "cm" (1 / 100) | u_mm : metres "mm" (1 / 1000) | u_in : metres "in" inch | u_ft : metres "ft" foot.
Inductive metres_per_second : string -> R -> Prop :=
| u_cms : metres_per_second "cm/s" (1 / 100) | u_ms : metres_per_second "m/s" 1 | u_mmin : metres_per_second "m/min" (1 / minute)
| u_mh : metres_per_second "m/h" (1 / hour) | u_mhr : metres_per_second "m/hr" (1 / hour) | u_ins : metres_per_second "in/s" inch
| u_fts : metres_per_second "ft/s" foot | u_ftmin : metres_per_second "ft/min" (foot / minute).
Definition gpm_per_ft2 : R := gallon / minute / foot ^ 2.
Inductive cubic_metres_per_second : string -> R -> Prop :=
| u_cm3s : cubic_metres_per_second "cm^3/s" ((1 / 100) ^ 3) | u_m3s : cubic_metres_per_second "m^3/s" 1
| u_ft3s : cubic_metres_per_second "ft^3/s" (foot ^ 3) | u_mls : cubic_metres_per_second "mL/s" ((1 / 100) ^ 3)
| u_lmin : cubic_metres_per_second "L/min" ((1 / 10) ^ 3 / minute) | u_mlmin : cubic_metres_per_second "mL/min" ((1 / 100) ^ 3 / minute)
| u_gpm : cubic_metres_per_second "gpm" (gallon / minute) | u_mgd : cubic_metres_per_second "mgd" (10 ^ 6 * gallon / day).
Inductive square_metres_per_second : string -> R -> Prop :=
| u_ft2 : square_metres_per_second "ft^2/s" (foot ^ 2) | u_m2 : square_metres_per_second "m^2/s" 1
| u_cm2 : square_metres_per_second "cm^2/s" ((1 / 100) ^ 2) | u_in2 : square_metres_per_second "in^2/s" (inch ^ 2).
(** Months of 30 days, years of 365.25 days. *)
Inductive seconds : string -> R -> Prop :=
| u_Hours : seconds "Hours" hour | u_hr : seconds "hr" hour | u_Days : seconds "Days" day | u_day : seconds "day" day
| u_Months : seconds "Months" (30 * day) | u_month : seconds "month" (30 * day)
| u_Years : seconds "Years" (36525 / 100 * day) | u_year : seconds "year" (36525 / 100 * day).

(** A concentration [v] in the given unit is [m] mg/L. *)
Inductive mass_unit : string -> R -> Prop :=
| u_mg : mass_unit "mg" 1 | u_mgl : mass_unit "mg/L" 1 | u_ug : mass_unit "ug" (1 / 1000) | u_ugl : mass_unit "ug/L" (1 / 1000)
| u_ng : mass_unit "ng" (1 / 1000000) | u_ngl : mass_unit "ng/L" (1 / 1000000).
(** A concentration [v] of an ion in the given unit is [c] meq/L: an equivalent is a mole of
    charges. *)
Definition is_meq (unit : string) (mw : R) (valence : nat) (v c : R) : Prop :=
  ((unit = "meq" \/ unit = "meq/L") /\ c = v) \/
  (exists m, mass_unit unit m /\ c = v * m * INR valence / mw).
Definition is_mgl (unit : string) (mw : R) (valence : nat) (v c : R) : Prop :=
  ((unit = "meq" \/ unit = "meq/L") /\ c * INR valence = v * mw) \/
  (exists m, mass_unit unit m /\ c = v * m).
