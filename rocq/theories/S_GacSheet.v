(** Specification of granular-carbon column sheets: physical sizes of the units a
    sheet may use.  Names are compared after lower-casing. *)
From Coq Require Import List String Reals.
From Verif Require Import Lib_Py S_Units.
Import ListNotations.
Open Scope string_scope.

(** Lengths in metres. *)
Definition gac_length : list (string * R) :=
  [("cm", dec 1 2); ("mm", dec 1 3); ("in", dec 254 4); ("m", 1%R); ("ft", dec 3048 4)].

(** Densities in kg per cubic metre. *)
Definition gac_density : list (string * R) :=
  [("g/ml", 1000%R); ("g/cm3", 1000%R); ("lb/ft3", (dec 45359237 8 / dec 3048 4 ^ 3)%R)].

(** Flows in cubic metres per second; the gallon is 231 cubic inches, mgd is a
    million gallons per day. *)
Definition us_gallon : R := (231 * dec 254 4 ^ 3)%R.
Definition gac_flow : list (string * R) :=
  [("ml/min", (dec 1 6 / 60)%R); ("cm3/min", (dec 1 6 / 60)%R);
   ("lpm", (dec 1 3 / 60)%R); ("l/min", (dec 1 3 / 60)%R);
   ("gpm", (us_gallon / 60)%R); ("gal/min", (us_gallon / 60)%R);
   ("mgd", (1000000 * us_gallon / 86400)%R);
   ("m3/min", (1 / 60)%R); ("ft3/min", (dec 3048 4 ^ 3 / 60)%R)].

(** Masses in kilograms; "ton" is the short ton of 2000 pounds. *)
Definition gac_mass : list (string * R) :=
  [("g", dec 1 3); ("gm", dec 1 3); ("kg", 1%R); ("lb", dec 45359237 8);
   ("ton", (2000 * dec 45359237 8)%R); ("mton", 1000%R); ("metricton", 1000%R)].

(** Concentrations in micrograms per litre (dilute water: ppb = ug/L). *)
Definition gac_conc : list (string * R) :=
  [("ug", 1%R); ("ug/l", 1%R); ("ppb", 1%R); ("ng", dec 1 3); ("ng/l", dec 1 3); ("ppt", dec 1 3)].

(** Times in minutes. *)
Definition gac_time : list (string * R) :=
  [("day", 1440%R); ("days", 1440%R); ("hour", 60%R); ("hr", 60%R); ("hrs", 60%R); ("min", 1%R)].

(** The number [stored], in unit [target], is the quantity [v] in unit [u], up to a
    relative error [tol]. *)
Definition same_quantity (tol : R) (size : list (string * R)) (target : string)
  (stored v : R) (u : string) : Prop :=
  exists su st, lookup u size = Some su /\ lookup target size = Some st /\
    (Rabs (stored * st - v * su) <= tol * Rabs (v * su))%R.

(** The unit of a row does not belong to the table. *)
Definition unknown_unit (size : list (string * R)) (u : string) : Prop := ~ In u (keys size).
