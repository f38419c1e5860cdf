(** Specifications for loading and saving ion-exchange data. *)
From Coq Require Import List String Reals.
From Verif Require Import Lib_Py M_Units M_Params M_IxData S_Units S_Params.
Import ListNotations.
Open Scope string_scope.

(** An ion that the program can convert: accepted unit, non-zero molar mass and
    charge. *)
Definition convertible (i : ion) : Prop :=
  In (i_units i) (keys (meq_of (i_mw i) (INR (i_val i)))) /\
  i_mw i <> 0%R /\ i_val i <> 0.

(** The factor from one concentration unit to another for an ion (C01, C02). *)
Definition conc_conv (i : ion) (a b : string) (f : R) : Prop :=
  conv_conc (i_mw i) (INR (i_val i)) a b [] = Ok (f, a, b, []).

Definition scaled (f : R) (x y : list R) : Prop := y = map (fun v => (f * v)%R) x.

(** Label of a column of the result file. *)
Definition column_label (name unit : string) : string :=
  (name ++ " (" ++ unit ++ "/L)")%string.

(** No alkalinity to speciate. *)
Definition no_alkalinity (cin : ctable) : Prop :=
  mem_key "BICARBONATE" (c_cols cin) = true \/
  lookup "ALKALINITY" (c_cols cin) = None \/ lookup "PH" (c_cols cin) = None.

(** Carbonate system at pH: [a], [b], [c] are the concentrations of carbonic
    acid, bicarbonate and carbonate; first and second dissociation constants
    10^-6.42 and 10^-10.43. *)
Definition carbonate_equilibrium (pH a b c : R) : Prop :=
  (0 < a)%R /\ (0 < b)%R /\ (0 < c)%R /\
  (Rpower 10 (- pH) * b = Rpower 10 (- dec 642 2) * a)%R /\
  (Rpower 10 (- pH) * c = Rpower 10 (- dec 1043 2) * b)%R.

(** Seconds in one period unit: [si_time] of S_Units. *)
Definition in_period (period : string) (secs shown : list R) : Prop :=
  exists size, lookup period si_time = Some size /\
    shown = map (fun s => (s / size)%R) secs.

(** A report of solver concentrations (meq/L) of an ion is right when each
    positive value is shown in the ion's own unit: [m] is the number of meq in
    one unit. *)
Definition reports_own_unit (report : ion -> list R -> list R) (i : ion) : Prop :=
  exists m, lookup (i_units i) (meq_of (i_mw i) (INR (i_val i))) = Some m /\
  forall xs, (forall x, In x xs -> (0 < x)%R) ->
    report i xs = map (fun x => (x / m)%R) xs.

(** [y] is the quantity "[x] in unit [u]" expressed in the solver's unit. *)
Definition solver_value (k : kind) (x : R) (u : string) (y : R) : Prop :=
  exists f spelling, converter_of_kind k (lower u) (solver_unit k) []
                     = Ok (f, spelling, solver_unit k, []) /\ y = (x * f)%R.
