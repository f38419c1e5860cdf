(** Specification of parameter sheets, independent of the model's helpers. *)
From Coq Require Import List String Reals.
From Verif Require Import Lib_Py M_Units M_Params S_Units.
Import ListNotations.
Open Scope string_scope.

(** The kind of quantity each parameter of a sheet is.  [Scalar] parameters have
    no unit (porosities, grid sizes, water content). *)
Inductive kind := Length | Velocity | Time | Density | Diffusivity | FlowRate
  | CapacityMass | CapacityVolume | Mass | Volume | Scalar.

Definition kind_of : list (string * kind) :=
  [("time", Time); ("t_end", Time); ("rb", Length); ("l", Length);
   ("diam", Length); ("kl", Velocity); ("v", Velocity); ("ds", Diffusivity);
   ("dp", Diffusivity); ("rhop", Density); ("flrt", FlowRate);
   ("qm", CapacityMass); ("qf", CapacityVolume); ("m", Mass); ("vl", Volume);
   ("ebed", Scalar); ("nz", Scalar); ("nr", Scalar); ("epor", Scalar);
   ("w", Scalar)].

(** Accepted units of each kind; in lower case, because sheets are read
    case-insensitively.  Capacities are in (milli)equivalents, or in grams of an
    ion of unit molar mass and charge. *)
Definition lower_volume := ["m3"; "cm3"; "ml"; "l"; "mm3"; "gal"; "ft3"; "in3"; "cuf"].
Definition lower_conc := ["meq"; "mg"; "ug"; "ng"; "eq"; "g"].
Definition units_of_kind (k : kind) : list string :=
  match k with
  | Length => keys si_length
  | Time => keys si_time
  | Mass => keys si_weight
  | Volume => lower_volume
  | Velocity => slash_units (keys si_length) (keys si_time)
  | Density => slash_units (keys si_weight) lower_volume
  | Diffusivity => slash_units (keys si_area) (keys si_time)
  | FlowRate => "gpm" :: slash_units lower_volume (keys si_time)
  | CapacityMass => slash_units lower_conc (keys si_weight)
  | CapacityVolume => slash_units lower_conc lower_volume
  | Scalar => []
  end.

(** The program's conversion between two units of a kind (C01, C02 and C04 say
    that these conversions are consistent and physically right). *)
Definition converter_of_kind (k : kind) : converter :=
  match k with
  | Length => conv_length
  | Time => conv_time
  | Mass => conv_weight
  | Volume => conv_volume
  | Velocity => conv_vel
  | Density => conv_dens
  | Diffusivity => conv_area_per_time
  | FlowRate => conv_vol_per_time
  | CapacityMass => conv_capacity_mass 1 1
  | CapacityVolume => conv_capacity_vol 1 1
  | Scalar => fun a b t => Ok (1%R, a, b, t)
  end.

(** [x1] in unit [u1] and [x2] in unit [u2] are the same quantity. *)
Definition same_quantity (k : kind) (x1 : R) (u1 : string) (x2 : R) (u2 : string)
  : Prop :=
  In (lower u1) (units_of_kind k) /\ In (lower u2) (units_of_kind k) /\
  exists f s, converter_of_kind k (lower u1) (lower u2) [] = Ok (f, s, lower u2, [])
              /\ x2 = (x1 * f)%R.

(** Two rows of a sheet describe the same parameter with the same value. *)
Inductive same_row : string * prow -> string * prow -> Prop :=
| same_scalar : forall p1 p2 v u1 u2,
    lower p1 = lower p2 -> lookup (lower p1) kind_of = Some Scalar ->
    same_row (p1, {| p_value := v; p_units := u1 |})
             (p2, {| p_value := v; p_units := u2 |})
| same_dimensioned : forall p1 p2 k x1 u1 x2 u2,
    lower p1 = lower p2 -> lookup (lower p1) kind_of = Some k -> k <> Scalar ->
    same_quantity k x1 u1 x2 u2 ->
    same_row (p1, {| p_value := PNum x1; p_units := Some u1 |})
             (p2, {| p_value := PNum x2; p_units := Some u2 |}).

(** A number with a unit in a row. *)
Definition quantity (x : R) (u : string) : prow :=
  {| p_value := PNum x; p_units := Some u |}.

(** The value stored under a name in a converted sheet. *)
Definition has_value (s : csheet) (k : string) (x : R) : Prop :=
  exists u, lookup k s = Some (x, u).

(** Row [p] of a sheet, whatever the case of its label. *)
Definition row_named (p : string) (s : sheet) (r : prow) : Prop :=
  exists p', In (p', r) s /\ lower p' = p.

(** The unit in which the solvers expect each kind. *)
Definition solver_unit (k : kind) : string :=
  match k with
  | Length => "cm" | Velocity => "cm/s" | Time => "s" | Density => "g/ml"
  | Diffusivity => "cm2/s" | FlowRate => "cm3/s" | CapacityMass => "meq/kg"
  | CapacityVolume => "meq/L" | Mass => "g" | Volume => "L" | Scalar => ""
  end.

(** The name under which the solvers look a parameter up. *)
Definition solver_name (p : string) : string :=
  match lookup p [("rhop", "RHOP"); ("qm", "Qm"); ("qf", "Qf"); ("ebed", "EBED");
                  ("epor", "EPOR"); ("l", "L"); ("kl", "kL"); ("ds", "Ds");
                  ("dp", "Dp"); ("vl", "VL")] with
  | Some name => name
  | None => p
  end.
