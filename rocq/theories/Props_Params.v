(** Properties C05-C07: parameter sheets of the ion-exchange model. *)
From Coq Require Import List String Reals Lra.
From Verif Require Import Lib_Py M_Units M_Params S_Units S_Params P_Units P_Params.
Import ListNotations.
Open Scope string_scope.

(** ** C05: parameters do not depend on the units they are written in *)

(** Two sheets whose rows describe the same quantities give the same outcome:
    the same solver parameters, or the same failure. *)
Theorem C05_unit_independence : forall sheet1 sheet2 typed,
  Forall2 same_row sheet1 sheet2 ->
  conv_params_data sheet1 typed = conv_params_data sheet2 typed.
Proof. exact conv_params_data_same. Qed.

(** What a successful conversion stores for each dimensioned parameter: its value
    times the conversion factor to the solver's unit. *)
Theorem C05_converted_value : forall s typed out rest,
  conv_params_data s typed = Ok (out, rest) ->
  forall p k x u, row_named p s (quantity x u) ->
    lookup p kind_of = Some k -> k <> Scalar -> In (lower u) (units_of_kind k) ->
  exists f spelling,
    converter_of_kind k (lower u) (solver_unit k) [] = Ok (f, spelling, solver_unit k, []) /\
    has_value out (solver_name p) (x * f).
Proof. exact converted_row_spec. Qed.

Theorem C05_scalar_value : forall s typed out rest,
  conv_params_data s typed = Ok (out, rest) ->
  forall p x u, row_named p s {| p_value := PNum x; p_units := u |} ->
    lookup p kind_of = Some Scalar -> has_value out (solver_name p) x.
Proof. exact converted_scalar_spec. Qed.
Print Assumptions C05_unit_independence.
Print Assumptions C05_converted_value.

(** A column sheet. *)
Definition no_unit (x : R) : prow := {| p_value := PNum x; p_units := None |}.
Definition column_sheet_a : sheet :=
  [("Qm", quantity 2 "meq/g"); ("RHOP", quantity 1 "g/ml");
   ("EBED", no_unit (dec 35 2)); ("L", quantity 1 "m");
   ("flrt", quantity 60 "L/min"); ("diam", quantity 4 "in");
   ("time", quantity 1 "hr"); ("nz", no_unit 13)].
Ltac solve_in := apply mem_str_In; vm_compute; reflexivity.

Example C05_two_sheets :
  Forall2 same_row
    [("L", quantity 1 "m"); ("EBED", no_unit (dec 35 2)); ("flrt", quantity 60 "L/min")]
    [("l", quantity (1 * (dec 393701 4 / 1)) "in"); ("ebed", no_unit (dec 35 2));
     ("Flrt", quantity (60 * (dec 264172 3 / 1000 / (24 * 60 / (24 * 60)))) "GPM")].
Proof.
  repeat constructor.
  - eapply same_dimensioned with (k := Length); [reflexivity|reflexivity|discriminate|].
    split; [solve_in|]. split; [solve_in|]. do 2 eexists. split; reflexivity.
  - eapply same_dimensioned with (k := FlowRate); [reflexivity|reflexivity|discriminate|].
    split; [solve_in|]. split; [solve_in|]. do 2 eexists. split; [|reflexivity].
    instantiate (1 := "l/min"). reflexivity.
Qed.

Example C05_sheet_converts : exists out, conv_params_data column_sheet_a [] = Ok (out, []).
Proof. eexists. reflexivity. Qed.

(** ** C06: velocity from flow rate and diameter *)

Theorem C06_velocity_from_flow : forall s typed out rest,
  conv_params_data s typed = Ok (out, rest) ->
  forall F uF D uD,
    (forall r, ~ row_named "v" s r) ->
    row_named "flrt" s (quantity F uF) -> In (lower uF) (units_of_kind FlowRate) ->
    row_named "diam" s (quantity D uD) -> In (lower uD) (units_of_kind Length) ->
    exists f sf d sd,
      conv_vol_per_time (lower uF) "cm3/s" [] = Ok (f, sf, "cm3/s", []) /\
      conv_length (lower uD) "cm" [] = Ok (d, sd, "cm", []) /\
      has_value out "v" (F * f / (PI * (D * d) ^ 2 / 4)).
Proof. exact velocity_from_flow. Qed.

(** A given velocity is used whatever else the sheet says. *)
Theorem C06_velocity_given : forall s typed out rest,
  conv_params_data s typed = Ok (out, rest) ->
  forall x u, row_named "v" s (quantity x u) -> In (lower u) (units_of_kind Velocity) ->
  exists f spelling, conv_vel (lower u) "cm/s" [] = Ok (f, spelling, "cm/s", []) /\
    has_value out "v" (x * f).
Proof. exact velocity_given. Qed.
Print Assumptions C06_velocity_from_flow.
Print Assumptions C06_velocity_given.

Example C06_column : exists out,
  conv_params_data column_sheet_a [] = Ok (out, []) /\
  (forall r, ~ row_named "v" column_sheet_a r) /\
  row_named "flrt" column_sheet_a (quantity 60 "L/min") /\
  row_named "diam" column_sheet_a (quantity 4 "in").
Proof.
  eexists. split; [reflexivity|]. split; [|split].
  - intros r (p & Hin & Hp). simpl in Hin.
    repeat (destruct Hin as [Hin|Hin]; [injection Hin as <- _; discriminate Hp|]).
    destruct Hin.
  - exists "flrt". simpl. tauto.
  - exists "diam". simpl. tauto.
Qed.

(** ** C07: resin capacity *)

(** Per mass of resin: capacity times bead density, even if a capacity per filter
    volume is also given. *)
Theorem C07_capacity_from_mass : forall s typed out rest,
  conv_params_data s typed = Ok (out, rest) ->
  forall qm um rho ur,
    row_named "qm" s (quantity qm um) -> In (lower um) (units_of_kind CapacityMass) ->
    row_named "rhop" s (quantity rho ur) -> In (lower ur) (units_of_kind Density) ->
    exists f sf g sg,
      conv_capacity_mass 1 1 (lower um) "meq/kg" [] = Ok (f, sf, "meq/kg", []) /\
      conv_dens (lower ur) "g/ml" [] = Ok (g, sg, "g/ml", []) /\
      has_value out "Q" (qm * f * (rho * g)).
Proof. exact capacity_from_mass. Qed.

(** Per filter volume: divided by the resin fraction of the bed. *)
Theorem C07_capacity_from_filter : forall s typed out rest,
  conv_params_data s typed = Ok (out, rest) ->
  forall qf uf e ue,
    (forall r, ~ row_named "qm" s r) \/ (forall r, ~ row_named "rhop" s r) ->
    row_named "qf" s (quantity qf uf) -> In (lower uf) (units_of_kind CapacityVolume) ->
    row_named "ebed" s {| p_value := PNum e; p_units := ue |} ->
    exists f sf,
      conv_capacity_vol 1 1 (lower uf) "meq/L" [] = Ok (f, sf, "meq/L", []) /\
      has_value out "Q" (qf * f / (1 - e)).
Proof. exact capacity_from_filter. Qed.

(** Per resin volume, through the loader: unchanged up to its unit. *)
Theorem C07_capacity_from_resin : forall s typed out rest x u e ue,
  load_params s typed = Ok (out, rest) -> NoDup (keys s) ->
  In ("Q", quantity x u) s -> In (lower u) (units_of_kind CapacityVolume) ->
  In ("EBED", {| p_value := PNum e; p_units := ue |}) s -> (e <> 1)%R ->
  (forall r, ~ row_named "qm" s r) \/ (forall r, ~ row_named "rhop" s r) ->
  exists f sf,
    conv_capacity_vol 1 1 (lower u) "meq/L" [] = Ok (f, sf, "meq/L", []) /\
    has_value out "Q" (x * f).
Proof. exact capacity_from_resin. Qed.

(** Without a complete specification the load never succeeds. *)
Theorem C07_capacity_missing : forall s typed out rest,
  conv_params_data s typed = Ok (out, rest) ->
  (forall r, ~ row_named "qm" s r) \/ (forall r, ~ row_named "rhop" s r) ->
  (forall r, ~ row_named "qf" s r) \/ (forall r, ~ row_named "ebed" s r) ->
  False.
Proof. exact capacity_missing. Qed.
Print Assumptions C07_capacity_from_mass.
Print Assumptions C07_capacity_from_filter.
Print Assumptions C07_capacity_from_resin.
Print Assumptions C07_capacity_missing.

Definition resin_sheet : sheet :=
  [("Q", quantity 1400 "meq/L"); ("EBED", no_unit (dec 35 2));
   ("v", quantity 1 "cm/s"); ("L", quantity 1 "m")].
Example C07_resin_loads : exists out, load_params resin_sheet [] = Ok (out, []) /\
  NoDup (keys resin_sheet) /\ (dec 35 2 <> 1)%R.
Proof.
  eexists. split; [reflexivity|]. split.
  - repeat constructor; simpl; intuition discriminate.
  - unfold dec; simpl; lra.
Qed.
Example C07_nothing_given :
  conv_params_data [("v", quantity 1 "cm/s")] [] = Err UnboundLocalError.
Proof. reflexivity. Qed.

(** ** C60: resin volume of a batch reactor *)

Theorem C60_resin_volume : forall s typed out rest,
  conv_params_data s typed = Ok (out, rest) ->
  forall w uw m um rho ur,
    (forall r, ~ row_named "v" s r) -> (forall r, ~ row_named "flrt" s r) ->
    row_named "w" s {| p_value := PNum w; p_units := uw |} ->
    row_named "m" s (quantity m um) -> In (lower um) (units_of_kind Mass) ->
    row_named "rhop" s (quantity rho ur) -> In (lower ur) (units_of_kind Density) ->
    exists f sf g sg,
      conv_weight (lower um) "g" [] = Ok (f, sf, "g", []) /\
      conv_dens (lower ur) "g/ml" [] = Ok (g, sg, "g/ml", []) /\
      (* litres: dry fraction * grams / (grams per millilitre) / 1000 *)
      has_value out "VR" ((1 - w) * (m * f) / (rho * g) / 1000).
Proof. exact resin_volume. Qed.
Example C60_batch_sheet : exists out, conv_params_data
  [("w", no_unit (dec 45 2)); ("m", quantity 3 "g"); ("RHOP", quantity 1 "kg/L");
   ("Qm", quantity 2 "meq/g"); ("VL", quantity 2 "L"); ("t_end", quantity 3 "days")] [] = Ok (out, []).
Proof. eexists. reflexivity. Qed.
Print Assumptions C60_resin_volume.

Print Assumptions C05_scalar_value.
