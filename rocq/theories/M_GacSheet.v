(** Model of reading a granular-carbon column sheet and of the derived column values.
    Sources: PSDM/psdm/PSDM_functions.py:39-42, 81-196 (column part of
    [process_input_file]) and PSDM/psdm/PSDM.py:141-223 ([PSDM.__init__]).
    The copies under Shiny-GAC/psdm contain the same code but for [float()] casts. *)
From Coq Require Import List String Reals Bool ZArith.
From Verif Require Import Lib_Py.
Import ListNotations.
Open Scope string_scope.

(** PSDM_functions.py:39-42 *)
Definition lpg : R := dec 3785411784 9.
Definition cm_per_ft : R := (dec 254 2 * 12)%R.
Definition min_per_day : R := (24 * 60)%R.
Definition gm_per_lb : R := dec 45359237 5.

(** The sheet: numeric rows with an optional unit cell, and text rows.  An empty
    cell of the units column is NaN, which has no [.lower()]. *)
Record sheet := {
  s_num : list (string * (R * option string));
  s_text : list (string * string) }.

Definition num_of (k : string) (s : sheet) : res R :=
  do r <- of_option KeyError (lookup k (s_num s)); Ok (fst r).
Definition unit_of (k : string) (s : sheet) : res string :=
  do r <- of_option KeyError (lookup k (s_num s));
  do u <- of_option AttributeError (snd r); Ok (lower u).
Definition text_of (k : string) (s : sheet) : res string :=
  of_option KeyError (lookup k (s_text s)).

(** PSDM_functions.py:96-111 — lengths in cm.  When no branch is taken the column
    keeps its default, 0 (81-87). *)
Definition dim_cm (unit : string) (v : R) : R :=
  if String.eqb unit "cm" then (v * 1)%R
  else if String.eqb unit "mm" then (v / 10)%R
  else if String.eqb unit "in" then (v * dec 254 2)%R
  else if String.eqb unit "m" then (v * 100)%R
  else if String.eqb unit "ft" then (v * cm_per_ft)%R
  else 0%R.

(** PSDM_functions.py:113-121 — densities in g/ml. *)
Definition dens_gml (unit : string) (v : R) : R :=
  if (String.eqb unit "g/ml" || String.eqb unit "g/cm3")%bool then (v * 1)%R
  else if String.eqb unit "lb/ft3" then (v / dec 62427973725314 12)%R
  else 0%R.

(** PSDM_functions.py:122-136 — flow in ml/min. *)
Definition flow_mlmin (unit : string) (v : R) : R :=
  if (String.eqb unit "ml/min" || String.eqb unit "cm3/min")%bool then (v * 1)%R
  else if (String.eqb unit "lpm" || String.eqb unit "l/min")%bool then (v * 1000)%R
  else if (String.eqb unit "gpm" || String.eqb unit "gal/min")%bool then (v * lpg * 1000)%R
  else if String.eqb unit "mgd" then (v * lpg * 1000 * 1000000 / min_per_day)%R
  else if String.eqb unit "m3/min" then (v * 1000000)%R
  else if String.eqb unit "ft3/min" then (v * cm_per_ft ^ 3)%R
  else 0%R.

(** PSDM_functions.py:137-149 — carbon mass in g. *)
Definition mass_g (unit : string) (v : R) : R :=
  if (String.eqb unit "g" || String.eqb unit "gm")%bool then (v * 1)%R
  else if String.eqb unit "lb" then (v * gm_per_lb)%R
  else if String.eqb unit "kg" then (v * 1000)%R
  else if String.eqb unit "ton" then (v * 2000 * gm_per_lb)%R
  else if (String.eqb unit "mton" || String.eqb unit "metricton")%bool then (v * 1000 * 1000)%R
  else 0%R.

(** PSDM_functions.py:156-168 — unit of the concentrations and its factor to ug/L.
    The default is 'ng'. *)
Definition conc_unit (units : string) : string :=
  if (String.eqb units "ug" || String.eqb units "ng")%bool then units
  else if (String.eqb units "ppb" || String.eqb units "ug/l")%bool then "ug"
  else if (String.eqb units "ppt" || String.eqb units "ng/l")%bool then "ng"
  else "ng".
Definition conc_mult (u : string) : R :=
  if String.eqb u "ug" then 1%R else if String.eqb u "ng" then dec 1 3 else 1%R.

(** PSDM_functions.py:179-196 — unit of the time column and minutes per unit; not
    lower-cased.  Defaults 'days' and 1 (84-86) when no branch is taken. *)
Definition time_unit (t : option string) : string * R :=
  match t with
  | None => ("days", min_per_day)
  | Some t =>
      if (String.eqb t "days" || String.eqb t "day")%bool then ("days", min_per_day)
      else if (String.eqb t "hour" || String.eqb t "hr" || String.eqb t "hrs")%bool then ("hour", 60%R)
      else if String.eqb t "min" then ("min", 1%R)
      else ("days", 1%R)
  end.

Record gac := {
  g_L : R; g_diam : R; g_rad : R; g_rhop : R; g_rhof : R; g_flrt : R; g_wt : R;
  g_tortu : R; g_epor : R; g_psdfr : R;
  g_units : string; g_mass_mul : R; g_time : string; g_t_mult : R; g_flow_mult : R }.

(** PSDM_functions.py:80-199 *)
Definition read_sheet (s : sheet) : res gac :=
  do _carbon <- text_of "carbonID" s;
  do uL <- unit_of "length" s; do vL <- num_of "length" s;
  do ud <- unit_of "diameter" s; do vd <- num_of "diameter" s;
  do ur <- unit_of "radius" s; do vr <- num_of "radius" s;
  do up <- unit_of "particleDensity" s; do vp <- num_of "particleDensity" s;
  do ua <- unit_of "apparentDensity" s; do va <- num_of "apparentDensity" s;
  do uf <- unit_of "flowrate" s; do vf <- num_of "flowrate" s;
  do uw <- unit_of "weight" s; do vw <- num_of "weight" s;
  do tort <- num_of "tortuosity" s;
  do epor <- num_of "porosity" s;
  do psdfr <- num_of "psdfr" s;
  do _infl <- text_of "influentID" s;
  do _effl <- text_of "effluentID" s;
  do units <- text_of "units" s;
  let cu := conc_unit (lower units) in
  let tu := time_unit (lookup "time" (s_text s)) in
  Ok {| g_L := dim_cm uL vL; g_diam := dim_cm ud vd; g_rad := dim_cm ur vr;
        g_rhop := dens_gml up vp; g_rhof := dens_gml ua va;
        g_flrt := flow_mlmin uf vf; g_wt := mass_g uw vw;
        g_tortu := tort; g_epor := epor; g_psdfr := psdfr;
        g_units := cu; g_mass_mul := conc_mult cu;
        g_time := fst tu; g_t_mult := snd tu; g_flow_mult := dec 1 3 |}.

(** PSDM.py:143-186 — what the class uses when it is given keyword arguments
    instead of the sheet's time and concentration units. *)
Definition kw_t_mult (time_type : string) : R :=
  if String.eqb time_type "days" then min_per_day
  else if String.eqb time_type "hours" then 60%R else 1%R.
Definition kw_flow_mult (flow_type : string) : R :=
  if String.eqb flow_type "gal" then lpg
  else if String.eqb flow_type "ml" then dec 1 3 else 1%R.
Definition kw_mass_mul (conc_type : string) : R :=
  if String.eqb conc_type "ug" then 1%R
  else if String.eqb conc_type "ng" then dec 1 3
  else if String.eqb conc_type "mg" then 1000%R else 1%R.

(** PSDM.py:210-219 — derived values; the same lines are repeated at 770-779
    ([__reset_column_values]) and 1949-1958 ([model_uncertainty]).  Water viscosity
    [vw] and density [dw] enter the Reynolds number. *)
Section Derived.
Open Scope R_scope.
Variable g : gac.
Definition d_area : R := PI * g_diam g ^ 2 / 4.
Definition d_bedvol : R := d_area * g_L g.
Definition d_ebed : R := 1 - g_wt g / (d_bedvol * g_rhop g).
Definition d_tau : R := d_bedvol * d_ebed * 60 / g_flrt g.
Definition d_sf : R := dec 245423867471 12 * g_flrt g / d_area.
Definition d_vs : R := g_flrt g / (60 * d_area).
Definition d_re (vw dw : R) : R := (2 * g_rad g * d_vs * dw) / (d_ebed * vw).
Definition d_ebct : R := d_area * g_L g / g_flrt g.
End Derived.
