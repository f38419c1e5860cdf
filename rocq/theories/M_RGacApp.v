(** Model of the granular-carbon web application, Shiny-GAC/GACapp.R: unit tables (21-104), the
    helpers 116-479, the page after a file is read (906-1061), the input check and the run
    (1101-1134), the fit (1141-1196), axes and plots (1198-1309) and the saved workbook
    (1323-1362).
    Frames are times with named columns.  A unit that is in no table gives NA, an error here
    ([ValueError]).  The texts and numbers of the input boxes are the fields of a record; the
    reactive graph is read off as plain functions.  Numbers are saved and read exactly: the value
    column holds texts too, so that format(..., digits = 4) of 1039-1045 is applied to texts, which
    it leaves alone.  Lengths and velocities use the tables of the ion-exchange application, which
    are the same (22-26, 42-49, 65-69). *)
From Coq Require Import Reals List Arith Bool String.
From Verif Require Import Lib_Py M_GacFun M_GacShiny M_RIexApp.
Import ListNotations.
Open Scope R_scope.
Open Scope string_scope.
Local Notation length := List.length.

(** 71-73: to mL/min *)
Definition g_volumetric_conv : list (string * R) :=
  [("cm^3/s", cm2cm * min2sec); ("m^3/s", min2sec * m2cm ^ 3); ("ft^3/s", min2sec * ft2cm ^ 3); ("mL/s", min2sec * cm2cm);
   ("L/min", l2ml); ("mL/min", 1); ("gpm", gal2ml); ("mgd", 10 ^ 6 * gal2ml)].
(** 35-39, 76-78: from days *)
Definition month2day : R := 1 / 30.
Definition day2day : R := 1.
Definition hour2day : R := 24.
Definition year2day : R := month2day / 12.
Definition g_time_conv : list (string * R) :=
  [("Hours", hour2day); ("Days", day2day); ("Months", month2day); ("Years", year2day); ("hr", hour2day); ("day", day2day);
   ("month", month2day); ("year", year2day); ("hours", hour2day); ("days", day2day); ("hrs", hour2day)].
(** 86-90 *)
Definition g_mass_conv : list (string * R) :=
  [("meq", 1000); ("meq/L", 1000); ("mg", 1000); ("ug", 1); ("ng", dec 1 3); ("mg/L", 1000); ("ug/L", 1); ("ng/L", dec 1 3)].
Definition density_conv : list (string * R) := [("g/ml", 1)].
Definition weight_conv : list (string * R) := [("kg", 1000); ("g", 1); ("lb", 1000 / dec 220462 5)].
(** 103-104 *)
Definition wfoulingvector : list string := ["Organic Free"; "Rhine"; "Portage"; "Karlsruhe"; "Wausau"; "Houghton"].
Definition cfoulingvector : list string :=
  ["halogenated alkenes"; "halogenated alkanes"; "halogenated alkanes QSPR"; "trihalo-methanes"; "aromatics"; "nitro compounds";
   "chlorinated hydrocarbon"; "phenols"; "PNAs"; "pesticides"; "PFAS"].

(** The boxes of the page (636-800). *)
Record gboxes := {
  g_linear : bool; g_Vv : R; g_VelocityUnits : string; g_Fv : R; g_FlowrateUnits : string; g_Dv : R; g_DiameterUnits : string;
  g_Lv : R; g_LengthUnits : string; g_prv : R; g_prunits : string; g_EPORv : R; g_psdfrv : R; g_pdv : R; g_pdunits : string;
  g_adv : R; g_adunits : string; g_wv : R; g_wunits : string; g_tortuv : R; g_conc_units : string; g_tunits2 : string;
  g_nr : nat; g_nz : nat; g_WFouling : string; g_CFouling : string }.

(** ** 193-256: column_data *)
Definition flow_ml_min (b : gboxes) : res R :=
  if g_linear b then
    do d <- factor_of length_conv (g_DiameterUnits b); do v <- factor_of velocity_conv (g_VelocityUnits b);
    Ok (PI / 4 * (g_Dv b * d) ^ 2 * g_Vv b * v * min2sec)
  else do f <- factor_of g_volumetric_conv (g_FlowrateUnits b); Ok (g_Fv b * f).
Definition mass_mult (u : string) : R := if String.eqb u "ug" then 1 else if String.eqb u "ng" then dec 1 3 else 1000.
Definition t_mult (u : string) : R := if String.eqb u "days" then 1440 else 60.
(** the numbers of the table *)
Definition column_data (b : gboxes) : res (list (string * R)) :=
  do fl <- flow_ml_min b; do r <- factor_of length_conv (g_prunits b); do pd <- factor_of density_conv (g_pdunits b);
  do ad <- factor_of density_conv (g_adunits b); do l <- factor_of length_conv (g_LengthUnits b);
  do w <- factor_of weight_conv (g_wunits b); do d <- factor_of length_conv (g_DiameterUnits b);
  Ok [("rad", g_prv b * r); ("epor", g_EPORv b); ("psdfr", g_psdfrv b); ("rhop", g_pdv b * pd); ("rhof", g_adv b * ad);
      ("L", g_Lv b * l); ("wt", g_wv b * w); ("flrt", fl); ("diam", g_Dv b * d); ("tortu", g_tortuv b);
      ("mass_mul", mass_mult (g_conc_units b)); ("flow_mult", dec 1 3); ("t_mult", t_mult (g_tunits2 b))].

(** ** 1101-1121: error_handling; [true] is a run that goes on *)
Definition accepted (b : gboxes) : res bool :=
  do w <- factor_of weight_conv (g_wunits b); do d <- factor_of length_conv (g_DiameterUnits b);
  do l <- factor_of length_conv (g_LengthUnits b); do ad <- factor_of density_conv (g_adunits b);
  let coldensity := g_wv b * w / (PI * (g_Dv b * d / 2) ^ 2 * (g_Lv b * l)) in
  Ok (negb (rltb (g_adv b * ad) coldensity) && mem_str (g_WFouling b) wfoulingvector && mem_str (g_CFouling b) cfoulingvector)%bool.

(** PSDM/psdm/PSDM.py 210-212: the porosity of the bed, from what is handed over *)
Definition bed_porosity (d : list (string * R)) : res R :=
  do diam <- of_option KeyError (lookup "diam" d); do l <- of_option KeyError (lookup "L" d);
  do wt <- of_option KeyError (lookup "wt" d); do rhop <- of_option KeyError (lookup "rhop" d);
  Ok (1 - wt / (PI * diam ^ 2 / 4 * l * rhop)).

(** 963-964, 1129, 1158: the collocation points handed over are constants, reactive(7) and
    reactive(12), which the boxes nrv and nzv are set to (1048-1049) but not read from *)
Definition points_used (b : gboxes) : nat * nat := (7%nat, 12%nat).

(** ** Axes *)
(** 364-374: get_bv_in_sec *)
Definition g_bv (b : gboxes) : res R :=
  do v <- (if g_linear b then do k <- factor_of velocity_conv (g_VelocityUnits b); Ok (g_Vv b * k)
           else do f <- factor_of g_volumetric_conv (g_FlowrateUnits b); do d <- factor_of length_conv (g_DiameterUnits b);
                Ok (g_Fv b * f / (PI / 4 * (g_Dv b * d) ^ 2)));
  do l <- factor_of length_conv (g_LengthUnits b); Ok (g_Lv b * l / v).
(** 1230-1244: a time of the results or of the data on the axis *)
Definition g_plot_time (b : gboxes) (u : string) (t : R) : res R :=
  if String.eqb u "Bed Volumes (x1000)" then do bv <- g_bv b; Ok (t / (bv / (day2sec / min2sec)) / 10 ^ 3)
  else do k <- factor_of g_time_conv u; Ok (t * k).
(** 349-357 and 1252-1256: a concentration, to ug/L and to the unit of the plot *)
Definition g_plot_conc (b : gboxes) (u : string) (c : R) : res R :=
  do m <- factor_of g_mass_conv (g_conc_units b); do o <- factor_of g_mass_conv u; Ok (c * m / o).

(** ** Long tables: time, name, concentration *)
Definition point := (R * string * R)%type.
(** 265-281, 318-325: tidyr::gather beside the times: one column after the other *)
Definition by_column (w : timed) : list point := flat_map (fun p => map (fun q => (fst q, fst p, snd q)) (combine (f_time w) (snd p))) (f_cols w).
(** 333-343: pivot_longer(!time): one row after the other *)
Definition by_row (w : timed) : list point :=
  flat_map (fun k => map (fun p => (nth k (f_time w) 0, fst p, nth k (snd p) 0)) (f_cols w)) (seq 0 (length (f_time w))).
(** 265-281, 288-296, 318-325: the measured points, with a mark after the name.  Effluents need
    more than one row (266). *)
Definition renamed (mark : string) (w : timed) : timed := {| f_time := f_time w; f_cols := map (fun p => (fst p ++ mark, snd p)) (f_cols w) |}.
Definition effluent_data_processor (w : timed) : list point := if Nat.ltb 1 (length (f_time w)) then by_column (renamed "_effluent" w) else [].
Definition influent_points (w : timed) : list point := by_column (renamed "_influent" w).
(** 402-439: cc0_conv_ngl and c_points_cc0: columns over the first row of the influents, by
    position, named after the influents.  Tables have as many columns as the influents. *)
Definition first_row (inf : timed) : list R := map (fun p => nth 0 (snd p) 0) (f_cols inf).
Definition over_c0 (inf w : timed) : timed :=
  {| f_time := f_time w;
     f_cols := map (fun p => (fst (fst p), map (fun v => v / snd p) (snd (snd (fst p))))) (combine (combine (map fst (f_cols inf)) (f_cols w)) (first_row inf)) |}.
(** 1209-1220, 1248-1251, 1267-1301: the points drawn; the concentrations of a table replace those of another row by
    row *)
Definition with_concs (pts : list point) (concs : list R) : list point := combine (map fst pts) concs.
(** OCunits "c/c0": computed results, effluents and influents *)
Definition computed_cc0 (inf out : timed) : list point := with_concs (by_row out) (map snd (by_row (over_c0 inf out))).
Definition effluent_cc0 (inf eff : timed) : list point := with_concs (effluent_data_processor eff) (map snd (by_row (over_c0 inf eff))).
Definition influent_cc0 (inf : timed) : list point := with_concs (influent_points inf) (map snd (by_row (over_c0 inf inf))).

(** ** The saved workbook *)
Inductive cell := Num (x : R) | Txt (s : string) | NA.
(** 472-478: columnspecs_prep *)
Definition specs := list (string * (cell * cell)).
Definition columnspecs (b : gboxes) : specs :=
  [("carbonID", (Txt "F400", NA)); ("radius", (Num (g_prv b), Txt (g_prunits b))); ("porosity", (Num (g_EPORv b), NA)); ("psdfr", (Num (g_psdfrv b), NA));
   ("particleDensity", (Num (g_pdv b), Txt "g/ml")); ("apparentDensity", (Num (g_adv b), Txt "g/ml")); ("length", (Num (g_Lv b), Txt (g_LengthUnits b)));
   ("weight", (Num (g_wv b), Txt (g_wunits b))); ("flowrate", (Num (g_Fv b), Txt (g_FlowrateUnits b))); ("diameter", (Num (g_Dv b), Txt (g_DiameterUnits b)));
   ("tortuosity", (Num (g_tortuv b), NA)); ("influentID", (Txt "influent", NA)); ("effluentID", (Txt "effluent", NA));
   ("units", (Txt (g_conc_units b), NA)); ("time", (Txt (g_tunits2 b), NA))].
(** 923-936 and 950-1061: the boxes after the file is read, [d] before.  A row that is missing
    leaves its box; the unit of the sheet comes first in the list and is selected.  176-185: the
    sheet of the fouling, or none. *)
Definition num_of (s : specs) (n : string) (d : R) : R := match lookup n s with Some (Num x, _) => x | _ => d end.
Definition unit_of (s : specs) (n : string) (d : string) : string := match lookup n s with Some (_, Txt u) => u | _ => d end.
Definition text_of (s : specs) (n : string) (d : string) : string := match lookup n s with Some (Txt u, _) => u | _ => d end.
Definition saved_fouling (b : gboxes) : string * string := (g_WFouling b, g_CFouling b).
Definition reload (s : specs) (fouling : option (string * string)) (d : gboxes) : gboxes :=
  let lin := mem_key "v" s in
  {| g_linear := if lin then true else if mem_key "flowrate" s then false else g_linear d;
     g_Vv := num_of s "v" (g_Vv d); g_VelocityUnits := unit_of s "v" (g_VelocityUnits d);
     g_Fv := if lin then g_Fv d else num_of s "flowrate" (g_Fv d); g_FlowrateUnits := unit_of s "flowrate" (g_FlowrateUnits d);
     g_Dv := num_of s "diameter" (g_Dv d); g_DiameterUnits := unit_of s "diameter" (g_DiameterUnits d);
     g_Lv := num_of s "length" (g_Lv d); g_LengthUnits := unit_of s "length" (g_LengthUnits d);
     g_prv := num_of s "radius" (g_prv d); g_prunits := unit_of s "radius" (g_prunits d);
     g_EPORv := num_of s "porosity" (g_EPORv d); g_psdfrv := num_of s "psdfr" (g_psdfrv d);
     g_pdv := num_of s "particleDensity" (g_pdv d); g_pdunits := unit_of s "particleDensity" (g_pdunits d);
     g_adv := num_of s "apparentDensity" (g_adv d); g_adunits := unit_of s "apparentDensity" (g_adunits d);
     g_wv := num_of s "weight" (g_wv d); g_wunits := unit_of s "weight" (g_wunits d);
     g_tortuv := num_of s "tortuosity" (g_tortuv d); g_conc_units := text_of s "units" (g_conc_units d); g_tunits2 := text_of s "time" (g_tunits2 d);
     g_nr := 7; g_nz := 12; g_WFouling := match fouling with Some f => fst f | None => "Organic Free" end;
     g_CFouling := match fouling with Some f => snd f | None => "halogenated alkenes" end |}.

(** 446-465, 1323-1340: influents and effluents in one sheet: type, time, concentration, compound *)
Definition row := (string * point)%type.
Definition saved_data (inf eff : timed) : list row := (map (pair "influent") (by_row inf) ++ map (pair "effluent") (by_row eff))%list.
(** 144-148: the rows of a type, pivot_wider.  Two rows of the same time and compound make a
    column of lists, which write.csv refuses ([None]). *)
Definition uniq {A} (eqd : A -> A -> bool) (l : list A) : list A :=
  fold_left (fun acc x => if existsb (eqd x) acc then acc else (acc ++ [x])%list) l [].
Definition point_at (pts : list point) (t : R) (n : string) : list R :=
  map snd (filter (fun p => (reqb (fst (fst p)) t && String.eqb (snd (fst p)) n)%bool) pts).
(** a missing cell is empty *)
Definition pivot_wider (pts : list point) : option (list R * list (string * list (option R))) :=
  let ts := uniq reqb (map (fun p => fst (fst p)) pts) in let ns := uniq String.eqb (map (fun p => snd (fst p)) pts) in
  if forallb (fun t => forallb (fun n => Nat.leb (length (point_at pts t n)) 1) ns) ts
  then Some (ts, map (fun n => (n, map (fun t => nth_error (point_at pts t n) 0) ts)) ns) else None.
Definition read_data (ty : string) (rows : list row) : option (list R * list (string * list (option R))) :=
  pivot_wider (map snd (filter (fun r => String.eqb (fst r) ty) rows)).

(** ** Fitted isotherms *)
(** 1147, 1158-1160, 1171-1177: kdata_fit, five rows: zeros before a fit, what run_PSDM_fitter returned
    after it — ones or twos in a column named "0" when it failed (GAC_Shiny_helper.py 168-170,
    179-181). *)
Inductive fit := NotFitted | Fitted (k : ktable) | FitFailed (inner : bool).
Definition kdata_fit (f : fit) : ktable :=
  match f with
  | NotFitted => [("Chemical", [0; 0; 0; 0; 0])]
  | Fitted k => k
  | FitFailed inner => [("0", let x := if inner then 1 else 2 in [x; x; x; x; x])]
  end.
(** 1180-1196: Use Data: the stored table afterwards, and whether the page is reloaded with it; the
    first number decides *)
Definition use_data (f : fit) : ktable * bool :=
  let k := kdata_fit f in
  (k, match k with (_, x :: _) :: _ => negb (reqb x 0) | _ => true end).
