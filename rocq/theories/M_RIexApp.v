(** Model of the rest of the ion-exchange web application, Shiny-IEX/Ion_Exchange_Model.R:
    unit tables (35-95), the helpers 854-1212, the alkalinity and film-transfer calculators
    (1992-2080), the time axes, plots and saved results (2102-2548).
    Frames are lists of named columns.  Choosing a column that is not there stops with an
    error, [KeyError] here.  A unit that is in no table gives NA, which spoils every later number;
    it is an error here too ([ValueError]).  Texts and numbers of the input boxes are the fields
    of a record; the reactive graph is read off as plain functions. *)
From Coq Require Import Reals List Arith Bool String.
From Verif Require Import Lib_Py Lib_Pow M_GacFun M_IxColumn M_IxUnc.
Import ListNotations.
Open Scope R_scope.
Open Scope string_scope.
Local Notation length := List.length.

(** ** Units, 35-95 *)
Definition m2cm : R := 100.
Definition mm2cm : R := dec 1 1.
Definition cm2cm : R := 1.
Definition in2cm : R := dec 254 2.
Definition ft2cm : R := 12 * in2cm.
Definition min2sec : R := 60.
Definition hour2sec : R := 60 * min2sec.
Definition day2sec : R := 24 * hour2sec.
Definition month2sec : R := 30 * day2sec.
Definition year2sec : R := dec 36525 2 * day2sec.
Definition mpmin2cmps : R := m2cm / min2sec.
Definition ftpmin2cmps : R := ft2cm / min2sec.
Definition mph2cmps : R := m2cm / hour2sec.
Definition gal2ft3 : R := dec 133680555556 12.
Definition gpmpft2cmps : R := gal2ft3 * ft2cm / min2sec.
Definition gal2ml : R := dec 3785411784 6.
Definition mgd2mlps : R := 10 ^ 6 * gal2ml / day2sec.
Definition l2ml : R := 1000.
Definition length_conv : list (string * R) :=
  [("m", m2cm); ("cm", cm2cm); ("mm", mm2cm); ("in", in2cm); ("ft", ft2cm)].
Definition velocity_conv : list (string * R) :=
  [("cm/s", cm2cm); ("m/s", m2cm); ("m/min", mpmin2cmps); ("m/h", mph2cmps); ("m/hr", mph2cmps);
   ("in/s", in2cm); ("ft/s", ft2cm); ("ft/min", ftpmin2cmps); ("gpm/ft^2", gpmpft2cmps)].
Definition volumetric_conv : list (string * R) :=
  [("cm^3/s", cm2cm); ("m^3/s", m2cm ^ 3); ("ft^3/s", ft2cm ^ 3); ("mL/s", cm2cm); ("L/min", l2ml / min2sec);
   ("mL/min", 1 / min2sec); ("gpm", gal2ml / min2sec); ("mgd", mgd2mlps)].
Definition time_conv : list (string * R) :=
  [("Hours", hour2sec); ("Days", day2sec); ("Months", month2sec); ("Years", year2sec);
   ("hr", hour2sec); ("day", day2sec); ("month", month2sec); ("year", year2sec)].
Definition kL_conv : list (string * R) :=
  [("ft/s", ft2cm); ("m/s", m2cm); ("cm/s", cm2cm); ("in/s", in2cm); ("m/min", mpmin2cmps);
   ("ft/min", ftpmin2cmps); ("m/h", mph2cmps); ("m/hr", mph2cmps)].
Definition ds_conv : list (string * R) :=
  [("ft^2/s", ft2cm ^ 2); ("m^2/s", m2cm ^ 2); ("cm^2/s", cm2cm); ("in^2/s", in2cm ^ 2)].
Definition mass_conv : list (string * R) :=
  [("meq", 1); ("meq/L", 1); ("mg", 1); ("ug", dec 1 3); ("ng", dec 1 6); ("mg/L", 1); ("ug/L", dec 1 3); ("ng/L", dec 1 6)].

(** ** Inputs *)
Record boxes := {
  linear : bool;                    (** veloselect is Linear *)
  Vv : R; VelocityUnits : string; Fv : R; FlowrateUnits : string; Dv : R; DiameterUnits : string;
  Lv : R; LengthUnits : string; rbv : R; rbunits : string; Qv : R; EBEDv : R; EPORv : R;
  nrv : nat; nzv : nat; timeunits2 : string; psdm : bool }.
Record ion := {
  i_name : string; i_mw : R; i_KxA : R; i_valence : nat; i_kL : R; i_kL_units : string; i_Ds : R; i_Ds_units : string;
  i_Dp : R; i_Dp_units : string; i_units : string }.
Definition frame := list (string * list R).

(** 856-860, 961-965: the velocity in cm/s *)
Definition velocity (b : boxes) : res R :=
  if linear b then do k <- of_option ValueError (lookup (VelocityUnits b) velocity_conv); Ok (Vv b * k)
  else do f <- of_option ValueError (lookup (FlowrateUnits b) volumetric_conv);
       do d <- of_option ValueError (lookup (DiameterUnits b) length_conv);
       Ok (Fv b * f / (PI / 4 * (Dv b * d) ^ 2)).
(** 854-867: seconds per bed volume *)
Definition get_bv_in_sec (b : boxes) : res R :=
  do v <- velocity b; do l <- of_option ValueError (lookup (LengthUnits b) length_conv); Ok (Lv b * l / v).

(** ** Concentrations *)
(** 882-886: the factor of one ion *)
Definition meq_factor (i : ion) : res R :=
  if String.eqb (i_units i) "meq" then Ok 1
  else do m <- of_option ValueError (lookup (i_units i) mass_conv); Ok (m / i_mw i * INR (i_valence i)).
(** 874-899: cin_correct *)
Definition convert_columns (factor : ion -> res R) (ions : list ion) (cins : frame) : res frame :=
  fold_left (fun acc i => do out <- acc; do k <- factor i; do col <- of_option KeyError (lookup (i_name i) cins);
                          Ok (update (i_name i) (map (fun v => v * k) col) out)) ions (Ok cins).
Definition cin_correct (ions : list ion) (cins : frame) : res frame := convert_columns meq_factor ions cins.
(** 1190-1212: mass_converter_mgl *)
Definition mgl_factor (i : ion) : res R :=
  if (String.eqb (i_units i) "meq" || String.eqb (i_units i) "meq/L")%bool then Ok (i_mw i / INR (i_valence i))
  else of_option ValueError (lookup (i_units i) mass_conv).
Definition mass_converter_mgl (ions : list ion) (concs : frame) : res frame := convert_columns mgl_factor ions concs.

(** 995-1012, 1146-1163: the names of the two tables are compared; the number of mismatches *)
Definition mismatches (ions : list ion) (cins : frame) : nat :=
  (length (filter (fun i => negb (mem_str (i_name i) (keys cins))) ions)
   + length (filter (fun c => (negb (String.eqb c "time") && negb (mem_str c (map i_name ions)))%bool) (keys cins)))%nat.

(** 1023-1035: transport coefficients in cm and s *)
Definition factor_of (tbl : list (string * R)) (u : string) : res R := of_option ValueError (lookup u tbl).
Definition corr_ion (p : bool) (i : ion) : res ion :=
  do kf <- factor_of kL_conv (i_kL_units i); do ds <- factor_of ds_conv (i_Ds_units i);
  do dp <- (if p then factor_of ds_conv (i_Dp_units i) else Ok 1);
  Ok {| i_name := i_name i; i_mw := i_mw i; i_KxA := i_KxA i; i_valence := i_valence i; i_kL := i_kL i * kf; i_kL_units := i_kL_units i;
        i_Ds := i_Ds i * ds; i_Ds_units := i_Ds_units i; i_Dp := i_Dp i * dp; i_Dp_units := i_Dp_units i; i_units := i_units i |}.
(** What the solver is given. *)
Record solver_input := { s_column : column; s_names : list string; s_cin : frame; s_time : R }.
Inductive prepared := Solve (s : solver_input) | Mismatch (n : nat).
Definition nth_ion {A} (f : ion -> A) (d : A) (ions : list ion) (k : nat) : A :=
  match nth_error ions k with Some i => f i | None => d end.
(** 959-1052: model_prep up to the call of the solver *)
Definition model_prep (b : boxes) (ions : list ion) (cins : frame) : res prepared :=
  do v <- velocity b;
  do l <- factor_of length_conv (LengthUnits b); do r <- factor_of length_conv (rbunits b);
  match mismatches ions cins with
  | O => do cin <- cin_correct ions cins; do cs <- mapM (corr_ion (psdm b)) ions; do t <- factor_of time_conv (timeunits2 b);
         Ok (Solve {| s_column := {| NION := length cs; nr := nrv b; nz := nzv b; EBED := EBEDv b; EPOR := EPORv b; Lbed := Lv b * l; vel := v;
                        rb := rbv b * r; Qcap := Qv b; kL := nth_ion i_kL 0 cs; Ds := nth_ion i_Ds 0 cs; Dp := nth_ion i_Dp 0 cs;
                        Kxc := nth_ion i_KxA 0 cs; val := nth_ion i_valence 0%nat cs |};
                      s_names := map i_name cs; s_cin := cin; s_time := t |})
  | n => Ok (Mismatch n)
  end.

(** 322-329, 357-362 and 515-522, 551-556: inside the solver the influent table is a matrix.  Its first
    column is the time; ion number [k] takes the column after the [k+1]st.  Times increase, as
    for approxfun; a time outside the table gives NA, an error here. *)
Definition matrix_column (cin : frame) (k : nat) : res (list R) := do p <- of_option IndexError (nth_error cin k); Ok (snd p).
Definition solver_times (s : solver_input) : res (list R) := do t <- matrix_column (s_cin s) 0; Ok (map (fun x => x * s_time s) t).
Definition solver_influent (s : solver_input) (k : nat) (t : R) : res R :=
  do ts <- solver_times s; do col <- matrix_column (s_cin s) (S k); interp1d (combine ts col) t.
(** 332-333, 525-526: [n] reporting times in seconds, 472: in hours *)
Definition report_times (s : solver_input) (n : nat) : res (list R) :=
  do ts <- solver_times s;
  match rev ts with [] => Err IndexError | tmax :: _ => Ok (linspace 0 (tmax * dec 99 2) n) end.
Definition t_out (times : list R) : list R := map (fun t => t / 60 / 60) times.

(** ** Results *)
(** 2242-2250: the outlet liquid, a column for each ion of the sheet, meq/L; 1056-1075: mg/L, the
    factors are taken by position *)
Definition mgl_columns (ions : list ion) (meq : frame) : frame :=
  map (fun p => (fst (fst p), map (fun v => v * (i_mw (snd p) / INR (i_valence (snd p)))) (snd (fst p)))) (combine meq ions).
(** 1078-1097: the columns saved as "Input Concentration Units"; without PFOA the assignment of
    an empty column stops *)
Definition meq_ng_columns (ions : list ion) (meq : frame) : res frame :=
  match find (fun i => String.eqb (i_name i) "PFOA") ions, lookup "PFOA" meq with
  | Some i, Some col => Ok (update "PFOA" (map (fun v => v * (i_mw i / INR (i_valence i)) / dec 1 6) col) meq)
  | _, _ => Err ValueError
  end.
(** 2532-2548: the saved table.  Both choices read the column names of the second conversion;
    when that failed no column is left and naming them stops. *)
Definition saved (input_units : bool) (ions : list ion) (meq : frame) : res frame :=
  do ng <- meq_ng_columns ions meq; Ok (if input_units then ng else mgl_columns ions meq).

(** 1164-1182: influents at the first time, meq/L, in the order of the influent table *)
Definition cc0_factor (i : ion) : res R :=
  if (String.eqb (i_units i) "meq" || String.eqb (i_units i) "meq/L")%bool then Ok 1
  else do m <- of_option ValueError (lookup (i_units i) mass_conv); Ok (m * INR (i_valence i) / i_mw i).
Definition find_ion (n : string) (ions : list ion) : res ion := of_option KeyError (find (fun i => String.eqb (i_name i) n) ions).
Definition cc0_conv_meq (ions : list ion) (cins : frame) : res (list (string * R)) :=
  mapM (fun p => do i <- find_ion (fst p) ions; do k <- cc0_factor i; do c <- of_option IndexError (nth_error (snd p) 0);
                 Ok (fst p, c * k)) (filter (fun p => negb (String.eqb (fst p) "time")) cins).
(** 1101-1111: divided by position *)
Definition HSDMIX_cc0 (meq : frame) (c0 : list (string * R)) : frame :=
  map (fun p => (fst (fst p), map (fun v => v / snd (snd p)) (snd (fst p)))) (combine meq c0).

(** ** Axes *)
(** 2102-2113: the plotted times of the influent, in hours *)
Definition cindat_hours (b : boxes) (t : R) : R := if String.eqb (timeunits2 b) "hr" then t else t * 24.
(** 2342-2356: hours on the axis of the plot *)
Definition plot_time (b : boxes) (u : string) (hours : R) : res R :=
  if String.eqb u "Bed Volumes (x1000)" then do bv <- get_bv_in_sec b; Ok (hours / (bv / hour2sec) / 10 ^ 3)
  else do k <- factor_of time_conv u; Ok (hours / (k / hour2sec)).
(** 2378-2382: mg/L in the unit of the plot *)
Definition plot_conc (u : string) (mgl : R) : res R := do k <- factor_of mass_conv u; Ok (mgl / k).

(** ** The two plots *)
(** tidyr::gather: one row for each ion and time *)
Definition gather (cols : frame) : list (string * R) := flat_map (fun p => map (fun v => (fst p, v)) (snd p)) cols.
Definition ion_list : list string := ["CHLORIDE"; "SULFATE"; "BICARBONATE"; "NITRATE"].
(** 2311-2326 with nt_report rows for each ion; 813-815, 837-839: the plots keep the names that belong to
    them *)
Definition counterIon_loc (cins : frame) (nt : nat) : nat := (length (filter (fun n => mem_str n (keys cins)) ion_list) * nt)%nat.
Definition counter_plot (cins cols : frame) (nt : nat) : list (string * R) :=
  filter (fun r => mem_str (fst r) ion_list) (firstn (counterIon_loc cins nt) (gather cols)).
Definition other_plot (cins cols : frame) (nt : nat) : list (string * R) :=
  filter (fun r => negb (mem_str (fst r) ion_list)) (skipn (counterIon_loc cins nt) (gather cols)).

(** ** Alkalinity calculator, 1992-2034 *)
Definition K1 : R := rpow 10 (- dec 6352 3).
Definition K2 : R := rpow 10 (- dec 10329 3).
Definition KW : R := rpow 10 (-14).
Definition h_plus (pH : R) : R := rpow 10 (- pH).
Definition oh_minus (pH : R) : R := KW / h_plus pH.
Definition alpha_0 (h : R) : R := 1 / (1 + K1 / h + K1 * K2 / h ^ 2).
Definition alpha_1 (h : R) : R := 1 / (1 + h / K1 + K2 / h).
Definition alpha_2 (h : R) : R := 1 / (1 + h / K2 + h ^ 2 / (K1 * K2)).
Definition TOTCO3_M (alk pH : R) : R := (alk / 50000 + h_plus pH - oh_minus pH) / (alpha_1 (h_plus pH) + 2 * alpha_2 (h_plus pH)).
Definition HCO3_mM (alk pH : R) : R := alpha_1 (h_plus pH) * (1000 * TOTCO3_M alk pH).
(** The three numbers shown (mM, mg C/L, mg HCO3/L), or INVALID. *)
Definition bicarbonate (alk pH : R) : option (R * R * R) :=
  let h := HCO3_mM alk pH in if rltb h 0 then None else Some (h, h * 12, h * 61).

(** ** Film-transfer calculator, 2044-2080: one compound of the given molar volume *)
Definition kL_estimate (b : boxes) (temp MolarVol : R) : R :=
  let mu1 := viscosity temp * 100 in
  let D := dec 1326 7 * rpow mu1 (- dec 114 2) * rpow MolarVol (- dec 589 3) in
  let dP := 2 * rbv b in
  let u := Vv b / EBEDv b in
  let Re := u * dP * (density temp / viscosity temp) in
  let Sc := viscosity temp / density temp / D in
  let Sh := (2 + dec 644 3 * rpow Re (1 / 2) * rpow Sc (1 / 3)) * (1 + dec 15 1 * (1 - EBEDv b)) in
  Sh * D / dP.
