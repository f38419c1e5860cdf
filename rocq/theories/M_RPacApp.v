(** Model of the powdered-carbon web application, Shiny-PAC/PACapp.R: unit tables (17-109), what a
    workbook puts on the page (573-653), the contactor (309-356, 563-571), the run (669-707), the dosage study (709-769), axes
    (772-806) and the saved workbook (842-857).
    The results come from M_Pac: R_run_PAC, _run_multi_doseR and _R_HRT_calculator_for_dosage.
    NA is [None].  The unit tables of masses are those of the granular-carbon application. *)
From Coq Require Import Reals List Arith Bool String ZArith.
From Verif Require Import Lib_Py Lib_Sum M_GacFun M_GacShiny M_RIexApp M_RGacApp M_Pac.
Import ListNotations.
Open Scope R_scope.
Open Scope string_scope.
Local Notation length := List.length.

(** ** Axes *)
(** 39-40, 81: from minutes *)
Definition p_time_conv : list (string * R) := [("Minutes", 1); ("Hours", 1 / 60)].
(** 776-787, 799: times in minutes, concentrations in ug/L *)
Definition p_plot_time (u : string) (t : R) : res R := do k <- factor_of p_time_conv u; Ok (t * k).
Definition p_plot_conc (u : string) (c : R) : res R := do k <- factor_of g_mass_conv u; Ok (c / k).

(** ** C/C0, 686-702 *)
(** The compounds sheet: name, C0 and its unit, in the order of the columns. *)
Definition csheet := list (string * R * string).
(** 693-698: the columns of the long table less one, that is 2, whatever the number of compounds *)
Definition convert_entry (s : csheet) (k : nat) : option R :=
  match nth_error s k with
  | Some (_, c0, u) => option_map (fun m => m * c0) (lookup u g_mass_conv)
  | None => None
  end.
Definition convert_array (s : csheet) : list (option R) := map (convert_entry s) (seq 0 (3 - 1)).
(** mapply('/', values, array): the array is used again and again *)
Definition over (v : R) (d : option R) : option R := option_map (fun c => v / c) d.
Fixpoint recycled (all left : list (option R)) (vals : list R) : list (option R) :=
  match vals with
  | [] => []
  | v :: t =>
      match left with
      | d :: l => over v d :: recycled all l t
      | [] => match all with d :: l => over v d :: recycled all l t | [] => [] end
      end
  end.
Definition wide (t : table) : timed := {| f_time := t_min t; f_cols := t_cols t |}.
(** 687-700; sorting by compound (702) only changes the order of the points *)
Definition pac_cc0 (s : csheet) (t : table) : list (R * string * option R) :=
  let pts := by_row (wide t) in combine (map fst pts) (recycled (convert_array s) [] (map snd pts)).

(** ** The dosage study *)
(** seq(from, to, by) of base R, for from <= to *)
Definition r_seq (lo hi by_ : R) : list R :=
  if reqb lo hi then [lo]
  else map (fun k => Rmin (lo + INR k * by_) hi) (seq 0 (S (Z.to_nat (Int_part ((hi - lo) / by_ + dec 1 10))))).
(** 735-741 *)
Definition chosen_doses (lo hi : R) (n : nat) : list R := r_seq lo hi ((hi - lo) / (INR n - 1)).
(** 743, 747: concentrations by dose *)
Definition by_dose (f : carbon) (solve : list eqn -> R -> list (R * list R)) (o : pac) (lo hi : R) (n : nat) : list (R * list (string * list R)) :=
  snd (run_multi_doseR f solve o (chosen_doses lo hi n) [30; 60; 90; 120]).
(** 762, PAC.py 1063: the doses are left to their default, np.arange(5, 151, 20); after the study above *)
Definition default_doses : list R := map (fun k => 5 + 20 * INR k) (seq 0 8).
Definition for_target (f : carbon) (solve : list eqn -> R -> list (R * list R)) (o : pac) (lo hi : R) (n : nat) (target : R) (target_units conc_units : string) :
  res (list (R * list (string * option R))) :=
  snd (R_HRT_calculator f solve (fst (run_multi_doseR f solve o (chosen_doses lo hi n) [30; 60; 90; 120])) target target_units default_doses conc_units).

(** ** Workbooks *)
(** format(x, digits = 4, scientific = FALSE) of base R for a positive number: four significant digits,
    but no digit before the point is dropped.  How ties are rounded is not modelled. *)
Definition magnitude (x : R) : Z := Int_part (ln x / ln 10).
Definition format4 (x : R) : R := let q := powerRZ 10 (Z.min 0 (magnitude x - 3)) in IZR (Int_part (x / q + 1 / 2)) * q.
(** The boxes that a workbook fills in, and that are handed to the model (673-686).  The sizes of the
    contactor are not filled in (545-561). *)
Record pboxes := { x_temp : R; x_flow : R; x_flowunits : string; x_den : R; x_por : R; x_rad : R; x_radunits : string; x_hrt : R; x_crt : R; x_dosage : R }.
(** The sheets Contactor and PAC Characteristics.  The values of the first are texts, because of the
    row format, so that format(flow, ...) leaves them alone; those of the second are numbers. *)
Record pfile := { w_temp : R; w_flow : R; w_flowunits : string; w_hrt : R; w_crt : R; w_dosage : R; w_den : R; w_por : R; w_rad : R; w_radunits : string }.
(** 573-653.  Sliders hold the number of the sheet. *)
Definition filled_in (w : pfile) : pboxes :=
  {| x_temp := w_temp w; x_flow := w_flow w; x_flowunits := w_flowunits w; x_den := w_den w; x_por := w_por w; x_rad := format4 (w_rad w);
     x_radunits := w_radunits w; x_hrt := w_hrt w; x_crt := w_crt w; x_dosage := w_dosage w |}.
(** 842-857: the sheets saved are the ones read (538-539), whatever the boxes hold *)
Definition saved (w : pfile) (b : pboxes) : pfile := w.

(** ** The contactor *)
(** 309-356: the boxes for its sizes, which no workbook fills in (544-561 are commented out), and the
    choice between them.  The only format offered is 'Square' (312). *)
Record sizes := { z_select : string; z_ld : R; z_ldunits : string; z_height : R; z_heightunits : string; z_vol : R; z_volunits : string }.
(** 309-356: what the page starts with *)
Definition default_sizes : sizes :=
  {| z_select := "Dimensions"; z_ld := 10; z_ldunits := "m"; z_height := 5; z_heightunits := "m"; z_vol := 500000; z_volunits := "L" |}.
(** what a workbook makes of them *)
Definition filled_sizes (w : sizes) : sizes := default_sizes.
(** 674-678, 712-716: the choice is not part of it; it only greys out boxes (563-571).  Texts of numbers
    are numbers again at the other end (PAC.py 391-408). *)
Definition num_row (x : R) (u : string) : row := {| r_value := VNum (Some x); r_units := u |}.
Definition contactor_session (z : sizes) (b : pboxes) : sheet :=
  [("format", {| r_value := VText "Square"; r_units := "NaN" |}); ("length/diameter", num_row (z_ld z) (z_ldunits z));
   ("temperature", num_row (x_temp b) "C"); ("height", num_row (z_height z) (z_heightunits z)); ("volume", num_row (z_vol z) (z_volunits z));
   ("flow", num_row (x_flow b) (x_flowunits b)); ("HRT", num_row (x_hrt b) "min"); ("CRT", num_row (x_crt b) "min");
   ("PAC Dosage", num_row (x_dosage b) "mg/L")].
(** 680-684 *)
Definition pac_session (b : pboxes) : sheet :=
  [("density", num_row (x_den b) "gm/ml"); ("porosity", num_row (x_por b) "NaN"); ("radius", num_row (x_rad b) (x_radunits b))].
Definition page_built (z : sizes) (b : pboxes) : res built := construct (contactor_session z b) (pac_session b).
(** 686, PAC.py 1128-1151: the run of the page.  The duration is the longer of the two times (PAC.py 558). *)
Definition page_run (solve : list eqn -> R -> list (R * list R)) (z : sizes) (b : pboxes) (compounds : list (string * comp)) : res table :=
  do w <- page_built z b;
  match b_density w, b_porosity w, b_radius w, b_hrt w, b_crt w, b_dosage w with
  | Some de, Some po, Some ra, Some h, Some c, Some d =>
      let f := {| f_density := de; f_porosity := po; f_radius := ra; f_dw := b_dw w; f_hrt := h |} in
      do o <- create f d (Rmax h c) compounds; Ok (r_run f solve o)
  | _, _, _, _, _, _ => Err ValueError
  end.
