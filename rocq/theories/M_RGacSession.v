(** Model of the session of the granular-carbon page, Shiny-GAC/GACapp.R: the results kept by the
    run button (1098, 1124-1138), c/c0 (1209-1212), the points drawn (1227-1278) and the saved
    workbook (1323-1360).
    The property, isotherm and effluent sheets are of any type [A]; [solve] is run_PSDM on them, with the boxes
    and the influents: results, or an error.  Results have more than one row (334, 350, 403), as those of run_PSDM do.
    The fit and its button are in M_RGacApp.  A check that fails with an error (NA in a box) gives
    no results here either. *)
From Coq Require Import Reals List Arith Bool String.
From Verif Require Import Lib_Py M_GacFun M_GacShiny M_RIexApp M_RGacApp M_IxUnc.
Import ListNotations.
Open Scope R_scope.
Open Scope string_scope.
Local Notation length := List.length.

(** The boxes, the sheets, the influents; the results (out, 1098) and the table of c/c0 that the button made
    (1210, nothing before). *)
Record gpage (A : Type) := { gp_boxes : gboxes; gp_sheets : A; gp_inf : timed; gp_out : timed; gp_cc0 : option timed }.
Arguments gp_boxes {A}. Arguments gp_sheets {A}. Arguments gp_inf {A}. Arguments gp_out {A}. Arguments gp_cc0 {A}.
Inductive gaction (A : Type) := GEdit (b : gboxes) (s : A) (inf : timed) | GRun.
Arguments GEdit {A}. Arguments GRun {A}.
(** 1098 *)
Definition opened {A} (b : gboxes) (s : A) (inf : timed) : gpage A :=
  {| gp_boxes := b; gp_sheets := s; gp_inf := inf; gp_out := {| f_time := [0; 0]; f_cols := [("Chemicals", [0; 0])] |}; gp_cc0 := None |}.
(** 1124-1136: the results after the button: new ones, or those there were *)
Definition button {A} (solve : gboxes -> A -> timed -> res timed) (p : gpage A) : timed :=
  match accepted (gp_boxes p) with
  | Ok true => match solve (gp_boxes p) (gp_sheets p) (gp_inf p) with Ok o => o | Err _ => gp_out p end
  | _ => gp_out p
  end.
(** 1210-1212: the button also divides the results that are there by the influents that are there.  Another
    number of columns is not modelled: nothing is drawn. *)
Definition gact {A} (solve : gboxes -> A -> timed -> res timed) (p : gpage A) (a : gaction A) : gpage A :=
  match a with
  | GEdit b s inf => {| gp_boxes := b; gp_sheets := s; gp_inf := inf; gp_out := gp_out p; gp_cc0 := gp_cc0 p |}
  | GRun =>
      let o := button solve p in
      {| gp_boxes := gp_boxes p; gp_sheets := gp_sheets p; gp_inf := gp_inf p; gp_out := o;
         gp_cc0 := if Nat.eqb (length (f_cols o)) (length (f_cols (gp_inf p))) then Some (over_c0 (gp_inf p) o) else None |}
  end.
Definition session {A} (solve : gboxes -> A -> timed -> res timed) (p : gpage A) (l : list (gaction A)) : gpage A := fold_left (gact solve) l p.
(** 1137-1138, 1227-1278: the computed points of the plot, in its units: the boxes are read when the
    plot is drawn *)
Definition concs_drawn {A} (p : gpage A) (cu : string) : res (list R) :=
  if String.eqb cu "c/c0" then do w <- of_option ValueError (gp_cc0 p); Ok (map snd (by_row w))
  else mapM (fun q => g_plot_conc (gp_boxes p) cu (snd q)) (by_row (gp_out p)).
Definition drawn {A} (p : gpage A) (tu cu : string) : res (list point) :=
  do ys <- concs_drawn p cu; do xs <- mapM (fun q => g_plot_time (gp_boxes p) tu (fst (fst q))) (by_row (gp_out p));
  Ok (combine (combine xs (map (fun q => snd (fst q)) (by_row (gp_out p)))) ys).
(** 1350-1359: columnSpecs, data and Model Results of the workbook: computational_processed is what the plot
    shows, a row of NA ([None]) when the box of the computed data is not ticked (1267-1278) *)
Record workbook := { w_specs : specs; w_fouling : string * string; w_data : list row; w_results : option (list point) }.
Definition save_results {A} (eff : A -> timed) (p : gpage A) (ticked : bool) (tu cu : string) : res workbook :=
  do r <- (if ticked then do pts <- drawn p tu cu; Ok (Some pts) else Ok None);
  Ok {| w_specs := columnspecs (gp_boxes p); w_fouling := saved_fouling (gp_boxes p); w_data := saved_data (gp_inf p) (eff (gp_sheets p)); w_results := r |}.
