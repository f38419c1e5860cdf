(** Model of Shiny-IEX/Ion_Exchange_Model.R: the measured influents and effluents on the plots.
    A sheet is its first column, the times, and the other columns.  Simplified: the single row of
    missing values that stands for no data is the empty list of points. *)
From Coq Require Import Reals List Bool String Arith.
From Verif Require Import Lib_Py M_IxUnc M_GacShiny M_RGacApp M_RIexApp.
Import ListNotations.
Open Scope R_scope.
Open Scope string_scope.
Local Notation length := List.length.

Definition in_mgl (ions : list ion) (w : timed) : res timed :=
  do m <- mass_converter_mgl ions (f_cols w); Ok {| f_time := f_time w; f_cols := m |}.
(** 903-926: effluent_data_processor; 2146-2160: times in hours *)
Definition effluent_data (ions : list ion) (w : timed) : res (list point) :=
  if Nat.ltb 1 (length (f_time w)) then do m <- in_mgl ions w; Ok (by_column (renamed "_effluent" m)) else Ok [].
Definition in_hours (b : boxes) (w : timed) : timed := {| f_time := map (cindat_hours b) (f_time w); f_cols := f_cols w |}.
Definition effdat_hours (b : boxes) (ions : list ion) (w : timed) : res (list point) :=
  do p <- effluent_data ions w; Ok (map (fun q => (cindat_hours b (fst (fst q)), snd (fst q), snd q)) p).
(** 2102-2133 with 929-950: the influents, converted, renamed and gathered *)
Definition cin_mgl_hours_prep (b : boxes) (ions : list ion) (w : timed) : res (list point) :=
  do m <- in_mgl ions (in_hours b w); Ok (by_column (renamed "_influent" m)).

(** ** The two observers, 2338-2387.  Each assigns its four values in turn; an error ends it, and
    what was not assigned stays as it was, at first NULL. *)
Record axis := { a_counter : option (list R); a_ions : option (list R); a_effluent : option (list R); a_influent : option (list R) }.
Definition unset : axis := {| a_counter := None; a_ions := None; a_effluent := None; a_influent := None |}.
Definition observe (a : axis) (counter others effluent influent : res (list R)) : axis :=
  match counter with
  | Err _ => a
  | Ok c => match others with
    | Err _ => {| a_counter := Some c; a_ions := a_ions a; a_effluent := a_effluent a; a_influent := a_influent a |}
    | Ok o => match effluent with
      | Err _ => {| a_counter := Some c; a_ions := Some o; a_effluent := a_effluent a; a_influent := a_influent a |}
      | Ok e => match influent with
        | Err _ => {| a_counter := Some c; a_ions := Some o; a_effluent := Some e; a_influent := a_influent a |}
        | Ok i => {| a_counter := Some c; a_ions := Some o; a_effluent := Some e; a_influent := Some i |}
        end
      end
    end
  end.
Definition on_axis (f : R -> res R) (get : point -> R) (p : res (list point)) : res (list R) := do l <- p; mapM (fun q => f (get q)) l.
(** 2338-2360: [counter] and [others] are the computed results of the two plots *)
Definition time_axis (b : boxes) (u : string) (a : axis) (counter others effluent influent : res (list point)) : axis :=
  let f := on_axis (plot_time b u) (fun q => fst (fst q)) in observe a (f counter) (f others) (f effluent) (f influent).
(** 2367-2387, for a unit other than c/c0 *)
Definition conc_axis (u : string) (a : axis) (counter others effluent influent : res (list point)) : axis :=
  let f := on_axis (plot_conc u) (fun q => snd q) in observe a (f counter) (f others) (f effluent) (f influent).

(** 2426-2453: the rows of a table with the values of the axes put in.  Simplified: values of
    another length are refused; NULL takes the column away and nothing can be drawn. *)
Definition layer (ticked : bool) (pts : res (list point)) (times concs : option (list R)) : res (list point) :=
  if ticked then
    do p <- pts;
    match times, concs with
    | Some t, Some c => if (Nat.eqb (length t) (length p) && Nat.eqb (length c) (length p))%bool
                        then Ok (map (fun x => (fst (fst x), snd (fst (snd (fst x))), snd x)) (combine (combine t p) c)) else Err ValueError
    | _, _ => Err ValueError
    end
  else Ok [].
(** The effluents and influents of both plots. *)
Definition measured (tick_e tick_i : bool) (b : boxes) (ions : list ion) (eff inf : timed) (times concs : axis) : res (list point * list point) :=
  do e <- layer tick_e (effdat_hours b ions eff) (a_effluent times) (a_effluent concs);
  do i <- layer tick_i (cin_mgl_hours_prep b ions inf) (a_influent times) (a_influent concs);
  Ok (e, i).
(** What the page shows of the measurements: the observers ran on these sheets, after [t0] and [c0]. *)
Definition page_measured (t0 c0 : axis) (b : boxes) (tu cu : string) (tick_e tick_i : bool) (counter others : res (list point)) (ions : list ion) (eff inf : timed)
  : res (list point * list point) :=
  let e := effdat_hours b ions eff in let i := cin_mgl_hours_prep b ions inf in
  measured tick_e tick_i b ions eff inf (time_axis b tu t0 counter others e i) (conc_axis cu c0 counter others e i).
(** 2457-2469, 813-815, 837-839: the first plot has these, the second the others *)
Definition counter_names (mark : string) : list string := map (fun n => n ++ mark) ["CHLORIDE"; "SULFATE"; "NITRATE"; "BICARBONATE"].
Definition first_plot (mark : string) (p : list point) : list point := filter (fun q => mem_str (snd (fst q)) (counter_names mark)) p.
Definition second_plot (mark : string) (p : list point) : list point := filter (fun q => negb (mem_str (snd (fst q)) (counter_names mark))) p.

(** 1114-1137: effluent_cc0, by position; tables have as many columns as the influents.  [inf]: the
    whole influent table, times first *)
Definition effluent_cc0 (ions : list ion) (inf : frame) (eff : timed) : res (list point) :=
  if Nat.ltb 1 (length (f_time eff)) then
    do m <- cin_correct ions (f_cols eff);
    do c0 <- cc0_conv_meq ions inf;
    Ok (by_column (renamed "_effluent" {| f_time := f_time eff; f_cols := HSDMIX_cc0 m c0 |}))
  else Ok [].
