(** Model of saving the results of a batch reactor and of the command line:
    IonExchangeModel/ixpy/hsdmixbatch.py 49-110 (save_results; psdmixbatch.py has the same),
    runner.py 16-50 (parse_args, run_ixpy).  Loading the batch is batch_C0 in M_IxData.
    Writing files is not modelled. *)
From Coq Require Import List String Ascii Reals Bool Arith.
From Verif Require Import Lib_Py M_Units M_Params M_IxData.
Import ListNotations.
Open Scope string_scope.

(** What save_results reads of a batch object: the ions sheet with the units as written. *)
Definition batch_loaded (rows : list (string * ion)) : loaded :=
  {| l_params := []; l_ions := {| has_kL := false; has_Ds := false; has_Dp := false; ion_rows := rows |};
     l_valences := map (fun kr => i_val (snd kr)) rows; l_names := keys rows; l_time_mult := 1%R;
     l_Cin := {| c_times := []; c_cols := [] |};
     l_units := map (fun kr => (fst kr, i_units (snd kr))) rows |}.
(** hsdmixbatch.py 66-110: [secs] are the times, [tank] the concentrations of the liquid in
    meq/L, one column per ion. *)
Definition batch_save (rows : list (string * ion)) (period : string) (units : option string)
  (secs : list R) (tank : list (list R)) : io (list R * cols) :=
  ask spec <- io_lift (from_meq (batch_loaded rows) units);
  ask (period_factor, _, _) <- conv_time "sec" period;
  ask (data, _) <- conv_database spec (combine (keys rows) tank);
  ask labelled <- io_lift
    (fold_right (fun kc acc =>
        do rest <- acc;
        do d <- of_option KeyError (lookup (fst kc) spec);
        Ok (((fst kc ++ " (" ++ db_out d ++ "/L)")%string, snd kc) :: rest))
      (Ok []) data);
  io_ret (map (fun t => (t * period_factor)%R) secs, labelled).

(** runner.py 24-28: the arguments after parsing; another mode ends the program *)
Record cli := { a_mode : string; a_t_unit : option string; a_c_unit : option string }.
Definition parse_args (mode : string) (t c : option string) : res cli :=
  if (String.eqb mode "hsdm" || String.eqb mode "psdm")%bool then Ok {| a_mode := mode; a_t_unit := t; a_c_unit := c |}
  else Err SystemExit.
(** if args.t_unit: an empty text counts as none *)
Definition truthy (o : option string) : option string :=
  match o with Some s => if String.eqb s "" then None else Some s | None => None end.
(** runner.py 33-50; [hsdm], [psdm]: what solve gives, the times and the outlet of each ion *)
Definition run_ixpy (hsdm psdm : loaded -> list R * list (list R)) (params : sheet) (ions : ions_sheet) (cin : ctable)
  (args : cli) : io (list R * cols) :=
  ask l <- load_data params ions cin;
  let out := if String.eqb (a_mode args) "hsdm" then hsdm l else psdm l in
  save_results l (match truthy (a_t_unit args) with Some p => p | None => "hours" end) (truthy (a_c_unit args)) (fst out) (snd out).
