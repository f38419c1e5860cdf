(** Model of the constructor of LLobj and of its resin table, PSDM/psdm/lead_lag_class.py:
    __init__ (135-339), add_resin_selectivity (341-361), the check of run_LL (368-373) and io_data (56-83).
    An argument that must be a frame is [None] when it is not one.  raw_data is a list of named
    groups of columns, influentID a text.  Rows of the parameter sheet have different names. *)
From Coq Require Import Reals List Arith Bool String.
From Verif Require Import Lib_Py M_LeadLag.
Import ListNotations.
Open Scope R_scope.
Open Scope string_scope.
Local Notation length := List.length.

(** A row of the table of ions: name, molecular weight, selectivity, valence, unit. *)
Record lrow := { r_name : string; r_mw : R; r_Kxc : R; r_val : nat; r_unit : string }.
(** name -> value, unit *)
Definition psheet := list (string * (R * string)).
(** What reading each sheet of the workbook gives, [None]: an exception. *)
Record ixbook := { b_params : option psheet; b_cin : option frame; b_ions : option (list lrow) }.
Record llargs := {
  a_config : string;
  a_properties : option (list (string * R));     (** given or read: compound -> MW *)
  a_raw : option (list (string * frame));        (** raw_data *)
  a_compounds : option (list string);            (** compounds, or use raw_data *)
  a_k : bool;                                    (** k_data is a frame *)
  a_influentID : string;
  a_file : option ixbook;                        (** ix_filename *)
  a_nr : nat; a_nz : nat;                        (** ix_nr, ix_nz *)
  a_counterions : list lrow; a_ix_params : psheet; a_selectivity : list (string * R);
  a_adjust : R * R * R * R }.
(** What was printed. *)
Inductive message := BadProperties | BadRaw | BadCompounds | BadK | BadParams | BadCin | BadIons.
(** A table handed to the resin code: a frame, or the plain list of 239 and 278. *)
Inductive ixtable := Frame (rows : list lrow) | PlainList (rows : list lrow).
Record llobj := {
  l_error : bool; l_said : list message; l_compounds : list string;
  l_params : psheet; l_cin : frame; l_ions : ixtable; l_avail : list string;
  l_selectivities : list (string * R); l_properties : list (string * R); l_adjust : R * R * R * R;
  l_caller : list lrow }.            (** the rows of 'counter ions', which the caller still holds *)

(** 347-350, 356-359 *)
Definition adjust (f : R * R * R * R) (k : R) : R :=
  let '(lo, up, f1, f2) := f in
  if (rleb lo k && rltb k up)%bool then k * f1 else if rltb up k then k * f2 else k.
(** 341-361 on the rows, the names and the caller's rows: an update assigns in the row, which is the
    caller's for the rows that 238 copied.  [sel], the argument, is not read. *)
Definition set_K (c : string) (k : R) (r : lrow) : lrow :=
  if String.eqb (r_name r) c then {| r_name := r_name r; r_mw := r_mw r; r_Kxc := k * 1; r_val := r_val r; r_unit := r_unit r |} else r.
Definition table := (list lrow * list string * list lrow)%type.
Definition add_selectivity (sels props : list (string * R)) (f : R * R * R * R) (t : table) (comp : string) (sel : R) : res table :=
  let '(rows, avail, caller) := t in
  if mem_str comp avail then
    if mem_str comp (map r_name rows) then
      do k <- of_option KeyError (lookup comp sels);
      Ok (map (set_K comp (adjust f k)) rows, avail, map (set_K comp (adjust f k)) caller)
    else Ok t
  else
    do k <- of_option KeyError (lookup comp sels); do mw <- of_option KeyError (lookup comp props);
    Ok ((rows ++ [{| r_name := comp; r_mw := mw; r_Kxc := adjust f k; r_val := 1; r_unit := "ng" |}])%list, (avail ++ [comp])%list, caller).
(** 271-273 *)
Definition add_all (sels props : list (string * R)) (f : R * R * R * R) (compounds : list string) (t : table) : res table :=
  fold_left (fun acc p => do t <- acc; if mem_str (fst p) compounds then add_selectivity sels props f t (fst p) (snd p) else Ok t) sels (Ok t).

(** 144-188: what is wrong with the first arguments, in the order of the prints *)
Definition is_gac (a : llargs) : bool := str_in "gac" (lower (a_config a)).
Definition said_props (a : llargs) : list message := match a_properties a with Some _ => [] | None => [BadProperties] end.
Definition said_raw (a : llargs) : list message := match a_raw a with Some _ => [] | None => [BadRaw] end.
(** 170-177; without an error so far *)
Definition raw_compounds (a : llargs) : option (list string) :=
  match a_raw a with Some r => option_map fr_cols (lookup "influent" r) | None => None end.
Definition said_compounds (a : llargs) : list message :=
  match (said_props a ++ said_raw a)%list, a_compounds a, raw_compounds a with [], None, None => [BadCompounds] | _, _, _ => [] end.
Definition said_k (a : llargs) : list message := if (is_gac a && negb (a_k a))%bool then [BadK] else [].
Definition said_first (a : llargs) : list message := (said_props a ++ said_raw a ++ said_compounds a ++ said_k a)%list.
(** the compounds; after an error the text 'use raw_data' stays, which no compound is part of *)
Definition compounds_of (a : llargs) : list string :=
  match a_compounds a with Some l => l | None => match said_props a, raw_compounds a with [], Some l => l | _, _ => [] end end.
Definition props_of (a : llargs) : list (string * R) := match a_properties a with Some p => p | None => [] end.

(** 215-217: the influent group, when nothing was wrong *)
Definition raw_influent (a : llargs) : res (option frame) :=
  match said_first a, a_raw a with
  | [], Some r => do f <- of_option KeyError (lookup (a_influentID a) r); Ok (Some f)
  | _, _ => Ok None
  end.

(** 282-296: params of the workbook with the collocation points of the call *)
Definition file_params (a : llargs) (b : ixbook) : option psheet * list message :=
  match b_params b with
  | None => (None, [BadParams])
  | Some p =>
      match lookup "nr" p, lookup "nz" p with
      | Some (_, u), Some (_, w) => (Some (update "nz" (INR (a_nz a), w) (update "nr" (INR (a_nr a), u) p)), [])
      | _, _ => (Some p, [BadParams])
      end
  end.
(** 297-311: influents in days; the last value is the error flag, which a success clears.  Without
    success the run never gets to the frame: an empty one here. *)
Definition over_24 (c : frame) : frame := {| fr_time := map (fun t => t / 24) (fr_time c); fr_cols := fr_cols c; fr_val := fr_val c |}.
Definition empty_frame : frame := {| fr_time := []; fr_cols := []; fr_val := fun _ => [] |}.
Definition file_cin (p : option psheet) (b : ixbook) : psheet * frame * list message * bool :=
  let p0 := match p with Some q => q | None => [] end in
  match b_cin b, match p with Some q => lookup "time" q | None => None end with
  | Some c, Some (v, u) =>
      if String.eqb u "hr" then (update "time" (v, "day") p0, over_24 c, [], false) else (p0, c, [], false)
  | _, _ => (p0, empty_frame, [BadCin], true)
  end.
(** 135-339.  320: without the sheet of ions the constructor stops *)
Definition LLobj (a : llargs) : res llobj :=
  do inf <- raw_influent a;
  match a_file a with
  | None =>
      do t <- add_all (a_selectivity a) (props_of a) (a_adjust a) (compounds_of a)
                (a_counterions a, map r_name (a_counterions a), a_counterions a);
      do cin <- of_option AttributeError inf;                                      (* 277 *)
      Ok {| l_error := negb (Nat.eqb (length (said_first a)) 0); l_said := said_first a; l_compounds := compounds_of a;
            l_params := a_ix_params a; l_cin := cin; l_ions := PlainList (fst (fst t)); l_avail := snd (fst t);
            l_selectivities := a_selectivity a; l_properties := props_of a; l_adjust := a_adjust a; l_caller := snd t |}
  | Some b =>
      let '(p, m1) := file_params a b in let '(p', cin, m2, err) := file_cin p b in
      do ions <- of_option TypeError (b_ions b);
      Ok {| l_error := err; l_said := (said_first a ++ m1 ++ m2)%list; l_compounds := compounds_of a;
            l_params := p'; l_cin := cin; l_ions := Frame ions; l_avail := map r_name ions;
            l_selectivities := []; l_properties := props_of a; l_adjust := a_adjust a; l_caller := a_counterions a |}
  end.

(** 371-373: run_LL answers with the error *)
Definition refuses (o : llobj) : bool := l_error o.
(** 56-83: the tables for the resin code; a plain list has no to_excel *)
Definition io_data (o : llobj) : res (psheet * frame * list lrow) :=
  match l_ions o with Frame rows => Ok (l_params o, l_cin o, rows) | PlainList _ => Err AttributeError end.
(** 341-361 as a call of the user *)
Definition add_resin_selectivity (o : llobj) (comp : string) (sel : R) : res llobj :=
  match l_ions o with
  | PlainList rows =>
      do t <- add_selectivity (l_selectivities o) (l_properties o) (l_adjust o) (rows, l_avail o, l_caller o) comp sel;
      Ok {| l_error := l_error o; l_said := l_said o; l_compounds := l_compounds o; l_params := l_params o; l_cin := l_cin o;
            l_ions := PlainList (fst (fst t)); l_avail := snd (fst t); l_selectivities := l_selectivities o; l_properties := l_properties o;
            l_adjust := l_adjust o; l_caller := snd t |}
  | Frame _ => Err AttributeError           (* self.selectivities is not set with a workbook *)
  end.
