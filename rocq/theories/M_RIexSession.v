(** Model of the session of the ion-exchange page, Shiny-IEX/Ion_Exchange_Model.R: the parameter
    sheet fills the boxes (1830-1961), a flow rate settles the velocity (1973-1983), the sheet that is saved
    (2519-2529), the check before a run and the results shown after it (2183-2258).
    Names in a parameter sheet are different.  A number of a text column is the number it spells;
    the 15 digits that R writes and the decimals that the boxes keep (1397-1491) are not modelled.  A
    row that is missing leaves its box. *)
From Coq Require Import Reals List Arith Bool String.
From Verif Require Import Lib_Py M_IxColumn M_RIexApp M_RPacApp.
Import ListNotations.
Open Scope R_scope.
Open Scope string_scope.
Local Notation length := List.length.

(** ** The parameter sheet *)
Inductive pcell := PNum (x : R) | PWhole (n : nat) | PText (s : string) | PNA.
(** name, value, units *)
Definition params := list (string * (pcell * pcell)).
(** read.csv: one text makes the whole column a column of texts *)
Definition text_column (s : params) : bool := existsb (fun r => match fst (snd r) with PText _ => true | _ => false end) s.
Definition p_num (s : params) (n : string) (d : R) : R := match lookup n s with Some (PNum x, _) => x | _ => d end.
Definition p_whole (s : params) (n : string) (d : nat) : nat := match lookup n s with Some (PWhole k, _) => k | _ => d end.
Definition p_unit (s : params) (n : string) (d : string) : string := match lookup n s with Some (_, PText u) => u | _ => d end.
(** 1912-1920: format and prettyNum with four digits, which leave a text alone *)
Definition p_shown (s : params) (n : string) (d : R) : R :=
  match lookup n s with Some (PNum x, _) => if text_column s then x else format4 x | _ => d end.
(** 1499: a velocity unit that is not a choice cannot be selected; the choices are not extended
    (1866-1869: the name is that of a local vector, the call finds the empty reactive value) *)
Definition velocity_choices : list string := ["cm/s"; "m/s"; "m/min"; "m/h"; "in/s"; "ft/s"; "ft/min"; "gpm/ft^2"].
(** 1851-1961: the boxes, [d] before *)
Definition fill (s : params) (d : boxes) : boxes :=
  let lin := mem_key "v" s in let vol := (negb lin && mem_key "flrt" s && mem_key "diam" s)%bool in
  {| linear := if lin then true else if vol then false else linear d;
     Vv := p_num s "v" (Vv d); VelocityUnits := (let u := p_unit s "v" (VelocityUnits d) in if mem_str u velocity_choices then u else VelocityUnits d);
     Fv := if vol then p_num s "flrt" (Fv d) else Fv d; FlowrateUnits := if vol then p_unit s "flrt" (FlowrateUnits d) else FlowrateUnits d;
     Dv := if vol then p_num s "diam" (Dv d) else Dv d; DiameterUnits := if vol then p_unit s "diam" (DiameterUnits d) else DiameterUnits d;
     Lv := p_num s "L" (Lv d); LengthUnits := p_unit s "L" (LengthUnits d); rbv := p_shown s "rb" (rbv d); rbunits := p_unit s "rb" (rbunits d);
     Qv := p_shown s "Q" (Qv d); EBEDv := p_shown s "EBED" (EBEDv d); EPORv := p_shown s "EPOR" (EPORv d);
     nrv := p_whole s "nr" (nrv d); nzv := p_whole s "nz" (nzv d); timeunits2 := p_unit s "time" (timeunits2 d); psdm := mem_key "EPOR" s |}.
(** 1973-1983 *)
Definition settle (b : boxes) : boxes :=
  if linear b then b
  else match velocity b with
       | Ok v => {| linear := linear b; Vv := v; VelocityUnits := "cm/s"; Fv := Fv b; FlowrateUnits := FlowrateUnits b; Dv := Dv b; DiameterUnits := DiameterUnits b;
                    Lv := Lv b; LengthUnits := LengthUnits b; rbv := rbv b; rbunits := rbunits b; Qv := Qv b; EBEDv := EBEDv b; EPORv := EPORv b;
                    nrv := nrv b; nzv := nzv b; timeunits2 := timeunits2 b; psdm := psdm b |}
       | Err _ => b
       end.
(** 2519-2529: paramdf *)
Definition paramdf (b : boxes) : params :=
  ([("Q", (PNum (Qv b), PText "meq/L")); ("EBED", (PNum (EBEDv b), PNA))] ++ (if psdm b then [("EPOR", (PNum (EPORv b), PNA))] else [])
   ++ [("L", (PNum (Lv b), PText (LengthUnits b))); ("v", (PNum (Vv b), PText (VelocityUnits b))); ("rb", (PNum (rbv b), PText (rbunits b)));
       ("kL", (PNA, PNA)); ("Ds", (PNA, PText "cm2/s")); ("nr", (PWhole (nrv b), PNA)); ("nz", (PWhole (nzv b), PNA));
       ("time", (PText (timeunits2 b), PText (timeunits2 b)))])%list.

(** ** Runs *)
(** A table with cells that may be missing. *)
Definition ions_sheet := list (string * option ion).          (** the name, and the row when nothing is missing *)
Definition cin_sheet := list (string * list (option R)).
Definition whole_ions (s : ions_sheet) : option (list ion) := fold_right (fun p acc => match snd p, acc with Some i, Some l => Some (i :: l) | _, _ => None end) (Some []) s.
Definition no_missing (c : cin_sheet) : bool := forallb (fun p => forallb (fun x => match x with Some _ => true | None => false end) (snd p)) c.
(** 2185-2208: error_handling; [true] lets the run go on *)
Definition may_run (s : ions_sheet) (c : cin_sheet) : bool :=
  (forallb (fun p => mem_str (fst p) (keys c)) s && forallb (fun n => String.eqb n "time" || mem_str n (keys s)) (keys c)
   && match whole_ions s with Some _ => true | None => false end && no_missing c)%bool.
(** The page: the two tables, the results of the solver (columns by position, meq/L), and the
    table of results that the button made. *)
Record page := { p_ions : ions_sheet; p_cin : cin_sheet; p_out : option (list (list R)); p_table : frame }.
Inductive action := Edit (s : ions_sheet) (c : cin_sheet) | Run.
(** 2210-2225 and 2242-2250.  [solve] is model_prep with the solver: results, or an error.  The table takes
    as many columns as the sheet has rows; a row too many stops it and the table stays. *)
Definition act (solve : ions_sheet -> cin_sheet -> res (list (list R))) (p : page) (a : action) : page :=
  match a with
  | Edit s c => {| p_ions := s; p_cin := c; p_out := p_out p; p_table := p_table p |}
  | Run =>
      let out := if may_run (p_ions p) (p_cin p) then match solve (p_ions p) (p_cin p) with Ok o => Some o | Err _ => p_out p end else p_out p in
      {| p_ions := p_ions p; p_cin := p_cin p; p_out := out;
         p_table := match out with
                    | Some o => if Nat.leb (length (p_ions p)) (length o) then combine (map fst (p_ions p)) o else p_table p
                    | None => p_table p
                    end |}
  end.
(** 2252-2258 with 1056-1072: the results in mg/L are computed again whenever the sheet changes *)
Definition displayed (p : page) : option frame := option_map (fun l => mgl_columns l (p_table p)) (whole_ions (p_ions p)).
