(** Model of the parameter-sheet conversion of ixpy.
    Source: IonExchangeModel/ixpy/paramsheets.py, lines 14-48 (lower-casing) and
    335-497 ([conv_params], [Q_calc], [dict_from_data], [conv_params_data]). *)
From Coq Require Import List String Ascii Reals Bool Arith.
From Verif Require Import Lib_Py M_Units.
Import ListNotations.
Open Scope string_scope.

(** A cell of the 'value' column: a number or a text (Shiny files hold texts). *)
Inductive pval := PNum (r : R) | PStr (s : string).

(** A row of the 'params' sheet; an empty 'units' cell is NaN, here [None]. *)
Record prow := { p_value : pval; p_units : option string }.
Definition sheet := list (string * prow).

(** A row after conversion: always a number. *)
Definition crow : Type := R * option string.
Definition csheet := list (string * crow).

(** paramsheets.py:14-27, 29-37 — [lowerEntries], [lowercaseData]. *)
Definition lower_pval (v : pval) : pval :=
  match v with PNum r => PNum r | PStr s => PStr (lower s) end.
Definition lower_row (r : prow) : prow :=
  {| p_value := lower_pval (p_value r); p_units := option_map lower (p_units r) |}.

(** paramsheets.py:39-48, 417-418 — [lowercaseIndex] then [lowercaseData]. *)
Definition lower_sheet (s : sheet) : sheet :=
  map (fun kr => (lower (fst kr), lower_row (snd kr))) s.

(** paramsheets.py:425-429 — requested output units. *)
Definition u_out_table : list (string * option string) :=
  [("time", Some "s"); ("rhop", Some "g/ml"); ("rb", Some "cm");
   ("kl", Some "cm/s"); ("ds", Some "cm2/s"); ("v", Some "cm/s");
   ("qm", Some "meq/kg"); ("l", Some "cm"); ("flrt", Some "cm3/s");
   ("diam", Some "cm"); ("qf", Some "meq/L"); ("ebed", None); ("nz", None);
   ("nr", None); ("epor", None); ("dp", Some "cm2/s"); ("w", None);
   ("m", Some "g"); ("vl", Some "L"); ("t_end", Some "s")].

(** Converters called with a possibly missing unit.  NaN is in no unit list, so
    a simple converter asks the user, exactly as for the unknown unit "";
    a compound converter evaluates ['/' in nan], a TypeError. *)
Definition pconv : Type := option string -> option string -> io R.
Definition simple_conv (c : string -> string -> io conv_result) : pconv :=
  fun ui uo =>
    match uo with
    | Some uo' =>
        ask (f, _, _) <- c (match ui with Some u => u | None => "" end) uo';
        io_ret f
    | None => io_err TypeError
    end.
Definition compound_conv (c : string -> string -> io conv_result) : pconv :=
  fun ui uo =>
    match ui, uo with
    | Some ui', Some uo' => ask (f, _, _) <- c ui' uo'; io_ret f
    | _, _ => io_err TypeError
    end.
(** paramsheets.py:360-362 *)
Definition same_conv : pconv := fun _ _ => io_ret 1%R.

(** paramsheets.py:435-441 — converter of each parameter.  The capacity
    converters are called without MW and val, which default to 1 (266-276). *)
Definition u_fn_table : list (string * pconv) :=
  [("time", simple_conv conv_time); ("rhop", compound_conv conv_dens);
   ("rb", simple_conv conv_length); ("kl", compound_conv conv_vel);
   ("ds", compound_conv conv_area_per_time); ("v", compound_conv conv_vel);
   ("qm", compound_conv (conv_capacity_mass 1 1));
   ("flrt", compound_conv conv_vol_per_time); ("l", simple_conv conv_length);
   ("diam", simple_conv conv_length);
   ("qf", compound_conv (conv_capacity_vol 1 1)); ("ebed", same_conv);
   ("nz", same_conv); ("nr", same_conv); ("epor", same_conv);
   ("dp", compound_conv conv_area_per_time); ("w", same_conv);
   ("m", simple_conv conv_weight); ("vl", simple_conv conv_volume);
   ("t_end", simple_conv conv_time)].

(** paramsheets.py:347-356 — one turn of the loop of [conv_params]: a number is
    multiplied by the factor; a text cannot be ([except:]) and is replaced by
    the factor. *)
Definition conv_row (k : string) (r : prow) : io crow :=
  ask uo <- io_opt KeyError (lookup k u_out_table);
  ask fn <- io_opt KeyError (lookup k u_fn_table);
  ask cf <- fn (p_units r) uo;
  io_ret (match p_value r with PNum x => (x * cf)%R | PStr _ => cf end, uo).

(** paramsheets.py:335-358 — [conv_params]. *)
Fixpoint conv_params (s : sheet) : io csheet :=
  match s with
  | [] => io_ret []
  | (k, r) :: rest =>
      ask r' <- conv_row k r;
      ask rest' <- conv_params rest;
      io_ret ((k, r') :: rest')
  end.

(** paramsheets.py:364-386 — [Q_calc]; without a complete pair the local Q is
    never assigned and [return Q] raises UnboundLocalError. *)
Definition Q_calc (d : list (string * R)) : res R :=
  match lookup "qm" d, lookup "rhop" d, lookup "qf" d, lookup "ebed" d with
  | Some qm, Some rhop, _, _ => Ok (qm * rhop)%R
  | _, _, Some qf, Some ebed => Ok (qf / (1 - ebed))%R
  | _, _, _, _ => Err UnboundLocalError
  end.

(** paramsheets.py:389-401 — [dict_from_data(params_out, 'value')]. *)
Definition dict_from_data (s : csheet) : list (string * R) :=
  map (fun kr => (fst kr, fst (snd kr))) s.

Definition value_of (k : string) (s : csheet) : res R :=
  of_option KeyError (option_map fst (lookup k s)).
Definition units_of (k : string) (s : csheet) : res (option string) :=
  of_option KeyError (option_map snd (lookup k s)).

(** paramsheets.py:455-481 — add the velocity row, or the resin volume row of a
    batch simulation.  [conv_params] works on [low_data] in place, so the units
    and diameter read back at 458-460 are the converted ones. *)
Definition add_velocity (p : csheet) : io csheet :=
  if mem_key "v" p then io_ret p
  else if mem_key "flrt" p then
    ask fu <- io_lift (units_of "flrt" p);
    ask d <- io_lift (value_of "diam" p);
    ask du <- io_lift (units_of "diam" p);
    ask fu' <- io_opt TypeError fu;
    ask du' <- io_opt TypeError du;
    ask (flrt_f, _, _) <- conv_fr_to_vel fu' "cm/s" d du';
    ask flrt <- io_lift (value_of "flrt" p);
    io_ret (p ++ [("v", ((flrt * flrt_f)%R, Some "cm/s"))])%list
  else
    ask w <- io_lift (value_of "w" p);
    ask m <- io_lift (value_of "m" p);
    ask rhop <- io_lift (value_of "rhop" p);
    io_ret (p ++ [("VR", (((1 - w) * m / rhop / 1000)%R, Some "L"))])%list.

(** paramsheets.py:431-433, 494-495 — names used by the solvers. *)
Definition correct_idx : list (string * string) :=
  [("rhop", "RHOP"); ("qm", "Qm"); ("ebed", "EBED"); ("l", "L"); ("kl", "kL");
   ("ds", "Ds"); ("qf", "Qf"); ("dp", "Dp"); ("epor", "EPOR"); ("vl", "VL");
   ("vr", "VR"); ("t_end", "t_end")].
Definition rename (k : string) : string :=
  match lookup k correct_idx with Some k' => k' | None => k end.

(** Does the index hold a repeated label? *)
Fixpoint has_dup (l : list string) : bool :=
  match l with
  | [] => false
  | x :: t => mem_str x t || has_dup t
  end.

(** paramsheets.py:404-497 — [conv_params_data].  [to_dict("index")] (421)
    raises ValueError on a repeated label; an unknown parameter raises KeyError
    at 446 before any unit is converted. *)
Definition conv_params_data (data : sheet) : io csheet :=
  let low := lower_sheet data in
  if has_dup (keys low) then io_err ValueError
  else if negb (forallb (fun k => mem_key k u_out_table) (keys low)) then io_err KeyError
  else
    ask p <- conv_params low;
    ask p' <- add_velocity p;
    ask q <- io_lift (Q_calc (dict_from_data p'));
    io_ret (map (fun kr => (rename (fst kr), snd kr))
                (p' ++ [("Q", (q, Some "meq/L"))])%list).

(** hsdmix.py:133-136 (psdmix.py has the same lines) — a capacity given per
    resin volume is turned into one per filter volume before conversion.
    ['Q' in index] is case-sensitive here. The product with a text value is not
    modelled (TypeError). *)
Definition pre_Q (data : sheet) : res sheet :=
  match lookup "Q" data with
  | None => Ok data
  | Some rq =>
      do re <- of_option KeyError (lookup "EBED" data);
      match p_value rq, p_value re with
      | PNum q, PNum e =>
          Ok (map (fun kr =>
                if String.eqb (fst kr) "Q"
                then ("Qf", {| p_value := PNum (q * (1 - e)); p_units := p_units (snd kr) |})
                else kr) data)
      | _, _ => Err TypeError
      end
  end.

(** hsdmix.py:133-138 *)
Definition load_params (data : sheet) : io csheet :=
  ask d <- io_lift (pre_Q data); conv_params_data d.
