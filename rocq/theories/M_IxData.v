(** Model of loading and saving ion-exchange column data.
    Sources: IonExchangeModel/ixpy/paramsheets.py:311-331 ([conv_database]),
    IonExchangeModel/ixpy/hsdmix.py:94-213 ([load_data]) and 216-277
    ([save_results]), IonExchangeModel/ixpy/converter.py:7-39 and
    PSDM/psdm/lead_lag_class.py:85-107 ([conv_iex_u]). *)
From Coq Require Import List String Ascii Reals Bool Arith.
From Verif Require Import Lib_Py M_Units M_Params.
Import ListNotations.
Open Scope string_scope.

(** A row of the 'ions' sheet.  The columns kL, Ds, Dp may be missing; whether
    they are is recorded once for the sheet in [ions_sheet]. The values in the
    fields are then meaningless. *)
Record ion := {
  i_mw : R; i_val : nat; i_units : string; i_Kxc : R;
  i_kL : R; i_Ds : R; i_Dp : R }.
Record ions_sheet := {
  has_kL : bool; has_Ds : bool; has_Dp : bool;
  ion_rows : list (string * ion) }.

(** A concentration table: times and one column per name. *)
Definition cols := list (string * list R).
Record ctable := { c_times : list R; c_cols : cols }.

(** One entry of the dictionaries handed to [conv_database]. *)
Record dbspec := { db_in : string; db_out : string; db_mw : R; db_val : R }.

(** paramsheets.py:311-331 — [conv_database] with [conv_fn = conv_conc]; returns
    the data and the (possibly corrected) input units.  A missing column raises
    KeyError. *)
Fixpoint conv_database (spec : list (string * dbspec)) (data : cols)
  : io (cols * list (string * string)) :=
  match spec with
  | [] => io_ret (data, [])
  | (u, d) :: rest =>
      ask (cf, uin, _) <- conv_conc (db_mw d) (db_val d) (db_in d) (db_out d);
      ask col <- io_opt KeyError (lookup u data);
      ask (data', uins) <- conv_database rest (update u (map (fun x => (cf * x)%R) col) data);
      io_ret (data', (u, uin) :: uins)
  end.

(** hsdmix.py:46 *)
Definition bicarbMW : R := dec 6102 2.

(** hsdmix.py:116-124 — a column kL, Ds or Dp missing from the ions is filled
    with the value of the parameter sheet as written (units ignored).  A text
    value is modelled as a TypeError; the code fails later. *)
Definition fill_col (name : string) (has : bool) (set : R -> ion -> ion)
  (params : sheet) (rows : list (string * ion)) : res (bool * list (string * ion)) :=
  if has then Ok (true, rows)
  else match lookup name params with
       | None => Ok (false, rows)
       | Some r =>
           match p_value r with
           | PNum x => Ok (true, map (fun kr => (fst kr, set x (snd kr))) rows)
           | PStr _ => Err TypeError
           end
       end.
Definition set_kL (x : R) (i : ion) : ion :=
  {| i_mw := i_mw i; i_val := i_val i; i_units := i_units i; i_Kxc := i_Kxc i;
     i_kL := x; i_Ds := i_Ds i; i_Dp := i_Dp i |}.
Definition set_Ds (x : R) (i : ion) : ion :=
  {| i_mw := i_mw i; i_val := i_val i; i_units := i_units i; i_Kxc := i_Kxc i;
     i_kL := i_kL i; i_Ds := x; i_Dp := i_Dp i |}.
Definition set_Dp (x : R) (i : ion) : ion :=
  {| i_mw := i_mw i; i_val := i_val i; i_units := i_units i; i_Kxc := i_Kxc i;
     i_kL := i_kL i; i_Ds := i_Ds i; i_Dp := x |}.

Definition fill_cols (params : sheet) (s : ions_sheet) : res ions_sheet :=
  do (hk, r1) <- fill_col "kL" (has_kL s) set_kL params (ion_rows s);
  do (hs, r2) <- fill_col "Ds" (has_Ds s) set_Ds params r1;
  do (hp, r3) <- fill_col "Dp" (has_Dp s) set_Dp params r2;
  Ok {| has_kL := hk; has_Ds := hs; has_Dp := hp; ion_rows := r3 |}.

(** hsdmix.py:166-169, 180 — carbonate equilibrium. *)
Definition k1 : R := Rpower 10 (- dec 642 2).
Definition k2 : R := Rpower 10 (- dec 1043 2).
Definition bicarb_alpha (pH : R) : R :=
  let h := Rpower 10 (- pH) in
  ((k1 * h) / (h ^ 2 + k1 * h + k1 * k2))%R.

(** Elementwise product of two columns of the same table (180-182). *)
Definition map2 (f : R -> R -> R) (a b : list R) : list R :=
  map (fun p => f (fst p) (snd p)) (combine a b).

(** hsdmix.py:148-188 — replace alkalinity and pH by bicarbonate.  The new row
    takes the alkalinity row's other fields. *)
Definition speciate (rows : list (string * ion)) (data : cols)
  : io (list (string * ion) * cols) :=
  if mem_key "BICARBONATE" data then io_ret (rows, data)
  else
    match lookup "ALKALINITY" data, lookup "PH" data with
    | Some alk, Some ph =>
        ask ra <- io_opt KeyError (lookup "ALKALINITY" rows);
        let rb := {| i_mw := bicarbMW; i_val := 1; i_units := i_units ra;
                     i_Kxc := i_Kxc ra; i_kL := i_kL ra; i_Ds := i_Ds ra;
                     i_Dp := i_Dp ra |} in
        let rows' := update "BICARBONATE" rb rows in
        ask (ca, _, _) <- conv_conc (i_mw ra) (INR (i_val ra)) (i_units ra) "meq";
        ask (cb, _, _) <- conv_conc bicarbMW 1 (i_units ra) "meq";
        let bic := map2 (fun p a => (bicarb_alpha p * a * ca / cb)%R) ph alk in
        io_ret (remove_key "ALKALINITY" rows',
                remove_key "PH" (remove_key "ALKALINITY" (update "BICARBONATE" bic data)))
    | _, _ => io_ret (rows, data)
    end.

(** What [load_data] leaves in the object. *)
Record loaded := {
  l_params : csheet;
  l_ions : ions_sheet;            (* self.ions *)
  l_valences : list nat;          (* self.valences *)
  l_names : list string;          (* self.names *)
  l_time_mult : R;                (* self.time_mult *)
  l_Cin : ctable;                 (* self.Cin_t, in meq/L *)
  l_units : list (string * string) (* self.u_Cin2 *) }.

(** hsdmix.py:190-209 — dictionaries for converting the influent to meq. *)
Definition to_meq (rows : list (string * ion)) : list (string * dbspec) :=
  map (fun kr => (fst kr, {| db_in := i_units (snd kr); db_out := "meq";
                             db_mw := i_mw (snd kr); db_val := INR (i_val (snd kr)) |}))
      rows.

(** hsdmix.py:94-213 — [load_data].  Reading the workbook is not modelled: the
    three sheets are arguments. [self.valences] is taken at line 142, before the
    ion table is changed by [speciate]. *)
Definition load_data (params : sheet) (ions : ions_sheet) (cin : ctable) : io loaded :=
  ask ions1 <- io_lift (fill_cols params ions);
  ask p <- load_params params;
  let valences := map (fun kr => i_val (snd kr)) (ion_rows ions1) in
  ask tm <- io_lift (value_of "time" p);
  ask (rows, data) <- speciate (ion_rows ions1) (c_cols cin);
  ask (data', uin) <- conv_database (to_meq rows) data;
  io_ret {| l_params := p;
            l_ions := {| has_kL := has_kL ions1; has_Ds := has_Ds ions1;
                         has_Dp := has_Dp ions1; ion_rows := rows |};
            l_valences := valences;
            l_names := keys rows;
            l_time_mult := tm;
            l_Cin := {| c_times := c_times cin; c_cols := data' |};
            l_units := uin |}.

(** hsdmix.py:236-245, 264-265 — dictionaries for converting results.  With no
    unit asked for, the output unit of an ion is [self.u_Cin2[c]]. *)
Definition from_meq (l : loaded) (units : option string) : res (list (string * dbspec)) :=
  fold_right (fun kr acc =>
      do rest <- acc;
      do uo <- match units with
               | Some u => Ok u
               | None => of_option KeyError (lookup (fst kr) (l_units l))
               end;
      Ok ((fst kr, {| db_in := "meq"; db_out := uo; db_mw := i_mw (snd kr);
                      db_val := INR (i_val (snd kr)) |}) :: rest))
    (Ok []) (ion_rows (l_ions l)).

(** hsdmix.py:248-258 — the time index; [secs] are the simulated times in
    seconds. *)
Definition time_index (l : loaded) (period : string) (secs : list R) : io (list R) :=
  if String.eqb period "BV" then
    ask len <- io_lift (value_of "L" (l_params l));
    ask v <- io_lift (value_of "v" (l_params l));
    io_ret (map (fun t => (t / (len / v))%R) secs)
  else
    ask (pf, _, _) <- conv_time "sec" period;
    io_ret (map (fun t => (t * pf)%R) secs).

(** hsdmix.py:216-277 — [save_results].  [outlet] has one column per entry of
    [self.names] (meq/L).  Writing the file is not modelled; the column labels
    are "name (unit/L)". *)
Definition save_results (l : loaded) (period : string) (units : option string)
  (secs : list R) (outlet : list (list R)) : io (list R * cols) :=
  ask idx <- time_index l period secs;
  ask spec <- io_lift (from_meq l units);
  ask (data, _) <- conv_database spec (combine (l_names l) outlet);
  ask labelled <- io_lift
    (fold_right (fun kc acc =>
        do rest <- acc;
        do d <- of_option KeyError (lookup (fst kc) spec);
        Ok (((fst kc ++ " (" ++ db_out d ++ "/L)")%string, snd kc) :: rest))
      (Ok []) data);
  io_ret (idx, labelled).

(** converter.py:16-31 — factor of [conv_iex_u] of ixpy. *)
Definition iex_factor (i : ion) : R :=
  if String.eqb (i_units i) "ug" then (i_mw i * 1000)%R
  else if String.eqb (i_units i) "ng" then (i_mw i * 1000000)%R
  else if String.eqb (i_units i) "mg" then (i_mw i * 1)%R
  else (i_mw i / INR (i_val i) / 1000)%R.

(** converter.py:37 — non-positive results become 1e-16. *)
Definition floor_conc (x : R) : R := if rleb x 0 then dec 1 16 else x.

(** converter.py:7-39 *)
Definition conv_iex_u (i : ion) (outlet : list R) : list R :=
  map (fun x => floor_conc (x * iex_factor i)%R) outlet.

(** lead_lag_class.py:92-100 *)
Definition ll_iex_factor (i : ion) : R :=
  if String.eqb (i_units i) "ug" then (i_mw i * 1000)%R
  else if String.eqb (i_units i) "ng" then (i_mw i * 1000000)%R
  else if String.eqb (i_units i) "mg" then (i_mw i * 1)%R
  else 1%R.
(** lead_lag_class.py:85-107 *)
Definition ll_conv_iex_u (i : ion) (outlet : list R) : list R :=
  map (fun x => floor_conc (x * ll_iex_factor i)%R) outlet.

(** hsdmixbatch.py:40-45 — the initial concentrations of a batch run. *)
Definition batch_C0 (rows : list (string * ion)) (C0 : list (string * R))
  : io (list (string * R)) :=
  ask (d, _) <- conv_database (to_meq rows) (map (fun kx => (fst kx, [snd kx])) C0);
  io_ret (map (fun kc => (fst kc, match snd kc with x :: _ => x | [] => 0%R end)) d).
