(** Model of the bridge between the granular-carbon web application and the column model:
    Shiny-GAC/GAC_Shiny_helper.py 14-100 (run_PSDM) and 103-184 (run_PSDM_fitter), with the
    part of PSDM.__init__ (PSDM/psdm/PSDM.py 202-206, 285-300) that reads the tables by name.

    The application hands over text, so [float] (numpy.float64 of a text) is a parameter, as
    are the capacity estimate of one compound, the search for isotherm parameters and the
    simulation; each may raise.  The flag [python] is False, as in the file.  Frames have
    distinct row and column names.  PSDM goes through the compounds in alphabetical order;
    here they come in the order of the table, which matters only to which of several
    failures is reported. *)
From Coq Require Import Reals List Arith Bool String.
From Verif Require Import Lib_Py M_GacFun M_GacMin M_GacSmart M_IxUnc M_Tools M_GacCapacity.
Import ListNotations.
Open Scope R_scope.
Open Scope string_scope.
Local Notation length := List.length.

(** 11 *)
Definition floats_list : list string :=
  ["rad"; "epor"; "psdfr"; "rhop"; "rhof"; "L"; "wt"; "flrt"; "diam"; "tortu"; "mass_mul"; "flow_mult"; "t_mult"].
(** A frame of times and columns: infdat, effdat. *)
Record timed := { f_time : list R; f_cols : list (string * list R) }.
Record inputs := {
  i_info : list (string * string);                 (** columndata: name, value *)
  i_comps : list string;                           (** the columns of chem_data but the first *)
  i_chem : list (string * (string -> option R));   (** its rows; a text cell is [None] *)
  i_kdata : list (string * list (option R));       (** columns of kdata; a text cell is [None] *)
  i_inf : timed; i_eff : timed }.
(** ** Mass-transfer coefficients, 42-51 and 124-133 *)
Definition mtable := string -> string -> R.
Definition mt_set (kind c : string) (v : R) (m : mtable) : mtable :=
  fun k' c' => if (String.eqb kind k' && String.eqb c c')%bool then v else m k' c'.
Definition kinds : list string := ["kf"; "dp"; "ds"].
(** 45-51: a text times 1.0 raises, and the exception ends the row *)
Fixpoint mt_row (kind : string) (cells : string -> option R) (comps : list string) (m : mtable) : mtable :=
  match comps with
  | [] => m
  | c :: r => match cells c with Some v => mt_row kind cells r (mt_set kind c (v * 1) m) | None => m end
  end.
Definition mass_transfer (comps : list string) (chem : list (string * (string -> option R))) : mtable :=
  fold_left (fun m row => if mem_str (lower (fst row)) kinds then mt_row (lower (fst row)) (snd row) comps m else m) chem (fun _ _ => 0).
(** ** Tables by time *)
(** 62-64: one row per unit of time; 69-70: numpy.interp of the readings *)
Definition resampled (m : R) (tbl : series) : series := map (fun t => (t, np_interp tbl t)) (arange (m + 1)).
(** 75: four rows per unit of time *)
Definition out_times (m : R) : list R := map (fun i => INR i * dec 25 2) (seq 0 (arange_len 0 (m + dec 2 1) (dec 25 2))).
(** PSDM.py 1834: the times of the results *)
Definition result_times (duration : R) : list R := linspace 0 duration 2000.
(** 91-94 *)
Definition out_rows (m duration : R) (results : list R) : series :=
  map (fun t => (t, np_interp (combine (result_times duration) results) t)) (out_times m).
(** ** The column *)
Record column := {
  c_num : list (string * R); c_influent : string; c_carbon : string; c_duration : R; c_raw : list (string * string * series); c_mt : mtable }.
Definition column_key (ty c : string) (p : string * string * series) : bool :=
  (String.eqb (fst (fst p)) ty && String.eqb (snd (fst p)) c)%bool.
(** data_df[ty, compound] *)
Definition read (col : column) (ty c : string) : res series := do p <- of_option KeyError (find (column_key ty c) (c_raw col)); Ok (snd p).
Definition ktable := list (string * list R).
Inductive outcome :=
| Table (rows : list (string * series))       (** a frame of results *)
| Fitted (rows : list (string * series)) (k : ktable)
| BadNumber (name : string)                   (** 35: the tuple returned when a number cannot be read *)
| Failed (e : pyerr)                          (** an exception, as a value *)
| FailedFit (e : pyerr) (filler : R).         (** an exception and a frame of five times [filler] *)

Section Helper.
Variable float : string -> option R.
Variable capacity : column -> string -> series -> series -> res (list R).
Variable smart : column -> ktable -> res ktable.
Variable simulate : column -> ktable -> string -> res (list R).

Definition info (x : inputs) (n : string) : res string := of_option KeyError (lookup n (i_info x)).
(** 31-35: also a missing name raises at the [return] *)
Fixpoint numbers (x : inputs) (names : list string) : res (list (string * R) + string) :=
  match names with
  | [] => Ok (inl [])
  | n :: r => do s <- info x n;
      match float s with
      | None => Ok (inr n)
      | Some v => do o <- numbers x r; match o with inl l => Ok (inl ((n, v) :: l)) | inr b => Ok (inr b) end
      end
  end.
(** 55-57: the cells as numbers *)
Definition kdata (x : inputs) : res ktable :=
  do cols <- mapM (fun c => do col <- of_option KeyError (lookup c (i_kdata x)); Ok (c, col)) (i_comps x);
  mapM (fun p => do l <- mapM (of_option ValueError) (snd p); Ok (fst p, l)) cols.
(** 61 *)
Definition last_time (x : inputs) : res R := np_max (f_time (i_inf x)).
(** 59-72: the two blocks of raw_data *)
Definition reading (f : timed) (m : R) (ty c : string) : res (string * string * series) :=
  do l <- of_option KeyError (lookup c (f_cols f)); Ok (ty, c, resampled m (combine (f_time f) l)).
Definition raw (x : inputs) (m : R) (infl effl : string) : res (list (string * string * series)) :=
  mapM (fun p => let '(f, ty, c) := p in reading f m ty c)
    (flat_map (fun c => [(i_inf x, infl, c); (i_eff x, effl, c)]) (i_comps x)).
(** PSDM.py 202-208: the series has no name, so the carbon is 'carbonID'; the duration is the
    last time of the table *)
Definition build (x : inputs) (num : list (string * R)) (m : R) (r : list (string * string * series)) : res column :=
  do infl <- info x "influentID"; do carbon <- info x "carbonID";
  Ok {| c_num := num; c_influent := infl; c_carbon := carbon; c_duration := last (arange (m + 1)) 0; c_raw := r; c_mt := mass_transfer (i_comps x) (i_chem x) |}.
(** 89-94: each compound is simulated by model_uncertainty *)
Definition table (x : inputs) (m : R) (col : column) (k : ktable) : res (list (string * series)) :=
  mapM (fun c => do l <- simulate col k c; Ok (c, out_rows m (c_duration col) l)) (i_comps x).
(** except Exception as e: return e *)
Definition caught (r : res outcome) : outcome := match r with Ok o => o | Err e => Failed e end.
(** 14-100 *)
Definition run_PSDM (x : inputs) : res outcome :=
  do o <- numbers x floats_list;
  match o with
  | inr n => Ok (BadNumber n)
  | inl num =>
    do k <- kdata x; do infl <- info x "influentID"; do effl <- info x "effluentID"; do m <- last_time x;
    match raw x m infl effl with
    | Err e => Ok (Failed e)
    | Ok r => Ok (caught (do col <- build x num m r; do t <- table x m col k; Ok (Table t)))
    end
  end.
(** PSDM.py 285-300: without isotherm parameters each compound's capacity is estimated from
    its influent and from the column of the carbon *)
Definition estimated (x : inputs) (col : column) : res ktable :=
  mapM (fun c => do i <- read col (c_influent col) c; do e <- read col (c_carbon col) c; do k <- capacity col c i e; Ok (c, k)) (i_comps x).
(** 103-184: numbers that cannot be read, and unknown columns, raise *)
Definition run_PSDM_fitter (x : inputs) : res outcome :=
  do o <- numbers x floats_list;
  match o with
  | inr _ => Err ValueError
  | inl num =>
    do infl <- info x "influentID"; do effl <- info x "effluentID"; do m <- last_time x; do r <- raw x m infl effl;
    Ok (match (do col <- build x num m r; do k <- estimated x col; Ok (col, k)) with
        | Err e => FailedFit e 2
        | Ok (col, k) =>
            match smart col k with
            | Err e => FailedFit e 1
            | Ok k' => match table x m col k' with Err e => FailedFit e 2 | Ok t => Fitted t k' end
            end
        end)
  end.
End Helper.
