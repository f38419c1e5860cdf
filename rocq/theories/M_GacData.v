(** Model of loading influent and effluent measurements: the data part of
    PSDM/psdm/PSDM_functions.py 170-178 and 201-264 (process_input_file).  A pandas NaN is
    [None].  A record without concentration, which pivot_table drops, is no record. *)
From Coq Require Import Reals List Arith Bool String.
From Verif Require Import Lib_Py M_GacFun M_GacMin M_GacFit M_Extra.
Import ListNotations.
Open Scope R_scope.
Local Notation length := List.length.

(** One row of the data sheet. *)
Record measurement := { m_time : R; m_type : string; m_comp : string; m_conc : R }.

Section Load.
Variable data : list measurement.
Variables influent effluent : string.
(** rept_lim *)
Variable limit : R.
(** 171: list(set(...)), in some order *)
Definition compounds : list string := nodup string_dec (map m_comp data).
Definition of_col (ty c : string) : list measurement :=
  filter (fun r => (String.eqb (m_type r) ty && String.eqb (m_comp r) c)%bool) data.
(** 202-206: pivot_table takes means; 207: values below the limit become zero *)
Definition cell (ty c : string) (t : R) : num :=
  match map m_conc (filter (fun r => reqb (m_time r) t) (of_col ty c)) with
  | [] => None
  | l => let x := lsum l / INR (length l) in Some (if rltb x limit then 0 else x)
  end.
(** the index, sorted *)
Definition times : list R := usort (map m_time data).
Definition has (t : R) (l : list R) : bool := existsb (reqb t) l.
(** 210-211: dropna keeps the rows in which every compound has a value *)
Definition complete (ty : string) (t : R) : bool :=
  forallb (fun c => match cell ty c t with Some _ => true | None => false end) compounds.
Definition known (ty : string) : list R := filter (complete ty) times.
(** 215-221 *)
Definition line_of (ty c : string) (t : R) : R :=
  interp_x (map (fun u => (u, match cell ty c u with Some x => x | None => 0 end)) (known ty)) t.
(** 224-231: time zero is added to the known times and to the index; an added row is zero
    times the row of the last known influent time. *)
Definition index0 : list R := if has 0 times then times else uinsert 0 times.
Definition base (ty c : string) (t : R) : num :=
  if (reqb t 0 && negb (has 0 times))%bool then map1 (fun x => x * 0) (cell ty c (last (known influent) 0)) else cell ty c t.
(** 233-249: rows from time zero on that are not known *)
Definition filled (ty c : string) (t : R) : num :=
  if (rleb 0 t && negb (has t (0 :: known ty)))%bool then Some (line_of ty c t) else base ty c t.
(** 253: influent zeros become 0.001.  The assignment is chained; whether it reaches the
    frame depends on the pandas version. *)
Variable chained : bool.
Definition lifted (x : num) : num :=
  match x with Some x => Some (if (chained && reqb x 0)%bool then dec 1 3 else x) | None => None end.
Record loaded := { l_index : list R; l_infl : string -> R -> num; l_effl : string -> R -> num }.
(** A compound without a column, or a last known influent time before zero while zero is not
    in the index, is a KeyError.  interp1d of fewer than two points is refused here. *)
Definition load : res loaded :=
  if negb (forallb (fun c => negb (Nat.eqb (length (of_col influent c)) 0) && negb (Nat.eqb (length (of_col effluent c)) 0))%bool compounds) then Err KeyError
  else if (Nat.ltb (length (known influent)) 2 || Nat.ltb (length (known effluent)) 2)%bool then Err ValueError
  else if (negb (has 0 times) && rltb (last (known influent) 0) 0)%bool then Err KeyError
  else Ok {| l_index := index0; l_infl := fun c t => lifted (filled influent c t); l_effl := filled effluent |}.
End Load.
