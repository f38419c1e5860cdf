(** Model of helpers kept in PSDM/psdm/PSDM_functions.py for older scripts: 318-354
    (process_raw_data), 356-453 (process_raw_data_new), 784-802 (filter_compounds) and
    813-833 (calc_Jac).  Measurements are those of M_GacData; a pandas NaN is [None]. *)
From Coq Require Import Reals List Arith Bool String.
From Verif Require Import Lib_Py M_GacFun M_GacMin M_GacFit M_Extra M_GacData.
Import ListNotations.
Open Scope R_scope.
Open Scope string_scope.
Local Notation length := List.length.

Section Raw.
Variable data : list measurement.
Variable limit : R.
(** 352 and 438: the assignment rawdata_df[..][..] = .. is chained; whether it reaches the frame
    depends on the pandas version *)
Variable chained : bool.
(** 348-351, 391-393: the means of the pivot table, zero up to the limit *)
Definition cut (l : list R) : R := let x := lsum l / INR (length l) in if rleb x limit then 0 else x.
(** 344-345: 'Influent' in i *)
Definition is_influent (ty : string) : bool := match String.index 0 "Influent" ty with Some _ => true | None => false end.
(** 343-345: the carbons of process_raw_data *)
Definition raw_carbons : list string := filter (fun ty => negb (is_influent ty)) (nodup string_dec (map m_type data)).
(** 348-352, process_raw_data: the columns are the pairs with a measurement, a missing value
    is filled with zero, which the limit leaves zero *)
Definition raw_column (ty c : string) : bool := negb (Nat.eqb (length (of_col data ty c)) 0).
Definition raw_cell (ty c : string) (t : R) : option R :=
  if (has t (times data) && raw_column ty c)%bool then
    let v := match map m_conc (filter (fun r => reqb (m_time r) t) (of_col data ty c)) with
             | [] => 0
             | l => cut l
             end in
    Some (if (chained && is_influent ty && reqb v 0)%bool then dec 1 3 else v)
  else None.

(** 382-451, process_raw_data_new *)
Variables influent effluent : string.
Definition cell_new (ty c : string) (t : R) : num :=
  match map m_conc (filter (fun r => reqb (m_time r) t) (of_col data ty c)) with [] => None | l => Some (cut l) end.
Definition complete_new (ty : string) (t : R) : bool :=
  forallb (fun c => match cell_new ty c t with Some _ => true | None => false end) (compounds data).
Definition known_new (ty : string) : list R := filter (complete_new ty) (times data).
Definition line_new (ty c : string) (t : R) : R :=
  interp_x (map (fun u => (u, match cell_new ty c u with Some x => x | None => 0 end)) (known_new ty)) t.
Definition base_new (ty c : string) (t : R) : num :=
  if (reqb t 0 && negb (has 0 (times data)))%bool then map1 (fun x => x * 0) (cell_new ty c (last (known_new influent) 0)) else cell_new ty c t.
(** 426-433: here the values are filled in by chained assignments *)
Definition filled_new (ty c : string) (t : R) : num :=
  if (chained && (rleb 0 t && negb (has t (0 :: known_new ty))))%bool then Some (line_new ty c t) else base_new ty c t.
Definition load_new : res loaded :=
  if negb (forallb (fun c => negb (Nat.eqb (length (of_col data influent c)) 0) && negb (Nat.eqb (length (of_col data effluent c)) 0))%bool (compounds data)) then Err KeyError
  else if (Nat.ltb (length (known_new influent)) 2 || Nat.ltb (length (known_new effluent)) 2)%bool then Err ValueError
  else if (negb (has 0 (times data)) && rltb (last (known_new influent) 0) 0)%bool then Err KeyError
  else Ok {| l_index := index0 data; l_infl := fun c t => lifted chained (filled_new influent c t); l_effl := filled_new effluent |}.
End Raw.

(** 784-802: a frame is a list of columns labelled by type and compound.  Selecting a type
    that is not there is a KeyError. *)
Definition frame (col : Type) := list ((string * string) * col).
Definition of_type {col} (ty : string) (f : frame col) : res (frame col) :=
  match filter (fun q => String.eqb (fst (fst q)) ty) f with [] => Err KeyError | l => Ok l end.
Definition filter_compounds {col} (df : frame col) (comps : list string) (carbon influent : string) : res (frame col) :=
  let drop_cols := filter (fun c => negb (mem_str c comps)) (map (fun q => snd (fst q)) df) in
  let kept := filter (fun q => negb (mem_str (snd (fst q)) drop_cols)) df in
  do a <- of_type carbon kept;
  do b <- of_type influent kept;
  Ok (a ++ b)%list.

(** 813-833: entry [i], [j] of the returned matrix, which is the transpose of the one filled *)
Definition calc_Jac (ff : R -> (nat -> R) -> nat -> R) (u0 : nat -> R) (hh : R) (i j : nat) : R :=
  let u_high := fun k => if Nat.eqb k j then u0 j + hh else u0 k + 0 in
  (ff 0 u_high i - ff 0 u0 i) / hh.
