(** Model of what whole-study tools do to a column object: PSDM/psdm/PSDM_tools.py 649-702
    (analyze_all), 704-758 (analyze_all_ds) and the object's side of 161-318
    (predict_full_scale) and 511-643 (predict_full_scale_ds); what the last two return is in
    M_Tools, the two differing only in the simulated curves.

    The fits of analyze_all run in other processes, on copies of the object.  A fit is a
    parameter that may fail.  k_data is a list of columns, each a list of rows; the chained
    assignments to it are taken to reach it.  Drawing is left out but for the search of the
    minimum, [drawn], which may fail.  The array under the index of data_df is taken to be
    writable, as it is before pandas 3. *)
From Coq Require Import Reals List Arith Bool String.
From Verif Require Import Lib_Py M_GacFun M_GacMin M_IxUnc.
Import ListNotations.
Open Scope R_scope.
Open Scope string_scope.

Record study := { s_opt : bool; s_comps : list string; s_test : list R; s_xnr : list R; s_xn : R; s_xdata : list R; s_index : list R;
                  s_kd : list (string * list (string * R)) }.
Definition set_kd (t : list (string * list (string * R))) (s : study) : study :=
  {| s_opt := s_opt s; s_comps := s_comps s; s_test := s_test s; s_xnr := s_xnr s; s_xn := s_xn s; s_xdata := s_xdata s; s_index := s_index s; s_kd := t |}.
Definition set_test (l : list R) (s : study) : study :=
  {| s_opt := s_opt s; s_comps := s_comps s; s_test := l; s_xnr := s_xnr s; s_xn := s_xn s; s_xdata := s_xdata s; s_index := s_index s; s_kd := s_kd s |}.
Definition set_xn (l : list R) (x : R) (s : study) : study :=
  {| s_opt := s_opt s; s_comps := s_comps s; s_test := s_test s; s_xnr := l; s_xn := x; s_xdata := s_xdata s; s_index := s_index s; s_kd := s_kd s |}.
(** k_data[comp][row] = x; a new row is appended *)
Definition put (c row : string) (x : R) (t : list (string * list (string * R))) : res (list (string * list (string * R))) :=
  do col <- of_option KeyError (lookup c t); Ok (update c (update row x col) t).
Definition entry (c row : string) (t : list (string * list (string * R))) : option R :=
  match lookup c t with Some col => lookup row col | None => None end.

Section Analyze.
(** run_psdm_kfit: K and 1/n; run_psdm_dsfit: the multiplier and the diffusivity it multiplies *)
Variable fit : study -> string -> res (R * R).
Variable drawn : study -> string -> res unit.
(** 656-682 *)
Fixpoint store (rs : list (string * (R * R))) (s : study) : res unit * study :=
  match rs with
  | [] => (Ok tt, s)
  | (c, (k, xn)) :: more =>
      match put c "K" k (s_kd s) with
      | Err e => (Err e, s)
      | Ok t1 =>
          match put c "1/n" xn t1 with
          | Err e => (Err e, set_kd t1 s)
          | Ok t2 =>
              let s' := set_kd t2 s in
              match (if s_opt s then drawn s c else Ok tt) with Err e => (Err e, s') | Ok _ => store more s' end
          end
      end
  end.
(** 649-702 *)
Definition analyze_all (s : study) : res unit * study :=
  match mapM (fun c => do r <- fit s c; Ok (c, r)) (s_comps s) with Err e => (Err e, s) | Ok rs => store rs s end.

(** 711-713: new rows, copies of K *)
Definition new_rows (t : list (string * list (string * R))) : res (list (string * list (string * R))) :=
  mapM (fun p => do k <- of_option KeyError (lookup "K" (snd p)); Ok (fst p, update "base_ds" (k * 1) (update "ds" (k * 1) (snd p)))) t.
(** 715-758: best_val_ds is only set when optimize_flag is; the title needs it *)
Fixpoint store_ds (rs : list (string * (R * R))) (best : option R) (s : study) : res unit * study :=
  match rs with
  | [] => (Ok tt, s)
  | (c, (ds, base)) :: more =>
      match put c "ds" (ds * 1) (s_kd s) with
      | Err e => (Err e, s)
      | Ok t1 =>
          match put c "base_ds" (base * 1) t1 with
          | Err e => (Err e, set_kd t1 s)
          | Ok t2 =>
              let s' := set_kd t2 s in
              let best' := if s_opt s then Some ds else best in
              match best' with None => (Err UnboundLocalError, s') | Some _ => store_ds more best' s' end
          end
      end
  end.
Definition analyze_all_ds (s : study) : res unit * study :=
  match new_rows (s_kd s) with
  | Err e => (Err e, s)
  | Ok t =>
      match mapM (fun c => do r <- fit s c; Ok (c, r)) (s_comps s) with
      | Err e => (Err e, set_kd t s)
      | Ok rs => store_ds rs None (set_kd t s)
      end
  end.
End Analyze.

Section Predict.
(** a run of the object, raising or not *)
Variable run : study -> string -> res unit.
(** 229-232 (kfit) and 560-561 (dsfit): the settings for one compound *)
Definition for_compound (ds : bool) (c : string) (s : study) : res study :=
  if ds then do x <- of_option KeyError (entry c "ds" (s_kd s)); Ok (set_test [x] s)
  else do k <- of_option KeyError (entry c "K" (s_kd s)); do x <- of_option KeyError (entry c "1/n" (s_kd s)); Ok (set_xn [x] x (set_test [k] s)).
Fixpoint runs (ds : bool) (cs : list string) (s : study) : res unit * study :=
  match cs with
  | [] => (Ok tt, s)
  | c :: more =>
      match for_compound ds c s with
      | Err e => (Err e, s)
      | Ok s' => match run s' c with Err e => (Err e, s') | Ok _ => runs ds more s' end
      end
  end.
Definition last_to (l : list R) (x : R) : list R := (removelast l ++ [x])%list.
(** 205-223 and 311-316, 538-554 and 638-641.  [shared]: xdata is the array under the index, as
    it is after construction.  The settings are put back at the end of the function. *)
Definition predict (ds shared : bool) (max_days : R) (filter_pfas : list string) (s : study) : res unit * study :=
  match s_index s with
  | [] => (Err ValueError, {| s_opt := false; s_comps := filter_pfas; s_test := s_test s; s_xnr := s_xnr s; s_xn := s_xn s; s_xdata := s_xdata s; s_index := s_index s; s_kd := s_kd s |})
  | _ =>
      let late := rltb (lmax (s_index s)) max_days in
      let idx := if late then last_to (s_index s) max_days else s_index s in
      let init_xdata := if (late && shared)%bool then idx else s_xdata s in
      let s1 := {| s_opt := false; s_comps := filter_pfas; s_test := s_test s; s_xnr := s_xnr s; s_xn := s_xn s; s_xdata := idx; s_index := idx; s_kd := s_kd s |} in
      match runs ds filter_pfas s1 with
      | (Err e, s2) => (Err e, s2)
      | (Ok _, s2) =>
          (Ok tt, {| s_opt := s_opt s; s_comps := s_comps s; s_test := s_test s; s_xnr := if ds then s_xnr s2 else s_xnr s; s_xn := if ds then s_xn s2 else s_xn s;
                     s_xdata := init_xdata; s_index := s_index s2; s_kd := s_kd s2 |})
      end
  end.
End Predict.
