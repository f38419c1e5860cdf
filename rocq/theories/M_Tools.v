(** Model of the analysis tools: PSDM/psdm/PSDM_tools.py 51-159 (specific_throughput),
    161-318 (predict_full_scale) and 761-858 (calculate_replacement_interval), without
    plots, files and printing.  Simulations are parameters.  Frames without missing
    values; the chained assignments of 800-830 are taken to reach the frame, as in pandas
    without copy-on-write. *)
From Coq Require Import Reals List Arith Bool String ZArith.
From Verif Require Import Lib_Py Lib_Pow M_GacFun M_GacMin M_GacSmart Lib_Sum.
Import ListNotations.
Open Scope R_scope.
Local Notation length := List.length.

(** ** specific_throughput, 51-159 *)
(** The entries of column_specs the function reads and writes. *)
Record specs := { s_L : R; s_diam : R; s_flrt : R; s_wt : R }.
Definition orig_ebct (s : specs) : R := s_L s * PI * s_diam s ^ 2 / (4 * s_flrt s).
(** 124-137. *)
Definition rescale (o : specs) (ebct : R) : specs :=
  let ratio := orig_ebct o / ebct in
  if rleb ebct (orig_ebct o) then
    {| s_L := s_L o * 1; s_diam := s_diam o * 1; s_flrt := ratio * s_flrt o; s_wt := s_wt o |}
  else
    let r := rpow ratio (1 / 3) in
    {| s_L := s_L o * r; s_diam := s_diam o * r; s_flrt := s_flrt o * 1; s_wt := s_wt o * ratio |}.
(** results[results < ct].dropna().index[-1] *)
Definition treat_days (ct : R) (rows : list (R * R)) : res R :=
  match filter (fun p => rltb (snd p) ct) rows with
  | [] => Err IndexError
  | l => Ok (fst (last l (0, 0)))
  end.
Section Throughput.
(** The result frame of a run of one compound in a column with the given sizes. *)
Variable sim : specs -> string -> res (list (R * R)).
Variable ct : R.
(** 120-157: the loop over ebct_range for one compound; also column_specs afterwards. *)
Fixpoint st_loop (o : specs) (comp : string) (ebcts : list R) (cur : specs) : res (list R * specs) :=
  match ebcts with
  | [] => Ok ([], cur)
  | e :: r =>
      let s := rescale o e in
      do rows <- sim s comp;
      do t <- treat_days ct rows;
      let v := s_flrt s / 10 ^ 6 * 1440 * t / (s_wt s / 1000) in
      do w <- st_loop o comp r s;
      Ok (v :: fst w, snd w)
  end.
Fixpoint st_comps (o : specs) (comps : list string) (ebcts : list R) (cur : specs)
  : res (list (string * list R) * specs) :=
  match comps with
  | [] => Ok ([], cur)
  | c :: r =>
      do w <- st_loop o c ebcts cur;
      do w' <- st_comps o r ebcts (snd w);
      Ok ((c, fst w) :: fst w', snd w')
  end.
Definition specific_throughput (o : specs) (comps : list string) (ebcts : list R) := st_comps o comps ebcts o.
End Throughput.

(** ** predict_full_scale, 161-318 *)
Section Rotation.
(** max_days, at least 1, and the simulated frame of each compound. *)
Variable max_days : nat.
Variable md : string -> list (R * R).
Variable target : R.
(** 228-241 and 252: the caps at line 235 compare with missing values and do nothing. *)
Definition daily (c : string) (d : nat) : R :=
  Rmax 0 (interp_x (map (fun p => (fst p, Rmax 0 (snd p))) (md c)) (INR d)).
(** 271. *)
Definition summed (comps : list string) (d : nat) : R := lsum (map (fun c => daily c d) comps).
(** 290-292: interp1d over the days 0..max_days, evaluated at [d]. *)
Definition extended (s : nat -> R) (d : nat) : R :=
  interp_x (map (fun k => (INR k, s k)) (seq 0 (S max_days))) (INR d).
(** 258-266; beds_per_cycle is positive. *)
Definition weights (total per : nat) : list R :=
  let small := (total mod per)%nat in
  let whole := repeat (INR per / INR total) (total / per) in
  if Nat.eqb small 0 then whole else INR small / INR total :: whole.
(** 279-288. *)
Fixpoint bed_info (beds per count c : nat) : list nat :=
  match beds with
  | O => []
  | S beds =>
      let here := if Nat.leb count per then [c] else [] in
      (here ++ if Nat.eqb (S count) per then bed_info beds per 0 (S c) else bed_info beds per (S count) c)%list
  end.
Definition max_group (l : list nat) : option nat := match l with [] => None | _ => Some (fold_left Nat.max l 0%nat) end.
(** 299-300: tmp += w * summed[(j*i <= index) & (index < (j+1)*i)]; arrays of length i.  A
    one-element slice is spread over all days; other lengths raise. *)
Definition add_slice (s : nat -> R) (i j : nat) (w : R) (tmp : nat -> R) : option (nat -> R) :=
  let n := (5 * max_days)%nat in
  let len := (Nat.min n ((j + 1) * i) - Nat.min n (j * i))%nat in
  if Nat.eqb len i then Some (fun k => tmp k + w * s (j * i + k)%nat)
  else if Nat.eqb len 1 then Some (fun k => tmp k + w * s (j * i)%nat)
  else None.
Fixpoint add_all (s : nat -> R) (ws : list R) (i : nat) (js : list nat) (tmp : nat -> R) : option (nat -> R) :=
  match js with
  | [] => Some tmp
  | j :: r =>
      match nth_error ws j with
      | None => None
      | Some w => match add_slice s i j w tmp with None => None | Some t => add_all s ws i r t end
      end
  end.
Definition cycle (s : nat -> R) (ws : list R) (info : list nat) (i : nat) : option (nat -> R) :=
  match max_group info with
  | None => None
  | Some m => add_all s ws i (seq 0 m) (fun _ => 0)
  end.
(** 294-308; an exception gives (max_days, zeros). *)
Fixpoint search (s : nat -> R) (ws : list R) (info : list nat) (more i : nat) (best : nat * (nat -> R)) : nat * (nat -> R) :=
  match more with
  | O => best
  | S more =>
      match cycle s ws info i with
      | None => (max_days, fun _ => 0)
      | Some tmp =>
          if rleb (lmax (map tmp (seq 0 i))) target then search s ws info more (S i) (i, tmp) else best
      end
  end.
Definition predict_full_scale (comps : list string) (total per : nat) : nat * (nat -> R) :=
  search (extended (summed comps)) (weights total per) (bed_info total per 0 1) (max_days - 1) 1 (1%nat, fun _ => 0).
End Rotation.

(** ** calculate_replacement_interval, 761-858 *)
(** 779-784. *)
Definition mcls : list (string * R) :=
  [("PFOA", 4); ("PFOS", 4); ("PFHxS", 10); ("PFNA", 10); ("GenX", 10); ("HI", 1)]%string.
(** numpy.interp: linear between the points, constant outside. *)
Fixpoint np_interp (tbl : list (R * R)) (t : R) : R :=
  match tbl with
  | [] => 0
  | (x0, y0) :: rest =>
      match rest with
      | [] => y0
      | (x1, y1) :: _ =>
          if rleb t x0 then y0 else if rltb t x1 then line x0 y0 x1 y1 t else np_interp rest t
      end
  end.
(** A frame: its index (days) and its columns. *)
Record dframe := { index : list R; columns : list (string * list R) }.
(** 794: numpy.arange(0, last + 1). *)
Definition n_days (d : dframe) : nat := Z.to_nat (ceil (last (index d) 0 + 1)).
Definition per_day (d : dframe) (vals : list R) (day : nat) : R := np_interp (combine (index d) vals) (INR day).

(** A row of the returned frame.  Texts are reduced to their kind. *)
Inductive note := Below | Absent | Days.
Record rrow := { predicted : option Z; r_lower : option Z; r_upper : option Z; r_note : option note }.
Definition set_note (n : note) (r : rrow) : rrow :=
  {| predicted := predicted r; r_lower := r_lower r; r_upper := r_upper r; r_note := Some n |}.
Definition frame0 : list (string * rrow) :=
  map (fun p => (fst p, {| predicted := None; r_lower := None; r_upper := None; r_note := None |})) mcls.
(** replacement_interval.loc[comp]['note'] = ... *)
Definition put_note (c : string) (n : note) (t : list (string * rrow)) : res (list (string * rrow)) :=
  match lookup c t with None => Err KeyError | Some r => Ok (update c (set_note n r) t) end.
(** 799-805. *)
Fixpoint quiet_notes (cols : list (string * list R)) (t : list (string * rrow)) : res (list (string * rrow)) :=
  match cols with
  | [] => Ok t
  | (c, vals) :: r =>
      do t1 <- match lookup c mcls with
               | None => Ok t
               | Some m => if rltb (lmax vals) m then put_note c Below t else Ok t
               end;
      quiet_notes r t1
  end.
(** 808-818: the hazard index; [new] are the daily columns. *)
Fixpoint hazard (cs : list string) (new : list (string * (nat -> R))) (hi : nat -> R) (t : list (string * rrow))
  : res ((nat -> R) * list (string * (nat -> R)) * list (string * rrow)) :=
  match cs with
  | [] => Ok (hi, new, t)
  | c :: r =>
      match lookup c new with
      | None => do t1 <- put_note c Absent t; hazard r new hi t1
      | Some f =>
          if String.eqb c "PFBS" then hazard r (update c (fun d => f d + f d / 2000) new) hi t
          else match lookup c mcls with
               | None => Err KeyError
               | Some m => hazard r new (fun d => hi d + f d / m) t
               end
      end
  end.
(** 823-831: the day before the first exceedance. *)
Fixpoint first_above (f : nat -> R) (m : R) (more day : nat) : option Z :=
  match more with
  | O => None
  | S more => if rltb m (f day) then Some (Z.of_nat day - 1)%Z else first_above f m more (S day)
  end.
Fixpoint fill (n : nat) (new : list (string * (nat -> R))) (t : list (string * rrow)) : res (list (string * rrow)) :=
  match t with
  | [] => Ok []
  | (c, r) :: rest =>
      do r1 <- match r_note r with
               | Some _ => Ok r
               | None =>
                   match n with
                   | O => Ok r
                   | S _ =>
                       match lookup c new, lookup c mcls with
                       | Some f, Some m =>
                           Ok {| predicted := first_above f m n 0; r_lower := r_lower r; r_upper := r_upper r; r_note := None |}
                       | _, _ => Err KeyError
                       end
                   end
               end;
      do rest1 <- fill n new rest;
      Ok ((c, r1) :: rest1)
  end.
Definition day_notes (t : list (string * rrow)) : list (string * rrow) :=
  map (fun p => (fst p, match r_note (snd p) with None => set_note Days (snd p) | Some _ => snd p end)) t.
(** 790-831. *)
Definition intervals (d : dframe) : res (list (string * rrow)) :=
  let n := n_days d in
  let new := map (fun p => (fst p, per_day d (snd p))) (columns d) in
  do t1 <- quiet_notes (columns d) frame0;
  do w <- hazard ["PFHxS"; "PFNA"; "GenX"; "PFBS"]%string new (fun _ => 0) t1;
  let '(hi, new1, t2) := w in
  let new2 := update "HI"%string hi new1 in
  match n with
  | O => Err ValueError
  | S _ =>
    do t3 <- if rltb (lmax (map hi (seq 0 n))) 1 then put_note "HI" Below t2 else Ok t2;
    fill n new2 t3
  end.
(** 833-838. *)
Definition replacement_interval (d : dframe) : res (list (string * rrow)) := do t <- intervals d; Ok (day_notes t).
(** 840-856: with an uncertainty frame; [lo], [up] are its lower and upper curves. *)
Definition replacement_interval_unc (d lo up : dframe) : res (list (string * rrow)) :=
  do t <- intervals d;
  do a <- replacement_interval lo;
  do b <- replacement_interval up;
  let pred := fun c u => match lookup c u with None => None | Some r => predicted r end in
  Ok (day_notes (map (fun p => (fst p, {| predicted := predicted (snd p); r_lower := pred (fst p) b;
                                          r_upper := pred (fst p) a; r_note := r_note (snd p) |})) t)).
