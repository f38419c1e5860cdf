(** Model of the capacity estimate of a granular-carbon column: PSDM/psdm/PSDM.py 408-728
    (__calculate_capacity), 289-301 (its use) and PSDM_functions.py 1028-1030 (logistic).

    Times and concentrations of one compound are tables sorted by time, without missing
    values.  scipy's quad, curve_fit and linregress and numpy's round are parameters; the
    last two fits may raise.  Not modelled: artificial points (a keyword off by default),
    the breakday 2000 of the deprecated 'force' mode, and fits that give an infinite or
    undefined time, which are an error here. *)
From Coq Require Import Reals List Arith Bool String.
From Verif Require Import Lib_Py Lib_Pow M_GacFun M_GacMin M_GacSmart.
Import ListNotations.
Open Scope R_scope.
Open Scope string_scope.
Local Notation length := List.length.

Definition series := list (R * R).
Definition values (s : series) : list R := map snd s.
Definition mean (l : list R) : R := lsum l / INR (length l).
(** 426: zeros of the influent *)
Definition nonzero (s : series) : series := map (fun p => (fst p, if reqb (snd p) 0 then dec 1 3 else snd p)) s.
(** numpy.arange(x) *)
Definition arange (x : R) : list R := map INR (seq 0 (arange_len 0 x 1)).
Definition count_nonzero (l : list R) : nat := length (filter (fun x => negb (reqb x 0)) l).
(** PSDM_functions.py 1028-1030 *)
Definition logistic (t : R) (p : R * R * R) : R := let '(c0, a, b) := p in c0 / (1 + exp (a - b * t)).
(** series.loc[t] = v, then sorted by interp1d *)
Fixpoint put (t v : R) (s : series) : series :=
  match s with
  | [] => [(t, v)]
  | p :: r => if reqb (fst p) t then (t, v) :: r else if rltb t (fst p) then (t, v) :: p :: r else p :: put t v r
  end.
(** the last time of the index that satisfies a test, 0 if none does *)
Definition last_good (test : R -> bool) (s : series) : R := last (filter test (map fst s)) 0.
(** 419 *)
Definition xn_grid : list R := map (fun i => dec 15 2 + INR i * dec 1 2) (seq 0 (arange_len (dec 15 2) (dec 1001 3) (dec 1 2))).

(** What the search hands over. *)
Record found := { f_ok : bool; f_code : string; f_brk : R; f_inf : series; f_eff : series }.
(** The tuple returned (the estimate of fouling is NaN when [None]). *)
Record capacity := { c_k : R; c_q : R; c_code : string; c_brk : R; c_ave : R; c_kfun : R -> R; c_foul : option R }.

Section Capacity.
Variable quad : (R -> R) -> R -> R -> R.
Variable curve_fit : series -> option (R * R * R).
Variable linregress : series -> option (R * R).
Variable round : R -> R.
(** the data, self.duration, flrt * flow_mult * t_mult, mass_mul, wt, xn, t_mult and the
    fouling function of the compound *)
Variables raw_inf effl : series.
Variables duration flow_per_day mass_mul carbon_mass xn t_mult : R.
Variable fouling : R -> R.
Definition infl : series := nonzero raw_inf.
Definition days : list R := arange (duration + 1).
Definition aveC : R := mean (values infl).

(** 551-596 *)
Definition linear (brk : R) (i e : series) : res found :=
  let y := values e in
  let y1 := last y 0 in
  let try_line (code : string) (si : R * R) :=
    let (slope, intercept) := si in
    if reqb slope 0 then Err ValueError
    else
      let b := round ((aveC - intercept) / slope) in
      let b := if rleb b 0 then last_good (rltb 0) e else b in
      Ok {| f_ok := true; f_code := code; f_brk := b; f_inf := put b aveC i; f_eff := put b aveC e |} in
  if (rltb 0 y1 && rleb (dec 25 2) (y1 / aveC))%bool then
    match rev (map fst e) with
    | t1 :: t2 :: _ => try_line "linear, single point" (y1 / (t1 - t2), - y1 * t2 / (t1 - t2))
    | _ => Ok {| f_ok := true; f_code := "linear, single point"; f_brk := brk; f_inf := i; f_eff := e |}
    end
  else
    let n := count_nonzero y in
    let n := if (Nat.ltb n (length y) && negb (reqb (nth (length y - (n + 1)) y 0) 0))%bool then (n + 1)%nat else n in
    match linregress (skipn (length e - (n + 1)) e) with
    | Some si => try_line "linear regression" si
    | None => Ok {| f_ok := false; f_code := "none"; f_brk := brk; f_inf := i; f_eff := e |}
    end.
(** 490-596 *)
Definition fitted : res found :=
  match curve_fit effl with
  | None => linear duration infl effl
  | Some (c0, a, b) =>
      if reqb b 0 then Err ValueError
      else
        let brk := round ((a + ln 99) / b) in
        let cap := if rltb 2000 brk then duration else brk in
        if rleb duration brk then
          Ok {| f_ok := true; f_code := "logistic"; f_brk := cap; f_inf := put brk aveC infl; f_eff := put brk (logistic brk (c0, a, b)) effl |}
        else if rltb (dec 25 2 * duration) brk then
          Ok {| f_ok := true; f_code := "logistic"; f_brk := cap; f_inf := infl; f_eff := effl |}
        else linear brk infl effl
  end.
(** 444-596.  With exactly one value above zero the answer is always the minimum: the type
    test of 452 holds for every float. *)
Definition search : res found :=
  let here code brk := Ok {| f_ok := true; f_code := code; f_brk := brk; f_inf := infl; f_eff := effl |} in
  let fi := interp_x infl in
  let fe := interp_x effl in
  if (reqb (lsum (values effl)) 0 || Nat.eqb (count_nonzero (values effl)) 1)%bool then here "minimum" duration
  else if rleb (lmin (values infl)) (lmax (values effl)) then
    match find (fun t => rleb (fi t) (fe t)) days with
    | Some t => here "breakthrough" (t - 1)
    | None => match find (fun t => rleb aveC (fe t)) days with
              | Some t => here "exceed_aveC, implied" (t - 1)
              | None => fitted
              end
    end
  else fitted.
(** 599-618 *)
Definition clean (brk : R) (e : series) : R :=
  if rltb brk 0 then last_good (rltb 0) e
  else if rltb 2000 brk then last_good (fun t => rltb t 2000) e
  else if reqb brk 0 then 1
  else brk.
(** 723 *)
Definition foul_est (brk : R) : option R :=
  match arange brk with
  | [] => None
  | l => Some (1 / mean (map (fun t => fouling (t * t_mult)) l))
  end.
(** 620-650 *)
Definition estimate (f : found) : capacity :=
  let brk := clean (f_brk f) (f_eff f) in
  let fi := interp_x (f_inf f) in
  let fe := interp_x (f_eff f) in
  let q := (quad fi 0 brk - quad fe 0 brk) * flow_per_day * mass_mul / carbon_mass in
  let q := if (f_ok f && rleb q (dec 1 6))%bool then dec 1 6 else q in
  let ave := mean (map fi (filter (fun t => rleb t brk) days)) in
  {| c_k := q / rpow (ave * mass_mul) xn; c_q := q; c_code := f_code f; c_brk := brk; c_ave := ave;
     c_kfun := interp_x (map (fun x => (x, q / rpow (ave * mass_mul) x)) xn_grid); c_foul := foul_est brk |}.
(** 408-650 and 723-728 with break_type 'calc'; an influent that sums to zero is skipped. *)
Definition calculate : res capacity :=
  if (Nat.ltb (length infl) 2 || Nat.ltb (length effl) 2)%bool then Err ValueError
  else if reqb (lsum (values infl)) 0 then
    Ok {| c_k := 0; c_q := 0; c_code := "none"; c_brk := duration; c_ave := aveC; c_kfun := fun _ => 1; c_foul := foul_est duration |}
  else do f <- search; Ok (estimate f).
(** 653-686 and 719 with break_type 'force': [brkday] is 1000 for a column without breakthrough and
    3000 for an assumed capacity, which leaves everything at zero. *)
Definition forced (brkday : R) : res capacity :=
  let fi := interp_x infl in
  let fe := interp_x effl in
  if rltb brkday 2000 then
    let ave := if reqb brkday 1000 then aveC else quad fi 0 brkday / brkday in
    let brk := if reqb brkday 1000 then duration else brkday in
    let q := flow_per_day * (quad fi 0 brk - quad fe 0 brk) * mass_mul / carbon_mass in
    Ok {| c_k := q / rpow (ave * mass_mul) xn; c_q := q; c_code := "supplied"; c_brk := brk; c_ave := ave; c_kfun := fun _ => 1; c_foul := foul_est brk |}
  else if reqb brkday 2000 then Err ValueError
  else Ok {| c_k := 0; c_q := 0; c_code := "supplied"; c_brk := duration; c_ave := aveC; c_kfun := fun _ => 1; c_foul := foul_est duration |}.
(** 296-297 *)
Definition stored_foul (c : capacity) : R := match c_foul c with Some x => x | None => dec 125 2 end.
End Capacity.
