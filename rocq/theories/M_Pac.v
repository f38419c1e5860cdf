(** Model of Shiny-PAC/PAC.py: powdered carbon in a contactor.  The collocation operators
    (80-311) are the ones of ixpy/colloc.py, see M_Colloc.  A pandas NaN is [None].
    Solving the differential equations (885-890) is a parameter. *)
From Coq Require Import Reals List Bool String ZArith.
From Verif Require Import Lib_Py Lib_Pow Lib_Sum M_GacSheet M_Extra M_GacFun M_Tools.
Import ListNotations.
Open Scope R_scope.
Open Scope string_scope.

(** 36-39 *)
Definition lpg : R := dec 3785411784 9.
Definition cm_per_ft : R := dec 254 2 * 12.
Definition min_per_day : R := 24 * 60.
(** 43-47, to seconds *)
Definition time_convert : list (string * R) :=
  [("min", 60); ("mins", 60); ("hr", 60 * 60); ("hrs", 60 * 60); ("day", min_per_day * 60); ("days", min_per_day * 60);
   ("s", 1); ("sec", 1); ("secs", 1)].
(** 49-51, to cm *)
Definition length_convert : list (string * R) := [("cm", 1); ("m", 100); ("mm", dec 1 1); ("in", dec 254 2); ("ft", cm_per_ft)].
(** 53-57, to ml *)
Definition volume_convert : list (string * R) :=
  [("ml", 1); ("cm3", 1); ("l", 1000); ("gal", lpg * 1000); ("ft3", cm_per_ft ^ 3); ("m3", 100 ^ 3)].
(** 59-66, to ml/s *)
Definition flow_convert : list (string * R) :=
  [("ml/min", 1 / 60); ("ml/s", 1); ("gpm", lpg * 1000 / 60); ("gal/min", lpg * 1000 / 60); ("lpm", 1000 / 60); ("l/min", 1000 / 60);
   ("mgd", 10 ^ 6 * lpg * 1000 / (min_per_day * 60)); ("ft3/s", cm_per_ft ^ 3 / 1); ("cfs", cm_per_ft ^ 3 / 1); ("m3/s", 100 ^ 3 / 1)].
(** 68-71, to ug/L *)
Definition conc_convert : list (string * R) :=
  [("ug/L", 1); ("ug", 1); ("ng/L", dec 1 3); ("ng", dec 1 3); ("mg/L", 1000); ("mg", 1000)].

(** ** Sheets *)
(** A row: value and unit.  The unit of a row that needs none is never read. *)
Inductive value := VText (s : string) | VNum (x : num).
Record row := { r_value : value; r_units : string }.
Definition sheet := list (string * row).
(** 391-407: every row but 'format' must be a number.  A text that spells a number is not
    modelled, nor is a number as format. *)
Definition typed (t : sheet) : res unit :=
  if forallb (fun kr => match r_value (snd kr) with VNum _ => true | VText _ => String.eqb (fst kr) "format" end) t then Ok tt else Err ValueError.
(** 416-419 *)
Definition lower_index (t : sheet) : sheet := map (fun kr => (lower (fst kr), snd kr)) t.
Definition number (r : row) : num := match r_value r with VNum x => x | VText _ => None end.
(** np.float64(df.loc[key, 'value']) * table[df.loc[key, 'units'].lower()]; [None]: no such row *)
Definition entry (t : sheet) (tbl : list (string * R)) (key : string) : res (option num) :=
  match lookup key t with
  | None => Ok None
  | Some r => do k <- of_option KeyError (lookup (lower (r_units r)) tbl); Ok (Some (map1 (fun x => x * k) (number r)))
  end.
Definition plain (t : sheet) (key : string) : option num := option_map number (lookup key t).
Definition isnan (x : num) : bool := match x with None => true | Some _ => false end.

(** ** Shape of the contactor, 466-541 *)
Record shape := { g_format : string; g_length : num; g_width : num; g_height : num; g_volume : num }.
(** 474-488 *)
Definition format_of (t : sheet) : string := match lookup "format" t with Some r => match r_value r with VText f => f | VNum _ => "square" end | None => "square" end.
Definition width_of (t : sheet) (len : num) : num :=
  if String.eqb (format_of t) "square" then len
  else if String.eqb (format_of t) "rectangular" then
    match lookup "aspect ratio" t with Some r => divN len (number r) | None => divN len (Some 1) end
  else None.
(** 497-527: [v] is the volume given, when the other entries do not determine the shape.
    Line 524 compares and assigns nothing. *)
Definition solve_height (fmt : string) (v len width height : num) : num :=
  if isnan height then
    if negb (isnan (mulN len width)) then divN v (mulN len width)
    else if (String.eqb fmt "circular" && negb (isnan len))%bool then divN v (mulN (Some (PI / 4)) (map1 (fun x => x ^ 2) len))
    else height
  else height.
Definition solve_length (fmt : string) (v len width height : num) : num * num :=
  if (isnan len && negb (isnan height))%bool then
    if String.eqb fmt "circular" then (map1 sqrt (divN (mulN v (Some 4)) (mulN (Some PI) height)), width)
    else let l := map1 sqrt (divN v height) in (l, map1 (fun x => x * 1) l)
  else (len, width).
Definition undetermined (fmt : string) (len width height : num) : bool :=
  if String.eqb fmt "circular" then isnan (mulN len height) else isnan (mulN (mulN len width) height).
(** the whole: a missing length row is an AttributeError whatever the shape; the integer:
    the number of rows reported as missing, with the corrections of lines 511-525. *)
Definition geometry (t : sheet) : res (shape * Z) :=
  do len0 <- entry t length_convert "length/diameter";
  match len0 with
  | None => Err AttributeError
  | Some len =>
      let fmt := format_of t in
      let width := width_of t len in
      do h0 <- entry t length_convert "height";
      let height := match h0 with Some h => h | None => None end in
      let e0 := match h0 with Some _ => 0%Z | None => 1%Z end in
      do (len, width, height, vol, e) <-
        (if (mem_key "volume" t && undetermined fmt len width height)%bool then
           do v0 <- entry t volume_convert "volume";
           let v := match v0 with Some v => v | None => None end in
           let height1 := solve_height fmt v len width height in
           let e1 := if (isnan height && (negb (isnan (mulN len width)) || (String.eqb fmt "circular" && negb (isnan len))))%bool then (e0 - 1)%Z else e0 in
           let lw := solve_length fmt v len width height1 in
           let e2 := if (isnan len && negb (isnan height1))%bool then (e1 - 1)%Z else e1 in
           Ok (fst lw, snd lw, height1, v, e2)
         else Ok (len, width, height, None, e0));
      (* 536-541 *)
      let vol := if isnan vol then
                   if String.eqb fmt "circular" then mulN (mulN height (Some (PI / 4))) (map1 (fun x => x ^ 2) len)
                   else mulN (mulN len width) height
                 else vol in
      Ok ({| g_format := fmt; g_length := len; g_width := width; g_height := height; g_volume := vol |}, e)
  end.

(** ** The rest of the two sheets, 428-571 *)
Record built := { b_shape : shape; b_density : num; b_porosity : num; b_radius : num; b_dw : R; b_flow : num; b_hrt : num; b_crt : num; b_dosage : num; b_errors : Z }.
Definition or_nan (x : option num) : num := match x with Some v => v | None => None end.
Definition missing (x : option num) : Z := match x with Some _ => 0%Z | None => 1%Z end.
(** Without a flow row, self.error (529-534) is an AttributeError. *)
Definition construct (contactor0 pac0 : sheet) : res built :=
  do _ <- typed contactor0; do _ <- (if forallb (fun kr => match r_value (snd kr) with VNum _ => true | VText _ => false end) pac0 then Ok tt else Err ValueError);
  let contactor := lower_index contactor0 in let pac := lower_index pac0 in
  let temp := match plain contactor "temperature" with Some (Some x) => x | _ => 20 end in
  do radius <- entry pac length_convert "radius";
  do (sh, e) <- geometry contactor;
  do flow <- entry contactor flow_convert "flow";
  match flow with
  | None => Err AttributeError
  | Some q =>
      do hrt <- entry contactor time_convert "hrt";
      do crt <- entry contactor time_convert "crt";
      Ok {| b_shape := sh; b_density := or_nan (plain pac "density"); b_porosity := or_nan (plain pac "porosity"); b_radius := or_nan radius;
            b_dw := density temp; b_flow := q; b_hrt := or_nan hrt; b_crt := or_nan crt; b_dosage := or_nan (plain contactor "pac dosage");
            b_errors := (missing (plain pac "density") + missing (plain pac "porosity") + missing radius + e + missing hrt + missing crt
                         + missing (plain contactor "pac dosage"))%Z |}
  end.

(** ** Compounds and the values derived from the dose *)
Record comp := { K : R; xn : R; kf : R; Dp : R; Ds : R; C0 : R; C0_units : string }.
Record derived := { d_qe : R; d_Dgs : R; d_Dgp : R; d_Dg : R; d_St : R; d_Bi : R; d_Z : R; d_X : R; d_Ye : R }.
(** What the sheets fix. *)
Record carbon := { f_density : R; f_porosity : R; f_radius : R; f_dw : R; f_hrt : R }.
(** compounds_df with its derived rows; convert_array *)
Record pac := { p_dosage : R; p_duration : R; p_eps : R; p_table : list (string * (comp * derived)); p_conv : list R }.

(** 611-623, one column; [cv]: its entry of convert_array *)
Definition derive (f : carbon) (eps cv : R) (c : comp) : derived :=
  let c0 := C0 c * cv in
  let qe := K c * rpow c0 (xn c) in
  let Dgs := f_density f * 1000 * qe * (1 - eps) / (eps * c0) in
  let Dgp := f_porosity f * (1 - eps) / eps in
  let Dg := Dgs + Dgp in
  {| d_qe := qe; d_Dgs := Dgs; d_Dgp := Dgp; d_Dg := Dg;
     d_St := kf c * f_hrt f * f_porosity f * (1 - eps) / (eps * f_radius f);
     d_Bi := f_radius f * kf c * (1 - eps) / (eps * (Ds c * Dg + Dp c * Dgp));
     d_Z := Dgp * (Dp c - Ds c) * f_hrt f / (f_radius f * f_radius f * Dg);
     d_X := Ds c * f_hrt f / (f_radius f * f_radius f);
     d_Ye := qe + f_porosity f / (f_density f * 1000) * C0 c * cv |}.
(** 604 *)
Definition eps_of (f : carbon) (dosage : R) : R := 1 - dosage / (f_dw f * 10 ^ 6).
(** 603-627, _update_values *)
Definition update_values (f : carbon) (o : pac) : pac :=
  let eps := eps_of f (p_dosage o) in
  {| p_dosage := p_dosage o; p_duration := p_duration o; p_eps := eps;
     p_table := map (fun x => let '((n, (c, _)), cv) := x in (n, (c, derive f eps cv c))) (combine (p_table o) (p_conv o)); p_conv := p_conv o |}.
(** 574-579: a new object *)
Definition no_derived : derived := {| d_qe := 0; d_Dgs := 0; d_Dgp := 0; d_Dg := 0; d_St := 0; d_Bi := 0; d_Z := 0; d_X := 0; d_Ye := 0 |}.
Fixpoint conv_array (l : list (string * comp)) : res (list R) :=
  match l with
  | [] => Ok []
  | (_, c) :: t => do k <- of_option KeyError (lookup (C0_units c) conc_convert); do ks <- conv_array t; Ok (k :: ks)
  end.
Definition create (f : carbon) (dosage duration : R) (compounds : list (string * comp)) : res pac :=
  do cv <- conv_array compounds;
  Ok (update_values f {| p_dosage := dosage; p_duration := duration; p_eps := 0; p_table := map (fun nc => (fst nc, (snd nc, no_derived))) compounds; p_conv := cv |}).

(** ** The equations, 834-883.  One compound: they do not mix. *)
Record eqn := { q_rho : R; q_K : R; q_n : R; q_kL : R; q_E : R; q_Ep : R; q_Dp : R; q_Ds : R; q_ra : R }.
Definition eqn_of (f : carbon) (eps : R) (c : comp) : eqn :=
  {| q_rho := f_density f * 1000; q_K := K c; q_n := 1 / xn c; q_kL := kf c; q_E := eps; q_Ep := f_porosity f; q_Dp := Dp c; q_Ds := Ds c; q_ra := f_radius f |}.
Section Diffun.
Variables (nc : nat) (B : nat -> nat -> R) (W : nat -> R) (q : eqn).
(** 858-861: the pore concentration at each radius *)
Definition pore (Y : nat -> R) (i : nat) : R := let x := Y i / q_rho q / q_K q in rpow (if rltb x 0 then 0 else x) (q_n q).
(** 864 *)
Definition flux (C : R) (Y : nat -> R) : R := - q_kL q * (C - pore Y (nc - 1)).
(** 867 *)
Definition dC_dt (C : R) (Y : nat -> R) : R := (1 - q_E q) / q_E q * flux C Y * (3 / q_ra q).
(** 870 *)
Definition diffusion (Y : nat -> R) (i : nat) : R :=
  (q_Ep q * (q_Dp q - q_Ds q) * rsum nc (fun j => B i j * pore Y j) + q_Ds q * rsum nc (fun j => B i j * Y j)) / (q_ra q) ^ 2.
(** 873-876 *)
Definition dY_dt (C : R) (Y : nat -> R) (i : nat) : R :=
  if Nat.eqb i (nc - 1) then - (flux C Y / q_ra q + rsum (nc - 1) (fun k => W k * diffusion Y k)) / W (nc - 1)%nat
  else diffusion Y i.
End Diffun.

(** ** Runs *)
(** An effluent table: minutes, and a column for each compound. *)
Record table := { t_min : list R; t_cols : list (string * list R) }.
Section Runs.
Variable f : carbon.
(** solve_ivp from C = 1, Y = 0 over a duration (818-820, 885-890): times in seconds, and the
    liquid concentrations of the compounds at each *)
Variable solve : list eqn -> R -> list (R * list R).
(** 816-897 *)
Definition run (o : pac) : table :=
  let sol := solve (map (fun nx => eqn_of f (p_eps o) (fst (snd nx))) (p_table o)) (p_duration o) in
  {| t_min := map (fun s => fst s / 60) sol;
     t_cols := map (fun inx => (fst (snd inx), map (fun s => C0 (fst (snd (snd inx))) * nth (fst inx) (snd s) 0) sol)) (combine (seq 0 (List.length (p_table o))) (p_table o)) |}.
(** 1128-1149: R_run_PAC, in ug/L *)
Definition scale (cv : list R) (t : table) : table :=
  {| t_min := t_min t; t_cols := map (fun cx => (fst (fst cx), map (fun x => x * snd cx) (snd (fst cx)))) (combine (t_cols t) cv) |}.
Definition r_run (o : pac) : table := scale (p_conv o) (run o).

Definition set_dosage (o : pac) (d : R) : pac := {| p_dosage := d; p_duration := p_duration o; p_eps := p_eps o; p_table := p_table o; p_conv := p_conv o |}.
Definition set_duration (o : pac) (d : R) : pac := {| p_dosage := p_dosage o; p_duration := d; p_eps := p_eps o; p_table := p_table o; p_conv := p_conv o |}.
Definition set_table (o : pac) (t : list (string * (comp * derived))) : pac := {| p_dosage := p_dosage o; p_duration := p_duration o; p_eps := p_eps o; p_table := t; p_conv := p_conv o |}.
Definition set_conv (o : pac) (cv : list R) : pac := {| p_dosage := p_dosage o; p_duration := p_duration o; p_eps := p_eps o; p_table := p_table o; p_conv := cv |}.

(** 911-915 and 968-972; the results by dose, in the order of the doses (equal doses have equal results) *)
Fixpoint each_dose (o : pac) (doses : list R) : pac * list (R * table) :=
  match doses with
  | [] => (o, [])
  | d :: t => let o1 := update_values f (set_dosage o d) in
              let r := each_dose o1 t in (fst r, (d, run o1) :: snd r)
  end.
(** 900-922 *)
Definition run_multi_dosage (o : pac) (doses : list R) : pac * list (R * table) :=
  let r := each_dose (set_duration o (1000 * 60)) doses in
  (set_duration (set_dosage (fst r) (p_dosage o)) (p_duration o), snd r).
(** 925-951 and 974-986: in ug/L at each target time, by compound and dose *)
Definition analyze (o : pac) (data : list (R * table)) (hrts : list R) : list (R * list (string * list R)) :=
  map (fun dt => (fst dt, map (fun cx => (fst (fst cx), map (fun h => np_interp (combine (t_min (snd dt)) (snd (fst cx))) h * snd cx) hrts))
                              (combine (t_cols (snd dt)) (p_conv o)))) data.
(** 953-999; the analysis comes before the dose is put back, which it does not read *)
Definition run_multi_doseR (o : pac) (doses hrts : list R) : pac * list (R * list (string * list R)) :=
  let r := run_multi_dosage o doses in (fst r, analyze o (snd r) hrts).

(** 1043-1051 and 1107-1117: the time at which a column reaches the target; [None]: left blank *)
Definition hrt_for (target cv : R) (minutes col : list R) : option R :=
  let sub := map (fun x => x * cv) col in
  if existsb (fun x => rleb x target) sub then Some (np_interp (combine (rev sub) (rev minutes)) target) else None.
Definition hrts_of (target : R) (cv : list R) (t : table) : list (string * option R) :=
  map (fun cx => (fst (fst cx), hrt_for target (snd cx) (t_min t) (snd (fst cx)))) (combine (t_cols t) cv).

(** an update of the object and an answer: exceptions leave the object as it then is *)
Definition unit_factor (u : string) : res R := of_option KeyError (lookup (lower u) conc_convert).
Definition set_units (u : string) (t : list (string * (comp * derived))) : list (string * (comp * derived)) :=
  map (fun x => let '(n, (c, d)) := x in (n, ({| K := K c; xn := xn c; kf := kf c; Dp := Dp c; Ds := Ds c; C0 := C0 c; C0_units := u |}, d))) t.
Definition set_c0 (v : R) (t : list (string * (comp * derived))) : list (string * (comp * derived)) :=
  map (fun x => let '(n, (c, d)) := x in (n, ({| K := K c; xn := xn c; kf := kf c; Dp := Dp c; Ds := Ds c; C0 := v; C0_units := C0_units c |}, d))) t.
(** the trials: for each dose the waiting times by compound *)
Fixpoint each_trial (target : R) (o : pac) (doses : list R) : pac * list (R * list (string * option R)) :=
  match doses with
  | [] => (o, [])
  | d :: t => let o1 := update_values f (set_dosage o d) in
              let r := each_trial target o1 t in (fst r, (d, hrts_of target (p_conv o1) (run o1)) :: snd r)
  end.
Fixpoint each_c0 (target : R) (o : pac) (doses c0s : list R) : pac * list (R * R * list (string * option R)) :=
  match c0s with
  | [] => (o, [])
  | c :: t => let r := each_trial target (set_table o (set_c0 c (p_table o))) doses in
              let s := each_c0 target (fst r) doses t in
              (fst s, (map (fun x => (c, fst x, snd x)) (snd r) ++ snd s)%list)
  end.
(** 1002-1060.  The C0 column is set again before every dose, with the same value. *)
Definition HRT_calculator (o : pac) (target : R) (target_units : string) (doses c0s : list R) (conc_units : string) : pac * res (list (R * R * list (string * option R))) :=
  let o1 := set_duration o (3000 * 60) in
  match unit_factor target_units with
  | Err e => (o1, Err e)
  | Ok k =>
      let u := if String.eqb (lower conc_units) "same" then lower target_units else lower conc_units in
      match lookup u conc_convert with
      | None => (o1, Err KeyError)
      | Some m =>
          let o2 := set_table (set_conv o1 (map (fun _ => m) (p_table o))) (set_units u (p_table o)) in
          let r := each_c0 (target * k) o2 doses c0s in
          (set_conv (set_duration (set_table (fst r) (p_table o)) (p_duration o)) (p_conv o), Ok (snd r))
      end
  end.
(** 1063-1125 *)
Definition R_HRT_calculator (o : pac) (target : R) (target_units : string) (doses : list R) (conc_units : string) : pac * res (list (R * list (string * option R))) :=
  let o1 := set_duration o (3000 * 60) in
  match unit_factor target_units with
  | Err e => (o1, Err e)
  | Ok k =>
      let finish (o2 : pac) :=
        let r := each_trial (target * k) o2 doses in
        (set_conv (set_duration (set_table (fst r) (p_table o)) (p_duration o)) (p_conv o), Ok (snd r)) in
      if String.eqb (lower conc_units) "same" then finish (set_table o1 (set_units (lower target_units) (p_table o)))
      else match lookup (lower conc_units) conc_convert with
           | None => (o1, Err KeyError)
           | Some m => finish (set_table (set_conv o1 (map (fun _ => m) (p_table o))) (set_units (lower conc_units) (p_table o)))
           end
  end.
End Runs.

(** ** Reference curves *)
(** 629-640, get_analytical_sol, one compound *)
Definition analytical (f : carbon) (eps : R) (c : comp) (t : R) : R :=
  let a := 1 / (eps * f_hrt f) + 3 * kf c * (1 - eps) / (f_radius f * eps) in
  let b := C0 c / (eps * f_hrt f) in
  let cc := a * C0 c - b in
  (cc / exp (a * t) + b) / a.
(** 713-732, helfferich_film; 780-781 and 786-790, F_h with VL = 1 *)
Definition helfferich_film (t rb kL Vw Vx kAxw : R) : R :=
  let LAM := kAxw * Vx / Vw in
  let ex_fact := -3 * kL / rb / kAxw in
  1 - exp ((LAM + 1) * (ex_fact * t)).
Definition F_h (f : carbon) (dosage kL Kd t : R) : R :=
  let A := 1 / (dosage / (f_density f * 10 ^ 6)) / Kd in
  let depletion := 1 / (1 + A) in
  let Vp := dosage / (f_density f * 10 ^ 6) in
  1 - helfferich_film t (f_radius f) kL 1 Vp Kd * depletion.
