(** Model of PSDM/psdm/lead_lag_class.py: two vessels in series, with carbon or resin.
    A vessel is a parameter: for its flow and the influent it answers with its effluent
    (PSDM.run_psdm_kfit with the given K and 1/n; HSDMIX.solve at the requested times).
    A time series is the list of its (time, value) pairs.  Input frames have the same
    columns below influentID and effluentID, and every ion is a column of the influent.
    arange has the exact number of steps: floating-point rounding of the times is not
    modelled. *)
From Coq Require Import Reals List Arith Bool String.
From Verif Require Import Lib_Py M_GacSheet M_GacFun M_GacSmart M_GacMin M_IxUnc M_Tools.
Import ListNotations.
Open Scope R_scope.
Open Scope string_scope.
Local Notation length := List.length.

Definition series := list (R * R).
(** numpy.arange(lo, hi, 0.25) *)
Definition quarters (lo hi : R) : list R := map (fun k => lo + INR k / 4) (seq 0 (arange_len lo hi (1 / 4))).
(** int(swap_days * 2.1), 415 and 539 *)
Definition run_duration (s : R) : R := IZR (Int_part (s * dec 21 1)).
(** interp1d without fill_value, 457-460: outside the table it raises. *)
Definition curve (tbl : series) (t : R) : res R :=
  match tbl with
  | [] => Err ValueError
  | (x0, _) :: _ => if (rltb t x0 || rltb (fst (last tbl (0, 0))) t)%bool then Err ValueError else Ok (interp_x tbl t)
  end.
(** frame.loc[first m rows, column] = vals *)
Definition put (m : nat) (vals column : list R) : res (list R) :=
  if Nat.eqb (length vals) m then Ok (vals ++ skipn m column)%list else Err ValueError.
(** Series.mean() *)
Definition mean (l : list R) : R := lsum l / INR (length l).

(** The four entries of data_store for one compound. *)
Record out := { mid : R; mid_results : series; effluent : R; effluent_results : series }.

(** ** Carbon, 393-509, for one compound *)
Section Gac.
Variable gac : series -> res series.
Variable mean_in : R.    (* raw_data_new, 424-426 *)
Variable s : R.          (* swap_days *)
Let tv := quarters 0 (run_duration s).
Let base := map (fun _ => mean_in) tv.
(** 462: how many times are before the swap *)
Let m := length (filter (fun t => rltb t s) tv).
(** 453-485 *)
Definition ll_step (i : nat) (results : series) : res series :=
  do vals <- mapM (curve results) (if Nat.eqb i 0 then quarters 0 s else quarters s (2 * s));
  do feed <- put m vals base;
  gac (combine tv feed).
Fixpoint ll_steps (more i : nat) (results : series) : res series :=
  match more with
  | O => Ok results
  | S k => do r <- ll_step i results; ll_steps k (S i) r
  end.
Definition run_LL_gac (loops : nat) : res out :=
  do r0 <- gac (combine tv base);
  do r <- ll_steps (loops + 1) 0 r0;
  (* 495-499 *)
  do md <- curve r (2 * s);
  do er <- mapM (curve r) (quarters 0 s);
  do ef <- curve r s;
  do mr <- mapM (curve r) (quarters s (2 * s));
  Ok {| mid := md; mid_results := combine (quarters 0 s) mr; effluent := ef; effluent_results := combine (quarters 0 s) er |}.
End Gac.

(** ** Resin *)
(** io_data / Cin: times and columns. *)
Record frame := { fr_time : list R; fr_cols : list string; fr_val : string -> list R }.
(** 85-107, conv_iex_u: from meq/L to the unit of the ion; values below zero are lifted. *)
Record ion := { i_unit : string; i_mw : R }.
Definition ion_factor (x : ion) : R :=
  if String.eqb (i_unit x) "ug" then i_mw x * 1000
  else if String.eqb (i_unit x) "ng" then i_mw x * 10 ^ 6
  else if String.eqb (i_unit x) "mg" then i_mw x * 1
  else 1.
Definition tiny : R := 1 / 10 ^ 16.
Definition lift (x : R) : R := if rleb x 0 then tiny else x.
Definition conv_iex_u (ions : list (string * ion)) (u : string -> list R) : list (string * list R) :=
  map (fun ni => (fst ni, map (fun x => lift (x * ion_factor (snd ni))) (u (fst ni)))) ions.

(** Series label slices [lo:hi], both ends included, and one label. *)
Definition slice (lo hi : R) (x : series) : series := filter (fun p => (rleb lo (fst p) && rleb (fst p) hi)%bool) x.
Definition label (x : series) (t : R) : res R :=
  match find (fun p => reqb (fst p) t) x with Some p => Ok (snd p) | None => Err KeyError end.

Section Ix.
Variable ions : list (string * ion).
Variable ix : frame -> res (string -> list R).   (* HSDMIX(...).solve: effluents in meq/L at the times *)
Variable raw : frame.                            (* ix_raw_data *)
Variable s : R.
Let tv := quarters 0 (run_duration s).
(** 547-556 *)
Definition ix_base : frame := {| fr_time := tv; fr_cols := fr_cols raw; fr_val := fun c => map (fun _ => mean (fr_val raw c)) tv |}.
Definition converted (cin : frame) : res (list (string * list R)) := do u <- ix cin; Ok (conv_iex_u ions u).
Let m := length (filter (fun t => rleb t s) tv).
(** 578-593: the frame of the next pass and the effluents *)
Definition ix_feed (i : nat) (conv : list (string * list R)) : res frame :=
  do cols <- mapM (fun cv => do v <- put m (map snd (slice (if Nat.eqb i 0 then 0 else s) (if Nat.eqb i 0 then s else 2 * s) (combine tv (snd cv))))
                                            (fr_val ix_base (fst cv));
                             Ok (fst cv, v)) conv;
  Ok {| fr_time := tv; fr_cols := fr_cols raw;
        fr_val := fun c => match lookup c cols with Some v => v | None => fr_val ix_base c end |}.
Fixpoint ix_steps (more i : nat) (cin : frame) (conv : list (string * list R)) : res (frame * list (string * list R)) :=
  match more with
  | O => Ok (cin, conv)
  | S k => do f <- ix_feed i conv; do c <- converted f; ix_steps k (S i) f c
  end.
(** 600-607, for one column *)
Definition ix_out (col : list R) : res out :=
  let x := combine tv col in
  do md <- label x (s * 2); do ef <- label x s;
  Ok {| mid := md; mid_results := slice 0 s (map (fun p => (fst p - s, snd p)) x); effluent := ef; effluent_results := slice 0 s x |}.
(** 512-609: the last frame (left in ix_data['Cin']) and the results by ion *)
Definition run_LL_ix (loops : nat) : res (frame * list (string * out)) :=
  do c0 <- converted ix_base;
  do r <- ix_steps (loops + 1) 0 ix_base c0;
  do outs <- mapM (fun cv => do x <- ix_out (snd cv); Ok (fst cv, x)) (snd r);
  Ok (fst r, outs).
End Ix.

(** ** The whole object *)
Inductive flowarg := FlowStr (f : string) | FlowNum (f : R) | FlowList | FlowPair (f : R) (u : string).
Record obj := { o_gac_flow : R; o_ix_flow : R * string; o_cin : frame }.
Record store := { s_mid : list (string * R); s_mid_results : list (string * series); s_eff : list (string * R); s_eff_results : list (string * series) }.

(** 35-50 *)
Definition ml_per_gal : R := dec 3785411784 9 * 1000.
Definition flow_converter : list (string * R) :=
  [("ml/min", 1); ("mgd", 10 ^ 6 * ml_per_gal / 1440); ("gpm", ml_per_gal); ("gal/min", ml_per_gal); ("lps", 1000 * 60); ("l/s", 1000 * 60);
   ("m3ps", 10 ^ 6 * 60); ("m3/s", 10 ^ 6 * 60); ("l/min", 1000)].
Definition set_gac_flow (o : obj) (f : R) : obj := {| o_gac_flow := f; o_ix_flow := o_ix_flow o; o_cin := o_cin o |}.
Definition set_cin (o : obj) (c : frame) : obj := {| o_gac_flow := o_gac_flow o; o_ix_flow := o_ix_flow o; o_cin := c |}.
(** 640-665 and 780-805.  params.loc[i]['value'] = ... assigns into the row that .loc[i]
    made, a copy as the frame has text and number columns: the frame keeps its flow.
    The type tests are the wrong way round: a number reaches len(), a list the last branch. *)
Definition share_flow (o : obj) (a : flowarg) : res obj :=
  match a with
  | FlowNum _ => Err TypeError
  | FlowList => Ok o
  | FlowPair _ _ => Ok o
  | FlowStr f =>
      if String.eqb f "use gac" then Ok o
      else if String.eqb f "use ix" then
        match lookup (snd (o_ix_flow o)) flow_converter with
        | Some k => Ok (set_gac_flow o (fst (o_ix_flow o) * k))
        | None => Err KeyError
        end
      else Ok o
  end.

Section Object.
Variable ions : list (string * ion).
Variable counterions : list string.
Variable compounds0 : list string.          (* self.compounds *)
Variable raw : frame.                       (* raw_data[influentID] *)
Variable ixraw : frame.                     (* ix_raw_data *)
Variable gac : R -> string -> series -> res series.    (* flow, compound, influent *)
Variable ix : R * string -> frame -> res (string -> list R).

Definition mem (c : string) (l : list string) : bool := existsb (String.eqb c) l.
(** 670 and 810-811, 911: list(set(compounds + shared)) *)
Definition use_compounds (o : obj) (compounds : list string) : list string :=
  nodup string_dec (compounds ++ filter (fun c => mem c (fr_cols (o_cin o))) (fr_cols raw))%list.
(** 680-691 and 830-840: a column on the times of the run, its mean if the run is longer *)
Definition on_times (src : frame) (s : R) (c : string) (times : list R) : list R :=
  if rleb s (lmax (fr_time src)) then map (interp_x (combine (fr_time src) (fr_val src c))) times
  else map (fun _ => mean (fr_val src c)) times.
(** tvals and tvals2, 680-681 *)
Definition tvals (s : R) : list R := quarters 0 (s + 1 / 4).
Definition tvals2 (s : R) : list R := removelast (tvals s).
(** the index of data_store['mid results'], 697: the times up to swap_days - 0.25 *)
Definition upto (s : R) : list R := filter (fun t => rleb t (s - 1 / 4)) (tvals s).
Definition known (f : frame) (cs : list string) : res unit := if forallb (fun c => mem c (fr_cols f)) cs then Ok tt else Err KeyError.

(** 611-753, carbon first *)
Definition run_LL_gac_ix (o : obj) (s : R) (compounds : list string) (flow : flowarg) : res (obj * store) :=
  do o <- share_flow o flow;
  let use := use_compounds o compounds in
  do _ <- known raw use;
  (* 703-723 *)
  do leads <- mapM (fun c => do r <- gac (o_gac_flow o) c (combine (tvals s) (on_times raw s c (tvals s)));
                             match r with [] => Err IndexError | _ => Ok (c, r) end) compounds;
  let mid_of c := match lookup c leads with Some r => map (np_interp r) (upto s) | None => map (fun _ => 0) (upto s) end in
  (* 725-738 *)
  do _ <- (if Nat.eqb (length (upto s)) (length (tvals2 s)) then Ok tt else Err ValueError);
  do _ <- known (o_cin o) counterions;
  let cin := {| fr_time := tvals2 s; fr_cols := ("Time" :: counterions ++ use)%list;
                fr_val := fun c => if mem c counterions then map (fun _ => lift (mean (fr_val (o_cin o) c))) (tvals2 s)
                                   else map lift (mid_of c) |} in
  let o := set_cin o cin in
  do conv <- converted ions (ix (o_ix_flow o)) cin;
  do effs <- mapM (fun cv => match snd cv with [] => Err IndexError | _ => Ok (fst cv, last (snd cv) 0) end) conv;
  Ok (o, {| s_mid := map (fun cr => (fst cr, snd (last (snd cr) (0, 0)))) leads;
            s_mid_results := map (fun c => (c, combine (upto s) (mid_of c))) use;
            s_eff := effs; s_eff_results := map (fun cv => (fst cv, combine (tvals2 s) (snd cv))) conv |}).

(** 755-901, resin first *)
Definition thresh : R := 1 / 10 ^ 8.
Definition run_LL_ix_gac (o : obj) (s : R) (compounds : list string) (flow : flowarg) : res (obj * store) :=
  do o <- share_flow o flow;
  let use := use_compounds o compounds in
  do _ <- known (o_cin o) (counterions ++ use)%list;
  (* 826-845 *)
  let cin := {| fr_time := tvals s; fr_cols := ("Time" :: counterions ++ use)%list;
                fr_val := fun c => map lift (on_times (o_cin o) s c (tvals s)) |} in
  let o := set_cin o cin in
  do conv <- converted ions (ix (o_ix_flow o)) cin;
  do mids <- mapM (fun cv => match snd cv with [] => Err IndexError | _ => Ok (fst cv, last (snd cv) 0) end) conv;
  (* 862-897 *)
  do lags <- mapM (fun c => do col <- of_option KeyError (lookup c conv);
                            do r <- gac (o_gac_flow o) c (combine (tvals s) (map (fun x => if rleb x thresh then thresh else x) col));
                            match r with [] => Err IndexError | _ => Ok (c, r) end) use;
  Ok (o, {| s_mid := mids; s_mid_results := map (fun cv => (fst cv, combine (tvals s) (snd cv))) conv;
            s_eff := map (fun cr => (fst cr, snd (last (snd cr) (0, 0)))) lags;
            s_eff_results := map (fun cr => (fst cr, combine (upto s) (map (np_interp (snd cr)) (upto s)))) lags |}).

(** 368-389.  [None] of compounds and flow: not given by the caller.  A given list of
    compounds reaches the mixed runs twice, as compounds= and in **kw. *)
Inductive answer := Refused | Done (x : store).
Definition store_of (l : list (string * out)) : store :=
  {| s_mid := map (fun co => (fst co, mid (snd co))) l; s_mid_results := map (fun co => (fst co, mid_results (snd co))) l;
     s_eff := map (fun co => (fst co, effluent (snd co))) l; s_eff_results := map (fun co => (fst co, effluent_results (snd co))) l |}.
Definition run_LL (o : obj) (s : R) (LL_type : string) (loops : nat) (compounds : option (list string)) (flow : option flowarg) : res (obj * answer) :=
  let cs := match compounds with Some l => l | None => compounds0 end in
  let ty := lower LL_type in
  if (String.eqb ty "gac" || String.eqb ty "gac-gac")%bool then
    do l <- mapM (fun c => do _ <- known raw [c]; do x <- run_LL_gac (gac (o_gac_flow o) c) (mean (fr_val raw c)) s loops; Ok (c, x)) cs;
    Ok (o, Done (store_of l))
  else if (String.eqb ty "ix" || String.eqb ty "ix-ix" || String.eqb ty "iex" || String.eqb ty "iex-iex")%bool then
    do r <- run_LL_ix ions (ix (o_ix_flow o)) ixraw s loops;
    Ok (set_cin o (fst r), Done (store_of (snd r)))
  else if (String.eqb ty "ix-gac" || String.eqb ty "iex-gac")%bool then
    match compounds with
    | Some _ => Err TypeError
    | None => do r <- run_LL_ix_gac o s cs (match flow with Some f => f | None => FlowStr "use ix" end); Ok (fst r, Done (snd r))
    end
  else if (String.eqb ty "gac-ix" || String.eqb ty "iex-gac")%bool then
    match compounds with
    | Some _ => Err TypeError
    | None => do r <- run_LL_gac_ix o s cs (match flow with Some f => f | None => FlowStr "use gac" end); Ok (fst r, Done (snd r))
    end
  else Ok (o, Refused).
End Object.
