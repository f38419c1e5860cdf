(** Model of what runs do to a granular-carbon column object: PSDM/psdm/PSDM.py 730-791
    (__set_backups, __reset_column_values), 1320-1655 (run_psdm, its effects only),
    1659-1762 (run_psdm_kfit), 1764-1824 (run_psdm_dsfit) and 1828-2009
    (model_uncertainty).

    A run is the parameter [sim]: it may fail, and otherwise gives the effluent of each
    compound as a function of time.  [used] is what it records as mass_transfer_data.
    The Jacobian pattern and the two array shapes follow from num_comps and are left
    out.  Frames are lists of named columns, frame[c] = x is [update]. *)
From Coq Require Import Reals List Arith Bool String.
From Verif Require Import Lib_Py.
Import ListNotations.
Open Scope R_scope.

(** One column of k_data; the last two are the rows MolarVol and MW, which only a
    user-supplied frame has. *)
Record krow := { kK : R; kN : R; kQ : R; kBrk : R; kAve : R; kVol : option R; kMW : option R }.
(** One column of mass_transfer. *)
Record mtr := { m_kf : R; m_dp : R; m_ds : R }.
(** Influent and effluent of one compound against time. *)
Record dcol := { d_inf : R -> R; d_eff : R -> R }.
Definition frame (A : Type) := list (string * A).
Definition col_map {A} (g : A -> A) (f : frame A) : frame A := map (fun p => (fst p, g (snd p))) f.

(** The attributes with a backup (730-751). *)
Record inp := {
  i_L : R; i_diam : R; i_wt : R; i_flrt : R; i_rhop : R; i_rhof : R; i_rad : R;
  i_tortu : R; i_psdfr : R; i_epor : R;
  i_kd : frame krow; i_data : frame dcol; i_comps : list string; i_num : nat; i_mt : frame mtr }.
Definition with_geo (l w q : R) (i : inp) : inp :=
  {| i_L := l; i_diam := i_diam i; i_wt := w; i_flrt := q; i_rhop := i_rhop i; i_rhof := i_rhof i;
     i_rad := i_rad i; i_tortu := i_tortu i; i_psdfr := i_psdfr i; i_epor := i_epor i;
     i_kd := i_kd i; i_data := i_data i; i_comps := i_comps i; i_num := i_num i; i_mt := i_mt i |}.
Definition with_frames (k : frame krow) (d : frame dcol) (cs : list string) (n : nat) (m : frame mtr) (i : inp) : inp :=
  {| i_L := i_L i; i_diam := i_diam i; i_wt := i_wt i; i_flrt := i_flrt i; i_rhop := i_rhop i; i_rhof := i_rhof i;
     i_rad := i_rad i; i_tortu := i_tortu i; i_psdfr := i_psdfr i; i_epor := i_epor i;
     i_kd := k; i_data := d; i_comps := cs; i_num := n; i_mt := m |}.

(** The values worked out from them (769-779). *)
Record derived := { d_area : R; d_bedvol : R; d_ebed : R; d_tau : R; d_sf : R; d_vs : R; d_re : R; d_ebct : R }.

(** The column object.  [results], [upper], [lower]: one function of the row number per
    compound, None before anything is stored. *)
Record gcol := {
  now : inp; bup : inp; der : derived; mtd : frame mtr;
  results : string -> option (nat -> R); upper : string -> option (nat -> R); lower : string -> option (nat -> R) }.
Definition set_now (i : inp) (c : gcol) : gcol :=
  {| now := i; bup := bup c; der := der c; mtd := mtd c; results := results c; upper := upper c; lower := lower c |}.
Definition set_der (d : derived) (c : gcol) : gcol :=
  {| now := now c; bup := bup c; der := d; mtd := mtd c; results := results c; upper := upper c; lower := lower c |}.
Definition set_mtd (m : frame mtr) (c : gcol) : gcol :=
  {| now := now c; bup := bup c; der := der c; mtd := m; results := results c; upper := upper c; lower := lower c |}.
Definition set_results (f : string -> option (nat -> R)) (c : gcol) : gcol :=
  {| now := now c; bup := bup c; der := der c; mtd := mtd c; results := f; upper := upper c; lower := lower c |}.
Definition set_bands (u l : string -> option (nat -> R)) (c : gcol) : gcol :=
  {| now := now c; bup := bup c; der := der c; mtd := mtd c; results := results c; upper := u; lower := l |}.
Definition fput {A} (c : string) (x : A) (f : string -> A) : string -> A := fun d => if String.eqb c d then x else f d.

(** A method: its outcome and the column it leaves behind, also when it raises. *)
Definition method (A : Type) := gcol -> res A * gcol.
Definition ret {A} (x : A) : method A := fun c => (Ok x, c).
Definition raise {A} (e : pyerr) : method A := fun c => (Err e, c).
Definition andthen {A B} (m : method A) (f : A -> method B) : method B :=
  fun c => match m c with (Ok x, c') => f x c' | (Err e, c') => (Err e, c') end.
Definition modify (f : gcol -> gcol) : method unit := fun c => (Ok tt, f c).
Definition get {A} (f : gcol -> A) : method A := fun c => (Ok (f c), c).
Definition need {A} (e : pyerr) (o : option A) : method A := match o with Some x => ret x | None => raise e end.

Section State.
(** self.vw, self.dw, self.mass_mul, self.duration, self.influent's presence aside. *)
Variables vw dw mass_mul duration : R.
Definition derive (i : inp) : derived :=
  let area := PI * i_diam i ^ 2 / 4 in
  let bedvol := area * i_L i in
  let ebed := 1 - i_wt i / (bedvol * i_rhop i) in
  let vs := i_flrt i / (60 * area) in
  {| d_area := area; d_bedvol := bedvol; d_ebed := ebed;
     d_tau := bedvol * ebed * 60 / i_flrt i;
     d_sf := dec 245423867471 12 * i_flrt i / area;
     d_vs := vs;
     d_re := 2 * i_rad i * vs * dw / (ebed * vw);
     d_ebct := area * i_L i / i_flrt i |}.

(** 730-751. *)
Definition set_backups : method unit :=
  modify (fun c => {| now := now c; bup := now c; der := der c; mtd := mtd c;
                      results := results c; upper := upper c; lower := lower c |}).
(** 753-789. *)
Definition reset_values : method unit :=
  modify (fun c => set_der (derive (bup c)) (set_now (bup c) c)).

(** What a run can see. *)
Definition seen : Type := inp * derived.
Variable sim : seen -> option (string -> R -> R).
Variable used : seen -> frame mtr.
(** run_psdm: assigns mass_transfer_data (1396, 1432-1436) and tconv (1467, read by
    nothing else) and nothing more. *)
Definition run_psdm : method (string -> R -> R) := fun c =>
  match sim (now c, der c) with
  | None => (Err ValueError, c)
  | Some f => (Ok f, set_mtd (used (now c, der c)) c)
  end.

(** data_bup.transpose().loc[idx[:, compound], :].transpose() and a one-column k_data. *)
Definition pick {A} (c : string) (f : frame A) : method (frame A) :=
  andthen (need KeyError (lookup c f)) (fun x => ret [(c, x)]).

(** ** Fits *)
(** 1659-1762.  [trials]: the K and 1/n tried in turn; None runs the table as it is.  The
    sums of squares are computed from the runs by [ssq] (1711, 1723, 1733, 1747). *)
Variable ssq : dcol -> R -> (R -> R) -> R.
Definition trial_k (c : string) (t : option (R * R)) : method unit :=
  match t with
  | None => ret tt
  | Some (K, N) =>
      andthen (get (fun x => i_kd (now x))) (fun kd =>
      andthen (need KeyError (lookup c kd)) (fun r =>
      modify (fun x => set_now (with_frames
        (update c {| kK := K; kN := N; kQ := kQ r; kBrk := kBrk r; kAve := kAve r; kVol := kVol r; kMW := kMW r |} kd)
        (i_data (now x)) (i_comps (now x)) (i_num (now x)) (i_mt (now x)) (now x)) x)))
  end.
Fixpoint try_all (c : string) (d : dcol) (brk : R) (ts : list (option (R * R))) : method (list R) :=
  match ts with
  | [] => ret []
  | t :: r =>
      andthen (trial_k c t) (fun _ =>
      andthen run_psdm (fun f =>
      andthen (try_all c d brk r) (fun l => ret (ssq d brk (f c) :: l))))
  end.
Definition single_view (c : string) : method dcol :=
  andthen (get bup) (fun b =>
  andthen (modify (fun x => set_now (with_frames (i_kd (now x)) (i_data (now x)) [c] 1 (i_mt (now x)) (now x)) x)) (fun _ =>
  andthen (pick c (i_data b)) (fun d =>
  andthen (modify (fun x => set_now (with_frames (i_kd (now x)) d (i_comps (now x)) (i_num (now x)) (i_mt (now x)) (now x)) x)) (fun _ =>
  need KeyError (lookup c d))))).
Definition run_psdm_kfit (c : string) (ts : list (option (R * R))) : method (list R) :=
  andthen (single_view c) (fun d =>
  andthen (get (fun x => lookup c (i_kd (now x)))) (fun r0 =>
  andthen (need KeyError r0) (fun r =>
  andthen (try_all c d (kBrk r) ts) (fun l =>
  andthen reset_values (fun _ => ret l))))).

(** 1764-1824: the surface-diffusion fit over [tests].  [difl] of 1792 is a function of
    the molar volume; [powr] is [**]. *)
Variable difl : R -> R.
Variable powr : R -> R -> R.
Fixpoint ds_all (c : string) (d : dcol) (brk ds_base : R) (tests : list R) (best : R * option R) : method (option R) :=
  match tests with
  | [] => ret (snd best)
  | f :: r =>
      andthen (get (fun x => i_mt (now x))) (fun mt =>
      andthen (need KeyError (lookup c mt)) (fun m =>
      andthen (modify (fun x => set_now (with_frames (i_kd (now x)) (i_data (now x)) (i_comps (now x)) (i_num (now x))
                 (update c {| m_kf := m_kf m; m_dp := m_dp m; m_ds := f * ds_base |} mt) (now x)) x)) (fun _ =>
      andthen run_psdm (fun g =>
      let e := ssq d brk (g c) in
      ds_all c d brk ds_base r (if rltb e (fst best) then (e, Some (ds_base * f)) else best)))))
  end.
Definition ds_base_of (i : inp) (d : dcol) (vol mw : R) (xn : R) : R :=
  let cb0 := d_inf d 0 * mass_mul / mw in
  i_epor i * difl vol * cb0 * i_psdfr i / (10 ^ 3 * i_rhop i * powr cb0 xn).
Definition run_psdm_dsfit (c : string) (tests : list R) : method R :=
  andthen (single_view c) (fun d =>
  andthen (get (fun x => lookup c (i_kd (now x)))) (fun r0 =>
  andthen (need KeyError r0) (fun r =>
  andthen (need KeyError (kVol r)) (fun vol =>
  andthen (need KeyError (kMW r)) (fun mw =>
  andthen (get now) (fun i =>
  let ds_base := ds_base_of i d vol mw (kN r) in
  andthen (ds_all c d (kBrk r) ds_base tests (10 ^ 20, None)) (fun b =>
  andthen reset_values (fun _ =>
  need UnboundLocalError b)))))))).

(** ** model_uncertainty *)
Inductive key := Kk | Kxn | Kflrt | Kds | Kdp | Kkf | Kmass | Kc | Kqn.
(** The arguments; None is 'None'. *)
Record request := { r_capacity : option R; r_k : option R; r_qn : option R; r_mass : option R; r_ds : option R;
  r_dp : option R; r_kf : option R; r_flrt : option R; r_c0 : option R }.
Definition two (k : key) (v : option R) : list (list (key * R)) :=
  match v with None => [] | Some p => [[(k, 1 + p / 100)]; [(k, 1 - p / 100)]] end.
(** 1880-1895. *)
Definition tests_of (q : request) : list (list (key * R)) :=
  (match r_capacity q with
   | None => []
   | Some p => [[(Kk, 1 + p / 100); (Kxn, 1 - p / 100)]; [(Kk, 1 - p / 100); (Kxn, 1 + p / 100)]]
   end
   ++ two Kk (r_k q) ++ two Kqn (r_qn q) ++ two Kmass (r_mass q) ++ two Kds (r_ds q) ++ two Kdp (r_dp q)
   ++ two Kkf (r_kf q) ++ two Kflrt (r_flrt q) ++ two Kc (r_c0 q))%list.

Definition k_scale (a b : R) (r : krow) : krow :=
  {| kK := kK r * a; kN := kN r * b; kQ := kQ r; kBrk := kBrk r; kAve := kAve r; kVol := kVol r; kMW := kMW r |}.
(** 1904-1945: one key of a case, on the column's attributes and k_data_loop. *)
Definition apply_key (kv : key * R) (w : inp * frame krow) : inp * frame krow :=
  let '(k, v) := kv in let '(i, kl) := w in
  let mts := fun a b e => with_frames (i_kd i) (i_data i) (i_comps i) (i_num i)
     (col_map (fun m => {| m_kf := m_kf m * a; m_dp := m_dp m * b; m_ds := m_ds m * e |}) (i_mt i)) i in
  match k with
  | Kk => (i, col_map (k_scale v 1) kl)
  | Kxn => (i, col_map (k_scale 1 v) kl)
  | Kflrt => (with_geo (i_L i) (i_wt i) (i_flrt i * v) i, kl)
  | Kds => (mts 1 1 v, kl)
  | Kdp => (mts 1 v 1, kl)
  | Kkf => (mts v 1 1, kl)
  | Kmass =>
      let w := i_wt i * v in
      let volume := PI / 4 * i_diam i ^ 2 * i_L i in
      let l := if rltb (i_rhof i) (w / volume) then w / (PI / 4 * i_diam i ^ 2 * i_rhof i) else i_L i in
      (with_geo l w (i_flrt i) i, kl)
  | Kc => (with_frames
             (col_map (fun r => {| kK := kK r; kN := kN r; kQ := kQ r; kBrk := kBrk r; kAve := kAve r * v; kVol := kVol r; kMW := kMW r |}) (i_kd i))
             (col_map (fun d => {| d_inf := fun t => d_inf d t * v; d_eff := d_eff d |}) (i_data i))
             (i_comps i) (i_num i) (i_mt i) i, kl)
  | Kqn => (with_frames
             (col_map (fun r => {| kK := kK r; kN := ln (kQ r * v / kK r) / ln (kAve r * mass_mul); kQ := kQ r;
                                   kBrk := kBrk r; kAve := kAve r; kVol := kVol r; kMW := kMW r |}) (i_kd i))
             (i_data i) (i_comps i) (i_num i) (i_mt i) i, kl)
  end.

(** Row [j] of the result frames: linspace(0, duration, 2000). *)
Definition row_time (j : nat) : R := INR j * (duration / 1999).
Definition sampled (f : R -> R) : nat -> R := fun j => f (row_time j).

(** 1843-1861: the base case compound by compound; [cm] is calced_mass_transfer. *)
Fixpoint base_single (cs : list string) (cm : frame mtr) : method (frame mtr) :=
  match cs with
  | [] => ret cm
  | c :: r =>
      andthen (get bup) (fun b =>
      andthen (modify (fun x => set_now (with_frames (i_kd (now x)) (i_data (now x)) [c] 1 (i_mt (now x)) (now x)) x)) (fun _ =>
      andthen (pick c (i_data b)) (fun d =>
      andthen (modify (fun x => set_now (with_frames (i_kd (now x)) d [c] 1 (i_mt (now x)) (now x)) x)) (fun _ =>
      andthen (pick c (i_kd b)) (fun k =>
      andthen (modify (fun x => set_now (with_frames k d [c] 1 (i_mt (now x)) (now x)) x)) (fun _ =>
      andthen run_psdm (fun f =>
      andthen (modify (fun x => set_results (fput c (Some (sampled (f c))) (results x)) x)) (fun _ =>
      andthen (get (fun x => lookup c (mtd x))) (fun m0 =>
      andthen (need KeyError m0) (fun m =>
      base_single r (update c m cm)))))))))))
  end.
(** np.maximum / np.minimum against a stored column. *)
Definition widen (op : R -> R -> R) (o : option (nat -> R)) (f : nat -> R) : option (nat -> R) :=
  match o with None => None | Some g => Some (fun j => op (g j) (f j)) end.
(** 1961-1986: the runs of one case; [data] and [kl] are the case's frames. *)
Fixpoint case_single (cs : list string) (data : frame dcol) (kl : frame krow) : method unit :=
  match cs with
  | [] => ret tt
  | c :: r =>
      andthen (pick c data) (fun d =>
      andthen (modify (fun x => set_now (with_frames (i_kd (now x)) d [c] 1 (i_mt (now x)) (now x)) x)) (fun _ =>
      andthen (pick c kl) (fun k =>
      andthen (modify (fun x => set_now (with_frames k d [c] 1 (i_mt (now x)) (now x)) x)) (fun _ =>
      andthen run_psdm (fun f =>
      andthen (modify (fun x => set_bands (fput c (widen Rmax (upper x c) (sampled (f c))) (upper x))
                                          (fput c (widen Rmin (lower x c) (sampled (f c))) (lower x)) x)) (fun _ =>
      case_single r data kl))))))
  end.
(** 1994-2003.  [chained]: whether the chained assignments of 2002-2003 reach the stored
    frame, which depends on the pandas version. *)
Variable chained : bool.
Fixpoint case_multi (cs : list string) (f : string -> R -> R) : method unit :=
  match cs with
  | [] => ret tt
  | c :: r =>
      andthen (modify (fun x => set_results (fput c (Some (sampled (f c))) (results x)) x)) (fun _ =>
      andthen (modify (fun x => if chained
                                then set_bands (fput c (widen Rmax (upper x c) (sampled (f c))) (upper x))
                                               (fput c (widen Rmin (lower x c) (sampled (f c))) (lower x)) x
                                else x)) (fun _ =>
      case_multi r f))
  end.
(** 1898-2003. *)
Definition one_case (single : bool) (cm : frame mtr) (test : list (key * R)) : method unit :=
  andthen reset_values (fun _ =>
  andthen (modify (fun x => set_now (with_frames (i_kd (now x)) (i_data (now x)) (i_comps (now x)) (i_num (now x)) cm (now x)) x)) (fun _ =>
  andthen (get now) (fun i =>
  let '(i', kl) := fold_left (fun w kv => apply_key kv w) test (i, i_kd i) in
  andthen (modify (fun x => set_der (derive i') (set_now i' x))) (fun _ =>
  andthen (get bup) (fun b =>
  if single then case_single (i_comps b) (i_data i') kl
  else andthen (modify (fun x => set_now (with_frames kl (i_data (now x)) (i_comps (now x)) (i_num (now x)) (i_mt (now x)) (now x)) x)) (fun _ =>
       andthen run_psdm (fun f => case_multi (i_comps i') f))))))).
Fixpoint all_cases (single : bool) (cm : frame mtr) (ts : list (list (key * R))) : method unit :=
  match ts with [] => ret tt | t :: r => andthen (one_case single cm t) (fun _ => all_cases single cm r) end.
Fixpoint store_all (cs : list string) (f : string -> R -> R) : method unit :=
  match cs with
  | [] => ret tt
  | c :: r => andthen (modify (fun x => set_results (fput c (Some (sampled (f c))) (results x)) x)) (fun _ => store_all r f)
  end.
(** 1828-2009. *)
Definition model_uncertainty (single : bool) (q : request) : method unit :=
  andthen set_backups (fun _ =>
  andthen (modify (set_results (fun _ => None))) (fun _ =>
  andthen (get bup) (fun b =>
  andthen (if single then base_single (i_comps b) (i_mt b)
           else andthen run_psdm (fun f => andthen (store_all (i_comps b) f) (fun _ => get mtd))) (fun cm =>
  andthen (modify (fun x => set_bands (fun c => if existsb (String.eqb c) (i_comps b) then results x c else None)
                                      (fun c => if existsb (String.eqb c) (i_comps b) then results x c else None) x)) (fun _ =>
  andthen (all_cases single cm (tests_of q)) (fun _ =>
  reset_values)))))).
End State.
