(** Model of the web application's own copy of the granular-carbon package,
    Shiny-GAC/psdm/PSDM.py, where it departs from PSDM/psdm/PSDM.py.
    A line-by-line comparison of the two directories shows four departures: imports, the
    spelling of ptp and of copies ([* 1]); float() casts of values read from a workbook and
    the spelling of an assignment in PSDM_functions.py (101-153, 245, 249); two statements
    of run_all that the copy lacks (PSDM.py 891-892; below); and the divisor below. *)
From Coq Require Import Reals List Arith Bool String.
From Verif Require Import Lib_Py M_GacFun M_GacColumn M_GacMin M_GacSmart M_GacFit.
Import ListNotations.
Open Scope R_scope.
Local Notation length := List.length.

(** Shiny-GAC/psdm/PSDM.py 1421-1429: the surface diffusivity recorded in
    [mass_transfer_data] and used in the equations. *)
Definition web_ds (g : gac_in) (i : nat) : R :=
  let ds := if rltb 0 (x_ds g i) then x_ds g i else ds_corr g i in
  if x_organic_free g then ds else ds / 10 ^ 15.

(** Shiny-GAC/psdm/PSDM.py 1331-1600.  From line 1430 on, and in everything else, the two
    texts agree; so the copy's equations are the package's with [web_ds] as the diffusivity
    after scaling.  They are obtained here by giving the package the diffusivity that its
    own scaling takes there (Props_GacCopy: [web_ds_v]). *)
Definition web_in (g : gac_in) : gac_in :=
  {| x_n := x_n g; x_epor := x_epor g; x_rhop := x_rhop g; x_ebed := x_ebed g; x_tau := x_tau g;
     x_rad := x_rad g; x_tortu := x_tortu g; x_psdfr := x_psdfr g; x_vw := x_vw g; x_dw := x_dw g;
     x_re := x_re g; x_mass_mul := x_mass_mul g; x_organic_free := x_organic_free g;
     x_K := x_K g; x_xn := x_xn g; x_mw := x_mw g; x_molvol := x_molvol g;
     x_kf := x_kf g; x_dp := x_dp g;
     x_ds := if x_organic_free g then x_ds g else (fun i => web_ds g i * 10 ^ 10);
     x_inf0 := x_inf0 g |}.
Definition web_diffun (g : gac_in) := diffun (web_in g).

(** Shiny-GAC/psdm/PSDM.py 796-1010, run_all: as in M_GacFit, but the pair of the grid is not
    written to the isotherm table before the run (the package's 891-892). *)
Section WebFit.
Variable sim : string -> R -> R -> option R.
Variable no_table : bool.
Variable self_xn : R.
Fixpoint web_eval_row (c : string) (km : R -> R) (k : R) (xs : list R) (s : fstate) : res (list (R * R * R) * fstate) :=
  match xs with
  | [] => Ok ([], s)
  | x :: r =>
      do w <- kfit sim no_table c [k * km x] [x] s;
      let '(xn_v, v, s2) := w in
      do w' <- web_eval_row c km k r s2;
      let '(l, s3) := w' in Ok ((k, xn_v, v) :: l, s3)
  end.
Fixpoint web_eval_grid (c : string) (km : R -> R) (ks xs : list R) (s : fstate) : res (list (R * R * R) * fstate) :=
  match ks with
  | [] => Ok ([], s)
  | k :: r =>
      do w <- web_eval_row c km k xs s;
      let '(l, s1) := w in
      do w' <- web_eval_grid c km r xs s1;
      let '(l', s2) := w' in Ok ((l ++ l')%list, s2)
  end.
Fixpoint web_rounds (more : nat) (staged : bool) (init_loop : nat) (orig_x orig_k : list R) (c : string)
  (km : R -> R) (x1 k1 : list R) (nx nk : nat) (s : fstate) : res (R * R * fstate) :=
  let loop := (init_loop - more)%nat in
  do g <- round_grid staged loop init_loop orig_x orig_k x1 k1 nx nk s;
  let '(xs, ks) := g in
  do w <- web_eval_grid c km ks xs s;
  let '(rows, s1) := w in
  do m <- find_min (pivot rows);
  let '(min_k, min_xn, _) := m in
  if (Nat.leb (length xs) 1 || Nat.leb (length ks) 1)%bool then Err IndexError else
  do ix <- rindex min_xn xs;
  do ik <- rindex min_k ks;
  let '(xt, nx) := refine des_xn xs ix nx in
  let '(kt, nk) := refine des_k ks ik nk in
  let s2 := set_tmp xt kt s1 in
  match more with
  | O => Ok (min_k, min_xn, s2)
  | S more => web_rounds more staged init_loop orig_x orig_k c km [fst xt; snd xt] [fst kt; snd kt] nx nk s2
  end.
Definition web_fit_one (staged : bool) (init_grid init_loop : nat) (orig_x orig_k : list R) (c : string)
  (s : fstate) : res fstate :=
  let e := ft s c in
  let km := fun x => recalc_k (eK e) (eQ e) self_xn x in
  let n := if staged then init_loop else 0%nat in
  do w <- web_rounds n staged n orig_x orig_k c km orig_x orig_k init_grid init_grid s;
  let '(min_k, min_xn, s1) := w in
  Ok (set_ft (trial c (min_k * km min_xn) min_xn (ft s1)) s1).
End WebFit.
