(** Model of the grid fits: PSDM/psdm/PSDM.py 796-1012 (run_all), 2026-2153 (run_all_MP),
    1659-1762 (run_psdm_kfit) and 57-66 (run_MP_helper), without plots and files.

    The simulation and its sum of squares are the parameter [sim] as in M_GacSmart.
    Assignments such as self.k_data[compound]['K'] = v are taken to change self.k_data,
    which is what the code intends and what pandas does without copy-on-write. *)
From Coq Require Import Reals List Arith Bool String ZArith.
From Verif Require Import Lib_Py M_GacFun M_GacMin M_GacSmart.
Import ListNotations.
Open Scope R_scope.
Local Notation length := List.length.

(** A simulation that was run. *)
Record fpoint := { f_comp : string; f_K : R; f_N : R; f_err : R }.
(** self.k_data, self.k_data_bup, the simulations run, and the scratch arrays xn_rng_tmp
    and k_rng_tmp, which live across compounds. *)
Record fstate := { ft : ktab; fb : ktab; flog : list fpoint; xtmp : R * R; ktmp : R * R }.
Definition set_ft (t : ktab) (s : fstate) : fstate :=
  {| ft := t; fb := fb s; flog := flog s; xtmp := xtmp s; ktmp := ktmp s |}.
Definition set_tmp (x k : R * R) (s : fstate) : fstate :=
  {| ft := ft s; fb := fb s; flog := flog s; xtmp := x; ktmp := k |}.

Section Fit.
Variable sim : string -> R -> R -> option R.
(** self.k_data_input_type == list: no isotherm table was given at construction. *)
Variable no_table : bool.
(** self.xn *)
Variable self_xn : R.

(** 1659-1762, run_psdm_kfit with optimize_flag False, as both callers set it: the
    returned 1/n and sum of squares.  With no table and single-point ranges the returned
    1/n is the initial 1 (1665). *)
Definition kfit (c : string) (test_range xn_range : list R) (s : fstate) : res (R * R * fstate) :=
  let single := (no_table && Nat.eqb (length test_range) 1 && Nat.eqb (length xn_range) 1)%bool in
  let K := if single then hd 0 test_range else eK (ft s c) in
  let N := if single then hd 0 xn_range else eN (ft s c) in
  match sim c K N with
  | None => Err ValueError
  | Some v =>
      Ok (if single then 1 else N, v,
          {| ft := fb s; fb := fb s;
             flog := {| f_comp := c; f_K := K; f_N := N; f_err := v |} :: flog s;
             xtmp := xtmp s; ktmp := ktmp s |})
  end.

(** 886-897: every pair of the grid.  [km] is k_mult. *)
Fixpoint eval_row (c : string) (km : R -> R) (k : R) (xs : list R) (s : fstate)
  : res (list (R * R * R) * fstate) :=
  match xs with
  | [] => Ok ([], s)
  | x :: r =>
      let s1 := set_ft (trial c (k * km x) x (ft s)) s in
      do w <- kfit c [k * km x] [x] s1;
      let '(xn_v, v, s2) := w in
      do w' <- eval_row c km k r s2;
      let '(l, s3) := w' in Ok ((k, xn_v, v) :: l, s3)
  end.
Fixpoint eval_grid (c : string) (km : R -> R) (ks xs : list R) (s : fstate)
  : res (list (R * R * R) * fstate) :=
  match ks with
  | [] => Ok ([], s)
  | k :: r =>
      do w <- eval_row c km k xs s;
      let '(l, s1) := w in
      do w' <- eval_grid c km r xs s1;
      let '(l', s2) := w' in Ok ((l ++ l')%list, s2)
  end.

(** 899-904: pandas.pivot_table with aggfunc max: sorted labels, greatest value of each
    cell. *)
Fixpoint uinsert (x : R) (l : list R) : list R :=
  match l with
  | [] => [x]
  | y :: r => if rltb x y then x :: l else if reqb x y then l else y :: uinsert x r
  end.
Fixpoint usort (l : list R) : list R := match l with [] => [] | x :: r => uinsert x (usort r) end.
Definition pivot (rows : list (R * R * R)) : list R * list R * table :=
  let idx := usort (map (fun r => fst (fst r)) rows) in
  let cols := usort (map (fun r => snd (fst r)) rows) in
  (idx, cols, fun i j =>
     lmax (map snd (filter (fun r => (reqb (fst (fst r)) (nth i idx 0) && reqb (snd (fst r)) (nth j cols 0))%bool) rows))).
Definition find_min (p : list R * list R * table) : res (R * R * R) :=
  let '(idx, cols, t) := p in
  find_minimum_df (length idx) (length cols) (fun i => nth i idx 0) (fun j => nth j cols 0) t.

(** list.index *)
Fixpoint rindex (v : R) (l : list R) : res nat :=
  match l with
  | [] => Err ValueError
  | x :: r => if reqb x v then Ok 0%nat else do i <- rindex v r; Ok (S i)
  end.

(** 907-957: the next search interval and number of points along one axis. *)
Definition refine (des : R) (range : list R) (idx num : nat) : R * R * nat :=
  let n := length range in
  let r := fun i => nth i range 0 in
  let tmp := if Nat.eqb idx 0 then (r 0%nat, r 1%nat)
             else if Nat.eqb idx (n - 1) then (r (n - 2)%nat, r (n - 1)%nat)
             else (r (idx - 1)%nat, r (idx + 1)%nat) in
  if rltb (r 1%nat - r 0%nat) des then
    if Nat.eqb idx (n - 1) then ((snd tmp - des, snd tmp), 2%nat)
    else if Nat.eqb idx 0 then ((fst tmp, fst tmp + des), 2%nat)
    else (tmp, 3%nat)
  else (tmp, num).

(** 859-882: the grid of one round; [staged] is optimize == 'staged'. *)
Definition des_xn : R := dec 25 3.
Definition des_k : R := dec 1 1.
Definition floor (x : R) : Z := Int_part x.
Definition round_grid (staged : bool) (loop init_loop : nat) (orig_x orig_k : list R)
  (x1 k1 : list R) (nx nk : nat) (s : fstate) : res (list R * list R) :=
  if staged then
    if Nat.eqb loop init_loop then
      let xlo := floor (fst (xtmp s) / des_xn) in
      let xhi := ceil (snd (xtmp s) / des_xn) in
      let nx := Z.to_nat (Z.abs (xhi - xlo) + 1) in
      let over := rltb (last orig_x 0) (IZR xhi * des_xn) in
      let x1 := [IZR xlo * des_xn; if over then last orig_x 0 else IZR xhi * des_xn] in
      let nx := if over then (nx - 1)%nat else nx in
      let klo := floor (fst (ktmp s) / des_k) in
      let khi := ceil (snd (ktmp s) / des_k) in
      let nk := Z.to_nat (Z.abs (khi - klo) + 1) in
      generate_grid nx nk loop x1 [IZR klo * des_k; IZR khi * des_k]
    else generate_grid nx nk loop x1 k1
  else Ok (orig_x, orig_k).

(** 854-959: the rounds.  Returns the best labels of the last one. *)
Fixpoint rounds (more : nat) (staged : bool) (init_loop : nat) (orig_x orig_k : list R) (c : string)
  (km : R -> R) (x1 k1 : list R) (nx nk : nat) (s : fstate) : res (R * R * fstate) :=
  let loop := (init_loop - more)%nat in
  do g <- round_grid staged loop init_loop orig_x orig_k x1 k1 nx nk s;
  let '(xs, ks) := g in
  do w <- eval_grid c km ks xs s;
  let '(rows, s1) := w in
  do m <- find_min (pivot rows);
  let '(min_k, min_xn, _) := m in
  if (Nat.leb (length xs) 1 || Nat.leb (length ks) 1)%bool then Err IndexError else
  do ix <- rindex min_xn xs;
  do ik <- rindex min_k ks;
  let '(xt, nx) := refine des_xn xs ix nx in
  let '(kt, nk) := refine des_k ks ik nk in
  let s2 := set_tmp xt kt s1 in
  match more with
  | O => Ok (min_k, min_xn, s2)
  | S more => rounds more staged init_loop orig_x orig_k c km [fst xt; snd xt] [fst kt; snd kt] nx nk s2
  end.

(** 840-1008: one compound.  961-965 look the minimum of the last table up again. *)
Definition fit_one (staged : bool) (init_grid init_loop : nat) (orig_x orig_k : list R) (c : string)
  (s : fstate) : res fstate :=
  let e := ft s c in
  let km := fun x => recalc_k (eK e) (eQ e) self_xn x in
  let n := if staged then init_loop else 0%nat in
  do w <- rounds n staged n orig_x orig_k c km orig_x orig_k init_grid init_grid s;
  let '(min_k, min_xn, s1) := w in
  Ok (set_ft (trial c (min_k * km min_xn) min_xn (ft s1)) s1).
(** 824-1012: run_all. *)
Fixpoint run_all (staged : bool) (init_grid init_loop : nat) (orig_x orig_k : list R) (cs : list string)
  (s : fstate) : res fstate :=
  match cs with
  | [] => Ok s
  | c :: r => do s1 <- fit_one staged init_grid init_loop orig_x orig_k c s;
              run_all staged init_grid init_loop orig_x orig_k r s1
  end.

(** 57-66: every pair is simulated on its own copy of the column; a failure counts
    1e9. *)
Definition mp_error (c : string) (k x : R) (s : fstate) : R :=
  match kfit c [k] [x] s with Ok (_, v, _) => v | Err _ => IZR (10 ^ 9) end.
(** numpy.isclose with its default tolerances. *)
Definition isclose (a b : R) : bool := rleb (Rabs (a - b)) (dec 1 8 + dec 1 5 * Rabs b).
(** 2066-2149: one compound of run_all_MP.  The runs on copies leave no trace here. *)
Definition mp_one (xs ks : list R) (c : string) (s : fstate) : res fstate :=
  let e := ft s c in
  let km := fun x => recalc_k (eK e) (eQ e) self_xn x in
  let rows := flat_map (fun k => map (fun x => (k, x, mp_error c (k * km x) x s)) xs) ks in
  let vals := map snd rows in
  match vals with
  | [] => Err ValueError
  | _ =>
    if isclose (lmin vals) (lmax vals) then Ok s else
    do m <- find_min (pivot rows);
    let '(min_k, min_xn, _) := m in
    let best := min_k * km min_xn in
    do w <- kfit c [best] [min_xn] s;
    let '(_, _, s1) := w in
    Ok (set_ft (trial c best min_xn (ft s1)) s1)
  end.
Fixpoint run_all_MP (xs ks : list R) (cs : list string) (s : fstate) : res fstate :=
  match cs with
  | [] => Ok s
  | c :: r => do s1 <- mp_one xs ks c s; run_all_MP xs ks r s1
  end.
End Fit.
