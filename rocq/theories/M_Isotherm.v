(** Model of fitting an isotherm to batch data: PSDM/psdm/PSDM_tools.py 321-501
    (isotherm_fit).

    scipy's curve_fit is a parameter that returns the parameters and the diagonal of their
    covariance, or raises; so is the quantile of Student's t.  Drawing is not modelled, but
    what is drawn is: the title's numbers, the curve and the bands. *)
From Coq Require Import Reals List Arith Bool String ZArith.
From Verif Require Import Lib_Py Lib_Pow M_GacFun M_GacMin M_Extra M_IxUnc.
Import ListNotations.
Open Scope R_scope.
Open Scope string_scope.
Local Notation length := List.length.

(** The user's frame: columns C0, Ce, mass and perhaps q; NaN is [None]. *)
Record idata := { d_C0 : list num; d_Ce : list num; d_mass : list num; d_q : option (list num) }.
(** 342-384 *)
Definition langmuir (p : list R) (c : R) : R := nth 0 p 0 * c * nth 1 p 0 / (1 + nth 0 p 0 * c).
Definition freundlich (p : list R) (c : R) : R := nth 0 p 0 * rpow c (nth 1 p 0).
Definition redlich_peterson (p : list R) (c : R) : R := nth 0 p 0 * c / (nth 1 p 0 + rpow c (nth 2 p 0)).
(** 390: (C0 - Ce) / mass, row by row *)
Fixpoint loading (c0 ce m : list num) : list num :=
  match c0, ce, m with a :: r, b :: s, c :: t => divN (map2 Rminus a b) c :: loading r s t | _, _, _ => [] end.
(** 389-390: added to the caller's frame *)
Definition with_q (d : idata) : idata :=
  match d_q d with Some _ => d | None => {| d_C0 := d_C0 d; d_Ce := d_Ce d; d_mass := d_mass d; d_q := Some (loading (d_C0 d) (d_Ce d) (d_mass d)) |} end.
(** 394-398: rows with a loading; curve_fit refuses one without concentration *)
Definition points (d : idata) : res (list (R * R)) :=
  mapM (fun p => match p with (Some x, Some y) => Ok (x, y) | _ => Err ValueError end)
    (filter (fun p => match snd p with Some _ => true | None => false end) (combine (d_Ce d) (match d_q d with Some q => q | None => [] end))).
(** 400 *)
Definition grid (pts : list (R * R)) : list R := linspace (lmin (map fst pts)) (lmax (map fst pts)) 30.
(** One kind of isotherm: its names, its equation and the indices of the errors in the title. *)
Record kind := { k_names : list string; k_fun : list R -> R -> R; k_title : list nat }.
(** 408-459 *)
Definition kind_of (name : string) : option kind :=
  if String.eqb (lower name) "freundlich" then Some {| k_names := ["K"; "1/n"]; k_fun := freundlich; k_title := [0; 0]%nat |}
  else if String.eqb (lower name) "langmuir" then Some {| k_names := ["KL"; "qm"]; k_fun := langmuir; k_title := [0; 0]%nat |}
  else if String.eqb (lower name) "redlichpeterson" then Some {| k_names := ["A"; "B"; "M"]; k_fun := redlich_peterson; k_title := [0; 0; 2]%nat |}
  else None.
Record fitted := {
  f_table : list (string * (R * R));   (** the returned frame: name, parameter, error *)
  f_title : list (R * R);              (** parameter and error shown for it *)
  f_curve : list (R * (R * option (R * R))) }. (** concentration, fit, half widths of the two bands or NaN *)
Section Fit.
Variable curve_fit : (list R -> R -> R) -> nat -> list (R * R) -> res (list R * list R).
Variable t_quantile : R -> Z -> R.
Definition mean (l : list R) : R := lsum l / INR (length l).
(** 464-478: NaN without more points than parameters, or with a single concentration *)
Definition bands (f : R -> R) (m : nat) (pts : list (R * R)) (x : R) : option (R * R) :=
  let n := length pts in
  let dof := (Z.of_nat n - Z.of_nat m)%Z in
  let t := t_quantile (dec 975 3) dof in
  let s_err := sqrt (lsum (map (fun p => (snd p - f (fst p)) ^ 2) pts) / IZR dof) in
  let xm := mean (map fst pts) in
  let spread := lsum (map (fun p => (fst p - xm) ^ 2) pts) in
  let dev := (x - xm) ^ 2 / spread in
  if (Z.leb dof 0 || reqb spread 0)%bool then None
  else Some (t * s_err * sqrt (1 / INR n + dev), t * s_err * sqrt (1 + 1 / INR n + dev)).
(** 321-501: the answer and the caller's frame afterwards.  An unknown name leaves y_plot and
    tmp_data unassigned. *)
Definition isotherm_fit (name : string) (d : idata) : res fitted * idata :=
  let d' := with_q d in
  (do pts <- points d';
   match pts with
   | [] => Err ValueError
   | _ =>
     match kind_of name with
     | None => Err UnboundLocalError
     | Some k =>
       let n := length (k_names k) in
       do pv <- curve_fit (k_fun k) n pts;
       let par := fun i => nth i (fst pv) 0 in
       let err := fun i => sqrt (nth i (snd pv) 0) in
       Ok {| f_table := combine (k_names k) (map (fun i => (par i, err i)) (seq 0 n));
             f_title := map (fun i => (par i, err (nth i (k_title k) 0%nat))) (seq 0 n);
             f_curve := map (fun x => (x, (k_fun k (fst pv) x, bands (k_fun k (fst pv)) n pts x))) (grid pts) |}
     end
   end, d').
End Fit.
