(** Model of fitting the equilibrium column model: PSDM/psdm/ecm.py 174-215 (fit_ecm) and
    217-259 (fit_ecm2).

    scipy's minimize is modelled by what it does to the object: it calls the objective at
    some trial points, in an order and number of its own, and returns one point.  A trial
    point is the array of the K followed by the 1/n. *)
From Coq Require Import Reals List Arith Bool String.
From Verif Require Import Lib_Py Lib_Pow M_GacFun M_GacSmart M_GacCapacity M_IxUnc M_Ecm Lib_Sum.
Import ListNotations.
Open Scope R_scope.
Local Notation length := List.length.

Definition point := nat -> R.
(** 193-197 and 237-241: K, 1/n and n of the object are overwritten *)
Definition with_point (e : ecm_in) (a : point) : ecm_in :=
  {| e_n := e_n e; e_K := fun i => a i * 1; e_xni := fun i => a (e_n e + i)%nat * 1; e_xn := fun i => 1 / a (e_n e + i)%nat;
     e_C0 := e_C0 e; e_Co := e_Co e; e_MW := e_MW e; e_vf := e_vf e; e_rhob := e_rhob e; e_eps := e_eps e; e_L := e_L e |}.
Section Fit.
(** the root finders of run_ecm *)
Variable root0 : ecm_in -> nat -> R.
Variable root : ecm_in -> nat -> est -> nat -> R.
Definition days (e : ecm_in) (i : nat) : R := days_to_breakthrough e (root0 e) (root e) i.
(** 203 and 106: diag(cratio) *)
Definition peak (e : ecm_in) (i : nat) : R := let st := run_ecm e (root0 e) (root e) in cs st i i / cs st 0%nat i.
(** 199-208 *)
Definition score (brk_days peak_conc : nat -> R) (brk_weight : R) (e : ecm_in) (a : point) : R :=
  let e' := with_point e a in
  let error1 := rsum (e_n e) (fun i => (days e' i - brk_days i) ^ 2) * brk_weight in
  let error2 := rsum (e_n e) (fun i => (peak e' i - peak_conc i) ^ 2) in
  error1 * error2 * 100000.
(** The object after the trials. *)
Definition after (trials : list point) (e : ecm_in) : ecm_in := fold_left with_point trials e.
(** 247-253: the records to fit: the largest time of each and its value at a time, which may
    raise *)
Record record := { r_last : R; r_at : R -> res R }.
Fixpoint add_errors (curve : string -> option (R -> R)) (xdata : list R) (recs : list (string * record)) : res R :=
  match recs with
  | [] => Ok 0
  | (c, r) :: more =>
      do f <- of_option KeyError (curve c);
      do raw <- mapM (r_at r) xdata;
      do rest <- add_errors curve xdata more;
      Ok (fold_right Rplus 0 (map (fun p => (f (fst p) - snd p) ^ 2) (combine xdata raw)) + rest)
  end.
(** plot_obj of the columns [names] *)
Definition curves (names : list string) (e : ecm_in) (c : string) : option (R -> R) :=
  match index_of c names with Some j => Some (plot_obj e (root0 e) (root e) j) | None => None end.
Definition score2 (names : list string) (recs : list (string * record)) (e : ecm_in) (a : point) : res R :=
  match recs with
  | [] => Err IndexError
  | (_, r0) :: _ => add_errors (curves names (with_point e a)) (arange (r_last r0)) recs
  end.
End Fit.
