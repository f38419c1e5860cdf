(** What the programs make of the integrator's answer. *)
From Coq Require Import Reals List.
From Verif Require Import Lib_Py M_GacFun M_GacColumn.
Import ListNotations.
Open Scope R_scope.

(** scipy's OdeResult, as far as the programs can look at it: whether the end of the interval
    was reached, and the points (times in the integrator's unit, with the states there). *)
Record outcome (S : Type) := { o_success : bool; o_points : list (R * S) }.
Arguments o_success {S}. Arguments o_points {S}.

(** hsdmix.py 551-573, psdmix.py 367-389: times back in seconds, the states as they are; the
    checks of totals and signs only print.  [o_success] is not looked at. *)
Definition column_answer {S} (t_half : R) (o : outcome S) : list (R * S) := map (fun p => (fst p * t_half, snd p)) (o_points o).
(** hsdmixbatch.py 305-317, psdmixbatch.py 319-331 *)
Definition batch_answer {S} (o : outcome S) : list (R * S) := o_points o.
(** PAC.py 892-897: minutes, concentrations [C0] times the relative ones *)
Definition pac_answer (C0 : R) (o : outcome R) : list (R * R) := map (fun p => (fst p / 60, C0 * snd p)) (o_points o).
(** PSDM.py 1631-1652: for compound [i] the interpolating function through the points, times in
    the unit of the data ([t_mult] minutes); o holds the liquid at the last depth *)
Definition gac_points (g : gac_in) (t_mult : R) (i : nat) (o : outcome (nat -> R)) : list (R * R) :=
  map (fun p => (fst p / tconv g / t_mult, reported g i (snd p i))) (o_points o).
Definition gac_answer (g : gac_in) (t_mult : R) (i : nat) (o : outcome (nat -> R)) : R -> R := interp_x (gac_points g t_mult i o).
