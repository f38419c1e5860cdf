(** Specification of dose studies: what separate runs would show. *)
From Coq Require Import Reals List String Bool.
From Verif Require Import Lib_Py M_Tools M_Pac.
Import ListNotations.
Open Scope R_scope.

(** The concentrations of a table of results at given minutes, between two rows along the straight line,
    after the last row the last one (numpy.interp). *)
Definition at_times (t : table) (times : list R) : list (string * list R) :=
  map (fun c => (fst c, map (fun h => np_interp (combine (t_min t) (snd c)) h) times)) (t_cols t).
(** The minutes at which the concentrations of a table come down to a target; blank when none does. *)
Definition waits (t : table) (target : R) : list (string * option R) :=
  map (fun c => (fst c, if existsb (fun x => rleb x target) (snd c) then Some (np_interp (combine (rev (snd c)) (rev (t_min t))) target) else None)) (t_cols t).

(** A sheet with its concentrations in another unit, and one with the same number for all of them. *)
Definition in_unit (u : string) (l : list (string * comp)) : list (string * comp) :=
  map (fun nc => (fst nc, {| K := K (snd nc); xn := xn (snd nc); kf := kf (snd nc); Dp := Dp (snd nc); Ds := Ds (snd nc); C0 := C0 (snd nc); C0_units := u |})) l.
Definition all_at (c0 : R) (l : list (string * comp)) : list (string * comp) :=
  map (fun nc => (fst nc, {| K := K (snd nc); xn := xn (snd nc); kf := kf (snd nc); Dp := Dp (snd nc); Ds := Ds (snd nc); C0 := c0; C0_units := C0_units (snd nc) |})) l.

(** What a user may do with a contactor, and the contactor afterwards. *)
Inductive study :=
| ByDose (doses times : list R)
| Wait (target : R) (unit_ : string) (doses : list R) (conc_unit : string)
| WaitByConc (target : R) (unit_ : string) (doses concs : list R) (conc_unit : string).
Definition after_study (f : carbon) (solve : list eqn -> R -> list (R * list R)) (o : pac) (s : study) : pac :=
  match s with
  | ByDose doses times => fst (run_multi_doseR f solve o doses times)
  | Wait target u doses cu => fst (R_HRT_calculator f solve o target u doses cu)
  | WaitByConc target u doses concs cu => fst (HRT_calculator f solve o target u doses concs cu)
  end.
