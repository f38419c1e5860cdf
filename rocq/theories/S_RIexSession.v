(** What a user of the ion-exchange page expects of a parameter sheet, of a saved workbook and of
    the results shown. *)
From Coq Require Import Reals List String.
From Verif Require Import Lib_Py M_IxColumn M_RIexApp M_RIexSession.
Import ListNotations.
Open Scope R_scope.
Open Scope string_scope.

(** A parameter sheet asks for this. *)
Inductive flow_asked := AtVelocity (v : R) (u : string) | AtRate (f : R) (u : string) (diam : R) (du : string).
Record asked := { a_Q : R; a_EBED : R; a_EPOR : option R; a_L : R; a_Lu : string; a_rb : R; a_rbu : string; a_flow : flow_asked; a_nr : nat; a_nz : nat; a_time : string }.
Definition says (s : params) (a : asked) : Prop :=
  (exists u, lookup "Q" s = Some (PNum (a_Q a), u)) /\ (exists u, lookup "EBED" s = Some (PNum (a_EBED a), u)) /\
  match a_EPOR a with Some p => exists u, lookup "EPOR" s = Some (PNum p, u) | None => lookup "EPOR" s = None end /\
  lookup "L" s = Some (PNum (a_L a), PText (a_Lu a)) /\ lookup "rb" s = Some (PNum (a_rb a), PText (a_rbu a)) /\
  match a_flow a with
  | AtVelocity v u => lookup "v" s = Some (PNum v, PText u)
  | AtRate f u d du => lookup "v" s = None /\ lookup "flrt" s = Some (PNum f, PText u) /\ lookup "diam" s = Some (PNum d, PText du)
  end /\
  (exists u, lookup "nr" s = Some (PWhole (a_nr a), u)) /\ (exists u, lookup "nz" s = Some (PWhole (a_nz a), u)) /\
  exists v, lookup "time" s = Some (v, PText (a_time a)).
(** cm/s *)
Definition velocity_asked (f : flow_asked) (v : R) : Prop :=
  match f with
  | AtVelocity x u => exists k, lookup u velocity_conv = Some k /\ v = x * k
  | AtRate q u d du => exists k kd, lookup u volumetric_conv = Some k /\ lookup du length_conv = Some kd /\ v = q * k / (PI * (d * kd / 2) ^ 2)
  end.
(** Lengths, velocity, collocation points and time unit of what the solver is given. *)
Definition geometry_asked (a : asked) (x : solver_input) : Prop :=
  (exists k, lookup (a_Lu a) length_conv = Some k /\ Lbed (s_column x) = a_L a * k) /\ velocity_asked (a_flow a) (vel (s_column x)) /\
  nr (s_column x) = a_nr a /\ nz (s_column x) = a_nz a /\ lookup (a_time a) time_conv = Some (s_time x).
(** [y] is [x] up to the relative error [e]. *)
Definition near (e x y : R) : Prop := Rabs (y - x) <= e * Rabs x.
Definition resin_asked (e : R) (a : asked) (x : solver_input) : Prop :=
  near e (a_Q a) (Qcap (s_column x)) /\ near e (a_EBED a) (EBED (s_column x)) /\ (forall p, a_EPOR a = Some p -> near e p (EPOR (s_column x))) /\
  exists k, lookup (a_rbu a) length_conv = Some k /\ near e (a_rb a * k) (rb (s_column x)).

(** Two calls of the solver of the same kind of resin ([p]: macroporous) are the same run; the pellet porosity counts for
    macroporous resins. *)
Definition same_call (p : bool) (x y : res prepared) : Prop :=
  match x, y with
  | Ok (Solve a), Ok (Solve b) =>
      s_names a = s_names b /\ s_cin a = s_cin b /\ s_time a = s_time b /\
      (let c := s_column a in let d := s_column b in
       NION c = NION d /\ nr c = nr d /\ nz c = nz d /\ EBED c = EBED d /\ Lbed c = Lbed d /\ vel c = vel d /\ rb c = rb d /\ Qcap c = Qcap d /\
       kL c = kL d /\ Ds c = Ds d /\ Dp c = Dp d /\ Kxc c = Kxc d /\ val c = val d /\ (p = true -> EPOR c = EPOR d))
  | _, _ => x = y
  end.

(** ** Results *)
(** A run with the sheet [s] that succeeds, and its results for the ions [l] in mg/L. *)
Definition complete (s : ions_sheet) (l : list ion) : Prop := s = map (fun i => (i_name i, Some i)) l.
Definition shown_for (l : list ion) (o : list (list R)) : frame :=
  map (fun p => (i_name (fst p), map (fun v => v * (i_mw (fst p) / INR (i_valence (fst p)))) (snd p))) (combine l o).
