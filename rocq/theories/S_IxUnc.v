(** Specification vocabulary for uncertainty bands. *)
From Coq Require Import Reals List Arith.
From Verif Require Import M_IxColumn M_IxUnc.
Import ListNotations.
Open Scope R_scope.

Definition largest (x : R) (l : list R) : Prop := In x l /\ forall y, In y l -> y <= x.
Definition smallest (x : R) (l : list R) : Prop := In x l /\ forall y, In y l -> x <= y.

(** Value of ion [i] at reporting time [t]. *)
Definition entry (i t : nat) (df : list (list R)) : R := nth t (nth i df []) 0.

(** A column that differs in one quantity only. *)
Definition with_EBED (x : R) (c : column) : column :=
  {| NION := NION c; nr := nr c; nz := nz c; EBED := x; EPOR := EPOR c; Lbed := Lbed c; vel := vel c;
     rb := rb c; Qcap := Qcap c; kL := kL c; Ds := Ds c; Dp := Dp c; Kxc := Kxc c; val := val c |}.
Definition with_length (x : R) (c : column) : column :=
  {| NION := NION c; nr := nr c; nz := nz c; EBED := EBED c; EPOR := EPOR c; Lbed := x; vel := vel c;
     rb := rb c; Qcap := Qcap c; kL := kL c; Ds := Ds c; Dp := Dp c; Kxc := Kxc c; val := val c |}.
Definition with_velocity (x : R) (c : column) : column :=
  {| NION := NION c; nr := nr c; nz := nz c; EBED := EBED c; EPOR := EPOR c; Lbed := Lbed c; vel := x;
     rb := rb c; Qcap := Qcap c; kL := kL c; Ds := Ds c; Dp := Dp c; Kxc := Kxc c; val := val c |}.
Definition with_capacity (x : R) (c : column) : column :=
  {| NION := NION c; nr := nr c; nz := nz c; EBED := EBED c; EPOR := EPOR c; Lbed := Lbed c; vel := vel c;
     rb := rb c; Qcap := x; kL := kL c; Ds := Ds c; Dp := Dp c; Kxc := Kxc c; val := val c |}.
Definition with_selectivity (K : nat -> R) (c : column) : column :=
  {| NION := NION c; nr := nr c; nz := nz c; EBED := EBED c; EPOR := EPOR c; Lbed := Lbed c; vel := vel c;
     rb := rb c; Qcap := Qcap c; kL := kL c; Ds := Ds c; Dp := Dp c; Kxc := K; val := val c |}.

(** The same simulation but for the column. *)
Definition same_schedule (r r' : run) : Prop :=
  r_secs r' = r_secs r /\ r_cin r' = r_cin r /\ r_report r' = r_report r.

(** The integrator returns one history per ion, with one value per reporting time. *)
Definition reports (integrate : run -> list (list R)) : Prop := forall r,
  length (integrate r) = NION (r_col r) /\
  forall ts, r_report r = Some ts -> forall i, (i < NION (r_col r))%nat ->
    length (nth i (integrate r) []) = length ts.

(** Length of the influent table in hours, when it is in hours or days. *)
Definition duration_hours (times : list R) (time_mult : R) : R :=
  last times 0 * (if Req_EM_T time_mult 3600 then 1 else 24).
