(** Specification of ion sheets in which an ion may be listed in several rows. *)
From Coq Require Import Reals List Arith.
From Verif Require Import Lib_Sum M_IxColumn M_IxBatch.
Import ListNotations.
Open Scope R_scope.

(** The total of the rows that list ion [i]; row [j] lists ion [g j]. *)
Definition total (rows : nat) (g : nat -> nat) (f : nat -> R) (i : nat) : R :=
  rsum rows (fun j => if Nat.eqb (g j) i then f j else 0).
(** Every row lists an ion, every ion has a row, the presaturant has the first row and no other. *)
Definition listing (rows ions : nat) (g : nat -> nat) : Prop :=
  (forall j, (j < rows)%nat -> (g j < ions)%nat /\ (g j = 0%nat <-> j = 0%nat)) /\
  (forall i, (i < ions)%nat -> exists j, (j < rows)%nat /\ g j = i).

(** [c'] is the column [c] with the rows of [g] as its ion sheet. *)
Record split_rows (g : nat -> nat) (c c' : column) : Prop := {
  sr_listing : listing (NION c') (NION c) g;
  sr_nr : nr c' = nr c; sr_nz : nz c' = nz c; sr_bed : EBED c' = EBED c; sr_por : EPOR c' = EPOR c;
  sr_L : Lbed c' = Lbed c; sr_v : vel c' = vel c; sr_rb : rb c' = rb c; sr_Q : Qcap c' = Qcap c;
  sr_rows : forall j, (j < NION c')%nat ->
    kL c' j = kL c (g j) /\ Ds c' j = Ds c (g j) /\ Dp c' j = Dp c (g j) /\ Kxc c' j = Kxc c (g j) /\ val c' j = val c (g j) }.
(** The same for batches; the initial water of the rows adds up to that of the ions. *)
Record split_batch (g : nat -> nat) (b b' : batch) : Prop := {
  sp_listing : listing (b_NION b') (b_NION b) g;
  sp_nr : b_nr b' = b_nr b; sp_Qm : b_Qm b' = b_Qm b; sp_rho : b_RHOP b' = b_RHOP b; sp_por : b_EPOR b' = b_EPOR b;
  sp_VR : b_VR b' = b_VR b; sp_VL : b_VL b' = b_VL b; sp_Ds : b_Ds b' = b_Ds b; sp_Dp : b_Dp b' = b_Dp b;
  sp_kL : b_kL b' = b_kL b; sp_rb : b_rb b' = b_rb b;
  sp_C0 : forall i, (i < b_NION b)%nat -> b_C0 b i = total (b_NION b') g (b_C0 b') i;
  sp_rows : forall j, (j < b_NION b')%nat -> b_K b' j = b_K b (g j) /\ b_val b' j = b_val b (g j) }.
