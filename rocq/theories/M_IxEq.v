(** Model of the local ion-exchange equilibrium.
    Sources: IonExchangeModel/ixpy/hsdmix.py, psdmix.py, hsdmixbatch.py, psdmixbatch.py.
    A composition is a function of the ion index (row order of the ion sheet);
    ion 0 is the presaturant.  Simplifications: valences are natural numbers; real
    division by zero is not a NaN (the theorems exclude it or the model makes it
    visible, see [Ceq_dv_batch]). *)
From Coq Require Import Reals List Arith Bool.
From Verif Require Import Lib_Py Lib_Sum.
Import ListNotations.
Open Scope R_scope.

(** hsdmix.py:350-356, 449-452; psdmix.py:147-153, 246-249; hsdmixbatch.py:174-180,
    227-230 (the same lines in psdmixbatch.py) — separation factors and [calc_Ceq_mv]. *)
Definition alpha (K : nat -> R) (i j : nat) : R := K i / K j.
Definition Ceq_mv (NION : nat) (K q : nat -> R) (CT : R) (i : nat) : R :=
  q i * CT / rsum NION (fun j => alpha K i j * q j).

(** hsdmix.py:336-343; psdmix.py:133-140; hsdmixbatch.py:161-168 — the masks
    [dv_idx] and [mv_idx] (the presaturant is taken out of the latter). *)
Definition dv_idx (val : nat -> nat) (i : nat) : bool := Nat.eqb (val i) 2.
Definition mv_idx (val : nat -> nat) (i : nat) : bool :=
  (Nat.eqb (val i) 1 && negb (Nat.eqb i 0))%bool.
Definition masked_sum (NION : nat) (mask : nat -> bool) (f : nat -> R) : R :=
  rsum NION (fun i => if mask i then f i else 0).

(** hsdmix.py:433-435; psdmix.py:230-232; hsdmixbatch.py:215-217 — coefficients of
    the quadratic for the presaturant. *)
Definition eq_aa (NION : nat) (K : nat -> R) (val : nat -> nat) (q : nat -> R) : R :=
  masked_sum NION (dv_idx val) (fun i => q i / K i) / q 0%nat ^ 2.
Definition eq_bb (NION : nat) (K : nat -> R) (val : nat -> nat) (q : nat -> R) : R :=
  masked_sum NION (mv_idx val) (fun i => q i / K i) / q 0%nat + 1.

(** hsdmix.py:440-444; psdmix.py:237-241; hsdmixbatch.py:220-222 — mass action. *)
Definition mass_action (K : nat -> R) (val : nat -> nat) (q : nat -> R) (Cc : R) (i : nat) : R :=
  if Nat.eqb i 0 then Cc else q i / K i * (Cc / q 0%nat) ^ val i.

(** hsdmix.py:425-446; psdmix.py:222-243 — [calc_Ceq_dv] of the columns. *)
Definition Cc_column (NION : nat) (K : nat -> R) (val : nat -> nat) (q : nat -> R) (CT : R) : R :=
  let aa := eq_aa NION K val q in
  let bb := eq_bb NION K val q in
  let cc := - CT in
  2 * cc / (- bb - sqrt (bb ^ 2 - 4 * aa * cc)).
Definition Ceq_dv (NION : nat) (K : nat -> R) (val : nat -> nat) (q : nat -> R) (CT : R)
  : nat -> R :=
  mass_action K val q (Cc_column NION K val q CT).

(** hsdmixbatch.py:211-224; psdmixbatch.py:211-224 — [calc_Ceq_dv] of the batch
    reactors; [None] is the NaN of a division by zero. *)
Definition Ceq_dv_batch (NION : nat) (K : nat -> R) (val : nat -> nat) (q : nat -> R) (CT : R)
  : option (nat -> R) :=
  let aa := eq_aa NION K val q in
  let bb := eq_bb NION K val q in
  let cc := - CT in
  if reqb aa 0 then None
  else Some (mass_action K val q ((- bb + sqrt (bb ^ 2 - 4 * aa * cc)) / (2 * aa))).

(** hsdmix.py:454-460; psdmix.py:251-256; hsdmixbatch.py:232-239 — which one is used. *)
Definition has_divalent (NION : nat) (val : nat -> nat) : bool :=
  existsb (dv_idx val) (seq 0 NION).
Definition calc_Ceq (NION : nat) (K : nat -> R) (val : nat -> nat) (q : nat -> R) (CT : R)
  : nat -> R :=
  if has_divalent NION val then Ceq_dv NION K val q CT else Ceq_mv NION K q CT.
Definition calc_Ceq_batch (NION : nat) (K : nat -> R) (val : nat -> nat) (q : nat -> R) (CT : R)
  : option (nat -> R) :=
  if has_divalent NION val then Ceq_dv_batch NION K val q CT
  else Some (Ceq_mv NION K q CT).
