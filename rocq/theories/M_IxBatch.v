(** Model of the ion-exchange batch reactors.
    Sources: IonExchangeModel/ixpy/hsdmixbatch.py:113-318 and psdmixbatch.py:112-332.
    The state is u[phase, ion]: phase 0 the liquid, 1..nr the radial points.
    [None] is a derivative with a NaN in it (division by zero in the equilibrium).
    The ODE solver is not modelled. *)
From Coq Require Import Reals List Arith Bool.
From Verif Require Import Lib_Py Lib_Sum M_Colloc M_IxEq.
Import ListNotations.
Open Scope R_scope.

Definition bstate := nat -> nat -> R.

(** hsdmixbatch.py:124-138, 161-175; psdmixbatch.py:123-138, 161-175. *)
Record batch := {
  b_NION : nat; b_nr : nat; b_Qm : R; b_RHOP : R; b_EPOR : R; b_VR : R; b_VL : R;
  b_Ds : R; b_Dp : R; b_kL : R; b_rb : R;
  b_C0 : nat -> R; b_K : nat -> R; b_val : nat -> nat }.

(** hsdmixbatch.py:148-149; psdmixbatch.py:148-149. *)
Definition b_Q (b : batch) : R := b_RHOP b * b_Qm b.
Definition b_CT (b : batch) : R := rsum (b_NION b) (b_C0 b).

(** hsdmixbatch.py:187; psdmixbatch.py:187 — radial operators. *)
Record radial := { rBr : matrix; rWr : nat -> R }.
Definition build_radial (legendre : nat -> nat -> R) (jacobi : nat -> R -> R -> nat -> R) (nr : nat)
  : radial :=
  let k := build_collocation legendre jacobi nr 3 in {| rBr := k_Br k; rWr := k_Wr k |}.

(** hsdmixbatch.py:163-164 — number of divalent ions. *)
Definition ndv (b : batch) : nat := length (filter (dv_idx (b_val b)) (seq 0 (b_NION b))).

(** hsdmixbatch.py:200-204, 232-236; psdmixbatch.py the same lines — [u0] is a view
    of [u], so the later assignments reach it; the presaturant's comes last. *)
Definition batch_initial (b : batch) : bstate := fun r i =>
  match r with
  | O => b_C0 b i
  | S _ =>
      if has_divalent (b_NION b) (b_val b) then
        if Nat.eqb i 0 then b_Q b - INR (ndv b) * b_Q b / 1000
        else if dv_idx (b_val b) i then b_Q b / 1000 else 0
      else if Nat.eqb i 0 then b_Q b else 0
  end.

Section BatchRhs.
Variables (b : batch) (op : radial) (u : bstate).

(** hsdmixbatch.py:261, 268, 283-284; psdmixbatch.py:270, 279, 299-300 — the
    derivative from the surface equilibrium [Ceq] and the diffusion rates [dq]. *)
Definition batch_assemble (Ceq : nat -> R) (dq : nat -> nat -> R) : bstate := fun r i =>
  let J i := - b_kL b * (u 0%nat i - Ceq i) in
  let a := 3 * b_VR b / b_rb b in
  match r with
  | O => a * J i / b_VL b
  | S k => if Nat.eqb k (b_nr b - 1)
           then (- J i / b_rb b - rsum (b_nr b - 1) (fun m => rWr op m * dq m i)) / rWr op (b_nr b - 1)
           else dq k i
  end.

(** hsdmixbatch.py:247-288 — [diffun]. *)
Definition diffun_hsdm_batch : option bstate :=
  match calc_Ceq_batch (b_NION b) (b_K b) (b_val b) (u (b_nr b)) (b_CT b) with
  | None => None
  | Some Ceq =>
      Some (batch_assemble Ceq (fun r i => b_Ds b / b_rb b ^ 2 *
              rsum (b_nr b) (fun m => rBr op r m * u (S m) i)))
  end.

(** psdmixbatch.py:262-263 — pore liquid in equilibrium at the first [n] radii. *)
Fixpoint pore_liquid (n : nat) : option (nat -> nat -> R) :=
  match n with
  | O => Some (fun _ _ => 0)
  | S m =>
      match pore_liquid m,
            calc_Ceq_batch (b_NION b) (b_K b) (b_val b) (fun i => u (S m) i / (1 - b_EPOR b)) (b_CT b) with
      | Some P, Some C => Some (fun r => if Nat.eqb r m then C else P r)
      | _, _ => None
      end
  end.

(** psdmixbatch.py:247-302 — [diffun]. *)
Definition diffun_psdm_batch : option bstate :=
  match pore_liquid (b_nr b),
        calc_Ceq_batch (b_NION b) (b_K b) (b_val b) (fun i => u (b_nr b) i / (1 - b_EPOR b)) (b_CT b) with
  | Some P, Some Ceq =>
      Some (batch_assemble Ceq (fun r i =>
        (b_EPOR b * (b_Dp b - b_Ds b) * rsum (b_nr b) (fun m => rBr op r m * P m i)
         + b_Ds b * rsum (b_nr b) (fun m => rBr op r m * u (S m) i)) / b_rb b ^ 2))
  | _, _ => None
  end.
End BatchRhs.

(** The class used: PSDMIXbatch or HSDMIXbatch. *)
Definition batch_rhs (psdm : bool) (b : batch) (op : radial) (u : bstate) : option bstate :=
  if psdm then diffun_psdm_batch b op u else diffun_hsdm_batch b op u.
