(** Model of the ion-exchange columns HSDMIX and PSDMIX.
    Sources: IonExchangeModel/ixpy/hsdmix.py:280-573 and psdmix.py:74-389.
    The state is the array u[phase, ion, axial]: phase 0 is the liquid, phases
    1..nr the radial points of the bead (nr is the surface).  The ODE solver
    (scipy's solve_ivp) is not modelled: theorems speak of the right-hand side
    and of every exact trajectory.  NaN checks (psdmix.py:342-344) are outside
    the real-number model. *)
From Coq Require Import Reals List Arith Bool.
From Verif Require Import Lib_Py Lib_Sum M_Colloc M_IxEq.
Import ListNotations.
Open Scope R_scope.

Definition state := nat -> nat -> nat -> R.

(** hsdmix.py:301-309, 336-347, 488, 511; psdmix.py:95-105, 133-144, 293, 322-323 — the
    parameters the equations use; kL, Ds and Dp come from the ion sheet. *)
Record column := {
  NION : nat; nr : nat; nz : nat;
  EBED : R; EPOR : R; Lbed : R; vel : R; rb : R; Qcap : R;
  kL : nat -> R; Ds : nat -> R; Dp : nat -> R; Kxc : nat -> R; val : nat -> nat }.

(** hsdmix.py:316-320; psdmix.py:113-117 — time scale. *)
Definition DGT (c : column) (CT : R) : R := (1 - EBED c) / EBED c * Qcap c / CT.
Definition tau (c : column) : R := Lbed c * EBED c / vel c.
Definition t_half (c : column) (CT : R) : R := tau c * (1 + DGT c CT).

(** hsdmix.py:364-369; psdmix.py:161-166 — operators; an even [nz] with OCFE makes
    [np.matmul(Az, C_swap)] fail on its shapes. *)
Record operators := { Az : matrix; Br : matrix; Wr : nat -> R }.
Definition build_operators (legendre : nat -> nat -> R) (jacobi : nat -> R -> R -> nat -> R)
  (nr nz : nat) (OCFE : bool) : res operators :=
  let k := build_collocation legendre jacobi nr nz in
  if OCFE then
    let NE := ((nz - 1) / 2)%nat in
    if Nat.eqb (NE * 3 - (NE - 1)) nz
    then Ok {| Az := fst (advect_operator legendre NE 3); Br := k_Br k; Wr := k_Wr k |}
    else Err ValueError
  else Ok {| Az := k_Az k; Br := k_Br k; Wr := k_Wr k |}.

(** hsdmix.py:376-386; psdmix.py:173-183 — initial state; [np.any(u_init)] is
    false for None and for an array of zeros. *)
Definition np_any3 (n0 n1 n2 : nat) (a : state) : bool :=
  existsb (fun r => existsb (fun i => existsb (fun z => negb (reqb (a r i z) 0))
    (seq 0 n2)) (seq 0 n1)) (seq 0 n0).
Definition initial_state (c : column) (Cin : nat -> R) (u_init : option state) : state :=
  let base : state := fun r i z =>
    match r with
    | O => if Nat.eqb z 0 then Cin i
           else if Nat.eqb i 0 then rsum (NION c) Cin else 0
    | S _ => if Nat.eqb i 0 then Qcap c else 0
    end in
  match u_init with
  | None => base
  | Some a =>
      if np_any3 (nr c + 1) (NION c) (nz c) a
      then fun r i z => match r with
                        | O => if Nat.eqb z 0 then base r i z else a r i z
                        | S _ => a r i z
                        end
      else base
  end.

(** scipy.interpolate.interp1d(kind='linear') on an increasing table: the linear
    segment containing the time, ValueError outside the table. *)
Fixpoint interp1d (table : list (R * R)) (T : R) : res R :=
  match table with
  | (x0, y0) :: (((x1, y1) :: _) as rest) =>
      if (rleb x0 T && rleb T x1)%bool
      then Ok (y0 + (y1 - y0) / (x1 - x0) * (T - x0))
      else interp1d rest T
  | _ => Err ValueError
  end.

(** hsdmix.py:394-415; psdmix.py:191-212 — [get_Cin]: [times] is the index of
    Cin_t, [column] the values of one ion. *)
Definition get_Cin (const : bool) (time_mult th : R) (times column : list R) (T : R) : res R :=
  if const then match column with c0 :: _ => Ok c0 | [] => Err IndexError end
  else interp1d (combine (map (fun t => t * (time_mult / th)) times) column) T.

(** hsdmix.py:537-542; psdmix.py:353-358 — end of the run and reporting times in
    scaled time; hsdmix.py:551, psdmix.py:367 — reported times. *)
Definition T_final (time_mult th : R) (times : list R) : res R :=
  match rev times with t :: _ => Ok (t * (time_mult / th)) | [] => Err IndexError end.
Definition T_eval (time_mult th : R) (t_eval : option (list R)) : option (list R) :=
  match t_eval with
  | None => None
  | Some ts => if existsb (fun t => negb (reqb t 0)) ts
               then Some (map (fun t => t * (time_mult / th)) ts) else None
  end.
Definition reported_times (th : R) (T : list R) : list R := map (fun x => x * th) T.

Section Rhs.
Variables (c : column) (op : operators) (th : R) (Cin : nat -> R) (u : state).

(** hsdmix.py:473-480; psdmix.py:270-281 — the inlet is overwritten with the
    influent ([C] is a view of [u]); totals. *)
Definition liq (i z : nat) : R := if Nat.eqb z 0 then Cin i else u 0%nat i z.
Definition CTz (z : nat) : R := rsum (NION c) (fun i => liq i z).

(** "Implicit presaturant": hsdmix.py:491, 515; psdmix.py:296, 327. *)
Definition implicit_presat (f : nat -> R) (i : nat) : R :=
  if Nat.eqb i 0 then - rsum (NION c - 1) (fun k => f (S k)) else f i.

(** hsdmix.py:483-492; psdmix.py:285-297 — film flux, from the equilibrium with
    the bead surface [qs]. *)
Definition flux (qs : nat -> R) (i z : nat) : R :=
  implicit_presat (fun i => - kL c i *
    (liq i z - calc_Ceq (NION c) (Kxc c) (val c) qs (CTz z) i)) i.

(** hsdmix.py:501-503; psdmix.py:306-308 — liquid. *)
Definition dC (J : nat -> nat -> R) (i z : nat) : R :=
  (- vel c / Lbed c * rsum (nz c) (fun j => Az op z j * liq i j)
   + (1 - EBED c) * (J i z * 3 / rb c)) / EBED c * th.

(** hsdmix.py:519-526; psdmix.py:330-338 — surface row and assembly. *)
Definition assemble (J : nat -> nat -> R) (dq : nat -> nat -> nat -> R) : state := fun r i z =>
  match r with
  | O => if Nat.eqb z 0 then 0 else dC J i z
  | S k => if Nat.eqb k (nr c - 1)
           then (- th / rb c * J i z - rsum (nr c - 1) (fun m => Wr op m * dq m i z))
                / Wr op (nr c - 1)
           else dq k i z
  end.

(** hsdmix.py:467-530 — [diffun] of HSDMIX. *)
Definition hsdm_J (i z : nat) : R := flux (fun i => u (nr c) i z) i z.
Definition hsdm_dq (r i z : nat) : R :=
  implicit_presat (fun i => Ds c i * th / rb c ^ 2
    * rsum (nr c) (fun m => Br op r m * u (S m) i z)) i.
Definition diffun_hsdm : state := assemble hsdm_J hsdm_dq.

(** psdmix.py:263-346 — [diffun] of PSDMIX. *)
Definition psdm_q (r i z : nat) : R := u (S r) i z / (1 - EPOR c).
Definition psdm_J (i z : nat) : R := flux (fun i => u (nr c) i z / (1 - EPOR c)) i z.
Definition psdm_Cpore (r i z : nat) : R :=
  calc_Ceq (NION c) (Kxc c) (val c) (fun i => psdm_q r i z) (CTz z) i.
Definition psdm_dY (r i z : nat) : R :=
  implicit_presat (fun i => th *
    (EPOR c * (Dp c i - Ds c i) * rsum (nr c) (fun m => Br op r m * psdm_Cpore m i z)
     + Ds c i * rsum (nr c) (fun m => Br op r m * u (S m) i z)) / rb c ^ 2) i.
Definition diffun_psdm : state := assemble psdm_J psdm_dY.

End Rhs.

(** The right-hand side of the class used: PSDMIX or HSDMIX. *)
Definition rhs (psdm : bool) (c : column) (op : operators) (th : R) (Cin : nat -> R) (u : state) : state :=
  if psdm then diffun_psdm c op th Cin u else diffun_hsdm c op th Cin u.
(** psdmix.py:275-276 — loading per volume of solid: Y/(1-EPOR); HSDMIX uses q itself. *)
Definition theta (psdm : bool) (c : column) : R := if psdm then 1 - EPOR c else 1.

(** hsdmix.py:48-85; psdmix.py:26-63 — [approx_Jac_struc]; entries count the
    additions, so that zero means "declared independent".  [np.eye(n, n, k)] has
    ones at column = row + k. *)
Definition eye (k : Z) (i j : nat) : nat := if Z.eqb (Z.of_nat j) (Z.of_nat i + k) then 1 else 0.
Fixpoint nsum (n : nat) (f : nat -> nat) : nat :=
  match n with O => O | S m => (nsum m f + f m)%nat end.
Definition Jac_struc (nr NION nz : nat) (row col : nat) : nat :=
  let nzni := (NION * nz)%nat in
  if Nat.ltb row nzni then
    (* liquid rows: zeroed, then the two blocks set to one *)
    if (Nat.ltb col nzni || Nat.leb (nr * nzni) col)%bool then 1%nat else 0%nat
  else
    ((if Nat.leb nzni col then eye 0 (row - nzni) (col - nzni) else 0)
     + nsum (NION * (1 + nr) - 1) (fun k =>
         eye (Z.of_nat (nz * (k + 1))) row col + eye (- Z.of_nat (nz * (k + 1))) row col))%nat.
(** Row-major index of [u.reshape(NEQ)]. *)
Definition flat (NION nz : nat) (r i z : nat) : nat := (r * (NION * nz) + i * nz + z)%nat.
