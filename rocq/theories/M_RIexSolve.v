(** Model of the solver of the ion-exchange web application.
    Source: Shiny-IEX/Ion_Exchange_Model.R 114-297 (rad_colloc, ax_colloc), 299-485
    (HSDMIX_solve), 491-699 (PSDMIX_solve), written in R.  Indices start at 0 here.
    The state is the array x[point, ion, depth]: points 0..nr-1 are the radial points of the
    bead, point nr the liquid.  The column record of M_IxColumn holds the rows of params and
    ions (KxA is [Kxc]).  The ODE solver and the root finders of orthogonal polynomials are
    parameters, as in the package's model. *)
From Coq Require Import Reals List Arith Bool.
From Verif Require Import Lib_Py Lib_Sum M_Colloc M_IxEq M_IxColumn.
Import ListNotations.
Open Scope R_scope.

(** 166-170 and 264-268: one step of the recurrences *)
Definition r_step (p : R * R * R) (delta : R) : R * R * R :=
  let '(p1, p2, p3) := p in (delta * p1, delta * p2 + 2 * p1, delta * p3 + 3 * p2).
(** 154-178 and 251-275: the derivatives at root [i]; the other roots are those with another
    value (roots[!roots %in% x_i]) *)
Definition r_px (n : nat) (roots : nat -> R) (i : nat) : R * R * R :=
  fold_left r_step
    (map (fun x => roots i - x) (filter (fun x => negb (reqb x (roots i))) (map roots (seq 0 n)))) (1, 0, 0).
Definition r_p1 n roots i := fst (fst (r_px n roots i)).
Definition r_p2 n roots i := snd (fst (r_px n roots i)).
Definition r_p3 n roots i := snd (r_px n roots i).
(** 186-199 and 281-292 *)
Definition r_A (n : nat) (roots : nat -> R) (i j : nat) : R :=
  if Nat.eqb i j then 1 / 2 * r_p2 n roots i / r_p1 n roots i
  else 1 / (roots i - roots j) * r_p1 n roots i / r_p1 n roots j.
(** 202-217 *)
Definition r_B (n : nat) (roots : nat -> R) (i j : nat) : R :=
  if Nat.eqb i j then 1 / 3 * r_p3 n roots i / r_p1 n roots i
  else 2 * r_A n roots i j * (r_A n roots i i - 1 / (roots i - roots j)).
Definition r_B_sym (n : nat) (roots : nat -> R) (i j : nat) : R :=
  4 * roots i * r_B n roots i j + 2 * 3 * r_A n roots i j.
(** 222-224 *)
Definition r_w (n : nat) (roots : nat -> R) (i : nat) : R := 1 / (roots i * r_p1 n roots i ^ 2).
Definition r_W (n : nat) (roots : nat -> R) (i : nat) : R :=
  1 / (2 + 1) * r_w n roots i * 1 / rsum n (r_w n roots).
(** 131-138 and 233-236: the grids; [jacobi_g m p q] are the roots of the monic polynomial of
    degree [m] given by jacobi.g.recurrences, in increasing order *)
Definition r_grid_r (jacobi_g : nat -> R -> R -> nat -> R) (n i : nat) : R :=
  if Nat.eqb i (n - 1) then 1 else jacobi_g (n - 1)%nat (dec 25 1) (dec 15 1) i.
Definition r_grid_z (jacobi_g : nat -> R -> R -> nat -> R) (n i : nat) : R :=
  if Nat.eqb i 0 then 0 else if Nat.eqb i (n - 1) then 1 else jacobi_g (n - 2)%nat 1 1 (i - 1)%nat.
(** 372-376, 566-570 *)
Definition r_operators (jacobi_g : nat -> R -> R -> nat -> R) (nr nz : nat) : operators :=
  {| Az := r_A nz (r_grid_z jacobi_g nz); Br := r_B_sym nr (r_grid_r jacobi_g nr); Wr := r_W nr (r_grid_r jacobi_g nr) |}.

(** R repeats a shorter vector [v] of length [len] along the elements of an array in storage
    order, the first index running fastest: the factor of element number [idx]. *)
Definition recycle (v : nat -> R) (len idx : nat) : R := v (idx mod len)%nat.
(** Element numbers in arrays with the given first extents. *)
Definition elem2 (d0 a b : nat) : nat := (a + d0 * b)%nat.
Definition elem3 (d0 d1 a b c : nat) : nat := (a + d0 * (b + d1 * c))%nat.

Definition r_state := nat -> nat -> nat -> R.

(** 366-370, 560-564: the start *)
Definition r_initial (c : column) (Cin : nat -> R) : r_state := fun r i z =>
  if Nat.eqb r (nr c) then
    if Nat.eqb z 0 then Cin i else if Nat.eqb i 0 then rsum (NION c) Cin else 0
  else if Nat.eqb i 0 then Qcap c else 0.

(** An index of one element drops a dimension, after which colSums stops with an error: with
    two ions (439, 648), with two depths, and with one monovalent ion besides the presaturant
    when some ion is divalent (410, 610).  Two divalent ions give a right-hand side of the
    wrong length (414, 614). *)
Definition count (n : nat) (mask : nat -> bool) : nat := List.length (filter mask (seq 0 n)).
Definition r_shapes (c : column) : bool :=
  (Nat.leb 3 (NION c) && Nat.leb 3 (nz c) && Nat.leb 2 (nr c) &&
   (negb (has_divalent (NION c) (val c)) ||
    (negb (Nat.eqb (count (NION c) (mv_idx (val c))) 1) && Nat.eqb (count (NION c) (dv_idx (val c))) 1)))%bool.

Section RRhs.
Variables (c : column) (op : operators) (Cin : nat -> R) (x : r_state).

(** 391-401, 586-596: the liquid with the influent, and the totals taken before it is set *)
Definition r_C (i z : nat) : R := if Nat.eqb z 0 then Cin i else x (nr c) i z.
Definition r_CT (z : nat) : R := rsum (NION c) (fun i => x (nr c) i z).

(** 408-434, 603-641: the liquid in equilibrium with the resin [q] at depth [z] *)
Definition r_Ceq (q : nat -> R) (z i : nat) : R :=
  if has_divalent (NION c) (val c) then
    let cc := - r_CT z in
    let bb := 1 + 1 / q 0%nat * masked_sum (NION c) (mv_idx (val c)) (fun j => q j / Kxc c j) in
    let aa := masked_sum (NION c) (dv_idx (val c)) (fun j => 1 / q 0%nat ^ 2 * q j / Kxc c j) in
    let denom := - bb - sqrt (bb ^ 2 - 4 * aa * cc) in
    let c1 := 2 * (cc / denom) in
    if Nat.eqb i 0 then c1
    else q i / recycle (fun k => Kxc c (S k)) (NION c - 1) (elem2 (NION c - 1) (i - 1) (z - 1))
         * (c1 / q 0%nat) ^ val c i
  else if Nat.eqb i 0 then 0
  else q i / Kxc c i / (rsum (NION c) (fun j => q j / Kxc c j) / r_CT z).

(** 437-439, 645-648 *)
Definition r_J (q : nat -> R) (i z : nat) : R :=
  let f i := - recycle (fun k => kL c (S k)) (NION c - 1) (elem2 (NION c - 1) (i - 1) (z - 1))
             * (r_C i z - r_Ceq q z i) in
  if Nat.eqb z 0 then 0 else if Nat.eqb i 0 then - rsum (NION c - 1) (fun k => f (S k)) else f i.

(** 447-451, 655-663: internal diffusion; nothing at the inlet *)
Definition r_apply (f : nat -> nat -> nat -> R) (r i z : nat) : R :=
  if Nat.eqb z 0 then 0 else rsum (nr c) (fun m => Br op r m * f m i z).
(** 456-457, 668-669: the presaturant balances the others, below the surface *)
Definition r_balance (f : nat -> nat -> nat -> R) (r i z : nat) : R :=
  if Nat.eqb i 0 then - rsum (NION c - 1) (fun k => f r (S k) z) else f r i z.
(** 441-443, 458-463, 650-652, 671-676 with tc = 1 *)
Definition r_assemble (J : nat -> nat -> R) (dq : nat -> nat -> nat -> R) : r_state := fun r i z =>
  if Nat.eqb z 0 then 0
  else if Nat.eqb r (nr c) then
    (- vel c / Lbed c * rsum (nz c) (fun j => Az op z j * r_C i j) + (1 - EBED c) * (3 / rb c * J i z)) / EBED c * 1
  else if Nat.eqb r (nr c - 1) then
    (- 1 / rb c * J i z - rsum (nr c - 1) (fun m => Wr op m * dq m i z)) / Wr op (nr c - 1)
  else dq r i z.

(** 454: a vector of ions times an array whose first index is the radial point *)
Definition r_hsdm_dq : nat -> nat -> nat -> R :=
  r_balance (fun r i z =>
    recycle (fun k => Ds c (S k) * 1 / rb c ^ 2) (NION c - 1) (elem3 (nr c) (NION c - 1) r (i - 1) z)
    * r_apply x r i z).
Definition r_hsdm : r_state := r_assemble (fun i z => r_J (fun j => x (nr c - 1)%nat j z) i z) r_hsdm_dq.

(** 589: resin per volume of solid; 603-643: pore liquid; 666: the same with pore diffusion *)
Definition r_q (r i z : nat) : R := x r i z / (1 - EPOR c).
Definition r_Cpore (r i z : nat) : R := r_Ceq (fun j => r_q r j z) z i.
Definition r_psdm_dY : nat -> nat -> nat -> R :=
  r_balance (fun r i z =>
    1 * (recycle (fun k => EPOR c * (Dp c (S k) - Ds c (S k))) (NION c - 1) (elem3 (nr c) (NION c - 1) r (i - 1) z) * r_apply r_Cpore r i z
         + recycle (fun k => Ds c (S k)) (NION c - 1) (elem3 (nr c) (NION c - 1) r (i - 1) z) * r_apply x r i z)
    / rb c ^ 2).
Definition r_psdm : r_state := r_assemble (fun i z => r_J (fun j => r_q (nr c - 1)%nat j z) i z) r_psdm_dY.
End RRhs.

(** 380-466, 574-680: the derivative function of either model, or an R error *)
Definition r_diffun (psdm : bool) (c : column) (op : operators) (Cin : nat -> R) (x : r_state) : res r_state :=
  if r_shapes c then Ok (if psdm then r_psdm c op Cin x else r_hsdm c op Cin x) else Err ValueError.

(** 479-484, 693-698: the results are kept when the resin totals at the outlet, at the surface
    and the point below it, equal the capacity (up to a tolerance, exact here); otherwise zeros
    are returned *)
Definition r_result (c : column) (final : r_state) (x : R -> r_state) : R -> r_state :=
  let total r := rsum (NION c) (fun i => final r i (nz c - 1)%nat) in
  if (reqb (total (nr c - 1)%nat) (Qcap c) && reqb (total (nr c - 2)%nat) (Qcap c))%bool
  then x else fun _ _ _ _ => 0.
