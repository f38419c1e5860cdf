(** Model of the granular-carbon column: collocation matrices, the derived
    dimensionless numbers, the right-hand side handed to solve_ivp, the declared
    sparsity and the reported effluent.
    Source: PSDM/psdm/PSDM_functions.py (calc_solver_matrix, spar_Jac, interp) and
    PSDM/psdm/PSDM.py (run_psdm).
    Arrays are functions of their indices; root finders and numpy.linalg.inv are
    parameters.  Not modelled: plotting, solve_ivp itself (its result is any
    trajectory of the right-hand side). *)
From Coq Require Import Reals List Arith Bool ZArith String.
From Verif Require Import Lib_Py Lib_Sum Lib_Pow M_Colloc M_IxColumn M_GacFun.
Import ListNotations.
Open Scope R_scope.

(** ** PSDM_functions.py 516-668, calc_solver_matrix *)

(** Dot products of an n x n matrix, and of a vector with one. *)
Definition mdot (n : nat) (A B : matrix) : matrix := fun i j => rsum n (fun k => A i k * B k j).
Definition vdot (n : nat) (f : nat -> R) (B : matrix) : nat -> R := fun j => rsum n (fun k => f k * B k j).

(** 523-543, dspoly for geometry [ia], at the points [x]: powers, quadrature moments,
    Laplacian (the gradient [c] is not used).  [y[n] = x**(n+1)], so
    [loopq[k-1] = 2k-1] selects x**(2k) and [loopd[k-2] = 2k-3] selects x**(2k-2). *)
Definition dspoly_q (x : nat -> R) : matrix :=
  fun j k => match k with O => 1 | S _ => x j ^ (2 * (k + 1) - 3 + 1) end.
Definition dspoly_f (ia : R) : nat -> R := fun j => 1 / (2 * (INR j + 1) - 2 + ia).
Definition dspoly_d (ia : R) (x : nat -> R) : matrix :=
  fun j k => match k with
             | O => 0
             | S O => 2 * ia
             | _ => (2 * INR (k + 1) - 2) * (2 * INR (k + 1) - 4 + ia) * x j ^ (2 * k - 3 + 1)
             end.

(** 545-561, dupoly: powers of 2x-1 and their x-derivatives. *)
Definition dupoly_q (x : nat -> R) : matrix := fun j i => (2 * x j - 1) ^ i.
Definition dupoly_c (x : nat -> R) : matrix :=
  fun j i => match i with O => 0 | S O => 2 | S (S p) => 2 * INR i * (2 * x j - 1) ^ (S p) end.

(** 563-588, build_colloc: monomials and their derivatives at the same grid as
    [rootsz] (0, the shifted Legendre roots, 1). *)
Definition mono_q (x : nat -> R) : matrix := fun i j => x i ^ j.
Definition mono_c (x : nat -> R) : matrix :=
  fun i j => match j with O => 0 | S p => INR j * x i ^ p end.
Definition build_colloc_A (inv : nat -> matrix -> matrix) (x : nat -> R) (n : nat) : matrix :=
  mdot n (mono_c x) (inv n (mono_q x)).

(** 592-637, advect_operator (the operator; its grid is discarded at 660). *)
Definition gac_advect (inv : nat -> matrix -> matrix) (legendre : nat -> nat -> R)
  (ne nz : nat) : matrix :=
  let NZ := (ne * nz - (ne - 1))%nat in
  let A := build_colloc_A inv (rootsz legendre nz) nz in
  let M := fill_joints A ne nz NZ (fill_blocks A ne nz) in
  set_block M 0 1 0 NZ (fun _ _ => 0).

(** 644-646: squared radii; [jroots n a b] are the roots of special.j_roots(n, a, b),
    on (-1, 1). *)
Definition gac_rr (jroots : nat -> R -> R -> nat -> R) (nr : nat) (i : nat) : R :=
  if Nat.eqb i (nr - 1) then 1
  else dec 5 1 * (jroots (nr - 1)%nat 1 (dec 5 1) i + 1).

Record gac_matrices := { w_r : nat -> R; a_z : matrix; b_r : matrix; m_c : nat }.

(** 639-668.  ne == 0 leaves [az] unset (UnboundLocalError); nr < 2 fails in dspoly
    (index 1) and nz < 3 in roots_sh_legendre (at least one root): refused here. *)
Definition calc_solver_matrix (inv : nat -> matrix -> matrix) (legendre : nat -> nat -> R)
  (jroots : nat -> R -> R -> nat -> R) (nr nz ne : nat) : res gac_matrices :=
  if (Nat.ltb nr 2 || Nat.ltb nz 3)%bool then Err ValueError else
  let r i := sqrt (gac_rr jroots nr i) in
  let qi2 := inv nr (dspoly_q r) in
  let wr := vdot nr (dspoly_f 3) qi2 in
  let br := mdot nr (dspoly_d 3 r) qi2 in
  match ne with
  | O => Err UnboundLocalError
  | S O =>
      let z := rootsz legendre nz in
      Ok {| w_r := wr; a_z := mdot nz (dupoly_c z) (inv nz (dupoly_q z)); b_r := br; m_c := nz |}
  | _ => Ok {| w_r := wr; a_z := gac_advect inv legendre ne nz; b_r := br;
               m_c := (ne * nz - (ne - 1))%nat |}
  end.

(** ** PSDM.py 1331-1500, run_psdm: column inputs and derived numbers *)

(** Per-compound inputs are indexed by the position in [self.compounds].
    [x_inf0]: influent at time 0, in the units of the data sheet. *)
Record gac_in := {
  x_n : nat;
  x_epor : R; x_rhop : R; x_ebed : R; x_tau : R; x_rad : R;
  x_tortu : R; x_psdfr : R; x_vw : R; x_dw : R; x_re : R;
  x_mass_mul : R; x_organic_free : bool;
  x_K : nat -> R; x_xn : nat -> R; x_mw : nat -> R; x_molvol : nat -> R;
  x_kf : nat -> R; x_dp : nat -> R; x_ds : nat -> R;   (* self.mass_transfer *)
  x_inf0 : nat -> R }.

Section Derived.
Variable g : gac_in.

(** 1373-1376: molar influent at time zero; zeros are replaced by one. *)
Definition cb0 (i : nat) : R :=
  let c := x_inf0 g i * x_mass_mul g / x_mw g i in if reqb c 0 then 1 else c.
(** 1379-1382. *)
Definition tortu0 : R := if x_organic_free g then x_tortu g else 1.
(** 1386-1392. *)
Definition difl_v (i : nat) : R := difl (x_vw g) (x_molvol g i).
Definition kf_corr (i : nat) : R :=
  match kf_default (x_rad g) (x_re g) (schmidt (x_vw g) (x_dw g) (difl_v i)) (x_ebed g) (difl_v i) with
  | Num x => x | Tuple1 x => x end.
(** 1413-1415. *)
Definition molar_k (i : nat) : R := x_K g i / x_mw g i / rpow (1 / x_mw g i) (x_xn g i).
Definition xni (i : nat) : R := 1 / x_xn g i.
(** 1417. *)
Definition ds_corr (i : nat) : R :=
  x_epor g * difl_v i * cb0 i * x_psdfr g /
  (tortu0 * 1000 * x_rhop g * molar_k i * rpow (cb0 i) (x_xn g i)).
(** 1419-1436: overrides; these are the values recorded in [mass_transfer_data]. *)
Definition kf_v (i : nat) : R := if rltb 0 (x_kf g i) then x_kf g i else kf_corr i.
Definition dp_v (i : nat) : R := if rltb 0 (x_dp g i) then x_dp g i else difl_v i / tortu0.
Definition ds_v (i : nat) : R :=
  let ds := if rltb 0 (x_ds g i) then x_ds g i else ds_corr i in
  if x_organic_free g then ds else ds / 10 ^ 10.
(** 1438-1451. *)
Definition d_v (i : nat) : R := ds_v i / dp_v i.
Definition qe (i : nat) : R := molar_k i * rpow (cb0 i) (x_xn g i).
Definition qte : R := rsum (x_n g) qe.
Definition dgs (i : nat) : R := x_rhop g * qe i * (1 - x_ebed g) * 1000 / (x_ebed g * cb0 i).
Definition dgp : R := x_epor g * (1 - x_ebed g) / x_ebed g.
Definition dg (i : nat) : R := dgs i + dgp.
Definition dgt : R := rsum (x_n g) dg.
Definition dg1 : R := 1 + dgt.
Definition dgI (i : nat) : R := 1 / dg i.
Definition edd (i : nat) : R := dgt / dg i.
Definition ym (i : nat) : R := qe i / qte.
(** 1453-1463. *)
Definition eds (i : nat) : R :=
  let e := ds_v i * dgs i * x_tau g / x_rad g ^ 2 in
  if rltb e (/ 10 ^ 130) then / 10 ^ 130 else e.
Definition edp (i : nat) : R := dp_v i * tortu0 * dgp * x_tau g / x_rad g ^ 2.
Definition beds (i : nat) : R := (eds i + d_v i * edp i) * edd i.
Definition bedp (i : nat) : R := edp i * (1 - d_v i) * edd i.
Definition st (i : nat) : R := kf_v i * (1 - x_ebed g) * x_tau g / (x_ebed g * x_rad g).
Definition stdv (i : nat) : R := st i * dgt.
(** 1466: minutes to dimensionless time. *)
Definition tconv : R := 60 / (x_tau g * dg1).

(** ** Time tables (one entry per whole minute), 1472-1518 *)

(** 1479-1483: tortuosity at minute [m]. *)
Definition tortu_t (m : nat) : R :=
  if x_organic_free g then x_tortu g else tortuosity_array (INR m).
(** 1511-1516: relative influent, from the sheet's (time in minutes, concentration)
    rows of the compound. *)
Definition cin_table (i : nat) (rows : list (R * R)) : list (R * R) :=
  map (fun p => (fst p, snd p * x_mass_mul g / x_mw g i / cb0 i)) rows.
Definition cinfA (rows : nat -> list (R * R)) (m i : nat) : R :=
  interp_x (cin_table i (rows i)) (INR m).
(** 1517-1518. *)
Definition facA (m i : nat) : R := (1 / tortu_t m - d_v i) / (1 - d_v i).
Definition foulFA (foul : nat -> R -> R) (m i : nat) : R := rpow (1 / foul i (INR m)) (xni i).

(** PSDM_functions.py 807-811, interp, as called at PSDM.py 1548-1550 with
    [idx] = floor(t/tconv) and [extra] the remainder. *)
Definition at_time (A : nat -> nat -> R) (t : R) (i : nat) : R :=
  let m := t / tconv in
  let idx := Z.to_nat (Int_part m) in
  (A (S idx) i - A idx i) * (m - IZR (Int_part m)) + A idx i.

(** ** PSDM.py 1533-1615, diffun *)

(** State: [y i r z], compound, row (the nc radial points, then the liquid), depth;
    [cinfl], [foul_fac], [facAv]: the time tables' values at this moment. *)
Section Rhs.
Variables (nc mc : nat) (wr : nat -> R) (az br : matrix).
Variables (cinfl foul_fac facAv : nat -> R).
Variable y : nat -> nat -> nat -> R.

(** 1553-1558: loadings, their total (never zero) and the weighted total. *)
Definition z_raw (i r z : nat) : R := let v := ym i * y i r z in if rltb v 0 then 0 else v.
Definition qte2 (r z : nat) : R :=
  let s := rsum (x_n g) (fun i => z_raw i r z) in if reqb s 0 then / 10 ^ 30 else s.
Definition yt0 (r z : nat) : R := rsum (x_n g) (fun i => xni i * z_raw i r z).
(** 1559-1562. *)
Definition z2 (i r z : nat) : R := if rleb (qte2 r z) 0 then 0 else z_raw i r z / qte2 r z.
Definition q0 (i r z : nat) : R := x_xn g i / ym i * yt0 r z.
(** 1564-1569. *)
Definition cpore_raw (i r z : nat) : R :=
  if rltb (xni i * q0 i r z) (-20) then 0
  else if rleb (yt0 r z) 0 then 0
  else if rleb (qte2 r z) 0 then 0
  else foul_fac i * (z2 i r z * rpow (q0 i r z) (xni i)).
(** 1571-1572: the surface row is clipped in place. *)
Definition cpore (i r z : nat) : R :=
  let c := cpore_raw i r z in
  if Nat.eqb r (nc - 1) then (if rltb c 0 then 0 else c) else c.
(** 1574-1576. *)
Definition cbs (i z : nat) : R :=
  if Nat.eqb z 0 then 0 else (y i nc z - cpore i (nc - 1) z) * stdv i.
(** 1578-1581: interior radial rows. *)
Definition bb (i r z : nat) : R :=
  rsum nc (fun m => bedp i * br r m * cpore i m z) * facAv i
  + rsum nc (fun m => beds i * br r m * y i m z).
(** 1583-1584. *)
Definition ww (i z : nat) : R := rsum (nc - 1) (fun r => wr r * bb i r z).
(** 1587-1613; the liquid row's first entry keeps the zero of [ydot_tmp]. *)
Definition gac_rhs (i r z : nat) : R :=
  if Nat.ltb r (nc - 1) then bb i r z
  else if Nat.eqb r (nc - 1) then
    (if Nat.eqb z 0
     then ((cinfl i - cpore i (nc - 1) 0) * (stdv i * dgI i) - ww i 0) / wr (nc - 1)%nat
     else (cbs i z * dgI i - ww i z) / wr (nc - 1)%nat)
  else
    (if Nat.eqb z 0 then 0
     else - dg1 * (az z 0%nat * cinfl i + rsum (mc - 1) (fun j => az z (S j) * y i nc (S j)))
          - 3 * cbs i z).
End Rhs.

(** 1538-1550 with the above: the right-hand side at dimensionless time [t]. *)
Definition diffun (m : gac_matrices) (nc : nat) (rows : nat -> list (R * R)) (foul : nat -> R -> R)
  (t : R) (y : nat -> nat -> nat -> R) : nat -> nat -> nat -> R :=
  gac_rhs nc (m_c m) (w_r m) (a_z m) (b_r m)
    (at_time (cinfA rows) t) (at_time (foulFA foul) t) (at_time facA t) y.

(** 1617-1637: what is reported for compound [i], from the liquid at the last depth. *)
Definition reported (i : nat) (c : R) : R :=
  (if rltb c 0 then 0 else c) * cb0 i * x_mw g i / x_mass_mul g.
End Derived.

(** Row-major index of [y0.reshape((num_comps, nc+1, mc))]. *)
Definition gflat (nc mc i r z : nat) : nat := (i * ((nc + 1) * mc) + r * mc + z)%nat.

(** ** PSDM_functions.py 835-907, spar_Jac

    [spdiags(data, k, m, n)] puts data[.., col] at (col - k, col); entries count the
    additions, so that zero means "declared independent". *)
Definition jac_mat1 (nr nz row col : nat) : nat :=
  nsum (2 * (nr - 1) + 1) (fun k => eye (Z.of_nat (k * nz) - Z.of_nat ((nr - 1) * nz)) row col).
Definition jac_lower (nr nz row col : nat) : nat :=
  if Nat.eqb col (nr * nz - nz) then 0%nat else eye (Z.of_nat ((nr - 1) * nz)) row col.
(** Left part of a block: bead columns. *)
Definition jac_left (nr nz row col : nat) : nat :=
  if Nat.ltb row (nr * nz) then jac_mat1 nr nz row col else jac_lower nr nz (row - nr * nz) col.
(** Right part: liquid columns; only within a compound. *)
Definition jac_right (nr nz : nat) (same : bool) (row col : nat) : nat :=
  if negb same then 0%nat
  else if Nat.ltb row (nr * nz - nz) then 0%nat
  else if Nat.ltb row (nr * nz) then
    (let z := (row - (nr * nz - nz))%nat in
     if (Nat.eqb z col && negb (Nat.eqb z 0))%bool then 1%nat else 0%nat)
  else if (Nat.eqb (row - nr * nz) 0 || Nat.eqb col 0)%bool then 0%nat else 1%nat.
Definition spar_Jac (nr nz ne : nat) (row col : nat) : nat :=
  let nzt := (nz * ne - (ne - 1))%nat in
  let cube := (nzt * (nr + 1))%nat in
  let i := (row / cube)%nat in let j := (col / cube)%nat in
  let a := (row mod cube)%nat in let b := (col mod cube)%nat in
  if Nat.ltb b (nr * nzt) then jac_left nr nzt a b
  else jac_right nr nzt (Nat.eqb i j) a (b - nr * nzt).
