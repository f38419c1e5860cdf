(** C190 — the distribution coefficient of the reference curves, taken from the end of a run of
    3000 minutes, against the one of the isotherm at equilibrium. *)
From Coq Require Import Reals List Arith Lia Lra String.
From Verif Require Import Lib_Py Lib_Pow Lib_Sum Lib_Traj S_Colloc S_Radial M_Colloc P_Radial P_JacobiRoots M_Pac M_PacCrank P_Pac Props_Pac P_PacBound Props_PacBound Props_PacSettle.
Open Scope R_scope.

Lemma weights_third jacobi nc : contactor_grid jacobi nc ->
  (forall i, (i < nc)%nat -> 0 < Wx nc (rootsu jacobi nc 3) 3 i) /\ rsum nc (Wx nc (rootsu jacobi nc 3) 3) = 1 / 3.
Proof.
  intros HG. assert (N := grid_INR jacobi nc HG). destruct HG as (Hnc & _). assert (X := code_weights jacobi nc 2 Hnc N). rewrite INR3 in X. exact X.
Qed.

(** The longer the run, the nearer the coefficient is to loading over concentration at
    equilibrium, times the density of the carbon. *)
Theorem C190_limit_partial : forall jacobi nc f dosage c Ce,
  contactor_grid jacobi nc -> sensible f dosage c -> 0 < Ds c -> xn c <= 1 -> 0 < Ce ->
  let '(_, _, B, W) := recur_colloc_symm jacobi nc 3 in
  let eps := 1 - dosage / (f_dw f * 10 ^ 6) in
  let loading := f_density f * 1000 * K c * rpow Ce (xn c) in
  eps * Ce + (1 - eps) * loading = eps * 1 ->
  forall tol, 0 < tol -> exists T, forall duration C Y, T <= duration -> 0 <= duration ->
    follows nc B W (eqn_of f eps c) 0 duration C Y -> C 0 = 1 -> (forall i, (i < nc)%nat -> Y i 0 = 0) ->
    Rabs (Kd_of f nc W (fun i => Y i duration) (C duration) - loading / Ce * f_density f) < tol.
Proof.
  intros jacobi nc f dosage c Ce HG HS HDs Hx HCe.
  assert (ST := C189_settles jacobi nc f dosage c 0 1 (fun _ => 0) Ce HG HS HDs Hx ltac:(lra) ltac:(lra)). revert ST.
  destruct (weights_third jacobi nc HG) as (WP & WS). revert WP WS.
  unfold recur_colloc_symm. cbv zeta. set (W := Wx nc (rootsu jacobi nc 3) 3). intros WP WS ST HE tol Htol.
  set (eps := 1 - dosage / (f_dw f * 10 ^ 6)) in *. set (y := f_density f * 1000 * K c * rpow Ce (xn c)) in *.
  specialize (ST ltac:(rewrite (rsum_zero nc) by (intros; ring); lra)).
  destruct HS as (Hr & _ & _ & _ & _ & HK & _).
  assert (Py : 0 < y) by (apply Rmult_lt_0_compat; [apply Rmult_lt_0_compat; lra|apply rpow_pos, HCe]).
  set (d := f_density f) in *. set (m := d * (1 + y / Ce) * 2 / Ce). assert (Pq : 0 < y / Ce) by (apply Rdiv_lt_0_compat; assumption).
  assert (Pm : 0 < m). { unfold m. apply Rdiv_lt_0_compat; [|exact HCe]. apply Rmult_lt_0_compat; [|lra]. apply Rmult_lt_0_compat; lra. }
  set (tl := Rmin (Ce / 2) (tol / m)). assert (Ptl : 0 < tl) by (apply Rmin_pos; [lra|apply Rdiv_lt_0_compat; assumption]).
  destruct (ST tl Ptl) as (T & HT). exists T. intros b C Y HTb Hb HF HC HY. destruct (HT b C Y HF HC HY b ltac:(lra) HTb) as (A1 & A2).
  assert (L1 : tl <= Ce / 2) by apply Rmin_l. assert (L2 : tl <= tol / m) by apply Rmin_r.
  set (X := C b) in *. set (S := 3 * rsum nc (fun i => W i * Y i b)).
  assert (PX : Ce / 2 < X) by (unfold Rabs in A1; destruct (Rcase_abs (X - Ce)); lra).
  assert (SD : Rabs (S - y) <= tl).
  { unfold S. replace (3 * rsum nc (fun i => W i * Y i b) - y) with (3 * rsum nc (fun i => W i * (Y i b - y))).
    - rewrite Rabs_mult, (Rabs_pos_eq 3) by lra. assert (Q : Rabs (rsum nc (fun i => W i * (Y i b - y))) <= rsum nc (fun i => W i * tl)).
      { eapply Rle_trans; [apply rsum_abs|]. apply rsum_le. intros i Hi. rewrite Rabs_mult, (Rabs_pos_eq (W i)) by (left; apply WP, Hi).
        apply Rmult_le_compat_l; [left; apply WP, Hi|left; apply A2, Hi]. }
      rewrite rsum_scal_r, WS in Q. lra.
    - rewrite (rsum_ext nc _ (fun i => W i * Y i b - W i * y)) by (intros; ring). rewrite rsum_minus, rsum_scal_r, WS. field. }
  unfold Kd_of. fold S d. replace (S / X * d - y / Ce * d) with (d / X * ((S - y) + y / Ce * (Ce - X))) by (field; lra).
  rewrite Rabs_mult, (Rabs_pos_eq (d / X)) by (left; apply Rdiv_lt_0_compat; lra).
  assert (G : Rabs (S - y + y / Ce * (Ce - X)) < tl * (1 + y / Ce)).
  { eapply Rle_lt_trans; [apply Rabs_triang|]. rewrite Rabs_mult, (Rabs_pos_eq (y / Ce)), Rabs_minus_sym, (Rabs_minus_sym Ce X) by lra.
    rewrite Rabs_minus_sym in SD. assert (y / Ce * Rabs (X - Ce) < y / Ce * tl) by (apply Rmult_lt_compat_l; assumption). lra. }
  assert (DX : d / X < 2 * d / Ce).
  { apply Rmult_lt_reg_r with (X * Ce); [apply Rmult_lt_0_compat; lra|]. replace (d / X * (X * Ce)) with (d * Ce) by (field; lra). replace (2 * d / Ce * (X * Ce)) with (d * (2 * X)) by (field; lra). apply Rmult_lt_compat_l; lra. }
  apply Rlt_le_trans with (2 * d / Ce * (tl * (1 + y / Ce))).
  - apply Rmult_le_0_lt_compat; [left; apply Rdiv_lt_0_compat; lra|apply Rabs_pos|exact DX|exact G].
  - replace (2 * d / Ce * (tl * (1 + y / Ce))) with (tl * m) by (unfold m; field; lra). apply Rle_trans with (tol / m * m); [apply Rmult_le_compat_r; lra|]. right. field. lra.
Qed.

(** But 3000 minutes are not always enough: there is a compound whose run exists and ends with less
    than a tenth of the coefficient at equilibrium. *)
Definition slow_comp : comp := {| K := 100; xn := 1 / 2; kf := 1 / 10 ^ 6; Dp := 1 / 10 ^ 6; Ds := 1 / 10 ^ 9; C0 := 50; C0_units := "ng" |}.
Lemma slow_sensible : sensible demo_carbon 10 slow_comp.
Proof. unfold sensible, demo_carbon, slow_comp. cbn. lra. Qed.
Theorem C190_duration_refuted : exists jacobi f dosage c Ce, contactor_grid jacobi 3 /\ sensible f dosage c /\ 0 < Ce /\
  let '(_, _, B, W) := recur_colloc_symm jacobi 3 3 in
  let eps := 1 - dosage / (f_dw f * 10 ^ 6) in
  let loading := f_density f * 1000 * K c * rpow Ce (xn c) in
  eps * Ce + (1 - eps) * loading = eps * 1 /\
  (exists C Y, follows 3 B W (eqn_of f eps c) 0 (3000 * 60) C Y /\ C 0 = 1 /\ forall i, (i < 3)%nat -> Y i 0 = 0) /\
  forall C Y, follows 3 B W (eqn_of f eps c) 0 (3000 * 60) C Y -> C 0 = 1 -> (forall i, (i < 3)%nat -> Y i 0 = 0) ->
    Kd_of f 3 W (fun i => Y i (3000 * 60)) (C (3000 * 60)) < 1 / 10 * (loading / Ce * f_density f).
Proof.
  destruct (jacobi_exist 2 2) as (r & Hr). set (jac := fun (_ : nat) (_ _ : R) => r).
  assert (HG : contactor_grid jac 3) by (split; [lia|exact Hr]). exists jac, demo_carbon, 10, slow_comp.
  assert (e0 : 1 - 10 / (f_dw demo_carbon * 10 ^ 6) = 99999 / 100000) by (cbn; field).
  destruct (C189_equilibrium demo_carbon 10 slow_comp (99999 / 100000 * 1) slow_sensible ltac:(cbn; lra) ltac:(lra)) as (Ce & (P & E) & _). exists Ce.
  rewrite e0 in *. split; [exact HG|]. split; [exact slow_sensible|]. cbn in E. assert (R0 := rpow_nonneg Ce (1 / 2) P).
  assert (SQ : rpow Ce (1 / 2) * rpow Ce (1 / 2) = Ce).
  { destruct (Req_dec Ce 0) as [->|Nz]; [rewrite !rpow_0; lra|]. rewrite <- rpow_plus by lra. replace (1 / 2 + 1 / 2) with 1 by field. apply rpow_1, P. }
  assert (HP : 0 < Ce). { destruct P as [P|P]; [exact P|exfalso]. assert (rpow Ce (1 / 2) = 0) by nra. nra. }
  split; [exact HP|].
  assert (LA := C188_lasts jac 3 demo_carbon 10 slow_comp 0 (3000 * 60) 1 (fun _ => 0) HG slow_sensible ltac:(cbn; lra) ltac:(cbn; lra) ltac:(lra) ltac:(lra)).
  assert (BD := C188_bounds jac 3 demo_carbon 10 slow_comp 0 (3000 * 60)).
  destruct (weights_third jac 3 HG) as (WP & WS). revert LA BD WP.
  unfold recur_colloc_symm. cbv zeta. rewrite e0. set (W := Wx 3 (rootsu jac 3 3) 3). intros LA BD WP.
  split; [cbn; exact E|]. split; [exact LA|]. intros C Y HF HC HY.
  destruct (BD C Y HG slow_sensible HF ltac:(lra) HY (3000 * 60) ltac:(lra)) as (L & _). rewrite HC in L.
  cbn [kf slow_comp f_radius demo_carbon] in L.
  assert (CC := content_constant 3 _ _ _ 0 (3000 * 60) C Y HF ltac:(lia) ltac:(apply Rgt_not_eq, WP; lia) ltac:(cbn; lra) ltac:(cbn; lra) (3000 * 60) ltac:(lra)).
  unfold content, bead_mean in CC. rewrite (rsum_zero 3 (fun i => _ * Y i 0)) in CC by (intros i Hi; rewrite HY by exact Hi; ring). rewrite HC in CC.
  cbn [q_E eqn_of] in CC. fold W in CC. unfold Kd_of. set (S := 3 * rsum 3 (fun i => W i * Y i (3000 * 60))) in *. set (X := C (3000 * 60)) in *.
  assert (LX : 99 / 100 <= X).
  { eapply Rle_trans; [|exact L]. rewrite Rmult_1_l. eapply Rle_trans; [|apply exp_ineq1_le]. lra. }
  cbn. set (s := rpow Ce (1 / 2)) in *.
  assert (CE : Ce < 7 / 10) by (destruct (Rlt_dec Ce (7 / 10)) as [L'|L']; [exact L'|exfalso; nra]).
  assert (Ps : 0 < s) by nra.
  assert (SX : S / X <= 10 ^ 5 / 99). { apply Rmult_le_reg_r with X; [lra|]. unfold Rdiv at 1. rewrite Rmult_assoc, Rinv_l by lra. lra. }
  assert (Q : 50000 <= 1 / 2 * 1000 * 100 * s / Ce).
  { apply Rmult_le_reg_r with Ce; [exact HP|]. replace (1 / 2 * 1000 * 100 * s / Ce * Ce) with (50000 * s) by (field; lra). assert (s <= 1) by nra. nra. }
  lra.
Qed.

(** The hypotheses are met, see also [settles_met]. *)
Example limit_met : exists jacobi Ce, contactor_grid jacobi 3 /\ sensible demo_carbon 10 demo_comp /\ 0 < Ce /\
  let eps := 1 - 10 / (f_dw demo_carbon * 10 ^ 6) in
  eps * Ce + (1 - eps) * (f_density demo_carbon * 1000 * K demo_comp * rpow Ce (xn demo_comp)) = eps * 1.
Proof.
  destruct settles_met as (jac & Ce & HG & HS & HC & X). exists jac, Ce. split; [exact HG|]. split; [exact HS|]. split; [lra|].
  revert X. unfold recur_colloc_symm. cbv zeta. intros (E & _). rewrite E. rewrite (rsum_zero 3) by (intros; ring). ring.
Qed.
Print Assumptions C190_limit_partial.
Print Assumptions C190_duration_refuted.
