(** C204 — under a constant influent fresh grains at the inlet of a carbon bed only fill, and spent ones only empty. *)
From Coq Require Import Reals List Arith Bool Lra Lia ZArith FunctionalExtensionality.
From Verif Require Import Lib_Py Lib_Sum Lib_Pow Lib_Traj M_Colloc S_Colloc P_Colloc S_Radial P_Radial
  M_GacFun M_GacColumn S_GacColumn P_GacFun P_GacColumn Props_GacColumn Props_Exist Props_Negative Props_Inside P_InsideGac Props_InsideGac Props_InsideTwo P_InletTwo Props_Track Props_Grain Props_GrainCap.
Import ListNotations.
Open Scope R_scope.

(** a table that does not change in time has one value at all times *)
Lemma at_time_same g A t i : (forall k, A k i = A 0%nat i) -> at_time g A t i = A 0%nat i.
Proof. intros E. unfold at_time. cbv zeta. rewrite !(E (S _)), !(E (Z.to_nat _)). ring. Qed.
Lemma cinf_constant g C b k i : cinfA g (fun _ => [(0, C); (b, C)]) k i = cinfA g (fun _ => [(0, C); (b, C)]) 0 i.
Proof. unfold cinfA. cbn [cin_table map interp_x fst snd]. unfold line, Rdiv. ring. Qed.

(** with a constant influent, constant fouling and constant tortuosity the equations do not depend on time *)
Lemma diffun_timeless g m C b phi s t u : x_organic_free g = true ->
  diffun g m 2 (fun _ => [(0, C); (b, C)]) (fun i _ => phi i) s u = diffun g m 2 (fun _ => [(0, C); (b, C)]) (fun i _ => phi i) t u.
Proof.
  intros OF. unfold diffun.
  assert (E1 : at_time g (cinfA g (fun _ => [(0, C); (b, C)])) s = at_time g (cinfA g (fun _ => [(0, C); (b, C)])) t)
    by (apply functional_extensionality; intros i; rewrite !at_time_same; [reflexivity|intros k; apply cinf_constant|intros k; apply cinf_constant]).
  assert (E2 : at_time g (foulFA g (fun i _ => phi i)) s = at_time g (foulFA g (fun i _ => phi i)) t)
    by (apply functional_extensionality; intros i; rewrite !at_time_same; reflexivity).
  assert (E3 : at_time g (facA g) s = at_time g (facA g) t).
  { apply functional_extensionality; intros i. rewrite !at_time_same; [reflexivity| |]; intros k; unfold facA, tortu_t; rewrite OF; reflexivity. }
  rewrite E1, E2, E3. reflexivity.
Qed.

(** the run from time d on is a run of the same column *)
Lemma run_later g m C b phi d Tf y : x_organic_free g = true -> 0 <= d ->
  gac_trajectory (x_n g) 2 (m_c m) (diffun g m 2 (fun _ => [(0, C); (b, C)]) (fun i _ => phi i)) Tf y ->
  gac_trajectory (x_n g) 2 (m_c m) (diffun g m 2 (fun _ => [(0, C); (b, C)]) (fun i _ => phi i)) (Tf - d) (fun w => y (d + w)).
Proof.
  intros OF HD TY i q z I Q Z. assert (X := evolves_later d Tf _ _ (TY i q z I Q Z) HD). cbv beta in X.
  replace (fun w => diffun g m 2 (fun _ => [(0, C); (b, C)]) (fun i _ => phi i) w (y (d + w)) i q z)
    with (fun w => diffun g m 2 (fun _ => [(0, C); (b, C)]) (fun i _ => phi i) (d + w) (y (d + w)) i q z); [exact X|].
  apply functional_extensionality. intros w. rewrite (diffun_timeless g m C b phi (d + w) w (y (d + w)) OF). reflexivity.
Qed.

Theorem C204_fresh_grains_only_fill : forall inv legendre jroots nz ne m g,
  good_library inv legendre jroots 2 nz -> calc_solver_matrix inv legendre jroots 2 nz ne = Ok m ->
  (* one compound, two radial points; the tortuosity does not change *)
  physical g -> x_n g = 1%nat -> 0 < kf_v g 0 -> 0 <= ds_v g 0 < dp_v g 0 ->
  x_organic_free g = true -> 0 < x_tortu g -> ds_v g 0 * x_tortu g <= dp_v g 0 ->
  forall C b phi Tf y, 0 <= C ->
  (* the influent is C and the carbon fouled to a constant degree *)
  gac_trajectory (x_n g) 2 (m_c m) (diffun g m 2 (fun _ => [(0, C); (b, C)]) (fun i _ => phi i)) Tf y ->
  (* the grains start fresh *)
  (forall r, (r < 2)%nat -> y 0 0%nat r 0%nat = 0) ->
  forall s t r, 0 <= s -> s <= t <= Tf -> (r < 2)%nat -> 0 <= y s 0%nat r 0%nat <= y t 0%nat r 0%nat.
Proof.
  intros inv legendre jroots nz ne m g HG Hm HP H1 Hkf Hds OF TP Htor C b phi Tf y HC TY FRESH s t r S0 ST HR.
  assert (Hi : (0 < x_n g)%nat) by lia.
  assert (TOR : forall T k, minute_until g T k -> ds_v g 0 * (if x_organic_free g then x_tortu g else Rmax 1 (334 / 1000 + 661 / 100000000 * INR k)) <= dp_v g 0) by (intros; rewrite OF; exact Htor).
  assert (POS : forall w, 0 <= w <= Tf -> 0 <= y w 0%nat 0%nat 0%nat /\ 0 <= y w 0%nat 1%nat 0%nat).
  { apply (C196_bed_two_points_partial inv legendre jroots nz ne m g (fun _ => [(0, C); (b, C)]) (fun i _ => phi i) Tf y 0 HG Hm HP Hi Hkf Hds (fun _ => TP) (TOR Tf)).
    - intros k. cbn [interp_x]. unfold line, Rdiv. replace (C - C) with 0 by ring. lra.
    - exact TY.
    - rewrite FRESH by lia. lra.
    - rewrite FRESH by lia. lra. }
  assert (PS : 0 <= y s 0%nat r 0%nat) by (destruct (POS s ltac:(lra)) as (P0 & P1); destruct r as [|[|r]]; [exact P0|exact P1|lia]).
  split; [exact PS|]. set (d := t - s).
  assert (TX := run_later g m C b phi d Tf y OF ltac:(unfold d; lra) TY).
  assert (TY' : gac_trajectory (x_n g) 2 (m_c m) (diffun g m 2 (fun _ => [(0, C); (b, C)]) (fun i _ => phi i)) (Tf - d) y).
  { intros i q z I Q Z. apply (evolves_sub 0 Tf); [unfold d; lra|exact (TY i q z I Q Z)]. }
  assert (X := C204_more_in_more_on inv legendre jroots nz ne m g HG Hm HP H1 Hkf Hds (fun _ => TP) _ _ _ (Tf - d) y (fun w => y (d + w)) (TOR _) TY' TX ltac:(intros k _; lra)).
  cbv beta in X. replace t with (d + s) by (unfold d; ring). apply X; [|unfold d; lra|exact HR].
  intros q Q. rewrite FRESH by exact Q. replace (d + 0) with d by ring. destruct (POS d ltac:(unfold d; lra)) as (P0 & P1); destruct q as [|[|q]]; [exact P0|exact P1|lia].
Qed.
Print Assumptions C204_fresh_grains_only_fill.

Theorem C204_spent_grains_only_empty : forall inv legendre jroots nz ne m g,
  good_library inv legendre jroots 2 nz -> calc_solver_matrix inv legendre jroots 2 nz ne = Ok m ->
  (* one compound, two radial points; the tortuosity does not change *)
  physical g -> x_n g = 1%nat -> 0 < kf_v g 0 -> 0 <= ds_v g 0 < dp_v g 0 ->
  x_organic_free g = true -> 0 < x_tortu g -> ds_v g 0 * x_tortu g <= dp_v g 0 ->
  forall C b phi Tf y C0, 0 < phi 0%nat <= 1 ->
  gac_trajectory (x_n g) 2 (m_c m) (diffun g m 2 (fun _ => [(0, C); (b, C)]) (fun i _ => phi i)) Tf y ->
  (* the grains start in equilibrium with water that holds at least as much as the influent *)
  0 < C0 -> C <= C0 -> (forall r, (r < 2)%nat -> y 0 0%nat r 0%nat = equilibrium_loading g C0) ->
  forall s t r, 0 <= s -> s <= t <= Tf -> (r < 2)%nat -> y t 0%nat r 0%nat <= y s 0%nat r 0%nat.
Proof.
  intros inv legendre jroots nz ne m g HG Hm HP H1 Hkf Hds OF TP Htor C b phi Tf y C0 PHI TY HC LE START s t r S0 ST HR.
  assert (TOR : forall T k, minute_until g T k -> ds_v g 0 * (if x_organic_free g then x_tortu g else Rmax 1 (334 / 1000 + 661 / 100000000 * INR k)) <= dp_v g 0) by (intros; rewrite OF; exact Htor).
  set (d := t - s).
  assert (TOP : forall q, (q < 2)%nat -> y d 0%nat q 0%nat <= equilibrium_loading g C0).
  { intros q Q. apply (C204_never_above_equilibrium inv legendre jroots nz ne m g HG Hm HP H1 Hkf Hds (fun _ => TP) _ _ Tf y C0 (TOR Tf) TY); [intros; exact PHI|exact HC| | |unfold d; lra|exact Q].
    - intros k _. cbn [interp_x]. unfold line, Rdiv. replace (C - C) with 0 by ring. lra.
    - intros q' Q'. rewrite START by exact Q'. lra. }
  assert (TX := run_later g m C b phi d Tf y OF ltac:(unfold d; lra) TY).
  assert (TY' : gac_trajectory (x_n g) 2 (m_c m) (diffun g m 2 (fun _ => [(0, C); (b, C)]) (fun i _ => phi i)) (Tf - d) y).
  { intros i q z I Q Z. apply (evolves_sub 0 Tf); [unfold d; lra|exact (TY i q z I Q Z)]. }
  assert (X := C204_more_in_more_on inv legendre jroots nz ne m g HG Hm HP H1 Hkf Hds (fun _ => TP) _ _ _ (Tf - d) (fun w => y (d + w)) y (TOR _) TX TY' ltac:(intros k _; lra)).
  cbv beta in X. replace t with (d + s) by (unfold d; ring). apply X; [|unfold d; lra|exact HR].
  intros q Q. rewrite (START q Q). replace (d + 0) with d by ring. apply TOP, Q.
Qed.
Print Assumptions C204_spent_grains_only_empty.

(** One compound at 100 ug/L on fresh carbon: the loading only rises. *)
Example carbon_fills : exists m Tf y, 0 < Tf /\ calc_solver_matrix inv23 leg_mid jac_one 2 3 1 = Ok m /\
  gac_trajectory 1 2 (m_c m) (diffun (g_ex 1 true 1) m 2 (fun _ => [(0, 100); (1000, 100)]) (fun _ _ => 1)) Tf y /\
  forall s t r, 0 <= s -> s <= t <= Tf -> (r < 2)%nat -> 0 <= y s 0%nat r 0%nat <= y t 0%nat r 0%nat.
Proof.
  destruct (matrices_example 1 (le_n 1)) as (m & Hm & M3). exists m. set (g := g_ex 1 true 1).
  assert (HP : physical g) by (apply physical_example; lia).
  assert (Hx : forall j, (j < x_n g)%nat -> x_xn g j <= 1) by (intros j _; cbn; lra).
  assert (E9 : 10 ^ 9 = 1000000000) by (simpl; ring). assert (E6 : 10 ^ 6 = 1000000) by (simpl; ring).
  assert (ED : ds_v g 0 = 1 / 10 ^ 9). { unfold ds_v. cbn [x_ds x_organic_free g g_ex]. rewrite (proj2 (rltb_true _ _)) by (rewrite E9; lra). reflexivity. }
  assert (EP : dp_v g 0 = 1 / 10 ^ 6). { unfold dp_v. cbn [x_dp g g_ex]. rewrite (proj2 (rltb_true _ _)) by (rewrite E6; lra). reflexivity. }
  destruct (C168_carbon_column_starts g m 2 (fun _ => [(0, 100); (1000, 100)]) (fun _ _ => 1) 1 (fun _ _ _ => 0) HP Hx ltac:(lia) ltac:(lra)) as (Tf & y & HT & TY & Y0).
  exists Tf, y. split; [lra|]. split; [exact Hm|]. split; [exact TY|].
  apply (C204_fresh_grains_only_fill inv23 leg_mid jac_one 3 1 m g library_example Hm HP eq_refl) with (C := 100) (b := 1000) (phi := fun _ => 1).
  - unfold kf_v. cbn [x_kf g g_ex]. rewrite (proj2 (rltb_true _ _)) by lra. lra.
  - rewrite ED, EP, E9, E6. lra.
  - reflexivity.
  - cbn. lra.
  - rewrite ED, EP, E9, E6. cbn [x_tortu g g_ex]. lra.
  - lra.
  - exact TY.
  - intros r R1. rewrite Y0 by (cbn; lia). reflexivity.
Qed.

(** Carbon in equilibrium with 100 ug/L, fed 10 ug/L: the loading only falls. *)
Example carbon_empties : exists m Tf y, 0 < Tf /\ calc_solver_matrix inv23 leg_mid jac_one 2 3 1 = Ok m /\
  gac_trajectory 1 2 (m_c m) (diffun (g_ex 1 true 1) m 2 (fun _ => [(0, 10); (1000, 10)]) (fun _ _ => 1)) Tf y /\
  forall s t r, 0 <= s -> s <= t <= Tf -> (r < 2)%nat -> y t 0%nat r 0%nat <= y s 0%nat r 0%nat.
Proof.
  destruct (matrices_example 1 (le_n 1)) as (m & Hm & M3). exists m. set (g := g_ex 1 true 1).
  assert (HP : physical g) by (apply physical_example; lia).
  assert (Hx : forall j, (j < x_n g)%nat -> x_xn g j <= 1) by (intros j _; cbn; lra).
  assert (E9 : 10 ^ 9 = 1000000000) by (simpl; ring). assert (E6 : 10 ^ 6 = 1000000) by (simpl; ring).
  assert (ED : ds_v g 0 = 1 / 10 ^ 9). { unfold ds_v. cbn [x_ds x_organic_free g g_ex]. rewrite (proj2 (rltb_true _ _)) by (rewrite E9; lra). reflexivity. }
  assert (EP : dp_v g 0 = 1 / 10 ^ 6). { unfold dp_v. cbn [x_dp g g_ex]. rewrite (proj2 (rltb_true _ _)) by (rewrite E6; lra). reflexivity. }
  destruct (C168_carbon_column_starts g m 2 (fun _ => [(0, 10); (1000, 10)]) (fun _ _ => 1) 1 (fun _ _ _ => equilibrium_loading g 100) HP Hx ltac:(lia) ltac:(lra)) as (Tf & y & HT & TY & Y0).
  exists Tf, y. split; [lra|]. split; [exact Hm|]. split; [exact TY|].
  apply (C204_spent_grains_only_empty inv23 leg_mid jac_one 3 1 m g library_example Hm HP eq_refl) with (C := 10) (b := 1000) (phi := fun _ => 1) (C0 := 100).
  - unfold kf_v. cbn [x_kf g g_ex]. rewrite (proj2 (rltb_true _ _)) by lra. lra.
  - rewrite ED, EP, E9, E6. lra.
  - reflexivity.
  - cbn. lra.
  - rewrite ED, EP, E9, E6. cbn [x_tortu g g_ex]. lra.
  - lra.
  - exact TY.
  - lra.
  - lra.
  - intros r R1. rewrite Y0 by (cbn; lia). reflexivity.
Qed.
