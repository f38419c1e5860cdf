(** C204 — under a constant influent fresh grains at the inlet of a carbon bed fill up to equilibrium. *)
From Coq Require Import Reals List Arith Bool Lra Lia ZArith.
From Verif Require Import Lib_Py Lib_Sum Lib_Pow Lib_Traj M_Colloc S_Colloc P_Colloc S_Radial P_Radial P_RadialSign P_PacBound
  M_GacFun M_GacColumn S_GacColumn P_GacFun P_GacColumn P_GacUnique Props_GacColumn Props_Exist Props_Negative Props_Inside P_InsideGac Props_InsideGac Props_InsideTwo P_InletTwo P_L1 Props_Grain Props_GrainCap Props_GrainFill Props_BedLasts.
Import ListNotations.
Open Scope R_scope.

(** what rises at least at the rate d has risen by d times the time *)
Lemma rises_by a b Tf f f' d : 0 <= a -> a <= b -> b <= Tf -> evolves 0 Tf f f' -> (forall t, a < t < b -> d <= f' t) -> d * (b - a) <= f b - f a.
Proof.
  intros A AB B (CO & DE) L.
  assert (E : evolves a b (fun t => - 1 * f t + d * t) (fun t => - 1 * f' t + d * 1)).
  { apply evolves_plus; [apply evolves_scal; split; intros t T; [apply CO|apply DE]; lra|]. apply evolves_scal. split; intros s _; [apply derivable_continuous_pt, derivable_pt_id|apply derivable_pt_lim_id]. }
  assert (X := evolves_nonincreasing a b _ _ E ltac:(intros t T; specialize (L t T); lra) b ltac:(lra)). cbv beta in X. lra.
Qed.

Theorem C204_fresh_grains_fill_up : forall inv legendre jroots nz ne m g,
  good_library inv legendre jroots 2 nz -> calc_solver_matrix inv legendre jroots 2 nz ne = Ok m ->
  (* one compound, two radial points; the tortuosity does not change *)
  physical g -> x_n g = 1%nat -> 0 < kf_v g 0 -> 0 <= ds_v g 0 < dp_v g 0 ->
  x_organic_free g = true -> 0 < x_tortu g -> ds_v g 0 * x_tortu g <= dp_v g 0 ->
  forall C b eps, 0 < C -> 0 < eps ->
  (* from some time on, which depends on the column, the influent and eps only *)
  exists T0, 0 < T0 /\ forall Tf y,
  gac_trajectory (x_n g) 2 (m_c m) (diffun g m 2 (fun _ => [(0, C); (b, C)]) (fun _ _ => 1)) Tf y ->
  (forall r, (r < 2)%nat -> y 0 0%nat r 0%nat = 0) ->
  forall t r, T0 <= t <= Tf -> (r < 2)%nat -> equilibrium_loading g C - eps <= y t 0%nat r 0%nat <= equilibrium_loading g C.
Proof.
  intros inv legendre jroots nz ne m g HG Hm HP H1 Hkf Hds OF TP Htor C bt eps HC EPS. assert (Hi : (0 < x_n g)%nat) by lia.
  destruct (C199_weights inv legendre jroots 2 nz ne m HG Hm) as (WP & _). assert (W0 := WP 0%nat ltac:(lia)). assert (W1 := WP 1%nat ltac:(lia)).
  assert (SG := radial_sign inv legendre jroots 2 nz ne m HG Hm 0 ltac:(lia)). cbn [Nat.sub pow] in SG.
  assert (B0 : b_r m 0%nat 0%nat = - b_r m 0%nat 1%nat).
  { assert (HD := grid_distinct inv legendre jroots 2 nz ne m HG Hm). assert (RS := Bx_constant 2 (gac_rr jroots 2) HD 3 1 0%nat ltac:(lia)). unfold apply_row in RS. cbn [rsum] in RS.
    rewrite <- !(radial_same inv legendre jroots 2 nz ne m HG Hm) in RS by lia. lra. }
  assert (MC := mc_pos inv legendre jroots 2 nz ne m Hm). assert (SP := stdv_pos g 0 HP Hkf). assert (DG := dg_pos g HP 0%nat Hi).
  assert (BP := beds_pos g 0 HP Hi ltac:(lra) ltac:(lra) (fun _ => TP)). assert (CB := cb0_pos g HP 0%nat Hi). assert (MW := ph_mw g HP 0%nat Hi). assert (U := ph_mul g HP).
  assert (DI : 0 < dgI g 0) by (unfold dgI; apply Rdiv_lt_0_compat; lra). set (st0 := stdv g 0 * dgI g 0). assert (ST : 0 < st0) by (apply Rmult_lt_0_compat; assumption).
  set (b := b_r m 0%nat 1%nat) in *. set (w0 := w_r m 0%nat) in *. set (w1 := w_r m 1%nat) in *. assert (BB : 0 < b) by lra.
  set (qm := equilibrium_loading g C) in *. set (cm := C * x_mass_mul g / x_mw g 0 / cb0 g 0).
  assert (CMP : 0 < cm) by (unfold cm; repeat apply Rdiv_lt_0_compat; try assumption; apply Rmult_lt_0_compat; assumption).
  assert (XN := ph_xn g HP 0%nat Hi). assert (XI : 0 < xni g 0) by (unfold xni; apply Rdiv_lt_0_compat; lra). assert (QP : 0 < qm) by (apply rpow_pos; exact CMP).
  assert (QC : rpow qm (xni g 0) = cm).
  { unfold qm, equilibrium_loading. fold cm. rewrite rpow_rpow by lra. unfold xni. replace (x_xn g 0 * (1 / x_xn g 0)) with 1 by (field; lra). apply rpow_1. lra. }
  set (ff := fun t => at_time g (foulFA g (fun _ _ => 1)) t). assert (FF : forall t, 0 <= ff t 0%nat) by (intros s; apply foul_nonneg).
  assert (FF1 : forall t, ff t 0%nat = 1) by (intros t; unfold ff; rewrite at_time_same by reflexivity; unfold foulFA; replace (1 / 1) with 1 by field; apply rpow_one_base).
  assert (TOR : forall T k, minute_until g T k -> ds_v g 0 * (if x_organic_free g then x_tortu g else Rmax 1 (334 / 1000 + 661 / 100000000 * INR k)) <= dp_v g 0) by (intros; rewrite OF; exact Htor).
  assert (FA : forall t, 0 <= t -> 0 <= bedp g 0 * at_time g (facA g) t 0) by (intros s S; apply (pore_rate_nonneg g 0 s s HP Hi Hds (fun _ => TP) (TOR s)); lra).
  (* between the target and equilibrium *)
  set (a2 := Rmax (qm / 2) (qm - eps)). assert (A2 : 0 < a2 < qm /\ qm - eps <= a2) by (unfold a2; split; [split; [apply Rlt_le_trans with (qm / 2); [lra|apply Rmax_l]|apply Rmax_lub_lt; lra]|apply Rmax_r]).
  set (a1 := (a2 + qm) / 2). assert (A1 : a2 < a1 < qm) by (unfold a1; lra).
  set (d1 := st0 * (cm - rpow a1 (xni g 0))). assert (D1 : 0 < d1) by (apply Rmult_lt_0_compat; [exact ST|]; rewrite <- QC; assert (X := rpow_lt a1 qm (xni g 0) ltac:(lra) XI); lra).
  set (d2 := b * (beds g 0 * (a1 - a2))). assert (D2 : 0 < d2) by (apply Rmult_lt_0_compat; [lra|apply Rmult_lt_0_compat; lra]).
  set (T1 := (w0 + w1) * qm / d1 + 1). set (T2 := qm / d2 + 1).
  assert (WQ : 0 < (w0 + w1) * qm) by (apply Rmult_lt_0_compat; lra).
  assert (P1 : 0 < T1) by (unfold T1; assert (0 < (w0 + w1) * qm / d1) by (apply Rdiv_lt_0_compat; assumption); lra). assert (P2 : 0 < T2) by (unfold T2; assert (0 < qm / d2) by (apply Rdiv_lt_0_compat; assumption); lra).
  exists (T1 + T2). split; [lra|]. intros Tf y TY FRESH.
  assert (MONO := C204_fresh_grains_only_fill inv legendre jroots nz ne m g HG Hm HP H1 Hkf Hds OF TP Htor C bt (fun _ => 1) Tf y ltac:(lra) TY FRESH).
  assert (CAP : forall t r, 0 <= t <= Tf -> (r < 2)%nat -> y t 0%nat r 0%nat <= qm).
  { apply (C204_never_above_equilibrium inv legendre jroots nz ne m g HG Hm HP H1 Hkf Hds (fun _ => TP) _ _ Tf y C (TOR Tf) TY); [intros; lra|exact HC| |].
    - intros k _. cbn [interp_x]. unfold line, Rdiv. replace (C - C) with 0 by ring. lra.
    - intros q Q. rewrite FRESH by exact Q. fold qm. lra. }
  intros t r T HR. split; [|apply CAP; [lra|exact HR]].
  assert (CIN : forall s, at_time g (cinfA g (fun _ => [(0, C); (bt, C)])) s 0 = cm).
  { intros s. rewrite at_time_same by (intros k; apply cinf_constant). unfold cinfA, cm. cbn [cin_table map interp_x fst snd]. unfold line, Rdiv. ring. }
  set (P := fun k s => cpore g 2 (ff s) (y s) 0 k 0). set (F := fun k s => bedp g 0 * at_time g (facA g) s 0 * P k s + beds g 0 * y s 0%nat k 0%nat).
  assert (Y0 : evolves 0 Tf (fun t => y t 0%nat 0%nat 0%nat) (fun t => b * (F 1%nat t - F 0%nat t))).
  { eapply evolves_ext; [reflexivity| |apply (TY 0%nat 0%nat 0%nat Hi ltac:(lia) MC)]. intros s _. cbv beta. unfold F, P, ff, diffun, gac_rhs, bb. cbn [Nat.ltb Nat.leb Nat.sub rsum]. rewrite B0. fold b. ring. }
  assert (Y1 : evolves 0 Tf (fun t => y t 0%nat 1%nat 0%nat) (fun t => ((cm - P 1%nat t) * st0 - w0 * (b * (F 1%nat t - F 0%nat t))) / w1)).
  { eapply evolves_ext; [reflexivity| |apply (TY 0%nat 1%nat 0%nat Hi ltac:(lia) MC)]. intros s _. cbv beta. unfold F, P, ff, diffun, gac_rhs, ww, bb. cbn [Nat.ltb Nat.leb Nat.sub Nat.eqb rsum]. rewrite CIN, B0. fold b w0 w1 st0. f_equal. ring. }
  assert (W : evolves 0 Tf (fun t => w0 * y t 0%nat 0%nat 0%nat + w1 * y t 0%nat 1%nat 0%nat) (fun t => (cm - P 1%nat t) * st0)).
  { eapply evolves_ext; [reflexivity| |apply (evolves_plus 0 Tf _ _ _ _ (evolves_scal 0 Tf w0 _ _ Y0) (evolves_scal 0 Tf w1 _ _ Y1))]. intros s _. cbv beta. field. lra. }
  assert (PA : forall a k s, 0 < a -> cpore g 2 (ff s) (fun _ _ _ => a) 0 k 0 = rpow a (xni g 0)) by (intros a k s A; rewrite (pore_some g 2 (ff s) HP H1 (FF s)) by exact A; rewrite FF1; ring).
  assert (BELOW : forall a k s, 0 < a -> y s 0%nat k 0%nat <= a -> P k s <= rpow a (xni g 0)) by (intros a k s A L; rewrite <- (PA a k s A); apply (pore_up g 2 (ff s) HP H1 (FF s)); exact L).
  assert (ABOVE : forall a k s, 0 < a -> a <= y s 0%nat k 0%nat -> rpow a (xni g 0) <= P k s) by (intros a k s A L; rewrite <- (PA a k s A); apply (pore_up g 2 (ff s) HP H1 (FF s)); exact L).
  (* the surface point *)
  assert (S1 : a1 <= y T1 0%nat 1%nat 0%nat).
  { apply Rnot_lt_le. intros N. assert (X := rises_by 0 T1 Tf _ _ d1 ltac:(lra) ltac:(lra) ltac:(lra) W). lapply X; [clear X; intros X|clear X].
    - cbv beta in X. rewrite !FRESH in X by lia. assert (C0 := CAP T1 0%nat ltac:(lra) ltac:(lia)). assert (C1 := CAP T1 1%nat ltac:(lra) ltac:(lia)).
      assert (M0 : w0 * y T1 0%nat 0%nat 0%nat <= w0 * qm) by (apply Rmult_le_compat_l; lra). assert (M1 : w1 * y T1 0%nat 1%nat 0%nat <= w1 * qm) by (apply Rmult_le_compat_l; lra).
      assert (E : d1 * (T1 - 0) = (w0 + w1) * qm + d1) by (unfold T1; field; lra). lra.
    - intros s S. cbv beta. assert (L := MONO s T1 1%nat ltac:(lra) ltac:(lra) ltac:(lia)). assert (Q := BELOW a1 1%nat s ltac:(lra) ltac:(lra)).
      unfold d1. rewrite (Rmult_comm st0). apply Rmult_le_compat_r; lra. }
  (* the inner point *)
  assert (S0 : a2 <= y (T1 + T2) 0%nat 0%nat 0%nat).
  { apply Rnot_lt_le. intros N. assert (X := rises_by T1 (T1 + T2) Tf _ _ d2 ltac:(lra) ltac:(lra) ltac:(lra) Y0). lapply X; [clear X; intros X|clear X].
    - cbv beta in X. assert (C0 := CAP (T1 + T2) 0%nat ltac:(lra) ltac:(lia)). destruct (MONO T1 T1 0%nat ltac:(lra) ltac:(lra) ltac:(lia)) as (Z & _).
      assert (E : d2 * (T1 + T2 - T1) = qm + d2) by (unfold T2; field; lra). lra.
    - intros s S. cbv beta. destruct (MONO s (T1 + T2) 0%nat ltac:(lra) ltac:(lra) ltac:(lia)) as (_ & L0). destruct (MONO T1 s 1%nat ltac:(lra) ltac:(lra) ltac:(lia)) as (_ & L1).
      assert (Q0 := BELOW a2 0%nat s ltac:(lra) ltac:(lra)). assert (Q1 := ABOVE a1 1%nat s ltac:(lra) ltac:(lra)). assert (Q2 := rpow_lt a2 a1 (xni g 0) ltac:(lra) XI).
      unfold d2. apply Rmult_le_compat_l; [lra|]. unfold F. set (k := bedp g 0 * at_time g (facA g) s 0). assert (KP : 0 <= k) by (apply FA; lra).
      assert (V1 : 0 <= k * (P 1%nat s - P 0%nat s)) by (apply Rmult_le_pos; lra). assert (V2 : beds g 0 * (a1 - a2) <= beds g 0 * (y s 0%nat 1%nat 0%nat - y s 0%nat 0%nat 0%nat)) by (apply Rmult_le_compat_l; lra). lra. }
  destruct r as [|[|r]]; [|clear S0|lia].
  - destruct (MONO (T1 + T2) t 0%nat ltac:(lra) ltac:(lra) ltac:(lia)) as (_ & L). lra.
  - destruct (MONO T1 t 1%nat ltac:(lra) ltac:(lra) ltac:(lia)) as (_ & L). lra.
Qed.
Print Assumptions C204_fresh_grains_fill_up.

(** The example bed at 100 ug/L, run for long enough: its inlet grains are within a hundredth of equilibrium. *)
Example carbon_fills_up : exists m T0 y, 0 < T0 /\ calc_solver_matrix inv23 leg_mid jac_one 2 3 1 = Ok m /\
  gac_trajectory 1 2 (m_c m) (diffun (g_ex 1 true 1) m 2 (fun _ => [(0, 100); (1000, 100)]) (fun _ _ => 1)) T0 y /\ y 0 0%nat 0%nat 0%nat = 0 /\
  forall r, (r < 2)%nat -> equilibrium_loading (g_ex 1 true 1) 100 - 1 / 100 <= y T0 0%nat r 0%nat <= equilibrium_loading (g_ex 1 true 1) 100.
Proof.
  destruct carbon_bed_runs as (m & Hm & RUN). exists m. set (g := g_ex 1 true 1) in *.
  assert (HP : physical g) by (apply physical_example; lia).
  assert (E9 : 10 ^ 9 = 1000000000) by (simpl; ring). assert (E6 : 10 ^ 6 = 1000000) by (simpl; ring).
  assert (ED : ds_v g 0 = 1 / 10 ^ 9). { unfold ds_v. cbn [x_ds x_organic_free g g_ex]. rewrite (proj2 (rltb_true _ _)) by (rewrite E9; lra). reflexivity. }
  assert (EP : dp_v g 0 = 1 / 10 ^ 6). { unfold dp_v. cbn [x_dp g g_ex]. rewrite (proj2 (rltb_true _ _)) by (rewrite E6; lra). reflexivity. }
  destruct (C204_fresh_grains_fill_up inv23 leg_mid jac_one 3 1 m g library_example Hm HP eq_refl) with (C := 100) (b := 1000) (eps := 1 / 100) as (T0 & P0 & AL).
  - unfold kf_v. cbn [x_kf g g_ex]. rewrite (proj2 (rltb_true _ _)) by lra. lra.
  - rewrite ED, EP, E9, E6. lra.
  - reflexivity.
  - cbn. lra.
  - rewrite ED, EP, E9, E6. cbn [x_tortu g g_ex]. lra.
  - lra.
  - lra.
  - destruct (RUN T0 ltac:(lra)) as (y & TY & Y0). exists T0, y. assert (MC := mc_pos inv23 leg_mid jac_one 2 3 1 m Hm).
    split; [exact P0|]. split; [exact Hm|]. split; [exact TY|]. split; [apply Y0; lia|]. intros r HR. apply (AL T0 y TY); [intros q Q; apply Y0; lia|lra|exact HR].
Qed.
