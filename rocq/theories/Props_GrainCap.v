(** C204 — grains at the inlet of a carbon bed hold at most what equilibrium with the highest influent allows. *)
From Coq Require Import Reals List Arith Bool Lra Lia ZArith.
From Verif Require Import Lib_Py Lib_Sum Lib_Pow Lib_Traj M_Colloc S_Colloc P_Colloc S_Radial P_Radial P_RadialSign P_PacBound
  M_GacFun M_GacColumn S_GacColumn P_GacFun P_GacColumn P_GacUnique Props_GacColumn Props_Exist Props_Negative Props_Inside P_InsideGac Props_InsideGac Props_InsideTwo P_InletTwo P_L1 Props_Grain.
Import ListNotations.
Open Scope R_scope.

(** the relative loading, by the Freundlich isotherm, of clean carbon in equilibrium with water at
    concentration C as in the influent sheet: the solver's loadings and concentrations are relative
    to the first influent *)
Definition equilibrium_loading (g : gac_in) (C : R) : R := rpow (C * x_mass_mul g / x_mw g 0%nat / cb0 g 0%nat) (x_xn g 0%nat).

Theorem C204_never_above_equilibrium : forall inv legendre jroots nz ne m g,
  good_library inv legendre jroots 2 nz -> calc_solver_matrix inv legendre jroots 2 nz ne = Ok m ->
  (* one compound, two radial points *)
  physical g -> x_n g = 1%nat -> 0 < kf_v g 0 -> 0 <= ds_v g 0 < dp_v g 0 -> (x_organic_free g = true -> 0 < x_tortu g) ->
  forall rows foul Tf y Cmax,
  (forall k, minute_until g Tf k -> ds_v g 0 * (if x_organic_free g then x_tortu g else Rmax 1 (334 / 1000 + 661 / 100000000 * INR k)) <= dp_v g 0) ->
  gac_trajectory (x_n g) 2 (m_c m) (diffun g m 2 rows foul) Tf y ->
  (* fouling takes capacity away *)
  (forall k, minute_until g Tf k -> 0 < foul 0%nat (INR k) <= 1) ->
  (* the influent is never above Cmax, and the grains start at most in equilibrium with it *)
  0 < Cmax -> (forall k, minute_until g Tf k -> interp_x (rows 0%nat) (INR k) <= Cmax) ->
  (forall r, (r < 2)%nat -> y 0 0%nat r 0%nat <= equilibrium_loading g Cmax) ->
  forall t r, 0 <= t <= Tf -> (r < 2)%nat -> y t 0%nat r 0%nat <= equilibrium_loading g Cmax.
Proof.
  intros inv legendre jroots nz ne m g HG Hm HP H1 Hkf Hds Htt. assert (Hi : (0 < x_n g)%nat) by lia.
  destruct (C199_weights inv legendre jroots 2 nz ne m HG Hm) as (WP & _). assert (W0 := WP 0%nat ltac:(lia)). assert (W1 := WP 1%nat ltac:(lia)).
  assert (SG := radial_sign inv legendre jroots 2 nz ne m HG Hm 0 ltac:(lia)). cbn [Nat.sub pow] in SG.
  assert (B0 : b_r m 0%nat 0%nat = - b_r m 0%nat 1%nat).
  { assert (HD := grid_distinct inv legendre jroots 2 nz ne m HG Hm). assert (RS := Bx_constant 2 (gac_rr jroots 2) HD 3 1 0%nat ltac:(lia)). unfold apply_row in RS. cbn [rsum] in RS.
    rewrite <- !(radial_same inv legendre jroots 2 nz ne m HG Hm) in RS by lia. lra. }
  assert (MC := mc_pos inv legendre jroots 2 nz ne m Hm). assert (SP := stdv_pos g 0 HP Hkf). assert (DG := dg_pos g HP 0%nat Hi).
  assert (BP := beds_pos g 0 HP Hi ltac:(lra) ltac:(lra) Htt). assert (C := cb0_pos g HP 0%nat Hi). assert (MW := ph_mw g HP 0%nat Hi). assert (U := ph_mul g HP).
  assert (CM : 0 < cb0 g 0 * x_mw g 0) by (apply Rmult_lt_0_compat; assumption). assert (KP : 0 < x_mass_mul g / (cb0 g 0 * x_mw g 0)) by (apply Rdiv_lt_0_compat; assumption).
  assert (DI : 0 < dgI g 0) by (unfold dgI; apply Rdiv_lt_0_compat; lra). set (st0 := stdv g 0 * dgI g 0). assert (ST : 0 < st0) by (apply Rmult_lt_0_compat; assumption).
  intros rows foul Tf y Cmax Htor TY FOUL CP TOP START t r T HR.
  set (qm := equilibrium_loading g Cmax) in *. set (x := fun (_ : R) (_ _ _ : nat) => qm). set (cm := Cmax * x_mass_mul g / x_mw g 0 / cb0 g 0).
  assert (CMP : 0 < cm) by (unfold cm; repeat apply Rdiv_lt_0_compat; try assumption; apply Rmult_lt_0_compat; assumption).
  assert (XN := ph_xn g HP 0%nat Hi). assert (QP : 0 < qm) by (apply rpow_pos; exact CMP).
  assert (QC : rpow qm (xni g 0) = cm).
  { unfold qm, equilibrium_loading. fold cm. rewrite rpow_rpow by lra. unfold xni. replace (x_xn g 0 * (1 / x_xn g 0)) with 1 by (field; lra). apply rpow_1. lra. }
  set (ff := fun t => at_time g (foulFA g foul) t). assert (FF : forall t, 0 <= ff t 0%nat) by (intros s; apply foul_nonneg).
  assert (FA : forall t, 0 <= t <= Tf -> 0 <= bedp g 0 * at_time g (facA g) t 0) by (intros s S; apply (pore_rate_nonneg g 0 Tf s); assumption).
  assert (FF1 : forall s, 0 <= s <= Tf -> 1 <= ff s 0%nat).
  { intros s S. unfold ff. assert (E : 1 = at_time g (fun _ _ => 1) s 0) by (unfold at_time; ring). rewrite E at 1. apply (tables_ordered g _ _ Tf); [exact HP|exact S|]. intros k MU. unfold foulFA. destruct (FOUL k MU) as (A1 & A2).
    assert (L1 : 1 <= 1 / foul 0%nat (INR k)) by (apply (Rmult_le_reg_r (foul 0%nat (INR k))); [exact A1|]; unfold Rdiv; rewrite Rmult_assoc, Rinv_l by lra; lra).
    apply Rle_trans with (rpow 1 (xni g 0)); [rewrite rpow_one_base; lra|]. apply rpow_le; [lra|]. left. unfold xni. apply Rdiv_lt_0_compat; lra. }
  assert (PX : forall s k, cpore g 2 (ff s) (x s) 0 k 0 = ff s 0%nat * cm) by (intros s k; rewrite (pore_some g 2 (ff s) HP H1 (FF s)) by exact QP; unfold x; rewrite QC; reflexivity).
  assert (CN : forall s, 0 <= s <= Tf -> at_time g (cinfA g rows) s 0 <= ff s 0%nat * cm).
  { intros s S. apply Rle_trans with cm; [|assert (0 <= (ff s 0%nat - 1) * cm) by (apply Rmult_le_pos; [specialize (FF1 s S); lra|lra]); lra].
    assert (E : cm = at_time g (fun _ _ => cm) s 0) by (unfold at_time; ring). rewrite E. apply (tables_ordered g _ _ Tf); [exact HP|exact S|]. intros k MU.
    assert (TC := tconv_pos g HP). assert (E2 := C37_inlet_follows_influent g rows 0 k HP Hi). rewrite at_time_minute in E2 by lra. assert (N := TOP k MU). rewrite <- E2 in N.
    unfold cm. set (v := cinfA g rows k 0) in *. assert (KP1 : 0 < cb0 g 0 * x_mw g 0 / x_mass_mul g) by (apply Rdiv_lt_0_compat; assumption).
    apply (Rmult_le_reg_r _ _ _ KP1). replace (Cmax * x_mass_mul g / x_mw g 0 / cb0 g 0 * (cb0 g 0 * x_mw g 0 / x_mass_mul g)) with Cmax by (field; lra). replace (v * (cb0 g 0 * x_mw g 0 / x_mass_mul g)) with (v * cb0 g 0 * x_mw g 0 / x_mass_mul g) by (field; lra). exact N. }
  set (F := fun (v : R -> nat -> nat -> nat -> R) k t => bedp g 0 * at_time g (facA g) t 0 * cpore g 2 (ff t) (v t) 0 k 0 + beds g 0 * v t 0%nat k 0%nat).
  set (b := b_r m 0%nat 1%nat) in *. set (w0 := w_r m 0%nat) in *. set (w1 := w_r m 1%nat) in *.
  assert (RUN : forall rw v, gac_trajectory (x_n g) 2 (m_c m) (diffun g m 2 rw foul) Tf v ->
    evolves 0 Tf (fun t => v t 0%nat 0%nat 0%nat) (fun t => b * (F v 1%nat t - F v 0%nat t)) /\
    evolves 0 Tf (fun t => v t 0%nat 1%nat 0%nat) (fun t => ((at_time g (cinfA g rw) t 0 - cpore g 2 (ff t) (v t) 0 1 0) * st0 - w0 * (b * (F v 1%nat t - F v 0%nat t))) / w1)).
  { intros rw v TV. split.
    - eapply evolves_ext; [reflexivity| |apply (TV 0%nat 0%nat 0%nat Hi ltac:(lia) MC)]. intros s _. cbv beta. unfold F, ff, diffun, gac_rhs, bb. cbn [Nat.ltb Nat.leb Nat.sub rsum]. rewrite B0. fold b. ring.
    - eapply evolves_ext; [reflexivity| |apply (TV 0%nat 1%nat 0%nat Hi ltac:(lia) MC)]. intros s _. cbv beta. unfold F, ff, diffun, gac_rhs, ww, bb. cbn [Nat.ltb Nat.leb Nat.sub Nat.eqb rsum]. rewrite B0. fold b w0 w1 st0. f_equal. ring. }
  destruct (RUN rows y TY) as (Y0 & Y1).
  assert (FX : forall s, F x 1%nat s = F x 0%nat s) by (intros s; unfold F; rewrite !PX; reflexivity).
  assert (X0 : evolves 0 Tf (fun t => x t 0%nat 0%nat 0%nat) (fun t => b * (F x 1%nat t - F x 0%nat t))) by (apply (evolves_ext 0 Tf (fun _ => qm) _ (fun _ => 0)); [reflexivity|intros s _; rewrite FX; ring|apply evolves_const]).
  assert (X1 : evolves 0 Tf (fun t => x t 0%nat 1%nat 0%nat) (fun t => ((ff t 0%nat * cm - cpore g 2 (ff t) (x t) 0 1 0) * st0 - w0 * (b * (F x 1%nat t - F x 0%nat t))) / w1)) by (apply (evolves_ext 0 Tf (fun _ => qm) _ (fun _ => 0)); [reflexivity|intros s _; rewrite FX, PX; field; lra|apply evolves_const]).
  assert (UP : forall k s, 0 <= s <= Tf -> y s 0%nat k 0%nat <= x s 0%nat k 0%nat -> F y k s <= F x k s /\ cpore g 2 (ff s) (y s) 0 k 0 <= cpore g 2 (ff s) (x s) 0 k 0).
  { intros k s S L. assert (PU := pore_up g 2 (ff s) HP H1 (FF s) (y s) (x s) k 0 L). split; [|exact PU]. unfold F. apply Rplus_le_compat; apply Rmult_le_compat_l; try assumption; [apply FA, S|lra]. }
  assert (DOWN : forall k s, 0 <= s <= Tf -> x s 0%nat k 0%nat <= y s 0%nat k 0%nat -> F x k s <= F y k s /\ cpore g 2 (ff s) (x s) 0 k 0 <= cpore g 2 (ff s) (y s) 0 k 0).
  { intros k s S L. assert (PU := pore_up g 2 (ff s) HP H1 (FF s) (x s) (y s) k 0 L). split; [|exact PU]. unfold F. apply Rplus_le_compat; apply Rmult_le_compat_l; try assumption; [apply FA, S|lra]. }
  assert (RES := l1_ordered (fun t => w0 * (y t 0%nat 0%nat 0%nat + - 1 * x t 0%nat 0%nat 0%nat)) _ (fun t => w1 * (y t 0%nat 1%nat 0%nat + - 1 * x t 0%nat 1%nat 0%nat)) _ Tf ltac:(lra)
    (evolves_scal 0 Tf w0 _ _ (evolves_plus 0 Tf _ _ _ _ Y0 (evolves_scal 0 Tf (- 1) _ _ X0))) (evolves_scal 0 Tf w1 _ _ (evolves_plus 0 Tf _ _ _ _ Y1 (evolves_scal 0 Tf (- 1) _ _ X1)))).
  lapply RES; [clear RES; intros RES|clear RES].
  - assert (S0 : y 0 0%nat 0%nat 0%nat <= x 0 0%nat 0%nat 0%nat) by (apply START; lia). assert (S1 : y 0 0%nat 1%nat 0%nat <= x 0 0%nat 1%nat 0%nat) by (apply START; lia).
    assert (Q0 : w0 * (y 0 0%nat 0%nat 0%nat + - 1 * x 0 0%nat 0%nat 0%nat) <= 0) by (assert (0 <= w0 * (x 0 0%nat 0%nat 0%nat - y 0 0%nat 0%nat 0%nat)) by (apply Rmult_le_pos; lra); lra).
    assert (Q1 : w1 * (y 0 0%nat 1%nat 0%nat + - 1 * x 0 0%nat 1%nat 0%nat) <= 0) by (assert (0 <= w1 * (x 0 0%nat 1%nat 0%nat - y 0 0%nat 1%nat 0%nat)) by (apply Rmult_le_pos; lra); lra).
    destruct (RES Q0 Q1 t T) as (Z0 & Z1). unfold x in Z0, Z1; destruct r as [|[|r]]; [apply (Rmult_le_reg_l w0); [exact W0|lra]|apply (Rmult_le_reg_l w1); [exact W1|lra]|lia].
  - intros s p q S SP0 SQ0. cbv beta.
    assert (UP0 := UP 0%nat s ltac:(lra)). assert (UP1 := UP 1%nat s ltac:(lra)). assert (DN0 := DOWN 0%nat s ltac:(lra)). assert (DN1 := DOWN 1%nat s ltac:(lra)). assert (CS := CN s ltac:(lra)).
    set (cy := at_time g (cinfA g rows) s 0) in *. set (cx := ff s 0%nat * cm) in *.
    set (y0 := y s 0%nat 0%nat 0%nat) in *. set (y1 := y s 0%nat 1%nat 0%nat) in *. set (x0 := x s 0%nat 0%nat 0%nat) in *. set (x1 := x s 0%nat 1%nat 0%nat) in *.
    set (py := cpore g 2 (ff s) (y s) 0 1 0) in *. set (px := cpore g 2 (ff s) (x s) 0 1 0) in *.
    set (fy0 := F y 0%nat s) in *. set (fy1 := F y 1%nat s) in *. set (fx0 := F x 0%nat s) in *. set (fx1 := F x 1%nat s) in *.
    replace (p * (w0 * (b * (fy1 - fy0) + - 1 * (b * (fx1 - fx0)))) + q * (w1 * (((cy - py) * st0 - w0 * (b * (fy1 - fy0))) / w1 + - 1 * (((cx - px) * st0 - w0 * (b * (fx1 - fx0))) / w1)))
      + (w0 * (b * (fy1 - fy0) + - 1 * (b * (fx1 - fx0))) + w1 * (((cy - py) * st0 - w0 * (b * (fy1 - fy0))) / w1 + - 1 * (((cx - px) * st0 - w0 * (b * (fx1 - fx0))) / w1))))
      with (w0 * b * ((p - q) * ((fy1 - fx1) - (fy0 - fx0))) + st0 * ((q + 1) * ((cy - cx) - (py - px)))) by (field; lra).
    assert (SGP : (p = 1 /\ x0 <= y0) \/ (p = - 1 /\ y0 <= x0)).
    { destruct SP0 as [(E & L)|(E & L)]; [left|right]; (split; [exact E|]); apply (Rmult_le_reg_l w0); try exact W0; lra. }
    assert (SGQ : (q = 1 /\ x1 <= y1) \/ (q = - 1 /\ y1 <= x1)).
    { destruct SQ0 as [(E & L)|(E & L)]; [left|right]; (split; [exact E|]); apply (Rmult_le_reg_l w1); try exact W1; lra. }
    assert (K1 : (p - q) * ((fy1 - fx1) - (fy0 - fx0)) <= 0).
    { destruct SGP as [(-> & L0)|(-> & L0)], SGQ as [(-> & L1)|(-> & L1)]; lra. }
    assert (K2 : (q + 1) * ((cy - cx) - (py - px)) <= 0) by (destruct SGQ as [(-> & L1)|(-> & L1)]; [destruct (DN1 L1)|]; lra).
    assert (WB : 0 <= w0 * b) by (apply Rmult_le_pos; lra).
    assert (Q1 : 0 <= w0 * b * - ((p - q) * ((fy1 - fx1) - (fy0 - fx0)))) by (apply Rmult_le_pos; lra).
    assert (Q2 : 0 <= st0 * - ((q + 1) * ((cy - cx) - (py - px)))) by (apply Rmult_le_pos; lra). lra.
Qed.
Print Assumptions C204_never_above_equilibrium.

(** One compound at 100 ug/L, at times 150, in clean water on fresh carbon. *)
Example carbon_below_equilibrium : exists m Tf y, 0 < Tf /\ calc_solver_matrix inv23 leg_mid jac_one 2 3 1 = Ok m /\
  gac_trajectory 1 2 (m_c m) (diffun (g_ex 1 true 1) m 2 (fun _ => [(0, 100); (500, 150); (1000, 100)]) (fun _ _ => 1)) Tf y /\
  forall t r, 0 <= t <= Tf -> (r < 2)%nat -> y t 0%nat r 0%nat <= equilibrium_loading (g_ex 1 true 1) 150.
Proof.
  destruct (matrices_example 1 (le_n 1)) as (m & Hm & M3). exists m. set (g := g_ex 1 true 1).
  assert (HP : physical g) by (apply physical_example; lia).
  assert (Hx : forall j, (j < x_n g)%nat -> x_xn g j <= 1) by (intros j _; cbn; lra).
  assert (E9 : 10 ^ 9 = 1000000000) by (simpl; ring). assert (E6 : 10 ^ 6 = 1000000) by (simpl; ring).
  assert (ED : ds_v g 0 = 1 / 10 ^ 9). { unfold ds_v. cbn [x_ds x_organic_free g g_ex]. rewrite (proj2 (rltb_true _ _)) by (rewrite E9; lra). reflexivity. }
  assert (EP : dp_v g 0 = 1 / 10 ^ 6). { unfold dp_v. cbn [x_dp g g_ex]. rewrite (proj2 (rltb_true _ _)) by (rewrite E6; lra). reflexivity. }
  destruct (C168_carbon_column_starts g m 2 (fun _ => [(0, 100); (500, 150); (1000, 100)]) (fun _ _ => 1) 1 (fun _ _ _ => 0) HP Hx ltac:(lia) ltac:(lra)) as (Tf & y & HT & TY & Y0).
  exists Tf, y. split; [lra|]. split; [exact Hm|]. split; [exact TY|].
  apply (C204_never_above_equilibrium inv23 leg_mid jac_one 3 1 m g library_example Hm HP eq_refl) with (rows := fun _ => [(0, 100); (500, 150); (1000, 100)]) (foul := fun _ _ => 1); try assumption; try lra.
  - unfold kf_v. cbn [x_kf g g_ex]. rewrite (proj2 (rltb_true _ _)) by lra. lra.
  - intros _. cbn. lra.
  - intros k _. rewrite ED, EP, E9, E6. cbn [x_organic_free x_tortu g g_ex]. lra.
  - intros. lra.
  - intros k _. cbn [interp_x]. destruct (rleb (INR k) 500) eqn:E; [apply P_GacFun.rleb_true in E; unfold line; lra|apply rleb_false in E; unfold line; lra].
  - intros r R1. rewrite Y0 by (cbn; lia). unfold equilibrium_loading. apply rpow_any.
Qed.
