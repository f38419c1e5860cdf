(** Property C196: grains with two radial points, at the inlet of a granular-carbon bed. *)
From Coq Require Import Reals List Arith Bool Lra Lia ZArith.
From Verif Require Import Lib_Py Lib_Sum Lib_Pow Lib_Traj M_Colloc S_Colloc P_Colloc S_Radial P_Radial P_RadialSign P_PacBound
  M_GacFun M_GacColumn S_GacColumn P_GacFun P_GacColumn P_GacUnique Props_GacColumn Props_Exist Props_Negative Props_Inside P_InsideGac Props_InsideGac.
Import ListNotations.
Open Scope R_scope.

(** ** Two points *)
Section Two.
Variables (a b w0 w1 B : R) (Y0 Y1 F0 F1 S : R -> R).
Hypothesis P0 : 0 < w0.
Hypothesis P1 : 0 < w1.
Hypothesis PB : 0 < B.
Hypothesis E0 : evolves a b Y0 (fun t => B * (F1 t - F0 t)).
Hypothesis E1 : evolves a b Y1 (fun t => (S t - w0 * (B * (F1 t - F0 t))) / w1).
Variable k : R.
Hypothesis Pk : 0 <= k.
(** What drives is not negative where the loading is not, and in proportion to it where it is. *)
Hypothesis FP : forall t, a < t < b -> (0 <= Y0 t -> 0 <= F0 t) /\ (0 <= Y1 t -> 0 <= F1 t).
Hypothesis FN : forall t, a < t < b -> (Y0 t <= 0 -> F0 t = k * Y0 t) /\ (Y1 t <= 0 -> F1 t = k * Y1 t).
Hypothesis SN : forall t, a < t < b -> Y1 t <= 0 -> 0 <= S t.
Hypothesis I0 : 0 <= Y0 a.
Hypothesis I1 : 0 <= Y1 a.
Let ng (x : R) : R := clip (- x).
Let ng_deriv x : derivable_pt_lim (fun y => prim 1 (- y)) x (- ng x).
Proof.
  unfold ng. replace (- clip (- x)) with (rpow (clip (- x)) 1 * (-1)) by (rewrite rpow_1 by apply clip_nonneg; ring).
  apply (derivable_pt_lim_comp (fun y => - y) (prim 1)); [|apply prim_deriv; lra].
  replace (-1) with (- (1)) by ring. apply (derivable_pt_lim_opp id), derivable_pt_lim_id.
Qed.
Lemma two_points t : a <= t <= b -> 0 <= Y0 t /\ 0 <= Y1 t.
Proof.
  intros T. set (V := fun t => w0 * prim 1 (- Y0 t) + w1 * prim 1 (- Y1 t)).
  set (V' := fun t => w0 * (- ng (Y0 t) * (B * (F1 t - F0 t))) + w1 * (- ng (Y1 t) * ((S t - w0 * (B * (F1 t - F0 t))) / w1))).
  assert (EV : evolves a b V V').
  { unfold V, V'. apply evolves_plus; apply evolves_scal; [apply (evolves_comp a b Y0 _ (fun y => prim 1 (- y)) (fun y => - ng y) ng_deriv E0)|apply (evolves_comp a b Y1 _ (fun y => prim 1 (- y)) (fun y => - ng y) ng_deriv E1)]. }
  assert (DOWN : forall s, a < s < b -> V' s <= 0).
  { intros s Hs. destruct (FP s Hs) as (A0 & A1). destruct (FN s Hs) as (N0 & N1). assert (SS := SN s Hs). unfold V'.
    set (y0 := Y0 s) in *. set (y1 := Y1 s) in *. set (f0 := F0 s) in *. set (f1 := F1 s) in *. set (q := S s) in *.
    replace (w0 * (- ng y0 * (B * (f1 - f0))) + w1 * (- ng y1 * ((q - w0 * (B * (f1 - f0))) / w1))) with (- (w0 * B * ((ng y0 - ng y1) * (f1 - f0))) - ng y1 * q) by (field; lra).
    assert (G : forall y, (y <= 0 /\ ng y = - y) \/ (0 <= y /\ ng y = 0)).
    { intros y. unfold ng. destruct (Rle_dec y 0) as [L|L]; [left; split; [exact L|apply clip_pos; lra]|right; split; [lra|apply clip_neg; lra]]. }
    assert (X1 : 0 <= ng y1 * q) by (destruct (G y1) as [(L & ->)|(L & ->)]; [apply Rmult_le_pos; [lra|apply SS, L]|lra]).
    assert (X2 : 0 <= (ng y0 - ng y1) * (f1 - f0)).
    { destruct (G y0) as [(L0 & ->)|(L0 & ->)], (G y1) as [(L1 & ->)|(L1 & ->)].
      - rewrite N0, N1 by assumption. replace ((- y0 - - y1) * (k * y1 - k * y0)) with (k * (y1 - y0) ^ 2) by ring. apply Rmult_le_pos; [exact Pk|apply pow2_ge_0].
      - rewrite N0 by assumption. specialize (A1 L1). assert (0 <= k * - y0) by (apply Rmult_le_pos; lra). apply Rmult_le_pos; lra.
      - rewrite N1 by assumption. specialize (A0 L0). assert (0 <= k * - y1) by (apply Rmult_le_pos; lra). replace ((0 - - y1) * (k * y1 - f0)) with (- y1 * (f0 + k * - y1)) by ring. apply Rmult_le_pos; lra.
      - lra. }
    assert (0 <= w0 * B * ((ng y0 - ng y1) * (f1 - f0))) by (apply Rmult_le_pos; [apply Rmult_le_pos; lra|exact X2]). lra. }
  assert (VA : V a = 0) by (unfold V; rewrite !prim_neg by lra; ring).
  assert (VT := evolves_nonincreasing a b V V' EV DOWN t T). rewrite VA in VT. unfold V in VT.
  assert (Z0 := prim_nonneg 1 (- Y0 t) ltac:(lra)). assert (Z1 := prim_nonneg 1 (- Y1 t) ltac:(lra)).
  assert (Q : forall y, y < 0 -> 0 < prim 1 (- y)) by (intros y Hy; assert (Z := prim_lt 1 0 (- y) ltac:(lra) ltac:(lra)); rewrite prim_neg in Z by lra; exact Z).
  assert (M0 : 0 <= w0 * prim 1 (- Y0 t)) by (apply Rmult_le_pos; lra). assert (M1 : 0 <= w1 * prim 1 (- Y1 t)) by (apply Rmult_le_pos; lra).
  split; apply Rnot_lt_le; intros L; specialize (Q _ L).
  - assert (0 < w0 * prim 1 (- Y0 t)) by (apply Rmult_lt_0_compat; assumption). lra.
  - assert (0 < w1 * prim 1 (- Y1 t)) by (apply Rmult_lt_0_compat; assumption). lra.
Qed.
End Two.

(** ** The inlet of a bed *)
Lemma rpow_any x p : 0 <= rpow x p.
Proof. unfold rpow. destruct (Req_EM_T x 0); [destruct (Req_EM_T p 0); lra|left; apply exp_pos]. Qed.
Section Pore.
Variables (g : gac_in) (nc : nat) (ff : nat -> R) (y : nat -> nat -> nat -> R) (i r z : nat).
Hypothesis Hf : 0 <= ff i.
Lemma z_raw_nonneg : 0 <= z_raw g y i r z.
Proof. unfold z_raw. cbv zeta. destruct (rltb _ 0) eqn:E; [lra|apply rltb_false in E; exact E]. Qed.
Lemma raw_nonneg : 0 <= cpore_raw g ff y i r z.
Proof.
  unfold cpore_raw. destruct (rltb _ (-20)); [lra|]. destruct (rleb (yt0 g y r z) 0); [lra|]. destruct (rleb (qte2 g y r z) 0) eqn:E; [lra|]. assert (E' := E). apply rleb_false in E'.
  apply Rmult_le_pos; [exact Hf|]. apply Rmult_le_pos; [|apply rpow_any]. unfold z2. rewrite E. apply Rmult_le_pos; [apply z_raw_nonneg|left; apply Rinv_0_lt_compat; lra].
Qed.
Lemma pore_nonneg : 0 <= cpore g nc ff y i r z.
Proof. assert (H := raw_nonneg). unfold cpore. cbv zeta. destruct (Nat.eqb r (nc - 1)); [|exact H]. rewrite (proj2 (rltb_false _ _)); lra. Qed.
Lemma pore_none : 0 < ym g i -> y i r z <= 0 -> cpore g nc ff y i r z = 0.
Proof.
  intros Y N. assert (Z : z_raw g y i r z = 0).
  { unfold z_raw. cbv zeta. assert (0 <= ym g i * - y i r z) by (apply Rmult_le_pos; lra). destruct (rltb _ 0) eqn:E; [reflexivity|apply rltb_false in E; lra]. }
  assert (R : cpore_raw g ff y i r z = 0).
  { unfold cpore_raw, z2. rewrite Z. destruct (rltb _ (-20)); [reflexivity|]. destruct (rleb (yt0 g y r z) 0); [reflexivity|]. destruct (rleb (qte2 g y r z) 0); [reflexivity|]. unfold Rdiv. ring. }
  unfold cpore. cbv zeta. rewrite R. destruct (Nat.eqb _ _); [|reflexivity]. rewrite (proj2 (rltb_false 0 0)); lra.
Qed.
End Pore.
(** A table that is not negative up to the end of the run. *)
Lemma table_nonneg g A Tf t i : physical g -> 0 <= t <= Tf -> (forall k, INR k * tconv g <= Tf + tconv g -> 0 <= A k i) -> 0 <= at_time g A t i.
Proof.
  intros HP T H. assert (TC := tconv_pos g HP). destruct (floor_nat (t / tconv g)) as (k & Hk); [apply Rmult_le_pos; [lra|left; apply Rinv_0_lt_compat, TC]|].
  set (s := t / tconv g) in *. assert (ET : t = s * tconv g) by (unfold s; field; lra). rewrite ET, (at_time_segment g A k i s TC) by lra.
  assert (L1 : INR k * tconv g <= s * tconv g) by (apply Rmult_le_compat_r; lra).
  assert (H0 := H k ltac:(lra)). assert (H1 := H (S k) ltac:(rewrite S_INR; lra)).
  replace (A k i + (s - INR k) * (A (S k) i - A k i)) with ((1 - (s - INR k)) * A k i + (s - INR k) * A (S k) i) by ring.
  assert (0 <= (1 - (s - INR k)) * A k i) by (apply Rmult_le_pos; lra). assert (0 <= (s - INR k) * A (S k) i) by (apply Rmult_le_pos; lra). lra.
Qed.

(** On two radial points the loadings in the grains at the inlet stay non-negative to the end of
    every run, for every compound, mixture and exponent, where the influent is not negative and
    surface diffusion is slower than pore diffusion. *)
Theorem C196_bed_two_points_partial : forall inv legendre jroots nz ne m g rows foul Tf y i,
  good_library inv legendre jroots 2 nz -> calc_solver_matrix inv legendre jroots 2 nz ne = Ok m ->
  physical g -> (i < x_n g)%nat -> 0 < kf_v g i -> 0 <= ds_v g i < dp_v g i -> (x_organic_free g = true -> 0 < x_tortu g) ->
  (forall k, INR k * tconv g <= Tf + tconv g -> ds_v g i * (if x_organic_free g then x_tortu g else Rmax 1 (334 / 1000 + 661 / 100000000 * INR k)) <= dp_v g i) ->
  (forall k, 0 <= interp_x (rows i) (INR k)) ->
  gac_trajectory (x_n g) 2 (m_c m) (diffun g m 2 rows foul) Tf y ->
  0 <= y 0 i 0%nat 0%nat -> 0 <= y 0 i 1%nat 0%nat ->
  forall t, 0 <= t <= Tf -> 0 <= y t i 0%nat 0%nat /\ 0 <= y t i 1%nat 0%nat.
Proof.
  intros inv legendre jroots nz ne m g rows foul Tf y i HG Hm HP Hi Hkf Hds Htt Htor HI TR I0 I1.
  destruct (C199_weights inv legendre jroots 2 nz ne m HG Hm) as (WP & _). assert (W0 := WP 0%nat ltac:(lia)). assert (W1 := WP 1%nat ltac:(lia)).
  assert (SG := radial_sign inv legendre jroots 2 nz ne m HG Hm 0 ltac:(lia)). cbn [Nat.sub pow] in SG.
  assert (B0 : b_r m 0%nat 0%nat = - b_r m 0%nat 1%nat).
  { assert (HD := grid_distinct inv legendre jroots 2 nz ne m HG Hm). assert (RS := Bx_constant 2 (gac_rr jroots 2) HD 3 1 0%nat ltac:(lia)). unfold apply_row in RS. cbn [rsum] in RS.
    rewrite <- !(radial_same inv legendre jroots 2 nz ne m HG Hm) in RS by lia. lra. }
  assert (MC := mc_pos inv legendre jroots 2 nz ne m Hm). assert (SP := stdv_pos g i HP Hkf). assert (DG := dg_pos g HP i Hi). assert (YM := ym_pos g HP i Hi).
  assert (BP := beds_pos g i HP Hi ltac:(lra) ltac:(lra) Htt).
  set (ff := fun t => at_time g (foulFA g foul) t). assert (FF : forall t, 0 <= ff t i) by (intros t; apply foul_nonneg).
  assert (FA : forall t, 0 <= t <= Tf -> 0 <= bedp g i * at_time g (facA g) t i).
  { intros t T. assert (DV : 0 <= d_v g i < 1).
    { unfold d_v. split; [apply Rmult_le_pos; [lra|left; apply Rinv_0_lt_compat; lra]|]. apply (Rmult_lt_reg_r (dp_v g i)); [lra|]. unfold Rdiv. rewrite Rmult_assoc, Rinv_l by lra. lra. }
    assert (EP : 0 <= edp g i * edd g i).
    { unfold edp, edd. assert (T1 := ph_tau g HP). assert (R := ph_rad g HP). assert (DP := dgp_pos g HP). assert (R2 : 0 < x_rad g ^ 2) by (apply pow_lt, R). assert (D := dgt_pos g HP).
      assert (TT : 0 < tortu0 g) by (unfold tortu0; destruct (x_organic_free g); [apply Htt; reflexivity|lra]).
      apply Rmult_le_pos; left; [|apply Rdiv_lt_0_compat; assumption]. apply Rdiv_lt_0_compat; [|exact R2].
      apply Rmult_lt_0_compat; [|exact T1]. apply Rmult_lt_0_compat; [|exact DP]. apply Rmult_lt_0_compat; lra. }
    unfold bedp. replace (edp g i * (1 - d_v g i) * edd g i) with (edp g i * edd g i * (1 - d_v g i)) by ring. apply Rmult_le_pos; [apply Rmult_le_pos; lra|].
    apply (table_nonneg g (facA g) Tf t i HP T). intros k Hk. unfold facA. apply Rmult_le_pos; [|left; apply Rinv_0_lt_compat; lra].
    specialize (Htor k Hk). assert (ET : (if x_organic_free g then x_tortu g else Rmax 1 (334 / 1000 + 661 / 100000000 * INR k)) = tortu_t g k).
    { unfold tortu_t. destruct (x_organic_free g); [reflexivity|]. unfold tortuosity_array. cbv zeta.
      replace (dec 334 3 + dec 661 8 * INR k) with (334 / 1000 + 661 / 100000000 * INR k) by (unfold dec; simpl pow; field).
      set (v := 334 / 1000 + 661 / 100000000 * INR k). clearbody v.
      destruct (rltb v 1) eqn:Q; [apply rltb_true in Q; apply Rmax_left; lra|apply rltb_false in Q; apply Rmax_right; lra]. }
    rewrite ET in Htor. assert (TP : 0 < tortu_t g k).
    { rewrite <- ET. destruct (x_organic_free g); [apply Htt; reflexivity|]. eapply Rlt_le_trans; [apply Rlt_0_1|apply Rmax_l]. }
    unfold d_v. assert (ds_v g i / dp_v g i <= 1 / tortu_t g k); [|lra]. apply (Rmult_le_reg_r (dp_v g i * tortu_t g k)); [apply Rmult_lt_0_compat; lra|].
    replace (ds_v g i / dp_v g i * (dp_v g i * tortu_t g k)) with (ds_v g i * tortu_t g k) by (field; lra). replace (1 / tortu_t g k * (dp_v g i * tortu_t g k)) with (dp_v g i) by (field; lra). exact Htor. }
  assert (CI : forall t, 0 <= at_time g (cinfA g rows) t i).
  { intros t. apply at_time_nonneg. intros k. assert (E := C37_inlet_follows_influent g rows i k HP Hi). rewrite at_time_minute in E by (assert (TC := tconv_pos g HP); lra).
    specialize (HI k). rewrite <- E in HI. clear E. assert (C := cb0_pos g HP i Hi). assert (M := ph_mw g HP i Hi). assert (U := ph_mul g HP). set (v := cinfA g rows k i) in *.
    assert (KP : 0 < cb0 g i * x_mw g i / x_mass_mul g) by (apply Rdiv_lt_0_compat; [apply Rmult_lt_0_compat; assumption|exact U]).
    apply (Rmult_le_reg_r _ _ _ KP). rewrite Rmult_0_l. replace (v * (cb0 g i * x_mw g i / x_mass_mul g)) with (v * cb0 g i * x_mw g i / x_mass_mul g) by (field; lra). exact HI. }
  set (F := fun k t => bedp g i * at_time g (facA g) t i * cpore g 2 (ff t) (y t) i k 0 + beds g i * y t i k 0%nat).
  apply (two_points 0 Tf (w_r m 0%nat) (w_r m 1%nat) (b_r m 0%nat 1%nat) (fun t => y t i 0%nat 0%nat) (fun t => y t i 1%nat 0%nat) (F 0%nat) (F 1%nat)
    (fun t => (at_time g (cinfA g rows) t i - cpore g 2 (ff t) (y t) i 1 0) * (stdv g i * dgI g i)) W0 W1) with (k := beds g i); try assumption; try lra.
  - eapply evolves_ext; [reflexivity| |apply (TR i 0%nat 0%nat Hi ltac:(lia) MC)]. intros t _. cbv beta. unfold F, ff, diffun, gac_rhs, bb. cbn [Nat.ltb Nat.leb Nat.sub rsum]. rewrite B0. ring.
  - eapply evolves_ext; [reflexivity| |apply (TR i 1%nat 0%nat Hi ltac:(lia) MC)]. intros t _. cbv beta. unfold F, ff, diffun, gac_rhs, ww, bb. cbn [Nat.ltb Nat.leb Nat.sub Nat.eqb rsum]. rewrite B0. f_equal. ring.
  - intros t T. assert (A := FA t ltac:(lra)). assert (C0 := pore_nonneg g 2 (ff t) (y t) i 0 0 (FF t)). assert (C1 := pore_nonneg g 2 (ff t) (y t) i 1 0 (FF t)).
    unfold F. split; intros Q; (apply Rplus_le_le_0_compat; [apply Rmult_le_pos; assumption|apply Rmult_le_pos; lra]).
  - intros t T. unfold F. split; intros Q; rewrite pore_none by assumption; ring.
  - intros t T Q. rewrite pore_none by assumption. specialize (CI t). unfold dgI. apply Rmult_le_pos; [lra|]. apply Rmult_le_pos; [lra|]. left. apply Rdiv_lt_0_compat; lra.
Qed.
Print Assumptions C196_bed_two_points_partial.

(** Two compounds at 100 ug/L in clean water: the bed can be run, and its grains at the inlet stay at
    or above zero. *)
Example stays_above_zero : exists m Tf y, 0 < Tf /\ calc_solver_matrix inv23 leg_mid jac_one 2 3 1 = Ok m /\
  gac_trajectory 2 2 (m_c m) (diffun (g_ex 2 true 1) m 2 (fun _ => [(0, 100); (1000, 100)]) (fun _ _ => 1)) Tf y /\
  forall t, 0 <= t <= Tf -> 0 <= y t 0%nat 0%nat 0%nat /\ 0 <= y t 0%nat 1%nat 0%nat.
Proof.
  destruct (matrices_example 1 (le_n 1)) as (m & Hm & M3). exists m. set (g := g_ex 2 true 1).
  assert (HP : physical g) by (apply physical_example; lia).
  assert (Hx : forall j, (j < x_n g)%nat -> x_xn g j <= 1) by (intros j _; cbn; lra).
  destruct (C168_carbon_column_starts g m 2 (fun _ => [(0, 100); (1000, 100)]) (fun _ _ => 1) 1 (fun _ _ _ => 0) HP Hx ltac:(lia) ltac:(lra)) as (Tf & y & HT & TR & Y0).
  assert (E9 : 10 ^ 9 = 1000000000) by (simpl; ring). assert (E6 : 10 ^ 6 = 1000000) by (simpl; ring).
  assert (ED : ds_v g 0 = 1 / 10 ^ 9). { unfold ds_v. cbn [x_ds x_organic_free g g_ex]. rewrite (proj2 (rltb_true _ _)) by (rewrite E9; lra). reflexivity. }
  assert (EP : dp_v g 0 = 1 / 10 ^ 6). { unfold dp_v. cbn [x_dp g g_ex]. rewrite (proj2 (rltb_true _ _)) by (rewrite E6; lra). reflexivity. }
  exists Tf, y. split; [lra|]. split; [exact Hm|]. split; [exact TR|].
  apply (C196_bed_two_points_partial inv23 leg_mid jac_one 3 1 m g (fun _ => [(0, 100); (1000, 100)]) (fun _ _ => 1) Tf y 0 library_example Hm HP); try assumption.
  - cbn. lia.
  - unfold kf_v. cbn [x_kf g g_ex]. rewrite (proj2 (rltb_true _ _)) by lra. lra.
  - rewrite ED, EP, E9, E6. lra.
  - intros _. cbn. lra.
  - intros k _. rewrite ED, EP, E9, E6. cbn [x_organic_free x_tortu g g_ex]. lra.
  - intros k. cbn [interp_x]. unfold line. assert (P := pos_INR k). repeat match goal with |- context [if ?b then _ else _] => destruct b end; lra.
  - rewrite Y0 by (cbn; lia). lra.
  - rewrite Y0 by (cbn; lia). lra.
Qed.
