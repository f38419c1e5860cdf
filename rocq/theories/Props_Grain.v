(** C204 — grains at the inlet of a granular-carbon bed stay as near one another as their starts and influents. *)
From Coq Require Import Reals List Arith Bool Lra Lia ZArith.
From Verif Require Import Lib_Py Lib_Sum Lib_Pow Lib_Traj M_Colloc S_Colloc P_Colloc S_Radial P_Radial P_RadialSign P_PacBound
  M_GacFun M_GacColumn S_GacColumn P_GacFun P_GacColumn P_GacUnique Props_GacColumn Props_Exist Props_Negative Props_Inside P_InsideGac Props_InsideGac Props_InsideTwo P_InletTwo P_L1.
Import ListNotations.
Open Scope R_scope.

(** how far apart two states are in the grains at the inlet: the differences in relative loading of
    the compound at the two radial points, by the share of the grain each stands for *)
Definition grain_distance (w : nat -> R) (u v : nat -> nat -> nat -> R) : R :=
  w 0%nat * Rabs (u 0%nat 0%nat 0%nat - v 0%nat 0%nat 0%nat) + w 1%nat * Rabs (u 0%nat 1%nat 0%nat - v 0%nat 1%nat 0%nat).

(** ** Sums of absolute values that are pushed no harder than g *)
Section Pushed.
Variables (f f' h h' : R -> R) (Tf g : R).
Hypothesis Hg : 0 <= g.
Hypothesis EF : evolves 0 Tf f f'.
Hypothesis EH : evolves 0 Tf h h'.
Hypothesis H : forall t s r, 0 < t < Tf -> sign_of s (f t) -> sign_of r (h t) -> s * f' t + r * h' t <= g.
Lemma l1_pushed t : 0 <= t <= Tf -> Rabs (f t) + Rabs (h t) <= Rabs (f 0) + Rabs (h 0) + g * t.
Proof.
  intros T. set (P := fun t => g * Tf + 1 - g * t).
  assert (PP : forall s, s <= Tf -> 0 < P s) by (intros s S; unfold P; assert (g * s <= g * Tf) by (apply Rmult_le_compat_l; assumption); lra).
  assert (EP : evolves 0 Tf P (fun _ => - g)).
  { eapply evolves_ext; [intros s; unfold P; instantiate (1 := fun s => (g * Tf + 1) + (- g) * s); cbv beta; ring|intros s _; instantiate (1 := fun _ => 0 + (- g) * 1); cbv beta; ring|].
    apply evolves_plus; [apply evolves_const|]. apply evolves_scal. split; intros s _; [apply derivable_continuous_pt, derivable_pt_id|apply derivable_pt_lim_id]. }
  assert (X := l1_falls 2 (fun i => if Nat.eqb i 0 then f else P) (fun i => if Nat.eqb i 0 then f' else fun _ => - g) (fun i => if Nat.eqb i 0 then h else fun _ => 0) (fun i => if Nat.eqb i 0 then h' else fun _ => 0) Tf).
  assert (Y := X ltac:(intros [|[|i]] I; [exact EF|exact EP|lia]) ltac:(intros [|[|i]] I; [exact EH|exact (evolves_const 0 Tf 0)|lia])). clear X.
  lapply Y; [clear Y; intros Y|clear Y].
  - assert (Z := Y t T). cbn [rsum Nat.eqb] in Z. rewrite (Rabs_right (P t)), (Rabs_right (P 0)), Rabs_R0 in Z by (left; apply PP; lra). unfold P in Z. lra.
  - intros q s r Q SS SR. cbn [rsum Nat.eqb]. assert (S1 := SS 1%nat ltac:(lia)). cbn [Nat.eqb] in S1. assert (PQ := PP q ltac:(lra)).
    assert (E : s 1%nat = 1) by (destruct S1 as [(E & _)|(_ & N)]; [exact E|lra]). rewrite E. assert (B := H q (s 0%nat) (r 0%nat) Q (SS 0%nat ltac:(lia)) (SR 0%nat ltac:(lia))). lra.
Qed.
End Pushed.

(** ** One compound: more on the carbon, more in the pores *)
Section One.
Variables (g : gac_in) (nc : nat) (ff : nat -> R).
Hypothesis HP : physical g.
Hypothesis H1 : x_n g = 1%nat.
Hypothesis Hf : 0 <= ff 0%nat.
Let Y : 0 < ym g 0. Proof. apply ym_pos; [exact HP|lia]. Qed.
Let X : 0 < x_xn g 0. Proof. apply (ph_xn g HP). lia. Qed.
Lemma pore_some y r z : 0 < y 0%nat r z -> cpore g nc ff y 0 r z = ff 0%nat * rpow (y 0%nat r z) (xni g 0).
Proof.
  intros P. assert (ZP : 0 < ym g 0 * y 0%nat r z) by (apply Rmult_lt_0_compat; assumption). assert (XI : 0 < xni g 0) by (unfold xni; apply Rdiv_lt_0_compat; lra).
  assert (ZR : z_raw g y 0 r z = ym g 0 * y 0%nat r z) by (unfold z_raw; cbv zeta; rewrite (proj2 (rltb_false _ _)) by lra; reflexivity).
  assert (YT : yt0 g y r z = xni g 0 * (ym g 0 * y 0%nat r z)) by (unfold yt0; rewrite H1; cbn [rsum]; rewrite ZR; ring).
  assert (QT : qte2 g y r z = ym g 0 * y 0%nat r z).
  { unfold qte2. rewrite H1. cbn [rsum]. rewrite ZR, Rplus_0_l. cbv zeta. unfold reqb. destruct (Req_EM_T (ym g 0 * y 0%nat r z) 0); [lra|reflexivity]. }
  assert (Q0 : q0 g y 0 r z = y 0%nat r z) by (unfold q0; rewrite YT; unfold xni; field; lra).
  assert (YP : 0 < yt0 g y r z) by (rewrite YT; apply Rmult_lt_0_compat; assumption).
  assert (R : cpore_raw g ff y 0 r z = ff 0%nat * rpow (y 0%nat r z) (xni g 0)).
  { unfold cpore_raw, z2. rewrite Q0, ZR, QT. assert (0 < xni g 0 * y 0%nat r z) by (apply Rmult_lt_0_compat; assumption).
    rewrite (proj2 (rltb_false _ _)) by lra. rewrite (proj2 (rleb_false _ _)) by lra. rewrite (proj2 (rleb_false _ _)) by lra. f_equal. unfold Rdiv. rewrite Rinv_r by lra. ring. }
  assert (N : 0 <= ff 0%nat * rpow (y 0%nat r z) (xni g 0)) by (apply Rmult_le_pos; [exact Hf|apply rpow_any]).
  unfold cpore. cbv zeta. rewrite R. destruct (Nat.eqb r (nc - 1)); [|reflexivity]. rewrite (proj2 (rltb_false _ _)) by lra. reflexivity.
Qed.
Lemma pore_up y y' r z : y 0%nat r z <= y' 0%nat r z -> cpore g nc ff y 0 r z <= cpore g nc ff y' 0 r z.
Proof.
  intros L. destruct (Rle_lt_dec (y 0%nat r z) 0) as [N|P].
  - rewrite (pore_none g nc ff y 0 r z Y N). apply pore_nonneg, Hf.
  - rewrite !pore_some by lra. apply Rmult_le_compat_l; [exact Hf|]. apply rpow_le; [lra|]. left. unfold xni. apply Rdiv_lt_0_compat; lra.
Qed.
End One.

Lemma pore_rate_nonneg g i Tf t : physical g -> (i < x_n g)%nat -> 0 <= ds_v g i < dp_v g i -> (x_organic_free g = true -> 0 < x_tortu g) ->
  (forall k, INR k * tconv g <= Tf + tconv g -> ds_v g i * (if x_organic_free g then x_tortu g else Rmax 1 (334 / 1000 + 661 / 100000000 * INR k)) <= dp_v g i) ->
  0 <= t <= Tf -> 0 <= bedp g i * at_time g (facA g) t i.
Proof.
  intros HP Hi Hds Htt Htor.
  intros T. assert (DG := dg_pos g HP i Hi). assert (DV : 0 <= d_v g i < 1).
    { unfold d_v. split; [apply Rmult_le_pos; [lra|left; apply Rinv_0_lt_compat; lra]|]. apply (Rmult_lt_reg_r (dp_v g i)); [lra|]. unfold Rdiv. rewrite Rmult_assoc, Rinv_l by lra. lra. }
    assert (EP : 0 <= edp g i * edd g i).
    { unfold edp, edd. assert (T1 := ph_tau g HP). assert (R := ph_rad g HP). assert (DP := dgp_pos g HP). assert (R2 : 0 < x_rad g ^ 2) by (apply pow_lt, R). assert (D := dgt_pos g HP).
      assert (TT : 0 < tortu0 g) by (unfold tortu0; destruct (x_organic_free g); [apply Htt; reflexivity|lra]).
      apply Rmult_le_pos; left; [|apply Rdiv_lt_0_compat; assumption]. apply Rdiv_lt_0_compat; [|exact R2].
      apply Rmult_lt_0_compat; [|exact T1]. apply Rmult_lt_0_compat; [|exact DP]. apply Rmult_lt_0_compat; lra. }
    unfold bedp. replace (edp g i * (1 - d_v g i) * edd g i) with (edp g i * edd g i * (1 - d_v g i)) by ring. apply Rmult_le_pos; [apply Rmult_le_pos; lra|].
    apply (table_nonneg g (facA g) Tf t i HP T). intros k Hk. unfold facA. apply Rmult_le_pos; [|left; apply Rinv_0_lt_compat; lra].
    specialize (Htor k Hk). assert (ET : (if x_organic_free g then x_tortu g else Rmax 1 (334 / 1000 + 661 / 100000000 * INR k)) = tortu_t g k).
    { unfold tortu_t. destruct (x_organic_free g); [reflexivity|]. unfold tortuosity_array. cbv zeta.
      replace (dec 334 3 + dec 661 8 * INR k) with (334 / 1000 + 661 / 100000000 * INR k) by (unfold dec; simpl pow; field).
      set (v := 334 / 1000 + 661 / 100000000 * INR k). clearbody v.
      destruct (rltb v 1) eqn:Q; [apply rltb_true in Q; apply Rmax_left; lra|apply rltb_false in Q; apply Rmax_right; lra]. }
    rewrite ET in Htor. assert (TP : 0 < tortu_t g k).
    { rewrite <- ET. destruct (x_organic_free g); [apply Htt; reflexivity|]. eapply Rlt_le_trans; [apply Rlt_0_1|apply Rmax_l]. }
    unfold d_v. assert (ds_v g i / dp_v g i <= 1 / tortu_t g k); [|lra]. apply (Rmult_le_reg_r (dp_v g i * tortu_t g k)); [apply Rmult_lt_0_compat; lra|].
    replace (ds_v g i / dp_v g i * (dp_v g i * tortu_t g k)) with (ds_v g i * tortu_t g k) by (field; lra). replace (1 / tortu_t g k * (dp_v g i * tortu_t g k)) with (dp_v g i) by (field; lra). exact Htor.
Qed.

(** tables that are ordered, or within eps, in every minute up to the end are so at all times *)
Definition minute_until (g : gac_in) (Tf : R) (k : nat) : Prop := INR k * tconv g <= Tf + tconv g.
Lemma tables_ordered g A B Tf i t : physical g -> 0 <= t <= Tf -> (forall k, minute_until g Tf k -> A k i <= B k i) -> at_time g A t i <= at_time g B t i.
Proof.
  intros HP T N. assert (X := table_nonneg g (fun k i => B k i - A k i) Tf t i HP T). lapply X; [clear X; intros X|intros k K; specialize (N k K); lra].
  unfold at_time in X |- *. cbv beta zeta in X |- *. lra.
Qed.
Lemma tables_near g A B Tf i e t : physical g -> 0 <= t <= Tf -> (forall k, minute_until g Tf k -> Rabs (A k i - B k i) <= e) -> Rabs (at_time g A t i - at_time g B t i) <= e.
Proof.
  intros HP T N.
  assert (X1 := tables_ordered g A (fun k i => B k i + e) Tf i t HP T ltac:(intros k K; specialize (N k K); apply abs_le_between in N; lra)).
  assert (X2 := tables_ordered g B (fun k i => A k i + e) Tf i t HP T ltac:(intros k K; specialize (N k K); apply abs_le_between in N; lra)).
  replace (at_time g (fun k i => B k i + e) t i) with (at_time g B t i + e) in X1 by (unfold at_time; ring). replace (at_time g (fun k i => A k i + e) t i) with (at_time g A t i + e) in X2 by (unfold at_time; ring).
  apply Rabs_le. lra.
Qed.
Lemma influents_near g rows rows' i e Tf : physical g -> (i < x_n g)%nat -> (forall k, minute_until g Tf k -> Rabs (interp_x (rows i) (INR k) - interp_x (rows' i) (INR k)) <= e) ->
  forall k, minute_until g Tf k -> Rabs (cinfA g rows k i - cinfA g rows' k i) <= x_mass_mul g / (cb0 g i * x_mw g i) * e.
Proof.
  intros HP Hi N k MU. assert (TC := tconv_pos g HP).
  assert (E := C37_inlet_follows_influent g rows i k HP Hi). assert (E' := C37_inlet_follows_influent g rows' i k HP Hi). rewrite at_time_minute in E, E' by lra.
  specialize (N k MU). rewrite <- E, <- E' in N. clear E E'. assert (C := cb0_pos g HP i Hi). assert (M := ph_mw g HP i Hi). assert (U := ph_mul g HP). set (a := cinfA g rows k i) in *. set (b := cinfA g rows' k i) in *.
  replace (a * cb0 g i * x_mw g i / x_mass_mul g - b * cb0 g i * x_mw g i / x_mass_mul g) with ((a - b) * (cb0 g i * x_mw g i / x_mass_mul g)) in N by (field; lra).
  assert (CM : 0 < cb0 g i * x_mw g i) by (apply Rmult_lt_0_compat; assumption). assert (KP : 0 < cb0 g i * x_mw g i / x_mass_mul g) by (apply Rdiv_lt_0_compat; assumption).
  rewrite Rabs_mult, (Rabs_right (cb0 g i * x_mw g i / x_mass_mul g)) in N by lra. apply (Rmult_le_reg_r _ _ _ KP).
  replace (x_mass_mul g / (cb0 g i * x_mw g i) * e * (cb0 g i * x_mw g i / x_mass_mul g)) with e by (field; lra). exact N.
Qed.

Theorem C204_grains_stay_near : forall inv legendre jroots nz ne m g,
  good_library inv legendre jroots 2 nz -> calc_solver_matrix inv legendre jroots 2 nz ne = Ok m ->
  (* one compound, two radial points *)
  physical g -> x_n g = 1%nat -> 0 < kf_v g 0 -> 0 <= ds_v g 0 < dp_v g 0 -> (x_organic_free g = true -> 0 < x_tortu g) ->
  exists G, 0 < G /\ forall rows rows' foul Tf y x eps,
  (forall k, minute_until g Tf k -> ds_v g 0 * (if x_organic_free g then x_tortu g else Rmax 1 (334 / 1000 + 661 / 100000000 * INR k)) <= dp_v g 0) ->
  gac_trajectory (x_n g) 2 (m_c m) (diffun g m 2 rows foul) Tf y ->
  gac_trajectory (x_n g) 2 (m_c m) (diffun g m 2 rows' foul) Tf x ->
  (* two influents that differ by at most eps in every minute *)
  0 <= eps -> (forall k, minute_until g Tf k -> Rabs (interp_x (rows 0%nat) (INR k) - interp_x (rows' 0%nat) (INR k)) <= eps) ->
  forall t, 0 <= t <= Tf -> grain_distance (w_r m) (y t) (x t) <= grain_distance (w_r m) (y 0) (x 0) + G * eps * t.
Proof.
  intros inv legendre jroots nz ne m g HG Hm HP H1 Hkf Hds Htt. assert (Hi : (0 < x_n g)%nat) by lia.
  destruct (C199_weights inv legendre jroots 2 nz ne m HG Hm) as (WP & _). assert (W0 := WP 0%nat ltac:(lia)). assert (W1 := WP 1%nat ltac:(lia)).
  assert (SG := radial_sign inv legendre jroots 2 nz ne m HG Hm 0 ltac:(lia)). cbn [Nat.sub pow] in SG.
  assert (B0 : b_r m 0%nat 0%nat = - b_r m 0%nat 1%nat).
  { assert (HD := grid_distinct inv legendre jroots 2 nz ne m HG Hm). assert (RS := Bx_constant 2 (gac_rr jroots 2) HD 3 1 0%nat ltac:(lia)). unfold apply_row in RS. cbn [rsum] in RS.
    rewrite <- !(radial_same inv legendre jroots 2 nz ne m HG Hm) in RS by lia. lra. }
  assert (MC := mc_pos inv legendre jroots 2 nz ne m Hm). assert (SP := stdv_pos g 0 HP Hkf). assert (DG := dg_pos g HP 0%nat Hi).
  assert (BP := beds_pos g 0 HP Hi ltac:(lra) ltac:(lra) Htt). assert (C := cb0_pos g HP 0%nat Hi). assert (MW := ph_mw g HP 0%nat Hi). assert (U := ph_mul g HP).
  assert (CM : 0 < cb0 g 0 * x_mw g 0) by (apply Rmult_lt_0_compat; assumption). assert (KP : 0 < x_mass_mul g / (cb0 g 0 * x_mw g 0)) by (apply Rdiv_lt_0_compat; assumption).
  assert (DI : 0 < dgI g 0) by (unfold dgI; apply Rdiv_lt_0_compat; lra). set (st0 := stdv g 0 * dgI g 0). assert (ST : 0 < st0) by (apply Rmult_lt_0_compat; assumption).
  exists (st0 * (x_mass_mul g / (cb0 g 0 * x_mw g 0))). split; [apply Rmult_lt_0_compat; assumption|].
  intros rows rows' foul Tf y x eps Htor TY TX EPS NEAR t T.
  set (ff := fun t => at_time g (foulFA g foul) t). assert (FF : forall t, 0 <= ff t 0%nat) by (intros s; apply foul_nonneg).
  assert (FA : forall t, 0 <= t <= Tf -> 0 <= bedp g 0 * at_time g (facA g) t 0) by (intros s S; apply (pore_rate_nonneg g 0 Tf s); assumption).
  set (e1 := x_mass_mul g / (cb0 g 0 * x_mw g 0) * eps). assert (E1 : 0 <= e1) by (apply Rmult_le_pos; lra).
  assert (CN : forall s, 0 <= s <= Tf -> Rabs (at_time g (cinfA g rows) s 0 - at_time g (cinfA g rows') s 0) <= e1) by (intros s S; apply (tables_near g _ _ Tf); [exact HP|exact S|apply (influents_near g rows rows' 0 eps Tf HP Hi NEAR)]).
  set (F := fun (v : R -> nat -> nat -> nat -> R) k t => bedp g 0 * at_time g (facA g) t 0 * cpore g 2 (ff t) (v t) 0 k 0 + beds g 0 * v t 0%nat k 0%nat).
  set (b := b_r m 0%nat 1%nat) in *. set (w0 := w_r m 0%nat) in *. set (w1 := w_r m 1%nat) in *.
  assert (RUN : forall rw v, gac_trajectory (x_n g) 2 (m_c m) (diffun g m 2 rw foul) Tf v ->
    evolves 0 Tf (fun t => v t 0%nat 0%nat 0%nat) (fun t => b * (F v 1%nat t - F v 0%nat t)) /\
    evolves 0 Tf (fun t => v t 0%nat 1%nat 0%nat) (fun t => ((at_time g (cinfA g rw) t 0 - cpore g 2 (ff t) (v t) 0 1 0) * st0 - w0 * (b * (F v 1%nat t - F v 0%nat t))) / w1)).
  { intros rw v TV. split.
    - eapply evolves_ext; [reflexivity| |apply (TV 0%nat 0%nat 0%nat Hi ltac:(lia) MC)]. intros s _. cbv beta. unfold F, ff, diffun, gac_rhs, bb. cbn [Nat.ltb Nat.leb Nat.sub rsum]. rewrite B0. fold b. ring.
    - eapply evolves_ext; [reflexivity| |apply (TV 0%nat 1%nat 0%nat Hi ltac:(lia) MC)]. intros s _. cbv beta. unfold F, ff, diffun, gac_rhs, ww, bb. cbn [Nat.ltb Nat.leb Nat.sub Nat.eqb rsum]. rewrite B0. fold b w0 w1 st0. f_equal. ring. }
  destruct (RUN rows y TY) as (Y0 & Y1). destruct (RUN rows' x TX) as (X0 & X1).
  assert (UP : forall k s, 0 <= s <= Tf -> y s 0%nat k 0%nat <= x s 0%nat k 0%nat -> F y k s <= F x k s /\ cpore g 2 (ff s) (y s) 0 k 0 <= cpore g 2 (ff s) (x s) 0 k 0).
  { intros k s S L. assert (PU := pore_up g 2 (ff s) HP H1 (FF s) (y s) (x s) k 0 L). split; [|exact PU]. unfold F. apply Rplus_le_compat; apply Rmult_le_compat_l; try assumption; [apply FA, S|lra]. }
  assert (DOWN : forall k s, 0 <= s <= Tf -> x s 0%nat k 0%nat <= y s 0%nat k 0%nat -> F x k s <= F y k s /\ cpore g 2 (ff s) (x s) 0 k 0 <= cpore g 2 (ff s) (y s) 0 k 0).
  { intros k s S L. assert (PU := pore_up g 2 (ff s) HP H1 (FF s) (x s) (y s) k 0 L). split; [|exact PU]. unfold F. apply Rplus_le_compat; apply Rmult_le_compat_l; try assumption; [apply FA, S|lra]. }
  assert (RES := l1_pushed (fun t => w0 * (y t 0%nat 0%nat 0%nat + - 1 * x t 0%nat 0%nat 0%nat)) _ (fun t => w1 * (y t 0%nat 1%nat 0%nat + - 1 * x t 0%nat 1%nat 0%nat)) _ Tf (st0 * e1) ltac:(apply Rmult_le_pos; lra)
    (evolves_scal 0 Tf w0 _ _ (evolves_plus 0 Tf _ _ _ _ Y0 (evolves_scal 0 Tf (- 1) _ _ X0))) (evolves_scal 0 Tf w1 _ _ (evolves_plus 0 Tf _ _ _ _ Y1 (evolves_scal 0 Tf (- 1) _ _ X1)))).
  lapply RES; [clear RES; intros RES|clear RES].
  - assert (Z := RES t T). cbv beta in Z. unfold grain_distance. fold w0 w1.
    rewrite !Rabs_mult, (Rabs_right w0), (Rabs_right w1) in Z by lra. unfold e1 in Z.
    replace (y t 0%nat 0%nat 0%nat + - 1 * x t 0%nat 0%nat 0%nat) with (y t 0%nat 0%nat 0%nat - x t 0%nat 0%nat 0%nat) in Z by ring. replace (y t 0%nat 1%nat 0%nat + - 1 * x t 0%nat 1%nat 0%nat) with (y t 0%nat 1%nat 0%nat - x t 0%nat 1%nat 0%nat) in Z by ring.
    replace (y 0 0%nat 0%nat 0%nat + - 1 * x 0 0%nat 0%nat 0%nat) with (y 0 0%nat 0%nat 0%nat - x 0 0%nat 0%nat 0%nat) in Z by ring. replace (y 0 0%nat 1%nat 0%nat + - 1 * x 0 0%nat 1%nat 0%nat) with (y 0 0%nat 1%nat 0%nat - x 0 0%nat 1%nat 0%nat) in Z by ring.
    eapply Rle_trans; [exact Z|]. right. ring.
  - intros s p q S SP0 SQ0. cbv beta.
    assert (UP0 := UP 0%nat s ltac:(lra)). assert (UP1 := UP 1%nat s ltac:(lra)). assert (DN0 := DOWN 0%nat s ltac:(lra)). assert (DN1 := DOWN 1%nat s ltac:(lra)). assert (CS := CN s ltac:(lra)).
    set (cy := at_time g (cinfA g rows) s 0) in *. set (cx := at_time g (cinfA g rows') s 0) in *.
    set (y0 := y s 0%nat 0%nat 0%nat) in *. set (y1 := y s 0%nat 1%nat 0%nat) in *. set (x0 := x s 0%nat 0%nat 0%nat) in *. set (x1 := x s 0%nat 1%nat 0%nat) in *.
    set (py := cpore g 2 (ff s) (y s) 0 1 0) in *. set (px := cpore g 2 (ff s) (x s) 0 1 0) in *.
    set (fy0 := F y 0%nat s) in *. set (fy1 := F y 1%nat s) in *. set (fx0 := F x 0%nat s) in *. set (fx1 := F x 1%nat s) in *.
    replace (p * (w0 * (b * (fy1 - fy0) + - 1 * (b * (fx1 - fx0)))) + q * (w1 * (((cy - py) * st0 - w0 * (b * (fy1 - fy0))) / w1 + - 1 * (((cx - px) * st0 - w0 * (b * (fx1 - fx0))) / w1))))
      with (w0 * b * ((p - q) * ((fy1 - fx1) - (fy0 - fx0))) + st0 * (q * (cy - cx)) - st0 * (q * (py - px))) by (field; lra).
    assert (SGP : (p = 1 /\ x0 <= y0) \/ (p = - 1 /\ y0 <= x0)).
    { destruct SP0 as [(E & L)|(E & L)]; [left|right]; (split; [exact E|]); apply (Rmult_le_reg_l w0); try exact W0; lra. }
    assert (SGQ : (q = 1 /\ x1 <= y1) \/ (q = - 1 /\ y1 <= x1)).
    { destruct SQ0 as [(E & L)|(E & L)]; [left|right]; (split; [exact E|]); apply (Rmult_le_reg_l w1); try exact W1; lra. }
    assert (K1 : (p - q) * ((fy1 - fx1) - (fy0 - fx0)) <= 0).
    { destruct SGP as [(-> & L0)|(-> & L0)], SGQ as [(-> & L1)|(-> & L1)]; lra. }
    assert (K2 : q * (cy - cx) <= e1) by (apply abs_le_between in CS; destruct SGQ as [(-> & _)|(-> & _)]; lra).
    assert (K3 : 0 <= q * (py - px)) by (destruct SGQ as [(-> & L1)|(-> & L1)]; [destruct (DN1 L1)|destruct (UP1 L1)]; lra).
    assert (WB : 0 <= w0 * b) by (apply Rmult_le_pos; lra).
    assert (Q1 : 0 <= w0 * b * - ((p - q) * ((fy1 - fx1) - (fy0 - fx0)))) by (apply Rmult_le_pos; lra).
    assert (Q2 : st0 * (q * (cy - cx)) <= st0 * e1) by (apply Rmult_le_compat_l; lra). assert (Q3 : 0 <= st0 * (q * (py - px))) by (apply Rmult_le_pos; lra). lra.
Qed.
Print Assumptions C204_grains_stay_near.


(** ** Positive parts that cannot grow *)
Section Ordered.
Variables (f f' h h' : R -> R) (Tf : R).
Hypothesis HT : 0 <= Tf.
Hypothesis EF : evolves 0 Tf f f'.
Hypothesis EH : evolves 0 Tf h h'.
Hypothesis H : forall t s r, 0 < t < Tf -> sign_of s (f t) -> sign_of r (h t) -> s * f' t + r * h' t + (f' t + h' t) <= 0.
Hypothesis F0 : f 0 <= 0.
Hypothesis H0 : h 0 <= 0.
Lemma l1_ordered t : 0 <= t <= Tf -> f t <= 0 /\ h t <= 0.
Proof.
  intros T. set (P := fun t => f t + h t). assert (EP : evolves 0 Tf P (fun t => f' t + h' t)) by (apply evolves_plus; assumption).
  destruct (continuity_ab_min P 0 Tf HT (proj1 EP)) as (u & MIN & _). set (K := 1 - P u).
  assert (PP : forall s, 0 <= s <= Tf -> 0 < P s + K) by (intros s S; specialize (MIN s S); unfold K; lra).
  assert (EK : evolves 0 Tf (fun t => P t + K) (fun t => f' t + h' t + 0)) by (apply evolves_plus; [exact EP|exact (evolves_const 0 Tf K)]).
  assert (Y := l1_falls 2 (fun i => if Nat.eqb i 0 then f else fun t => P t + K) (fun i => if Nat.eqb i 0 then f' else fun t => f' t + h' t + 0) (fun i => if Nat.eqb i 0 then h else fun _ => 0) (fun i => if Nat.eqb i 0 then h' else fun _ => 0) Tf
    ltac:(intros [|[|i]] I; [exact EF|exact EK|lia]) ltac:(intros [|[|i]] I; [exact EH|exact (evolves_const 0 Tf 0)|lia])).
  lapply Y; [clear Y; intros Y|clear Y].
  - assert (Z := Y t T). cbn [rsum Nat.eqb] in Z. rewrite (Rabs_right (P t + K)), (Rabs_right (P 0 + K)), Rabs_R0 in Z by (left; apply PP; lra). rewrite (Rabs_left1 (f 0)), (Rabs_left1 (h 0)) in Z by assumption. unfold P in Z.
    unfold Rabs in Z. destruct (Rcase_abs (f t)), (Rcase_abs (h t)); lra.
  - intros q s r Q SS SR. cbn [rsum Nat.eqb]. assert (S1 := SS 1%nat ltac:(lia)). cbn [Nat.eqb] in S1. assert (PQ := PP q ltac:(lra)).
    assert (E : s 1%nat = 1) by (destruct S1 as [(E & _)|(_ & N)]; [exact E|lra]). rewrite E. assert (B := H q (s 0%nat) (r 0%nat) Q (SS 0%nat ltac:(lia)) (SR 0%nat ltac:(lia))). lra.
Qed.
End Ordered.
Lemma influents_ordered g rows rows' i Tf : physical g -> (i < x_n g)%nat -> (forall k, minute_until g Tf k -> interp_x (rows i) (INR k) <= interp_x (rows' i) (INR k)) ->
  forall k, minute_until g Tf k -> cinfA g rows k i <= cinfA g rows' k i.
Proof.
  intros HP Hi N k MU. assert (TC := tconv_pos g HP).
  assert (E := C37_inlet_follows_influent g rows i k HP Hi). assert (E' := C37_inlet_follows_influent g rows' i k HP Hi). rewrite at_time_minute in E, E' by lra.
  specialize (N k MU). rewrite <- E, <- E' in N. clear E E'. assert (C := cb0_pos g HP i Hi). assert (M := ph_mw g HP i Hi). assert (U := ph_mul g HP). set (a := cinfA g rows k i) in *. set (b := cinfA g rows' k i) in *.
  assert (CM : 0 < cb0 g i * x_mw g i) by (apply Rmult_lt_0_compat; assumption). assert (KP : 0 < cb0 g i * x_mw g i / x_mass_mul g) by (apply Rdiv_lt_0_compat; assumption).
  apply (Rmult_le_reg_r _ _ _ KP). replace (a * (cb0 g i * x_mw g i / x_mass_mul g)) with (a * cb0 g i * x_mw g i / x_mass_mul g) by (field; lra). replace (b * (cb0 g i * x_mw g i / x_mass_mul g)) with (b * cb0 g i * x_mw g i / x_mass_mul g) by (field; lra). exact N.
Qed.

Theorem C204_more_in_more_on : forall inv legendre jroots nz ne m g,
  good_library inv legendre jroots 2 nz -> calc_solver_matrix inv legendre jroots 2 nz ne = Ok m ->
  (* one compound, two radial points *)
  physical g -> x_n g = 1%nat -> 0 < kf_v g 0 -> 0 <= ds_v g 0 < dp_v g 0 -> (x_organic_free g = true -> 0 < x_tortu g) ->
  forall rows rows' foul Tf y x,
  (forall k, minute_until g Tf k -> ds_v g 0 * (if x_organic_free g then x_tortu g else Rmax 1 (334 / 1000 + 661 / 100000000 * INR k)) <= dp_v g 0) ->
  gac_trajectory (x_n g) 2 (m_c m) (diffun g m 2 rows foul) Tf y ->
  gac_trajectory (x_n g) 2 (m_c m) (diffun g m 2 rows' foul) Tf x ->
  (* one influent is never above the other, and one grain not above the other at the start *)
  (forall k, minute_until g Tf k -> interp_x (rows 0%nat) (INR k) <= interp_x (rows' 0%nat) (INR k)) ->
  (forall r, (r < 2)%nat -> y 0 0%nat r 0%nat <= x 0 0%nat r 0%nat) ->
  forall t r, 0 <= t <= Tf -> (r < 2)%nat -> y t 0%nat r 0%nat <= x t 0%nat r 0%nat.
Proof.
  intros inv legendre jroots nz ne m g HG Hm HP H1 Hkf Hds Htt. assert (Hi : (0 < x_n g)%nat) by lia.
  destruct (C199_weights inv legendre jroots 2 nz ne m HG Hm) as (WP & _). assert (W0 := WP 0%nat ltac:(lia)). assert (W1 := WP 1%nat ltac:(lia)).
  assert (SG := radial_sign inv legendre jroots 2 nz ne m HG Hm 0 ltac:(lia)). cbn [Nat.sub pow] in SG.
  assert (B0 : b_r m 0%nat 0%nat = - b_r m 0%nat 1%nat).
  { assert (HD := grid_distinct inv legendre jroots 2 nz ne m HG Hm). assert (RS := Bx_constant 2 (gac_rr jroots 2) HD 3 1 0%nat ltac:(lia)). unfold apply_row in RS. cbn [rsum] in RS.
    rewrite <- !(radial_same inv legendre jroots 2 nz ne m HG Hm) in RS by lia. lra. }
  assert (MC := mc_pos inv legendre jroots 2 nz ne m Hm). assert (SP := stdv_pos g 0 HP Hkf). assert (DG := dg_pos g HP 0%nat Hi).
  assert (BP := beds_pos g 0 HP Hi ltac:(lra) ltac:(lra) Htt). assert (C := cb0_pos g HP 0%nat Hi). assert (MW := ph_mw g HP 0%nat Hi). assert (U := ph_mul g HP).
  assert (CM : 0 < cb0 g 0 * x_mw g 0) by (apply Rmult_lt_0_compat; assumption). assert (KP : 0 < x_mass_mul g / (cb0 g 0 * x_mw g 0)) by (apply Rdiv_lt_0_compat; assumption).
  assert (DI : 0 < dgI g 0) by (unfold dgI; apply Rdiv_lt_0_compat; lra). set (st0 := stdv g 0 * dgI g 0). assert (ST : 0 < st0) by (apply Rmult_lt_0_compat; assumption).
  intros rows rows' foul Tf y x Htor TY TX ORD START t r T HR.
  set (ff := fun t => at_time g (foulFA g foul) t). assert (FF : forall t, 0 <= ff t 0%nat) by (intros s; apply foul_nonneg).
  assert (FA : forall t, 0 <= t <= Tf -> 0 <= bedp g 0 * at_time g (facA g) t 0) by (intros s S; apply (pore_rate_nonneg g 0 Tf s); assumption).
  assert (CN : forall s, 0 <= s <= Tf -> at_time g (cinfA g rows) s 0 <= at_time g (cinfA g rows') s 0) by (intros s S; apply (tables_ordered g _ _ Tf); [exact HP|exact S|apply (influents_ordered g rows rows' 0 Tf HP Hi ORD)]).
  set (F := fun (v : R -> nat -> nat -> nat -> R) k t => bedp g 0 * at_time g (facA g) t 0 * cpore g 2 (ff t) (v t) 0 k 0 + beds g 0 * v t 0%nat k 0%nat).
  set (b := b_r m 0%nat 1%nat) in *. set (w0 := w_r m 0%nat) in *. set (w1 := w_r m 1%nat) in *.
  assert (RUN : forall rw v, gac_trajectory (x_n g) 2 (m_c m) (diffun g m 2 rw foul) Tf v ->
    evolves 0 Tf (fun t => v t 0%nat 0%nat 0%nat) (fun t => b * (F v 1%nat t - F v 0%nat t)) /\
    evolves 0 Tf (fun t => v t 0%nat 1%nat 0%nat) (fun t => ((at_time g (cinfA g rw) t 0 - cpore g 2 (ff t) (v t) 0 1 0) * st0 - w0 * (b * (F v 1%nat t - F v 0%nat t))) / w1)).
  { intros rw v TV. split.
    - eapply evolves_ext; [reflexivity| |apply (TV 0%nat 0%nat 0%nat Hi ltac:(lia) MC)]. intros s _. cbv beta. unfold F, ff, diffun, gac_rhs, bb. cbn [Nat.ltb Nat.leb Nat.sub rsum]. rewrite B0. fold b. ring.
    - eapply evolves_ext; [reflexivity| |apply (TV 0%nat 1%nat 0%nat Hi ltac:(lia) MC)]. intros s _. cbv beta. unfold F, ff, diffun, gac_rhs, ww, bb. cbn [Nat.ltb Nat.leb Nat.sub Nat.eqb rsum]. rewrite B0. fold b w0 w1 st0. f_equal. ring. }
  destruct (RUN rows y TY) as (Y0 & Y1). destruct (RUN rows' x TX) as (X0 & X1).
  assert (UP : forall k s, 0 <= s <= Tf -> y s 0%nat k 0%nat <= x s 0%nat k 0%nat -> F y k s <= F x k s /\ cpore g 2 (ff s) (y s) 0 k 0 <= cpore g 2 (ff s) (x s) 0 k 0).
  { intros k s S L. assert (PU := pore_up g 2 (ff s) HP H1 (FF s) (y s) (x s) k 0 L). split; [|exact PU]. unfold F. apply Rplus_le_compat; apply Rmult_le_compat_l; try assumption; [apply FA, S|lra]. }
  assert (DOWN : forall k s, 0 <= s <= Tf -> x s 0%nat k 0%nat <= y s 0%nat k 0%nat -> F x k s <= F y k s /\ cpore g 2 (ff s) (x s) 0 k 0 <= cpore g 2 (ff s) (y s) 0 k 0).
  { intros k s S L. assert (PU := pore_up g 2 (ff s) HP H1 (FF s) (x s) (y s) k 0 L). split; [|exact PU]. unfold F. apply Rplus_le_compat; apply Rmult_le_compat_l; try assumption; [apply FA, S|lra]. }
  assert (RES := l1_ordered (fun t => w0 * (y t 0%nat 0%nat 0%nat + - 1 * x t 0%nat 0%nat 0%nat)) _ (fun t => w1 * (y t 0%nat 1%nat 0%nat + - 1 * x t 0%nat 1%nat 0%nat)) _ Tf ltac:(lra)
    (evolves_scal 0 Tf w0 _ _ (evolves_plus 0 Tf _ _ _ _ Y0 (evolves_scal 0 Tf (- 1) _ _ X0))) (evolves_scal 0 Tf w1 _ _ (evolves_plus 0 Tf _ _ _ _ Y1 (evolves_scal 0 Tf (- 1) _ _ X1)))).
  lapply RES; [clear RES; intros RES|clear RES].
  - assert (S0 := START 0%nat ltac:(lia)). assert (S1 := START 1%nat ltac:(lia)).
    assert (Q0 : w0 * (y 0 0%nat 0%nat 0%nat + - 1 * x 0 0%nat 0%nat 0%nat) <= 0) by (assert (0 <= w0 * (x 0 0%nat 0%nat 0%nat - y 0 0%nat 0%nat 0%nat)) by (apply Rmult_le_pos; lra); lra).
    assert (Q1 : w1 * (y 0 0%nat 1%nat 0%nat + - 1 * x 0 0%nat 1%nat 0%nat) <= 0) by (assert (0 <= w1 * (x 0 0%nat 1%nat 0%nat - y 0 0%nat 1%nat 0%nat)) by (apply Rmult_le_pos; lra); lra).
    destruct (RES Q0 Q1 t T) as (Z0 & Z1). destruct r as [|[|r]]; [apply (Rmult_le_reg_l w0); [exact W0|lra]|apply (Rmult_le_reg_l w1); [exact W1|lra]|lia].
  - intros s p q S SP0 SQ0. cbv beta.
    assert (UP0 := UP 0%nat s ltac:(lra)). assert (UP1 := UP 1%nat s ltac:(lra)). assert (DN0 := DOWN 0%nat s ltac:(lra)). assert (DN1 := DOWN 1%nat s ltac:(lra)). assert (CS := CN s ltac:(lra)).
    set (cy := at_time g (cinfA g rows) s 0) in *. set (cx := at_time g (cinfA g rows') s 0) in *.
    set (y0 := y s 0%nat 0%nat 0%nat) in *. set (y1 := y s 0%nat 1%nat 0%nat) in *. set (x0 := x s 0%nat 0%nat 0%nat) in *. set (x1 := x s 0%nat 1%nat 0%nat) in *.
    set (py := cpore g 2 (ff s) (y s) 0 1 0) in *. set (px := cpore g 2 (ff s) (x s) 0 1 0) in *.
    set (fy0 := F y 0%nat s) in *. set (fy1 := F y 1%nat s) in *. set (fx0 := F x 0%nat s) in *. set (fx1 := F x 1%nat s) in *.
    replace (p * (w0 * (b * (fy1 - fy0) + - 1 * (b * (fx1 - fx0)))) + q * (w1 * (((cy - py) * st0 - w0 * (b * (fy1 - fy0))) / w1 + - 1 * (((cx - px) * st0 - w0 * (b * (fx1 - fx0))) / w1)))
      + (w0 * (b * (fy1 - fy0) + - 1 * (b * (fx1 - fx0))) + w1 * (((cy - py) * st0 - w0 * (b * (fy1 - fy0))) / w1 + - 1 * (((cx - px) * st0 - w0 * (b * (fx1 - fx0))) / w1))))
      with (w0 * b * ((p - q) * ((fy1 - fx1) - (fy0 - fx0))) + st0 * ((q + 1) * ((cy - cx) - (py - px)))) by (field; lra).
    assert (SGP : (p = 1 /\ x0 <= y0) \/ (p = - 1 /\ y0 <= x0)).
    { destruct SP0 as [(E & L)|(E & L)]; [left|right]; (split; [exact E|]); apply (Rmult_le_reg_l w0); try exact W0; lra. }
    assert (SGQ : (q = 1 /\ x1 <= y1) \/ (q = - 1 /\ y1 <= x1)).
    { destruct SQ0 as [(E & L)|(E & L)]; [left|right]; (split; [exact E|]); apply (Rmult_le_reg_l w1); try exact W1; lra. }
    assert (K1 : (p - q) * ((fy1 - fx1) - (fy0 - fx0)) <= 0).
    { destruct SGP as [(-> & L0)|(-> & L0)], SGQ as [(-> & L1)|(-> & L1)]; lra. }
    assert (K2 : (q + 1) * ((cy - cx) - (py - px)) <= 0) by (destruct SGQ as [(-> & L1)|(-> & L1)]; [destruct (DN1 L1)|]; lra).
    assert (WB : 0 <= w0 * b) by (apply Rmult_le_pos; lra).
    assert (Q1 : 0 <= w0 * b * - ((p - q) * ((fy1 - fx1) - (fy0 - fx0)))) by (apply Rmult_le_pos; lra).
    assert (Q2 : 0 <= st0 * - ((q + 1) * ((cy - cx) - (py - px)))) by (apply Rmult_le_pos; lra). lra.
Qed.
Print Assumptions C204_more_in_more_on.

(** One compound in clean water, 100 ug/L and measured as 110: both beds can be run from fresh, and their grains at the inlet stay near. *)
Example carbon_measured_too_high : exists m G Tf y x, 0 < G /\ 0 < Tf /\ calc_solver_matrix inv23 leg_mid jac_one 2 3 1 = Ok m /\
  gac_trajectory 1 2 (m_c m) (diffun (g_ex 1 true 1) m 2 (fun _ => [(0, 100); (1000, 100)]) (fun _ _ => 1)) Tf y /\
  gac_trajectory 1 2 (m_c m) (diffun (g_ex 1 true 1) m 2 (fun _ => [(0, 110); (1000, 110)]) (fun _ _ => 1)) Tf x /\
  forall t, 0 <= t <= Tf -> grain_distance (w_r m) (y t) (x t) <= G * 10 * t /\ y t 0%nat 0%nat 0%nat <= x t 0%nat 0%nat 0%nat.
Proof.
  destruct (matrices_example 1 (le_n 1)) as (m & Hm & M3). exists m. set (g := g_ex 1 true 1).
  assert (HP : physical g) by (apply physical_example; lia).
  assert (Hx : forall j, (j < x_n g)%nat -> x_xn g j <= 1) by (intros j _; cbn; lra).
  assert (E9 : 10 ^ 9 = 1000000000) by (simpl; ring). assert (E6 : 10 ^ 6 = 1000000) by (simpl; ring).
  assert (ED : ds_v g 0 = 1 / 10 ^ 9). { unfold ds_v. cbn [x_ds x_organic_free g g_ex]. rewrite (proj2 (rltb_true _ _)) by (rewrite E9; lra). reflexivity. }
  assert (EP : dp_v g 0 = 1 / 10 ^ 6). { unfold dp_v. cbn [x_dp g g_ex]. rewrite (proj2 (rltb_true _ _)) by (rewrite E6; lra). reflexivity. }
  destruct (C168_carbon_column_starts g m 2 (fun _ => [(0, 100); (1000, 100)]) (fun _ _ => 1) 1 (fun _ _ _ => 0) HP Hx ltac:(lia) ltac:(lra)) as (T1 & y & H1 & TY & Y0).
  destruct (C168_carbon_column_starts g m 2 (fun _ => [(0, 110); (1000, 110)]) (fun _ _ => 1) 1 (fun _ _ _ => 0) HP Hx ltac:(lia) ltac:(lra)) as (T2 & x & H2 & TX & X0).
  destruct (C204_grains_stay_near inv23 leg_mid jac_one 3 1 m g library_example Hm HP eq_refl) as (G & GP & AL).
  - unfold kf_v. cbn [x_kf g g_ex]. rewrite (proj2 (rltb_true _ _)) by lra. lra.
  - rewrite ED, EP, E9, E6. lra.
  - intros _. cbn. lra.
  - set (Tf := Rmin T1 T2). assert (M1 : Tf <= T1) by apply Rmin_l. assert (M2 : Tf <= T2) by apply Rmin_r. assert (M0 : 0 < Tf) by (apply Rmin_pos; lra).
    assert (TY' : gac_trajectory (x_n g) 2 (m_c m) (diffun g m 2 (fun _ => [(0, 100); (1000, 100)]) (fun _ _ => 1)) Tf y) by (intros k i z K I Z; apply (evolves_sub 0 T1); [exact M1|apply TY; assumption]).
    assert (TX' : gac_trajectory (x_n g) 2 (m_c m) (diffun g m 2 (fun _ => [(0, 110); (1000, 110)]) (fun _ _ => 1)) Tf x) by (intros k i z K I Z; apply (evolves_sub 0 T2); [exact M2|apply TX; assumption]).
    exists G, Tf, y, x. split; [exact GP|]. split; [exact M0|]. split; [exact Hm|]. split; [exact TY'|]. split; [exact TX'|]. intros t T.
    assert (X := AL _ _ _ Tf y x 10 ltac:(intros k _; rewrite ED, EP, E9, E6; cbn [x_organic_free x_tortu g g_ex]; lra) TY' TX' ltac:(lra)).
    assert (KF : 0 < kf_v g 0) by (unfold kf_v; cbn [x_kf g g_ex]; rewrite (proj2 (rltb_true _ _)) by lra; lra).
    assert (KD : 0 <= ds_v g 0 < dp_v g 0) by (rewrite ED, EP, E9, E6; lra).
    split; [|apply (C204_more_in_more_on inv23 leg_mid jac_one 3 1 m g library_example Hm HP eq_refl KF KD ltac:(intros _; cbn; lra) _ _ _ Tf y x ltac:(intros k _; rewrite ED, EP, E9, E6; cbn [x_organic_free x_tortu g g_ex]; lra) TY' TX'); try assumption; try lia; [|intros k K; rewrite Y0, X0 by (cbn; lia); lra]; intros k _; cbn [interp_x]; unfold line; repeat match goal with |- context [if ?b then _ else _] => destruct b end; lra].
    eapply Rle_trans; [apply X; [|exact T]|].
    + intros k _. cbn [interp_x]. unfold line. repeat match goal with |- context [if ?b then _ else _] => destruct b end; apply Rabs_le; lra.
    + unfold grain_distance. rewrite !Y0, !X0 by (cbn; lia). rewrite Rminus_diag_eq, Rabs_R0 by reflexivity. lra.
Qed.
