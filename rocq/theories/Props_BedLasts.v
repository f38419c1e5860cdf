(** C168 — a carbon bed with one compound on two radial points can be run for as long as desired: nothing in it grows without bound. *)
From Coq Require Import Reals List Arith Bool Lra Lia ZArith.
From Verif Require Import Lib_Py Lib_Sum Lib_Pow Lib_Traj M_Colloc S_Colloc P_Colloc S_Radial P_Radial P_RadialSign P_PacBound
  M_GacFun M_GacColumn S_GacColumn P_GacFun P_GacColumn P_GacUnique Props_GacColumn Props_Exist Props_Negative Props_Inside P_InsideGac Props_InsideGac Props_InsideTwo P_InletTwo P_L1 P_L1Grow Props_Grain Props_GrainCap Props_GrainFill.
Import ListNotations.
Open Scope R_scope.

Lemma one_of_sum n (f : nat -> R) k : (forall i, (i < n)%nat -> 0 <= f i) -> (k < n)%nat -> f k <= rsum n f.
Proof.
  induction n as [|n IH]; intros P K; [lia|]. cbn [rsum]. assert (X := P n ltac:(lia)). destruct (Nat.eq_dec k n) as [->|NE].
  - assert (Y := rsum_nonneg n f ltac:(intros; apply P; lia)). lra.
  - assert (Y := IH ltac:(intros; apply P; lia) ltac:(lia)). lra.
Qed.

Lemma whole_above x : exists N, x < INR N.
Proof.
  exists (Z.to_nat (up x)). destruct (archimed x) as (A & _). destruct (Z_le_gt_dec 0 (up x)) as [P|N].
  - rewrite INR_IZR_INZ, Z2Nat.id by exact P. lra.
  - assert (IZR (up x) < 0) by (apply IZR_lt; lia). assert (Q := pos_INR (Z.to_nat (up x))). lra.
Qed.

(** the tabulated influent is bounded until the end *)
Lemma influent_bounded g A Tf i : physical g -> exists B, 0 <= B /\ forall t, 0 <= t <= Tf -> Rabs (at_time g A t i) <= B.
Proof.
  intros HP. assert (TC := tconv_pos g HP). destruct (whole_above ((Tf + tconv g) / tconv g)) as (N & HN).
  exists (rsum (S N) (fun k => Rabs (A k i))). split; [apply rsum_nonneg; intros; apply Rabs_pos|]. intros t T.
  assert (Z : at_time g (fun _ _ => 0) t i = 0) by (unfold at_time; ring). rewrite <- (Rminus_0_r (at_time g A t i)), <- Z.
  apply (tables_near g A (fun _ _ => 0) Tf i _ t HP T). intros k MU. rewrite Rminus_0_r. apply (one_of_sum (S N) (fun k => Rabs (A k i))); [intros; apply Rabs_pos|].
  assert (INR k < INR N). { apply Rle_lt_trans with ((Tf + tconv g) / tconv g); [|lra]. apply (Rmult_le_reg_r (tconv g)); [exact TC|]. unfold Rdiv. rewrite Rmult_assoc, Rinv_l, Rmult_1_r by lra. exact MU. }
  apply INR_lt in H. lia.
Qed.

Theorem C168_one_compound_bed_lasts : forall inv legendre jroots nz ne m g rows foul Tf u0,
  good_library inv legendre jroots 2 nz -> calc_solver_matrix inv legendre jroots 2 nz ne = Ok m ->
  (* one compound, two radial points *)
  physical g -> x_n g = 1%nat -> x_xn g 0%nat <= 1 -> 0 < kf_v g 0 -> 0 <= ds_v g 0 < dp_v g 0 -> (x_organic_free g = true -> 0 < x_tortu g) ->
  (forall k, minute_until g Tf k -> ds_v g 0 * (if x_organic_free g then x_tortu g else Rmax 1 (334 / 1000 + 661 / 100000000 * INR k)) <= dp_v g 0) ->
  0 <= Tf ->
  exists y, gac_trajectory (x_n g) 2 (m_c m) (diffun g m 2 rows foul) Tf y /\
    forall i r z, (i < x_n g)%nat -> (r <= 2)%nat -> (z < m_c m)%nat -> y 0 i r z = u0 i r z.
Proof.
  intros inv legendre jroots nz ne m g rows foul Tf u0 HG Hm HP H1 Hx Hkf Hds Htt Htor HT. assert (Hi : (0 < x_n g)%nat) by lia.
  destruct (C199_weights inv legendre jroots 2 nz ne m HG Hm) as (WP & _). assert (W0 := WP 0%nat ltac:(lia)). assert (W1 := WP 1%nat ltac:(lia)).
  assert (SG := radial_sign inv legendre jroots 2 nz ne m HG Hm 0 ltac:(lia)). cbn [Nat.sub pow] in SG.
  assert (B0 : b_r m 0%nat 0%nat = - b_r m 0%nat 1%nat).
  { assert (HD := grid_distinct inv legendre jroots 2 nz ne m HG Hm). assert (RS := Bx_constant 2 (gac_rr jroots 2) HD 3 1 0%nat ltac:(lia)). unfold apply_row in RS. cbn [rsum] in RS.
    rewrite <- !(radial_same inv legendre jroots 2 nz ne m HG Hm) in RS by lia. lra. }
  assert (MC := mc_pos inv legendre jroots 2 nz ne m Hm). assert (SP := stdv_pos g 0 HP Hkf). assert (DG := dg_pos g HP 0%nat Hi).
  assert (BP := beds_pos g 0 HP Hi ltac:(lra) ltac:(lra) Htt). assert (YM := ym_pos g HP 0%nat Hi).
  assert (DI : 0 < dgI g 0) by (unfold dgI; apply Rdiv_lt_0_compat; lra). set (st0 := stdv g 0 * dgI g 0). assert (ST : 0 < st0) by (apply Rmult_lt_0_compat; assumption).
  set (ff := fun t => at_time g (foulFA g foul) t). assert (FF : forall t, 0 <= ff t 0%nat) by (intros s; apply foul_nonneg).
  assert (FA : forall t, 0 <= t <= Tf -> 0 <= bedp g 0 * at_time g (facA g) t 0) by (intros s S; apply (pore_rate_nonneg g 0 Tf s); assumption).
  destruct (influent_bounded g (cinfA g rows) Tf 0 HP) as (I & I0 & IB).
  set (mc := m_c m) in *. set (b := b_r m 0%nat 1%nat) in *. set (w0 := w_r m 0%nat) in *. set (w1 := w_r m 1%nat) in *. set (g3 := dgI g 0 / 3). assert (G3 : 0 < g3) by (unfold g3; lra).
  set (A := rsum mc (fun z => rsum mc (fun j => Rabs (a_z m z j)))). set (dd := Rabs (dg1 g)). assert (DD : 0 <= dd) by apply Rabs_pos.
  assert (AP : 0 <= A) by (apply rsum_nonneg; intros; apply rsum_nonneg; intros; apply Rabs_pos).
  assert (AZ : forall z j, (z < mc)%nat -> (j < mc)%nat -> Rabs (a_z m z j) <= A).
  { intros z j HZ J. apply Rle_trans with (rsum mc (fun j => Rabs (a_z m z j))); [apply (one_of_sum mc (fun j => Rabs (a_z m z j))); [intros; apply Rabs_pos|exact J]|].
    apply (one_of_sum mc (fun z => rsum mc (fun j => Rabs (a_z m z j)))); [intros; apply rsum_nonneg; intros; apply Rabs_pos|exact HZ]. }
  set (be := st0 * I + g3 * (dd * (A * I))). set (ka := g3 * (dd * A)).
  assert (KA : 0 <= ka) by (unfold ka; repeat (apply Rmult_le_pos; [lra|]); lra). assert (BE : 0 <= be) by (unfold be; apply Rplus_le_le_0_compat; repeat (apply Rmult_le_pos; [lra|]); lra).
  set (K := be + INR mc * (ka / g3)). assert (NM := pos_INR mc). assert (KG : 0 <= ka / g3) by (apply Rmult_le_pos; [exact KA|left; apply Rinv_0_lt_compat, G3]). assert (KN : 0 <= INR mc * (ka / g3)) by (apply Rmult_le_pos; assumption). assert (K0 : 0 <= K) by (unfold K; lra).
  (* in every cell: what the signs can add *)
  assert (CELL : forall t (u : nat -> nat -> nat -> R) z s0 s1 sc, 0 <= t <= Tf -> (z < mc)%nat -> sign_of s0 (w0 * u 0%nat 0%nat z) -> sign_of s1 (w1 * u 0%nat 1%nat z) -> sign_of sc (g3 * u 0%nat 2%nat z) ->
    s0 * (w0 * diffun g m 2 rows foul t u 0 0 z) + s1 * (w1 * diffun g m 2 rows foul t u 0 1 z) + sc * (g3 * diffun g m 2 rows foul t u 0 2 z) <= be + ka * rsum mc (fun z => Rabs (u 0%nat 2%nat z))).
  { intros t u z s0 s1 sc T HZ S0 S1 SC. apply sign_scaled in S0, S1, SC; try assumption.
    set (ss := rsum mc (fun z => Rabs (u 0%nat 2%nat z))). assert (SS : 0 <= ss) by (apply rsum_nonneg; intros; apply Rabs_pos). assert (KS : 0 <= ka * ss) by (apply Rmult_le_pos; assumption).
    set (F := fun k => bedp g 0 * at_time g (facA g) t 0 * cpore g 2 (ff t) u 0 k z + beds g 0 * u 0%nat k z).
    assert (PN : forall k, 0 <= cpore g 2 (ff t) u 0 k z) by (intros k; apply pore_nonneg, FF).
    assert (PZ : forall k, u 0%nat k z <= 0 -> cpore g 2 (ff t) u 0 k z = 0) by (intros k L; apply pore_none; [exact YM|exact L]).
    assert (FP : forall k, 0 <= u 0%nat k z -> 0 <= F k) by (intros k L; unfold F; apply Rplus_le_le_0_compat; apply Rmult_le_pos; try apply PN; try apply FA; lra).
    assert (FN : forall k, u 0%nat k z <= 0 -> F k <= 0) by (intros k L; unfold F; rewrite (PZ k L); assert (0 <= beds g 0 * - u 0%nat k z) by (apply Rmult_le_pos; lra); lra).
    assert (R0 : diffun g m 2 rows foul t u 0 0 z = b * (F 1%nat - F 0%nat)).
    { unfold F, ff, diffun, gac_rhs, bb. cbn [Nat.ltb Nat.leb Nat.sub rsum]. rewrite B0. fold b. ring. }
    set (P := cpore g 2 (ff t) u 0 1 z) in *. set (cin := at_time g (cinfA g rows) t 0). assert (CI := IB t T). fold cin in CI.
    set (ex := if Nat.eqb z 0 then (cin - P) * st0 else (u 0%nat 2%nat z - P) * st0).
    assert (R1 : w1 * diffun g m 2 rows foul t u 0 1 z = ex - w0 * (b * (F 1%nat - F 0%nat))).
    { unfold ex, P, st0, F, ff, diffun, gac_rhs, ww, bb, cbs. cbn [Nat.ltb Nat.leb Nat.sub Nat.eqb rsum]. rewrite B0. fold b w0 w1 cin. destruct (Nat.eqb_spec z 0) as [->|NE]; field; lra. }
    set (tr := a_z m z 0%nat * cin + rsum (mc - 1) (fun j => a_z m z (S j) * u 0%nat 2%nat (S j))).
    assert (R2 : g3 * diffun g m 2 rows foul t u 0 2 z = if Nat.eqb z 0 then 0 else - (g3 * (dg1 g * tr)) - (u 0%nat 2%nat z - P) * st0).
    { unfold tr, P, g3, st0, ff, diffun, gac_rhs, cbs. cbn [Nat.ltb Nat.leb Nat.sub Nat.eqb]. fold cin mc. destruct (Nat.eqb z 0); field. }
    assert (TR : Rabs tr <= A * I + A * ss).
    { unfold tr. eapply Rle_trans; [apply Rabs_triang|]. apply Rplus_le_compat.
      - rewrite Rabs_mult. apply Rmult_le_compat; try apply Rabs_pos; [apply AZ; [exact HZ|lia]|exact CI].
      - eapply Rle_trans; [apply rsum_abs|]. apply Rle_trans with (rsum (mc - 1) (fun j => A * Rabs (u 0%nat 2%nat (S j)))).
        + apply rsum_le. intros j J. rewrite Rabs_mult. apply Rmult_le_compat_r; [apply Rabs_pos|apply AZ; lia].
        + rewrite rsum_scal. apply Rmult_le_compat_l; [exact AP|]. unfold ss. destruct mc as [|k]; [lia|]. rewrite (rsum_S_first k). replace (S k - 1)%nat with k by lia. assert (Q := Rabs_pos (u 0%nat 2%nat 0%nat)). lra. }
    rewrite R0, R1, R2.
    assert (D1 : (s0 - s1) * (F 1%nat - F 0%nat) <= 0).
    { destruct S0 as [(-> & L0)|(-> & L0)], S1 as [(-> & L1)|(-> & L1)]; try lra; [assert (X0 := FP 0%nat L0); assert (X1 := FN 1%nat L1)|assert (X0 := FN 0%nat L0); assert (X1 := FP 1%nat L1)]; lra. }
    assert (D2 : w0 * b * ((s0 - s1) * (F 1%nat - F 0%nat)) <= 0).
    { assert (0 <= w0 * b * - ((s0 - s1) * (F 1%nat - F 0%nat))) by (apply Rmult_le_pos; [apply Rmult_le_pos; lra|lra]). lra. }
    assert (P1 : 0 <= P) by apply PN. assert (QZ := PZ 1%nat). fold P in QZ.
    destruct (Nat.eqb_spec z 0) as [E0|NE].
    - assert (X : s1 * ex <= st0 * I).
      { unfold ex. apply abs_le_between in CI. rewrite (Rmult_comm st0 I).
        replace (s1 * ((cin - P) * st0)) with (s1 * (cin - P) * st0) by ring. apply Rmult_le_compat_r; [lra|]. destruct S1 as [(-> & L1)|(-> & L1)]; [lra|rewrite (QZ L1); lra]. }
      assert (Y : 0 <= g3 * (dd * (A * I))) by (repeat (apply Rmult_le_pos; [lra|]); lra). unfold be.
      replace (s0 * (w0 * (b * (F 1%nat - F 0%nat))) + s1 * (ex - w0 * (b * (F 1%nat - F 0%nat))) + sc * 0) with (w0 * b * ((s0 - s1) * (F 1%nat - F 0%nat)) + s1 * ex) by ring. lra.
    - assert (X : (s1 - sc) * ex <= 0).
      { unfold ex. assert (Y : (s1 - sc) * (u 0%nat 2%nat z - P) <= 0).
        { destruct S1 as [(-> & L1)|(-> & L1)], SC as [(-> & LC)|(-> & LC)]; try lra. }
        assert (0 <= st0 * - ((s1 - sc) * (u 0%nat 2%nat z - P))) by (apply Rmult_le_pos; lra). lra. }
      assert (Y : sc * - (g3 * (dg1 g * tr)) <= g3 * (dd * (A * I + A * ss))).
      { apply Rle_trans with (Rabs (- (g3 * (dg1 g * tr)))); [apply (sign_below sc (u 0%nat 2%nat z)), SC|]. rewrite Rabs_Ropp, !Rabs_mult, (Rabs_right g3) by lra. fold dd. apply Rmult_le_compat_l; [lra|]. apply Rmult_le_compat_l; assumption. }
      assert (Z : 0 <= st0 * I) by (apply Rmult_le_pos; lra). unfold be, ka in *. unfold ex in *.
      replace (s0 * (w0 * (b * (F 1%nat - F 0%nat))) + s1 * ((u 0%nat 2%nat z - P) * st0 - w0 * (b * (F 1%nat - F 0%nat))) + sc * (- (g3 * (dg1 g * tr)) - (u 0%nat 2%nat z - P) * st0))
        with (w0 * b * ((s0 - s1) * (F 1%nat - F 0%nat)) + (s1 - sc) * ((u 0%nat 2%nat z - P) * st0) + sc * - (g3 * (dg1 g * tr))) by ring. lra. }
  destruct (C168_carbon_column_lasts g m 2 rows foul Tf u0 HP ltac:(intros i X; replace i with 0%nat by lia; exact Hx) ltac:(lia) HT) as [(y & TY & Y0)|UB].
  { exists y. split; assumption. }
  exfalso. set (S0 := rsum mc (fun z => Rabs (w0 * u0 0%nat 0%nat z) + Rabs (w1 * u0 0%nat 1%nat z) + Rabs (g3 * u0 0%nat 2%nat z))).
  set (B := exp (K * Tf) * (S0 + INR mc)). destruct (UB (B / w0 + B / w1 + B / g3)) as (T & y & i & r & z & HTT & (TY & Y0) & IL & RL & ZL & BIG). fold mc in ZL.
  assert (EI : i = 0%nat) by lia. subst i. clear IL.
  assert (GR := l1_grows mc (fun z t => w0 * y t 0%nat 0%nat z) (fun z t => w1 * y t 0%nat 1%nat z) (fun z t => g3 * y t 0%nat 2%nat z)
    (fun z t => w0 * diffun g m 2 rows foul t (y t) 0 0 z) (fun z t => w1 * diffun g m 2 rows foul t (y t) 0 1 z) (fun z t => g3 * diffun g m 2 rows foul t (y t) 0 2 z) T K
    (fun z HZ => evolves_scal 0 T w0 _ _ (TY 0%nat 0%nat z Hi ltac:(lia) HZ)) (fun z HZ => evolves_scal 0 T w1 _ _ (TY 0%nat 1%nat z Hi ltac:(lia) HZ)) (fun z HZ => evolves_scal 0 T g3 _ _ (TY 0%nat 2%nat z Hi ltac:(lia) HZ))).
  lapply GR; [clear GR; intros GR|clear GR].
  - assert (X := GR T ltac:(lra)). cbv beta in X.
    rewrite (rsum_ext mc (fun z => Rabs (w0 * y 0 0%nat 0%nat z) + Rabs (w1 * y 0 0%nat 1%nat z) + Rabs (g3 * y 0 0%nat 2%nat z)) (fun z => Rabs (w0 * u0 0%nat 0%nat z) + Rabs (w1 * u0 0%nat 1%nat z) + Rabs (g3 * u0 0%nat 2%nat z))) in X by (intros q Q; rewrite !Y0 by lia; reflexivity).
    fold S0 in X. assert (SP0 : 0 <= S0) by (apply rsum_nonneg; intros; repeat apply Rplus_le_le_0_compat; apply Rabs_pos).
    assert (XB : exp (K * T) * (S0 + INR mc) <= B).
    { unfold B. apply Rmult_le_compat_r; [lra|]. assert (L : K * T <= K * Tf) by (apply Rmult_le_compat_l; lra). destruct L as [L|E]; [left; apply exp_increasing, L|rewrite E; lra]. }
    assert (ONE := one_of_sum mc (fun z => Rabs (w0 * y T 0%nat 0%nat z) + Rabs (w1 * y T 0%nat 1%nat z) + Rabs (g3 * y T 0%nat 2%nat z)) z ltac:(intros; repeat apply Rplus_le_le_0_compat; apply Rabs_pos) ZL). cbv beta in ONE.
    assert (A0 := Rabs_pos (w0 * y T 0%nat 0%nat z)). assert (A1 := Rabs_pos (w1 * y T 0%nat 1%nat z)). assert (A2 := Rabs_pos (g3 * y T 0%nat 2%nat z)).
    assert (BP0 : 0 <= B) by lra.
    assert (D : forall w v, 0 < w -> Rabs (w * v) <= B -> Rabs v <= B / w).
    { intros w v W L. rewrite Rabs_mult, (Rabs_right w) in L by lra. apply (Rmult_le_reg_l w); [exact W|]. replace (w * (B / w)) with B by (field; lra). exact L. }
    assert (Q : forall w, 0 < w -> 0 <= B / w) by (intros w W; apply Rmult_le_pos; [exact BP0|left; apply Rinv_0_lt_compat, W]).
    assert (Q0 := Q w0 W0). assert (Q1 := Q w1 W1). assert (Q2 := Q g3 G3).
    destruct r as [|[|[|r]]]; [assert (L := D w0 (y T 0%nat 0%nat z) W0 ltac:(lra))|assert (L := D w1 (y T 0%nat 1%nat z) W1 ltac:(lra))|assert (L := D g3 (y T 0%nat 2%nat z) G3 ltac:(lra))|lia]; lra.
  - intros t sp sq sc HTI SP1 SQ1 SC1. cbv beta.
    set (ss := rsum mc (fun z => Rabs (y t 0%nat 2%nat z))). assert (SS : 0 <= ss) by (apply rsum_nonneg; intros; apply Rabs_pos).
    apply Rle_trans with (rsum mc (fun _ => be + ka * ss)).
    + apply rsum_le. intros q Q. apply (CELL t (y t) q); [lra|exact Q|apply SP1, Q|apply SQ1, Q|apply SC1, Q].
    + rewrite rsum_const. set (V := rsum mc (fun z => Rabs (w0 * y t 0%nat 0%nat z) + Rabs (w1 * y t 0%nat 1%nat z) + Rabs (g3 * y t 0%nat 2%nat z))).
      assert (VG : g3 * ss <= V).
      { unfold ss, V. rewrite <- rsum_scal. apply rsum_le. intros q Q. rewrite (Rabs_mult g3), (Rabs_right g3) by lra. assert (U0 := Rabs_pos (w0 * y t 0%nat 0%nat q)). assert (U1 := Rabs_pos (w1 * y t 0%nat 1%nat q)). lra. }
      assert (GS : 0 <= g3 * ss) by (apply Rmult_le_pos; lra).
      assert (M1 : INR mc * (ka / g3) * (g3 * ss) <= INR mc * (ka / g3) * V) by (apply Rmult_le_compat_l; assumption). replace (INR mc * (ka / g3) * (g3 * ss)) with (INR mc * (ka * ss)) in M1 by (field; lra).
      assert (M2 : 0 <= be * V) by (apply Rmult_le_pos; lra). assert (M3 : 0 <= INR mc * (ka / g3) * INR mc) by (apply Rmult_le_pos; assumption). unfold K. lra.
Qed.
Print Assumptions C168_one_compound_bed_lasts.

(** The fresh example bed at 100 ug/L can be run for any length of time. *)
Example carbon_bed_runs : exists m, calc_solver_matrix inv23 leg_mid jac_one 2 3 1 = Ok m /\
  forall Tf, 0 <= Tf -> exists y, gac_trajectory 1 2 (m_c m) (diffun (g_ex 1 true 1) m 2 (fun _ => [(0, 100); (1000, 100)]) (fun _ _ => 1)) Tf y /\
    forall r z, (r <= 2)%nat -> (z < m_c m)%nat -> y 0 0%nat r z = 0.
Proof.
  destruct (matrices_example 1 (le_n 1)) as (m & Hm & M3). exists m. split; [exact Hm|]. intros Tf HT. set (g := g_ex 1 true 1).
  assert (HP : physical g) by (apply physical_example; lia).
  assert (E9 : 10 ^ 9 = 1000000000) by (simpl; ring). assert (E6 : 10 ^ 6 = 1000000) by (simpl; ring).
  assert (ED : ds_v g 0 = 1 / 10 ^ 9). { unfold ds_v. cbn [x_ds x_organic_free g g_ex]. rewrite (proj2 (rltb_true _ _)) by (rewrite E9; lra). reflexivity. }
  assert (EP : dp_v g 0 = 1 / 10 ^ 6). { unfold dp_v. cbn [x_dp g g_ex]. rewrite (proj2 (rltb_true _ _)) by (rewrite E6; lra). reflexivity. }
  destruct (C168_one_compound_bed_lasts inv23 leg_mid jac_one 3 1 m g (fun _ => [(0, 100); (1000, 100)]) (fun _ _ => 1) Tf (fun _ _ _ => 0) library_example Hm HP eq_refl) as (y & TY & Y0).
  - cbn. lra.
  - unfold kf_v. cbn [x_kf g g_ex]. rewrite (proj2 (rltb_true _ _)) by lra. lra.
  - rewrite ED, EP, E9, E6. lra.
  - intros _. cbn. lra.
  - intros k _. rewrite ED, EP, E9, E6. cbn [x_organic_free x_tortu g g_ex]. lra.
  - exact HT.
  - exists y. split; [exact TY|]. intros r z HR HZ. apply Y0; [cbn; lia|exact HR|exact HZ].
Qed.
