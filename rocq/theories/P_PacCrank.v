(** Proofs for C169: roots of the characteristic equation, their eigenfunctions and Bessel's
    inequality. *)
From Coq Require Import Reals List Lia Lra Ranalysis_reg.
From Verif Require Import Lib_Py Lib_Sum Lib_Traj M_Pac M_PacCrank S_PacCrank.
Import ListNotations.
Open Scope R_scope.

(** ** Roots *)
Definition char_at (A x y : R) : Prop := sin y * (3 + A * x ^ 2) = 3 * x * cos y.
Lemma char_shift A x y k : char_at A x (y + INR k * PI) <-> char_at A x y.
Proof.
  induction k as [|k IH]; [cbn [INR]; rewrite Rmult_0_l, Rplus_0_r; reflexivity|].
  rewrite <- IH, S_INR. replace (y + (INR k + 1) * PI) with (y + INR k * PI + PI) by ring. unfold char_at. rewrite neg_sin, neg_cos.
  split; intros H; lra.
Qed.
Lemma g_step A x x' : 0 <= A -> 0 < x -> x < x' -> 3 * x' / (3 + A * x' ^ 2) - 3 * x / (3 + A * x ^ 2) <= x' - x.
Proof.
  intros HA Hx L. assert (P : 0 <= A * x ^ 2) by (apply Rmult_le_pos; [lra|apply pow2_ge_0]). assert (P' : 0 <= A * x' ^ 2) by (apply Rmult_le_pos; [lra|apply pow2_ge_0]).
  assert (PP : 0 <= A * (x * x')) by (apply Rmult_le_pos; [lra|nra]).
  replace (3 * x' / (3 + A * x' ^ 2) - 3 * x / (3 + A * x ^ 2)) with ((x' - x) * (3 * (3 - A * (x * x')) / ((3 + A * x ^ 2) * (3 + A * x' ^ 2)))) by (field; lra).
  assert (Q : 3 * (3 - A * (x * x')) / ((3 + A * x ^ 2) * (3 + A * x' ^ 2)) <= 1); [|nra].
  apply (Rmult_le_reg_r ((3 + A * x ^ 2) * (3 + A * x' ^ 2))); [nra|]. unfold Rdiv. rewrite Rmult_assoc, Rinv_l by nra. nra.
Qed.
Lemma cos_half y : 0 <= y < PI / 2 -> 0 < cos y.
Proof. intros H. apply cos_gt_0; lra. Qed.
Lemma tan_deriv y : cos y <> 0 -> derivable_pt_lim tan y (1 + tan y * tan y).
Proof.
  intros H. unfold tan. assert (D := derivable_pt_lim_div sin cos y (cos y) (- sin y) (derivable_pt_lim_sin y) (derivable_pt_lim_cos y) H).
  refine (eq_rect _ (fun l => derivable_pt_lim (fun x => sin x / cos x) y l) D _ _). unfold Rsqr. field. exact H.
Qed.
Lemma tan_step y y' : 0 <= y -> y < y' -> y' < PI / 2 -> y' - y < tan y' - tan y.
Proof.
  intros H0 L H1.
  assert (EV : evolves y y' tan (fun y => 1 + tan y * tan y)).
  { split; intros t Ht.
    - apply derivable_continuous_pt. exists (1 + tan t * tan t). apply tan_deriv. apply Rgt_not_eq, cos_half. lra.
    - apply tan_deriv. apply Rgt_not_eq, cos_half. lra. }
  destruct (evolves_mvt _ _ _ _ L EV) as (c & Hc & ->).
  assert (T : 0 < tan c) by (apply tan_gt_0; lra). assert (0 < tan c * tan c) by (apply Rmult_lt_0_compat; exact T). set (w := tan c * tan c) in *. clearbody w. nra.
Qed.
(** In the first quarter of each period but the zeroth there is at most one root. *)
Lemma root_unique A k x x' : 0 <= A -> crank_root A x -> crank_root A x' ->
  INR k * PI < x < INR k * PI + PI / 2 -> INR k * PI < x' < INR k * PI + PI / 2 -> x = x'.
Proof.
  assert (W : forall x x', 0 <= A -> crank_root A x -> crank_root A x' ->
    INR k * PI < x < INR k * PI + PI / 2 -> INR k * PI < x' < INR k * PI + PI / 2 -> x < x' -> False).
  { intros z z' HA (Pz & Ez) (Pz' & Ez') Hz Hz' L. set (y := z - INR k * PI) in *. set (y' := z' - INR k * PI) in *.
    assert (E : tan y = 3 * z / (3 + A * z ^ 2)).
    { assert (C : char_at A z (y + INR k * PI)) by (unfold char_at; replace (y + INR k * PI) with z by (unfold y; ring); exact Ez). apply char_shift in C. unfold char_at in C. unfold tan.
      assert (CP : 0 < cos y) by (apply cos_half; unfold y; lra). assert (P : 0 <= A * z ^ 2) by (apply Rmult_le_pos; [lra|apply pow2_ge_0]).
      apply (Rmult_eq_reg_r (cos y * (3 + A * z ^ 2))); [|nra]. field_simplify; [lra|lra|lra]. }
    assert (E' : tan y' = 3 * z' / (3 + A * z' ^ 2)).
    { assert (C : char_at A z' (y' + INR k * PI)) by (unfold char_at; replace (y' + INR k * PI) with z' by (unfold y'; ring); exact Ez'). apply char_shift in C. unfold char_at in C. unfold tan.
      assert (CP : 0 < cos y') by (apply cos_half; unfold y'; lra). assert (P : 0 <= A * z' ^ 2) by (apply Rmult_le_pos; [lra|apply pow2_ge_0]).
      apply (Rmult_eq_reg_r (cos y' * (3 + A * z' ^ 2))); [|nra]. field_simplify; [lra|lra|lra]. }
    assert (T := tan_step y y' ltac:(unfold y; lra) ltac:(unfold y, y'; lra) ltac:(unfold y'; lra)).
    assert (G := g_step A z z' HA Pz L). rewrite E, E' in T. unfold y, y' in T. lra. }
  intros HA R1 R2 H1 H2. destruct (Rtotal_order x x') as [L|[E|L]]; [exfalso; exact (W x x' HA R1 R2 H1 H2 L)|exact E|exfalso; exact (W x' x HA R2 R1 H2 H1 L)].
Qed.
(** There are no others. *)
Lemma period x : 0 < x -> exists k, INR k * PI <= x < INR (S k) * PI.
Proof.
  intros Hx. assert (HP := PI_RGT_0). destruct (archimed (x / PI)) as (U & L).
  assert (Z : (0 < up (x / PI))%Z) by (apply lt_IZR; assert (0 < x / PI) by (apply Rdiv_lt_0_compat; lra); lra).
  exists (Z.to_nat (up (x / PI) - 1)). rewrite S_INR, INR_IZR_INZ, Z2Nat.id by lia. rewrite minus_IZR.
  assert (E : x = x / PI * PI) by (field; lra). split.
  - rewrite E at 2. apply Rmult_le_compat_r; lra.
  - rewrite E at 1. apply Rmult_lt_compat_r; lra.
Qed.
Lemma root_where A x : 0 <= A -> crank_root A x -> exists k, (1 <= k)%nat /\ INR k * PI < x < INR k * PI + PI / 2.
Proof.
  intros HA (Hx & E). assert (HP := PI_RGT_0). destruct (period x Hx) as (k & K1 & K2). rewrite S_INR in K2. set (y := x - INR k * PI).
  assert (P : 0 <= A * x ^ 2) by (apply Rmult_le_pos; [lra|apply pow2_ge_0]).
  assert (C : sin y * (3 + A * x ^ 2) = 3 * x * cos y).
  { apply (proj1 (char_shift A x y k)). unfold char_at. replace (y + INR k * PI) with x by (unfold y; ring). exact E. }
  assert (Y0 : 0 <= y < PI) by (unfold y; lra).
  assert (Y1 : y <> 0). { intros Z. rewrite Z, sin_0, cos_0 in C. lra. }
  assert (Sy : 0 < sin y) by (apply sin_gt_0; lra).
  assert (Cy : 0 < cos y) by nra.
  assert (Y2 : y < PI / 2). { destruct (Rlt_le_dec y (PI / 2)) as [L|L]; [exact L|]. exfalso. assert (cos y <= 0); [|lra]. apply cos_le_0; lra. }
  exists k. split; [|unfold y in *; lra]. destruct k as [|k]; [exfalso|lia].
  assert (T := tan_step 0 y ltac:(lra) ltac:(lra) Y2). rewrite tan_0 in T. cbn [INR] in *. assert (Ey : y = x) by (unfold y; ring).
  assert (TE : tan y * (3 + A * x ^ 2) = 3 * x). { unfold tan. replace (sin y / cos y * (3 + A * x ^ 2)) with (sin y * (3 + A * x ^ 2) / cos y) by (field; lra). rewrite C. field. lra. }
  rewrite Ey in *. nra.
Qed.

(** ** What the loop finds *)
Definition eps6 : R := dec 1 6.
Lemma eps6_bounds : 0 < eps6 < 1 / 900000 /\ eps6 = / 1000000.
Proof.
  assert (E : eps6 = / 1000000) by (unfold eps6, dec; field). rewrite E. split; [|reflexivity].
  split; [apply Rinv_0_lt_compat; lra|]. unfold Rdiv. rewrite Rmult_1_l. apply Rinv_lt_contravar; lra.
Qed.
Lemma tan_shift y k : tan (y + INR k * PI) = tan y.
Proof.
  induction k as [|k IH]; [cbn [INR]; rewrite Rmult_0_l, Rplus_0_r; reflexivity|].
  rewrite S_INR. replace (y + (INR k + 1) * PI) with (y + INR k * PI + PI) by ring. rewrite <- IH. unfold tan. rewrite neg_sin, neg_cos.
  unfold Rdiv. rewrite Rinv_opp. ring.
Qed.
Lemma tan_large : 900000 < tan (PI / 2 - eps6).
Proof.
  destruct eps6_bounds as (E & _). assert (HP := PI_RGT_0). assert (H3 := PI2_3_2). unfold tan. rewrite sin_shift, cos_shift.
  assert (S1 : 0 < sin eps6) by (apply sin_gt_0; lra). assert (S2 : sin eps6 < eps6) by (apply sin_lt_x; lra).
  assert (C1 : 0 < cos eps6) by (apply cos_half; lra). assert (SC := sin2_cos2 eps6). unfold Rsqr in SC.
  assert (C2 : 999 / 1000 <= cos eps6) by nra.
  apply (Rmult_lt_reg_r (sin eps6)); [exact S1|]. unfold Rdiv. rewrite Rmult_assoc, Rinv_l by lra. destruct eps6_bounds as (_ & E2). assert (S3 : sin eps6 < / 1000000) by (rewrite <- E2; exact S2). lra.
Qed.
Lemma Forall2_len {X Y} (P : X -> Y -> Prop) l l' : Forall2 P l l' -> length l = length l'.
Proof. induction 1; cbn; congruence. Qed.
Section Found.
Variable brentq : (R -> R) -> R -> R -> res R.
Hypothesis HB : finds_roots brentq.
Variable A : R.
Hypothesis HA : 0 <= A.
Definition at_index (k : nat) (x : R) : Prop := crank_root A x /\ INR k * PI < x < INR k * PI + PI / 2.
(** One bracket. *)
Lemma bracket k : (1 <= k)%nat -> (INR k + 1) * PI <= 900000 ->
  let a := INR k * PI - eps6 in
  exists x, brentq (crank_f A) a (a + PI / 2) = Ok x /\ at_index k x.
Proof.
  intros Hk Hl a. assert (HP := PI_RGT_0). assert (H3 := PI2_3_2). destruct eps6_bounds as (E & _). assert (K1 : 1 <= INR k) by (apply (le_INR 1); lia).
  assert (Ka : PI <= INR k * PI) by nra.
  assert (Q : forall x, a <= x <= a + PI / 2 -> x = (x - INR k * PI) + INR k * PI /\ - eps6 <= x - INR k * PI <= PI / 2 - eps6) by (intros x Hx; unfold a in Hx; split; [ring|lra]).
  assert (CS : forall y, - eps6 <= y <= PI / 2 - eps6 -> 0 < cos y) by (intros y Hy; apply cos_gt_0; lra).
  assert (DP : forall x, 0 <= A * x ^ 2) by (intros x; apply Rmult_le_pos; [lra|apply pow2_ge_0]).
  destruct (HB (crank_f A) a (a + PI / 2) ltac:(lra)) as (x & Ex & Hx & Zx).
  - intros x Hx. destruct (Q x Hx) as (Eq & Hy). 
    assert (Ct : continuity_pt tan x).
    { apply derivable_continuous_pt. exists (1 + tan x * tan x). apply tan_deriv. rewrite Eq.
      assert (NZ : forall n y, cos y <> 0 -> cos (y + INR n * PI) <> 0).
      { clear. induction n as [|n IH]; intros y Hy; [cbn [INR]; rewrite Rmult_0_l, Rplus_0_r; exact Hy|].
        rewrite S_INR. replace (y + (INR n + 1) * PI) with (y + INR n * PI + PI) by ring. rewrite neg_cos. specialize (IH y Hy). lra. }
      apply NZ. apply Rgt_not_eq, CS, Hy. }
    apply (continuity_pt_minus tan (fun x => 3 * x / (3 + A * x ^ 2)) x Ct).
    apply (continuity_pt_div (fun x => 3 * x) (fun x => 3 + A * x ^ 2)); [reg|reg|specialize (DP x); lra].
  - unfold crank_f. assert (T1 : tan a = tan (- eps6)) by (unfold a; replace (INR k * PI - eps6) with (- eps6 + INR k * PI) by ring; apply tan_shift).
    assert (T2 : tan (a + PI / 2) = tan (PI / 2 - eps6)) by (unfold a; replace (INR k * PI - eps6 + PI / 2) with (PI / 2 - eps6 + INR k * PI) by ring; apply tan_shift).
    rewrite T1, T2, tan_neg. assert (T3 := tan_large). assert (T4 : 0 < tan eps6) by (apply tan_gt_0; lra).
    assert (Gu : forall x, 0 < x -> 0 < 3 * x / (3 + A * x ^ 2) <= x).
    { intros x Hx. specialize (DP x). split; [apply Rdiv_lt_0_compat; lra|]. apply (Rmult_le_reg_r (3 + A * x ^ 2)); [lra|]. unfold Rdiv. rewrite Rmult_assoc, Rinv_l by lra. nra. }
    destruct (Gu a ltac:(unfold a; lra)) as (G1 & _). destruct (Gu (a + PI / 2) ltac:(unfold a; lra)) as (_ & G2).
    assert (L : a + PI / 2 <= 900000) by (unfold a; nra).
    set (p := 3 * a / (3 + A * a ^ 2)) in *. set (r := 3 * (a + PI / 2) / (3 + A * (a + PI / 2) ^ 2)) in *. clearbody p r. nra.
  - exists x. split; [exact Ex|]. destruct (Q x Hx) as (Eq & Hy). set (y := x - INR k * PI) in *. assert (X0 : 0 < x) by (unfold a in Hx; lra).
    assert (C0 := CS y Hy). specialize (DP x).
    assert (Ty : tan y = 3 * x / (3 + A * x ^ 2)).
    { unfold crank_f in Zx. rewrite Eq in Zx at 1. rewrite tan_shift in Zx. lra. }
    assert (Gp : 0 < tan y) by (rewrite Ty; apply Rdiv_lt_0_compat; lra).
    assert (Sy : 0 < sin y).
    { unfold tan in Gp. replace (sin y) with (sin y / cos y * cos y) by (field; lra). apply Rmult_lt_0_compat; assumption. }
    assert (Y0 : 0 < y).
    { destruct (Rlt_le_dec 0 y) as [L|L]; [exact L|]. exfalso. assert (sin y <= 0); [|lra]. replace y with (- - y) by ring. rewrite sin_neg.
      assert (0 <= sin (- y)) by (apply sin_ge_0; lra). lra. }
    split; [split; [exact X0|]|unfold y in *; lra].
    enough (C : char_at A x (y + INR k * PI)) by (rewrite <- Eq in C; exact C). apply (proj2 (char_shift A x y k)). unfold char_at. unfold tan in Ty.
    replace (sin y) with (sin y / cos y * cos y) by (field; lra). rewrite Ty. field. lra.
Qed.
Lemma loop_found n : forall k roots, Forall2 at_index (seq 1 k) roots -> (INR (k + n) + 1) * PI <= 900000 ->
  exists roots', qn_loop brentq n A ((match k with O => 1 | _ => INR k end) * PI - eps6) roots = Ok roots' /\ Forall2 at_index (seq 1 (k + n)) roots'.
Proof.
  induction n as [|n IH]; intros k roots F L.
  - exists roots. rewrite Nat.add_0_r. split; [reflexivity|exact F].
  - cbn [qn_loop]. assert (HP := PI_RGT_0).
    assert (Le : (INR (S k) + 1) * PI <= 900000).
    { eapply Rle_trans; [|exact L]. apply Rmult_le_compat_r; [lra|]. apply Rplus_le_compat_r, le_INR. lia. }
    destruct (bracket (S k) ltac:(lia) Le) as (x & Ex & Hx).
    assert (G : (match roots with [] => (match k with O => 1 | _ => INR k end) * PI - eps6 | _ => (match k with O => 1 | _ => INR k end) * PI - eps6 + PI end) = INR (S k) * PI - eps6).
    { assert (Lr := Forall2_len _ _ _ F). rewrite seq_length in Lr. destruct k as [|k], roots as [|r roots]; try discriminate; [cbn [INR]; ring|]. rewrite (S_INR (S k)). ring. }
    rewrite G. cbv zeta in Ex. rewrite Ex. cbn [bind].
    destruct (IH (S k) (roots ++ [x])%list) as (roots' & E' & F').
    + rewrite seq_S. apply Forall2_app; [exact F|]. constructor; [exact Hx|constructor].
    + replace (S k + n)%nat with (k + S n)%nat by lia. exact L.
    + exists roots'. replace (k + S n)%nat with (S k + n)%nat by lia. split; [exact E'|exact F'].
Qed.
Lemma find_found n : (INR n + 1) * PI <= 900000 -> exists roots, find_qn brentq n A = Ok roots /\ Forall2 at_index (seq 1 n) roots.
Proof.
  intros L. destruct (loop_found n 0 [] (Forall2_nil _) L) as (roots & E & F). exists roots. split; [|exact F].
  unfold find_qn. rewrite Rmult_1_l in E. exact E.
Qed.
End Found.

(** ** Bessel's inequality *)
Lemma evolves_deriv a b f f' : (forall t, derivable_pt_lim f t (f' t)) -> evolves a b f f'.
Proof.
  intros H. split; intros t _; [|apply H]. apply derivable_continuous_pt. exists (f' t). apply H.
Qed.
Lemma deriv_sin k t : derivable_pt_lim (fun x => sin (k * x)) t (k * cos (k * t)).
Proof.
  assert (D := derivable_pt_lim_comp (fun x => k * x) sin t k (cos (k * t))). rewrite Rmult_comm. apply D; [|apply derivable_pt_lim_sin].
  assert (E := derivable_pt_lim_scal id k t 1 (derivable_pt_lim_id t)). rewrite Rmult_1_r in E. exact E.
Qed.
Lemma deriv_cos k t : derivable_pt_lim (fun x => cos (k * x)) t (- (k * sin (k * t))).
Proof.
  assert (D := derivable_pt_lim_comp (fun x => k * x) cos t k (- sin (k * t))).
  replace (- (k * sin (k * t))) with (- sin (k * t) * k) by ring. apply D; [|apply derivable_pt_lim_cos].
  assert (E := derivable_pt_lim_scal id k t 1 (derivable_pt_lim_id t)). rewrite Rmult_1_r in E. exact E.
Qed.
Section Bessel.
Variable A : R.
Hypothesis HA : 0 < A.
Notation root q := (crank_root A q).
Lemma root_sin q : root q -> sin q <> 0.
Proof.
  intros (P & E) Z. rewrite Z, Rmult_0_l in E. assert (S := sin2_cos2 q). unfold Rsqr in S. rewrite Z in S.
  assert (C : cos q = 0) by (apply (Rmult_eq_reg_l (3 * q)); lra). rewrite C in S. lra.
Qed.
Lemma root_cos q : root q -> q * cos q = sin q * (1 + A * q ^ 2 / 3).
Proof. intros (P & E). lra. Qed.
(** antiderivatives of r sin(q r), sin(p r) sin(q r), sin(q r)^2 *)
Definition anti1 (q r : R) : R := (sin (q * r) - q * r * cos (q * r)) / q ^ 2.
Definition anti2 (p q r : R) : R := (q * (sin (p * r) * cos (q * r)) - p * (cos (p * r) * sin (q * r))) / (p ^ 2 - q ^ 2).
Definition anti3 (q r : R) : R := (r - sin (q * r) * cos (q * r) / q) / 2.
Lemma anti1_ok q : 0 < q -> evolves 0 1 (anti1 q) (fun r => r * sin (q * r)).
Proof.
  intros Hq. apply evolves_deriv. intros t. unfold anti1, Rdiv.
  assert (D1 := derivable_pt_lim_mult (fun x => q * x) (fun x => cos (q * x)) t q _ ltac:(assert (E := derivable_pt_lim_scal id q t 1 (derivable_pt_lim_id t)); rewrite Rmult_1_r in E; exact E) (deriv_cos q t)).
  assert (D2 := derivable_pt_lim_minus _ _ t _ _ (deriv_sin q t) D1).
  assert (D3 := derivable_pt_lim_scal _ (/ q ^ 2) t _ D2).
  replace (t * sin (q * t)) with (/ q ^ 2 * (q * cos (q * t) - (q * cos (q * t) + q * t * - (q * sin (q * t))))) by (field; lra).
  refine (eq_rect _ (fun l => derivable_pt_lim _ t l) _ _ eq_refl).
  intros e He. destruct (D3 e He) as (d & Hd). exists d. intros h H1 H2. specialize (Hd h H1 H2). unfold mult_real_fct, minus_fct, mult_fct in Hd.
  rewrite !(Rmult_comm _ (/ q ^ 2)). exact Hd.
Qed.
Lemma anti2_ok p q : p ^ 2 <> q ^ 2 -> evolves 0 1 (anti2 p q) (fun r => sin (p * r) * sin (q * r)).
Proof.
  intros N. apply evolves_deriv. intros t. unfold anti2, Rdiv.
  assert (D1 := derivable_pt_lim_scal _ q t _ (derivable_pt_lim_mult _ _ t _ _ (deriv_sin p t) (deriv_cos q t))).
  assert (D2 := derivable_pt_lim_scal _ p t _ (derivable_pt_lim_mult _ _ t _ _ (deriv_cos p t) (deriv_sin q t))).
  assert (D3 := derivable_pt_lim_scal _ (/ (p ^ 2 - q ^ 2)) t _ (derivable_pt_lim_minus _ _ t _ _ D1 D2)).
  match type of D3 with derivable_pt_lim _ _ ?l => replace (sin (p * t) * sin (q * t)) with l by (cbv beta; field; lra) end.
  intros e He. destruct (D3 e He) as (d & Hd). exists d. intros h H1 H2. specialize (Hd h H1 H2). unfold mult_real_fct, minus_fct, mult_fct in Hd.
  rewrite !(Rmult_comm _ (/ (p ^ 2 - q ^ 2))). exact Hd.
Qed.
Lemma anti3_ok q : 0 < q -> evolves 0 1 (anti3 q) (fun r => sin (q * r) * sin (q * r)).
Proof.
  intros Hq. apply evolves_deriv. intros t. unfold anti3, Rdiv.
  assert (D1 := derivable_pt_lim_scal _ (/ q) t _ (derivable_pt_lim_mult _ _ t _ _ (deriv_sin q t) (deriv_cos q t))).
  assert (D3 := derivable_pt_lim_scal _ (/ 2) t _ (derivable_pt_lim_minus _ _ t _ _ (derivable_pt_lim_id t) D1)).
  assert (S := sin2_cos2 (q * t)). unfold Rsqr in S.
  match type of D3 with derivable_pt_lim _ _ ?l => replace (sin (q * t) * sin (q * t)) with l end.
  2: { replace (/ q * (q * cos (q * t) * cos (q * t) + sin (q * t) * - (q * sin (q * t)))) with (cos (q * t) * cos (q * t) - sin (q * t) * sin (q * t)) by (field; lra). lra. }
  intros e He. destruct (D3 e He) as (d & Hd). exists d. intros h H1 H2. specialize (Hd h H1 H2). unfold mult_real_fct, minus_fct, mult_fct, id in Hd.
  rewrite !(Rmult_comm _ (/ 2)), !(Rmult_comm (sin _ * cos _) (/ q)). exact Hd.
Qed.
Lemma anti1_end q : root q -> anti1 q 1 = - (A / 3) * sin q.
Proof. intros H. unfold anti1. rewrite !Rmult_1_r. rewrite (root_cos q H). destruct H as (P & _). field. lra. Qed.
Lemma anti2_end p q : root p -> root q -> p ^ 2 <> q ^ 2 -> anti2 p q 1 = - (A / 3) * (sin p * sin q).
Proof.
  intros Hp Hq N. unfold anti2. rewrite !Rmult_1_r. 
  replace (q * (sin p * cos q) - p * (cos p * sin q)) with (sin p * (q * cos q) - sin q * (p * cos p)) by ring.
  rewrite (root_cos p Hp), (root_cos q Hq). field. lra.
Qed.
Definition weight (q : R) : R := sin q ^ 2 * (9 + 9 * A + q ^ 2 * A ^ 2) / 18.
Lemma anti3_end q : root q -> anti3 q 1 + A / 3 * sin q ^ 2 = weight q.
Proof.
  intros H. unfold anti3, weight. rewrite !Rmult_1_r. assert (E := root_cos q H). destruct H as (P & _).
  assert (S := sin2_cos2 q). unfold Rsqr in S.
  assert (C : cos q = sin q * (1 + A * q ^ 2 / 3) / q) by (apply (Rmult_eq_reg_l q); [|lra]; rewrite E; field; lra).
  rewrite C in S |- *. set (s := sin q) in *. clearbody s.
  assert (S2 : 1 = s ^ 2 * (1 + (1 + A * q ^ 2 / 3) ^ 2 / q ^ 2)) by (eapply eq_trans; [symmetry; exact S|]; field; lra).
  assert (G : forall o, o = s ^ 2 * (1 + (1 + A * q ^ 2 / 3) ^ 2 / q ^ 2) ->
    (o - s * (s * (1 + A * q ^ 2 / 3) / q) / q) / 2 + A / 3 * s ^ 2 = s ^ 2 * (9 + 9 * A + q ^ 2 * A ^ 2) / 18) by (intros o ->; field; lra).
  apply G, S2.
Qed.
(** the expansion of the bath's start, its square and the antiderivative of the square *)
Definition coef (q : R) : R := A / 3 * sin q / weight q.
Definition c0 : R := A / (1 + A).
Fixpoint phi (l : list R) (r : R) : R := match l with [] => c0 * r | q :: l => phi l r + coef q * sin (q * r) end.
Fixpoint cross (p : R) (l : list R) (r : R) : R := match l with [] => c0 * anti1 p r | q :: l => cross p l r + coef q * anti2 p q r end.
Fixpoint energy (l : list R) (r : R) : R :=
  match l with [] => c0 ^ 2 * (r ^ 3 / 3) | q :: l => energy l r + 2 * coef q * cross q l r + coef q ^ 2 * anti3 q r end.
Lemma cross_ok p l : root p -> Forall (fun q => root q /\ p ^ 2 <> q ^ 2) l -> evolves 0 1 (cross p l) (fun r => sin (p * r) * phi l r) /\ cross p l 0 = 0 /\
  cross p l 1 = - (A / 3) * sin p * phi l 1.
Proof.
  intros Hp F. induction F as [|q l (Hq & N) _ (I1 & I2 & I3)]; cbn [cross phi].
  - split; [|split].
    + refine (evolves_ext 0 1 _ _ _ _ _ _ (evolves_scal 0 1 c0 _ _ (anti1_ok p (proj1 Hp)))); [reflexivity|]. intros t _. cbv beta. ring.
    + unfold anti1. rewrite !Rmult_0_r, sin_0. unfold Rdiv. ring.
    + rewrite (anti1_end p Hp). ring.
  - split; [|split].
    + refine (evolves_ext 0 1 _ _ _ _ _ _ (evolves_plus 0 1 _ _ _ _ I1 (evolves_scal 0 1 (coef q) _ _ (anti2_ok p q N)))); [reflexivity|]. intros t _. cbv beta. ring.
    + rewrite I2. unfold anti2. rewrite !Rmult_0_r, sin_0. unfold Rdiv. ring.
    + rewrite I3, (anti2_end p q Hp Hq N). rewrite Rmult_1_r. ring.
Qed.
Definition apart (l : list R) : Prop := ForallOrdPairs (fun p q => p ^ 2 <> q ^ 2) l.
Lemma energy_ok l : Forall (fun q => root q) l -> apart l -> evolves 0 1 (energy l) (fun r => phi l r * phi l r) /\ energy l 0 = 0 /\
  energy l 1 + A / 3 * phi l 1 ^ 2 = c0 ^ 2 * ((1 + A) / 3) + lsum (map (fun q => coef q ^ 2 * weight q) l).
Proof.
  intros F D. induction D as [|p l Hd _ IH]; cbn [energy phi map lsum fold_right].
  - split; [|split].
    + assert (EI : evolves 0 1 (fun r => r) (fun _ => 1)) by (apply evolves_deriv; intros t; apply derivable_pt_lim_id).
      refine (evolves_ext 0 1 _ _ _ _ _ _ (evolves_scal 0 1 (c0 ^ 2 / 3) _ _ (evolves_mult 0 1 _ _ _ _ EI (evolves_mult 0 1 _ _ _ _ EI EI)))).
      * intros t. cbv beta. field.
      * intros t _. cbv beta. field.
    + field.
    + unfold lsum. cbn. field.
  - inversion F as [|? ? Hp Fl]; subst. destruct (IH Fl) as (I1 & I2 & I3). clear IH.
    destruct (cross_ok p l Hp) as (X1 & X2 & X3).
    { clear - Fl Hd. revert Hd. induction Fl as [|q l Hq _ IH]; intros Hd; inversion Hd; subst; constructor; [split; assumption|]. apply IH. assumption. }
    split; [|split].
    + refine (evolves_ext 0 1 _ _ _ _ _ _ (evolves_plus 0 1 _ _ _ _ (evolves_plus 0 1 _ _ _ _ I1 (evolves_scal 0 1 (2 * coef p) _ _ X1)) (evolves_scal 0 1 (coef p ^ 2) _ _ (anti3_ok p (proj1 Hp))))).
      * intros t. cbv beta. ring.
      * intros t _. cbv beta. ring.
    + rewrite I2, X2. unfold anti3. rewrite !Rmult_0_r, sin_0. unfold Rdiv. ring.
    + change (fold_right Rplus 0 (map (fun q => coef q ^ 2 * weight q) l)) with (lsum (map (fun q => coef q ^ 2 * weight q) l)).
      rewrite X3, Rmult_1_r. rewrite <- (anti3_end p Hp). 
      replace (energy l 1) with (c0 ^ 2 * ((1 + A) / 3) + lsum (map (fun q => coef q ^ 2 * weight q) l) - A / 3 * phi l 1 ^ 2) by lra. ring.
Qed.
Lemma phi_end l : phi l 1 = c0 + lsum (map (fun q => coef q * sin q) l).
Proof. induction l as [|q l IH]; cbn [phi map]; [unfold lsum; cbn; ring|]. rewrite IH, Rmult_1_r. unfold lsum. cbn [fold_right]. ring. Qed.
Definition share (q : R) : R := 6 * A * (A + 1) / (9 + 9 * A + q ^ 2 * A ^ 2).
Lemma share_pos q : 0 < share q.
Proof.
  unfold share. assert (0 <= q ^ 2 * A ^ 2) by (apply Rmult_le_pos; apply pow2_ge_0). apply Rdiv_lt_0_compat; nra.
Qed.
Lemma coef_share q : root q -> coef q * sin q = share q / (1 + A) /\ coef q ^ 2 * weight q = A / 3 * (share q / (1 + A)).
Proof.
  intros H. assert (S := root_sin q H). assert (0 <= q ^ 2 * A ^ 2) by (apply Rmult_le_pos; apply pow2_ge_0). unfold coef, weight, share.
  split; field; repeat split; try lra; exact S.
Qed.
Lemma bessel l : Forall (fun q => root q) l -> apart l -> lsum (map share l) <= 1.
Proof.
  intros F D. destruct (energy_ok l F D) as (E1 & E2 & E3).
  assert (P : 0 <= energy l 1).
  { destruct (evolves_mvt 0 1 _ _ ltac:(lra) E1) as (c & _ & Ec). rewrite E2 in Ec. assert (0 <= phi l c * phi l c) by nra. lra. }
  assert (Q : 0 <= (phi l 1 - 1) ^ 2) by apply pow2_ge_0.
  assert (M1 : lsum (map (fun q => coef q * sin q) l) = lsum (map share l) / (1 + A)).
  { clear - F HA. induction F as [|q l Hq _ IH]; unfold lsum in *; cbn [map fold_right]; [unfold Rdiv; ring|]. rewrite IH, (proj1 (coef_share q Hq)). field. lra. }
  assert (M2 : lsum (map (fun q => coef q ^ 2 * weight q) l) = A / 3 * (lsum (map share l) / (1 + A))).
  { clear - F HA. induction F as [|q l Hq _ IH]; unfold lsum in *; cbn [map fold_right]; [field; lra|]. rewrite IH, (proj2 (coef_share q Hq)). field. lra. }
  rewrite M2 in E3. assert (PE := phi_end l). rewrite M1 in PE. set (s := lsum (map share l)) in *. clearbody s.
  assert (W : 0 <= A / 3 * (1 - c0 - s / (1 + A))).
  { replace (A / 3 * (1 - c0 - s / (1 + A))) with (energy l 1 + A / 3 * (phi l 1 - 1) ^ 2); [apply Rplus_le_le_0_compat; [exact P|apply Rmult_le_pos; [lra|exact Q]]|].
    replace (energy l 1) with (c0 ^ 2 * ((1 + A) / 3) + A / 3 * (s / (1 + A)) - A / 3 * phi l 1 ^ 2) by lra. rewrite PE. unfold c0. field. lra. }
  assert (V : A / 3 * (1 - c0 - s / (1 + A)) = A / 3 / (1 + A) * (1 - s)) by (unfold c0; field; lra). rewrite V in W.
  assert (K : 0 < A / 3 / (1 + A)) by (apply Rdiv_lt_0_compat; lra). nra.
Qed.
End Bessel.
