(** Proofs for C170: roots of the characteristic equation with a film, their eigenfunctions and
    Bessel's inequality. *)
From Coq Require Import Reals List Lia Lra Ranalysis_reg.
From Verif Require Import Lib_Py Lib_Sum Lib_Traj M_Pac M_PacHsdm S_PacCrank S_PacHsdm P_PacCrank.
Import ListNotations.
Open Scope R_scope.

Section Char.
(** the ratio of the capacities, and the inverse Biot number *)
Variables (A b : R).
Definition num (x : R) : R := 3 - A * b * x ^ 2.
Definition den (x : R) : R := 3 + A * (1 - b) * x ^ 2.
Definition froot (x : R) : Prop := 0 < x /\ sin x * den x = x * cos x * num x.
Hypotheses (HA : 0 < A) (Hb : 0 < b < 1).
Lemma den_pos x : 0 < den x.
Proof. unfold den. assert (0 <= A * (1 - b) * x ^ 2) by (apply Rmult_le_pos; [nra|apply pow2_ge_0]). lra. Qed.
Definition ratio (x : R) : R := num x / den x.
Lemma ratio_step x x' : 0 < x -> x < x' -> ratio x' < ratio x.
Proof.
  intros Hx L. assert (P := den_pos x). assert (P' := den_pos x'). unfold ratio. apply (Rmult_lt_reg_r (den x * den x')); [nra|].
  replace (num x' / den x' * (den x * den x')) with (num x' * den x) by (field; lra). replace (num x / den x * (den x * den x')) with (num x * den x') by (field; lra).
  unfold num, den. assert (x ^ 2 < x' ^ 2) by nra. set (s := x ^ 2) in *. set (s' := x' ^ 2) in *. clearbody s s'.
  assert (E : (3 - A * b * s) * (3 + A * (1 - b) * s') - (3 - A * b * s') * (3 + A * (1 - b) * s) = 3 * A * (s' - s)) by ring. nra.
Qed.
Lemma ratio_below x : 0 < x -> ratio x < 1.
Proof.
  intros Hx. assert (P := den_pos x). unfold ratio. apply (Rmult_lt_reg_r (den x)); [exact P|]. unfold Rdiv. rewrite Rmult_assoc, Rinv_l by lra.
  unfold num, den. assert (0 < A * x ^ 2) by (apply Rmult_lt_0_compat; nra). nra.
Qed.
Lemma ratio_above x : - (b / (1 - b)) < ratio x.
Proof.
  assert (P := den_pos x). unfold ratio. apply (Rmult_lt_reg_r (den x)); [exact P|]. unfold Rdiv at 2. rewrite Rmult_assoc, Rinv_l by lra.
  unfold num, den. replace (- (b / (1 - b)) * (3 + A * (1 - b) * x ^ 2)) with (- 3 * (b / (1 - b)) - A * b * x ^ 2) by (field; lra).
  assert (0 < b / (1 - b)) by (apply Rdiv_lt_0_compat; lra). lra.
Qed.
(** the equation moved to the period around zero *)
Lemma shift_eq k x y : x = y + INR k * PI -> (sin x * den x = x * cos x * num x <-> sin y * den x = x * cos y * num x).
Proof.
  intros E. assert (G : forall c d k, sin (y + INR k * PI) * c = cos (y + INR k * PI) * d <-> sin y * c = cos y * d).
  { clear. intros c d. induction k as [|k IH]; [cbn [INR]; rewrite Rmult_0_l, Rplus_0_r; reflexivity|].
    rewrite <- IH, S_INR. replace (y + (INR k + 1) * PI) with (y + INR k * PI + PI) by ring. rewrite neg_sin, neg_cos. split; intros H; lra. }
  specialize (G (den x) (x * num x) k). rewrite <- E in G. split; intros H.
  - assert (Z : sin y * den x = cos y * (x * num x)) by (apply G; lra). lra.
  - assert (Z : sin x * den x = cos x * (x * num x)) by (apply G; lra). lra.
Qed.
Lemma root_tan k x y : x = y + INR k * PI -> 0 < x -> 0 < cos y -> (froot x <-> tan y / x = ratio x).
Proof.
  intros E Hx Hy. assert (P := den_pos x). unfold froot. rewrite (shift_eq k x y E). unfold ratio, tan. split.
  - intros (_ & H). apply (Rmult_eq_reg_r (cos y * x * den x)); [|apply Rgt_not_eq; repeat apply Rmult_lt_0_compat; lra].
    replace (sin y / cos y / x * (cos y * x * den x)) with (sin y * den x) by (field; lra). rewrite H. field. lra.
  - intros H. split; [exact Hx|]. apply (Rmult_eq_compat_r (cos y * x * den x)) in H.
    replace (sin y / cos y / x * (cos y * x * den x)) with (sin y * den x) in H by (field; lra). rewrite H. field. lra.
Qed.
Lemma tan_over x x' k : (1 <= k)%nat -> INR k * PI - PI / 2 < x -> x < x' -> x' < INR k * PI + PI / 2 -> tan (x - INR k * PI) / x < tan (x' - INR k * PI) / x'.
Proof.
  intros Hk L1 L L2. assert (HP := PI_RGT_0). assert (H3 := PI2_3_2). assert (K1 : 1 <= INR k) by (apply (le_INR 1); lia). assert (KP : PI <= INR k * PI) by nra.
  set (s := INR k * PI) in *.
  assert (CP : forall t, x <= t <= x' -> 0 < cos (t - s)) by (intros t Ht; apply cos_gt_0; lra).
  assert (DV : forall t, x <= t <= x' -> derivable_pt_lim (fun z => tan (z - s) / z) t (((1 + tan (t - s) * tan (t - s)) * t - tan (t - s)) / t ^ 2)).
  { intros t Ht. assert (D0 : derivable_pt_lim (fun z => z - s) t 1) by (replace 1 with (1 - 0) by ring; apply (derivable_pt_lim_minus id (fun _ => s)); [apply derivable_pt_lim_id|apply derivable_pt_lim_const]).
    assert (D1 : derivable_pt_lim (fun z => tan (z - s)) t (1 + tan (t - s) * tan (t - s))).
    { rewrite <- (Rmult_1_r (1 + _)). apply (derivable_pt_lim_comp (fun z => z - s) tan t 1 _ D0). apply tan_deriv. apply Rgt_not_eq, CP, Ht. }
    assert (D2 := derivable_pt_lim_div _ _ t _ _ D1 (derivable_pt_lim_id t) ltac:(unfold id; lra)). unfold id, Rsqr in D2.
    match type of D2 with derivable_pt_lim _ _ ?l => replace (((1 + tan (t - s) * tan (t - s)) * t - tan (t - s)) / t ^ 2) with l by (field; lra) end. exact D2. }
  assert (EV : evolves x x' (fun z => tan (z - s) / z) (fun t => ((1 + tan (t - s) * tan (t - s)) * t - tan (t - s)) / t ^ 2)).
  { split; intros t Ht; [apply derivable_continuous_pt; eexists; apply DV, Ht|apply DV; lra]. }
  destruct (evolves_mvt _ _ _ _ L EV) as (c & Hc & E). cbv beta in E.
  assert (0 < ((1 + tan (c - s) * tan (c - s)) * c - tan (c - s)) / c ^ 2); [|nra].
  apply Rdiv_lt_0_compat; [|nra]. assert (G : forall T, 0 < (1 + T * T) * c - T); [|apply G]. intros T. assert (C1 : 0 < c - 1) by lra. assert (Q := Rle_0_sqr (T - 1 / 2)). assert (Q1 := Rle_0_sqr T). unfold Rsqr in *.
  assert (0 <= T * T * (c - 1)) by (apply Rmult_le_pos; lra). lra.
Qed.
Definition findex (k : nat) (x : R) : Prop := froot x /\ INR k * PI - PI / 2 < x < INR k * PI + PI / 2.
Lemma froot_unique k x x' : (1 <= k)%nat -> findex k x -> findex k x' -> x = x'.
Proof.
  assert (W : forall x x', (1 <= k)%nat -> findex k x -> findex k x' -> x < x' -> False).
  { intros z z' Hk (R1 & H1) (R2 & H2) L. assert (T := tan_over z z' k Hk (proj1 H1) L (proj2 H2)). assert (Pz := proj1 R1). assert (Pz' := proj1 R2).
    apply (root_tan k z (z - INR k * PI) ltac:(ring) Pz) in R1; [|apply cos_gt_0; lra]. apply (root_tan k z' (z' - INR k * PI) ltac:(ring) Pz') in R2; [|apply cos_gt_0; lra].
    rewrite R1, R2 in T. assert (G := ratio_step z z' Pz L). lra. }
  intros Hk R1 R2. destruct (Rtotal_order x x') as [L|[E|L]]; [exfalso; exact (W x x' Hk R1 R2 L)|exact E|exfalso; exact (W x' x Hk R2 R1 L)].
Qed.
Lemma froot_where x : froot x -> exists k, (1 <= k)%nat /\ findex k x.
Proof.
  intros H. assert (Hx := proj1 H). assert (HP := PI_RGT_0). destruct (period (x + PI / 2) ltac:(lra)) as (k & K1 & K2). rewrite S_INR in K2. set (y := x - INR k * PI).
  assert (E : x = y + INR k * PI) by (unfold y; ring). assert (P := den_pos x).
  assert (C : sin y * den x = x * cos y * num x) by (apply (shift_eq k x y E), H).
  assert (Y0 : - (PI / 2) <= y < PI / 2) by (unfold y; lra).
  assert (Y1 : y <> - (PI / 2)). { intros Z. rewrite Z, cos_neg, cos_PI2, sin_neg, sin_PI2 in C. lra. }
  exists k. split; [|split; [exact H|unfold y in *; lra]]. destruct k as [|k]; [exfalso|lia].
  assert (Cy : 0 < cos y) by (apply cos_gt_0; lra). assert (R1 := proj1 (root_tan 0 x y E Hx Cy) H). cbn [INR] in *. assert (Ey : y = x) by lra. rewrite Ey in *.
  assert (T := tan_step 0 x ltac:(lra) Hx ltac:(lra)). rewrite tan_0 in T. assert (G := ratio_below x Hx). rewrite <- R1 in G.
  assert (1 < tan x / x); [|lra]. apply (Rmult_lt_reg_r x); [exact Hx|]. unfold Rdiv. rewrite Rmult_assoc, Rinv_l by lra. lra.
Qed.
End Char.
Lemma bridge L B x : 0 < L < 1 -> 0 < B -> film_root L B x <-> froot ((1 - L) / L) (/ B) x.
Proof.
  intros HL HB. unfold film_root, froot, num, den. replace (1 - 1 / B) with (1 - / B) by (field; lra). replace ((1 - L) / L * x ^ 2 / B) with ((1 - L) / L * / B * x ^ 2) by (field; lra). reflexivity.
Qed.
Lemma hsdm_f_eq L B x : 0 < L < 1 -> 0 < B -> hsdm_f L B x = ratio ((1 - L) / L) (/ B) x - tan x / x.
Proof.
  intros HL HB. unfold hsdm_f, ratio, num, den. cbv zeta. replace ((1 - L) / L * x ^ 2 / B) with ((1 - L) / L * / B * x ^ 2) by (field; lra). replace ((1 - L) / L * (B - 1) / B * x ^ 2) with ((1 - L) / L * (1 - / B) * x ^ 2) by (field; lra). reflexivity.
Qed.

(** ** What the loop finds *)
Lemma tan_near e M : 0 < e < 1 / 100 -> e * M < 999 / 1000 -> M < tan (PI / 2 - e).
Proof.
  intros E HM. assert (HP := PI_RGT_0). assert (H3 := PI2_3_2). unfold tan. rewrite sin_shift, cos_shift.
  assert (S1 : 0 < sin e) by (apply sin_gt_0; lra). assert (S2 : sin e < e) by (apply sin_lt_x; lra).
  assert (C1 : 0 < cos e) by (apply cos_half; lra). assert (SC := sin2_cos2 e). unfold Rsqr in SC.
  assert (C2 : 999 / 1000 <= cos e) by nra.
  apply (Rmult_lt_reg_r (sin e)); [exact S1|]. unfold Rdiv. rewrite Rmult_assoc, Rinv_l by lra. rewrite Rmult_1_r.
  destruct (Rle_lt_dec M 0) as [L|L]; [nra|]. assert (M * sin e < M * e) by (apply Rmult_lt_compat_l; assumption). lra.
Qed.
Section Found.
Variable brentq : (R -> R) -> R -> R -> res R.
Hypothesis HB : brackets_roots brentq.
Variables (L B : R).
Hypotheses (HL : 0 < L < 1) (HBi : 1 < B).
Notation A := ((1 - L) / L).
Notation b := (/ B).
Lemma a_pos : 0 < A.
Proof. apply Rdiv_lt_0_compat; lra. Qed.
Lemma b_pos : 0 < b < 1.
Proof. split; [apply Rinv_0_lt_compat; lra|]. rewrite <- Rinv_1. apply Rinv_lt_contravar; lra. Qed.
Definition lo (k : nat) : R := INR k * PI - PI / 2 + eps6.
Definition hi (k : nat) : R := lo k + PI * dec 9999 4.
Lemma span : PI * dec 9999 4 = PI - PI / 10000.
Proof. unfold dec. field. Qed.
Lemma in_range k x : lo k <= x <= hi k -> - (PI / 2) + eps6 <= x - INR k * PI <= PI / 2 - (PI / 10000 - eps6).
Proof. unfold hi, lo. rewrite span. lra. Qed.
Lemma small : 0 < eps6 /\ 0 < PI / 10000 - eps6 < 1 / 2000.
Proof. destruct eps6_bounds as ((E1 & E2) & E3). rewrite E3 in *. assert (P := PI_4). assert (Q := PI2_3_2). lra. Qed.
Lemma range_pos k x : (1 <= k)%nat -> lo k <= x -> 1 < x.
Proof. intros Hk H. destruct small as (E & _). assert (HP := PI2_3_2). assert (K1 : 1 <= INR k) by (apply (le_INR 1); lia). unfold lo in H. nra. Qed.
Notation f := (hsdm_f L B).
Lemma f_at k x : (1 <= k)%nat -> lo k <= x <= hi k -> f x = ratio A b x - tan (x - INR k * PI) / x.
Proof.
  intros Hk Hx. rewrite (hsdm_f_eq L B x HL ltac:(lra)). replace (tan x) with (tan (x - INR k * PI)); [reflexivity|].
  rewrite <- (tan_shift (x - INR k * PI) k). f_equal. ring.
Qed.
Lemma cos_in k x : (1 <= k)%nat -> lo k <= x <= hi k -> 0 < cos (x - INR k * PI).
Proof. intros Hk Hx. destruct small as (E1 & E2). assert (R := in_range k x Hx). apply cos_gt_0; lra. Qed.
Lemma f_cont k x : (1 <= k)%nat -> lo k <= x <= hi k -> continuity_pt f x.
Proof.
  intros Hk Hx. assert (X1 := range_pos k x Hk (proj1 Hx)). assert (C0 := cos_in k x Hk Hx).
  assert (CX : cos x <> 0).
  { replace x with (x - INR k * PI + INR k * PI) by ring. assert (NZ : forall n y, cos y <> 0 -> cos (y + INR n * PI) <> 0).
    { clear. induction n as [|n IH]; intros y Hy; [cbn [INR]; rewrite Rmult_0_l, Rplus_0_r; exact Hy|].
      rewrite S_INR. replace (y + (INR n + 1) * PI) with (y + INR n * PI + PI) by ring. rewrite neg_cos. specialize (IH y Hy). lra. }
    apply NZ. lra. }
  assert (DP := den_pos A b a_pos b_pos x). unfold den in DP.
  unfold hsdm_f. cbv zeta. apply (continuity_pt_minus (fun x => (3 - A * x ^ 2 / B) / (3 + A * (B - 1) / B * x ^ 2)) (fun x => tan x / x)).
  - apply (continuity_pt_div (fun x => 3 - A * x ^ 2 / B) (fun x => 3 + A * (B - 1) / B * x ^ 2)).
    + apply (continuity_pt_minus (fun _ => 3) (fun x => A * x ^ 2 / B)); [reg|]. unfold Rdiv. set (z := / B). set (w := (1 - L) * / L). clearbody z w. reg.
    + set (w := A * (B - 1) / B). clearbody w. reg.
    + replace (A * (B - 1) / B * x ^ 2) with (A * (1 - b) * x ^ 2) by (field; lra). lra.
  - apply (continuity_pt_div tan id); [|apply derivable_continuous_pt, derivable_pt_id|unfold id; lra].
    apply derivable_continuous_pt. exists (1 + tan x * tan x). apply tan_deriv, CX.
Qed.
Lemma f_left k : (1 <= k)%nat -> (INR k + 1) * PI <= 900000 * (B - 1) -> 0 < f (lo k).
Proof.
  intros Hk HX. destruct small as (E1 & E2). assert (HP := PI_RGT_0). assert (LH : lo k <= lo k <= hi k) by (unfold hi; rewrite span; split; lra). rewrite (f_at k _ Hk LH). assert (X1 := range_pos k (lo k) Hk (Rle_refl _)).
  assert (G := ratio_above A b a_pos b_pos (lo k)). replace (b / (1 - b)) with (/ (B - 1)) in G by (field; lra).
  replace (lo k - INR k * PI) with (- (PI / 2 - eps6)) by (unfold lo; ring). rewrite tan_neg.
  assert (T := tan_large).
  assert (Q : / (B - 1) < tan (PI / 2 - eps6) / lo k).
  { apply (Rmult_lt_reg_r (lo k * (B - 1))); [nra|]. replace (/ (B - 1) * (lo k * (B - 1))) with (lo k) by (field; lra). replace (tan (PI / 2 - eps6) / lo k * (lo k * (B - 1))) with (tan (PI / 2 - eps6) * (B - 1)) by (field; lra).
    apply Rlt_trans with (900000 * (B - 1)); [|nra]. eapply Rlt_le_trans; [|exact HX]. unfold lo. lra. }
  unfold Rdiv in *. lra.
Qed.
Lemma f_right k : (1 <= k)%nat -> (INR k + 1) * PI <= 1900 -> f (hi k) < 0.
Proof.
  intros Hk HX. destruct small as (E1 & E2 & E3). assert (HP := PI_RGT_0). assert (LH : lo k <= hi k <= hi k) by (unfold hi; rewrite span; split; lra). rewrite (f_at k _ Hk LH). assert (X1 := range_pos k (hi k) Hk (proj1 LH)).
  assert (G := ratio_below A b a_pos b_pos (hi k) ltac:(lra)).
  replace (hi k - INR k * PI) with (PI / 2 - (PI / 10000 - eps6)) by (unfold hi, lo; rewrite span; field).
  assert (T := tan_near (PI / 10000 - eps6) 1900 ltac:(lra) ltac:(lra)).
  assert (Q : 1 < tan (PI / 2 - (PI / 10000 - eps6)) / hi k); [|lra].
  apply (Rmult_lt_reg_r (hi k)); [lra|]. unfold Rdiv at 1. rewrite Rmult_assoc, Rinv_l by lra. unfold hi, lo in *. rewrite span in *. lra.
Qed.
Notation at_ := (findex A b).
Lemma f_zero k x : (1 <= k)%nat -> lo k <= x <= hi k -> f x = 0 -> at_ k x.
Proof.
  intros Hk Hx Z. assert (X1 := range_pos k x Hk (proj1 Hx)). rewrite (f_at k x Hk Hx) in Z. destruct small as (E1 & E2). assert (R := in_range k x Hx).
  split; [|lra]. apply (root_tan A b a_pos b_pos k x (x - INR k * PI) ltac:(ring) ltac:(lra) (cos_in k x Hk Hx)). lra.
Qed.
Lemma zero_f k x : (1 <= k)%nat -> lo k <= x <= hi k -> froot A b x -> f x = 0.
Proof.
  intros Hk Hx Z. assert (X1 := range_pos k x Hk (proj1 Hx)). rewrite (f_at k x Hk Hx).
  apply (root_tan A b a_pos b_pos k x (x - INR k * PI) ltac:(ring) ltac:(lra) (cos_in k x Hk Hx)) in Z. lra.
Qed.
Lemma sub_bracket k p q : (1 <= k)%nat -> lo k <= p -> p < q -> q <= hi k -> f p * f q <= 0 -> exists x, brentq f p q = Ok x /\ at_ k x /\ p <= x <= q.
Proof.
  intros Hk H1 H2 H3 S. destruct (proj1 HB f p q H2 ltac:(intros x Hx; apply (f_cont k x Hk); lra) S) as (x & E & Hx & Z). exists x. split; [exact E|]. split; [|exact Hx]. apply f_zero; [exact Hk|lra|exact Z].
Qed.
Lemma full_bracket k : (1 <= k)%nat -> (INR k + 1) * PI <= 900000 * (B - 1) -> (INR k + 1) * PI <= 1900 -> exists x, brentq f (lo k) (lo k + PI * dec 9999 4) = Ok x /\ at_ k x.
Proof.
  intros Hk H1 H2. assert (F1 := f_left k Hk H1). assert (F2 := f_right k Hk H2). destruct small as (E1 & E2). assert (HP := PI_RGT_0).
  destruct (sub_bracket k (lo k) (hi k) Hk (Rle_refl _) ltac:(unfold hi; rewrite span; lra) (Rle_refl _) ltac:(nra)) as (x & E & Hx & _). exists x. split; [exact E|exact Hx].
Qed.
Definition halfway : R := (PI / 2 + eps6 + PI * dec 9999 4) / 2.
Lemma halfway_in : lo 1 < halfway < hi 1.
Proof. destruct small as (E1 & E2). assert (HP := PI_RGT_0). unfold halfway, hi, lo. rewrite span. cbn [INR]. lra. Qed.
Lemma lo_1 : lo 1 = PI / 2 + eps6.
Proof. unfold lo. cbn [INR]. field. Qed.
Lemma first_two : 2 * PI <= 900000 * (B - 1) ->
  let l := (tried (brentq f (lo 1) halfway) ++ tried (brentq f halfway (hi 1)))%list in
  (f halfway <> 0 -> exists x, l = [x] /\ at_ 1 x) /\ (f halfway = 0 -> l = [halfway; halfway]).
Proof.
  intros H1 l. assert (P4 := PI_4). assert (F1 := f_left 1 (le_n 1) ltac:(cbn [INR]; lra)). assert (F2 := f_right 1 (le_n 1) ltac:(cbn [INR]; lra)). destruct halfway_in as (M1 & M2).
  destruct (Rtotal_order (f halfway) 0) as [N|[Z|P]].
  - split; [intros _|intros Z; lra]. destruct (sub_bracket 1 (lo 1) halfway (le_n 1) ltac:(lra) M1 ltac:(lra) ltac:(nra)) as (x & E & Hx & _).
    destruct (proj2 HB f halfway (hi 1) M2 ltac:(nra)) as (e & E'). unfold l. rewrite E, E'. exists x. split; [reflexivity|exact Hx].
  - split; [intros N; contradiction|intros _]. assert (HM := f_zero 1 halfway (le_n 1) ltac:(lra) Z).
    destruct (sub_bracket 1 (lo 1) halfway (le_n 1) ltac:(lra) M1 ltac:(lra) ltac:(rewrite Z; lra)) as (x & E & Hx & _).
    destruct (sub_bracket 1 halfway (hi 1) (le_n 1) ltac:(lra) M2 ltac:(lra) ltac:(rewrite Z; lra)) as (x' & E' & Hx' & _).
    unfold l. rewrite E, E'. cbn. rewrite (froot_unique A b a_pos b_pos 1 x halfway (le_n 1) Hx HM), (froot_unique A b a_pos b_pos 1 x' halfway (le_n 1) Hx' HM). reflexivity.
  - split; [intros _|intros Z; lra]. destruct (proj2 HB f (lo 1) halfway M1 ltac:(nra)) as (e & E').
    destruct (sub_bracket 1 halfway (hi 1) (le_n 1) ltac:(lra) M2 ltac:(lra) ltac:(nra)) as (x & E & Hx & _). unfold l. rewrite E, E'. exists x. split; [reflexivity|exact Hx].
Qed.
Lemma pn_rest n : forall k r rs, (1 <= k)%nat -> (INR (k + n) + 1) * PI <= 900000 * (B - 1) -> (INR (k + n) + 1) * PI <= 1900 ->
  exists more, pn_loop brentq n L B (lo k) (r :: rs) = Ok (r :: rs ++ more)%list /\ Forall2 at_ (seq (S k) n) more.
Proof.
  assert (HP := PI_RGT_0). induction n as [|n IH]; intros k r rs Hk H1 H2; [exists []; rewrite app_nil_r; split; [reflexivity|constructor]|].
  cbn [pn_loop]. assert (G : lo k + PI = lo (S k)) by (unfold lo; rewrite S_INR; ring). rewrite G.
  assert (Ks : INR (S k) <= INR (k + S n)) by (apply le_INR; lia).
  assert (Kp : (INR (S k) + 1) * PI <= (INR (k + S n) + 1) * PI) by (apply Rmult_le_compat_r; lra).
  destruct (full_bracket (S k) ltac:(lia) ltac:(lra) ltac:(lra)) as (x & E & Hx). rewrite E. cbn [bind app].
  replace (k + S n)%nat with (S k + n)%nat in H1, H2 by lia. destruct (IH (S k) r (rs ++ [x])%list ltac:(lia) H1 H2) as (more & E' & F). exists (x :: more). split; [|cbn [seq]; constructor; assumption].
  rewrite E', <- app_assoc. reflexivity.
Qed.
Lemma pn_found n : (1 <= n)%nat -> (INR n + 2) * PI <= 900000 * (B - 1) -> (INR n + 2) * PI <= 1900 ->
  (f halfway <> 0 -> exists roots, find_pn brentq n L B = Ok roots /\ Forall2 at_ (seq 1 (S n)) roots) /\
  (f halfway = 0 -> exists more, find_pn brentq n L B = Ok (halfway :: halfway :: more) /\ Forall2 at_ (seq 2 n) more).
Proof.
  intros Hn H1 H2. destruct n as [|n]; [lia|]. assert (HP := PI_RGT_0). assert (N0 := pos_INR n). rewrite S_INR in H1, H2. unfold find_pn. fold eps6. cbn [pn_loop]. rewrite <- lo_1.
  change (lo 1 + PI * dec 9999 4) with (hi 1). assert (HH : hi 1 / 2 = halfway) by (unfold halfway, hi; rewrite lo_1; reflexivity). rewrite HH.
  assert (P2 : 2 * PI <= (INR n + 1 + 2) * PI) by (apply Rmult_le_compat_r; lra). destruct (first_two ltac:(lra)) as (F1 & F2). cbv zeta in F1, F2.
  assert (G : lo 1 + PI = lo 2) by (unfold lo; cbn [INR]; field).
  assert (K2 : (INR 2 + 1) * PI <= (INR n + 1 + 2) * PI) by (cbn [INR]; apply Rmult_le_compat_r; lra).
  destruct (full_bracket 2 ltac:(lia) ltac:(lra) ltac:(lra)) as (x2 & E2 & Hx2).
  assert (C1 : (INR (2 + n) + 1) * PI <= 900000 * (B - 1)) by (rewrite plus_INR; cbn [INR]; replace (1 + 1 + INR n + 1) with (INR n + 1 + 2) by ring; exact H1).
  assert (C2 : (INR (2 + n) + 1) * PI <= 1900) by (rewrite plus_INR; cbn [INR]; replace (1 + 1 + INR n + 1) with (INR n + 1 + 2) by ring; exact H2).
  split; intros Z.
  - destruct (F1 Z) as (x & E & Hx). rewrite E, G, E2. cbn [bind app]. destruct (pn_rest n 2 x [x2] ltac:(lia) C1 C2) as (more & E' & F). exists (x :: x2 :: more). split; [exact E'|]. cbn [seq]. constructor; [exact Hx|constructor; [exact Hx2|exact F]].
  - rewrite (F2 Z), G, E2. cbn [bind app]. destruct (pn_rest n 2 halfway [halfway; x2] ltac:(lia) C1 C2) as (more & E' & F). exists (x2 :: more). split; [exact E'|]. cbn [seq]. constructor; assumption.
Qed.
End Found.

(** ** Bessel's inequality *)
Section Bessel.
Variables (A b : R).
Hypotheses (HA : 0 < A) (Hb : 0 < b < 1).
Notation root q := (froot A b q).
(** the concentration in the bath that goes with sin(q r) / r in the spheres *)
Definition bath (q : R) : R := (1 - b) * sin q + b * (q * cos q).
Lemma root_sin q : root q -> sin q = bath q * (1 - A * b / 3 * q ^ 2).
Proof.
  intros (P & E). unfold bath, num, den in *. set (s := sin q) in *. set (c := q * cos q) in *.
  assert (E' : s * (3 + A * (1 - b) * q ^ 2) = c * (3 - A * b * q ^ 2)) by exact E. clearbody s c. nra.
Qed.
Lemma root_cos q : root q -> q * cos q = bath q * (1 + A * (1 - b) / 3 * q ^ 2).
Proof.
  intros (P & E). unfold bath, num, den in *. set (s := sin q) in *. set (c := q * cos q) in *.
  assert (E' : s * (3 + A * (1 - b) * q ^ 2) = c * (3 - A * b * q ^ 2)) by exact E. clearbody s c. nra.
Qed.
Lemma bath_ne q : root q -> bath q <> 0.
Proof.
  intros H Z. assert (S := root_sin q H). assert (C := root_cos q H). rewrite Z, Rmult_0_l in S, C. destruct H as (P & _).
  assert (C0 : cos q = 0) by (apply (Rmult_eq_reg_l q); lra). assert (Q := sin2_cos2 q). unfold Rsqr in Q. rewrite S, C0 in Q. lra.
Qed.
Lemma anti1_end q : root q -> anti1 q 1 = - (A / 3) * bath q.
Proof. intros H. unfold anti1. rewrite !Rmult_1_r. rewrite (root_cos q H), (root_sin q H). destruct H as (P & _). field. lra. Qed.
Lemma anti2_end p q : root p -> root q -> p ^ 2 <> q ^ 2 -> anti2 p q 1 = - (A / 3) * (bath p * bath q).
Proof.
  intros Hp Hq N. unfold anti2. rewrite !Rmult_1_r.
  replace (q * (sin p * cos q) - p * (cos p * sin q)) with (sin p * (q * cos q) - sin q * (p * cos p)) by ring.
  rewrite (root_cos p Hp), (root_cos q Hq), (root_sin p Hp), (root_sin q Hq). field. lra.
Qed.
Definition below (q : R) : R := 9 + 9 * A + A ^ 2 * q ^ 2 - A * (A + 6) * b * q ^ 2 + A ^ 2 * b ^ 2 * q ^ 4.
Lemma below_pos q : 0 < below q.
Proof.
  replace (below q) with (A * den A b q + num A b q ^ 2 + 6 * A) by (unfold below, den, num; ring). assert (P := den_pos A b HA Hb q). assert (0 <= num A b q ^ 2) by apply pow2_ge_0. nra.
Qed.
Definition weight (q : R) : R := bath q ^ 2 * below q / 18.
Lemma anti3_end q : root q -> anti3 q 1 + A / 3 * bath q ^ 2 = weight q.
Proof.
  intros H. unfold anti3, weight, below. rewrite !Rmult_1_r. assert (E := root_cos q H). assert (E2 := root_sin q H). destruct H as (P & _).
  assert (S := sin2_cos2 q). unfold Rsqr in S. set (w := bath q) in *. clearbody w.
  assert (C : cos q = w * (1 + A * (1 - b) / 3 * q ^ 2) / q) by (apply (Rmult_eq_reg_l q); [|lra]; rewrite E; field; lra).
  rewrite C, E2 in S |- *.
  assert (S2 : 1 = w ^ 2 * ((1 - A * b / 3 * q ^ 2) ^ 2 + (1 + A * (1 - b) / 3 * q ^ 2) ^ 2 / q ^ 2)) by (eapply eq_trans; [symmetry; exact S|]; field; lra).
  match goal with |- (1 - ?x) / 2 + ?y = ?z => assert (G : forall o, o = w ^ 2 * ((1 - A * b / 3 * q ^ 2) ^ 2 + (1 + A * (1 - b) / 3 * q ^ 2) ^ 2 / q ^ 2) -> (o - x) / 2 + y = z) end.
  { intros o ->. field. lra. }
  apply G, S2.
Qed.
Definition coef (q : R) : R := A / 3 * bath q / weight q.
Definition c0 : R := A / (1 + A).
Fixpoint phi (l : list R) (r : R) : R := match l with [] => c0 * r | q :: l => phi l r + coef q * sin (q * r) end.
Fixpoint phi_bath (l : list R) : R := match l with [] => c0 | q :: l => phi_bath l + coef q * bath q end.
Fixpoint cross (p : R) (l : list R) (r : R) : R := match l with [] => c0 * anti1 p r | q :: l => cross p l r + coef q * anti2 p q r end.
Fixpoint energy (l : list R) (r : R) : R :=
  match l with [] => c0 ^ 2 * (r ^ 3 / 3) | q :: l => energy l r + 2 * coef q * cross q l r + coef q ^ 2 * anti3 q r end.
Lemma cross_ok p l : root p -> Forall (fun q => root q /\ p ^ 2 <> q ^ 2) l -> evolves 0 1 (cross p l) (fun r => sin (p * r) * phi l r) /\ cross p l 0 = 0 /\
  cross p l 1 = - (A / 3) * bath p * phi_bath l.
Proof.
  intros Hp F. induction F as [|q l (Hq & N) _ (I1 & I2 & I3)]; cbn [cross phi phi_bath].
  - split; [|split].
    + refine (evolves_ext 0 1 _ _ _ _ _ _ (evolves_scal 0 1 c0 _ _ (anti1_ok p (proj1 Hp)))); [reflexivity|]. intros t _. cbv beta. ring.
    + unfold anti1. rewrite !Rmult_0_r, sin_0. unfold Rdiv. ring.
    + rewrite (anti1_end p Hp). ring.
  - split; [|split].
    + refine (evolves_ext 0 1 _ _ _ _ _ _ (evolves_plus 0 1 _ _ _ _ I1 (evolves_scal 0 1 (coef q) _ _ (anti2_ok p q N)))); [reflexivity|]. intros t _. cbv beta. ring.
    + rewrite I2. unfold anti2. rewrite !Rmult_0_r, sin_0. unfold Rdiv. ring.
    + rewrite I3, (anti2_end p q Hp Hq N). ring.
Qed.
Lemma energy_ok l : Forall (fun q => root q) l -> apart l -> evolves 0 1 (energy l) (fun r => phi l r * phi l r) /\ energy l 0 = 0 /\
  energy l 1 + A / 3 * phi_bath l ^ 2 = c0 ^ 2 * ((1 + A) / 3) + lsum (map (fun q => coef q ^ 2 * weight q) l).
Proof.
  intros F D. induction D as [|p l Hd _ IH]; cbn [energy phi phi_bath map lsum].
  - split; [|split].
    + assert (EI : evolves 0 1 (fun r => r) (fun _ => 1)) by (apply evolves_deriv; intros t; apply derivable_pt_lim_id).
      refine (evolves_ext 0 1 _ _ _ _ _ _ (evolves_scal 0 1 (c0 ^ 2 / 3) _ _ (evolves_mult 0 1 _ _ _ _ EI (evolves_mult 0 1 _ _ _ _ EI EI)))).
      * intros t. cbv beta. field.
      * intros t _. cbv beta. field.
    + field.
    + field.
  - inversion F as [|? ? Hp Fl]; subst. destruct (IH Fl) as (I1 & I2 & I3). clear IH.
    destruct (cross_ok p l Hp) as (X1 & X2 & X3).
    { clear - Fl Hd. revert Hd. induction Fl as [|q l Hq _ IH]; intros Hd; inversion Hd; subst; constructor; [split; assumption|]. apply IH. assumption. }
    split; [|split].
    + refine (evolves_ext 0 1 _ _ _ _ _ _ (evolves_plus 0 1 _ _ _ _ (evolves_plus 0 1 _ _ _ _ I1 (evolves_scal 0 1 (2 * coef p) _ _ X1)) (evolves_scal 0 1 (coef p ^ 2) _ _ (anti3_ok p (proj1 Hp))))).
      * intros t. cbv beta. ring.
      * intros t _. cbv beta. ring.
    + rewrite I2, X2. unfold anti3. rewrite !Rmult_0_r, sin_0. unfold Rdiv. ring.
    + rewrite X3. rewrite <- (anti3_end p Hp).
      replace (energy l 1) with (c0 ^ 2 * ((1 + A) / 3) + lsum (map (fun q => coef q ^ 2 * weight q) l) - A / 3 * phi_bath l ^ 2) by lra. ring.
Qed.
Lemma phi_end l : phi_bath l = c0 + lsum (map (fun q => coef q * bath q) l).
Proof. induction l as [|q l IH]; cbn [phi_bath map lsum]; [ring|]. rewrite IH. ring. Qed.
Definition share (q : R) : R := 6 * A * (A + 1) / below q.
Lemma share_pos q : 0 < share q.
Proof. unfold share. apply Rdiv_lt_0_compat; [nra|apply below_pos]. Qed.
Lemma coef_share q : root q -> coef q * bath q = share q / (1 + A) /\ coef q ^ 2 * weight q = A / 3 * (share q / (1 + A)).
Proof.
  intros H. assert (S := bath_ne q H). assert (P := below_pos q). unfold coef, weight, share. set (w := bath q) in *. set (v := below q) in *. clearbody w v.
  split; field; repeat split; try lra; exact S.
Qed.
Lemma bessel l : Forall (fun q => root q) l -> apart l -> lsum (map share l) <= 1.
Proof.
  intros F D. destruct (energy_ok l F D) as (E1 & E2 & E3).
  assert (P : 0 <= energy l 1).
  { destruct (evolves_mvt 0 1 _ _ ltac:(lra) E1) as (c & _ & Ec). rewrite E2 in Ec. assert (0 <= phi l c * phi l c) by nra. lra. }
  assert (Q : 0 <= (phi_bath l - 1) ^ 2) by apply pow2_ge_0.
  assert (M1 : lsum (map (fun q => coef q * bath q) l) = lsum (map share l) / (1 + A)).
  { clear - F HA Hb. induction F as [|q l Hq _ IH]; cbn [map lsum]; [unfold Rdiv; ring|]. rewrite IH, (proj1 (coef_share q Hq)). field. lra. }
  assert (M2 : lsum (map (fun q => coef q ^ 2 * weight q) l) = A / 3 * (lsum (map share l) / (1 + A))).
  { clear - F HA Hb. induction F as [|q l Hq _ IH]; cbn [map lsum]; [field; lra|]. rewrite IH, (proj2 (coef_share q Hq)). field. lra. }
  rewrite M2 in E3. assert (PE := phi_end l). rewrite M1 in PE. set (s := lsum (map share l)) in *. clearbody s.
  assert (W : 0 <= A / 3 * (1 - c0 - s / (1 + A))).
  { replace (A / 3 * (1 - c0 - s / (1 + A))) with (energy l 1 + A / 3 * (phi_bath l - 1) ^ 2); [apply Rplus_le_le_0_compat; [exact P|apply Rmult_le_pos; [lra|exact Q]]|].
    replace (energy l 1) with (c0 ^ 2 * ((1 + A) / 3) + A / 3 * (s / (1 + A)) - A / 3 * phi_bath l ^ 2) by lra. rewrite PE. unfold c0. field. lra. }
  assert (V : A / 3 * (1 - c0 - s / (1 + A)) = A / 3 / (1 + A) * (1 - s)) by (unfold c0; field; lra). rewrite V in W.
  assert (K : 0 < A / 3 / (1 + A)) by (apply Rdiv_lt_0_compat; lra). nra.
Qed.
End Bessel.
