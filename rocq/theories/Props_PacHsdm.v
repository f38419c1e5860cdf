(** C170 — the reference curve of the powdered-carbon contactor with film transfer and surface
    diffusion. *)
From Coq Require Import Reals List Sorted Lia Lra String.
From Verif Require Import Lib_Py Lib_Sum Lib_Traj M_Pac M_PacHsdm S_PacCrank S_PacHsdm P_PacCrank P_PacHsdm Props_PacCrank.
Import ListNotations.
Open Scope R_scope.
Local Notation length := List.length.

Section Found.
Variables (A b : R) (HA : 0 < A) (Hb : 0 < b < 1).
Notation at_ := (findex A b).
Lemma found_in n : forall roots a, Forall2 at_ (seq a n) roots -> (1 <= a)%nat ->
  forall x, In x roots -> froot A b x /\ INR a * PI - PI / 2 < x < INR (a + n) * PI - PI / 2.
Proof.
  assert (HP := PI_RGT_0). induction n as [|n IH]; intros roots a F Ha x I; inversion F as [|? r ? rs Hr F']; subst; [destruct I|]. rewrite plus_INR, S_INR.
  assert (N := pos_INR n). destruct I as [<- | I].
  - destruct Hr as (Hr & L). split; [exact Hr|]. split; [lra|]. assert (0 <= INR n * PI) by (apply Rmult_le_pos; lra). lra.
  - destruct (IH rs (S a) F' ltac:(lia) x I) as (Hx & L). split; [exact Hx|]. rewrite plus_INR, S_INR in L. lra.
Qed.
Lemma found_sorted n : forall roots a, Forall2 at_ (seq a n) roots -> (1 <= a)%nat -> StronglySorted Rlt roots.
Proof.
  assert (HP := PI_RGT_0). induction n as [|n IH]; intros roots a F Ha; inversion F as [|? r ? rs Hr F']; subst; constructor.
  - apply (IH rs (S a) F'). lia.
  - apply Forall_forall. intros x I. destruct (found_in n rs (S a) F' ltac:(lia) x I) as (_ & L). rewrite S_INR in L. destruct Hr as (_ & Hr). lra.
Qed.
Lemma found_all n : forall roots a, Forall2 at_ (seq a n) roots -> forall k, (a <= k < a + n)%nat -> exists x, In x roots /\ at_ k x.
Proof.
  induction n as [|n IH]; intros roots a F k Hk; [lia|]. inversion F as [|? r ? rs Hr F']; subst. destruct (Nat.eq_dec k a) as [->|N].
  - exists r. split; [left; reflexivity|exact Hr].
  - destruct (IH rs (S a) F' k ltac:(lia)) as (x & I & Hx). exists x. split; [right; exact I|exact Hx].
Qed.
Lemma found_apart n roots : Forall2 at_ (seq 1 n) roots -> Forall (fun q => froot A b q) roots /\ apart roots.
Proof.
  intros F. assert (I := found_in n roots 1 F (le_n 1)). assert (S := found_sorted n roots 1 F (le_n 1)). split.
  - apply Forall_forall. intros x Hx. apply (I x Hx).
  - assert (P : Forall (fun q => 0 < q) roots) by (apply Forall_forall; intros x Hx; apply (proj1 (I x Hx))). clear I F.
    induction S as [|q l S IH L]; constructor; [|apply IH; inversion P; assumption]. inversion P as [|? ? Pq Pl]; subst. apply Forall_forall. intros x Hx.
    rewrite Forall_forall in L. specialize (L x Hx). nra.
Qed.
End Found.
Lemma halfway_root L B : 0 < L < 1 -> 1 < B -> ~ film_root L B halfway -> hsdm_f L B halfway <> 0.
Proof.
  intros HL HB N Z. apply N, (bridge L B halfway HL ltac:(lra)). destruct halfway_in as (M1 & M2).
  exact (proj1 (f_zero L B HL HB 1 halfway (le_n 1) ltac:(lra) Z)).
Qed.
(** The roots used are exactly the positive solutions of the characteristic equation below
    (n + 3/2) pi, in increasing order, when the Biot number is above one and the point where the first
    interval is split is not a root itself. *)
Theorem C170_roots_partial : forall brentq n L B, brackets_roots brentq -> 0 < L < 1 -> 1 < B -> (1 <= n)%nat ->
  (INR n + 2) * PI <= 900000 * (B - 1) -> (INR n + 2) * PI <= 1900 ->
  ~ film_root L B ((PI / 2 + dec 1 6 + PI * dec 9999 4) / 2) ->
  exists roots, find_pn brentq n L B = Ok roots /\ length roots = (n + 1)%nat /\ StronglySorted Rlt roots /\
    forall x, In x roots <-> film_root L B x /\ x < (INR n + 3 / 2) * PI.
Proof.
  intros brentq n L B HB HL HBi Hn H1 H2 HM. assert (HA := a_pos L HL). assert (Hb := b_pos B HBi).
  destruct (proj1 (pn_found brentq HB L B HL HBi n Hn H1 H2) (halfway_root L B HL HBi HM)) as (roots & E & F). exists roots. split; [exact E|].
  split; [rewrite <- (Forall2_len _ _ _ F), seq_length; lia|]. split; [exact (found_sorted _ _ _ roots 1 F (le_n 1))|]. intros x. rewrite (bridge L B x HL ltac:(lra)). split.
  - intros I. destruct (found_in _ _ _ roots 1 F (le_n 1) x I) as (Hx & Lx). split; [exact Hx|]. replace (INR (1 + S n)) with (INR n + 2) in Lx by (cbn [plus]; rewrite !S_INR; ring). lra.
  - intros (Hx & Lx). assert (HP := PI_RGT_0). destruct (froot_where _ _ HA Hb x Hx) as (k & Hk & Kx).
    assert (Kn : (k < 1 + S n)%nat).
    { apply INR_lt. replace (INR (1 + S n)) with (INR n + 2) by (cbn [plus]; rewrite !S_INR; ring). destruct Kx as (_ & K1 & K2). apply (Rmult_lt_reg_r PI); [exact HP|]. lra. }
    destruct (found_all _ _ _ roots 1 F k ltac:(lia)) as (y & I & Ky). replace x with y; [exact I|]. apply (froot_unique _ _ HA Hb k); assumption.
Qed.
(** When that point is a root, it is found twice and counted twice. *)
Theorem C170_twice_refuted : forall brentq n L B, brackets_roots brentq -> 0 < L < 1 -> 1 < B -> (1 <= n)%nat ->
  (INR n + 2) * PI <= 900000 * (B - 1) -> (INR n + 2) * PI <= 1900 ->
  film_root L B ((PI / 2 + dec 1 6 + PI * dec 9999 4) / 2) ->
  exists roots, find_pn brentq n L B = Ok roots /\ ~ NoDup roots.
Proof.
  intros brentq n L B HB HL HBi Hn H1 H2 HM. destruct halfway_in as (M1 & M2).
  assert (Z : hsdm_f L B halfway = 0) by (apply (zero_f L B HL HBi 1 halfway (le_n 1)); [lra|]; apply (bridge L B halfway HL ltac:(lra)), HM).
  destruct (proj2 (pn_found brentq HB L B HL HBi n Hn H1 H2) Z) as (more & E & _). eexists. split; [exact E|]. intros D. inversion D as [|? ? N _]. apply N. left. reflexivity.
Qed.

(** ** The curve *)
Section Curve.
Variables (D ra kf Kd V : R).
Hypotheses (HD : 0 < D) (Hra : 0 < ra) (Hkf : 0 < kf) (HK : 0 < Kd) (HV : 0 < V).
Notation A := (1 / V / Kd).
Notation Bi := (kf * ra / D / Kd).
Notation b := (/ Bi).
Notation L := (1 / (1 + A)).
Lemma A_pos : 0 < A.
Proof. repeat apply Rdiv_lt_0_compat; lra. Qed.
Lemma Bi_pos : 0 < Bi.
Proof. repeat apply Rdiv_lt_0_compat; try lra. apply Rmult_lt_0_compat; lra. Qed.
Hypothesis HBi : 1 < Bi.
Lemma b_in : 0 < b < 1.
Proof. apply b_pos, HBi. Qed.
Lemma L_in : 0 < L < 1.
Proof.
  assert (P := A_pos). split; [apply Rdiv_lt_0_compat; lra|]. apply (Rmult_lt_reg_r (1 + A)); [lra|]. unfold Rdiv at 1. rewrite Rmult_assoc, Rinv_l by lra. lra.
Qed.
Lemma L_A : (1 - L) / L = A.
Proof. assert (P := A_pos). generalize dependent A. intros x P. field. lra. Qed.
Variable roots : list R.
Hypothesis Hroots : Forall (fun q => froot A b q) roots.
Definition decay (q t : R) : R := exp (- D * t * q ^ 2 / ra ^ 2).
Definition curve (t : R) : R := 1 - (1 - lsum (map (fun q => 6 * decay q t / (9 * L / (1 - L) + (1 - L) * q ^ 2 - (5 * L + 1) * q ^ 2 / Bi + (1 - L) * q ^ 4 / Bi ^ 2)) roots)) * L.
Notation level := (1 / (1 + Kd * V)).
Lemma level_eq : 1 - L = level.
Proof. assert (0 < Kd * V) by nra. field. repeat split; try lra; nra. Qed.
Lemma term_eq q w : 6 * w / (9 * L / (1 - L) + (1 - L) * q ^ 2 - (5 * L + 1) * q ^ 2 / Bi + (1 - L) * q ^ 4 / Bi ^ 2) = share A b q * w.
Proof.
  assert (P := below_pos A b A_pos b_in q). assert (PA := A_pos). assert (PB := Bi_pos). unfold share.
  assert (E : 9 * L / (1 - L) + (1 - L) * q ^ 2 - (5 * L + 1) * q ^ 2 / Bi + (1 - L) * q ^ 4 / Bi ^ 2 = below A b q / (A * (A + 1))).
  { unfold below. clear P. revert PA PB. generalize A Bi. intros a B PA PB. field. repeat split; lra. }
  rewrite E. revert P PA. generalize (below A b q) A. intros z a P PA. field. repeat split; lra.
Qed.
Lemma curve_eq t : curve t = level + L * lsum (map (fun q => share A b q * decay q t) roots).
Proof.
  unfold curve. rewrite <- level_eq. rewrite (lsum_map_ext _ (fun q => share A b q * decay q t) roots (fun q _ => term_eq q (decay q t))). ring.
Qed.
Lemma decay_rate q t : decay q t = exp (- (D * q ^ 2 / ra ^ 2) * t).
Proof. unfold decay. f_equal. unfold Rdiv. ring. Qed.
Lemma rate_pos q : froot A b q -> 0 < D * q ^ 2 / ra ^ 2.
Proof. intros (P & _). apply Rdiv_lt_0_compat; [|nra]. apply Rmult_lt_0_compat; [exact HD|nra]. Qed.
Lemma curve_falls t s : roots <> [] -> t < s -> curve s < curve t.
Proof.
  intros N Lt. rewrite !curve_eq. apply Rplus_lt_compat_l, Rmult_lt_compat_l; [exact (proj1 L_in)|]. apply lsum_strict; [exact N|]. intros q I.
  rewrite Forall_forall in Hroots. assert (P := rate_pos q (Hroots q I)). apply Rmult_lt_compat_l; [apply share_pos; [apply A_pos|apply b_in]|].
  rewrite !decay_rate. apply exp_increasing. nra.
Qed.
Lemma curve_above t : roots <> [] -> level < curve t.
Proof.
  intros N. rewrite curve_eq. assert (0 < lsum (map (fun q => share A b q * decay q t) roots)); [|assert (P := proj1 L_in); nra].
  apply Rle_lt_trans with (lsum (map (fun _ : R => 0) roots)).
  - clear. induction roots as [|q l IH]; cbn [map lsum]; lra.
  - apply lsum_strict; [exact N|]. intros q _. apply Rmult_lt_0_compat; [apply share_pos; [apply A_pos|apply b_in]|apply exp_pos].
Qed.
Lemma curve_limit e : 0 < e -> exists T, forall t, T <= t -> curve t < level + e.
Proof.
  intros He. assert (W : forall l, Forall (fun q => froot A b q) l -> forall e, 0 < e -> exists T, forall t, T <= t -> lsum (map (fun q => share A b q * decay q t) l) < e).
  { clear Hroots. induction 1 as [|q l Hq _ IH]; intros d Hd.
    - exists 0. intros t _. cbn. exact Hd.
    - destruct (IH (d / 2) ltac:(lra)) as (T & HT). assert (P := rate_pos q Hq). assert (S := share_pos A b A_pos b_in q). set (k := D * q ^ 2 / ra ^ 2) in *. set (w := share A b q) in *.
      assert (R1 : 0 < 2 * w / d) by (apply Rdiv_lt_0_compat; lra).
      exists (Rmax T ((ln (2 * w / d) + 1) / k)). intros t Ht. assert (M1 := Rmax_l T ((ln (2 * w / d) + 1) / k)). assert (M2 := Rmax_r T ((ln (2 * w / d) + 1) / k)).
      cbn [map lsum]. specialize (HT t ltac:(lra)). fold w. assert (Q : w * decay q t < d / 2); [|lra].
      rewrite decay_rate. fold k. assert (Kt : ln (2 * w / d) < k * t).
      { assert (k * ((ln (2 * w / d) + 1) / k) <= k * t) by (apply Rmult_le_compat_l; lra). replace (k * ((ln (2 * w / d) + 1) / k)) with (ln (2 * w / d) + 1) in H by (field; lra). lra. }
      apply exp_increasing in Kt. rewrite exp_ln in Kt by exact R1. replace (- k * t) with (- (k * t)) by ring. rewrite exp_Ropp.
      assert (EP := exp_pos (k * t)). apply (Rmult_lt_reg_r (exp (k * t))); [exact EP|]. rewrite Rmult_assoc, Rinv_l by lra. rewrite Rmult_1_r.
      apply (Rmult_lt_compat_r (d / 2)) in Kt; [|lra]. replace (2 * w / d * (d / 2)) with w in Kt by (field; lra). lra. }
  assert (P := proj1 L_in). destruct (W roots Hroots (e / L) ltac:(apply Rdiv_lt_0_compat; lra)) as (T & HT). exists T. intros t Ht. rewrite curve_eq. specialize (HT t Ht).
  apply Rplus_lt_compat_l. apply (Rmult_lt_compat_l L) in HT; [|exact P]. assert (Q : L * (e / L) = e) by (revert P; generalize L; intros x P; field; lra). rewrite Q in HT. exact HT.
Qed.
(** the profile in the spheres *)
Definition amp (q t : R) : R := L * (share A b q * decay q t) * (ra / bath b q).
Definition pu (q r t : R) : R := amp q t * (sin (q / ra * r) / r).
Definition pur (q r t : R) : R := amp q t * ((q / ra * r * cos (q / ra * r) - sin (q / ra * r)) / r ^ 2).
Definition purr (q r t : R) : R := - (q / ra) ^ 2 * pu q r t - 2 / r * pur q r t.
Definition put (q r t : R) : R := - (D * q ^ 2 / ra ^ 2) * pu q r t.
Definition pc (q t : R) : R := L * (share A b q * decay q t).
Definition pct (q t : R) : R := - (D * q ^ 2 / ra ^ 2) * pc q t.
Lemma pu_r q r t : 0 < r -> derivable_pt_lim (fun s => pu q s t) r (pur q r t).
Proof.
  intros Hr. unfold pu, pur. set (k := q / ra). apply (deriv_scal_eq _ _ _ _ _ (derivable_pt_lim_div _ _ r _ _ (deriv_sin k r) (derivable_pt_lim_id r) ltac:(unfold id; lra))).
  unfold id, Rsqr. f_equal. field. lra.
Qed.
Lemma pur_r q r t : 0 < r -> derivable_pt_lim (fun s => pur q s t) r (purr q r t).
Proof.
  intros Hr. unfold purr, pur, pu. set (k := q / ra).
  assert (Dk : derivable_pt_lim (fun x => k * x) r k) by (assert (E := derivable_pt_lim_scal id k r 1 (derivable_pt_lim_id r)); rewrite Rmult_1_r in E; exact E).
  assert (Ds : derivable_pt_lim (fun x => x ^ 2) r (2 * r)) by (assert (E := derivable_pt_lim_pow r 2); cbn in E |- *; replace (2 * r) with ((1 + 1) * (r * 1)) by ring; exact E).
  apply (deriv_scal_eq _ _ _ _ _ (derivable_pt_lim_div _ _ r _ _ (derivable_pt_lim_minus _ _ r _ _ (derivable_pt_lim_mult _ _ r _ _ Dk (deriv_cos k r)) (deriv_sin k r)) Ds ltac:(cbv beta; nra))).
  unfold minus_fct, mult_fct, Rsqr. field. lra.
Qed.
Lemma pc_t q t : derivable_pt_lim (fun s => pc q s) t (pct q t).
Proof.
  unfold pct, pc. set (k := - (D * q ^ 2 / ra ^ 2)). set (m := L * share A b q).
  assert (E : derivable_pt_lim (fun s => m * exp (k * s)) t (m * (k * exp (k * t)))) by (apply (deriv_scal_eq _ _ _ _ _ (deriv_exp_lin k t)); reflexivity).
  intros e He. destruct (E e He) as (d & Hd). exists d. intros h H1 H2. specialize (Hd h H1 H2). rewrite !decay_rate. fold k.
  match goal with |- Rabs ?x < _ => match type of Hd with Rabs ?y < _ => replace x with y by (unfold m; unfold Rdiv; ring) end end. exact Hd.
Qed.
Lemma pu_t q r t : derivable_pt_lim (fun s => pu q r s) t (put q r t).
Proof.
  set (m := ra / bath b q * (sin (q / ra * r) / r)).
  assert (E : derivable_pt_lim (fun s => m * pc q s) t (put q r t)) by (apply (deriv_scal_eq _ _ _ _ _ (pc_t q t)); unfold put, pct, pu, amp, pc, m; ring).
  intros e He. destruct (E e He) as (d & Hd). exists d. intros h H1 H2. specialize (Hd h H1 H2).
  match goal with |- Rabs ?x < _ => match type of Hd with Rabs ?y < _ => replace x with y by (unfold pu, amp, pc, m; unfold Rdiv; ring) end end. exact Hd.
Qed.
Lemma pu_diffuses q r t : 0 < r -> put q r t = D * (purr q r t + 2 / r * pur q r t).
Proof. intros Hr. unfold put, purr. field. lra. Qed.
Lemma pu_film q t : froot A b q -> kf * (pc q t - pu q ra t) = D * (Kd * pur q ra t).
Proof.
  intros H. unfold pu, pur, amp. fold (pc q t). assert (S := bath_ne A b b_in q H). replace (q / ra * ra) with q by (field; lra).
  assert (E : bath b q - sin q = b * (q * cos q - sin q)) by (unfold bath; ring). set (w := pc q t). set (v := bath b q) in *.
  replace (w - w * (ra / v) * (sin q / ra)) with (w / v * (v - sin q)) by (field; split; [lra|exact S]). rewrite E. field. repeat split; try lra; try exact S. 
Qed.
Lemma pc_leaves q t : froot A b q -> pct q t = - (3 * V / ra * (kf * (pc q t - pu q ra t))).
Proof.
  intros H. rewrite (pu_film q t H). unfold pct, pur, amp. fold (pc q t). assert (S := bath_ne A b b_in q H). assert (E1 := root_sin A b b_in q H). assert (E2 := root_cos A b b_in q H).
  replace (q / ra * ra) with q by (field; lra). set (w := pc q t). set (v := bath b q) in *.
  assert (X : q * cos q - sin q = v * (A / 3 * q ^ 2)) by (rewrite E1, E2; generalize A, b; intros; field).
  rewrite X. field. repeat split; try lra; exact S.
Qed.
Lemma curve_modes t : curve t = level + lsum (map (fun q => pc q t) roots).
Proof.
  rewrite curve_eq. f_equal. clear Hroots. induction roots as [|q l IH]; cbn [map lsum]; [ring|]. rewrite <- IH. unfold pc. ring.
Qed.
Lemma curve_diffuses : bath_with_film D ra kf Kd V curve.
Proof.
  assert (G : forall l, Forall (fun q => froot A b q) l -> forall q, In q l -> froot A b q) by (intros l F; apply Forall_forall, F). specialize (G roots Hroots).
  assert (FILM : forall t, kf * (curve t - (level + lsum (map (fun q => pu q ra t) roots))) = D * (Kd * (0 + lsum (map (fun q => pur q ra t) roots)))).
  { intros t. rewrite curve_modes. clear Hroots. induction roots as [|q l IH]; cbn [map lsum]; [ring|].
    assert (F := pu_film q t (G q (or_introl eq_refl))). specialize (IH (fun p Hp => G p (or_intror Hp))). lra. }
  exists (fun r t => level + lsum (map (fun q => pu q r t) roots)), (fun r t => 0 + lsum (map (fun q => pur q r t) roots)), (fun r t => lsum (map (fun q => purr q r t) roots)), (fun r t => 0 + lsum (map (fun q => put q r t) roots)).
  split; [|split; [|split]].
  - intros r t Hr. split; [|split; [|split]].
    + apply (derivable_pt_lim_plus (fun _ => level) (fun s => lsum (map (fun q => pu q s t) roots))); [apply derivable_pt_lim_const|].
      apply (derivable_lsum roots (fun q s => pu q s t) (fun q s => pur q s t)). intros q _. apply pu_r, Hr.
    + replace (lsum (map (fun q => purr q r t) roots)) with (0 + lsum (map (fun q => purr q r t) roots)) by ring.
      apply (derivable_pt_lim_plus (fun _ => 0) (fun s => lsum (map (fun q => pur q s t) roots))); [apply derivable_pt_lim_const|].
      apply (derivable_lsum roots (fun q s => pur q s t) (fun q s => purr q s t)). intros q _. apply pur_r, Hr.
    + apply (derivable_pt_lim_plus (fun _ => level) (fun s => lsum (map (fun q => pu q r s) roots))); [apply derivable_pt_lim_const|].
      apply (derivable_lsum roots (fun q s => pu q r s) (fun q s => put q r s)). intros q _. apply pu_t.
    + clear - Hr Hra. induction roots as [|q l IH]; cbn [map lsum]; [ring|]. rewrite (pu_diffuses q r t Hr). lra.
  - intros t. exists (Rabs level + lsum (map (fun q => Rabs (amp q t) * (q / ra)) roots)). intros r Hr. eapply Rle_trans; [apply Rabs_triang|]. apply Rplus_le_compat_l.
    clear - G Hr Hra. induction roots as [|q l IH]; cbn [map lsum]; [rewrite Rabs_R0; lra|]. eapply Rle_trans; [apply Rabs_triang|].
    apply Rplus_le_compat; [|apply IH; intros p Hp; apply G; right; exact Hp]. unfold pu. rewrite Rabs_mult. apply Rmult_le_compat_l; [apply Rabs_pos|].
    assert (P : 0 < q / ra) by (apply Rdiv_lt_0_compat; [apply (G q (or_introl eq_refl))|lra]). unfold Rdiv at 1. rewrite Rabs_mult, (Rabs_right (/ r)) by (left; apply Rinv_0_lt_compat; lra).
    apply (Rmult_le_reg_r r); [lra|]. rewrite Rmult_assoc, Rinv_l by lra. rewrite Rmult_1_r. apply sin_le. apply Rmult_lt_0_compat; lra.
  - exact FILM.
  - intros t. assert (DD : derivable_pt_lim (fun s => level + lsum (map (fun q => pc q s) roots)) t (0 + lsum (map (fun q => pct q t) roots))).
    { apply (derivable_pt_lim_plus (fun _ => level) (fun s => lsum (map (fun q => pc q s) roots))); [apply derivable_pt_lim_const|].
      apply (derivable_lsum roots (fun q s => pc q s) (fun q s => pct q s)). intros q _. apply pc_t. }
    replace (- (3 * V / ra * (kf * (curve t - (level + lsum (map (fun q => pu q ra t) roots)))))) with (0 + lsum (map (fun q => pct q t) roots)).
    + intros e He. destruct (DD e He) as (d & Hd). exists d. intros h H1 H2. specialize (Hd h H1 H2). rewrite !curve_modes. exact Hd.
    + rewrite curve_modes. clear - G Hra HK HV HD Hkf HBi. induction roots as [|q l IH]; cbn [map lsum]; [ring|]. assert (F := pc_leaves q t (G q (or_introl eq_refl))).
      specialize (IH (fun p Hp => G p (or_intror Hp))). lra.
Qed.
End Curve.

(** ** The curve the object returns *)
Section Object.
Variables (brentq : (R -> R) -> R -> R -> res R) (HB : brackets_roots brentq).
Variables (f : carbon) (dosage Kd kf Ds : R).
Notation V := (dosage / 1000 / 1000 / f_density f).
Notation A := (1 / V / Kd).
Notation Bi := (kf * f_radius f / Ds / Kd).
Notation L := (1 / (1 + A)).
Hypotheses (Hdens : 0 < f_density f) (Hdose : 0 < dosage) (HKd : 0 < Kd) (Hradius : 0 < f_radius f) (Hkf : 0 < kf) (HDs : 0 < Ds).
Hypotheses (HBi : 1 + 1 / 10000 <= Bi) (HM : ~ film_root L Bi halfway).
Lemma V_pos : 0 < V.
Proof. repeat apply Rdiv_lt_0_compat; lra. Qed.
Lemma bounds n : (n <= 11)%nat -> (INR n + 2) * PI <= 900000 * (Bi - 1) /\ (INR n + 2) * PI <= 1900.
Proof.
  intros Hn. apply le_INR in Hn. replace (INR 11) with 11 in Hn by (rewrite INR_IZR_INZ; reflexivity). assert (P := PI_4). assert (0 < PI) by exact PI_RGT_0.
  assert ((INR n + 2) * PI <= 13 * 4) by (apply Rmult_le_compat; try lra; assert (Z := pos_INR n); lra). split; lra.
Qed.
Lemma found n : (1 <= n <= 11)%nat -> exists roots, find_pn brentq n L Bi = Ok roots /\ Forall2 (findex A (/ Bi)) (seq 1 (S n)) roots.
Proof.
  intros (H1 & H2). assert (HL := L_in Kd V HKd V_pos). destruct (bounds n H2) as (B1 & B2).
  assert (F := proj1 (pn_found brentq HB L Bi HL ltac:(lra) n H1 B1 B2) (halfway_root L Bi HL ltac:(lra) HM)). rewrite (L_A Kd V HKd V_pos) in F. exact F.
Qed.
Lemma hsdm_curve : exists roots, Forall2 (findex A (/ Bi)) (seq 1 11) roots /\
  forall t, hsdm brentq f dosage Kd kf Ds t = Ok (curve Ds (f_radius f) kf Kd V roots t).
Proof.
  destruct (found 10 ltac:(lia)) as (roots & E & F). exists roots. split; [exact F|]. intros t. unfold hsdm, finiteHSDM.
  replace (dosage / (f_density f * 10 ^ 6)) with V by (field; lra). cbv zeta. rewrite E. reflexivity.
Qed.
Lemma roots_ne roots : Forall2 (findex A (/ Bi)) (seq 1 11) roots -> roots <> [].
Proof. intros F ->. apply Forall2_len in F. discriminate F. Qed.
Lemma curve_start roots : Forall2 (findex A (/ Bi)) (seq 1 11) roots -> curve Ds (f_radius f) kf Kd V roots 0 < 1.
Proof.
  intros F. assert (HV := V_pos). assert (HA := A_pos Kd V HKd HV). assert (Hb := b_in Ds (f_radius f) kf Kd ltac:(lra)). destruct (found 11 ltac:(lia)) as (more & _ & F').
  assert (S12 : (seq 1 12 = seq 1 11 ++ [12%nat])%list) by reflexivity. rewrite S12 in F'.
  apply Forall2_app_inv_l in F' as (m1 & m2 & F1 & F2 & ->).
  assert (SAME : m1 = roots).
  { assert (G : forall ks, Forall (fun k => (1 <= k)%nat) ks -> forall l l', Forall2 (findex A (/ Bi)) ks l -> Forall2 (findex A (/ Bi)) ks l' -> l = l').
    { clear - HA Hb. induction 1 as [|k ks Hk _ IH]; intros l l' G G'; inversion G; inversion G'; subst; [reflexivity|]. f_equal; [|apply IH; assumption].
      apply (froot_unique A (/ Bi) HA Hb k); assumption. }
    apply (G (seq 1 11)); [|exact F1|exact F]. apply Forall_forall. intros k Hk. apply in_seq in Hk. lia. }
  subst m1. inversion F2 as [|? x ? e X E2]; subst. inversion E2; subst. clear F2 E2.
  assert (FA : Forall2 (findex A (/ Bi)) (seq 1 12) (roots ++ [x])) by (rewrite S12; apply Forall2_app; [exact F|constructor; [exact X|constructor]]).
  destruct (found_apart _ _ 12 _ FA) as (R1 & R2). assert (BE := bessel A (/ Bi) HA Hb (roots ++ [x]) R1 R2). rewrite map_app, lsum_app in BE.
  cbn [map lsum] in BE. assert (SP := share_pos A (/ Bi) HA Hb x).
  rewrite curve_eq by (lra || assumption).
  assert (ML : lsum (map (fun q => share A (/ Bi) q * decay Ds (f_radius f) q 0) roots) = lsum (map (share A (/ Bi)) roots)).
  { apply lsum_map_ext. intros q _. unfold decay. replace (- Ds * 0 * q ^ 2 / f_radius f ^ 2) with 0 by (unfold Rdiv; ring). rewrite exp_0. ring. }
  rewrite ML. rewrite <- (level_eq Kd V HKd HV). assert (DP := proj1 (L_in Kd V HKd HV)).
  assert (Q : lsum (map (share A (/ Bi)) roots) < 1) by lra. apply (Rmult_lt_compat_l L) in Q; [|exact DP]. lra.
Qed.
End Object.

(** The curve exists, falls all the time between one and the share of the compound that stays
    in the water at equilibrium, and comes as near as wanted to that share. *)
Theorem C170_curve_partial : forall brentq f dosage Kd kf Ds, brackets_roots brentq ->
  0 < f_density f -> 0 < dosage -> 0 < Kd -> 0 < f_radius f -> 0 < kf -> 0 < Ds ->
  let Bi := kf * f_radius f / Ds / Kd in let volume := dosage / 1000 / 1000 / f_density f in let level := 1 / (1 + Kd * volume) in
  1 + 1 / 10000 <= Bi -> ~ film_root (1 - level) Bi ((PI / 2 + dec 1 6 + PI * dec 9999 4) / 2) ->
  exists F, (forall t, hsdm brentq f dosage Kd kf Ds t = Ok (F t)) /\
    (forall t s, t < s -> F s < F t) /\ (forall t, level < F t) /\ (forall t, 0 <= t -> F t < 1) /\
    (forall e, 0 < e -> exists T, forall t, T <= t -> F t < level + e).
Proof.
  intros brentq f dosage Kd kf Ds HB H1 H2 H3 H4 H5 H6 Bi volume level HBi HM. assert (HV := V_pos f dosage H1 H2).
  assert (EL : 1 - level = 1 / (1 + 1 / volume / Kd)) by (unfold level; rewrite <- (level_eq Kd volume H3 HV); ring). rewrite EL in HM.
  destruct (hsdm_curve brentq HB f dosage Kd kf Ds H1 H2 H3 HBi HM) as (roots & F & E).
  destruct (found_apart _ _ _ _ F) as (HR & _). assert (NE := roots_ne f dosage Kd kf Ds roots F).
  exists (curve Ds (f_radius f) kf Kd volume roots). split; [exact E|].
  assert (FALL : forall t s, t < s -> curve Ds (f_radius f) kf Kd volume roots s < curve Ds (f_radius f) kf Kd volume roots t)
    by (intros t s Lt; apply curve_falls; try assumption; unfold Bi in HBi; lra).
  split; [exact FALL|]. split; [intros t; apply curve_above; try assumption; unfold Bi in HBi; lra|]. split.
  - intros t Ht. assert (S0 := curve_start brentq HB f dosage Kd kf Ds H1 H2 H3 H4 H5 H6 HBi HM roots F). destruct Ht as [Ht| <-]; [|exact S0]. specialize (FALL 0 t Ht). unfold volume in *. lra.
  - intros e He. apply curve_limit; try assumption; unfold Bi in HBi; lra.
Qed.
(** It is a solution of the model of film transfer and diffusion. *)
Theorem C170_model_partial : forall brentq f dosage Kd kf Ds, brackets_roots brentq ->
  0 < f_density f -> 0 < dosage -> 0 < Kd -> 0 < f_radius f -> 0 < kf -> 0 < Ds ->
  let Bi := kf * f_radius f / Ds / Kd in let volume := dosage / 1000 / 1000 / f_density f in let level := 1 / (1 + Kd * volume) in
  1 + 1 / 10000 <= Bi -> ~ film_root (1 - level) Bi ((PI / 2 + dec 1 6 + PI * dec 9999 4) / 2) ->
  exists F, (forall t, hsdm brentq f dosage Kd kf Ds t = Ok (F t)) /\ bath_with_film Ds (f_radius f) kf Kd volume F.
Proof.
  intros brentq f dosage Kd kf Ds HB H1 H2 H3 H4 H5 H6 Bi volume level HBi HM. assert (HV := V_pos f dosage H1 H2).
  assert (EL : 1 - level = 1 / (1 + 1 / volume / Kd)) by (unfold level; rewrite <- (level_eq Kd volume H3 HV); ring). rewrite EL in HM.
  destruct (hsdm_curve brentq HB f dosage Kd kf Ds H1 H2 H3 HBi HM) as (roots & F & E).
  destruct (found_apart _ _ _ _ F) as (HR & _). eexists. split; [exact E|]. apply curve_diffuses; try assumption. unfold Bi in HBi. lra.
Qed.
(** It does not start from the concentration of the influent. *)
Theorem C170_start_refuted : forall brentq f dosage Kd kf Ds, brackets_roots brentq ->
  0 < f_density f -> 0 < dosage -> 0 < Kd -> 0 < f_radius f -> 0 < kf -> 0 < Ds ->
  let Bi := kf * f_radius f / Ds / Kd in let volume := dosage / 1000 / 1000 / f_density f in let level := 1 / (1 + Kd * volume) in
  1 + 1 / 10000 <= Bi -> ~ film_root (1 - level) Bi ((PI / 2 + dec 1 6 + PI * dec 9999 4) / 2) ->
  hsdm brentq f dosage Kd kf Ds 0 <> Ok 1.
Proof.
  intros brentq f dosage Kd kf Ds HB H1 H2 H3 H4 H5 H6 Bi volume level HBi HM.
  destruct (C170_curve_partial brentq f dosage Kd kf Ds HB H1 H2 H3 H4 H5 H6 HBi HM) as (F & E & _ & _ & S & _). rewrite E. specialize (S 0 ltac:(lra)). intros X. injection X as X. lra.
Qed.

(** ** Where the roots used can lie *)
Section Inside.
Variables (brentq : (R -> R) -> R -> R -> res R) (A B : R).
Hypothesis HI : forall f a b x, a < b -> brentq f a b = Ok x -> a <= x <= b.
Lemma lo_S k : lo k + PI = lo (S k).
Proof. unfold lo. rewrite S_INR. field. Qed.
Lemma lo_hi k : lo k < hi k.
Proof. unfold hi. rewrite span. assert (HP := PI_RGT_0). lra. Qed.
Lemma in_period k x : lo k <= x <= hi k -> INR k * PI - PI / 2 < x < INR k * PI + PI / 2.
Proof. unfold hi, lo. rewrite span. destruct small as (E1 & E2). lra. Qed.
Lemma loop_inside n : forall k roots l, roots <> [] -> pn_loop brentq n A B (lo k) roots = Ok l ->
  exists more, (l = roots ++ more)%list /\ Forall2 (fun k x => lo k <= x <= hi k) (seq (S k) n) more.
Proof.
  induction n as [|n IH]; intros k roots l N E; cbn [pn_loop] in E.
  - injection E as <-. exists []. rewrite app_nil_r. split; [reflexivity|constructor].
  - destruct roots as [|r0 rs]; [contradiction|]. cbv zeta beta iota in E. rewrite lo_S in E. change (lo (S k) + PI * dec 9999 4) with (hi (S k)) in E.
    destruct (brentq (hsdm_f A B) (lo (S k)) (hi (S k))) as [r|] eqn:Q; [|discriminate E]. cbn [bind] in E.
    destruct (IH (S k) ((r0 :: rs) ++ [r])%list l ltac:(discriminate) E) as (more & -> & F). exists (r :: more). rewrite <- app_assoc. split; [reflexivity|].
    cbn [seq]. constructor; [|exact F]. exact (HI _ _ _ _ (lo_hi (S k)) Q).
Qed.
Lemma tried_in a b f x : a < b -> In x (tried (brentq f a b)) -> a <= x <= b.
Proof. intros L I. destruct (brentq f a b) as [r|] eqn:Q; [|destruct I]. destruct I as [<-|[]]. exact (HI _ _ _ _ L Q). Qed.
Lemma find_inside n l : find_pn brentq n A B = Ok l -> exists first more m, (l = first ++ more)%list /\
  (forall x, In x first -> lo 1 <= x <= hi 1) /\ (1 <= m)%nat /\ Forall2 (fun k x => lo k <= x <= hi k) (seq m n) more.
Proof.
  intros E. destruct n as [|n]; [injection E as <-; exists [], [], 1%nat; repeat split; try contradiction; try lia; constructor|].
  unfold find_pn in E. fold eps6 in E. cbn [pn_loop] in E. cbv zeta beta iota in E. rewrite <- lo_1 in E. change (lo 1 + PI * dec 9999 4) with (hi 1) in E.
  assert (HH : hi 1 / 2 = halfway) by (unfold halfway, hi; rewrite lo_1; reflexivity). rewrite HH in E. destruct halfway_in as (M1 & M2).
  set (t := (tried (brentq (hsdm_f A B) (lo 1) halfway) ++ tried (brentq (hsdm_f A B) halfway (hi 1)))%list) in *.
  assert (T : forall x, In x t -> lo 1 <= x <= hi 1).
  { intros x I. apply in_app_or in I as [I|I]; apply tried_in in I; lra. }
  clearbody t. destruct t as [|t0 ts].
  - cbn iota in E. change (lo 1 + PI * dec 9999 4) with (hi 1) in E. destruct (brentq (hsdm_f A B) (lo 1) (hi 1)) as [r|] eqn:Q; [|discriminate E]. cbn [bind app] in E.
    destruct (loop_inside n 1 [r] l ltac:(discriminate) E) as (more & -> & F). exists [], (r :: more), 1%nat. split; [reflexivity|]. split; [contradiction|]. split; [lia|].
    cbn [seq]. constructor; [|exact F]. exact (HI _ _ _ _ (lo_hi 1) Q).
  - cbn iota in E. rewrite lo_S in E. change (lo 2 + PI * dec 9999 4) with (hi 2) in E. destruct (brentq (hsdm_f A B) (lo 2) (hi 2)) as [r|] eqn:Q; [|discriminate E]. cbn [bind] in E.
    destruct (loop_inside n 2 ((t0 :: ts) ++ [r])%list l ltac:(discriminate) E) as (more & -> & F). exists (t0 :: ts), (r :: more), 2%nat. rewrite <- app_assoc. split; [reflexivity|]. split; [exact T|]. split; [lia|].
    cbn [seq]. constructor; [|exact F]. exact (HI _ _ _ _ (lo_hi 2) Q).
Qed.
Lemma period_same j k x : INR j * PI - PI / 2 < x < INR j * PI + PI / 2 -> INR k * PI - PI / 2 < x < INR k * PI + PI / 2 -> j = k.
Proof.
  intros H1 H2. assert (HP := PI_RGT_0). assert (INR j < INR (S k)) by (rewrite S_INR; apply (Rmult_lt_reg_r PI); lra). assert (INR k < INR (S j)) by (rewrite S_INR; apply (Rmult_lt_reg_r PI); lra).
  apply INR_lt in H, H0. lia.
Qed.
Lemma more_in n : forall m l x, Forall2 (fun k x => lo k <= x <= hi k) (seq m n) l -> In x l -> exists k, (m <= k)%nat /\ INR k * PI - PI / 2 < x < INR k * PI + PI / 2.
Proof.
  induction n as [|n IH]; intros m l x F I; inversion F as [|? r ? rs Hr F']; subst; [destruct I|]. destruct I as [<-|I].
  - exists m. split; [lia|]. apply in_period, Hr.
  - destruct (IH (S m) rs x F' I) as (k & K1 & K2). exists k. split; [lia|exact K2].
Qed.
Lemma more_once n : forall m l k x y, Forall2 (fun k x => lo k <= x <= hi k) (seq m n) l -> In x l -> In y l ->
  INR k * PI - PI / 2 < x < INR k * PI + PI / 2 -> INR k * PI - PI / 2 < y < INR k * PI + PI / 2 -> x = y.
Proof.
  induction n as [|n IH]; intros m l k x y F Ix Iy Hx Hy; inversion F as [|? r ? rs Hr F']; subst; [destruct Ix|]. apply in_period in Hr. destruct Ix as [<-|Ix], Iy as [<-|Iy].
  - reflexivity.
  - destruct (more_in n (S m) rs y F' Iy) as (j & J1 & J2). assert (j = k) by exact (period_same j k y J2 Hy). assert (m = k) by exact (period_same m k r Hr Hx). lia.
  - destruct (more_in n (S m) rs x F' Ix) as (j & J1 & J2). assert (j = k) by exact (period_same j k x J2 Hx). assert (m = k) by exact (period_same m k r Hr Hy). lia.
  - exact (IH (S m) rs k x y F' Ix Iy Hx Hy).
Qed.
Lemma found_once n l k x y : find_pn brentq n A B = Ok l -> (2 <= k)%nat -> In x l -> In y l ->
  INR k * PI - PI / 2 < x < INR k * PI + PI / 2 -> INR k * PI - PI / 2 < y < INR k * PI + PI / 2 -> x = y.
Proof.
  intros E Hk Ix Iy Hx Hy. destruct (find_inside n l E) as (first & more & m & -> & F1 & _ & F2).
  assert (W : forall z, INR k * PI - PI / 2 < z < INR k * PI + PI / 2 -> In z (first ++ more) -> In z more).
  { intros z Hz I. apply in_app_or in I as [I|I]; [|exact I]. exfalso. assert (1%nat = k) by exact (period_same 1 k z (in_period 1 z (F1 z I)) Hz). lia. }
  exact (more_once n m more k x y F2 (W x Hx Ix) (W y Hy Iy) Hx Hy).
Qed.
End Inside.
(** ** Two roots in the period of the pole *)
Section Pole.
Variables (a b : R) (Ha : 0 < a) (Hb : 1 < b) (k : nat) (Hk : (1 <= k)%nat) (p : R).
Hypotheses (Hp : INR k * PI - PI / 2 < p < INR k * PI + PI / 2) (Dp : den a b p = 0).
Notation s := (INR k * PI).
Notation h := (fun y => sin y * den a b (y + s) - (y + s) * cos y * num a b (y + s)).
Lemma h_cont : continuity h.
Proof. intros y. apply derivable_continuous_pt. unfold den, num. reg. Qed.
Lemma left_pos : 0 < INR k * PI - PI / 2.
Proof. assert (HP := PI_RGT_0). assert (1 <= INR k) by (apply (le_INR 1); exact Hk). nra. Qed.
Lemma den_mono x y : 0 < x -> x < y -> den a b y < den a b x.
Proof. intros Hx L. unfold den. assert (x ^ 2 < y ^ 2) by nra. assert (a * (1 - b) < 0) by nra. nra. Qed.
Lemma h_left : h (- (PI / 2)) < 0.
Proof.
  cbv beta. rewrite sin_neg, cos_neg, sin_PI2, cos_PI2. assert (D := den_mono (- (PI / 2) + s) p). assert (P := left_pos). rewrite Dp in D. assert (Q := D ltac:(lra) ltac:(lra)). lra.
Qed.
Lemma h_right : h (PI / 2) < 0.
Proof.
  cbv beta. rewrite sin_PI2, cos_PI2. assert (P := left_pos). assert (D := den_mono p (PI / 2 + s) ltac:(lra) ltac:(lra)). rewrite Dp in D. lra.
Qed.
Lemma h_pole : 0 < h (p - s).
Proof.
  cbv beta. replace (p - s + s) with p by ring. rewrite Dp. assert (P := left_pos). assert (C : 0 < cos (p - s)) by (apply cos_gt_0; lra).
  assert (N : num a b p < 0). { unfold num. unfold den in Dp. assert (0 < a * p ^ 2) by (apply Rmult_lt_0_compat; [exact Ha|nra]). nra. }
  assert (0 < p * cos (p - s)) by (apply Rmult_lt_0_compat; lra). nra.
Qed.
Lemma h_root y : h y = 0 -> 0 < y + s -> froot a b (y + s).
Proof. intros H P. split; [exact P|]. apply (shift_eq a b k (y + s) y eq_refl). lra. Qed.
Lemma two_roots : exists x y, x < y /\ froot a b x /\ froot a b y /\ INR k * PI - PI / 2 < x /\ y < INR k * PI + PI / 2.
Proof.
  assert (P := left_pos). assert (H1 := h_left). assert (H2 := h_pole). assert (H3 := h_right).
  destruct (IVT_cor h (- (PI / 2)) (p - s) h_cont ltac:(lra) ltac:(nra)) as (x & (X1 & X2) & X).
  destruct (IVT_cor h (p - s) (PI / 2) h_cont ltac:(lra) ltac:(nra)) as (y & (Y1 & Y2) & Y).
  assert (X3 : x <> - (PI / 2)) by (intros ->; lra). assert (X4 : x <> p - s) by (intros ->; lra). assert (Y3 : y <> PI / 2) by (intros ->; lra).
  exists (x + s), (y + s). split; [lra|]. split; [apply h_root; [exact X|lra]|]. split; [apply h_root; [exact Y|lra]|]. lra.
Qed.
End Pole.
(** With a Biot number below one a root is missed whenever the fraction of the characteristic
    equation has its pole in one of the later intervals. *)
Theorem C170_missed_refuted : forall brentq n L B k p roots, (forall f a b x, a < b -> brentq f a b = Ok x -> a <= x <= b) ->
  0 < L < 1 -> 0 < B < 1 -> (2 <= k <= n + 1)%nat ->
  INR k * PI - PI / 2 < p < INR k * PI + PI / 2 -> 3 + (1 - L) / L * (1 - 1 / B) * p ^ 2 = 0 ->
  find_pn brentq n L B = Ok roots -> exists x, film_root L B x /\ x < (INR n + 3 / 2) * PI /\ ~ In x roots.
Proof.
  intros brentq n L B k p roots HI HL HB Hk Hp Dp E.
  assert (HP := PI_RGT_0). assert (Hb : 1 < / B) by (rewrite <- Rinv_1; apply Rinv_lt_contravar; lra).
  assert (Dp' : den ((1 - L) / L) (/ B) p = 0) by (unfold den; unfold Rdiv at 2 in Dp; rewrite Rmult_1_l in Dp; exact Dp).
  destruct (two_roots _ _ (a_pos L HL) Hb k ltac:(lia) p Hp Dp') as (x & y & Lxy & Rx & Ry & X & Y).
  assert (KN : INR k * PI + PI / 2 <= (INR n + 3 / 2) * PI).
  { assert (INR k <= INR n + 1) by (rewrite <- S_INR; apply le_INR; lia). nra. }
  destruct (in_dec Req_EM_T x roots) as [Ix|Nx].
  - exists y. split; [apply (bridge L B y HL ltac:(lra)), Ry|]. split; [lra|]. intros Iy. assert (x = y) by (apply (found_once brentq L B HI n roots k x y E ltac:(lia) Ix Iy); lra). lra.
  - exists x. split; [apply (bridge L B x HL ltac:(lra)), Rx|]. split; [lra|exact Nx].
Qed.
(** ** A compound whose curve cannot be found *)
Section Fails.
Variables (brentq : (R -> R) -> R -> R -> res R) (HB : brackets_roots brentq).
Variables (L : R) (HL : 0 < L < 1) (HA : 10 ^ 6 <= (1 - L) / L).
Notation f := (hsdm_f L 1).
Lemma f_one x : f x = 1 - (1 - L) / L * x ^ 2 / 3 - tan x / x.
Proof. unfold hsdm_f. generalize ((1 - L) / L). intros a. replace (3 + a * (1 - 1) / 1 * x ^ 2) with 3 by field. replace ((3 - a * x ^ 2 / 1) / 3) with (1 - a * x ^ 2 / 3) by field. reflexivity. Qed.
Lemma tan_period k x : cos (x - INR k * PI) <> 0 -> tan x = tan (x - INR k * PI).
Proof.
  intros N. unfold tan. set (y := x - INR k * PI) in *. replace x with (y + INR k * PI) by (unfold y; ring). clearbody y. induction k as [|k IH]; [cbn [INR]; rewrite Rmult_0_l, Rplus_0_r; reflexivity|].
  rewrite <- IH, S_INR. replace (y + (INR k + 1) * PI) with (y + INR k * PI + PI) by ring. rewrite neg_sin, neg_cos.
  assert (cos (y + INR k * PI) <> 0).
  { clear IH. induction k as [|k IH]; [cbn [INR]; rewrite Rmult_0_l, Rplus_0_r; exact N|]. rewrite S_INR. replace (y + (INR k + 1) * PI) with (y + INR k * PI + PI) by ring. rewrite neg_cos. lra. }
  field. exact H.
Qed.
Lemma cot_small e : 0 < e < 1 -> tan (PI / 2 - e) < / e.
Proof.
  intros E. assert (H3 := PI2_3_2). assert (T := tan_step 0 e ltac:(lra) ltac:(lra) ltac:(lra)). rewrite tan_0 in T. unfold tan in *. rewrite sin_shift, cos_shift.
  assert (S1 : 0 < sin e) by (apply sin_gt_0; lra). assert (C1 : 0 < cos e) by (apply cos_gt_0; lra).
  assert (Q : e * cos e < sin e). { apply (Rmult_lt_reg_r (/ cos e)); [apply Rinv_0_lt_compat, C1|]. rewrite Rmult_assoc, Rinv_r by lra. unfold Rdiv in T. lra. }
  apply (Rmult_lt_reg_r (e * sin e)); [nra|]. replace (cos e / sin e * (e * sin e)) with (e * cos e) by (field; lra). replace (/ e * (e * sin e)) with (sin e) by (field; lra). exact Q.
Qed.
Lemma big x : 3 / 2 < x -> 750000 <= (1 - L) / L * x ^ 2 / 3.
Proof. intros Hx. assert (9 / 4 < x ^ 2) by nra. assert (10 ^ 6 * (9 / 4) <= (1 - L) / L * x ^ 2) by (apply Rmult_le_compat; lra). lra. Qed.
Lemma f_lo k : (1 <= k)%nat -> f (lo k) < 0.
Proof.
  intros Hk. assert (HP := PI_RGT_0). assert (H3 := PI2_3_2). destruct eps6_bounds as ((E1 & E2) & E3). assert (K1 : 1 <= INR k) by (apply (le_INR 1); lia).
  assert (X : 3 / 2 < lo k) by (unfold lo; nra). rewrite f_one. assert (BG := big (lo k) X).
  assert (EQ : lo k - INR k * PI = - (PI / 2 - eps6)) by (unfold lo; ring).
  rewrite (tan_period k) by (rewrite EQ, cos_neg; apply Rgt_not_eq, cos_gt_0; lra). rewrite EQ, tan_neg.
  assert (C := cot_small eps6 ltac:(lra)). replace (/ eps6) with (10 ^ 6) in C by (rewrite E3; field).
  assert (Q : tan (PI / 2 - eps6) / lo k < 700000).
  { apply (Rmult_lt_reg_r (lo k)); [lra|]. replace (tan (PI / 2 - eps6) / lo k * lo k) with (tan (PI / 2 - eps6)) by (field; lra). nra. }
  unfold Rdiv in *. lra.
Qed.
Lemma f_hi k : (1 <= k)%nat -> f (hi k) < 0.
Proof.
  intros Hk. assert (HP := PI_RGT_0). assert (H3 := PI2_3_2). destruct small as (S1 & S2). assert (K1 : 1 <= INR k) by (apply (le_INR 1); lia).
  assert (X0 : 3 / 2 < lo k) by (unfold lo; nra). assert (X1 := lo_hi k). rewrite f_one. assert (BG := big (hi k) ltac:(lra)).
  assert (EQ : hi k - INR k * PI = PI / 2 - (PI / 10000 - eps6)) by (unfold hi, lo; rewrite span; field).
  assert (C : 0 < cos (hi k - INR k * PI)) by (rewrite EQ; apply cos_gt_0; lra).
  rewrite (tan_period k) by lra. assert (T : 0 < tan (hi k - INR k * PI)) by (rewrite EQ; apply tan_gt_0; lra).
  assert (0 < tan (hi k - INR k * PI) / hi k) by (apply Rdiv_lt_0_compat; lra). lra.
Qed.
Lemma fails n : exists e, find_pn brentq (S n) L 1 = Err e.
Proof.
  assert (ER : forall k, (1 <= k)%nat -> exists e, brentq f (lo k) (hi k) = Err e).
  { intros k Hk. apply (proj2 HB); [apply lo_hi|]. assert (F1 := f_lo k Hk). assert (F2 := f_hi k Hk). nra. }
  unfold find_pn. fold eps6. cbn [pn_loop]. cbv zeta. rewrite <- lo_1. change (lo 1 + PI * dec 9999 4) with (hi 1).
  match goal with |- context [match ?l with [] => _ | _ :: _ => _ end] => destruct l as [|t0 ts] end.
  - change (lo 1 + PI * dec 9999 4) with (hi 1). destruct (ER 1%nat ltac:(lia)) as (e & ->). exists e. reflexivity.
  - rewrite lo_S. change (lo 2 + PI * dec 9999 4) with (hi 2). destruct (ER 2%nat ltac:(lia)) as (e & ->). exists e. reflexivity.
Qed.
End Fails.
(** There is a compound that takes away the curves of all the others. *)
Theorem C170_others_refuted : forall brentq f dosage, brackets_roots brentq -> 0 < f_density f -> 0 < f_radius f -> 0 < dosage ->
  exists c Kd, 0 < kf c /\ 0 < Ds c /\ 0 < Kd /\
    forall cs t, hsdm_all brentq f dosage (cs ++ [(c, Kd)]) t = None.
Proof.
  intros brentq f dosage HB H1 H2 H3. set (V := dosage / (f_density f * 10 ^ 6)).
  assert (HV : 0 < V) by (apply Rdiv_lt_0_compat; [lra|nra]). set (Kd := / (V * 10 ^ 6)). assert (HK : 0 < Kd) by (apply Rinv_0_lt_compat; nra).
  exists {| K := 1; xn := 1; kf := Kd / f_radius f; Dp := 1; Ds := 1; C0 := 1; C0_units := "ug"%string |}, Kd. cbn [kf Ds].
  split; [apply Rdiv_lt_0_compat; lra|]. split; [lra|]. split; [exact HK|]. intros cs t.
  assert (ONE : forall kf' Ds', kf' = Kd / f_radius f -> Ds' = 1 -> exists e, hsdm brentq f dosage Kd kf' Ds' t = Err e).
  { intros kf' Ds' -> ->. unfold hsdm, finiteHSDM. fold V. replace (Kd / f_radius f * f_radius f / 1 / Kd) with 1 by (field; lra).
    assert (EA : 1 / V / Kd = 10 ^ 6) by (unfold Kd; field; lra). rewrite EA.
    destruct (fails brentq HB (1 / (1 + 10 ^ 6)) ltac:(lra) ltac:(lra) 9) as (e & E). exists e. cbv zeta. rewrite E. reflexivity. }
  induction cs as [|(c, k) cs IH]; cbn [app hsdm_all].
  - destruct (ONE (Kd / f_radius f) 1 eq_refl eq_refl) as (e & E). cbn [kf Ds]. rewrite E. reflexivity.
  - rewrite IH. destruct (hsdm brentq f dosage k (kf c) (Ds c) t); reflexivity.
Qed.

(** ** The hypotheses are met *)
(** A Biot number of six or more keeps the split point from being a root. *)
Lemma wide L B : 0 < L < 1 -> 6 <= B -> ~ film_root L B halfway.
Proof.
  intros HL HB H. apply (bridge L B halfway HL ltac:(lra)) in H as (P & H). assert (HP := PI_RGT_0). assert (H3 := PI2_3_2). assert (H4 := PI_4). destruct small as (E1 & E2).
  assert (HA := a_pos L HL). assert (Hb : 0 < / B <= / 6) by (split; [apply Rinv_0_lt_compat; lra|apply Rinv_le_contravar; lra]). unfold den, num in H. set (a := (1 - L) / L) in *. set (b := / B) in *.
  assert (HW : PI / 2 < halfway < 3 * (PI / 4)) by (unfold halfway; rewrite span; lra).
  assert (HX : halfway < 3) by lra.
  set (x := halfway) in *. clearbody a b x. clear HL HB.
  assert (S : 0 < sin x) by (apply sin_gt_0; lra). assert (C : cos x < 0) by (apply cos_lt_0; lra).
  assert (SC : 0 < sin x + cos x).
  { rewrite <- (cos_shift x). replace (cos (PI / 2 - x)) with (cos (x - PI / 2)) by (rewrite <- cos_neg; f_equal; ring).
    assert (cos (PI - x) < cos (x - PI / 2)) by (apply cos_decreasing_1; lra). rewrite Rtrigo_facts.cos_pi_minus in H0. lra. }
  assert (Q : 0 < sin x * (1 - b) + x * cos x * b).
  { assert (x * b <= 3 * / 6) by (apply Rmult_le_compat; lra). assert (- sin x < cos x) by lra.
    assert (- (1 / 2 * sin x) <= x * cos x * b). { assert (0 <= x * b) by nra. nra. } nra. }
  assert (R : sin x * (3 + a * (1 - b) * x ^ 2) - x * cos x * (3 - a * b * x ^ 2) = 3 * sin x - 3 * (x * cos x) + a * x ^ 2 * (sin x * (1 - b) + x * cos x * b)) by ring.
  assert (0 < a * x ^ 2) by (apply Rmult_lt_0_compat; [exact HA|nra]). assert (x * cos x < 0) by nra. assert (0 < a * x ^ 2 * (sin x * (1 - b) + x * cos x * b)) by (apply Rmult_lt_0_compat; assumption). lra.
Qed.
(** A root finder: bisection, with an exception for equal signs. *)
Definition bracketing (f : R -> R) (a b : R) : res R := if rltb 0 (f a * f b) then Err ValueError else bisect f a b.
Example brackets_met : brackets_roots bracketing.
Proof.
  split.
  - intros f a b L C S. unfold bracketing, rltb. destruct (Rlt_dec 0 (f a * f b)); [lra|]. exact (finder_met f a b L C S).
  - intros f a b L S. unfold bracketing, rltb. destruct (Rlt_dec 0 (f a * f b)); [|lra]. exists ValueError. reflexivity.
Qed.
Example inside_met : forall f a b x, a < b -> bracketing f a b = Ok x -> a <= x <= b.
Proof.
  intros f a b x L E. unfold bracketing, bisect, reqb in E. destruct (rltb 0 (f a * f b)); [discriminate|]. destruct (Req_EM_T (f a) 0); [injection E as <-; lra|].
  destruct (Rle_dec a b) as [H|]; [|discriminate]. injection E as <-. set (P := fun z => rleb 0 ((if rltb (f a) 0 then 1 else -1) * f z)). destruct (dicho_up_cv a b P H) as (y & Hy). cbn [proj1_sig].
  exact (Ranalysis5.IVT_interv_prelim1 a b y P L Hy).
Qed.
Definition film_carbon : carbon := {| f_density := 1 / 2; f_porosity := 1 / 2; f_radius := 1 / 100; f_dw := 1; f_hrt := 1 |}.
Example film_met : let Bi := 1 / 100 * f_radius film_carbon / (1 / 10 ^ 10) / 50000 in let level := 1 / (1 + 50000 * (20 / 1000 / 1000 / f_density film_carbon)) in
  0 < f_density film_carbon /\ 0 < f_radius film_carbon /\ 1 + 1 / 10000 <= Bi /\ ~ film_root (1 - level) Bi ((PI / 2 + dec 1 6 + PI * dec 9999 4) / 2).
Proof.
  cbn [film_carbon f_radius f_density]. cbv zeta. repeat split; try lra. apply wide; lra.
Qed.
Example roots_met : 0 < 1 / 2 < 1 /\ 1 < 6 /\ (INR 10 + 2) * PI <= 900000 * (6 - 1) /\ (INR 10 + 2) * PI <= 1900 /\ ~ film_root (1 / 2) 6 ((PI / 2 + dec 1 6 + PI * dec 9999 4) / 2).
Proof. assert (P := PI_4). replace (INR 10) with 10 by (rewrite INR_IZR_INZ; reflexivity). repeat split; try lra. apply wide; lra. Qed.
Example twice_met : exists L, 0 < L < 1 /\ (INR 10 + 2) * PI <= 900000 * (2 - 1) /\ (INR 10 + 2) * PI <= 1900 /\ film_root L 2 ((PI / 2 + dec 1 6 + PI * dec 9999 4) / 2).
Proof.
  assert (HP := PI_RGT_0). assert (H3 := PI2_3_2). assert (H4 := PI_4). destruct small as (E1 & E2). change ((PI / 2 + dec 1 6 + PI * dec 9999 4) / 2) with halfway.
  assert (HW : 2 * (PI / 3) < halfway < PI) by (unfold halfway; rewrite span; lra). set (x := halfway) in *. clearbody x.
  assert (S : 0 < sin x) by (apply sin_gt_0; lra). assert (S1 := SIN_bound x). assert (C : cos x < - 1 / 2) by (rewrite <- cos_2PI3; apply cos_decreasing_1; lra).
  assert (SC : sin x + x * cos x < 0) by nra. assert (SX : x * cos x - sin x < 0) by nra. set (a := 6 * (sin x - x * cos x) / (x ^ 2 * (- (sin x + x * cos x)))).
  assert (HA : 0 < a) by (apply Rdiv_lt_0_compat; [lra|apply Rmult_lt_0_compat; nra]).
  exists (1 / (1 + a)). replace (INR 10) with 10 by (rewrite INR_IZR_INZ; reflexivity).
  split; [|split; [lra|split; [lra|]]].
  - split; [apply Rdiv_lt_0_compat; lra|]. apply (Rmult_lt_reg_r (1 + a)); [lra|]. unfold Rdiv. rewrite Rmult_assoc, Rinv_l by lra. lra.
  - split; [lra|]. replace ((1 - 1 / (1 + a)) / (1 / (1 + a))) with a by (field; lra). unfold a. field. split; [lra|lra].
Qed.
Example missed_met : exists L p roots, 0 < L < 1 /\ INR 2 * PI - PI / 2 < p < INR 2 * PI + PI / 2 /\
  3 + (1 - L) / L * (1 - 1 / (1 / 2)) * p ^ 2 = 0 /\ find_pn bracketing 10 L (1 / 2) = Ok roots.
Proof.
  assert (HP := PI_RGT_0). assert (H3 := PI2_3_2). assert (H4 := PI_4). set (a := 3 / (2 * PI) ^ 2). assert (HA : 0 < a) by (apply Rdiv_lt_0_compat; nra).
  set (L := 1 / (1 + a)). assert (EA : (1 - L) / L = a) by (unfold L; field; lra).
  assert (RA : forall x, 1 <= x - 2 * PI \/ x - 2 * PI <= - 1 -> 0 < x -> - 10 <= (3 - (1 - L) / L * x ^ 2 / (1 / 2)) / (3 + (1 - L) / L * (1 / 2 - 1) / (1 / 2) * x ^ 2) <= 10).
  { intros x Hx Px. rewrite EA. set (v := x ^ 2 - (2 * PI) ^ 2). assert (V : v <= - (2 * PI) \/ 2 * PI <= v) by (unfold v; nra).
    replace ((3 - a * x ^ 2 / (1 / 2)) / (3 + a * (1 / 2 - 1) / (1 / 2) * x ^ 2)) with (2 + (2 * PI) ^ 2 / v).
    2: { unfold a, v. field. split; [unfold v in V; nra|]. nra. }
    assert (Q : - 8 <= (2 * PI) ^ 2 / v <= 8); [|lra]. destruct V as [V|V].
    - assert (I : / v < 0) by (apply Rinv_lt_0_compat; lra). split; [|unfold Rdiv; nra].
      apply Ropp_le_cancel. replace (- ((2 * PI) ^ 2 / v)) with ((2 * PI) ^ 2 / - v) by (field; lra). apply (Rmult_le_reg_r (- v)); [lra|]. replace ((2 * PI) ^ 2 / - v * - v) with ((2 * PI) ^ 2) by (field; lra). nra.
    - assert (I : 0 < / v) by (apply Rinv_0_lt_compat; lra). split; [unfold Rdiv; nra|]. apply (Rmult_le_reg_r v); [lra|]. replace ((2 * PI) ^ 2 / v * v) with ((2 * PI) ^ 2) by (field; lra). nra. }
  assert (OKb : forall k, (1 <= k <= 11)%nat -> exists r, bracketing (hsdm_f L (1 / 2)) (lo k) (hi k) = Ok r).
  { intros k (K1 & K2). destruct small as (S1 & S2). destruct eps6_bounds as ((E1 & E2) & E3).
    assert (KI : INR k = 1 \/ INR k = 2 \/ 3 <= INR k).
    { destruct k as [|[|[|k]]]; [lia|left; reflexivity|right; left; cbn; ring|right; right]. rewrite !S_INR. assert (Z := pos_INR k). lra. }
    assert (KM : INR k <= 11) by (apply le_INR in K2; replace 11 with (INR 11) by (rewrite INR_IZR_INZ; reflexivity); exact K2).
    assert (EL : lo k - INR k * PI = - (PI / 2 - eps6)) by (unfold lo; ring).
    assert (EH : hi k - INR k * PI = PI / 2 - (PI / 10000 - eps6)) by (unfold hi, lo; rewrite span; field).
    assert (KP : PI <= INR k * PI <= 11 * PI) by nra.
    assert (FL : 0 < hsdm_f L (1 / 2) (lo k)).
    { unfold hsdm_f. assert (Q := RA (lo k) ltac:(destruct KI as [E|[E|E]]; [right|right|left]; nra) ltac:(lra)).
      rewrite (tan_period k) by (rewrite EL, cos_neg; apply Rgt_not_eq, cos_gt_0; lra). rewrite EL, tan_neg. assert (T := tan_large).
      assert (10 < tan (PI / 2 - eps6) / lo k); [|unfold Rdiv in *; lra]. apply (Rmult_lt_reg_r (lo k)); [lra|]. replace (tan (PI / 2 - eps6) / lo k * lo k) with (tan (PI / 2 - eps6)) by (field; lra). lra. }
    assert (FH : hsdm_f L (1 / 2) (hi k) < 0).
    { unfold hsdm_f. assert (Q := RA (hi k) ltac:(destruct KI as [E|[E|E]]; [right|left|left]; nra) ltac:(lra)).
      rewrite (tan_period k) by (rewrite EH; apply Rgt_not_eq, cos_gt_0; lra). rewrite EH. assert (T := tan_near (PI / 10000 - eps6) 1900 ltac:(lra) ltac:(lra)).
      assert (10 < tan (PI / 2 - (PI / 10000 - eps6)) / hi k); [|unfold Rdiv in *; lra]. apply (Rmult_lt_reg_r (hi k)); [lra|].
      replace (tan (PI / 2 - (PI / 10000 - eps6)) / hi k * hi k) with (tan (PI / 2 - (PI / 10000 - eps6))) by (field; lra). lra. }
    assert (LH := lo_hi k). unfold bracketing, rltb. destruct (Rlt_dec 0 (hsdm_f L (1 / 2) (lo k) * hsdm_f L (1 / 2) (hi k))); [nra|].
    unfold bisect, reqb. destruct (Req_EM_T (hsdm_f L (1 / 2) (lo k)) 0); [lra|]. destruct (Rle_dec (lo k) (hi k)); [|lra]. eexists. reflexivity. }
  assert (LOOP : forall n k roots, (k + n <= 11)%nat -> roots <> [] -> exists l, pn_loop bracketing n L (1 / 2) (lo k) roots = Ok l).
  { induction n as [|n IH]; intros k roots Hk N; [eexists; reflexivity|]. cbn [pn_loop]. destruct roots as [|r0 rs]; [contradiction|]. cbv zeta beta iota. rewrite lo_S. change (lo (S k) + PI * dec 9999 4) with (hi (S k)).
    destruct (OKb (S k) ltac:(lia)) as (r & ->). cbn [bind]. apply IH; [lia|discriminate]. }
  assert (FIND : forall n, (n <= 9)%nat -> exists l, find_pn bracketing (S n) L (1 / 2) = Ok l).
  { intros n Hn. unfold find_pn. fold eps6. cbn [pn_loop]. cbv zeta. rewrite <- lo_1. change (lo 1 + PI * dec 9999 4) with (hi 1).
    match goal with |- context [match ?l with [] => _ | _ :: _ => _ end] => destruct l as [|t0 ts] end.
    - change (lo 1 + PI * dec 9999 4) with (hi 1). destruct (OKb 1%nat ltac:(lia)) as (r & ->). cbn [bind app]. apply (LOOP n); [lia|discriminate].
    - rewrite lo_S. change (lo 2 + PI * dec 9999 4) with (hi 2). destruct (OKb 2%nat ltac:(lia)) as (r & ->). cbn [bind]. apply (LOOP n); [lia|discriminate]. }
  destruct (FIND 9%nat (le_n 9)) as (roots & E). exists L, (2 * PI), roots. split.
  - unfold L. split; [apply Rdiv_lt_0_compat; lra|]. apply (Rmult_lt_reg_r (1 + a)); [lra|]. unfold Rdiv. rewrite Rmult_assoc, Rinv_l by lra. lra.
  - split; [replace (INR 2) with 2 by (cbn; ring); lra|]. split; [rewrite EA; unfold a; field; lra|exact E].
Qed.
(** With another compound alone there is a curve. *)
Example others_met : exists y, hsdm_all bracketing film_carbon 20 [({| K := 1; xn := 1; kf := 1 / 100; Dp := 1; Ds := 1 / 10 ^ 10; C0 := 1; C0_units := "ug"%string |}, 50000)] 60 = Some y.
Proof.
  destruct film_met as (H1 & H2 & H3 & H4). destruct (C170_curve_partial bracketing film_carbon 20 50000 (1 / 100) (1 / 10 ^ 10) brackets_met H1 ltac:(lra) ltac:(lra) H2 ltac:(lra) ltac:(lra) H3 H4) as (F & E & _).
  cbn [hsdm_all kf Ds]. rewrite E. eexists. reflexivity.
Qed.
Print Assumptions C170_roots_partial.
Print Assumptions C170_twice_refuted.
Print Assumptions C170_curve_partial.
Print Assumptions C170_model_partial.
Print Assumptions C170_start_refuted.
Print Assumptions C170_missed_refuted.
Print Assumptions C170_others_refuted.
