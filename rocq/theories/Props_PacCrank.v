(** C169 — Crank's reference curve of the powdered-carbon contactor. *)
From Coq Require Import Reals List Sorted Lia Lra String.
From Verif Require Import Lib_Py Lib_Sum Lib_Traj M_Pac M_PacCrank S_PacCrank P_PacCrank Props_Pac.
Import ListNotations.
Open Scope R_scope.
Local Notation length := List.length.

Section Found.
Variables (A : R) (HA : 0 <= A).
Lemma found_in n : forall roots a, Forall2 (at_index A) (seq a n) roots -> (1 <= a)%nat ->
  forall x, In x roots -> crank_root A x /\ INR a * PI < x < INR (a + n) * PI.
Proof.
  assert (HP := PI_RGT_0). induction n as [|n IH]; intros roots a F Ha x I; inversion F as [|? r ? rs Hr F']; subst; [destruct I|]. rewrite plus_INR, S_INR.
  assert (N := pos_INR n). destruct I as [<- | I].
  - destruct Hr as (Hr & L). split; [exact Hr|]. split; [lra|]. assert (0 <= INR n * PI) by (apply Rmult_le_pos; lra). lra.
  - destruct (IH rs (S a) F' ltac:(lia) x I) as (Hx & L). split; [exact Hx|]. rewrite plus_INR, S_INR in L. lra.
Qed.
Lemma found_sorted n : forall roots a, Forall2 (at_index A) (seq a n) roots -> (1 <= a)%nat -> StronglySorted Rlt roots.
Proof.
  assert (HP := PI_RGT_0). induction n as [|n IH]; intros roots a F Ha; inversion F as [|? r ? rs Hr F']; subst; constructor.
  - apply (IH rs (S a) F'). lia.
  - apply Forall_forall. intros x I. destruct (found_in n rs (S a) F' ltac:(lia) x I) as (_ & L). rewrite S_INR in L. destruct Hr as (_ & Hr). lra.
Qed.
Lemma found_all n : forall roots a, Forall2 (at_index A) (seq a n) roots -> forall k, (a <= k < a + n)%nat -> exists x, In x roots /\ at_index A k x.
Proof.
  induction n as [|n IH]; intros roots a F k Hk; [lia|]. inversion F as [|? r ? rs Hr F']; subst. destruct (Nat.eq_dec k a) as [->|N].
  - exists r. split; [left; reflexivity|exact Hr].
  - destruct (IH rs (S a) F' k ltac:(lia)) as (x & I & Hx). exists x. split; [right; exact I|exact Hx].
Qed.
Lemma found_apart n roots : Forall2 (at_index A) (seq 1 n) roots -> Forall (fun q => crank_root A q) roots /\ apart roots.
Proof.
  intros F. assert (I := found_in n roots 1 F (le_n 1)). assert (S := found_sorted n roots 1 F (le_n 1)). split.
  - apply Forall_forall. intros x Hx. apply (I x Hx).
  - assert (P : Forall (fun q => 0 < q) roots) by (apply Forall_forall; intros x Hx; apply (proj1 (I x Hx))). clear I F.
    induction S as [|q l S IH L]; constructor; [|apply IH; inversion P; assumption]. inversion P as [|? ? Pq Pl]; subst. apply Forall_forall. intros x Hx.
    rewrite Forall_forall in L. specialize (L x Hx). nra.
Qed.
End Found.

(** The roots used are exactly the positive solutions of the characteristic equation below
    (n + 1) pi, in increasing order.  286000 roots are far more than the 500 used. *)
Theorem C169_roots_partial : forall brentq n A, finds_roots brentq -> 0 <= A -> (INR n + 1) * PI <= 900000 ->
  exists roots, find_qn brentq n A = Ok roots /\ length roots = n /\ StronglySorted Rlt roots /\
    forall x, In x roots <-> crank_root A x /\ x < (INR n + 1) * PI.
Proof.
  intros brentq n A HB HA L. destruct (find_found brentq HB A HA n L) as (roots & E & F). exists roots. split; [exact E|].
  split; [rewrite <- (Forall2_len _ _ _ F); apply seq_length|]. split; [exact (found_sorted A n roots 1 F (le_n 1))|]. intros x. split.
  - intros I. destruct (found_in A n roots 1 F (le_n 1) x I) as (Hx & Lx). split; [exact Hx|]. rewrite plus_INR in Lx. cbn [INR] in Lx. lra.
  - intros (Hx & Lx). assert (HP := PI_RGT_0). destruct (root_where A x HA Hx) as (k & Hk & Kx).
    assert (Kn : (k < 1 + n)%nat).
    { apply INR_lt. rewrite plus_INR. cbn [INR]. apply (Rmult_lt_reg_r PI); [exact HP|]. lra. }
    destruct (found_all A n roots 1 F k ltac:(lia)) as (y & I & (Hy & Ky)). replace x with y; [exact I|]. apply (root_unique A k); assumption.
Qed.

(** ** The curve *)
Lemma derivable_lsum {X} (l : list X) (f f' : X -> R -> R) t : (forall q, In q l -> derivable_pt_lim (f q) t (f' q t)) ->
  derivable_pt_lim (fun s => lsum (map (fun q => f q s) l)) t (lsum (map (fun q => f' q t) l)).
Proof.
  induction l as [|q l IH]; intros H; unfold lsum in *; cbn [map fold_right].
  - apply derivable_pt_lim_const.
  - apply (derivable_pt_lim_plus (f q) (fun s => fold_right Rplus 0 (map (fun q => f q s) l))); [apply H; left; reflexivity|].
    apply IH. intros p Hp. apply H. right. exact Hp.
Qed.
Lemma sin_le x : 0 < x -> Rabs (sin x) <= x.
Proof.
  intros Hx. assert (S1 := sin_lt_x x Hx). assert (P := PI2_3_2). destruct (Rle_lt_dec x 1) as [L|L].
  - assert (0 <= sin x) by (apply sin_ge_0; lra). rewrite Rabs_right; lra.
  - assert (B := SIN_bound x). apply Rabs_le. lra.
Qed.
Lemma lsum_strict {X} (l : list X) f g : l <> [] -> (forall q, In q l -> f q < g q) -> lsum (map f l) < lsum (map g l).
Proof.
  intros N H. destruct l as [|q l]; [contradiction N; reflexivity|]. clear N. unfold lsum. revert q H. induction l as [|p l IH]; intros q H; cbn [map fold_right].
  - specialize (H q (or_introl eq_refl)). lra.
  - assert (A := H q (or_introl eq_refl)). assert (B := IH p (fun x I => H x (or_intror I))). cbn [map fold_right] in B. lra.
Qed.
Lemma deriv_scal_eq k f t l m : derivable_pt_lim f t l -> m = k * l -> derivable_pt_lim (fun s => k * f s) t m.
Proof. intros D ->. exact (derivable_pt_lim_scal f k t l D). Qed.
Lemma deriv_exp_lin k t : derivable_pt_lim (fun s => exp (k * s)) t (k * exp (k * t)).
Proof.
  assert (D := derivable_pt_lim_comp (fun x => k * x) exp t k (exp (k * t))). rewrite Rmult_comm. apply D; [|apply derivable_pt_lim_exp].
  assert (E := derivable_pt_lim_scal id k t 1 (derivable_pt_lim_id t)). rewrite Rmult_1_r in E. exact E.
Qed.

Section Curve.
Variables (D ra Kd V : R).
Hypotheses (HD : 0 < D) (Hra : 0 < ra) (HK : 0 < Kd) (HV : 0 < V).
Notation A := (1 / V / Kd).
Lemma A_pos : 0 < A.
Proof. repeat apply Rdiv_lt_0_compat; lra. Qed.
Variable roots : list R.
Hypothesis Hroots : Forall (fun q => crank_root A q) roots.
Notation dep := (1 / (1 + A)).
Definition decay (q t : R) : R := exp (- D * t * q ^ 2 / ra ^ 2).
Definition curve (t : R) : R := 1 - dep * (1 - lsum (map (fun q => 6 * A * (A + 1) * decay q t / (9 + 9 * A + q ^ 2 * A ^ 2)) roots)).
Notation level := (1 / (1 + Kd * V)).
Lemma level_eq : 1 - dep = level.
Proof. assert (0 < Kd * V) by nra. field. repeat split; try lra; nra. Qed.
Lemma dep_pos : 0 < dep.
Proof. assert (P := A_pos). apply Rdiv_lt_0_compat; lra. Qed.
Lemma curve_eq t : curve t = level + dep * lsum (map (fun q => share A q * decay q t) roots).
Proof.
  unfold curve. rewrite <- level_eq. replace (lsum (map (fun q => 6 * A * (A + 1) * decay q t / (9 + 9 * A + q ^ 2 * A ^ 2)) roots)) with (lsum (map (fun q => share A q * decay q t) roots)); [ring|].
  apply lsum_map_ext. intros q _. unfold share, Rdiv. ring.
Qed.
Lemma decay_rate q t : decay q t = exp (- (D * q ^ 2 / ra ^ 2) * t).
Proof. unfold decay. f_equal. unfold Rdiv. ring. Qed.
Lemma rate_pos q : crank_root A q -> 0 < D * q ^ 2 / ra ^ 2.
Proof. intros (P & _). apply Rdiv_lt_0_compat; [|nra]. apply Rmult_lt_0_compat; [exact HD|nra]. Qed.
Lemma curve_falls t s : roots <> [] -> t < s -> curve s < curve t.
Proof.
  intros N L. rewrite !curve_eq. apply Rplus_lt_compat_l, Rmult_lt_compat_l; [exact dep_pos|]. apply lsum_strict; [exact N|]. intros q I.
  rewrite Forall_forall in Hroots. assert (P := rate_pos q (Hroots q I)). apply Rmult_lt_compat_l; [apply share_pos, A_pos|].
  rewrite !decay_rate. apply exp_increasing. nra.
Qed.
Lemma curve_above t : roots <> [] -> level < curve t.
Proof.
  intros N. rewrite curve_eq. assert (0 < lsum (map (fun q => share A q * decay q t) roots)); [|assert (P := dep_pos); nra].
  apply Rle_lt_trans with (lsum (map (fun _ : R => 0) roots)).
  - clear. induction roots as [|q l IH]; unfold lsum in *; cbn [map fold_right]; lra.
  - apply lsum_strict; [exact N|]. intros q _. apply Rmult_lt_0_compat; [apply share_pos, A_pos|apply exp_pos].
Qed.
Lemma curve_limit e : 0 < e -> exists T, forall t, T <= t -> curve t < level + e.
Proof.
  intros He. assert (W : forall l, Forall (fun q => crank_root A q) l -> forall e, 0 < e -> exists T, forall t, T <= t -> lsum (map (fun q => share A q * decay q t) l) < e).
  { clear Hroots. induction 1 as [|q l Hq _ IH]; intros d Hd.
    - exists 0. intros t _. unfold lsum. cbn. exact Hd.
    - destruct (IH (d / 2) ltac:(lra)) as (T & HT). assert (P := rate_pos q Hq). assert (S := share_pos A A_pos q). set (k := D * q ^ 2 / ra ^ 2) in *.
      assert (R1 : 0 < 2 * share A q / d) by (apply Rdiv_lt_0_compat; lra).
      exists (Rmax T ((ln (2 * share A q / d) + 1) / k)). intros t Ht. assert (M1 := Rmax_l T ((ln (2 * share A q / d) + 1) / k)). assert (M2 := Rmax_r T ((ln (2 * share A q / d) + 1) / k)).
      unfold lsum in *. cbn [map fold_right]. specialize (HT t ltac:(lra)). assert (Q : share A q * decay q t < d / 2); [|lra].
      rewrite decay_rate. fold k. assert (Kt : ln (2 * share A q / d) < k * t).
      { assert (k * ((ln (2 * share A q / d) + 1) / k) <= k * t) by (apply Rmult_le_compat_l; lra). replace (k * ((ln (2 * share A q / d) + 1) / k)) with (ln (2 * share A q / d) + 1) in H by (field; lra). lra. }
      apply exp_increasing in Kt. rewrite exp_ln in Kt by exact R1. replace (- k * t) with (- (k * t)) by ring. rewrite exp_Ropp.
      assert (EP := exp_pos (k * t)). apply (Rmult_lt_reg_r (exp (k * t))); [exact EP|]. rewrite Rmult_assoc, Rinv_l by lra. rewrite Rmult_1_r.
      apply (Rmult_lt_compat_r (d / 2)) in Kt; [|lra]. replace (2 * share A q / d * (d / 2)) with (share A q) in Kt by (field; lra). lra. }
  assert (P := dep_pos). destruct (W roots Hroots (e / dep) ltac:(apply Rdiv_lt_0_compat; lra)) as (T & HT). exists T. intros t Ht. rewrite curve_eq. specialize (HT t Ht).
  apply Rplus_lt_compat_l. apply (Rmult_lt_compat_l dep) in HT; [|exact P]. assert (Q : dep * (e / dep) = e) by (revert P; generalize dep; intros x P; field; lra). rewrite Q in HT. exact HT.
Qed.
(** the profile in the spheres *)
Definition amp (q t : R) : R := dep * (share A q * decay q t) * (ra / sin q).
Definition pu (q r t : R) : R := amp q t * (sin (q / ra * r) / r).
Definition pur (q r t : R) : R := amp q t * ((q / ra * r * cos (q / ra * r) - sin (q / ra * r)) / r ^ 2).
Definition purr (q r t : R) : R := - (q / ra) ^ 2 * pu q r t - 2 / r * pur q r t.
Definition put (q r t : R) : R := - (D * q ^ 2 / ra ^ 2) * pu q r t.
Lemma pu_r q r t : 0 < r -> derivable_pt_lim (fun s => pu q s t) r (pur q r t).
Proof.
  intros Hr. unfold pu, pur. set (k := q / ra). apply (deriv_scal_eq _ _ _ _ _ (derivable_pt_lim_div _ _ r _ _ (deriv_sin k r) (derivable_pt_lim_id r) ltac:(unfold id; lra))).
  unfold id, Rsqr. f_equal. field. lra.
Qed.
Lemma pur_r q r t : 0 < r -> derivable_pt_lim (fun s => pur q s t) r (purr q r t).
Proof.
  intros Hr. unfold purr, pur, pu. set (k := q / ra).
  assert (Dk : derivable_pt_lim (fun x => k * x) r k) by (assert (E := derivable_pt_lim_scal id k r 1 (derivable_pt_lim_id r)); rewrite Rmult_1_r in E; exact E).
  assert (Ds : derivable_pt_lim (fun x => x ^ 2) r (2 * r)) by (assert (E := derivable_pt_lim_pow r 2); cbn in E |- *; replace (2 * r) with ((1 + 1) * (r * 1)) by ring; exact E).
  apply (deriv_scal_eq _ _ _ _ _ (derivable_pt_lim_div _ _ r _ _ (derivable_pt_lim_minus _ _ r _ _ (derivable_pt_lim_mult _ _ r _ _ Dk (deriv_cos k r)) (deriv_sin k r)) Ds ltac:(cbv beta; nra))).
  unfold minus_fct, mult_fct, Rsqr. field. lra.
Qed.
Lemma pu_t q r t : derivable_pt_lim (fun s => pu q r s) t (put q r t).
Proof.
  unfold put, pu, amp. set (k := - (D * q ^ 2 / ra ^ 2)). set (m := dep * share A q * (ra / sin q) * (sin (q / ra * r) / r)).
  assert (E : derivable_pt_lim (fun s => m * exp (k * s)) t (m * (k * exp (k * t)))) by (apply (deriv_scal_eq _ _ _ _ _ (deriv_exp_lin k t)); reflexivity).
  intros e He. destruct (E e He) as (d & Hd). exists d. intros h H1 H2. specialize (Hd h H1 H2). rewrite !decay_rate. fold k.
  match goal with |- Rabs ?x < _ => match type of Hd with Rabs ?y < _ => replace x with y by (unfold m; unfold Rdiv; ring) end end. exact Hd.
Qed.
Lemma pu_diffuses q r t : 0 < r -> put q r t = D * (purr q r t + 2 / r * pur q r t).
Proof. intros Hr. unfold put, purr. field. lra. Qed.
Lemma pu_surface q t : crank_root A q -> pu q ra t = dep * (share A q * decay q t).
Proof.
  intros H. unfold pu, amp. assert (S := root_sin A q H). replace (q / ra * ra) with q by (field; lra). set (w := dep * (share A q * decay q t)). field. split; [lra|exact S].
Qed.
Lemma pu_leaves q t : crank_root A q -> put q ra t = - (3 * V / ra * (D * (Kd * pur q ra t))).
Proof.
  intros H. unfold put, pur, pu. assert (S := root_sin A q H). assert (E := root_cos A q H). replace (q / ra * ra) with q by (field; lra). rewrite E.
  set (w := amp q t). field. lra.
Qed.
Lemma curve_diffuses : bath_of_spheres D ra Kd V curve.
Proof.
  assert (G : forall l, Forall (fun q => crank_root A q) l -> forall q, In q l -> crank_root A q) by (intros l F; apply Forall_forall, F). specialize (G roots Hroots).
  exists (fun r t => level + lsum (map (fun q => pu q r t) roots)), (fun r t => 0 + lsum (map (fun q => pur q r t) roots)), (fun r t => lsum (map (fun q => purr q r t) roots)), (fun r t => 0 + lsum (map (fun q => put q r t) roots)).
  split; [|split; [|split]].
  - intros r t Hr. split; [|split; [|split]].
    + apply (derivable_pt_lim_plus (fun _ => level) (fun s => lsum (map (fun q => pu q s t) roots))); [apply derivable_pt_lim_const|].
      apply (derivable_lsum roots (fun q s => pu q s t) (fun q s => pur q s t)). intros q _. apply pu_r, Hr.
    + replace (lsum (map (fun q => purr q r t) roots)) with (0 + lsum (map (fun q => purr q r t) roots)) by ring.
      apply (derivable_pt_lim_plus (fun _ => 0) (fun s => lsum (map (fun q => pur q s t) roots))); [apply derivable_pt_lim_const|].
      apply (derivable_lsum roots (fun q s => pur q s t) (fun q s => purr q s t)). intros q _. apply pur_r, Hr.
    + apply (derivable_pt_lim_plus (fun _ => level) (fun s => lsum (map (fun q => pu q r s) roots))); [apply derivable_pt_lim_const|].
      apply (derivable_lsum roots (fun q s => pu q r s) (fun q s => put q r s)). intros q _. apply pu_t.
    + clear G. induction roots as [|q l IH]; unfold lsum in *; cbn [map fold_right]; [ring|]. rewrite (pu_diffuses q r t Hr).
      inversion Hroots; subst. specialize (IH ltac:(assumption)). lra.
  - intros t. exists (Rabs level + lsum (map (fun q => Rabs (amp q t) * (q / ra)) roots)). intros r Hr. eapply Rle_trans; [apply Rabs_triang|]. apply Rplus_le_compat_l.
    clear - G Hr Hra. induction roots as [|q l IH]; unfold lsum in *; cbn [map fold_right]; [rewrite Rabs_R0; lra|]. eapply Rle_trans; [apply Rabs_triang|].
    apply Rplus_le_compat; [|apply IH; intros p Hp; apply G; right; exact Hp]. unfold pu. rewrite Rabs_mult. apply Rmult_le_compat_l; [apply Rabs_pos|].
    assert (P : 0 < q / ra) by (apply Rdiv_lt_0_compat; [apply (G q (or_introl eq_refl))|lra]). unfold Rdiv at 1. rewrite Rabs_mult, (Rabs_right (/ r)) by (left; apply Rinv_0_lt_compat; lra).
    apply (Rmult_le_reg_r r); [lra|]. rewrite Rmult_assoc, Rinv_l by lra. rewrite Rmult_1_r. apply sin_le. apply Rmult_lt_0_compat; lra.
  - intros t. rewrite curve_eq. f_equal. clear - G Hra. induction roots as [|q l IH]; unfold lsum in *; cbn [map fold_right]; [ring|]. rewrite IH by (intros p Hp; apply G; right; exact Hp).
    rewrite (pu_surface q t (G q (or_introl eq_refl))). ring.
  - intros t. assert (DD : derivable_pt_lim (fun s => level + lsum (map (fun q => pu q ra s) roots)) t (0 + lsum (map (fun q => put q ra t) roots))).
    { apply (derivable_pt_lim_plus (fun _ => level) (fun s => lsum (map (fun q => pu q ra s) roots))); [apply derivable_pt_lim_const|].
      apply (derivable_lsum roots (fun q s => pu q ra s) (fun q s => put q ra s)). intros q _. apply pu_t. }
    replace (- (3 * V / ra * (D * (Kd * (0 + lsum (map (fun q => pur q ra t) roots)))))) with (0 + lsum (map (fun q => put q ra t) roots)).
    + intros e He. destruct (DD e He) as (d & Hd). exists d. intros h H1 H2. specialize (Hd h H1 H2). rewrite !curve_eq.
      replace (dep * lsum (map (fun q => share A q * decay q (t + h)) roots)) with (lsum (map (fun q => pu q ra (t + h)) roots)); [replace (dep * lsum (map (fun q => share A q * decay q t) roots)) with (lsum (map (fun q => pu q ra t) roots)); [exact Hd|]|].
      all: clear - G Hra; induction roots as [|q l IH]; unfold lsum in *; cbn [map fold_right]; [ring|]; rewrite IH by (intros p Hp; apply G; right; exact Hp); rewrite (pu_surface q _ (G q (or_introl eq_refl))); ring.
    + clear - G Hra HK HV. induction roots as [|q l IH]; unfold lsum in *; cbn [map fold_right]; [ring|]. rewrite (pu_leaves q t (G q (or_introl eq_refl))).
      specialize (IH (fun p Hp => G p (or_intror Hp))). lra.
Qed.
End Curve.

(** ** The curve the object returns *)
Section Object.
Variables (brentq : (R -> R) -> R -> R -> res R) (HB : finds_roots brentq).
Variables (f : carbon) (dosage Kd Ds Dp : R).
Definition volume_of_carbon : R := dosage / 1000 / 1000 / f_density f.
Definition diffusivity : R := Ds + f_porosity f * Dp / (f_density f * 1000 * Kd).
Hypotheses (Hdens : 0 < f_density f) (Hdose : 0 < dosage) (HKd : 0 < Kd) (Hradius : 0 < f_radius f) (HDeff : 0 < diffusivity).
Notation A := (1 / volume_of_carbon / Kd).
Lemma volume_pos : 0 < volume_of_carbon.
Proof. unfold volume_of_carbon. repeat apply Rdiv_lt_0_compat; lra. Qed.
Lemma many : forall n, (n <= 501)%nat -> (INR n + 1) * PI <= 900000.
Proof.
  intros n Hn. apply le_INR in Hn. replace (INR 501) with 501 in Hn by (rewrite INR_IZR_INZ; reflexivity). assert (P := PI_4). assert (0 < PI) by exact PI_RGT_0.
  apply Rle_trans with (502 * 4); [|lra]. apply Rmult_le_compat; try lra. assert (Z := pos_INR n). lra.
Qed.
Lemma crank_curve : exists roots, find_qn brentq 500 A = Ok roots /\ Forall2 (at_index A) (seq 1 500) roots /\
  forall t, crank brentq f dosage Kd Ds Dp t = Ok (curve diffusivity (f_radius f) Kd volume_of_carbon roots t).
Proof.
  assert (HA := A_pos Kd volume_of_carbon HKd volume_pos). destruct (find_found brentq HB A ltac:(lra) 500 (many 500 ltac:(lia))) as (roots & E & F).
  exists roots. split; [exact E|]. split; [exact F|]. intros t. unfold crank, finiteSphere.
  replace (dosage / (f_density f * 10 ^ 6)) with volume_of_carbon by (unfold volume_of_carbon; field; lra). cbv zeta. rewrite E. reflexivity.
Qed.
Lemma roots_ne roots : Forall2 (at_index A) (seq 1 500) roots -> roots <> [].
Proof. intros F ->. apply Forall2_len in F. discriminate F. Qed.
Lemma curve_start roots : Forall2 (at_index A) (seq 1 500) roots -> curve diffusivity (f_radius f) Kd volume_of_carbon roots 0 < 1.
Proof.
  intros F. assert (HV := volume_pos). assert (HA := A_pos Kd volume_of_carbon HKd HV). destruct (find_found brentq HB A ltac:(lra) 501 (many 501 ltac:(lia))) as (more & _ & F').
  assert (S501 : (seq 1 501 = seq 1 500 ++ [501%nat])%list) by (apply (seq_app 500 1 1)). rewrite S501 in F'.
  apply Forall2_app_inv_l in F' as (m1 & m2 & F1 & F2 & ->).
  assert (SAME : m1 = roots).
  { assert (HP := PI_RGT_0). clear - F F1 HA HKd HV. revert m1 F1 F. generalize (seq 1 500). intros ks. revert roots. induction ks as [|k ks IH]; intros roots m1 F1 F; inversion F1; inversion F; subst; [reflexivity|].
    f_equal; [|apply IH; assumption]. repeat match goal with H : at_index _ _ _ |- _ => destruct H end. apply (root_unique A k); solve [assumption|lra]. }
  subst m1. inversion F2 as [|? x ? e X E2]; subst. inversion E2; subst. clear F2 E2.
  assert (FA : Forall2 (at_index A) (seq 1 501) (roots ++ [x])) by (rewrite S501; apply Forall2_app; [exact F|constructor; [exact X|constructor]]).
  destruct (found_apart A 501 _ FA) as (R1 & R2). assert (BE := bessel A HA (roots ++ [x]) R1 R2). rewrite map_app in BE.
  assert (LA : forall l y, lsum (l ++ [y])%list = lsum l + y) by (intros l y; induction l as [|z l IHl]; cbn in *; [ring|rewrite IHl; ring]).
  cbn [map] in BE. rewrite LA in BE. assert (SP := share_pos A HA x).
  rewrite curve_eq by (lra || assumption). assert (ML : lsum (map (fun q => share A q * decay diffusivity (f_radius f) q 0) roots) = lsum (map (share A) roots)).
  { apply lsum_map_ext. intros q _. unfold decay. replace (- diffusivity * 0 * q ^ 2 / f_radius f ^ 2) with 0 by (unfold Rdiv; ring). rewrite exp_0. ring. }
  rewrite ML. rewrite <- (level_eq Kd volume_of_carbon HKd HV). assert (DP := dep_pos Kd volume_of_carbon HKd HV).
  assert (Q : lsum (map (share A) roots) < 1) by lra. apply (Rmult_lt_compat_l (1 / (1 + A))) in Q; [|exact DP]. lra.
Qed.
End Object.

(** The curve exists for every contactor, falls all the time, and comes as near as wanted to
    the share of the compound that stays in the water when the carbon, with the distribution coefficient given,
    is in equilibrium with it. *)
Theorem C169_curve_partial : forall brentq f dosage Kd Ds Dp, finds_roots brentq ->
  0 < f_density f -> 0 < dosage -> 0 < Kd -> 0 < f_radius f -> 0 < Ds + f_porosity f * Dp / (f_density f * 1000 * Kd) ->
  let level := 1 / (1 + Kd * (dosage / 1000 / 1000 / f_density f)) in
  exists F, (forall t, crank brentq f dosage Kd Ds Dp t = Ok (F t)) /\
    (forall t s, t < s -> F s < F t) /\ (forall t, level < F t) /\ (forall t, 0 <= t -> F t < 1) /\
    (forall e, 0 < e -> exists T, forall t, T <= t -> F t < level + e).
Proof.
  intros brentq f dosage Kd Ds Dp HB H1 H2 H3 H4 H5 level. destruct (crank_curve brentq HB f dosage Kd Ds Dp H1 H2 H3) as (roots & _ & F & E).
  assert (HV := volume_pos f dosage H1 H2). assert (HR := found_apart _ _ _ F). destruct HR as (HR & _). assert (NE := roots_ne f dosage Kd roots F).
  exists (curve (diffusivity f Kd Ds Dp) (f_radius f) Kd (volume_of_carbon f dosage) roots). split; [exact E|].
  assert (FALL : forall t s, t < s -> curve (diffusivity f Kd Ds Dp) (f_radius f) Kd (volume_of_carbon f dosage) roots s < curve (diffusivity f Kd Ds Dp) (f_radius f) Kd (volume_of_carbon f dosage) roots t)
    by (intros t s L; apply curve_falls; assumption).
  split; [exact FALL|]. split; [intros t; apply curve_above; assumption|]. split.
  - intros t Ht. assert (S0 := curve_start brentq HB f dosage Kd Ds Dp H1 H2 H3 roots F). destruct Ht as [Ht| <-]; [|exact S0]. specialize (FALL 0 t Ht). lra.
  - intros e He. apply curve_limit; assumption.
Qed.
(** It is a solution of the diffusion model it is named after. *)
Theorem C169_model_partial : forall brentq f dosage Kd Ds Dp, finds_roots brentq ->
  0 < f_density f -> 0 < dosage -> 0 < Kd -> 0 < f_radius f -> 0 < Ds + f_porosity f * Dp / (f_density f * 1000 * Kd) ->
  exists F, (forall t, crank brentq f dosage Kd Ds Dp t = Ok (F t)) /\
    bath_of_spheres (Ds + f_porosity f * Dp / (f_density f * 1000 * Kd)) (f_radius f) Kd (dosage / 1000 / 1000 / f_density f) F.
Proof.
  intros brentq f dosage Kd Ds Dp HB H1 H2 H3 H4 H5. destruct (crank_curve brentq HB f dosage Kd Ds Dp H1 H2 H3) as (roots & _ & F & E).
  assert (HV := volume_pos f dosage H1 H2). destruct (found_apart _ _ _ F) as (HR & _). eexists. split; [exact E|]. apply curve_diffuses; assumption.
Qed.
(** But it does not start from the concentration of the influent: the series is cut off. *)
Theorem C169_start_refuted : forall brentq f dosage Kd Ds Dp, finds_roots brentq ->
  0 < f_density f -> 0 < dosage -> 0 < Kd -> 0 < f_radius f -> 0 < Ds + f_porosity f * Dp / (f_density f * 1000 * Kd) ->
  crank brentq f dosage Kd Ds Dp 0 <> Ok 1.
Proof.
  intros brentq f dosage Kd Ds Dp HB H1 H2 H3 H4 H5. destruct (C169_curve_partial brentq f dosage Kd Ds Dp HB H1 H2 H3 H4 H5) as (F & E & _ & _ & S & _). rewrite E. specialize (S 0 ltac:(lra)). intros X. injection X as X. lra.
Qed.
(** And with the distribution coefficient taken from the end of a run of the model, it stays
    above the concentration that run ends with. *)
Theorem C169_level_refuted : forall brentq nc B W f dosage c T C Y F, finds_roots brentq ->
  follows nc B W (eqn_of f (eps_of f dosage) c) 0 T C Y -> C 0 = 1 -> (forall i, (i < nc)%nat -> Y i 0 = 0) ->
  (1 <= nc)%nat -> W (nc - 1)%nat <> 0 -> 0 < T -> 0 < C T -> 0 < rsum nc (fun i => W i * Y i T) ->
  0 < f_density f -> 0 < dosage < f_dw f * 10 ^ 6 -> f_dw f <= 1 -> 0 < f_radius f ->
  let Kd := Kd_of f nc W (fun i => Y i T) (C T) in
  0 < Ds c + f_porosity f * Dp c / (f_density f * 1000 * Kd) ->
  (forall t, crank brentq f dosage Kd (Ds c) (Dp c) t = Ok (F t)) ->
  exists gap, 0 < gap /\ forall t, C T + gap < F t.
Proof.
  intros brentq nc B W f dosage c T C Y F HB FO C0 Y0 N HW HT CT MT Hd Hdose Hw Hr Kd HD E.
  assert (HK : 0 < Kd) by (unfold Kd, Kd_of; apply Rmult_lt_0_compat; [apply Rdiv_lt_0_compat; lra|exact Hd]).
  destruct (C169_curve_partial brentq f dosage Kd (Ds c) (Dp c) HB Hd ltac:(lra) HK Hr HD) as (F' & E' & _ & AB & _). set (level := 1 / (1 + Kd * (dosage / 1000 / 1000 / f_density f))) in *.
  exists (level - C T). assert (LV : C T < level); [|split; [lra|intros t; specialize (AB t); assert (EE := E' t); rewrite (E t) in EE; injection EE as EE; lra]].
  set (q := eqn_of f (eps_of f dosage) c) in *. assert (QE : q_E q = 1 - dosage / (f_dw f * 10 ^ 6)) by reflexivity.
  assert (X : 0 < dosage / (f_dw f * 10 ^ 6) < 1). { split; [apply Rdiv_lt_0_compat; lra|]. apply (Rmult_lt_reg_r (f_dw f * 10 ^ 6)); [lra|]. unfold Rdiv. rewrite Rmult_assoc, Rinv_l by lra. lra. }
  assert (CO := C55_conservation nc B W q 0 T C Y FO N HW ltac:(lra) ltac:(cbn; lra) T ltac:(lra)). unfold content, bead_mean in CO.
  assert (Z : rsum nc (fun i => W i * Y i 0) = 0) by (apply rsum_zero; intros i Hi; rewrite (Y0 i Hi); ring). rewrite Z, C0, QE in CO.
  set (m := rsum nc (fun i => W i * Y i T)) in *. set (x := dosage / (f_dw f * 10 ^ 6)) in *.
  assert (KV : Kd * (dosage / 1000 / 1000 / f_density f) = 3 * m / C T * (dosage / 10 ^ 6)) by (unfold Kd, Kd_of; fold m; field; lra).
  unfold level. rewrite KV. assert (DX : dosage / 10 ^ 6 = x * f_dw f) by (unfold x; field; nra). rewrite DX.
  assert (P : 0 < 3 * m / C T) by (apply Rdiv_lt_0_compat; lra). assert (W0 : 0 < f_dw f) by nra.
  assert (P2 : 0 < 3 * m / C T * (x * f_dw f)) by (apply Rmult_lt_0_compat; [exact P|nra]).
  apply (Rmult_lt_reg_r (1 + 3 * m / C T * (x * f_dw f))); [lra|]. replace (1 / (1 + 3 * m / C T * (x * f_dw f)) * (1 + 3 * m / C T * (x * f_dw f))) with 1 by (revert P2; generalize (3 * m / C T * (x * f_dw f)); intros z P2; field; lra).
  replace (C T * (1 + 3 * m / C T * (x * f_dw f))) with (C T + 3 * m * (x * f_dw f)) by (field; lra). assert (3 * m * (x * f_dw f) <= 3 * m * x) by (apply Rmult_le_compat_l; nra).
  assert ((1 - x) * (C T + 3 * m * x) < (1 - x) * 1); [|nra]. assert (MX : 0 < m * x) by nra. assert (0 < x * (m * x)) by nra. nra.
Qed.

(** ** The hypotheses are met *)
(** A root finder: bisection, carried to its limit. *)
Definition bisect (f : R -> R) (a b : R) : res R :=
  if reqb (f a) 0 then Ok a else
  match Rle_dec a b with
  | left H => Ok (proj1_sig (dicho_up_cv a b (fun z => rleb 0 ((if rltb (f a) 0 then 1 else -1) * f z)) H))
  | right _ => Err ValueError
  end.
Lemma rleb_true_le x : rleb 0 x = true -> 0 <= x.
Proof. unfold rleb. destruct (Rle_dec 0 x); [auto|discriminate]. Qed.
Lemma rleb_false_le x : rleb 0 x = false -> x <= 0.
Proof. unfold rleb. destruct (Rle_dec 0 x); [discriminate|lra]. Qed.
Lemma cv_const k : Un_cv (fun _ => k) k.
Proof. intros e He. exists 0%nat. intros n _. unfold R_dist. replace (k - k) with 0 by ring. rewrite Rabs_R0. exact He. Qed.
Example finder_met : finds_roots bisect.
Proof.
  intros f a b L CF S. unfold bisect, reqb. destruct (Req_EM_T (f a) 0) as [Z|NZ]; [exists a; repeat split; try lra; exact Z|].
  destruct (Rle_dec a b) as [H|H]; [|lra]. set (s := if rltb (f a) 0 then 1 else -1). set (P := fun z => rleb 0 (s * f z)). destruct (dicho_up_cv a b P H) as (x & Hx). cbn [proj1_sig].
  assert (B := Ranalysis5.IVT_interv_prelim1 a b x P L Hx). exists x. split; [reflexivity|]. split; [exact B|].
  assert (SS : s * f a < 0 /\ 0 <= s * f b /\ s <> 0).
  { unfold s. unfold rltb. destruct (Rlt_dec (f a) 0); repeat split; try lra; nra. }
  destruct SS as (Sa & Sb & S0).
  assert (Pa : P a = false) by (unfold P, rleb; destruct (Rle_dec 0 (s * f a)); [lra|reflexivity]). assert (Pb : P b = true) by (unfold P, rleb; destruct (Rle_dec 0 (s * f b)); [reflexivity|lra]).
  destruct (dicho_lb_cv a b P H) as (y & Hy). assert (y = x) by exact (cv_dicho a b y x P H Hy Hx). subst y.
  assert (CX : continuity_pt (fun z => s * f z) x) by (apply (continuity_pt_scal f s x), CF, B).
  assert (U := continuity_seq (fun z => s * f z) _ x CX Hx). assert (V := continuity_seq (fun z => s * f z) _ x CX Hy).
  assert (G1 : 0 <= s * f x) by (apply (@Rle_cv_lim (fun _ => 0) (fun i => s * f (dicho_up a b P i))); [intros n; apply rleb_true_le; exact (dicho_up_car a b P n Pb)|apply cv_const|exact U]).
  assert (G2 : s * f x <= 0) by (apply (@Rle_cv_lim (fun i => s * f (dicho_lb a b P i)) (fun _ => 0)); [intros n; apply rleb_false_le; exact (dicho_lb_car a b P n Pa)|exact V|apply cv_const]).
  assert (G : s * f x = 0) by lra. apply Rmult_integral in G as [G|G]; [contradiction|exact G].
Qed.
Definition crank_carbon : carbon := {| f_density := 1 / 1000; f_porosity := 1 / 2; f_radius := 1; f_dw := 1; f_hrt := 1 |}.
Definition crank_comp : comp := {| K := 1; xn := 1; kf := 1 / 6; Dp := 1; Ds := 1; C0 := 1; C0_units := "ug" |}.
Example contactor_met : 0 < f_density crank_carbon /\ 0 < f_radius crank_carbon /\ 0 < Ds crank_comp + f_porosity crank_carbon * Dp crank_comp / (f_density crank_carbon * 1000 * 2) /\ (INR 500 + 1) * PI <= 900000.
Proof. cbn [f_density f_radius Ds crank_comp f_porosity crank_carbon Dp]. repeat split; try lra. apply many. lia. Qed.
Example run_met : let C := demo_C in let Y := demo_Y in let W := fun _ : nat => 1 / 3 in let Kd := Kd_of crank_carbon 1 W (fun i => Y i 1) (C 1) in
  follows 1 (fun _ _ => 0) W (eqn_of crank_carbon (eps_of crank_carbon 500000) crank_comp) 0 1 C Y /\ C 0 = 1 /\ Y 0%nat 0 = 0 /\ 0 < C 1 /\ 0 < rsum 1 (fun i => W i * Y i 1) /\
  0 < 500000 < f_dw crank_carbon * 10 ^ 6 /\ 0 < Ds crank_comp + f_porosity crank_carbon * Dp crank_comp / (f_density crank_carbon * 1000 * Kd).
Proof.
  cbv zeta. assert (EQ : eqn_of crank_carbon (eps_of crank_carbon 500000) crank_comp = demo_eqn) by (unfold eqn_of, eps_of, crank_carbon, crank_comp, demo_eqn; cbn [f_density f_porosity f_radius f_dw K xn kf Dp Ds]; f_equal; field).
  rewrite EQ. split; [exact (proj1 follows_met)|]. assert (XI := exp_increasing (- (1) * 1) 0 ltac:(lra)). rewrite exp_0 in XI. assert (XP := exp_pos (- (1) * 1)).
  assert (PC : 0 < demo_C 1) by (unfold demo_C; lra). assert (PY : 0 < rsum 1 (fun i => 1 / 3 * demo_Y i 1)) by (cbn; unfold demo_Y; lra).
  repeat split; try assumption; [unfold demo_C; rewrite Rmult_0_r, exp_0; lra|unfold demo_Y; rewrite Rmult_0_r, exp_0; lra|lra|cbn; lra|].
  assert (KP : 0 < Kd_of crank_carbon 1 (fun _ => 1 / 3) (fun i => demo_Y i 1) (demo_C 1)).
  { unfold Kd_of. apply Rmult_lt_0_compat; [apply Rdiv_lt_0_compat; lra|cbn; lra]. }
  cbn [Ds Dp crank_comp f_porosity f_density crank_carbon]. assert (0 < 1 / 2 * 1 / (1 / 1000 * 1000 * Kd_of crank_carbon 1 (fun _ => 1 / 3) (fun i => demo_Y i 1) (demo_C 1))); [|lra].
  apply Rdiv_lt_0_compat; lra.
Qed.
Print Assumptions C169_roots_partial.
Print Assumptions C169_curve_partial.
Print Assumptions C169_model_partial.
Print Assumptions C169_start_refuted.
Print Assumptions C169_level_refuted.
