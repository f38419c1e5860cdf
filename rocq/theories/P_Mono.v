(** A bead with one exchanging species and an increasing isotherm, in a closed
    vessel, comes to rest. *)
From Coq Require Import Reals Lra Lia Arith.
From Verif Require Import Lib_Py Lib_Sum Lib_Traj Lib_Settle S_Colloc M_Colloc S_Radial P_Radial P_RadialGap P_PacBound P_PacSettle.
Open Scope R_scope.

(** ** Every continuous function has a primitive. *)
Section Primitive.
Variable h : R -> R.
Hypothesis Hc : forall x, continuity_pt h x.
Definition piece (n : nat) : { g : R -> R | antiderivative h g (- INR n) (INR n) }.
Proof. apply RiemannInt_P30; [assert (X := pos_INR n); lra|intros; apply Hc]. Defined.
Definition part (n : nat) (x : R) : R := proj1_sig (piece n) x - proj1_sig (piece n) 0.
Lemma part_deriv n x : - INR n < x < INR n -> derivable_pt_lim (part n) x (h x).
Proof.
  intros Hx. unfold part. destruct (piece n) as (g & AA). cbn [proj1_sig]. destruct AA as (A & _). destruct (A x ltac:(lra)) as (D & E).
  replace (h x) with (h x - 0) by ring. apply (derivable_pt_lim_minus g (fun _ => g 0)); [|apply derivable_pt_lim_const].
  apply (derive_pt_eq_1 g x (h x) D). symmetry. exact E.
Qed.
Lemma part_same n m x : (n <= m)%nat -> - INR n < x < INR n -> part n x = part m x.
Proof.
  intros Hnm Hx. assert (X := pos_INR n). assert (IN := le_INR _ _ Hnm). unfold part. destruct (piece n) as (g & A), (piece m) as (k & B). cbn [proj1_sig].
  assert (B' : antiderivative h k (- INR n) (INR n)).
  { destruct B as (B & _). split; [|lra]. intros y Hy. apply B. lra. }
  destruct (antiderivative_Ucte h g k _ _ A B') as (c & E). rewrite (E x) by lra. rewrite (E 0) by lra. ring.
Qed.
Definition level (x : R) : nat := S (Z.to_nat (up (Rabs x))).
Lemma level_spec x : Rabs x < INR (level x).
Proof.
  unfold level. rewrite S_INR, INR_IZR_INZ. destruct (archimed (Rabs x)) as (A & _). assert (P := Rabs_pos x).
  rewrite Z2Nat.id; [lra|]. apply le_IZR. lra.
Qed.
Definition primitive (x : R) : R := part (level x) x.
Lemma primitive_eq n x : - INR n < x < INR n -> primitive x = part n x.
Proof.
  intros Hx. unfold primitive. assert (L := level_spec x). apply Rabs_def2 in L.
  destruct (le_dec n (level x)) as [O|O]; [symmetry; apply part_same; [exact O|lra]|apply part_same; [lia|lra]].
Qed.
Lemma primitive_0 : primitive 0 = 0.
Proof. unfold primitive, part. ring. Qed.
Lemma primitive_deriv x : derivable_pt_lim primitive x (h x).
Proof.
  set (n := level x). assert (L := level_spec x). fold n in L. apply Rabs_def2 in L.
  assert (D := part_deriv n x ltac:(lra)). intros eps He. destruct (D eps He) as (d & Hd).
  assert (P : 0 < Rmin d (Rmin (INR n - x) (x + INR n))). { repeat apply Rmin_glb_lt; try lra. apply cond_pos. }
  exists (mkposreal _ P). cbn [pos]. intros k Hk Lk.
  assert (L1 : Rabs k < d) by (eapply Rlt_le_trans; [exact Lk|apply Rmin_l]).
  assert (L2 : Rabs k < INR n - x) by (eapply Rlt_le_trans; [exact Lk|eapply Rle_trans; [apply Rmin_r|apply Rmin_l]]).
  assert (L3 : Rabs k < x + INR n) by (eapply Rlt_le_trans; [exact Lk|eapply Rle_trans; [apply Rmin_r|apply Rmin_r]]).
  apply Rabs_def2 in L2. apply Rabs_def2 in L3. rewrite !(primitive_eq n) by lra. apply Hd; assumption.
Qed.
Lemma primitive_quadratic c : (forall x, 0 <= x -> c * x <= h x) -> (forall x, x <= 0 -> h x <= c * x) ->
  forall x, c * x ^ 2 / 2 <= primitive x.
Proof.
  intros H1 H2 x. set (P := fun x => primitive x - c / 2 * x ^ 2).
  assert (D : forall y, derivable_pt_lim P y (h y - c * y)).
  { intros y. replace (c * y) with (c / 2 * (INR 2 * y ^ Nat.pred 2)) by (simpl; field).
    apply (derivable_pt_lim_minus primitive (fun z => c / 2 * z ^ 2)); [apply primitive_deriv|].
    apply (derivable_pt_lim_scal (fun z => z ^ 2)), derivable_pt_lim_pow. }
  assert (P0 : P 0 = 0) by (unfold P; rewrite primitive_0; ring).
  assert (0 <= P x); [|unfold P in *; lra].
  destruct (Rtotal_order x 0) as [O|[->|O]].
  - destruct (MVT_cor2 P _ x 0 O (fun y _ => D y)) as (y & E & Hy). rewrite P0 in E. specialize (H2 y ltac:(lra)). nra.
  - lra.
  - destruct (MVT_cor2 P _ 0 x O (fun y _ => D y)) as (y & E & Hy). rewrite P0 in E. specialize (H1 y ltac:(lra)). nra.
Qed.
End Primitive.

Lemma lipschitz_continuous (h : R -> R) K : (forall x y, y <= x -> Rabs (h x - h y) <= K * (x - y)) -> forall x, continuity_pt h x.
Proof.
  intros H x eps He. set (K1 := Rabs K + 1). assert (P := Rabs_pos K). exists (eps / K1). split; [apply Rdiv_lt_0_compat; unfold K1; lra|].
  intros y (_ & Hy). unfold dist, R_met, Base, R_dist in *. simpl in *. unfold R_dist in *.
  assert (B : Rabs (h y - h x) <= K * Rabs (y - x)).
  { destruct (Rle_dec x y) as [O|O]; [rewrite (Rabs_pos_eq (y - x)) by lra; apply H; exact O|].
    rewrite Rabs_minus_sym, (Rabs_minus_sym y x), (Rabs_pos_eq (x - y)) by lra. apply H. lra. }
  assert (A := Rle_abs K). assert (Q := Rabs_pos (y - x)).
  assert (K * Rabs (y - x) <= K1 * Rabs (y - x)) by (apply Rmult_le_compat_r; [exact Q|unfold K1; lra]).
  assert (K1 * Rabs (y - x) < eps); [|lra]. apply Rmult_lt_reg_r with (/ K1); [apply Rinv_0_lt_compat; unfold K1; lra|].
  replace (K1 * Rabs (y - x) * / K1) with (Rabs (y - x)) by (field; unfold K1; lra). exact Hy.
Qed.

(** ** The vessel *)
Section Mono.
Variables (jac : nat -> R -> R -> nat -> R) (nc : nat).
Notation a3 := (INR 3).
Notation u := (rootsu jac nc a3).
Notation B := (Bx nc u a3).
Notation W := (Wx nc u a3).
Hypothesis Hnc : (1 <= nc)%nat.
Hypothesis HJ : jacobi_roots 2 (nc - 1) (jac (nc - 1)%nat (a3 / 2 + 1) (a3 / 2)).
Variables (f : R -> R) (m L : R).
Hypothesis Hm : 0 < m.
Hypothesis Hf0 : f 0 = 0.
Hypothesis Hf : forall x y, y <= x -> m * (x - y) <= f x - f y <= L * (x - y).
Variables (dd Ds kf ra2 al : R).
Hypothesis Hdd : 0 <= dd.
Hypothesis HDs : 0 < Ds.
Hypothesis Hkf : 0 < kf.
Hypothesis Hra : 0 < ra2.
Hypothesis Hal : 0 < al.
Variables (t0 : R) (C : R -> R) (Y : nat -> R -> R).
Notation last := (nc - 1)%nat.
Definition drv (x : R) : R := dd * f x + Ds * x.
Definition flm (t : R) : R := C t - f (Y last t).
Definition dif (k : nat) (t : R) : R := apply_row nc B (fun j => drv (Y j t)) k / ra2.
Definition dYm (i : nat) (t : R) : R := if Nat.eqb i last then (kf * flm t - rsum last (fun k => W k * dif k t)) / W last else dif i t.
Hypothesis HC : forall b, evolves t0 b C (fun t => - (kf / al) * flm t).
Hypothesis HY : forall i b, (i < nc)%nat -> evolves t0 b (Y i) (dYm i).

Lemma rsum_last F : rsum nc F = rsum last F + F last.
Proof. assert (EN : nc = S last) by lia. rewrite EN at 1. reflexivity. Qed.
Lemma Lpos : 0 < L. Proof. generalize (Hf 1 0 ltac:(lra)). lra. Qed.
Lemma wpos i : (i < nc)%nat -> 0 < W i. Proof. apply (code_weights jac nc 2 Hnc HJ). Qed.
Lemma f_lip x y : Rabs (f x - f y) <= L * Rabs (x - y).
Proof.
  destruct (Rle_dec y x) as [O|O].
  - assert (H := Hf x y O). assert (0 <= m * (x - y)) by (apply Rmult_le_pos; lra). rewrite !Rabs_pos_eq; lra.
  - assert (H := Hf y x ltac:(lra)). assert (0 <= m * (y - x)) by (apply Rmult_le_pos; lra). rewrite Rabs_minus_sym, (Rabs_minus_sym x y). rewrite !Rabs_pos_eq; lra.
Qed.
Lemma drv_le x y : y <= x -> Ds * (x - y) <= drv x - drv y <= (dd * L + Ds) * (x - y).
Proof.
  intros O. assert (H := Hf x y O). unfold drv. assert (0 <= m * (x - y)) by (apply Rmult_le_pos; lra).
  assert (0 <= dd * (f x - f y)) by (apply Rmult_le_pos; lra). assert (dd * (f x - f y) <= dd * (L * (x - y))) by (apply Rmult_le_compat_l; lra). lra.
Qed.
Lemma drv_lip x y : Rabs (drv x - drv y) <= (dd * L + Ds) * Rabs (x - y).
Proof.
  destruct (Rle_dec y x) as [O|O].
  - assert (H := drv_le x y O). assert (0 <= Ds * (x - y)) by (apply Rmult_le_pos; lra). rewrite !Rabs_pos_eq; lra.
  - assert (H := drv_le y x ltac:(lra)). assert (0 <= Ds * (y - x)) by (apply Rmult_le_pos; lra). rewrite Rabs_minus_sym, (Rabs_minus_sym x y). rewrite !Rabs_pos_eq; lra.
Qed.
Lemma drv_strong x y : Ds * Rabs (x - y) <= Rabs (drv x - drv y).
Proof.
  destruct (Rle_dec y x) as [O|O].
  - assert (H := drv_le x y O). rewrite (Rabs_pos_eq (x - y)) by lra. eapply Rle_trans; [apply H|apply Rle_abs].
  - assert (H := drv_le y x ltac:(lra)). rewrite Rabs_minus_sym, (Rabs_minus_sym (drv x)). rewrite (Rabs_pos_eq (y - x)) by lra. eapply Rle_trans; [apply H|apply Rle_abs].
Qed.
Lemma f_cont x : continuity_pt f x.
Proof. apply (lipschitz_continuous f L). intros a b O. assert (H := f_lip a b). rewrite (Rabs_pos_eq (a - b)) in H by lra. exact H. Qed.
Lemma drv_cont x : continuity_pt drv x.
Proof. apply (lipschitz_continuous drv (dd * L + Ds)). intros a b O. assert (H := drv_lip a b). rewrite (Rabs_pos_eq (a - b)) in H by lra. exact H. Qed.

(** the inverse of the isotherm *)
Lemma f_onto c : exists x, f x = c.
Proof.
  set (M := Rabs c / m + 1). assert (A := Rabs_pos c). assert (A1 := Rle_abs c). assert (A2 := Rle_abs (- c)). rewrite Rabs_Ropp in A2.
  assert (I : Rabs c / m * m = Rabs c) by (field; lra). assert (Q : 0 <= Rabs c / m) by (apply Rmult_le_pos; [exact A|left; apply Rinv_0_lt_compat, Hm]).
  assert (H1 := Hf M 0 ltac:(unfold M; lra)). assert (H2 := Hf 0 (- M) ltac:(unfold M; lra)). rewrite Hf0 in *.
  assert (MM : m * M = Rabs c + m) by (unfold M; rewrite Rmult_plus_distr_l, (Rmult_comm m (_ / _)), I; ring).
  destruct (IVT_cor (fun x => f x - c) (- M) M) as (x & _ & Hx).
  - intros x. apply continuity_pt_minus; [apply f_cont|apply continuity_pt_const; intros ? ?; reflexivity].
  - unfold M; lra.
  - assert (f (- M) - c <= 0) by lra. assert (0 <= f M - c) by lra. nra.
  - exists x. lra.
Qed.
Lemma f_inj x y : f x = f y -> x = y.
Proof.
  intros E. destruct (Rle_dec y x) as [O|O]; [assert (H := Hf x y O)|assert (H := Hf y x ltac:(lra))]; rewrite E in H.
  - assert (m * (x - y) <= m * 0) by lra. apply Rmult_le_reg_l in H0; lra.
  - assert (m * (y - x) <= m * 0) by lra. apply Rmult_le_reg_l in H0; lra.
Qed.
Definition inv (c : R) : R := proj1_sig (the_number (fun x => f x = c) (f_onto c) (fun x y H1 H2 => f_inj x y (eq_trans H1 (eq_sym H2)))).
Lemma f_inv c : f (inv c) = c.
Proof. unfold inv. destruct (the_number _ _ _) as (x & Hx). exact Hx. Qed.
Lemma inv_f x : inv (f x) = x.
Proof. apply f_inj, f_inv. Qed.
Lemma inv_le c d : d <= c -> / L * (c - d) <= inv c - inv d <= / m * (c - d).
Proof.
  intros O. assert (O2 : inv d <= inv c).
  { destruct (Rle_dec (inv d) (inv c)) as [G|G]; [exact G|]. assert (H := Hf (inv d) (inv c) ltac:(lra)). rewrite !f_inv in H.
    assert (0 < m * (inv d - inv c)) by (apply Rmult_lt_0_compat; lra). lra. }
  assert (H := Hf _ _ O2). rewrite !f_inv in H. assert (X := Lpos). split.
  - apply Rmult_le_reg_l with L; [exact X|]. rewrite <- Rmult_assoc, Rinv_r by lra. lra.
  - apply Rmult_le_reg_l with m; [exact Hm|]. rewrite <- Rmult_assoc, Rinv_r by lra. lra.
Qed.
Definition mum (c : R) : R := drv (inv c).
Lemma mum_cont c : continuity_pt mum c.
Proof.
  apply (lipschitz_continuous mum ((dd * L + Ds) * / m)). intros a b O. unfold mum. assert (H := inv_le a b O).
  eapply Rle_trans; [apply drv_lip|]. rewrite Rmult_assoc. apply Rmult_le_compat_l.
  - assert (0 <= dd * L) by (apply Rmult_le_pos; [exact Hdd|left; apply Lpos]). lra.
  - assert (0 <= / L * (a - b)) by (apply Rmult_le_pos; [left; apply Rinv_0_lt_compat, Lpos|lra]). rewrite Rabs_pos_eq; lra.
Qed.
Definition PhiM : R -> R := primitive drv drv_cont.
Definition GlM : R -> R := primitive mum mum_cont.
Lemma drv_0 : drv 0 = 0. Proof. unfold drv. rewrite Hf0. ring. Qed.
Lemma mum_0 : mum 0 = 0. Proof. unfold mum. replace (inv 0) with 0; [apply drv_0|]. apply f_inj. rewrite f_inv, Hf0. reflexivity. Qed.
Lemma PhiM_ge x : Ds * x ^ 2 / 2 <= PhiM x.
Proof.
  apply primitive_quadratic.
  - intros y Hy. assert (H := drv_le y 0 Hy). rewrite drv_0 in H. lra.
  - intros y Hy. assert (H := drv_le 0 y Hy). rewrite drv_0 in H. lra.
Qed.
Lemma mum_le c d : d <= c -> Ds * / L * (c - d) <= mum c - mum d.
Proof.
  intros O. assert (H := inv_le c d O). assert (0 <= / L * (c - d)) by (apply Rmult_le_pos; [left; apply Rinv_0_lt_compat, Lpos|lra]).
  assert (H2 := drv_le (inv c) (inv d) ltac:(lra)). unfold mum. assert (Ds * (/ L * (c - d)) <= Ds * (inv c - inv d)) by (apply Rmult_le_compat_l; lra). lra.
Qed.
Lemma GlM_ge x : Ds * / L * x ^ 2 / 2 <= GlM x.
Proof.
  apply primitive_quadratic.
  - intros y Hy. assert (H := mum_le y 0 Hy). rewrite mum_0 in H. lra.
  - intros y Hy. assert (H := mum_le 0 y Hy). rewrite mum_0 in H. lra.
Qed.

(** the energy *)
Notation slo i t := (apply_row nc (Amat nc u) (fun j => drv (Y j t)) i).
Definition eng (t : R) : R := rsum nc (fun i => W i * PhiM (Y i t)) + al * GlM (C t).
Definition pwr (t : R) : R := 4 / ra2 * rsum nc (fun i => W i * (u i * slo i t ^ 2)) + kf * (flm t * (mum (C t) - drv (Y last t))).
Lemma eng_evolves b : evolves t0 b eng (fun t => - pwr t).
Proof.
  apply (evolves_ext t0 b eng _ (fun t => rsum nc (fun i => W i * (drv (Y i t) * dYm i t)) + al * (mum (C t) * (- (kf / al) * flm t)))).
  - intros; reflexivity.
  - intros t Ht. cbv beta. assert (RS := rsum_last). assert (WL := wpos last ltac:(lia)).
    assert (E1 : rsum nc (fun i => W i * (drv (Y i t) * dYm i t)) = kf * flm t * drv (Y last t) + rsum nc (fun k => W k * (drv (Y k t) - drv (Y last t)) * dif k t)).
    { rewrite !RS. rewrite (rsum_ext last (fun i => W i * (drv (Y i t) * dYm i t)) (fun k => W k * drv (Y k t) * dif k t)).
      2:{ intros k Hk. unfold dYm. rewrite (proj2 (Nat.eqb_neq k last)) by lia. ring. }
      unfold dYm at 1. rewrite Nat.eqb_refl.
      rewrite (rsum_ext last (fun k => W k * (drv (Y k t) - drv (Y last t)) * dif k t) (fun k => W k * drv (Y k t) * dif k t - drv (Y last t) * (W k * dif k t))) by (intros; ring).
      rewrite rsum_minus, rsum_scal. field. lra. }
    rewrite E1. rewrite (rsum_ext nc (fun k => W k * (drv (Y k t) - drv (Y last t)) * dif k t)
      (fun k => W k * (drv (Y k t) - drv (Y last t)) * apply_row nc B (fun j => drv (Y j t)) k * / ra2)) by (intros; unfold dif, Rdiv; ring).
    rewrite rsum_scal_r. assert (CP := code_power jac nc 2 Hnc HJ (fun j => drv (Y j t))). cbv beta in CP. rewrite CP. unfold pwr. field. lra.
  - apply evolves_plus.
    + apply (evolves_rsum t0 b nc (fun i t => W i * PhiM (Y i t)) (fun i t => W i * (drv (Y i t) * dYm i t))). intros i Hi. apply evolves_scal.
      apply (evolves_comp t0 b (Y i) (dYm i) PhiM drv); [apply primitive_deriv|apply HY, Hi].
    + apply evolves_scal. apply (evolves_comp t0 b C _ GlM mum); [apply primitive_deriv|apply HC].
Qed.
Lemma film_pwr t : Ds * / L * flm t ^ 2 <= flm t * (mum (C t) - drv (Y last t)).
Proof.
  assert (E : drv (Y last t) = mum (f (Y last t))) by (unfold mum; rewrite inv_f; reflexivity). rewrite E. unfold flm.
  set (p := f (Y last t)). destruct (Rle_dec p (C t)) as [O|O].
  - assert (H := mum_le _ _ O). replace (Ds * / L * (C t - p) ^ 2) with ((C t - p) * (Ds * / L * (C t - p))) by ring. apply Rmult_le_compat_l; lra.
  - assert (H := mum_le p (C t) ltac:(lra)). replace (Ds * / L * (C t - p) ^ 2) with ((p - C t) * (Ds * / L * (p - C t))) by ring.
    replace ((C t - p) * (mum (C t) - mum p)) with ((p - C t) * (mum p - mum (C t))) by ring. apply Rmult_le_compat_l; lra.
Qed.
Lemma DsL : 0 < Ds * / L. Proof. apply Rmult_lt_0_compat; [exact HDs|apply Rinv_0_lt_compat, Lpos]. Qed.
Lemma pwr_parts t : kf * (Ds * / L) * flm t ^ 2 <= pwr t /\ forall i, (i < nc)%nat -> 4 / ra2 * (W i * u i) * slo i t ^ 2 <= pwr t.
Proof.
  assert (H := film_pwr t). assert (X := DsL). assert (P2 : 0 < 4 / ra2) by (apply Rdiv_lt_0_compat; lra).
  assert (T : forall j, (j < nc)%nat -> 0 <= W j * (u j * slo j t ^ 2)).
  { intros j Hj. apply Rmult_le_pos; [left; apply wpos, Hj|]. apply Rmult_le_pos; [left; apply (u_pos jac nc 2 Hnc HJ), Hj|apply pow2_ge_0]. }
  assert (S0 : 0 <= rsum nc (fun j => W j * (u j * slo j t ^ 2))) by (apply rsum_nonneg; exact T).
  assert (F0 : 0 <= flm t * (mum (C t) - drv (Y last t))). { eapply Rle_trans; [|exact H]. apply Rmult_le_pos; [lra|apply pow2_ge_0]. }
  unfold pwr. split.
  - assert (0 <= 4 / ra2 * rsum nc (fun j => W j * (u j * slo j t ^ 2))) by (apply Rmult_le_pos; lra).
    assert (kf * (Ds * / L * flm t ^ 2) <= kf * (flm t * (mum (C t) - drv (Y last t)))) by (apply Rmult_le_compat_l; lra). lra.
  - intros i Hi. assert (M := rsum_member nc (fun j => W j * (u j * slo j t ^ 2)) i Hi T). cbv beta in M.
    assert (0 <= kf * (flm t * (mum (C t) - drv (Y last t)))) by (apply Rmult_le_pos; lra).
    assert (4 / ra2 * (W i * (u i * slo i t ^ 2)) <= 4 / ra2 * rsum nc (fun j => W j * (u j * slo j t ^ 2))) by (apply Rmult_le_compat_l; lra). lra.
Qed.
Lemma sq_pos k x : 0 <= k -> 0 <= k * x ^ 2 / 2.
Proof. intros Hk. assert (P := pow2_ge_0 x). assert (0 <= k * x ^ 2) by (apply Rmult_le_pos; assumption). lra. Qed.
Lemma bead_pos i t : (i < nc)%nat -> 0 <= W i * PhiM (Y i t).
Proof. intros Hi. apply Rmult_le_pos; [left; apply wpos, Hi|]. eapply Rle_trans; [apply (sq_pos Ds); lra|apply PhiM_ge]. Qed.
Lemma eng_pos t : 0 <= eng t.
Proof.
  apply Rplus_le_le_0_compat; [apply rsum_nonneg; intros; apply bead_pos; assumption|].
  apply Rmult_le_pos; [lra|]. eapply Rle_trans; [apply (sq_pos (Ds * / L)); left; apply DsL|apply GlM_ge].
Qed.
Lemma eng_drops t : t0 <= t -> eng t <= eng t0.
Proof.
  intros Ht. apply (evolves_nonincreasing t0 t eng _ (eng_evolves t)); [|lra]. intros x Hx. destruct (pwr_parts x) as (A & _).
  assert (0 <= kf * (Ds * / L) * flm x ^ 2); [|lra]. apply Rmult_le_pos; [|apply pow2_ge_0]. apply Rmult_le_pos; [lra|left; apply DsL].
Qed.
Lemma square_bound k x e : 0 < k -> k * x ^ 2 / 2 <= e -> Rabs x <= 1 + 2 * e / k.
Proof.
  intros Hk H. assert (Q : x ^ 2 <= 2 * e / k). { apply Rmult_le_reg_r with k; [exact Hk|]. replace (2 * e / k * k) with (2 * e) by (field; lra). lra. }
  unfold Rabs. destruct (Rcase_abs x); nra.
Qed.
Lemma C_b : bdd t0 C.
Proof.
  set (k := al * (Ds * / L)). assert (Hk : 0 < k) by (apply Rmult_lt_0_compat; [exact Hal|apply DsL]).
  assert (P := eng_pos t0). exists (1 + 2 * eng t0 / k). split.
  - assert (0 <= 2 * eng t0 / k) by (apply Rmult_le_pos; [lra|left; apply Rinv_0_lt_compat, Hk]). lra.
  - intros t Ht. apply (square_bound k _ _ Hk). eapply Rle_trans; [|apply (eng_drops t Ht)]. unfold eng.
    assert (0 <= rsum nc (fun i => W i * PhiM (Y i t))) by (apply rsum_nonneg; intros; apply bead_pos; assumption).
    assert (G := Rmult_le_compat_l al _ _ (Rlt_le _ _ Hal) (GlM_ge (C t))). unfold k. lra.
Qed.
Lemma Y_b i : (i < nc)%nat -> bdd t0 (Y i).
Proof.
  intros Hi. set (k := W i * Ds). assert (Hk : 0 < k) by (apply Rmult_lt_0_compat; [apply wpos, Hi|exact HDs]).
  assert (P := eng_pos t0). exists (1 + 2 * eng t0 / k). split.
  - assert (0 <= 2 * eng t0 / k) by (apply Rmult_le_pos; [lra|left; apply Rinv_0_lt_compat, Hk]). lra.
  - intros t Ht. apply (square_bound k _ _ Hk). eapply Rle_trans; [|apply (eng_drops t Ht)]. unfold eng.
    assert (M := rsum_member nc (fun i => W i * PhiM (Y i t)) i Hi (fun j Hj => bead_pos j t Hj)). cbv beta in M.
    assert (0 <= al * GlM (C t)). { apply Rmult_le_pos; [lra|]. eapply Rle_trans; [apply (sq_pos (Ds * / L)); left; apply DsL|apply GlM_ge]. }
    assert (G := Rmult_le_compat_l (W i) _ _ (Rlt_le _ _ (wpos i Hi)) (PhiM_ge (Y i t))). unfold k. lra.
Qed.
Lemma comp_b (h g : R -> R) K : 0 <= K -> h 0 = 0 -> (forall x y, Rabs (h x - h y) <= K * Rabs (x - y)) -> bdd t0 g -> bdd t0 (fun t => h (g t)).
Proof.
  intros HK H0 Hh (M & HM & G). exists (K * M). split; [apply Rmult_le_pos; assumption|]. intros t Ht.
  assert (X := Hh (g t) 0). rewrite H0, !Rminus_0_r in X. eapply Rle_trans; [exact X|]. apply Rmult_le_compat_l; [exact HK|apply G, Ht].
Qed.
Lemma comp_p (h g : R -> R) K : 0 <= K -> (forall x y, Rabs (h x - h y) <= K * Rabs (x - y)) -> paced t0 g -> paced t0 (fun t => h (g t)).
Proof.
  intros HK Hh (M & HM & G). exists (K * M). split; [apply Rmult_le_pos; assumption|]. intros s t Hs Ht.
  eapply Rle_trans; [apply Hh|]. rewrite Rmult_assoc. apply Rmult_le_compat_l; [exact HK|apply G; assumption].
Qed.
Lemma Lp : 0 <= L. Proof. left. apply Lpos. Qed.
Lemma KD : 0 <= dd * L + Ds. Proof. assert (0 <= dd * L) by (apply Rmult_le_pos; [exact Hdd|apply Lp]). lra. Qed.
Lemma flm_b : bdd t0 flm.
Proof.
  apply (bdd_ext t0 (fun t => C t + -1 * f (Y last t))); [intros; unfold flm; ring|]. apply bdd_plus; [apply C_b|].
  apply bdd_scal. apply (comp_b f (Y last) L Lp Hf0 f_lip). apply Y_b. lia.
Qed.
Lemma dif_b k : bdd t0 (dif k).
Proof.
  apply (bdd_ext t0 (fun t => / ra2 * rsum nc (fun j => B k j * drv (Y j t)))); [intros; unfold dif, apply_row, Rdiv; ring|].
  apply bdd_scal. apply (bdd_rsum t0 nc (fun j t => B k j * drv (Y j t))). intros j Hj. apply bdd_scal. apply (comp_b drv (Y j) _ KD drv_0 drv_lip), Y_b, Hj.
Qed.
Lemma C_p : paced t0 C.
Proof. apply (paced_evolves t0 C _ HC). apply bdd_scal, flm_b. Qed.
Lemma Y_p i : (i < nc)%nat -> paced t0 (Y i).
Proof.
  intros Hi. apply (paced_evolves t0 (Y i) (dYm i)); [intros b; apply HY, Hi|]. unfold dYm. destruct (Nat.eqb i last); [|apply dif_b].
  apply (bdd_ext t0 (fun t => / W last * (kf * flm t + -1 * rsum last (fun k => W k * dif k t)))); [intros; unfold Rdiv; ring|].
  apply bdd_scal, bdd_plus; [apply bdd_scal, flm_b|]. apply bdd_scal. apply (bdd_rsum t0 last (fun k t => W k * dif k t)). intros k Hk. apply bdd_scal, dif_b.
Qed.
Lemma drains_away k z : 0 < k -> (forall t, k * z t ^ 2 <= pwr t) -> paced t0 z -> vanishes z.
Proof.
  intros Hk H (K & HKK & P). apply (barbalat t0 k (K + 1) eng (fun t => - pwr t) z); [exact Hk|lra|intros; apply eng_evolves|intros; apply eng_pos| |].
  - intros t Ht. specialize (H t). lra.
  - intros s t Hs Ht. specialize (P s t Hs Ht). nra.
Qed.
Lemma flm_vanishes : vanishes flm.
Proof.
  apply (drains_away (kf * (Ds * / L))); [apply Rmult_lt_0_compat; [exact Hkf|apply DsL]|intros t; apply pwr_parts|].
  assert (X : paced t0 (fun t => C t + -1 * f (Y last t))).
  { apply paced_plus; [apply C_p|]. apply paced_scal. apply (comp_p f (Y last) L Lp f_lip). apply Y_p. lia. }
  destruct X as (K & HKK & P). exists K. split; [exact HKK|]. intros s t Hs Ht. unfold flm. specialize (P s t Hs Ht).
  replace (C t - f (Y last t) - (C s - f (Y last s))) with (C t + -1 * f (Y last t) - (C s + -1 * f (Y last s))) by ring. exact P.
Qed.
Lemma slo_vanishes i : (i < nc)%nat -> vanishes (fun t => slo i t).
Proof.
  intros Hi. apply (drains_away (4 / ra2 * (W i * u i))).
  - apply Rmult_lt_0_compat; [apply Rdiv_lt_0_compat; lra|]. apply Rmult_lt_0_compat; [apply wpos, Hi|apply (u_pos jac nc 2 Hnc HJ), Hi].
  - intros t. apply pwr_parts, Hi.
  - unfold apply_row. apply (paced_rsum t0 nc (fun j t => Amat nc u i j * drv (Y j t))). intros j Hj. apply paced_scal. apply (comp_p drv (Y j) _ KD drv_lip), Y_p, Hj.
Qed.
Lemma levels i : (i < nc)%nat -> vanishes (fun t => Y i t - Y last t).
Proof.
  intros Hi. destruct (code_gap jac nc 2 Hnc HJ) as (K & HKK & G).
  assert (V : vanishes (fun t => rsum nc (fun j => Rabs (slo j t)))).
  { apply (vanishes_rsum nc (fun j t => Rabs (slo j t))). intros j Hj. apply vanishes_abs, slo_vanishes, Hj. }
  apply (vanishes_le (K / Ds) t0 _ _ ltac:(apply Rmult_le_pos; [exact HKK|left; apply Rinv_0_lt_compat; lra])) with (2 := V).
  intros t Ht. assert (D := drv_strong (Y i t) (Y last t)). assert (Q := G (fun j => drv (Y j t)) i Hi). cbv beta in Q.
  assert (A := Rle_abs (rsum nc (fun j => Rabs (slo j t)))).
  apply Rmult_le_reg_l with Ds; [lra|]. replace (Ds * (K / Ds * Rabs (rsum nc (fun j => Rabs (slo j t))))) with (K * Rabs (rsum nc (fun j => Rabs (slo j t)))) by (field; lra).
  eapply Rle_trans; [exact D|]. eapply Rle_trans; [exact Q|]. apply Rmult_le_compat_l; assumption.
Qed.

(** the content *)
Definition hold (t : R) : R := al * C t + rsum nc (fun i => W i * Y i t).
Lemma hold_kept t : t0 <= t -> hold t = hold t0.
Proof.
  intros Ht. assert (E : evolves t0 t hold (fun _ => 0)).
  { apply (evolves_ext t0 t hold _ (fun t => al * (- (kf / al) * flm t) + rsum nc (fun i => W i * dYm i t))); [intros; reflexivity| |].
    - intros s Hs. rewrite rsum_last. rewrite (rsum_ext last (fun i => W i * dYm i s) (fun k => W k * dif k s)).
      2:{ intros k Hk. unfold dYm. rewrite (proj2 (Nat.eqb_neq k last)) by lia. ring. }
      unfold dYm. rewrite Nat.eqb_refl. field. assert (WL := wpos last ltac:(lia)). lra.
    - apply evolves_plus; [apply evolves_scal, HC|]. apply (evolves_rsum t0 t nc (fun i t => W i * Y i t) (fun i t => W i * dYm i t)). intros i Hi. apply evolves_scal, HY, Hi. }
  destruct (Req_dec t0 t) as [->|N]; [reflexivity|].
  destruct (evolves_mvt t0 t hold _ ltac:(lra) E) as (x & _ & EQ). lra.
Qed.
Lemma rest_point : exists y, al * f y + y / 3 = hold t0.
Proof.
  set (h := hold t0). set (M := 3 * Rabs h + 1). assert (A := Rabs_pos h). assert (A1 := Rle_abs h). assert (A2 := Rle_abs (- h)). rewrite Rabs_Ropp in A2.
  assert (H1 := Hf M 0 ltac:(unfold M; lra)). assert (H2 := Hf 0 (- M) ltac:(unfold M; lra)). rewrite Hf0 in *.
  assert (PM : 0 <= m * M) by (apply Rmult_le_pos; unfold M; lra).
  assert (F1 : 0 <= al * f M) by (apply Rmult_le_pos; lra). assert (F2 : 0 <= al * - f (- M)) by (apply Rmult_le_pos; lra).
  destruct (IVT_cor (fun x => al * f x + / 3 * x - h) (- M) M) as (x & _ & Hx).
  - intros x. apply continuity_pt_minus; [|apply continuity_pt_const; intros ? ?; reflexivity]. apply continuity_pt_plus.
    + apply (continuity_pt_mult (fun _ => al)); [apply continuity_pt_const; intros ? ?; reflexivity|apply f_cont].
    + apply (continuity_pt_mult (fun _ => / 3)); [apply continuity_pt_const; intros ? ?; reflexivity|]. apply derivable_continuous_pt, derivable_pt_id.
  - unfold M; lra.
  - assert (al * f (- M) + / 3 * - M - h <= 0) by (unfold M in *; lra). assert (0 <= al * f M + / 3 * M - h) by (unfold M in *; lra). nra.
  - exists x. unfold Rdiv. lra.
Qed.
Theorem mono_settles : exists y, al * f y + y / 3 = hold t0 /\ vanishes (fun t => C t - f y) /\ forall i, (i < nc)%nat -> vanishes (fun t => Y i t - y).
Proof.
  destruct rest_point as (y & Hy). exists y. split; [exact Hy|].
  set (off := fun t => al * flm t + rsum nc (fun i => W i * (Y i t - Y last t))).
  assert (OV : vanishes off).
  { apply (vanishes_plus (fun t => al * flm t)); [apply vanishes_scal, flm_vanishes|].
    apply (vanishes_rsum nc (fun i t => W i * (Y i t - Y last t))). intros i Hi. apply vanishes_scal, levels, Hi. }
  assert (OC : forall t, t0 <= t -> al * (f (Y last t) - f y) + (Y last t - y) / 3 = - off t).
  { intros t Ht. assert (HK := hold_kept t Ht). rewrite <- Hy in HK. unfold hold in HK. unfold off, flm.
    assert (WS : rsum nc W = 1 / a3) by apply (code_weights jac nc 2 Hnc HJ).
    rewrite (rsum_ext nc (fun i => W i * (Y i t - Y last t)) (fun i => W i * Y i t - W i * Y last t)) by (intros; ring). rewrite rsum_minus, rsum_scal_r, WS.
    replace (1 / a3) with (/ 3) by (simpl; field). lra. }
  assert (S1 : vanishes (fun t => Y last t - y)).
  { apply (vanishes_le 3 t0 off); [lra| |exact OV]. intros t Ht. assert (E := OC t Ht). destruct (Rle_dec (Y last t) y) as [O|O].
    - assert (F := Hf y (Y last t) O). assert (0 <= m * (y - Y last t)) by (apply Rmult_le_pos; lra). rewrite Rabs_minus_sym, (Rabs_pos_eq (y - _)) by lra.
      assert (A := Rle_abs (off t)). assert (0 <= al * (f y - f (Y last t))) by (apply Rmult_le_pos; lra). lra.
    - assert (F := Hf (Y last t) y ltac:(lra)). assert (0 <= m * (Y last t - y)) by (apply Rmult_le_pos; lra). rewrite (Rabs_pos_eq (_ - y)) by lra.
      assert (A := Rle_abs (- off t)). rewrite Rabs_Ropp in A. assert (0 <= al * (f (Y last t) - f y)) by (apply Rmult_le_pos; lra). lra. }
  split.
  - apply (vanishes_ext (fun t => flm t + (f (Y last t) - f y))); [intros; unfold flm; ring|]. apply vanishes_plus; [apply flm_vanishes|].
    apply (vanishes_le L t0 (fun t => Y last t - y)); [apply Lp| |exact S1]. intros t Ht. apply f_lip.
  - intros i Hi. apply (vanishes_ext (fun t => (Y i t - Y last t) + (Y last t - y))); [intros; ring|].
    apply (vanishes_plus (fun t => Y i t - Y last t)); [apply levels, Hi|exact S1].
Qed.
End Mono.
