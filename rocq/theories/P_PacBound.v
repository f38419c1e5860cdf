(** Energy of a powdered-carbon contactor. *)
From Coq Require Import Reals Lra Lia Arith.
From Verif Require Import Lib_Py P_GacFun Lib_Pow Lib_Sum Lib_Traj Lib_Poly S_Colloc M_Colloc S_Radial P_Radial M_Pac P_Pac Props_Pac.
Open Scope R_scope.

Lemma rsum_member n f i : (i < n)%nat -> (forall j, (j < n)%nat -> 0 <= f j) -> f i <= rsum n f.
Proof.
  induction n as [|n IH]; intros Hi Hp; [lia|]. cbn [rsum]. destruct (Nat.eq_dec i n) as [->|N].
  - assert (0 <= rsum n f) by (apply rsum_nonneg; intros; apply Hp; lia). lra.
  - assert (f i <= rsum n f) by (apply IH; [lia|intros; apply Hp; lia]). assert (0 <= f n) by (apply Hp; lia). lra.
Qed.
(** The power of a clipped number, and its antiderivative. *)
Definition clip (x : R) : R := if rltb x 0 then 0 else x.
Lemma clip_pos x : 0 <= x -> clip x = x.
Proof. intros H. unfold clip. destruct (rltb x 0) eqn:E; [apply rltb_true in E; lra|reflexivity]. Qed.
Lemma clip_neg x : x <= 0 -> clip x = 0.
Proof. intros H. unfold clip. destruct (rltb x 0) eqn:E; [reflexivity|apply rltb_false in E; lra]. Qed.
Lemma clip_nonneg x : 0 <= clip x.
Proof. destruct (Rle_dec 0 x); [rewrite clip_pos|rewrite clip_neg]; lra. Qed.
Definition prim (e x : R) : R := rpow (clip x) (e + 1) / (e + 1).

Lemma rpow_deriv e x : 0 < x -> derivable_pt_lim (fun y => rpow y e) x (e * rpow x (e - 1)).
Proof.
  intros Hx. assert (D := derivable_pt_lim_power x e Hx). rewrite (rpow_Rpower x (e - 1) Hx).
  intros eps He. destruct (D eps He) as (dl & Hd).
  assert (M : 0 < Rmin dl x) by (apply Rmin_pos; [apply cond_pos|exact Hx]). exists (mkposreal _ M). intros h Hh Hl. simpl in Hl.
  assert (Hl1 : Rabs h < dl) by (eapply Rlt_le_trans; [exact Hl|apply Rmin_l]).
  assert (Hl2 : Rabs h < x) by (eapply Rlt_le_trans; [exact Hl|apply Rmin_r]).
  apply Rabs_def2 in Hl2. rewrite !rpow_Rpower by lra. apply Hd; assumption.
Qed.
Lemma prim_deriv e x : 0 < e -> derivable_pt_lim (prim e) x (rpow (clip x) e).
Proof.
  intros He. destruct (Rtotal_order x 0) as [L|[->|L]].
  - rewrite clip_neg, rpow_0 by lra. intros eps Hp. assert (M : 0 < - x) by lra. exists (mkposreal _ M). intros h Hh Hl. simpl in Hl. apply Rabs_def2 in Hl.
    unfold prim. rewrite !clip_neg by lra. replace ((rpow 0 (e + 1) / (e + 1) - rpow 0 (e + 1) / (e + 1)) / h - 0) with 0 by (field; lra). rewrite Rabs_R0. exact Hp.
  - rewrite clip_neg, rpow_0 by lra. intros eps Hp.
    (* |prim h / h| <= h^e/(e+1) < eps for small h *)
    assert (M : 0 < rpow eps (/ e)) by (apply rpow_pos, Hp). exists (mkposreal _ M). intros h Hh Hl. simpl in Hl.
    unfold prim. rewrite Rplus_0_l, (clip_neg 0), rpow_0 by lra.
    destruct (Rle_dec h 0) as [Hn|Hn].
    + rewrite clip_neg, rpow_0 by lra. replace ((0 / (e + 1) - 0 / (e + 1)) / h - 0) with 0 by (field; split; lra). rewrite Rabs_R0. exact Hp.
    + rewrite clip_pos by lra. rewrite rpow_plus by lra. rewrite rpow_1 by lra.
      replace ((rpow h e * h / (e + 1) - 0 / (e + 1)) / h - 0) with (rpow h e / (e + 1)) by (field; split; lra).
      assert (P := rpow_pos h e ltac:(lra)). rewrite Rabs_pos_eq; [|left; apply Rdiv_lt_0_compat; lra].
      apply Rle_lt_trans with (rpow h e).
      * apply Rmult_le_reg_r with (e + 1); [lra|]. unfold Rdiv. rewrite Rmult_assoc, Rinv_l, Rmult_1_r by lra. nra.
      * rewrite Rabs_pos_eq in Hl by lra. replace eps with (rpow (rpow eps (/ e)) e); [apply rpow_lt; lra|].
        rewrite rpow_rpow by exact Hp. replace (/ e * e) with 1 by (field; lra). apply rpow_1. lra.
  - rewrite clip_pos by lra.
    assert (D := rpow_deriv (e + 1) x L). replace (e + 1 - 1) with e in D by ring.
    assert (D2 : derivable_pt_lim (fun y => / (e + 1) * rpow y (e + 1)) x (/ (e + 1) * ((e + 1) * rpow x e))) by (apply (derivable_pt_lim_scal (fun y => rpow y (e + 1))), D).
    replace (/ (e + 1) * ((e + 1) * rpow x e)) with (rpow x e) in D2 by (field; lra).
    intros eps Hp. destruct (D2 eps Hp) as (dl & Hd). assert (M : 0 < Rmin dl x) by (apply Rmin_pos; [apply cond_pos|exact L]).
    exists (mkposreal _ M). intros h Hh Hl. simpl in Hl.
    assert (Hl1 : Rabs h < dl) by (eapply Rlt_le_trans; [exact Hl|apply Rmin_l]).
    assert (Hl2 : Rabs h < x) by (eapply Rlt_le_trans; [exact Hl|apply Rmin_r]). apply Rabs_def2 in Hl2.
    unfold prim. rewrite !clip_pos by lra. specialize (Hd h Hh Hl1).
    replace (rpow (x + h) (e + 1) / (e + 1)) with (/ (e + 1) * rpow (x + h) (e + 1)) by (unfold Rdiv; ring).
    replace (rpow x (e + 1) / (e + 1)) with (/ (e + 1) * rpow x (e + 1)) by (unfold Rdiv; ring). exact Hd.
Qed.
Lemma prim_nonneg e x : 0 < e -> 0 <= prim e x.
Proof. intros He. unfold prim. apply Rmult_le_pos; [apply rpow_nonneg, clip_nonneg|left; apply Rinv_0_lt_compat; lra]. Qed.
Lemma prim_neg e x : 0 < e -> x <= 0 -> prim e x = 0.
Proof. intros He Hx. unfold prim. rewrite clip_neg, rpow_0 by lra. unfold Rdiv. ring. Qed.
Lemma prim_lt e x y : 0 < e -> 0 <= x < y -> prim e x < prim e y.
Proof.
  intros He H. unfold prim. rewrite !clip_pos by lra. apply Rmult_lt_compat_r; [apply Rinv_0_lt_compat; lra|]. apply rpow_lt; lra.
Qed.
Lemma prim_le e x y : 0 < e -> 0 <= x <= y -> prim e x <= prim e y.
Proof. intros He H. destruct (Req_dec x y) as [->|N]; [lra|]. left. apply prim_lt; lra. Qed.

Lemma evolves_comp a b f f' (g g' : R -> R) : (forall x, derivable_pt_lim g x (g' x)) -> evolves a b f f' ->
  evolves a b (fun t => g (f t)) (fun t => g' (f t) * f' t).
Proof.
  intros D (HC & HD). split; intros t Ht.
  - apply (continuity_pt_comp f g); [apply HC, Ht|]. apply derivable_continuous_pt. exists (g' (f t)). apply D.
  - apply (derivable_pt_lim_comp f g); [apply HD, Ht|apply D].
Qed.

Section Energy.
Variables (jac : nat -> R -> R -> nat -> R) (nc : nat) (q : eqn).
Notation a3 := (INR 3).
Notation u := (rootsu jac nc a3).
Notation B := (Bx nc u a3).
Notation W := (Wx nc u a3).
Hypothesis Hnc : (1 <= nc)%nat.
Hypothesis HJ : jacobi_roots 2 (nc - 1) (jac (nc - 1)%nat (a3 / 2 + 1) (a3 / 2)).
Hypothesis Hrho : 0 < q_rho q.
Hypothesis HK : 0 < q_K q.
Hypothesis Hq : 0 < q_n q.
Hypothesis HkL : 0 < q_kL q.
Hypothesis HE : 0 < q_E q < 1.
Hypothesis HEp : 0 <= q_Ep q.
Hypothesis HDs : 0 <= q_Ds q <= q_Dp q.
Hypothesis Hra : 0 < q_ra q.

Notation k0 := (q_rho q * q_K q).
Notation dd := (q_Ep q * (q_Dp q - q_Ds q)).
Lemma k0_pos : 0 < k0. Proof. apply Rmult_lt_0_compat; assumption. Qed.
Lemma dd_nonneg : 0 <= dd. Proof. apply Rmult_le_pos; lra. Qed.
Definition por (y : R) : R := rpow (clip (y / k0)) (q_n q).
Lemma pore_por Y i : pore q Y i = por (Y i).
Proof. unfold pore, por, clip. cbv zeta. replace (Y i / q_rho q / q_K q) with (Y i / k0) by (field; lra). reflexivity. Qed.
(** what drives diffusion in a bead, and its antiderivative *)
Definition drive (y : R) : R := dd * por y + q_Ds q * y.
Definition Phi (y : R) : R := dd * (k0 * prim (q_n q) (y / k0)) + q_Ds q * (y ^ 2 / 2).
Lemma sq_deriv y : derivable_pt_lim (fun y => y ^ 2 / 2) y y.
Proof.
  assert (D := derivable_pt_lim_pow y 2). apply (derivable_pt_lim_scal _ (/ 2)) in D. simpl in D.
  replace y with (/ 2 * ((1 + 1) * (y * 1))) at 2 by field. eapply derivable_pt_lim_ext; [|exact D]. intros z. unfold mult_real_fct. simpl. field.
Qed.
Lemma prim_scaled e k y : 0 < e -> 0 < k -> derivable_pt_lim (fun y => k * prim e (y / k)) y (rpow (clip (y / k)) e).
Proof.
  intros He Hk. replace (rpow (clip (y / k)) e) with (k * (rpow (clip (y / k)) e * (/ k * 1))) by (field; lra).
  apply (derivable_pt_lim_scal (fun y => prim e (y / k))). apply (derivable_pt_lim_comp (fun y => y / k) (prim e)); [|apply prim_deriv, He].
  apply (derivable_pt_lim_ext (fun y => / k * y)); [intros z; unfold Rdiv; ring|]. apply (derivable_pt_lim_scal (fun y => y)), derivable_pt_lim_id.
Qed.
Lemma Phi_deriv y : derivable_pt_lim Phi y (drive y).
Proof.
  unfold Phi, drive. apply (derivable_pt_lim_plus (fun y => dd * (k0 * prim (q_n q) (y / k0))) (fun y => q_Ds q * (y ^ 2 / 2))).
  - apply (derivable_pt_lim_scal (fun y => k0 * prim (q_n q) (y / k0))). apply prim_scaled; [exact Hq|apply k0_pos].
  - apply (derivable_pt_lim_scal (fun y => y ^ 2 / 2)). apply sq_deriv.
Qed.
Lemma Phi_lower y : q_Ds q * (y ^ 2 / 2) <= Phi y.
Proof.
  unfold Phi. assert (0 <= dd * (k0 * prim (q_n q) (y / k0))); [|lra].
  apply Rmult_le_pos; [apply dd_nonneg|]. apply Rmult_le_pos; [left; apply k0_pos|apply prim_nonneg, Hq].
Qed.
Lemma Phi_nonneg y : 0 <= Phi y.
Proof. assert (H := Phi_lower y). assert (0 <= q_Ds q * (y ^ 2 / 2)); [|lra]. apply Rmult_le_pos; [lra|]. assert (X := pow2_ge_0 y). lra. Qed.
Lemma Phi_0 : Phi 0 = 0.
Proof. unfold Phi. rewrite prim_neg by (try exact Hq; unfold Rdiv; lra). simpl. unfold Rdiv. ring. Qed.

(** the same for the liquid *)
Notation e1 := (/ q_n q).
Lemma e1_pos : 0 < e1. Proof. apply Rinv_0_lt_compat, Hq. Qed.
Definition mu (c : R) : R := dd * c + q_Ds q * (k0 * rpow (clip c) e1).
Definition Gl (c : R) : R := dd * (c ^ 2 / 2) + q_Ds q * (k0 * prim e1 c).
Lemma Gl_deriv c : derivable_pt_lim Gl c (mu c).
Proof.
  unfold Gl, mu. apply (derivable_pt_lim_plus (fun y => dd * (y ^ 2 / 2)) (fun c => q_Ds q * (k0 * prim e1 c))).
  - apply (derivable_pt_lim_scal (fun y => y ^ 2 / 2)). apply sq_deriv.
  - apply (derivable_pt_lim_scal (fun c => k0 * prim e1 c)). apply (derivable_pt_lim_scal (prim e1)). apply prim_deriv, e1_pos.
Qed.
Lemma mu_mono c d : 0 <= c <= d -> mu c <= mu d.
Proof.
  intros H. unfold mu. rewrite !clip_pos by lra. assert (X := dd_nonneg). assert (Y := rpow_le c d e1 H ltac:(assert (Z := e1_pos); lra)).
  assert (Z := k0_pos). apply Rplus_le_compat; [apply Rmult_le_compat_l; lra|]. apply Rmult_le_compat_l; [lra|]. apply Rmult_le_compat_l; lra.
Qed.
Lemma drive_mu y : 0 <= y -> drive y = mu (por y) /\ 0 <= por y.
Proof.
  intros H. assert (P : 0 <= por y) by (apply rpow_nonneg, clip_nonneg). split; [|exact P]. assert (Z := k0_pos).
  unfold drive, mu. f_equal. f_equal. rewrite (clip_pos (por y)) by exact P. unfold por.
  destruct (Req_dec y 0) as [->|N].
  - assert (E := e1_pos). unfold Rdiv. rewrite Rmult_0_l, clip_neg, !rpow_0 by lra. ring.
  - rewrite clip_pos; [|left; apply Rdiv_lt_0_compat; lra]. rewrite rpow_rpow by (apply Rdiv_lt_0_compat; lra).
    rewrite Rinv_r, rpow_1 by (try lra; left; apply Rdiv_lt_0_compat; lra). field. split; lra.
Qed.
Lemma mu_nonneg c : 0 <= c -> 0 <= mu c.
Proof.
  intros H. unfold mu. assert (X := dd_nonneg). assert (Z := k0_pos). assert (P := rpow_nonneg (clip c) e1 (clip_nonneg c)).
  apply Rplus_le_le_0_compat; [apply Rmult_le_pos; lra|]. apply Rmult_le_pos; [lra|apply Rmult_le_pos; lra].
Qed.
Lemma transfer_sign c y : 0 <= c -> 0 <= (c - por y) * (mu c - drive y).
Proof.
  intros H. destruct (Rle_dec 0 y) as [P|P].
  - destruct (drive_mu y P) as (-> & Q). destruct (Rle_dec (por y) c) as [L|L].
    + assert (X := mu_mono (por y) c ltac:(lra)). apply Rmult_le_pos; lra.
    + assert (X := mu_mono c (por y) ltac:(lra)). replace ((c - por y) * (mu c - mu (por y))) with ((por y - c) * (mu (por y) - mu c)) by ring. apply Rmult_le_pos; lra.
  - assert (E : por y = 0). { unfold por. rewrite clip_neg, rpow_0; [reflexivity|lra|]. assert (Z := k0_pos). apply Rmult_le_reg_r with k0; [exact Z|]. unfold Rdiv. rewrite Rmult_assoc, Rinv_l by lra. lra. }
    unfold drive. rewrite E. assert (X := mu_nonneg c H). apply Rmult_le_pos; [lra|].
    assert (0 <= q_Ds q * (- y)) by (apply Rmult_le_pos; lra). lra.
Qed.

(** Along a run. *)
Variables (t0 t1 : R) (C : R -> R) (Y : nat -> R -> R).
Hypothesis HF : follows nc B W q t0 t1 C Y.
Hypothesis HC0 : 0 <= C t0.
Notation rate := (3 * q_kL q * (1 - q_E q) / (q_E q * q_ra q)).
Lemma rate_pos : 0 < rate.
Proof. apply Rdiv_lt_0_compat; [apply Rmult_lt_0_compat; [lra|lra]|apply Rmult_lt_0_compat; lra]. Qed.
Lemma liquid_rate t : dC_dt nc q (C t) (fun i => Y i t) = - rate * (C t - por (Y (nc - 1)%nat t)).
Proof. unfold dC_dt, flux. rewrite pore_por. field. lra. Qed.
Lemma liquid_lower t : t0 <= t <= t1 -> C t0 * exp (- rate * (t - t0)) <= C t.
Proof.
  intros Ht. destruct HF as (HC & _).
  assert (X := evolves_mult t0 t1 _ _ _ _ (evolves_exp t0 t1 rate) (evolves_scal t0 t1 (-1) C _ HC)).
  assert (Z := evolves_nonincreasing t0 t1 _ _ X). cbv beta in Z.
  assert (L : exp (rate * t) * (-1 * C t) <= exp (rate * t0) * (-1 * C t0)).
  { apply Z; [|exact Ht]. intros s Hs. rewrite liquid_rate. assert (P : 0 <= por (Y (nc - 1)%nat s)) by (apply rpow_nonneg, clip_nonneg).
    assert (R := rate_pos). assert (E := exp_pos (rate * s)).
    replace (rate * exp (rate * s) * (-1 * C s) + exp (rate * s) * (-1 * (- rate * (C s - por (Y (nc - 1)%nat s))))) with (- (rate * exp (rate * s) * por (Y (nc - 1)%nat s))) by ring.
    assert (0 <= rate * exp (rate * s) * por (Y (nc - 1)%nat s)); [|lra]. apply Rmult_le_pos; [|exact P]. apply Rmult_le_pos; lra. }
  replace (- rate * (t - t0)) with (rate * t0 + - (rate * t)) by ring. rewrite exp_plus, exp_Ropp.
  assert (E := exp_pos (rate * t)). apply Rmult_le_reg_l with (exp (rate * t)); [exact E|].
  revert L E. generalize (exp (rate * t)) (exp (rate * t0)). intros v w L E.
  replace (v * (C t0 * (w * / v))) with (w * C t0) by (field; lra). lra.
Qed.
Lemma liquid_nonneg t : t0 <= t <= t1 -> 0 <= C t.
Proof. intros Ht. eapply Rle_trans; [|apply liquid_lower, Ht]. apply Rmult_le_pos; [exact HC0|left; apply exp_pos]. Qed.

Notation al := (q_E q / (3 * (1 - q_E q))).
Definition energy (t : R) : R := rsum nc (fun i => W i * Phi (Y i t)) + al * Gl (C t).
Lemma weights_pos i : (i < nc)%nat -> 0 < W i.
Proof. apply (code_weights jac nc 2 Hnc HJ). Qed.
Lemma diffusion_drive t i : diffusion nc B q (fun j => Y j t) i = apply_row nc B (fun j => drive (Y j t)) i / q_ra q ^ 2.
Proof.
  unfold diffusion, apply_row, drive. f_equal. rewrite <- !rsum_scal, <- rsum_plus. apply rsum_ext. intros j Hj. rewrite pore_por. ring.
Qed.
Lemma bead_power t : rsum nc (fun i => W i * (drive (Y i t) * dY_dt nc B W q (C t) (fun i => Y i t) i))
  = rsum nc (fun i => W i * (drive (Y i t) - drive (Y (nc - 1)%nat t)) * apply_row nc B (fun j => drive (Y j t)) i) / q_ra q ^ 2
    - drive (Y (nc - 1)%nat t) * flux nc q (C t) (fun i => Y i t) / q_ra q.
Proof.
  set (ds := drive (Y (nc - 1)%nat t)). assert (Wn : W (nc - 1)%nat <> 0) by (apply Rgt_not_eq, weights_pos; lia).
  assert (E := weighted_rate nc B W q (C t) (fun i => Y i t) Hnc Wn).
  transitivity (rsum nc (fun i => W i * (drive (Y i t) - ds) * dY_dt nc B W q (C t) (fun i => Y i t) i) + ds * rsum nc (fun i => W i * dY_dt nc B W q (C t) (fun i => Y i t) i)).
  - rewrite <- rsum_scal, <- rsum_plus. apply rsum_ext. intros i Hi. ring.
  - rewrite E. unfold Rminus, Rdiv. rewrite (Rmult_comm _ (/ q_ra q ^ 2)), <- rsum_scal. f_equal; [|ring].
    apply rsum_ext. intros i Hi. unfold dY_dt. destruct (Nat.eqb_spec i (nc - 1)) as [->|N].
    + fold ds. ring.
    + rewrite diffusion_drive. unfold Rdiv. ring.
Qed.
Lemma energy_evolves : evolves t0 t1 energy (fun t =>
  rsum nc (fun i => W i * (drive (Y i t) - drive (Y (nc - 1)%nat t)) * apply_row nc B (fun j => drive (Y j t)) i) / q_ra q ^ 2
  - q_kL q / q_ra q * ((C t - por (Y (nc - 1)%nat t)) * (mu (C t) - drive (Y (nc - 1)%nat t)))).
Proof.
  assert (HF' := HF). destruct HF' as (HC & HY).
  assert (V : evolves t0 t1 energy (fun t => rsum nc (fun i => W i * (drive (Y i t) * dY_dt nc B W q (C t) (fun i => Y i t) i))
    + al * (mu (C t) * dC_dt nc q (C t) (fun i => Y i t)))).
  { unfold energy. apply evolves_plus.
    - apply (evolves_rsum t0 t1 nc (fun i t => W i * Phi (Y i t)) (fun i t => W i * (drive (Y i t) * dY_dt nc B W q (C t) (fun i => Y i t) i))).
      intros i Hi. apply evolves_scal. apply (evolves_comp t0 t1 _ _ Phi drive Phi_deriv). apply HY, Hi.
    - apply evolves_scal. apply (evolves_comp t0 t1 _ _ Gl mu Gl_deriv). exact HC. }
  eapply evolves_ext; [intros; reflexivity| |exact V]. intros s Hs. cbv beta. rewrite bead_power.
  set (X := rsum nc (fun i => W i * (drive (Y i s) - drive (Y (nc - 1)%nat s)) * apply_row nc B (fun j => drive (Y j s)) i)) in *.
  rewrite liquid_rate. unfold flux. rewrite pore_por. field. lra.
Qed.
Lemma energy_decays t : t0 <= t <= t1 -> energy t <= energy t0.
Proof.
  intros Ht. apply (evolves_nonincreasing t0 t1 _ _ energy_evolves); [|exact Ht]. intros s Hs.
  assert (D := code_dissipation jac nc 2 Hnc HJ (fun j => drive (Y j s))). cbv beta in D.
  set (X := rsum nc (fun i => W i * (drive (Y i s) - drive (Y (nc - 1)%nat s)) * apply_row nc B (fun j => drive (Y j s)) i)) in *.
  assert (T := transfer_sign (C s) (Y (nc - 1)%nat s) (liquid_nonneg s ltac:(lra))).
  assert (0 <= q_kL q / q_ra q * ((C s - por (Y (nc - 1)%nat s)) * (mu (C s) - drive (Y (nc - 1)%nat s)))).
  { apply Rmult_le_pos; [left; apply Rdiv_lt_0_compat; assumption|exact T]. }
  assert (0 < / q_ra q ^ 2) by (apply Rinv_0_lt_compat, pow_lt, Hra).
  assert (X / q_ra q ^ 2 <= 0) by (unfold Rdiv; nra). lra.
Qed.
(** Bounds on the bead, from any start. *)
Lemma Gl_nonneg c : 0 <= Gl c.
Proof.
  unfold Gl. assert (X := dd_nonneg). assert (Z := k0_pos). assert (P := prim_nonneg e1 c e1_pos). assert (S := pow2_ge_0 c).
  apply Rplus_le_le_0_compat; [apply Rmult_le_pos; lra|]. apply Rmult_le_pos; [lra|apply Rmult_le_pos; lra].
Qed.
Lemma al_pos : 0 < al.
Proof. apply Rdiv_lt_0_compat; lra. Qed.
Lemma bead_terms t i : (i < nc)%nat -> 0 <= W i * Phi (Y i t).
Proof. intros Hi. apply Rmult_le_pos; [left; apply weights_pos, Hi|apply Phi_nonneg]. Qed.
Lemma bead_bound t i : t0 <= t <= t1 -> (i < nc)%nat -> W i * (q_Ds q * (Y i t ^ 2 / 2)) <= energy t0.
Proof.
  intros Ht Hi. eapply Rle_trans; [|apply energy_decays, Ht]. unfold energy.
  assert (G := Rmult_le_pos _ _ (Rlt_le _ _ al_pos) (Gl_nonneg (C t))).
  assert (S : W i * Phi (Y i t) <= rsum nc (fun i => W i * Phi (Y i t))) by (apply (rsum_member nc (fun i => W i * Phi (Y i t)) i Hi); intros j Hj; apply bead_terms, Hj).
  assert (P := Rmult_le_compat_l _ _ _ (Rlt_le _ _ (weights_pos i Hi)) (Phi_lower (Y i t))). lra.
Qed.
Lemma liquid_upper : (0 < q_Ds q \/ 0 < dd) -> (forall i, (i < nc)%nat -> Y i t0 = 0) ->
  forall t, t0 <= t <= t1 -> C t <= C t0.
Proof.
  intros HD HY0 t Ht. assert (D := energy_decays t Ht). unfold energy in D.
  assert (S : 0 <= rsum nc (fun i => W i * Phi (Y i t))) by (apply rsum_nonneg; intros; apply bead_terms; assumption).
  rewrite (rsum_zero nc (fun i => W i * Phi (Y i t0))) in D by (intros i Hi; rewrite HY0, Phi_0 by exact Hi; ring).
  assert (A := al_pos). assert (G : Gl (C t) <= Gl (C t0)) by (apply Rmult_le_reg_l with al; [exact A|lra]).
  apply Rnot_lt_le. intros L. assert (X := dd_nonneg). assert (Z := k0_pos). assert (E := e1_pos).
  assert (P : prim e1 (C t0) < prim e1 (C t)) by (apply prim_lt; lra).
  assert (Q : C t0 ^ 2 / 2 < C t ^ 2 / 2) by (assert (C t0 ^ 2 < C t ^ 2) by nra; lra).
  revert G. apply Rlt_not_le. unfold Gl.
  assert (P2 : k0 * prim e1 (C t0) < k0 * prim e1 (C t)) by (apply Rmult_lt_compat_l; lra).
  destruct HD as [HD|HD].
  - apply Rplus_le_lt_compat; [apply Rmult_le_compat_l; lra|apply Rmult_lt_compat_l; lra].
  - apply Rplus_lt_le_compat; [apply Rmult_lt_compat_l; lra|apply Rmult_le_compat_l; lra].
Qed.
End Energy.
