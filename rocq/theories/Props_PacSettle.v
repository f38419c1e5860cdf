(** C189 — a powdered-carbon contactor left alone settles at the equilibrium that the isotherm and
    the mass balance fix; more carbon leaves less in the water. *)
From Coq Require Import Reals List Arith Lia Lra String.
From Verif Require Import Lib_Py Lib_Pow Lib_PowLip Lib_Sum Lib_Traj Lib_Settle S_Colloc S_Radial M_Colloc P_Radial P_JacobiRoots M_Pac P_Pac Props_Pac P_PacBound Props_PacBound P_PacSettle Props_Unique.
Open Scope R_scope.

(** ** One endless run from runs of every length *)
Section Glue.
Variables (nc : nat) (B : nat -> nat -> R) (W : nat -> R) (q : eqn) (a C0 : R) (Y0 : nat -> R).
Hypothesis Hnc : (1 <= nc)%nat.
Hypothesis Hn : 1 <= q_n q.
Definition run_to (b : R) (C : R -> R) (Y : nat -> R -> R) : Prop :=
  follows nc B W q a b C Y /\ C a = C0 /\ forall i, (i < nc)%nat -> Y i a = Y0 i.
Hypothesis HX : forall b, a <= b -> exists C Y, run_to b C Y.
Lemma follows_sub b c C Y : c <= b -> follows nc B W q a b C Y -> follows nc B W q a c C Y.
Proof. intros H (F & G). split; [apply (evolves_sub a b c _ _ H F)|]. intros i Hi. apply (evolves_sub a b c _ _ H (G i Hi)). Qed.
Lemma runs_agree b1 b2 C1 Y1 C2 Y2 t : run_to b1 C1 Y1 -> run_to b2 C2 Y2 -> a <= t -> t <= b1 -> t <= b2 ->
  C1 t = C2 t /\ forall i, (i < nc)%nat -> Y1 i t = Y2 i t.
Proof.
  intros (F1 & A1 & I1) (F2 & A2 & I2) Ht H1 H2.
  apply (C158_contactor_partial nc B W q a t C1 Y1 C2 Y2 Hnc Hn (follows_sub b1 t C1 Y1 H1 F1) (follows_sub b2 t C2 Y2 H2 F2)); [lra| |lra].
  intros i Hi. rewrite I1, I2 by exact Hi. reflexivity.
Qed.
Lemma after t : a <= Rmax t a. Proof. apply Rmax_r. Qed.
(** any quantity that all runs agree on *)
Section One.
Variable pr : (R -> R) -> (nat -> R -> R) -> R -> R.
Hypothesis HP : forall b1 b2 C1 Y1 C2 Y2 t, run_to b1 C1 Y1 -> run_to b2 C2 Y2 -> a <= t -> t <= b1 -> t <= b2 -> pr C1 Y1 t = pr C2 Y2 t.
Definition at_time (t x : R) : Prop := exists C Y, run_to (Rmax t a + 1) C Y /\ pr C Y (Rmax t a) = x.
Lemma at_some t : exists x, at_time t x.
Proof. assert (A := after t). destruct (HX (Rmax t a + 1) ltac:(lra)) as (C & Y & H). exists (pr C Y (Rmax t a)), C, Y. split; [exact H|reflexivity]. Qed.
Lemma at_one t x y : at_time t x -> at_time t y -> x = y.
Proof. assert (A := after t). intros (C & Y & H & <-) (D & Z & G & <-). apply (HP _ _ _ _ _ _ _ H G); lra. Qed.
Definition endless (t : R) : R := proj1_sig (the_number (at_time t) (at_some t) (at_one t)).
Lemma endless_spec b C Y t : run_to b C Y -> Rmax t a <= b -> endless t = pr C Y (Rmax t a).
Proof.
  intros H Ht. assert (A := after t). unfold endless. destruct (the_number _ _ _) as (x & D & Z & G & <-). cbn.
  apply (HP _ _ _ _ _ _ _ G H); lra.
Qed.
End One.
Definition endC : R -> R := endless (fun C Y => C) (fun b1 b2 C1 Y1 C2 Y2 t H1 H2 A L1 L2 => proj1 (runs_agree b1 b2 C1 Y1 C2 Y2 t H1 H2 A L1 L2)).
Definition endY (i : nat) : R -> R :=
  match lt_dec i nc with
  | left Hi => endless (fun C Y => Y i) (fun b1 b2 C1 Y1 C2 Y2 t H1 H2 A L1 L2 => proj2 (runs_agree b1 b2 C1 Y1 C2 Y2 t H1 H2 A L1 L2) i Hi)
  | right _ => fun _ => 0
  end.
Lemma endC_spec b C Y t : run_to b C Y -> Rmax t a <= b -> endC t = C (Rmax t a).
Proof. intros H Ht. unfold endC. rewrite (endless_spec _ _ b C Y t H Ht). reflexivity. Qed.
Lemma endY_spec b C Y t i : (i < nc)%nat -> run_to b C Y -> Rmax t a <= b -> endY i t = Y i (Rmax t a).
Proof. intros Hi H Ht. unfold endY. destruct (lt_dec i nc) as [L|L]; [|lia]. rewrite (endless_spec _ _ b C Y t H Ht). reflexivity. Qed.
Lemma max_pos t : a <= t -> Rmax t a = t. Proof. intros H. apply Rmax_left, H. Qed.
Lemma max_cont t : continuity_pt (fun s => Rmax s a) t.
Proof.
  apply (continuity_pt_locally_ext (fun s => (s + a + Rabs (s - a)) * / 2) _ 1); [lra| |].
  - intros s _. unfold Rmax, Rabs. destruct (Rle_dec s a), (Rcase_abs (s - a)); lra.
  - apply continuity_pt_mult; [|apply continuity_pt_const; intros ? ?; reflexivity].
    apply continuity_pt_plus; [apply derivable_continuous_pt; reg|].
    apply (continuity_pt_comp (fun s => s - a) Rabs); [apply derivable_continuous_pt; reg|apply Rcontinuity_abs].
Qed.
Lemma glue_evolves b (f g g' e' : R -> R) : (forall t, Rmax t a <= b + 1 -> f t = g (Rmax t a)) ->
  (forall t, a < t < b -> g' t = e' t) -> evolves a (b + 1) g g' -> evolves a b f e'.
Proof.
  intros E E' (HC & HD). split; intros t Ht.
  - apply (continuity_pt_locally_ext (fun s => g (Rmax s a)) _ 1); [lra| |].
    + intros s Hs. symmetry. apply E. unfold R_dist, Rabs in Hs. apply Rmax_lub; [|lra]. destruct (Rcase_abs (s - t)); lra.
    + apply (continuity_pt_comp (fun s => Rmax s a) g); [apply max_cont|]. rewrite max_pos by lra. apply HC. lra.
  - apply (derivable_pt_lim_locally_ext g f t a b); [exact Ht| |].
    + intros s Hs. rewrite E by (rewrite max_pos; lra). rewrite max_pos by lra. reflexivity.
    + rewrite <- E' by exact Ht. apply HD. lra.
Qed.
Lemma dC_ext C1 C2 Y1 Y2 : C1 = C2 -> (forall i, (i < nc)%nat -> Y1 i = Y2 i) -> dC_dt nc q C1 Y1 = dC_dt nc q C2 Y2.
Proof. intros -> H. unfold dC_dt, flux, pore. rewrite (H (nc - 1)%nat) by lia. reflexivity. Qed.
Lemma diffusion_ext Y1 Y2 i : (forall i, (i < nc)%nat -> Y1 i = Y2 i) -> diffusion nc B q Y1 i = diffusion nc B q Y2 i.
Proof.
  intros H. unfold diffusion. 
  rewrite (rsum_ext nc (fun j => B i j * pore q Y1 j) (fun j => B i j * pore q Y2 j)) by (intros j Hj; unfold pore; rewrite (H j Hj); reflexivity).
  rewrite (rsum_ext nc (fun j => B i j * Y1 j) (fun j => B i j * Y2 j)) by (intros j Hj; rewrite (H j Hj); reflexivity). reflexivity.
Qed.
Lemma dY_ext C1 C2 Y1 Y2 i : C1 = C2 -> (forall i, (i < nc)%nat -> Y1 i = Y2 i) -> dY_dt nc B W q C1 Y1 i = dY_dt nc B W q C2 Y2 i.
Proof.
  intros -> H. unfold dY_dt. rewrite (diffusion_ext Y1 Y2 i H). destruct (Nat.eqb i (nc - 1)); [|reflexivity].
  unfold flux. replace (pore q Y1 (nc - 1)) with (pore q Y2 (nc - 1)) by (unfold pore; rewrite (H (nc - 1)%nat) by lia; reflexivity).
  rewrite (rsum_ext (nc - 1) (fun k => W k * diffusion nc B q Y1 k) (fun k => W k * diffusion nc B q Y2 k)) by (intros k _; rewrite (diffusion_ext Y1 Y2 k H); reflexivity).
  reflexivity.
Qed.
Lemma end_follows b : follows nc B W q a b endC endY.
Proof.
  destruct (Rle_dec a b) as [L|L].
  2:{ split; [|intros i Hi]; split; intros t Ht; exfalso; lra. }
  destruct (HX (b + 1) ltac:(lra)) as (C & Y & H). assert (HF := proj1 H). destruct HF as (FC & FY).
  assert (EC : forall t, a < t < b -> C t = endC t) by (intros t Ht; rewrite (endC_spec (b + 1) C Y t H); rewrite max_pos by lra; [reflexivity|lra]).
  assert (EY : forall t i, a < t < b -> (i < nc)%nat -> Y i t = endY i t) by (intros t i Ht Hi; rewrite (endY_spec (b + 1) C Y t i Hi H); rewrite max_pos by lra; [reflexivity|lra]).
  split.
  - apply (glue_evolves b endC C (fun t => dC_dt nc q (C t) (fun i => Y i t))); [intros t Ht; apply (endC_spec (b + 1) C Y t H Ht)| |exact FC].
    intros t Ht. apply dC_ext; [apply EC, Ht|]. intros i Hi. apply EY; assumption.
  - intros i Hi. apply (glue_evolves b (endY i) (Y i) (fun t => dY_dt nc B W q (C t) (fun i => Y i t) i)); [intros t Ht; apply (endY_spec (b + 1) C Y t i Hi H Ht)| |apply FY, Hi].
    intros t Ht. apply dY_ext; [apply EC, Ht|]. intros j Hj. apply EY; assumption.
Qed.
Lemma end_start : endC a = C0 /\ forall i, (i < nc)%nat -> endY i a = Y0 i.
Proof.
  destruct (HX a ltac:(lra)) as (C & Y & H). assert (M : Rmax a a = a) by (apply max_pos; lra). split.
  - rewrite (endC_spec a C Y a H) by lra. rewrite M. apply H.
  - intros i Hi. rewrite (endY_spec a C Y a i Hi H) by lra. rewrite M. apply H, Hi.
Qed.
End Glue.

(** ** The equilibrium *)
Section Isotherm.
Variables (e k n : R).
Hypothesis He : 0 < e < 1.
Hypothesis Hk : 0 < k.
Hypothesis Hn : 0 < n.
Definition held (x : R) : R := e * x + (1 - e) * (k * rpow x n).
Lemma held_mono x y : 0 <= x < y -> held x < held y.
Proof.
  intros H. unfold held. assert (A := Rmult_lt_compat_l e x y ltac:(lra) ltac:(lra)).
  assert (P : rpow x n <= rpow y n) by (apply rpow_le; lra).
  assert (Q := Rmult_le_compat_l k _ _ ltac:(lra) P). assert (Q2 := Rmult_le_compat_l (1 - e) _ _ ltac:(lra) Q). lra.
Qed.
End Isotherm.

Lemma Rmax_spec' y : (y <= 0 /\ Rmax 0 y = 0 \/ 0 <= y /\ Rmax 0 y = y) /\ 0 <= Rmax 0 y.
Proof. split; [|apply Rmax_l]. destruct (Rle_dec y 0); [left; split; [lra|apply Rmax_left; lra]|right; split; [lra|apply Rmax_right; lra]]. Qed.

(** For every content there is exactly one concentration at which water and carbon are in
    equilibrium. *)
Theorem C189_equilibrium : forall f dosage c total, sensible f dosage c -> xn c <= 1 -> 0 <= total ->
  let eps := 1 - dosage / (f_dw f * 10 ^ 6) in
  exists Ce, (0 <= Ce /\ eps * Ce + (1 - eps) * (f_density f * 1000 * K c * rpow Ce (xn c)) = total) /\
  forall x, 0 <= x -> eps * x + (1 - eps) * (f_density f * 1000 * K c * rpow x (xn c)) = total -> x = Ce.
Proof.
  intros f dosage c total HS Hx Ht. cbv zeta. assert (E := eps_range f dosage c HS). cbn in E. unfold eps_of in E.
  set (e := 1 - dosage / (f_dw f * 10 ^ 6)) in *. assert (HS' := HS). destruct HS' as (H1 & H2 & H3 & H4 & H5 & H6 & H7 & _).
  set (k := f_density f * 1000 * K c). assert (Pk : 0 < k) by (apply Rmult_lt_0_compat; lra).
  assert (U : forall x y, 0 <= x -> 0 <= y -> held e k (xn c) x = total -> held e k (xn c) y = total -> x = y).
  { intros x y Px Py Ex Ey. destruct (Rtotal_order x y) as [L|[L|L]]; [|exact L|].
    - assert (Q := held_mono e k (xn c) E Pk H7 x y ltac:(lra)). lra.
    - assert (Q := held_mono e k (xn c) E Pk H7 y x ltac:(lra)). lra. }
  (* in terms of z = x^n *)
  set (m := 1 / xn c). assert (Hm : 1 <= m). { unfold m. apply Rmult_le_reg_r with (xn c); [lra|]. unfold Rdiv. rewrite Rmult_assoc, Rinv_l; lra. }
  set (N := total / (1 - e) / k + 1). assert (PN : 0 < N).
  { unfold N. assert (0 <= total / (1 - e) / k); [|lra]. apply Rmult_le_pos; [apply Rmult_le_pos; [exact Ht|left; apply Rinv_0_lt_compat; lra]|left; apply Rinv_0_lt_compat, Pk]. }
  set (h := fun z => e * rpow (Rmin (Rmax 0 z) N) m + (1 - e) * (k * Rmin (Rmax 0 z) N) - total).
  assert (CL : forall z, 0 <= Rmin (Rmax 0 z) N <= N). { intros z. split; [apply Rmin_glb; [apply Rmax_l|lra]|apply Rmin_r]. }
  assert (LIP : forall y z, Rabs (Rmin (Rmax 0 y) N - Rmin (Rmax 0 z) N) <= Rabs (y - z)).
  { intros y z. destruct (Rmax_spec' y) as (U1 & U2). destruct (Rmax_spec' z) as (V1 & V2). set (p := Rmax 0 y) in *. set (r := Rmax 0 z) in *.
    unfold Rmin. destruct (Rle_dec p N), (Rle_dec r N); unfold Rabs; destruct (Rcase_abs _), (Rcase_abs _); lra. }
  set (L := e * (m * rpow N (m - 1)) + (1 - e) * k). assert (PL : 0 < L).
  { unfold L. assert (0 < m * rpow N (m - 1)) by (apply Rmult_lt_0_compat; [lra|apply rpow_pos, PN]). assert (0 < e * (m * rpow N (m - 1))) by (apply Rmult_lt_0_compat; lra).
    assert (0 < (1 - e) * k) by (apply Rmult_lt_0_compat; lra). lra. }
  assert (HL : forall y z, Rabs (h y - h z) <= L * Rabs (y - z)).
  { intros y z. unfold h. set (p := Rmin (Rmax 0 y) N) in *. set (r := Rmin (Rmax 0 z) N) in *.
    replace (e * rpow p m + (1 - e) * (k * p) - total - (e * rpow r m + (1 - e) * (k * r) - total)) with (e * (rpow p m - rpow r m) + (1 - e) * k * (p - r)) by ring.
    assert (A := rpow_lip m N p r Hm PN (CL y) (CL z)). assert (D := LIP y z). fold p r in D.
    eapply Rle_trans; [apply Rabs_triang|]. rewrite (Rabs_mult e), (Rabs_mult ((1 - e) * k)), (Rabs_pos_eq e), (Rabs_pos_eq ((1 - e) * k)) by first [lra|apply Rmult_le_pos; lra].
    unfold L. rewrite Rmult_plus_distr_r. apply Rplus_le_compat.
    - rewrite Rmult_assoc. apply Rmult_le_compat_l; [lra|]. eapply Rle_trans; [exact A|]. apply Rmult_le_compat_l; [apply Rmult_le_pos; [lra|left; apply rpow_pos, PN]|exact D].
    - apply Rmult_le_compat_l; [apply Rmult_le_pos; lra|exact D]. }
  assert (HC : continuity h).
  { intros x eps He. exists (eps / L). split; [apply Rdiv_lt_0_compat; [exact He|exact PL]|]. intros y (_ & Hy). cbn in Hy |- *. unfold R_dist in *.
    eapply Rle_lt_trans; [apply HL|]. apply Rmult_lt_reg_r with (/ L); [apply Rinv_0_lt_compat, PL|].
    replace (L * Rabs (y - x) * / L) with (Rabs (y - x)) by (field; lra). exact Hy. }
  assert (h0 : h 0 <= 0).
  { unfold h. rewrite (Rmax_left 0 0), Rmin_left by lra. rewrite rpow_0 by lra. lra. }
  assert (hN : 0 <= h N).
  { unfold h. rewrite Rmax_right by lra. rewrite Rmin_left by lra. assert (0 <= e * rpow N m) by (apply Rmult_le_pos; [lra|apply rpow_nonneg; lra]).
    assert (EN : (1 - e) * (k * N) = total + (1 - e) * k) by (unfold N; field; lra). assert (0 < (1 - e) * k) by (apply Rmult_lt_0_compat; lra). lra. }
  destruct (IVT_cor h 0 N HC ltac:(lra) ltac:(nra)) as (z & Hz & Ez). unfold h in Ez. rewrite Rmax_right, Rmin_left in Ez by lra.
  assert (INV : rpow (rpow z m) (xn c) = z).
  { destruct (Req_dec z 0) as [->|Nz]; [rewrite !rpow_0; lra|]. rewrite rpow_rpow by lra. unfold m. replace (1 / xn c * xn c) with 1 by (field; lra). apply rpow_1. lra. }
  exists (rpow z m). assert (EZ : held e k (xn c) (rpow z m) = total) by (unfold held; rewrite INV; lra).
  split; [split; [apply rpow_nonneg; lra|exact EZ]|]. intros x Px Ex. apply U; [exact Px|apply rpow_nonneg; lra|exact Ex|exact EZ].
Qed.

(** Every run from a start, on the grid of the code, comes as close to that equilibrium as one
    likes, and stays there: liquid and every point of the bead. *)
Theorem C189_settles : forall jacobi nc f dosage c a C0 Y0 Ce,
  contactor_grid jacobi nc -> sensible f dosage c -> 0 < Ds c -> xn c <= 1 -> 0 <= C0 -> 0 <= Ce ->
  let '(_, _, B, W) := recur_colloc_symm jacobi nc 3 in
  let eps := 1 - dosage / (f_dw f * 10 ^ 6) in
  eps * Ce + (1 - eps) * (f_density f * 1000 * K c * rpow Ce (xn c)) = eps * C0 + (1 - eps) * (3 * rsum nc (fun i => W i * Y0 i)) ->
  forall tol, 0 < tol -> exists T, forall b C Y,
    follows nc B W (eqn_of f eps c) a b C Y -> C a = C0 -> (forall i, (i < nc)%nat -> Y i a = Y0 i) ->
    forall t, a <= t <= b -> T <= t ->
    Rabs (C t - Ce) < tol /\ forall i, (i < nc)%nat -> Rabs (Y i t - f_density f * 1000 * K c * rpow Ce (xn c)) < tol.
Proof.
  intros jacobi nc f dosage c a C0 Y0 Ce HG HS HDs Hx HC0 HCe.
  assert (LA := fun b (Hb : a <= b) => C188_lasts jacobi nc f dosage c a b C0 Y0 HG HS HDs Hx Hb HC0). revert LA.
  unfold recur_colloc_symm. cbv zeta. intros LA HE tol Htol.
  assert (N := grid_INR jacobi nc HG). assert (E := eps_range f dosage c HS). assert (Q := qn_pos f dosage c HS).
  destruct HG as (Hnc & _). destruct HS as (H1 & H2 & H3 & H4 & H5 & H6 & H7 & H8 & H9 & _).
  change (eqn_of f (1 - dosage / (f_dw f * 10 ^ 6)) c) with (eqn_of f (eps_of f dosage) c) in *.
  change (1 - dosage / (f_dw f * 10 ^ 6)) with (q_E (eqn_of f (eps_of f dosage) c)) in HE.
  set (q := eqn_of f (eps_of f dosage) c) in *.
  assert (Hn1 : 1 <= q_n q). { unfold q; cbn. apply Rmult_le_reg_r with (xn c); [lra|]. unfold Rdiv. rewrite Rmult_assoc, Rinv_l; lra. }
  set (B := Bx nc (rootsu jacobi nc 3) 3) in *. set (W := Wx nc (rootsu jacobi nc 3) 3) in *.
  assert (HXX : forall b, a <= b -> exists C Y, run_to nc B W q a C0 Y0 b C Y) by exact LA.
  set (Ci := endC nc B W q a C0 Y0 Hnc Hn1 HXX). set (Yi := endY nc B W q a C0 Y0 Hnc Hn1 HXX).
  assert (FI : forall b, follows nc B W q a b Ci Yi) by (intros b; apply end_follows).
  destruct (end_start nc B W q a C0 Y0 Hnc Hn1 HXX) as (SC & SY). fold Ci in SC. fold Yi in SY.
  set (y := f_density f * 1000 * K c * rpow Ce (xn c)) in *.
  assert (Pk : 0 < f_density f * 1000 * K c) by (apply Rmult_lt_0_compat; lra).
  assert (PY : por q y = Ce).
  { unfold por, y, q. cbn. replace (f_density f * 1000 * K c * rpow Ce (xn c) / (f_density f * 1000 * K c)) with (rpow Ce (xn c)) by (field; lra).
    rewrite clip_pos by (apply rpow_nonneg, HCe). destruct (Req_dec Ce 0) as [->|NC]; [rewrite !rpow_0; [reflexivity| |]; try lra; apply Rgt_not_eq; exact Q|].
    rewrite rpow_rpow by lra. replace (xn c * (1 / xn c)) with 1 by (field; lra). apply rpow_1, HCe. }
  assert (ST := settles jacobi nc q Hnc N ltac:(unfold q; cbn; lra) ltac:(unfold q; cbn; lra) Hn1 ltac:(unfold q; cbn; lra) E ltac:(unfold q; cbn; lra) ltac:(unfold q; cbn; lra) ltac:(unfold q; cbn; lra) a Ci Yi).
  rewrite INR3 in ST. fold B W in ST. specialize (ST FI ltac:(lra) y).
  rewrite PY in ST. destruct ST as (VC & VY).
  { rewrite HE, SC. do 3 f_equal. apply rsum_ext. intros i Hi. rewrite SY by exact Hi. reflexivity. }
  assert (VT : exists T, forall t, T <= t -> Rabs (Ci t - Ce) < tol /\ forall i, (i < nc)%nat -> Rabs (Yi i t - y) < tol).
  { destruct (VC tol Htol) as (T0 & HT0).
    assert (G : forall n, (n <= nc)%nat -> exists T, forall t, T <= t -> forall i, (i < n)%nat -> Rabs (Yi i t - y) < tol).
    { induction n as [|n IH]; intros Ln; [exists 0; intros; lia|]. destruct (IH ltac:(lia)) as (T1 & HT1). destruct (VY n ltac:(lia) tol Htol) as (T2 & HT2).
      exists (Rmax T1 T2). intros t Ht i Hi. assert (M1 := Rmax_l T1 T2). assert (M2 := Rmax_r T1 T2). destruct (Nat.eq_dec i n) as [->|Ni]; [apply HT2; lra|apply HT1; [lra|lia]]. }
    destruct (G nc (le_n nc)) as (T1 & HT1). exists (Rmax T0 T1). intros t Ht. assert (M1 := Rmax_l T0 T1). assert (M2 := Rmax_r T0 T1).
    split; [apply HT0; lra|apply HT1; lra]. }
  destruct VT as (T & HT). exists T. intros b C Y HF HCa HYa t Ht HTt. destruct (HT t HTt) as (A1 & A2).
  assert (RR : run_to nc B W q a C0 Y0 b C Y) by (split; [exact HF|split; assumption]). assert (M : Rmax t a = t) by (apply Rmax_left; lra).
  split.
  - unfold Ci in A1. rewrite (endC_spec nc B W q a C0 Y0 Hnc Hn1 HXX b C Y t RR) in A1 by lra. rewrite M in A1. exact A1.
  - intros i Hi. specialize (A2 i Hi). unfold Yi in A2. rewrite (endY_spec nc B W q a C0 Y0 Hnc Hn1 HXX b C Y t i Hi RR) in A2 by lra. rewrite M in A2. exact A2.
Qed.

(** Clean carbon: twice the isotherm and balance, with less and with more carbon. *)
Theorem C189_more_carbon : forall f c C0 d1 d2 Ce1 Ce2,
  sensible f d1 c -> sensible f d2 c -> d1 < d2 -> 0 < C0 -> 0 <= Ce1 -> 0 <= Ce2 ->
  (forall d Ce, (d = d1 /\ Ce = Ce1) \/ (d = d2 /\ Ce = Ce2) -> let eps := 1 - d / (f_dw f * 10 ^ 6) in
     eps * Ce + (1 - eps) * (f_density f * 1000 * K c * rpow Ce (xn c)) = eps * C0) ->
  0 < Ce2 < Ce1 /\ Ce1 < C0.
Proof.
  intros f c C0 d1 d2 Ce1 Ce2 HS1 HS2 Hd HC P1 P2 H.
  assert (E1 := eps_range f d1 c HS1). assert (E2 := eps_range f d2 c HS2). cbn in E1, E2. unfold eps_of in E1, E2.
  assert (Q1 := H d1 Ce1 (or_introl (conj eq_refl eq_refl))). assert (Q2 := H d2 Ce2 (or_intror (conj eq_refl eq_refl))). cbv zeta in Q1, Q2.
  destruct HS1 as (H1 & _ & _ & H4 & H5 & H6 & H7 & _).
  assert (LT : 1 - d2 / (f_dw f * 10 ^ 6) < 1 - d1 / (f_dw f * 10 ^ 6)).
  { assert (d1 / (f_dw f * 10 ^ 6) < d2 / (f_dw f * 10 ^ 6)); [|lra]. apply Rmult_lt_compat_r; [apply Rinv_0_lt_compat; lra|exact Hd]. }
  set (e1 := 1 - d1 / (f_dw f * 10 ^ 6)) in *. set (e2 := 1 - d2 / (f_dw f * 10 ^ 6)) in *.
  set (k := f_density f * 1000 * K c) in *. assert (Pk : 0 < k) by (apply Rmult_lt_0_compat; lra).
  assert (Z : forall e x, 0 < e < 1 -> 0 <= x -> e * x + (1 - e) * (k * rpow x (xn c)) = e * C0 -> 0 < x /\ 0 < k * rpow x (xn c) /\ x < C0).
  { intros e x He Px Ex. destruct (Req_dec x 0) as [->|Nx].
    - rewrite rpow_0 in Ex by lra. assert (0 < e * C0) by (apply Rmult_lt_0_compat; lra). lra.
    - assert (R1 : 0 < k * rpow x (xn c)) by (apply Rmult_lt_0_compat; [exact Pk|apply rpow_pos; lra]). split; [lra|]. split; [exact R1|].
      assert (0 < (1 - e) * (k * rpow x (xn c))) by (apply Rmult_lt_0_compat; lra). apply Rmult_lt_reg_l with e; lra. }
  destruct (Z e1 Ce1 E1 P1 Q1) as (A1 & A2 & A3). destruct (Z e2 Ce2 E2 P2 Q2) as (B1 & B2 & B3).
  split; [split; [exact B1|]|exact A3]. destruct (Rlt_dec Ce2 Ce1) as [L|L]; [exact L|exfalso].
  assert (R1 : k * rpow Ce1 (xn c) <= k * rpow Ce2 (xn c)) by (apply Rmult_le_compat_l; [lra|apply rpow_le; lra]).
  set (r1 := k * rpow Ce1 (xn c)) in *. set (r2 := k * rpow Ce2 (xn c)) in *.
  assert (X1 : (1 - e1) * r1 = e1 * (C0 - Ce1)) by lra. assert (X2 : (1 - e2) * r2 = e2 * (C0 - Ce2)) by lra.
  assert (Y1 : (1 - e1) * r2 < (1 - e2) * r2) by (apply Rmult_lt_compat_r; lra).
  assert (Y2 : (1 - e1) * r1 <= (1 - e1) * r2) by (apply Rmult_le_compat_l; lra).
  assert (Y3 : e2 * (C0 - Ce2) < e1 * (C0 - Ce2)) by (apply Rmult_lt_compat_r; lra).
  assert (Y4 : e1 * (C0 - Ce2) <= e1 * (C0 - Ce1)) by (apply Rmult_le_compat_l; lra). lra.
Qed.

(** The hypotheses are met: clean carbon of the demonstration in a contactor on three points.  It
    settles below seven tenths of the start. *)
Example settles_met : exists jacobi Ce, contactor_grid jacobi 3 /\ sensible demo_carbon 10 demo_comp /\ 0 < Ce < 7 / 10 /\
  let '(_, _, B, W) := recur_colloc_symm jacobi 3 3 in
  let eps := 1 - 10 / (f_dw demo_carbon * 10 ^ 6) in
  eps * Ce + (1 - eps) * (f_density demo_carbon * 1000 * K demo_comp * rpow Ce (xn demo_comp)) = eps * 1 + (1 - eps) * (3 * rsum 3 (fun i => W i * 0)) /\
  exists T C Y, follows 3 B W (eqn_of demo_carbon eps demo_comp) 0 T C Y /\ C 0 = 1 /\ (forall i, (i < 3)%nat -> Y i 0 = 0) /\
  Rabs (C T - Ce) < 1 / 100.
Proof.
  destruct (jacobi_exist 2 2) as (r & Hr). exists (fun _ _ _ => r). set (jac := fun (_ : nat) (_ _ : R) => r).
  assert (HG : contactor_grid jac 3) by (split; [lia|exact Hr]).
  assert (e0 : 1 - 10 / (f_dw demo_carbon * 10 ^ 6) = 99999 / 100000) by (cbn; field).
  destruct (C189_equilibrium demo_carbon 10 demo_comp (99999 / 100000) demo_sensible ltac:(cbn; lra) ltac:(lra)) as (Ce & (P & E) & _). exists Ce.
  split; [exact HG|]. split; [exact demo_sensible|]. rewrite e0 in *. split.
  { cbn in E. assert (R0 := rpow_nonneg Ce (1 / 2) P). assert (SQ : rpow Ce (1 / 2) * rpow Ce (1 / 2) = Ce).
    { destruct (Req_dec Ce 0) as [->|Nz]; [rewrite !rpow_0; lra|]. rewrite <- rpow_plus by lra. replace (1 / 2 + 1 / 2) with 1 by field. apply rpow_1, P. }
    set (s := rpow Ce (1 / 2)) in *. split.
    - destruct P as [P|P]; [exact P|exfalso]. assert (s = 0) by nra. nra.
    - assert (E2 : 99999 * Ce + 50000 * s = 99999) by lra. destruct (Rlt_dec Ce (7 / 10)) as [L|L]; [exact L|exfalso]. nra. }
  assert (ST := C189_settles jac 3 demo_carbon 10 demo_comp 0 1 (fun _ => 0) Ce HG demo_sensible ltac:(cbn; lra) ltac:(cbn; lra) ltac:(lra) P).
  assert (LA := fun T (HT : 0 <= T) => C188_lasts jac 3 demo_carbon 10 demo_comp 0 T 1 (fun _ => 0) HG demo_sensible ltac:(cbn; lra) ltac:(cbn; lra) HT ltac:(lra)).
  revert ST LA. unfold recur_colloc_symm. cbv zeta. rewrite e0. intros ST LA.
  assert (EQ : 99999 / 100000 * Ce + (1 - 99999 / 100000) * (f_density demo_carbon * 1000 * K demo_comp * rpow Ce (xn demo_comp)) =
    99999 / 100000 * 1 + (1 - 99999 / 100000) * (3 * rsum 3 (fun i => Wx 3 (rootsu jac 3 3) 3 i * 0))).
  { rewrite E. rewrite (rsum_zero 3) by (intros; ring). ring. }
  split; [exact EQ|]. destruct (ST EQ (1 / 100) ltac:(lra)) as (T & HT). assert (M1 := Rmax_l 0 T). assert (M2 := Rmax_r 0 T).
  destruct (LA (Rmax 0 T) M1) as (C & Y & HF & HC & HY). exists (Rmax 0 T), C, Y. split; [exact HF|]. split; [exact HC|]. split; [exact HY|].
  apply (HT (Rmax 0 T) C Y HF HC HY); lra.
Qed.
Example more_carbon_met : exists Ce1 Ce2, 0 <= Ce1 /\ 0 <= Ce2 /\ sensible demo_carbon 10 demo_comp /\ sensible demo_carbon 20 demo_comp /\
  (forall d Ce, (d = 10 /\ Ce = Ce1) \/ (d = 20 /\ Ce = Ce2) -> let eps := 1 - d / (f_dw demo_carbon * 10 ^ 6) in
     eps * Ce + (1 - eps) * (f_density demo_carbon * 1000 * K demo_comp * rpow Ce (xn demo_comp)) = eps * 1) /\ Ce2 < Ce1.
Proof.
  assert (S20 : sensible demo_carbon 20 demo_comp) by (unfold sensible, demo_carbon, demo_comp; cbn; lra).
  destruct (C189_equilibrium demo_carbon 10 demo_comp ((1 - 10 / (f_dw demo_carbon * 10 ^ 6)) * 1) demo_sensible ltac:(cbn; lra) ltac:(cbn; lra)) as (x & (Px & Ex) & _).
  destruct (C189_equilibrium demo_carbon 20 demo_comp ((1 - 20 / (f_dw demo_carbon * 10 ^ 6)) * 1) S20 ltac:(cbn; lra) ltac:(cbn; lra)) as (y & (Py & Ey) & _).
  exists x, y. split; [exact Px|]. split; [exact Py|]. split; [exact demo_sensible|]. split; [exact S20|].
  assert (H : forall d Ce, (d = 10 /\ Ce = x) \/ (d = 20 /\ Ce = y) -> let eps := 1 - d / (f_dw demo_carbon * 10 ^ 6) in
     eps * Ce + (1 - eps) * (f_density demo_carbon * 1000 * K demo_comp * rpow Ce (xn demo_comp)) = eps * 1).
  { intros d Ce [(-> & ->)|(-> & ->)]; [exact Ex|exact Ey]. }
  split; [exact H|]. apply (C189_more_carbon demo_carbon demo_comp 1 10 20 x y demo_sensible S20 ltac:(lra) ltac:(lra) Px Py H).
Qed.

Print Assumptions C189_equilibrium.
Print Assumptions C189_settles.
Print Assumptions C189_more_carbon.
