(** The radial matrix of the granular-carbon column is that of the other programs, and its grains start from the surface inwards. *)
From Coq Require Import Reals List Arith Bool Lra Lia.
From Verif Require Import Lib_Py Lib_Sum Lib_Pow Lib_Poly Lib_PowLip Lib_Traj Lib_Tame M_Colloc S_Colloc P_Colloc S_Radial P_Radial P_RadialSign P_Inner
  M_GacFun M_GacColumn S_GacColumn P_GacFun P_GacColloc P_GacColumn P_GacUnique Props_GacColumn P_RestGac Props_Negative Props_Exist Props_GacNegative.
Import ListNotations.
Open Scope R_scope.

(** ** The radial matrix *)
Section Radial.
Variables (inv : nat -> matrix -> matrix) (legendre : nat -> nat -> R) (jroots : nat -> R -> R -> nat -> R) (nr nz ne : nat) (m : gac_matrices).
Hypothesis HG : good_library inv legendre jroots nr nz.
Hypothesis Hm : calc_solver_matrix inv legendre jroots nr nz ne = Ok m.
(** The points in (0,1), as the other programs ask for them. *)
Definition squares : nat -> R -> R -> nat -> R := fun _ _ _ i => dec 5 1 * (jroots (nr - 1)%nat 1 (dec 5 1) i + 1).
Lemma squares_grid i : rootsu squares nr (INR 3) i = gac_rr jroots nr i.
Proof. reflexivity. Qed.
Lemma squares_half i : squares (nr - 1)%nat 0 0 i = (jroots (nr - 1)%nat 1 (dec 5 1) i + 1) / 2.
Proof. unfold squares, dec. cbn. field. Qed.
Lemma node_factors k (r s : nat -> R) x : (forall i, r i = s i) -> node_product k r x = factors k s x.
Proof. intros H. induction k as [|k IH]; cbn; [reflexivity|]. rewrite IH, H. reflexivity. Qed.
Lemma squares_jacobi a b : jacobi_roots 2 (nr - 1) (squares (nr - 1)%nat a b).
Proof.
  assert (HJ := gl_jac _ _ _ _ _ HG). destruct HJ as (R1 & R2 & R3). change (squares (nr - 1)%nat a b) with (squares (nr - 1)%nat 0 0). split; [split|].
  - intros i Hi. rewrite squares_half. specialize (R1 i Hi). lra.
  - intros i j L Hj. rewrite !squares_half. specialize (R2 i j L Hj). lra.
  - intros c. destruct (R3 c) as (F & DF & EF). exists F. split; [|lra]. intros x. specialize (DF x). cbv beta in DF.
    rewrite (node_factors (nr - 1) _ (squares (nr - 1)%nat 0 0)) in DF by (intros i; symmetry; apply squares_half). exact DF.
Qed.
Lemma carbon_laplacian P i : (length P <= nr)%nat -> (i < nr)%nat ->
  rsum nr (fun j => b_r m i j * peval P (gac_rr jroots nr j)) = 2 * 3 * peval (pderiv P) (gac_rr jroots nr i) + 4 * gac_rr jroots nr i * peval (pderiv (pderiv P)) (gac_rr jroots nr i).
Proof.
  intros LP Hi. destruct HG as [HI HIz HL HJ]. destruct (solver_matrix_inv _ _ _ _ _ _ _ Hm) as (H2 & H3 & H1 & _ & Ew & Eb & _).
  assert (Hn : (1 <= nr)%nat) by lia. set (x := fun i => sqrt (gac_rr jroots nr i)).
  assert (X2 : forall j, (j < nr)%nat -> x j ^ 2 = gac_rr jroots nr j) by (intros j Hj; apply (x_sq jroots nr Hn HJ j Hj)).
  set (c := fun k => nth k P 0). destruct (even_derivs nr c) as (D1 & D2).
  assert (HC : forall r, peval P (r ^ 2) = poly nr c (r ^ 2)) by (intros r; unfold poly; apply peval_nth, LP).
  assert (E := laplace_exact inv nr x HI (x2_distinct jroots nr Hn HJ) c i Hi).
  assert (PI := x_pos jroots nr Hn HJ i Hi). cbv beta in PI. fold (x i) in PI.
  rewrite (even_laplacian nr c (x i)) in E by lra. unfold apply_row in E. fold x in Eb. rewrite <- Eb in E.
  rewrite (rsum_ext nr _ (fun j => b_r m i j * poly nr c (x j ^ 2))) by (intros j Hj; rewrite <- HC, X2 by exact Hj; reflexivity). rewrite E, <- (X2 i Hi).
  assert (E1 : forall r, even_d1 nr c r = 2 * r * peval (pderiv P) (r ^ 2)).
  { intros r. apply (uniqueness_limite (fun s => peval P (s ^ 2)) r); [|apply peval_square].
    apply (Lib_Poly.derivable_pt_lim_ext (fun s => poly nr c (s ^ 2))); [intros; symmetry; apply HC|apply D1]. }
  assert (E2 : forall r, even_d2 nr c r = 2 * peval (pderiv P) (r ^ 2) + 4 * r ^ 2 * peval (pderiv (pderiv P)) (r ^ 2)).
  { intros r. apply (uniqueness_limite (even_d1 nr c) r); [apply D2|]. apply (Lib_Poly.derivable_pt_lim_ext (fun s => 2 * s * peval (pderiv P) (s ^ 2))); [intros; symmetry; apply E1|].
    replace (2 * peval (pderiv P) (r ^ 2) + 4 * r ^ 2 * peval (pderiv (pderiv P)) (r ^ 2)) with
      (2 * peval (pderiv P) (r ^ 2) + 2 * r * (2 * r * peval (pderiv (pderiv P)) (r ^ 2))) by ring.
    apply (derivable_pt_lim_mult (fun s => 2 * s) (fun s => peval (pderiv P) (s ^ 2))); [|apply peval_square].
    assert (D := derivable_pt_lim_scal id 2 r 1 (derivable_pt_lim_id r)). rewrite Rmult_1_r in D. exact D. }
  rewrite E1, E2. field. lra.
Qed.
Lemma grid_distinct : distinct nr (gac_rr jroots nr).
Proof.
  destruct HG as [HI HIz HL HJ]. destruct (solver_matrix_inv _ _ _ _ _ _ _ Hm) as (H2 & _).
  intros i j Hi Hj E. destruct (Nat.lt_total i j) as [L|[L|L]]; [|exact L|]; exfalso;
    [assert (Q := rr_increasing jroots nr ltac:(lia) HJ i j L Hj)|assert (Q := rr_increasing jroots nr ltac:(lia) HJ j i L Hi)]; cbv beta in Q; lra.
Qed.
Lemma radial_same i j : (i < nr)%nat -> (j < nr)%nat -> b_r m i j = Bx nr (gac_rr jroots nr) 3 i j.
Proof.
  intros Hi Hj. assert (HD := grid_distinct). destruct (interpolant nr (gac_rr jroots nr) (fun k => if Nat.eqb k j then 1 else 0) HD) as (c & Hc).
  assert (EP : forall k, (k < nr)%nat -> peval (coefs nr c) (gac_rr jroots nr k) = if Nat.eqb k j then 1 else 0) by (intros k Hk; rewrite <- Hc by exact Hk; unfold poly; apply peval_coefs).
  assert (L1 := carbon_laplacian (coefs nr c) i ltac:(rewrite length_coefs; lia) Hi).
  assert (L2 := Bx_list nr (gac_rr jroots nr) 3 HD (coefs nr c) i ltac:(rewrite length_coefs; lia) Hi). unfold apply_row in L2.
  rewrite <- L2 in L1. clear L2. rewrite (rsum_only nr _ j), (rsum_only nr (fun k => Bx _ _ _ _ _ * _) j) in L1; try exact Hj;
    try (intros k Hk NE; rewrite EP by exact Hk; rewrite (proj2 (Nat.eqb_neq k j)) by exact NE; ring).
  rewrite EP in L1 by exact Hj. rewrite Nat.eqb_refl in L1. lra.
Qed.
Lemma radial_sign i : (i < nr - 1)%nat -> 0 < (-1) ^ (nr - i) * b_r m i (nr - 1)%nat.
Proof.
  intros Hi. rewrite radial_same by lia. assert (S := last_column_sign squares nr 2 ltac:(lia) (squares_jacobi _ _) i Hi).
  replace (INR 3) with 3 in S by (cbn; lra). exact S.
Qed.
End Radial.

(** ** Near nothing, the pores hold next to nothing of what is loaded *)
Section Dilute.
Variables (n : nat) (w : nat -> R) (c p : R) (i : nat).
Hypothesis Hw : forall j, (j < n)%nat -> 1 <= w j.
Hypothesis Hc : 0 < c.
Hypothesis Hp : 1 < p.
Hypothesis Hi : (i < n)%nat.
Lemma dilute eps : 0 < eps -> exists del, 0 < del /\ forall v, (forall j, (j < n)%nat -> 0 <= v j <= del) -> 0 <= share n w c p i v <= eps * v i.
Proof.
  intros HE. set (NW := rsum n w). assert (NP : 1 <= NW).
  { unfold NW. apply Rle_trans with (w i); [apply Hw, Hi|]. apply (w_le n w Hw i Hi). }
  set (K := c * NW). assert (KP : 0 < K) by (unfold K; apply Rmult_lt_0_compat; lra).
  set (x0 := rpow (eps / K) (1 / (p - 1))). assert (EK : 0 < eps / K) by (apply Rdiv_lt_0_compat; assumption). assert (X0 : 0 < x0) by (apply rpow_pos, EK).
  assert (N1 : 1 <= INR n) by (change 1 with (INR 1); apply le_INR; lia).
  assert (KN : 0 < K * INR n) by (apply Rmult_lt_0_compat; lra).
  exists (x0 / (K * INR n)). split; [apply Rdiv_lt_0_compat; assumption|]. intros v V. unfold share. assert (V0 : forall j, (j < n)%nat -> 0 <= v j) by (intros j Hj; apply V, Hj).
  assert (W1 := wtotal_ge n w Hw v V0). assert (W2 := wtotal_le n w Hw v V0). fold NW in W2. assert (VI := V0 i Hi).
  destruct (Rle_dec (wtotal n w v) 0) as [Z|Z]; [split; [lra|apply Rmult_le_pos; lra]|].
  set (W := wtotal n w v) in *. set (T := total n v) in *. assert (TP : 0 < T) by (apply Rnot_le_lt; intros Q; assert (NW * T <= 0) by nra; lra).
  assert (TD : K * T <= x0).
  { assert (T <= INR n * (x0 / (K * INR n))). { unfold T, total. rewrite <- (rsum_const n). apply rsum_le. intros j Hj. apply V, Hj. }
    apply Rle_trans with (K * (INR n * (x0 / (K * INR n)))); [apply Rmult_le_compat_l; lra|]. right. field. lra. }
  assert (CW : 0 < c * W <= K * T) by (split; [apply Rmult_lt_0_compat; lra|unfold K; rewrite Rmult_assoc; apply Rmult_le_compat_l; lra]).
  assert (VT : 0 <= v i / T) by (apply Rmult_le_pos; [exact VI|left; apply Rinv_0_lt_compat, TP]).
  split; [apply Rmult_le_pos; [exact VT|apply rpow_nonneg; lra]|].
  assert (B1 : rpow (c * W) p <= rpow (K * T) p) by (apply rpow_le; lra).
  assert (B2 : rpow (K * T) p = K * T * rpow (K * T) (p - 1)) by (replace p with (1 + (p - 1)) at 1 by ring; rewrite rpow_plus, rpow_1 by lra; reflexivity).
  assert (B3 : rpow (K * T) (p - 1) <= eps / K).
  { apply Rle_trans with (rpow x0 (p - 1)); [apply rpow_le; lra|]. right. unfold x0. rewrite rpow_rpow by exact EK. replace (1 / (p - 1) * (p - 1)) with 1 by (field; lra). apply rpow_1. lra. }
  apply Rle_trans with (v i / T * (K * T * (eps / K))); [|right; field; lra].
  apply Rmult_le_compat_l; [exact VT|]. rewrite B2 in B1. eapply Rle_trans; [exact B1|]. apply Rmult_le_compat_l; lra.
Qed.
End Dilute.

(** ** From a positive rate *)
Lemma starts_linear_at {X Y} (idx : list X) (co : X -> Y -> R) (F : R -> Y -> R) Tf (y : R -> Y) f : 0 < Tf ->
  tame idx co (fun s => 0 <= s <= Tf) F 0 (y 0) -> (forall p, In p idx -> continuity_pt (fun t => co p (y t)) 0) ->
  evolves 0 Tf f (fun t => F t (y t)) -> f 0 = 0 -> 0 < F 0 (y 0) -> exists d, 0 < d <= Tf /\ forall T, 0 < T < d -> F 0 (y 0) / 2 * T <= f T <= 2 * F 0 (y 0) * T.
Proof.
  intros HT ((TC & _) & _) HC EV Z P. destruct (TC (F 0 (y 0) / 2) ltac:(lra)) as (d & D & Q).
  assert (CD : continuity_pt (fun t => dist idx co (y t) (y 0)) 0).
  { unfold dist. apply (lsum_continuous (fun p t => Rabs (co p (y t) - co p (y 0)))). intros p I.
    apply (continuity_pt_comp (fun t => co p (y t) - co p (y 0)) Rabs); [apply c_minus; [apply HC, I|apply c_const]|apply Rcontinuity_abs]. }
  destruct (CD d D) as (d' & D' & Q').
  assert (M1 := Rmin_l (Rmin d d') Tf). assert (M2 := Rmin_r (Rmin d d') Tf). assert (M3 := Rmin_l d d'). assert (M4 := Rmin_r d d').
  assert (MP : 0 < Rmin (Rmin d d') Tf) by (apply Rmin_glb_lt; [apply Rmin_glb_lt; lra|lra]).
  exists (Rmin (Rmin d d') Tf). split; [lra|]. intros T HH.
  destruct (evolves_mvt 0 T f (fun t => F t (y t)) ltac:(lra) (evolves_sub 0 Tf T f _ ltac:(lra) EV)) as (x & Xx & E). cbv beta in E.
  assert (R0 : Rabs (F x (y x) - F 0 (y 0)) < F 0 (y 0) / 2).
  { apply Q; [lra|rewrite Rminus_0_r, Rabs_right; lra|].
    assert (W : R_dist (dist idx co (y x) (y 0)) (dist idx co (y 0) (y 0)) < d).
    { apply Q'. split; [split; [exact I|lra]|]. cbn. unfold R_dist. rewrite Rminus_0_r, Rabs_right; lra. }
    rewrite dist_self in W. unfold R_dist in W. rewrite Rminus_0_r in W. eapply Rle_lt_trans; [apply Rle_abs|exact W]. }
  apply Rabs_def2 in R0. replace (f T) with (F x (y x) * T) by lra. split; apply Rmult_le_compat_r; lra.
Qed.
(** A finite number of values that are continuous and zero at the start are small for a while. *)
Lemma small_while {X} (l : list X) (f : X -> R -> R) e : 0 < e -> (forall p, In p l -> continuity_pt (f p) 0 /\ f p 0 = 0) ->
  exists d, 0 < d /\ forall t, 0 <= t < d -> forall p, In p l -> Rabs (f p t) <= e.
Proof.
  intros HE. induction l as [|p l IH]; intros H; [exists 1; split; [lra|intros t _ p []]|].
  destruct IH as (d & D & Q); [intros q Hq; apply H; right; exact Hq|]. destruct (H p (or_introl eq_refl)) as (C & Z). destruct (C e HE) as (d2 & D2 & Q2).
  exists (Rmin d d2). assert (A := Rmin_l d d2). assert (A2 := Rmin_r d d2). split; [apply Rmin_glb_lt; lra|]. intros t T q [<-|Hq]; [|apply Q; [lra|exact Hq]].
  destruct (Req_dec t 0) as [->|NZ]; [rewrite Z, Rabs_R0; lra|].
  assert (W : R_dist (f p t) (f p 0) < e). { apply Q2. split; [split; [exact I|lra]|]. cbn. unfold R_dist. rewrite Rminus_0_r, Rabs_right; lra. }
  unfold R_dist in W. rewrite Z, Rminus_0_r in W. lra.
Qed.

(** ** The grains at the inlet *)
Section Inlet.
Variables (inv : nat -> matrix -> matrix) (legendre : nat -> nat -> R) (jroots : nat -> R -> R -> nat -> R) (nr nz ne : nat) (m : gac_matrices).
Variables (g : gac_in) (rows : nat -> list (R * R)) (foul : nat -> R -> R) (Tf : R) (y : R -> nat -> nat -> nat -> R) (i : nat).
Hypothesis HG : good_library inv legendre jroots nr nz.
Hypothesis Hm : calc_solver_matrix inv legendre jroots nr nz ne = Ok m.
Hypothesis HP : physical g.
Hypothesis Hx : forall j, (j < x_n g)%nat -> x_xn g j <= 1.
Hypothesis Hi : (i < x_n g)%nat.
Hypothesis Hxi : x_xn g i < 1.
Hypothesis Hkf : 0 < kf_v g i.
Hypothesis Hds : 0 <= ds_v g i.
Hypothesis Hdp : 0 < dp_v g i.
Hypothesis Htt : x_organic_free g = true -> 0 < x_tortu g.
Hypothesis HT : 0 < Tf.
Hypothesis HI : 0 < interp_x (rows i) 0.
Hypothesis TR : gac_trajectory (x_n g) nr (m_c m) (diffun g m nr rows foul) Tf y.
Hypothesis Y0 : forall j r z, (j < x_n g)%nat -> (r <= nr)%nat -> (z < m_c m)%nat -> y 0 j r z = 0.

Lemma stdv_pos : 0 < stdv g i.
Proof.
  unfold stdv, st. assert (D := dgt_pos g HP). assert (E := ph_ebed g HP). assert (T := ph_tau g HP). assert (R := ph_rad g HP).
  apply Rmult_lt_0_compat; [|exact D]. apply Rdiv_lt_0_compat; [|apply Rmult_lt_0_compat; lra]. apply Rmult_lt_0_compat; [|exact T]. apply Rmult_lt_0_compat; lra.
Qed.
Lemma beds_pos : 0 < beds g i.
Proof.
  unfold beds, edd. assert (D := dgt_pos g HP). assert (Di := dg_pos g HP i Hi). apply Rmult_lt_0_compat; [|apply Rdiv_lt_0_compat; assumption].
  assert (A : 0 < eds g i).
  { unfold eds. assert (P : 0 < / 10 ^ 130) by (apply Rinv_0_lt_compat, pow_lt; lra). set (e := / 10 ^ 130) in *. clearbody e. set (x := _ / _). clearbody x.
    destruct (rltb x e) eqn:Q; [exact P|apply rltb_false in Q; lra]. }
  assert (B : 0 <= d_v g i * edp g i).
  { unfold d_v, edp. assert (T := ph_tau g HP). assert (R := ph_rad g HP). assert (DP := dgp_pos g HP). assert (R2 : 0 < x_rad g ^ 2) by (apply pow_lt, R).
    assert (TT : 0 < tortu0 g) by (unfold tortu0; destruct (x_organic_free g); [apply Htt; reflexivity|lra]).
    apply Rmult_le_pos; [apply Rmult_le_pos; [exact Hds|left; apply Rinv_0_lt_compat, Hdp]|]. left. apply Rdiv_lt_0_compat; [|exact R2].
    apply Rmult_lt_0_compat; [|exact T]. apply Rmult_lt_0_compat; [|exact DP]. apply Rmult_lt_0_compat; assumption. }
  lra.
Qed.
Lemma foul_nonneg t : 0 <= at_time g (foulFA g foul) t i.
Proof.
  apply at_time_nonneg. intros k. unfold foulFA, rpow. destruct (Req_EM_T _ _); [destruct (Req_EM_T _ _); lra|left; apply exp_pos].
Qed.
Lemma table_bound A t : 0 <= t <= tconv g -> Rabs (at_time g A t i) <= Rabs (A 0%nat i) + Rabs (A 1%nat i).
Proof.
  intros T. assert (TC := tconv_pos g HP). set (s := t / tconv g). assert (ET : t = s * tconv g) by (unfold s; field; lra).
  assert (S : 0 <= s <= 1). { split; [apply Rmult_le_pos; [lra|left; apply Rinv_0_lt_compat, TC]|]. apply (Rmult_le_reg_r (tconv g)); lra. }
  rewrite ET, (at_time_segment g A 0 i s TC) by (cbn; lra). cbn [INR]. rewrite Rminus_0_r. replace (A 0%nat i + s * (A 1%nat i - A 0%nat i)) with ((1 - s) * A 0%nat i + s * A 1%nat i) by ring.
  eapply Rle_trans; [apply Rabs_triang|]. rewrite !Rabs_mult, (Rabs_right (1 - s)), (Rabs_right s) by lra. assert (P := Rabs_pos (A 0%nat i)). assert (P1 := Rabs_pos (A 1%nat i)).
  assert ((1 - s) * Rabs (A 0%nat i) <= 1 * Rabs (A 0%nat i)) by (apply Rmult_le_compat_r; lra). assert (s * Rabs (A 1%nat i) <= 1 * Rabs (A 1%nat i)) by (apply Rmult_le_compat_r; lra). lra.
Qed.
(** What diffuses. *)
Definition drives (k : nat) (t : R) : R := bedp g i * at_time g (facA g) t i * cpore g nr (at_time g (foulFA g foul) t) (y t) i k 0 + beds g i * y t i k 0%nat.
Lemma inside_rate r t : (r < nr - 1)%nat -> diffun g m nr rows foul t (y t) i r 0%nat = rsum nr (fun k => b_r m r k * drives k t).
Proof.
  intros R. unfold diffun, gac_rhs. rewrite (proj2 (Nat.ltb_lt r (nr - 1))) by exact R. unfold bb, drives. rewrite Rmult_comm, <- rsum_scal, <- rsum_plus. apply rsum_ext. intros k _. ring.
Qed.
Lemma mc_pos : (0 < m_c m)%nat.
Proof. destruct (solver_matrix_inv _ _ _ _ _ _ _ Hm) as (H2 & H3 & H1 & Emc & _). rewrite Emc, Nat.add_1_r. apply Nat.lt_0_succ. Qed.
Lemma point_cont j r z : (j < x_n g)%nat -> (r <= nr)%nat -> (z < m_c m)%nat -> continuity_pt (fun t => y t j r z) 0.
Proof. intros A B C. apply (TR j r z A B C). lra. Qed.
Lemma drives_near : exists d, 0 < d /\ forall t, 0 <= t < d -> forall k, (k < nr)%nat -> Rabs (drives k t - beds g i * y t i k 0%nat) <= beds g i / 2 * Rabs (y t i k 0%nat).
Proof.
  assert (BP := beds_pos). assert (X1 := ph_xn g HP i Hi). assert (YM := ym_pos g HP i Hi). assert (MC := mc_pos). assert (TC := tconv_pos g HP).
  set (FA := Rabs (foulFA g foul 0%nat i) + Rabs (foulFA g foul 1%nat i)). set (FB := Rabs (facA g 0%nat i) + Rabs (facA g 1%nat i)).
  assert (FA0 : 0 <= FA) by (unfold FA; assert (A := Rabs_pos (foulFA g foul 0%nat i)); assert (A2 := Rabs_pos (foulFA g foul 1%nat i)); lra).
  assert (FB0 : 0 <= FB) by (unfold FB; assert (A := Rabs_pos (facA g 0%nat i)); assert (A2 := Rabs_pos (facA g 1%nat i)); lra).
  set (Z := Rabs (bedp g i) * FB * FA * ym g i + 1). assert (BA := Rabs_pos (bedp g i)).
  assert (Z1 : 1 <= Z). { unfold Z. assert (0 <= Rabs (bedp g i) * FB * FA * ym g i) by (apply Rmult_le_pos; [apply Rmult_le_pos; [apply Rmult_le_pos; assumption|exact FA0]|lra]). lra. }
  assert (PX : 1 < xni g i) by (unfold xni; apply (Rmult_lt_reg_r (x_xn g i)); [exact X1|]; unfold Rdiv; rewrite Rmult_assoc, Rinv_l; lra).
  destruct (dilute (x_n g) (xni g) (x_xn g i / ym g i) (xni g i) i (xni_ge1 g HP Hx) ltac:(apply Rdiv_lt_0_compat; assumption) PX Hi (beds g i / 2 / Z) ltac:(apply Rdiv_lt_0_compat; lra)) as (del & DP & DL).
  set (ps := list_prod (seq 0 (x_n g)) (seq 0 nr)).
  destruct (small_while ps (fun p t => ym g (fst p) * y t (fst p) (snd p) 0%nat) del DP) as (d & D & SM).
  { intros (j & k) Hp. apply in_prod_iff in Hp as (P1 & P2). apply in_seq in P1, P2. cbn [fst snd]. split; [apply c_mult; [apply c_const|apply point_cont; lia]|rewrite Y0 by lia; ring]. }
  exists (Rmin d (tconv g)). assert (A := Rmin_l d (tconv g)). assert (A2 := Rmin_r d (tconv g)). split; [apply Rmin_glb_lt; lra|]. intros t T k Hk.
  unfold drives. replace (bedp g i * at_time g (facA g) t i * cpore g nr (at_time g (foulFA g foul) t) (y t) i k 0 + beds g i * y t i k 0%nat - beds g i * y t i k 0%nat)
    with (bedp g i * at_time g (facA g) t i * cpore g nr (at_time g (foulFA g foul) t) (y t) i k 0) by ring.
  rewrite (cpore_share g HP Hx nr _ (y t) i k 0 Hi (foul_nonneg t)).
  assert (LV : forall j, (j < x_n g)%nat -> 0 <= loads g k 0 (y t) j <= del).
  { intros j Hj. split; [apply loads_nonneg|]. unfold loads. apply Rmax_lub; [lra|]. assert (Q := SM t ltac:(lra) (j, k) ltac:(apply in_prod_iff; split; apply in_seq; lia)). cbn [fst snd] in Q. eapply Rle_trans; [apply Rle_abs|exact Q]. }
  specialize (DL (loads g k 0 (y t)) LV). set (sh := share _ _ _ _ _ _) in *.
  assert (LI : loads g k 0 (y t) i <= ym g i * Rabs (y t i k 0%nat)).
  { unfold loads. apply Rmax_lub; [apply Rmult_le_pos; [lra|apply Rabs_pos]|]. apply Rmult_le_compat_l; [lra|apply Rle_abs]. }
  assert (T1 := table_bound (foulFA g foul) t ltac:(lra)). fold FA in T1. assert (T2 := table_bound (facA g) t ltac:(lra)). fold FB in T2.
  rewrite !Rabs_mult, (Rabs_right sh) by lra. set (yv := Rabs (y t i k 0%nat)) in *. assert (YV : 0 <= yv) by apply Rabs_pos.
  assert (SH : sh <= beds g i / 2 / Z * (ym g i * yv)). { eapply Rle_trans; [apply DL|]. apply Rmult_le_compat_l; [left; apply Rdiv_lt_0_compat; lra|exact LI]. }
  assert (C1 : Rabs (at_time g (foulFA g foul) t i) * sh <= FA * (beds g i / 2 / Z * (ym g i * yv))) by (apply Rmult_le_compat; [apply Rabs_pos|lra|exact T1|exact SH]).
  assert (C2 : Rabs (bedp g i) * Rabs (at_time g (facA g) t i) <= Rabs (bedp g i) * FB) by (apply Rmult_le_compat_l; [exact BA|exact T2]).
  apply Rle_trans with (Rabs (bedp g i) * FB * (FA * (beds g i / 2 / Z * (ym g i * yv)))).
  - apply Rmult_le_compat; [apply Rmult_le_pos; apply Rabs_pos|apply Rmult_le_pos; [apply Rabs_pos|lra]|exact C2|exact C1].
  - replace (Rabs (bedp g i) * FB * (FA * (beds g i / 2 / Z * (ym g i * yv)))) with ((Z - 1) * (beds g i / 2 / Z * yv)) by (unfold Z; ring).
    replace (beds g i / 2 * yv) with (Z * (beds g i / 2 / Z * yv)) by (field; lra). apply Rmult_le_compat_r; [|lra].
    apply Rmult_le_pos; [left; apply Rdiv_lt_0_compat; lra|exact YV].
Qed.
Lemma inlet_surface : exists s d, 0 < s /\ 0 < d <= Tf /\ forall T, 0 < T < d -> s / 2 * T <= y T i (nr - 1)%nat 0%nat <= 2 * s * T.
Proof.
  assert (HR := solver_matrix_inv _ _ _ _ _ _ _ Hm). destruct HR as (H2 & _). assert (MC := mc_pos).
  assert (TM := carbon_tame g m nr rows foul Tf HP Hx ltac:(lia) 0 (y 0) (i, (nr - 1)%nat, 0%nat) ltac:(lra) ltac:(apply in_g_entries; lia)). cbn [fst snd] in TM.
  assert (CC : forall p, In p (g_entries g nr (m_c m)) -> continuity_pt (fun t => g_at p (y t)) 0).
  { intros ((j & r) & k) Hp. apply g_entries_in in Hp as (A1 & A2 & A3). cbn [fst snd] in *. apply point_cont; assumption. }
  assert (EV := TR i (nr - 1)%nat 0%nat Hi ltac:(lia) ltac:(lia)).
  assert (C0 : forall k, (k < nr)%nat -> cpore g nr (at_time g (foulFA g foul) 0) (y 0) i k 0 = 0).
  { intros k Hk. destruct drives_near as (d & D & Q). rewrite (cpore_share g HP Hx nr _ (y 0) i k 0 Hi (foul_nonneg 0)). unfold share.
    destruct (Rle_dec _ 0) as [_|N]; [ring|]. exfalso. apply N. right. unfold wtotal. apply rsum_zero. intros j Hj. unfold loads. rewrite Y0 by lia. rewrite Rmult_0_r, Rmax_left by lra. ring. }
  assert (R0 : diffun g m nr rows foul 0 (y 0) i (nr - 1)%nat 0%nat = at_time g (cinfA g rows) 0 i * (stdv g i * dgI g i) / w_r m (nr - 1)%nat).
  { unfold diffun, gac_rhs. rewrite (proj2 (Nat.ltb_ge (nr - 1) (nr - 1))) by lia. rewrite Nat.eqb_refl. cbn [Nat.eqb]. rewrite C0 by lia.
    assert (E : ww g nr (w_r m) (b_r m) (at_time g (foulFA g foul) 0) (at_time g (facA g) 0) (y 0) i 0 = 0).
    { unfold ww. apply rsum_zero. intros r Hr. unfold bb. rewrite (rsum_zero nr), (rsum_zero nr); [ring| |]; intros k Hk; [rewrite Y0 by lia|rewrite C0 by exact Hk]; ring. }
    rewrite E. unfold Rdiv. ring. }
  assert (P0 : 0 < diffun g m nr rows foul 0 (y 0) i (nr - 1)%nat 0%nat).
  { rewrite R0. assert (W := C68_surface_weight_positive _ _ _ _ _ _ _ HG Hm). assert (IP := inlet_positive g rows i HP Hi HI). assert (SP := stdv_pos). assert (DG := dg_pos g HP i Hi).
    apply Rdiv_lt_0_compat; [|exact W]. apply Rmult_lt_0_compat; [exact IP|]. apply Rmult_lt_0_compat; [exact SP|]. unfold dgI. apply Rdiv_lt_0_compat; lra. }
  destruct (starts_linear_at _ _ _ Tf y (fun T => y T i (nr - 1)%nat 0%nat) HT TM CC EV (Y0 i (nr - 1)%nat 0%nat Hi ltac:(lia) ltac:(lia)) P0) as (d & D & Q).
  eexists; exists d. split; [exact P0|]. split; [exact D|exact Q].
Qed.
Lemma inlet_start r : (r < nr - 1)%nat -> exists d, 0 < d <= Tf /\ forall t, 0 < t < d -> 0 < b_r m r (nr - 1)%nat * y t i r 0%nat.
Proof.
  intros R. assert (BP := beds_pos). assert (MC := mc_pos). destruct inlet_surface as (s & d & SP & D & SL). destruct drives_near as (d1 & D1 & DN).
  assert (SG := radial_sign inv legendre jroots nr nz ne m HG Hm r R).
  set (d2 := Rmin d d1). assert (A := Rmin_l d d1). assert (A2 := Rmin_r d d1). assert (D2 : 0 < d2) by (apply Rmin_glb_lt; lra). fold d2 in A, A2.
  destruct (follows_surface (nr - 1) (b_r m) (fun j t => y t i j 0%nat) drives d2 1 (2 * beds g i) (beds g i / 2) (s / 2) (2 * s) r) as (d' & D' & P); try lra; try assumption.
  - intros j J. eapply evolves_ext; [reflexivity| |apply (evolves_sub 0 Tf d2 _ _ ltac:(lra) (TR i j 0%nat Hi ltac:(lia) MC))].
    intros t _. cbv beta. rewrite inside_rate by exact J. destruct nr as [|k]; [lia|]. cbn [rsum]. replace (S k - 1)%nat with k by lia. reflexivity.
  - intros j J. apply Y0; lia.
  - intros t T k Hk _. assert (Q := DN t ltac:(lra) k ltac:(lia)). set (v := y t i k 0%nat) in *. replace (drives k t) with (drives k t - beds g i * v + beds g i * v) by ring.
    eapply Rle_trans; [apply Rabs_triang|]. rewrite (Rabs_mult (beds g i)), (Rabs_right (beds g i)) by lra. assert (Z := Rabs_pos v).
    assert (0 <= beds g i * Rabs v) by (apply Rmult_le_pos; lra). lra.
  - intros t T Hv. assert (Q := DN t ltac:(lra) (nr - 1)%nat ltac:(lia)). cbv beta in Hv |- *. rewrite (Rabs_right (y t i (nr - 1)%nat 0%nat)) in Q by lra. set (v := y t i (nr - 1)%nat 0%nat) in *. set (f := drives (nr - 1) t) in *. assert (Q2 := Rle_abs (- (f - beds g i * v))). rewrite Rabs_Ropp in Q2. lra.
  - intros t T. apply SL. lra.
  - intros j J. apply point_cont; lia.
  - intros E. rewrite E, Rmult_0_r in SG. lra.
  - exists d'. split; [lra|exact P].
Qed.
End Inlet.
