(** Properties C196 (signs inside the grains of a granular-carbon bed) and C199 (one sphere for all programs). *)
From Coq Require Import Reals List Arith Bool Lra Lia.
From Verif Require Import Lib_Py Lib_Sum Lib_Pow Lib_Poly Lib_Moment Lib_Traj M_Colloc S_Colloc P_Colloc S_Radial P_Radial P_RadialSign P_Inner P_JacobiRoots P_JacobiUnique
  M_GacFun M_GacColumn S_GacColumn P_GacFun P_GacColloc P_GacColumn Props_GacColumn Props_Exist Props_Negative Props_Inside P_InsideGac.
Import ListNotations.
Open Scope R_scope.

(** ** C196: the grains at the inlet of a bed *)

(** A clean bed fed a compound: in the grains at the inlet the loading is at once negative two points
    below the surface, four below, and so on, and positive at those between. *)
Theorem C196_bed_start : forall inv legendre jroots nr nz ne m g rows foul Tf y i,
  good_library inv legendre jroots nr nz -> calc_solver_matrix inv legendre jroots nr nz ne = Ok m ->
  physical g -> (forall j, (j < x_n g)%nat -> x_xn g j <= 1) -> (i < x_n g)%nat -> x_xn g i < 1 ->
  0 < kf_v g i -> 0 <= ds_v g i -> 0 < dp_v g i -> (x_organic_free g = true -> 0 < x_tortu g) -> 0 < Tf -> 0 < interp_x (rows i) 0 ->
  gac_trajectory (x_n g) nr (m_c m) (diffun g m nr rows foul) Tf y ->
  (forall j r k, (j < x_n g)%nat -> (r <= nr)%nat -> (k < m_c m)%nat -> y 0 j r k = 0) ->
  forall r, (r < nr - 1)%nat -> exists d, 0 < d <= Tf /\ forall T, 0 < T < d ->
    (Nat.Odd (nr - 1 - r) -> 0 < y T i r 0%nat) /\ (Nat.Even (nr - 1 - r) -> y T i r 0%nat < 0).
Proof.
  intros inv legendre jroots nr nz ne m g rows foul Tf y i HG Hm HP Hx Hi Hxi Hkf Hds Hdp Htt HT HI TR Y0 r Hr.
  destruct (inlet_start inv legendre jroots nr nz ne m g rows foul Tf y i HG Hm HP Hx Hi Hxi Hkf Hds Hdp Htt HT HI TR Y0 r Hr) as (d & D & P).
  exists d. split; [exact D|]. intros T HH. apply (side nr r (b_r m r (nr - 1)%nat)); [exact Hr| |apply P, HH].
  apply (radial_sign inv legendre jroots nr nz ne m HG Hm r Hr).
Qed.
Theorem C196_bed_refuted : forall inv legendre jroots nr nz ne m g rows foul Tf y i,
  good_library inv legendre jroots nr nz -> calc_solver_matrix inv legendre jroots nr nz ne = Ok m ->
  physical g -> (forall j, (j < x_n g)%nat -> x_xn g j <= 1) -> (i < x_n g)%nat -> x_xn g i < 1 ->
  0 < kf_v g i -> 0 <= ds_v g i -> 0 < dp_v g i -> (x_organic_free g = true -> 0 < x_tortu g) -> 0 < Tf -> 0 < interp_x (rows i) 0 ->
  gac_trajectory (x_n g) nr (m_c m) (diffun g m nr rows foul) Tf y ->
  (forall j r k, (j < x_n g)%nat -> (r <= nr)%nat -> (k < m_c m)%nat -> y 0 j r k = 0) ->
  (3 <= nr)%nat -> exists d, 0 < d <= Tf /\ forall T, 0 < T < d -> y T i (nr - 3)%nat 0%nat < 0.
Proof.
  intros inv legendre jroots nr nz ne m g rows foul Tf y i HG Hm HP Hx Hi Hxi Hkf Hds Hdp Htt HT HI TR Y0 N.
  destruct (C196_bed_start inv legendre jroots nr nz ne m g rows foul Tf y i HG Hm HP Hx Hi Hxi Hkf Hds Hdp Htt HT HI TR Y0 (nr - 3)%nat ltac:(lia)) as (d & D & P).
  exists d. split; [exact D|]. intros T HH. apply (P T HH). exists 1%nat. lia.
Qed.

(** ** C199: one sphere *)
Lemma mom_coefs n c : forall k a, mom (a + 2 * INR k) (map c (seq k n)) = rsum n (fun i => c (k + i)%nat / (a + 2 * INR (k + i))).
Proof.
  induction n as [|n IH]; intros k a; [reflexivity|]. cbn [seq map mom]. rewrite rsum_S_first, Nat.add_0_r. f_equal.
  replace (a + 2 * INR k + 2) with (a + 2 * INR (S k)) by (rewrite S_INR; ring). rewrite IH. apply rsum_ext. intros i _. rewrite Nat.add_succ_comm. reflexivity.
Qed.
(** The granular-carbon program inverts a matrix of even powers at the points on (-1, 1) of one root
    finder; the ion-exchange and powdered-carbon programs run a recursion at the points on (0, 1) of
    another.  Where both root finders and the inversion keep their promise, the radii, the diffusion
    matrix and the weights are the same. *)
Theorem C199_one_sphere : forall inv legendre jroots nr nz ne m jacobi,
  good_library inv legendre jroots nr nz -> calc_solver_matrix inv legendre jroots nr nz ne = Ok m ->
  jacobi_roots 2 (nr - 1) (jacobi (nr - 1)%nat (5 / 2) (3 / 2)) ->
  let '(x, _, B, W) := recur_colloc_symm jacobi nr 3 in
  forall i j, (i < nr)%nat -> (j < nr)%nat ->
    ((i < nr - 1)%nat -> x i ^ 2 = (jroots (nr - 1)%nat 1 (1 / 2) i + 1) / 2) /\ b_r m i j = B i j /\ w_r m i = W i.
Proof.
  intros inv legendre jroots nr nz ne m jacobi HG Hm HJ. unfold recur_colloc_symm. cbv zeta. intros i j Hi Hj.
  destruct (solver_matrix_inv _ _ _ _ _ _ _ Hm) as (H2 & _ & _ & _ & Ew & _).
  assert (J1 := squares_jacobi inv legendre jroots nr nz HG (5 / 2) (3 / 2)). set (sq := squares jroots nr) in *.
  assert (HJ2 : forall f, jacobi_roots 2 (nr - 1) (f (nr - 1)%nat (5 / 2) (3 / 2)) -> jacobi_roots 2 (nr - 1) (f (nr - 1)%nat (INR 3 / 2 + 1) (INR 3 / 2))).
  { intros f H. rewrite Props_PacBound.INR3. replace (3 / 2 + 1) with (5 / 2) by field. exact H. }
  assert (U : forall k, (k < nr)%nat -> rootsu jacobi nr 3 k = gac_rr jroots nr k).
  { intros k Hk. change (gac_rr jroots nr k) with (rootsu sq nr 3 k). rewrite <- Props_PacBound.INR3. destruct (Nat.eq_dec k (nr - 1)) as [-> |N].
    - unfold rootsu. rewrite Nat.eqb_refl. reflexivity.
    - rewrite (u_inner jacobi nr 2), (u_inner sq nr 2) by lia. apply (jacobi_unique 2 (nr - 1)); [apply HJ2, HJ|apply (HJ2 sq), J1|lia]. }
  assert (PU := rr_range jroots nr ltac:(lia) (gl_jac _ _ _ _ _ HG)). cbv beta in PU.
  split; [|split].
  - intros L. rewrite U by lia. rewrite pow2_sqrt by (destruct (PU i Hi); lra). unfold gac_rr. rewrite (proj2 (Nat.eqb_neq i (nr - 1))) by lia.
    replace (dec 5 1) with (1 / 2) by (unfold dec; cbn; field). field.
  - rewrite (radial_same inv legendre jroots nr nz ne m HG Hm) by assumption. unfold Bx.
    rewrite (Amat_ext nr _ _ i j U Hi Hj), (Bmat_ext nr _ _ i j U Hi Hj), (U i Hi). reflexivity.
  - rewrite (Wx_ext nr _ _ 3 i U Hi). assert (HD := grid_distinct inv legendre jroots nr nz ne m HG Hm).
    destruct (interpolant nr (gac_rr jroots nr) (fun k => if Nat.eqb k i then 1 else 0) HD) as (c & Hc).
    assert (Q1 := weights_exact inv nr (fun k => sqrt (gac_rr jroots nr k)) (gl_inv_r _ _ _ _ _ HG) (x2_distinct jroots nr ltac:(lia) (gl_jac _ _ _ _ _ HG)) c).
    cbv beta in Q1. rewrite <- Ew in Q1.
    assert (Q2 := code_quad sq nr 2 ltac:(lia) (HJ2 sq J1) (coefs nr c) ltac:(rewrite length_coefs; lia)). rewrite Props_PacBound.INR3 in Q2. change (rootsu sq nr 3) with (gac_rr jroots nr) in Q2.
    assert (EM : mom 3 (coefs nr c) = rsum nr (fun k => c k / (2 * INR k + 3))).
    { replace 3 with (3 + 2 * INR 0) at 1 by (cbn; ring). unfold coefs. rewrite (mom_coefs nr c 0 3). apply rsum_ext. intros k _. cbn [Nat.add]. f_equal. ring. }
    rewrite EM, <- Q1 in Q2. clear EM Q1. rewrite (rsum_only nr _ i), (rsum_only nr (fun k => w_r m k * _) i) in Q2; try exact Hi.
    + rewrite <- poly_peval, pow2_sqrt, Hc, Nat.eqb_refl in Q2; [lra|exact Hi|destruct (PU i Hi); lra].
    + intros k Hk NE. rewrite pow2_sqrt, Hc, (proj2 (Nat.eqb_neq k i)) by (try assumption; destruct (PU k Hk); lra). ring.
    + intros k Hk NE. rewrite <- poly_peval, Hc, (proj2 (Nat.eqb_neq k i)) by assumption. ring.
Qed.
(** So the weights of the granular-carbon grid are all positive and add up to the third of a sphere. *)
Theorem C199_weights : forall inv legendre jroots nr nz ne m,
  good_library inv legendre jroots nr nz -> calc_solver_matrix inv legendre jroots nr nz ne = Ok m ->
  (forall i, (i < nr)%nat -> 0 < w_r m i) /\ rsum nr (w_r m) = 1 / 3.
Proof.
  intros inv legendre jroots nr nz ne m HG Hm. destruct (solver_matrix_inv _ _ _ _ _ _ _ Hm) as (H2 & _).
  assert (J1 := squares_jacobi inv legendre jroots nr nz HG). set (sq := squares jroots nr) in *.
  assert (E := C199_one_sphere inv legendre jroots nr nz ne m sq HG Hm (J1 (5 / 2) (3 / 2))). revert E. unfold recur_colloc_symm. cbv zeta. intros E.
  destruct (code_weights sq nr 2 ltac:(lia) (J1 _ _)) as (WP & WS). rewrite Props_PacBound.INR3 in WP, WS. split.
  - intros i Hi. destruct (E i i Hi Hi) as (_ & _ & ->). apply WP, Hi.
  - rewrite <- WS. apply rsum_ext. intros i Hi. apply (E i i Hi Hi).
Qed.
(** Along the bed: the same operator as the ion-exchange columns below the inlet, with elements and
    without. *)
Theorem C199_one_axis : forall inv legendre jroots nr nz ne m,
  good_library inv legendre jroots nr nz -> calc_solver_matrix inv legendre jroots nr nz ne = Ok m ->
  forall z j, (1 <= z < m_c m)%nat -> (j < m_c m)%nat ->
    (let '(M, _) := advect_operator legendre ne nz in a_z m z j = M z j) /\
    (ne = 1%nat -> let '(_, A, _) := recur_colloc legendre nz in a_z m z j = A z j).
Proof.
  intros inv legendre jroots nr nz ne m HG Hm z j Z J. assert (R := axial_rows inv legendre jroots nr nz ne m HG Hm z j Z J). split; [exact R|].
  intros ->. unfold recur_colloc. cbv zeta. destruct (solver_matrix_inv _ _ _ _ _ _ _ Hm) as (_ & H3 & _ & Emc & _ & _ & Ea).
  cbn [Nat.eqb] in Ea. rewrite Ea. assert (EN : m_c m = nz) by lia. rewrite EN in *.
  apply dupoly_Amat; [apply (gl_inv_z _ _ _ _ _ HG)| |lia|exact J].
  apply increasing_distinct. apply rootsz_increasing; [lia|apply (gl_leg _ _ _ _ _ HG)].
Qed.
Print Assumptions C196_bed_start.
Print Assumptions C196_bed_refuted.
Print Assumptions C199_one_sphere.
Print Assumptions C199_weights.
Print Assumptions C199_one_axis.

(** Two compounds on three radial points: the bed can be run, and the innermost point is below zero
    from the start. *)
Lemma library3 r : jacobi_roots 2 2 r -> good_library inv23 leg_mid (fun _ _ _ i => 2 * r i - 1) 3 3.
Proof.
  intros ((R1 & R2) & R3). split; [apply inv23_3|apply inv23_3| |].
  - split; unfold leg_mid; intros; [lra|lia].
  - split; [|split].
    + intros i Hi. specialize (R1 i Hi). lra.
    + intros i j L Hj. specialize (R2 i j L Hj). lra.
    + intros c. destruct (R3 c) as (F & DF & EF). exists F. split; [|lra]. intros x. specialize (DF x). cbv beta in DF.
      rewrite (node_factors (3 - 1) _ r) by (intros k; field). exact DF.
Qed.
Example below_zero_in_the_bed : exists r m Tf y d,
  calc_solver_matrix inv23 leg_mid (fun _ _ _ i => 2 * r i - 1) 3 3 1 = Ok m /\ 0 < d <= Tf /\
  gac_trajectory 2 3 (m_c m) (diffun (g_ex 2 true 1) m 3 (fun _ => [(0, 100); (1000, 100)]) (fun _ _ => 1)) Tf y /\
  forall T, 0 < T < d -> y T 0%nat 0%nat 0%nat < 0.
Proof.
  destruct (jacobi_exist 2 2) as (r & Hr). assert (HG := library3 r Hr). exists r.
  destruct (calc_solver_matrix inv23 leg_mid (fun _ _ _ i => 2 * r i - 1) 3 3 1) as [m|e] eqn:Hm; [|discriminate Hm]. exists m.
  set (g := g_ex 2 true 1). assert (HP : physical g) by (apply physical_example; lia).
  assert (Hx : forall j, (j < x_n g)%nat -> x_xn g j <= 1) by (intros j _; cbn; lra).
  destruct (C168_carbon_column_starts g m 3 (fun _ => [(0, 100); (1000, 100)]) (fun _ _ => 1) 1 (fun _ _ _ => 0) HP Hx ltac:(lia) ltac:(lra)) as (Tf & y & HT & TR & Y0).
  destruct (C196_bed_refuted inv23 leg_mid (fun _ _ _ i => 2 * r i - 1) 3 3 1 m g (fun _ => [(0, 100); (1000, 100)]) (fun _ _ => 1) Tf y 0 HG Hm HP Hx) as (d & D & Q); try assumption.
  - cbn. lia.
  - cbn. lra.
  - unfold kf_v. cbn [x_kf g g_ex]. rewrite (proj2 (rltb_true _ _)) by lra. lra.
  - unfold ds_v. cbn [x_ds x_organic_free g g_ex]. assert (0 < 10 ^ 9) by (apply pow_lt; lra). assert (0 < 1 / 10 ^ 9) by (apply Rdiv_lt_0_compat; lra). rewrite (proj2 (rltb_true _ _)) by assumption. lra.
  - unfold dp_v. cbn [x_dp g g_ex]. assert (0 < 10 ^ 6) by (apply pow_lt; lra). assert (0 < 1 / 10 ^ 6) by (apply Rdiv_lt_0_compat; lra). rewrite (proj2 (rltb_true _ _)) by assumption. assumption.
  - intros _. cbn. lra.
  - lra.
  - unfold interp_x, line. lra.
  - lia.
  - exists Tf, y, d. split; [reflexivity|]. split; [exact D|]. split; [exact TR|exact Q].
Qed.
(** Such points exist for every number of them, so the comparison is not empty. *)
Example spheres_compared : exists r, good_library inv23 leg_mid (fun _ _ _ i => 2 * r i - 1) 3 3 /\ jacobi_roots 2 (3 - 1) ((fun (_ : nat) (_ _ : R) => r) (3 - 1)%nat (5 / 2) (3 / 2)).
Proof. destruct (jacobi_exist 2 2) as (r & Hr). exists r. split; [apply library3, Hr|exact Hr]. Qed.
