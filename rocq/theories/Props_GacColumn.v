(** Properties C22, C37, C44 and C68-C73: the granular-carbon column. *)
From Coq Require Import Reals List Arith Bool Lra Lia ZArith.
From Verif Require Import Lib_Py Lib_Sum Lib_Pow Lib_Poly Lib_Traj M_Colloc S_Colloc P_Colloc P_Ocfe
  M_IxColumn S_IxColumn P_IxColumn M_GacFun P_GacFun M_GacColumn S_GacColumn P_GacColloc P_GacColumn
  Props_Colloc.
Import ListNotations.
Open Scope R_scope.

(** ** Vocabulary *)

(** What the library routines are relied on for, for grids of [nr] radial and [nz]
    axial points per element. *)
Record good_library (inv : nat -> matrix -> matrix) (legendre : nat -> nat -> R)
  (jroots : nat -> R -> R -> nat -> R) (nr nz : nat) : Prop := {
  gl_inv_r : inverter inv nr;
  gl_inv_z : inverter inv nz;
  gl_leg : interior_roots (nz - 2) (legendre (nz - 2)%nat);
  gl_jac : jacobi_nodes (nr - 1) (jroots (nr - 1)%nat 1 (dec 5 1)) }.

(** Physically meaningful inputs. *)
Record physical (g : gac_in) : Prop := {
  ph_n : (0 < x_n g)%nat;
  ph_ebed : 0 < x_ebed g < 1;
  ph_epor : 0 < x_epor g;
  ph_rhop : 0 < x_rhop g;
  ph_tau : 0 < x_tau g;
  ph_rad : 0 < x_rad g;
  ph_mul : 0 < x_mass_mul g;
  ph_K : forall i, (i < x_n g)%nat -> 0 < x_K g i;
  ph_xn : forall i, (i < x_n g)%nat -> 0 < x_xn g i;
  ph_mw : forall i, (i < x_n g)%nat -> 0 < x_mw g i;
  ph_inf : forall i, (i < x_n g)%nat -> 0 <= x_inf0 g i }.

Section Phys.
Variable g : gac_in.
Hypothesis HP : physical g.
Lemma cb0_pos i : (i < x_n g)%nat -> 0 < cb0 g i.
Proof.
  intros Hi. unfold cb0.
  assert (0 <= x_inf0 g i * x_mass_mul g / x_mw g i).
  { apply Rmult_le_pos; [apply Rmult_le_pos; [apply HP, Hi|left; apply HP]|].
    left. apply Rinv_0_lt_compat. apply HP, Hi. }
  set (c := x_inf0 g i * x_mass_mul g / x_mw g i) in *. clearbody c.
  destruct (reqb c 0) eqn:E; [lra|]. unfold reqb in E. destruct (Req_EM_T c 0); [discriminate|lra].
Qed.
Lemma molar_k_pos i : (i < x_n g)%nat -> 0 < molar_k g i.
Proof.
  intros Hi. unfold molar_k.
  assert (K := ph_K g HP i Hi). assert (M := ph_mw g HP i Hi).
  apply Rdiv_lt_0_compat; [apply Rdiv_lt_0_compat; assumption|]. apply rpow_pos.
  apply Rdiv_lt_0_compat; lra.
Qed.
Lemma qe_pos i : (i < x_n g)%nat -> 0 < qe g i.
Proof.
  intros Hi. unfold qe. apply Rmult_lt_0_compat; [apply molar_k_pos, Hi|apply rpow_pos, cb0_pos, Hi].
Qed.
Lemma dgs_pos i : (i < x_n g)%nat -> 0 < dgs g i.
Proof.
  intros Hi. unfold dgs. assert (A := qe_pos i Hi). assert (B := cb0_pos i Hi).
  destruct HP. apply Rdiv_lt_0_compat.
  - set (q := qe g i) in *. clearbody q. repeat apply Rmult_lt_0_compat; lra.
  - apply Rmult_lt_0_compat; lra.
Qed.
Lemma dgp_pos : 0 < dgp g.
Proof.
  unfold dgp. destruct HP. apply Rdiv_lt_0_compat; [apply Rmult_lt_0_compat; lra|lra].
Qed.
Lemma dg_pos i : (i < x_n g)%nat -> 0 < dg g i.
Proof. intros Hi. unfold dg. assert (A := dgs_pos i Hi). assert (B := dgp_pos). lra. Qed.
Lemma dgt_pos : 0 < dgt g.
Proof. apply rsum_pos; [apply HP|]. intros i Hi. apply dg_pos, Hi. Qed.
Lemma dg1_pos : 1 < dg1 g.
Proof. unfold dg1. assert (A := dgt_pos). lra. Qed.
Lemma tconv_pos : 0 < tconv g.
Proof.
  unfold tconv. assert (A := dg1_pos). assert (T := ph_tau g HP).
  apply Rdiv_lt_0_compat; [lra|]. apply Rmult_lt_0_compat; lra.
Qed.
End Phys.

(** ** C68 — collocation matrices of the carbon column *)

(** Axial operator: on the grid of [ne] equal elements with [nz] points each, a function
    that is a polynomial of degree < nz on each element, with matching slopes where
    elements meet, is differentiated exactly at every point after the inlet. *)
Lemma axial_rows inv legendre jroots nr nz ne m : good_library inv legendre jroots nr nz ->
  calc_solver_matrix inv legendre jroots nr nz ne = Ok m ->
  forall z j, (1 <= z < m_c m)%nat -> (j < m_c m)%nat ->
    a_z m z j = fst (advect_operator legendre ne nz) z j.
Proof.
  intros [HI HIz HL HJ] Hm z j Hz Hj.
  destruct (solver_matrix_inv _ _ _ _ _ _ _ Hm) as (H2 & H3 & H1 & Emc & _ & _ & Ea).
  rewrite Ea. rewrite Emc in *. destruct (Nat.eqb_spec ne 1) as [->|Hne].
  - assert (HX : distinct nz (rootsz legendre nz)).
    { apply increasing_distinct. apply rootsz_increasing; [lia|assumption]. }
    rewrite dupoly_Amat by (try assumption; lia).
    destruct nz as [|L]; [lia|].
    assert (E := Adv_interior legendre 1 L (le_n 1) ltac:(lia) 0 z j ltac:(lia) ltac:(lia) ltac:(lia)).
    unfold Adv in E. rewrite !Nat.mul_0_l, !Nat.add_0_l in E. rewrite E.
    rewrite (proj2 (Nat.ltb_lt j (L + 1))) by lia. cbn [Nat.leb andb].
    rewrite Nat.sub_0_r. simpl (INR 1). ring.
  - apply gac_advect_eq; try assumption. lia.
Qed.

Theorem C68_axial_exact : forall inv legendre jroots nr nz ne m,
  good_library inv legendre jroots nr nz ->
  calc_solver_matrix inv legendre jroots nr nz ne = Ok m ->
  exists X : nat -> R,
    m_c m = (ne * (nz - 1) + 1)%nat /\ X 0%nat = 0 /\ X (m_c m - 1)%nat = 1 /\
    (forall i j, (i < j)%nat -> (j < m_c m)%nat -> X i < X j) /\
    forall (f : nat -> R) (c : nat -> nat -> R) (d : nat -> R -> R),
    (forall k, (k < ne)%nat -> derivative (poly nz (c k)) (d k)) ->
    (forall k p, (k < ne)%nat -> (p < nz)%nat ->
       f (k * (nz - 1) + p)%nat = poly nz (c k) (X (k * (nz - 1) + p)%nat)) ->
    (forall k, (S k < ne)%nat -> d k (X (S k * (nz - 1))%nat) = d (S k) (X (S k * (nz - 1))%nat)) ->
    forall k p, (k < ne)%nat -> (1 <= p < nz)%nat ->
      apply_row (m_c m) (a_z m) f (k * (nz - 1) + p) = d k (X (k * (nz - 1) + p)%nat).
Proof.
  intros inv leg jr nr nz ne m HG Hm.
  destruct (solver_matrix_inv _ _ _ _ _ _ _ Hm) as (H2 & H3 & H1 & Emc & _ & _ & _).
  destruct (C26_grid leg ne nz H1 ltac:(lia) (gl_leg _ _ _ _ _ HG)) as (G1 & G2 & G3 & G4 & G5).
  exists (fun i => nth i (snd (advect_operator leg ne nz)) 0).
  split; [exact Emc|]. split; [exact G2|].
  split; [rewrite Emc, Nat.add_sub; exact G3|].
  split; [intros i j Hi Hj; apply G4; [exact Hi|rewrite G1, <- Emc; exact Hj]|].
  intros f c d Hd Hf Hj k p Hk Hp.
  rewrite <- (C26_piecewise_exact leg ne nz H1 ltac:(lia) (gl_leg _ _ _ _ _ HG) f c d Hd Hf Hj k p Hk Hp).
  unfold apply_row. rewrite <- Emc. apply rsum_ext. intros j Hjj. f_equal.
  apply (axial_rows inv leg jr nr nz ne m HG Hm); [|exact Hjj]. rewrite Emc. nia.
Qed.

(** Radial operators: for every even polynomial of degree < 2 nr in the radius, [b_r]
    gives its Laplacian in the sphere at every radial point, and [w_r] its integral with
    weight r^2 over the sphere of radius one. *)
Theorem C68_radial_exact : forall inv legendre jroots nr nz ne m,
  good_library inv legendre jroots nr nz ->
  calc_solver_matrix inv legendre jroots nr nz ne = Ok m ->
  exists x : nat -> R,
    x (nr - 1)%nat = 1 /\ (forall i, (i < nr)%nat -> 0 < x i <= 1) /\
    (forall i j, (i < j)%nat -> (j < nr)%nat -> x i < x j) /\
    forall f, even_polynomial nr f -> exists f' f'', derivative f f' /\ derivative f' f'' /\
      (forall i, (i < nr)%nat ->
         apply_row nr (b_r m) (fun j => f (x j)) i = sphere_laplacian f' f'' (x i)) /\
      integral01 (fun r => r ^ 2 * f r) (rsum nr (fun j => w_r m j * f (x j))).
Proof.
  intros inv leg jr nr nz ne m [HI HIz HL HJ] Hm.
  destruct (solver_matrix_inv _ _ _ _ _ _ _ Hm) as (H2 & H3 & H1 & _ & Ew & Eb & _).
  assert (Hn : (1 <= nr)%nat) by lia.
  exists (fun i => sqrt (gac_rr jr nr i)).
  split; [apply (x_last jr nr)|]. split; [intros i Hi; apply (x_pos jr nr Hn HJ i Hi)|].
  split.
  { intros i j Hij Hj. apply sqrt_lt_1_alt. split.
    - left. apply (rr_range jr nr Hn HJ). lia.
    - apply (rr_increasing jr nr Hn HJ i j Hij Hj). }
  intros f (c & Hc). exists (even_d1 nr c), (even_d2 nr c).
  destruct (even_derivs nr c) as (D1 & D2).
  split; [intros r; eapply derivable_pt_lim_ext; [intros s; symmetry; apply Hc|apply D1]|].
  split; [exact D2|]. split.
  - intros i Hi. rewrite Eb.
    assert (E := laplace_exact inv nr (fun i => sqrt (gac_rr jr nr i)) HI (x2_distinct jr nr Hn HJ) c i Hi).
    unfold apply_row in *. rewrite (rsum_ext nr _ _ (fun j _ => f_equal _ (Hc _))), E.
    unfold sphere_laplacian. apply even_laplacian.
    assert (P := x_pos jr nr Hn HJ i Hi). cbv beta in P. lra.
  - rewrite Ew, (rsum_ext nr _ _ (fun j _ => f_equal _ (Hc _))).
    assert (E := weights_exact inv nr (fun i => sqrt (gac_rr jr nr i)) HI (x2_distinct jr nr Hn HJ) c).
    cbv beta in E. rewrite E. destruct (even_integral nr c) as (F & DF & EF).
    exists F. split; [|exact EF]. intros r. rewrite Hc. apply DF.
Qed.

Theorem C68_surface_weight_positive : forall inv legendre jroots nr nz ne m,
  good_library inv legendre jroots nr nz ->
  calc_solver_matrix inv legendre jroots nr nz ne = Ok m -> 0 < w_r m (nr - 1)%nat.
Proof. intros inv leg jr nr nz ne m HG Hm. eapply surface_weight; [apply HG|apply HG|exact Hm]. Qed.

(** ** C22 — declared sparsity *)

Theorem C22_sparsity_sound : forall inv legendre jroots nr nz ne m g rows foul t i r z i' r' z',
  calc_solver_matrix inv legendre jroots nr nz ne = Ok m ->
  (i < x_n g)%nat -> (r <= nr)%nat -> (z < m_c m)%nat ->
  (i' < x_n g)%nat -> (r' <= nr)%nat -> (z' < m_c m)%nat ->
  spar_Jac nr nz ne (gflat nr (m_c m) i r z) (gflat nr (m_c m) i' r' z') = 0%nat ->
  forall u1 u2, agree_but (x_n g) nr (m_c m) u1 u2 i' r' z' ->
  diffun g m nr rows foul t u1 i r z = diffun g m nr rows foul t u2 i r z.
Proof.
  intros inv leg jr nr nz ne m g rows foul t i r z i' r' z' Hm Hi Hr Hz Hi' Hr' Hz' HJ u1 u2 HA.
  destruct (solver_matrix_inv _ _ _ _ _ _ _ Hm) as (H2 & H3 & H1 & Emc & _).
  assert (E : m_c m = (nz * ne - (ne - 1))%nat) by (rewrite Emc; nia).
  unfold diffun. rewrite E in *. eapply gac_sparsity with (i' := i') (r' := r') (z' := z'); try eassumption. lia.
Qed.

(** The matrix has one row and column per state entry, and distinct entries have
    distinct indices. *)
Theorem C22_indexing : forall nr mc i r z i' r' z',
  (r <= nr)%nat -> (z < mc)%nat -> (r' <= nr)%nat -> (z' < mc)%nat ->
  gflat nr mc i r z = gflat nr mc i' r' z' -> i = i' /\ r = r' /\ z = z'.
Proof.
  intros nr mc i r z i' r' z' Hr Hz Hr' Hz' E.
  destruct (gflat_div nr mc i r z Hr Hz) as (A & B).
  destruct (gflat_div nr mc i' r' z' Hr' Hz') as (A' & B').
  rewrite E in A, B. assert (i = i') by congruence.
  assert (Q : (r * mc + z = r' * mc + z')%nat) by congruence.
  assert (R1 : r = r') by nia. split; [assumption|]. split; [exact R1|]. subst r'. lia.
Qed.

(** ** C37 — beads gain what crosses their surface; the inlet follows the influent *)

(** Pore liquid at the surface of the bead. *)
Definition surface_liquid g nr foul t y i z := cpore g nr (at_time g (foulFA g foul) t) y i (nr - 1) z.
(** Liquid outside the bead: the influent at the inlet. *)
Definition outside g nr rows t (y : nat -> nat -> nat -> R) i z :=
  if Nat.eqb z 0 then at_time g (cinfA g rows) t i else y i nr z.

Theorem C37_bead_gain : forall inv legendre jroots nr nz ne m g rows foul t y i z,
  good_library inv legendre jroots nr nz ->
  calc_solver_matrix inv legendre jroots nr nz ne = Ok m ->
  physical g -> (i < x_n g)%nat ->
  let rate r := diffun g m nr rows foul t y i r z in
  dg g i * bead_average nr (w_r m) rate
  = 3 * stdv g i * (outside g nr rows t y i z - surface_liquid g nr foul t y i z).
Proof.
  intros inv leg jr nr nz ne m g rows foul t y i z HG Hm HP Hi rate.
  assert (W := C68_surface_weight_positive _ _ _ _ _ _ _ HG Hm).
  destruct (solver_matrix_inv _ _ _ _ _ _ _ Hm) as (H2 & _).
  unfold bead_average, rate, diffun.
  rewrite (gac_bead_gain g nr (m_c m) (w_r m) (a_z m) (b_r m)) by (try lia; lra).
  unfold dgI, outside, surface_liquid. assert (D := dg_pos g HP i Hi). field. lra.
Qed.

(** At every whole minute the relative influent, converted back to the units of the
    sheet, is the sheet's linear interpolation; in between it is linear. *)
Theorem C37_inlet_follows_influent : forall g rows i minute, physical g -> (i < x_n g)%nat ->
  at_time g (cinfA g rows) (INR minute * tconv g) i * cb0 g i * x_mw g i / x_mass_mul g
  = interp_x (rows i) (INR minute).
Proof.
  intros g rows i k HP Hi. assert (T := tconv_pos g HP). rewrite at_time_minute by lra.
  unfold cinfA, cin_table.
  assert (C := cb0_pos g HP i Hi). assert (M := ph_mw g HP i Hi). assert (U := ph_mul g HP).
  rewrite (map_ext _ (fun p => (fst p, (x_mass_mul g / x_mw g i / cb0 g i) * snd p))).
  - rewrite interp_x_scale. field. lra.
  - intros (a, b). simpl. f_equal. field. lra.
Qed.
Theorem C37_inlet_between_minutes : forall g rows i minute s, physical g -> (i < x_n g)%nat ->
  0 <= s < 1 ->
  at_time g (cinfA g rows) ((INR minute + s) * tconv g) i
  = (1 - s) * at_time g (cinfA g rows) (INR minute * tconv g) i
    + s * at_time g (cinfA g rows) (INR (S minute) * tconv g) i.
Proof.
  intros g rows i k s HP Hi Hs. assert (T := tconv_pos g HP).
  rewrite at_time_between, !at_time_minute by lra. reflexivity.
Qed.

(** ** C69 — mass-transfer rates *)

(** The loading of the carbon, ug/g, in equilibrium with the influent at time zero. *)
Definition at_feed g i : R := x_K g i * rpow (cb0 g i * x_mw g i) (x_xn g i).
(** umol in the pores of the beads of a litre of bed filled with that influent. *)
Definition in_pores g i : R := (1 - x_ebed g) * x_epor g * cb0 g i.
(** umol in the beads of a litre of bed with that loading and those pores (the density of
    the carbon is in g/ml); the state Y is the content relative to it. *)
Definition carries g i : R := (1 - x_ebed g) * (1000 * x_rhop g) * (at_feed g i / x_mw g i) + in_pores g i.
Lemma carries_dg g i : physical g -> (i < x_n g)%nat -> x_ebed g * cb0 g i * dg g i = carries g i.
Proof.
  intros HP Hi. assert (C := cb0_pos g HP i Hi). assert (M := ph_mw g HP i Hi). assert (E := ph_ebed g HP).
  unfold carries, in_pores, at_feed, dg, dgs, dgp, qe, molar_k. rewrite (rpow_mult (cb0 g i) (x_mw g i)) by lra.
  replace (1 / x_mw g i) with (/ x_mw g i) by (field; lra). rewrite rpow_inv by lra.
  assert (P := rpow_pos (x_mw g i) (x_xn g i) ltac:(lra)). field. repeat split; lra.
Qed.
(** umol gained by the beads of a litre of bed per second (one unit of dimensionless time is
    [60 / tconv] seconds). *)
Definition bead_uptake g nr m rows foul t y i z :=
  carries g i
  * bead_average nr (w_r m) (fun r => diffun g m nr rows foul t y i r z) * (tconv g / 60).
(** Film transfer through the outer area of the beads, 3 (1-ebed)/rad per bed volume. *)
Definition film_transfer g nr rows foul t y i z :=
  kf_v g i * (3 * (1 - x_ebed g) / x_rad g)
  * (cb0 g i * (outside g nr rows t y i z - surface_liquid g nr foul t y i z)).

Theorem C69_film_rate_partial : forall inv legendre jroots nr nz ne m g rows foul t y i z,
  good_library inv legendre jroots nr nz ->
  calc_solver_matrix inv legendre jroots nr nz ne = Ok m ->
  physical g -> (i < x_n g)%nat ->
  bead_uptake g nr m rows foul t y i z
  = dgt g / (1 + dgt g) * film_transfer g nr rows foul t y i z.
Proof.
  intros inv leg jr nr nz ne m g rows foul t y i z HG Hm HP Hi.
  assert (E := C37_bead_gain inv leg jr nr nz ne m g rows foul t y i z HG Hm HP Hi). cbv zeta in E.
  unfold bead_uptake. rewrite <- (carries_dg g i HP Hi).
  replace (x_ebed g * cb0 g i * dg g i * bead_average nr (w_r m) (fun r => diffun g m nr rows foul t y i r z) * (tconv g / 60))
    with (x_ebed g * cb0 g i * (tconv g / 60) * (dg g i * bead_average nr (w_r m) (fun r => diffun g m nr rows foul t y i r z)))
    by ring.
  rewrite E. unfold film_transfer, tconv, stdv, st, dg1.
  assert (D := dgt_pos g HP). destruct HP. field. lra.
Qed.
(** The rate is never the stated one (the factor is below one). *)
Theorem C69_film_rate_refuted : forall inv legendre jroots nr nz ne m g rows foul t y i z,
  good_library inv legendre jroots nr nz ->
  calc_solver_matrix inv legendre jroots nr nz ne = Ok m ->
  physical g -> (i < x_n g)%nat -> 0 < kf_v g i ->
  outside g nr rows t y i z <> surface_liquid g nr foul t y i z ->
  bead_uptake g nr m rows foul t y i z <> film_transfer g nr rows foul t y i z.
Proof.
  intros inv leg jr nr nz ne m g rows foul t y i z HG Hm HP Hi Hk Hne E.
  rewrite (C69_film_rate_partial _ _ _ _ _ _ _ _ _ _ _ _ _ _ HG Hm HP Hi) in E.
  assert (D := dgt_pos g HP). assert (C := cb0_pos g HP i Hi).
  assert (F : film_transfer g nr rows foul t y i z <> 0).
  { unfold film_transfer. destruct HP.
    assert (0 < 3 * (1 - x_ebed g) / x_rad g) by (apply Rdiv_lt_0_compat; lra).
    apply Rmult_integral_contrapositive_currified; [apply Rmult_integral_contrapositive_currified; lra|].
    apply Rmult_integral_contrapositive_currified; [lra|]. intros Z. apply Hne. lra. }
  assert (E2 : film_transfer g nr rows foul t y i z * (dgt g / (1 + dgt g)) = film_transfer g nr rows foul t y i z * 1) by lra.
  apply Rmult_eq_reg_l in E2; [|exact F].
  assert (E3 : dgt g = 1 + dgt g).
  { apply Rmult_eq_reg_r with (/ (1 + dgt g)); [|apply Rinv_neq_0_compat; lra].
    rewrite Rinv_r by lra. exact E2. }
  lra.
Qed.

(** Diffusion inside the bead, at whole minutes: pore diffusion of the pore liquid [P]
    and surface diffusion of the rest of the content, [carries] Y - [in_pores] P, again times
    dgt/(1+dgt).  In organic-free water a tortuosity other than one adds a spurious
    surface term. *)
Theorem C69_diffusion_partial : forall inv legendre jroots nr nz ne m g rows foul minute y i z,
  good_library inv legendre jroots nr nz ->
  calc_solver_matrix inv legendre jroots nr nz ne = Ok m ->
  physical g -> (i < x_n g)%nat ->
  0 < dp_v g i -> ds_v g i <> dp_v g i -> (x_organic_free g = true -> 0 < x_tortu g) ->
  / 10 ^ 130 <= ds_v g i * dgs g i * x_tau g / x_rad g ^ 2 ->
  let t := INR minute * tconv g in
  let pore r := cpore g nr (at_time g (foulFA g foul) t) y i r z in
  let tort := if x_organic_free g then 1 else tortuosity_array (INR minute) in
  exists x Y Y' Y'' P P' P'',
    x (nr - 1)%nat = 1 /\
    even_polynomial nr Y /\ derivative Y Y' /\ derivative Y' Y'' /\
    even_polynomial nr P /\ derivative P P' /\ derivative P' P'' /\
    (forall r, (r < nr)%nat -> Y (x r) = y i r z /\ P (x r) = pore r) /\
    forall r, (r < nr - 1)%nat ->
      let lapY := sphere_laplacian Y' Y'' (x r) in
      let lapP := sphere_laplacian P' P'' (x r) in
      carries g i * diffun g m nr rows foul t y i r z * (tconv g / 60)
      = dgt g / (1 + dgt g) / x_rad g ^ 2 *
        (dp_v g i / tort * in_pores g i * lapP
         + ds_v g i * (carries g i * lapY - in_pores g i * lapP)
         + (if x_organic_free g then ds_v g i * (x_tortu g - 1) * in_pores g i * (lapY - lapP) else 0)).
Proof.
  intros inv leg jr nr nz ne m g rows foul k y i z HG Hm HP Hi Hdp Hds Htt Hfl t pore tort.
  destruct (C68_radial_exact _ _ _ _ _ _ _ HG Hm) as (x & X1 & X2 & X3 & XE).
  destruct (solver_matrix_inv _ _ _ _ _ _ _ Hm) as (H2 & _).
  assert (HD : distinct nr (fun r => x r ^ 2)).
  { intros a b Ha Hb E. cbv beta in E. assert (P1 := X2 a Ha). assert (P2 := X2 b Hb).
    assert (x a = x b). { rewrite <- !Rsqr_pow2 in E. apply Rsqr_inj in E; lra. }
    destruct (lt_eq_lt_dec a b) as [[L|E2]|L]; [|exact E2|].
    - assert (Q := X3 a b L Hb). lra.
    - assert (Q := X3 b a L Ha). lra. }
  destruct (interpolant nr _ (fun r => y i r z) HD) as (c1 & Hc1).
  destruct (interpolant nr _ pore HD) as (c2 & Hc2).
  set (Y := fun r => poly nr c1 (r ^ 2)). set (P := fun r => poly nr c2 (r ^ 2)).
  assert (EY : even_polynomial nr Y) by (exists c1; reflexivity).
  assert (EP : even_polynomial nr P) by (exists c2; reflexivity).
  destruct (XE Y EY) as (Y' & Y'' & DY1 & DY2 & LY & _).
  destruct (XE P EP) as (P' & P'' & DP1 & DP2 & LP & _).
  exists x, Y, Y', Y'', P, P', P''. repeat (split; [assumption|]).
  split; [intros r Hr; split; [apply Hc1, Hr|apply Hc2, Hr]|].
  intros r Hr lapY lapP.
  assert (EY2 : rsum nr (fun j => b_r m r j * y i j z) = lapY).
  { unfold lapY. rewrite <- LY by lia. apply rsum_ext. intros j Hj. f_equal. symmetry. apply Hc1, Hj. }
  assert (EP2 : rsum nr (fun j => b_r m r j * pore j) = lapP).
  { unfold lapP. rewrite <- LP by lia. apply rsum_ext. intros j Hj. f_equal. symmetry. apply Hc2, Hj. }
  clearbody lapY lapP.
  assert (EPo : in_pores g i = x_ebed g * cb0 g i * dgp g) by (unfold in_pores, dgp; assert (E := ph_ebed g HP); field; lra).
  rewrite <- (carries_dg g i HP Hi), EPo.
  unfold diffun, gac_rhs. rewrite (proj2 (Nat.ltb_lt r (nr - 1))) by lia. unfold bb.
  rewrite (rsum_ext nr _ (fun j => bedp g i * (b_r m r j * pore j))) by (intros; unfold pore; ring).
  rewrite (rsum_ext nr (fun j => beds g i * _ * _) (fun j => beds g i * (b_r m r j * y i j z))) by (intros; ring).
  rewrite !rsum_scal, EY2, EP2.
  assert (T := tconv_pos g HP). unfold t at 1. rewrite at_time_minute by lra.
  assert (D := dgt_pos g HP). assert (Dg := dg_pos g HP i Hi). assert (Dp := dgp_pos g HP).
  assert (Ed : eds g i = ds_v g i * dgs g i * x_tau g / x_rad g ^ 2).
  { unfold eds. cbv zeta.
    destruct (rltb (ds_v g i * dgs g i * x_tau g / x_rad g ^ 2) (/ 10 ^ 130)) eqn:E; [|reflexivity].
    apply rltb_true in E. lra. }
  assert (D1 : 1 - d_v g i <> 0).
  { unfold d_v. intros E. apply Hds. apply Rmult_eq_reg_r with (/ dp_v g i); [|apply Rinv_neq_0_compat; lra].
    rewrite Rinv_r by lra. unfold Rdiv in E. lra. }
  assert (HT := ph_tau g HP). assert (HR := ph_rad g HP).
  assert (Egs : dgs g i = dg g i - dgp g) by (unfold dg; ring).
  unfold beds, bedp, facA. rewrite Ed, Egs. unfold edp, edd, tconv, dg1.
  unfold tortu_t, tortu0, tort. clear Hfl Ed Egs EY2 EP2.
  destruct (x_organic_free g).
  - specialize (Htt eq_refl). unfold d_v in *. set (ds := ds_v g i) in *. set (dp := dp_v g i) in *.
    assert (dp - ds <> 0) by lra.
    field. repeat split; lra.
  - assert (HTo : 0 < tortuosity_array (INR k)).
    { unfold tortuosity_array. match goal with |- context [rltb ?a 1] => destruct (rltb a 1) eqn:E end; [lra|].
      apply rltb_false in E. lra. }
    unfold d_v in *. set (ds := ds_v g i) in *. set (dp := dp_v g i) in *.
    assert (dp - ds <> 0) by lra.
    field. repeat split; lra.
Qed.

(** ** C70 — the column conserves mass *)

(** At every depth after the inlet, the liquid and the beads of a litre of bed together change
    only by advection: d/dt (ebed C + carries <Y>) = - ebed/tau * dC/dz (per second). *)
Theorem C70_local_balance : forall inv legendre jroots nr nz ne m g rows foul t y i z,
  good_library inv legendre jroots nr nz ->
  calc_solver_matrix inv legendre jroots nr nz ne = Ok m ->
  physical g -> (i < x_n g)%nat -> (1 <= z < m_c m)%nat ->
  let rate r := diffun g m nr rows foul t y i r z in
  let C j := outside g nr rows t y i j in
  (x_ebed g * cb0 g i * rate nr + carries g i * bead_average nr (w_r m) rate) * (tconv g / 60)
  = - (x_ebed g * cb0 g i / x_tau g) * apply_row (m_c m) (a_z m) C z.
Proof.
  intros inv leg jr nr nz ne m g rows foul t y i z HG Hm HP Hi Hz rate C. rewrite <- (carries_dg g i HP Hi).
  replace ((x_ebed g * cb0 g i * rate nr + x_ebed g * cb0 g i * dg g i * bead_average nr (w_r m) rate) * (tconv g / 60))
    with (x_ebed g * cb0 g i * ((rate nr + dg g i * bead_average nr (w_r m) rate) * (tconv g / 60))) by ring.
  assert (W := C68_surface_weight_positive _ _ _ _ _ _ _ HG Hm).
  destruct (solver_matrix_inv _ _ _ _ _ _ _ Hm) as (H2 & H3 & H1 & Emc & _).
  unfold bead_average, rate, diffun.
  rewrite (gac_balance g nr (m_c m) (w_r m) (a_z m) (b_r m)) by (try lia; try (assert (D := dg_pos g HP i Hi)); lra).
  assert (E : apply_row (m_c m) (a_z m) C z
    = a_z m z 0%nat * at_time g (cinfA g rows) t i
      + rsum (m_c m - 1) (fun j => a_z m z (S j) * y i nr (S j))).
  { unfold apply_row. replace (m_c m) with (S (m_c m - 1)) at 1 by lia. rewrite rsum_S_first. reflexivity. }
  rewrite E. unfold tconv. assert (D := dg1_pos g HP). assert (T := ph_tau g HP). field. lra.
Qed.
(** Along any solution, therefore, each compound's amount at a depth changes at exactly
    that rate. *)
Theorem C70_trajectory_balance : forall inv legendre jroots nr nz ne m g rows foul Tf y i z,
  good_library inv legendre jroots nr nz ->
  calc_solver_matrix inv legendre jroots nr nz ne = Ok m ->
  physical g -> (i < x_n g)%nat -> (1 <= z < m_c m)%nat ->
  gac_trajectory (x_n g) nr (m_c m) (diffun g m nr rows foul) Tf y ->
  evolves 0 Tf
    (fun T => x_ebed g * cb0 g i * y T i nr z + carries g i * bead_average nr (w_r m) (fun r => y T i r z))
    (fun T => - (60 / tconv g) * (x_ebed g * cb0 g i) / x_tau g
              * apply_row (m_c m) (a_z m) (outside g nr rows T (y T) i) z).
Proof.
  intros inv leg jr nr nz ne m g rows foul Tf y i z HG Hm HP Hi Hz HT.
  assert (E : evolves 0 Tf
    (fun T => x_ebed g * cb0 g i * y T i nr z + carries g i * bead_average nr (w_r m) (fun r => y T i r z))
    (fun T => x_ebed g * cb0 g i * diffun g m nr rows foul T (y T) i nr z
              + carries g i * bead_average nr (w_r m) (fun r => diffun g m nr rows foul T (y T) i r z))).
  { apply evolves_plus; [apply evolves_scal, HT; lia|]. apply evolves_scal. unfold bead_average. apply evolves_scal.
    apply (evolves_rsum 0 Tf nr (fun r T => w_r m r * y T i r z)
             (fun r T => w_r m r * diffun g m nr rows foul T (y T) i r z)).
    intros r Hr. apply evolves_scal. apply HT; lia. }
  eapply evolves_ext; [intros; reflexivity| |exact E]. intros T HTT. cbv beta.
  assert (B := C70_local_balance inv leg jr nr nz ne m g rows foul T (y T) i z HG Hm HP Hi Hz). cbv zeta in B.
  assert (TC := tconv_pos g HP).
  match type of B with ?a * _ = ?b => replace a with (a * (tconv g / 60) * (60 / tconv g)) by (field; lra); rewrite B end.
  change (fun j => outside g nr rows T (y T) i j) with (outside g nr rows T (y T) i).
  assert (HTau := ph_tau g HP). field. lra.
Qed.

(** ** C71 — equilibrium is ideal adsorbed solution theory *)

(** Loadings on the carbon, umol/g: q = qe Y.  The Freundlich constant in molar units,
    reduced by the fouling multiplier. *)
Theorem C71_ideal_adsorbed : forall g nr foul minute y r z,
  physical g ->
  (forall i, (i < x_n g)%nat -> 0 < foul i (INR minute)) ->
  (forall i, (i < x_n g)%nat -> 0 <= y i r z) ->
  (exists i, (i < x_n g)%nat /\ 0 < y i r z) ->
  let ff := at_time g (foulFA g foul) (INR minute * tconv g) in
  ideal_adsorbed (x_n g) (fun i => foul i (INR minute) * molar_k g i) (x_xn g)
    (fun i => qe g i * y i r z) (fun i => cb0 g i * cpore g nr ff y i r z).
Proof.
  intros g nr foul k y r z HP Hf Hy Hy1 ff.
  assert (T := tconv_pos g HP).
  assert (Hff : forall i, ff i = rpow (1 / foul i (INR k)) (xni g i)).
  { intros i. unfold ff. rewrite at_time_minute by lra. reflexivity. }
  assert (Hqe := qe_pos g HP). assert (Hxn := ph_xn g HP). assert (Hn := ph_n g HP).
  set (q := fun i => qe g i * y i r z).
  assert (Qp : 0 < rsum (x_n g) q) by (apply (Qsum_pos g y r z Hqe Hy Hy1)).
  set (P := rsum (x_n g) (fun i => q i / x_xn g i)).
  assert (Pp : 0 < P) by (apply (Psum_pos g y r z Hqe Hxn Hy Hy1)).
  unfold ideal_adsorbed. cbv zeta.
  exists P, (fun i => rpow (x_xn g i * P / (foul i (INR k) * molar_k g i)) (xni g i)), (fun i => x_xn g i * P).
  split; [exact Pp|]. split.
  - intros i Hi. assert (F := Hf i Hi). assert (X := Hxn i Hi). assert (M := molar_k_pos g HP i Hi).
    assert (C := cb0_pos g HP i Hi). assert (XI : 0 < xni g i) by (unfold xni; apply Rdiv_lt_0_compat; lra).
    assert (FM : 0 < foul i (INR k) * molar_k g i) by (apply Rmult_lt_0_compat; assumption).
    assert (XP : 0 < x_xn g i * P) by (apply Rmult_lt_0_compat; assumption).
    assert (B : 0 < x_xn g i * P / (foul i (INR k) * molar_k g i)) by (apply Rdiv_lt_0_compat; assumption).
    split; [apply rpow_pos, B|]. split; [|split].
    + rewrite rpow_rpow by exact B. replace (xni g i * x_xn g i) with 1 by (unfold xni; field; lra).
      rewrite rpow_1 by lra. field. lra.
    + field. lra.
    + assert (F0 : forall j, (j < x_n g)%nat -> 0 <= ff j).
      { intros j Hj. rewrite Hff. apply rpow_nonneg. left. apply Rdiv_lt_0_compat; [lra|apply Hf, Hj]. }
      rewrite (cpore_eq g nr ff y r z Hn Hqe Hxn F0 Hy Hy1 i Hi). change (rsum (x_n g) (fun j => qe g j * y j r z / x_xn g j)) with P.
      change (rsum (x_n g) (fun j => qe g j * y j r z)) with (rsum (x_n g) q).
      change (qe g i * y i r z) with (q i).
      rewrite Hff. set (Q := rsum (x_n g) q) in *.
      replace (cb0 g i * (rpow (1 / foul i (INR k)) (xni g i) * (q i / Q * rpow (x_xn g i / qe g i * P) (xni g i))))
        with (q i / Q * (cb0 g i * rpow (1 / foul i (INR k)) (xni g i) * rpow (x_xn g i / qe g i * P) (xni g i)))
        by ring.
      apply (f_equal (Rmult (q i / Q))).
      assert (EC : cb0 g i = rpow (rpow (cb0 g i) (x_xn g i)) (xni g i)).
      { rewrite rpow_rpow by exact C. replace (x_xn g i * xni g i) with 1 by (unfold xni; field; lra).
        rewrite rpow_1 by lra. reflexivity. }
      assert (Cx : 0 < rpow (cb0 g i) (x_xn g i)) by (apply rpow_pos, C).
      assert (F1 : 0 < 1 / foul i (INR k)) by (apply Rdiv_lt_0_compat; lra).
      assert (G1 : 0 < x_xn g i / qe g i * P)
        by (apply Rmult_lt_0_compat; [apply Rdiv_lt_0_compat; [exact X|apply Hqe, Hi]|exact Pp]).
      transitivity (rpow (rpow (cb0 g i) (x_xn g i)) (xni g i) * rpow (1 / foul i (INR k)) (xni g i)
                    * rpow (x_xn g i / qe g i * P) (xni g i)); [rewrite <- EC; reflexivity|].
      rewrite <- !rpow_mult by (try assumption; apply Rmult_lt_0_compat; assumption).
      apply (f_equal (fun b => rpow b (xni g i))). unfold qe. field. lra.
  - rewrite (rsum_ext (x_n g) _ (fun i => (q i / x_xn g i) / (rsum (x_n g) q * P))).
    + rewrite rsum_div. fold P. field. lra.
    + intros i Hi. assert (X := Hxn i Hi). unfold q at 1 3. fold q. field. lra.
Qed.

(** With one compound this is the Freundlich isotherm, in the mass units of K:
    q (ug/g) = K C^(1/n) with C in ug/L. *)
Theorem C71_freundlich : forall g nr foul minute y r z,
  physical g -> x_n g = 1%nat -> 0 < foul 0%nat (INR minute) -> 0 < y 0%nat r z ->
  let ff := at_time g (foulFA g foul) (INR minute * tconv g) in
  let q := qe g 0 * y 0%nat r z * x_mw g 0 in                  (* ug/g *)
  let C := cb0 g 0 * cpore g nr ff y 0 r z * x_mw g 0 in       (* ug/L *)
  q = foul 0%nat (INR minute) * x_K g 0 * rpow C (x_xn g 0).
Proof.
  intros g nr foul k y r z HP H1 Hf Hy ff q C.
  destruct (C71_ideal_adsorbed g nr foul k y r z HP) as (P & C0 & q0 & PP & HI & HS).
  - intros i Hi. rewrite H1 in Hi. replace i with 0%nat by lia. exact Hf.
  - intros i Hi. rewrite H1 in Hi. replace i with 0%nat by lia. lra.
  - exists 0%nat. split; [lia|exact Hy].
  - rewrite H1 in *. assert (L01 : (0 < 1)%nat) by lia. destruct (HI 0%nat L01) as (A & B & D & E).
    assert (L0 : (0 < x_n g)%nat) by lia.
    assert (QE := qe_pos g HP 0%nat L0). assert (M := ph_mw g HP 0%nat L0).
    assert (QY : 0 < qe g 0 * y 0%nat r z) by (apply Rmult_lt_0_compat; assumption).
    cbn [rsum] in HS, E. cbv beta in HS, E.
    replace (0 + qe g 0 * y 0%nat r z) with (qe g 0 * y 0%nat r z) in HS, E by ring. rewrite Rplus_0_l in HS.
    assert (E2 : cb0 g 0 * cpore g nr ff y 0 r z = C0 0%nat).
    { unfold ff. rewrite E. field. split; apply Rgt_not_eq; assumption || lra. }
    assert (Q0 : q0 0%nat = qe g 0 * y 0%nat r z).
    { assert (XN := ph_xn g HP 0%nat L0).
      assert (q0p : 0 < q0 0%nat).
      { rewrite B. apply Rmult_lt_0_compat; [|apply rpow_pos, A].
        apply Rmult_lt_0_compat; [exact Hf|apply molar_k_pos; [exact HP|exact L0]]. }
      assert (HS' : / q0 0%nat = / (qe g 0 * y 0%nat r z)).
      { replace (/ q0 0%nat) with (qe g 0 * y 0%nat r z / (qe g 0 * y 0%nat r z) / q0 0%nat)
          by (field; split; [|split]; apply Rgt_not_eq; assumption || lra).
        rewrite HS. unfold Rdiv. ring. }
      rewrite <- (Rinv_inv (q0 0%nat)), HS', Rinv_inv. reflexivity. }
    unfold q, C. rewrite E2, <- Q0, B. unfold molar_k.
    assert (PM : 0 < rpow (1 / x_mw g 0) (x_xn g 0)) by (apply rpow_pos, Rdiv_lt_0_compat; lra).
    replace (C0 0%nat * x_mw g 0) with (C0 0%nat / (1 / x_mw g 0)) by (field; lra).
    rewrite (rpow_div (C0 0%nat) (1 / x_mw g 0)) by (try assumption; apply Rdiv_lt_0_compat; lra). field. lra.
Qed.

(** ** C72 — a column in equilibrium with its influent stays there *)

Lemma rpow_ge_0 x a : 0 <= rpow x a.
Proof.
  unfold rpow, Rpower. destruct (Req_EM_T x 0); [destruct (Req_EM_T a 0); lra|left; apply exp_pos].
Qed.
Lemma at_time_nonneg g A t i : (forall m, 0 <= A m i) -> 0 <= at_time g A t i.
Proof.
  intros H. unfold at_time. set (m := t / tconv g). destruct (base_Int_part m) as (B1 & B2).
  assert (H1 := H (Z.to_nat (Int_part m))). assert (H2 := H (S (Z.to_nat (Int_part m)))).
  set (a := A (Z.to_nat (Int_part m)) i) in *. set (b := A (S (Z.to_nat (Int_part m))) i) in *.
  set (s := m - IZR (Int_part m)) in *. assert (0 <= s < 1) by (unfold s; lra). clearbody a b s.
  assert (0 <= b * s) by (apply Rmult_le_pos; lra). assert (0 <= a * (1 - s)) by (apply Rmult_le_pos; lra). lra.
Qed.
Lemma cpore_raw_nonneg g ff y i r z : 0 <= ff i -> 0 <= cpore_raw g ff y i r z.
Proof.
  intros F. unfold cpore_raw. destruct (rltb _ (-20)); [lra|]. destruct (rleb (yt0 g y r z) 0); [lra|].
  destruct (rleb (qte2 g y r z) 0) eqn:E; [lra|]. unfold z2. rewrite E. apply rleb_false in E.
  apply Rmult_le_pos; [exact F|]. apply Rmult_le_pos; [|apply rpow_ge_0].
  apply Rmult_le_pos; [|left; apply Rinv_0_lt_compat; lra].
  unfold z_raw. cbv zeta. destruct (rltb (ym g i * y i r z) 0) eqn:E2; [lra|]. apply rltb_false in E2. lra.
Qed.

Theorem C72_equilibrium_is_steady : forall inv legendre jroots nr nz ne m g rows foul t y,
  good_library inv legendre jroots nr nz ->
  calc_solver_matrix inv legendre jroots nr nz ne = Ok m ->
  let Cin := at_time g (cinfA g rows) t in
  (* uniform beads *)
  (forall i r z, (i < x_n g)%nat -> (r < nr)%nat -> (z < m_c m)%nat -> y i r z = y i 0%nat z) ->
  (* whose pore liquid is the influent *)
  (forall i z, (i < x_n g)%nat -> (z < m_c m)%nat -> surface_liquid g nr foul t y i z = Cin i) ->
  (* as is the liquid *)
  (forall i z, (i < x_n g)%nat -> (1 <= z < m_c m)%nat -> y i nr z = Cin i) ->
  forall i r z, (i < x_n g)%nat -> (r <= nr)%nat -> (z < m_c m)%nat ->
    diffun g m nr rows foul t y i r z = 0.
Proof.
  intros inv leg jr nr nz ne m g rows foul t y HG Hm Cin Hu Hs Hl i r z Hi Hr Hz.
  destruct (solver_matrix_inv _ _ _ _ _ _ _ Hm) as (H2 & H3 & H1 & Emc & _).
  assert (W := C68_surface_weight_positive _ _ _ _ _ _ _ HG Hm).
  assert (RC := radial_constants _ _ _ _ _ _ _ (gl_inv_r _ _ _ _ _ HG) (gl_jac _ _ _ _ _ HG) Hm).
  assert (AC := axial_constants _ _ _ _ _ _ _ (gl_inv_z _ _ _ _ _ HG) (gl_leg _ _ _ _ _ HG) Hm).
  set (ff := at_time g (foulFA g foul) t). set (fa := at_time g (facA g) t).
  assert (FF : 0 <= ff i) by (apply at_time_nonneg; intros; apply rpow_ge_0).
  assert (RAW : forall s, (s < nr)%nat -> cpore_raw g ff y i s z = cpore_raw g ff y i (nr - 1) z).
  { intros s Hs'.
    assert (ZR : forall j, (j < x_n g)%nat -> z_raw g y j s z = z_raw g y j (nr - 1) z).
    { intros j Hj. unfold z_raw. rewrite (Hu j s z), (Hu j (nr - 1)%nat z) by (try assumption; lia). reflexivity. }
    assert (Q2 : qte2 g y s z = qte2 g y (nr - 1) z).
    { unfold qte2. rewrite (rsum_ext (x_n g) _ _ ZR). reflexivity. }
    assert (Y0 : yt0 g y s z = yt0 g y (nr - 1) z).
    { unfold yt0. apply rsum_ext. intros j Hj. rewrite ZR by exact Hj. reflexivity. }
    unfold cpore_raw, q0, z2. rewrite Q2, Y0, ZR by exact Hi. reflexivity. }
  assert (NN := cpore_raw_nonneg g ff y i (nr - 1) z FF).
  assert (BB : forall s, (s < nr)%nat -> bb g nr (b_r m) ff fa y i s z = 0).
  { intros s Hs'. unfold bb.
    rewrite (rsum_ext nr (fun j => beds g i * b_r m s j * y i j z) (fun j => (beds g i * y i 0%nat z) * b_r m s j))
      by (intros j Hj; rewrite (Hu i j z) by assumption; ring).
    rewrite rsum_scal. change (fun j => b_r m s j) with (b_r m s). rewrite RC by lia.
    rewrite (rsum_ext nr (fun j => bedp g i * b_r m s j * cpore g nr ff y i j z)
               (fun j => (bedp g i * cpore_raw g ff y i (nr - 1) z) * b_r m s j)).
    - rewrite rsum_scal. change (fun j => b_r m s j) with (b_r m s). rewrite RC by lia. ring.
    - intros j Hj. unfold cpore. cbv zeta. rewrite (RAW j Hj).
      destruct (Nat.eqb j (nr - 1)); [|ring].
      destruct (rltb (cpore_raw g ff y i (nr - 1) z) 0) eqn:E; [|ring].
      apply rltb_true in E. lra. }
  assert (WW : ww g nr (w_r m) (b_r m) ff fa y i z = 0).
  { unfold ww. apply rsum_zero. intros s Hs'. rewrite BB by lia. ring. }
  assert (SL := Hs i z Hi Hz). unfold surface_liquid in SL. fold ff in SL.
  unfold diffun. fold Cin ff fa. unfold gac_rhs.
  destruct (Nat.ltb_spec r (nr - 1)); [apply BB; lia|].
  destruct (Nat.eqb_spec r (nr - 1)).
  - destruct (Nat.eqb_spec z 0) as [->|Hz0].
    + rewrite SL, WW. field. lra.
    + unfold cbs. rewrite (proj2 (Nat.eqb_neq z 0) Hz0), SL, WW, (Hl i z) by (try assumption; lia). field. lra.
  - destruct (Nat.eqb_spec z 0) as [->|Hz0]; [reflexivity|].
    unfold cbs. rewrite (proj2 (Nat.eqb_neq z 0) Hz0), SL, (Hl i z) by (try assumption; lia).
    assert (A := AC z Hz). replace (m_c m) with (S (m_c m - 1)) in A at 1 by lia. rewrite rsum_S_first in A.
    rewrite (rsum_ext (m_c m - 1) _ (fun j => Cin i * a_z m z (S j))).
    + rewrite rsum_scal.
      replace (a_z m z 0%nat * Cin i + Cin i * rsum (m_c m - 1) (fun j => a_z m z (S j)))
        with (Cin i * (a_z m z 0%nat + rsum (m_c m - 1) (fun j => a_z m z (S j)))) by ring.
      rewrite A. ring.
    + intros j Hj. rewrite (Hl i (S j)) by (try assumption; lia). ring.
Qed.

(** ** C73 — what is reported *)

(** solve_ivp's flat result is read with a stride; the entry read for compound [i] is the
    liquid at the outlet. *)
Theorem C73_effluent_location : forall nr mc i, (0 < mc)%nat ->
  ((nr + 1) * mc * (i + 1) - 1 = gflat nr mc i nr (mc - 1))%nat.
Proof. intros nr mc i H. unfold gflat. nia. Qed.
(** Effluent is never negative and is in the units of the influent: a relative
    concentration equal to the influent's at a whole minute is reported as the sheet's
    influent at that minute, and reported values scale with the relative concentration. *)
Theorem C73_reported_units : forall g rows i minute s, physical g -> (i < x_n g)%nat -> 0 <= s ->
  0 <= interp_x (rows i) (INR minute) ->
  reported g i (s * at_time g (cinfA g rows) (INR minute * tconv g) i)
  = s * interp_x (rows i) (INR minute).
Proof.
  intros g rows i k s HP Hi Hs Hp.
  assert (E := C37_inlet_follows_influent g rows i k HP Hi).
  assert (C := cb0_pos g HP i Hi). assert (M := ph_mw g HP i Hi). assert (U := ph_mul g HP).
  set (c := at_time g (cinfA g rows) (INR k * tconv g) i) in *.
  assert (Cn : 0 <= c).
  { replace c with (interp_x (rows i) (INR k) * (x_mass_mul g / (cb0 g i * x_mw g i))) by (rewrite <- E; field; lra).
    apply Rmult_le_pos; [exact Hp|]. left. apply Rdiv_lt_0_compat; [exact U|apply Rmult_lt_0_compat; lra]. }
  unfold reported. destruct (rltb (s * c) 0) eqn:L.
  - apply rltb_true in L. assert (0 <= s * c) by (apply Rmult_le_pos; assumption). lra.
  - rewrite <- E. field. lra.
Qed.
Theorem C73_reported_nonneg : forall g i c, physical g -> (i < x_n g)%nat -> 0 <= reported g i c.
Proof.
  intros g i c HP Hi. unfold reported.
  assert (C := cb0_pos g HP i Hi). assert (M := ph_mw g HP i Hi). assert (U := ph_mul g HP).
  apply Rmult_le_pos; [|left; apply Rinv_0_lt_compat; lra].
  apply Rmult_le_pos; [|lra]. apply Rmult_le_pos; [|lra].
  destruct (rltb c 0) eqn:E; [lra|]. apply rltb_false in E. lra.
Qed.

(** ** C44 — supplied mass-transfer coefficients *)

(** A positive film or pore coefficient is used as given; zero or less asks for the
    correlation. *)
Theorem C44_overrides_partial : forall g i,
  (* diffusivity in water by Hayduk and Laudie, film by Gnielinski *)
  let D := 1326 / 10000000 / (rpow (100 * x_vw g) (114 / 100) * rpow (x_molvol g i) (589 / 1000)) in
  let Sc := x_vw g / (x_dw g * D) in
  let Sh := (1 + 15 / 10 * (1 - x_ebed g)) * (2 + 644 / 1000 * rpow (x_re g) (1 / 2) * rpow Sc (1 / 3)) in
  (0 < x_kf g i -> kf_v g i = x_kf g i) /\ (x_kf g i <= 0 -> kf_v g i = D / (2 * x_rad g) * Sh) /\
  (0 < x_dp g i -> dp_v g i = x_dp g i) /\ (x_dp g i <= 0 -> dp_v g i = D / (if x_organic_free g then x_tortu g else 1)) /\
  (x_organic_free g = true ->
     (0 < x_ds g i -> ds_v g i = x_ds g i) /\ (x_ds g i <= 0 -> ds_v g i = ds_corr g i)).
Proof.
  intros g i D Sc Sh.
  assert (ED : difl_v g i = D).
  { unfold difl_v, difl, D. rewrite (Rmult_comm 100). replace (dec 1326 7) with (1326 / 10000000) by (unfold dec; lra).
    replace (dec 114 2) with (114 / 100) by (unfold dec; lra). replace (dec 589 3) with (589 / 1000) by (unfold dec; lra). reflexivity. }
  assert (EK : kf_corr g i = D / (2 * x_rad g) * Sh).
  { unfold kf_corr, kf_default, kf_calc. cbn [String.eqb Ascii.eqb Bool.eqb]. rewrite ED. change (schmidt (x_vw g) (x_dw g) D) with Sc. unfold Sh.
    replace (dec 15 1) with (15 / 10) by (unfold dec; lra). replace (dec 644 3) with (644 / 1000) by (unfold dec; lra).
    replace (dec 5 1) with (1 / 2) by (unfold dec; lra). unfold Rdiv. ring. }
  rewrite <- EK, <- ED. change (if x_organic_free g then x_tortu g else 1) with (tortu0 g). clear ED EK. clearbody D Sc Sh.
  unfold kf_v, dp_v, ds_v.
  repeat split; intros;
    try match goal with H : x_organic_free g = true |- _ => rewrite H end;
    match goal with |- context [rltb 0 ?x] => destruct (rltb 0 x) eqn:E end; try reflexivity;
    (apply rltb_true in E || apply rltb_false in E); lra.
Qed.
(** In any other water type the supplied surface coefficient is not used: it is divided
    by 1e10. *)
Theorem C44_surface_refuted : forall g i, x_organic_free g = false -> 0 < x_ds g i ->
  ds_v g i = x_ds g i / 10 ^ 10 /\ ds_v g i <> x_ds g i.
Proof.
  intros g i H P. unfold ds_v. rewrite H. destruct (rltb 0 (x_ds g i)) eqn:E; [|apply rltb_false in E; lra].
  split; [reflexivity|]. intros Q. lra.
Qed.

(** ** C152 — the surface-to-pore diffusion flux ratio

    Without a given coefficient, surface diffusion is to carry [x_psdfr] times as much as
    pore diffusion under the gradient of a bead that is at the influent on its outside and
    empty inside: umol/L on the surface of the pores times their diffusivity, against
    umol/L in the pores times theirs. *)
Definition surface_over_pore g i (ratio : R) : Prop :=
  ds_v g i * (1000 * x_rhop g * (at_feed g i / x_mw g i)) = ratio * (dp_v g i * (x_epor g * cb0 g i)).
Lemma ratio_general g i : physical g -> (i < x_n g)%nat -> 0 < tortu0 g ->
  x_ds g i <= 0 -> x_dp g i <= 0 ->
  surface_over_pore g i (if x_organic_free g then x_psdfr g else x_psdfr g / 10 ^ 10).
Proof.
  intros HP Hi Ht Hs Hp. unfold surface_over_pore, ds_v, dp_v, ds_corr.
  destruct (rltb 0 (x_ds g i)) eqn:E1; [apply rltb_true in E1; lra|].
  destruct (rltb 0 (x_dp g i)) eqn:E2; [apply rltb_true in E2; lra|].
  assert (C := cb0_pos g HP i Hi). assert (M := ph_mw g HP i Hi). assert (K := ph_K g HP i Hi).
  assert (R := ph_rhop g HP).
  unfold at_feed, molar_k. rewrite (rpow_mult (cb0 g i) (x_mw g i)) by lra.
  replace (1 / x_mw g i) with (/ x_mw g i) by (field; lra). rewrite rpow_inv by lra.
  assert (P := rpow_pos (x_mw g i) (x_xn g i) ltac:(lra)).
  assert (P2 := rpow_pos (cb0 g i) (x_xn g i) ltac:(lra)).
  destruct (x_organic_free g); field; repeat split; lra.
Qed.
Theorem C152_flux_ratio_partial : forall g i, physical g -> (i < x_n g)%nat ->
  x_organic_free g = true -> 0 < x_tortu g -> x_ds g i <= 0 -> x_dp g i <= 0 ->
  surface_over_pore g i (x_psdfr g).
Proof.
  intros g i HP Hi Ho Ht Hs Hp. assert (E := ratio_general g i HP Hi). rewrite Ho in E.
  apply E; try assumption. unfold tortu0. rewrite Ho. exact Ht.
Qed.
(** In any other water the ratio is 1e10 times smaller. *)
Theorem C152_flux_ratio_refuted : forall g i, physical g -> (i < x_n g)%nat ->
  x_organic_free g = false -> 0 < x_psdfr g -> 0 < difl_v g i -> x_ds g i <= 0 -> x_dp g i <= 0 ->
  surface_over_pore g i (x_psdfr g / 10 ^ 10) /\ ~ surface_over_pore g i (x_psdfr g).
Proof.
  intros g i HP Hi Ho Hr Hd Hs Hp. assert (T : tortu0 g = 1) by (unfold tortu0; rewrite Ho; reflexivity).
  assert (E := ratio_general g i HP Hi). rewrite Ho in E. specialize (E ltac:(rewrite T; lra) Hs Hp).
  split; [exact E|]. intros E2. unfold surface_over_pore in E, E2. rewrite E in E2.
  assert (D : dp_v g i = difl_v g i).
  { unfold dp_v. destruct (rltb 0 (x_dp g i)) eqn:E3; [apply rltb_true in E3; lra|]. rewrite T. field. }
  rewrite D in E2. assert (C := cb0_pos g HP i Hi). assert (P := ph_epor g HP).
  apply Rmult_eq_reg_r in E2; [lra|]. apply Rgt_not_eq. apply Rmult_lt_0_compat; [exact Hd|].
  apply Rmult_lt_0_compat; assumption.
Qed.

(** ** The hypotheses are met: two radial points, three axial points per element *)

Definition det2 (a b c d : R) : R := a * d - b * c.
Definition det3 (a b c d e f g h i : R) : R := a * (e * i - f * h) - b * (d * i - f * g) + c * (d * h - e * g).
(** Inverse by cofactors, for 2 x 2 and 3 x 3. *)
Definition inv23 (n : nat) (Q : matrix) : matrix :=
  if Nat.eqb n 2 then
    let D := det2 (Q 0%nat 0%nat) (Q 0%nat 1%nat) (Q 1%nat 0%nat) (Q 1%nat 1%nat) in
    fun i j => match i, j with
      | O, O => (Q 1%nat 1%nat) / D | O, S O => - (Q 0%nat 1%nat) / D | S O, O => - (Q 1%nat 0%nat) / D | S O, S O => (Q 0%nat 0%nat) / D
      | _, _ => 0 end
  else
    let D := det3 (Q 0%nat 0%nat) (Q 0%nat 1%nat) (Q 0%nat 2%nat) (Q 1%nat 0%nat) (Q 1%nat 1%nat) (Q 1%nat 2%nat) (Q 2%nat 0%nat) (Q 2%nat 1%nat) (Q 2%nat 2%nat) in
    fun i j => match i, j with
      | O, O => ((Q 1%nat 1%nat) * (Q 2%nat 2%nat) - (Q 1%nat 2%nat) * (Q 2%nat 1%nat)) / D
      | O, S O => ((Q 0%nat 2%nat) * (Q 2%nat 1%nat) - (Q 0%nat 1%nat) * (Q 2%nat 2%nat)) / D
      | O, S (S O) => ((Q 0%nat 1%nat) * (Q 1%nat 2%nat) - (Q 0%nat 2%nat) * (Q 1%nat 1%nat)) / D
      | S O, O => ((Q 1%nat 2%nat) * (Q 2%nat 0%nat) - (Q 1%nat 0%nat) * (Q 2%nat 2%nat)) / D
      | S O, S O => ((Q 0%nat 0%nat) * (Q 2%nat 2%nat) - (Q 0%nat 2%nat) * (Q 2%nat 0%nat)) / D
      | S O, S (S O) => ((Q 0%nat 2%nat) * (Q 1%nat 0%nat) - (Q 0%nat 0%nat) * (Q 1%nat 2%nat)) / D
      | S (S O), O => ((Q 1%nat 0%nat) * (Q 2%nat 1%nat) - (Q 1%nat 1%nat) * (Q 2%nat 0%nat)) / D
      | S (S O), S O => ((Q 0%nat 1%nat) * (Q 2%nat 0%nat) - (Q 0%nat 0%nat) * (Q 2%nat 1%nat)) / D
      | S (S O), S (S O) => ((Q 0%nat 0%nat) * (Q 1%nat 1%nat) - (Q 0%nat 1%nat) * (Q 1%nat 0%nat)) / D
      | _, _ => 0 end.
Lemma inv23_2 : inverter inv23 2.
Proof.
  intros Q (M & HM).
  assert (D : det2 (Q 0 0)%nat (Q 0 1)%nat (Q 1 0)%nat (Q 1 1)%nat <> 0).
  { intros Z.
    assert (P : det2 (Q 0 0)%nat (Q 0 1)%nat (Q 1 0)%nat (Q 1 1)%nat * det2 (M 0 0)%nat (M 0 1)%nat (M 1 0)%nat (M 1 1)%nat
      = det2 (rsum 2 (fun k => Q 0%nat k * M k 0%nat)) (rsum 2 (fun k => Q 0%nat k * M k 1%nat))
             (rsum 2 (fun k => Q 1%nat k * M k 0%nat)) (rsum 2 (fun k => Q 1%nat k * M k 1%nat)))
      by (unfold det2; cbn [rsum]; ring).
    rewrite !(fun i j Hi Hj => proj1 (HM i j Hi Hj)) in P by lia.
    unfold delta in P. cbn [Nat.eqb] in P. rewrite Z in P. unfold det2 in P. lra. }
  unfold det2 in D.
  intros i j Hi Hj. unfold inv23. cbn [Nat.eqb]. unfold det2, delta.
  destruct i as [|[|i]]; [| |lia]; (destruct j as [|[|j]]; [| |lia]); cbn [rsum Nat.eqb];
    split; field; lra.
Qed.
Lemma inv23_3 : inverter inv23 3.
Proof.
  intros Q (M & HM).
  set (dt := fun A : matrix => det3 (A 0 0)%nat (A 0 1)%nat (A 0 2)%nat (A 1 0)%nat (A 1 1)%nat (A 1 2)%nat
                                    (A 2 0)%nat (A 2 1)%nat (A 2 2)%nat).
  assert (D : dt Q <> 0).
  { intros Z.
    assert (P : dt Q * dt M = dt (fun i j => rsum 3 (fun k => Q i k * M k j)))
      by (unfold dt, det3; cbn [rsum]; ring).
    unfold dt in P at 3. rewrite !(fun i j Hi Hj => proj1 (HM i j Hi Hj)) in P by lia.
    unfold delta in P. cbn [Nat.eqb] in P. rewrite Z in P. unfold det3 in P. lra. }
  unfold dt, det3 in D.
  intros i j Hi Hj. unfold inv23. cbn [Nat.eqb]. unfold det3, delta.
  destruct i as [|[|[|i]]]; [| | |lia]; (destruct j as [|[|[|j]]]; [| | |lia]); cbn [rsum Nat.eqb];
    split; field; exact D.
Qed.
Definition leg_mid : nat -> nat -> R := fun _ _ => 1 / 2.
Definition jac_one : nat -> R -> R -> nat -> R := fun _ _ _ _ => - 1 / 7.
Lemma library_example : good_library inv23 leg_mid jac_one 2 3.
Proof.
  split; [apply inv23_2|apply inv23_3| |].
  - split; unfold leg_mid; intros; [lra|lia].
  - unfold jac_one. split; [intros; lra|]. split; [intros; lia|].
    intros c. destruct (even_integral 3 (fun k => match k with O => - 3 / 7 | S O => 10 / 7 | _ => -1 end * c 0%nat))
      as (F & DF & EF).
    exists F. split.
    + intros r. unfold derivative in DF. specialize (DF r). cbv beta in DF.
      replace (r ^ 2 * (1 - r ^ 2) * node_product (2 - 1) (fun _ => (- 1 / 7 + 1) / 2) (r ^ 2) * poly (2 - 1) c (r ^ 2))
        with (r ^ 2 * poly 3 (fun k => match k with O => - 3 / 7 | S O => 10 / 7 | _ => -1 end * c 0%nat) (r ^ 2));
        [exact DF|]. unfold poly. cbn [rsum node_product Nat.sub]. simpl pow. field.
    + rewrite <- EF. cbn [rsum]. simpl INR. field.
Qed.
(** Two solutes in a fouled water, and one in clean water. *)
Definition g_ex (n : nat) (clean : bool) (tort : R) : gac_in :=
  {| x_n := n; x_epor := 1 / 2; x_rhop := 1; x_ebed := 1 / 2; x_tau := 60; x_rad := 1 / 20;
     x_tortu := tort; x_psdfr := 5; x_vw := 1 / 100; x_dw := 1; x_re := 1;
     x_mass_mul := 1; x_organic_free := clean;
     x_K := fun i => 10 + INR i; x_xn := fun i => 1 / 2; x_mw := fun i => 100; x_molvol := fun i => 100;
     x_kf := fun i => 1 / 1000; x_dp := fun i => 1 / 10 ^ 6; x_ds := fun i => 1 / 10 ^ 9;
     x_inf0 := fun i => 100 |}.
Example physical_example : forall n c t, (0 < n)%nat -> physical (g_ex n c t).
Proof.
  intros n c t Hn. split; cbn; try lra; try exact Hn; intros i Hi; try lra.
  assert (0 <= INR i) by apply pos_INR. lra.
Qed.
Example matrices_example : forall ne, (1 <= ne)%nat ->
  exists m, calc_solver_matrix inv23 leg_mid jac_one 2 3 ne = Ok m /\ (3 <= m_c m)%nat.
Proof.
  intros ne H. unfold calc_solver_matrix. destruct ne as [|[|ne]]; [lia| |]; cbn [Nat.ltb Nat.leb orb];
    eexists; (split; [reflexivity|]); cbn [m_c]; lia.
Qed.
(** A bead out of equilibrium with its liquid: a fresh column fed at constant influent. *)
Example fresh_column_transfers : forall c t m,
  outside (g_ex 2 c t) 2 (fun _ => [(0, 100); (1000, 100)]) 0 (fun _ _ _ => 0) 0 0
  <> surface_liquid (g_ex 2 c t) 2 m 0 (fun _ _ _ => 0) 0 0.
Proof.
  intros c t m. assert (HP : physical (g_ex 2 c t)) by (apply physical_example; lia).
  assert (T := tconv_pos _ HP).
  unfold outside, surface_liquid. cbn [Nat.eqb].
  replace 0 with (INR 0 * tconv (g_ex 2 c t)) at 1 by (simpl; ring).
  assert (E := C37_inlet_follows_influent (g_ex 2 c t) (fun _ => [(0, 100); (1000, 100)]) 0%nat 0%nat HP ltac:(cbn; lia)).
  intros Q. rewrite Q in E. clear Q.
  replace (interp_x [(0, 100); (1000, 100)] (INR 0)) with 100 in E.
  - replace (cpore (g_ex 2 c t) 2 _ (fun _ _ _ => 0) 0 (2 - 1) 0) with 0 in E; [rewrite !Rmult_0_l in E; unfold Rdiv in E; lra|].
    unfold cpore, cpore_raw.
    assert (Y : yt0 (g_ex 2 c t) (fun _ _ _ => 0) (2 - 1) 0 = 0).
    { unfold yt0. apply rsum_zero. intros i Hi. unfold z_raw. rewrite Rmult_0_r.
      destruct (rltb 0 0); ring. }
    rewrite Y. unfold rleb at 1 3. destruct (Rle_dec 0 0); [|lra].
    cbn [Nat.sub Nat.eqb]. destruct (rltb (xni _ _ * _) (-20)); destruct (rltb 0 0); reflexivity.
  - cbn [interp_x]. unfold line. simpl INR. field.
Qed.
(** The diffusion theorem's conditions, in clean water with tortuosity one and in fouled
    water. *)
Example diffusion_conditions : forall c, let g := g_ex 2 c 1 in
  0 < dp_v g 0 /\ ds_v g 0 <> dp_v g 0 /\ (x_organic_free g = true -> 0 < x_tortu g) /\
  / 10 ^ 130 <= ds_v g 0 * dgs g 0 * x_tau g / x_rad g ^ 2.
Proof.
  intros c g. assert (HP : physical g) by (apply physical_example; lia).
  assert (C : cb0 g 0 = 1).
  { unfold cb0. cbn. replace (100 * 1 / 100) with 1 by field. unfold reqb. destruct (Req_EM_T 1 0); lra. }
  assert (D : 100 <= dgs g 0).
  { unfold dgs, qe. rewrite C, rpow_one_base. unfold molar_k. cbn -[rpow].
    assert (B1 := rpow_le (1 / 100) 1 (1 / 2) ltac:(lra) ltac:(lra)). rewrite rpow_one_base in B1.
    assert (B2 := rpow_pos (1 / 100) (1 / 2) ltac:(lra)). set (p := rpow (1 / 100) (1 / 2)) in *. clearbody p.
    assert (1 <= / p) by (rewrite <- Rinv_1; apply Rinv_le_contravar; lra).
    unfold Rdiv. rewrite Rplus_0_r. lra. }
  assert (Edp : dp_v g 0 = 1 / 10 ^ 6).
  { unfold dp_v. cbn -[pow]. destruct (rltb 0 (1 / 10 ^ 6)) eqn:E; [reflexivity|]. apply rltb_false in E. lra. }
  assert (Eds : 1 / 10 ^ 19 <= ds_v g 0 <= 1 / 10 ^ 9).
  { unfold ds_v. cbn -[pow]. destruct (rltb 0 (1 / 10 ^ 9)) eqn:E; [|apply rltb_false in E; lra].
    destruct c; lra. }
  rewrite Edp. split; [lra|]. split; [lra|]. split; [cbn; lra|].
  cbn -[pow ds_v dgs g]. change (x_tau g) with 60. change (x_rad g) with (1 / 20).
  apply Rle_trans with (1 / 10 ^ 19 * 100 * 60 / (1 / 20) ^ 2).
  - assert (/ 10 ^ 130 <= / 10 ^ 19).
    { apply Rinv_le_contravar; [apply pow_lt; lra|]. apply Rle_pow; [lra|lia]. }
    lra.
  - apply Rmult_le_compat_r; [lra|]. apply Rmult_le_compat_r; [lra|].
    apply Rmult_le_compat; lra.
Qed.
(** A column in equilibrium: one solute, clean water, beads and liquid at the influent. *)
Example equilibrium_example : forall ne m, (1 <= ne)%nat ->
  calc_solver_matrix inv23 leg_mid jac_one 2 3 ne = Ok m ->
  let g := g_ex 1 true 1 in let rows := fun _ => [(0, 100); (1000, 100)] in let y := fun _ _ _ => 1 in
  forall i r z, (i < 1)%nat -> (r <= 2)%nat -> (z < m_c m)%nat ->
    diffun g m 2 rows (fun _ _ => 1) 0 y i r z = 0.
Proof.
  intros ne m Hne Hm g rows y.
  assert (HP : physical g) by (apply physical_example; lia).
  assert (T := tconv_pos _ HP).
  assert (Z : 0 = INR 0 * tconv g) by (simpl; ring).
  assert (C : cb0 g 0 = 1).
  { unfold cb0. cbn. replace (100 * 1 / 100) with 1 by field. unfold reqb. destruct (Req_EM_T 1 0); lra. }
  assert (CI : at_time g (cinfA g rows) 0 0 = 1).
  { assert (E := C37_inlet_follows_influent g rows 0%nat 0%nat HP ltac:(cbn; lia)).
    rewrite <- Z, C in E. cbn -[at_time] in E. unfold line in E. 
    set (v := at_time g (cinfA g rows) 0 0) in *. clearbody v. lra. }
  assert (SL : forall z, surface_liquid g 2 (fun _ _ => 1) 0 y 0 z = 1).
  { intros z. unfold surface_liquid. rewrite Z.
    assert (F := C71_freundlich g 2 (fun _ _ => 1) 0%nat y 1%nat z HP eq_refl ltac:(lra) ltac:(unfold y; lra)).
    cbv zeta in F. rewrite C in F. unfold y at 1 in F.
    change (2 - 1)%nat with 1%nat. set (c := cpore g 2 _ y 0 1 z) in *.
    unfold qe, molar_k in F. rewrite C, rpow_one_base in F.
    change (x_K g 0) with (10 + 0) in F. change (x_mw g 0) with 100 in F. change (x_xn g 0) with (1 / 2) in F.
    assert (P2 := rpow_pos (1 / 100) (1 / 2) ltac:(lra)).
    assert (PI : rpow 100 (1 / 2) = / rpow (1 / 100) (1 / 2)).
    { rewrite <- rpow_inv by lra. f_equal. field. }
    assert (F2 : rpow (1 * c * 100) (1 / 2) = rpow 100 (1 / 2)).
    { rewrite PI. apply Rmult_eq_reg_l with (1 * (10 + 0)); [|lra]. rewrite <- F. field. lra. }
    apply rpow_inj in F2; [clearbody c; lra| |lra|lra].
    assert (c0 : 0 <= c); [|clearbody c; lra].
    unfold c, cpore. cbn [Nat.sub Nat.eqb]. destruct (rltb (cpore_raw g _ y 0 1 z) 0) eqn:L; [lra|].
    apply rltb_false in L. lra. }
  apply (C72_equilibrium_is_steady inv23 leg_mid jac_one 2 3 ne m g rows (fun _ _ => 1) 0 y library_example Hm).
  - reflexivity.
  - intros i z Hi _. cbn in Hi. replace i with 0%nat by lia. rewrite SL, CI. reflexivity.
  - intros i z Hi _. cbn in Hi. replace i with 0%nat by lia. rewrite CI. reflexivity.
Qed.
(** Iso-thermal and inlet hypotheses: a two-solute loading. *)
Example mixture_example : let g := g_ex 2 false 1 in let y := fun i _ _ => 1 + INR i in
  (forall i, (i < 2)%nat -> 0 <= y i 0%nat 0%nat) /\
  ideal_adsorbed 2 (fun i => (1 / 2) * molar_k g i) (x_xn g) (fun i => qe g i * y i 0%nat 0%nat)
    (fun i => cb0 g i * cpore g 2 (at_time g (foulFA g (fun _ _ => 1 / 2)) (INR 30 * tconv g)) y i 0 0).
Proof.
  intros g y.
  assert (Y : forall i, (i < 2)%nat -> 0 <= y i 0%nat 0%nat)
    by (intros i Hi; unfold y; assert (0 <= INR i) by apply pos_INR; lra).
  split; [exact Y|].
  apply (C71_ideal_adsorbed g 2 (fun _ _ => 1 / 2) 30 y 0 0).
  - apply physical_example; lia.
  - intros; lra.
  - exact Y.
  - exists 0%nat. split; [cbn; lia|]. unfold y. simpl. lra.
Qed.

(** A column without given coefficients, in both waters. *)
Definition g_corr (clean : bool) : gac_in :=
  {| x_n := 1; x_epor := 1 / 2; x_rhop := 1; x_ebed := 1 / 2; x_tau := 60; x_rad := 1 / 20;
     x_tortu := 3; x_psdfr := 5; x_vw := 1 / 100; x_dw := 1; x_re := 1;
     x_mass_mul := 1; x_organic_free := clean;
     x_K := fun i => 10; x_xn := fun i => 1 / 2; x_mw := fun i => 100; x_molvol := fun i => 100;
     x_kf := fun i => 0; x_dp := fun i => 0; x_ds := fun i => 0; x_inf0 := fun i => 100 |}.
Example correlation_example : forall c, let g := g_corr c in
  physical g /\ 0 < x_psdfr g /\ 0 < difl_v g 0 /\ x_ds g 0 <= 0 /\ x_dp g 0 <= 0 /\ 0 < x_tortu g.
Proof.
  intros c g. split; [split; cbn; try lra; try lia; intros i Hi; lra|]. cbn -[difl_v].
  split; [lra|]. split; [|lra]. unfold difl_v, difl, dec. cbn [g g_corr x_vw x_molvol].
  apply Rdiv_lt_0_compat; [apply Rdiv_lt_0_compat; [lra|apply pow_lt; lra]|].
  apply Rmult_lt_0_compat; apply rpow_pos; lra.
Qed.

Print Assumptions C68_axial_exact.
Print Assumptions C68_radial_exact.
Print Assumptions C68_surface_weight_positive.
Print Assumptions C22_sparsity_sound.
Print Assumptions C22_indexing.
Print Assumptions C37_bead_gain.
Print Assumptions C37_inlet_follows_influent.
Print Assumptions C37_inlet_between_minutes.
Print Assumptions C69_film_rate_partial.
Print Assumptions C69_film_rate_refuted.
Print Assumptions C69_diffusion_partial.
Print Assumptions C70_local_balance.
Print Assumptions C70_trajectory_balance.
Print Assumptions C71_ideal_adsorbed.
Print Assumptions C71_freundlich.
Print Assumptions C72_equilibrium_is_steady.
Print Assumptions C73_effluent_location.
Print Assumptions C73_reported_units.
Print Assumptions C73_reported_nonneg.
Print Assumptions C44_overrides_partial.
Print Assumptions C44_surface_refuted.
Print Assumptions C152_flux_ratio_partial.
Print Assumptions C152_flux_ratio_refuted.
