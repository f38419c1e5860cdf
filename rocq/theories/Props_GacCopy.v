(** Property C151: the two copies of the granular-carbon package. *)
From Coq Require Import Reals List Arith Bool Lra Lia ZArith String.
From Verif Require Import Lib_Py Lib_Sum Lib_Pow Lib_Poly Lib_Traj M_Colloc S_Colloc P_Colloc P_Ocfe
  M_IxColumn S_IxColumn P_IxColumn M_GacFun P_GacFun M_GacColumn S_GacColumn P_GacColloc P_GacColumn
  Props_Colloc Props_GacColumn M_GacMin Props_GacMin M_GacSmart P_GacSmart M_GacFit P_GacFit Props_GacFit M_GacCopy.
Import ListNotations.
Open Scope R_scope.
Local Notation length := List.length.

(** The model's device does what it is meant to: the diffusivity in the equations of the
    copy is [web_ds]. *)
Lemma web_ds_v g i : 0 < web_ds g i -> ds_v (web_in g) i = web_ds g i.
Proof.
  intros H. unfold ds_v. change (ds_corr (web_in g) i) with (ds_corr g i).
  unfold web_in. cbn [x_ds x_organic_free]. unfold web_ds in *. cbv zeta in *.
  destruct (x_organic_free g) eqn:O.
  - destruct (rltb 0 (x_ds g i)) eqn:E; reflexivity.
  - set (d := if rltb 0 (x_ds g i) then x_ds g i else ds_corr g i) in *. clearbody d.
    destruct (rltb 0 (d / 10 ^ 15 * 10 ^ 10)) eqn:E; [field|].
    apply rltb_false in E. lra.
Qed.

(** ** In organic-free water the copies agree on everything *)

Theorem C151_clean_water_partial : forall g, x_organic_free g = true ->
  (forall i, kf_v (web_in g) i = kf_v g i /\ dp_v (web_in g) i = dp_v g i /\ web_ds g i = ds_v g i) /\
  (forall m nr rows foul t y i r z,
     web_diffun g m nr rows foul t y i r z = diffun g m nr rows foul t y i r z).
Proof.
  intros g H. assert (E : web_in g = g).
  { unfold web_in. rewrite H. destruct g; cbn in *. subst. reflexivity. }
  unfold web_diffun. rewrite E. split; [|reflexivity].
  intros i. split; [reflexivity|]. split; [reflexivity|].
  unfold web_ds, ds_v. rewrite H. reflexivity.
Qed.

(** In any other water the recorded film and pore coefficients agree, ... *)
Theorem C151_film_and_pore_partial : forall g i,
  kf_v (web_in g) i = kf_v g i /\ dp_v (web_in g) i = dp_v g i.
Proof. intros. split; reflexivity. Qed.

(** ** ... but the recorded surface diffusivity does not: it is 1e5 times smaller *)

Theorem C151_surface_refuted : forall g i, x_organic_free g = false -> 0 < ds_v g i ->
  web_ds g i = ds_v g i / 10 ^ 5 /\ web_ds g i <> ds_v g i.
Proof.
  intros g i H. unfold web_ds, ds_v. rewrite H. cbv zeta.
  set (d := if rltb 0 (x_ds g i) then x_ds g i else ds_corr g i). clearbody d. intros P.
  assert (E : d / 10 ^ 15 = d / 10 ^ 10 / 10 ^ 5) by field.
  split; [exact E|]. rewrite E. lra.
Qed.

Lemma physical_web g : physical g -> physical (web_in g).
Proof. intros []. split; assumption. Qed.

Lemma rates_gap m nr g rows foul k y i r z :
  physical g -> (i < x_n g)%nat -> x_organic_free g = false ->
  0 < ds_v g i < dp_v g i ->
  / 10 ^ 130 <= web_ds g i * dgs g i * x_tau g / x_rad g ^ 2 -> (r < nr - 1)%nat ->
  let t := INR k * tconv g in
  let pore r := cpore g nr (at_time g (foulFA g foul) t) y i r z in
  carries g i * (diffun g m nr rows foul t y i r z - web_diffun g m nr rows foul t y i r z) * (tconv g / 60)
  = dgt g / (1 + dgt g) / x_rad g ^ 2 *
    ((ds_v g i - web_ds g i) * (carries g i * rsum nr (fun j => b_r m r j * y i j z)
                                - in_pores g i * rsum nr (fun j => b_r m r j * pore j))).
Proof.
  intros HP Hi Hof Hds Hfl Hr t pore.
  assert (EPo : in_pores g i = x_ebed g * cb0 g i * dgp g) by (unfold in_pores, dgp; assert (E := ph_ebed g HP); field; lra).
  rewrite <- (carries_dg g i HP Hi), EPo.
  unfold web_diffun, diffun, gac_rhs. rewrite (proj2 (Nat.ltb_lt r (nr - 1))) by lia. unfold bb.
  change (cpore (web_in g)) with (cpore g).
  change (at_time (web_in g) (foulFA (web_in g) foul) t) with (at_time g (foulFA g foul) t).
  rewrite (rsum_ext nr (fun j => bedp g i * _ * _) (fun j => bedp g i * (b_r m r j * pore j))) by (intros; unfold pore; ring).
  rewrite (rsum_ext nr (fun j => bedp (web_in g) i * _ * _) (fun j => bedp (web_in g) i * (b_r m r j * pore j))) by (intros; unfold pore; ring).
  rewrite (rsum_ext nr (fun j => beds g i * _ * _) (fun j => beds g i * (b_r m r j * y i j z))) by (intros; ring).
  rewrite (rsum_ext nr (fun j => beds (web_in g) i * _ * _) (fun j => beds (web_in g) i * (b_r m r j * y i j z))) by (intros; ring).
  rewrite !rsum_scal.
  set (lapY := rsum nr (fun j => b_r m r j * y i j z)). set (lapP := rsum nr (fun j => b_r m r j * pore j)). clearbody lapY lapP.
  assert (T := tconv_pos g HP). change (at_time (web_in g) (facA (web_in g)) t) with (at_time g (facA (web_in g)) t).
  unfold t at 1 2. rewrite !at_time_minute by lra.
  assert (D := dgt_pos g HP). assert (Dg := dg_pos g HP i Hi). assert (Dp := dgp_pos g HP).
  assert (HT := ph_tau g HP). assert (HR := ph_rad g HP). assert (DS := dgs_pos g HP i Hi).
  destruct (C151_surface_refuted g i Hof (proj1 Hds)) as (Ew & _).
  assert (Hw : 0 < web_ds g i) by (rewrite Ew; lra).
  assert (Hlt : web_ds g i < ds_v g i) by (rewrite Ew; lra).
  assert (Fac : 0 < dgs g i * x_tau g / x_rad g ^ 2)
    by (apply Rdiv_lt_0_compat; [apply Rmult_lt_0_compat; assumption|apply pow_lt, HR]).
  assert (Ed : eds g i = ds_v g i * dgs g i * x_tau g / x_rad g ^ 2).
  { unfold eds. cbv zeta.
    destruct (rltb (ds_v g i * dgs g i * x_tau g / x_rad g ^ 2) (/ 10 ^ 130)) eqn:E; [|reflexivity].
    apply rltb_true in E. exfalso.
    assert (L := Rmult_lt_compat_r _ _ _ Fac Hlt). unfold Rdiv in *.
    rewrite !Rmult_assoc in *. lra. }
  assert (Ed' : eds (web_in g) i = web_ds g i * dgs g i * x_tau g / x_rad g ^ 2).
  { unfold eds. cbv zeta. rewrite (web_ds_v g i Hw).
    change (dgs (web_in g) i) with (dgs g i). cbn [web_in x_tau x_rad].
    destruct (rltb (web_ds g i * dgs g i * x_tau g / x_rad g ^ 2) (/ 10 ^ 130)) eqn:E; [|reflexivity].
    apply rltb_true in E. lra. }
  assert (Egs : dgs g i = dg g i - dgp g) by (unfold dg; ring).
  unfold beds, bedp, facA. rewrite Ed, Ed', Egs.
  change (edd (web_in g) i) with (edd g i). change (edp (web_in g) i) with (edp g i).
  change (tortu_t (web_in g) k) with (tortu_t g k).
  unfold d_v. rewrite (web_ds_v g i Hw). change (dp_v (web_in g) i) with (dp_v g i).
  unfold edp, edd, tconv, dg1, tortu_t, tortu0. rewrite Hof.
  assert (HTo : 0 < tortuosity_array (INR k)).
  { unfold tortuosity_array. match goal with |- context [rltb ?a 1] => destruct (rltb a 1) eqn:E end; [lra|].
    apply rltb_false in E. lra. }
  clear Hfl Ed Ed' Egs Fac.
  set (ds := ds_v g i) in *. set (dp := dp_v g i) in *. set (dw := web_ds g i) in *.
  assert (dp - ds <> 0) by lra. assert (dp - dw <> 0) by lra.
  clear Ew. clearbody ds dp dw.
  field. repeat split; lra.
Qed.

(** ** ... and the surface-diffusion flux in the rates shrinks with it

    [Y], [P]: content and pore liquid along the radius, as in C69.  [carries] Y - [in_pores] P
    is what sits on the surface of the pores. *)
Theorem C151_fouled_rates_partial : forall inv legendre jroots nr nz ne m g rows foul minute y i z,
  good_library inv legendre jroots nr nz ->
  calc_solver_matrix inv legendre jroots nr nz ne = Ok m ->
  physical g -> (i < x_n g)%nat -> x_organic_free g = false ->
  0 < ds_v g i < dp_v g i ->
  / 10 ^ 130 <= web_ds g i * dgs g i * x_tau g / x_rad g ^ 2 ->
  let t := INR minute * tconv g in
  let pore r := cpore g nr (at_time g (foulFA g foul) t) y i r z in
  exists x Y Y' Y'' P P' P'',
    x (nr - 1)%nat = 1 /\ (forall r, (r < nr)%nat -> 0 < x r <= 1) /\
    even_polynomial nr Y /\ derivative Y Y' /\ derivative Y' Y'' /\
    even_polynomial nr P /\ derivative P P' /\ derivative P' P'' /\
    (forall r, (r < nr)%nat -> Y (x r) = y i r z /\ P (x r) = pore r) /\
    forall r, (r < nr - 1)%nat ->
      let lapY := sphere_laplacian Y' Y'' (x r) in
      let lapP := sphere_laplacian P' P'' (x r) in
      carries g i * (diffun g m nr rows foul t y i r z - web_diffun g m nr rows foul t y i r z) * (tconv g / 60)
      = dgt g / (1 + dgt g) / x_rad g ^ 2 *
        ((ds_v g i - web_ds g i) * (carries g i * lapY - in_pores g i * lapP)).
Proof.
  intros inv leg jr nr nz ne m g rows foul k y i z HG Hm HP Hi Hof Hds Hfl t pore.
  destruct (C68_radial_exact _ _ _ _ _ _ _ HG Hm) as (x & X1 & X2 & X3 & XE).
  destruct (solver_matrix_inv _ _ _ _ _ _ _ Hm) as (H2 & _).
  assert (HD : distinct nr (fun r => x r ^ 2)).
  { intros a b Ha Hb E. cbv beta in E. assert (P1 := X2 a Ha). assert (P2 := X2 b Hb).
    assert (x a = x b). { rewrite <- !Rsqr_pow2 in E. apply Rsqr_inj in E; lra. }
    destruct (lt_eq_lt_dec a b) as [[L|E2]|L]; [|exact E2|].
    - assert (Q := X3 a b L Hb). lra.
    - assert (Q := X3 b a L Ha). lra. }
  destruct (interpolant nr _ (fun r => y i r z) HD) as (c1 & Hc1).
  destruct (interpolant nr _ pore HD) as (c2 & Hc2).
  set (Y := fun r => poly nr c1 (r ^ 2)). set (P := fun r => poly nr c2 (r ^ 2)).
  assert (EY : even_polynomial nr Y) by (exists c1; reflexivity).
  assert (EP : even_polynomial nr P) by (exists c2; reflexivity).
  destruct (XE Y EY) as (Y' & Y'' & DY1 & DY2 & LY & _).
  destruct (XE P EP) as (P' & P'' & DP1 & DP2 & LP & _).
  exists x, Y, Y', Y'', P, P', P''. repeat (split; [assumption|]).
  split; [intros r Hr; split; [apply Hc1, Hr|apply Hc2, Hr]|].
  intros r Hr lapY lapP.
  assert (EY2 : rsum nr (fun j => b_r m r j * y i j z) = lapY).
  { unfold lapY. rewrite <- LY by lia. apply rsum_ext. intros j Hj. f_equal. symmetry. apply Hc1, Hj. }
  assert (EP2 : rsum nr (fun j => b_r m r j * pore j) = lapP).
  { unfold lapP. rewrite <- LP by lia. apply rsum_ext. intros j Hj. f_equal. symmetry. apply Hc2, Hj. }
  subst lapY lapP. rewrite <- EY2, <- EP2. apply rates_gap; assumption.
Qed.

Lemma square_poly n s : (2 <= n)%nat -> poly n (fun j => if Nat.eqb j 1 then 1 else 0) (s ^ 2) = s ^ 2.
Proof.
  intros H. unfold poly. rewrite (rsum_single n _ 1%nat); [cbn; ring|lia|].
  intros i _ Hi. rewrite (proj2 (Nat.eqb_neq i 1) Hi). ring.
Qed.
Lemma laplacian_square f' f'' x : 0 < x <= 1 -> derivative (fun r => r ^ 2) f' -> derivative f' f'' ->
  sphere_laplacian f' f'' x = 6.
Proof.
  intros Hx D1 D2.
  assert (E1 : forall r, f' r = 2 * r).
  { intros r. apply (uniqueness_limite (fun r => r ^ 2) r); [apply D1|].
    assert (D := derivable_pt_lim_pow r 2). cbn in D. replace (2 * r) with ((1 + 1) * (r * 1)) by ring. exact D. }
  assert (E2 : f'' x = 2).
  { apply (uniqueness_limite f' x); [apply D2|].
    assert (D : derivable_pt_lim (fun r => 2 * r) x 2).
    { assert (D := derivable_pt_lim_scal id 2 x 1 (derivable_pt_lim_id x)).
      unfold mult_real_fct, id in D. rewrite Rmult_1_r in D. exact D. }
    intros e He. destruct (D e He) as (d & Hd). exists d. intros h H1 H2. rewrite !E1. apply Hd; assumption. }
  unfold sphere_laplacian. rewrite E1, E2. field. lra.
Qed.
(** A compound alone on the carbon, with a linear isotherm and no fouling: pore liquid and
    content are equal, relative to the influent. *)
Lemma alone g nr k y i r z : physical g -> (i < x_n g)%nat -> x_xn g i = 1 ->
  0 < y i r z -> (forall j, j <> i -> y j r z = 0) ->
  cpore g nr (at_time g (foulFA g (fun _ _ => 1)) (INR k * tconv g)) y i r z = y i r z.
Proof.
  intros HP Hi Hx Hy H0. assert (T := tconv_pos g HP).
  assert (F : forall j, at_time g (foulFA g (fun _ _ => 1)) (INR k * tconv g) j = 1).
  { intros j. rewrite at_time_minute by lra. unfold foulFA. replace (1 / 1) with 1 by field. apply rpow_one_base. }
  assert (QE := qe_pos g HP i Hi).
  rewrite (cpore_eq g nr _ y r z (ph_n g HP) (qe_pos g HP) (ph_xn g HP)); [| | | |exact Hi].
  - rewrite F.
    rewrite (rsum_single (x_n g) (fun j => qe g j * y j r z) i Hi) by (intros j _ Hj; rewrite H0 by exact Hj; ring).
    rewrite (rsum_single (x_n g) (fun j => qe g j * y j r z / x_xn g j) i Hi)
      by (intros j _ Hj; rewrite H0 by exact Hj; unfold Rdiv; ring).
    unfold xni. rewrite Hx. replace (1 / 1) with 1 by field.
    replace (1 / qe g i * (qe g i * y i r z / 1)) with (y i r z) by (field; lra).
    rewrite rpow_1 by lra. field. split; lra.
  - intros j _. rewrite F. lra.
  - intros j _. destruct (Nat.eq_dec j i) as [->|N]; [lra|rewrite H0 by exact N; lra].
  - exists i. split; assumption.
Qed.
(** A state for which the rates differ: compound [i] alone, its content growing with the
    square of the radius; a linear isotherm without fouling. *)
Theorem C151_rates_refuted : forall inv legendre jroots nr nz ne m g rows minute i z,
  good_library inv legendre jroots nr nz ->
  calc_solver_matrix inv legendre jroots nr nz ne = Ok m ->
  physical g -> (i < x_n g)%nat -> x_organic_free g = false -> x_xn g i = 1 ->
  0 < ds_v g i < dp_v g i ->
  / 10 ^ 130 <= web_ds g i * dgs g i * x_tau g / x_rad g ^ 2 ->
  exists y, (forall j r k, 0 <= y j r k) /\
    forall r, (r < nr - 1)%nat ->
    web_diffun g m nr rows (fun _ _ => 1) (INR minute * tconv g) y i r z
    <> diffun g m nr rows (fun _ _ => 1) (INR minute * tconv g) y i r z.
Proof.
  intros inv leg jr nr nz ne m g rows k i z HG Hm HP Hi Hof Hx Hds Hfl.
  destruct (C68_radial_exact _ _ _ _ _ _ _ HG Hm) as (x & X1 & X2 & X3 & XE).
  destruct (solver_matrix_inv _ _ _ _ _ _ _ Hm) as (H2 & _).
  set (y := fun j r (_ : nat) => if Nat.eqb j i then x r ^ 2 else 0).
  assert (Y0 : forall j r k', 0 <= y j r k').
  { intros. unfold y. destruct (Nat.eqb j i); [apply pow2_ge_0|lra]. }
  exists y. split; [exact Y0|]. intros r Hr EQ.
  assert (G := rates_gap m nr g rows (fun _ _ => 1) k y i r z HP Hi Hof Hds Hfl Hr). cbv zeta in G.
  rewrite EQ in G. unfold Rminus in G at 1. rewrite Rplus_opp_r, Rmult_0_r, Rmult_0_l in G.
  rewrite (rsum_ext nr (fun j => b_r m r j * cpore _ _ _ _ _ _ _) (fun j => b_r m r j * y i j z)) in G.
  2:{ intros j Hj. f_equal. apply alone; try assumption.
      - unfold y. rewrite Nat.eqb_refl. apply pow_lt, X2, Hj.
      - intros j' N. unfold y. rewrite (proj2 (Nat.eqb_neq j' i) N). reflexivity. }
  assert (SY : rsum nr (fun j => b_r m r j * y i j z) = 6).
  { destruct (XE (fun r => r ^ 2)) as (f' & f'' & D1 & D2 & L & _).
    { exists (fun j => if Nat.eqb j 1 then 1 else 0). intros s. symmetry.
      apply square_poly. lia. }
    rewrite (rsum_ext nr _ (fun j => b_r m r j * x j ^ 2)).
    2:{ intros j _. unfold y. rewrite Nat.eqb_refl. reflexivity. }
    unfold apply_row in L. rewrite (L r) by lia. apply laplacian_square; [apply X2; lia|exact D1|exact D2]. }
  rewrite SY in G.
  assert (D := dgt_pos g HP). assert (DS := dgs_pos g HP i Hi). assert (HR := ph_rad g HP).
  destruct (C151_surface_refuted g i Hof (proj1 Hds)) as (Ew & _).
  assert (C : carries g i - in_pores g i = x_ebed g * cb0 g i * dgs g i).
  { rewrite <- (carries_dg g i HP Hi). unfold in_pores, dg, dgp. assert (E := ph_ebed g HP). field. lra. }
  assert (C0 := cb0_pos g HP i Hi). assert (E := ph_ebed g HP).
  assert (P1 : 0 < x_ebed g * cb0 g i * dgs g i) by (apply Rmult_lt_0_compat; [apply Rmult_lt_0_compat; lra|exact DS]).
  assert (P2 : 0 < dgt g / (1 + dgt g) / x_rad g ^ 2)
    by (apply Rdiv_lt_0_compat; [apply Rdiv_lt_0_compat; lra|apply pow_lt, HR]).
  assert (P3 : 0 < ds_v g i - web_ds g i) by (rewrite Ew; lra).
  assert (P4 : 0 < (ds_v g i - web_ds g i) * (carries g i * 6 - in_pores g i * 6)).
  { apply Rmult_lt_0_compat; [exact P3|]. lra. }
  assert (P5 := Rmult_lt_0_compat _ _ P2 P4). lra.
Qed.

(** ** The hypotheses are met *)

Definition g_linear : gac_in :=
  {| x_n := 2; x_epor := 1 / 2; x_rhop := 1; x_ebed := 1 / 2; x_tau := 60; x_rad := 1 / 20;
     x_tortu := 1; x_psdfr := 5; x_vw := 1 / 100; x_dw := 1; x_re := 1;
     x_mass_mul := 1; x_organic_free := false;
     x_K := fun i => 10 + INR i; x_xn := fun i => 1; x_mw := fun i => 100; x_molvol := fun i => 100;
     x_kf := fun i => 1 / 1000; x_dp := fun i => 1 / 10 ^ 6; x_ds := fun i => 1 / 10 ^ 9;
     x_inf0 := fun i => 100 |}.
Example g_linear_conditions : physical g_linear /\ x_organic_free g_linear = false /\ x_xn g_linear 0 = 1 /\
  0 < ds_v g_linear 0 < dp_v g_linear 0 /\
  / 10 ^ 130 <= web_ds g_linear 0 * dgs g_linear 0 * x_tau g_linear / x_rad g_linear ^ 2.
Proof.
  assert (HP : physical g_linear).
  { split; cbn; try lra; try lia; intros i Hi; try lra. assert (0 <= INR i) by apply pos_INR. lra. }
  split; [exact HP|]. split; [reflexivity|]. split; [reflexivity|].
  assert (B : rltb 0 (1 / 10 ^ 9) = true).
  { destruct (rltb 0 (1 / 10 ^ 9)) eqn:E; [reflexivity|]. apply rltb_false in E. lra. }
  assert (B' : rltb 0 (1 / 10 ^ 6) = true).
  { destruct (rltb 0 (1 / 10 ^ 6)) eqn:E; [reflexivity|]. apply rltb_false in E. lra. }
  assert (E1 : ds_v g_linear 0 = 1 / 10 ^ 9 / 10 ^ 10) by (unfold ds_v; cbn -[pow]; rewrite B; reflexivity).
  assert (E2 : dp_v g_linear 0 = 1 / 10 ^ 6) by (unfold dp_v; cbn -[pow]; rewrite B'; reflexivity).
  assert (E3 : web_ds g_linear 0 = 1 / 10 ^ 9 / 10 ^ 15) by (unfold web_ds; cbn -[pow]; rewrite B; reflexivity).
  assert (C : cb0 g_linear 0 = 1).
  { unfold cb0. cbn. replace (100 * 1 / 100) with 1 by field. unfold reqb. destruct (Req_EM_T 1 0); lra. }
  assert (D : dgs g_linear 0 = 10000).
  { unfold dgs, qe. rewrite C, rpow_one_base. unfold molar_k. cbn -[rpow]. rewrite rpow_1 by lra. field. }
  rewrite E1, E2, E3, D. cbn [g_linear x_tau x_rad]. split; [split; lra|].
  assert (/ 10 ^ 130 <= / 10 ^ 24).
  { apply Rinv_le_contravar; [apply pow_lt; lra|]. apply Rle_pow; [lra|lia]. }
  lra.
Qed.
(** So the two copies disagree about that column. *)
Example copies_disagree : exists m y, calc_solver_matrix inv23 leg_mid jac_one 2 3 2 = Ok m /\
  (forall j r k, 0 <= y j r k) /\
  web_diffun g_linear m 2 (fun _ => [(0, 100)]) (fun _ _ => 1) (INR 7 * tconv g_linear) y 0%nat 0%nat 1%nat
  <> diffun g_linear m 2 (fun _ => [(0, 100)]) (fun _ _ => 1) (INR 7 * tconv g_linear) y 0%nat 0%nat 1%nat.
Proof.
  destruct (matrices_example 2 ltac:(lia)) as (m & Em & _).
  destruct g_linear_conditions as (HP & A & B & C & D).
  destruct (C151_rates_refuted _ _ _ _ _ _ _ g_linear (fun _ => [(0, 100)]) 7 0%nat 1%nat library_example Em HP
              ltac:(cbn; lia) A B C D) as (y & Y1 & Y2).
  exists m, y. split; [exact Em|]. split; [exact Y1|]. apply Y2. lia.
Qed.
Example clean_water_example : x_organic_free (g_ex 2 true 1) = true.
Proof. reflexivity. Qed.

(** ** The grid fit *)

(** Without an isotherm table the two agree: the ranges are used then. *)
Section Fit.
Variable sim : string -> R -> R -> option R.
Lemma web_row_same c km k xs s : web_eval_row sim true c km k xs s = eval_row sim true c km k xs s.
Proof.
  revert s. induction xs as [|x r IH]; intros s; [reflexivity|]. cbn [web_eval_row eval_row].
  change (kfit sim true c [k * km x] [x] (set_ft (trial c (k * km x) x (ft s)) s)) with (kfit sim true c [k * km x] [x] s).
  destruct (kfit sim true c [k * km x] [x] s) as [((xn, v), s2)|e]; cbn [bind]; [|reflexivity]. rewrite IH. reflexivity.
Qed.
Lemma web_grid_same c km ks xs s : web_eval_grid sim true c km ks xs s = eval_grid sim true c km ks xs s.
Proof.
  revert s. induction ks as [|k r IH]; intros s; [reflexivity|]. cbn [web_eval_grid eval_grid]. rewrite web_row_same.
  destruct (eval_row sim true c km k xs s) as [(l, s1)|e]; cbn [bind]; [|reflexivity]. rewrite IH. reflexivity.
Qed.
Lemma web_rounds_same more staged il ox ok c km : forall x1 k1 nx nk s,
  web_rounds sim true more staged il ox ok c km x1 k1 nx nk s = rounds sim true more staged il ox ok c km x1 k1 nx nk s.
Proof.
  induction more as [|more IH]; intros; cbn [web_rounds rounds];
  (destruct (round_grid _ _ _ _ _ _ _ _ _ s) as [(xs, ks)|e]; cbn [bind]; [|reflexivity]); rewrite web_grid_same;
  (destruct (eval_grid sim true c km ks xs s) as [(rows, s1)|e]; cbn [bind]; [|reflexivity]);
  (destruct (find_min (pivot rows)) as [((mk, mx), v)|e]; cbn [bind]; [|reflexivity]).
  - reflexivity.
  - destruct (_ || _)%bool; [reflexivity|]. destruct (rindex mx xs) as [ix|e]; cbn [bind]; [|reflexivity].
    destruct (rindex mk ks) as [ik|e]; cbn [bind]; [|reflexivity].
    destruct (refine des_xn xs ix nx) as (xt, nx'), (refine des_k ks ik nk) as (kt, nk'). apply IH.
Qed.

(** With a table, the stored isotherm is all that is ever tried. *)
Definition stored (c : string) (e : entry) (s s' : fstate) : Prop :=
  ft s' c = e /\ fb s' c = e /\
  exists l, flog s' = (l ++ flog s)%list /\ Forall (fun p => f_comp p = c /\ f_K p = eK e /\ f_N p = eN e) l.
Lemma stored_refl c e s : ft s c = e -> fb s c = e -> stored c e s s.
Proof. intros A B. split; [exact A|]. split; [exact B|]. exists []. split; [reflexivity|constructor]. Qed.
Lemma stored_trans c e s1 s2 s3 : stored c e s1 s2 -> stored c e s2 s3 -> stored c e s1 s3.
Proof.
  intros (_ & _ & l & E & F) (A & B & l' & E' & F'). split; [exact A|]. split; [exact B|].
  exists (l' ++ l)%list. split; [rewrite E', E, app_assoc; reflexivity|]. apply Forall_app. split; assumption.
Qed.
Lemma kfit_stored c e ks xs s xn v s' : ft s c = e -> fb s c = e -> kfit sim false c ks xs s = Ok (xn, v, s') ->
  xn = eN e /\ stored c e s s'.
Proof.
  intros A B. unfold kfit. cbn [andb]. rewrite A. destruct (sim c (eK e) (eN e)) as [w|]; [|discriminate].
  intros H. apply (f_equal (fun r => match r with Ok x => x | Err _ => (xn, v, s') end)) in H. cbv beta iota in H.
  assert (H1 := f_equal (fun x => fst (fst x)) H). assert (H3 := f_equal snd H). cbn [fst snd] in H1, H3.
  split; [symmetry; exact H1|]. rewrite <- H3. split; [exact B|]. split; [exact B|].
  eexists [_]. split; [reflexivity|]. constructor; [repeat split|constructor].
Qed.
Lemma web_row_stored c e km k xs : forall s l s', ft s c = e -> fb s c = e -> web_eval_row sim false c km k xs s = Ok (l, s') ->
  Forall (fun r => snd (fst r) = eN e) l /\ stored c e s s'.
Proof.
  induction xs as [|x r IH]; intros s l s' A B H; cbn [web_eval_row] in H.
  - injection H as <- <-. split; [constructor|apply stored_refl; assumption].
  - destruct (kfit sim false c [k * km x] [x] s) as [((xn, v), s2)|] eqn:E; cbn [bind] in H; [|discriminate].
    destruct (web_eval_row sim false c km k r s2) as [(l', s3)|] eqn:E2; cbn [bind] in H; [|discriminate].
    injection H as <- <-. destruct (kfit_stored c e _ _ _ _ _ _ A B E) as (-> & S1). 
    destruct (IH s2 l' s3 (proj1 S1) (proj1 (proj2 S1)) E2) as (F & S2).
    split; [constructor; [reflexivity|exact F]|]. apply (stored_trans c e s s2 s3 S1 S2).
Qed.
Lemma web_grid_stored c e km ks xs : forall s l s', ft s c = e -> fb s c = e -> web_eval_grid sim false c km ks xs s = Ok (l, s') ->
  Forall (fun r => snd (fst r) = eN e) l /\ stored c e s s'.
Proof.
  induction ks as [|k r IH]; intros s l s' A B H; cbn [web_eval_grid] in H.
  - injection H as <- <-. split; [constructor|apply stored_refl; assumption].
  - destruct (web_eval_row sim false c km k xs s) as [(l1, s1)|] eqn:E; cbn [bind] in H; [|discriminate].
    destruct (web_eval_grid sim false c km r xs s1) as [(l2, s2)|] eqn:E2; cbn [bind] in H; [|discriminate].
    injection H as <- <-. destruct (web_row_stored c e km k xs _ _ _ A B E) as (F1 & S1).
    destruct (IH _ _ _ (proj1 S1) (proj1 (proj2 S1)) E2) as (F2 & S2).
    split; [apply Forall_app; split; assumption|]. apply (stored_trans c e s s1 s2 S1 S2).
Qed.
(** ... so that all errors are the same, and the search for the least one gives up. *)
Lemma kfit_same c e v0 ks xs s xn v s' : sim c (eK e) (eN e) = v0 -> ft s c = e -> fb s c = e ->
  kfit sim false c ks xs s = Ok (xn, v, s') -> v0 = Some v.
Proof.
  intros V A B. unfold kfit. cbn [andb]. rewrite A, V. destruct v0 as [w|]; [|discriminate].
  intros H. apply (f_equal (fun r => match r with Ok x => x | Err _ => (xn, v, s') end)) in H. cbv beta iota in H.
  assert (H1 := f_equal (fun x => snd (fst x)) H). cbn [fst snd] in H1. rewrite H1. reflexivity.
Qed.
Lemma web_row_same_error c e km k xs : forall s l s', ft s c = e -> fb s c = e -> web_eval_row sim false c km k xs s = Ok (l, s') ->
  Forall (fun r => fst (fst r) = k /\ sim c (eK e) (eN e) = Some (snd r)) l /\ length l = length xs.
Proof.
  induction xs as [|x r IH]; intros s l s' A B H; cbn [web_eval_row] in H.
  - injection H as <- <-. split; [constructor|reflexivity].
  - destruct (kfit sim false c [k * km x] [x] s) as [((xn, v), s2)|] eqn:E; cbn [bind] in H; [|discriminate].
    destruct (web_eval_row sim false c km k r s2) as [(l', s3)|] eqn:E2; cbn [bind] in H; [|discriminate].
    injection H as <- <-. destruct (kfit_stored c e _ _ _ _ _ _ A B E) as (-> & S1).
    destruct (IH s2 l' s3 (proj1 S1) (proj1 (proj2 S1)) E2) as (F & L).
    split; [constructor; [split; [reflexivity|exact (kfit_same c e _ _ _ _ _ _ _ eq_refl A B E)]|exact F]|].
    cbn [length]. rewrite L. reflexivity.
Qed.
Lemma web_grid_same_error c e km ks x xs : forall s l s', ft s c = e -> fb s c = e -> web_eval_grid sim false c km ks (x :: xs) s = Ok (l, s') ->
  Forall (fun r => sim c (eK e) (eN e) = Some (snd r)) l /\ forall k, In k ks -> exists r, In r l /\ fst (fst r) = k.
Proof.
  induction ks as [|k r IH]; intros s l s' A B H; cbn [web_eval_grid] in H.
  - injection H as <- <-. split; [constructor|]. intros k [].
  - destruct (web_eval_row sim false c km k (x :: xs) s) as [(l1, s1)|] eqn:E; cbn [bind] in H; [|discriminate].
    destruct (web_eval_grid sim false c km r (x :: xs) s1) as [(l2, s2)|] eqn:E2; cbn [bind] in H; [|discriminate].
    injection H as <- <-. destruct (web_row_stored c e km k (x :: xs) _ _ _ A B E) as (_ & S1).
    destruct (web_row_same_error c e km k (x :: xs) _ _ _ A B E) as (F1 & L1).
    destruct (IH _ _ _ (proj1 S1) (proj1 (proj2 S1)) E2) as (F2 & I2). split.
    + apply Forall_app. split; [|exact F2]. eapply Forall_impl; [|exact F1]. intros q (_ & Q). exact Q.
    + intros k' [<- | K].
      * destruct l1 as [|q l1]; [discriminate L1|]. exists q. split; [left; reflexivity|]. inversion F1 as [|? ? (Q & _)]. exact Q.
      * destruct (I2 k' K) as (q & Q & E'). exists q. split; [apply in_app_iff; right; exact Q|exact E'].
Qed.
Lemma lmax_all v l : l <> [] -> Forall (fun x => x = v) l -> lmax l = v.
Proof.
  induction l as [|x l IH]; intros N F; [congruence|]. inversion F as [|? ? Hx Hl]. subst.
  destruct l as [|y l]; [reflexivity|]. change (lmax (v :: y :: l)) with (let m := lmax (y :: l) in if rleb m v then v else m).
  cbv zeta. rewrite (IH ltac:(discriminate) Hl). destruct (rleb v v); reflexivity.
Qed.
Lemma pivot_tie n v rows r1 r2 : Forall (fun r : R * R * R => snd (fst r) = n) rows -> Forall (fun r => snd r = v) rows ->
  In r1 rows -> In r2 rows -> fst (fst r1) <> fst (fst r2) -> find_min (pivot rows) = Err TypeError.
Proof.
  intros F G I1 I2 N. rewrite Forall_forall in F, G. unfold find_min, pivot.
  set (idx := usort (map (fun r => fst (fst r)) rows)). set (cols := usort (map (fun r => snd (fst r)) rows)).
  assert (J1 : In (fst (fst r1)) idx) by (apply usort_in, in_map_iff; exists r1; split; [reflexivity|exact I1]).
  assert (J2 : In (fst (fst r2)) idx) by (apply usort_in, in_map_iff; exists r2; split; [reflexivity|exact I2]).
  assert (J3 : In n cols) by (apply usort_in, in_map_iff; exists r1; split; [apply F; exact I1|exact I1]).
  destruct (In_nth _ _ 0 J1) as (i1 & L1 & E1). destruct (In_nth _ _ 0 J2) as (i2 & L2 & E2). destruct (In_nth _ _ 0 J3) as (j & L3 & E3).
  assert (T : forall i j, (i < length idx)%nat -> (j < length cols)%nat ->
    lmax (map snd (filter (fun r => (reqb (fst (fst r)) (nth i idx 0) && reqb (snd (fst r)) (nth j cols 0))%bool) rows)) = v).
  { intros i j' Hi Hj. apply lmax_all.
    - assert (A := nth_In idx 0 Hi). unfold idx at 2 in A. rewrite usort_in, in_map_iff in A. destruct A as (r & R1 & R2).
      assert (B := nth_In cols 0 Hj). unfold cols at 2 in B. rewrite usort_in, in_map_iff in B. destruct B as (q & Q1 & Q2).
      assert (IN : In (snd r) (map snd (filter (fun r => (reqb (fst (fst r)) (nth i idx 0) && reqb (snd (fst r)) (nth j' cols 0))%bool) rows))).
      { apply in_map. apply filter_In. split; [exact R2|]. apply andb_true_iff. rewrite !reqb_true. split; [exact R1|].
        rewrite (F r R2), <- Q1, (F q Q2). reflexivity. }
      intros Z. rewrite Z in IN. exact IN.
    - apply Forall_forall. intros y Y. apply in_map_iff in Y. destruct Y as (r & <- & Y). apply filter_In in Y. apply G, Y. }
  apply (C38_ties_refuted _ _ _ _ _ i1 j i2 j).
  - split; [exact L1|]. split; [exact L3|]. intros a b Ha Hb. rewrite !T by assumption. apply Rle_refl.
  - split; [exact L2|]. split; [exact L3|]. intros a b Ha Hb. rewrite !T by assumption. apply Rle_refl.
  - intros Z. apply N. rewrite <- E1, <- E2. injection Z as ->. reflexivity.
Qed.
Lemma web_round_fails c e km ks xs s k1 k2 : ft s c = e -> fb s c = e -> In k1 ks -> In k2 ks -> k1 <> k2 ->
  exists err, (do w <- web_eval_grid sim false c km ks xs s; let '(rows, _) := w in find_min (pivot rows)) = Err err.
Proof.
  intros A B K1 K2 N. destruct (web_eval_grid sim false c km ks xs s) as [(rows, s1)|err] eqn:E; cbn [bind]; [|eexists; reflexivity].
  destruct (web_grid_stored c e km ks xs _ _ _ A B E) as (F & _). destruct xs as [|x xs].
  - assert (Z : rows = []).
    { clear F K1 K2. revert s rows s1 A B E. induction ks as [|k ks IH]; intros s rows s1 A B E; cbn [web_eval_grid web_eval_row bind] in E.
      - injection E as <- _. reflexivity.
      - destruct (web_eval_grid sim false c km ks [] s) as [(l, s2)|] eqn:E2; cbn [bind] in E; [|discriminate].
        injection E as <- _. rewrite (IH s l s2 A B E2). reflexivity. }
    subst rows. exists ValueError. reflexivity.
  - destruct (web_grid_same_error c e km ks x xs _ _ _ A B E) as (G & I).
    destruct (I k1 K1) as (r1 & R1 & Q1). destruct (I k2 K2) as (r2 & R2 & Q2).
    exists TypeError. apply (pivot_tie (eN e) (snd r1) rows r1 r2 F); [|assumption..|congruence].
    rewrite Forall_forall in G |- *. intros r R. assert (H1 := G r R). assert (H2 := G r1 R1). congruence.
Qed.
Lemma web_rounds_fail e more staged il ox ok c km x1 k1 nx nk s xs ks a b : ft s c = e -> fb s c = e ->
  (forall g, round_grid staged (il - more) il ox ok x1 k1 nx nk s = Ok g -> g = (xs, ks)) -> In a ks -> In b ks -> a <> b ->
  exists err, web_rounds sim false more staged il ox ok c km x1 k1 nx nk s = Err err.
Proof.
  intros A B G K1 K2 N. destruct (web_round_fails c e km ks xs s a b A B K1 K2 N) as (err & H).
  destruct more; cbn [web_rounds];
  (destruct (round_grid _ _ _ _ _ _ _ _ _ s) as [g|e0]; cbn [bind]; [|eexists; reflexivity]); rewrite (G g eq_refl);
  (destruct (web_eval_grid sim false c km ks xs s) as [(rows, s1)|e0]; cbn [bind] in H |- *; [|eexists; reflexivity]);
  rewrite H; eexists; reflexivity.
Qed.
End Fit.

Theorem C151_fit_without_table_partial : forall sim self_xn staged grid loop xn_range k_range c s,
  web_fit_one sim true self_xn staged grid loop xn_range k_range c s = fit_one sim true self_xn staged grid loop xn_range k_range c s.
Proof. intros. unfold web_fit_one, fit_one. rewrite web_rounds_same. reflexivity. Qed.

(** With a table the copy never tries a candidate: every error is that of the stored isotherm,
    no least one stands out, and the fit ends in an error, whatever the data and the mode. *)
Theorem C151_fit_refuted : forall sim self_xn staged grid loop xn_range k_range c s k1 k2, ft s c = fb s c ->
  (2 <= grid)%nat -> (1 <= loop)%nat -> In k1 k_range -> In k2 k_range -> k1 < k2 ->
  exists e, web_fit_one sim false self_xn staged grid loop xn_range k_range c s = Err e.
Proof.
  intros sim self_xn staged grid loop xr kr c s k1 k2 E Hg Hl K1 K2 N. unfold web_fit_one.
  set (km := fun x : R => recalc_k (eK (ft s c)) (eQ (ft s c)) self_xn x).
  assert (W : exists err, web_rounds sim false (if staged then loop else 0%nat) staged (if staged then loop else 0%nat) xr kr c km xr kr grid grid s = Err err).
  { destruct staged.
    - destruct (grid_axis 1 5 grid 0 kr) as [ks|e] eqn:GK.
      2:{ destruct loop as [|loop]; [lia|]. cbn [web_rounds]. unfold round_grid. rewrite Nat.sub_diag. cbn [Nat.eqb].
          unfold generate_grid. rewrite GK. destruct (grid_axis (dec 3 1) (dec 9 1) grid 0 xr); cbn [bind]; eexists; reflexivity. }
      destruct (grid_axis (dec 3 1) (dec 9 1) grid 0 xr) as [xs|e] eqn:GX.
      2:{ destruct loop as [|loop]; [lia|]. cbn [web_rounds]. unfold round_grid. rewrite Nat.sub_diag. cbn [Nat.eqb].
          unfold generate_grid. rewrite GX. eexists; reflexivity. }
      assert (X : exists lo hi, lo < hi /\ ks = linspace lo hi grid).
      { unfold grid_axis in GK. cbn [Nat.eqb andb] in GK. destruct kr as [|y kr]; [destruct K1|]. destruct kr as [|z kr].
        - exists 1, 5. split; [lra|]. cbn in GK. injection GK as <-. reflexivity.
        - cbn [length Nat.eqb np_max np_min bind] in GK. eexists _, _. split; [|injection GK as <-; reflexivity].
          assert (U : forall l m, (forall q, In q l -> q <= fold_left Rmax l m) /\ m <= fold_left Rmax l m).
          { induction l as [|h l IH]; intros m; cbn [fold_left]; [split; [intros q []|lra]|].
            destruct (IH (Rmax m h)) as (I1 & I2). assert (R1 := Rmax_l m h). assert (R2 := Rmax_r m h). split; [|lra].
            intros q [<- | Q]; [lra|apply I1, Q]. }
          assert (V : forall l m, (forall q, In q l -> fold_left Rmin l m <= q) /\ fold_left Rmin l m <= m).
          { induction l as [|h l IH]; intros m; cbn [fold_left]; [split; [intros q []|lra]|].
            destruct (IH (Rmin m h)) as (I1 & I2). assert (R1 := Rmin_l m h). assert (R2 := Rmin_r m h). split; [|lra].
            intros q [<- | Q]; [lra|apply I1, Q]. }
          destruct (U (z :: kr) y) as (U1 & U2). destruct (V (z :: kr) y) as (V1 & V2).
          apply Rle_lt_trans with k1; [destruct K1 as [<- | K1]; [exact V2|apply V1, K1]|].
          apply Rlt_le_trans with k2; [exact N|]. destruct K2 as [<- | K2]; [exact U2|apply U1, K2]. }
      destruct X as (lo & hi & HL & ->). destruct grid as [|[|m]]; [lia|lia|].
      apply (web_rounds_fail sim (ft s c) loop true loop xr kr c km xr kr (S (S m)) (S (S m)) s xs (linspace lo hi (S (S m))) lo hi eq_refl (eq_sym E)).
      + intros g. unfold round_grid. rewrite Nat.sub_diag. replace (Nat.eqb 0 loop) with false by (destruct loop; [lia|reflexivity]).
        unfold generate_grid. rewrite GX, GK. cbn [bind]. congruence.
      + rewrite linspace_eq. apply in_map_iff. exists 0%nat. split; [apply lin_0|apply in_seq; lia].
      + rewrite linspace_eq. apply in_map_iff. exists (S m). split; [apply lin_m|apply in_seq; lia].
      + lra.
    - apply (web_rounds_fail sim (ft s c) 0 false 0 xr kr c km xr kr grid grid s xr kr k1 k2 eq_refl (eq_sym E)); [|assumption..|lra].
      intros g. unfold round_grid. congruence. }
  destruct W as (err & ->). exists err. reflexivity.
Qed.
(** The same fit that [Props_GacFit.one_fit] shows to succeed fails here. *)
Example web_fit_fails : (exists s', fit_one Runs.bowl false 1 false 5 3 Runs.gx Runs.gk Runs.A Runs.s0 = Ok s') /\
  exists e, web_fit_one Runs.bowl false 1 false 5 3 Runs.gx Runs.gk Runs.A Runs.s0 = Err e.
Proof.
  split; [destruct one_fit as (s' & H & _); exists s'; exact H|].
  apply (C151_fit_refuted Runs.bowl 1 false 5 3 Runs.gx Runs.gk Runs.A Runs.s0 1 2); [reflexivity|lia|lia|cbn; auto|cbn; auto|cbn; lra].
Qed.
Print Assumptions C151_clean_water_partial.
Print Assumptions C151_film_and_pore_partial.
Print Assumptions C151_surface_refuted.
Print Assumptions C151_fouled_rates_partial.
Print Assumptions C151_rates_refuted.
Print Assumptions C151_fit_without_table_partial.
Print Assumptions C151_fit_refuted.
