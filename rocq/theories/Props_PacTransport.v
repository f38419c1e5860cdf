(** Property C178: a powdered-carbon run follows film transfer, and pore and surface diffusion
    in the grains. *)
From Coq Require Import Reals List Arith Bool String Lra Lia.
From Verif Require Import Lib_Py Lib_Pow Lib_Sum Lib_Poly M_Colloc S_Colloc S_IxColumn P_Colloc P_IxColumn M_GacFun P_GacFun Props_Colloc Props_IxColumn Props_IxTransport M_Pac P_Pac M_RPacApp Props_RPacApp.
Import ListNotations.
Open Scope R_scope.

(** The amount in the grain is in ug/L of grain, the density of the carbon in g/cm3: what a gram
    of carbon holds, and the liquid in equilibrium with it. *)
Definition freundlich (c : comp) (held liquid : R) : Prop := 0 <= liquid /\ K c * rpow liquid (xn c) = Rmax 0 held.

(** The pore liquid is the one in equilibrium with what the carbon holds at that radius. *)
Theorem C178_pore_liquid : forall f eps c Y i, 0 < K c -> 0 < xn c -> 0 < f_density f ->
  let held := Y i / (f_density f * 1000) in
  freundlich c held (pore (eqn_of f eps c) Y i) /\ forall p, freundlich c held p -> p = pore (eqn_of f eps c) Y i.
Proof.
  intros f eps c Y i HK Hn Hd held.
  assert (E : freundlich c held (pore (eqn_of f eps c) Y i)).
  { unfold pore, eqn_of, freundlich. cbn [q_rho q_K q_n]. fold held.
    assert (N : xn c <> 0) by lra. set (x := held / K c).
    assert (X : held = K c * x) by (unfold x; field; lra). rewrite X.
    destruct (rltb x 0) eqn:E.
    - apply rltb_true in E. rewrite (rpow_0 (1 / xn c)), rpow_0; [|lra|unfold Rdiv; rewrite Rmult_1_l; apply Rinv_neq_0_compat; lra].
      rewrite Rmax_left by nra. split; lra.
    - apply rltb_false in E. split; [apply rpow_nonneg; lra|]. rewrite Rmax_right by nra.
      destruct (Req_dec x 0) as [->|Nx].
      + rewrite (rpow_0 (1 / xn c)), rpow_0; [lra|lra|unfold Rdiv; rewrite Rmult_1_l; apply Rinv_neq_0_compat; lra].
      + rewrite rpow_rpow by lra. replace (1 / xn c * xn c) with 1 by (field; lra). rewrite rpow_1 by lra. reflexivity. }
  split; [exact E|]. intros p (Hp & Ep). destruct E as (H0 & E).
  apply (rpow_inj p _ (xn c)); [exact Hp|exact H0|exact Hn|]. apply Rmult_eq_reg_l with (K c); [|lra]. rewrite Ep, E. reflexivity.
Qed.

(** Inside the grain: the liquid in the pores diffuses, and so does what the surface holds. *)
Theorem C178_inside : forall jacobi nc f eps c W C Y, (forall m p q, interior_roots m (jacobi m p q)) -> (1 <= nc)%nat ->
  let q := eqn_of f eps c in
  let r i := sqrt (rootsu jacobi nc 3 i) in
  exists A A' A'' P P' P'',
    even_polynomial nc A /\ derivative A A' /\ derivative A' A'' /\ even_polynomial nc P /\ derivative P P' /\ derivative P' P'' /\
    (forall i, (i < nc)%nat -> A (r i) = Y i /\ P (r i) = pore q Y i) /\
    forall i, (i < nc - 1)%nat ->
      dY_dt nc (Bx nc (rootsu jacobi nc 3) 3) W q C Y i
      = 1 / f_radius f ^ 2 *
        (f_porosity f * Dp c * sphere_laplacian P' P'' (r i)
         + Ds c * (sphere_laplacian A' A'' (r i) - f_porosity f * sphere_laplacian P' P'' (r i))).
Proof.
  intros jac nc f eps c W C Y HJ Hn q r.
  set (leg := fun (n i : nat) => jac n 1 1 i).
  assert (HG : good_roots leg jac) by (split; [intros m; apply HJ|exact HJ]).
  destruct (batch_laplacian leg jac nc HG Hn Y) as (A & A' & A'' & EA & DA1 & DA2 & HA & LA).
  destruct (batch_laplacian leg jac nc HG Hn (pore q Y)) as (P & P' & P'' & EP & DP1 & DP2 & HP & LP).
  exists A, A', A'', P, P', P''. repeat (split; [assumption|]). split.
  - intros i Hi. split; [apply (HA i Hi)|apply (HP i Hi)].
  - intros i Hi. unfold dY_dt. rewrite (proj2 (Nat.eqb_neq i (nc - 1))) by lia. unfold diffusion.
    specialize (LA i ltac:(lia)). specialize (LP i ltac:(lia)).
    change (rsum nc (fun j => Bx nc (rootsu jac nc 3) 3 i j * Y j) = sphere_laplacian A' A'' (r i)) in LA.
    change (rsum nc (fun j => Bx nc (rootsu jac nc 3) 3 i j * pore q Y j) = sphere_laplacian P' P'' (r i)) in LP.
    rewrite LA, LP. unfold q, eqn_of. cbn [q_Ep q_Dp q_Ds q_ra]. unfold Rdiv. ring.
Qed.

(** At the surface: what the liquid loses passes through the film around the grains, and enters
    them.  [W] are quadrature weights for the sphere (they sum to 1/3). *)
Theorem C178_film : forall nc B W f eps c C Y, (1 <= nc)%nat -> W (nc - 1)%nat <> 0 -> 0 < eps < 1 -> 0 < f_radius f ->
  let q := eqn_of f eps c in
  let surface := pore q Y (nc - 1) in
  dC_dt nc q C Y = - (kf c * (C - surface) * (3 / f_radius f) * ((1 - eps) / eps))
  /\ rsum nc (fun i => W i * dY_dt nc B W q C Y i) = kf c * (C - surface) / f_radius f.
Proof.
  intros nc B W f eps c C Y Hn HW He Hr q surface. split.
  - unfold dC_dt, flux. fold surface. unfold q, eqn_of. cbn [q_E q_kL q_ra]. unfold Rdiv. ring.
  - rewrite weighted_rate by assumption. unfold flux. fold surface. unfold q, eqn_of. cbn [q_kL q_ra]. unfold Rdiv. ring.
Qed.

(** What a run reports: minutes, and the feed times the fraction the solver computed for that
    compound, whose equation is the one of its own column of the sheet. *)
Theorem C178_reported : forall f solve o, 
  let sol := solve (map (fun nx => eqn_of f (p_eps o) (fst (snd nx))) (p_table o)) (p_duration o) in
  List.length (t_min (run f solve o)) = List.length sol
  /\ map fst (t_cols (run f solve o)) = map fst (p_table o)
  /\ (forall k t v, nth_error sol k = Some (t, v) -> nth_error (t_min (run f solve o)) k = Some (t / 60))
  /\ (forall j name c d k t v, nth_error (p_table o) j = Some (name, (c, d)) -> nth_error sol k = Some (t, v) ->
       exists col, nth_error (t_cols (run f solve o)) j = Some (name, col) /\ List.length col = List.length sol /\ nth_error col k = Some (C0 c * nth j v 0)).
Proof.
  intros f solve o sol. unfold run. fold sol. cbn [t_min t_cols].
  split; [apply map_length|]. split.
  { rewrite map_map. cbn [fst]. generalize (p_table o) as l. intros l. generalize 0%nat as s. induction l as [|a l IH]; intros s; [reflexivity|].
    cbn. f_equal. apply (IH (S s)). }
  split.
  - intros k t v Hk. rewrite (map_nth_error _ k sol Hk). reflexivity.
  - intros j name c d k t v Hj Hk.
    assert (EJ : nth_error (combine (seq 0 (List.length (p_table o))) (p_table o)) j = Some (j, (name, (c, d)))).
    { revert Hj. generalize (p_table o) as l. intros l.
      assert (G : forall s j, nth_error l j = Some (name, (c, d)) -> nth_error (combine (seq s (List.length l)) l) j = Some ((s + j)%nat, (name, (c, d)))).
      { induction l as [|a l IH]; intros s [|i] Hi; try discriminate.
        - cbn in Hi |- *. rewrite Nat.add_0_r. congruence.
        - cbn in Hi |- *. rewrite (IH (S s) i Hi). f_equal. f_equal. lia. }
      intros Hj. apply (G 0%nat j Hj). }
    rewrite (map_nth_error _ j _ EJ). cbn [fst snd]. eexists. split; [reflexivity|]. split; [apply map_length|].
    rewrite (map_nth_error _ k sol Hk). reflexivity.
Qed.

(** What the page runs: the carbon and the dose in its boxes, for the longer of the two residence
    times, in seconds. *)
Theorem C178_page : forall solve z b kl kh kv q compounds t, offered z b kl kh kv q -> page_run solve z b compounds = Ok t ->
  exists f o, create f (x_dosage b) (60 * Rmax (x_hrt b) (x_crt b)) compounds = Ok o /\ t = r_run f solve o /\
    p_duration o = 60 * Rmax (x_hrt b) (x_crt b) /\ f_density f = x_den b /\ f_porosity f = x_por b /\ f_radius f = x_rad b /\ f_hrt f = 60 * x_hrt b.
Proof.
  intros solve z b kl kh kv q compounds t O H. unfold page_run in H. rewrite (page_builds _ _ _ _ _ _ O) in H.
  cbn [bind b_density b_porosity b_radius b_hrt b_crt b_dosage b_dw] in H.
  match type of H with context [create ?F _ _ _] => set (f := F) in H end.
  assert (D : Rmax (x_hrt b * 60) (x_crt b * 60) = 60 * Rmax (x_hrt b) (x_crt b)).
  { rewrite <- (RmaxRmult (x_hrt b) (x_crt b) 60) by lra. f_equal; ring. }
  rewrite D in H. destruct (create f _ _ compounds) as [o|] eqn:E; [|discriminate]. cbn [bind] in H.
  exists f, o. split; [exact E|]. split; [congruence|]. split.
  - unfold create in E. destruct (conv_array compounds); [|discriminate]. cbn [bind] in E. assert (o = update_values f {| p_dosage := x_dosage b; p_duration := 60 * Rmax (x_hrt b) (x_crt b); p_eps := 0; p_table := map (fun nc => (fst nc, (snd nc, no_derived))) compounds; p_conv := a |}) as -> by congruence. reflexivity.
  - unfold f. cbn [f_density f_porosity f_radius f_hrt]. repeat split; ring.
Qed.

Section Met.
Let f0 := {| f_density := 8 / 10; f_porosity := 64 / 100; f_radius := 1 / 1000; f_dw := 1; f_hrt := 1800 |}.
Let c0 := {| K := 2; xn := 1 / 2; kf := 1 / 1000; Dp := 1 / 10 ^ 6; Ds := 1 / 10 ^ 9; C0 := 50; C0_units := "ng" |}.
(** 6400 ug/L of grain: 8 ug/g, in equilibrium with 16 ug/L. *)
Example C178_met : freundlich c0 (6400 / (f_density f0 * 1000)) 16 /\ pore (eqn_of f0 (1 / 2) c0) (fun _ => 6400) 0 = 16
  /\ dC_dt 1 (eqn_of f0 (1 / 2) c0) 20 (fun _ => 6400) = -12.
Proof.
  assert (S16 : rpow 16 (1 / 2) = 4).
  { rewrite rpow_Rpower by lra. replace (1 / 2) with (/ 2) by lra. rewrite Rpower_sqrt by lra. replace 16 with (4 * 4) by ring. apply sqrt_square. lra. }
  assert (E : freundlich c0 (6400 / (f_density f0 * 1000)) 16).
  { unfold freundlich, c0, f0. cbn [K xn f_density]. rewrite S16. split; [lra|]. rewrite Rmax_right; lra. }
  assert (P : pore (eqn_of f0 (1 / 2) c0) (fun _ => 6400) 0 = 16).
  { symmetry. apply (proj2 (C178_pore_liquid f0 (1 / 2) c0 (fun _ => 6400) 0%nat ltac:(cbn; lra) ltac:(cbn; lra) ltac:(cbn; lra))). exact E. }
  split; [exact E|]. split; [exact P|]. unfold dC_dt, flux. replace (1 - 1)%nat with 0%nat by reflexivity. rewrite P.
  unfold eqn_of, f0, c0. cbn. lra.
Qed.
End Met.

Print Assumptions C178_pore_liquid.
Print Assumptions C178_inside.
Print Assumptions C178_film.
Print Assumptions C178_reported.
Print Assumptions C178_page.
