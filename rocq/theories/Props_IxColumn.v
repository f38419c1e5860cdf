(** Properties C14-C16, C18-C21 and C59: ion-exchange columns.
    [rhs psdm] is the right-hand side of PSDMIX ([psdm = true]) or HSDMIX. *)
From Coq Require Import Reals List Arith Bool Lra Lia.
From Verif Require Import Lib_Py Lib_Sum Lib_Traj M_Colloc M_IxEq M_IxColumn
  S_Colloc S_IxEq S_IxColumn S_Unique P_Colloc P_IxEq P_IxColumn P_IxUnique.
Import ListNotations.
Open Scope R_scope.

(** ** C14 — the resin stays neutral *)

Theorem C14_resin_rates_sum_to_zero : forall psdm c op th Cin u r z, (0 < NION c)%nat ->
  rsum (NION c) (fun i => rhs psdm c op th Cin u (S r) i z) = 0.
Proof. exact rhs_resin_neutral. Qed.

Theorem C14_resin_total_constant : forall psdm c op th Cin Tf y, (0 < NION c)%nat ->
  is_trajectory (nr c) (NION c) (nz c) (fun T u => rhs psdm c op th (Cin T) u) Tf y ->
  forall T, 0 <= T <= Tf -> forall r z, (r < nr c)%nat -> (z < nz c)%nat ->
  rsum (NION c) (fun i => y T (S r) i z) = rsum (NION c) (fun i => y 0 (S r) i z).
Proof. exact resin_total_constant. Qed.

Theorem C14_resin_total_is_capacity : forall psdm c op th Cin Tf y, (0 < NION c)%nat ->
  is_trajectory (nr c) (NION c) (nz c) (fun T u => rhs psdm c op th (Cin T) u) Tf y ->
  y 0 = initial_state c (Cin 0) None ->
  forall T, 0 <= T <= Tf -> forall r z, (r < nr c)%nat -> (z < nz c)%nat ->
  rsum (NION c) (fun i => y T (S r) i z) = Qcap c.
Proof.
  intros psdm c op th Cin Tf y HN HT H0 T Ht r z Hr Hz.
  rewrite (resin_total_constant psdm c op th Cin Tf y HN HT T Ht r z Hr Hz), H0.
  unfold initial_state. rewrite (rsum_single _ _ 0%nat HN); [reflexivity|].
  intros i Hi Hn. rewrite (proj2 (Nat.eqb_neq i 0) Hn). reflexivity.
Qed.

(** ** C15 — exchange does not change the total liquid concentration *)

Theorem C15_only_advection : forall psdm c op th Cin u z, (0 < NION c)%nat -> (1 <= z)%nat ->
  let C i j := if Nat.eqb j 0 then Cin i else u 0%nat i j in
  rsum (NION c) (fun i => rhs psdm c op th Cin u 0%nat i z)
  = - (th * (vel c / Lbed c) / EBED c)
    * rsum (nz c) (fun j => Az op z j * rsum (NION c) (fun i => C i j)).
Proof. exact rhs_liquid_total. Qed.

Theorem C15_uniform_total_unchanged : forall legendre jacobi ocfe op psdm c th Cin u CT0,
  good_roots legendre jacobi -> (0 < NION c)%nat -> (1 <= nr c)%nat -> (2 <= nz c)%nat ->
  build_operators legendre jacobi (nr c) (nz c) ocfe = Ok op ->
  rsum (NION c) Cin = CT0 ->
  (forall j, (1 <= j < nz c)%nat -> rsum (NION c) (fun i => u 0%nat i j) = CT0) ->
  forall z, (1 <= z < nz c)%nat ->
  rsum (NION c) (fun i => rhs psdm c op th Cin u 0%nat i z) = 0.
Proof.
  intros leg jac ocfe op psdm c th Cin u CT0 HG HN Hr Hz Hb HC Hu z Hzz.
  destruct (operators_ok leg jac (nr c) (nz c) ocfe op HG Hr Hz Hb) as (HA & _).
  rewrite rhs_liquid_total by lia.
  rewrite (rsum_ext (nz c) _ (fun j => Az op z j * CT0)).
  - assert (H := HA z CT0 ltac:(lia)). unfold apply_row in H. rewrite H. ring.
  - intros j Hj. f_equal. unfold CTz, liq. destruct (Nat.eqb_spec j 0); [exact HC|]. apply Hu. lia.
Qed.

(** Along a run with a constant influent total, started by the code, the total
    stays the influent total at every depth and time. *)
Theorem C15_total_follows_inlet : forall legendre jacobi ocfe op psdm c th Cin Tf y CT0,
  good_roots legendre jacobi -> (0 < NION c)%nat -> (1 <= nr c)%nat -> (2 <= nz c)%nat ->
  build_operators legendre jacobi (nr c) (nz c) ocfe = Ok op ->
  (forall T, 0 <= T <= Tf -> rsum (NION c) (Cin T) = CT0) ->
  is_trajectory (nr c) (NION c) (nz c) (fun T u => rhs psdm c op th (Cin T) u) Tf y ->
  y 0 = initial_state c (Cin 0) None ->
  forall T, 0 <= T <= Tf -> forall z, (1 <= z < nz c)%nat ->
  rsum (NION c) (fun i => y T 0%nat i z) = CT0.
Proof.
  intros leg jac ocfe op psdm c th Cin Tf y CT0 HG HN Hr Hz Hb HC HT H0 T Ht z Hzz.
  destruct (operators_ok leg jac (nr c) (nz c) ocfe op HG Hr Hz Hb) as (HA & _).
  apply (liquid_total_constant psdm c op th Cin Tf y CT0); try assumption.
  - intros w k Hw. apply HA. lia.
  - intros w Hw. rewrite H0. unfold initial_state. rewrite (proj2 (Nat.eqb_neq w 0)) by lia.
    rewrite (rsum_single _ _ 0%nat HN); [apply HC; lra|].
    intros i Hi Hn. rewrite (proj2 (Nat.eqb_neq i 0) Hn). reflexivity.
Qed.

(** ** C16 — each bead gains what crosses its surface *)

Lemma bead_gains_film_flux : forall psdm c op th Cin u i z,
  (0 < nr c)%nat -> Wr op (nr c - 1) <> 0 -> rb c <> 0 -> (1 <= i)%nat ->
  let C i j := if Nat.eqb j 0 then Cin i else u 0%nat i j in
  let CT := rsum (NION c) (fun i => C i z) in
  let Cs := calc_Ceq (NION c) (Kxc c) (val c) (fun j => u (nr c) j z / theta psdm c) CT in
  (* volume-averaged rate = (area / volume of the bead) * kL * (bulk - surface) *)
  bead_average (nr c) (Wr op) (fun m => rhs psdm c op th Cin u (S m) i z)
  = th * (3 / rb c) * kL c i * (C i z - Cs i).
Proof.
  intros psdm c op th Cin u i z Hr HW Hrb Hi C CT Cs. unfold bead_average.
  assert (Hi0 : Nat.eqb i 0 = false) by (apply Nat.eqb_neq; lia).
  destruct psdm; cbn [rhs]; unfold diffun_psdm, diffun_hsdm; rewrite bead_gain by assumption.
  - unfold psdm_J, flux, implicit_presat. rewrite Hi0.
    change (theta true c) with (1 - EPOR c) in Cs.
    change (calc_Ceq (NION c) (Kxc c) (val c) (fun i0 => u (nr c) i0 z / (1 - EPOR c)) (CTz c Cin u z) i)
      with (Cs i). change (liq Cin u i z) with (C i z). field. exact Hrb.
  - unfold hsdm_J, flux, implicit_presat. rewrite Hi0.
    replace (calc_Ceq (NION c) (Kxc c) (val c) (fun i0 => u (nr c) i0 z) (CTz c Cin u z) i) with (Cs i).
    + change (liq Cin u i z) with (C i z). field. exact Hrb.
    + unfold Cs, calc_Ceq. change (theta false c) with 1.
      assert (E : (fun j => u (nr c) j z / 1) = (fun j => u (nr c) j z)).
      { apply FunctionalExtensionality.functional_extensionality. intros j. field. }
      rewrite E. reflexivity.
Qed.

(** [Cs]: the liquid in equilibrium with the surface of the bead. *)
Theorem C16_bead_gains_film_flux : forall (psdm : bool) c op th Cin u z m,
  (0 < NION c)%nat -> (0 < nr c)%nat -> Wr op (nr c - 1) <> 0 -> rb c <> 0 ->
  selectivities (NION c) (Kxc c) -> mono_or_divalent (NION c) (val c) ->
  let C i j := if Nat.eqb j 0 then Cin i else u 0%nat i j in
  let CT := rsum (NION c) (fun i => C i z) in
  let qs j := u (nr c) j z / (if psdm then 1 - EPOR c else 1) in
  let average i := bead_average (nr c) (Wr op) (fun m => rhs psdm c op th Cin u (S m) i z) in
  0 < m -> solvable m (NION c) (Kxc c) (val c) qs CT ->
  exists Cs, in_equilibrium (NION c) (Kxc c) (val c) qs Cs /\ rsum (NION c) Cs = CT /\
    (resin_composition (NION c) qs -> 0 <= CT -> forall i, (i < NION c)%nat -> 0 <= Cs i) /\
    (* volume-averaged rate = (area / volume of the bead) * kL * (bulk - surface) *)
    (forall i, (1 <= i < NION c)%nat -> average i = th * (3 / rb c) * kL c i * (C i z - Cs i)) /\
    (* and the presaturant makes room *)
    rsum (NION c) average = 0.
Proof.
  intros psdm c op th Cin u z m Hn Hr HW Hrb HK Hz C CT qs average Hm SV.
  exists (calc_Ceq (NION c) (Kxc c) (val c) qs CT).
  destruct (solvable_equilibrium m _ _ _ _ _ Hn HK Hz Hm SV) as (E & T).
  split; [exact E|]. split; [exact T|]. split; [intros RC P; apply calc_Ceq_nonneg; assumption|]. split.
  - intros i Hi. apply (bead_gains_film_flux psdm c op th Cin u i z Hr HW Hrb ltac:(lia)).
  - unfold average, bead_average. rewrite rsum_scal, (rsum_swap (NION c) (nr c) (fun i m => Wr op m * rhs psdm c op th Cin u (S m) i z)).
    rewrite rsum_zero; [ring|]. intros k Hk. rewrite rsum_scal, C14_resin_rates_sum_to_zero by exact Hn. ring.
Qed.

(** What the liquid of a slice loses the beads of the slice gain: only advection
    changes the amount of an ion in it (EBED liquid + 1-EBED beads). *)
Theorem C16_slice_balance : forall psdm c op th Cin u i z,
  (0 < nr c)%nat -> Wr op (nr c - 1) <> 0 -> EBED c <> 0 -> rb c <> 0 -> (1 <= z)%nat ->
  let C i j := if Nat.eqb j 0 then Cin i else u 0%nat i j in
  EBED c * rhs psdm c op th Cin u 0%nat i z
  + (1 - EBED c) * bead_average (nr c) (Wr op) (fun m => rhs psdm c op th Cin u (S m) i z)
  = - (th * (vel c / Lbed c)) * rsum (nz c) (fun j => Az op z j * C i j).
Proof. exact rhs_balance. Qed.

(** ** C18 — equilibrium with the influent is stationary *)

Theorem C18_equilibrium_is_stationary : forall legendre jacobi ocfe op (psdm : bool) c th Cin u (q : nat -> nat -> R),
  good_roots legendre jacobi -> (0 < NION c)%nat -> (1 <= nr c)%nat -> (2 <= nz c)%nat ->
  build_operators legendre jacobi (nr c) (nz c) ocfe = Ok op ->
  selectivities (NION c) (Kxc c) -> mono_or_divalent (NION c) (val c) ->
  (forall i, (i < NION c)%nat -> 0 <= Cin i) ->
  (* liquid equal to the influent, beads uniform and in equilibrium with it *)
  (forall i z, (i < NION c)%nat -> (1 <= z < nz c)%nat -> u 0%nat i z = Cin i) ->
  (forall r i z, (r < nr c)%nat -> (i < NION c)%nat -> (z < nz c)%nat -> u (S r) i z = q i z) ->
  (forall z, (z < nz c)%nat ->
     resin_composition (NION c) (fun i => q i z / (if psdm then 1 - EPOR c else 1)) /\
     in_equilibrium (NION c) (Kxc c) (val c) (fun i => q i z / (if psdm then 1 - EPOR c else 1)) Cin) ->
  forall r i z, (r <= nr c)%nat -> (i < NION c)%nat -> (z < nz c)%nat ->
  rhs psdm c op th Cin u r i z = 0.
Proof.
  intros leg jac ocfe op psdm c th Cin u q HG HN Hr Hz Hb HK Hv HC HuL HuR Heq.
  destruct (operators_ok leg jac (nr c) (nz c) ocfe op HG Hr Hz Hb) as (HA & HB & _).
  apply (steady psdm c op th Cin u q); try assumption.
  intros i z Hi Hzz. destruct (Heq z Hzz) as (Hq & He).
  apply equilibrium_calc; assumption.
Qed.

(** Hence staying there is a solution of the model. *)
Theorem C18_equilibrium_history : forall psdm c op th Cin u Tf,
  (forall r i z, (r <= nr c)%nat -> (i < NION c)%nat -> (z < nz c)%nat ->
     rhs psdm c op th Cin u r i z = 0) ->
  is_trajectory (nr c) (NION c) (nz c) (fun _ u => rhs psdm c op th Cin u) Tf (fun _ => u).
Proof.
  intros psdm c op th Cin u Tf H r i z Hr Hi Hz.
  eapply evolves_ext; [reflexivity| |apply evolves_const].
  intros t _. symmetry. apply H; assumption.
Qed.

(** ** C19 — initial state *)

Theorem C19_presaturated_start : forall c Cin, (0 < NION c)%nat ->
  let u0 := initial_state c Cin None in
  (forall i, u0 0%nat i 0%nat = Cin i) /\
  (forall i z, (1 <= i)%nat -> (1 <= z)%nat -> u0 0%nat i z = 0) /\
  (forall i r z, (1 <= i)%nat -> u0 (S r) i z = 0) /\
  (forall r z, u0 (S r) 0%nat z = Qcap c /\ rsum (NION c) (fun i => u0 (S r) i z) = Qcap c) /\
  (forall z, rsum (NION c) (fun i => u0 0%nat i z) = rsum (NION c) Cin).
Proof.
  intros c Cin HN u0.
  assert (H1 : forall i, u0 0%nat i 0%nat = Cin i) by reflexivity.
  assert (H2 : forall i z, (1 <= i)%nat -> (1 <= z)%nat -> u0 0%nat i z = 0).
  { intros i z Hi Hz. unfold u0, initial_state.
    rewrite (proj2 (Nat.eqb_neq z 0)), (proj2 (Nat.eqb_neq i 0)) by lia. reflexivity. }
  assert (H3 : forall i r z, (1 <= i)%nat -> u0 (S r) i z = 0).
  { intros i r z Hi. unfold u0, initial_state. rewrite (proj2 (Nat.eqb_neq i 0)) by lia. reflexivity. }
  repeat split; try assumption.
  - rewrite (rsum_single _ _ 0%nat HN); [reflexivity|]. intros i Hi Hn. apply H3. lia.
  - intros [|z]; [reflexivity|]. rewrite (rsum_single _ _ 0%nat HN); [reflexivity|].
    intros i Hi Hn. apply H2; lia.
Qed.

(** A supplied distribution with at least one non-zero entry is used, inlet excepted. *)
Theorem C19_supplied_distribution_partial : forall c Cin a,
  (exists r i z, (r <= nr c)%nat /\ (i < NION c)%nat /\ (z < nz c)%nat /\ a r i z <> 0) ->
  let u0 := initial_state c Cin (Some a) in
  (forall i, u0 0%nat i 0%nat = Cin i) /\
  (forall i z, (1 <= z)%nat -> u0 0%nat i z = a 0%nat i z) /\
  (forall r i z, u0 (S r) i z = a (S r) i z).
Proof.
  intros c Cin a (r & i & z & Hr & Hi & Hz & Ha) u0.
  assert (E : np_any3 (nr c + 1) (NION c) (nz c) a = true).
  { unfold np_any3. apply existsb_exists. exists r. split; [apply in_seq; lia|].
    apply existsb_exists. exists i. split; [apply in_seq; lia|].
    apply existsb_exists. exists z. split; [apply in_seq; lia|].
    unfold reqb. destruct (Req_EM_T (a r i z) 0); [contradiction|reflexivity]. }
  unfold u0, initial_state. rewrite E. repeat split.
  intros j w Hw. rewrite (proj2 (Nat.eqb_neq w 0)) by lia. reflexivity.
Qed.

(** A supplied distribution of zeros is ignored. *)
Theorem C19_zero_distribution_refuted : forall c Cin,
  initial_state c Cin (Some (fun _ _ _ => 0)) = initial_state c Cin None.
Proof.
  intros c Cin. unfold initial_state.
  assert (E : np_any3 (nr c + 1) (NION c) (nz c) (fun _ _ _ => 0) = false); [|rewrite E; reflexivity].
  unfold np_any3. destruct (existsb _ (seq 0 (nr c + 1))) eqn:E; [|reflexivity]. exfalso.
  apply existsb_exists in E. destruct E as (r & _ & E).
  apply existsb_exists in E. destruct E as (i & _ & E).
  apply existsb_exists in E. destruct E as (z & _ & E).
  unfold reqb in E. destruct (Req_EM_T 0 0); [discriminate|congruence].
Qed.

(** ** C20 — influent *)

Theorem C20_piecewise_linear : forall tm th times col n t,
  0 < tm -> 0 < th -> strictly_increasing times -> length times = length col ->
  (S n < length times)%nat -> nth n times 0 <= t <= nth (S n) times 0 ->
  let f := (t - nth n times 0) / (nth (S n) times 0 - nth n times 0) in
  0 <= f <= 1 /\
  get_Cin false tm th times col (t * (tm / th))
  = Ok ((1 - f) * nth n col 0 + f * nth (S n) col 0).
Proof.
  intros tm th times col n t Htm Hth HI HL Hn Ht f.
  assert (Hlt : nth n times 0 < nth (S n) times 0) by (apply HI; lia).
  assert (Hp : 0 < / (nth (S n) times 0 - nth n times 0)) by (apply Rinv_0_lt_compat; lra).
  split.
  - unfold f, Rdiv. split; [apply Rmult_le_pos; lra|].
    apply (Rmult_le_reg_r (nth (S n) times 0 - nth n times 0)); [lra|].
    rewrite Rmult_assoc, Rinv_l by lra. lra.
  - rewrite (influent_segment tm th times col) with (n := n); try assumption.
    + f_equal. unfold f. field. lra.
    + apply Rdiv_lt_0_compat; assumption.
Qed.
Corollary C20_data_points : forall tm th times col n,
  0 < tm -> 0 < th -> strictly_increasing times -> length times = length col ->
  (2 <= length times)%nat -> (n < length times)%nat ->
  get_Cin false tm th times col (nth n times 0 * (tm / th)) = Ok (nth n col 0).
Proof.
  intros tm th times col n Htm Hth HI HL H2 Hn.
  destruct (Nat.eq_dec (S n) (length times)) as [E|E].
  - destruct n as [|n]; [lia|].
    assert (Hlt : nth n times 0 < nth (S n) times 0) by (apply HI; lia).
    destruct (C20_piecewise_linear tm th times col n (nth (S n) times 0)) as (_ & ->);
      try assumption; [lra|]. f_equal. field. lra.
  - assert (Hlt : nth n times 0 < nth (S n) times 0) by (apply HI; lia).
    destruct (C20_piecewise_linear tm th times col n (nth n times 0)) as (_ & ->);
      try assumption; [lia|lra|]. f_equal. field. lra.
Qed.
Theorem C20_between_neighbours : forall tm th times col n t,
  0 < tm -> 0 < th -> strictly_increasing times -> length times = length col ->
  (S n < length times)%nat -> nth n times 0 <= t <= nth (S n) times 0 ->
  exists v, get_Cin false tm th times col (t * (tm / th)) = Ok v /\
  Rmin (nth n col 0) (nth (S n) col 0) <= v <= Rmax (nth n col 0) (nth (S n) col 0).
Proof.
  intros tm th times col n t Htm Hth HI HL Hn Ht.
  destruct (C20_piecewise_linear tm th times col n t) as (Hf & ->); try assumption.
  eexists. split; [reflexivity|]. cbv zeta in Hf.
  set (f := (t - nth n times 0) / (nth (S n) times 0 - nth n times 0)) in *.
  set (a := nth n col 0). set (b := nth (S n) col 0).
  unfold Rmin, Rmax. destruct (Rle_dec a b); split; nra.
Qed.
(** Hours or days: the curve is the same. *)
Theorem C20_hours_or_days : forall th times col T,
  get_Cin false 3600 th times col T = get_Cin false (3600 * 24) th (map (fun t => t / 24) times) col T.
Proof. intros. apply unit_independent. lra. Qed.
Theorem C20_outside_data_rejected : forall tm th times col t,
  0 < tm -> 0 < th -> strictly_increasing times -> length times = length col ->
  (0 < length times)%nat -> t < nth 0 times 0 \/ nth (length times - 1) times 0 < t ->
  get_Cin false tm th times col (t * (tm / th)) = Err ValueError.
Proof.
  intros. apply influent_outside; try assumption. apply Rdiv_lt_0_compat; assumption.
Qed.

(** ** C21 — declared sparsity *)

Theorem C21_sparsity_sound : forall psdm c op th Cin r i z r' i' z',
  (0 < NION c)%nat -> (1 <= nr c)%nat ->
  (r <= nr c)%nat -> (i < NION c)%nat -> (z < nz c)%nat ->
  (r' <= nr c)%nat -> (i' < NION c)%nat -> (z' < nz c)%nat ->
  Jac_struc (nr c) (NION c) (nz c)
    (flat (NION c) (nz c) r i z) (flat (NION c) (nz c) r' i' z') = 0%nat ->
  forall u1 u2, agree_except (nr c) (NION c) (nz c) u1 u2 r' i' z' ->
  rhs psdm c op th Cin u1 r i z = rhs psdm c op th Cin u2 r i z.
Proof. exact sparsity. Qed.

(** ** C59 — the internal time scale is immaterial *)

(** A history in scaled time T solves the scaled equations exactly when the history
    in seconds t = T * th solves the equations with scale 1. *)
Theorem C59_time_scale_immaterial : forall psdm c op th Cin Tf y, 0 < th ->
  is_trajectory (nr c) (NION c) (nz c) (fun t u => rhs psdm c op 1 (Cin t) u) (Tf * th) y ->
  is_trajectory (nr c) (NION c) (nz c) (fun T u => rhs psdm c op th (Cin (T * th)) u) Tf
    (fun T => y (T * th)).
Proof.
  intros psdm c op th Cin Tf y Hth HT r i z Hr Hi Hz.
  destruct (HT r i z Hr Hi Hz) as (HC & HD).
  assert (Hmul : forall T, derivable_pt_lim (fun T => T * th) T th).
  { intros T. assert (X := derivable_pt_lim_scal (fun x => x) th T 1 (derivable_pt_lim_id T)).
    rewrite Rmult_1_r in X. eapply Lib_Poly.derivable_pt_lim_ext; [|exact X].
    intros x. unfold mult_real_fct. ring. }
  split.
  - intros T Ht. apply (continuity_pt_comp (fun T => T * th) (fun t => y t r i z)).
    + apply derivable_continuous_pt. exists th. apply Hmul.
    + apply HC. split; [apply Rmult_le_pos; lra|apply Rmult_le_compat_r; lra].
  - intros T Ht. rewrite rhs_scale, Rmult_comm.
    apply (derivable_pt_lim_comp (fun T => T * th) (fun t => y t r i z)); [apply Hmul|].
    apply HD. split; [apply Rmult_lt_0_compat; lra|apply Rmult_lt_compat_r; lra].
Qed.
(** The scale used is the time at which the feed has supplied what the bed can hold, in its voids
    and in its resin; it is positive. *)
Theorem C59_scale : forall c CT, 0 < EBED c <= 1 -> 0 < vel c -> 0 < Lbed c -> 0 <= Qcap c -> 0 < CT ->
  vel c * CT * t_half c CT = Lbed c * (EBED c * CT + (1 - EBED c) * Qcap c) /\ 0 < t_half c CT.
Proof.
  intros c CT HE Hv HL HQ HC. assert (E : vel c * CT * t_half c CT = Lbed c * (EBED c * CT + (1 - EBED c) * Qcap c)) by (unfold t_half, tau, DGT; field; repeat split; lra).
  split; [exact E|]. assert (P : 0 < Lbed c * (EBED c * CT + (1 - EBED c) * Qcap c)).
  { apply Rmult_lt_0_compat; [exact HL|]. assert (0 < EBED c * CT) by (apply Rmult_lt_0_compat; lra). assert (0 <= (1 - EBED c) * Qcap c) by (apply Rmult_le_pos; lra). lra. }
  rewrite <- E in P. apply (Rmult_lt_reg_l (vel c * CT)); [apply Rmult_lt_0_compat; assumption|]. rewrite Rmult_0_r. exact P.
Qed.
Theorem C59_reported_end_time : forall tm th times, 0 < th ->
  T_final tm th times = match rev times with t :: _ => Ok (t * tm / th) | [] => Err IndexError end.
Proof.
  intros tm th times Hth. unfold T_final. destruct (rev times); [reflexivity|]. f_equal. field. lra.
Qed.
Theorem C59_reported_times_in_seconds : forall tm th ts, 0 < th ->
  (exists t, In t ts /\ t <> 0) ->
  option_map (reported_times th) (T_eval tm th (Some ts)) = Some (map (fun t => t * tm) ts).
Proof.
  intros tm th ts Hth (t & Hin & Hne). unfold T_eval.
  assert (E : existsb (fun t => negb (reqb t 0)) ts = true).
  { apply existsb_exists. exists t. split; [exact Hin|]. unfold reqb.
    destruct (Req_EM_T t 0); [contradiction|reflexivity]. }
  rewrite E. cbn [option_map]. f_equal. unfold reported_times. rewrite map_map.
  apply map_ext. intros x. field. lra.
Qed.

(** ** Concrete cases *)

Definition even_roots (m i : nat) : R := INR (i + 1) / INR (m + 1).
Lemma even_roots_ok m : interior_roots m (even_roots m).
Proof.
  assert (P : 0 < INR (m + 1)) by (apply lt_0_INR; lia).
  assert (Q : 0 < / INR (m + 1)) by (apply Rinv_0_lt_compat, P).
  unfold even_roots, Rdiv. split.
  - intros i Hi. split.
    + apply Rmult_lt_0_compat; [apply lt_0_INR; lia|exact Q].
    + rewrite <- (Rinv_r (INR (m + 1))) by lra. apply Rmult_lt_compat_r; [exact Q|]. apply lt_INR. lia.
  - intros i j Hi Hj. apply Rmult_lt_compat_r; [exact Q|]. apply lt_INR. lia.
Qed.
Example even_roots_good : good_roots even_roots (fun m _ _ => even_roots m).
Proof. split; intros; apply even_roots_ok. Qed.

(** A column of 3 ions (chloride, nitrate, sulphate), 4 radial and 5 axial points. *)
Definition ex_col : column :=
  {| NION := 3; nr := 4; nz := 5; EBED := 2 / 5; EPOR := 1 / 5; Lbed := 50; vel := 1 / 10;
     rb := 1 / 30; Qcap := 1400; kL := fun _ => 1 / 400; Ds := fun _ => 1 / 10000000;
     Dp := fun _ => 1 / 1000000;
     Kxc := fun i => match i with O => 1 | 1%nat => 3 | _ => 2 end;
     val := fun i => match i with 2%nat => 2%nat | _ => 1%nat end |}.
Example ex_col_operators :
  (exists op, build_operators even_roots (fun m _ _ => even_roots m) 4 5 true = Ok op) /\
  (exists op, build_operators even_roots (fun m _ _ => even_roots m) 4 5 false = Ok op) /\
  build_operators even_roots (fun m _ _ => even_roots m) 4 6 true = Err ValueError.
Proof. split; [|split]; [eexists; reflexivity|eexists; reflexivity|reflexivity]. Qed.

(** In equilibrium with influent (1,1,1): q = (1,3,2) times a scale that makes the
    divalent law hold: C_2 K_2 q_0^2 = q_2 C_0^2. *)
Definition ex_steady (psdm : bool) : state := fun r i _ =>
  match r with
  | O => 1
  | S _ => theta psdm ex_col * match i with O => 100 | 1%nat => 300 | _ => 20000 end
  end.
Example ex_col_steady : forall psdm ocfe op r i z,
  build_operators even_roots (fun m _ _ => even_roots m) 4 5 ocfe = Ok op ->
  (r <= 4)%nat -> (i < 3)%nat -> (z < 5)%nat ->
  rhs psdm ex_col op 100 (fun _ => 1) (ex_steady psdm) r i z = 0.
Proof.
  intros psdm ocfe op r i z Hop Hr Hi Hz.
  apply (C18_equilibrium_is_stationary even_roots (fun m _ _ => even_roots m) ocfe op psdm ex_col 100
    (fun _ => 1) (ex_steady psdm) (fun i _ => ex_steady psdm 1%nat i 0%nat)); try assumption; cbn; try lia.
  - exact even_roots_good.
  - intros [|[|j]] _; cbn; lra.
  - split; [reflexivity|]. intros [|[|[|j]]] Hj; cbn; auto. 
  - intros; lra.
  - reflexivity.
  - intros; reflexivity.
  - intros w _. assert (T : theta psdm ex_col <> 0) by (destruct psdm; cbn; lra).
    assert (E : forall x, theta psdm ex_col * x / theta psdm ex_col = x) by (intros; field; exact T).
    split.
    + split; [rewrite E; lra|]. intros [|[|j]] _; rewrite E; lra.
    + left. split; [exists 2%nat; split; [lia|reflexivity]|].
      intros [|[|[|j]]] Hj1 Hj2; try lia; cbn; rewrite !E; lra.
Qed.
Example ex_col_film : forall (psdm : bool) op z, Wr op 3%nat <> 0 -> (1 <= z)%nat ->
  exists Cs, rsum 3 Cs = 3 /\ (forall i, (1 <= i < 3)%nat ->
    bead_average 4 (Wr op) (fun m => rhs psdm ex_col op 100 (fun _ => 1) (ex_steady psdm) (S m) i z) = 100 * (3 / rb ex_col) * kL ex_col i * (1 - Cs i)).
Proof.
  intros psdm op z HW Hz. assert (T : (if psdm then 1 - EPOR ex_col else 1) <> 0) by (destruct psdm; cbn; lra).
  assert (E : forall x, theta psdm ex_col * x / (if psdm then 1 - EPOR ex_col else 1) = x) by (intros; unfold theta; field; exact T).
  assert (SEL : selectivities 3 (Kxc ex_col)) by (intros [|[|j]] _; cbn; lra).
  destruct (composition_margin 3 (Kxc ex_col) (val ex_col) (fun j => ex_steady psdm (nr ex_col) j z / (if psdm then 1 - EPOR ex_col else 1)) 3) as (m & Pm & Sm); [lia|exact SEL| |lra|].
  { cbn [nr ex_col ex_steady]. split; [rewrite E; lra|]. intros [|[|j]] _; rewrite E; lra. }
  assert (C3 : rsum 3 (fun i => if Nat.eqb z 0 then 1 else ex_steady psdm 0%nat i z) = 3).
  { rewrite (proj2 (Nat.eqb_neq z 0)) by lia. cbn. lra. }
  destruct (C16_bead_gains_film_flux psdm ex_col op 100 (fun _ => 1) (ex_steady psdm) z m) as (Cs & _ & S1 & _ & S2 & _);
    try exact SEL; try exact HW; try exact Pm; try (cbn; lia); try (cbn; lra).
  - split; [reflexivity|]. intros [|[|[|j]]] Hj; cbn; auto.
  - change (NION ex_col) with 3%nat. rewrite C3. exact Sm.
  - exists Cs. change (NION ex_col) with 3%nat in S1. rewrite C3 in S1. split; [exact S1|]. intros i Hi. specialize (S2 i Hi). cbv zeta in S2.
    rewrite (proj2 (Nat.eqb_neq z 0)) in S2 by lia. exact S2.
Qed.
Example ex_col_trajectory : forall psdm op,
  build_operators even_roots (fun m _ _ => even_roots m) 4 5 false = Ok op ->
  is_trajectory 4 3 5 (fun _ u => rhs psdm ex_col op 100 (fun _ => 1) u) 7 (fun _ => ex_steady psdm).
Proof.
  intros psdm op Hop. apply (C18_equilibrium_history psdm ex_col).
  intros r i z Hr Hi Hz. apply (ex_col_steady psdm false op r i z); assumption.
Qed.
(** The sparsity pattern does declare independencies. *)
Example ex_sparse : Jac_struc 4 3 5 (flat 3 5 0 1 2) (flat 3 5 2 0 2) = 0%nat /\
  Jac_struc 4 3 5 (flat 3 5 2 1 2) (flat 3 5 2 1 3) = 0%nat /\
  Jac_struc 4 3 5 (flat 3 5 2 1 2) (flat 3 5 0 0 2) = 1%nat.
Proof. repeat split; vm_compute; reflexivity. Qed.
Example ex_influent : get_Cin false 3600 100 [0; 24; 48] [1; 3; 2] (36 * (3600 / 100)) = Ok (5 / 2).
Proof.
  destruct (C20_piecewise_linear 3600 100 [0; 24; 48] [1; 3; 2] 1 36) as (_ & E);
    try (cbn; lra); try reflexivity; try (cbn; lia).
  - intros i j Hij Hj. cbn in Hj. destruct i as [|[|[|i]]], j as [|[|[|j]]]; cbn; try lia; lra.
  - rewrite E. f_equal. cbn. field.
Qed.

Print Assumptions C14_resin_rates_sum_to_zero.
Print Assumptions C14_resin_total_constant.
Print Assumptions C14_resin_total_is_capacity.
Print Assumptions C15_only_advection.
Print Assumptions C15_uniform_total_unchanged.
Print Assumptions C15_total_follows_inlet.
Print Assumptions C16_bead_gains_film_flux.
Print Assumptions C16_slice_balance.
Print Assumptions C18_equilibrium_is_stationary.
Print Assumptions C18_equilibrium_history.
Print Assumptions C19_presaturated_start.
Print Assumptions C19_supplied_distribution_partial.
Print Assumptions C19_zero_distribution_refuted.
Print Assumptions C20_piecewise_linear.
Print Assumptions C20_data_points.
Print Assumptions C20_between_neighbours.
Print Assumptions C20_hours_or_days.
Print Assumptions C20_outside_data_rejected.
Print Assumptions C21_sparsity_sound.
Print Assumptions C59_time_scale_immaterial.
Print Assumptions C59_scale.
Print Assumptions C59_reported_end_time.
Print Assumptions C59_reported_times_in_seconds.
