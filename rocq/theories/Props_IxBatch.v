(** Properties C17, C19 (batch part), C63, C64: ion-exchange batch reactors.
    [batch_rhs psdm] is the right-hand side of PSDMIXbatch or HSDMIXbatch. *)
From Coq Require Import Reals List Arith Bool Lra Lia.
From Verif Require Import Lib_Py Lib_Sum Lib_Traj M_Colloc M_IxEq M_IxColumn M_IxBatch
  S_Colloc S_IxEq S_IxColumn S_IxBatch S_Unique P_Colloc P_IxEq P_IxColumn P_IxBatch Props_IxColumn.
Import ListNotations.
Open Scope R_scope.

(** ** C17 — each ion is conserved *)

Theorem C17_batch_mass_conserved : forall legendre jacobi psdm b Tf y,
  good_roots legendre jacobi -> (1 <= b_nr b)%nat -> b_VL b <> 0 -> b_rb b <> 0 ->
  let op := build_radial legendre jacobi (b_nr b) in
  is_batch_trajectory (b_nr b) (b_NION b) (batch_rhs psdm b op) Tf y ->
  forall i, (i < b_NION b)%nat -> forall T, 0 <= T <= Tf ->
  amount (b_nr b) (rWr op) (b_VL b) (b_VR b) (y T) i
  = amount (b_nr b) (rWr op) (b_VL b) (b_VR b) (y 0) i.
Proof.
  intros leg jac psdm b Tf y HG Hr HV Hb op HT i Hi T Ht.
  destruct (radial_ok leg jac (b_nr b) Hr HG) as (_ & HW & _). fold op in HW.
  apply (conserved psdm b op Tf y); try assumption.
  assert (X := HW (b_nr b - 1)%nat ltac:(lia)). lra.
Qed.

(** From the code's start, with no divalent ion: everything that leaves the liquid is
    in the resin, and the liquid can never hold more of a non-presaturant than it started with. *)
Theorem C17_loaded_equals_removed : forall legendre jacobi psdm b Tf y,
  good_roots legendre jacobi -> (1 <= b_nr b)%nat -> b_VL b <> 0 -> b_rb b <> 0 ->
  let op := build_radial legendre jacobi (b_nr b) in
  is_batch_trajectory (b_nr b) (b_NION b) (batch_rhs psdm b op) Tf y ->
  y 0 = batch_initial b -> (forall i, (i < b_NION b)%nat -> b_val b i <> 2%nat) ->
  forall i, (1 <= i < b_NION b)%nat -> forall T, 0 <= T <= Tf ->
  b_VR b * bead_average (b_nr b) (rWr op) (fun m => y T (S m) i)
  = b_VL b * (b_C0 b i - y T 0%nat i).
Proof.
  intros leg jac psdm b Tf y HG Hr HV Hb op HT H0 Hv i Hi T Ht.
  assert (X := C17_batch_mass_conserved leg jac psdm b Tf y HG Hr HV Hb HT i ltac:(lia) T Ht).
  fold op in X. rewrite H0 in X. unfold amount in X. unfold bead_average.
  rewrite (rsum_zero (b_nr b) (fun m => rWr op m * batch_initial b (S m) i)) in X.
  - cbn [batch_initial] in X. lra.
  - intros m Hm. unfold batch_initial. rewrite (proj2 (Nat.eqb_neq i 0)) by lia.
    destruct (has_divalent (b_NION b) (b_val b)) eqn:E; [|ring].
    exfalso. apply existsb_exists in E. destruct E as (k & Hk & E). apply in_seq in Hk.
    apply Nat.eqb_eq in E. apply (Hv k); [lia|exact E].
Qed.

(** ** C19 — initial state of a batch *)

Theorem C19_batch_start_monovalent : forall b, (0 < b_NION b)%nat ->
  (forall i, (i < b_NION b)%nat -> b_val b i <> 2%nat) ->
  (forall i, batch_initial b 0%nat i = b_C0 b i) /\
  (forall r, batch_initial b (S r) 0%nat = b_RHOP b * b_Qm b) /\
  (forall r i, (1 <= i)%nat -> batch_initial b (S r) i = 0).
Proof.
  intros b HN Hv.
  assert (E : has_divalent (b_NION b) (b_val b) = false).
  { unfold has_divalent. destruct (existsb _ _) eqn:E; [|reflexivity]. exfalso.
    apply existsb_exists in E. destruct E as (k & Hk & E). apply in_seq in Hk.
    apply Nat.eqb_eq in E. apply (Hv k); [lia|exact E]. }
  split; [reflexivity|]. split; intros; unfold batch_initial; rewrite E; [reflexivity|].
  rewrite (proj2 (Nat.eqb_neq i 0)) by lia. reflexivity.
Qed.
(** With a monovalent presaturant the resin starts full, divalents or not. *)
Theorem C19_batch_start_total : forall b, (0 < b_NION b)%nat -> b_val b 0%nat = 1%nat ->
  forall r, rsum (b_NION b) (batch_initial b (S r)) = b_RHOP b * b_Qm b.
Proof. intros b HN Hv. apply batch_initial_total; [exact HN|]. rewrite Hv. discriminate. Qed.
(** Fails: with a divalent ion in the sheet the resin does not start pure ... *)
Theorem C19_batch_start_pure_refuted : forall b i, (1 <= i < b_NION b)%nat -> b_val b i = 2%nat ->
  b_RHOP b * b_Qm b <> 0 -> forall r, batch_initial b (S r) i <> 0.
Proof.
  intros b i Hi Hv HQ r. unfold batch_initial.
  assert (E : has_divalent (b_NION b) (b_val b) = true).
  { apply existsb_exists. exists i. split; [apply in_seq; lia|]. unfold dv_idx. rewrite Hv. reflexivity. }
  rewrite E. rewrite (proj2 (Nat.eqb_neq i 0)) by lia. unfold dv_idx. rewrite Hv. cbn [Nat.eqb].
  change (b_Q b) with (b_RHOP b * b_Qm b). lra.
Qed.
(** ... and with a divalent presaturant it does not start full. *)
Theorem C19_batch_start_total_refuted : forall b, (0 < b_NION b)%nat -> b_val b 0%nat = 2%nat ->
  forall r, rsum (b_NION b) (batch_initial b (S r)) = b_RHOP b * b_Qm b * (999 / 1000).
Proof.
  intros b HN Hv r. unfold batch_initial.
  assert (E : has_divalent (b_NION b) (b_val b) = true).
  { apply existsb_exists. exists 0%nat. split; [apply in_seq; lia|]. unfold dv_idx. rewrite Hv. reflexivity. }
  rewrite E.
  rewrite (rsum_ext _ _ (fun i =>
      (if dv_idx (b_val b) i then b_Q b / 1000 else 0)
      + (if Nat.eqb i 0 then b_Q b - INR (ndv b) * b_Q b / 1000 - b_Q b / 1000 else 0))).
  - rewrite rsum_plus, masked_count, (rsum_single _ _ 0%nat HN).
    + cbn [Nat.eqb]. unfold ndv, b_Q. field.
    + intros i Hi Hn. rewrite (proj2 (Nat.eqb_neq i 0) Hn). reflexivity.
  - intros i Hi. destruct (Nat.eqb_spec i 0) as [->|Hn]; [|ring].
    unfold dv_idx. rewrite Hv. cbn [Nat.eqb]. ring.
Qed.

(** ** C63 — totals of a batch run *)

Theorem C63_batch_totals_kept : forall legendre jacobi (psdm : bool) b Tf y,
  good_roots legendre jacobi -> (0 < b_NION b)%nat -> (1 <= b_nr b)%nat ->
  selectivities (b_NION b) (b_K b) -> mono_or_divalent (b_NION b) (b_val b) ->
  let op := build_radial legendre jacobi (b_nr b) in
  let solid := if psdm then 1 - b_EPOR b else 1 in
  is_batch_trajectory (b_nr b) (b_NION b) (batch_rhs psdm b op) Tf y ->
  (* the exchange equilibria have solutions *)
  (forall T, 0 < T < Tf -> exists m, 0 < m /\
     batch_in_use_by m psdm solid (b_nr b) (b_NION b) (b_K b) (b_val b) (rsum (b_NION b) (b_C0 b)) (y T)) ->
  y 0 = batch_initial b ->
  forall T, 0 <= T <= Tf ->
  rsum (b_NION b) (y T 0%nat) = rsum (b_NION b) (b_C0 b) /\
  forall r, (1 <= r <= b_nr b)%nat -> rsum (b_NION b) (y T r) = b_RHOP b * b_Qm b.
Proof.
  intros leg jac psdm b Tf y HG HN Hr HK Hz op solid HT HA H0 T Ht.
  destruct (radial_ok leg jac (b_nr b) Hr HG) as (HB & _). fold op in HB.
  apply (totals_kept psdm b op) with (Tf := Tf); try assumption.
  - rewrite H0. reflexivity.
  - intros [|r] Hrr; [lia|]. rewrite H0. apply C19_batch_start_total; [exact HN|apply Hz].
Qed.

(** ** C64 — a batch at equilibrium stays there *)

Theorem C64_batch_equilibrium_is_stationary : forall legendre jacobi (psdm : bool) b u (q : nat -> R),
  good_roots legendre jacobi -> (0 < b_NION b)%nat -> (1 <= b_nr b)%nat ->
  selectivities (b_NION b) (b_K b) -> mono_or_divalent (b_NION b) (b_val b) ->
  let op := build_radial legendre jacobi (b_nr b) in
  let solid := if psdm then 1 - b_EPOR b else 1 in
  (forall i, (i < b_NION b)%nat -> 0 <= u 0%nat i) ->
  (* the liquid carries the total of the starting solution *)
  rsum (b_NION b) (u 0%nat) = rsum (b_NION b) (b_C0 b) ->
  (* uniform beads, every divalent present, in equilibrium with the liquid *)
  (forall r, (1 <= r <= b_nr b)%nat -> forall i, u r i = q i) ->
  resin_composition (b_NION b) (fun i => q i / solid) ->
  (forall i, (i < b_NION b)%nat -> b_val b i = 2%nat -> 0 < q i / solid) ->
  in_equilibrium (b_NION b) (b_K b) (b_val b) (fun i => q i / solid) (u 0%nat) ->
  exists d, batch_rhs psdm b op u = Some d /\
    forall r i, (r <= b_nr b)%nat -> (i < b_NION b)%nat -> d r i = 0.
Proof.
  intros leg jac psdm b u q HG HN Hr HK Hz op solid HC HT Hu Hq Hd HE.
  destruct (radial_ok leg jac (b_nr b) Hr HG) as (HB & _). fold op in HB.
  apply (batch_steady psdm b op u q); assumption.
Qed.
(** The film flux drives the liquid towards the surface equilibrium, never past it. *)
Theorem C64_liquid_moves_towards_equilibrium : forall (psdm : bool) b op u d,
  batch_rhs psdm b op u = Some d -> 0 < b_VR b -> 0 < b_VL b -> 0 < b_rb b -> 0 < b_kL b ->
  let solid := if psdm then 1 - b_EPOR b else 1 in
  exists Ceq,
  calc_Ceq_batch (b_NION b) (b_K b) (b_val b) (fun i => u (b_nr b) i / solid) (rsum (b_NION b) (b_C0 b))
    = Some Ceq /\
  forall i, (u 0%nat i < Ceq i -> 0 < d 0%nat i) /\ (Ceq i < u 0%nat i -> d 0%nat i < 0) /\
            (u 0%nat i = Ceq i -> d 0%nat i = 0).
Proof.
  intros psdm b op u d Hd HVR HVL Hrb HkL solid.
  assert (X : exists Ceq dq, d = batch_assemble b op u Ceq dq /\
    calc_Ceq_batch (b_NION b) (b_K b) (b_val b) (fun i => u (b_nr b) i / solid) (b_CT b) = Some Ceq).
  { revert Hd. unfold solid. clear solid. destruct psdm; cbn [batch_rhs];
      unfold diffun_psdm_batch, diffun_hsdm_batch.
    - destruct (pore_liquid b u (b_nr b)); [|discriminate].
      destruct (calc_Ceq_batch _ _ _ _ _) as [C|]; [|discriminate]. intros H. apply Some_inj in H. eauto.
    - replace (fun i => u (b_nr b) i / 1) with (u (b_nr b)).
      2:{ apply FunctionalExtensionality.functional_extensionality. intros i. field. }
      destruct (calc_Ceq_batch _ _ _ _ _) as [C|]; [|discriminate]. intros H. apply Some_inj in H. eauto. }
  destruct X as (Ceq & dq & -> & EC). exists Ceq. split; [exact EC|]. intros i.
  unfold batch_assemble.
  set (g := 3 * b_VR b / b_rb b * b_kL b / b_VL b).
  assert (Hg : 0 < g).
  { unfold g. apply Rdiv_lt_0_compat; [|exact HVL]. apply Rmult_lt_0_compat; [|exact HkL].
    apply Rdiv_lt_0_compat; lra. }
  replace (3 * b_VR b / b_rb b * (- b_kL b * (u 0%nat i - Ceq i)) / b_VL b) with (g * (Ceq i - u 0%nat i))
    by (unfold g; field; lra).
  repeat split; intros H; [apply Rmult_lt_0_compat; lra| |rewrite H; ring].
  rewrite <- (Rmult_0_r g). apply Rmult_lt_compat_l; lra.
Qed.

(** ** A concrete run: two monovalent ions of equal selectivity, one radial point.
    It starts as the code starts it and approaches an even split exponentially. *)

Definition ex_batch : batch :=
  {| b_NION := 2; b_nr := 1; b_Qm := 1; b_RHOP := 1; b_EPOR := 1 / 5; b_VR := 1; b_VL := 1;
     b_Ds := 1; b_Dp := 1; b_kL := 1; b_rb := 3;
     b_C0 := fun i => match i with 1%nat => 1 | _ => 0 end;
     b_K := fun _ => 2; b_val := fun _ => 1%nat |}.
Definition ex_run : R -> bstate := fun T r i =>
  match i with
  | O => match r with O => 1/2 - exp (-2 * T) / 2 | _ => 1/2 + exp (-2 * T) / 2 end
  | 1%nat => match r with O => 1/2 + exp (-2 * T) / 2 | _ => 1/2 - exp (-2 * T) / 2 end
  | _ => 0
  end.
Definition ex_op := build_radial even_roots (fun m _ _ => even_roots m) 1.
Example ex_run_starts : ex_run 0 = batch_initial ex_batch.
Proof.
  apply FunctionalExtensionality.functional_extensionality. intros r.
  apply FunctionalExtensionality.functional_extensionality. intros i.
  unfold ex_run, batch_initial. rewrite Rmult_0_r, exp_0.
  destruct r as [|r], i as [|[|i]]; cbn; unfold b_Q; cbn; lra.
Qed.
Example ex_run_always : forall psdm Tf,
  is_batch_trajectory 1 2 (batch_rhs psdm ex_batch ex_op) Tf ex_run.
Proof.
  intros psdm Tf.
  destruct (radial_ok even_roots (fun m _ _ => even_roots m) 1 (le_n _) even_roots_good) as (HB & _ & HW).
  fold ex_op in HB, HW. cbn [rsum] in HW.
  assert (B0 : rBr ex_op 0%nat 0%nat = 0).
  { assert (X := HB 0%nat 1 ltac:(lia)). cbn [rsum] in X. lra. }
  assert (W0 : rWr ex_op 0%nat = 1 / 3) by lra.
  assert (CT : b_CT ex_batch = 1) by (unfold b_CT; cbn; ring).
  assert (EQ : forall (s : R) T i, s <> 0 -> (i < 2)%nat ->
    Ceq_mv 2 (fun _ => 2) (fun i => ex_run T 1%nat i / s) 1 i = ex_run T 1%nat i).
  { intros s T i Hs Hi. unfold Ceq_mv, alpha.
    destruct i as [|[|i]]; [| |lia]; cbn; set (x := exp (-2 * T)); field; split; try lra; exact Hs. }
  set (d := fun T => match batch_rhs psdm ex_batch ex_op (ex_run T) with Some d => d | None => fun _ _ => 0 end).
  assert (HD : exists Ceq : R -> nat -> R, (forall T i, (i < 2)%nat -> Ceq T i = ex_run T 1%nat i) /\
    exists dq, (forall T, batch_rhs psdm ex_batch ex_op (ex_run T)
                          = Some (batch_assemble ex_batch ex_op (ex_run T) (Ceq T) (dq T)))).
  { destruct psdm; cbn [batch_rhs].
    - exists (fun T => Ceq_mv 2 (fun _ => 2) (fun i => ex_run T 1%nat i / (1 - 1 / 5)) 1).
      split; [intros; apply EQ; [lra|assumption]|]. eexists. intros T.
      unfold diffun_psdm_batch, pore_liquid. cbn [b_nr ex_batch]. unfold calc_Ceq_batch.
      rewrite CT. reflexivity.
    - exists (fun T => Ceq_mv 2 (fun _ => 2) (fun i => ex_run T 1%nat i) 1). split.
      + intros T i Hi. rewrite <- (EQ 1 T i) by (lra || assumption).
        f_equal.
        apply FunctionalExtensionality.functional_extensionality. intros j. field.
      + eexists. intros T. unfold diffun_hsdm_batch, calc_Ceq_batch. rewrite CT. reflexivity. }
  destruct HD as (Ceq & HC & dq & HR).
  eexists. split; [intros T _; apply HR|].
  assert (EX := evolves_exp 0 Tf (-2)).
  intros r i Hr Hi.
  assert (Hs : forall (s k : R) g, (forall T, ex_run T r i = k + s * exp (-2 * T)) ->
    (forall T, g T = s * (-2 * exp (-2 * T))) -> evolves 0 Tf (fun T => ex_run T r i) g).
  { intros s k g E1 E2.
    apply (evolves_ext 0 Tf (fun T => k + s * exp (-2 * T)) _ (fun T => 0 + s * (-2 * exp (-2 * T)))).
    - intros T. symmetry. apply E1.
    - intros T _. rewrite E2. ring.
    - apply evolves_plus; [apply evolves_const|]. apply evolves_scal, EX. }
  assert (HJ : forall T, batch_assemble ex_batch ex_op (ex_run T) (Ceq T) (dq T) r i
    = match r with O => - (ex_run T 0%nat i - ex_run T 1%nat i) | S _ => ex_run T 0%nat i - ex_run T 1%nat i end).
  { intros T. unfold batch_assemble. rewrite HC by exact Hi.
    destruct r as [|[|r]]; [| |lia]; cbn [b_nr b_VR b_VL b_rb b_kL ex_batch Nat.eqb Nat.sub rsum];
      [|rewrite W0]; field. }
  destruct i as [|[|i]]; [| |lia]; destruct r as [|[|r]]; try lia.
  - apply (Hs (-(1/2)) (1/2)); intros T; rewrite ?HJ; cbn [ex_run]; lra.
  - apply (Hs (1/2) (1/2)); intros T; rewrite ?HJ; cbn [ex_run]; lra.
  - apply (Hs (1/2) (1/2)); intros T; rewrite ?HJ; cbn [ex_run]; lra.
  - apply (Hs (-(1/2)) (1/2)); intros T; rewrite ?HJ; cbn [ex_run]; lra.
Qed.
Example ex_run_trajectory : forall psdm,
  is_batch_trajectory 1 2 (batch_rhs psdm ex_batch ex_op) 5 ex_run.
Proof. intros psdm. apply ex_run_always. Qed.
Example ex_run_composition : forall (s T : R) r, 0 < s -> 0 < T -> (1 <= r <= 1)%nat ->
  resin_composition 2 (fun i => ex_run T r i / s).
Proof.
  intros s T r Hs HT Hr. assert (P := exp_pos (-2 * T)).
  assert (L : exp (-2 * T) < 1) by (rewrite <- exp_0; apply exp_increasing; lra).
  assert (I : 0 < / s) by (apply Rinv_0_lt_compat, Hs).
  destruct r as [|[|r]]; try lia. unfold Rdiv. split; cbn [ex_run].
  - apply Rmult_lt_0_compat; lra.
  - intros [|[|i]] Hi; [| |lia]; cbn [ex_run]; apply Rmult_le_pos; lra.
Qed.
(** Half of the nitrate ends up on the resin, none is lost. *)
Example ex_run_balance : forall (psdm : bool) T, 0 <= T <= 5 ->
  amount 1 (rWr ex_op) 1 1 (ex_run T) 1%nat = 1.
Proof.
  intros psdm T HT.
  assert (E := C17_batch_mass_conserved even_roots (fun m _ _ => even_roots m) psdm ex_batch 5 ex_run
    even_roots_good ltac:(cbn; lia) ltac:(cbn; lra) ltac:(cbn; lra) (ex_run_trajectory psdm) 1%nat
    ltac:(cbn; lia) T HT).
  etransitivity; [exact E|].
  unfold amount. rewrite ex_run_starts. cbn. ring.
Qed.
Example ex_run_totals : forall (psdm : bool) T, 0 <= T <= 5 -> rsum 2 (ex_run T 0%nat) = 1.
Proof.
  intros psdm T HT.
  destruct (C63_batch_totals_kept even_roots (fun m _ _ => even_roots m) psdm ex_batch 5 ex_run
    even_roots_good) with (T := T) as (E & _); try exact HT; try (cbn; lia).
  - intros i _. cbn. lra.
  - split; [reflexivity|]. intros. left. reflexivity.
  - apply ex_run_trajectory.
  - intros t Ht. apply (nonneg_batch psdm ex_batch (ex_run t)); [cbn; lia|intros i _; cbn; lra|cbn; lra|].
    intros r Hr _. split; [apply ex_run_composition; [destruct psdm; cbn; lra|lra|exact Hr]|intros k _ Hk; discriminate Hk].
  - apply ex_run_starts.
  - cbn in E |- *. lra.
Qed.

Print Assumptions C17_batch_mass_conserved.
Print Assumptions C17_loaded_equals_removed.
Print Assumptions C19_batch_start_monovalent.
Print Assumptions C19_batch_start_total.
Print Assumptions C19_batch_start_pure_refuted.
Print Assumptions C19_batch_start_total_refuted.
Print Assumptions C63_batch_totals_kept.
Print Assumptions C64_batch_equilibrium_is_stationary.
Print Assumptions C64_liquid_moves_towards_equilibrium.
