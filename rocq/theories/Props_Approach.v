(** C201 — the resin at the inlet of a column forgets how it was loaded and comes to equilibrium with the water. *)
From Coq Require Import Reals List Arith Bool Lra Lia.
From Verif Require Import Lib_Py Lib_Sum Lib_Traj S_Colloc S_Radial P_JacobiRoots.
From Verif Require Import M_IxEq S_IxEq M_IxColumn S_IxColumn S_Unique Props_Rest Props_Exhaust Props_IxColumn P_InletTwo P_L1 Props_InletTwo S_Approach.
Open Scope R_scope.

Theorem C201_inlet_forgets : forall legendre jacobi ocfe op (psdm : bool) c th c0,
  jacobi_roots 2 1 (jacobi 1%nat (5 / 2) (3 / 2)) -> build_operators legendre jacobi (nr c) (nz c) ocfe = Ok op ->
  working_column psdm c th -> nr c = 2%nat -> (1 < NION c)%nat -> 0 < Qcap c -> 0 < c0 ->
  (* one film and one diffusion coefficient *)
  (forall i, (1 <= i < NION c)%nat -> kL c i = kL c 1%nat /\ Ds c i = Ds c 1%nat /\ (psdm = true -> Dp c i = Ds c 1%nat)) ->
  exists A B, 0 < A /\ 0 < B /\ forall Cin Tf y x M,
    (forall T i, 0 < T < Tf -> (i < NION c)%nat -> 0 <= Cin T i) -> (forall T, 0 < T < Tf -> c0 <= rsum (NION c) (Cin T) <= M) ->
    is_trajectory (nr c) (NION c) (nz c) (fun T u => rhs psdm c op th (Cin T) u) Tf y ->
    is_trajectory (nr c) (NION c) (nz c) (fun T u => rhs psdm c op th (Cin T) u) Tf x ->
    loaded_inlet (nr c) (NION c) (Qcap c) (y 0) -> loaded_inlet (nr c) (NION c) (Qcap c) (x 0) ->
    forall T, 0 <= T <= Tf -> inlet_distance (nr c) (NION c) (y T) (x T) <= B * exp (- A * T) * inlet_distance (nr c) (NION c) (y 0) (x 0).
Proof.
  intros legendre jacobi ocfe op psdm c th c0 HJ BO WC N2 NI HQ HC0 SM.
  assert (SAME : forall i, (1 <= i < NION c)%nat -> kL c i = kL c 1%nat /\ Ds c i = Ds c 1%nat /\ (psdm = true -> Dp c i = Dp c 1%nat)).
  { intros i I. destruct (SM i I) as (S1 & S2 & S3). split; [exact S1|]. split; [exact S2|]. intros E. destruct (SM 1%nat ltac:(lia)) as (_ & _ & S4). rewrite S3, S4 by exact E. reflexivity. }
  assert (PS : pore_share psdm c = 0).
  { destruct (SM 1%nat ltac:(lia)) as (_ & _ & S4). unfold pore_share. clear - S4. destruct psdm; [rewrite S4 by reflexivity; ring|reflexivity]. }
  destruct (inlet_positive legendre jacobi ocfe op psdm c th HJ BO WC N2 NI) as (HH & BE & HW & _ & D1).
  assert (N0 : (0 < NION c)%nat) by lia. assert (NZ : (0 < nz c)%nat) by (destruct WC as (_ & _ & X & _); lia).
  assert (HK : forall i, (i < NION c)%nat -> 0 < cK psdm c i) by (intros i I; apply (cK_pos psdm c th); assumption).
  set (h := film_rate op c th) in *. set (be := core_rate op c th) in *. set (w := give_rate op c th) in *. set (de := Ds c 1%nat) in *.
  set (A := decay (NION c) (cK psdm c) (Qcap c) c0 h w be de). set (b := core_weight (NION c) (cK psdm c) (Qcap c) c0 h w be de).
  assert (AP : 0 < A) by (apply decay_pos; assumption). assert (BP : 0 < b) by (apply core_pos; assumption). assert (IB := Rinv_0_lt_compat _ BP).
  exists A, ((1 + / b) * (1 + b)). split; [exact AP|]. split; [apply Rmult_lt_0_compat; lra|].
  intros Cin Tf y x M HC HM TY TX LY LX T HT. rewrite N2 in LY, LX.
  assert (FACTS : forall v, is_trajectory (nr c) (NION c) (nz c) (fun T u => rhs psdm c op th (Cin T) u) Tf v -> loaded_inlet 2 (NION c) (Qcap c) (v 0) ->
     (forall t, 0 <= t <= Tf -> kept (NION c) (surface_of v) (core_of v) t) /\ (forall t, 0 <= t <= Tf -> rsum (NION c) (rowx (surface_of v) t) = Qcap c) /\
     (forall t i, 0 < t < Tf -> (i < NION c)%nat -> rhs psdm c op th (Cin t) (v t) 2%nat i 0%nat = h * (Cin t i - shr (NION c) (val c) (cK psdm c) (rsum (NION c) (Cin t)) (rowx (surface_of v) t) i * surface_of v i t) - w * (de * (surface_of v i t - core_of v i t)) /\
        rhs psdm c op th (Cin t) (v t) 1%nat i 0%nat = be * (de * (surface_of v i t - core_of v i t)))).
  { intros v TV LV.
    assert (K := C196_column_two_points_partial legendre jacobi ocfe op psdm c th Cin Tf v M HJ BO WC N2 NI SAME HC (fun t Ht => proj2 (HM t Ht)) TV (fun r i R I => proj1 (proj2 (LV r R)) i I) (fun r R => conj (proj1 (LV r R)) (proj2 (proj2 (LV r R))))).
    assert (KP : forall t, 0 <= t <= Tf -> kept (NION c) (surface_of v) (core_of v) t).
    { intros t Ht. destruct (K t 2%nat Ht ltac:(lia)) as (A2 & B2 & _). destruct (K t 1%nat Ht ltac:(lia)) as (A1 & B1 & _). split; [|split; [exact B2|exact B1]]. intros i I. split; [apply (A2 i I)|apply (A1 i I)]. }
    split; [exact KP|]. split; [intros t Ht; apply (K t 2%nat Ht ltac:(lia))|].
    intros t i Ht I. destruct (KP t ltac:(lra)) as (NN & P2 & P1). assert (CP : 0 <= rsum (NION c) (Cin t)) by (apply rsum_nonneg; intros j J; apply HC; assumption).
    assert (SY : sound (NION c) (val c) (cK psdm c) (rsum (NION c) (Cin t)) (rowx (surface_of v) t)) by (apply kept_sound; try assumption; [apply WC|intros j J; apply (NN j J)]).
    assert (SZ : sound (NION c) (val c) (cK psdm c) (rsum (NION c) (Cin t)) (rowx (core_of v) t)) by (apply kept_sound; try assumption; [apply WC|intros j J; apply (NN j J)]).
    destruct (inlet_rates legendre jacobi ocfe op psdm c th HJ BO WC N2 NI SAME Cin Tf v HC TV (fun r R => proj2 (proj2 (LV r R))) t i Ht I SY SZ) as (E1 & E2).
    rewrite E1, E2. unfold spd. rewrite PS. fold h w be de. split; ring. }
  destruct (FACTS y TY LY) as (KY & SY & RY). destruct (FACTS x TX LX) as (KX & SX & RX).
  assert (AP1 := beads_approach (NION c) (val c) (cK psdm c) (Qcap c) c0 h w be de HK (proj2 (proj1 (proj2 (proj2 (proj2 (proj2 WC)))))) (proj1 (proj1 (proj2 (proj2 (proj2 (proj2 WC)))))) N0 HQ HC0 HH HW BE D1 Tf (surface_of y) (core_of y)
    (fun i t => rhs psdm c op th (Cin t) (y t) 2%nat i 0%nat) (fun i t => rhs psdm c op th (Cin t) (y t) 1%nat i 0%nat) (surface_of x) (core_of x)
    (fun i t => rhs psdm c op th (Cin t) (x t) 2%nat i 0%nat) (fun i t => rhs psdm c op th (Cin t) (x t) 1%nat i 0%nat) Cin (fun t Ht => proj1 (HM t Ht))
    (fun i I => TY 2%nat i 0%nat ltac:(lia) I NZ) (fun i I => TY 1%nat i 0%nat ltac:(lia) I NZ) (fun i I => TX 2%nat i 0%nat ltac:(lia) I NZ) (fun i I => TX 1%nat i 0%nat ltac:(lia) I NZ) KY KX SY SX RY RX T HT).
  fold A b in AP1. rewrite N2. unfold inlet_distance. cbn [rsum]. unfold surface_of, core_of in AP1. rewrite !rsum_plus, !rsum_scal in AP1.
  set (p := rsum (NION c) (fun i => Rabs (y T 2%nat i 0%nat - x T 2%nat i 0%nat))) in *. set (q := rsum (NION c) (fun i => Rabs (y T 1%nat i 0%nat - x T 1%nat i 0%nat))) in *.
  set (p0 := rsum (NION c) (fun i => Rabs (y 0 2%nat i 0%nat - x 0 2%nat i 0%nat))) in *. set (q0 := rsum (NION c) (fun i => Rabs (y 0 1%nat i 0%nat - x 0 1%nat i 0%nat))) in *.
  assert (P : 0 <= p) by (apply rsum_nonneg; intros; apply Rabs_pos). assert (Q : 0 <= q) by (apply rsum_nonneg; intros; apply Rabs_pos). assert (P0 : 0 <= p0) by (apply rsum_nonneg; intros; apply Rabs_pos). assert (Q0 : 0 <= q0) by (apply rsum_nonneg; intros; apply Rabs_pos).
  assert (E := exp_pos (- A * T)). set (e := exp (- A * T)) in *.
  assert (X1 : 0 + q + p <= (1 + / b) * (p + b * q)).
  { replace ((1 + / b) * (p + b * q)) with (p + q + (/ b * p + b * q)) by (field; lra). assert (0 <= / b * p) by (apply Rmult_le_pos; lra). assert (0 <= b * q) by (apply Rmult_le_pos; lra). lra. }
  assert (X2 : p0 + b * q0 <= (1 + b) * (0 + q0 + p0)).
  { replace ((1 + b) * (0 + q0 + p0)) with (p0 + b * q0 + (q0 + b * p0)) by ring. assert (0 <= b * p0) by (apply Rmult_le_pos; lra). lra. }
  eapply Rle_trans; [exact X1|]. rewrite !(Rmult_assoc (1 + / b)). apply Rmult_le_compat_l; [lra|]. eapply Rle_trans; [exact AP1|].
  apply Rle_trans with (e * ((1 + b) * (0 + q0 + p0))); [apply Rmult_le_compat_l; lra|right; ring].
Qed.
Print Assumptions C201_inlet_forgets.

Theorem C201_inlet_exhausts : forall legendre jacobi ocfe op (psdm : bool) c th C,
  good_roots legendre jacobi -> jacobi_roots 2 1 (jacobi 1%nat (5 / 2) (3 / 2)) -> build_operators legendre jacobi (nr c) (nz c) ocfe = Ok op ->
  working_column psdm c th -> nr c = 2%nat -> (1 < NION c)%nat -> 0 < Qcap c ->
  (forall i, (1 <= i < NION c)%nat -> kL c i = kL c 1%nat /\ Ds c i = Ds c 1%nat /\ (psdm = true -> Dp c i = Ds c 1%nat)) ->
  (* water of constant composition with some presaturant *)
  (forall i, (i < NION c)%nat -> 0 <= C i) -> 0 < C 0%nat ->
  (* one composition, of the capacity and in equilibrium with the water *)
  exists q A B, (forall i, (i < NION c)%nat -> 0 <= q i) /\ rsum (NION c) q = Qcap c /\
    in_equilibrium (NION c) (Kxc c) (val c) (fun i => q i / theta psdm c) C /\ 0 < A /\ 0 < B /\
    (* which every bead at the inlet approaches at both points *)
    forall Tf y, is_trajectory (nr c) (NION c) (nz c) (fun T u => rhs psdm c op th C u) Tf y -> loaded_inlet (nr c) (NION c) (Qcap c) (y 0) ->
    forall T r i, 0 <= T <= Tf -> (1 <= r <= nr c)%nat -> (i < NION c)%nat -> Rabs (y T r i 0%nat - q i) <= B * exp (- A * T).
Proof.
  intros legendre jacobi ocfe op psdm c th C HG HJ BO WC N2 NI HQ SM HC C0.
  assert (N0 : (0 < NION c)%nat) by lia. assert (NZ : (0 < nz c)%nat) by (destruct WC as (_ & _ & X & _); lia).
  assert (CT : 0 < rsum (NION c) C) by (apply (rsum_pos_one _ _ 0%nat N0); assumption).
  destruct (proj2 (C194_ion_column legendre jacobi ocfe op psdm c th C (Qcap c) HG BO WC HC CT HQ) C0) as (u & RC & AR).
  destruct (C192_ion_column legendre jacobi ocfe op psdm c th C u (Qcap c) HG BO WC HC CT RC AR) as (_ & UN & EQ).
  destruct (C201_inlet_forgets legendre jacobi ocfe op psdm c th (rsum (NION c) C) HJ BO WC N2 NI HQ CT SM) as (A & B & AP & BP & FO).
  destruct (RC 0%nat 0%nat ltac:(lia) NZ) as (_ & U1 & U2).
  exists (fun i => u 1%nat i 0%nat), A, (B * (4 * Qcap c)). split; [exact U1|]. split; [exact U2|]. split; [exact (EQ 0%nat 0%nat ltac:(lia) NZ)|]. split; [exact AP|]. split; [apply Rmult_lt_0_compat; lra|].
  intros Tf y TY LY T r i HT R I.
  assert (LX : loaded_inlet (nr c) (NION c) (Qcap c) u) by (intros [|k] K; [lia|apply (RC k 0%nat); [lia|exact NZ]]).
  assert (TX : is_trajectory (nr c) (NION c) (nz c) (fun T u => rhs psdm c op th C u) Tf (fun _ => u)).
  { intros k j z K J ZZ. apply (evolves_ext 0 Tf (fun _ => u k j z) _ (fun _ => 0)); [reflexivity|intros t _; symmetry; apply AR; assumption|apply evolves_const]. }
  assert (D := FO (fun _ => C) Tf y (fun _ => u) (rsum (NION c) C) (fun _ j _ J => HC j J) (fun _ _ => conj (Rle_refl _) (Rle_refl _)) TY TX LY LX T HT). cbv beta in D.
  assert (TOTAL : inlet_distance (nr c) (NION c) (y 0) u <= 4 * Qcap c).
  { rewrite N2 in *. unfold inlet_distance. cbn [rsum].
    assert (ONE : forall k, (1 <= k <= 2)%nat -> rsum (NION c) (fun j => Rabs (y 0 k j 0%nat - u k j 0%nat)) <= 2 * Qcap c).
    { intros k K. destruct (LY k K) as (_ & Y1 & Y2). destruct (LX k K) as (_ & X1 & X2). replace (2 * Qcap c) with (rsum (NION c) (fun j => y 0 k j 0%nat) + rsum (NION c) (fun j => u k j 0%nat)) by lra. rewrite <- rsum_plus.
      apply rsum_le. intros j J. assert (P1 := Y1 j J). assert (P2 := X1 j J). apply Rabs_le. lra. }
    assert (X := ONE 1%nat ltac:(lia)). assert (X' := ONE 2%nat ltac:(lia)). lra. }
  assert (TERM : Rabs (y T r i 0%nat - u 1%nat i 0%nat) <= inlet_distance (nr c) (NION c) (y T) u).
  { destruct r as [|r]; [lia|]. rewrite (UN 0%nat r i 0%nat 0%nat ltac:(lia) ltac:(lia) I NZ NZ). unfold inlet_distance.
    eapply Rle_trans; [|apply (P_EntropyDv.one_le (nr c) (fun r => rsum (NION c) (fun i => Rabs (y T (S r) i 0%nat - u (S r) i 0%nat))) r ltac:(lia))].
    - apply (P_EntropyDv.one_le (NION c) (fun i => Rabs (y T (S r) i 0%nat - u (S r) i 0%nat)) i I). intros; apply Rabs_pos.
    - intros; apply rsum_nonneg; intros; apply Rabs_pos. }
  eapply Rle_trans; [exact TERM|]. eapply Rle_trans; [exact D|]. rewrite (Rmult_assoc B (4 * Qcap c)), (Rmult_assoc B (exp (- A * T))). apply Rmult_le_compat_l; [lra|]. rewrite Rmult_comm. apply Rmult_le_compat_r; [left; apply exp_pos|exact TOTAL].
Qed.
Print Assumptions C201_inlet_exhausts.

(** Chloride resin of the gel model fed chloride, nitrate and sulphate, on two radial points. *)
From Verif Require Import Props_Exist Props_Negative.
Example resin_approaches : exists jacobi op q A B Tf y, 0 < A /\ 0 < Tf /\ in_equilibrium 3 (Kxc col_two) (val col_two) (fun i => q i / theta false col_two) (fun _ => 1) /\
  build_operators even_roots jacobi 2 5 false = Ok op /\ is_trajectory 2 3 5 (fun _ u => rhs false col_two op 100 (fun _ => 1) u) Tf y /\ same_state 2 3 5 (y 0) (initial_state col_two (fun _ => 1) None) /\
  forall T r i, 0 <= T <= Tf -> (1 <= r <= 2)%nat -> (i < 3)%nat -> Rabs (y T r i 0%nat - q i) <= B * exp (- A * T).
Proof.
  destruct (jacobi_exist 2 1) as (r & Hr). set (jac := fun (m : nat) (_ _ : R) => match m with 1%nat => r | _ => even_roots m end). exists jac.
  assert (HG : good_roots even_roots jac) by (split; [intros; apply even_roots_ok|intros m p q; destruct m as [|[|m]]; [apply even_roots_ok|exact (proj1 Hr)|apply even_roots_ok]]).
  destruct (build_operators even_roots jac 2 5 false) as [op|] eqn:B; [|discriminate B]. exists op.
  assert (SK : selectivities 3 (Kxc col_two)) by (intros [|[|[|i]]] _; cbn; lra).
  assert (WC : working_column false col_two 100).
  { repeat split; try (cbn; lia); try (cbn; lra); try exact SK.
    all: destruct i as [|[|[|i]]]; cbn; try lia; try lra; auto. }
  destruct (C201_inlet_exhausts even_roots jac false op false col_two 100 (fun _ => 1) HG Hr B WC eq_refl ltac:(cbn; lia) ltac:(cbn; lra)) as (q & A & BB & Q1 & Q2 & Q3 & AP & BP & AL);
    [intros i _; repeat split; try reflexivity; discriminate|intros; lra|lra|].
  destruct (C168_fresh_bed_starts false col_two op 100 (fun _ _ => 1) 5) as (Tf & y & HT & TR & Y0); try (cbn; lia); try (cbn; lra); try assumption.
  - intros i _ t _ e He. exists 1. split; [lra|]. intros. rewrite Rminus_diag_eq by reflexivity. rewrite Rabs_R0. exact He.
  - intros. lra.
  - exists q, A, BB, Tf, y. split; [exact AP|]. split; [lra|]. split; [exact Q3|]. split; [reflexivity|]. split; [exact TR|]. split; [exact Y0|].
    apply (AL Tf y TR). intros [|k] K; [lia|]. cbn in K. split; [|split].
    + rewrite Y0 by (cbn; lia). cbn. lra.
    + intros i I. rewrite Y0 by (cbn in *; lia). destruct i; cbn; lra.
    + cbn. rewrite !Y0 by (cbn; lia). cbn. lra.
Qed.
