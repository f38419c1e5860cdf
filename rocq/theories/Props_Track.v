(** C202 — errors of the influent do not build up in the resin at the inlet. *)
From Coq Require Import Reals List Arith Bool Lra Lia.
From Verif Require Import Lib_Py Lib_Sum Lib_Traj S_Colloc S_Radial P_JacobiRoots.
From Verif Require Import M_IxEq S_IxEq M_IxColumn S_IxColumn S_Unique Props_Rest Props_Exhaust Props_IxColumn P_InletTwo P_L1 Props_InletTwo S_Approach Props_OnePoint P_Track.
Open Scope R_scope.

Lemma tracks_two : forall legendre jacobi ocfe op (psdm : bool) c th c0,
  jacobi_roots 2 1 (jacobi 1%nat (5 / 2) (3 / 2)) -> build_operators legendre jacobi (nr c) (nz c) ocfe = Ok op ->
  working_column psdm c th -> nr c = 2%nat -> (1 < NION c)%nat -> 0 < Qcap c -> 0 < c0 ->
  (* one film and one diffusion coefficient *)
  (forall i, (1 <= i < NION c)%nat -> kL c i = kL c 1%nat /\ Ds c i = Ds c 1%nat /\ (psdm = true -> Dp c i = Ds c 1%nat)) ->
  exists A B G, 0 < A /\ 0 < B /\ 0 < G /\ forall Cin Din Tf y x M eps,
    (forall T i, 0 < T < Tf -> (i < NION c)%nat -> 0 <= Cin T i /\ 0 <= Din T i) ->
    (forall T, 0 < T < Tf -> c0 <= rsum (NION c) (Cin T) <= M /\ c0 <= rsum (NION c) (Din T) <= M) ->
    (* two waters that never differ by more than eps *)
    0 <= eps -> (forall T, 0 < T < Tf -> rsum (NION c) (fun i => Rabs (Cin T i - Din T i)) <= eps) ->
    is_trajectory (nr c) (NION c) (nz c) (fun T u => rhs psdm c op th (Cin T) u) Tf y ->
    is_trajectory (nr c) (NION c) (nz c) (fun T u => rhs psdm c op th (Din T) u) Tf x ->
    loaded_inlet (nr c) (NION c) (Qcap c) (y 0) -> loaded_inlet (nr c) (NION c) (Qcap c) (x 0) ->
    forall T, 0 <= T <= Tf -> inlet_distance (nr c) (NION c) (y T) (x T) <= B * exp (- A * T) * inlet_distance (nr c) (NION c) (y 0) (x 0) + G * eps.
Proof.
  intros legendre jacobi ocfe op psdm c th c0 HJ BO WC N2 NI HQ HC0 SM.
  assert (SAME : forall i, (1 <= i < NION c)%nat -> kL c i = kL c 1%nat /\ Ds c i = Ds c 1%nat /\ (psdm = true -> Dp c i = Dp c 1%nat)).
  { intros i I. destruct (SM i I) as (S1 & S2 & S3). split; [exact S1|]. split; [exact S2|]. intros E. destruct (SM 1%nat ltac:(lia)) as (_ & _ & S4). rewrite S3, S4 by exact E. reflexivity. }
  assert (PS : pore_share psdm c = 0).
  { destruct (SM 1%nat ltac:(lia)) as (_ & _ & S4). unfold pore_share. clear - S4. destruct psdm; [rewrite S4 by reflexivity; ring|reflexivity]. }
  destruct (inlet_positive legendre jacobi ocfe op psdm c th HJ BO WC N2 NI) as (HH & BE & HW & _ & D1).
  assert (N0 : (0 < NION c)%nat) by lia. assert (NZ : (0 < nz c)%nat) by (destruct WC as (_ & _ & X & _); lia).
  assert (HK : forall i, (i < NION c)%nat -> 0 < cK psdm c i) by (intros i I; apply (cK_pos psdm c th); assumption).
  set (h := film_rate op c th) in *. set (be := core_rate op c th) in *. set (w := give_rate op c th) in *. set (de := Ds c 1%nat) in *.
  set (A := decay (NION c) (cK psdm c) (Qcap c) c0 h w be de). set (b := core_weight (NION c) (cK psdm c) (Qcap c) c0 h w be de).
  assert (AP : 0 < A) by (apply decay_pos; assumption). assert (BP : 0 < b) by (apply core_pos; assumption). assert (IB := Rinv_0_lt_compat _ BP).
  assert (GP : 0 < 2 * h / A) by (apply Rdiv_lt_0_compat; lra).
  exists A, ((1 + / b) * (1 + b)), ((1 + / b) * (2 * h / A)). split; [exact AP|]. split; [apply Rmult_lt_0_compat; lra|]. split; [apply Rmult_lt_0_compat; lra|].
  intros Cin0 Din Tf y x M eps HC2 HM2 EPS CD TY TX LY LX T HT. rewrite N2 in LY, LX.
  assert (FACTS : forall Cin v, (forall T i, 0 < T < Tf -> (i < NION c)%nat -> 0 <= Cin T i) -> (forall T, 0 < T < Tf -> c0 <= rsum (NION c) (Cin T) <= M) -> is_trajectory (nr c) (NION c) (nz c) (fun T u => rhs psdm c op th (Cin T) u) Tf v -> loaded_inlet 2 (NION c) (Qcap c) (v 0) ->
     (forall t, 0 <= t <= Tf -> kept (NION c) (surface_of v) (core_of v) t) /\ (forall t, 0 <= t <= Tf -> rsum (NION c) (rowx (surface_of v) t) = Qcap c) /\
     (forall t i, 0 < t < Tf -> (i < NION c)%nat -> rhs psdm c op th (Cin t) (v t) 2%nat i 0%nat = h * (Cin t i - shr (NION c) (val c) (cK psdm c) (rsum (NION c) (Cin t)) (rowx (surface_of v) t) i * surface_of v i t) - w * (de * (surface_of v i t - core_of v i t)) /\
        rhs psdm c op th (Cin t) (v t) 1%nat i 0%nat = be * (de * (surface_of v i t - core_of v i t)))).
  { intros Cin v HC HM TV LV.
    assert (K := C196_column_two_points_partial legendre jacobi ocfe op psdm c th Cin Tf v M HJ BO WC N2 NI SAME HC (fun t Ht => proj2 (HM t Ht)) TV (fun r i R I => proj1 (proj2 (LV r R)) i I) (fun r R => conj (proj1 (LV r R)) (proj2 (proj2 (LV r R))))).
    assert (KP : forall t, 0 <= t <= Tf -> kept (NION c) (surface_of v) (core_of v) t).
    { intros t Ht. destruct (K t 2%nat Ht ltac:(lia)) as (A2 & B2 & _). destruct (K t 1%nat Ht ltac:(lia)) as (A1 & B1 & _). split; [|split; [exact B2|exact B1]]. intros i I. split; [apply (A2 i I)|apply (A1 i I)]. }
    split; [exact KP|]. split; [intros t Ht; apply (K t 2%nat Ht ltac:(lia))|].
    intros t i Ht I. destruct (KP t ltac:(lra)) as (NN & P2 & P1). assert (CP : 0 <= rsum (NION c) (Cin t)) by (apply rsum_nonneg; intros j J; apply HC; assumption).
    assert (SY : sound (NION c) (val c) (cK psdm c) (rsum (NION c) (Cin t)) (rowx (surface_of v) t)) by (apply kept_sound; try assumption; [apply WC|intros j J; apply (NN j J)]).
    assert (SZ : sound (NION c) (val c) (cK psdm c) (rsum (NION c) (Cin t)) (rowx (core_of v) t)) by (apply kept_sound; try assumption; [apply WC|intros j J; apply (NN j J)]).
    destruct (inlet_rates legendre jacobi ocfe op psdm c th HJ BO WC N2 NI SAME Cin Tf v HC TV (fun r R => proj2 (proj2 (LV r R))) t i Ht I SY SZ) as (E1 & E2).
    rewrite E1, E2. unfold spd. rewrite PS. fold h w be de. split; ring. }
  destruct (FACTS Cin0 y (fun t i Ht I => proj1 (HC2 t i Ht I)) (fun t Ht => proj1 (HM2 t Ht)) TY LY) as (KY & SY & RY). destruct (FACTS Din x (fun t i Ht I => proj2 (HC2 t i Ht I)) (fun t Ht => proj2 (HM2 t Ht)) TX LX) as (KX & SX & RX).
  assert (AP1 := beads_track (NION c) (val c) (cK psdm c) (Qcap c) c0 h eps HK (proj2 (proj1 (proj2 (proj2 (proj2 (proj2 WC)))))) (proj1 (proj1 (proj2 (proj2 (proj2 (proj2 WC)))))) N0 HQ HC0 HH EPS Tf (surface_of y) (core_of y) (surface_of x) (core_of x) Cin0 Din
    (fun t Ht => proj1 (proj1 (HM2 t Ht))) (fun t Ht => Rle_trans _ _ _ (Rlt_le _ _ HC0) (proj1 (proj2 (HM2 t Ht)))) KY KX SY SX CD w be de HW BE D1
    (fun i t => rhs psdm c op th (Cin0 t) (y t) 2%nat i 0%nat) (fun i t => rhs psdm c op th (Din t) (x t) 2%nat i 0%nat) (fun i t => rhs psdm c op th (Cin0 t) (y t) 1%nat i 0%nat) (fun i t => rhs psdm c op th (Din t) (x t) 1%nat i 0%nat)
    (fun i I => TY 2%nat i 0%nat ltac:(lia) I NZ) (fun i I => TX 2%nat i 0%nat ltac:(lia) I NZ) (fun i I => TY 1%nat i 0%nat ltac:(lia) I NZ) (fun i I => TX 1%nat i 0%nat ltac:(lia) I NZ) RY RX T HT).
  fold A b in AP1. rewrite N2. unfold inlet_distance. cbn [rsum]. unfold surface_of, core_of in AP1. rewrite !rsum_plus, !rsum_scal in AP1.
  set (p := rsum (NION c) (fun i => Rabs (y T 2%nat i 0%nat - x T 2%nat i 0%nat))) in *. set (q := rsum (NION c) (fun i => Rabs (y T 1%nat i 0%nat - x T 1%nat i 0%nat))) in *.
  set (p0 := rsum (NION c) (fun i => Rabs (y 0 2%nat i 0%nat - x 0 2%nat i 0%nat))) in *. set (q0 := rsum (NION c) (fun i => Rabs (y 0 1%nat i 0%nat - x 0 1%nat i 0%nat))) in *.
  assert (P : 0 <= p) by (apply rsum_nonneg; intros; apply Rabs_pos). assert (Q : 0 <= q) by (apply rsum_nonneg; intros; apply Rabs_pos). assert (P0 : 0 <= p0) by (apply rsum_nonneg; intros; apply Rabs_pos). assert (Q0 : 0 <= q0) by (apply rsum_nonneg; intros; apply Rabs_pos).
  assert (E := exp_pos (- A * T)). set (e := exp (- A * T)) in *.
  assert (X1 : 0 + q + p <= (1 + / b) * (p + b * q)).
  { replace ((1 + / b) * (p + b * q)) with (p + q + (/ b * p + b * q)) by (field; lra). assert (0 <= / b * p) by (apply Rmult_le_pos; lra). assert (0 <= b * q) by (apply Rmult_le_pos; lra). lra. }
  assert (X2 : p0 + b * q0 <= (1 + b) * (0 + q0 + p0)).
  { replace ((1 + b) * (0 + q0 + p0)) with (p0 + b * q0 + (q0 + b * p0)) by ring. assert (0 <= b * p0) by (apply Rmult_le_pos; lra). lra. }
  eapply Rle_trans; [exact X1|]. apply Rle_trans with ((1 + / b) * (e * ((1 + b) * (0 + q0 + p0)) + 2 * h * eps / A)); [|right; field; lra]. apply Rmult_le_compat_l; [lra|]. eapply Rle_trans; [exact AP1|].
  apply Rplus_le_compat_r, Rmult_le_compat_l; lra.
Qed.

Lemma tracks_one : forall legendre jacobi ocfe op (psdm : bool) c th c0,
  jacobi_roots 2 0 (jacobi 0%nat (5 / 2) (3 / 2)) -> build_operators legendre jacobi (nr c) (nz c) ocfe = Ok op ->
  working_column psdm c th -> nr c = 1%nat -> (1 < NION c)%nat -> 0 < Qcap c -> 0 < c0 -> (forall i, (1 <= i < NION c)%nat -> kL c i = kL c 1%nat) ->
  exists A G, 0 < A /\ 0 < G /\ forall Cin Din Tf y x M eps,
    (forall T i, 0 < T < Tf -> (i < NION c)%nat -> 0 <= Cin T i /\ 0 <= Din T i) ->
    (forall T, 0 < T < Tf -> c0 <= rsum (NION c) (Cin T) <= M /\ c0 <= rsum (NION c) (Din T) <= M) ->
    0 <= eps -> (forall T, 0 < T < Tf -> rsum (NION c) (fun i => Rabs (Cin T i - Din T i)) <= eps) ->
    is_trajectory (nr c) (NION c) (nz c) (fun T u => rhs psdm c op th (Cin T) u) Tf y ->
    is_trajectory (nr c) (NION c) (nz c) (fun T u => rhs psdm c op th (Din T) u) Tf x ->
    loaded_inlet (nr c) (NION c) (Qcap c) (y 0) -> loaded_inlet (nr c) (NION c) (Qcap c) (x 0) ->
    forall T, 0 <= T <= Tf -> inlet_distance (nr c) (NION c) (y T) (x T) <= exp (- A * T) * inlet_distance (nr c) (NION c) (y 0) (x 0) + G * eps.
Proof.
  intros legendre jacobi ocfe op psdm c th c0 HJ BO WC N1 NI HQ HC0 SAME.
  assert (HH := one_positive legendre jacobi ocfe op psdm c th HJ BO WC N1 NI). assert (N0 : (0 < NION c)%nat) by lia. assert (NZ : (0 < nz c)%nat) by (destruct WC as (_ & _ & X & _); lia).
  assert (HK : forall i, (i < NION c)%nat -> 0 < cK psdm c i) by (intros i I; apply (cK_pos psdm c th); assumption).
  assert (KP := kap_pos (NION c) (cK psdm c) (Qcap c) c0 HK N0 HQ HC0). set (A := one_rate op c th * kap (NION c) (cK psdm c) (Qcap c) c0). assert (AP : 0 < A) by (apply Rmult_lt_0_compat; assumption).
  exists A, (2 * one_rate op c th / A). split; [exact AP|]. split; [apply Rdiv_lt_0_compat; lra|].
  intros Cin0 Din Tf y x M eps HC2 HM2 EPS CD TY TX LY LX T HT. rewrite N1 in LY, LX.
  assert (RATES : forall Cin v, (forall T i, 0 < T < Tf -> (i < NION c)%nat -> 0 <= Cin T i) -> (forall T, 0 < T < Tf -> c0 <= rsum (NION c) (Cin T) <= M) -> is_trajectory (nr c) (NION c) (nz c) (fun T u => rhs psdm c op th (Cin T) u) Tf v -> loaded_inlet 1 (NION c) (Qcap c) (v 0) ->
     (forall t, 0 <= t <= Tf -> kept (NION c) (only_of v) (only_of v) t) /\ forall t i, 0 < t < Tf -> (i < NION c)%nat ->
       rhs psdm c op th (Cin t) (v t) 1%nat i 0%nat = one_rate op c th * (Cin t i - shr (NION c) (val c) (cK psdm c) (rsum (NION c) (Cin t)) (rowx (only_of v) t) i * only_of v i t)).
  { intros Cin v HC HM TV LV. clear KP. assert (KP := one_kept legendre jacobi ocfe op psdm c th HJ BO WC N1 NI SAME Cin Tf v HC TV LV M (fun t Ht => proj2 (HM t Ht))). split; [exact KP|].
    intros t i Ht I. destruct (KP t ltac:(lra)) as (NN & P & _). apply (one_rates legendre jacobi ocfe op psdm c th HJ BO WC N1 NI SAME Cin Tf v HC); try assumption.
    apply kept_sound; try assumption; [apply WC|apply rsum_nonneg; intros j J; apply HC; assumption|intros j J; apply (NN j J)]. }
  destruct (RATES Cin0 y (fun t i Ht I => proj1 (HC2 t i Ht I)) (fun t Ht => proj1 (HM2 t Ht)) TY LY) as (KY & RY). destruct (RATES Din x (fun t i Ht I => proj2 (HC2 t i Ht I)) (fun t Ht => proj2 (HM2 t Ht)) TX LX) as (KX & RX).
  assert (AP1 := alone_tracks (NION c) (val c) (cK psdm c) (Qcap c) c0 (one_rate op c th) eps HK (proj2 (proj1 (proj2 (proj2 (proj2 (proj2 WC)))))) (proj1 (proj1 (proj2 (proj2 (proj2 (proj2 WC)))))) N0 HQ HC0 HH EPS Tf
    (only_of y) (only_of y) (only_of x) (only_of x) Cin0 Din (fun t Ht => proj1 (proj1 (HM2 t Ht))) (fun t Ht => Rle_trans _ _ _ (Rlt_le _ _ HC0) (proj1 (proj2 (HM2 t Ht)))) KY KX (one_total op psdm c th WC N1 NI Cin0 Tf y TY LY) (one_total op psdm c th WC N1 NI Din Tf x TX LX) CD
    (fun i t => rhs psdm c op th (Cin0 t) (y t) 1%nat i 0%nat) (fun i t => rhs psdm c op th (Din t) (x t) 1%nat i 0%nat) (fun i I => TY 1%nat i 0%nat ltac:(lia) I NZ) (fun i I => TX 1%nat i 0%nat ltac:(lia) I NZ) RY RX T HT).
  fold A in AP1. rewrite N1. unfold inlet_distance. cbn [rsum]. rewrite !Rplus_0_l. replace (2 * one_rate op c th / A * eps) with (2 * one_rate op c th * eps / A) by (field; lra). exact AP1.
Qed.

(** ** From any time on *)
Lemma evolves_later S T f f' : evolves 0 T f f' -> 0 <= S -> evolves 0 (T - S) (fun t => f (S + t)) (fun t => f' (S + t)).
Proof.
  intros (CO & DE) HS. split; intros t Ht.
  - apply (continuity_pt_comp (fun t => S + t) f); [apply continuity_pt_plus; [apply continuity_pt_const; intros x y; reflexivity|apply derivable_continuous_pt, derivable_pt_id]|apply CO; lra].
  - replace (f' (S + t)) with (f' (S + t) * (0 + 1)) by ring. apply (derivable_pt_lim_comp (fun t => S + t) f); [apply (derivable_pt_lim_plus (fun _ => S) (fun t => t)); [apply derivable_pt_lim_const|apply derivable_pt_lim_id]|apply DE; lra].
Qed.
Lemma trajectory_later nr n nz S T Tf (G : R -> (nat -> nat -> nat -> R) -> nat -> nat -> nat -> R) y : 0 <= S -> T <= Tf -> is_trajectory nr n nz G Tf y -> is_trajectory nr n nz (fun t u => G (S + t) u) (T - S) (fun t => y (S + t)).
Proof. intros HS HT TR r i z R I Z. apply (evolves_later S T (fun t => y t r i z) (fun t => G t (y t) r i z)); [|exact HS]. apply (evolves_sub 0 Tf); [exact HT|apply TR; assumption]. Qed.

Theorem C202_inlet_tracks : forall legendre jacobi ocfe op (psdm : bool) c th c0,
  jacobi_roots 2 1 (jacobi 1%nat (5 / 2) (3 / 2)) -> build_operators legendre jacobi (nr c) (nz c) ocfe = Ok op ->
  working_column psdm c th -> nr c = 2%nat -> (1 < NION c)%nat -> 0 < Qcap c -> 0 < c0 ->
  (* one film and one diffusion coefficient *)
  (forall i, (1 <= i < NION c)%nat -> kL c i = kL c 1%nat /\ Ds c i = Ds c 1%nat /\ (psdm = true -> Dp c i = Ds c 1%nat)) ->
  exists A B G, 0 < A /\ 0 < B /\ 0 < G /\ forall Cin Din Tf y x M,
    (forall T i, 0 < T < Tf -> (i < NION c)%nat -> 0 <= Cin T i /\ 0 <= Din T i) ->
    (forall T, 0 < T < Tf -> c0 <= rsum (NION c) (Cin T) <= M /\ c0 <= rsum (NION c) (Din T) <= M) ->
    is_trajectory (nr c) (NION c) (nz c) (fun T u => rhs psdm c op th (Cin T) u) Tf y ->
    is_trajectory (nr c) (NION c) (nz c) (fun T u => rhs psdm c op th (Din T) u) Tf x ->
    loaded_inlet (nr c) (NION c) (Qcap c) (y 0) -> loaded_inlet (nr c) (NION c) (Qcap c) (x 0) ->
    (* if from S to T the waters never differ by more than eps *)
    forall S T eps, 0 <= S <= T -> T <= Tf -> 0 <= eps -> (forall t, S < t < T -> rsum (NION c) (fun i => Rabs (Cin t i - Din t i)) <= eps) ->
    inlet_distance (nr c) (NION c) (y T) (x T) <= B * exp (- A * (T - S)) * inlet_distance (nr c) (NION c) (y S) (x S) + G * eps.
Proof.
  intros legendre jacobi ocfe op psdm c th c0 HJ BO WC N2 NI HQ HC0 SM.
  assert (SAME : forall i, (1 <= i < NION c)%nat -> kL c i = kL c 1%nat /\ Ds c i = Ds c 1%nat /\ (psdm = true -> Dp c i = Dp c 1%nat)).
  { intros i I. destruct (SM i I) as (S1 & S2 & S3). split; [exact S1|]. split; [exact S2|]. intros E. destruct (SM 1%nat ltac:(lia)) as (_ & _ & S4). rewrite S3, S4 by exact E. reflexivity. }
  destruct (tracks_two legendre jacobi ocfe op psdm c th c0 HJ BO WC N2 NI HQ HC0 SM) as (A & B & G & AP & BP & GP & AL). exists A, B, G. split; [exact AP|]. split; [exact BP|]. split; [exact GP|].
  intros Cin Din Tf y x M HC HM TY TX LY LX S T eps ST TF EPS CD.
  assert (LATER : forall W v, (forall t i, 0 < t < Tf -> (i < NION c)%nat -> 0 <= W t i) -> (forall t, 0 < t < Tf -> rsum (NION c) (W t) <= M) -> is_trajectory (nr c) (NION c) (nz c) (fun T u => rhs psdm c op th (W T) u) Tf v -> loaded_inlet (nr c) (NION c) (Qcap c) (v 0) -> loaded_inlet (nr c) (NION c) (Qcap c) (v (S + 0))).
  { intros W v HW HMW TV LV r R. rewrite N2 in LV, R. rewrite Rplus_0_r.
    destruct (C196_column_two_points_partial legendre jacobi ocfe op psdm c th W Tf v M HJ BO WC N2 NI SAME HW HMW TV (fun r i R I => proj1 (proj2 (LV r R)) i I) (fun r R => conj (proj1 (LV r R)) (proj2 (proj2 (LV r R)))) S r ltac:(lra) R) as (A1 & A2 & A3).
    split; [exact A2|]. split; [intros i I; apply (A1 i I)|exact A3]. }
  assert (X := AL (fun t => Cin (S + t)) (fun t => Din (S + t)) (T - S) (fun t => y (S + t)) (fun t => x (S + t)) M eps).
  replace T with (S + (T - S)) at 1 2 by ring. rewrite <- (Rplus_0_r S) at 6 7.
  apply X; try assumption; try lra.
  - intros t i Ht I. apply HC; [lra|exact I].
  - intros t Ht. apply HM. lra.
  - intros t Ht. apply CD. lra.
  - apply (trajectory_later _ _ _ S T Tf (fun T u => rhs psdm c op th (Cin T) u)); [lra|exact TF|exact TY].
  - apply (trajectory_later _ _ _ S T Tf (fun T u => rhs psdm c op th (Din T) u)); [lra|exact TF|exact TX].
  - apply (LATER Cin y (fun t i Ht I => proj1 (HC t i Ht I)) (fun t Ht => proj2 (proj1 (HM t Ht))) TY LY).
  - apply (LATER Din x (fun t i Ht I => proj2 (HC t i Ht I)) (fun t Ht => proj2 (proj2 (HM t Ht))) TX LX).
Qed.
Theorem C202_one_point_tracks : forall legendre jacobi ocfe op (psdm : bool) c th c0,
  jacobi_roots 2 0 (jacobi 0%nat (5 / 2) (3 / 2)) -> build_operators legendre jacobi (nr c) (nz c) ocfe = Ok op ->
  working_column psdm c th -> nr c = 1%nat -> (1 < NION c)%nat -> 0 < Qcap c -> 0 < c0 -> (forall i, (1 <= i < NION c)%nat -> kL c i = kL c 1%nat) ->
  exists A G, 0 < A /\ 0 < G /\ forall Cin Din Tf y x M,
    (forall T i, 0 < T < Tf -> (i < NION c)%nat -> 0 <= Cin T i /\ 0 <= Din T i) ->
    (forall T, 0 < T < Tf -> c0 <= rsum (NION c) (Cin T) <= M /\ c0 <= rsum (NION c) (Din T) <= M) ->
    is_trajectory (nr c) (NION c) (nz c) (fun T u => rhs psdm c op th (Cin T) u) Tf y ->
    is_trajectory (nr c) (NION c) (nz c) (fun T u => rhs psdm c op th (Din T) u) Tf x ->
    loaded_inlet (nr c) (NION c) (Qcap c) (y 0) -> loaded_inlet (nr c) (NION c) (Qcap c) (x 0) ->
    (* if from S to T the waters never differ by more than eps *)
    forall S T eps, 0 <= S <= T -> T <= Tf -> 0 <= eps -> (forall t, S < t < T -> rsum (NION c) (fun i => Rabs (Cin t i - Din t i)) <= eps) ->
    inlet_distance (nr c) (NION c) (y T) (x T) <= exp (- A * (T - S)) * inlet_distance (nr c) (NION c) (y S) (x S) + G * eps.
Proof.
  intros legendre jacobi ocfe op psdm c th c0 HJ BO WC N1 NI HQ HC0 SM.
  destruct (tracks_one legendre jacobi ocfe op psdm c th c0 HJ BO WC N1 NI HQ HC0 SM) as (A & G & AP & GP & AL). exists A, G. split; [exact AP|]. split; [exact GP|].
  intros Cin Din Tf y x M HC HM TY TX LY LX S T eps ST TF EPS CD.
  assert (LATER : forall W v, (forall t i, 0 < t < Tf -> (i < NION c)%nat -> 0 <= W t i) -> (forall t, 0 < t < Tf -> rsum (NION c) (W t) <= M) -> is_trajectory (nr c) (NION c) (nz c) (fun T u => rhs psdm c op th (W T) u) Tf v -> loaded_inlet (nr c) (NION c) (Qcap c) (v 0) -> loaded_inlet (nr c) (NION c) (Qcap c) (v (S + 0))).
  { intros W v HW HMW TV LV. rewrite Rplus_0_r. apply (C196_column_one_point_partial legendre jacobi ocfe op psdm c th W Tf v M); try assumption. lra. }
  assert (X := AL (fun t => Cin (S + t)) (fun t => Din (S + t)) (T - S) (fun t => y (S + t)) (fun t => x (S + t)) M eps).
  replace T with (S + (T - S)) at 1 2 by ring. rewrite <- (Rplus_0_r S) at 6 7.
  apply X; try assumption; try lra.
  - intros t i Ht I. apply HC; [lra|exact I].
  - intros t Ht. apply HM. lra.
  - intros t Ht. apply CD. lra.
  - apply (trajectory_later _ _ _ S T Tf (fun T u => rhs psdm c op th (Cin T) u)); [lra|exact TF|exact TY].
  - apply (trajectory_later _ _ _ S T Tf (fun T u => rhs psdm c op th (Din T) u)); [lra|exact TF|exact TX].
  - apply (LATER Cin y (fun t i Ht I => proj1 (HC t i Ht I)) (fun t Ht => proj2 (proj1 (HM t Ht))) TY LY).
  - apply (LATER Din x (fun t i Ht I => proj2 (HC t i Ht I)) (fun t Ht => proj2 (proj2 (HM t Ht))) TX LX).
Qed.
Print Assumptions C202_inlet_tracks.
Print Assumptions C202_one_point_tracks.

(** Chloride resin on two radial points fed chloride, nitrate and sulphate, all measured a tenth too high. *)
From Verif Require Import Props_Exist Props_Negative.
Example measured_too_high : exists jacobi op G Tf y x, 0 < G /\ 0 < Tf /\ build_operators even_roots jacobi 2 5 false = Ok op /\
  is_trajectory 2 3 5 (fun _ u => rhs false col_two op 100 (fun _ => 1) u) Tf y /\ is_trajectory 2 3 5 (fun _ u => rhs false col_two op 100 (fun _ => 11 / 10) u) Tf x /\
  same_state 2 3 5 (y 0) (initial_state col_two (fun _ => 1) None) /\
  forall T, 0 <= T <= Tf -> inlet_distance 2 3 (y T) (x T) <= G * (3 / 10).
Proof.
  destruct (jacobi_exist 2 1) as (r & Hr). set (jac := fun (m : nat) (_ _ : R) => match m with 1%nat => r | _ => even_roots m end). exists jac.
  destruct (build_operators even_roots jac 2 5 false) as [op|] eqn:B; [|discriminate B]. exists op.
  assert (SK : selectivities 3 (Kxc col_two)) by (intros [|[|[|i]]] _; cbn; lra).
  assert (WC : working_column false col_two 100).
  { repeat split; try (cbn; lia); try (cbn; lra); try exact SK.
    all: destruct i as [|[|[|i]]]; cbn; try lia; try lra; auto. }
  destruct (C202_inlet_tracks even_roots jac false op false col_two 100 3 Hr B WC eq_refl ltac:(cbn; lia) ltac:(cbn; lra) ltac:(lra)) as (A & BB & G & AP & BP & GP & AL);
    [intros i _; repeat split; try reflexivity; discriminate|].
  assert (RUN : forall a, 0 <= a -> exists Tf y, 0 < Tf <= 5 /\ is_trajectory (nr col_two) (NION col_two) (nz col_two) (fun _ u => rhs false col_two op 100 (fun _ => a) u) Tf y /\ same_state (nr col_two) (NION col_two) (nz col_two) (y 0) (initial_state col_two (fun _ => a) None)).
  { intros a Ha. apply (C168_fresh_bed_starts false col_two op 100 (fun _ _ => a) 5); try (cbn; lia); try (cbn; lra); try assumption.
    - intros i _ t _ e He. exists 1. split; [lra|]. intros. rewrite Rminus_diag_eq by reflexivity. rewrite Rabs_R0. exact He.
    - intros. lra. }
  destruct (RUN 1 ltac:(lra)) as (T1 & y & H1 & TY & Y0). destruct (RUN (11 / 10) ltac:(lra)) as (T2 & x & H2 & TX & X0). set (Tf := Rmin T1 T2). assert (M1 : Tf <= T1) by apply Rmin_l. assert (M2 : Tf <= T2) by apply Rmin_r. assert (M0 : 0 < Tf) by (apply Rmin_pos; lra).
  assert (TY' : is_trajectory (nr col_two) (NION col_two) (nz col_two) (fun _ u => rhs false col_two op 100 (fun _ => 1) u) Tf y) by (intros k i z K I Z; apply (evolves_sub 0 T1); [exact M1|apply TY; assumption]).
  assert (TX' : is_trajectory (nr col_two) (NION col_two) (nz col_two) (fun _ u => rhs false col_two op 100 (fun _ => 11 / 10) u) Tf x) by (intros k i z K I Z; apply (evolves_sub 0 T2); [exact M2|apply TX; assumption]).
  exists G, Tf, y, x. split; [exact GP|]. split; [exact M0|]. split; [reflexivity|]. split; [exact TY'|]. split; [exact TX'|]. split; [exact Y0|]. intros T HT.
  assert (LOAD : forall a v, same_state (nr col_two) (NION col_two) (nz col_two) (v 0) (initial_state col_two (fun _ => a) None) -> loaded_inlet 2 3 1400 (v 0)).
  { intros a v V0 [|k] K; [lia|]. split; [|split].
    - rewrite V0 by (cbn; lia). cbn. lra.
    - intros i I. rewrite V0 by (cbn in *; lia). destruct i; cbn; lra.
    - cbn. rewrite !V0 by (cbn; lia). cbn. lra. }
  assert (EPS : forall t, 0 < t < T -> rsum (NION col_two) (fun _ => Rabs (1 - 11 / 10)) <= 3 / 10) by (intros; cbn; rewrite Rabs_left by lra; lra).
  assert (X1 := AL (fun _ _ => 1) (fun _ _ => 11 / 10) Tf y x 4 ltac:(intros; lra) ltac:(intros; cbn; lra) TY' TX' (LOAD _ y Y0) (LOAD _ x X0) 0 T (3 / 10) ltac:(lra) ltac:(lra) ltac:(lra) EPS).
  assert (D0 : inlet_distance (nr col_two) (NION col_two) (y 0) (x 0) = 0).
  { unfold inlet_distance. apply rsum_zero. intros k K. apply rsum_zero. intros i I. rewrite Y0, X0 by (cbn in *; lia). replace (initial_state col_two (fun _ => 1) None (S k) i 0%nat) with (initial_state col_two (fun _ => 11 / 10) None (S k) i 0%nat) by reflexivity. rewrite Rminus_diag_eq by reflexivity. apply Rabs_R0. }
  rewrite D0, Rmult_0_r, Rplus_0_l in X1. exact X1.
Qed.
