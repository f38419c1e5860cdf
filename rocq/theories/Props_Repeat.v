(** C203 — water that repeats itself makes the resin at the inlet repeat itself. *)
From Coq Require Import Reals List Arith Bool Lra Lia.
From Verif Require Import Lib_Py Lib_Sum Lib_Traj S_Colloc S_Radial P_JacobiRoots.
From Verif Require Import M_IxEq S_IxEq M_IxColumn S_IxColumn S_Unique Props_Rest Props_Exhaust Props_IxColumn P_InletTwo P_L1 Props_InletTwo S_Approach Props_OnePoint P_Track Props_Track.
Open Scope R_scope.

Theorem C203_inlet_repeats : forall legendre jacobi ocfe op (psdm : bool) c th c0,
  jacobi_roots 2 1 (jacobi 1%nat (5 / 2) (3 / 2)) -> build_operators legendre jacobi (nr c) (nz c) ocfe = Ok op ->
  working_column psdm c th -> nr c = 2%nat -> (1 < NION c)%nat -> 0 < Qcap c -> 0 < c0 ->
  (* one film and one diffusion coefficient *)
  (forall i, (1 <= i < NION c)%nat -> kL c i = kL c 1%nat /\ Ds c i = Ds c 1%nat /\ (psdm = true -> Dp c i = Ds c 1%nat)) ->
  exists A B G, 0 < A /\ 0 < B /\ 0 < G /\ forall Cin Tf y M,
    (forall T i, 0 < T < Tf -> (i < NION c)%nat -> 0 <= Cin T i) -> (forall T, 0 < T < Tf -> c0 <= rsum (NION c) (Cin T) <= M) ->
    is_trajectory (nr c) (NION c) (nz c) (fun T u => rhs psdm c op th (Cin T) u) Tf y -> loaded_inlet (nr c) (NION c) (Qcap c) (y 0) ->
    (* if from S to T the water is within eps what it is a period later *)
    forall P S T eps, 0 <= P -> 0 <= S <= T -> T + P <= Tf -> 0 <= eps -> (forall t, S < t < T -> rsum (NION c) (fun i => Rabs (Cin (t + P) i - Cin t i)) <= eps) ->
    inlet_distance (nr c) (NION c) (y (T + P)) (y T) <= B * exp (- A * (T - S)) + G * eps.
Proof.
  intros legendre jacobi ocfe op psdm c th c0 HJ BO WC NR NI HQ HC0 SM.
  destruct (C202_inlet_tracks legendre jacobi ocfe op psdm c th c0 HJ BO WC NR NI HQ HC0 SM) as (A & B & G & AP & BP & GP & AL).
  exists A, (B * (4 * Qcap c)), G. split; [exact AP|]. split; [apply Rmult_lt_0_compat; lra|]. split; [exact GP|].
  intros Cin Tf y M HW HM TY LY P S T eps HP ST TF EPS CD.
  assert (LS : forall s, 0 <= s <= Tf -> loaded_inlet (nr c) (NION c) (Qcap c) (y s)).
  { intros s Hs. intros r' R'. rewrite NR in LY, R'.
    assert (SAME : forall i, (1 <= i < NION c)%nat -> kL c i = kL c 1%nat /\ Ds c i = Ds c 1%nat /\ (psdm = true -> Dp c i = Dp c 1%nat)).
    { intros j J. destruct (SM j J) as (S1 & S2 & S3). split; [exact S1|]. split; [exact S2|]. intros E. destruct (SM 1%nat ltac:(lia)) as (_ & _ & S4). rewrite S3, S4 by exact E. reflexivity. }
    destruct (C196_column_two_points_partial legendre jacobi ocfe op psdm c th Cin Tf y M HJ BO WC NR NI SAME HW (fun t Ht => proj2 (HM t Ht)) TY (fun r i R I => proj1 (proj2 (LY r R)) i I) (fun r R => conj (proj1 (LY r R)) (proj2 (proj2 (LY r R)))) s r' Hs R') as (A1 & A2 & A3).
    split; [exact A2|]. split; [intros j J; apply (A1 j J)|exact A3]. }
  assert (TX : is_trajectory (nr c) (NION c) (nz c) (fun T u => rhs psdm c op th (Cin (P + T)) u) (Tf - P) (fun t => y (P + t))) by (apply (trajectory_later _ _ _ P Tf Tf (fun T u => rhs psdm c op th (Cin T) u)); [exact HP|lra|exact TY]).
  assert (TY' : is_trajectory (nr c) (NION c) (nz c) (fun T u => rhs psdm c op th (Cin T) u) (Tf - P) y) by (intros k j z K J ZZ; apply (evolves_sub 0 Tf); [lra|apply TY; assumption]).
  assert (D : inlet_distance (nr c) (NION c) (y (P + T)) (y T) <= B * exp (- A * (T - S)) * inlet_distance (nr c) (NION c) (y (P + S)) (y S) + G * eps).
  { apply (AL (fun t => Cin (P + t)) Cin (Tf - P) (fun t => y (P + t)) y M); try assumption; try lra.
    - intros t j Ht J. split; apply HW; (lra || exact J).
    - intros t Ht. split; apply HM; lra.
    - apply LS. lra.
    - intros t Ht. rewrite (Rplus_comm P t). apply CD. exact Ht. }
  assert (TOTAL : inlet_distance (nr c) (NION c) (y (P + S)) (y S) <= 4 * Qcap c).
  { assert (LP := LS (P + S) ltac:(lra)). assert (L0 := LS S ltac:(lra)). rewrite NR in *. unfold inlet_distance. cbn [rsum].
    assert (ONE : forall k, (1 <= k <= 2)%nat -> rsum (NION c) (fun j => Rabs (y (P + S) k j 0%nat - y S k j 0%nat)) <= 2 * Qcap c).
    { intros k K. destruct (LP k K) as (_ & Y1 & Y2). destruct (L0 k K) as (_ & X1 & X2). replace (2 * Qcap c) with (rsum (NION c) (fun j => y (P + S) k j 0%nat) + rsum (NION c) (fun j => y S k j 0%nat)) by lra. rewrite <- rsum_plus.
      apply rsum_le. intros j J. assert (P1 := Y1 j J). assert (P2 := X1 j J). apply Rabs_le. lra. }
    assert (X := ONE 1%nat ltac:(lia)). assert (X' := ONE 2%nat ltac:(lia)). lra. }
  rewrite (Rplus_comm T P). eapply Rle_trans; [exact D|]. apply Rplus_le_compat_r. rewrite (Rmult_assoc B (4 * Qcap c)), (Rmult_assoc B (exp (- A * (T - S)))). apply Rmult_le_compat_l; [lra|]. rewrite Rmult_comm. apply Rmult_le_compat_r; [left; apply exp_pos|exact TOTAL].
Qed.
Print Assumptions C203_inlet_repeats.

Theorem C203_one_point_repeats : forall legendre jacobi ocfe op (psdm : bool) c th c0,
  jacobi_roots 2 0 (jacobi 0%nat (5 / 2) (3 / 2)) -> build_operators legendre jacobi (nr c) (nz c) ocfe = Ok op ->
  working_column psdm c th -> nr c = 1%nat -> (1 < NION c)%nat -> 0 < Qcap c -> 0 < c0 ->
  (forall i, (1 <= i < NION c)%nat -> kL c i = kL c 1%nat) ->
  exists A B G, 0 < A /\ 0 < B /\ 0 < G /\ forall Cin Tf y M,
    (forall T i, 0 < T < Tf -> (i < NION c)%nat -> 0 <= Cin T i) -> (forall T, 0 < T < Tf -> c0 <= rsum (NION c) (Cin T) <= M) ->
    is_trajectory (nr c) (NION c) (nz c) (fun T u => rhs psdm c op th (Cin T) u) Tf y -> loaded_inlet (nr c) (NION c) (Qcap c) (y 0) ->
    (* if from S to T the water is within eps what it is a period later *)
    forall P S T eps, 0 <= P -> 0 <= S <= T -> T + P <= Tf -> 0 <= eps -> (forall t, S < t < T -> rsum (NION c) (fun i => Rabs (Cin (t + P) i - Cin t i)) <= eps) ->
    inlet_distance (nr c) (NION c) (y (T + P)) (y T) <= B * exp (- A * (T - S)) + G * eps.
Proof.
  intros legendre jacobi ocfe op psdm c th c0 HJ BO WC NR NI HQ HC0 SM.
  destruct (C202_one_point_tracks legendre jacobi ocfe op psdm c th c0 HJ BO WC NR NI HQ HC0 SM) as (A & G & AP & GP & AL).
  set (B := 1). assert (BP : 0 < B) by (unfold B; lra).
  exists A, (B * (2 * Qcap c)), G. split; [exact AP|]. split; [apply Rmult_lt_0_compat; lra|]. split; [exact GP|].
  intros Cin Tf y M HW HM TY LY P S T eps HP ST TF EPS CD.
  assert (LS : forall s, 0 <= s <= Tf -> loaded_inlet (nr c) (NION c) (Qcap c) (y s)).
  { intros s Hs. apply (C196_column_one_point_partial legendre jacobi ocfe op psdm c th Cin Tf y M); try assumption; try lra. intros t Ht. apply (HM t Ht). }
  assert (TX : is_trajectory (nr c) (NION c) (nz c) (fun T u => rhs psdm c op th (Cin (P + T)) u) (Tf - P) (fun t => y (P + t))) by (apply (trajectory_later _ _ _ P Tf Tf (fun T u => rhs psdm c op th (Cin T) u)); [exact HP|lra|exact TY]).
  assert (TY' : is_trajectory (nr c) (NION c) (nz c) (fun T u => rhs psdm c op th (Cin T) u) (Tf - P) y) by (intros k j z K J ZZ; apply (evolves_sub 0 Tf); [lra|apply TY; assumption]).
  assert (D : inlet_distance (nr c) (NION c) (y (P + T)) (y T) <= B * exp (- A * (T - S)) * inlet_distance (nr c) (NION c) (y (P + S)) (y S) + G * eps).
  { unfold B; rewrite Rmult_1_l; apply (AL (fun t => Cin (P + t)) Cin (Tf - P) (fun t => y (P + t)) y M); try assumption; try lra.
    - intros t j Ht J. split; apply HW; (lra || exact J).
    - intros t Ht. split; apply HM; lra.
    - apply LS. lra.
    - intros t Ht. rewrite (Rplus_comm P t). apply CD. exact Ht. }
  assert (TOTAL : inlet_distance (nr c) (NION c) (y (P + S)) (y S) <= 2 * Qcap c).
  { assert (LP := LS (P + S) ltac:(lra)). assert (L0 := LS S ltac:(lra)). rewrite NR in *. unfold inlet_distance. cbn [rsum].
    assert (ONE : forall k, (1 <= k <= 1)%nat -> rsum (NION c) (fun j => Rabs (y (P + S) k j 0%nat - y S k j 0%nat)) <= 2 * Qcap c).
    { intros k K. destruct (LP k K) as (_ & Y1 & Y2). destruct (L0 k K) as (_ & X1 & X2). replace (2 * Qcap c) with (rsum (NION c) (fun j => y (P + S) k j 0%nat) + rsum (NION c) (fun j => y S k j 0%nat)) by lra. rewrite <- rsum_plus.
      apply rsum_le. intros j J. assert (P1 := Y1 j J). assert (P2 := X1 j J). apply Rabs_le. lra. }
    assert (X := ONE 1%nat ltac:(lia)). lra. }
  rewrite (Rplus_comm T P). eapply Rle_trans; [exact D|]. apply Rplus_le_compat_r. rewrite (Rmult_assoc B (2 * Qcap c)), (Rmult_assoc B (exp (- A * (T - S)))). apply Rmult_le_compat_l; [lra|]. rewrite Rmult_comm. apply Rmult_le_compat_r; [left; apply exp_pos|exact TOTAL].
Qed.
Print Assumptions C203_one_point_repeats.

(** Chloride resin on two radial points while the water comes down from 1.1 towards 1 meq/L of chloride, nitrate and sulphate: over any stretch of length P the inlet loadings change by little more than the water does. *)
From Verif Require Import Props_Exist Props_Negative.
Example drifting_water : exists jacobi op A B G Tf y, 0 < A /\ 0 < Tf <= 5 /\
  build_operators even_roots jacobi 2 5 false = Ok op /\ is_trajectory 2 3 5 (fun t u => rhs false col_two op 100 (fun _ => 1 + (5 - t) / 50) u) Tf y /\ same_state 2 3 5 (y 0) (initial_state col_two (fun _ => 1 + (5 - 0) / 50) None) /\
  forall P T, 0 <= P -> 0 <= T -> T + P <= Tf -> inlet_distance 2 3 (y (T + P)) (y T) <= B * exp (- A * (T - 0)) + G * (3 * (P / 50)).
Proof.
  destruct (jacobi_exist 2 1) as (r & Hr). set (jac := fun (m : nat) (_ _ : R) => match m with 1%nat => r | _ => even_roots m end). exists jac.
  destruct (build_operators even_roots jac 2 5 false) as [op|] eqn:B; [|discriminate B]. exists op.
  assert (SK : selectivities 3 (Kxc col_two)) by (intros [|[|[|i]]] _; cbn; lra).
  assert (WC : working_column false col_two 100).
  { repeat split; try (cbn; lia); try (cbn; lra); try exact SK.
    all: destruct i as [|[|[|i]]]; cbn; try lia; try lra; auto. }
  destruct (C203_inlet_repeats even_roots jac false op false col_two 100 3 Hr B WC eq_refl ltac:(cbn; lia) ltac:(cbn; lra) ltac:(lra)) as (A & BB & G & AP & BP & GP & AB);
    [intros i _; repeat split; try reflexivity; discriminate|].
  destruct (C168_fresh_bed_starts false col_two op 100 (fun t _ => 1 + (5 - t) / 50) 5) as (Tf & y & HT & TR & Y0); try (cbn; lia); try (cbn; lra); try assumption.
  - intros i _ t _ e He. exists e. split; [exact He|]. intros s _ D. replace (1 + (5 - s) / 50 - (1 + (5 - t) / 50)) with (- ((s - t) / 50)) by field. rewrite Rabs_Ropp. unfold Rdiv. rewrite Rabs_mult, (Rabs_right (/ 50)) by lra. assert (X := Rabs_pos (s - t)). lra.
  - intros. lra.
  - exists A, BB, G, Tf, y. split; [exact AP|]. split; [exact HT|]. split; [reflexivity|]. split; [exact TR|]. split; [exact Y0|].
    intros P T HP H0 TF.
    assert (LOAD : loaded_inlet (nr col_two) (NION col_two) (Qcap col_two) (y 0)).
    { intros [|j] J; [lia|]. cbn in J. split; [|split].
      - rewrite Y0 by (cbn; lia). cbn. lra.
      - intros h H. rewrite Y0 by (cbn in *; lia). destruct h; cbn; lra.
      - cbn. rewrite !Y0 by (cbn; lia). cbn. lra. }
    apply (AB (fun t _ => 1 + (5 - t) / 50) Tf y 4); try assumption; try lra.
    + intros. lra.
    + intros t Ht. cbn. lra.
    + intros t Ht. cbn. replace (1 + (5 - (t + P)) / 50 - (1 + (5 - t) / 50)) with (- (P / 50)) by field. rewrite Rabs_Ropp, Rabs_right by lra. lra.
Qed.
