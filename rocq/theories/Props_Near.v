(** C202 — near equilibrium with water that is nearly constant. *)
From Coq Require Import Reals List Arith Bool Lra Lia.
From Verif Require Import Lib_Py Lib_Sum Lib_Traj S_Colloc S_Radial P_JacobiRoots.
From Verif Require Import M_IxEq S_IxEq M_IxColumn S_IxColumn S_Unique Props_Rest Props_Exhaust Props_IxColumn P_InletTwo P_L1 Props_InletTwo S_Approach Props_Approach Props_OnePoint P_Track Props_Track.
Open Scope R_scope.

Theorem C202_inlet_near_equilibrium : forall legendre jacobi ocfe op (psdm : bool) c th C,
  good_roots legendre jacobi -> jacobi_roots 2 1 (jacobi 1%nat (5 / 2) (3 / 2)) -> build_operators legendre jacobi (nr c) (nz c) ocfe = Ok op ->
  working_column psdm c th -> nr c = 2%nat -> (1 < NION c)%nat -> 0 < Qcap c ->
  (forall i, (1 <= i < NION c)%nat -> kL c i = kL c 1%nat /\ Ds c i = Ds c 1%nat /\ (psdm = true -> Dp c i = Ds c 1%nat)) ->
  (* a composition of the water, with some presaturant *)
  (forall i, (i < NION c)%nat -> 0 <= C i) -> 0 < C 0%nat ->
  (* one composition of the resin, of the capacity and in equilibrium with it *)
  exists q, (forall i, (i < NION c)%nat -> 0 <= q i) /\ rsum (NION c) q = Qcap c /\ in_equilibrium (NION c) (Kxc c) (val c) (fun i => q i / theta psdm c) C /\
    forall c0, 0 < c0 -> exists A B G, 0 < A /\ 0 < B /\ 0 < G /\ forall Cin Tf y M,
    (forall T i, 0 < T < Tf -> (i < NION c)%nat -> 0 <= Cin T i) -> (forall T, 0 < T < Tf -> c0 <= rsum (NION c) (Cin T) <= M) ->
    is_trajectory (nr c) (NION c) (nz c) (fun T u => rhs psdm c op th (Cin T) u) Tf y -> loaded_inlet (nr c) (NION c) (Qcap c) (y 0) ->
    (* if from S to T the water is that within eps *)
    forall S T eps, 0 <= S <= T -> T <= Tf -> 0 <= eps -> (forall t, S < t < T -> rsum (NION c) (fun i => Rabs (Cin t i - C i)) <= eps) ->
    forall r i, (1 <= r <= nr c)%nat -> (i < NION c)%nat -> Rabs (y T r i 0%nat - q i) <= B * exp (- A * (T - S)) + G * eps.
Proof.
  intros legendre jacobi ocfe op psdm c th C HG HJ BO WC NR NI HQ SM HC C0.
  assert (N0 : (0 < NION c)%nat) by lia. assert (NZ : (0 < nz c)%nat) by (destruct WC as (_ & _ & X & _); lia).
  assert (CT : 0 < rsum (NION c) C) by (apply (rsum_pos_one _ _ 0%nat N0); assumption).
  destruct (proj2 (C194_ion_column legendre jacobi ocfe op psdm c th C (Qcap c) HG BO WC HC CT HQ) C0) as (u & RC & AR).
  destruct (C192_ion_column legendre jacobi ocfe op psdm c th C u (Qcap c) HG BO WC HC CT RC AR) as (_ & UN & EQ).
  destruct (RC 0%nat 0%nat ltac:(lia) NZ) as (_ & U1 & U2).
  exists (fun i => u 1%nat i 0%nat). split; [exact U1|]. split; [exact U2|]. split; [exact (EQ 0%nat 0%nat ltac:(lia) NZ)|].
  intros c0 HC0. set (c1 := Rmin c0 (rsum (NION c) C)). assert (C1 : 0 < c1) by (apply Rmin_pos; assumption). assert (C2 : c1 <= c0) by apply Rmin_l. assert (C3 : c1 <= rsum (NION c) C) by apply Rmin_r.
  destruct (C202_inlet_tracks legendre jacobi ocfe op psdm c th c1 HJ BO WC NR NI HQ C1 SM) as (A & B & G & AP & BP & GP & AL).
  exists A, (B * (4 * Qcap c)), G. split; [exact AP|]. split; [apply Rmult_lt_0_compat; lra|]. split; [exact GP|].
  intros Cin Tf y M HW HM TY LY S T eps ST TF EPS CD r i R I.
  assert (LX : loaded_inlet (nr c) (NION c) (Qcap c) u) by (intros [|k] K; [lia|apply (RC k 0%nat); [lia|exact NZ]]).
  assert (TX : is_trajectory (nr c) (NION c) (nz c) (fun T u => rhs psdm c op th C u) Tf (fun _ => u)).
  { intros k j z K J ZZ. apply (evolves_ext 0 Tf (fun _ => u k j z) _ (fun _ => 0)); [reflexivity|intros t _; symmetry; apply AR; assumption|apply evolves_const]. }
  set (M1 := Rmax M (rsum (NION c) C)). assert (M2 : M <= M1) by apply Rmax_l. assert (M3 : rsum (NION c) C <= M1) by apply Rmax_r.
  assert (D : inlet_distance (nr c) (NION c) (y T) u <= B * exp (- A * (T - S)) * inlet_distance (nr c) (NION c) (y S) u + G * eps).
  { apply (AL Cin (fun _ => C) Tf y (fun _ => u) M1); try assumption.
    - intros t j Ht J. split; [apply HW; assumption|apply HC; exact J].
    - intros t Ht. destruct (HM t Ht). lra. }
  assert (LS : loaded_inlet (nr c) (NION c) (Qcap c) (y S)).
  { intros r' R'. rewrite NR in LY, R'.
    assert (SAME : forall i, (1 <= i < NION c)%nat -> kL c i = kL c 1%nat /\ Ds c i = Ds c 1%nat /\ (psdm = true -> Dp c i = Dp c 1%nat)).
    { intros j J. destruct (SM j J) as (S1 & S2 & S3). split; [exact S1|]. split; [exact S2|]. intros E. destruct (SM 1%nat ltac:(lia)) as (_ & _ & S4). rewrite S3, S4 by exact E. reflexivity. }
    destruct (C196_column_two_points_partial legendre jacobi ocfe op psdm c th Cin Tf y M HJ BO WC NR NI SAME HW (fun t Ht => proj2 (HM t Ht)) TY (fun r i R I => proj1 (proj2 (LY r R)) i I) (fun r R => conj (proj1 (LY r R)) (proj2 (proj2 (LY r R)))) S r' ltac:(lra) R') as (A1 & A2 & A3).
    split; [exact A2|]. split; [intros j J; apply (A1 j J)|exact A3]. }
  assert (TOTAL : inlet_distance (nr c) (NION c) (y S) u <= 4 * Qcap c).
  { rewrite NR in *. unfold inlet_distance. cbn [rsum].
    assert (ONE : forall k, (1 <= k <= 2)%nat -> rsum (NION c) (fun j => Rabs (y S k j 0%nat - u k j 0%nat)) <= 2 * Qcap c).
    { intros k K. destruct (LS k K) as (_ & Y1 & Y2). destruct (LX k K) as (_ & X1 & X2). replace (2 * Qcap c) with (rsum (NION c) (fun j => y S k j 0%nat) + rsum (NION c) (fun j => u k j 0%nat)) by lra. rewrite <- rsum_plus.
      apply rsum_le. intros j J. assert (P1 := Y1 j J). assert (P2 := X1 j J). apply Rabs_le. lra. }
    assert (X := ONE 1%nat ltac:(lia)). assert (X' := ONE 2%nat ltac:(lia)). lra. }
  assert (TERM : Rabs (y T r i 0%nat - u 1%nat i 0%nat) <= inlet_distance (nr c) (NION c) (y T) u).
  { destruct r as [|r]; [lia|]. rewrite (UN 0%nat r i 0%nat 0%nat ltac:(lia) ltac:(lia) I NZ NZ). unfold inlet_distance.
    eapply Rle_trans; [|apply (P_EntropyDv.one_le (nr c) (fun r => rsum (NION c) (fun i => Rabs (y T (Datatypes.S r) i 0%nat - u (Datatypes.S r) i 0%nat))) r ltac:(lia))].
    - apply (P_EntropyDv.one_le (NION c) (fun i => Rabs (y T (Datatypes.S r) i 0%nat - u (Datatypes.S r) i 0%nat)) i I). intros; apply Rabs_pos.
    - intros; apply rsum_nonneg; intros; apply Rabs_pos. }
  eapply Rle_trans; [exact TERM|]. eapply Rle_trans; [exact D|]. apply Rplus_le_compat_r. rewrite (Rmult_assoc B (4 * Qcap c)), (Rmult_assoc B (exp (- A * (T - S)))). apply Rmult_le_compat_l; [lra|]. rewrite Rmult_comm. apply Rmult_le_compat_r; [left; apply exp_pos|exact TOTAL].
Qed.
Print Assumptions C202_inlet_near_equilibrium.

Theorem C202_one_point_near_equilibrium : forall legendre jacobi ocfe op (psdm : bool) c th C,
  good_roots legendre jacobi -> jacobi_roots 2 0 (jacobi 0%nat (5 / 2) (3 / 2)) -> build_operators legendre jacobi (nr c) (nz c) ocfe = Ok op ->
  working_column psdm c th -> nr c = 1%nat -> (1 < NION c)%nat -> 0 < Qcap c ->
  (forall i, (1 <= i < NION c)%nat -> kL c i = kL c 1%nat) ->
  (* a composition of the water, with some presaturant *)
  (forall i, (i < NION c)%nat -> 0 <= C i) -> 0 < C 0%nat ->
  (* one composition of the resin, of the capacity and in equilibrium with it *)
  exists q, (forall i, (i < NION c)%nat -> 0 <= q i) /\ rsum (NION c) q = Qcap c /\ in_equilibrium (NION c) (Kxc c) (val c) (fun i => q i / theta psdm c) C /\
    forall c0, 0 < c0 -> exists A B G, 0 < A /\ 0 < B /\ 0 < G /\ forall Cin Tf y M,
    (forall T i, 0 < T < Tf -> (i < NION c)%nat -> 0 <= Cin T i) -> (forall T, 0 < T < Tf -> c0 <= rsum (NION c) (Cin T) <= M) ->
    is_trajectory (nr c) (NION c) (nz c) (fun T u => rhs psdm c op th (Cin T) u) Tf y -> loaded_inlet (nr c) (NION c) (Qcap c) (y 0) ->
    (* if from S to T the water is that within eps *)
    forall S T eps, 0 <= S <= T -> T <= Tf -> 0 <= eps -> (forall t, S < t < T -> rsum (NION c) (fun i => Rabs (Cin t i - C i)) <= eps) ->
    forall r i, (1 <= r <= nr c)%nat -> (i < NION c)%nat -> Rabs (y T r i 0%nat - q i) <= B * exp (- A * (T - S)) + G * eps.
Proof.
  intros legendre jacobi ocfe op psdm c th C HG HJ BO WC NR NI HQ SM HC C0.
  assert (N0 : (0 < NION c)%nat) by lia. assert (NZ : (0 < nz c)%nat) by (destruct WC as (_ & _ & X & _); lia).
  assert (CT : 0 < rsum (NION c) C) by (apply (rsum_pos_one _ _ 0%nat N0); assumption).
  destruct (proj2 (C194_ion_column legendre jacobi ocfe op psdm c th C (Qcap c) HG BO WC HC CT HQ) C0) as (u & RC & AR).
  destruct (C192_ion_column legendre jacobi ocfe op psdm c th C u (Qcap c) HG BO WC HC CT RC AR) as (_ & UN & EQ).
  destruct (RC 0%nat 0%nat ltac:(lia) NZ) as (_ & U1 & U2).
  exists (fun i => u 1%nat i 0%nat). split; [exact U1|]. split; [exact U2|]. split; [exact (EQ 0%nat 0%nat ltac:(lia) NZ)|].
  intros c0 HC0. set (c1 := Rmin c0 (rsum (NION c) C)). assert (C1 : 0 < c1) by (apply Rmin_pos; assumption). assert (C2 : c1 <= c0) by apply Rmin_l. assert (C3 : c1 <= rsum (NION c) C) by apply Rmin_r.
  destruct (C202_one_point_tracks legendre jacobi ocfe op psdm c th c1 HJ BO WC NR NI HQ C1 SM) as (A & G & AP & GP & AL').
  set (B := 1). assert (BP : 0 < B) by (unfold B; lra).
  exists A, (B * (2 * Qcap c)), G. split; [exact AP|]. split; [apply Rmult_lt_0_compat; lra|]. split; [exact GP|].
  intros Cin Tf y M HW HM TY LY S T eps ST TF EPS CD r i R I.
  assert (LX : loaded_inlet (nr c) (NION c) (Qcap c) u) by (intros [|k] K; [lia|apply (RC k 0%nat); [lia|exact NZ]]).
  assert (TX : is_trajectory (nr c) (NION c) (nz c) (fun T u => rhs psdm c op th C u) Tf (fun _ => u)).
  { intros k j z K J ZZ. apply (evolves_ext 0 Tf (fun _ => u k j z) _ (fun _ => 0)); [reflexivity|intros t _; symmetry; apply AR; assumption|apply evolves_const]. }
  set (M1 := Rmax M (rsum (NION c) C)). assert (M2 : M <= M1) by apply Rmax_l. assert (M3 : rsum (NION c) C <= M1) by apply Rmax_r.
  assert (D : inlet_distance (nr c) (NION c) (y T) u <= B * exp (- A * (T - S)) * inlet_distance (nr c) (NION c) (y S) u + G * eps).
  { unfold B. rewrite Rmult_1_l. apply (AL' Cin (fun _ => C) Tf y (fun _ => u) M1); try assumption.
    - intros t j Ht J. split; [apply HW; assumption|apply HC; exact J].
    - intros t Ht. destruct (HM t Ht). lra. }
  assert (LS : loaded_inlet (nr c) (NION c) (Qcap c) (y S)).
  { apply (C196_column_one_point_partial legendre jacobi ocfe op psdm c th Cin Tf y M); try assumption; try lra. intros t Ht. apply (HM t Ht). }
  assert (TOTAL : inlet_distance (nr c) (NION c) (y S) u <= 2 * Qcap c).
  { rewrite NR in *. unfold inlet_distance. cbn [rsum].
    assert (ONE : forall k, (1 <= k <= 1)%nat -> rsum (NION c) (fun j => Rabs (y S k j 0%nat - u k j 0%nat)) <= 2 * Qcap c).
    { intros k K. destruct (LS k K) as (_ & Y1 & Y2). destruct (LX k K) as (_ & X1 & X2). replace (2 * Qcap c) with (rsum (NION c) (fun j => y S k j 0%nat) + rsum (NION c) (fun j => u k j 0%nat)) by lra. rewrite <- rsum_plus.
      apply rsum_le. intros j J. assert (P1 := Y1 j J). assert (P2 := X1 j J). apply Rabs_le. lra. }
    assert (X := ONE 1%nat ltac:(lia)). lra. }
  assert (TERM : Rabs (y T r i 0%nat - u 1%nat i 0%nat) <= inlet_distance (nr c) (NION c) (y T) u).
  { destruct r as [|r]; [lia|]. rewrite (UN 0%nat r i 0%nat 0%nat ltac:(lia) ltac:(lia) I NZ NZ). unfold inlet_distance.
    eapply Rle_trans; [|apply (P_EntropyDv.one_le (nr c) (fun r => rsum (NION c) (fun i => Rabs (y T (Datatypes.S r) i 0%nat - u (Datatypes.S r) i 0%nat))) r ltac:(lia))].
    - apply (P_EntropyDv.one_le (NION c) (fun i => Rabs (y T (Datatypes.S r) i 0%nat - u (Datatypes.S r) i 0%nat)) i I). intros; apply Rabs_pos.
    - intros; apply rsum_nonneg; intros; apply Rabs_pos. }
  eapply Rle_trans; [exact TERM|]. eapply Rle_trans; [exact D|]. apply Rplus_le_compat_r. rewrite (Rmult_assoc B (2 * Qcap c)), (Rmult_assoc B (exp (- A * (T - S)))). apply Rmult_le_compat_l; [lra|]. rewrite Rmult_comm. apply Rmult_le_compat_r; [left; apply exp_pos|exact TOTAL].
Qed.
Print Assumptions C202_one_point_near_equilibrium.

(** Chloride resin on two radial points while the water comes down from 1.1 towards 1 meq/L of chloride, nitrate and sulphate. *)
From Verif Require Import Props_Exist Props_Negative.
Example settling_water : exists jacobi op q A B G Tf y, 0 < A /\ 0 < Tf <= 5 /\ in_equilibrium 3 (Kxc col_two) (val col_two) (fun i => q i / theta false col_two) (fun _ => 1) /\
  build_operators even_roots jacobi 2 5 false = Ok op /\ is_trajectory 2 3 5 (fun t u => rhs false col_two op 100 (fun _ => 1 + (5 - t) / 50) u) Tf y /\ same_state 2 3 5 (y 0) (initial_state col_two (fun _ => 1 + (5 - 0) / 50) None) /\
  forall S T r i, 0 <= S <= T -> T <= Tf -> (1 <= r <= 2)%nat -> (i < 3)%nat -> Rabs (y T r i 0%nat - q i) <= B * exp (- A * (T - S)) + G * (3 * ((5 - S) / 50)).
Proof.
  destruct (jacobi_exist 2 1) as (r & Hr). set (jac := fun (m : nat) (_ _ : R) => match m with 1%nat => r | _ => even_roots m end). exists jac.
  assert (HG : good_roots even_roots jac) by (split; [intros; apply even_roots_ok|intros m p q; destruct m as [|[|m]]; [apply even_roots_ok|exact (proj1 Hr)|apply even_roots_ok]]).
  destruct (build_operators even_roots jac 2 5 false) as [op|] eqn:B; [|discriminate B]. exists op.
  assert (SK : selectivities 3 (Kxc col_two)) by (intros [|[|[|i]]] _; cbn; lra).
  assert (WC : working_column false col_two 100).
  { repeat split; try (cbn; lia); try (cbn; lra); try exact SK.
    all: destruct i as [|[|[|i]]]; cbn; try lia; try lra; auto. }
  destruct (C202_inlet_near_equilibrium even_roots jac false op false col_two 100 (fun _ => 1) HG Hr B WC eq_refl ltac:(cbn; lia) ltac:(cbn; lra)) as (q & Q1 & Q2 & Q3 & AL);
    [intros i _; repeat split; try reflexivity; discriminate|intros; lra|lra|].
  destruct (AL 3 ltac:(lra)) as (A & BB & G & AP & BP & GP & AB).
  destruct (C168_fresh_bed_starts false col_two op 100 (fun t _ => 1 + (5 - t) / 50) 5) as (Tf & y & HT & TR & Y0); try (cbn; lia); try (cbn; lra); try assumption.
  - intros i _ t _ e He. exists e. split; [exact He|]. intros s _ D. replace (1 + (5 - s) / 50 - (1 + (5 - t) / 50)) with (- ((s - t) / 50)) by field. rewrite Rabs_Ropp. unfold Rdiv. rewrite Rabs_mult, (Rabs_right (/ 50)) by lra. assert (X := Rabs_pos (s - t)). lra.
  - intros. lra.
  - exists q, A, BB, G, Tf, y. split; [exact AP|]. split; [exact HT|]. split; [exact Q3|]. split; [reflexivity|]. split; [exact TR|]. split; [exact Y0|].
    intros S T k i ST TF K I.
    assert (LOAD : loaded_inlet (nr col_two) (NION col_two) (Qcap col_two) (y 0)).
    { intros [|j] J; [lia|]. cbn in J. split; [|split].
      - rewrite Y0 by (cbn; lia). cbn. lra.
      - intros h H. rewrite Y0 by (cbn in *; lia). destruct h; cbn; lra.
      - cbn. rewrite !Y0 by (cbn; lia). cbn. lra. }
    apply (AB (fun t _ => 1 + (5 - t) / 50) Tf y 4); try assumption; try lra.
    + intros. lra.
    + intros t Ht. cbn. lra.
    + intros t Ht. cbn. rewrite !Rabs_right by lra. lra.
Qed.
