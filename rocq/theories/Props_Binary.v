(** C195 — a batch reactor with two ions, left alone, settles at the equilibrium that the exchange law
    and the amounts put in fix. *)
From Coq Require Import Reals List Arith Bool Lra Lia.
From Verif Require Import Lib_Py Lib_Sum Lib_Traj Lib_Settle S_Colloc M_Colloc S_Radial P_Radial M_IxEq M_IxBatch
  S_IxEq S_IxColumn S_IxBatch P_IxBatch P_Settle Props_IxColumn Props_IxBatch P_RestBatch Props_Rest Props_Settle P_Binary.
Import ListNotations.
Open Scope R_scope.

(** An endless run of a reactor with two ions: the liquid starts with the total charge of the
    sheet and the resin, at every radius, with its capacity. Wherever the code computes an
    equilibrium (the bead surface, and with pore diffusion every radius) the resin holds
    presaturant and no negative loading. *)
Definition two_ion_run (psdm : bool) (b : batch) (op : radial) (y : R -> nat -> nat -> R) : Prop :=
  (forall Tf, is_batch_trajectory (b_nr b) 2 (batch_rhs psdm b op) Tf y) /\
  rsum 2 (y 0 0%nat) = rsum 2 (b_C0 b) /\
  (forall r, (1 <= r <= b_nr b)%nat -> rsum 2 (y 0 r) = b_RHOP b * b_Qm b) /\
  (forall T r, 0 < T -> (1 <= r <= b_nr b)%nat -> psdm = true \/ r = b_nr b -> 0 < y T r 0%nat /\ 0 <= y T r 1%nat).

Theorem C195_two_ions_settle : forall legendre jacobi (psdm : bool) b y,
  good_roots legendre jacobi -> jacobi_roots 2 (b_nr b - 1) (jacobi (b_nr b - 1)%nat (5 / 2) (3 / 2)) ->
  working_batch psdm b -> b_NION b = 2%nat ->
  let op := build_radial legendre jacobi (b_nr b) in
  two_ion_run psdm b op y ->
  exists q C : nat -> R,
  (* liquid and every point of the bead come as close as one likes to C and q, and stay there *)
  (forall i, (i < 2)%nat -> vanishes (fun T => y T 0%nat i - C i) /\ forall r, (1 <= r <= b_nr b)%nat -> vanishes (fun T => y T r i - q i)) /\
  (* which are in equilibrium *)
  (forall i, (i < 2)%nat -> 0 <= q i /\ 0 <= C i) /\
  in_equilibrium 2 (b_K b) (b_val b) (fun i => q i / (if psdm then 1 - b_EPOR b else 1)) C /\
  (* with the charges of the liquid and of the resin *)
  rsum 2 C = rsum 2 (b_C0 b) /\ rsum 2 q = b_RHOP b * b_Qm b /\
  (* and hold what was put in *)
  (forall i, (i < 2)%nat -> b_VL b * C i + b_VR b * q i = amount (b_nr b) (rWr op) (b_VL b) (b_VR b) (y 0) i).
Proof.
  intros leg jac psdm b y HG HJ (HN & Hr & HK & HV & Hrb & HVL & HVR & HkL & HD & Hp & HC) E op (HT & H0 & H1 & HP).
  assert (HJ' : jacobi_roots 2 (b_nr b - 1) (jac (b_nr b - 1)%nat (INR 3 / 2 + 1) (INR 3 / 2))).
  { replace (INR 3) with 3 by (simpl; ring). replace (3 / 2 + 1) with (5 / 2) by field. exact HJ. }
  assert (ECT : b_CT b = rsum 2 (b_C0 b)) by (unfold b_CT; rewrite E; reflexivity). rewrite E in HK, HV, HC. rewrite <- ECT in H0, HC.
  destruct (reactor_settles leg jac psdm b y HG HJ' E Hr HK HV Hrb HVL HVR HkL HD Hp HC HT H0 H1 HP) as (q & C & _ & A1 & A2 & A3 & A4 & A5 & A6).
  exists q, C. rewrite ECT in A4. repeat split; try assumption; try (apply A1; assumption); apply A6; assumption.
Qed.

(** Two runs of the same reactor with the same amounts forget how they started. *)
Theorem C195_two_ions_forget : forall legendre jacobi (psdm : bool) b y y',
  good_roots legendre jacobi -> jacobi_roots 2 (b_nr b - 1) (jacobi (b_nr b - 1)%nat (5 / 2) (3 / 2)) ->
  working_batch psdm b -> b_NION b = 2%nat ->
  let op := build_radial legendre jacobi (b_nr b) in
  two_ion_run psdm b op y -> two_ion_run psdm b op y' ->
  amount (b_nr b) (rWr op) (b_VL b) (b_VR b) (y 0) 1%nat = amount (b_nr b) (rWr op) (b_VL b) (b_VR b) (y' 0) 1%nat ->
  forall r i, (r <= b_nr b)%nat -> (i < 2)%nat -> vanishes (fun T => y T r i - y' T r i).
Proof.
  intros leg jac psdm b y y' HG HJ (HN & Hr & HK & HV & Hrb & HVL & HVR & HkL & HD & Hp & HC) E op (HT & H0 & H1 & HP) (HT' & H0' & H1' & HP') HA.
  assert (HJ' : jacobi_roots 2 (b_nr b - 1) (jac (b_nr b - 1)%nat (INR 3 / 2 + 1) (INR 3 / 2))).
  { replace (INR 3) with 3 by (simpl; ring). replace (3 / 2 + 1) with (5 / 2) by field. exact HJ. }
  assert (ECT : b_CT b = rsum 2 (b_C0 b)) by (unfold b_CT; rewrite E; reflexivity). rewrite E in HK, HV, HC. rewrite <- ECT in H0, H0', HC.
  destruct (reactor_settles leg jac psdm b y HG HJ' E Hr HK HV Hrb HVL HVR HkL HD Hp HC HT H0 H1 HP) as (q & C & F & A1 & A2 & A3 & A4 & A5 & A6).
  destruct (reactor_settles leg jac psdm b y' HG HJ' E Hr HK HV Hrb HVL HVR HkL HD Hp HC HT' H0' H1' HP') as (q' & C' & F' & B1 & B2 & B3 & B4 & B5 & B6).
  assert (EQ : q 1%nat = q' 1%nat).
  { assert (X := A5 1%nat ltac:(lia)). assert (Y := B5 1%nat ltac:(lia)). fold op in X, Y. rewrite HA in X. rewrite <- Y in X. rewrite F, F' in X.
    apply (rest_fixed leg jac psdm b y HG E Hr HK HV HVL HVR Hp HC HT H0 H1 HP) in X. exact X. }
  assert (EC : C 1%nat = C' 1%nat) by (rewrite F, F', EQ; reflexivity). cbn [rsum] in A3, A4, B3, B4.
  assert (SAME : forall i, (i < 2)%nat -> q i = q' i /\ C i = C' i) by (intros [|[|i]] Hi; [| |lia]; split; lra).
  intros r i Hrr Hi. destruct (SAME i Hi) as (S1 & S2). destruct (A6 i Hi) as (V1 & V2). destruct (B6 i Hi) as (W1 & W2).
  destruct r as [|r].
  - apply (vanishes_ext (fun T => (y T 0%nat i - C i) + (-1) * (y' T 0%nat i - C' i))); [intros t; rewrite S2; ring|]. apply vanishes_plus; [exact V1|apply vanishes_scal, W1].
  - apply (vanishes_ext (fun T => (y T (S r) i - q i) + (-1) * (y' T (S r) i - q' i))); [intros t; rewrite S1; ring|]. apply vanishes_plus; [apply V2; lia|apply vanishes_scal, W2; lia].
Qed.

(** A reactor that the code starts begins with those totals. *)
Theorem C195_fresh_start : forall b, b_NION b = 2%nat -> b_val b 0%nat = 1%nat ->
  rsum 2 (batch_initial b 0%nat) = rsum 2 (b_C0 b) /\
  forall r, (1 <= r <= b_nr b)%nat -> rsum 2 (batch_initial b r) = b_RHOP b * b_Qm b.
Proof.
  intros b E V. split; [reflexivity|]. intros [|r] Hr; [lia|]. rewrite <- E. apply C19_batch_start_total; [lia|exact V].
Qed.

(** The run of [ex_batch] from its fresh start is one, with both models. *)
Example ex_two_ion_run : forall psdm : bool, good_roots even_roots (fun m _ _ => even_roots m) /\
  jacobi_roots 2 0 (even_roots 0) /\ working_batch psdm ex_batch /\ two_ion_run psdm ex_batch ex_op ex_run /\ ex_run 0 = batch_initial ex_batch.
Proof.
  intros psdm. split; [apply even_roots_good|]. split; [|split; [apply ex_batch_rests|split; [|apply ex_run_starts]]].
  - split; [split; intros; lia|]. intros c. exists (fun _ => 0). split; [|ring]. intros x. cbn [poly rsum]. rewrite Rmult_0_r. apply derivable_pt_lim_const.
  - split; [intros; apply ex_run_always|]. rewrite ex_run_starts.
    destruct (C195_fresh_start ex_batch eq_refl eq_refl) as (A & B). split; [exact A|]. split; [exact B|].
    intros T r HT Hr _. assert (X := ex_run_composition 1 T r ltac:(lra) HT Hr). destruct X as (P & N). specialize (N 1%nat ltac:(lia)). unfold Rdiv in *. rewrite Rinv_1, Rmult_1_r in *. split; assumption.
Qed.

Print Assumptions C195_two_ions_settle.
Print Assumptions C195_two_ions_forget.
Print Assumptions C195_fresh_start.
