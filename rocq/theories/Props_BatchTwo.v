(** Monovalent batch reactors on one or two radial points (C195, C196, C200). *)
From Coq Require Import Reals List Arith Bool Lra Lia.
From Verif Require Import Lib_Py Lib_Sum Lib_Traj Lib_Exist S_Colloc M_Colloc P_Colloc S_Radial P_Radial P_RadialSign Props_Negative.
From Verif Require Import M_IxEq S_IxEq M_IxBatch S_IxBatch P_IxBatch S_Unique Props_PacBound Props_Rest P_Coop Props_InsideBatch.
Import ListNotations.
Open Scope R_scope.

Lemma mono_has n val : (forall i, (i < n)%nat -> val i = 1%nat) -> has_divalent n val = false.
Proof.
  intros M. unfold has_divalent. destruct (existsb (dv_idx val) (seq 0 n)) eqn:E; [|reflexivity]. apply existsb_exists in E as (k & KS & KV). apply in_seq in KS.
  unfold dv_idx in KV. rewrite M in KV by lia. discriminate KV.
Qed.

Section Mono.
Variables (legendre : nat -> nat -> R) (jacobi : nat -> R -> R -> nat -> R).
Variables (psdm : bool) (b : batch).
Let op := build_radial legendre jacobi (b_nr b).
Let nr := b_nr b.
Let n := b_NION b.
Hypothesis HJ : jacobi_roots 2 (nr - 1) (jacobi (nr - 1)%nat (5 / 2) (3 / 2)).
Hypothesis WB : working_batch psdm b.
Hypothesis MV : forall i, (i < n)%nat -> b_val b i = 1%nat.
Hypothesis HQ : 0 < b_Q b.
Let u := rootsu jacobi nr (INR 3).
Let th : R := btheta psdm b.
Let CT := b_CT b.
(** loadings over selectivities *)
Definition den (v : bstate) (r : nat) : R := rsum n (fun j => v (S r) j / b_K b j).
Definition share (v : bstate) (r i : nat) : R := CT / b_K b i / den v r.
Definition speed (v : bstate) (r i : nat) : R := (if psdm then b_EPOR b * (b_Dp b - b_Ds b) * share v r i + b_Ds b else b_Ds b) / b_rb b ^ 2.
Let film (v : bstate) (i : nat) : R := b_kL b * (v 0%nat i - share v (nr - 1) i * v nr i).

Lemma th_pos : 0 < th.
Proof. destruct WB as (_ & _ & _ & _ & _ & _ & _ & _ & _ & E & _). unfold th, btheta. destruct psdm; [specialize (E eq_refl); lra|lra]. Qed.
Lemma ct_pos : 0 < CT. Proof. apply WB. Qed.
Lemma mono_eq v r i : (i < n)%nat -> 0 < den v r -> Ceq_mv n (b_K b) (fun j => v (S r) j / th) CT i = share v r i * v (S r) i.
Proof.
  intros I D. assert (TP := th_pos). assert (KI : 0 < b_K b i) by (apply WB; exact I). unfold Ceq_mv, share, alpha.
  rewrite (rsum_ext n (fun j => b_K b i / b_K b j * (v (S r) j / th)) (fun j => b_K b i / th * (v (S r) j / b_K b j))) by (intros j J; assert (0 < b_K b j) by (apply WB; exact J); field; lra).
  rewrite rsum_scal. fold (den v r). field. lra.
Qed.
Lemma mono_calc q : calc_Ceq_batch (b_NION b) (b_K b) (b_val b) q (b_CT b) = Some (Ceq_mv n (b_K b) q CT).
Proof. unfold calc_Ceq_batch. rewrite (mono_has (b_NION b) (b_val b)) by exact MV. reflexivity. Qed.
Lemma mono_rates v d : batch_rhs psdm b op v = Some d -> (forall r, (r < nr)%nat -> 0 < den v r) -> forall i, (i < n)%nat ->
  d 0%nat i = - (3 * b_VR b / b_rb b) * film v i / b_VL b /\
  (forall r, (r < nr - 1)%nat -> d (S r) i = rsum nr (fun m => rBr op r m * (speed v m i * v (S m) i))) /\
  d nr i = (film v i / b_rb b - rsum (nr - 1) (fun k => rWr op k * rsum nr (fun m => rBr op k m * (speed v m i * v (S m) i)))) / rWr op (nr - 1)%nat.
Proof.
  intros E D i I. assert (HR : 0 < b_rb b) by apply WB. assert (HL : 0 < b_VL b) by apply WB. assert (NR : (1 <= nr)%nat) by apply WB. assert (SR : (S (nr - 1) = nr)%nat) by lia.
  assert (Z : exists Ceq dq, d = batch_assemble b op v Ceq dq /\ Ceq i = share v (nr - 1) i * v nr i /\ forall r, dq r i = rsum nr (fun m => rBr op r m * (speed v m i * v (S m) i))).
  { assert (ME := fun r R => mono_eq v r i I (D r R)). unfold batch_rhs in E. unfold speed. unfold th, btheta in ME. destruct psdm.
    - unfold diffun_psdm_batch in E. rewrite mono_calc in E. destruct (pore_liquid b v (b_nr b)) as [P|] eqn:EP; [|discriminate E].
      apply some_eq in E. subst d. eexists _, _. split; [reflexivity|]. split.
      + specialize (ME (nr - 1)%nat ltac:(lia)). rewrite SR in ME. exact ME.
      + intros r. cbv beta. fold nr.
        rewrite (rsum_ext nr (fun m => rBr op r m * P m i) (fun m => rBr op r m * (share v m i * v (S m) i))).
        2:{ intros m M. f_equal. rewrite <- ME by exact M. assert (X := pore_at b v _ P EP m M). rewrite mono_calc in X. apply some_eq in X. rewrite <- X. reflexivity. }
        rewrite <- !rsum_scal, <- rsum_plus. unfold Rdiv at 1. rewrite Rmult_comm, <- rsum_scal. apply rsum_ext. intros m _. unfold Rdiv. ring.
    - unfold diffun_hsdm_batch in E. rewrite mono_calc in E. apply some_eq in E. subst d. eexists _, _. split; [reflexivity|]. split.
      + specialize (ME (nr - 1)%nat ltac:(lia)). rewrite SR in ME. rewrite <- ME. unfold Ceq_mv. fold nr. unfold Rdiv at 3.
        rewrite (rsum_ext n (fun j => alpha (b_K b) i j * (v nr j / 1)) (fun j => alpha (b_K b) i j * v nr j)) by (intros; field; assert (0 < b_K b i0) by (apply WB; assumption); lra). rewrite Rinv_1, Rmult_1_r. reflexivity.
      + intros r. cbv beta. fold nr. rewrite <- rsum_scal. apply rsum_ext. intros m _. field. apply Rgt_not_eq, HR. }
  destruct Z as (Ceq & dq & -> & EC & ED). unfold batch_assemble, film. cbv zeta. rewrite <- EC. split; [|split].
  - field. lra.
  - intros r R. fold nr. destruct (Nat.eqb_spec r (nr - 1)); [lia|]. apply ED.
  - rewrite <- SR at 1. fold nr. rewrite Nat.eqb_refl.
    rewrite (rsum_ext (nr - 1) (fun m => rWr op m * dq m i) (fun k => rWr op k * rsum nr (fun m => rBr op k m * (speed v m i * v (S m) i)))) by (intros m _; rewrite ED; reflexivity).
    f_equal. f_equal. field. lra.
Qed.

(** bounds *)
Variable m : R.
Hypothesis Hm : 0 < m.
Lemma share_between v r i : (i < n)%nat -> m <= den v r -> 0 <= share v r i <= CT / b_K b i / m.
Proof.
  intros I D. assert (C := ct_pos). assert (KI : 0 < b_K b i) by (apply WB; exact I). unfold share. assert (X : 0 < CT / b_K b i) by (apply Rdiv_lt_0_compat; assumption). split.
  - left. apply Rdiv_lt_0_compat; lra.
  - apply Rmult_le_compat_l; [lra|]. apply Rinv_le_contravar; lra.
Qed.
Let smax (i : nat) : R := CT / b_K b i / m.
Let fmax (i : nat) : R := (if psdm then b_EPOR b * (b_Dp b - b_Ds b) * smax i + b_Ds b else b_Ds b) / b_rb b ^ 2.
Lemma speed_between v r i : (i < n)%nat -> m <= den v r -> 0 <= speed v r i <= fmax i.
Proof.
  intros I D. destruct (share_between v r i I D) as (S0 & S1). fold (smax i) in S1. destruct WB as (_ & _ & _ & _ & HR & _ & _ & _ & HD & HE & _).
  assert (IR : 0 < / b_rb b ^ 2) by (apply Rinv_0_lt_compat, pow_lt, HR). unfold speed, fmax. destruct psdm.
  - destruct (HE eq_refl) as (E1 & E2). assert (0 <= b_EPOR b * (b_Dp b - b_Ds b)) by (apply Rmult_le_pos; lra).
    assert (0 <= b_EPOR b * (b_Dp b - b_Ds b) * share v r i) by (apply Rmult_le_pos; lra).
    split; [apply Rmult_le_pos; lra|]. apply Rmult_le_compat_r; [lra|]. apply Rplus_le_compat_r. apply Rmult_le_compat_l; lra.
  - split; [apply Rmult_le_pos; lra|lra].
Qed.

Lemma grid2 : jacobi_roots 2 (nr - 1) (jacobi (nr - 1)%nat (INR 3 / 2 + 1) (INR 3 / 2)).
Proof. rewrite Props_PacBound.INR3. replace (3 / 2 + 1) with (5 / 2) by field. exact HJ. Qed.
Lemma radial2 : nr = 2%nat -> exists be, 0 < be /\ rBr op 0%nat 0%nat = - be /\ rBr op 0%nat 1%nat = be.
Proof.
  intros E2. destruct (bop_is legendre jacobi b) as (EB & _). fold op nr u in EB.
  assert (SG := last_column_sign jacobi nr 2 ltac:(lia) grid2 0%nat ltac:(lia)). fold u in SG. rewrite <- EB in SG. rewrite E2 in SG. change (2 - 0)%nat with 2%nat in SG. change (2 - 1)%nat with 1%nat in SG.
  exists (rBr op 0%nat 1%nat). split; [lra|]. split; [|reflexivity].
  assert (NR : (1 <= nr)%nat) by lia.
  assert (Z := Bx_constant nr u (u_distinct jacobi nr 2 NR grid2)). unfold apply_row in Z. rewrite EB.
  assert (ZZ : rsum nr (fun j => Bx nr u (INR 3) 0 j * 1) = 0) by (apply Z; lia). rewrite E2 in ZZ |- *. cbn [rsum] in ZZ. lra.
Qed.
Lemma w_pos r : (r < nr)%nat -> 0 < rWr op r.
Proof.
  intros R. destruct (bop_is legendre jacobi b) as (_ & EW). fold op nr u in EW. rewrite EW. destruct (code_weights jacobi nr 2 ltac:(lia) grid2) as (WP & _). apply WP, R.
Qed.

Variables (Tf : R) (y : R -> nat -> nat -> R).
Hypothesis N2 : (nr <= 2)%nat.
Hypothesis TR : is_batch_trajectory nr n (batch_rhs psdm b op) Tf y.
Hypothesis P0 : forall r i, (r <= nr)%nat -> (i < n)%nat -> 0 <= y 0 r i.
Section Until.
Variable T1 : R.
Hypothesis HT1 : 0 <= T1 <= Tf.
Hypothesis DEN : forall t r, 0 < t < T1 -> (r < nr)%nat -> m <= den (y t) r.
Let c0 : R := 3 * b_VR b / b_rb b * b_kL b / b_VL b.
Lemma c0_pos : 0 < c0.
Proof. destruct WB as (_ & _ & _ & _ & HR & HL & HV & HK & _). unfold c0. apply Rdiv_lt_0_compat; [|exact HL]. apply Rmult_lt_0_compat; [|exact HK]. apply Rdiv_lt_0_compat; lra. Qed.
Let h : R := b_kL b / b_rb b / rWr op (nr - 1)%nat.
Lemma NR1 : (1 <= nr)%nat. Proof. apply WB. Qed.
Lemma h_pos : 0 < h.
Proof. assert (N := NR1). destruct WB as (_ & _ & _ & _ & HR & _ & _ & HK & _). unfold h. apply Rdiv_lt_0_compat; [apply Rdiv_lt_0_compat; assumption|apply w_pos; lia]. Qed.

Lemma kept_nonneg r i t : (r <= nr)%nat -> (i < n)%nat -> 0 <= t <= T1 -> 0 <= y t r i.
Proof.
  intros R I T. assert (N := NR1). assert (C := c0_pos). assert (H := h_pos). destruct TR as (d & DD & EV). assert (HR : 0 < b_rb b) by apply WB. assert (HL : 0 < b_VL b) by apply WB.
  assert (EV1 : forall r, (r <= nr)%nat -> evolves 0 T1 (fun t => y t r i) (fun t => d t r i)) by (intros k Hk; apply (evolves_sub 0 Tf); [lra|apply EV; assumption]).
  assert (RT : forall t, 0 < t < T1 -> _) by (intros s S; exact (mono_rates (y s) (d s) (DD s ltac:(lra)) (fun k Hk => Rlt_le_trans _ _ _ Hm (DEN s k S Hk)) i I)).
  assert (SB : forall s k, 0 < s < T1 -> (k < nr)%nat -> 0 <= share (y s) k i <= smax i) by (intros s k S Hk; apply share_between; [exact I|apply DEN; assumption]).
  assert (FB : forall s k, 0 < s < T1 -> (k < nr)%nat -> 0 <= speed (y s) k i <= fmax i) by (intros s k S Hk; apply speed_between; [exact I|apply DEN; assumption]).
  assert (WS := w_pos (nr - 1)%nat ltac:(lia)).
  assert (CASE : nr = 1%nat \/ nr = 2%nat) by lia. destruct CASE as [E1|E2].
  - set (A := fun t (k j : nat) => match k, j with 0%nat, 0%nat => - c0 | 0%nat, _ => c0 * share (y t) 0 i | _, 0%nat => h | _, _ => - h * share (y t) 0 i end).
    assert (SM : 0 <= smax i). { unfold smax. assert (X := ct_pos). assert (KI : 0 < b_K b i) by (apply WB; exact I). left. apply Rdiv_lt_0_compat; [apply Rdiv_lt_0_compat; assumption|exact Hm]. }
    apply (cooperative 0 T1 (c0 * smax i + h) 2 (fun k t => y t k i) (fun _ _ => 0) A); try lia; try exact T.
    + intros k K2. assert (KN : (k <= nr)%nat) by lia. eapply evolves_ext; [reflexivity| |apply (EV1 k KN)]. intros s S. cbv beta. destruct (RT s S) as (R0 & _ & R1). unfold film in R0, R1. rewrite E1 in R0, R1. cbn [Nat.sub rsum] in R0, R1.
      destruct k as [|[|k]]; [| |lia]; cbn [rsum A].
      * rewrite R0. unfold c0. field. lra.
      * rewrite R1. unfold h. rewrite E1 in WS |- *. cbn [Nat.sub] in WS |- *. field. lra.
    + intros. lra.
    + intros s k j S KK JJ NE. assert (X := SB s 0%nat S ltac:(lia)). assert (0 <= c0 * share (y s) 0 i) by (apply Rmult_le_pos; lra). unfold A. destruct k as [|[|k]], j as [|[|j]]; try lia; lra.
    + assert (0 <= c0 * smax i) by (apply Rmult_le_pos; lra). lra.
    + intros s k j S _ _. assert (X := SB s 0%nat S ltac:(lia)). assert (0 <= c0 * smax i) by (apply Rmult_le_pos; lra). assert (c0 * share (y s) 0 i <= c0 * smax i) by (apply Rmult_le_compat_l; lra).
      assert (0 <= h * share (y s) 0 i) by (apply Rmult_le_pos; lra). unfold A. destruct k, j; lra.
    + intros k K2. apply P0; [lia|exact I].
  - destruct (radial2 E2) as (be & BP & B0 & B1). assert (W0 := w_pos 0%nat ltac:(lia)).
    set (w := rWr op 0%nat / rWr op (nr - 1)%nat * be). assert (WP : 0 < w) by (unfold w; apply Rmult_lt_0_compat; [apply Rdiv_lt_0_compat; assumption|exact BP]).
    set (A := fun t (k j : nat) => match k, j with
       | 0%nat, 0%nat => - c0 | 0%nat, 1%nat => 0 | 0%nat, _ => c0 * share (y t) 1 i
       | 1%nat, 0%nat => 0 | 1%nat, 1%nat => - (be * speed (y t) 0 i) | 1%nat, _ => be * speed (y t) 1 i
       | _, 0%nat => h | _, 1%nat => w * speed (y t) 0 i | _, _ => - (h * share (y t) 1 i + w * speed (y t) 1 i) end).
    assert (SM : 0 <= smax i). { unfold smax. assert (X := ct_pos). assert (KI : 0 < b_K b i) by (apply WB; exact I). left. apply Rdiv_lt_0_compat; [apply Rdiv_lt_0_compat; assumption|exact Hm]. }
    assert (FM : 0 <= fmax i).
    { unfold fmax. destruct WB as (_ & _ & _ & _ & _ & _ & _ & _ & HD & HE & _). apply Rmult_le_pos; [|left; apply Rinv_0_lt_compat, pow_lt, HR]. destruct psdm; [|lra]. destruct (HE eq_refl) as (X1 & X2).
      assert (0 <= b_EPOR b * (b_Dp b - b_Ds b) * smax i) by (apply Rmult_le_pos; [apply Rmult_le_pos; lra|exact SM]). lra. }
    assert (K1 : 0 <= c0 * smax i) by (apply Rmult_le_pos; lra). assert (K2 : 0 <= be * fmax i) by (apply Rmult_le_pos; lra). assert (K3 : 0 <= w * fmax i) by (apply Rmult_le_pos; lra).
    apply (cooperative 0 T1 (c0 * smax i + h + be * fmax i + w * fmax i) 3 (fun k t => y t k i) (fun _ _ => 0) A); try lia; try exact T.
    + intros k K3'. assert (KN : (k <= nr)%nat) by lia. eapply evolves_ext; [reflexivity| |apply (EV1 k KN)]. intros s S. cbv beta. destruct (RT s S) as (R0 & R1 & R2). specialize (R1 0%nat ltac:(lia)). unfold film in R0, R2. rewrite E2 in R0, R1, R2. cbn [Nat.sub rsum] in R0, R1, R2. rewrite B0, B1 in R1, R2.
      destruct k as [|[|[|k]]]; [| | |lia]; cbn [rsum A].
      * rewrite R0. unfold c0. field. lra.
      * rewrite R1. ring.
      * rewrite R2. unfold h, w. rewrite E2 in WS |- *. cbn [Nat.sub] in WS |- *. field. lra.
    + intros. lra.
    + intros s k j S KK JJ NE. assert (X0 := SB s 1%nat S ltac:(lia)). assert (X1 := FB s 0%nat S ltac:(lia)). assert (X2 := FB s 1%nat S ltac:(lia)). 
      assert (0 <= c0 * share (y s) 1 i) by (apply Rmult_le_pos; lra). assert (0 <= be * speed (y s) 1 i) by (apply Rmult_le_pos; lra). assert (0 <= w * speed (y s) 0 i) by (apply Rmult_le_pos; lra).
      unfold A. destruct k as [|[|[|k]]], j as [|[|[|j]]]; try lia; lra.
    + lra.
    + intros s k j S _ _. assert (X0 := SB s 1%nat S ltac:(lia)). assert (X1 := FB s 0%nat S ltac:(lia)). assert (X2 := FB s 1%nat S ltac:(lia)).
      assert (c0 * share (y s) 1 i <= c0 * smax i) by (apply Rmult_le_compat_l; lra). assert (be * speed (y s) 1 i <= be * fmax i) by (apply Rmult_le_compat_l; lra). assert (w * speed (y s) 0 i <= w * fmax i) by (apply Rmult_le_compat_l; lra).
      assert (0 <= h * share (y s) 1 i) by (apply Rmult_le_pos; lra). assert (0 <= be * speed (y s) 0 i) by (apply Rmult_le_pos; lra). assert (0 <= w * speed (y s) 1 i) by (apply Rmult_le_pos; lra).
      unfold A. destruct k as [|[|k]], j as [|[|j]]; lra.
    + intros k K3'. apply P0; [lia|exact I].
Qed.
Lemma kept_positive r i t : (1 <= r <= nr)%nat -> (i < n)%nat -> 0 < y 0 r i -> 0 <= t <= T1 -> 0 < y t r i.
Proof.
  intros R I P T. assert (N := NR1). assert (H := h_pos). destruct TR as (d & DD & EV). assert (HR : 0 < b_rb b) by apply WB.
  assert (EV1 : evolves 0 T1 (fun t => y t r i) (fun t => d t r i)) by (apply (evolves_sub 0 Tf); [lra|apply EV; [lia|exact I]]).
  assert (RT : forall t, 0 < t < T1 -> _) by (intros s S; exact (mono_rates (y s) (d s) (DD s ltac:(lra)) (fun k Hk => Rlt_le_trans _ _ _ Hm (DEN s k S Hk)) i I)).
  assert (SB : forall s k, 0 < s < T1 -> (k < nr)%nat -> 0 <= share (y s) k i <= smax i) by (intros s k S Hk; apply share_between; [exact I|apply DEN; assumption]).
  assert (FB : forall s k, 0 < s < T1 -> (k < nr)%nat -> 0 <= speed (y s) k i <= fmax i) by (intros s k S Hk; apply speed_between; [exact I|apply DEN; assumption]).
  assert (NN : forall s k, 0 < s < T1 -> (k <= nr)%nat -> 0 <= y s k i) by (intros; apply kept_nonneg; try assumption; lra).
  assert (WS := w_pos (nr - 1)%nat ltac:(lia)).
  assert (X : exists L, forall s, 0 < s < T1 -> - L * y s r i <= d s r i).
  { assert (CASE : nr = 1%nat \/ nr = 2%nat) by lia. destruct CASE as [E1|E2].
    - exists (h * smax i). intros s S. destruct (RT s S) as (_ & _ & R1). unfold film in R1. assert (ER : r = nr) by lia. rewrite ER.
      assert (Y0 := NN s 0%nat S ltac:(lia)). assert (Y1 := NN s nr S ltac:(lia)). assert (S1 := SB s (nr - 1)%nat S ltac:(lia)).
      assert (0 <= h * y s 0%nat i) by (apply Rmult_le_pos; lra). assert (0 <= (smax i - share (y s) (nr - 1) i) * y s nr i) by (apply Rmult_le_pos; lra).
      assert (0 <= h * ((smax i - share (y s) (nr - 1) i) * y s nr i)) by (apply Rmult_le_pos; lra).
      replace (d s nr i) with (h * y s 0%nat i - h * (share (y s) (nr - 1) i * y s nr i)); [lra|]. rewrite R1, E1. change (1 - 1)%nat with 0%nat. cbn [rsum]. unfold h. rewrite E1 in WS |- *. change (1 - 1)%nat with 0%nat in WS |- *. field. lra.
    - destruct (radial2 E2) as (be & BP & B0 & B1). assert (W0 := w_pos 0%nat ltac:(lia)).
      set (w := rWr op 0%nat / rWr op (nr - 1)%nat * be). assert (WP : 0 < w) by (unfold w; apply Rmult_lt_0_compat; [apply Rdiv_lt_0_compat; assumption|exact BP]).
      assert (CR : r = 1%nat \/ r = 2%nat) by lia. destruct CR as [->| ->].
      + exists (be * fmax i). intros s S. destruct (RT s S) as (_ & R1 & _). specialize (R1 0%nat ltac:(lia)). rewrite E2 in R1. cbn [rsum] in R1. rewrite B0, B1 in R1. rewrite R1.
        assert (Y1 := NN s 1%nat S ltac:(lia)). assert (Y2 := NN s 2%nat S ltac:(lia)). assert (F0 := FB s 0%nat S ltac:(lia)). assert (F1 := FB s 1%nat S ltac:(lia)).
        assert (0 <= be * (speed (y s) 1 i * y s 2%nat i)) by (apply Rmult_le_pos; [lra|apply Rmult_le_pos; lra]).
        assert (0 <= be * ((fmax i - speed (y s) 0 i) * y s 1%nat i)) by (apply Rmult_le_pos; [lra|apply Rmult_le_pos; lra]). lra.
      + exists (h * smax i + w * fmax i). intros s S. destruct (RT s S) as (_ & _ & R2). unfold film in R2. rewrite E2 in R2. change (2 - 1)%nat with 1%nat in R2. cbn [rsum] in R2. rewrite B0, B1 in R2.
        assert (Y0 := NN s 0%nat S ltac:(lia)). assert (Y1 := NN s 1%nat S ltac:(lia)). assert (Y2 := NN s 2%nat S ltac:(lia)). assert (F0 := FB s 0%nat S ltac:(lia)). assert (F1 := FB s 1%nat S ltac:(lia)). assert (S1 := SB s 1%nat S ltac:(lia)).
        assert (0 <= h * y s 0%nat i) by (apply Rmult_le_pos; lra).
        assert (0 <= h * ((smax i - share (y s) 1 i) * y s 2%nat i)) by (apply Rmult_le_pos; [lra|apply Rmult_le_pos; lra]).
        assert (0 <= w * (speed (y s) 0 i * y s 1%nat i)) by (apply Rmult_le_pos; [lra|apply Rmult_le_pos; lra]).
        assert (0 <= w * ((fmax i - speed (y s) 1 i) * y s 2%nat i)) by (apply Rmult_le_pos; [lra|apply Rmult_le_pos; lra]).
        replace (d s 2%nat i) with (h * y s 0%nat i - h * (share (y s) 1 i * y s 2%nat i) - w * (speed (y s) 1 i * y s 2%nat i) + w * (speed (y s) 0 i * y s 1%nat i)); [lra|].
        rewrite R2. unfold h, w. rewrite E2 in WS |- *. change (2 - 1)%nat with 1%nat in WS |- *. field. lra. }
  destruct X as (L & HL). assert (Z := stays_positive 0 T1 _ _ L EV1 HL t T). cbv beta in Z. assert (0 < y 0 r i * exp (- L * (t - 0))) by (apply Rmult_lt_0_compat; [exact P|apply exp_pos]). lra.
Qed.
End Until.

(** totals *)
Hypothesis H0 : rsum n (y 0 0%nat) = b_CT b.
Hypothesis H1 : forall r, (1 <= r <= nr)%nat -> rsum n (y 0 r) = b_Q b.
Hypothesis Em : m = b_Q b / rsum n (b_K b) / 2.
Lemma selK : forall j, (j < n)%nat -> 0 < b_K b j <= rsum n (b_K b).
Proof. intros j J. assert (SK : forall k, (k < n)%nat -> 0 < b_K b k) by apply WB. split; [apply SK, J|]. rewrite (rsum_split_at n (b_K b) j J).
  assert (0 <= rsum n (fun k => if Nat.eq_dec k j then 0 else b_K b k)); [|lra]. apply rsum_nonneg. intros k Hk. destruct (Nat.eq_dec k j); [lra|left; apply SK, Hk]. Qed.
Lemma den_low v r : (forall j, (j < n)%nat -> 0 <= v (S r) j) -> rsum n (v (S r)) = b_Q b -> 2 * m <= den v r.
Proof.
  intros P E. assert (N0 : (0 < n)%nat) by apply WB. destruct (selK 0%nat N0) as (A1 & A2). rewrite Em. replace (2 * (b_Q b / rsum n (b_K b) / 2)) with (/ rsum n (b_K b) * b_Q b) by (field; lra). rewrite <- E, <- rsum_scal.
  apply rsum_le. intros j J. destruct (selK j J). unfold Rdiv. rewrite Rmult_comm. apply Rmult_le_compat_l; [apply P, J|]. apply Rinv_le_contravar; lra.
Qed.
Lemma den_use v : (forall r, (r < nr)%nat -> 0 < den v r) -> admissible psdm b v.
Proof.
  intros D. assert (N := NR1). assert (TP := th_pos).
  assert (X : exists e, 0 < e /\ forall r, (r < nr)%nat -> e <= den v r).
  { clear -D. induction nr as [|k IH]; [exists 1; split; [lra|intros; lia]|]. destruct IH as (e & E & P); [intros; apply D; lia|]. exists (Rmin e (den v k)). split; [apply Rmin_glb_lt; [exact E|apply D; lia]|].
    intros r R. destruct (Nat.eq_dec r k) as [->|NE]; [apply Rmin_r|]. eapply Rle_trans; [apply Rmin_l|apply P; lia]. }
  destruct X as (e & E & P). exists (e / th). split; [apply Rdiv_lt_0_compat; assumption|]. intros [|r] R _; [lia|]. fold th.
  assert (ND : ~ exists j, (j < b_NION b)%nat /\ b_val b j = 2%nat) by (intros (j & J & V); rewrite MV in V by exact J; discriminate V).
  split; [split|]; [|intros X; contradiction|intros X; contradiction]. intros _. fold n. rewrite (rsum_ext n (fun j => v (S r) j / th / b_K b j) (fun j => / th * (v (S r) j / b_K b j))).
  - rewrite rsum_scal. fold (den v r). unfold Rdiv. rewrite Rmult_comm. apply Rmult_le_compat_l; [left; apply Rinv_0_lt_compat, TP|apply P; fold nr in R; lia].
  - intros j J. destruct (selK j J). field. lra.
Qed.
Lemma rows r k : (r < b_nr b)%nat -> rsum (b_nr b) (fun j => rBr op r j * k) = 0.
Proof.
  intros R. destruct (bop_is legendre jacobi b) as (EB & _). fold op nr u in EB. rewrite EB. apply (Bx_constant nr u (u_distinct jacobi nr 2 NR1 grid2)). exact R.
Qed.
Lemma kept_totals T1 : 0 <= T1 <= Tf -> (forall t r, 0 < t < T1 -> (r < nr)%nat -> m <= den (y t) r) -> forall T, 0 <= T <= T1 ->
  rsum n (y T 0%nat) = b_CT b /\ forall r, (1 <= r <= nr)%nat -> rsum n (y T r) = b_Q b.
Proof.
  intros HT D T HTT. apply (totals_kept psdm b op) with (Tf := T1); try assumption; try (apply WB).
  - exact rows.
  - destruct TR as (d & DD & EV). exists d. split; [intros t Ht; apply DD; lra|]. intros r i R I. apply (evolves_sub 0 Tf); [lra|apply EV; assumption].
  - intros t Ht. apply den_use. intros r R. apply Rlt_le_trans with m; [exact Hm|apply D; assumption].
Qed.
Lemma always : 0 <= Tf -> forall T, 0 <= T <= Tf -> forall r, (r < nr)%nat -> m < den (y T) r.
Proof.
  intros TF. apply (real_induction 0 Tf (fun T => forall r, (r < nr)%nat -> m < den (y T) r) TF).
  - intros t T IH r R. assert (D : forall s k, 0 < s < t -> (k < nr)%nat -> m <= den (y s) k) by (intros s k S Hk; left; apply IH; [lra|exact Hk]).
    assert (X : 2 * m <= den (y t) r); [|lra]. apply den_low.
    + intros j J. apply (kept_nonneg t); try assumption; lra || lia.
    + apply (kept_totals t); try assumption; lra || lia.
  - intros t T IH. assert (N := NR1).
    assert (X : forall k, (k <= nr)%nat -> exists d, 0 < d /\ forall s, t < s < t + d -> forall r, (r < k)%nat -> m < den (y s) r).
    { induction k as [|k IHk]; intros Hk; [exists 1; split; [lra|intros; lia]|]. destruct IHk as (d & D & P); [lia|].
      assert (C : continuity_pt (fun s => den (y s) k) t).
      { unfold den. apply c_rsum. intros j J. apply c_div; [|apply c_const|destruct (selK j J); lra]. destruct TR as (dd & _ & EV). apply (EV (S k) j ltac:(lia) J). lra. }
      assert (M := IH t ltac:(lra) k ltac:(lia)). destruct (C (den (y t) k - m) ltac:(lra)) as (d2 & D2 & P2). exists (Rmin d d2). split; [apply Rmin_glb_lt; lra|].
      assert (A1 := Rmin_l d d2). assert (A2 := Rmin_r d d2). intros s S r R. destruct (Nat.eq_dec r k) as [->|NE]; [|apply P; [lra|lia]].
      assert (Q : R_dist (den (y s) k) (den (y t) k) < den (y t) k - m). { apply P2. split; [split; [exact I|lra]|]. cbn. unfold R_dist. rewrite Rabs_right; lra. }
      unfold R_dist in Q. apply Rabs_def2 in Q. lra. }
    destruct (X nr (le_n nr)) as (d & D & P). exists d. split; [exact D|]. intros s S _ r R. apply P; assumption.
Qed.
Lemma mono_run : 0 <= Tf -> forall T, 0 <= T <= Tf ->
  (forall r i, (r <= nr)%nat -> (i < n)%nat -> 0 <= y T r i) /\ rsum n (y T 0%nat) = b_CT b /\ (forall r, (1 <= r <= nr)%nat -> rsum n (y T r) = b_Q b) /\
  (forall r i, (1 <= r <= nr)%nat -> (i < n)%nat -> 0 < y 0 r i -> 0 < y T r i) /\ (forall r, (r < nr)%nat -> m < den (y T) r).
Proof.
  intros TF T HT. assert (D : forall t r, 0 < t < Tf -> (r < nr)%nat -> m <= den (y t) r) by (intros t r Ht R; left; apply always; [exact TF|lra|exact R]).
  destruct (kept_totals Tf ltac:(lra) D T HT) as (A1 & A2). split; [|split; [exact A1|split; [exact A2|split; [|apply always; assumption]]]].
  - intros r i R I. apply (kept_nonneg Tf); try assumption; lra.
  - intros r i R I P. apply (kept_positive Tf); try assumption; lra.
Qed.
End Mono.

(** ** The theorems *)
(** A batch of monovalent ions computed on one or two radial points, from a state without negative
    concentrations and with the charges of the feed and of the resin. *)
Definition sound_start (b : batch) (u : nat -> nat -> R) : Prop :=
  (forall r i, (r <= b_nr b)%nat -> (i < b_NION b)%nat -> 0 <= u r i) /\
  rsum (b_NION b) (u 0%nat) = rsum (b_NION b) (b_C0 b) /\
  forall r, (1 <= r <= b_nr b)%nat -> rsum (b_NION b) (u r) = b_RHOP b * b_Qm b.

Theorem C200_stays_physical : forall legendre jacobi (psdm : bool) b Tf y,
  jacobi_roots 2 (b_nr b - 1) (jacobi (b_nr b - 1)%nat (5 / 2) (3 / 2)) -> working_batch psdm b -> (b_nr b <= 2)%nat ->
  (forall i, (i < b_NION b)%nat -> b_val b i = 1%nat) -> 0 < b_RHOP b * b_Qm b ->
  is_batch_trajectory (b_nr b) (b_NION b) (batch_rhs psdm b (build_radial legendre jacobi (b_nr b))) Tf y ->
  sound_start b (y 0) -> forall T, 0 <= T <= Tf -> sound_start b (y T) /\
  (* none above the total *)
  (forall i, (i < b_NION b)%nat -> y T 0%nat i <= rsum (b_NION b) (b_C0 b) /\ forall r, (1 <= r <= b_nr b)%nat -> y T r i <= b_RHOP b * b_Qm b) /\
  (* what is loaded with an ion stays so *)
  (forall r i, (1 <= r <= b_nr b)%nat -> (i < b_NION b)%nat -> 0 < y 0 r i -> 0 < y T r i).
Proof.
  intros legendre jacobi psdm b Tf y HJ WB N2 MV HQ TR (S0 & S1 & S2) T HT. assert (TF : 0 <= Tf) by lra.
  assert (N0 : (0 < b_NION b)%nat) by apply WB. destruct (selK psdm b WB 0%nat N0) as (K1 & K2).
  assert (Hm : 0 < b_Q b / rsum (b_NION b) (b_K b) / 2) by (apply Rdiv_lt_0_compat; [apply Rdiv_lt_0_compat; [exact HQ|lra]|lra]).
  destruct (mono_run legendre jacobi psdm b HJ WB MV _ Hm Tf y N2 TR S0 S1 S2 eq_refl TF T HT) as (A1 & A2 & A3 & A4 & _).
  split; [split; [exact A1|split; [exact A2|exact A3]]|]. split; [|exact A4].
  assert (ONE : forall f i, (i < b_NION b)%nat -> (forall j, (j < b_NION b)%nat -> 0 <= f j) -> f i <= rsum (b_NION b) f).
  { intros f i I P. rewrite (rsum_split_at (b_NION b) f i I). assert (0 <= rsum (b_NION b) (fun k => if Nat.eq_dec k i then 0 else f k)); [|lra]. apply rsum_nonneg. intros k Hk. destruct (Nat.eq_dec k i); [lra|apply P, Hk]. }
  intros i I. split.
  - change (rsum (b_NION b) (b_C0 b)) with (b_CT b). rewrite <- A2. apply ONE; [exact I|]. intros j J. apply A1; [lia|exact J].
  - intros r R. change (b_RHOP b * b_Qm b) with (b_Q b). rewrite <- (A3 r R). apply ONE; [exact I|]. intros j J. apply A1; [lia|exact J].
Qed.

(** In particular no loading is negative. *)
Theorem C196_batch_two_points_partial : forall legendre jacobi (psdm : bool) b Tf y,
  jacobi_roots 2 (b_nr b - 1) (jacobi (b_nr b - 1)%nat (5 / 2) (3 / 2)) -> working_batch psdm b -> (b_nr b <= 2)%nat ->
  (forall i, (i < b_NION b)%nat -> b_val b i = 1%nat) -> 0 < b_RHOP b * b_Qm b ->
  is_batch_trajectory (b_nr b) (b_NION b) (batch_rhs psdm b (build_radial legendre jacobi (b_nr b))) Tf y ->
  sound_start b (y 0) -> forall T r i, 0 <= T <= Tf -> (1 <= r <= b_nr b)%nat -> (i < b_NION b)%nat -> 0 <= y T r i.
Proof.
  intros legendre jacobi psdm b Tf y HJ WB N2 MV HQ TR SS T r i HT R I.
  destruct (C200_stays_physical legendre jacobi psdm b Tf y HJ WB N2 MV HQ TR SS T HT) as ((A & _) & _). apply A; [lia|exact I].
Qed.
(** It runs to any requested end. *)
From Verif Require Import Props_Exist.
Theorem C200_lasts : forall legendre jacobi (psdm : bool) b u0 Tf,
  jacobi_roots 2 (b_nr b - 1) (jacobi (b_nr b - 1)%nat (5 / 2) (3 / 2)) -> working_batch psdm b -> (b_nr b <= 2)%nat ->
  (forall i, (i < b_NION b)%nat -> b_val b i = 1%nat) -> 0 < b_RHOP b * b_Qm b -> sound_start b u0 -> 0 <= Tf ->
  exists y, is_batch_trajectory (b_nr b) (b_NION b) (batch_rhs psdm b (build_radial legendre jacobi (b_nr b))) Tf y /\
    forall r i, (r <= b_nr b)%nat -> (i < b_NION b)%nat -> y 0 r i = u0 r i.
Proof.
  intros legendre jacobi psdm b u0 Tf HJ WB N2 MV HQ (S0 & S1 & S2) TF. assert (N0 : (0 < b_NION b)%nat) by apply WB. destruct (selK psdm b WB 0%nat N0) as (K1 & K2).
  assert (Hm : 0 < b_Q b / rsum (b_NION b) (b_K b) / 2) by (apply Rdiv_lt_0_compat; [apply Rdiv_lt_0_compat; [exact HQ|lra]|lra]).
  assert (TP := th_pos psdm b WB). set (m := b_Q b / rsum (b_NION b) (b_K b) / 2) in *.
  destruct (C168_batch_lasts psdm b (build_radial legendre jacobi (b_nr b)) Tf u0 ltac:(apply WB) ltac:(apply WB) ltac:(apply WB) TF) as [Y|Y]; [exact Y|]. exfalso.
  destruct (Y (m / btheta psdm b) ltac:(apply Rdiv_lt_0_compat; assumption)) as (T & y & HT & (TR & Y0) & NU). apply NU. clear NU Y.
  assert (P0 : forall r i, (r <= b_nr b)%nat -> (i < b_NION b)%nat -> 0 <= y 0 r i) by (intros r i R I; rewrite Y0 by assumption; apply S0; assumption).
  assert (P1 : rsum (b_NION b) (y 0 0%nat) = b_CT b) by (rewrite (rsum_ext _ _ (u0 0%nat)); [exact S1|]; intros i I; apply Y0; [lia|exact I]).
  assert (P2 : forall r, (1 <= r <= b_nr b)%nat -> rsum (b_NION b) (y 0 r) = b_Q b) by (intros r R; rewrite (rsum_ext _ _ (u0 r)); [apply S2, R|]; intros i I; apply Y0; [lia|exact I]).
  destruct (mono_run legendre jacobi psdm b HJ WB MV m Hm T y N2 TR P0 P1 P2 eq_refl ltac:(lra) T ltac:(lra)) as (_ & _ & _ & _ & D).
  assert (ND : ~ exists j, (j < b_NION b)%nat /\ b_val b j = 2%nat) by (intros (j & J & V); rewrite MV in V by exact J; discriminate V).
  intros [|r] R _; [lia|]. split; [split|]; [|intros X; contradiction|intros X; contradiction]. intros _.
  change (if psdm then 1 - b_EPOR b else 1) with (btheta psdm b).
  rewrite (rsum_ext (b_NION b) (fun j => y T (S r) j / btheta psdm b / b_K b j) (fun j => / btheta psdm b * (y T (S r) j / b_K b j))).
  - rewrite rsum_scal. fold (den b (y T) r). unfold Rdiv at 1. rewrite Rmult_comm. apply Rmult_le_compat_l; [left; apply Rinv_0_lt_compat, TP|]. left. apply D. lia.
  - intros j J. destruct (selK psdm b WB j J). field. lra.
Qed.

(** Two ions settle. *)
From Verif Require Import Lib_Settle S_IxColumn Props_IxColumn Props_IxBatch Props_Binary.
Theorem C195_two_points_settle : forall legendre jacobi (psdm : bool) b y,
  good_roots legendre jacobi -> jacobi_roots 2 (b_nr b - 1) (jacobi (b_nr b - 1)%nat (5 / 2) (3 / 2)) ->
  working_batch psdm b -> (b_nr b <= 2)%nat -> b_NION b = 2%nat -> b_val b 0%nat = 1%nat -> b_val b 1%nat = 1%nat -> 0 < b_RHOP b * b_Qm b ->
  let op := build_radial legendre jacobi (b_nr b) in
  (forall Tf, is_batch_trajectory (b_nr b) 2 (batch_rhs psdm b op) Tf y) ->
  sound_start b (y 0) -> (forall r, (1 <= r <= b_nr b)%nat -> 0 < y 0 r 0%nat) ->
  exists q C : nat -> R,
  (forall i, (i < 2)%nat -> vanishes (fun T => y T 0%nat i - C i) /\ forall r, (1 <= r <= b_nr b)%nat -> vanishes (fun T => y T r i - q i)) /\
  (forall i, (i < 2)%nat -> 0 <= q i /\ 0 <= C i) /\
  in_equilibrium 2 (b_K b) (b_val b) (fun i => q i / (if psdm then 1 - b_EPOR b else 1)) C /\
  rsum 2 C = rsum 2 (b_C0 b) /\ rsum 2 q = b_RHOP b * b_Qm b /\
  (forall i, (i < 2)%nat -> b_VL b * C i + b_VR b * q i = amount (b_nr b) (rWr op) (b_VL b) (b_VR b) (y 0) i).
Proof.
  intros legendre jacobi psdm b y HG HJ WB N2 E V0 V1 HQ op TR SS PP.
  assert (MV : forall i, (i < b_NION b)%nat -> b_val b i = 1%nat) by (rewrite E; intros [|[|i]] I; [exact V0|exact V1|lia]).
  apply (C195_two_ions_settle legendre jacobi psdm b y HG HJ WB E). fold op. assert (SS' := SS). destruct SS' as (A0 & A1 & A2). rewrite E in A1, A2.
  split; [exact TR|]. split; [exact A1|]. split; [exact A2|]. intros T r HT R _.
  destruct (C200_stays_physical legendre jacobi psdm b T y HJ WB N2 MV HQ ltac:(rewrite E; apply TR) SS T ltac:(lra)) as ((B0 & _) & _ & B2).
  split; [apply B2; [exact R|lia|apply PP, R]|apply B0; lia].
Qed.
(** The start that the code makes is one. *)
Theorem C200_fresh_start : forall (psdm : bool) b, working_batch psdm b -> (forall i, (i < b_NION b)%nat -> b_val b i = 1%nat) -> 0 < b_RHOP b * b_Qm b ->
  (forall i, (i < b_NION b)%nat -> 0 <= b_C0 b i) ->
  sound_start b (batch_initial b) /\ forall r, (1 <= r <= b_nr b)%nat -> 0 < batch_initial b r 0%nat.
Proof.
  intros psdm b WB MV HQ HC. assert (HD := mono_has (b_NION b) (b_val b) MV). assert (N0 : (0 < b_NION b)%nat) by apply WB. change (0 < b_Q b) in HQ. split; [split; [|split]|].
  - intros [|r] i R I; cbn [batch_initial]; [apply HC, I|]. rewrite HD. destruct (Nat.eqb i 0); lra.
  - reflexivity.
  - intros [|r] R; [lia|]. apply C19_batch_start_total; [exact N0|apply MV, N0].
  - intros [|r] R; [lia|]. cbn [batch_initial Nat.eqb]. rewrite HD. exact HQ.
Qed.
Print Assumptions C200_stays_physical.
Print Assumptions C200_lasts.
Print Assumptions C196_batch_two_points_partial.
Print Assumptions C195_two_points_settle.
Print Assumptions C200_fresh_start.

(** Three monovalent ions on two radial points. *)
From Verif Require Import P_JacobiRoots.
Definition glass : batch :=
  {| b_NION := 3; b_nr := 2; b_Qm := 2; b_RHOP := 1; b_EPOR := 1 / 2; b_VR := 1; b_VL := 10;
     b_Ds := 1; b_Dp := 2; b_kL := 1; b_rb := 1; b_C0 := fun _ => 1; b_K := fun i => INR (S i); b_val := fun _ => 1%nat |}.
Example a_glass : forall (psdm : bool) Tf, 0 <= Tf -> exists jacobi y, jacobi_roots 2 1 (jacobi 1%nat (5 / 2) (3 / 2)) /\ working_batch psdm glass /\
  is_batch_trajectory 2 3 (batch_rhs psdm glass (build_radial (fun _ _ => 0) jacobi 2)) Tf y /\
  (forall r i, (r <= 2)%nat -> (i < 3)%nat -> y 0 r i = batch_initial glass r i) /\ sound_start glass (batch_initial glass) /\
  forall T r i, 0 <= T <= Tf -> (1 <= r <= 2)%nat -> (i < 3)%nat -> 0 <= y T r i <= 2.
Proof.
  intros psdm Tf HT. destruct (jacobi_exist 2 1) as (r & Hr). exists (fun _ _ _ => r).
  assert (SK : selectivities 3 (b_K glass)) by (intros i _; cbn [b_K glass]; apply lt_0_INR; lia).
  assert (WB : working_batch psdm glass) by (repeat split; try (cbn; lia); try (cbn; lra); try exact SK; intros; left; reflexivity).
  assert (MV : forall i, (i < b_NION glass)%nat -> b_val glass i = 1%nat) by reflexivity.
  assert (HQ : 0 < b_RHOP glass * b_Qm glass) by (cbn; lra).
  destruct (C200_fresh_start psdm glass WB MV HQ) as (SS & _); [intros; cbn; lra|].
  destruct (C200_lasts (fun _ _ => 0) (fun _ _ _ => r) psdm glass (batch_initial glass) Tf Hr WB ltac:(cbn; lia) MV HQ SS HT) as (y & TR & Y0).
  exists y. split; [exact Hr|]. split; [exact WB|]. split; [exact TR|]. split; [exact Y0|]. split; [exact SS|].
  assert (S0 : sound_start glass (y 0)).
  { destruct SS as (A0 & A1 & A2). split; [|split].
    - intros k i K I. rewrite Y0 by assumption. apply A0; assumption.
    - rewrite <- A1. apply rsum_ext. intros i I. apply Y0; [cbn; lia|exact I].
    - intros k K. rewrite <- (A2 k K). apply rsum_ext. intros i I. apply Y0; [cbn in K |- *; lia|exact I]. }
  intros T k i HTT K I. destruct (C200_stays_physical (fun _ _ => 0) (fun _ _ _ => r) psdm glass Tf y Hr WB ltac:(cbn; lia) MV HQ TR S0 T HTT) as ((B0 & _) & B1 & _).
  split; [apply B0; cbn; lia|]. replace 2 with (b_RHOP glass * b_Qm glass) by (cbn; ring). apply (B1 i I), K.
Qed.
(** The endless run of [ex_batch] meets the hypotheses of [C195_two_points_settle]. *)
Example ex_settles : forall psdm : bool, good_roots even_roots (fun m _ _ => even_roots m) /\ jacobi_roots 2 0 (even_roots 0) /\ working_batch psdm ex_batch /\
  (forall Tf, is_batch_trajectory 1 2 (batch_rhs psdm ex_batch ex_op) Tf ex_run) /\ sound_start ex_batch (ex_run 0) /\ forall r, (1 <= r <= 1)%nat -> 0 < ex_run 0 r 0%nat.
Proof.
  intros psdm. destruct (ex_two_ion_run psdm) as (A1 & A2 & A3 & (A4 & _) & A5). split; [exact A1|]. split; [exact A2|]. split; [exact A3|]. split; [exact A4|]. rewrite A5.
  apply (C200_fresh_start psdm ex_batch A3); [reflexivity|cbn; lra|]. intros [|[|i]] I; cbn; lra.
Qed.
