(** Batch reactors with divalent ions on one or two radial points: what a run keeps. *)
From Coq Require Import Reals List Arith Bool Lra Lia.
From Verif Require Import Lib_Py Lib_Sum Lib_Traj Lib_Exist S_Colloc M_Colloc P_Colloc S_Radial P_Radial P_RadialSign Props_Negative.
From Verif Require Import M_IxEq S_IxEq M_IxBatch S_IxBatch P_IxEq P_IxUnique P_IxBatch S_Unique Props_PacBound Props_Rest P_Coop Props_InsideBatch Props_BatchTwo P_EntropyDv.
Import ListNotations.
Open Scope R_scope.

Lemma bool_two (x : bool) : x = true \/ x = false.
Proof. destruct x; [left|right]; reflexivity. Qed.
Section Dv.
Variables (legendre : nat -> nat -> R) (jacobi : nat -> R -> R -> nat -> R).
Variables (psdm : bool) (b : batch).
Let op := build_radial legendre jacobi (b_nr b).
Let nr := b_nr b.
Let n := b_NION b.
Hypothesis HJ : jacobi_roots 2 (nr - 1) (jacobi (nr - 1)%nat (5 / 2) (3 / 2)).
Hypothesis WB : working_batch psdm b.
Hypothesis DV : exists j, (j < n)%nat /\ b_val b j = 2%nat.
Let th : R := btheta psdm b.
Let CT := b_CT b.
(** selectivities of the loadings as the equilibrium reads them *)
Definition dK (i : nat) : R := if Nat.eqb i 0 then th else th * b_K b i.
Definition da (v : bstate) (r : nat) : R := ea n (b_val b) dK (v (S r)).
Definition dd (v : bstate) (r : nat) : R := ed n (b_val b) dK (v (S r)).
Definition dp (v : bstate) (r : nat) : R := ep n (b_val b) dK CT (v (S r)).
Definition dshare (v : bstate) (r i : nat) : R := dp v r ^ b_val b i / dK i.
Definition dspeed (v : bstate) (r i : nat) : R := (if psdm then b_EPOR b * (b_Dp b - b_Ds b) * dshare v r i + b_Ds b else b_Ds b) / b_rb b ^ 2.
Let film (v : bstate) (i : nat) : R := b_kL b * (v 0%nat i - dshare v (nr - 1) i * v nr i).
(** the equilibrium has one meaning *)
Definition clear (v : bstate) (r : nat) : Prop := 0 < v (S r) 0%nat /\ 0 < da v r /\ 0 < dd v r.
Let TP : 0 < th := th_pos psdm b WB.
Let CP : 0 < CT := ct_pos psdm b WB.
Lemma th_pores : psdm = true -> th = 1 - b_EPOR b.
Proof. intros E. unfold th, btheta. rewrite E. reflexivity. Qed.
Lemma th_plain : psdm = false -> th = 1.
Proof. intros E. unfold th, btheta. rewrite E. reflexivity. Qed.
Lemma kinds : psdm = true \/ psdm = false.
Proof. apply bool_two. Qed.
Lemma dK_pos i : (i < n)%nat -> 0 < dK i.
Proof. intros I. unfold dK. destruct (Nat.eqb i 0); [exact TP|]. apply Rmult_lt_0_compat; [exact TP|apply WB; exact I]. Qed.
Lemma dv_has : has_divalent (b_NION b) (b_val b) = true.
Proof. apply has_divalent_exists. exact DV. Qed.
Lemma dp_root v r : clear v r -> 0 < dp v r /\ da v r * dp v r ^ 2 + dd v r * dp v r = CT.
Proof. intros (_ & A & D). apply ratio_root; try lra; exact CP. Qed.
Lemma sums v r q : (forall j, (j < n)%nat -> q j = v (S r) j / th) ->
  masked_sum n (dv_idx (b_val b)) (fun i => q i / b_K b i) = da v r /\ q 0%nat + masked_sum n (mv_idx (b_val b)) (fun i => q i / b_K b i) = dd v r.
Proof.
  intros E. assert (N0 : (0 < n)%nat) by apply WB. assert (Z0 : b_val b 0%nat = 1%nat) by apply WB. assert (Hz : forall i, (i < n)%nat -> b_val b i = 1%nat \/ b_val b i = 2%nat) by apply WB. split.
  - unfold masked_sum, da, ea, dv_idx. apply rsum_ext. intros i I. destruct (Nat.eqb_spec (b_val b i) 2) as [V|V]; [|reflexivity]. assert (i <> 0%nat) by (intros ->; rewrite Z0 in V; discriminate V).
    rewrite (E i I). unfold dK. destruct (Nat.eqb_spec i 0); [contradiction|]. assert (0 < b_K b i) by (apply WB; exact I). field. lra.
  - unfold masked_sum, dd, ed, mv_idx. rewrite (rsum_split_at n (fun j => if Nat.eqb (b_val b j) 2 then 0 else v (S r) j / dK j) 0 N0). rewrite Z0. cbn [Nat.eqb].
    f_equal; [rewrite (E 0%nat N0); reflexivity|]. apply rsum_ext. intros i I. destruct (Nat.eq_dec i 0) as [->|NE]; [rewrite Z0; reflexivity|].
    destruct (Hz i I) as [V|V]; rewrite V; cbn [Nat.eqb andb]; [|reflexivity]. destruct (Nat.eqb_spec i 0); [contradiction|]. cbn [negb]. rewrite (E i I). unfold dK. destruct (Nat.eqb_spec i 0); [contradiction|]. assert (0 < b_K b i) by (apply WB; exact I). field. lra.
Qed.
Lemma dv_eq v r q : clear v r -> (forall j, (j < n)%nat -> q j = v (S r) j / th) ->
  exists C, calc_Ceq_batch (b_NION b) (b_K b) (b_val b) q (b_CT b) = Some C /\ forall i, (i < n)%nat -> C i = dshare v r i * v (S r) i.
Proof.
  intros CL E. destruct (sums v r q E) as (SA & SD). destruct (dp_root v r CL) as (PP & ER). destruct CL as (V0 & A & D). assert (N0 : (0 < n)%nat) by apply WB. assert (Z0 : b_val b 0%nat = 1%nat) by apply WB.
  assert (Q0 : 0 < q 0%nat) by (rewrite (E 0%nat N0); apply Rdiv_lt_0_compat; assumption). set (x := q 0%nat) in *. set (p := dp v r) in *.
  assert (AA : eq_aa n (b_K b) (b_val b) q = da v r / x ^ 2) by (unfold eq_aa; rewrite SA; reflexivity).
  assert (BB : eq_bb n (b_K b) (b_val b) q = dd v r / x) by (unfold eq_bb; rewrite <- SD; unfold x; field; unfold x in Q0; lra).
  unfold calc_Ceq_batch. rewrite dv_has. unfold Ceq_dv_batch. cbv zeta. fold n. rewrite AA, BB.
  assert (AP : 0 < da v r / x ^ 2) by (apply Rdiv_lt_0_compat; [exact A|apply pow_lt, Q0]).
  unfold reqb. destruct (Req_EM_T (da v r / x ^ 2) 0) as [N|_]; [lra|]. eexists. split; [reflexivity|].
  assert (ROOT : (- (dd v r / x) + sqrt ((dd v r / x) ^ 2 - 4 * (da v r / x ^ 2) * - CT)) / (2 * (da v r / x ^ 2)) = x * p).
  { replace ((dd v r / x) ^ 2 - 4 * (da v r / x ^ 2) * - CT) with ((2 * (da v r / x ^ 2) * (x * p) + dd v r / x) ^ 2) by (rewrite <- ER; field; lra).
    rewrite sqrt_pow2; [field; split; lra|]. assert (0 < da v r / x ^ 2 * (x * p)) by (apply Rmult_lt_0_compat; [exact AP|apply Rmult_lt_0_compat; assumption]). assert (0 < dd v r / x) by (apply Rdiv_lt_0_compat; assumption). lra. }
  fold CT. rewrite ROOT. intros i I. unfold mass_action, dshare, dK. fold p. destruct (Nat.eqb_spec i 0) as [->|NE].
  - rewrite Z0. unfold x. rewrite (E 0%nat N0). field. lra.
  - fold x. replace (x * p / x) with p by (field; lra). rewrite (E i I). assert (0 < b_K b i) by (apply WB; exact I). field. lra.
Qed.
Lemma pore_some v : (forall r, (r < nr)%nat -> clear v r) -> psdm = true -> forall k, (k <= nr)%nat -> exists P, pore_liquid b v k = Some P.
Proof.
  intros CL EP. induction k as [|k IH]; intros K; [eexists; reflexivity|]. destruct (IH ltac:(lia)) as (P & E). cbn [pore_liquid]. rewrite E.
  destruct (dv_eq v k (fun i => v (S k) i / (1 - b_EPOR b)) (CL k ltac:(lia))) as (C & EC & _); [intros; rewrite (th_pores EP); reflexivity|]. rewrite EC. eexists. reflexivity.
Qed.
Lemma dv_some v : (forall r, (r < nr)%nat -> clear v r) -> exists d, batch_rhs psdm b op v = Some d.
Proof.
  intros CL. assert (N1 : (1 <= nr)%nat) by apply WB. assert (SR : (S (nr - 1) = nr)%nat) by lia. assert (CX := CL (nr - 1)%nat ltac:(lia)). assert (PS := pore_some v CL). assert (EQ := dv_eq v (nr - 1)). rewrite SR in EQ.
  unfold batch_rhs. destruct kinds as [K|K]; rewrite K.
  - destruct (PS K nr (le_n _)) as (P & EP). unfold diffun_psdm_batch. fold nr. rewrite EP. rewrite (th_pores K) in EQ.
    destruct (EQ (fun i => v nr i / (1 - b_EPOR b)) CX (fun j _ => eq_refl)) as (C & EC & _). rewrite EC. eexists. reflexivity.
  - unfold diffun_hsdm_batch. fold nr. rewrite (th_plain K) in EQ. destruct (EQ (v nr) CX) as (C & EC & _); [intros; field|]. rewrite EC. eexists. reflexivity.
Qed.
Lemma dv_rates v d : batch_rhs psdm b op v = Some d -> (forall r, (r < nr)%nat -> clear v r) -> forall i, (i < n)%nat ->
  d 0%nat i = - (3 * b_VR b / b_rb b) * film v i / b_VL b /\
  (forall r, (r < nr - 1)%nat -> d (S r) i = rsum nr (fun m => rBr op r m * (dspeed v m i * v (S m) i))) /\
  d nr i = (film v i / b_rb b - rsum (nr - 1) (fun k => rWr op k * rsum nr (fun m => rBr op k m * (dspeed v m i * v (S m) i)))) / rWr op (nr - 1)%nat.
Proof.
  intros E D i I. assert (HR : 0 < b_rb b) by apply WB. assert (HL : 0 < b_VL b) by apply WB. assert (NR : (1 <= nr)%nat) by apply WB. assert (SR : (S (nr - 1) = nr)%nat) by lia.
  assert (Z : exists Ceq dq, d = batch_assemble b op v Ceq dq /\ Ceq i = dshare v (nr - 1) i * v nr i /\ forall r, dq r i = rsum nr (fun m => rBr op r m * (dspeed v m i * v (S m) i))).
  { assert (CX := D (nr - 1)%nat ltac:(lia)). assert (ME := fun r R q => dv_eq v r q (D r R)). unfold batch_rhs in E. unfold dspeed.
    assert (EQ := ME (nr - 1)%nat ltac:(lia)). rewrite SR in EQ. destruct kinds as [KI|KI]; rewrite KI in E |- *.
    - rewrite (th_pores KI) in EQ, ME. unfold diffun_psdm_batch in E. fold nr in E. destruct (EQ (fun i => v nr i / (1 - b_EPOR b)) (fun j _ => eq_refl)) as (C & EC & HC). rewrite EC in E. destruct (pore_liquid b v nr) as [P|] eqn:EP; [|discriminate E].
      apply some_eq in E. subst d. eexists _, _. split; [reflexivity|]. split; [apply HC, I|].
      intros r. cbv beta. fold nr.
      rewrite (rsum_ext nr (fun m => rBr op r m * P m i) (fun m => rBr op r m * (dshare v m i * v (S m) i))).
      2:{ intros m M. f_equal. assert (X := pore_at b v _ P EP m M). destruct (ME m M (fun i => v (S m) i / (1 - b_EPOR b)) (fun j _ => eq_refl)) as (C1 & EC1 & HC1). rewrite EC1 in X. apply some_eq in X. rewrite <- X. apply HC1, I. }
      rewrite <- !rsum_scal, <- rsum_plus. unfold Rdiv at 1. rewrite Rmult_comm, <- rsum_scal. apply rsum_ext. intros m _. unfold Rdiv. ring.
    - rewrite (th_plain KI) in EQ. unfold diffun_hsdm_batch in E. fold nr in E. destruct (EQ (v nr)) as (C & EC & HC); [intros; field|]. rewrite EC in E. apply some_eq in E. subst d. eexists _, _. split; [reflexivity|]. split; [apply HC, I|].
      intros r. cbv beta. fold nr. rewrite <- rsum_scal. apply rsum_ext. intros m _. field. apply Rgt_not_eq, HR. }
  destruct Z as (Ceq & dq & -> & EC & ED). unfold batch_assemble, film. cbv zeta. rewrite <- EC. split; [|split].
  - field. lra.
  - intros r R. fold nr. destruct (Nat.eqb_spec r (nr - 1)); [lia|]. apply ED.
  - rewrite <- SR at 1. fold nr. rewrite Nat.eqb_refl.
    rewrite (rsum_ext (nr - 1) (fun m => rWr op m * dq m i) (fun k => rWr op k * rsum nr (fun m => rBr op k m * (dspeed v m i * v (S m) i)))) by (intros m _; rewrite ED; reflexivity).
    f_equal. f_equal. field. lra.
Qed.

(** bounds *)
Variable m : R.
Hypothesis Hm : 0 < m.
Definition fine (v : bstate) (r : nat) : Prop := clear v r /\ m < eden n dK (v (S r)).
Let p1 : R := Rmax 1 (CT / m).
Let smax (i : nat) : R := p1 ^ 2 / dK i.
Let fmax (i : nat) : R := (if psdm then b_EPOR b * (b_Dp b - b_Ds b) * smax i + b_Ds b else b_Ds b) / b_rb b ^ 2.
Lemma dp_high v r : fine v r -> 0 < dp v r <= p1.
Proof.
  intros (CL & M). destruct (dp_root v r CL) as (P & E). split; [exact P|]. destruct CL as (_ & A & D). rewrite <- (ea_ed n (b_val b)) in M. fold (da v r) in M. fold (dd v r) in M.
  destruct (Rle_lt_dec (dp v r) 1) as [L|L]; [apply Rle_trans with 1; [exact L|apply Rmax_l]|]. apply Rle_trans with (CT / m); [|apply Rmax_r].
  apply (Rmult_le_reg_r m); [exact Hm|]. replace (CT / m * m) with CT by (field; lra). rewrite <- E.
  assert (da v r * dp v r <= da v r * dp v r ^ 2) by (apply Rmult_le_compat_l; [lra|]; assert (dp v r * 1 <= dp v r * dp v r) by (apply Rmult_le_compat_l; lra); lra).
  assert (dp v r * m <= dp v r * (da v r + dd v r)) by (apply Rmult_le_compat_l; lra). lra.
Qed.
Lemma dshare_between v r i : (i < n)%nat -> fine v r -> 0 <= dshare v r i <= smax i.
Proof.
  intros I F. destruct (dp_high v r F) as (P & H). assert (O : 1 <= p1) by apply Rmax_l. assert (KI := Rinv_0_lt_compat _ (dK_pos i I)).
  assert (X : 0 <= dp v r ^ b_val b i <= p1 ^ 2).
  { split; [apply pow_le; lra|]. assert (p1 * 1 <= p1 * p1) by (apply Rmult_le_compat_l; lra). assert (Hz : b_val b i = 1%nat \/ b_val b i = 2%nat) by (apply WB; exact I). destruct Hz as [-> | ->]; [rewrite pow_1; lra|apply pow_incr; lra]. }
  unfold dshare, smax, Rdiv. split; [apply Rmult_le_pos; lra|apply Rmult_le_compat_r; lra].
Qed.
Lemma smax_nonneg i : (i < n)%nat -> 0 <= smax i.
Proof. intros I. unfold smax. apply Rmult_le_pos; [apply pow2_ge_0|left; apply Rinv_0_lt_compat, dK_pos, I]. Qed.
Lemma dspeed_between v r i : (i < n)%nat -> fine v r -> 0 <= dspeed v r i <= fmax i.
Proof.
  intros I D. destruct (dshare_between v r i I D) as (S0 & S1). assert (W := WB). destruct W as (_ & _ & _ & _ & HR & _ & _ & _ & HD & HE & _).
  assert (IR : 0 < / b_rb b ^ 2) by (apply Rinv_0_lt_compat, pow_lt, HR). unfold dspeed, fmax. revert S0 S1. generalize (dshare v r i) (smax i). intros s sm S0 S1. destruct kinds as [KI|KI]; rewrite KI.
  - destruct (HE KI) as (E1 & E2). assert (0 <= b_EPOR b * (b_Dp b - b_Ds b)) by (apply Rmult_le_pos; lra).
    assert (0 <= b_EPOR b * (b_Dp b - b_Ds b) * s) by (apply Rmult_le_pos; lra).
    split; [apply Rmult_le_pos; lra|]. apply Rmult_le_compat_r; [lra|]. apply Rplus_le_compat_r. apply Rmult_le_compat_l; lra.
  - split; [apply Rmult_le_pos; lra|lra].
Qed.
Lemma fmax_nonneg i : (i < n)%nat -> 0 <= fmax i.
Proof.
  intros I. assert (SM := smax_nonneg i I). assert (W := WB). destruct W as (_ & _ & _ & _ & HR & _ & _ & _ & HD & HE & _). unfold fmax. revert SM. generalize (smax i). intros s SM.
  apply Rmult_le_pos; [|left; apply Rinv_0_lt_compat, pow_lt, HR]. destruct kinds as [KI|KI]; rewrite KI; [|lra]. destruct (HE KI) as (X1 & X2).
  assert (0 <= b_EPOR b * (b_Dp b - b_Ds b) * s) by (apply Rmult_le_pos; [apply Rmult_le_pos; lra|exact SM]). lra.
Qed.
Let c0 : R := 3 * b_VR b / b_rb b * b_kL b / b_VL b.
Lemma dc0_pos : 0 < c0.
Proof. assert (W := WB). destruct W as (_ & _ & _ & _ & HR & HL & HV & HK & _). unfold c0. apply Rdiv_lt_0_compat; [|exact HL]. apply Rmult_lt_0_compat; [|exact HK]. apply Rdiv_lt_0_compat; lra. Qed.
Let h : R := b_kL b / b_rb b / rWr op (nr - 1)%nat.
Let NR1 : (1 <= nr)%nat. Proof. apply WB. Qed.
Let w_pos := w_pos legendre jacobi b HJ.
Lemma dh_pos : 0 < h.
Proof. assert (N := NR1). assert (W := WB). destruct W as (_ & _ & _ & _ & HR & _ & _ & HK & _). unfold h. apply Rdiv_lt_0_compat; [apply Rdiv_lt_0_compat; assumption|apply w_pos; unfold nr in N |- *; lia]. Qed.
Hypothesis N2 : (nr <= 2)%nat.
(** no loading is lost faster than in proportion *)
Lemma loss i : (i < n)%nat -> exists L, 0 <= L /\ forall v d r, batch_rhs psdm b op v = Some d -> (forall k, (k < nr)%nat -> fine v k) -> (forall k, (k <= nr)%nat -> 0 <= v k i) ->
  (1 <= r <= nr)%nat -> - L * v r i <= d r i.
Proof.
  intros I. assert (N := NR1). assert (H := dh_pos). assert (HR : 0 < b_rb b) by apply WB. assert (WS : 0 < rWr op (nr - 1)%nat) by (apply w_pos; unfold nr in N |- *; lia).
  assert (SM := smax_nonneg i I). assert (FM := fmax_nonneg i I).
  assert (CASE : nr = 1%nat \/ nr = 2%nat) by lia. destruct CASE as [E1|E2].
  - exists (h * smax i). split; [apply Rmult_le_pos; lra|]. intros v d r E F NN R. destruct (dv_rates v d E (fun k K => proj1 (F k K)) i I) as (_ & _ & R1). unfold film in R1. assert (ER : r = nr) by lia. rewrite ER.
    assert (Y0 := NN 0%nat ltac:(lia)). assert (Y1 := NN nr ltac:(lia)). assert (S1 := dshare_between v (nr - 1) i I (F (nr - 1)%nat ltac:(lia))).
    assert (0 <= h * v 0%nat i) by (apply Rmult_le_pos; lra). assert (0 <= (smax i - dshare v (nr - 1) i) * v nr i) by (apply Rmult_le_pos; lra).
    assert (0 <= h * ((smax i - dshare v (nr - 1) i) * v nr i)) by (apply Rmult_le_pos; lra).
    replace (d nr i) with (h * v 0%nat i - h * (dshare v (nr - 1) i * v nr i)); [lra|]. rewrite R1, E1. change (1 - 1)%nat with 0%nat. cbn [rsum]. unfold h. rewrite E1 in WS |- *. change (1 - 1)%nat with 0%nat in WS |- *. field. lra.
  - destruct (radial2 legendre jacobi b HJ E2) as (be & BP & B0 & B1). fold op in B0, B1. assert (W0 : 0 < rWr op 0%nat) by (apply w_pos; unfold nr in N; lia).
    set (w := rWr op 0%nat / rWr op (nr - 1)%nat * be). assert (WP : 0 < w) by (unfold w; apply Rmult_lt_0_compat; [apply Rdiv_lt_0_compat; assumption|exact BP]).
    assert (K1 : 0 <= h * smax i) by (apply Rmult_le_pos; lra). assert (K2 : 0 <= w * fmax i) by (apply Rmult_le_pos; lra). assert (K3 : 0 <= be * fmax i) by (apply Rmult_le_pos; lra).
    exists (h * smax i + w * fmax i + be * fmax i). split; [lra|]. intros v d r E F NN R. destruct (dv_rates v d E (fun k K => proj1 (F k K)) i I) as (_ & R1 & R2). specialize (R1 0%nat ltac:(lia)). unfold film in R2.
    rewrite E2 in R1, R2. change (2 - 1)%nat with 1%nat in R2. cbn [rsum] in R1, R2. rewrite B0, B1 in R1, R2.
    assert (Y0 := NN 0%nat ltac:(lia)). assert (Y1 := NN 1%nat ltac:(lia)). assert (Y2 := NN 2%nat ltac:(lia)). assert (F0 := dspeed_between v 0 i I (F 0%nat ltac:(lia))). assert (F1 := dspeed_between v 1 i I (F 1%nat ltac:(lia))). assert (S1 := dshare_between v 1 i I (F 1%nat ltac:(lia))).
    assert (CR : r = 1%nat \/ r = 2%nat) by lia. destruct CR as [->| ->].
    + rewrite R1.
      assert (0 <= be * (dspeed v 1 i * v 2%nat i)) by (apply Rmult_le_pos; [lra|apply Rmult_le_pos; lra]).
      assert (0 <= be * ((fmax i - dspeed v 0 i) * v 1%nat i)) by (apply Rmult_le_pos; [lra|apply Rmult_le_pos; lra]). assert (0 <= (h * smax i + w * fmax i) * v 1%nat i) by (apply Rmult_le_pos; lra). lra.
    + assert (0 <= h * v 0%nat i) by (apply Rmult_le_pos; lra).
      assert (0 <= h * ((smax i - dshare v 1 i) * v 2%nat i)) by (apply Rmult_le_pos; [lra|apply Rmult_le_pos; lra]).
      assert (0 <= w * (dspeed v 0 i * v 1%nat i)) by (apply Rmult_le_pos; [lra|apply Rmult_le_pos; lra]).
      assert (0 <= w * ((fmax i - dspeed v 1 i) * v 2%nat i)) by (apply Rmult_le_pos; [lra|apply Rmult_le_pos; lra]). assert (0 <= be * fmax i * v 2%nat i) by (apply Rmult_le_pos; lra).
      replace (d 2%nat i) with (h * v 0%nat i - h * (dshare v 1 i * v 2%nat i) - w * (dspeed v 1 i * v 2%nat i) + w * (dspeed v 0 i * v 1%nat i)); [lra|].
      rewrite R2. unfold h, w. rewrite E2 in WS |- *. change (2 - 1)%nat with 1%nat in WS |- *. field. lra.
Qed.

Section Run.
Variables (Tf : R) (y : R -> nat -> nat -> R).
Hypothesis TR : is_batch_trajectory nr n (batch_rhs psdm b op) Tf y.
Hypothesis P0 : forall r i, (r <= nr)%nat -> (i < n)%nat -> 0 <= y 0 r i.
Section Until.
Variable T1 : R.
Hypothesis HT1 : 0 <= T1 <= Tf.
Hypothesis FINE : forall t r, 0 < t < T1 -> (r < nr)%nat -> fine (y t) r.
Lemma dv_nonneg r i t : (r <= nr)%nat -> (i < n)%nat -> 0 <= t <= T1 -> 0 <= y t r i.
Proof.
  intros R I T. assert (N := NR1). assert (C := dc0_pos). assert (H := dh_pos). destruct TR as (d & DD & EV). assert (HR : 0 < b_rb b) by apply WB. assert (HL : 0 < b_VL b) by apply WB.
  assert (EV1 : forall r, (r <= nr)%nat -> evolves 0 T1 (fun t => y t r i) (fun t => d t r i)) by (intros k Hk; apply (evolves_sub 0 Tf); [lra|apply EV; assumption]).
  assert (RT : forall t, 0 < t < T1 -> _) by (intros s S; exact (dv_rates (y s) (d s) (DD s ltac:(lra)) (fun k Hk => proj1 (FINE s k S Hk)) i I)).
  assert (SB : forall s k, 0 < s < T1 -> (k < nr)%nat -> 0 <= dshare (y s) k i <= smax i) by (intros s k S Hk; apply dshare_between; [exact I|apply FINE; assumption]).
  assert (FB : forall s k, 0 < s < T1 -> (k < nr)%nat -> 0 <= dspeed (y s) k i <= fmax i) by (intros s k S Hk; apply dspeed_between; [exact I|apply FINE; assumption]).
  assert (WS : 0 < rWr op (nr - 1)%nat) by (apply w_pos; unfold nr in N |- *; lia). assert (SM := smax_nonneg i I). assert (FM := fmax_nonneg i I).
  assert (CASE : nr = 1%nat \/ nr = 2%nat) by lia. destruct CASE as [E1|E2].
  - set (A := fun t (k j : nat) => match k, j with 0%nat, 0%nat => - c0 | 0%nat, _ => c0 * dshare (y t) 0 i | _, 0%nat => h | _, _ => - h * dshare (y t) 0 i end).
    apply (cooperative 0 T1 (c0 * smax i + h) 2 (fun k t => y t k i) (fun _ _ => 0) A); try lia; try exact T.
    + intros k K2. assert (KN : (k <= nr)%nat) by lia. eapply evolves_ext; [reflexivity| |apply (EV1 k KN)]. intros s S. cbv beta. destruct (RT s S) as (R0 & _ & R1). unfold film in R0, R1. rewrite E1 in R0, R1. cbn [Nat.sub rsum] in R0, R1.
      destruct k as [|[|k]]; [| |lia]; cbn [rsum A].
      * rewrite R0. unfold c0. field. lra.
      * rewrite R1. unfold h. rewrite E1 in WS |- *. cbn [Nat.sub] in WS |- *. field. lra.
    + intros. lra.
    + intros s k j S KK JJ NE. assert (X := SB s 0%nat S ltac:(lia)). assert (0 <= c0 * dshare (y s) 0 i) by (apply Rmult_le_pos; lra). unfold A. destruct k as [|[|k]], j as [|[|j]]; try lia; lra.
    + assert (0 <= c0 * smax i) by (apply Rmult_le_pos; lra). lra.
    + intros s k j S _ _. assert (X := SB s 0%nat S ltac:(lia)). assert (0 <= c0 * smax i) by (apply Rmult_le_pos; lra). assert (c0 * dshare (y s) 0 i <= c0 * smax i) by (apply Rmult_le_compat_l; lra).
      assert (0 <= h * dshare (y s) 0 i) by (apply Rmult_le_pos; lra). unfold A. destruct k, j; lra.
    + intros k K2. apply P0; [lia|exact I].
  - destruct (radial2 legendre jacobi b HJ E2) as (be & BP & B0 & B1). fold op in B0, B1. assert (W0 : 0 < rWr op 0%nat) by (apply w_pos; unfold nr in N; lia).
    set (w := rWr op 0%nat / rWr op (nr - 1)%nat * be). assert (WP : 0 < w) by (unfold w; apply Rmult_lt_0_compat; [apply Rdiv_lt_0_compat; assumption|exact BP]).
    set (A := fun t (k j : nat) => match k, j with
       | 0%nat, 0%nat => - c0 | 0%nat, 1%nat => 0 | 0%nat, _ => c0 * dshare (y t) 1 i
       | 1%nat, 0%nat => 0 | 1%nat, 1%nat => - (be * dspeed (y t) 0 i) | 1%nat, _ => be * dspeed (y t) 1 i
       | _, 0%nat => h | _, 1%nat => w * dspeed (y t) 0 i | _, _ => - (h * dshare (y t) 1 i + w * dspeed (y t) 1 i) end).
    assert (K1 : 0 <= c0 * smax i) by (apply Rmult_le_pos; lra). assert (K2 : 0 <= be * fmax i) by (apply Rmult_le_pos; lra). assert (K3 : 0 <= w * fmax i) by (apply Rmult_le_pos; lra).
    apply (cooperative 0 T1 (c0 * smax i + h + be * fmax i + w * fmax i) 3 (fun k t => y t k i) (fun _ _ => 0) A); try lia; try exact T.
    + intros k K3'. assert (KN : (k <= nr)%nat) by lia. eapply evolves_ext; [reflexivity| |apply (EV1 k KN)]. intros s S. cbv beta. destruct (RT s S) as (R0 & R1 & R2). specialize (R1 0%nat ltac:(lia)). unfold film in R0, R2. rewrite E2 in R0, R1, R2. cbn [Nat.sub rsum] in R0, R1, R2. rewrite B0, B1 in R1, R2.
      destruct k as [|[|[|k]]]; [| | |lia]; cbn [rsum A].
      * rewrite R0. unfold c0. field. lra.
      * rewrite R1. ring.
      * rewrite R2. unfold h, w. rewrite E2 in WS |- *. cbn [Nat.sub] in WS |- *. field. lra.
    + intros. lra.
    + intros s k j S KK JJ NE. assert (X0 := SB s 1%nat S ltac:(lia)). assert (X1 := FB s 0%nat S ltac:(lia)). assert (X2 := FB s 1%nat S ltac:(lia)). 
      assert (0 <= c0 * dshare (y s) 1 i) by (apply Rmult_le_pos; lra). assert (0 <= be * dspeed (y s) 1 i) by (apply Rmult_le_pos; lra). assert (0 <= w * dspeed (y s) 0 i) by (apply Rmult_le_pos; lra).
      unfold A. destruct k as [|[|[|k]]], j as [|[|[|j]]]; try lia; lra.
    + lra.
    + intros s k j S _ _. assert (X0 := SB s 1%nat S ltac:(lia)). assert (X1 := FB s 0%nat S ltac:(lia)). assert (X2 := FB s 1%nat S ltac:(lia)).
      assert (c0 * dshare (y s) 1 i <= c0 * smax i) by (apply Rmult_le_compat_l; lra). assert (be * dspeed (y s) 1 i <= be * fmax i) by (apply Rmult_le_compat_l; lra). assert (w * dspeed (y s) 0 i <= w * fmax i) by (apply Rmult_le_compat_l; lra).
      assert (0 <= h * dshare (y s) 1 i) by (apply Rmult_le_pos; lra). assert (0 <= be * dspeed (y s) 0 i) by (apply Rmult_le_pos; lra). assert (0 <= w * dspeed (y s) 1 i) by (apply Rmult_le_pos; lra).
      unfold A. destruct k as [|[|k]], j as [|[|j]]; lra.
    + intros k K3'. apply P0; [lia|exact I].
Qed.
Lemma dv_keeps L r i t : (forall v d r, batch_rhs psdm b op v = Some d -> (forall k, (k < nr)%nat -> fine v k) -> (forall k, (k <= nr)%nat -> 0 <= v k i) ->
  (1 <= r <= nr)%nat -> - L * v r i <= d r i) -> (1 <= r <= nr)%nat -> (i < n)%nat -> 0 <= t <= T1 -> y 0 r i * exp (- L * t) <= y t r i.
Proof.
  intros HL R I T. destruct TR as (d & DD & EV).
  assert (EV1 : evolves 0 T1 (fun t => y t r i) (fun t => d t r i)) by (apply (evolves_sub 0 Tf); [lra|apply EV; [lia|exact I]]).
  assert (Z := stays_positive 0 T1 _ _ L EV1). cbv beta in Z. replace (- L * t) with (- L * (t - 0)) by ring. apply Z; [|exact T].
  intros s S. apply (HL (y s) (d s) r); [apply DD; lra|intros; apply FINE; assumption| |exact R]. intros k K. apply dv_nonneg; [exact K|exact I|lra].
Qed.
Lemma dv_positive r i t : (1 <= r <= nr)%nat -> (i < n)%nat -> 0 < y 0 r i -> 0 <= t <= T1 -> 0 < y t r i.
Proof.
  intros R I P T. destruct (loss i I) as (L & _ & HL). assert (X := dv_keeps L r i t HL R I T). assert (0 < y 0 r i * exp (- L * t)) by (apply Rmult_lt_0_compat; [exact P|apply exp_pos]). lra.
Qed.
End Until.

(** totals *)
Hypothesis H0 : rsum n (y 0 0%nat) = b_CT b.
Hypothesis H1 : forall r, (1 <= r <= nr)%nat -> rsum n (y 0 r) = b_Q b.
Hypothesis HQ : 0 < b_Q b.
Hypothesis Em : m = b_Q b / rsum n dK / 2.
Hypothesis PRE : forall r, (1 <= r <= nr)%nat -> 0 < y 0 r 0%nat.
Hypothesis TWO : forall r, (1 <= r <= nr)%nat -> exists j, (j < n)%nat /\ b_val b j = 2%nat /\ 0 < y 0 r j.
Lemma dv_use v : (forall r, (r < nr)%nat -> clear v r) -> admissible psdm b v.
Proof.
  intros D. assert (N := NR1). assert (N0 : (0 < n)%nat) by apply WB.
  assert (X : exists e, 0 < e /\ forall r, (r < nr)%nat -> e <= v (S r) 0%nat / th /\ e <= da v r /\ e <= dd v r /\ e <= dd v r ^ 2).
  { assert (Y : forall k, (k <= nr)%nat -> exists e, 0 < e /\ forall r, (r < k)%nat -> e <= v (S r) 0%nat / th /\ e <= da v r /\ e <= dd v r /\ e <= dd v r ^ 2); [|apply (Y nr (le_n _))].
    induction k as [|k IH]; intros K; [exists 1; split; [lra|intros; lia]|]. destruct (IH ltac:(lia)) as (e & E & P). destruct (D k ltac:(lia)) as (A1 & A2 & A3). assert (A4 : 0 < v (S k) 0%nat / th) by (apply Rdiv_lt_0_compat; assumption). assert (A5 : 0 < dd v k ^ 2) by (apply pow_lt, A3).
    exists (Rmin e (Rmin (Rmin (v (S k) 0%nat / th) (da v k)) (Rmin (dd v k) (dd v k ^ 2)))). split; [repeat apply Rmin_glb_lt; assumption|].
    intros r R. set (x1 := v (S k) 0%nat / th) in *. set (x2 := da v k) in *. set (x3 := dd v k) in *. assert (M1 := Rmin_l e (Rmin (Rmin x1 x2) (Rmin x3 (x3 ^ 2)))). assert (M2 := Rmin_r e (Rmin (Rmin x1 x2) (Rmin x3 (x3 ^ 2)))).
    assert (M3 := Rmin_l (Rmin x1 x2) (Rmin x3 (x3 ^ 2))). assert (M4 := Rmin_r (Rmin x1 x2) (Rmin x3 (x3 ^ 2))). assert (M5 := Rmin_l x1 x2). assert (M6 := Rmin_r x1 x2). assert (M7 := Rmin_l x3 (x3 ^ 2)). assert (M8 := Rmin_r x3 (x3 ^ 2)).
    destruct (Nat.eq_dec r k) as [->|NE]; [fold x1 x2 x3; lra|]. destruct (P r ltac:(lia)) as (? & ? & ? & ?). lra. }
  destruct X as (e & E & P). exists e. split; [exact E|]. intros [|r] R _; [lia|]. fold th. destruct (P r ltac:(unfold nr; lia)) as (A1 & A2 & A3 & A4). destruct (D r ltac:(unfold nr; lia)) as (_ & B2 & _).
  destruct (sums v r (fun j => v (S r) j / th) (fun j _ => eq_refl)) as (SA & SD). unfold masked_sum, dv_idx, mv_idx in SA, SD. fold n.
  split; [split|].
  - intros ND. exfalso. destruct DV as (j & J & V). exact (ND j J V).
  - intros _. cbv zeta. rewrite SA, SD. split; [exact A1|]. split; [exact A3|]. assert (0 <= da v r * b_CT b) by (apply Rmult_le_pos; [lra|left; exact CP]). lra.
  - intros _. rewrite SA. exact A2.
Qed.
Lemma dv_totals T1 : 0 <= T1 <= Tf -> (forall t r, 0 < t < T1 -> (r < nr)%nat -> fine (y t) r) -> forall T, 0 <= T <= T1 ->
  rsum n (y T 0%nat) = b_CT b /\ forall r, (1 <= r <= nr)%nat -> rsum n (y T r) = b_Q b.
Proof.
  intros HT D T HTT. apply (totals_kept psdm b op) with (Tf := T1); try assumption; try (apply WB).
  - intros r k R. destruct (bop_is legendre jacobi b) as (EB & _). fold op in EB. rewrite EB. apply (Bx_constant (b_nr b) _ (u_distinct jacobi (b_nr b) 2 NR1 (grid2 jacobi b HJ))). exact R.
  - destruct TR as (d & DD & EV). exists d. split; [intros t Ht; apply DD; lra|]. intros r i R I. apply (evolves_sub 0 Tf); [lra|apply EV; assumption].
  - intros t Ht. apply dv_use. intros r R. apply D; assumption.
Qed.
Lemma fine_at v r : (forall j, (j < n)%nat -> 0 <= v (S r) j) -> rsum n (v (S r)) = b_Q b -> 0 < v (S r) 0%nat -> (exists j, (j < n)%nat /\ b_val b j = 2%nat /\ 0 < v (S r) j) -> fine v r.
Proof.
  intros P E V0 (j & J & Z & VJ). assert (N0 : (0 < n)%nat) by apply WB. assert (Z0 : b_val b 0%nat = 1%nat) by apply WB.
  assert (NN : forall i, (i < n)%nat -> 0 <= v (S r) i / dK i) by (intros i I; apply Rmult_le_pos; [apply P, I|left; apply Rinv_0_lt_compat, dK_pos, I]).
  split; [split; [exact V0|split]|].
  - unfold da, ea. apply (rsum_pos_one n _ j J); [intros i I; destruct (Nat.eqb (b_val b i) 2); [apply NN, I|lra]|]. rewrite Z. cbn [Nat.eqb]. apply Rdiv_lt_0_compat; [exact VJ|apply dK_pos, J].
  - unfold dd, ed. apply (rsum_pos_one n _ 0%nat N0); [intros i I; destruct (Nat.eqb (b_val b i) 2); [lra|apply NN, I]|]. rewrite Z0. cbn [Nat.eqb]. apply Rdiv_lt_0_compat; [exact V0|apply dK_pos, N0].
  - assert (X := eden_low n dK (b_Q b) dK_pos (v (S r)) P E). assert (SP : 0 < rsum n dK) by (apply (rsum_pos_one n _ 0%nat N0); [intros i I; left; apply dK_pos, I|apply dK_pos, N0]).
    assert (0 < b_Q b / rsum n dK) by (apply Rdiv_lt_0_compat; assumption). rewrite Em. lra.
Qed.
Lemma c_at r i t : (r <= nr)%nat -> (i < n)%nat -> 0 <= t <= Tf -> continuity_pt (fun s => y s r i) t.
Proof. intros R I T. destruct TR as (dd & _ & EV). apply (EV r i R I). exact T. Qed.
Lemma opens (f : R -> R) t c : continuity_pt f t -> c < f t -> exists d, 0 < d /\ forall s, t < s < t + d -> c < f s.
Proof.
  intros C M. destruct (C (f t - c) ltac:(lra)) as (d2 & D2 & P2). exists d2. split; [exact D2|]. intros s S.
  assert (Q : R_dist (f s) (f t) < f t - c). { apply P2. split; [split; [exact I|lra]|]. cbn. unfold R_dist. rewrite Rabs_right; lra. }
  unfold R_dist in Q. apply Rabs_def2 in Q. lra.
Qed.
Lemma dv_always : 0 <= Tf -> forall T, 0 <= T <= Tf -> forall r, (r < nr)%nat -> fine (y T) r.
Proof.
  intros TF. assert (N := NR1). assert (N0 : (0 < n)%nat) by apply WB. apply (real_induction 0 Tf (fun T => forall r, (r < nr)%nat -> fine (y T) r) TF).
  - intros t T IH r R. assert (D : forall s k, 0 < s < t -> (k < nr)%nat -> fine (y s) k) by (intros s k S Hk; apply IH; [lra|exact Hk]). apply fine_at.
    + intros j J. apply (dv_nonneg t); try assumption; lra || lia.
    + apply (dv_totals t); try assumption; lra || lia.
    + apply (dv_positive t); try assumption; try lra; try lia. apply PRE. lia.
    + destruct (TWO (S r) ltac:(lia)) as (j & J & V & P). exists j. split; [exact J|]. split; [exact V|]. apply (dv_positive t); try assumption; lra || lia.
  - intros t T IH.
    assert (X : forall k, (k <= nr)%nat -> exists d, 0 < d /\ forall s, t < s < t + d -> forall r, (r < k)%nat -> fine (y s) r).
    { induction k as [|k IHk]; intros Hk; [exists 1; split; [lra|intros; lia]|]. destruct IHk as (d & D & P); [lia|].
      assert (CJ : forall j, (j < n)%nat -> continuity_pt (fun s => y s (S k) j / dK j) t) by (intros j J; apply c_div; [apply c_at; [lia|exact J|lra]|apply c_const|assert (X := dK_pos j J); lra]).
      destruct (IH t ltac:(lra) k ltac:(lia)) as ((F1 & F2 & F3) & F4).
      destruct (opens (fun s => y s (S k) 0%nat) t 0 ltac:(apply c_at; [lia|exact N0|lra]) F1) as (d1 & D1 & P1).
      destruct (opens (fun s => da (y s) k) t 0) as (d2 & D2 & P2); [unfold da, ea; apply c_rsum; intros j J; destruct (Nat.eqb (b_val b j) 2); [apply CJ, J|apply c_const]|exact F2|].
      destruct (opens (fun s => dd (y s) k) t 0) as (d3 & D3 & P3); [unfold dd, ed; apply c_rsum; intros j J; destruct (Nat.eqb (b_val b j) 2); [apply c_const|apply CJ, J]|exact F3|].
      destruct (opens (fun s => eden n dK (y s (S k))) t m) as (d4 & D4 & P4); [unfold eden; apply c_rsum; intros j J; apply CJ, J|exact F4|].
      exists (Rmin d (Rmin (Rmin d1 d2) (Rmin d3 d4))). split; [repeat apply Rmin_glb_lt; lra|].
      assert (M1 := Rmin_l d (Rmin (Rmin d1 d2) (Rmin d3 d4))). assert (M2 := Rmin_r d (Rmin (Rmin d1 d2) (Rmin d3 d4))). assert (M3 := Rmin_l (Rmin d1 d2) (Rmin d3 d4)). assert (M4 := Rmin_r (Rmin d1 d2) (Rmin d3 d4)). assert (M5 := Rmin_l d1 d2). assert (M6 := Rmin_r d1 d2). assert (M7 := Rmin_l d3 d4). assert (M8 := Rmin_r d3 d4).
      intros s S r R. destruct (Nat.eq_dec r k) as [->|NE]; [|apply P; [lra|lia]]. split; [split; [apply P1; lra|split; [apply P2; lra|apply P3; lra]]|apply P4; lra]. }
    destruct (X nr (le_n nr)) as (d & D & P). exists d. split; [exact D|]. intros s S _ r R. apply P; assumption.
Qed.
Lemma dv_run : 0 <= Tf -> forall T, 0 <= T <= Tf ->
  (forall r i, (r <= nr)%nat -> (i < n)%nat -> 0 <= y T r i) /\ rsum n (y T 0%nat) = b_CT b /\ (forall r, (1 <= r <= nr)%nat -> rsum n (y T r) = b_Q b) /\
  (forall r i, (1 <= r <= nr)%nat -> (i < n)%nat -> 0 < y 0 r i -> 0 < y T r i) /\ (forall r, (r < nr)%nat -> fine (y T) r).
Proof.
  intros TF T HT. assert (D : forall t r, 0 < t < Tf -> (r < nr)%nat -> fine (y t) r) by (intros t r Ht R; apply dv_always; [exact TF|lra|exact R]).
  destruct (dv_totals Tf ltac:(lra) D T HT) as (A1 & A2). split; [|split; [exact A1|split; [exact A2|split; [|apply dv_always; assumption]]]].
  - intros r i R I. apply (dv_nonneg Tf); try assumption; lra.
  - intros r i R I P. apply (dv_positive Tf); try assumption; lra.
Qed.
End Run.
End Dv.
