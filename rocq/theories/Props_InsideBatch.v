(** Property C196: signs of the loadings inside the beads of a batch reactor. *)
From Coq Require Import Reals List Arith Bool Lra Lia.
From Verif Require Import Lib_Py Lib_Pow Lib_Sum Lib_Traj S_Colloc M_Colloc P_Colloc S_Radial P_Radial P_RadialSign P_Inner Props_Negative.
From Verif Require Import M_IxEq S_IxEq M_IxBatch S_IxBatch Props_PacBound Props_Rest Props_Inside.
Import ListNotations.
Open Scope R_scope.

Lemma pore_at b u n P : pore_liquid b u n = Some P ->
  forall m, (m < n)%nat -> calc_Ceq_batch (b_NION b) (b_K b) (b_val b) (fun i => u (S m) i / (1 - b_EPOR b)) (b_CT b) = Some (P m).
Proof.
  revert P. induction n as [|n IH]; intros P E m M; [lia|]. cbn [pore_liquid] in E. destruct (pore_liquid b u n) as [P'|]; [|discriminate E].
  destruct (calc_Ceq_batch (b_NION b) (b_K b) (b_val b) (fun i => u (S n) i / (1 - b_EPOR b)) (b_CT b)) as [C|] eqn:EC; [|discriminate E]. injection E as <-.
  destruct (Nat.eqb_spec m n) as [->|NE]; [exact EC|]. apply (IH P' eq_refl). lia.
Qed.

Lemma some_eq A (x z : A) : Some x = Some z -> x = z.
Proof. intros E. injection E as E. exact E. Qed.

(** What the equilibrium concentration of ion [i] is over its loading. *)
Definition over (n : nat) (K : nat -> R) (val : nat -> nat) (CT : R) (i : nat) (q : nat -> R) : R :=
  if has_divalent n val then
    / K i * ((- eq_bb n K val q + sqrt (eq_bb n K val q ^ 2 - 4 * eq_aa n K val q * - CT)) / (2 * eq_aa n K val q) / q 0%nat) ^ val i
  else CT / rsum n (fun j => alpha K i j * q j).
Lemma over_is n K val CT i q C : (1 <= i)%nat -> calc_Ceq_batch n K val q CT = Some C -> C i = over n K val CT i q * q i.
Proof.
  intros I. unfold calc_Ceq_batch, over. destruct (has_divalent n val).
  - unfold Ceq_dv_batch. cbv zeta. destruct (reqb _ 0); [discriminate|]. intros E. injection E as <-. unfold mass_action. destruct (Nat.eqb_spec i 0); [lia|]. set (p := (_ / q 0%nat) ^ val i). unfold Rdiv. ring.
  - intros E. injection E as <-. unfold Ceq_mv, Rdiv. ring.
Qed.
Section Over.
Variables (n : nat) (K : nat -> R) (val : nat -> nat) (q : R -> nat -> R) (CT : R) (i : nat).
Hypothesis SEL : forall j, (j < n)%nat -> 0 < K j.
Hypothesis CQ : forall j, (j < n)%nat -> continuity_pt (fun t => q t j) 0.
Hypothesis C0 : 0 <= CT.
Hypothesis Q0 : 0 < q 0 0%nat.
Hypothesis QI : forall j, (j < n)%nat -> 0 <= q 0 j.
Hypothesis QD : forall j, (j < n)%nat -> val j = 2%nat -> 0 < q 0 j.
Hypothesis N : (i < n)%nat.
Lemma masked_nonneg mask : 0 <= masked_sum n mask (fun j => q 0 j / K j).
Proof.
  unfold masked_sum. apply rsum_nonneg. intros j J. destruct (mask j); [|lra]. apply Rmult_le_pos; [apply QI, J|left; apply Rinv_0_lt_compat, SEL, J].
Qed.
Lemma over_cont : continuity_pt (fun t => over n K val CT i (q t)) 0 /\ 0 <= over n K val CT i (q 0).
Proof.
  assert (KI := SEL i N). unfold over. destruct (has_divalent n val) eqn:HD.
  - assert (A0 : 0 < eq_aa n K val (q 0)).
    { unfold eq_aa. apply Rdiv_lt_0_compat; [|apply pow_lt, Q0]. unfold has_divalent in HD. apply existsb_exists in HD as (k & KS & KV). apply in_seq in KS. unfold masked_sum.
      apply (rsum_pos_one n _ k); [lia| |].
      - intros j J. destruct (dv_idx val j); [|lra]. apply Rmult_le_pos; [apply QI, J|left; apply Rinv_0_lt_compat, SEL, J].
      - rewrite KV. apply Rdiv_lt_0_compat; [apply QD; [lia|]|apply SEL; lia]. unfold dv_idx in KV. apply Nat.eqb_eq in KV. exact KV. }
    assert (B0 : 1 <= eq_bb n K val (q 0)).
    { unfold eq_bb. assert (0 <= masked_sum n (mv_idx val) (fun j => q 0 j / K j) / q 0 0%nat) by (apply Rmult_le_pos; [apply masked_nonneg|left; apply Rinv_0_lt_compat, Q0]). lra. }
    assert (CA : continuity_pt (fun t => eq_aa n K val (q t)) 0) by (unfold eq_aa; apply c_div; [apply (c_masked n K q 0 SEL CQ)|apply c_pow, CQ; lia|apply pow_nonzero; lra]).
    assert (CB : continuity_pt (fun t => eq_bb n K val (q t)) 0) by (unfold eq_bb; apply c_plus; [apply c_div; [apply (c_masked n K q 0 SEL CQ)|apply CQ; lia|lra]|apply c_const]).
    set (a := eq_aa n K val (q 0)) in *. set (c := eq_bb n K val (q 0)) in *.
    assert (DS : c ^ 2 <= c ^ 2 - 4 * a * - CT) by (assert (0 <= a * CT) by (apply Rmult_le_pos; lra); lra).
    assert (C2 : 0 < c ^ 2) by (apply pow_lt; lra).
    split.
    + apply c_mult; [apply c_const|]. apply c_pow. apply c_div; [|apply CQ; lia|lra]. apply c_div.
      * apply c_plus; [apply c_opp, CB|]. apply c_sqrt; [|fold a c; lra].
        apply c_minus; [apply c_pow, CB|]. apply c_mult; [apply c_mult; [apply c_const|exact CA]|apply c_const].
      * apply c_mult; [apply c_const|exact CA].
      * fold a. lra.
    + apply Rmult_le_pos; [left; apply Rinv_0_lt_compat, KI|]. apply pow_le. apply Rmult_le_pos; [|left; apply Rinv_0_lt_compat, Q0].
      apply Rmult_le_pos; [|left; apply Rinv_0_lt_compat; lra].
      assert (SQ : c <= sqrt (c ^ 2 - 4 * a * - CT)) by (rewrite <- (sqrt_pow2 c) at 1 by lra; apply sqrt_le_1_alt, DS). lra.
  - assert (DP : 0 < rsum n (fun j => alpha K i j * q 0 j)).
    { apply (rsum_pos_one n _ 0%nat); [lia| |].
      - intros j J. apply Rmult_le_pos; [|apply QI, J]. apply Rlt_le, Rdiv_lt_0_compat; [exact KI|apply SEL, J].
      - apply Rmult_lt_0_compat; [apply Rdiv_lt_0_compat; [exact KI|apply SEL; lia]|exact Q0]. }
    split.
    + apply c_div; [apply c_const| |lra]. apply c_rsum. intros j J. apply c_mult; [apply c_const|apply CQ, J].
    + apply Rmult_le_pos; [exact C0|left; apply Rinv_0_lt_compat; exact DP].
Qed.
End Over.

Section Batch.
Variables (legendre : nat -> nat -> R) (jacobi : nat -> R -> R -> nat -> R).
Variables (psdm : bool) (b : batch) (Tf : R) (y : R -> nat -> nat -> R) (i k : nat).
Let op := build_radial legendre jacobi (b_nr b).
Let nr := b_nr b.
Let n := b_NION b.
Hypothesis HJ : jacobi_roots 2 (nr - 1) (jacobi (nr - 1)%nat (5 / 2) (3 / 2)).
Hypothesis WB : working_batch psdm b.
Hypothesis N : (1 <= i < n)%nat.
Hypothesis NV : b_val b i <> 2%nat.
Hypothesis ND : (ndv b < 1000)%nat.
Hypothesis HQ : 0 < b_Q b.
Hypothesis TF : 0 < Tf.
Hypothesis CP : forall j, (j < n)%nat -> 0 <= b_C0 b j.
Hypothesis HC : 0 < b_C0 b i.
Hypothesis TR : is_batch_trajectory nr n (batch_rhs psdm b op) Tf y.
Hypothesis Y0 : forall r j, (r <= nr)%nat -> (j < n)%nat -> y 0 r j = batch_initial b r j.
Hypothesis Hk : (k < nr - 1)%nat.
Let u := rootsu jacobi nr (INR 3).
Let th : R := if psdm then 1 - b_EPOR b else 1.
Lemma bgrid3 : jacobi_roots 2 (nr - 1) (jacobi (nr - 1)%nat (INR 3 / 2 + 1) (INR 3 / 2)).
Proof. rewrite Props_PacBound.INR3. replace (3 / 2 + 1) with (5 / 2) by field. exact HJ. Qed.
Lemma bop_is : rBr op = Bx nr u (INR 3) /\ rWr op = Wx nr u (INR 3).
Proof. unfold u. rewrite Props_PacBound.INR3. split; reflexivity. Qed.
Lemma bcont r j : (r <= nr)%nat -> (j < n)%nat -> continuity_pt (fun T => y T r j) 0.
Proof. intros R J. destruct TR as (d & _ & E). apply (E r j R J). lra. Qed.
Lemma bth : 0 < th.
Proof. destruct WB as (_ & _ & _ & _ & _ & _ & _ & _ & _ & E & _). unfold th. destruct psdm; [specialize (E eq_refl); lra|lra]. Qed.
Lemma bq0 : 0 < b_Q b - INR (ndv b) * b_Q b / 1000.
Proof. assert (ID : INR (ndv b) < 1000) by (replace 1000 with (INR 1000) by (rewrite INR_IZR_INZ; reflexivity); apply lt_INR, ND). unfold Rdiv. nra. Qed.
Lemma binit r : (r < nr)%nat -> 0 < y 0 (S r) 0%nat /\ (forall j, (j < n)%nat -> 0 <= y 0 (S r) j) /\ (forall j, (j < n)%nat -> b_val b j = 2%nat -> 0 < y 0 (S r) j) /\ y 0 (S r) i = 0.
Proof.
  intros R. assert (Q0 := bq0). split; [|split; [|split]]; intros; rewrite Y0 by (try assumption; lia); cbn [batch_initial]; fold n.
  - cbn [Nat.eqb]. destruct (has_divalent n (b_val b)); assumption.
  - destruct (has_divalent n (b_val b)); destruct (Nat.eqb j 0); try lra. destruct (dv_idx (b_val b) j); lra.
  - assert (D : has_divalent n (b_val b) = true). { unfold has_divalent. apply existsb_exists. exists j. split; [apply in_seq; lia|]. unfold dv_idx. rewrite H0. reflexivity. }
    rewrite D. destruct (Nat.eqb j 0); [exact Q0|]. unfold dv_idx. rewrite H0. cbn. lra.
  - destruct (Nat.eqb_spec i 0); [lia|]. unfold dv_idx. destruct (Nat.eqb_spec (b_val b i) 2); [congruence|]. destruct (has_divalent n (b_val b)); reflexivity.
Qed.
Let q (r : nat) (T : R) (j : nat) : R := y T (S r) j / th.
Let CT : R := b_CT b.
Let Y (r : nat) (T : R) : R := y T (S r) i.
Let phi (r : nat) (T : R) : R := over n (b_K b) (b_val b) CT i (q r T) / th.
Lemma phi_ok r : (r < nr)%nat -> continuity_pt (phi r) 0 /\ 0 <= phi r 0.
Proof.
  intros R. assert (TP := bth). destruct (binit r R) as (I1 & I2 & I3 & _). assert (IP : 0 < / th) by (apply Rinv_0_lt_compat, TP).
  destruct (over_cont n (b_K b) (b_val b) (q r) CT i) as (C & P).
  - apply WB.
  - intros j J. unfold q. apply c_div; [apply bcont; [lia|exact J]|apply c_const|lra].
  - unfold CT, b_CT. apply rsum_nonneg, CP.
  - apply Rmult_lt_0_compat; assumption.
  - intros j J. apply Rmult_le_pos; [apply I2, J|lra].
  - intros j J V. apply Rmult_lt_0_compat; [apply I3; assumption|exact IP].
  - apply N.
  - split; [apply c_div; [exact C|apply c_const|lra]|]. apply Rmult_le_pos; [exact P|lra].
Qed.
Let F (r : nat) (T : R) : R := (if psdm then b_EPOR b * (b_Dp b - b_Ds b) * (phi r T * Y r T) + b_Ds b * Y r T else b_Ds b * Y r T) / b_rb b ^ 2.
Let S' (T : R) : R := (- (- b_kL b * (y T 0%nat i - phi (nr - 1) T * Y (nr - 1) T)) / b_rb b - rsum (nr - 1) (fun m => rWr op m * rsum nr (fun j => rBr op m j * F j T))) / rWr op (nr - 1)%nat.
Lemma brates T d : batch_rhs psdm b op (y T) = Some d -> (forall r, (r < nr - 1)%nat -> d (S r) i = rsum nr (fun m => rBr op r m * F m T)) /\ d (S (nr - 1)) i = S' T.
Proof.
  intros E. assert (HR : 0 < b_rb b) by apply WB. assert (TP := bth). assert (SR : (S (nr - 1) = nr)%nat) by lia.
  assert (Z : exists Ceq dq, d = batch_assemble b op (y T) Ceq dq /\ Ceq i = phi (nr - 1) T * Y (nr - 1) T /\ forall r, dq r i = rsum nr (fun m => rBr op r m * F m T)).
  { unfold batch_rhs in E. unfold F, phi, q, th in *. destruct psdm.
    - unfold diffun_psdm_batch in E. destruct (pore_liquid b (y T) (b_nr b)) as [P|] eqn:EP; [|discriminate E].
      destruct (calc_Ceq_batch _ _ _ _ _) as [C|] eqn:EC; [|discriminate E]. apply some_eq in E. subst d. eexists _, _. split; [reflexivity|]. split.
      + rewrite (over_is _ _ _ _ i _ _ ltac:(lia) EC). unfold Y. rewrite SR. fold nr n CT. unfold Rdiv. ring.
      + intros r. cbv beta. fold nr.
        rewrite (rsum_ext nr (fun m => rBr op r m * P m i) (fun m => rBr op r m * (over n (b_K b) (b_val b) CT i (fun j => y T (S m) j / (1 - b_EPOR b)) / (1 - b_EPOR b) * Y m T))).
        2:{ intros m M. f_equal. rewrite (over_is _ _ _ _ i _ _ ltac:(lia) (pore_at b (y T) _ P EP m M)). fold n CT. unfold Y, Rdiv. ring. }
        rewrite <- !rsum_scal, <- rsum_plus. unfold Rdiv at 1. rewrite Rmult_comm, <- rsum_scal. apply rsum_ext. intros m _. unfold Y, Rdiv. ring.
    - unfold diffun_hsdm_batch in E. destruct (calc_Ceq_batch _ _ _ _ _) as [C|] eqn:EC; [|discriminate E]. apply some_eq in E. subst d. eexists _, _. split; [reflexivity|]. split.
      + rewrite (over_is _ _ _ _ i _ _ ltac:(lia) EC). unfold Y. rewrite SR. fold nr n CT.
        replace (over n (b_K b) (b_val b) CT i (fun j => y T nr j / 1)) with (over n (b_K b) (b_val b) CT i (y T nr)); [unfold Rdiv; field|].
        unfold over, eq_aa, eq_bb, masked_sum.
        assert (X : forall x, x / 1 = x) by (intros; field). rewrite !X.
        rewrite !(rsum_ext n (fun j => if dv_idx (b_val b) j then y T nr j / 1 / b_K b j else 0) (fun j => if dv_idx (b_val b) j then y T nr j / b_K b j else 0)) by (intros; rewrite X; reflexivity).
        rewrite !(rsum_ext n (fun j => if mv_idx (b_val b) j then y T nr j / 1 / b_K b j else 0) (fun j => if mv_idx (b_val b) j then y T nr j / b_K b j else 0)) by (intros; rewrite X; reflexivity).
        rewrite !(rsum_ext n (fun j => alpha (b_K b) i j * (y T nr j / 1)) (fun j => alpha (b_K b) i j * y T nr j)) by (intros; rewrite X; reflexivity). reflexivity.
      + intros r. cbv beta. fold nr. rewrite <- rsum_scal. apply rsum_ext. intros m _. unfold Y. field. apply Rgt_not_eq, HR. }
  destruct Z as (Ceq & dq & -> & EC & ED). split.
  - intros r R. unfold batch_assemble. fold nr. destruct (Nat.eqb_spec r (nr - 1)); [lia|]. apply ED.
  - unfold batch_assemble, S'. fold nr. rewrite Nat.eqb_refl, EC.
    rewrite (rsum_ext (nr - 1) (fun m => rWr op m * dq m i) (fun m => rWr op m * rsum nr (fun j => rBr op m j * F j T))) by (intros m _; rewrite ED; reflexivity). reflexivity.
Qed.
Lemma bF_ratio r : (r < nr)%nat -> exists f, (forall t, F r t = f t * Y r t) /\ continuity_pt f 0 /\ 0 < f 0.
Proof.
  intros R. destruct (phi_ok r R) as (C & P). destruct WB as (_ & _ & _ & _ & HR & _ & _ & _ & HD & HE & _).
  assert (R2 : 0 < b_rb b ^ 2) by (apply pow_lt, HR).
  exists (fun t => (if psdm then b_EPOR b * (b_Dp b - b_Ds b) * phi r t + b_Ds b else b_Ds b) / b_rb b ^ 2). unfold F. split; [|split].
  - intros t. destruct psdm; field; lra.
  - apply c_div; [|apply c_const|lra]. destruct psdm; [|apply c_const]. apply c_plus; [|apply c_const]. apply c_mult; [apply c_const|exact C].
  - apply Rdiv_lt_0_compat; [|exact R2]. destruct psdm; [|exact HD]. destruct (HE eq_refl) as (E1 & E2).
    assert (0 <= b_EPOR b * (b_Dp b - b_Ds b) * phi r 0) by (apply Rmult_le_pos; [apply Rmult_le_pos; lra|exact P]). lra.
Qed.
Lemma bF_cont r : (r < nr)%nat -> continuity_pt (F r) 0.
Proof. intros R. destruct (bF_ratio r R) as (f & E & C & _). apply (c_ext (fun t => f t * Y r t)); [intros t; symmetry; apply E|]. apply c_mult; [exact C|]. apply bcont; lia. Qed.
Lemma bY_zero r : (r < nr)%nat -> Y r 0 = 0.
Proof. intros R. apply (binit r R). Qed.
Lemma batch_start : exists d, 0 < d <= Tf /\ forall T, 0 < T < d -> 0 < Bx nr u (INR 3) k (nr - 1)%nat * y T (S k) i.
Proof.
  assert (NR : (1 <= nr)%nat) by lia. destruct bop_is as (EB & EW). destruct (code_weights jacobi nr 2 NR bgrid3) as (WP & _). fold u in WP. rewrite <- EW in WP. assert (W0 := WP (nr - 1)%nat ltac:(lia)).
  assert (WB' := WB). destruct WB' as (_ & _ & _ & _ & HR & _ & _ & KL & _). assert (TR' := TR). destruct TR' as (dd & DD & EV).
  assert (ES : evolves 0 Tf (Y (nr - 1)) S').
  { eapply evolves_ext; [reflexivity| |apply (EV (S (nr - 1)) i ltac:(lia) ltac:(lia))]. intros t T. apply (brates t (dd t) (DD t T)). }
  assert (EI : forall r, (r < nr - 1)%nat -> evolves 0 Tf (Y r) (fun t => rsum nr (fun m => rBr op r m * F m t))).
  { intros r R. eapply evolves_ext; [reflexivity| |apply (EV (S r) i ltac:(lia) ltac:(lia))]. intros t T. apply (brates t (dd t) (DD t T)), R. }
  destruct (phi_ok (nr - 1) ltac:(lia)) as (C & P).
  assert (CS : continuity_pt S' 0).
  { unfold S'. apply c_div; [|apply c_const|lra]. apply c_minus.
    - apply c_div; [|apply c_const|lra]. apply c_opp. apply c_mult; [apply c_const|]. apply c_minus; [apply bcont; lia|apply c_mult; [exact C|apply bcont; lia]].
    - apply c_rsum. intros m Hm. apply c_mult; [apply c_const|]. apply c_rsum. intros j Hj. apply c_mult; [apply c_const|apply bF_cont, Hj]. }
  assert (FZ : forall m, (m < nr)%nat -> F m 0 = 0) by (intros m Hm; destruct (bF_ratio m Hm) as (f & EF & _); rewrite EF, bY_zero by exact Hm; ring).
  assert (S0 : 0 < S' 0).
  { unfold S'. rewrite (rsum_zero (nr - 1)).
    - rewrite bY_zero by lia. rewrite Y0 by lia. cbn [batch_initial].
      replace ((- (- b_kL b * (b_C0 b i - phi (nr - 1) 0 * 0)) / b_rb b - 0) / rWr op (nr - 1)%nat) with (b_kL b * b_C0 b i / b_rb b / rWr op (nr - 1)%nat) by (unfold Rdiv; ring).
      apply Rdiv_lt_0_compat; [|exact W0]. apply Rdiv_lt_0_compat; [|exact HR]. apply Rmult_lt_0_compat; assumption.
    - intros m Hm. rewrite rsum_zero; [ring|]. intros j Hj. rewrite FZ by exact Hj. ring. }
  destruct (starts_linear Tf _ S' TF ES CS (bY_zero (nr - 1)%nat ltac:(lia)) S0) as (d & D & SL).
  destruct (near_all nr F Y bF_ratio) as (d2 & kk & L & D2 & KK & KL2 & RT).
  assert (SIGN := last_column_sign jacobi nr 2 ltac:(lia) bgrid3 k Hk). fold u in SIGN.
  assert (M1 := Rmin_l d d2). assert (M2 := Rmin_r d d2). assert (M0 : 0 < Rmin d d2) by (apply Rmin_glb_lt; lra).
  destruct (follows_surface (nr - 1) (rBr op) Y F (Rmin d d2) 1 L kk (S' 0 / 2) (2 * S' 0) k) as (d' & D' & PP); try lra; try assumption.
  - intros j J. eapply evolves_ext; [reflexivity| |apply (evolves_sub 0 Tf (Rmin d d2) _ _ ltac:(lra) (EI j J))].
    intros t _. cbv beta. apply rsum_top. exact NR.
  - intros j J. apply bY_zero. lia.
  - intros t T m Hm _. destruct (RT t ltac:(lra) m ltac:(lia)) as (r & R & ER). rewrite ER, Rabs_mult, (Rabs_right r) by lra. apply Rmult_le_compat_r; [apply Rabs_pos|lra].
  - intros t T YP. destruct (RT t ltac:(lra) (nr - 1)%nat ltac:(lia)) as (r & R & ER). rewrite ER. apply Rmult_le_compat_r; lra.
  - intros t T. apply SL. lra.
  - intros j J. apply bcont; lia.
  - rewrite EB. intros Z. rewrite Z, Rmult_0_r in SIGN. lra.
  - exists d'. split; [lra|]. rewrite <- EB. exact PP.
Qed.
End Batch.

(** Resin put into water that has some of an ion the resin starts without: at once the loading is
    negative two points below the surface of the beads, four below, and so on, and positive at those
    between. *)
Theorem C196_batch_start : forall legendre jacobi (psdm : bool) b Tf y i,
  jacobi_roots 2 (b_nr b - 1) (jacobi (b_nr b - 1)%nat (5 / 2) (3 / 2)) -> working_batch psdm b ->
  (1 <= i < b_NION b)%nat -> b_val b i <> 2%nat -> (ndv b < 1000)%nat -> 0 < b_Q b -> 0 < Tf ->
  (forall j, (j < b_NION b)%nat -> 0 <= b_C0 b j) -> 0 < b_C0 b i ->
  is_batch_trajectory (b_nr b) (b_NION b) (batch_rhs psdm b (build_radial legendre jacobi (b_nr b))) Tf y ->
  (forall r j, (r <= b_nr b)%nat -> (j < b_NION b)%nat -> y 0 r j = batch_initial b r j) ->
  forall k, (k < b_nr b - 1)%nat -> exists d, 0 < d <= Tf /\ forall T, 0 < T < d ->
    (Nat.Odd (b_nr b - 1 - k) -> 0 < y T (S k) i) /\ (Nat.Even (b_nr b - 1 - k) -> y T (S k) i < 0).
Proof.
  intros legendre jacobi psdm b Tf y i HJ WB N NV ND HQ TF CP HC TR Y0 k Hk.
  destruct (batch_start legendre jacobi psdm b Tf y i k HJ WB N NV ND HQ TF CP HC TR Y0 Hk) as (d & D & P).
  exists d. split; [exact D|]. intros T HT. apply (side (b_nr b) k (Bx (b_nr b) (rootsu jacobi (b_nr b) (INR 3)) (INR 3) k (b_nr b - 1)%nat)); [exact Hk| |apply P, HT].
  apply last_column_sign; [lia|apply bgrid3, HJ|exact Hk].
Qed.
Theorem C196_batch_refuted : forall legendre jacobi (psdm : bool) b Tf y i,
  jacobi_roots 2 (b_nr b - 1) (jacobi (b_nr b - 1)%nat (5 / 2) (3 / 2)) -> working_batch psdm b ->
  (1 <= i < b_NION b)%nat -> b_val b i <> 2%nat -> (ndv b < 1000)%nat -> 0 < b_Q b -> 0 < Tf ->
  (forall j, (j < b_NION b)%nat -> 0 <= b_C0 b j) -> 0 < b_C0 b i ->
  is_batch_trajectory (b_nr b) (b_NION b) (batch_rhs psdm b (build_radial legendre jacobi (b_nr b))) Tf y ->
  (forall r j, (r <= b_nr b)%nat -> (j < b_NION b)%nat -> y 0 r j = batch_initial b r j) ->
  (3 <= b_nr b)%nat -> exists d, 0 < d <= Tf /\ forall T, 0 < T < d -> y T (b_nr b - 2)%nat i < 0.
Proof.
  intros legendre jacobi psdm b Tf y i HJ WB N NV ND HQ TF CP HC TR Y0 NR.
  destruct (C196_batch_start legendre jacobi psdm b Tf y i HJ WB N NV ND HQ TF CP HC TR Y0 (b_nr b - 3)%nat ltac:(lia)) as (d & D & P).
  exists d. split; [exact D|]. intros T HT. replace (b_nr b - 2)%nat with (S (b_nr b - 3)) by lia. apply (P T HT). exists 1%nat. lia.
Qed.
Print Assumptions C196_batch_start.
Print Assumptions C196_batch_refuted.

(** Chloride resin in water with chloride, nitrate and sulphate, on three radial points. *)
From Verif Require Import P_JacobiRoots Props_Exist.
Definition jar : batch :=
  {| b_NION := 3; b_nr := 3; b_Qm := 2; b_RHOP := 1; b_EPOR := 1 / 2; b_VR := 1; b_VL := 10;
     b_Ds := 1; b_Dp := 2; b_kL := 1; b_rb := 1;
     b_C0 := fun _ => 1; b_K := fun i => INR (S i); b_val := fun i => match i with 2%nat => 2%nat | _ => 1%nat end |}.
Example nitrate_below_zero_in_a_jar : forall psdm, exists jacobi Tf y d,
  jacobi_roots 2 2 (jacobi 2%nat (5 / 2) (3 / 2)) /\ working_batch psdm jar /\ 0 < d <= Tf /\
  is_batch_trajectory 3 3 (batch_rhs psdm jar (build_radial (fun _ _ => 0) jacobi 3)) Tf y /\
  (forall r j, (r <= 3)%nat -> (j < 3)%nat -> y 0 r j = batch_initial jar r j) /\
  forall T, 0 < T < d -> y T 1%nat 1%nat < 0.
Proof.
  intros psdm. destruct (jacobi_exist 2 2) as (r & Hr). exists (fun _ _ _ => r).
  assert (SK : selectivities 3 (b_K jar)) by (intros i _; cbn [b_K jar]; apply lt_0_INR; lia).
  assert (MD : mono_or_divalent 3 (b_val jar)) by (split; [reflexivity|intros [|[|[|i]]] Hi; cbn; lia]).
  assert (WB : working_batch psdm jar) by (repeat split; try (cbn; lia); try (cbn; lra); try exact SK; apply MD; assumption).
  destruct (C168_fresh_batch_starts psdm jar (build_radial (fun _ _ => 0) (fun _ _ _ => r) 3) 5) as (Tf & y & HT & TR & Y0); try (cbn; lia); try (cbn; lra); try assumption.
  - intros i _. cbn. lra.
  - unfold b_Q. cbn. lra.
  - destruct (C196_batch_refuted (fun _ _ => 0) (fun _ _ _ => r) psdm jar Tf y 1) as (d & D & P); try (cbn; lia); try (cbn; lra); try assumption.
    + unfold b_Q. cbn. lra.
    + intros j _. cbn. lra.
    + exists Tf, y, d. split; [exact Hr|]. split; [exact WB|]. split; [exact D|]. split; [exact TR|]. split; [exact Y0|exact P].
Qed.
