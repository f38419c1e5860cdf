(** Proofs about the batch reactors. *)
From Coq Require Import Reals List Arith Bool Lra Lia Classical FunctionalExtensionality.
From Verif Require Import Lib_Py Lib_Sum Lib_Traj M_Colloc M_IxEq M_IxColumn M_IxBatch
  S_Colloc S_IxEq S_IxColumn S_IxBatch S_Unique P_Colloc P_IxEq P_IxColumn P_IxUnique.
Import ListNotations.
Open Scope R_scope.

Lemma rhs_shape psdm b op u d : batch_rhs psdm b op u = Some d ->
  exists Ceq dq, d = batch_assemble b op u Ceq dq.
Proof.
  destruct psdm; cbn [batch_rhs]; unfold diffun_psdm_batch, diffun_hsdm_batch.
  - destruct (pore_liquid b u (b_nr b)); [|discriminate]. destruct (calc_Ceq_batch _ _ _ _ _); [|discriminate].
    intros H. apply Some_inj in H. subst d. eauto.
  - destruct (calc_Ceq_batch _ _ _ _ _); [|discriminate].
    intros H. apply Some_inj in H. subst d. eauto.
Qed.

Lemma assemble_balance b op u Ceq dq i :
  (0 < b_nr b)%nat -> rWr op (b_nr b - 1) <> 0 -> b_VL b <> 0 -> b_rb b <> 0 ->
  amount (b_nr b) (rWr op) (b_VL b) (b_VR b) (batch_assemble b op u Ceq dq) i = 0.
Proof.
  intros Hr HW HV Hb. unfold amount, batch_assemble.
  set (J := - b_kL b * (u 0%nat i - Ceq i)).
  remember (b_nr b - 1)%nat as k eqn:Ek. replace (b_nr b) with (S k) by lia. cbn [rsum].
  rewrite Nat.eqb_refl.
  rewrite (rsum_ext k _ (fun m => rWr op m * dq m i)).
  - set (S0 := rsum k (fun m => rWr op m * dq m i)). field. auto.
  - intros m Hm. rewrite (proj2 (Nat.eqb_neq m k)) by lia. reflexivity.
Qed.

Lemma amount_evolves nr W VL VR Tf (y d : R -> nat -> nat -> R) i :
  (forall r, (r <= nr)%nat -> evolves 0 Tf (fun T => y T r i) (fun T => d T r i)) ->
  evolves 0 Tf (fun T => amount nr W VL VR (y T) i) (fun T => amount nr W VL VR (d T) i).
Proof.
  intros H. unfold amount. apply evolves_plus.
  - apply (evolves_scal 0 Tf VL (fun T => y T 0%nat i)). apply H. lia.
  - apply (evolves_scal 0 Tf VR (fun T => 3 * rsum nr (fun m => W m * y T (S m) i))).
    apply (evolves_scal 0 Tf 3 (fun T => rsum nr (fun m => W m * y T (S m) i))).
    apply (evolves_rsum 0 Tf nr (fun m T => W m * y T (S m) i) (fun m T => W m * d T (S m) i)).
    intros m Hm. apply (evolves_scal 0 Tf (W m) (fun T => y T (S m) i)). apply H. lia.
Qed.

Lemma conserved psdm b op Tf y :
  (0 < b_nr b)%nat -> rWr op (b_nr b - 1) <> 0 -> b_VL b <> 0 -> b_rb b <> 0 ->
  is_batch_trajectory (b_nr b) (b_NION b) (batch_rhs psdm b op) Tf y ->
  forall i, (i < b_NION b)%nat -> forall T, 0 <= T <= Tf ->
  amount (b_nr b) (rWr op) (b_VL b) (b_VR b) (y T) i
  = amount (b_nr b) (rWr op) (b_VL b) (b_VR b) (y 0) i.
Proof.
  intros Hr HW HV Hb (d & Hd & HE) i Hi T Ht.
  apply (evolves_zero 0 Tf _ _
    (amount_evolves (b_nr b) (rWr op) (b_VL b) (b_VR b) Tf y d i (fun r Hrr => HE r i Hrr Hi))); [|exact Ht].
  intros t Hin. destruct (rhs_shape _ _ _ _ _ (Hd t Hin)) as (Ceq & dq & E). rewrite E.
  apply assemble_balance; assumption.
Qed.

(** ** Totals *)

Lemma batch_eq_sum m n K z q CT C : (0 < n)%nat -> selectivities n K -> mono_or_divalent n z -> 0 < m -> solvable m n K z q CT ->
  calc_Ceq_batch n K z q CT = Some C -> rsum n C = CT.
Proof.
  intros Hn HK Hz Hm S. unfold calc_Ceq_batch. destruct (has_divalent n z) eqn:HD.
  - apply has_divalent_exists in HD. destruct S as (_ & S). specialize (S HD). cbv zeta in S. destruct S as (Q0 & QB & QC).
    set (A := masked_sum n (dv_idx z) (fun i => q i / K i)). set (B := q 0%nat + masked_sum n (mv_idx z) (fun i => q i / K i)).
    change (m <= B ^ 2 + 4 * A * CT) in QC.
    unfold Ceq_dv_batch. cbv zeta. unfold reqb. destruct (Req_EM_T (eq_aa n K z q) 0) as [N|N]; [discriminate|]. intros E. apply Some_inj in E. subst C.
    rewrite (mass_action_total n K z q Hn HK ltac:(lra) Hz).
    replace (eq_bb n K z q) with (B / q 0%nat) in * by (unfold eq_bb, B; field; lra).
    change (eq_aa n K z q) with (A / q 0%nat ^ 2) in *. assert (NA : A <> 0) by (intros Z; apply N; rewrite Z; field; lra).
    replace ((B / q 0%nat) ^ 2 - 4 * (A / q 0%nat ^ 2) * - CT) with ((B ^ 2 + 4 * A * CT) / (q 0%nat) ^ 2) by (field; lra).
    rewrite sqrt_div_alt by (apply pow_lt; lra). rewrite sqrt_pow2 by lra. set (s := sqrt (B ^ 2 + 4 * A * CT)).
    assert (Es : s * s = B ^ 2 + 4 * A * CT) by (apply sqrt_sqrt; lra).
    transitivity ((s * s - B ^ 2) / (4 * A)); [field|rewrite Es; field]; repeat split; lra.
  - intros E. apply Some_inj in E. subst C. unfold Ceq_mv.
    set (S0 := rsum n (fun j => q j / K j)). assert (PS : m <= S0).
    { apply S. intros j Hj E. enough (has_divalent n z = true) by congruence. apply has_divalent_exists. exists j. split; assumption. }
    rewrite (rsum_ext n _ (fun i => CT / S0 * (q i / K i))).
    + rewrite rsum_scal. fold S0. field. lra.
    + intros i Hi. assert (KP := HK i Hi). rewrite (rsum_ext n _ (fun j => K i * (q j / K j))) by (intros j Hj; unfold alpha; assert (0 < K j) by (apply HK, Hj); field; lra).
      rewrite rsum_scal. fold S0. field. lra.
Qed.

Lemma pore_liquid_some b u n P : pore_liquid b u n = Some P -> forall r, (r < n)%nat ->
  calc_Ceq_batch (b_NION b) (b_K b) (b_val b) (fun i => u (S r) i / (1 - b_EPOR b)) (b_CT b) = Some (P r).
Proof.
  revert P. induction n as [|n IH]; intros P H r Hr; [lia|]. cbn [pore_liquid] in H.
  destruct (pore_liquid b u n) as [P'|]; [|discriminate].
  destruct (calc_Ceq_batch (b_NION b) (b_K b) (b_val b) (fun i => u (S n) i / (1 - b_EPOR b)) (b_CT b))
    as [C|] eqn:EC; [|discriminate].
  apply Some_inj in H. subst P. destruct (Nat.eqb_spec r n) as [->|Hn]; [exact EC|].
  apply IH; [reflexivity|lia].
Qed.

Definition btheta (psdm : bool) (b : batch) : R := if psdm then 1 - b_EPOR b else 1.
(** Sum over ions of the derivative, in normal use. *)
Definition admissible (psdm : bool) (b : batch) (u : bstate) : Prop :=
  exists m, 0 < m /\ batch_in_use_by m psdm (btheta psdm b) (b_nr b) (b_NION b) (b_K b) (b_val b) (b_CT b) u.
(** A batch whose resin holds presaturant and every divalent ion, and no negative loading. *)
Lemma nonneg_batch (psdm : bool) b u : (0 < b_NION b)%nat -> selectivities (b_NION b) (b_K b) -> 0 <= b_CT b ->
  let solid := if psdm then 1 - b_EPOR b else 1 in
  (forall r, (1 <= r <= b_nr b)%nat -> (psdm = true \/ r = b_nr b) ->
     resin_composition (b_NION b) (fun i => u r i / solid) /\
     forall k, (k < b_NION b)%nat -> b_val b k = 2%nat -> 0 < u r k / solid) ->
  exists m, 0 < m /\ batch_in_use_by m psdm solid (b_nr b) (b_NION b) (b_K b) (b_val b) (b_CT b) u.
Proof.
  intros Hn HK HC solid H. 
  destruct (common_margin (b_nr b + 1) (fun r m => (1 <= r <= b_nr b)%nat -> (psdm = true \/ r = b_nr b) ->
    solvable m (b_NION b) (b_K b) (b_val b) (fun i => u r i / solid) (b_CT b) /\
    ((exists i, (i < b_NION b)%nat /\ b_val b i = 2%nat) ->
     m <= rsum (b_NION b) (fun i => if Nat.eqb (b_val b i) 2 then u r i / solid / b_K b i else 0)))) as (m & P & Q).
  - intros r m m' L Q H1 H2. destruct (Q H1 H2) as (Q1 & Q2). split; [eapply solvable_mono; eassumption|]. intros D. specialize (Q2 D). lra.
  - intros r _. destruct (classic ((1 <= r <= b_nr b)%nat /\ (psdm = true \/ r = b_nr b))) as [(H1 & H2)|N]; [|exists 1; split; [lra|intros H1 H2; contradiction N; split; assumption]].
    destruct (H r H1 H2) as (RC & DV). destruct (composition_margin (b_NION b) (b_K b) (b_val b) _ (b_CT b) Hn HK RC HC) as (m & Pm & Sm).
    destruct (classic (exists i, (i < b_NION b)%nat /\ b_val b i = 2%nat)) as [(k & Hk & Ek)|N]; [|exists m; split; [exact Pm|]; intros _ _; split; [exact Sm|intros D; contradiction]].
    set (A := rsum (b_NION b) (fun i => if Nat.eqb (b_val b i) 2 then u r i / solid / b_K b i else 0)).
    assert (PA : 0 < A).
    { apply (rsum_pos_one (b_NION b) _ k Hk).
      - intros j Hj. destruct (Nat.eqb (b_val b j) 2); [|lra]. apply Rmult_le_pos; [apply RC, Hj|left; apply Rinv_0_lt_compat, HK, Hj].
      - rewrite Ek, Nat.eqb_refl. apply Rdiv_lt_0_compat; [apply DV; assumption|apply HK, Hk]. }
    exists (Rmin m A). split; [apply Rmin_pos; assumption|]. intros _ _. split; [eapply solvable_mono; [apply Rmin_l|exact Sm]|]. intros _. apply Rmin_r.
  - exists m. split; [exact P|]. intros r H1 H2. apply Q; try assumption. lia.
Qed.

Lemma assemble_total b op u Ceq dq CT (D : nat -> R) :
  rsum (b_NION b) Ceq = CT ->
  (forall r, (r < b_nr b)%nat -> rsum (b_NION b) (dq r) = D r) ->
  forall r, (r <= b_nr b)%nat ->
  rsum (b_NION b) (batch_assemble b op u Ceq dq r)
  = match r with
    | O => 3 * b_VR b / b_rb b * (- b_kL b * (rsum (b_NION b) (u 0%nat) - CT)) / b_VL b
    | S k => if Nat.eqb k (b_nr b - 1)
             then (- (- b_kL b * (rsum (b_NION b) (u 0%nat) - CT)) / b_rb b
                   - rsum (b_nr b - 1) (fun m => rWr op m * D m)) / rWr op (b_nr b - 1)
             else D k
    end.
Proof.
  intros HC HD r Hr.
  assert (HJ : rsum (b_NION b) (fun i => - b_kL b * (u 0%nat i - Ceq i))
               = - b_kL b * (rsum (b_NION b) (u 0%nat) - CT)).
  { rewrite rsum_scal, rsum_minus, HC. reflexivity. }
  destruct r as [|k]; unfold batch_assemble.
  - rewrite <- HJ.
    rewrite (rsum_ext _ _ (fun i => 3 * b_VR b / b_rb b / b_VL b * (- b_kL b * (u 0%nat i - Ceq i))))
      by (intros; unfold Rdiv; ring).
    rewrite rsum_scal. unfold Rdiv; ring.
  - destruct (Nat.eqb_spec k (b_nr b - 1)) as [E|E]; [|apply HD; lia].
    rewrite <- HJ.
    rewrite (rsum_ext (b_nr b - 1) (fun m => rWr op m * D m)
              (fun m => rsum (b_NION b) (fun i => rWr op m * dq m i))).
    2:{ intros m Hm. rewrite rsum_scal, HD by lia. reflexivity. }
    rewrite rsum_swap. unfold Rdiv.
    rewrite (rsum_ext (b_NION b) _ (fun i =>
      ((- / b_rb b) * (- b_kL b * (u 0%nat i - Ceq i))
       - rsum (b_nr b - 1) (fun m => rWr op m * dq m i)) * / rWr op (b_nr b - 1))) by (intros; ring).
    rewrite rsum_scal_r, rsum_minus, rsum_scal. ring.
Qed.

Lemma radial_ok legendre jacobi nr : (1 <= nr)%nat -> good_roots legendre jacobi ->
  let op := build_radial legendre jacobi nr in
  (forall r k, (r < nr)%nat -> rsum nr (fun m => rBr op r m * k) = 0) /\
  (forall m, (m < nr)%nat -> 0 < rWr op m) /\ rsum nr (rWr op) = 1 / 3.
Proof.
  intros Hn (_ & HJ) op.
  destruct (rootsu_increasing jacobi nr 3 Hn (HJ _ _ _)) as (HP & HI).
  destruct (weights nr (rootsu jacobi nr 3) 3 ltac:(lra) Hn) as (W1 & W2).
  { intros i Hi. apply HP, Hi. }
  repeat split; [|exact W1|exact W2].
  intros r k Hr. apply (Bx_constant nr _ (increasing_distinct _ _ HI) 3 k r Hr).
Qed.

Section Totals.
Variables (psdm : bool) (b : batch) (op : radial).
Hypothesis HN : (0 < b_NION b)%nat.
Hypothesis Hr : (1 <= b_nr b)%nat.
Hypothesis HK : selectivities (b_NION b) (b_K b).
Hypothesis Hz : mono_or_divalent (b_NION b) (b_val b).
Hypothesis HC : 0 <= b_CT b.
Hypothesis HB : forall r k, (r < b_nr b)%nat -> rsum (b_nr b) (fun m => rBr op r m * k) = 0.

Let e (u : bstate) (r : nat) : R := rsum (b_NION b) (u r) - match r with O => b_CT b | S _ => b_Q b end.
Let kap := b_Ds b / b_rb b ^ 2.
Let M (r j : nat) : R :=
  match r, j with
  | O, O => - (3 * b_VR b / b_rb b * b_kL b / b_VL b)
  | O, S _ => 0
  | S k, O => if Nat.eqb k (b_nr b - 1) then b_kL b / b_rb b / rWr op (b_nr b - 1) else 0
  | S k, S j => if Nat.eqb k (b_nr b - 1)
                then - rsum (b_nr b - 1) (fun m => rWr op m * (kap * rBr op m j)) / rWr op (b_nr b - 1)
                else kap * rBr op k j
  end.

Lemma total_rates u d : admissible psdm b u -> batch_rhs psdm b op u = Some d ->
  forall r, (r <= b_nr b)%nat ->
  rsum (b_NION b) (d r) = rsum (S (b_nr b)) (fun j => M r j * e u j).
Proof.
  intros HA Hd.
  assert (HS : forall r, (1 <= r <= b_nr b)%nat -> (psdm = true \/ r = b_nr b) -> forall C,
    calc_Ceq_batch (b_NION b) (b_K b) (b_val b) (fun i => u r i / btheta psdm b) (b_CT b) = Some C ->
    rsum (b_NION b) C = b_CT b).
  { intros r Hrr Hp C. destruct HA as (m & Hm & HA). apply (batch_eq_sum m); try assumption. apply (HA r Hrr Hp). }
  assert (HU : forall r, (r < b_nr b)%nat ->
    rsum (b_NION b) (fun i => rsum (b_nr b) (fun m => rBr op r m * u (S m) i))
    = rsum (b_nr b) (fun m => rBr op r m * e u (S m))).
  { intros r Hrr. rewrite (rsum_swap (b_NION b) (b_nr b) (fun i m => rBr op r m * u (S m) i)).
    rewrite (rsum_ext (b_nr b) (fun m => rBr op r m * e u (S m))
      (fun m => rBr op r m * rsum (b_NION b) (u (S m)) - rBr op r m * b_Q b))
      by (intros; unfold e; ring).
    rewrite rsum_minus, HB by exact Hrr. rewrite Rminus_0_r. apply rsum_ext. intros m Hm.
    rewrite rsum_scal. reflexivity. }
  assert (HX : exists Ceq dq, d = batch_assemble b op u Ceq dq /\ rsum (b_NION b) Ceq = b_CT b /\
    forall r, (r < b_nr b)%nat ->
      rsum (b_NION b) (dq r) = kap * rsum (b_nr b) (fun m => rBr op r m * e u (S m))).
  { revert Hd HS. destruct psdm; cbn [batch_rhs btheta]; unfold diffun_psdm_batch, diffun_hsdm_batch.
    - destruct (pore_liquid b u (b_nr b)) as [P|] eqn:EP; [|discriminate].
      destruct (calc_Ceq_batch _ _ _ (fun i => u (b_nr b) i / (1 - b_EPOR b)) _) as [C|] eqn:EC; [|discriminate].
      intros H HS. apply Some_inj in H. subst d. eexists _, _. split; [reflexivity|]. split.
      + apply (HS (b_nr b)); [lia|left; reflexivity|exact EC].
      + intros r Hrr. rewrite <- HU by exact Hrr.
        assert (HP : rsum (b_NION b) (fun i => rsum (b_nr b) (fun m => rBr op r m * P m i)) = 0).
        { rewrite (rsum_swap (b_NION b) (b_nr b) (fun i m => rBr op r m * P m i)).
          rewrite <- (HB r (b_CT b) Hrr). apply rsum_ext. intros m Hm. rewrite rsum_scal. f_equal.
          apply (HS (S m)); [lia|left; reflexivity|]. apply (pore_liquid_some _ _ _ _ EP). exact Hm. }
        unfold Rdiv. rewrite rsum_scal_r, rsum_plus, !rsum_scal, HP. unfold kap, Rdiv. ring.
    - intros Hd HS. destruct (calc_Ceq_batch _ _ _ _ _) as [C|] eqn:EC; [|discriminate].
      apply Some_inj in Hd. subst d. eexists _, _. split; [reflexivity|]. split.
      + apply (HS (b_nr b)); [lia|right; reflexivity|].
        replace (fun i => u (b_nr b) i / 1) with (u (b_nr b)); [exact EC|].
        apply functional_extensionality. intros i. field.
      + intros r Hrr. rewrite <- HU by exact Hrr. rewrite rsum_scal. reflexivity. }
  destruct HX as (Ceq & dq & -> & HCe & Hdq). intros r Hrr.
  rewrite (assemble_total b op u Ceq dq (b_CT b) _ HCe Hdq r Hrr).
  rewrite rsum_S_first. destruct r as [|k].
  - rewrite (rsum_zero (b_nr b)) by (intros; unfold M; ring). unfold M, e, Rdiv. ring.
  - unfold M. destruct (Nat.eqb_spec k (b_nr b - 1)) as [E|E].
    + rewrite (rsum_ext (b_nr b - 1)
        (fun m => rWr op m * (kap * rsum (b_nr b) (fun m0 => rBr op m m0 * e u (S m0))))
        (fun m => rsum (b_nr b) (fun j => rWr op m * (kap * rBr op m j) * e u (S j)))).
      2:{ intros m Hm. rewrite <- !rsum_scal. apply rsum_ext. intros; ring. }
      rewrite rsum_swap.
      rewrite (rsum_ext (b_nr b) (fun i => - rsum (b_nr b - 1) _ / _ * _)
        (fun j => (- / rWr op (b_nr b - 1)) *
           rsum (b_nr b - 1) (fun m => rWr op m * (kap * rBr op m j) * e u (S j)))).
      2:{ intros j Hj. rewrite rsum_scal_r. unfold Rdiv. ring. }
      rewrite rsum_scal. change (e u 0%nat) with (rsum (b_NION b) (u 0%nat) - b_CT b). unfold Rdiv. ring.
    + rewrite <- rsum_scal, Rmult_0_l, Rplus_0_l. apply rsum_ext. intros; ring.
Qed.

Lemma totals_kept Tf y :
  is_batch_trajectory (b_nr b) (b_NION b) (batch_rhs psdm b op) Tf y ->
  (forall T, 0 < T < Tf -> admissible psdm b (y T)) ->
  rsum (b_NION b) (y 0 0%nat) = b_CT b ->
  (forall r, (1 <= r <= b_nr b)%nat -> rsum (b_NION b) (y 0 r) = b_Q b) ->
  forall T, 0 <= T <= Tf ->
  rsum (b_NION b) (y T 0%nat) = b_CT b /\
  forall r, (1 <= r <= b_nr b)%nat -> rsum (b_NION b) (y T r) = b_Q b.
Proof.
  intros (d & Hd & HE) HA H0 H1 T Ht.
  assert (L : forall r, (r < S (b_nr b))%nat -> e (y T) r = 0).
  { apply (linear_zero 0 Tf (S (b_nr b)) M (fun r t => e (y t) r)); [| |exact Ht].
    - intros r Hrr.
      apply (evolves_ext 0 Tf (fun t => rsum (b_NION b) (y t r)
               + - match r with O => b_CT b | S _ => b_Q b end) _
               (fun t => rsum (b_NION b) (d t r) + 0)).
      + intros t. unfold e. ring.
      + intros t Hin. rewrite Rplus_0_r. apply total_rates; [apply HA, Hin|apply Hd, Hin|lia].
      + apply evolves_plus; [|apply evolves_const].
        apply (evolves_rsum 0 Tf (b_NION b) (fun i t => y t r i) (fun i t => d t r i)).
        intros i Hi. apply HE; [lia|exact Hi].
    - intros [|r] Hrr; unfold e; [rewrite H0|rewrite H1 by lia]; ring. }
  split.
  - assert (X := L 0%nat ltac:(lia)). unfold e in X. lra.
  - intros [|r] Hrr; [lia|]. assert (X := L (S r) ltac:(lia)). unfold e in X. lra.
Qed.
End Totals.

(** ** Initial state *)

Lemma masked_count n (f : nat -> bool) c :
  rsum n (fun i => if f i then c else 0) = INR (length (filter f (seq 0 n))) * c.
Proof.
  induction n as [|n IH]; [cbn; ring|].
  rewrite seq_S, filter_app, app_length, plus_INR. cbn [rsum Nat.add filter]. rewrite IH.
  destruct (f n); cbn [length INR]; ring.
Qed.

Lemma batch_initial_total b : (0 < b_NION b)%nat -> b_val b 0%nat <> 2%nat ->
  forall r, rsum (b_NION b) (batch_initial b (S r)) = b_Q b.
Proof.
  intros HN Hv r. unfold batch_initial. destruct (has_divalent (b_NION b) (b_val b)).
  - rewrite (rsum_ext _ _ (fun i =>
      (if dv_idx (b_val b) i then b_Q b / 1000 else 0)
      + (if Nat.eqb i 0 then b_Q b - INR (ndv b) * b_Q b / 1000 else 0))).
    + rewrite rsum_plus, masked_count, (rsum_single _ _ 0%nat HN).
      * cbn [Nat.eqb]. unfold ndv. field.
      * intros i Hi Hn. rewrite (proj2 (Nat.eqb_neq i 0) Hn). reflexivity.
    + intros i Hi. destruct (Nat.eqb_spec i 0) as [->|Hn].
      * unfold dv_idx. rewrite (proj2 (Nat.eqb_neq _ _) Hv). ring.
      * ring.
  - rewrite (rsum_single _ _ 0%nat HN); [reflexivity|].
    intros i Hi Hn. rewrite (proj2 (Nat.eqb_neq i 0) Hn). reflexivity.
Qed.

(** ** Equilibrium *)

Lemma batch_equilibrium_calc n K z q C : (0 < n)%nat -> selectivities n K -> resin_composition n q ->
  mono_or_divalent n z -> (forall i, (i < n)%nat -> 0 <= C i) -> in_equilibrium n K z q C ->
  (forall i, (i < n)%nat -> z i = 2%nat -> 0 < q i) ->
  exists C', calc_Ceq_batch n K z q (rsum n C) = Some C' /\ forall i, (i < n)%nat -> C' i = C i.
Proof.
  intros Hn HK Hq Hz HC HE Hd.
  assert (E := equilibrium_calc n K z q C Hn HK Hq Hz HC HE).
  unfold calc_Ceq_batch. unfold calc_Ceq in E. destruct (has_divalent n z) eqn:Ed.
  - destruct (batch_some n K z q (rsum n C) HK Hq) as (C' & HC').
    { apply existsb_exists in Ed. destruct Ed as (k & Hk & Ed). apply in_seq in Hk.
      apply Nat.eqb_eq in Ed. exists k. split; [lia|]. split; [exact Ed|]. apply Hd; [lia|exact Ed]. }
    exists C'. split; [exact HC'|]. intros i Hi.
    rewrite (batch_same n K z q _ HK Hq C' HC' (rsum_nonneg n C HC) i). apply E, Hi.
  - eexists. split; [reflexivity|]. exact E.
Qed.

Lemma pore_liquid_uniform b u C n : (n <= b_nr b)%nat ->
  (forall r, (r < n)%nat -> exists C', calc_Ceq_batch (b_NION b) (b_K b) (b_val b)
     (fun i => u (S r) i / (1 - b_EPOR b)) (b_CT b) = Some C' /\
     forall i, (i < b_NION b)%nat -> C' i = C i) ->
  exists P, pore_liquid b u n = Some P /\ forall r i, (r < n)%nat -> (i < b_NION b)%nat -> P r i = C i.
Proof.
  induction n as [|n IH]; intros Hn H; cbn [pore_liquid].
  - eexists. split; [reflexivity|]. intros; lia.
  - destruct IH as (P & EP & HP); [lia|intros r Hr; apply H; lia|]. rewrite EP.
    destruct (H n ltac:(lia)) as (C' & EC & HC). rewrite EC. eexists. split; [reflexivity|].
    intros r i Hr Hi. cbv beta. destruct (Nat.eqb_spec r n); [apply HC, Hi|apply HP; [lia|exact Hi]].
Qed.

Lemma uniform_rate n (Br : nat -> nat -> R) f k : (forall c, rsum n (fun m => Br k m * c) = 0) ->
  forall c, (forall m, (m < n)%nat -> f m = c) -> rsum n (fun m => Br k m * f m) = 0.
Proof. intros H c E. rewrite <- (H c). apply rsum_ext. intros m Hm. rewrite E by exact Hm. reflexivity. Qed.

Lemma assemble_zero b op u Ceq dq i : (1 <= b_nr b)%nat -> u 0%nat i = Ceq i ->
  (forall r, (r < b_nr b)%nat -> dq r i = 0) ->
  forall r, (r <= b_nr b)%nat -> batch_assemble b op u Ceq dq r i = 0.
Proof.
  intros Hn HC Hd [|k] Hr; unfold batch_assemble; rewrite HC.
  - unfold Rdiv; ring.
  - destruct (Nat.eqb k (b_nr b - 1)); [|apply Hd; lia].
    rewrite rsum_zero; [unfold Rdiv; ring|]. intros m Hm. rewrite Hd by lia. ring.
Qed.

Lemma batch_steady psdm b op u (q : nat -> R) : (0 < b_NION b)%nat -> (1 <= b_nr b)%nat ->
  selectivities (b_NION b) (b_K b) -> mono_or_divalent (b_NION b) (b_val b) ->
  (forall r k, (r < b_nr b)%nat -> rsum (b_nr b) (fun m => rBr op r m * k) = 0) ->
  (forall i, (i < b_NION b)%nat -> 0 <= u 0%nat i) -> rsum (b_NION b) (u 0%nat) = b_CT b ->
  (forall r, (1 <= r <= b_nr b)%nat -> forall i, u r i = q i) ->
  resin_composition (b_NION b) (fun i => q i / btheta psdm b) ->
  (forall i, (i < b_NION b)%nat -> b_val b i = 2%nat -> 0 < q i / btheta psdm b) ->
  in_equilibrium (b_NION b) (b_K b) (b_val b) (fun i => q i / btheta psdm b) (u 0%nat) ->
  exists d, batch_rhs psdm b op u = Some d /\
    forall r i, (r <= b_nr b)%nat -> (i < b_NION b)%nat -> d r i = 0.
Proof.
  intros HN Hr HK Hz HB HC HT Hu Hq Hd HE.
  destruct (batch_equilibrium_calc _ _ _ _ _ HN HK Hq Hz HC HE Hd) as (C' & EC & HC').
  rewrite HT in EC.
  assert (EQ : forall r, (1 <= r <= b_nr b)%nat ->
    (fun i => u r i / btheta psdm b) = (fun i => q i / btheta psdm b)).
  { intros r Hrr. apply functional_extensionality. intros i. rewrite Hu by exact Hrr. reflexivity. }
  revert EC EQ. clear Hq Hd HE. destruct psdm; cbn [batch_rhs btheta]; intros EC EQ.
  - unfold diffun_psdm_batch.
    destruct (pore_liquid_uniform b u C' (b_nr b) (le_n _)) as (P & EP & HP).
    { intros r Hrr. rewrite EQ by lia. exists C'. split; [exact EC|reflexivity]. }
    rewrite EP, (EQ (b_nr b)) by lia. rewrite EC. eexists. split; [reflexivity|].
    intros r i Hrr Hi. apply assemble_zero; [exact Hr|symmetry; apply HC', Hi| |exact Hrr].
    intros k Hk.
    rewrite (uniform_rate (b_nr b) (rBr op) (fun m => P m i) k (fun c => HB k c Hk) (C' i))
      by (intros m Hm; apply HP; assumption).
    rewrite (uniform_rate (b_nr b) (rBr op) (fun m => u (S m) i) k (fun c => HB k c Hk) (q i))
      by (intros m Hm; apply Hu; lia).
    unfold Rdiv; ring.
  - unfold diffun_hsdm_batch.
    replace (u (b_nr b)) with (fun i => q i / 1).
    2:{ apply functional_extensionality. intros i. rewrite Hu by lia. field. }
    rewrite EC. eexists. split; [reflexivity|].
    intros r i Hrr Hi. apply assemble_zero; [exact Hr|symmetry; apply HC', Hi| |exact Hrr].
    intros k Hk.
    rewrite (uniform_rate (b_nr b) (rBr op) (fun m => u (S m) i) k (fun c => HB k c Hk) (q i))
      by (intros m Hm; apply Hu; lia).
    ring.
Qed.
