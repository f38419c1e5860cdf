(** Proofs about ion-exchange equilibria (C12, C13). *)
From Coq Require Import Reals List Arith Bool Lra Lia.
From Verif Require Import Lib_Py Lib_Sum M_IxEq S_IxEq.
Import ListNotations.
Open Scope R_scope.

Lemma existsb_seq_false f n : existsb f (seq 0 n) = false -> forall i, (i < n)%nat -> f i = false.
Proof.
  intros H i Hi. destruct (f i) eqn:E; [|reflexivity].
  assert (existsb f (seq 0 n) = true); [|congruence].
  apply existsb_exists. exists i. split; [apply in_seq; lia|exact E].
Qed.

Lemma Some_inj {A} (a b : A) : Some a = Some b -> a = b.
Proof. congruence. Qed.

(** ** Monovalent *)
Section Mono.
Variables (n : nat) (K q : nat -> R) (CT : R).
Hypothesis Hn : (0 < n)%nat.
Hypothesis HK : selectivities n K.
Hypothesis Hq : resin_composition n q.

Definition tot := rsum n (fun j => q j / K j).
Lemma tot_pos : 0 < tot.
Proof.
  destruct Hq as (H0 & HP). apply (rsum_pos_one n _ 0%nat Hn).
  - intros i Hi. assert (0 < / K i) by (apply Rinv_0_lt_compat, HK, Hi).
    unfold Rdiv. apply Rmult_le_pos; [apply HP, Hi|lra].
  - apply Rdiv_lt_0_compat; [exact H0|apply HK, Hn].
Qed.
Lemma Ceq_mv_eq i : (i < n)%nat -> Ceq_mv n K q CT i = q i / K i * (CT / tot).
Proof.
  intros Hi. unfold Ceq_mv.
  replace (rsum n (fun j => alpha K i j * q j)) with (K i * tot).
  - assert (H := tot_pos). assert (H2 := HK i Hi). field. split; lra.
  - unfold tot. rewrite <- rsum_scal. apply rsum_ext. intros j Hj.
    unfold alpha. assert (H2 := HK j Hj). field. lra.
Qed.
Lemma Ceq_mv_sum : electroneutral n (Ceq_mv n K q CT) CT.
Proof.
  unfold electroneutral.
  rewrite (rsum_ext n _ (fun i => q i / K i * (CT / tot))) by (intros; apply Ceq_mv_eq; assumption).
  rewrite rsum_scal_r. fold tot. assert (H := tot_pos). field. lra.
Qed.
Lemma Ceq_mv_law : separation_law n K q (Ceq_mv n K q CT).
Proof.
  intros i j Hi Hj. rewrite !Ceq_mv_eq by assumption.
  assert (H := tot_pos). assert (H1 := HK i Hi). assert (H2 := HK j Hj). field. repeat split; lra.
Qed.
Lemma Ceq_mv_nonneg i : (i < n)%nat -> 0 <= CT -> 0 <= Ceq_mv n K q CT i.
Proof.
  intros Hi HC. rewrite Ceq_mv_eq by assumption. destruct Hq as (H0 & HP).
  assert (H := tot_pos). assert (H1 := HK i Hi). specialize (HP i Hi).
  assert (0 < / tot) by (apply Rinv_0_lt_compat; exact H).
  assert (0 < / K i) by (apply Rinv_0_lt_compat; exact H1).
  unfold Rdiv. apply Rmult_le_pos; apply Rmult_le_pos; lra.
Qed.
Lemma Ceq_mv_unique C : electroneutral n C CT -> separation_law n K q C ->
  forall i, (i < n)%nat -> C i = Ceq_mv n K q CT i.
Proof.
  intros HE HL i Hi. rewrite Ceq_mv_eq by assumption. destruct Hq as (H0 & HP).
  assert (HT := tot_pos). assert (HK0 := HK 0%nat Hn).
  assert (E : forall j, (j < n)%nat -> C j = q j / K j * (K 0%nat * C 0%nat / q 0%nat)).
  { intros j Hj. specialize (HL 0%nat j Hn Hj). assert (H2 := HK j Hj).
    apply (Rmult_eq_reg_l (q 0%nat)); [|lra]. rewrite HL. field. split; lra. }
  assert (S0 : CT = tot * (K 0%nat * C 0%nat / q 0%nat)).
  { unfold electroneutral in HE. rewrite <- HE. unfold tot.
    rewrite <- rsum_scal_r. apply rsum_ext. exact E. }
  rewrite (E i Hi), S0. f_equal. field. split; lra.
Qed.
End Mono.

(** ** Mono- and divalent *)
(** The total of a mass-action composition is the quadratic. *)
Lemma mass_action_total n K z q : (0 < n)%nat -> selectivities n K -> q 0%nat <> 0 -> mono_or_divalent n z -> forall Cc,
  rsum n (mass_action K z q Cc) = eq_aa n K z q * Cc ^ 2 + eq_bb n K z q * Cc.
Proof.
  intros Hn HK H0 (Hz0 & Hz1) Cc.
  unfold eq_aa, eq_bb, masked_sum.
  replace (rsum n (fun i => if dv_idx z i then q i / K i else 0) / q 0%nat ^ 2 * Cc ^ 2
    + (rsum n (fun i => if mv_idx z i then q i / K i else 0) / q 0%nat + 1) * Cc)
    with (Cc + rsum n (fun i => (if dv_idx z i then q i / K i else 0) * (Cc ^ 2 / q 0%nat ^ 2)
                         + (if mv_idx z i then q i / K i else 0) * (Cc / q 0%nat))).
  2:{ rewrite rsum_plus, !rsum_scal_r. field. lra. }
  rewrite (rsum_split_at n (mass_action K z q Cc) 0 Hn).
  unfold mass_action at 1. cbn [Nat.eqb]. f_equal. apply rsum_ext. intros i Hi.
  unfold mass_action, dv_idx, mv_idx.
  destruct (Nat.eq_dec i 0) as [->|Hi0].
  - rewrite Hz0. cbn. field. lra.
  - rewrite (proj2 (Nat.eqb_neq i 0) Hi0). assert (HKi := HK i Hi).
    destruct (Hz1 i Hi) as [E|E]; rewrite E; cbn; field; lra.
Qed.

Section Di.
Variables (n : nat) (K : nat -> R) (z : nat -> nat) (q : nat -> R) (CT : R).
Hypothesis Hn : (0 < n)%nat.
Hypothesis HK : selectivities n K.
Hypothesis Hq : resin_composition n q.
Hypothesis Hz : mono_or_divalent n z.

Let aa := eq_aa n K z q.
Let bb := eq_bb n K z q.

Lemma masked_nonneg m : 0 <= masked_sum n m (fun i => q i / K i).
Proof.
  destruct Hq as (H0 & HP). apply rsum_nonneg. intros i Hi. destruct (m i); [|lra].
  assert (0 < / K i) by (apply Rinv_0_lt_compat, HK, Hi).
  unfold Rdiv. apply Rmult_le_pos; [apply HP, Hi|lra].
Qed.
Lemma aa_nonneg : 0 <= aa.
Proof.
  unfold aa, eq_aa. destruct Hq as (H0 & _). assert (0 < q 0%nat ^ 2) by (apply pow_lt, H0).
  assert (0 < / q 0%nat ^ 2) by (apply Rinv_0_lt_compat; assumption).
  apply Rmult_le_pos; [apply masked_nonneg|lra].
Qed.
Lemma bb_ge1 : 1 <= bb.
Proof.
  unfold bb, eq_bb. destruct Hq as (H0 & _).
  assert (0 < / q 0%nat) by (apply Rinv_0_lt_compat; assumption).
  assert (H1 := masked_nonneg (mv_idx z)).
  assert (0 <= masked_sum n (mv_idx z) (fun i => q i / K i) / q 0%nat)
    by (apply Rmult_le_pos; lra). lra.
Qed.

Lemma disc_nonneg : 0 <= CT -> bb ^ 2 <= bb ^ 2 - 4 * aa * (- CT).
Proof.
  intros H. assert (A := aa_nonneg). assert (0 <= aa * CT) by (apply Rmult_le_pos; assumption). lra.
Qed.
Lemma sqrt_disc : 0 <= CT -> bb <= sqrt (bb ^ 2 - 4 * aa * (- CT)).
Proof.
  intros H. assert (B := bb_ge1). assert (D := disc_nonneg H).
  rewrite <- (sqrt_pow2 bb) at 1 by lra. apply sqrt_le_1_alt. exact D.
Qed.
Lemma Cc_root : 0 <= CT ->
  let Cc := Cc_column n K z q CT in aa * Cc ^ 2 + bb * Cc = CT /\ (0 < CT -> 0 < Cc) /\ 0 <= Cc.
Proof.
  intros H Cc. assert (B := bb_ge1). assert (S := sqrt_disc H).
  set (s := sqrt (bb ^ 2 - 4 * aa * (- CT))) in *.
  assert (Hs : s ^ 2 = bb ^ 2 - 4 * aa * (- CT)).
  { unfold s. rewrite <- Rsqr_pow2. apply Rsqr_sqrt.
    assert (D := disc_nonneg H). assert (0 <= bb ^ 2) by (apply pow_le; lra). lra. }
  assert (E : Cc = 2 * CT / (bb + s)).
  { unfold Cc, Cc_column. fold aa bb. cbv zeta. fold s. field. lra. }
  rewrite E. split; [|split].
  - replace (aa * (2 * CT / (bb + s)) ^ 2 + bb * (2 * CT / (bb + s)))
      with (CT * (4 * aa * CT + 2 * bb * (bb + s)) / (bb + s) ^ 2) by (field; lra).
    replace (4 * aa * CT) with (s ^ 2 - bb ^ 2) by lra. field. lra.
  - intros HC. apply Rdiv_lt_0_compat; lra.
  - assert (0 < / (bb + s)) by (apply Rinv_0_lt_compat; lra).
    unfold Rdiv. apply Rmult_le_pos; lra.
Qed.

Lemma Ceq_dv_sum : 0 <= CT -> electroneutral n (Ceq_dv n K z q CT) CT.
Proof.
  intros H. unfold electroneutral, Ceq_dv. rewrite mass_action_total by (assumption || (destruct Hq; lra)). apply Cc_root, H.
Qed.
Lemma mass_action_ok Cc : mass_action_law n K z q (mass_action K z q Cc).
Proof.
  destruct Hq as (H0 & _). intros i Hi1 Hi2. unfold mass_action. cbn [Nat.eqb].
  rewrite (proj2 (Nat.eqb_neq i 0)) by lia. assert (HKi := HK i Hi2).
  unfold Rdiv at 2. rewrite Rpow_mult_distr, pow_inv. field.
  split; [apply pow_nonzero|]; lra.
Qed.
Lemma Ceq_dv_law : mass_action_law n K z q (Ceq_dv n K z q CT).
Proof. apply mass_action_ok. Qed.
Lemma mass_action_nonneg Cc i : (i < n)%nat -> 0 <= Cc -> 0 <= mass_action K z q Cc i.
Proof.
  intros Hi HC. unfold mass_action. destruct (Nat.eqb i 0); [exact HC|].
  destruct Hq as (H0 & HP). assert (0 < / K i) by (apply Rinv_0_lt_compat, HK, Hi).
  assert (0 < / q 0%nat) by (apply Rinv_0_lt_compat, H0).
  apply Rmult_le_pos; [apply Rmult_le_pos; [apply HP, Hi|lra]|].
  apply pow_le. apply Rmult_le_pos; lra.
Qed.
Lemma mass_action_pos Cc i : (i < n)%nat -> 0 < Cc -> 0 < q i -> 0 < mass_action K z q Cc i.
Proof.
  intros Hi HC Hqi. unfold mass_action. destruct (Nat.eqb i 0); [exact HC|].
  destruct Hq as (H0 & HP). apply Rmult_lt_0_compat.
  - apply Rdiv_lt_0_compat; [exact Hqi|apply HK, Hi].
  - apply pow_lt. apply Rdiv_lt_0_compat; assumption.
Qed.
Lemma quad_unique x y : 0 <= x -> 0 <= y -> aa * x ^ 2 + bb * x = aa * y ^ 2 + bb * y -> x = y.
Proof.
  intros Hx Hy E. assert (A := aa_nonneg). assert (B := bb_ge1).
  assert (F : (x - y) * (aa * (x + y) + bb) = 0) by (ring_simplify; lra).
  apply Rmult_integral in F. destruct F as [F|F]; [lra|].
  assert (0 <= aa * (x + y)) by (apply Rmult_le_pos; lra). lra.
Qed.
Lemma Ceq_dv_unique C : 0 <= CT -> electroneutral n C CT -> mass_action_law n K z q C ->
  0 <= C 0%nat -> forall i, (i < n)%nat -> C i = Ceq_dv n K z q CT i.
Proof.
  intros HC HE HL H0C. destruct Hq as (H0 & _).
  assert (E : forall i, (i < n)%nat -> C i = mass_action K z q (C 0%nat) i).
  { intros i Hi. unfold mass_action. destruct (Nat.eqb_spec i 0) as [->|Hi0]; [reflexivity|].
    specialize (HL i ltac:(lia) Hi). assert (HKi := HK i Hi).
    assert (P : q 0%nat ^ z i <> 0) by (apply pow_nonzero; lra).
    apply (Rmult_eq_reg_r (K i * q 0%nat ^ z i)).
    - rewrite <- Rmult_assoc, HL. unfold Rdiv at 2. rewrite Rpow_mult_distr, pow_inv. field.
      split; lra.
    - apply Rmult_integral_contrapositive. split; lra. }
  assert (EC : C 0%nat = Cc_column n K z q CT).
  { apply quad_unique; [exact H0C|apply Cc_root, HC|].
    destruct (Cc_root HC) as (R1 & _). rewrite R1. unfold aa, bb. rewrite <- (mass_action_total n K z q Hn HK ltac:(destruct Hq; lra) Hz).
    unfold electroneutral in HE. rewrite <- HE. symmetry. apply rsum_ext. exact E. }
  intros i Hi. rewrite (E i Hi), EC. reflexivity.
Qed.

(** Batch form. *)
Lemma batch_same C : Ceq_dv_batch n K z q CT = Some C -> 0 <= CT ->
  forall i, C i = Ceq_dv n K z q CT i.
Proof.
  unfold Ceq_dv_batch. fold aa bb. cbv zeta. destruct (reqb aa 0) eqn:Er; [discriminate|].
  intros H HC i. apply Some_inj in H. subst C. unfold Ceq_dv. f_equal.
  unfold reqb in Er. destruct (Req_EM_T aa 0) as [|Hne]; [discriminate|].
  assert (A := aa_nonneg). assert (B := bb_ge1). assert (S := sqrt_disc HC).
  unfold Cc_column. fold aa bb. cbv zeta.
  set (s := sqrt (bb ^ 2 - 4 * aa * (- CT))) in *.
  assert (Hs : s ^ 2 = bb ^ 2 - 4 * aa * (- CT)).
  { unfold s. rewrite <- Rsqr_pow2. apply Rsqr_sqrt.
    assert (D := disc_nonneg HC). assert (0 <= bb ^ 2) by (apply pow_le; lra). lra. }
  apply (Rmult_eq_reg_l (2 * aa * (bb + s))); [|apply Rmult_integral_contrapositive; split; lra].
  replace (2 * aa * (bb + s) * ((- bb + s) / (2 * aa))) with (s ^ 2 - bb ^ 2) by (field; lra).
  replace (2 * aa * (bb + s) * (2 * - CT / (- bb - s))) with (4 * aa * CT) by (field; lra).
  lra.
Qed.
Lemma batch_none : (forall i, (i < n)%nat -> z i = 2%nat -> q i = 0) ->
  Ceq_dv_batch n K z q CT = None.
Proof.
  intros H. unfold Ceq_dv_batch. cbv zeta.
  assert (E : eq_aa n K z q = 0).
  { unfold eq_aa, masked_sum. rewrite rsum_zero; [unfold Rdiv; ring|].
    intros i Hi. unfold dv_idx. destruct (Nat.eqb_spec (z i) 2) as [Ez|]; [|reflexivity].
    rewrite (H i Hi Ez). unfold Rdiv; ring. }
  rewrite E. unfold reqb. destruct (Req_EM_T 0 0); [reflexivity|congruence].
Qed.
Lemma batch_some : (exists i, (i < n)%nat /\ z i = 2%nat /\ 0 < q i) ->
  exists C, Ceq_dv_batch n K z q CT = Some C.
Proof.
  intros (i & Hi & Ez & Hqi). unfold Ceq_dv_batch. cbv zeta.
  unfold reqb. destruct (Req_EM_T (eq_aa n K z q) 0) as [E|E]; [|eexists; reflexivity].
  exfalso. destruct Hq as (H0 & HP).
  assert (P : 0 < eq_aa n K z q); [|lra].
  unfold eq_aa. apply Rdiv_lt_0_compat; [|apply pow_lt, H0].
  apply (rsum_pos_one n _ i Hi).
  - intros j Hj. destruct (dv_idx z j); [|lra].
    assert (0 < / K j) by (apply Rinv_0_lt_compat, HK, Hj).
    unfold Rdiv. apply Rmult_le_pos; [apply HP, Hj|lra].
  - unfold dv_idx. rewrite Ez. cbn. apply Rdiv_lt_0_compat; [exact Hqi|apply HK, Hi].
Qed.
End Di.

(** The selector: with no divalent in the sheet the separation law; it agrees with
    mass action when the presaturant's selectivity is 1. *)
Lemma calc_Ceq_sum n K z q CT : (0 < n)%nat -> selectivities n K -> resin_composition n q ->
  mono_or_divalent n z -> 0 <= CT -> electroneutral n (calc_Ceq n K z q CT) CT.
Proof.
  intros. unfold calc_Ceq. destruct (has_divalent n z); [apply Ceq_dv_sum|apply Ceq_mv_sum]; assumption.
Qed.
Lemma calc_Ceq_nonneg n K z q CT : (0 < n)%nat -> selectivities n K -> resin_composition n q ->
  0 <= CT -> forall i, (i < n)%nat -> 0 <= calc_Ceq n K z q CT i.
Proof.
  intros Hn HK Hq HC i Hi. unfold calc_Ceq. destruct (has_divalent n z).
  - apply (mass_action_nonneg n); try assumption. apply (Cc_root n K z q CT HK Hq HC).
  - apply Ceq_mv_nonneg; assumption.
Qed.
Lemma mv_mass_action n K z q CT : (0 < n)%nat -> selectivities n K -> resin_composition n q ->
  (forall i, (i < n)%nat -> z i = 1%nat) -> K 0%nat = 1 ->
  mass_action_law n K z q (Ceq_mv n K q CT).
Proof.
  intros Hn HK Hq Hz HK0 i Hi1 Hi2. rewrite (Hz i Hi2), !pow_1.
  assert (L := Ceq_mv_law n K q CT Hn HK Hq i 0%nat Hi2 Hn). rewrite HK0 in L. lra.
Qed.
