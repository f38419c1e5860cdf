(** An ion-exchange batch reactor at rest. *)
From Coq Require Import Reals List Arith Bool Lra Lia.
From Verif Require Import Lib_Py Lib_Sum M_Colloc M_IxEq M_IxColumn M_IxBatch S_Colloc S_IxEq S_IxColumn
  P_IxEq P_IxColumn P_IxBatch P_Rest P_RestEq P_RestIx.
Import ListNotations.
Open Scope R_scope.

Lemma computed_equilibrium_batch n K z q CT C : (0 < n)%nat -> selectivities n K -> mono_or_divalent n z -> resin_composition n q -> 0 <= CT ->
  calc_Ceq_batch n K z q CT = Some C ->
  in_equilibrium n K z q C /\ rsum n C = CT /\ forall i, (i < n)%nat -> 0 <= C i.
Proof.
  intros Hn HK Hz Hq HC E. destruct (computed_equilibrium n K z q CT Hn HK Hz Hq HC) as (A & B & P).
  assert (EQ : forall i, C i = calc_Ceq n K z q CT i).
  { unfold calc_Ceq_batch, calc_Ceq in *. destruct (has_divalent n z); [apply (batch_same n K z q CT HK Hq C E HC)|].
    apply Some_inj in E. subst C. reflexivity. }
  split; [|split].
  - destruct A as [(D & M)|(D & M)]; [left|right]; split; try exact D.
    + intros i H1 H2. rewrite !EQ. apply M; assumption.
    + intros i j H1 H2. rewrite !EQ. apply M; assumption.
  - rewrite (rsum_ext n C _ (fun i _ => EQ i)). exact B.
  - intros i Hi. rewrite EQ. apply P, Hi.
Qed.

Section Batch.
Variables (legendre : nat -> nat -> R) (jacobi : nat -> R -> R -> nat -> R) (psdm : bool) (b : batch) (u d : bstate).
Hypothesis HG : good_roots legendre jacobi.
Hypothesis HN : (0 < b_NION b)%nat.
Hypothesis Hr : (1 <= b_nr b)%nat.
Hypothesis HK : selectivities (b_NION b) (b_K b).
Hypothesis HV : mono_or_divalent (b_NION b) (b_val b).
Hypothesis Hrb : 0 < b_rb b.
Hypothesis HVL : 0 < b_VL b.
Hypothesis HVR : 0 < b_VR b.
Hypothesis HkL : 0 < b_kL b.
Hypothesis HD : 0 < b_Ds b.
Hypothesis Hpor : psdm = true -> 0 < b_EPOR b < 1 /\ b_Ds b <= b_Dp b.
Hypothesis HCT : 0 < b_CT b.
Hypothesis Hq : forall r, (r < b_nr b)%nat -> resin_composition (b_NION b) (u (S r)).
Let op := build_radial legendre jacobi (b_nr b).
Hypothesis Hd : batch_rhs psdm b op u = Some d.
Hypothesis Hrest : forall r i, (r <= b_nr b)%nat -> (i < b_NION b)%nat -> d r i = 0.

Lemma btheta_pos : 0 < btheta psdm b.
Proof. generalize Hpor. clear. unfold btheta. destruct psdm; intros H; [specialize (H eq_refl)|]; lra. Qed.
Lemma batch_solid r : (r < b_nr b)%nat -> resin_composition (b_NION b) (fun i => u (S r) i / btheta psdm b).
Proof.
  intros H1. destruct (Hq r H1) as (A & B). assert (I := Rinv_0_lt_compat _ btheta_pos). unfold Rdiv.
  split; [apply Rmult_lt_0_compat; assumption|]. intros i Hi. apply Rmult_le_pos; [apply B, Hi|lra].
Qed.
Lemma batch_at_rest : (forall r i, (r < b_nr b)%nat -> (i < b_NION b)%nat -> u (S r) i = u (b_nr b) i) /\
  in_equilibrium (b_NION b) (b_K b) (b_val b) (fun i => u (b_nr b) i / btheta psdm b) (u 0%nat) /\
  rsum (b_NION b) (u 0%nat) = b_CT b /\ forall i, (i < b_NION b)%nat -> 0 <= u 0%nat i.
Proof.
  assert (KB : forall f, (forall i, (i < b_nr b - 1)%nat -> rsum (b_nr b) (fun j => rBr op i j * f j) = 0) ->
    forall j, (j < b_nr b)%nat -> f j = f (b_nr b - 1)%nat) by exact (radial_kernel jacobi legendre (b_nr b) 3 HG Hr).
  assert (RB : 0 < b_rb b ^ 2) by (apply pow_lt; exact Hrb). assert (T := btheta_pos).
  assert (EN : S (b_nr b - 1) = b_nr b) by lia. assert (BS0 := batch_solid).
  assert (X : exists Ceq dq, d = batch_assemble b op u Ceq dq /\
    calc_Ceq_batch (b_NION b) (b_K b) (b_val b) (fun i => u (b_nr b) i / btheta psdm b) (b_CT b) = Some Ceq /\
    ((forall m i, (m < b_nr b - 1)%nat -> (i < b_NION b)%nat -> dq m i = 0) ->
     forall r i, (r < b_nr b)%nat -> (i < b_NION b)%nat -> u (S r) i = u (b_nr b) i)).
  { generalize Hd. unfold batch_rhs, btheta in *. destruct psdm; unfold diffun_psdm_batch, diffun_hsdm_batch.
    - destruct (pore_liquid b u (b_nr b)) as [P|] eqn:EPo; [|discriminate].
      destruct (calc_Ceq_batch _ _ _ _ _) as [C|] eqn:EC; [|discriminate]. intros H. apply Some_inj in H.
      eexists _, _. split; [symmetry; exact H|]. split; [reflexivity|]. intros Z. destruct (Hpor eq_refl) as (PO & DD).
      set (a := b_EPOR b * (b_Dp b - b_Ds b)). set (bb := b_Ds b * (1 - b_EPOR b)).
      assert (Ha : 0 <= a) by (apply Rmult_le_pos; lra). assert (Hbb : 0 < bb) by (apply Rmult_lt_0_compat; lra).
      set (s := fun r i => u (S r) i / (1 - b_EPOR b)).
      assert (PL := fun r H => computed_equilibrium_batch _ _ _ _ _ _ HN HK HV (BS0 r H) (Rlt_le _ _ HCT)
         (pore_liquid_some b u (b_nr b) P EPo r H)).
      unfold btheta in PL. change (forall r, (r < b_nr b)%nat -> in_equilibrium (b_NION b) (b_K b) (b_val b) (s r) (P r) /\
        rsum (b_NION b) (P r) = b_CT b /\ forall i, (i < b_NION b)%nat -> 0 <= P r i) in PL.
      assert (G : forall r i, (r < b_nr b)%nat -> (i < b_NION b)%nat -> a * P r i + bb * s r i = a * P (b_nr b - 1)%nat i + bb * s (b_nr b - 1)%nat i).
      { intros r i H1 H2. apply (KB (fun r => a * P r i + bb * s r i)); [|exact H1]. intros m Hm. assert (Z1 := Z m i Hm H2).
        set (S1 := rsum (b_nr b) (fun m0 => rBr op m m0 * P m0 i)) in *.
        set (S2 := rsum (b_nr b) (fun m0 => rBr op m m0 * u (S m0) i)) in *.
        transitivity (a * S1 + b_Ds b * S2).
        + unfold S1, S2. rewrite <- !rsum_scal, <- rsum_plus. apply rsum_ext. intros j Hj. unfold bb, s. field. lra.
        + apply (Rmult_eq_reg_r (/ b_rb b ^ 2)); [|apply Rinv_neq_0_compat; lra]. rewrite Rmult_0_l. exact Z1. }
      assert (SQ : forall r, (r < b_nr b)%nat -> rsum (b_NION b) (s r) = rsum (b_NION b) (s (b_nr b - 1)%nat)).
      { intros r H1. assert (Q : rsum (b_NION b) (fun i => a * P r i + bb * s r i) = rsum (b_NION b) (fun i => a * P (b_nr b - 1)%nat i + bb * s (b_nr b - 1)%nat i))
          by (apply rsum_ext; intros i Hi; apply G; assumption).
        rewrite !rsum_plus, !rsum_scal in Q. destruct (PL (b_nr b - 1)%nat ltac:(lia)) as (_ & E2 & _).
        destruct (PL r H1) as (_ & E1 & _). change (rsum (b_NION b) (fun i => P r i)) with (rsum (b_NION b) (P r)) in Q. rewrite E1, E2 in Q. apply (Rmult_eq_reg_l bb); lra. }
      intros r i H1 H2. destruct (PL r H1) as (E1 & T1 & P1). destruct (PL (b_nr b - 1)%nat ltac:(lia)) as (E2 & T2 & P2).
      assert (SS : s r i = s (b_nr b - 1)%nat i).
      { apply (equilibrium_unique (b_NION b) (b_K b) (b_val b) (fun _ => a) (fun _ => bb) (s r) (s (b_nr b - 1)%nat) (P r) (P (b_nr b - 1)%nat)); try assumption; try lra.
        - intros; lra.
        - apply (BS0 r H1).
        - apply (BS0 (b_nr b - 1)%nat). lia.
        - apply SQ, H1.
        - intros k Hk. apply G; [exact H1|lia]. }
      unfold s in SS. rewrite EN in SS. apply (Rmult_eq_reg_r (/ (1 - b_EPOR b))); [exact SS|apply Rinv_neq_0_compat; lra].
    - replace (fun i => u (b_nr b) i / 1) with (u (b_nr b)).
      2:{ apply FunctionalExtensionality.functional_extensionality. intros i. field. }
      destruct (calc_Ceq_batch _ _ _ _ _) as [C|] eqn:EC; [|discriminate]. intros H. apply Some_inj in H.
      eexists _, _. split; [symmetry; exact H|]. split; [reflexivity|]. intros Z r i H1 H2.
      rewrite <- EN. apply (KB (fun r => u (S r) i)); [|exact H1]. intros m Hm. assert (Z1 := Z m i Hm H2). cbv beta in Z1.
      apply Rmult_integral in Z1. destruct Z1 as [Z1|Z1]; [|exact Z1]. assert (0 < b_Ds b / b_rb b ^ 2) by (apply Rdiv_lt_0_compat; assumption). lra. }
  destruct X as (Ceq & dq & E & EC & U).
  assert (Z : forall m i, (m < b_nr b - 1)%nat -> (i < b_NION b)%nat -> dq m i = 0).
  { intros m i H1 H2. assert (R := Hrest (S m) i ltac:(lia) H2). rewrite E in R. cbn [batch_assemble] in R.
    rewrite (proj2 (Nat.eqb_neq m (b_nr b - 1))) in R by lia. exact R. }
  split; [exact (U Z)|].
  assert (BS := BS0 (b_nr b - 1)%nat ltac:(lia)). rewrite EN in BS.
  destruct (computed_equilibrium_batch _ _ _ _ _ _ HN HK HV BS (Rlt_le _ _ HCT) EC) as (EQ & TQ & PQ).
  assert (F : forall i, (i < b_NION b)%nat -> Ceq i = u 0%nat i).
  { intros i Hi. assert (R := Hrest 0%nat i ltac:(lia) Hi). rewrite E in R. cbn [batch_assemble] in R.
    assert (W : u 0%nat i - Ceq i = - (b_rb b * b_VL b / (3 * b_VR b * b_kL b)) * (3 * b_VR b / b_rb b * (- b_kL b * (u 0%nat i - Ceq i)) / b_VL b)) by (field; lra).
    rewrite R in W. lra. }
  split; [|split].
  - destruct EQ as [(D & M)|(D & M)]; [left|right]; split; try exact D.
    + intros i H1 H2. rewrite <- !F by lia. apply M; assumption.
    + intros i j H1 H2. rewrite <- !F by lia. apply M; assumption.
  - rewrite <- TQ. apply rsum_ext. intros i Hi. symmetry. apply F, Hi.
  - intros i Hi. rewrite <- F by exact Hi. apply PQ, Hi.
Qed.
End Batch.
