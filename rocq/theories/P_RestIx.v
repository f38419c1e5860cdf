(** An ion-exchange column at rest. *)
From Coq Require Import Reals List Arith Bool Lra Lia.
From Verif Require Import Lib_Py Lib_Sum Lib_Poly M_Colloc M_IxEq M_IxColumn S_Colloc S_IxEq S_IxColumn
  P_Colloc P_Ocfe P_Radial P_IxEq P_IxColumn P_Rest P_RestEq.
Import ListNotations.
Open Scope R_scope.

(** The operators the code builds see every profile that is not constant. *)
Lemma radial_kernel jacobi legendre nr nz : good_roots legendre jacobi -> (1 <= nr)%nat ->
  forall f, (forall i, (i < nr - 1)%nat -> rsum nr (fun j => k_Br (build_collocation legendre jacobi nr nz) i j * f j) = 0) ->
  forall j, (j < nr)%nat -> f j = f (nr - 1)%nat.
Proof.
  intros (HL & HJ) Hr f H. destruct (rootsu_increasing jacobi nr 3 Hr (HJ _ _ _)) as (HP & HI). cbn in H.
  apply (B_kernel nr (rootsu jacobi nr 3) 3 (Bx nr (rootsu jacobi nr 3) 3)); [apply increasing_distinct, HI|lra| |exact H].
  intros P i LP Hi. apply (Bx_list nr (rootsu jacobi nr 3) 3 (increasing_distinct _ _ HI) P i LP Hi).
Qed.
Lemma operators_kernel legendre jacobi nr nz ocfe op : good_roots legendre jacobi ->
  (1 <= nr)%nat -> (2 <= nz)%nat -> build_operators legendre jacobi nr nz ocfe = Ok op ->
  (forall f, (forall z, (1 <= z < nz)%nat -> rsum nz (fun j => Az op z j * f j) = 0) -> forall z, (z < nz)%nat -> f z = f 0%nat) /\
  (forall f, (forall i, (i < nr - 1)%nat -> rsum nr (fun j => Br op i j * f j) = 0) -> forall j, (j < nr)%nat -> f j = f (nr - 1)%nat).
Proof.
  intros HG Hr Hz Hb. assert (HR := radial_kernel jacobi legendre nr nz HG Hr). destruct HG as (HL & HJ).
  unfold build_operators in Hb. set (k := build_collocation legendre jacobi nr nz) in *. destruct ocfe.
  - remember ((nz - 1) / 2)%nat as NE eqn:ENE. clear ENE.
    destruct (Nat.eqb_spec (NE * 3 - (NE - 1)) nz) as [En|]; [|discriminate].
    apply Ok_inj in Hb; subst op. cbn [Br Wr Az]. split; [|exact HR].
    intros f H z Hzz. assert (HNE : (1 <= NE)%nat) by lia. replace nz with (NE * 2 + 1)%nat in * by lia.
    apply (bed_constant legendre NE 2 HNE ltac:(lia) (HL _) f H z Hzz).
  - apply Ok_inj in Hb; subst op. cbn [Br Wr Az]. split; [|exact HR].
    intros f H z Hzz. destruct (rootsz_increasing legendre nz Hz (HL _)) as (_ & _ & HI).
    apply (A_kernel nz (rootsz legendre nz) (increasing_distinct _ _ HI) f H z Hzz).
Qed.

(** What the code computes for a resin composition is an equilibrium liquid. *)
Lemma has_divalent_true n z : has_divalent n z = true -> exists i, (i < n)%nat /\ z i = 2%nat.
Proof.
  unfold has_divalent. rewrite existsb_exists. intros (i & I & E). apply in_seq in I. apply Nat.eqb_eq in E.
  exists i. split; [lia|exact E].
Qed.
Lemma has_divalent_false n z : has_divalent n z = false -> forall i, (i < n)%nat -> z i <> 2%nat.
Proof.
  intros H i Hi E. assert (T : has_divalent n z = true); [|congruence]. unfold has_divalent. apply existsb_exists.
  exists i. split; [apply in_seq; lia|apply Nat.eqb_eq; exact E].
Qed.
Lemma computed_equilibrium n K z q CT : (0 < n)%nat -> selectivities n K -> mono_or_divalent n z -> resin_composition n q -> 0 <= CT ->
  in_equilibrium n K z q (calc_Ceq n K z q CT) /\ rsum n (calc_Ceq n K z q CT) = CT /\ forall i, (i < n)%nat -> 0 <= calc_Ceq n K z q CT i.
Proof.
  intros Hn HK Hz Hq HC. repeat split.
  - unfold calc_Ceq, in_equilibrium. destruct (has_divalent n z) eqn:D.
    + left. split; [apply has_divalent_true, D|]. apply Ceq_dv_law; assumption.
    + right. split; [apply has_divalent_false, D|]. apply Ceq_mv_law; assumption.
  - unfold calc_Ceq. destruct (has_divalent n z); [apply Ceq_dv_sum|apply Ceq_mv_sum]; assumption.
  - apply calc_Ceq_nonneg; assumption.
Qed.

Section Column.
Variables (legendre : nat -> nat -> R) (jacobi : nat -> R -> R -> nat -> R) (ocfe psdm : bool) (op : operators) (c : column)
  (th : R) (Cin : nat -> R) (u : state) (Q : R).
Hypothesis HG : good_roots legendre jacobi.
Hypothesis HN : (0 < NION c)%nat.
Hypothesis Hr : (1 <= nr c)%nat.
Hypothesis Hz : (2 <= nz c)%nat.
Hypothesis Hb : build_operators legendre jacobi (nr c) (nz c) ocfe = Ok op.
Hypothesis HK : selectivities (NION c) (Kxc c).
Hypothesis HV : mono_or_divalent (NION c) (val c).
Hypothesis HE : 0 < EBED c < 1.
Hypothesis Hrb : 0 < rb c.
Hypothesis Hv : 0 < vel c.
Hypothesis HLb : 0 < Lbed c.
Hypothesis Hth : 0 < th.
Hypothesis HkL : forall i, (1 <= i < NION c)%nat -> 0 < kL c i.
Hypothesis Hpor : psdm = true -> 0 < EPOR c < 1.
Hypothesis HD : forall i, (1 <= i < NION c)%nat -> 0 < Ds c i /\ (psdm = true -> Ds c i <= Dp c i).
Hypothesis HC : forall i, (i < NION c)%nat -> 0 <= Cin i.
Hypothesis HCT : 0 < rsum (NION c) Cin.
Hypothesis Hq : forall r z, (r < nr c)%nat -> (z < nz c)%nat -> resin_composition (NION c) (fun i => u (S r) i z).
Hypothesis HQ : forall r z, (r < nr c)%nat -> (z < nz c)%nat -> rsum (NION c) (fun i => u (S r) i z) = Q.
Hypothesis Hrest : forall r i z, (r <= nr c)%nat -> (i < NION c)%nat -> (z < nz c)%nat -> rhs psdm c op th Cin u r i z = 0.

Lemma rest_liquid i z : (i < NION c)%nat -> (z < nz c)%nat -> liq Cin u i z = Cin i.
Proof.
  intros Hi Hzz. destruct (operators_kernel legendre jacobi (nr c) (nz c) ocfe op HG Hr Hz Hb) as (KA & _).
  destruct (operators_ok legendre jacobi (nr c) (nz c) ocfe op HG Hr Hz Hb) as (_ & _ & HW & _).
  rewrite (KA (fun j => liq Cin u i j)); [reflexivity| |exact Hzz]. intros w Hw.
  assert (B := rhs_balance psdm c op th Cin u i w ltac:(lia) ltac:(apply Rgt_not_eq, HW; lia) ltac:(lra) ltac:(lra) ltac:(lia)).
  rewrite (Hrest 0%nat i w) in B by lia.
  assert (Z : bead_average (nr c) (Wr op) (fun m => rhs psdm c op th Cin u (S m) i w) = 0).
  { unfold bead_average. rewrite rsum_zero; [ring|]. intros m Hm. rewrite Hrest by lia. ring. }
  rewrite Z in B. assert (P : 0 < th * (vel c / Lbed c)) by (apply Rmult_lt_0_compat; [exact Hth|apply Rdiv_lt_0_compat; assumption]).
  apply (Rmult_eq_reg_l (- (th * (vel c / Lbed c)))); lra.
Qed.
Lemma rest_total z : (z < nz c)%nat -> CTz c Cin u z = rsum (NION c) Cin.
Proof. intros Hzz. unfold CTz. apply rsum_ext. intros i Hi. apply rest_liquid; assumption. Qed.

(** per volume of solid *)
Definition solid (r z i : nat) : R := u (S r) i z / theta psdm c.
Lemma theta_pos : 0 < theta psdm c.
Proof. generalize Hpor. clear. unfold theta. destruct psdm; intros H; [specialize (H eq_refl)|]; lra. Qed.
Lemma solid_composition r z : (r < nr c)%nat -> (z < nz c)%nat -> resin_composition (NION c) (solid r z).
Proof.
  intros H1 H2. destruct (Hq r z H1 H2) as (A & B). assert (T := theta_pos). assert (I := Rinv_0_lt_compat _ T). unfold solid, Rdiv.
  split; [apply Rmult_lt_0_compat; assumption|]. intros i Hi. apply Rmult_le_pos; [apply B, Hi|lra].
Qed.
Lemma solid_total r z : (r < nr c)%nat -> (z < nz c)%nat -> rsum (NION c) (solid r z) = Q / theta psdm c.
Proof.
  intros H1 H2. rewrite <- (HQ r z H1 H2). unfold solid, Rdiv. rewrite (Rmult_comm (rsum _ _)), <- rsum_scal. apply rsum_ext. intros. ring.
Qed.
Definition liquid_of (r z : nat) : nat -> R := calc_Ceq (NION c) (Kxc c) (val c) (solid r z) (CTz c Cin u z).
Lemma liquid_of_eq r z : (r < nr c)%nat -> (z < nz c)%nat ->
  in_equilibrium (NION c) (Kxc c) (val c) (solid r z) (liquid_of r z) /\ rsum (NION c) (liquid_of r z) = rsum (NION c) Cin /\
  forall i, (i < NION c)%nat -> 0 <= liquid_of r z i.
Proof.
  intros H1 H2. rewrite <- (rest_total z H2). apply computed_equilibrium; try assumption; [apply solid_composition; assumption|].
  rewrite (rest_total z H2). lra.
Qed.
Definition ga (i : nat) : R := if psdm then EPOR c * (Dp c i - Ds c i) else 0.
Definition gb (i : nat) : R := Ds c i * theta psdm c.
(** what diffuses has no gradient *)
Lemma rest_potential r i z : (r < nr c)%nat -> (1 <= i < NION c)%nat -> (z < nz c)%nat ->
  ga i * liquid_of r z i + gb i * solid r z i = ga i * liquid_of (nr c - 1) z i + gb i * solid (nr c - 1) z i.
Proof.
  intros H1 H2 H3. destruct (operators_kernel legendre jacobi (nr c) (nz c) ocfe op HG Hr Hz Hb) as (_ & KB).
  apply (KB (fun r => ga i * liquid_of r z i + gb i * solid r z i)); [|exact H1]. intros m Hm.
  assert (Z := Hrest (S m) i z ltac:(lia) ltac:(lia) H3). assert (T := theta_pos).
  assert (RB : 0 < rb c ^ 2) by (apply pow_lt; exact Hrb).
  unfold ga, gb, solid, liquid_of, solid in *. unfold rhs, diffun_psdm, diffun_hsdm, theta in *. destruct psdm; cbn [assemble] in Z;
    rewrite (proj2 (Nat.eqb_neq m (nr c - 1))) in Z by lia.
  - unfold psdm_dY, implicit_presat, psdm_Cpore, psdm_q in Z. rewrite (proj2 (Nat.eqb_neq i 0)) in Z by lia.
    set (S1 := rsum (nr c) (fun m0 => Br op m m0 * calc_Ceq _ _ _ _ _ i)) in *.
    set (S2 := rsum (nr c) (fun m0 => Br op m m0 * u (S m0) i z)) in *.
    transitivity (EPOR c * (Dp c i - Ds c i) * S1 + Ds c i * S2).
    + unfold S1, S2. rewrite <- !rsum_scal, <- rsum_plus. apply rsum_ext. intros j Hj. field. lra.
    + assert (E : th / rb c ^ 2 * (EPOR c * (Dp c i - Ds c i) * S1 + Ds c i * S2) = 0) by (rewrite <- Z; field; lra).
      apply Rmult_integral in E. destruct E as [E|E]; [|exact E]. assert (0 < th / rb c ^ 2) by (apply Rdiv_lt_0_compat; assumption). lra.
  - unfold hsdm_dq, implicit_presat in Z. rewrite (proj2 (Nat.eqb_neq i 0)) in Z by lia.
    set (S2 := rsum (nr c) (fun m0 => Br op m m0 * u (S m0) i z)) in *.
    transitivity (Ds c i * S2).
    + unfold S2. rewrite <- !rsum_scal. apply rsum_ext. intros j Hj. field.
    + assert (E : th / rb c ^ 2 * (Ds c i * S2) = 0) by (rewrite <- Z; field; lra).
      apply Rmult_integral in E. destruct E as [E|E]; [|exact E]. assert (0 < th / rb c ^ 2) by (apply Rdiv_lt_0_compat; assumption). lra.
Qed.
Lemma rest_uniform r i z : (r < nr c)%nat -> (i < NION c)%nat -> (z < nz c)%nat -> solid r z i = solid (nr c - 1) z i.
Proof.
  intros H1 H2 H3. assert (L : (nr c - 1 < nr c)%nat) by lia.
  destruct (liquid_of_eq r z H1 H3) as (E & S1 & P). destruct (liquid_of_eq (nr c - 1) z L H3) as (E' & S' & P').
  apply (equilibrium_unique (NION c) (Kxc c) (val c) ga gb (solid r z) (solid (nr c - 1) z) (liquid_of r z) (liquid_of (nr c - 1) z)); try assumption.
  - intros k Hk. destruct (HD k Hk) as (A & B). assert (T := theta_pos). unfold ga, gb. assert (0 < Ds c k * theta psdm c) by (apply Rmult_lt_0_compat; assumption).
    destruct psdm; [|lra]. assert (B' := B eq_refl). assert (0 <= EPOR c * (Dp c k - Ds c k)) by (apply Rmult_le_pos; [destruct (Hpor eq_refl); lra|lra]). lra.
  - apply solid_composition; assumption.
  - apply solid_composition; assumption.
  - lra.
  - lra.
  - rewrite !solid_total by assumption. reflexivity.
  - intros k Hk. apply rest_potential; assumption.
Qed.
(** no flux through the film *)
Lemma rest_surface i z : (i < NION c)%nat -> (z < nz c)%nat -> liquid_of (nr c - 1) z i = Cin i.
Proof.
  intros H2 H3. assert (L : (nr c - 1 < nr c)%nat) by lia.
  destruct (operators_ok legendre jacobi (nr c) (nz c) ocfe op HG Hr Hz Hb) as (_ & _ & HW & _).
  assert (W := HW (nr c - 1)%nat L).
  assert (M : forall i, (1 <= i < NION c)%nat -> liquid_of (nr c - 1) z i = Cin i).
  { intros k Hk. assert (Z := Hrest (nr c) k z ltac:(lia) ltac:(lia) H3).
    assert (J0 : flux c Cin u (solid (nr c - 1) z) k z = 0).
    { assert (D : forall m, (m < nr c - 1)%nat -> rhs psdm c op th Cin u (S m) k z = 0) by (intros m Hm; apply Hrest; lia).
      unfold solid, theta. unfold rhs, diffun_psdm, diffun_hsdm in *.
      assert (EN : nr c = S (nr c - 1)) by lia.
      replace (S (nr c - 1)) with (nr c) by lia. destruct psdm.
      - rewrite EN in Z at 1. cbn [assemble] in Z. rewrite Nat.eqb_refl in Z.
        rewrite rsum_zero in Z.
        2:{ intros m Hm. assert (T := D m Hm). cbn [assemble] in T. rewrite (proj2 (Nat.eqb_neq m (nr c - 1))) in T by lia. rewrite T. ring. }
        fold (psdm_J c Cin u k z).
        assert (E : psdm_J c Cin u k z = - (rb c * Wr op (nr c - 1) / th) * ((- th / rb c * psdm_J c Cin u k z - 0) / Wr op (nr c - 1))) by (field; lra).
        rewrite Z in E. lra.
      - rewrite EN in Z at 1. cbn [assemble] in Z. rewrite Nat.eqb_refl in Z.
        rewrite rsum_zero in Z.
        2:{ intros m Hm. assert (T := D m Hm). cbn [assemble] in T. rewrite (proj2 (Nat.eqb_neq m (nr c - 1))) in T by lia. rewrite T. ring. }
        assert (F : flux c Cin u (fun i0 => u (nr c) i0 z / 1) k z = hsdm_J c Cin u k z).
        { unfold hsdm_J, flux, implicit_presat. rewrite (proj2 (Nat.eqb_neq k 0)) by lia. do 2 f_equal.
          apply calc_Ceq_ext; try lia; try reflexivity. intros; field. }
        rewrite F.
        assert (E : hsdm_J c Cin u k z = - (rb c * Wr op (nr c - 1) / th) * ((- th / rb c * hsdm_J c Cin u k z - 0) / Wr op (nr c - 1))) by (field; lra).
        rewrite Z in E. lra. }
    unfold flux, implicit_presat in J0. rewrite (proj2 (Nat.eqb_neq k 0)) in J0 by lia.
    fold (liquid_of (nr c - 1) z) in J0. rewrite (rest_liquid k z) in J0 by lia. assert (P := HkL k Hk).
    apply Rmult_integral in J0. destruct J0; lra. }
  destruct (Nat.eq_dec i 0) as [->|N]; [|apply M; lia].
  destruct (liquid_of_eq (nr c - 1) z L H3) as (_ & S1 & _).
  replace (NION c) with (S (NION c - 1)) in S1 by lia. rewrite !rsum_S_first in S1.
  rewrite (rsum_ext (NION c - 1) (fun i => liquid_of (nr c - 1) z (S i)) (fun i => Cin (S i))) in S1 by (intros k Hk; apply M; lia). lra.
Qed.
Lemma rest_in_equilibrium r z : (r < nr c)%nat -> (z < nz c)%nat -> in_equilibrium (NION c) (Kxc c) (val c) (solid r z) Cin.
Proof.
  intros H1 H2. destruct (liquid_of_eq (nr c - 1) z ltac:(lia) H2) as (E & _).
  destruct E as [(D & M)|(D & M)]; [left|right]; split; try exact D.
  - intros i Hi1 Hi. rewrite (rest_uniform r i z), (rest_uniform r 0%nat z) by (assumption || lia).
    rewrite <- (rest_surface i z), <- (rest_surface 0%nat z) by (assumption || lia). apply M; assumption.
  - intros i j Hi Hj. rewrite (rest_uniform r i z), (rest_uniform r j z) by assumption.
    rewrite <- (rest_surface i z), <- (rest_surface j z) by assumption. apply M; assumption.
Qed.
End Column.
