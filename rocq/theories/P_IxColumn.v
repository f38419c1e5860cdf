(** Proofs about the ion-exchange columns (C14-C16, C18-C21, C59). *)
From Coq Require Import Reals List Arith Bool Lra Lia ZArith.
From Verif Require Import Lib_Py Lib_Sum Lib_Traj M_Colloc M_IxEq M_IxColumn S_Colloc S_IxEq S_IxColumn
  P_Colloc P_Ocfe P_IxEq.
Import ListNotations.
Open Scope R_scope.

Lemma Ok_inj {A} (a b : A) : Ok a = Ok b -> a = b.
Proof. congruence. Qed.

Lemma implicit_sum c f : (0 < NION c)%nat -> rsum (NION c) (implicit_presat c f) = 0.
Proof.
  intros H. destruct (NION c) as [|n] eqn:E; [lia|].
  rewrite rsum_S_first. unfold implicit_presat at 1. rewrite E. cbn [Nat.eqb].
  replace (S n - 1)%nat with n by lia.
  rewrite (rsum_ext n (fun i => implicit_presat c f (S i)) (fun k => f (S k)));
    [lra|]. intros i Hi. reflexivity.
Qed.
Lemma implicit_ext c f g : (forall i, (i < NION c)%nat -> f i = g i) ->
  forall i, (i < NION c)%nat -> implicit_presat c f i = implicit_presat c g i.
Proof.
  intros H i Hi. unfold implicit_presat. destruct (Nat.eqb i 0); [|apply H, Hi].
  f_equal. apply rsum_ext. intros k Hk. apply H. lia.
Qed.
Lemma implicit_zero c f : (forall i, (i < NION c)%nat -> f i = 0) ->
  forall i, (i < NION c)%nat -> implicit_presat c f i = 0.
Proof.
  intros H i Hi. rewrite (implicit_ext c f (fun _ => 0)) by assumption.
  unfold implicit_presat. destruct (Nat.eqb i 0); [|reflexivity].
  rewrite rsum_zero by reflexivity. ring.
Qed.
Lemma implicit_scal c k f i : implicit_presat c (fun j => k * f j) i = k * implicit_presat c f i.
Proof.
  unfold implicit_presat. destruct (Nat.eqb i 0); [|reflexivity].
  rewrite rsum_scal. ring.
Qed.

(** ** C14-C16 for any flux and bead rates *)
Section Assemble.
Variables (c : column) (op : operators) (th : R) (Cin : nat -> R) (u : state)
  (J : nat -> nat -> R) (dq : nat -> nat -> nat -> R).
Hypothesis Hr : (0 < nr c)%nat.
Hypothesis HW : Wr op (nr c - 1) <> 0.

Let du := assemble c op th Cin u J dq.

Lemma resin_sum r z : rsum (NION c) (fun i => J i z) = 0 ->
  (forall m, rsum (NION c) (fun i => dq m i z) = 0) ->
  rsum (NION c) (fun i => du (S r) i z) = 0.
Proof.
  intros HJ Hdq. unfold du, assemble. destruct (Nat.eqb r (nr c - 1)); [|apply Hdq].
  rewrite rsum_div. unfold Rdiv at 1. apply Rmult_eq_0_compat_r.
  rewrite rsum_minus, rsum_scal, HJ, rsum_swap.
  rewrite rsum_zero; [ring|]. intros m Hm. rewrite rsum_scal, Hdq. ring.
Qed.
Lemma bead_gain i z : rsum (nr c) (fun m => Wr op m * du (S m) i z) = - th / rb c * J i z.
Proof.
  destruct (nr c) as [|n] eqn:E; [lia|]. cbn [rsum].
  unfold du, assemble. rewrite E. replace (S n - 1)%nat with n in * by lia.
  rewrite Nat.eqb_refl.
  rewrite (rsum_ext n _ (fun m => Wr op m * dq m i z)).
  - set (a := - th / rb c * J i z). field. exact HW.
  - intros m Hm. rewrite (proj2 (Nat.eqb_neq m n)) by lia. reflexivity.
Qed.
Lemma local_balance i z : (1 <= z)%nat -> EBED c <> 0 -> rb c <> 0 ->
  EBED c * du 0%nat i z + (1 - EBED c) * bead_average (nr c) (Wr op) (fun m => du (S m) i z)
  = - (th * (vel c / Lbed c)) * rsum (nz c) (fun j => Az op z j * liq Cin u i j).
Proof.
  intros Hz HE Hrb. unfold bead_average. rewrite bead_gain.
  unfold du, assemble. rewrite (proj2 (Nat.eqb_neq z 0)) by lia.
  unfold dC. replace (- vel c / Lbed c) with (- (vel c / Lbed c)) by (unfold Rdiv; ring).
  set (w := vel c / Lbed c). field. split; assumption.
Qed.
Lemma liquid_total z : (1 <= z)%nat -> rsum (NION c) (fun i => J i z) = 0 ->
  rsum (NION c) (fun i => du 0%nat i z)
  = - (th * (vel c / Lbed c) / EBED c) * rsum (nz c) (fun j => Az op z j * CTz c Cin u j).
Proof.
  clear Hr HW. intros Hz HJ. unfold du, assemble. rewrite (proj2 (Nat.eqb_neq z 0)) by lia.
  unfold dC. rewrite (rsum_ext (NION c) _ (fun i =>
    - (th * (vel c / Lbed c) / EBED c) * rsum (nz c) (fun j => Az op z j * liq Cin u i j)
    + (1 - EBED c) * (3 / rb c) * / EBED c * th * J i z)).
  2:{ intros i Hi. unfold Rdiv. ring. }
  rewrite rsum_plus, !rsum_scal, HJ, rsum_swap.
  rewrite (rsum_ext (nz c) _ (fun j => Az op z j * CTz c Cin u j)); [ring|].
  intros j Hj. rewrite rsum_scal. reflexivity.
Qed.
End Assemble.

Lemma flux_sum c Cin u qs z : (0 < NION c)%nat -> rsum (NION c) (fun i => flux c Cin u qs i z) = 0.
Proof. intros H. apply (implicit_sum c _ H). Qed.

Section Rates.
Variables (c : column) (op : operators) (th : R).
Hypothesis HN : (0 < NION c)%nat.

Lemma hsdm_dq_sum u m z : rsum (NION c) (fun i => hsdm_dq c op th u m i z) = 0.
Proof. apply (implicit_sum c _ HN). Qed.
Lemma psdm_dY_sum Cin u m z : rsum (NION c) (fun i => psdm_dY c op th Cin u m i z) = 0.
Proof. apply (implicit_sum c _ HN). Qed.
End Rates.

Lemma rhs_resin_neutral psdm c op th Cin u r z : (0 < NION c)%nat ->
  rsum (NION c) (fun i => rhs psdm c op th Cin u (S r) i z) = 0.
Proof.
  intros HN. destruct psdm; cbn [rhs]; apply resin_sum.
  - apply flux_sum, HN.
  - intros m. apply psdm_dY_sum, HN.
  - apply flux_sum, HN.
  - intros m. apply hsdm_dq_sum, HN.
Qed.
Lemma rhs_balance psdm c op th Cin u i z : (0 < nr c)%nat -> Wr op (nr c - 1) <> 0 ->
  EBED c <> 0 -> rb c <> 0 -> (1 <= z)%nat ->
  EBED c * rhs psdm c op th Cin u 0%nat i z
  + (1 - EBED c) * bead_average (nr c) (Wr op) (fun m => rhs psdm c op th Cin u (S m) i z)
  = - (th * (vel c / Lbed c)) * rsum (nz c) (fun j => Az op z j * liq Cin u i j).
Proof. intros. destruct psdm; cbn [rhs]; apply local_balance; assumption. Qed.
Lemma rhs_liquid_total psdm c op th Cin u z : (0 < NION c)%nat -> (1 <= z)%nat ->
  rsum (NION c) (fun i => rhs psdm c op th Cin u 0%nat i z)
  = - (th * (vel c / Lbed c) / EBED c) * rsum (nz c) (fun j => Az op z j * CTz c Cin u j).
Proof.
  intros HN Hz. destruct psdm; cbn [rhs]; apply liquid_total; try assumption; apply flux_sum, HN.
Qed.

(** Trajectories. *)
Lemma resin_total_constant psdm c op th Cin Tf y : (0 < NION c)%nat ->
  is_trajectory (nr c) (NION c) (nz c) (fun T u => rhs psdm c op th (Cin T) u) Tf y ->
  forall T, 0 <= T <= Tf -> forall r z, (r < nr c)%nat -> (z < nz c)%nat ->
  rsum (NION c) (fun i => y T (S r) i z) = rsum (NION c) (fun i => y 0 (S r) i z).
Proof.
  intros HN HT T Ht r z Hr Hz.
  assert (X := evolves_rsum 0 Tf (NION c) (fun i T => y T (S r) i z)
    (fun i T => rhs psdm c op th (Cin T) (y T) (S r) i z)).
  assert (Y := X ltac:(intros i Hi; apply HT; lia)).
  apply (evolves_zero 0 Tf _ _ Y); [|exact Ht].
  intros t _. apply rhs_resin_neutral, HN.
Qed.

Lemma liquid_total_constant psdm c op th Cin Tf y CT0 : (0 < NION c)%nat ->
  (forall z k, (1 <= z < nz c)%nat -> apply_row (nz c) (Az op) (fun _ => k) z = 0) ->
  (forall T, 0 <= T <= Tf -> rsum (NION c) (Cin T) = CT0) ->
  is_trajectory (nr c) (NION c) (nz c) (fun T u => rhs psdm c op th (Cin T) u) Tf y ->
  (forall z, (1 <= z < nz c)%nat -> rsum (NION c) (fun i => y 0 0%nat i z) = CT0) ->
  forall T, 0 <= T <= Tf -> forall z, (1 <= z < nz c)%nat ->
  rsum (NION c) (fun i => y T 0%nat i z) = CT0.
Proof.
  intros HN HA HC HT H0 T Ht z Hz.
  set (n := (nz c - 1)%nat).
  set (w := fun k T => rsum (NION c) (fun i => y T 0%nat i (S k)) + - CT0).
  set (M := fun k j => - (th * (vel c / Lbed c) / EBED c) * Az op (S k) (S j)).
  assert (HZ : w (z - 1)%nat T = 0).
  { apply (linear_zero 0 Tf n M w); [|  |exact Ht|unfold n; lia].
    - intros k Hk. unfold w.
      eapply evolves_ext; [intros; reflexivity| |apply evolves_plus; [|apply evolves_const]].
      2:{ apply (evolves_rsum 0 Tf (NION c) (fun i T => y T 0%nat i (S k))
            (fun i T => rhs psdm c op th (Cin T) (y T) 0%nat i (S k))).
          intros i Hi. apply HT; unfold n in Hk; lia. }
      intros t Hin. cbv beta. rewrite rhs_liquid_total by lia.
      assert (HA0 := HA (S k) CT0 ltac:(unfold n in Hk; lia)). unfold apply_row in HA0.
      replace (rsum (nz c) (fun j => Az op (S k) j * CTz c (Cin t) (y t) j))
        with (rsum (nz c) (fun j => Az op (S k) j * CTz c (Cin t) (y t) j)
              - rsum (nz c) (fun j => Az op (S k) j * CT0)) by lra.
      rewrite <- rsum_minus. replace (nz c) with (S n) by (unfold n in *; lia).
      rewrite rsum_S_first.
      replace (CTz c (Cin t) (y t) 0%nat) with CT0.
      2:{ unfold CTz, liq. cbn [Nat.eqb]. symmetry. apply HC; lra. }
      unfold M. rewrite Rplus_0_r.
      replace (Az op (S k) 0%nat * CT0 - Az op (S k) 0%nat * CT0) with 0 by ring.
      rewrite Rplus_0_l, <- rsum_scal. apply rsum_ext. intros j Hj.
      unfold w, CTz, liq. cbn [Nat.eqb]. ring.
    - intros k Hk. unfold w. rewrite H0 by (unfold n in Hk; lia). ring. }
  unfold w in HZ. replace (S (z - 1)) with z in HZ by lia. lra.
Qed.

(** ** Operators built by the code *)
Lemma operators_ok legendre jacobi nr nz ocfe op : good_roots legendre jacobi ->
  (1 <= nr)%nat -> (2 <= nz)%nat -> build_operators legendre jacobi nr nz ocfe = Ok op ->
  (forall z k, (z < nz)%nat -> apply_row nz (Az op) (fun _ => k) z = 0) /\
  (forall r k, (r < nr)%nat -> apply_row nr (Br op) (fun _ => k) r = 0) /\
  (forall r, (r < nr)%nat -> 0 < Wr op r) /\ rsum nr (Wr op) = 1 / 3.
Proof.
  intros (HL & HJ) Hr Hz Hb.
  set (k := build_collocation legendre jacobi nr nz).
  assert (E : Br op = k_Br k /\ Wr op = k_Wr k /\
     forall z q, (z < nz)%nat -> apply_row nz (Az op) (fun _ => q) z = 0).
  { unfold build_operators in Hb. fold k in Hb. destruct ocfe.
    - remember ((nz - 1) / 2)%nat as NE eqn:ENE. clear ENE.
      destruct (Nat.eqb_spec (NE * 3 - (NE - 1)) nz) as [En|]; [|discriminate].
      apply Ok_inj in Hb; subst op. cbn [Br Wr Az]. split; [reflexivity|]. split; [reflexivity|].
      intros z q Hzz.
      assert (HNE : (1 <= NE)%nat) by lia.
      replace nz with (NE * (3 - 1) + 1)%nat by lia.
      destruct z as [|z]; [apply (Adv_row_inlet legendre NE 2 HNE); lia|].
      destruct (split_index NE 2 HNE ltac:(lia) (S z) ltac:(lia)) as [?|(kk & p & Hk & Hp & ->)]; [lia|].
      set (cc := fun (_ : nat) i => match i with O => q | S _ => 0 end).
      assert (Ec : forall kk y, poly 3 (cc kk) y = q).
      { intros kk' y. unfold poly, cc. cbn. ring. }
      apply (Adv_exact legendre NE 2 HNE ltac:(lia) (HL _) (fun _ => q) cc (fun _ _ => 0));
        try assumption; try reflexivity.
      + intros kk' _ y. apply (Lib_Poly.derivable_pt_lim_ext (fun _ => q)); [intros; symmetry; apply Ec|].
        apply derivable_pt_lim_const.
      + intros kk' p' _ _. symmetry. apply Ec.
    - apply Ok_inj in Hb; subst op. cbn [Br Wr Az]. split; [reflexivity|]. split; [reflexivity|].
      intros z q Hzz. unfold k. cbn. apply A_constant; [|exact Hzz].
      destruct (rootsz_increasing legendre nz Hz (HL _)) as (_ & _ & HI).
      apply increasing_distinct, HI. }
  destruct E as (-> & -> & EA).
  destruct (rootsu_increasing jacobi nr 3 Hr (HJ _ _ _)) as (HP & HI).
  split; [exact EA|]. split; [|].
  - intros r q Hrr. unfold k. cbn. apply Bx_constant; [apply increasing_distinct, HI|exact Hrr].
  - unfold k. cbn. apply weights; [lra|exact Hr|]. intros i Hi. apply HP, Hi.
Qed.

(** ** C18 *)
Lemma calc_Ceq_ext n K z q1 q2 CT1 CT2 : (0 < n)%nat -> (forall i, (i < n)%nat -> q1 i = q2 i) ->
  CT1 = CT2 -> forall i, (i < n)%nat -> calc_Ceq n K z q1 CT1 i = calc_Ceq n K z q2 CT2 i.
Proof.
  intros Hn H <- i Hi. unfold calc_Ceq. destruct (has_divalent n z).
  - unfold Ceq_dv, mass_action.
    assert (EA : eq_aa n K z q1 = eq_aa n K z q2).
    { unfold eq_aa, masked_sum. rewrite (H 0%nat Hn). f_equal. apply rsum_ext. intros j Hj.
      rewrite (H j Hj). reflexivity. }
    assert (EB : eq_bb n K z q1 = eq_bb n K z q2).
    { unfold eq_bb, masked_sum. rewrite (H 0%nat Hn). do 2 f_equal. apply rsum_ext. intros j Hj.
      rewrite (H j Hj). reflexivity. }
    unfold Cc_column. rewrite EA, EB, (H 0%nat Hn), (H i Hi). reflexivity.
  - unfold Ceq_mv. rewrite (H i Hi). f_equal. apply rsum_ext. intros j Hj. rewrite (H j Hj). reflexivity.
Qed.

Lemma steady psdm c op th Cin u (q : nat -> nat -> R) : (0 < NION c)%nat -> (1 <= nr c)%nat ->
  (forall z k, (z < nz c)%nat -> apply_row (nz c) (Az op) (fun _ => k) z = 0) ->
  (forall r k, (r < nr c)%nat -> apply_row (nr c) (Br op) (fun _ => k) r = 0) ->
  (forall i z, (i < NION c)%nat -> (1 <= z < nz c)%nat -> u 0%nat i z = Cin i) ->
  (forall r i z, (r < nr c)%nat -> (i < NION c)%nat -> (z < nz c)%nat -> u (S r) i z = q i z) ->
  (forall i z, (i < NION c)%nat -> (z < nz c)%nat ->
     calc_Ceq (NION c) (Kxc c) (val c) (fun j => q j z / theta psdm c) (rsum (NION c) Cin) i = Cin i) ->
  forall r i z, (r <= nr c)%nat -> (i < NION c)%nat -> (z < nz c)%nat ->
  rhs psdm c op th Cin u r i z = 0.
Proof.
  intros HN Hr HA HB HC Hq Heq.
  assert (Hliq : forall i z, (i < NION c)%nat -> (z < nz c)%nat -> liq Cin u i z = Cin i).
  { intros i z Hi Hz. unfold liq. destruct (Nat.eqb_spec z 0); [reflexivity|]. apply HC; lia. }
  assert (HCT : forall z, (z < nz c)%nat -> CTz c Cin u z = rsum (NION c) Cin).
  { intros z Hz. apply rsum_ext. intros i Hi. apply Hliq; assumption. }
  assert (HBr : forall r i z, (r < nr c)%nat -> (i < NION c)%nat -> (z < nz c)%nat ->
    rsum (nr c) (fun m => Br op r m * u (S m) i z) = 0).
  { intros r i z H1 H2 H3. rewrite <- (HB r (q i z) H1). apply rsum_ext. intros m Hm.
    rewrite Hq by assumption. reflexivity. }
  assert (HEq : forall m i z, (m < nr c)%nat -> (i < NION c)%nat -> (z < nz c)%nat ->
    calc_Ceq (NION c) (Kxc c) (val c) (fun j => u (S m) j z / theta psdm c) (CTz c Cin u z) i = Cin i).
  { intros m i z Hm Hi Hz. rewrite <- (Heq i z Hi Hz) at 1.
    apply calc_Ceq_ext; [exact HN| |apply HCT, Hz|exact Hi].
    intros j Hj. rewrite Hq by assumption. reflexivity. }
  assert (HJ : forall qs i z, (i < NION c)%nat -> (z < nz c)%nat ->
     (forall j, (j < NION c)%nat -> qs j = u (nr c) j z / theta psdm c) ->
     flux c Cin u qs i z = 0).
  { intros qs i z Hi Hz Hqs. unfold flux. apply implicit_zero; [|exact Hi]. intros j Hj.
    rewrite (Hliq j z Hj Hz).
    rewrite (calc_Ceq_ext (NION c) _ _ _ (fun j => u (S (nr c - 1)) j z / theta psdm c) _ (CTz c Cin u z) HN);
      [rewrite HEq by (try assumption; lia); ring| |reflexivity|exact Hj].
    intros k Hk. rewrite Hqs by assumption. replace (S (nr c - 1)) with (nr c) by lia. reflexivity. }
  assert (HA' : forall i z, (i < NION c)%nat -> (z < nz c)%nat ->
     rsum (nz c) (fun j => Az op z j * liq Cin u i j) = 0).
  { intros i z Hi Hz. rewrite <- (HA z (Cin i) Hz). apply rsum_ext. intros j Hj.
    rewrite Hliq by assumption. reflexivity. }
  intros r i z Hrr Hi Hz.
  assert (G : forall J dq, J i z = 0 -> (forall m, (m < nr c)%nat -> dq m i z = 0) ->
     assemble c op th Cin u J dq r i z = 0).
  { intros J dq EJ Edq. unfold assemble. destruct r as [|r].
    - destruct (Nat.eqb z 0); [reflexivity|]. unfold dC. rewrite HA', EJ by assumption.
      unfold Rdiv. ring.
    - destruct (Nat.eqb_spec r (nr c - 1)).
      + rewrite EJ, rsum_zero; [unfold Rdiv; ring|]. intros m Hm. rewrite Edq by lia. ring.
      + apply Edq. lia. }
  destruct psdm; cbn [rhs]; apply G.
  - apply HJ; try assumption. intros; reflexivity.
  - intros m Hm. unfold psdm_dY. apply implicit_zero; [|exact Hi]. intros j Hj.
    rewrite HBr by assumption.
    replace (rsum (nr c) (fun m0 => Br op m m0 * psdm_Cpore c Cin u m0 j z)) with 0; [unfold Rdiv; ring|].
    rewrite <- (HB m (Cin j) Hm). apply rsum_ext. intros k Hk. f_equal. symmetry.
    apply (HEq k j z); assumption.
  - apply HJ; try assumption. intros j Hj. cbn [theta]. field.
  - intros m Hm. unfold hsdm_dq. apply implicit_zero; [|exact Hi]. intros j Hj.
    rewrite HBr by assumption. ring.
Qed.

(** ** C59: the internal time scale *)
Lemma rhs_scale psdm c op th Cin u r i z :
  rhs psdm c op th Cin u r i z = th * rhs psdm c op 1 Cin u r i z.
Proof.
  assert (G : forall J dq dq1, (forall m, dq m i z = th * dq1 m i z) ->
    assemble c op th Cin u J dq r i z = th * assemble c op 1 Cin u J dq1 r i z).
  { intros J dq dq1 H. unfold assemble. destruct r as [|r].
    - destruct (Nat.eqb z 0); [ring|]. unfold dC. unfold Rdiv. ring.
    - destruct (Nat.eqb r (nr c - 1)); [|apply H].
      rewrite (rsum_ext (nr c - 1) _ (fun m => th * (Wr op m * dq1 m i z)))
        by (intros m _; rewrite H; ring).
      rewrite rsum_scal. unfold Rdiv. ring. }
  destruct psdm; cbn [rhs]; apply G; intros m.
  - unfold psdm_dY. rewrite <- implicit_scal. unfold implicit_presat.
    destruct (Nat.eqb i 0); [f_equal; apply rsum_ext; intros|]; unfold Rdiv; ring.
  - unfold hsdm_dq. rewrite <- implicit_scal. unfold implicit_presat.
    destruct (Nat.eqb i 0); [f_equal; apply rsum_ext; intros|]; unfold Rdiv; ring.
Qed.

(** ** C21: dependencies *)
Section Dep.
Variables (psdm : bool) (c : column) (op : operators) (th : R) (Cin : nat -> R) (u1 u2 : state).
Hypothesis HN : (0 < NION c)%nat.
Hypothesis Hr : (1 <= nr c)%nat.

Lemma CTz_dep z : (forall i, (i < NION c)%nat -> (z < nz c)%nat -> u1 0%nat i z = u2 0%nat i z) ->
  (z < nz c)%nat -> CTz c Cin u1 z = CTz c Cin u2 z.
Proof.
  intros H Hz. apply rsum_ext. intros i Hi. unfold liq. destruct (Nat.eqb z 0); [reflexivity|].
  apply H; assumption.
Qed.
Lemma flux_dep qs1 qs2 i z : (forall j, (j < NION c)%nat -> u1 0%nat j z = u2 0%nat j z) ->
  (forall j, (j < NION c)%nat -> qs1 j = qs2 j) -> (i < NION c)%nat -> (z < nz c)%nat ->
  flux c Cin u1 qs1 i z = flux c Cin u2 qs2 i z.
Proof.
  intros H Hqs Hi Hz. unfold flux. apply implicit_ext; [|exact Hi]. intros j Hj.
  f_equal. f_equal.
  - unfold liq. destruct (Nat.eqb z 0); [reflexivity|]. apply H, Hj.
  - apply calc_Ceq_ext; try assumption. apply CTz_dep; [|exact Hz]. intros; apply H; assumption.
Qed.
(** Resin rows: same depth only. *)
Lemma resin_dep k i z : (k < nr c)%nat -> (i < NION c)%nat -> (z < nz c)%nat ->
  (forall r j, (r <= nr c)%nat -> (j < NION c)%nat -> u1 r j z = u2 r j z) ->
  rhs psdm c op th Cin u1 (S k) i z = rhs psdm c op th Cin u2 (S k) i z.
Proof.
  intros Hk Hi Hz H.
  assert (HBr : forall m j, (j < NION c)%nat ->
     rsum (nr c) (fun n => Br op m n * u1 (S n) j z) = rsum (nr c) (fun n => Br op m n * u2 (S n) j z)).
  { intros m j Hj. apply rsum_ext. intros n Hn. rewrite H by lia. reflexivity. }
  assert (G : forall J1 J2 dq1 dq2, J1 i z = J2 i z -> (forall m, (m < nr c)%nat -> dq1 m i z = dq2 m i z) ->
     assemble c op th Cin u1 J1 dq1 (S k) i z = assemble c op th Cin u2 J2 dq2 (S k) i z).
  { intros J1 J2 dq1 dq2 EJ Ed. unfold assemble. destruct (Nat.eqb_spec k (nr c - 1)).
    - rewrite EJ. do 2 f_equal. apply rsum_ext. intros m Hm. rewrite Ed by lia. reflexivity.
    - apply Ed, Hk. }
  destruct psdm; cbn [rhs]; apply G.
  - apply flux_dep; try assumption; [intros; apply H; lia|]. intros j Hj. rewrite H by lia. reflexivity.
  - intros m Hm. apply implicit_ext; [|exact Hi]. intros j Hj. rewrite HBr by assumption.
    do 4 f_equal. apply rsum_ext. intros n Hn. f_equal. unfold psdm_Cpore.
    apply calc_Ceq_ext; try assumption.
    + intros l Hl. unfold psdm_q. rewrite H by lia. reflexivity.
    + apply CTz_dep; [|exact Hz]. intros; apply H; lia.
  - apply flux_dep; try assumption; [intros; apply H; lia|]. intros j Hj. apply H; lia.
  - intros m Hm. apply implicit_ext; [|exact Hi]. intros j Hj. rewrite HBr by assumption. reflexivity.
Qed.
(** Liquid rows: liquid and bead surface only. *)
Lemma liquid_dep i z : (i < NION c)%nat -> (z < nz c)%nat ->
  (forall r j w, (r = 0 \/ r = nr c)%nat -> (j < NION c)%nat -> (w < nz c)%nat -> u1 r j w = u2 r j w) ->
  rhs psdm c op th Cin u1 0%nat i z = rhs psdm c op th Cin u2 0%nat i z.
Proof.
  intros Hi Hz H.
  assert (G : forall J1 J2 dq1 dq2, J1 i z = J2 i z ->
     assemble c op th Cin u1 J1 dq1 0%nat i z = assemble c op th Cin u2 J2 dq2 0%nat i z).
  { intros J1 J2 dq1 dq2 EJ. unfold assemble. destruct (Nat.eqb z 0); [reflexivity|].
    unfold dC. rewrite EJ. do 4 f_equal. apply rsum_ext. intros j Hj. f_equal.
    unfold liq. destruct (Nat.eqb j 0); [reflexivity|]. apply H; auto. }
  destruct psdm; cbn [rhs]; apply G; apply flux_dep; try assumption;
    try (intros; apply H; auto; fail).
  intros j Hj. rewrite H by auto. reflexivity.
Qed.
End Dep.

Lemma nsum_zero n f : nsum n f = 0%nat -> forall k, (k < n)%nat -> f k = 0%nat.
Proof.
  induction n as [|n IH]; intros H k Hk; [lia|]. cbn [nsum] in H.
  destruct (Nat.eq_dec k n) as [->|]; [lia|]. apply IH; lia.
Qed.

Lemma Jac_zero nr N nz r i z r' i' z' : (r <= nr)%nat -> (i < N)%nat -> (z < nz)%nat ->
  (r' <= nr)%nat -> (i' < N)%nat -> (z' < nz)%nat ->
  Jac_struc nr N nz (flat N nz r i z) (flat N nz r' i' z') = 0%nat ->
  (r = 0 /\ r' <> 0 /\ r' <> nr)%nat \/ (r <> 0 /\ z <> z')%nat.
Proof.
  intros Hr Hi Hz Hr' Hi' Hz' H. unfold Jac_struc in H. cbv zeta in H.
  assert (B : forall a b d, (a < N)%nat -> (b < nz)%nat -> (flat N nz d a b < S d * (N * nz))%nat).
  { intros a b d Ha Hb. unfold flat. assert (a * nz + b < N * nz)%nat by nia. nia. }
  destruct (Nat.ltb_spec (flat N nz r i z) (N * nz)) as [Hlt|Hge].
  - left. assert (r = 0)%nat. { unfold flat in Hlt. nia. } split; [assumption|].
    destruct (Nat.ltb_spec (flat N nz r' i' z') (N * nz)) as [Hlt'|Hge']; [discriminate|].
    destruct (Nat.leb_spec (nr * (N * nz)) (flat N nz r' i' z')) as [Hle|Hlt'']; [discriminate|].
    split; intros ->.
    + specialize (B i' z' 0%nat Hi' Hz'). lia.
    + unfold flat in Hlt''. lia.
  - right. split; [intros ->; specialize (B i z 0%nat Hi Hz); lia|]. intros <-.
    apply Nat.eq_add_0 in H. destruct H as (H1 & H2).
    assert (C : forall a b, (a <= nr)%nat -> (b < N)%nat -> flat N nz a b z = ((a * N + b) * nz + z)%nat)
      by (intros; unfold flat; nia).
    assert (D : forall a b, (a <= nr)%nat -> (b < N)%nat -> (a * N + b < N * (1 + nr))%nat)
      by (intros; nia).
    assert (D1 := D r i Hr Hi). assert (D2 := D r' i' Hr' Hi').
    rewrite (C r i Hr Hi) in *. rewrite (C r' i' Hr' Hi') in *.
    set (p := (r * N + i)%nat) in *. set (p' := (r' * N + i')%nat) in *.
    destruct (lt_eq_lt_dec p p') as [[L|E]|L].
    + assert (Z := nsum_zero _ _ H2 (p' - p - 1)%nat ltac:(lia)). cbv beta in Z.
      apply Nat.eq_add_0 in Z. destruct Z as (Z & _). unfold eye in Z.
      replace (p' - p - 1 + 1)%nat with (p' - p)%nat in Z by lia.
      destruct (Z.eqb_spec (Z.of_nat (p' * nz + z)) (Z.of_nat (p * nz + z) + Z.of_nat (nz * (p' - p)))) as [|Hne];
        [discriminate|]. apply Hne. rewrite <- Nat2Z.inj_add. f_equal. nia.
    + rewrite E in *. destruct (Nat.leb_spec (N * nz) (p' * nz + z)); [|lia].
      unfold eye in H1. rewrite Z.add_0_r, Z.eqb_refl in H1. discriminate.
    + assert (Z := nsum_zero _ _ H2 (p - p' - 1)%nat ltac:(lia)). cbv beta in Z.
      apply Nat.eq_add_0 in Z. destruct Z as (_ & Z). unfold eye in Z.
      replace (p - p' - 1 + 1)%nat with (p - p')%nat in Z by lia.
      destruct (Z.eqb_spec (Z.of_nat (p' * nz + z)) (Z.of_nat (p * nz + z) + - Z.of_nat (nz * (p - p')))) as [|Hne];
        [discriminate|]. apply Hne.
      enough (Z.of_nat (p' * nz + z) + Z.of_nat (nz * (p - p')) = Z.of_nat (p * nz + z))%Z by lia.
      rewrite <- Nat2Z.inj_add. f_equal. nia.
Qed.

Lemma sparsity psdm c op th Cin r i z r' i' z' : (0 < NION c)%nat -> (1 <= nr c)%nat ->
  (r <= nr c)%nat -> (i < NION c)%nat -> (z < nz c)%nat ->
  (r' <= nr c)%nat -> (i' < NION c)%nat -> (z' < nz c)%nat ->
  Jac_struc (nr c) (NION c) (nz c) (flat (NION c) (nz c) r i z) (flat (NION c) (nz c) r' i' z') = 0%nat ->
  forall u1 u2, agree_except (nr c) (NION c) (nz c) u1 u2 r' i' z' ->
  rhs psdm c op th Cin u1 r i z = rhs psdm c op th Cin u2 r i z.
Proof.
  intros HN Hr1 Hr Hi Hz Hr' Hi' Hz' HJ u1 u2 H.
  destruct (Jac_zero _ _ _ _ _ _ _ _ _ Hr Hi Hz Hr' Hi' Hz' HJ) as [(-> & A & B)|(A & B)].
  - apply liquid_dep; try assumption. intros s j w Hs Hj Hw. apply H; try assumption; [lia|].
    intros E. inversion E; subst. lia.
  - destruct r as [|k]; [congruence|]. apply resin_dep; try assumption; try lia.
    intros s j Hs Hj. apply H; try assumption. intros E. inversion E; subst. congruence.
Qed.

(** ** C20: influent *)
Lemma interp_scale s (l : list (R * R)) T : 0 < s ->
  interp1d (map (fun p => (fst p * s, snd p)) l) (T * s) = interp1d l T.
Proof.
  intros Hs. induction l as [|(x0, y0) l IH]; [reflexivity|].
  destruct l as [|(x1, y1) l]; [reflexivity|].
  cbn [interp1d map fst snd] in IH |- *. rewrite IH.
  assert (E : forall a b, rleb (a * s) (b * s) = rleb a b).
  { intros a b. unfold rleb. destruct (Rle_dec (a * s) (b * s)) as [H|H], (Rle_dec a b) as [H'|H'];
      try reflexivity; exfalso.
    - apply Rmult_le_reg_r in H; [contradiction|exact Hs].
    - apply H. apply Rmult_le_compat_r; lra. }
  rewrite !E. destruct (rleb x0 T && rleb T x1)%bool; [|reflexivity]. f_equal. f_equal.
  unfold Rdiv. destruct (Req_dec (x1 - x0) 0) as [E0|E0].
  - (* degenerate segment *)
    replace (x1 * s - x0 * s) with ((x1 - x0) * s) by ring. rewrite E0, Rmult_0_l.
    assert (E1 : / 0 = 0) by apply Rinv_0. rewrite E1. ring.
  - field. repeat split; try lra.
    replace (x1 * s - x0 * s) with ((x1 - x0) * s) by ring.
    apply Rmult_integral_contrapositive. split; lra.
Qed.

Lemma interp_segment : forall (l : list (R * R)) n T,
  (forall i j, (i < j)%nat -> (j < length l)%nat -> fst (nth i l (0, 0)) < fst (nth j l (0, 0))) ->
  (S n < length l)%nat ->
  let p := nth n l (0, 0) in let p' := nth (S n) l (0, 0) in
  fst p <= T <= fst p' ->
  interp1d l T = Ok (snd p + (snd p' - snd p) / (fst p' - fst p) * (T - fst p)).
Proof.
  induction l as [|(x0, y0) l IH]; intros n T HI Hn p p' HT; [simpl in Hn; lia|].
  destruct l as [|(x1, y1) l]; [simpl in Hn; lia|].
  assert (H01 : x0 < x1) by (apply (HI 0%nat 1%nat); simpl; lia).
  cbn [interp1d]. destruct n as [|n].
  - cbn in p, p'. subst p p'. cbn [fst snd] in *. unfold rleb.
    destruct (Rle_dec x0 T); [|lra]. destruct (Rle_dec T x1); [|lra]. reflexivity.
  - assert (HI' : forall i j, (i < j)%nat -> (j < length ((x1, y1) :: l))%nat ->
       fst (nth i ((x1, y1) :: l) (0, 0)) < fst (nth j ((x1, y1) :: l) (0, 0))).
    { intros i j Hi Hj. apply (HI (S i) (S j)); simpl in *; lia. }
    assert (HR := IH n T HI' ltac:(simpl in *; lia) HT).
    change (nth n ((x1, y1) :: l) (0, 0)) with p in HR.
    change (nth (S n) ((x1, y1) :: l) (0, 0)) with p' in HR.
    destruct (rleb x0 T && rleb T x1)%bool eqn:E; [|exact HR].
    apply andb_prop in E. destruct E as (_ & E). unfold rleb in E. destruct (Rle_dec T x1) as [HT1|]; [|discriminate].
    destruct n as [|n].
    + change p with (x1, y1) in *. cbn [fst snd] in *. assert (T = x1) by lra. subst T.
      f_equal. replace (x1 - x1) with 0 by ring. rewrite Rmult_0_r, Rplus_0_r. field. lra.
    + assert (x1 < fst p). { apply (HI' 0%nat (S n)); simpl in *; lia. } lra.
Qed.

Lemma interp_below l T : (forall i j, (i < j)%nat -> (j < length l)%nat -> fst (nth i l (0, 0)) < fst (nth j l (0, 0))) ->
  (T < fst (nth 0 l (0, 0)) \/ fst (nth (length l - 1) l (0, 0)) < T) -> interp1d l T = Err ValueError.
Proof.
  induction l as [|(x0, y0) l IH]; intros HI HT; [reflexivity|].
  destruct l as [|(x1, y1) l]; [reflexivity|]. cbn [interp1d].
  assert (H01 : x0 < x1) by (apply (HI 0%nat 1%nat); simpl; lia).
  assert (HL : x1 <= fst (nth (length ((x0, y0) :: (x1, y1) :: l) - 1) ((x0, y0) :: (x1, y1) :: l) (0, 0))).
  { destruct l as [|q l].
    - simpl. lra.
    - left. apply (HI 1%nat); simpl; lia. }
  assert (HC : (rleb x0 T && rleb T x1)%bool = false).
  { unfold rleb. destruct (Rle_dec x0 T), (Rle_dec T x1); try reflexivity. exfalso.
    destruct HT as [HT|HT]; [cbn [nth fst] in HT|]; lra. }
  rewrite HC. apply IH.
  - intros i j Hi Hj. apply (HI (S i) (S j)); simpl in *; lia.
  - destruct HT as [HT|HT].
    + left. cbn [nth fst] in *. lra.
    + right. replace (length ((x0, y0) :: (x1, y1) :: l) - 1)%nat with (S (length ((x1, y1) :: l) - 1))%nat in HT
        by (simpl; lia). exact HT.
Qed.

Section Influent.
Variables (tm th : R) (times col : list R).
Hypothesis Hs : 0 < tm / th.
Hypothesis HI : strictly_increasing times.
Hypothesis HL : length times = length col.
Let tab := combine (map (fun t => t * (tm / th)) times) col.
Lemma tab_length : length tab = length times.
Proof. unfold tab. rewrite combine_length, map_length. lia. Qed.
Lemma tab_nth n : (n < length times)%nat -> nth n tab (0, 0) = (nth n times 0 * (tm / th), nth n col 0).
Proof.
  intros Hn. unfold tab. rewrite combine_nth by (rewrite map_length; exact HL). f_equal.
  rewrite (nth_indep _ 0 (0 * (tm / th))) by (rewrite map_length; exact Hn).
  apply (map_nth (fun t => t * (tm / th))).
Qed.
Lemma tab_inc i j : (i < j)%nat -> (j < length tab)%nat -> fst (nth i tab (0, 0)) < fst (nth j tab (0, 0)).
Proof.
  rewrite tab_length. intros Hi Hj. rewrite !tab_nth by lia. cbn [fst].
  apply Rmult_lt_compat_r; [exact Hs|apply HI; assumption].
Qed.
Lemma influent_segment n t : (S n < length times)%nat -> nth n times 0 <= t <= nth (S n) times 0 ->
  get_Cin false tm th times col (t * (tm / th))
  = Ok (nth n col 0 + (nth (S n) col 0 - nth n col 0) / (nth (S n) times 0 - nth n times 0) * (t - nth n times 0)).
Proof.
  intros Hn Ht. unfold get_Cin. fold tab.
  assert (X := interp_segment tab n (t * (tm / th)) tab_inc ltac:(rewrite tab_length; exact Hn)).
  cbv zeta in X. rewrite !tab_nth in X by lia. cbn [fst snd] in X. rewrite X.
  - f_equal. f_equal. assert (nth n times 0 < nth (S n) times 0) by (apply HI; lia).
    set (s := tm / th) in *. field. split; [lra|].
    replace (nth (S n) times 0 * s - nth n times 0 * s) with ((nth (S n) times 0 - nth n times 0) * s) by ring.
    apply Rmult_integral_contrapositive. split; lra.
  - split; apply Rmult_le_compat_r; lra.
Qed.
Lemma influent_outside t : (0 < length times)%nat ->
  t < nth 0 times 0 \/ nth (length times - 1) times 0 < t ->
  get_Cin false tm th times col (t * (tm / th)) = Err ValueError.
Proof.
  intros Hn Ht. unfold get_Cin. fold tab. apply interp_below; [exact tab_inc|].
  rewrite tab_length, !tab_nth by lia. cbn [fst].
  destruct Ht; [left|right]; apply Rmult_lt_compat_r; lra.
Qed.
End Influent.

Lemma unit_independent th times col T k tm : k <> 0 ->
  get_Cin false tm th times col T = get_Cin false (tm * k) th (map (fun t => t / k) times) col T.
Proof.
  intros Hk. unfold get_Cin. do 2 f_equal. rewrite map_map. apply map_ext. intros t.
  unfold Rdiv. set (w := / th). field. exact Hk.
Qed.

Lemma equilibrium_calc n K z q C : (0 < n)%nat -> selectivities n K -> resin_composition n q ->
  mono_or_divalent n z -> (forall i, (i < n)%nat -> 0 <= C i) -> in_equilibrium n K z q C ->
  forall i, (i < n)%nat -> calc_Ceq n K z q (rsum n C) i = C i.
Proof.
  intros Hn HK Hq Hz HC HE i Hi. unfold calc_Ceq.
  destruct HE as [((k & Hk & Ek) & HL)|(Hnd & HL)].
  - assert (E : has_divalent n z = true).
    { apply existsb_exists. exists k. split; [apply in_seq; lia|]. unfold dv_idx. rewrite Ek. reflexivity. }
    rewrite E. symmetry. apply Ceq_dv_unique; try assumption.
    + apply rsum_nonneg, HC.
    + reflexivity.
    + apply HC, Hn.
  - assert (E : has_divalent n z = false).
    { unfold has_divalent. destruct (existsb (dv_idx z) (seq 0 n)) eqn:E; [|reflexivity].
      apply existsb_exists in E. destruct E as (k & Hk & E). apply in_seq in Hk.
      unfold dv_idx in E. apply Nat.eqb_eq in E. exfalso. apply (Hnd k); [lia|exact E]. }
    rewrite E. symmetry. apply Ceq_mv_unique; try assumption. reflexivity.
Qed.
