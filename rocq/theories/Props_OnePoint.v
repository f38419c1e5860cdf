(** C196, C201 — beads at the inlet of an ion-exchange column on one radial point. *)
From Coq Require Import Reals List Arith Bool Lra Lia.
From Verif Require Import Lib_Py Lib_Sum Lib_Traj S_Colloc M_Colloc P_Colloc S_Radial P_Radial P_RadialSign.
From Verif Require Import M_IxEq S_IxEq M_IxColumn S_IxColumn P_IxColumn S_Unique Props_Rest Props_Exhaust Props_IxColumn P_InletTwo P_L1 Props_InletTwo S_Approach.
Open Scope R_scope.

(** ** A bead that is all surface *)
Section Alone.
Variables (n : nat) (z : nat -> nat) (K : nat -> R) (Q c0 h : R).
Hypothesis HK : forall i, (i < n)%nat -> 0 < K i.
Hypothesis Hz : forall i, (i < n)%nat -> z i = 1%nat \/ z i = 2%nat.
Hypothesis Z0 : z 0%nat = 1%nat.
Hypothesis HN : (0 < n)%nat.
Hypothesis HQ : 0 < Q.
Hypothesis Hc : 0 < c0.
Hypothesis Hh : 0 < h.
Variables (Tf : R) (Y Y' X X' : nat -> R -> R) (C : R -> nat -> R).
Hypothesis HCT : forall t, 0 < t < Tf -> c0 <= rsum n (C t).
Hypothesis EY : forall i, (i < n)%nat -> evolves 0 Tf (Y i) (Y' i).
Hypothesis EX : forall i, (i < n)%nat -> evolves 0 Tf (X i) (X' i).
Hypothesis KY : forall t, 0 <= t <= Tf -> kept n Y Y t.
Hypothesis KX : forall t, 0 <= t <= Tf -> kept n X X t.
Hypothesis SY : forall t, 0 <= t <= Tf -> rsum n (rowx Y t) = Q.
Hypothesis SX : forall t, 0 <= t <= Tf -> rsum n (rowx X t) = Q.
Hypothesis RY : forall t i, 0 < t < Tf -> (i < n)%nat -> Y' i t = h * (C t i - shr n z K (rsum n (C t)) (rowx Y t) i * Y i t).
Hypothesis RX : forall t i, 0 < t < Tf -> (i < n)%nat -> X' i t = h * (C t i - shr n z K (rsum n (C t)) (rowx X t) i * X i t).
Let A := h * kap n K Q c0.
Lemma alone_approaches t : 0 <= t <= Tf -> rsum n (fun i => Rabs (Y i t - X i t)) <= exp (- A * t) * rsum n (fun i => Rabs (Y i 0 - X i 0)).
Proof.
  intros T.
  assert (FE : forall i, (i < n)%nat -> evolves 0 Tf (fun t => exp (A * t) * (Y i t - X i t)) (fun t => A * exp (A * t) * (Y i t - X i t) + exp (A * t) * (Y' i t - X' i t))).
  { intros i I. apply (evolves_mult 0 Tf (fun t => exp (A * t)) (fun t => Y i t - X i t)); [apply evolves_exp|].
    apply (evolves_ext 0 Tf (fun t => Y i t + (- 1) * X i t) _ (fun t => Y' i t + (- 1) * X' i t)); [intros; ring|intros; ring|]. apply evolves_plus; [apply EY, I|apply evolves_scal, EX, I]. }
  assert (FALL := l1_falls n (fun i t => exp (A * t) * (Y i t - X i t)) (fun i t => A * exp (A * t) * (Y i t - X i t) + exp (A * t) * (Y' i t - X' i t)) (fun _ _ => 0) (fun _ _ => 0) Tf FE (fun _ _ => evolves_const 0 Tf 0)).
  cbv beta in FALL. lapply FALL; [clear FALL; intros FALL|clear FALL].
  - assert (SC : forall s, rsum n (fun i => Rabs (exp (A * s) * (Y i s - X i s)) + Rabs 0) = exp (A * s) * rsum n (fun i => Rabs (Y i s - X i s))).
    { intros s. rewrite <- rsum_scal. apply rsum_ext. intros i _. assert (E := exp_pos (A * s)). rewrite Rabs_mult, Rabs_R0, (Rabs_right (exp (A * s))) by lra. ring. }
    assert (FT := FALL t T). rewrite !SC in FT. rewrite Rmult_0_r, exp_0, Rmult_1_l in FT.
    apply (Rmult_le_reg_l (exp (A * t))); [apply exp_pos|]. rewrite <- Rmult_assoc, <- exp_plus. replace (A * t + - A * t) with 0 by ring. rewrite exp_0, Rmult_1_l. exact FT.
  - intros s sg rr S1 SF _. assert (E := exp_pos (A * s)).
    assert (SF' : forall i, (i < n)%nat -> sign_of (sg i) (Y i s - X i s)) by (intros i I; apply (sign_scale (exp (A * s))); [exact E|apply SF, I]).
    assert (MR := mono_rate n z K Q c0 HK Hz Z0 HN HQ Hc Tf Y Y X X C HCT KY KX SY SX s sg S1 SF').
    set (DY := rsum n (fun i => Rabs (Y i s - X i s))) in *. set (U := rsum n (fun i => sg i * (shr n z K (rsum n (C s)) (rowx Y s) i * Y i s - shr n z K (rsum n (C s)) (rowx X s) i * X i s))) in *.
    replace (rsum n (fun i => sg i * (A * exp (A * s) * (Y i s - X i s) + exp (A * s) * (Y' i s - X' i s)) + rr i * 0)) with (exp (A * s) * (A * DY - h * U)).
    + rewrite <- (Rmult_0_r (exp (A * s))). apply Rmult_le_compat_l; [lra|]. assert (HU := Rmult_le_compat_l h _ _ ltac:(lra) MR). unfold A. lra.
    + unfold DY, U. rewrite <- !rsum_scal, <- rsum_minus, <- rsum_scal. apply rsum_ext. intros i I. rewrite (RY s i S1 I), (RX s i S1 I), <- (sign_abs _ _ (SF' i I)). ring.
Qed.
End Alone.

Definition one_rate (op : operators) (c : column) (th : R) : R := th / rb c * kL c 1%nat / Wr op 0%nat.
Definition only_of (v : R -> state) (i : nat) (t : R) : R := v t 1%nat i 0%nat.
Section Inlet.
Variables (legendre : nat -> nat -> R) (jacobi : nat -> R -> R -> nat -> R) (ocfe : bool) (op : operators) (psdm : bool) (c : column) (th : R).
Hypothesis HJ : jacobi_roots 2 0 (jacobi 0%nat (5 / 2) (3 / 2)).
Hypothesis BO : build_operators legendre jacobi (nr c) (nz c) ocfe = Ok op.
Hypothesis WC : working_column psdm c th.
Hypothesis N1 : nr c = 1%nat.
Hypothesis NI : (1 < NION c)%nat.
Lemma one_weight : 0 < Wr op 0%nat.
Proof.
  assert (HJ' : jacobi_roots 2 (nr c - 1) (jacobi (nr c - 1)%nat (INR 3 / 2 + 1) (INR 3 / 2))) by (rewrite Props_PacBound.INR3, N1; replace (3 / 2 + 1) with (5 / 2) by field; exact HJ).
  assert (EW : Wr op = Wx (nr c) (rootsu jacobi (nr c) (INR 3)) (INR 3)).
  { rewrite Props_PacBound.INR3. unfold build_operators in BO. destruct ocfe; [destruct (Nat.eqb _ _); [|discriminate BO]|]; apply Ok_inj in BO; subst op; reflexivity. }
  destruct (code_weights jacobi (nr c) 2 ltac:(lia) HJ') as (WP & _). rewrite <- EW in WP. apply WP. lia.
Qed.
Lemma one_positive : 0 < one_rate op c th.
Proof.
  assert (W := one_weight). assert (HR : 0 < rb c) by apply WC. assert (HT0 : 0 < th) by apply WC. assert (K1 : 0 < kL c 1%nat) by (apply WC; lia).
  apply Rdiv_lt_0_compat; [apply Rmult_lt_0_compat; [apply Rdiv_lt_0_compat; assumption|exact K1]|exact W].
Qed.
Hypothesis SAME : forall i, (1 <= i < NION c)%nat -> kL c i = kL c 1%nat.
Variables (Cin : R -> nat -> R) (Tf : R) (y : R -> state).
Hypothesis HC : forall T i, 0 < T < Tf -> (i < NION c)%nat -> 0 <= Cin T i.
Hypothesis TR : is_trajectory (nr c) (NION c) (nz c) (fun T u => rhs psdm c op th (Cin T) u) Tf y.
Let Y := only_of y.
Lemma one_rates t i : 0 < t < Tf -> (i < NION c)%nat -> sound (NION c) (val c) (cK psdm c) (rsum (NION c) (Cin t)) (rowx Y t) ->
  rhs psdm c op th (Cin t) (y t) 1%nat i 0%nat = one_rate op c th * (Cin t i - shr (NION c) (val c) (cK psdm c) (rsum (NION c) (Cin t)) (rowx Y t) i * Y i t).
Proof.
  intros Ht I SY. set (CT := rsum (NION c) (Cin t)) in *. assert (CP : 0 <= CT) by (apply rsum_nonneg; intros j J; apply HC; assumption). assert (N0 : (0 < NION c)%nat) by lia.
  assert (Hz : forall i, (i < NION c)%nat -> val c i = 1%nat \/ val c i = 2%nat) by apply WC. assert (HR : 0 < rb c) by apply WC. assert (W := one_weight).
  set (FY := fun j => one_rate op c th * (Cin t j - shr (NION c) (val c) (cK psdm c) CT (rowx Y t) j * Y j t)).
  assert (LATER : forall j, (1 <= j < NION c)%nat -> rhs psdm c op th (Cin t) (y t) 1%nat j 0%nat = FY j).
  { intros j J. assert (E := col_eq psdm c th (rowx Y t) CT j WC CP SY ltac:(lia)). change (rowx Y t j) with (Y j t) in E. unfold FY. rewrite <- E.
    assert (EJ : Nat.eqb j 0 = false) by (apply Nat.eqb_neq; lia).
    assert (FL : forall qs, flux c (Cin t) (y t) qs j 0%nat = - kL c j * (Cin t j - calc_Ceq (NION c) (Kxc c) (val c) qs CT j)).
    { intros qs. unfold flux, implicit_presat. rewrite EJ. replace (CTz c (Cin t) (y t) 0) with CT by (unfold CTz, liq; cbn [Nat.eqb]; reflexivity). reflexivity. }
    assert (AS : forall J0 dq, assemble c op th (Cin t) (y t) J0 dq 1%nat j 0%nat = - th / rb c * J0 j 0%nat / Wr op 0%nat) by (intros J0 dq; unfold assemble; rewrite N1; cbn [Nat.sub Nat.eqb rsum]; rewrite Rminus_0_r; reflexivity).
    unfold one_rate. rewrite <- (SAME j J). clear - AS FL N1 HR W J. unfold rhs, theta. destruct psdm.
    - unfold diffun_psdm. rewrite AS. unfold psdm_J. rewrite FL, N1. unfold rowx, Y, only_of. field. lra.
    - unfold diffun_hsdm. rewrite AS. unfold hsdm_J. rewrite FL, N1. replace (calc_Ceq (NION c) (Kxc c) (val c) (fun j0 => rowx Y t j0 / 1) CT j) with (calc_Ceq (NION c) (Kxc c) (val c) (fun i0 => y t 1%nat i0 0%nat) CT j); [field; lra|].
      apply calc_Ceq_ext; [lia|intros k _; unfold rowx, Y, only_of; field|reflexivity|lia]. }
  assert (FYS : rsum (NION c) FY = 0).
  { unfold FY. rewrite (rsum_ext _ _ (fun j => one_rate op c th * Cin t j + (- one_rate op c th) * (shr (NION c) (val c) (cK psdm c) CT (rowx Y t) j * rowx Y t j))) by (intros j _; unfold rowx; ring).
    rewrite rsum_plus, !rsum_scal, shr_sum by assumption. fold CT. ring. }
  change (rhs psdm c op th (Cin t) (y t) 1%nat i 0%nat = FY i). destruct i as [|i]; [|apply LATER; lia].
  assert (RS : rsum (NION c) (fun j => rhs psdm c op th (Cin t) (y t) 1%nat j 0%nat) = 0) by (apply C14_resin_rates_sum_to_zero, N0).
  destruct (NION c) as [|n] eqn:EN; [lia|]. rewrite rsum_S_first in RS, FYS. rewrite (rsum_ext n (fun k => rhs psdm c op th (Cin t) (y t) 1%nat (S k) 0%nat) (fun k => FY (S k))) in RS by (intros k K; apply LATER; lia). lra.
Qed.
Hypothesis L0 : loaded_inlet 1 (NION c) (Qcap c) (y 0).
Lemma one_total t : 0 <= t <= Tf -> rsum (NION c) (rowx Y t) = Qcap c.
Proof.
  intros Ht. unfold rowx, Y, only_of. rewrite (C14_resin_total_constant psdm c op th Cin Tf y ltac:(lia) TR t Ht 0%nat 0%nat ltac:(lia)) by (destruct WC as (_ & _ & X & _); lia). apply (L0 1%nat). lia.
Qed.
Variable M : R.
Hypothesis HM : forall T, 0 < T < Tf -> rsum (NION c) (Cin T) <= M.
Lemma one_kept t : 0 <= t <= Tf -> kept (NION c) Y Y t.
Proof.
  intros Ht. assert (TF : 0 <= Tf) by lra. assert (N0 : (0 < NION c)%nat) by lia. assert (NZ : (0 < nz c)%nat) by (destruct WC as (_ & _ & X & _); lia). assert (HH := one_positive).
  destruct (L0 1%nat ltac:(lia)) as (A1 & A2 & A3).
  assert (QP : 0 < Qcap c) by (rewrite <- A3; apply (rsum_pos_one _ _ 0%nat N0); assumption).
  assert (KEPT : kept (NION c) Y (fun i _ => y 0 1%nat i 0%nat) t).
  { apply (bead_keeps (NION c) (val c) (cK psdm c) (Qcap c) (Rmax M 0) (one_rate op c th) 0 0 0 0 Tf Y (fun i _ => y 0 1%nat i 0%nat)
      (fun i t => rhs psdm c op th (Cin t) (y t) 1%nat i 0%nat) (fun _ _ => 0) Cin); try assumption; try lra; try apply WC.
    - intros i I. apply (cK_pos psdm c th); assumption.
    - apply Rmax_r.
    - intros s Hs. eapply Rle_trans; [apply HM, Hs|apply Rmax_l].
    - intros i I. apply (TR 1%nat i 0%nat); [lia|exact I|exact NZ].
    - intros i I. apply evolves_const.
    - intros s i Hs I SY _ g. split; [|ring]. rewrite (one_rates s i Hs I SY). ring.
    - intros s Hs. apply one_total, Hs.
    - intros s Hs. exact A3. }
  destruct KEPT as (NN & P & _). split; [|split; exact P]. intros i I. split; apply (NN i I).
Qed.
End Inlet.

Theorem C196_column_one_point_partial : forall legendre jacobi ocfe op (psdm : bool) c th Cin Tf y M,
  jacobi_roots 2 0 (jacobi 0%nat (5 / 2) (3 / 2)) -> build_operators legendre jacobi (nr c) (nz c) ocfe = Ok op ->
  working_column psdm c th -> nr c = 1%nat -> (1 < NION c)%nat -> (forall i, (1 <= i < NION c)%nat -> kL c i = kL c 1%nat) ->
  (forall T i, 0 < T < Tf -> (i < NION c)%nat -> 0 <= Cin T i) -> (forall T, 0 < T < Tf -> rsum (NION c) (Cin T) <= M) ->
  is_trajectory (nr c) (NION c) (nz c) (fun T u => rhs psdm c op th (Cin T) u) Tf y ->
  loaded_inlet (nr c) (NION c) (Qcap c) (y 0) -> forall T, 0 <= T <= Tf -> loaded_inlet (nr c) (NION c) (Qcap c) (y T).
Proof.
  intros legendre jacobi ocfe op psdm c th Cin Tf y M HJ BO WC N1 NI SAME HC HM TR L0 T HT r R. rewrite N1 in L0, R. assert (r = 1%nat) by lia. subst r.
  destruct (one_kept legendre jacobi ocfe op psdm c th HJ BO WC N1 NI SAME Cin Tf y HC TR L0 M HM T HT) as (NN & P & _). split; [exact P|]. split; [intros i I; apply (NN i I)|].
  exact (one_total op psdm c th WC N1 NI Cin Tf y TR L0 T HT).
Qed.
Theorem C201_one_point_forgets : forall legendre jacobi ocfe op (psdm : bool) c th c0,
  jacobi_roots 2 0 (jacobi 0%nat (5 / 2) (3 / 2)) -> build_operators legendre jacobi (nr c) (nz c) ocfe = Ok op ->
  working_column psdm c th -> nr c = 1%nat -> (1 < NION c)%nat -> 0 < Qcap c -> 0 < c0 -> (forall i, (1 <= i < NION c)%nat -> kL c i = kL c 1%nat) ->
  exists A, 0 < A /\ forall Cin Tf y x M,
    (forall T i, 0 < T < Tf -> (i < NION c)%nat -> 0 <= Cin T i) -> (forall T, 0 < T < Tf -> c0 <= rsum (NION c) (Cin T) <= M) ->
    is_trajectory (nr c) (NION c) (nz c) (fun T u => rhs psdm c op th (Cin T) u) Tf y ->
    is_trajectory (nr c) (NION c) (nz c) (fun T u => rhs psdm c op th (Cin T) u) Tf x ->
    loaded_inlet (nr c) (NION c) (Qcap c) (y 0) -> loaded_inlet (nr c) (NION c) (Qcap c) (x 0) ->
    forall T, 0 <= T <= Tf -> inlet_distance (nr c) (NION c) (y T) (x T) <= exp (- A * T) * inlet_distance (nr c) (NION c) (y 0) (x 0).
Proof.
  intros legendre jacobi ocfe op psdm c th c0 HJ BO WC N1 NI HQ HC0 SAME.
  assert (HH := one_positive legendre jacobi ocfe op psdm c th HJ BO WC N1 NI). assert (N0 : (0 < NION c)%nat) by lia. assert (NZ : (0 < nz c)%nat) by (destruct WC as (_ & _ & X & _); lia).
  assert (HK : forall i, (i < NION c)%nat -> 0 < cK psdm c i) by (intros i I; apply (cK_pos psdm c th); assumption).
  exists (one_rate op c th * kap (NION c) (cK psdm c) (Qcap c) c0). split; [apply Rmult_lt_0_compat; [exact HH|apply kap_pos; assumption]|].
  intros Cin Tf y x M HC HM TY TX LY LX T HT. rewrite N1 in LY, LX.
  assert (RATES : forall v, is_trajectory (nr c) (NION c) (nz c) (fun T u => rhs psdm c op th (Cin T) u) Tf v -> loaded_inlet 1 (NION c) (Qcap c) (v 0) ->
     (forall t, 0 <= t <= Tf -> kept (NION c) (only_of v) (only_of v) t) /\ forall t i, 0 < t < Tf -> (i < NION c)%nat ->
       rhs psdm c op th (Cin t) (v t) 1%nat i 0%nat = one_rate op c th * (Cin t i - shr (NION c) (val c) (cK psdm c) (rsum (NION c) (Cin t)) (rowx (only_of v) t) i * only_of v i t)).
  { intros v TV LV. assert (KP := one_kept legendre jacobi ocfe op psdm c th HJ BO WC N1 NI SAME Cin Tf v HC TV LV M (fun t Ht => proj2 (HM t Ht))). split; [exact KP|].
    intros t i Ht I. destruct (KP t ltac:(lra)) as (NN & P & _). apply (one_rates legendre jacobi ocfe op psdm c th HJ BO WC N1 NI SAME Cin Tf v HC); try assumption.
    apply kept_sound; try assumption; [apply WC|apply rsum_nonneg; intros j J; apply HC; assumption|intros j J; apply (NN j J)]. }
  destruct (RATES y TY LY) as (KY & RY). destruct (RATES x TX LX) as (KX & RX).
  assert (AP := alone_approaches (NION c) (val c) (cK psdm c) (Qcap c) c0 (one_rate op c th) HK (proj2 (proj1 (proj2 (proj2 (proj2 (proj2 WC)))))) (proj1 (proj1 (proj2 (proj2 (proj2 (proj2 WC)))))) N0 HQ HC0 HH Tf
    (only_of y) (fun i t => rhs psdm c op th (Cin t) (y t) 1%nat i 0%nat) (only_of x) (fun i t => rhs psdm c op th (Cin t) (x t) 1%nat i 0%nat) Cin (fun t Ht => proj1 (HM t Ht))
    (fun i I => TY 1%nat i 0%nat ltac:(lia) I NZ) (fun i I => TX 1%nat i 0%nat ltac:(lia) I NZ) KY KX (one_total op psdm c th WC N1 NI Cin Tf y TY LY) (one_total op psdm c th WC N1 NI Cin Tf x TX LX) RY RX T HT).
  rewrite N1. unfold inlet_distance. cbn [rsum]. rewrite !Rplus_0_l. exact AP.
Qed.
Print Assumptions C196_column_one_point_partial.
Print Assumptions C201_one_point_forgets.

Theorem C201_one_point_exhausts : forall legendre jacobi ocfe op (psdm : bool) c th C,
  good_roots legendre jacobi -> jacobi_roots 2 0 (jacobi 0%nat (5 / 2) (3 / 2)) -> build_operators legendre jacobi (nr c) (nz c) ocfe = Ok op ->
  working_column psdm c th -> nr c = 1%nat -> (1 < NION c)%nat -> 0 < Qcap c ->
  (forall i, (1 <= i < NION c)%nat -> kL c i = kL c 1%nat) ->
  (* water of constant composition with some presaturant *)
  (forall i, (i < NION c)%nat -> 0 <= C i) -> 0 < C 0%nat ->
  (* one composition, of the capacity and in equilibrium with the water *)
  exists q A B, (forall i, (i < NION c)%nat -> 0 <= q i) /\ rsum (NION c) q = Qcap c /\
    in_equilibrium (NION c) (Kxc c) (val c) (fun i => q i / theta psdm c) C /\ 0 < A /\ 0 < B /\
    (* which every bead at the inlet approaches *)
    forall Tf y, is_trajectory (nr c) (NION c) (nz c) (fun T u => rhs psdm c op th C u) Tf y -> loaded_inlet (nr c) (NION c) (Qcap c) (y 0) ->
    forall T r i, 0 <= T <= Tf -> (1 <= r <= nr c)%nat -> (i < NION c)%nat -> Rabs (y T r i 0%nat - q i) <= B * exp (- A * T).
Proof.
  intros legendre jacobi ocfe op psdm c th C HG HJ BO WC N1 NI HQ SM HC C0.
  assert (N0 : (0 < NION c)%nat) by lia. assert (NZ : (0 < nz c)%nat) by (destruct WC as (_ & _ & X & _); lia).
  assert (CT : 0 < rsum (NION c) C) by (apply (rsum_pos_one _ _ 0%nat N0); assumption).
  destruct (proj2 (C194_ion_column legendre jacobi ocfe op psdm c th C (Qcap c) HG BO WC HC CT HQ) C0) as (u & RC & AR).
  destruct (C192_ion_column legendre jacobi ocfe op psdm c th C u (Qcap c) HG BO WC HC CT RC AR) as (_ & UN & EQ).
  destruct (C201_one_point_forgets legendre jacobi ocfe op psdm c th (rsum (NION c) C) HJ BO WC N1 NI HQ CT SM) as (A & AP & FO).
  destruct (RC 0%nat 0%nat ltac:(lia) NZ) as (_ & U1 & U2).
  exists (fun i => u 1%nat i 0%nat), A, (2 * Qcap c). split; [exact U1|]. split; [exact U2|]. split; [exact (EQ 0%nat 0%nat ltac:(lia) NZ)|]. split; [exact AP|]. split; [lra|].
  intros Tf y TY LY T r i HT R I.
  assert (LX : loaded_inlet (nr c) (NION c) (Qcap c) u) by (intros [|k] K; [lia|apply (RC k 0%nat); [lia|exact NZ]]).
  assert (TX : is_trajectory (nr c) (NION c) (nz c) (fun T u => rhs psdm c op th C u) Tf (fun _ => u)).
  { intros k j z K J ZZ. apply (evolves_ext 0 Tf (fun _ => u k j z) _ (fun _ => 0)); [reflexivity|intros t _; symmetry; apply AR; assumption|apply evolves_const]. }
  assert (D := FO (fun _ => C) Tf y (fun _ => u) (rsum (NION c) C) (fun _ j _ J => HC j J) (fun _ _ => conj (Rle_refl _) (Rle_refl _)) TY TX LY LX T HT). cbv beta in D.
  assert (TOTAL : inlet_distance (nr c) (NION c) (y 0) u <= 2 * Qcap c).
  { rewrite N1 in *. unfold inlet_distance. cbn [rsum].
    assert (ONE : forall k, (1 <= k <= 1)%nat -> rsum (NION c) (fun j => Rabs (y 0 k j 0%nat - u k j 0%nat)) <= 2 * Qcap c).
    { intros k K. destruct (LY k K) as (_ & Y1 & Y2). destruct (LX k K) as (_ & X1 & X2). replace (2 * Qcap c) with (rsum (NION c) (fun j => y 0 k j 0%nat) + rsum (NION c) (fun j => u k j 0%nat)) by lra. rewrite <- rsum_plus.
      apply rsum_le. intros j J. assert (P1 := Y1 j J). assert (P2 := X1 j J). apply Rabs_le. lra. }
    assert (X := ONE 1%nat ltac:(lia)). lra. }
  assert (TERM : Rabs (y T r i 0%nat - u 1%nat i 0%nat) <= inlet_distance (nr c) (NION c) (y T) u).
  { destruct r as [|r]; [lia|]. rewrite (UN 0%nat r i 0%nat 0%nat ltac:(lia) ltac:(lia) I NZ NZ). unfold inlet_distance.
    eapply Rle_trans; [|apply (P_EntropyDv.one_le (nr c) (fun r => rsum (NION c) (fun i => Rabs (y T (S r) i 0%nat - u (S r) i 0%nat))) r ltac:(lia))].
    - apply (P_EntropyDv.one_le (NION c) (fun i => Rabs (y T (S r) i 0%nat - u (S r) i 0%nat)) i I). intros; apply Rabs_pos.
    - intros; apply rsum_nonneg; intros; apply Rabs_pos. }
  eapply Rle_trans; [exact TERM|]. eapply Rle_trans; [exact D|]. rewrite Rmult_comm. apply Rmult_le_compat_r; [left; apply exp_pos|exact TOTAL].
Qed.
Print Assumptions C201_one_point_exhausts.

(** Chloride resin fed chloride, nitrate and sulphate, on one radial point, both models. *)
From Verif Require Import Props_Exist Props_Negative Props_Binary.
Definition col_one : column :=
  {| NION := 3; nr := 1; nz := 5; EBED := 2 / 5; EPOR := 1 / 5; Lbed := 50; vel := 1 / 10;
     rb := 1 / 30; Qcap := 1400; kL := fun _ => 1 / 400; Ds := fun _ => 1 / 10000000; Dp := fun i => if Nat.eqb i 1 then 1 / 1000000 else 1 / 3000000;
     Kxc := fun i => match i with O => 1 | 1%nat => 3 | _ => 2 end; val := fun i => match i with 2%nat => 2%nat | _ => 1%nat end |}.
Example resin_approaches_one : forall psdm, exists op q A B Tf y, 0 < A /\ 0 < Tf /\ in_equilibrium 3 (Kxc col_one) (val col_one) (fun i => q i / theta psdm col_one) (fun _ => 1) /\
  build_operators even_roots (fun m _ _ => even_roots m) 1 5 false = Ok op /\ is_trajectory 1 3 5 (fun _ u => rhs psdm col_one op 100 (fun _ => 1) u) Tf y /\ same_state 1 3 5 (y 0) (initial_state col_one (fun _ => 1) None) /\
  loaded_inlet 1 3 1400 (y 0) /\
  forall T r i, 0 <= T <= Tf -> (1 <= r <= 1)%nat -> (i < 3)%nat -> Rabs (y T r i 0%nat - q i) <= B * exp (- A * T).
Proof.
  intros psdm. destruct (ex_two_ion_run psdm) as (HG & HJ & _).
  destruct (build_operators even_roots (fun m _ _ => even_roots m) 1 5 false) as [op|] eqn:B; [|discriminate B]. exists op.
  assert (TH : 0 < theta psdm col_one) by (destruct psdm; cbn; lra).
  assert (SK : selectivities 3 (Kxc col_one)) by (intros [|[|[|i]]] _; cbn; lra).
  assert (WC : working_column psdm col_one 100).
  { repeat split; try (cbn; lia); try (cbn; lra); try exact SK.
    all: destruct i as [|[|[|i]]]; cbn; try lia; try lra; auto. }
  destruct (C201_one_point_exhausts even_roots (fun m _ _ => even_roots m) false op psdm col_one 100 (fun _ => 1) HG HJ B WC eq_refl ltac:(cbn; lia) ltac:(cbn; lra)) as (q & A & BB & Q1 & Q2 & Q3 & AP & BP & AL);
    [intros i _; reflexivity|intros; lra|lra|].
  destruct (C168_fresh_bed_starts psdm col_one op 100 (fun _ _ => 1) 5) as (Tf & y & HT & TR & Y0); try (cbn; lia); try (cbn; lra); try assumption.
  - intros i _ t _ e He. exists 1. split; [lra|]. intros. rewrite Rminus_diag_eq by reflexivity. rewrite Rabs_R0. exact He.
  - intros. lra.
  - assert (L : loaded_inlet 1 3 1400 (y 0)).
    { intros [|k] K; [lia|]. split; [|split].
      + rewrite Y0 by (cbn; lia). cbn. lra.
      + intros i I. rewrite Y0 by (cbn in *; lia). destruct i; cbn; lra.
      + cbn. rewrite !Y0 by (cbn; lia). cbn. lra. }
    exists q, A, BB, Tf, y. split; [exact AP|]. split; [lra|]. split; [exact Q3|]. split; [reflexivity|]. split; [exact TR|]. split; [exact Y0|]. split; [exact L|].
    apply (AL Tf y TR). exact L.
Qed.
