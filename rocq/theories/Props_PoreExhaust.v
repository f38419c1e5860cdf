(** C201 — with pore diffusion too the resin at the inlet of a column comes to equilibrium with the water. *)
From Coq Require Import Reals List Arith Bool Lra Lia.
From Verif Require Import Lib_Py Lib_Sum Lib_Traj S_Colloc S_Radial P_JacobiRoots.
From Verif Require Import M_IxEq S_IxEq M_IxColumn S_IxColumn S_Unique Props_Rest Props_Exhaust Props_IxColumn P_InletTwo Props_InletTwo S_Approach P_EntropyDv P_EntropyIn.
Open Scope R_scope.

Theorem C201_pore_exhausts : forall legendre jacobi ocfe op (psdm : bool) c th C,
  good_roots legendre jacobi -> jacobi_roots 2 1 (jacobi 1%nat (5 / 2) (3 / 2)) -> build_operators legendre jacobi (nr c) (nz c) ocfe = Ok op ->
  working_column psdm c th -> nr c = 2%nat -> (1 < NION c)%nat -> 0 < Qcap c ->
  (* the same film, surface and pore coefficients for every ion, the pore coefficient being any above the surface's *)
  (forall i, (1 <= i < NION c)%nat -> kL c i = kL c 1%nat /\ Ds c i = Ds c 1%nat /\ (psdm = true -> Dp c i = Dp c 1%nat)) ->
  (* water of constant composition with some of every ion *)
  (forall i, (i < NION c)%nat -> 0 < C i) ->
  (* one composition, of the capacity and in equilibrium with the water *)
  exists q A B, (forall i, (i < NION c)%nat -> 0 <= q i) /\ rsum (NION c) q = Qcap c /\
    in_equilibrium (NION c) (Kxc c) (val c) (fun i => q i / theta psdm c) C /\ 0 < A /\ 0 < B /\
    (* which every bead at the inlet approaches at both points *)
    forall Tf y, is_trajectory (nr c) (NION c) (nz c) (fun T u => rhs psdm c op th C u) Tf y -> loaded_inlet (nr c) (NION c) (Qcap c) (y 0) ->
    forall T r i, 0 <= T <= Tf -> (1 <= r <= nr c)%nat -> (i < NION c)%nat -> Rabs (y T r i 0%nat - q i) <= B * exp (- A * T).
Proof.
  intros legendre jacobi ocfe op psdm c th C HG HJ BO WC N2 NI HQ SAME HC.
  assert (N0 : (0 < NION c)%nat) by lia. assert (NZ : (0 < nz c)%nat) by (destruct WC as (_ & _ & X & _); lia).
  assert (HC0 : forall i, (i < NION c)%nat -> 0 <= C i) by (intros i I; left; apply HC, I). assert (C0 := HC 0%nat N0).
  assert (CT : 0 < rsum (NION c) C) by (apply (rsum_pos_one _ _ 0%nat N0); assumption).
  destruct (proj2 (C194_ion_column legendre jacobi ocfe op psdm c th C (Qcap c) HG BO WC HC0 CT HQ) C0) as (u & RC & AR).
  destruct (C192_ion_column legendre jacobi ocfe op psdm c th C u (Qcap c) HG BO WC HC0 CT RC AR) as (_ & UN & EQ).
  destruct (inlet_positive legendre jacobi ocfe op psdm c th HJ BO WC N2 NI) as (HH & BE & HW & PS & D1).
  assert (HK : forall i, (i < NION c)%nat -> 0 < cK psdm c i) by (intros i I; apply (cK_pos psdm c th); assumption).
  assert (Hz : forall i, (i < NION c)%nat -> val c i = 1%nat \/ val c i = 2%nat) by apply WC. assert (Z0 : val c 0%nat = 1%nat) by apply WC.
  set (h := film_rate op c th) in *. set (be := core_rate op c th) in *. set (w := give_rate op c th) in *. set (de := Ds c 1%nat) in *. set (al := pore_share psdm c) in *.
  destruct (RC 0%nat 0%nat ltac:(lia) NZ) as (_ & U1 & U2). set (q := fun i => u 1%nat i 0%nat) in *.
  assert (LX : loaded_inlet 2 (NION c) (Qcap c) u) by (intros [|k] K; [lia|apply (RC k 0%nat); [lia|exact NZ]]).
  assert (EL : forall v i, shr (NION c) (val c) (cK psdm c) (rsum (NION c) C) v i * v i = eliq (NION c) (val c) (cK psdm c) (rsum (NION c) C) v i) by (intros v i; unfold shr, rat, eliq, ep, Rdiv; ring).
  (* what a bead does *)
  assert (FACTS : forall Tf v, is_trajectory (nr c) (NION c) (nz c) (fun T u => rhs psdm c op th C u) Tf v -> loaded_inlet 2 (NION c) (Qcap c) (v 0) ->
     (forall t, 0 <= t <= Tf -> kept (NION c) (surface_of v) (core_of v) t /\ rsum (NION c) (row (surface_of v) t) = Qcap c /\ rsum (NION c) (row (core_of v) t) = Qcap c) /\
     (forall t i, 0 < t < Tf -> (i < NION c)%nat -> let g := al * (eliq (NION c) (val c) (cK psdm c) (rsum (NION c) C) (row (surface_of v) t) i - eliq (NION c) (val c) (cK psdm c) (rsum (NION c) C) (row (core_of v) t) i) + de * (surface_of v i t - core_of v i t) in
        rhs psdm c op th C (v t) 2%nat i 0%nat = h * (C i - eliq (NION c) (val c) (cK psdm c) (rsum (NION c) C) (row (surface_of v) t) i) - w * g /\
        rhs psdm c op th C (v t) 1%nat i 0%nat = be * g)).
  { intros Tf v TV LV.
    assert (K := C196_column_two_points_partial legendre jacobi ocfe op psdm c th (fun _ => C) Tf v (rsum (NION c) C) HJ BO WC N2 NI SAME (fun _ j _ J => HC0 j J) (fun t _ => Rle_refl _) TV (fun r i R I => proj1 (proj2 (LV r R)) i I) (fun r R => conj (proj1 (LV r R)) (proj2 (proj2 (LV r R))))).
    assert (KP : forall t, 0 <= t <= Tf -> kept (NION c) (surface_of v) (core_of v) t).
    { intros t Ht. destruct (K t 2%nat Ht ltac:(lia)) as (A2 & B2 & _). destruct (K t 1%nat Ht ltac:(lia)) as (A1 & B1 & _). split; [|split; [exact B2|exact B1]]. intros i I. split; [apply (A2 i I)|apply (A1 i I)]. }
    split; [intros t Ht; split; [apply KP, Ht|split; [apply (K t 2%nat Ht ltac:(lia))|apply (K t 1%nat Ht ltac:(lia))]]|].
    intros t i Ht I g. destruct (KP t ltac:(lra)) as (NN & P2 & P1). assert (CP : 0 <= rsum (NION c) C) by lra.
    assert (SY : sound (NION c) (val c) (cK psdm c) (rsum (NION c) C) (rowx (surface_of v) t)) by (apply kept_sound; try assumption; intros j J; apply (NN j J)).
    assert (SZ : sound (NION c) (val c) (cK psdm c) (rsum (NION c) C) (rowx (core_of v) t)) by (apply kept_sound; try assumption; intros j J; apply (NN j J)).
    destruct (inlet_rates legendre jacobi ocfe op psdm c th HJ BO WC N2 NI SAME (fun _ => C) Tf v (fun _ j _ J => HC0 j J) TV (fun r R => proj2 (proj2 (LV r R))) t i Ht I SY SZ) as (E1 & E2). cbv beta in E1, E2.
    assert (ELY := EL (rowx (surface_of v) t) i). assert (ELZ := EL (rowx (core_of v) t) i). change (rowx (surface_of v) t i) with (surface_of v i t) in ELY. change (rowx (core_of v) t i) with (core_of v i t) in ELZ.
    rewrite E1, E2. unfold spd. fold h w be de al. unfold g. change (row (surface_of v) t) with (rowx (surface_of v) t). change (row (core_of v) t) with (rowx (core_of v) t). rewrite <- ELY, <- ELZ. split; ring. }
  (* the bead that is in equilibrium *)
  assert (TX : forall Tf, is_trajectory (nr c) (NION c) (nz c) (fun T u => rhs psdm c op th C u) Tf (fun _ => u)).
  { intros Tf k j z K J ZZ. apply (evolves_ext 0 Tf (fun _ => u k j z) _ (fun _ => 0)); [reflexivity|intros t _; symmetry; apply AR; assumption|apply evolves_const]. }
  assert (QE : forall i, (i < NION c)%nat -> eliq (NION c) (val c) (cK psdm c) (rsum (NION c) C) q i = C i).
  { intros i I. destruct (FACTS 2 (fun _ => u) (TX 2) LX) as (_ & F). destruct (F 1 i ltac:(lra) I) as (F1 & F2). cbv zeta in F1, F2. rewrite AR in F1, F2 by lia.
    match type of F2 with 0 = be * ?g => assert (G0 : g = 0) by (apply (Rmult_eq_reg_l be); lra) end. rewrite G0 in F1.
    assert (SAMEROW : eliq (NION c) (val c) (cK psdm c) (rsum (NION c) C) (row (surface_of (fun _ => u)) 1) i = eliq (NION c) (val c) (cK psdm c) (rsum (NION c) C) q i).
    { assert (QI : forall j, (j < NION c)%nat -> row (surface_of (fun _ => u)) 1 j = q j) by (intros j J; apply (UN 1%nat 0%nat j 0%nat 0%nat); lia || assumption).
      unfold eliq, ep, ea, ed. rewrite (QI i I). f_equal. f_equal. f_equal; apply rsum_ext; intros j J; rewrite (QI j J); reflexivity. }
    rewrite SAMEROW in F1. apply (Rmult_eq_reg_l h); lra. }
  assert (WB : 0 < w / be) by (apply Rdiv_lt_0_compat; assumption). assert (WD : 0 < w * de) by (apply Rmult_lt_0_compat; assumption). assert (WA : 0 <= w * al) by (apply Rmult_le_pos; lra).
  destruct (P2_pos (NION c) (val c) (cK psdm c) (rsum (NION c) C) (Qcap c) h 1 (w / be) (w * de) C q HK N0 CT HQ HH Rlt_0_1 WB WD HC U1 QE) as (_ & _ & _ & RP). apply Rinv_0_lt_compat in RP.
  set (A := water_rate (NION c) (cK psdm c) (rsum (NION c) C) (Qcap c) h 1 (w / be) (w * de) q). set (B := water_span (NION c) (Qcap c) 1 (w / be) q).
  assert (AP : 0 < A) by exact RP. assert (BP : 0 <= B) by apply sqrt_pos.
  exists q, (A / 4), (B + 1). split; [exact U1|]. split; [exact U2|]. split; [exact (EQ 0%nat 0%nat ltac:(lia) NZ)|]. split; [lra|]. split; [lra|].
  intros Tf y TY LY T r i HT R I. rewrite N2 in LY, R. destruct (FACTS Tf y TY LY) as (KY & RY).
  destruct (bead_settles (NION c) (val c) (cK psdm c) (rsum (NION c) C) (Qcap c) h 1 (w / be) (w * al) (w * de) C q HK Hz N0 CT HQ HH Rlt_0_1 WB WA WD HC eq_refl U1 U2 QE Tf (surface_of y) (core_of y)
    (fun i t => rhs psdm c op th C (y t) 2%nat i 0%nat) (fun i t => rhs psdm c op th C (y t) 1%nat i 0%nat)
    (fun i I => TY 2%nat i 0%nat ltac:(lia) I NZ) (fun i I => TY 1%nat i 0%nat ltac:(lia) I NZ)) with (i := i) (t := T) as (G2 & G1); try assumption.
  - intros j t J Ht. destruct (RY t j Ht J) as (E1 & _). cbv beta zeta in E1 |- *. rewrite E1. ring.
  - intros j t J Ht. destruct (RY t j Ht J) as (_ & E2). cbv beta zeta in E2 |- *. rewrite E2. field. lra.
  - intros j t J Ht. apply (proj1 (proj1 (KY t Ht)) j J).
  - intros j t J Ht. apply (proj1 (proj1 (KY t Ht)) j J).
  - intros t Ht. apply (KY t Ht).
  - intros t Ht. apply (KY t Ht).
  - fold A B in G1, G2. assert (E := exp_pos (- (A / 4) * T)). assert (W : B * exp (- (A / 4) * T) <= (B + 1) * exp (- (A / 4) * T)) by (apply Rmult_le_compat_r; lra).
    assert (OR : r = 1%nat \/ r = 2%nat) by lia. destruct OR as [-> | ->]; (eapply Rle_trans; [|exact W]); assumption.
Qed.
Print Assumptions C201_pore_exhausts.

(** Chloride resin of the pore model, pores ten times faster than the surface, fed chloride, nitrate and sulphate. *)
From Verif Require Import Props_Exist Props_Negative.
Example pore_resin_approaches : exists jacobi op q A B Tf y, 0 < A /\ 0 < Tf /\ in_equilibrium 3 (Kxc col_two) (val col_two) (fun i => q i / theta true col_two) (fun _ => 1) /\
  build_operators even_roots jacobi 2 5 false = Ok op /\ is_trajectory 2 3 5 (fun _ u => rhs true col_two op 100 (fun _ => 1) u) Tf y /\ same_state 2 3 5 (y 0) (initial_state col_two (fun _ => 1) None) /\
  forall T r i, 0 <= T <= Tf -> (1 <= r <= 2)%nat -> (i < 3)%nat -> Rabs (y T r i 0%nat - q i) <= B * exp (- A * T).
Proof.
  destruct (jacobi_exist 2 1) as (r & Hr). set (jac := fun (m : nat) (_ _ : R) => match m with 1%nat => r | _ => even_roots m end). exists jac.
  assert (HG : good_roots even_roots jac) by (split; [intros; apply even_roots_ok|intros m p q; destruct m as [|[|m]]; [apply even_roots_ok|exact (proj1 Hr)|apply even_roots_ok]]).
  destruct (build_operators even_roots jac 2 5 false) as [op|] eqn:B; [|discriminate B]. exists op.
  assert (SK : selectivities 3 (Kxc col_two)) by (intros [|[|[|i]]] _; cbn; lra).
  assert (WC : working_column true col_two 100).
  { repeat split; try (cbn; lia); try (cbn; lra); try exact SK.
    all: destruct i as [|[|[|i]]]; cbn; try lia; try lra; auto. }
  destruct (C201_pore_exhausts even_roots jac false op true col_two 100 (fun _ => 1) HG Hr B WC eq_refl ltac:(cbn; lia) ltac:(cbn; lra)) as (q & A & BB & Q1 & Q2 & Q3 & AP & BP & AL);
    [intros i _; repeat split; reflexivity|intros; lra|].
  destruct (C168_fresh_bed_starts true col_two op 100 (fun _ _ => 1) 5) as (Tf & y & HT & TR & Y0); try (cbn; lia); try (cbn; lra); try assumption.
  - intros i _ t _ e He. exists 1. split; [lra|]. intros. rewrite Rminus_diag_eq by reflexivity. rewrite Rabs_R0. exact He.
  - intros. lra.
  - exists q, A, BB, Tf, y. split; [exact AP|]. split; [lra|]. split; [exact Q3|]. split; [reflexivity|]. split; [exact TR|]. split; [exact Y0|].
    apply (AL Tf y TR). intros [|k] K; [lia|]. cbn in K. split; [|split].
    + rewrite Y0 by (cbn; lia). cbn. lra.
    + intros i I. rewrite Y0 by (cbn in *; lia). destruct i; cbn; lra.
    + cbn. rewrite !Y0 by (cbn; lia). cbn. lra.
Qed.
