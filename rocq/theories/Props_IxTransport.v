(** Properties C61 and C62: transport inside the beads and along the bed. *)
From Coq Require Import Reals List Arith Bool Lra Lia.
From Verif Require Import Lib_Py Lib_Sum Lib_Poly M_Colloc M_IxEq M_IxColumn M_IxBatch
  S_Colloc S_IxEq S_IxColumn S_Unique P_Colloc P_Ocfe P_IxEq P_IxColumn P_IxUnique Props_Colloc Props_IxColumn.
Import ListNotations.
Open Scope R_scope.

(** ** C61 — diffusion in the bead *)

(** The even polynomial through the values at the radial grid points, and the
    sphere's Laplacian of it, which the radial operator computes. *)
Lemma radial_laplacian legendre jacobi nr nz ocfe op : good_roots legendre jacobi -> (1 <= nr)%nat ->
  build_operators legendre jacobi nr nz ocfe = Ok op ->
  let x := k_rootsr (build_collocation legendre jacobi nr nz) in
  forall f : nat -> R, exists F F' F'',
    even_polynomial nr F /\ derivative F F' /\ derivative F' F'' /\
    (forall m, (m < nr)%nat -> F (x m) = f m) /\
    (forall m, (m < nr)%nat -> rsum nr (fun j => Br op m j * f j) = sphere_laplacian F' F'' (x m)).
Proof.
  intros (HL & HJ) Hr Hb x f.
  assert (EB : Br op = Bx nr (rootsu jacobi nr 3) 3).
  { unfold build_operators in Hb. destruct ocfe.
    - destruct (Nat.eqb _ nz); [|discriminate]. apply Ok_inj in Hb; subst op. reflexivity.
    - apply Ok_inj in Hb; subst op. reflexivity. }
  assert (Ex : forall m, x m = sqrt (rootsu jacobi nr 3 m)) by reflexivity.
  set (v := rootsu jacobi nr 3) in *.
  destruct (rootsu_increasing jacobi nr 3 Hr (HJ _ _ _)) as (HP & HI). fold v in HP, HI.
  destruct (interpolant nr v f (increasing_distinct _ _ HI)) as (c & Hc).
  assert (Hs : forall j, (j < nr)%nat -> sqrt (v j) ^ 2 = v j).
  { intros j Hj. rewrite <- Rsqr_pow2. apply Rsqr_sqrt. left. apply HP, Hj. }
  destruct (symm_exact nr v (increasing_distinct _ _ HI) 3 c) as (F' & F'' & D1 & D2 & E).
  { intros i Hi. apply HP, Hi. }
  exists (fun r => poly nr c (r ^ 2)), F', F''.
  split; [exists c; reflexivity|]. split; [exact D1|]. split; [exact D2|]. split.
  - intros m Hm. rewrite Ex, Hs by exact Hm. apply Hc, Hm.
  - intros m Hm. destruct (E m Hm) as (_ & E2). rewrite EB, Ex.
    unfold sphere_laplacian. replace 2 with (3 - 1) by ring. rewrite <- E2.
    apply rsum_ext. intros j Hj. rewrite Hs, Hc by exact Hj. reflexivity.
Qed.

Theorem C61_surface_diffusion : forall legendre jacobi ocfe op c th Cin u i z,
  good_roots legendre jacobi -> (1 <= nr c)%nat -> (1 <= i)%nat ->
  build_operators legendre jacobi (nr c) (nz c) ocfe = Ok op ->
  let x := k_rootsr (build_collocation legendre jacobi (nr c) (nz c)) in
  exists q q' q'', even_polynomial (nr c) q /\ derivative q q' /\ derivative q' q'' /\
    (forall m, (m < nr c)%nat -> q (x m) = u (S m) i z) /\
    forall m, (m < nr c - 1)%nat ->
      rhs false c op th Cin u (S m) i z
      = th * (Ds c i / rb c ^ 2) * sphere_laplacian q' q'' (x m).
Proof.
  intros leg jac ocfe op c th Cin u i z HG Hr Hi Hb x.
  destruct (radial_laplacian leg jac (nr c) (nz c) ocfe op HG Hr Hb (fun m => u (S m) i z))
    as (q & q' & q'' & HE & D1 & D2 & Hq & HL).
  exists q, q', q''. repeat (split; [assumption|]). intros m Hm.
  cbn [rhs]. unfold diffun_hsdm, assemble. rewrite (proj2 (Nat.eqb_neq m (nr c - 1))) by lia.
  unfold hsdm_dq, implicit_presat. rewrite (proj2 (Nat.eqb_neq i 0)) by lia.
  rewrite HL by lia. unfold x, Rdiv. ring.
Qed.

(** PSDMIX: pore diffusion of the liquid in equilibrium with the solid at each
    radius (where that equilibrium has a solution), plus surface diffusion of the
    rest of the bead's content Y. *)
Theorem C61_pore_and_surface_diffusion : forall legendre jacobi ocfe op c th Cin u z mg,
  good_roots legendre jacobi -> (1 <= nr c)%nat -> (1 <= NION c)%nat ->
  selectivities (NION c) (Kxc c) -> mono_or_divalent (NION c) (val c) ->
  build_operators legendre jacobi (nr c) (nz c) ocfe = Ok op ->
  let x := k_rootsr (build_collocation legendre jacobi (nr c) (nz c)) in
  let C i j := if Nat.eqb j 0 then Cin i else u 0%nat i j in
  let CT := rsum (NION c) (fun i => C i z) in
  let solid m j := u (S m) j z / (1 - EPOR c) in
  0 < mg -> (forall m, (m < nr c)%nat -> solvable mg (NION c) (Kxc c) (val c) (solid m) CT) ->
  exists pore : nat -> nat -> R,
    (* the liquid in the pores: in equilibrium with the solid, and as charged as the bulk *)
    (forall m, (m < nr c)%nat -> in_equilibrium (NION c) (Kxc c) (val c) (solid m) (pore m) /\
       rsum (NION c) (pore m) = CT /\
       (resin_composition (NION c) (solid m) -> 0 <= CT -> forall i, (i < NION c)%nat -> 0 <= pore m i)) /\
    forall i, (1 <= i < NION c)%nat -> exists Y Y' Y'' P P' P'',
      even_polynomial (nr c) Y /\ derivative Y Y' /\ derivative Y' Y'' /\
      even_polynomial (nr c) P /\ derivative P P' /\ derivative P' P'' /\
      (forall m, (m < nr c)%nat -> Y (x m) = u (S m) i z) /\
      (forall m, (m < nr c)%nat -> P (x m) = pore m i) /\
      forall m, (m < nr c - 1)%nat ->
        rhs true c op th Cin u (S m) i z
        = th / rb c ^ 2 *
          (EPOR c * Dp c i * sphere_laplacian P' P'' (x m)
           + Ds c i * (sphere_laplacian Y' Y'' (x m) - EPOR c * sphere_laplacian P' P'' (x m))).
Proof.
  intros leg jac ocfe op c th Cin u z mg HG Hr Hn HK Hz Hb x C CT solid Hm SV.
  exists (fun m => calc_Ceq (NION c) (Kxc c) (val c) (solid m) CT). split.
  { intros m Hmr. destruct (solvable_equilibrium mg _ _ _ _ _ Hn HK Hz Hm (SV m Hmr)) as (E & T).
    split; [exact E|]. split; [exact T|]. intros RC P. apply calc_Ceq_nonneg; assumption. }
  intros i Hi. set (pore := fun m => calc_Ceq (NION c) (Kxc c) (val c) (solid m) CT i).
  destruct (radial_laplacian leg jac (nr c) (nz c) ocfe op HG Hr Hb (fun m => u (S m) i z))
    as (Y & Y' & Y'' & HE & D1 & D2 & HY & HL).
  destruct (radial_laplacian leg jac (nr c) (nz c) ocfe op HG Hr Hb pore)
    as (P & P' & P'' & HE2 & D3 & D4 & HP & HL2).
  exists Y, Y', Y'', P, P', P''. repeat (split; [assumption|]). intros m Hmr.
  cbn [rhs]. unfold diffun_psdm, assemble. rewrite (proj2 (Nat.eqb_neq m (nr c - 1))) by lia.
  unfold psdm_dY, implicit_presat. rewrite (proj2 (Nat.eqb_neq i 0)) by lia.
  rewrite HL by lia.
  rewrite (rsum_ext (nr c) (fun j => Br op m j * psdm_Cpore c Cin u j i z) (fun j => Br op m j * pore j))
    by reflexivity.
  rewrite HL2 by lia. fold x. unfold Rdiv. ring.
Qed.

(** The batch classes: the same laws inside the beads. *)
Lemma batch_laplacian legendre jacobi nr : good_roots legendre jacobi -> (1 <= nr)%nat ->
  let op := build_radial legendre jacobi nr in
  let x := k_rootsr (build_collocation legendre jacobi nr 3) in
  forall f : nat -> R, exists F F' F'',
    even_polynomial nr F /\ derivative F F' /\ derivative F' F'' /\
    (forall m, (m < nr)%nat -> F (x m) = f m) /\
    (forall m, (m < nr)%nat -> rsum nr (fun j => rBr op m j * f j) = sphere_laplacian F' F'' (x m)).
Proof.
  intros HG Hr op x f.
  destruct (build_operators legendre jacobi nr 3 false) as [o|e] eqn:E; [|discriminate E].
  destruct (radial_laplacian legendre jacobi nr 3 false o HG Hr E f) as (F & F' & F'' & A & B & C & D & L).
  exists F, F', F''. repeat (split; [assumption|]). intros m Hm. unfold x. rewrite <- (L m Hm).
  unfold build_operators in E. apply Ok_inj in E. subst o. reflexivity.
Qed.
Theorem C61_batch_surface_diffusion : forall legendre jacobi b u d i,
  good_roots legendre jacobi -> (1 <= b_nr b)%nat ->
  let x := k_rootsr (build_collocation legendre jacobi (b_nr b) 3) in
  batch_rhs false b (build_radial legendre jacobi (b_nr b)) u = Some d ->
  exists q q' q'', even_polynomial (b_nr b) q /\ derivative q q' /\ derivative q' q'' /\
    (forall m, (m < b_nr b)%nat -> q (x m) = u (S m) i) /\
    forall m, (m < b_nr b - 1)%nat -> d (S m) i = b_Ds b / b_rb b ^ 2 * sphere_laplacian q' q'' (x m).
Proof.
  intros leg jac b u d i HG Hr x Hd.
  destruct (batch_laplacian leg jac (b_nr b) HG Hr (fun m => u (S m) i))
    as (q & q' & q'' & HE & D1 & D2 & Hq & HL).
  exists q, q', q''. repeat (split; [assumption|]). intros m Hm.
  cbn [batch_rhs] in Hd. unfold diffun_hsdm_batch in Hd.
  destruct (calc_Ceq_batch _ _ _ _ _); [|discriminate]. apply Some_inj in Hd. subst d.
  unfold batch_assemble. rewrite (proj2 (Nat.eqb_neq m (b_nr b - 1))) by lia.
  rewrite HL by lia. reflexivity.
Qed.
Lemma pore_liquid_at b u : forall n P, pore_liquid b u n = Some P -> forall m, (m < n)%nat ->
  calc_Ceq_batch (b_NION b) (b_K b) (b_val b) (fun j => u (S m) j / (1 - b_EPOR b)) (b_CT b) = Some (P m).
Proof.
  induction n as [|n IH]; intros P HP m Hm; [lia|]. cbn in HP.
  destruct (pore_liquid b u n) as [P0|]; [|discriminate].
  destruct (calc_Ceq_batch _ _ _ _ _) as [C|] eqn:EC; [|discriminate]. injection HP as <-.
  destruct (Nat.eqb_spec m n) as [->|Hn]; [exact EC|]. apply IH; [reflexivity|lia].
Qed.
Theorem C61_batch_pore_and_surface_diffusion : forall legendre jacobi b u mg,
  good_roots legendre jacobi -> (1 <= b_nr b)%nat -> (1 <= b_NION b)%nat ->
  selectivities (b_NION b) (b_K b) -> mono_or_divalent (b_NION b) (b_val b) ->
  let x := k_rootsr (build_collocation legendre jacobi (b_nr b) 3) in
  let CT := rsum (b_NION b) (b_C0 b) in
  let solid m j := u (S m) j / (1 - b_EPOR b) in
  0 < mg -> batch_in_use_by mg true (1 - b_EPOR b) (b_nr b) (b_NION b) (b_K b) (b_val b) CT u ->
  exists d (pore : nat -> nat -> R),
    batch_rhs true b (build_radial legendre jacobi (b_nr b)) u = Some d /\
    (forall m, (m < b_nr b)%nat -> in_equilibrium (b_NION b) (b_K b) (b_val b) (solid m) (pore m) /\
       rsum (b_NION b) (pore m) = CT /\
       (resin_composition (b_NION b) (solid m) -> 0 <= CT -> forall i, (i < b_NION b)%nat -> 0 <= pore m i)) /\
    forall i, exists Y Y' Y'' P P' P'',
      even_polynomial (b_nr b) Y /\ derivative Y Y' /\ derivative Y' Y'' /\
      even_polynomial (b_nr b) P /\ derivative P P' /\ derivative P' P'' /\
      (forall m, (m < b_nr b)%nat -> Y (x m) = u (S m) i) /\
      (forall m, (m < b_nr b)%nat -> P (x m) = pore m i) /\
      forall m, (m < b_nr b - 1)%nat ->
        d (S m) i = (b_EPOR b * b_Dp b * sphere_laplacian P' P'' (x m)
           + b_Ds b * (sphere_laplacian Y' Y'' (x m) - b_EPOR b * sphere_laplacian P' P'' (x m))) / b_rb b ^ 2.
Proof.
  intros leg jac b u mg HG Hr Hn HK Hz x CT solid Hm SV.
  assert (ALL : forall m, (m < b_nr b)%nat -> exists C, calc_Ceq_batch (b_NION b) (b_K b) (b_val b) (solid m) CT = Some C).
  { intros m Hmr. destruct (SV (S m) ltac:(lia) (or_introl eq_refl)) as (S1 & S2).
    destruct (batch_Ceq_column mg _ _ _ _ _ Hm S1 S2) as (C & EC & _). exists C. exact EC. }
  assert (PL : forall k, (k <= b_nr b)%nat -> exists Po, pore_liquid b u k = Some Po).
  { induction k as [|k IH]; intros Hk; [eexists; reflexivity|]. destruct IH as (P0 & E0); [lia|].
    destruct (ALL k ltac:(lia)) as (C & EC). cbn [pore_liquid]. rewrite E0. unfold solid in EC.
    change CT with (b_CT b) in EC. rewrite EC. eexists; reflexivity. }
  destruct (PL (b_nr b) ltac:(lia)) as (Po & EP). destruct (ALL (b_nr b - 1)%nat ltac:(lia)) as (Cs & ES).
  unfold solid in ES. replace (S (b_nr b - 1)) with (b_nr b) in ES by lia.
  eexists. exists Po. split.
  { cbn [batch_rhs]. unfold diffun_psdm_batch. rewrite EP. change CT with (b_CT b) in ES. rewrite ES. reflexivity. }
  split.
  { intros m Hmr. destruct (SV (S m) ltac:(lia) (or_introl eq_refl)) as (S1 & S2).
    destruct (solvable_equilibrium_batch mg _ _ _ _ _ _ Hn HK Hz Hm S1 S2 (pore_liquid_at b u _ _ EP m Hmr)) as (E & T & EQ).
    split; [exact E|]. split; [exact T|]. intros RC P i Hi. rewrite EQ. apply calc_Ceq_nonneg; assumption. }
  intros i.
  destruct (batch_laplacian leg jac (b_nr b) HG Hr (fun m => u (S m) i))
    as (Y & Y' & Y'' & HE & D1 & D2 & HY & HL).
  destruct (batch_laplacian leg jac (b_nr b) HG Hr (fun m => Po m i))
    as (P & P' & P'' & HE2 & D3 & D4 & HP & HL2).
  exists Y, Y', Y'', P, P', P''.
  repeat (split; [assumption|]). intros m Hmr.
  unfold batch_assemble. rewrite (proj2 (Nat.eqb_neq m (b_nr b - 1))) by lia.
  rewrite HL, HL2 by lia. fold x. unfold Rdiv. ring.
Qed.

(** ** C62 — plug flow *)

(** A liquid profile with slope [s / Lbed] is carried at the superficial velocity. *)
Theorem C62_linear_profile : forall legendre jacobi ocfe op psdm c th Cin u i a s,
  good_roots legendre jacobi -> (1 <= nr c)%nat -> (2 <= nz c)%nat ->
  build_operators legendre jacobi (nr c) (nz c) ocfe = Ok op ->
  EBED c <> 0 -> rb c <> 0 ->
  (* depth of the axial points, as a fraction of the bed *)
  let x j := if ocfe then nth j (snd (advect_operator legendre ((nz c - 1) / 2) 3)) 0
             else k_rootsz (build_collocation legendre jacobi (nr c) (nz c)) j in
  Cin i = a -> (forall j, (1 <= j < nz c)%nat -> u 0%nat i j = a + s * x j) ->
  forall z, (1 <= z < nz c)%nat ->
  EBED c * rhs psdm c op th Cin u 0%nat i z
  + (1 - EBED c) * bead_average (nr c) (Wr op) (fun m => rhs psdm c op th Cin u (S m) i z)
  = - th * vel c * (s / Lbed c).
Proof.
  intros leg jac ocfe op psdm c th Cin u i a s HG Hr Hz Hb He Hrb x HC Hu z Hzz.
  destruct (operators_ok leg jac (nr c) (nz c) ocfe op HG Hr Hz Hb) as (_ & _ & HW & _).
  rewrite C16_slice_balance; [|lia|apply Rgt_not_eq, HW; lia|exact He|exact Hrb|lia].
  assert (E : forall j, (j < nz c)%nat -> (if Nat.eqb j 0 then Cin i else u 0%nat i j) = a + s * x j).
  { intros j Hj. destruct (Nat.eqb_spec j 0) as [->|Hn]; [|apply Hu; lia].
    rewrite HC. assert (X0 : x 0%nat = 0); [|rewrite X0; ring]. unfold x. destruct ocfe; [|reflexivity].
    assert (HNE : (1 <= (nz c - 1) / 2)%nat).
    { unfold build_operators in Hb. remember ((nz c - 1) / 2)%nat as NE.
      destruct (Nat.eqb_spec (NE * 3 - (NE - 1)) (nz c)) as [En|]; [lia|discriminate]. }
    apply (C26_grid leg ((nz c - 1) / 2) 3 HNE ltac:(lia)). apply HG. }
  rewrite (rsum_ext (nz c) _ (fun j => Az op z j * (a + s * x j))) by (intros j Hj; rewrite E by exact Hj; reflexivity).
  assert (HA : rsum (nz c) (fun j => Az op z j * (a + s * x j)) = s); [|rewrite HA; unfold Rdiv; ring].
  set (cf := fun k : nat => match k with O => a | 1%nat => s | _ => 0 end).
  assert (Ec : forall n y, (2 <= n)%nat -> poly n cf y = a + s * y).
  { intros n y Hn. unfold poly. destruct n as [|[|n]]; [lia|lia|]. rewrite !rsum_S_first.
    rewrite rsum_zero; [simpl; ring|]. intros k Hk. simpl. ring. }
  assert (Dc : forall n, (2 <= n)%nat -> derivative (poly n cf) (fun _ => s)).
  { intros n Hn y. eapply derivable_pt_lim_ext; [intros w; symmetry; apply Ec, Hn|].
    enough (D : derivable_pt_lim (fun w => a + s * w) y (0 + (0 * y + s * 1)))
      by (replace (0 + (0 * y + s * 1)) with s in D by ring; exact D).
    apply (derivable_pt_lim_plus (fun _ => a) (fun w => s * w)); [apply derivable_pt_lim_const|].
    apply (derivable_pt_lim_mult (fun _ => s) (fun w => w)); [apply derivable_pt_lim_const|apply derivable_pt_lim_id]. }
  unfold build_operators in Hb. destruct ocfe.
  - remember ((nz c - 1) / 2)%nat as NE eqn:ENE. clear ENE.
    destruct (Nat.eqb_spec (NE * 3 - (NE - 1)) (nz c)) as [En|]; [|discriminate].
    apply Ok_inj in Hb; subst op. cbn [Az].
    assert (HNE : (1 <= NE)%nat) by lia.
    assert (H := C26_polynomial_exact leg NE 3 HNE ltac:(lia) (proj1 HG _) cf (fun _ => s) (Dc 3%nat ltac:(lia)) z ltac:(lia) ltac:(lia)).
    unfold apply_row in H. replace (NE * (3 - 1) + 1)%nat with (nz c) in H by lia.
    etransitivity; [|exact H]. apply rsum_ext. intros j Hj. rewrite Ec by lia. reflexivity.
  - apply Ok_inj in Hb; subst op.
    destruct (rootsz_increasing leg (nz c) Hz (proj1 HG _)) as (_ & _ & HI).
    destruct (colloc_exact (nz c) (rootsz leg (nz c)) (increasing_distinct _ _ HI) cf) as (f' & f'' & D1 & _ & H).
    destruct (H z ltac:(lia)) as (H1 & _). unfold apply_row in H1.
    assert (F : f' (rootsz leg (nz c) z) = s).
    { apply (uniqueness_limite (poly (nz c) cf) (rootsz leg (nz c) z)); [apply D1|apply (Dc (nz c) Hz)]. }
    rewrite F in H1. etransitivity; [|exact H1]. apply rsum_ext. intros j Hj. rewrite Ec by exact Hz. reflexivity.
Qed.

(** The hypotheses are met by the column of Props_IxColumn. *)
Example C61_case : exists op, build_operators even_roots (fun m _ _ => even_roots m) (nr ex_col) (nz ex_col) true = Ok op /\
  good_roots even_roots (fun m _ _ => even_roots m) /\ EBED ex_col <> 0 /\ rb ex_col <> 0.
Proof. eexists. split; [reflexivity|]. split; [apply even_roots_good|]. cbn. lra. Qed.

Example C61_pore_case : forall z, (1 <= z)%nat -> exists mg, 0 < mg /\ selectivities 3 (Kxc ex_col) /\ mono_or_divalent 3 (val ex_col) /\
  forall m, (m < nr ex_col)%nat -> solvable mg 3 (Kxc ex_col) (val ex_col) (fun j => ex_steady true (S m) j z / (1 - EPOR ex_col))
    (rsum 3 (fun i => if Nat.eqb z 0 then 1 else ex_steady true 0%nat i z)).
Proof.
  intros z Hz. assert (SEL : selectivities 3 (Kxc ex_col)) by (intros [|[|j]] _; cbn; lra).
  assert (E : forall x, theta true ex_col * x / (1 - EPOR ex_col) = x) by (intros; unfold theta; field; cbn; lra).
  destruct (composition_margin 3 (Kxc ex_col) (val ex_col) (fun j => ex_steady true 1%nat j z / (1 - EPOR ex_col)) 3) as (m & Pm & Sm); [lia|exact SEL| |lra|].
  { cbn [ex_steady]. split; [rewrite E; lra|]. intros [|[|j]] _; rewrite E; lra. }
  exists m. split; [exact Pm|]. split; [exact SEL|]. split; [split; [reflexivity|]; intros [|[|[|j]]] Hj; cbn; auto|].
  intros k Hk. replace (rsum 3 _) with 3; [exact Sm|]. rewrite (proj2 (Nat.eqb_neq z 0)) by lia. cbn. lra.
Qed.

Print Assumptions C61_surface_diffusion.
Print Assumptions C61_pore_and_surface_diffusion.
Print Assumptions C61_batch_surface_diffusion.
Print Assumptions C61_batch_pore_and_surface_diffusion.
Print Assumptions C62_linear_profile.
