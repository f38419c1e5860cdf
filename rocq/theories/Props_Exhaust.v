(** C194 — every influent has its exhausted state. *)
From Coq Require Import Reals List Arith Bool Lra Lia.
From Verif Require Import Lib_Py Lib_Sum Lib_Pow M_Colloc M_IxEq M_IxColumn M_IxBatch M_GacFun M_GacColumn S_Colloc S_IxEq S_IxColumn
  P_Colloc P_IxEq P_IxColumn P_IxBatch P_GacFun P_GacColumn Props_IxColumn Props_IxBatch Props_GacColumn P_RestEq P_RestIx P_RestBatch P_RestGac Props_Rest P_Exhaust.
Import ListNotations.
Open Scope R_scope.

(** ** Ion-exchange columns *)
(** A resin of any capacity has a state of rest on an influent exactly if the influent carries the presaturant. *)
Theorem C194_ion_column : forall legendre jacobi ocfe op (psdm : bool) c th Cin Q,
  good_roots legendre jacobi -> build_operators legendre jacobi (nr c) (nz c) ocfe = Ok op -> working_column psdm c th ->
  (forall i, (i < NION c)%nat -> 0 <= Cin i) -> 0 < rsum (NION c) Cin -> 0 < Q ->
  (exists u, resin_of_capacity c u Q /\ column_at_rest psdm c op th Cin u) <-> 0 < Cin 0%nat.
Proof.
  intros leg jac ocfe op psdm c th Cin Q HG Hb HW HC HCT HQ. assert (HW' := HW).
  destruct HW' as (HN & Hr & Hz & HK & HV & HE & Hrb & Hv & HL & Hth & Hp & HD).
  assert (T := theta_pos psdm c Hp). unfold theta in T. set (s := if psdm then 1 - EPOR c else 1) in *. split.
  - intros (u & HR & HS). destruct (C192_ion_column leg jac ocfe op psdm c th Cin u Q HG Hb HW HC HCT HR HS) as (_ & _ & EQ).
    assert (E := EQ 0%nat 0%nat ltac:(lia) ltac:(lia)). fold s in E. destruct (HR 0%nat 0%nat ltac:(lia) ltac:(lia)) as (A & B & _).
    assert (IS := Rinv_0_lt_compat _ T).
    destruct (equilibrium_ratio _ _ _ _ _ HN HK HV (conj (Rmult_lt_0_compat _ _ A IS) (fun i Hi => Rmult_le_pos _ _ (B i Hi) (Rlt_le _ _ IS))) E HC HCT) as (rho & P & ER).
    rewrite (ER 0%nat HN). apply Rmult_lt_0_compat; [apply Rmult_lt_0_compat; [apply coef_pos; assumption|apply Rmult_lt_0_compat; assumption]|apply pow_lt, P].
  - intros C0. destruct (exchange_exists (NION c) (coef (NION c) (Kxc c) (val c)) (val c) Cin 1 0 (Q / s)) as (q & C & rho & P & Q0 & SQ & H); try assumption; try lra.
    + intros i Hi. apply coef_pos; assumption.
    + apply HV.
    + apply Rdiv_lt_0_compat; assumption.
    + set (u := fun (r i z : nat) => match r with O => Cin i | S _ => s * q i end). exists u. split.
      * intros r z H1 H2. cbn [u]. split; [apply Rmult_lt_0_compat; assumption|]. split; [intros i Hi; apply Rmult_le_pos; [lra|apply H, Hi]|].
        rewrite rsum_scal, SQ. field. lra.
      * intros r i z H1 H2 H3.
        apply (C18_equilibrium_is_stationary leg jac ocfe op psdm c th Cin u (fun i _ => s * q i) HG HN Hr Hz Hb HK HV HC); try assumption; try (intros; reflexivity).
        intros w Hw. fold s. assert (F : forall i, s * q i / s = q i) by (intros; field; lra). split; [split|].
        -- rewrite F. exact Q0.
        -- intros j Hj. rewrite F. apply H, Hj.
        -- apply (shape_equilibrium _ _ _ _ _ rho HN HK HV). intros j Hj. rewrite F. destruct (H j Hj) as (_ & _ & _ & E & M). rewrite <- E. lra.
Qed.
(** Exhausted, a resin of monovalent ions shares its capacity in proportion to selectivity times concentration. *)
Theorem C194_monovalent_shares : forall legendre jacobi ocfe op (psdm : bool) c th Cin u Q,
  good_roots legendre jacobi -> build_operators legendre jacobi (nr c) (nz c) ocfe = Ok op -> working_column psdm c th ->
  (forall i, (i < NION c)%nat -> val c i = 1%nat) ->
  (forall i, (i < NION c)%nat -> 0 <= Cin i) -> 0 < rsum (NION c) Cin ->
  resin_of_capacity c u Q -> column_at_rest psdm c op th Cin u ->
  forall r i z, (r < nr c)%nat -> (i < NION c)%nat -> (z < nz c)%nat ->
  u (S r) i z = Q * (Kxc c i * Cin i) / rsum (NION c) (fun j => Kxc c j * Cin j).
Proof.
  intros leg jac ocfe op psdm c th Cin u Q HG Hb HW H1 HC HCT HR HS r i z Hr Hi Hz.
  destruct (C192_ion_column leg jac ocfe op psdm c th Cin u Q HG Hb HW HC HCT HR HS) as (_ & _ & EQ).
  destruct HW as (HN & _ & _ & HK & HV & _ & _ & _ & _ & _ & Hp & _). assert (T := theta_pos psdm c Hp). unfold theta in T.
  assert (E := EQ r z Hr Hz). set (s := if psdm then 1 - EPOR c else 1) in *. destruct (HR r z Hr Hz) as (A & B & SQ). assert (IS := Rinv_0_lt_compat _ T).
  destruct (equilibrium_ratio _ _ _ _ _ HN HK HV (conj (Rmult_lt_0_compat _ _ A IS) (fun i Hi => Rmult_le_pos _ _ (B i Hi) (Rlt_le _ _ IS))) E HC HCT) as (rho & P & ER).
  assert (N2 : has2 (NION c) (val c) = false).
  { apply not_true_is_false. intros X. apply has2_true in X. destruct X as (j & Hj & Ej). rewrite H1 in Ej by exact Hj. discriminate Ej. }
  assert (F : forall j, (j < NION c)%nat -> Kxc c j * Cin j = u (S r) j z * (rho / s)).
  { intros j Hj. rewrite (ER j Hj). unfold coef. rewrite N2, (H1 j Hj), pow_1. assert (K := HK j Hj). field. lra. }
  assert (QP : 0 < Q). { rewrite <- SQ. apply (rsum_pos_one _ _ 0%nat HN B A). }
  rewrite (rsum_ext _ _ (fun j => u (S r) j z * (rho / s))) by exact F. rewrite rsum_scal_r, SQ, (F i Hi). field. lra.
Qed.

(** ** Ion-exchange batch reactors *)
(** Whatever the amounts in the reactor, as long as the presaturant and every divalent ion are there and some of it is on the resin. *)
Theorem C194_batch : forall legendre jacobi (psdm : bool) b (amount : nat -> R),
  good_roots legendre jacobi -> working_batch psdm b ->
  let op := build_radial legendre jacobi (b_nr b) in
  (forall i, (i < b_NION b)%nat -> 0 <= amount i) -> 0 < amount 0%nat ->
  (forall i, (i < b_NION b)%nat -> b_val b i = 2%nat -> 0 < amount i) ->
  b_VL b * rsum (b_NION b) (b_C0 b) < rsum (b_NION b) amount ->
  exists u, (forall r, (1 <= r <= b_nr b)%nat -> 0 < u r 0%nat /\ forall i, (i < b_NION b)%nat -> 0 <= u r i) /\ batch_rests psdm b op u /\
    forall i, (i < b_NION b)%nat -> b_VL b * u 0%nat i + b_VR b * bead_average (b_nr b) (rWr op) (fun r => u (S r) i) = amount i.
Proof.
  intros leg jac psdm b A HG HW op HA A0 A2 HT. destruct HW as (HN & Hr & HK & HV & Hrb & HVL & HVR & HkL & HD & Hp & HC).
  assert (T : 0 < (if psdm then 1 - b_EPOR b else 1)) by (destruct psdm; [destruct (Hp eq_refl); lra|lra]).
  set (s := if psdm then 1 - b_EPOR b else 1) in *. assert (VS : 0 < b_VR b * s) by (apply Rmult_lt_0_compat; assumption).
  set (Q := (rsum (b_NION b) A - b_VL b * rsum (b_NION b) (b_C0 b)) / (b_VR b * s)).
  assert (QP : 0 < Q) by (apply Rdiv_lt_0_compat; [lra|exact VS]).
  assert (QE : Q * (b_VR b * s) = rsum (b_NION b) A - b_VL b * rsum (b_NION b) (b_C0 b)) by (unfold Q; field; lra).
  assert (VC : 0 < b_VL b * rsum (b_NION b) (b_C0 b)) by (apply Rmult_lt_0_compat; assumption).
  destruct (exchange_exists (b_NION b) (coef (b_NION b) (b_K b) (b_val b)) (b_val b) A (b_VL b) (b_VR b * s) Q) as (q & C & rho & P & Q0 & SQ & H); try assumption; try lra.
  - intros i Hi. apply coef_pos; assumption.
  - apply HV.
  - set (u := fun (r i : nat) => match r with O => C i | S _ => s * q i end). exists u. assert (F : forall i, s * q i / s = q i) by (intros; field; lra).
    assert (CT : rsum (b_NION b) C = rsum (b_NION b) (b_C0 b)).
    { assert (Z : rsum (b_NION b) (fun i => b_VL b * C i + b_VR b * s * q i) = rsum (b_NION b) A) by (apply rsum_ext; intros i Hi; apply H, Hi).
      rewrite rsum_plus, !rsum_scal in Z. change (rsum (b_NION b) (fun i => C i)) with (rsum (b_NION b) C) in Z. change (rsum (b_NION b) (fun i => q i)) with (rsum (b_NION b) q) in Z.
      rewrite SQ in Z. apply (Rmult_eq_reg_l (b_VL b)); lra. }
    split; [|split].
    + intros [|r] Hrr; [lia|]. cbn [u]. split; [apply Rmult_lt_0_compat; assumption|]. intros i Hi. apply Rmult_le_pos; [lra|apply H, Hi].
    + apply (C64_batch_equilibrium_is_stationary leg jac psdm b u (fun i => s * q i) HG HN Hr HK HV); fold s.
      * intros i Hi. apply H, Hi.
      * exact CT.
      * intros [|r] Hrr i; [lia|reflexivity].
      * split; [rewrite F; exact Q0|]. intros i Hi. rewrite F. apply H, Hi.
      * intros i Hi E2. rewrite F. apply H; [exact Hi|]. apply A2; assumption.
      * apply (shape_equilibrium _ _ _ _ _ rho HN HK HV). intros i Hi. rewrite F. cbn [u]. apply H, Hi.
    + intros i Hi. destruct (radial_ok leg jac (b_nr b) Hr HG) as (_ & _ & W). fold op in W. unfold bead_average. cbn [u].
      rewrite rsum_scal_r, W. destruct (H i Hi) as (_ & _ & _ & _ & M). rewrite <- M. field.
Qed.

(** ** Granular carbon *)
Lemma power_cont c x a : 0 < c -> 0 < a -> continuity_pt (fun p => rpow (c * p) x) a.
Proof.
  intros C A. 
  assert (D : continuity_pt (fun p => exp (x * ln (c * p))) a).
  { apply (continuity_pt_comp (fun p => x * ln (c * p)) exp).
    - apply (continuity_pt_mult (fun _ => x) (fun p => ln (c * p))); [apply continuity_pt_const; intros ? ?; reflexivity|].
      apply (continuity_pt_comp (fun p => c * p) ln).
      + apply (continuity_pt_mult (fun _ => c) (fun p => p)); [apply continuity_pt_const; intros ? ?; reflexivity|apply derivable_continuous_pt, derivable_pt_id].
      + apply derivable_continuous_pt. exists (/ (c * a)). apply derivable_pt_lim_ln. apply Rmult_lt_0_compat; assumption.
    - apply derivable_continuous_pt, derivable_pt_exp. }
  intros eps HE. destruct (D eps HE) as (d & Hd & HDD). exists (Rmin d a). split; [apply Rmin_glb_lt; assumption|].
  intros y (N & Hy). assert (L1 := Rmin_l d a). assert (L2 := Rmin_r d a). cbn in Hy. unfold R_dist in Hy.
  assert (Y : 0 < y). { assert (Z := Rle_abs (a - y)). rewrite Rabs_minus_sym in Z. lra. }
  cbn. rewrite !rpow_Rpower by (apply Rmult_lt_0_compat; assumption). unfold Rpower. apply HDD. split; [exact N|]. cbn. unfold R_dist. lra.
Qed.
(** Every influent, whichever compounds it carries, exhausts the bed in some state. *)
Theorem C194_carbon : forall inv legendre jroots nr nz ne m g rows foul t,
  good_library inv legendre jroots nr nz -> calc_solver_matrix inv legendre jroots nr nz ne = Ok m -> physical g -> working_carbon g foul ->
  (forall i, (i < x_n g)%nat -> 0 <= at_time g (cinfA g rows) t i) ->
  exists y, carbon_at_rest g m nr rows foul t y.
Proof.
  intros inv leg jr nr nz ne m g rows foul t HG Hm HP HW HC. destruct (working_facts g foul t HP HW) as (F1 & _).
  set (Cin := at_time g (cinfA g rows) t) in *. set (ff := at_time g (foulFA g foul) t) in *. assert (Q := qe_pos g HP). assert (X := ph_xn g HP).
  assert (NR := nr_big inv leg jr nr nz ne m Hm).
  assert (L : exists v : nat -> R, (forall i, (i < x_n g)%nat -> 0 <= v i) /\ forall yy : nat -> nat -> nat -> R, forall r z, (forall i, (i < x_n g)%nat -> yy i r z = v i) ->
     forall i, (i < x_n g)%nat -> cpore g nr ff yy i r z = Cin i).
  { destruct (Rlt_dec 0 (rsum (x_n g) (fun i => Cin i / ff i))) as [S|S].
    - set (h := fun i p => rpow (x_xn g i / qe g i * p) (xni g i)).
      assert (XQ : forall i, (i < x_n g)%nat -> 0 < x_xn g i / qe g i) by (intros i Hi; apply Rdiv_lt_0_compat; [apply X, Hi|apply Q, Hi]).
      destruct (loading_exists (x_n g) (fun i => Cin i / ff i) (fun j => / x_xn g j) h) as (q & Q0 & QS & E); try assumption.
      + intros i Hi. apply Rmult_le_pos; [apply HC, Hi|left; apply Rinv_0_lt_compat, F1, Hi].
      + intros i Hi. apply Rinv_0_lt_compat, X, Hi.
      + intros i x Hi Hx. apply (hh_pos g HP i x Hi Hx).
      + intros i x y Hi Hx L. apply (hh_lt g HP i x y Hi Hx L).
      + intros i x Hi Hx. apply power_cont; [apply XQ, Hi|exact Hx].
      + intros i v Hi V. exists (rpow v (x_xn g i) / (x_xn g i / qe g i)). assert (XI := X i Hi). assert (QI := Q i Hi).
        split; [apply Rdiv_lt_0_compat; [apply rpow_pos, V|apply XQ, Hi]|]. unfold h.
        replace (x_xn g i / qe g i * (rpow v (x_xn g i) / (x_xn g i / qe g i))) with (rpow v (x_xn g i)) by (field; lra).
        rewrite rpow_rpow by exact V. unfold xni. replace (x_xn g i * (1 / x_xn g i)) with 1 by (field; lra). apply rpow_1. lra.
      + exists (fun i => q i / qe g i). split; [intros i Hi; apply Rmult_le_pos; [apply Q0, Hi|left; apply Rinv_0_lt_compat, Q, Hi]|].
        intros yy r z EY i Hi.
        assert (MO : forall j, (j < x_n g)%nat -> moles g yy r z j = q j) by (intros j Hj; unfold moles; rewrite (EY j Hj); assert (QJ := Q j Hj); field; lra).
        assert (MS : rsum (x_n g) (moles g yy r z) = rsum (x_n g) q) by (apply rsum_ext; exact MO).
        assert (CM := cpore_mixed nr g ff HP F1 (fun _ => 1) (fun _ => 0) yy r z).
        assert (FI := F1 i Hi).
        transitivity (1 * cpore g nr ff yy i r z + 0 * yy i r z); [ring|]. rewrite CM; [| |rewrite MS; exact QS|exact Hi].
        * unfold mixed. rewrite MS, (MO i Hi), (rsum_ext _ (fun j => / x_xn g j * moles g yy r z j) (fun j => / x_xn g j * q j)) by (intros j Hj; rewrite (MO j Hj); reflexivity).
          fold (h i (rsum (x_n g) (fun j => / x_xn g j * q j))). rewrite (E i Hi). fold ff. assert (QI := Q i Hi). field. lra.
        * intros j Hj. rewrite (EY j Hj). apply Rmult_le_pos; [apply Q0, Hj|left; apply Rinv_0_lt_compat, Q, Hj].
    - assert (Z : forall i, (i < x_n g)%nat -> Cin i = 0).
      { intros i Hi. destruct (HC i Hi) as [P|P]; [exfalso|symmetry; exact P]. apply S. apply (rsum_pos_one _ _ i Hi).
        - intros j Hj. apply Rmult_le_pos; [apply HC, Hj|left; apply Rinv_0_lt_compat, F1, Hj].
        - apply Rdiv_lt_0_compat; [exact P|apply F1, Hi]. }
      exists (fun _ => 0). split; [intros; lra|]. intros yy r z EY i Hi. rewrite (Z i Hi). apply cpore_zero. exact EY. }
  destruct L as (v & V & HV). set (y := fun (i r z : nat) => if Nat.ltb r nr then v i else Cin i). exists y.
  assert (YB : forall i r z, (r < nr)%nat -> y i r z = v i) by (intros i r z H; unfold y; rewrite (proj2 (Nat.ltb_lt r nr)) by exact H; reflexivity).
  split; [intros i r z Hi Hr Hz; rewrite YB by exact Hr; apply V, Hi|].
  apply (C72_equilibrium_is_steady inv leg jr nr nz ne m g rows foul t y HG Hm).
  - intros i r z Hi Hr Hz. rewrite !YB by lia. reflexivity.
  - intros i z Hi Hz. unfold surface_liquid. fold ff. apply HV; [|exact Hi]. intros j Hj. apply YB. lia.
  - intros i z Hi Hz. unfold y. rewrite (proj2 (Nat.ltb_ge nr nr)) by lia. reflexivity.
Qed.

(** ** Concrete cases *)
(** three ions, one divalent: an influent with presaturant exhausts the bed, one without cannot *)
Example ex_column_exhausts : forall psdm ocfe op Q, build_operators even_roots (fun m _ _ => even_roots m) 4 5 ocfe = Ok op -> 0 < Q ->
  (exists u, resin_of_capacity ex_col u Q /\ column_at_rest psdm ex_col op 100 (fun i => match i with O => 1 / 50 | 1%nat => 0 | _ => 3 end) u) /\
  ~ (exists u, resin_of_capacity ex_col u Q /\ column_at_rest psdm ex_col op 100 (fun i => match i with O => 0 | _ => 3 end) u).
Proof.
  intros psdm ocfe op Q Hop HQ. destruct (ex_column_rests psdm ocfe op Hop) as (W & _ & _). split.
  - apply (C194_ion_column even_roots (fun m _ _ => even_roots m) ocfe op psdm ex_col 100 _ Q even_roots_good Hop W); try exact HQ; try lra.
    + intros [|[|i]] _; lra.
    + cbn. lra.
  - intros X. apply (C194_ion_column even_roots (fun m _ _ => even_roots m) ocfe op psdm ex_col 100 _ Q even_roots_good Hop W) in X; try exact HQ; try lra.
    + intros [|i] _; lra.
    + cbn. lra.
Qed.
(** a solution holding one unit of charge, two units of each ion in the reactor *)
Example ex_batch_exhausts : forall psdm, exists u, batch_rests psdm ex_batch ex_op u /\
  forall i, (i < 2)%nat -> u 0%nat i + bead_average 1 (rWr ex_op) (fun r => u (S r) i) = 2.
Proof.
  intros psdm. destruct (C194_batch even_roots (fun m _ _ => even_roots m) psdm ex_batch (fun _ => 2) even_roots_good) as (u & _ & R & A).
  - apply (ex_batch_rests psdm).
  - intros; lra.
  - lra.
  - intros; lra.
  - cbn. lra.
  - exists u. split; [exact R|]. intros i Hi. rewrite <- (A i Hi). cbn [ex_batch b_VL b_VR b_nr]. unfold ex_op. cbn [ex_batch b_nr]. ring.
Qed.
(** three compounds at once *)
Example ex_carbon_exhausts : forall ne m, (1 <= ne)%nat -> calc_solver_matrix inv23 leg_mid jac_one 2 3 ne = Ok m ->
  exists y, carbon_at_rest (g_ex 3 true 1) m 2 (fun _ => [(0, 100); (1000, 100)]) (fun _ _ => 1) 0 y.
Proof.
  intros ne m Hne Hm. assert (HP : physical (g_ex 3 true 1)) by (apply physical_example; lia).
  apply (C194_carbon inv23 leg_mid jac_one 2 3 ne m _ _ _ 0 library_example Hm HP).
  - intros i Hi. unfold kf_v, ds_v, dp_v, tortu_t. cbn -[pow INR].
    rewrite (proj2 (rltb_true 0 (1 / 1000))), (proj2 (rltb_true 0 (1 / 10 ^ 9))), (proj2 (rltb_true 0 (1 / 10 ^ 6))) by lra.
    repeat split; lra.
  - intros i Hi. apply at_time_nonneg. intros k. assert (C := cb0_pos _ HP i Hi). unfold cinfA, cin_table. cbn [map fst snd interp_x]. unfold line.
    set (a := 100 * x_mass_mul (g_ex 3 true 1) / x_mw (g_ex 3 true 1) i / cb0 (g_ex 3 true 1) i).
    assert (A : 0 <= a) by (unfold a; cbn; apply Rmult_le_pos; [lra|left; apply Rinv_0_lt_compat; exact C]).
    match goal with |- 0 <= ?e => replace e with a; [exact A|] end. field.
Qed.

Print Assumptions C194_ion_column.
Print Assumptions C194_monovalent_shares.
Print Assumptions C194_batch.
Print Assumptions C194_carbon.
