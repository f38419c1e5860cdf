(** C192 — a simulation that has come to rest is exhausted: the liquid is the influent everywhere, the beads are uniform and
    in equilibrium with it, and there is one such state. *)
From Coq Require Import Reals List Arith Bool Lra Lia.
From Verif Require Import Lib_Py Lib_Sum Lib_Pow M_Colloc M_IxEq M_IxColumn M_IxBatch M_GacColumn S_Colloc S_IxEq S_IxColumn
  P_Colloc P_IxEq P_IxColumn P_IxBatch P_GacFun P_GacColumn Props_IxColumn Props_IxBatch Props_GacColumn P_RestEq P_RestIx P_RestBatch P_RestGac.
Import ListNotations.
Open Scope R_scope.

(** ** Ion-exchange columns *)
(** resin present everywhere with the presaturant on it, of the same capacity *)
Definition resin_of_capacity (c : column) (u : state) (Q : R) : Prop :=
  forall r z, (r < nr c)%nat -> (z < nz c)%nat ->
    0 < u (S r) 0%nat z /\ (forall i, (i < NION c)%nat -> 0 <= u (S r) i z) /\ rsum (NION c) (fun i => u (S r) i z) = Q.
(** sizes and rates of a working column *)
Definition working_column (psdm : bool) (c : column) (th : R) : Prop :=
  (0 < NION c)%nat /\ (1 <= nr c)%nat /\ (2 <= nz c)%nat /\ selectivities (NION c) (Kxc c) /\ mono_or_divalent (NION c) (val c) /\
  0 < EBED c < 1 /\ 0 < rb c /\ 0 < vel c /\ 0 < Lbed c /\ 0 < th /\ (psdm = true -> 0 < EPOR c < 1) /\
  forall i, (1 <= i < NION c)%nat -> 0 < kL c i /\ 0 < Ds c i /\ (psdm = true -> Ds c i <= Dp c i).
Definition column_at_rest (psdm : bool) (c : column) (op : operators) (th : R) (Cin : nat -> R) (u : state) : Prop :=
  forall r i z, (r <= nr c)%nat -> (i < NION c)%nat -> (z < nz c)%nat -> rhs psdm c op th Cin u r i z = 0.

Theorem C192_ion_column : forall legendre jacobi ocfe op (psdm : bool) c th Cin u Q,
  good_roots legendre jacobi -> build_operators legendre jacobi (nr c) (nz c) ocfe = Ok op -> working_column psdm c th ->
  (forall i, (i < NION c)%nat -> 0 <= Cin i) -> 0 < rsum (NION c) Cin ->
  resin_of_capacity c u Q -> column_at_rest psdm c op th Cin u ->
  (* the liquid is the influent, down to the effluent *)
  (forall i z, (i < NION c)%nat -> (1 <= z < nz c)%nat -> u 0%nat i z = Cin i) /\
  (* the beads are the same throughout the bed and across the radius *)
  (forall r r' i z z', (r < nr c)%nat -> (r' < nr c)%nat -> (i < NION c)%nat -> (z < nz c)%nat -> (z' < nz c)%nat -> u (S r) i z = u (S r') i z') /\
  (* and in equilibrium with the influent *)
  (forall r z, (r < nr c)%nat -> (z < nz c)%nat ->
     in_equilibrium (NION c) (Kxc c) (val c) (fun i => u (S r) i z / (if psdm then 1 - EPOR c else 1)) Cin).
Proof.
  intros leg jac ocfe op psdm c th Cin u Q HG Hb (HN & Hr & Hz & HK & HV & HE & Hrb & Hv & HL & Hth & Hp & HD) HC HCT HR HS.
  assert (Hq : forall r z, (r < nr c)%nat -> (z < nz c)%nat -> resin_composition (NION c) (fun i => u (S r) i z)).
  { intros r z H1 H2. destruct (HR r z H1 H2) as (A & B & _). split; assumption. }
  assert (HQ : forall r z, (r < nr c)%nat -> (z < nz c)%nat -> rsum (NION c) (fun i => u (S r) i z) = Q) by (intros r z H1 H2; apply (HR r z H1 H2)).
  assert (T := theta_pos psdm c Hp).
  assert (EQ := rest_in_equilibrium leg jac ocfe psdm op c th Cin u Q HG HN Hr Hz Hb HK HV HE Hrb Hv HL Hth (fun i Hi => proj1 (HD i Hi)) Hp
     (fun i Hi => proj2 (HD i Hi)) HCT Hq HQ HS).
  split; [|split].
  - intros i z Hi Hzz. assert (E := rest_liquid leg jac ocfe psdm op c th Cin u HG HN Hr Hz Hb HE Hrb Hv HL Hth HS i z Hi ltac:(lia)).
    unfold liq in E. rewrite (proj2 (Nat.eqb_neq z 0)) in E by lia. exact E.
  - intros r r' i z z' H1 H2 H3 H4 H5.
    assert (E : solid psdm c u r z i = solid psdm c u r' z' i).
    { apply (equilibrium_unique (NION c) (Kxc c) (val c) (fun _ => 1) (fun _ => 0) (solid psdm c u r z) (solid psdm c u r' z') Cin Cin); try assumption; try reflexivity.
      - intros; lra.
      - apply solid_composition; assumption.
      - apply solid_composition; assumption.
      - apply EQ; assumption.
      - apply EQ; assumption.
      - rewrite !(solid_total psdm c u Q HQ) by assumption. reflexivity.
      - intros; ring. }
    unfold solid in E. apply (Rmult_eq_reg_r (/ theta psdm c)); [exact E|]. apply Rinv_neq_0_compat. lra.
  - exact EQ.
Qed.
(** Two resins of the same capacity come to rest on the same influent only in the same state. *)
Theorem C192_ion_column_unique : forall legendre jacobi ocfe op (psdm : bool) c th Cin u u' Q,
  good_roots legendre jacobi -> build_operators legendre jacobi (nr c) (nz c) ocfe = Ok op -> working_column psdm c th ->
  (forall i, (i < NION c)%nat -> 0 <= Cin i) -> 0 < rsum (NION c) Cin ->
  resin_of_capacity c u Q -> column_at_rest psdm c op th Cin u -> resin_of_capacity c u' Q -> column_at_rest psdm c op th Cin u' ->
  (forall i z, (i < NION c)%nat -> (1 <= z < nz c)%nat -> u 0%nat i z = u' 0%nat i z) /\
  (forall r i z, (r < nr c)%nat -> (i < NION c)%nat -> (z < nz c)%nat -> u (S r) i z = u' (S r) i z).
Proof.
  intros leg jac ocfe op psdm c th Cin u u' Q HG Hb HW HC HCT HR HS HR' HS'.
  destruct (C192_ion_column leg jac ocfe op psdm c th Cin u Q HG Hb HW HC HCT HR HS) as (L & _ & EQ).
  destruct (C192_ion_column leg jac ocfe op psdm c th Cin u' Q HG Hb HW HC HCT HR' HS') as (L' & _ & EQ').
  split; [intros i z Hi Hz; rewrite L, L' by assumption; reflexivity|]. intros r i z Hr Hi Hz.
  destruct HW as (HN & _ & _ & HK & HV & _ & _ & _ & _ & _ & Hp & _). assert (T := theta_pos psdm c Hp). unfold theta in T.
  set (s := if psdm then 1 - EPOR c else 1) in *. assert (IT := Rinv_0_lt_compat _ T).
  assert (RC : forall v, resin_of_capacity c v Q -> resin_composition (NION c) (fun i => v (S r) i z / s) /\ rsum (NION c) (fun i => v (S r) i z / s) = Q / s).
  { intros v HV'. destruct (HV' r z Hr Hz) as (A & B & Cc). split; [split|].
    - apply Rmult_lt_0_compat; assumption.
    - intros j Hj. apply Rmult_le_pos; [apply B, Hj|lra].
    - rewrite rsum_div, Cc. reflexivity. }
  destruct (RC u HR) as (A & B). destruct (RC u' HR') as (A' & B').
  assert (E : u (S r) i z / s = u' (S r) i z / s).
  { apply (equilibrium_unique (NION c) (Kxc c) (val c) (fun _ => 1) (fun _ => 0) (fun i => u (S r) i z / s) (fun i => u' (S r) i z / s) Cin Cin); try assumption; try reflexivity.
    - intros; lra.
    - apply EQ; assumption.
    - apply EQ'; assumption.
    - rewrite B, B'. reflexivity.
    - intros; ring. }
  apply (Rmult_eq_reg_r (/ s)); [exact E|]. lra.
Qed.

(** ** Ion-exchange batch reactors *)
Definition working_batch (psdm : bool) (b : batch) : Prop :=
  (0 < b_NION b)%nat /\ (1 <= b_nr b)%nat /\ selectivities (b_NION b) (b_K b) /\ mono_or_divalent (b_NION b) (b_val b) /\
  0 < b_rb b /\ 0 < b_VL b /\ 0 < b_VR b /\ 0 < b_kL b /\ 0 < b_Ds b /\ (psdm = true -> 0 < b_EPOR b < 1 /\ b_Ds b <= b_Dp b) /\
  0 < rsum (b_NION b) (b_C0 b).
Definition batch_rests (psdm : bool) (b : batch) (op : radial) (u : bstate) : Prop :=
  exists d, batch_rhs psdm b op u = Some d /\ forall r i, (r <= b_nr b)%nat -> (i < b_NION b)%nat -> d r i = 0.
Theorem C192_batch : forall legendre jacobi (psdm : bool) b u,
  good_roots legendre jacobi -> working_batch psdm b ->
  let op := build_radial legendre jacobi (b_nr b) in
  (forall r, (1 <= r <= b_nr b)%nat -> 0 < u r 0%nat /\ forall i, (i < b_NION b)%nat -> 0 <= u r i) ->
  batch_rests psdm b op u ->
  (forall r i, (1 <= r <= b_nr b)%nat -> (i < b_NION b)%nat -> u r i = u (b_nr b) i) /\
  in_equilibrium (b_NION b) (b_K b) (b_val b) (fun i => u (b_nr b) i / (if psdm then 1 - b_EPOR b else 1)) (u 0%nat) /\
  rsum (b_NION b) (u 0%nat) = rsum (b_NION b) (b_C0 b).
Proof.
  intros leg jac psdm b u HG (HN & Hr & HK & HV & Hrb & HVL & HVR & HkL & HD & Hp & HC) op HR (d & Hd & HS).
  assert (Hq : forall r, (r < b_nr b)%nat -> resin_composition (b_NION b) (u (S r))) by (intros r H; destruct (HR (S r) ltac:(lia)); split; assumption).
  destruct (batch_at_rest leg jac psdm b u d HG HN Hr HK HV Hrb HVL HVR HkL HD Hp HC Hq Hd HS) as (U & E & T & _).
  split; [|split; [exact E|exact T]]. intros [|r] i H1 H2; [lia|]. apply U; [lia|exact H2].
Qed.
(** With the same amount of every ion in the reactor there is one state of rest. *)
Theorem C192_batch_unique : forall legendre jacobi (psdm : bool) b u u',
  good_roots legendre jacobi -> working_batch psdm b ->
  let op := build_radial legendre jacobi (b_nr b) in
  (forall r, (1 <= r <= b_nr b)%nat -> 0 < u r 0%nat /\ forall i, (i < b_NION b)%nat -> 0 <= u r i) ->
  (forall r, (1 <= r <= b_nr b)%nat -> 0 < u' r 0%nat /\ forall i, (i < b_NION b)%nat -> 0 <= u' r i) ->
  batch_rests psdm b op u -> batch_rests psdm b op u' ->
  (forall i, (i < b_NION b)%nat ->
     b_VL b * u 0%nat i + b_VR b * bead_average (b_nr b) (rWr op) (fun r => u (S r) i) =
     b_VL b * u' 0%nat i + b_VR b * bead_average (b_nr b) (rWr op) (fun r => u' (S r) i)) ->
  forall r i, (r <= b_nr b)%nat -> (i < b_NION b)%nat -> u r i = u' r i.
Proof.
  intros leg jac psdm b u u' HG HW op HR HR' HS HS' HA. assert (HW' := HW).
  destruct HW' as (HN & Hr & HK & HV & Hrb & HVL & HVR & HkL & HD & Hp & HC).
  destruct (C192_batch leg jac psdm b u HG HW HR HS) as (U & E & T). destruct (C192_batch leg jac psdm b u' HG HW HR' HS') as (U' & E' & T').
  destruct (radial_ok leg jac (b_nr b) Hr HG) as (_ & _ & W). fold op in W.
  assert (AV : forall v, (forall r i, (1 <= r <= b_nr b)%nat -> (i < b_NION b)%nat -> v r i = v (b_nr b) i) -> forall i, (i < b_NION b)%nat ->
     bead_average (b_nr b) (rWr op) (fun r => v (S r) i) = v (b_nr b) i).
  { intros v V i Hi. unfold bead_average. rewrite (rsum_ext _ _ (fun m => rWr op m * v (b_nr b) i)).
    - rewrite rsum_scal_r, W. field.
    - intros m Hm. rewrite (V (S m) i) by lia. reflexivity. }
  assert (HA' : forall i, (i < b_NION b)%nat -> b_VL b * u 0%nat i + b_VR b * u (b_nr b) i = b_VL b * u' 0%nat i + b_VR b * u' (b_nr b) i).
  { intros i Hi. rewrite <- (AV u U i Hi), <- (AV u' U' i Hi). apply HA, Hi. }
  assert (TS : 0 < (if psdm then 1 - b_EPOR b else 1)) by (destruct psdm; [destruct (Hp eq_refl); lra|lra]).
  set (s := if psdm then 1 - b_EPOR b else 1) in *. assert (IT := Rinv_0_lt_compat _ TS).
  assert (RC : forall v, (forall r, (1 <= r <= b_nr b)%nat -> 0 < v r 0%nat /\ forall i, (i < b_NION b)%nat -> 0 <= v r i) -> resin_composition (b_NION b) (fun i => v (b_nr b) i / s)).
  { intros v V. destruct (V (b_nr b) ltac:(lia)) as (A & B). split; [apply Rmult_lt_0_compat; assumption|]. intros i Hi. apply Rmult_le_pos; [apply B, Hi|lra]. }
  assert (NN : forall v, (forall r, (1 <= r <= b_nr b)%nat -> 0 < v r 0%nat /\ forall i, (i < b_NION b)%nat -> 0 <= v r i) -> batch_rests psdm b op v ->
    forall i, (i < b_NION b)%nat -> 0 <= v 0%nat i).
  { intros v V (d & Hd & Hz).
    assert (Hq : forall r, (r < b_nr b)%nat -> resin_composition (b_NION b) (v (S r))) by (intros r H; destruct (V (S r) ltac:(lia)); split; assumption).
    apply (batch_at_rest leg jac psdm b v d HG HN Hr HK HV Hrb HVL HVR HkL HD Hp HC Hq Hd Hz). }
  assert (EQ : forall i, (i < b_NION b)%nat -> u (b_nr b) i / s = u' (b_nr b) i / s).
  { apply (equilibrium_unique (b_NION b) (b_K b) (b_val b) (fun _ => b_VL b) (fun _ => b_VR b * s) (fun i => u (b_nr b) i / s) (fun i => u' (b_nr b) i / s) (u 0%nat) (u' 0%nat)); try assumption.
    - intros. assert (0 < b_VR b * s) by (apply Rmult_lt_0_compat; assumption). lra.
    - apply RC, HR.
    - apply RC, HR'.
    - apply (NN u HR HS).
    - apply (NN u' HR' HS').
    - rewrite T. exact HC.
    - rewrite T, T'. reflexivity.
    - rewrite !rsum_div. f_equal.
      assert (Z : rsum (b_NION b) (fun i => b_VL b * u 0%nat i + b_VR b * u (b_nr b) i) = rsum (b_NION b) (fun i => b_VL b * u' 0%nat i + b_VR b * u' (b_nr b) i))
        by (apply rsum_ext; exact HA').
      rewrite !rsum_plus, !rsum_scal in Z. change (rsum (b_NION b) (fun i => u 0%nat i)) with (rsum (b_NION b) (u 0%nat)) in Z.
      change (rsum (b_NION b) (fun i => u' 0%nat i)) with (rsum (b_NION b) (u' 0%nat)) in Z. rewrite T, T' in Z. apply (Rmult_eq_reg_l (b_VR b)); lra.
    - intros i Hi. replace (b_VR b * s * (u (b_nr b) i / s)) with (b_VR b * u (b_nr b) i) by (field; lra).
      replace (b_VR b * s * (u' (b_nr b) i / s)) with (b_VR b * u' (b_nr b) i) by (field; lra). apply HA'. lia. }
  assert (EB : forall i, (i < b_NION b)%nat -> u (b_nr b) i = u' (b_nr b) i).
  { intros i Hi. apply (Rmult_eq_reg_r (/ s)); [apply EQ, Hi|lra]. }
  intros [|r] i H1 H2.
  - assert (Z := HA' i H2). rewrite (EB i H2) in Z. apply (Rmult_eq_reg_l (b_VL b)); lra.
  - rewrite (U (S r) i), (U' (S r) i) by lia. apply EB, H2.
Qed.

(** ** Granular carbon *)
(** rates of a working bed: the film coefficient and diffusivities recorded, the tortuosity, the loss of capacity *)
Definition working_carbon (g : gac_in) (foul : nat -> R -> R) : Prop :=
  forall i, (i < x_n g)%nat -> 0 < kf_v g i /\ 0 <= ds_v g i < dp_v g i /\
    forall minute, 0 < tortu_t g minute /\ ds_v g i * tortu_t g minute <= dp_v g i /\ 0 < foul i (INR minute).
Definition carbon_at_rest (g : gac_in) (m : gac_matrices) (nr : nat) (rows : nat -> list (R * R)) (foul : nat -> R -> R) (t : R) (y : nat -> nat -> nat -> R) : Prop :=
  (forall i r z, (i < x_n g)%nat -> (r < nr)%nat -> (z < m_c m)%nat -> 0 <= y i r z) /\
  (forall i r z, (i < x_n g)%nat -> (r <= nr)%nat -> (z < m_c m)%nat -> diffun g m nr rows foul t y i r z = 0).
Lemma at_time_pos g A t i : (forall k, 0 < A k i) -> 0 < at_time g A t i.
Proof.
  intros H. unfold at_time. set (s := t / tconv g). set (k := Z.to_nat (Int_part s)). assert (B := base_Int_part s).
  set (e := s - IZR (Int_part s)). assert (E : 0 <= e < 1) by (unfold e; lra). assert (H1 := H k). assert (H2 := H (S k)).
  replace ((A (S k) i - A k i) * e + A k i) with (A (S k) i * e + A k i * (1 - e)) by ring.
  assert (0 <= A (S k) i * e) by (apply Rmult_le_pos; lra). assert (0 < A k i * (1 - e)) by (apply Rmult_lt_0_compat; lra). lra.
Qed.
Lemma working_facts g foul t : physical g -> working_carbon g foul ->
  (forall i, (i < x_n g)%nat -> 0 < at_time g (foulFA g foul) t i) /\ (forall i, (i < x_n g)%nat -> 0 < stdv g i) /\
  (forall i, (i < x_n g)%nat -> 0 <= bedp g i * at_time g (facA g) t i) /\ (forall i, (i < x_n g)%nat -> 0 < beds g i).
Proof.
  intros HP HW. assert (DT := dgt_pos g HP). assert (DP := dgp_pos g HP). assert (TA := ph_tau g HP). assert (RA := ph_rad g HP). assert (EB := ph_ebed g HP).
  assert (T0 : (0 < x_n g)%nat -> 0 < tortu0 g).
  { intros Hn. destruct (HW 0%nat Hn) as (_ & _ & H). destruct (H 0%nat) as (T & _). unfold tortu_t, tortu0 in *. destruct (x_organic_free g); [exact T|lra]. }
  assert (R2 : 0 < x_rad g ^ 2) by (apply pow_lt; exact RA).
  assert (ED : forall i, (i < x_n g)%nat -> 0 < edp g i /\ 0 < edd g i /\ 0 <= d_v g i < 1).
  { intros i Hi. destruct (HW i Hi) as (_ & D & _). assert (T := T0 ltac:(lia)). split; [|split].
    - unfold edp. apply Rdiv_lt_0_compat; [|exact R2]. apply Rmult_lt_0_compat; [|exact TA]. apply Rmult_lt_0_compat; [|exact DP]. apply Rmult_lt_0_compat; lra.
    - unfold edd. apply Rdiv_lt_0_compat; [exact DT|apply (dg_pos g HP i Hi)].
    - unfold d_v. split; [apply Rmult_le_pos; [lra|left; apply Rinv_0_lt_compat; lra]|]. apply (Rmult_lt_reg_r (dp_v g i)); [lra|]. replace (ds_v g i / dp_v g i * dp_v g i) with (ds_v g i) by (field; lra). lra. }
  split; [|split; [|split]]; intros i Hi.
  - apply at_time_pos. intros k. unfold foulFA. apply rpow_pos. apply Rdiv_lt_0_compat; [lra|]. destruct (HW i Hi) as (_ & _ & H). apply (H k).
  - unfold stdv, st. apply Rmult_lt_0_compat; [|exact DT]. destruct (HW i Hi) as (K & _). apply Rdiv_lt_0_compat; [apply Rmult_lt_0_compat; [apply Rmult_lt_0_compat|]; lra|apply Rmult_lt_0_compat; lra].
  - destruct (ED i Hi) as (E1 & E2 & E3). apply Rmult_le_pos.
    + unfold bedp. apply Rmult_le_pos; [apply Rmult_le_pos; lra|lra].
    + apply at_time_nonneg. intros k. unfold facA. destruct (HW i Hi) as (_ & D & H). destruct (H k) as (T & L & _).
      apply Rmult_le_pos; [|left; apply Rinv_0_lt_compat; lra]. unfold d_v.
      assert (ds_v g i / dp_v g i <= 1 / tortu_t g k); [|lra].
      apply (Rmult_le_reg_r (dp_v g i * tortu_t g k)); [apply Rmult_lt_0_compat; lra|].
      replace (ds_v g i / dp_v g i * (dp_v g i * tortu_t g k)) with (ds_v g i * tortu_t g k) by (field; lra).
      replace (1 / tortu_t g k * (dp_v g i * tortu_t g k)) with (dp_v g i) by (field; lra). exact L.
  - destruct (ED i Hi) as (E1 & E2 & E3). unfold beds. apply Rmult_lt_0_compat; [|exact E2].
    assert (0 <= d_v g i * edp g i) by (apply Rmult_le_pos; lra).
    assert (0 < eds g i); [|lra]. unfold eds. cbv zeta. assert (P130 : 0 < / 10 ^ 130) by (apply Rinv_0_lt_compat, pow_lt; lra).
    destruct (rltb _ (/ 10 ^ 130)) eqn:E; [exact P130|]. apply rltb_false in E. lra.
Qed.
Theorem C192_carbon : forall inv legendre jroots nr nz ne m g rows foul t y,
  good_library inv legendre jroots nr nz -> calc_solver_matrix inv legendre jroots nr nz ne = Ok m -> physical g -> working_carbon g foul ->
  carbon_at_rest g m nr rows foul t y ->
  (* the liquid is the influent, down to the effluent *)
  (forall i z, (i < x_n g)%nat -> (1 <= z < m_c m)%nat -> y i nr z = at_time g (cinfA g rows) t i) /\
  (* the beads are the same throughout the bed and across the radius *)
  (forall i r z r' z', (i < x_n g)%nat -> (r < nr)%nat -> (z < m_c m)%nat -> (r' < nr)%nat -> (z' < m_c m)%nat -> y i r z = y i r' z') /\
  (* and their surface in equilibrium with the influent *)
  (forall i z, (i < x_n g)%nat -> (z < m_c m)%nat -> surface_liquid g nr foul t y i z = at_time g (cinfA g rows) t i).
Proof.
  intros inv leg jr nr nz ne m g rows foul t y HG Hm HP HW (HY & HS). destruct (working_facts g foul t HP HW) as (F1 & F2 & F3 & F4).
  assert (SU : forall i z, (i < x_n g)%nat -> (z < m_c m)%nat -> surface_liquid g nr foul t y i z = at_time g (cinfA g rows) t i).
  { intros i z Hi Hz. apply (carbon_surface inv leg jr nr nz ne m g _ _ (at_time g (facA g) t) y HG Hm HP F2); assumption. }
  assert (N := nr_big inv leg jr nr nz ne m Hm).
  split; [|split; [|exact SU]].
  - intros i z Hi Hz. apply (carbon_liquid inv leg jr nr nz ne m g _ (at_time g (foulFA g foul) t) (at_time g (facA g) t) y HG Hm HP); assumption.
  - assert (UN : forall i r z, (i < x_n g)%nat -> (r < nr)%nat -> (z < m_c m)%nat -> y i r z = y i (nr - 1)%nat z).
    { intros i r z Hi Hr Hz. apply (carbon_uniform inv leg jr nr nz ne m g _ _ _ y HG Hm HP F1 F3 F4 HY HS i r z Hi Hr Hz). }
    intros i r z r' z' Hi Hr Hz Hr' Hz'. rewrite (UN i r z), (UN i r' z') by assumption.
    apply (liquid_determines nr g (at_time g (foulFA g foul) t) HP F1 y (nr - 1) z y (nr - 1) z'); try exact Hi; try (intros; apply HY; (assumption || lia)).
    intros k Hk. assert (A := SU k z Hk Hz). assert (B := SU k z' Hk Hz'). unfold surface_liquid in A, B. rewrite A, B. reflexivity.
Qed.
Theorem C192_carbon_unique : forall inv legendre jroots nr nz ne m g rows foul t y y',
  good_library inv legendre jroots nr nz -> calc_solver_matrix inv legendre jroots nr nz ne = Ok m -> physical g -> working_carbon g foul ->
  carbon_at_rest g m nr rows foul t y -> carbon_at_rest g m nr rows foul t y' ->
  (forall i z, (i < x_n g)%nat -> (1 <= z < m_c m)%nat -> y i nr z = y' i nr z) /\
  (forall i r z, (i < x_n g)%nat -> (r < nr)%nat -> (z < m_c m)%nat -> y i r z = y' i r z).
Proof.
  intros inv leg jr nr nz ne m g rows foul t y y' HG Hm HP HW HR HR'.
  destruct (C192_carbon inv leg jr nr nz ne m g rows foul t y HG Hm HP HW HR) as (L & U & SU).
  destruct (C192_carbon inv leg jr nr nz ne m g rows foul t y' HG Hm HP HW HR') as (L' & U' & SU').
  destruct (working_facts g foul t HP HW) as (F1 & _). assert (N := nr_big inv leg jr nr nz ne m Hm).
  split; [intros i z Hi Hz; rewrite L, L' by assumption; reflexivity|]. intros i r z Hi Hr Hz.
  rewrite (U i r z (nr - 1)%nat z), (U' i r z (nr - 1)%nat z) by (assumption || lia).
  apply (liquid_determines nr g (at_time g (foulFA g foul) t) HP F1 y (nr - 1) z y' (nr - 1) z); try exact Hi; try (intros; (apply HR || apply HR'); (assumption || lia)).
  intros k Hk. assert (A := SU k z Hk Hz). assert (B := SU' k z Hk Hz). unfold surface_liquid in A, B. rewrite A, B. reflexivity.
Qed.

(** ** Concrete cases *)
Example ex_column_rests : forall psdm ocfe op, build_operators even_roots (fun m _ _ => even_roots m) 4 5 ocfe = Ok op ->
  working_column psdm ex_col 100 /\ resin_of_capacity ex_col (ex_steady psdm) (theta psdm ex_col * 20400) /\ column_at_rest psdm ex_col op 100 (fun _ => 1) (ex_steady psdm).
Proof.
  intros psdm ocfe op Hop. split; [|split].
  - do 3 (split; [cbn; lia|]). split; [intros [|[|j]] _; cbn; lra|]. split; [split; [reflexivity|intros [|[|[|j]]] Hj; cbn; auto]|].
    do 5 (split; [cbn; lra|]). split; [cbn; intros; lra|]. intros i Hi. cbn. repeat split; intros; lra.
  - intros r z Hr Hz. assert (T : 0 < theta psdm ex_col) by (destruct psdm; cbn; lra). split; [|split].
    + cbn [ex_steady]. apply Rmult_lt_0_compat; lra.
    + intros [|[|i]] _; cbn [ex_steady]; apply Rmult_le_pos; lra.
    + cbn [rsum NION ex_col ex_steady]. change (theta psdm {| NION := 3 |}) with (theta psdm ex_col) || idtac. ring.
  - intros r i z Hr Hi Hz. apply (ex_col_steady psdm ocfe op); assumption.
Qed.
Example ex_batch_rests : forall psdm : bool, let u : bstate := fun r _ => match r with O => 1 / 2 | S _ => (if psdm then 1 - b_EPOR ex_batch else 1) / 2 end in
  working_batch psdm ex_batch /\ batch_rests psdm ex_batch ex_op u.
Proof.
  intros psdm u. split.
  - do 2 (split; [cbn; lia|]). split; [intros i _; cbn; lra|]. split; [split; [reflexivity|intros; left; reflexivity]|].
    do 5 (split; [cbn; lra|]). split; [cbn; intros; lra|]. cbn. lra.
  - assert (SO : (if psdm then 1 - b_EPOR ex_batch else 1) <> 0) by (destruct psdm; cbn; lra). set (s := if psdm then 1 - b_EPOR ex_batch else 1) in *.
    assert (E : s / 2 / s = 1 / 2) by (field; exact SO).
    apply (C64_batch_equilibrium_is_stationary even_roots (fun m _ _ => even_roots m) psdm ex_batch u (fun _ => s / 2) even_roots_good); cbn [ex_batch b_NION b_K b_val b_nr b_C0]; try lia.
    + intros i _. lra.
    + split; [reflexivity|]. intros; left; reflexivity.
    + intros i _. cbn. lra.
    + cbn. lra.
    + intros [|r] Hr i; [lia|reflexivity].
    + fold s. split; [|intros i _]; rewrite E; lra.
    + fold s. right. split; [intros i _ X; discriminate X|]. intros i Hi j Hj. cbn [u]. rewrite E. field.
Qed.
Example ex_carbon_rests : forall ne m, (1 <= ne)%nat -> calc_solver_matrix inv23 leg_mid jac_one 2 3 ne = Ok m ->
  working_carbon (g_ex 1 true 1) (fun _ _ => 1) /\ carbon_at_rest (g_ex 1 true 1) m 2 (fun _ => [(0, 100); (1000, 100)]) (fun _ _ => 1) 0 (fun _ _ _ => 1).
Proof.
  intros ne m Hne Hm. split; [|split; [intros; lra|apply (equilibrium_example ne m Hne Hm)]].
  intros i Hi. unfold kf_v, ds_v, dp_v, tortu_t. cbn -[pow INR]. 
  rewrite (proj2 (rltb_true 0 (1 / 1000))), (proj2 (rltb_true 0 (1 / 10 ^ 9))), (proj2 (rltb_true 0 (1 / 10 ^ 6))) by lra.
  repeat split; lra.
Qed.

Print Assumptions C192_ion_column.
Print Assumptions C192_ion_column_unique.
Print Assumptions C192_batch.
Print Assumptions C192_batch_unique.
Print Assumptions C192_carbon.
Print Assumptions C192_carbon_unique.
