(** Properties C122-C124: the solver of the ion-exchange web application, compared with the
    package's.  [r_diffun true] is the application's pore-diffusion model, [r_diffun false] its
    homogeneous one; [rhs] is the package's right-hand side (M_IxColumn). *)
From Coq Require Import Reals List Arith Bool Lra Lia.
From Verif Require Import Lib_Py Lib_Sum Lib_Traj M_Colloc M_IxEq M_IxColumn M_RIexSolve
  S_Colloc S_IxEq S_IxColumn P_Colloc P_IxColumn P_RIexSolve Props_Colloc.
Import ListNotations.
Open Scope R_scope.

(** ** C122 — the two implementations discretise in the same way *)
Theorem C122_same_operators : forall jacobi nr nz, exists op,
  build_operators (fun m => jacobi m 1 1) jacobi nr nz false = Ok op /\
  (forall i j, Az (r_operators jacobi nr nz) i j = Az op i j) /\
  (forall i j, Br (r_operators jacobi nr nz) i j = Br op i j) /\
  (forall i, Wr (r_operators jacobi nr nz) i = Wr op i).
Proof. exact r_operators_eq. Qed.

(** Hence they differentiate exactly and the weights are positive: the application's axial
    operator on polynomials below degree nz, and its radial one on even polynomials. *)
Theorem C122_axial_exact : forall jacobi nr nz, (2 <= nz)%nat -> interior_roots (nz - 2) (jacobi (nz - 2)%nat 1 1) ->
  forall f : nat -> R, exists f', derivative (poly nz f) f' /\
  let grid i := if Nat.eqb i 0 then 0 else if Nat.eqb i (nz - 1) then 1 else jacobi (nz - 2)%nat 1 1 (i - 1)%nat in
  forall i, (i < nz)%nat ->
    apply_row nz (Az (r_operators jacobi nr nz)) (fun j => poly nz f (grid j)) i = f' (grid i).
Proof.
  intros jac nr nz Hz HR f.
  destruct (colloc_exact nz (rootsz (fun m => jac m 1 1) nz)) with (c := f) as (f' & f'' & D & _ & E).
  - apply increasing_distinct. apply rootsz_increasing; assumption.
  - exists f'. split; [exact D|]. intros grid i Hi. unfold apply_row.
    change (grid i) with (rootsz (fun m => jac m 1 1) nz i). rewrite <- (proj1 (E i Hi)). unfold apply_row.
    apply rsum_ext. intros j Hj. cbn [r_operators Az]. rewrite r_A_eq. reflexivity.
Qed.
Theorem C122_radial_exact : forall jacobi nr nz, (1 <= nr)%nat -> interior_roots (nr - 1) (jacobi (nr - 1)%nat (dec 25 1) (dec 15 1)) ->
  let radius i := sqrt (if Nat.eqb i (nr - 1) then 1 else jacobi (nr - 1)%nat (dec 25 1) (dec 15 1) i) in
  forall f : nat -> R, exists f' f'',
  derivative (fun s => poly nr f (s ^ 2)) f' /\ derivative f' f'' /\
  forall i, (i < nr)%nat ->
    apply_row nr (Br (r_operators jacobi nr nz)) (fun j => poly nr f (radius j ^ 2)) i
    = f'' (radius i) + 2 / radius i * f' (radius i).
Proof.
  intros jac n nz Hn HR radius f.
  assert (HR' : interior_roots (n - 1) (jac (n - 1)%nat (dec 15 1 + (3 - 1) / 2) (dec 15 1 + (3 - 1) / 2 - 1))).
  { replace (dec 15 1 + (3 - 1) / 2) with (dec 25 1) by (unfold dec; lra).
    replace (dec 25 1 - 1) with (dec 15 1) by (unfold dec; lra). exact HR. }
  destruct (rootsu_increasing jac n 3 Hn HR') as (HP & HI).
  destruct (symm_exact n (rootsu jac n 3) (increasing_distinct _ _ HI) 3 f) as (f' & f'' & D1 & D2 & E).
  { intros i Hi. apply HP, Hi. }
  exists f', f''. split; [exact D1|]. split; [exact D2|]. intros i Hi. destruct (E i Hi) as (_ & E2).
  assert (G : forall j, radius j = sqrt (rootsu jac n 3 j)) by (intros j; rewrite <- r_grid_r_eq; reflexivity).
  rewrite !G. replace (2 / sqrt (rootsu jac n 3 i)) with ((3 - 1) / sqrt (rootsu jac n 3 i)) by (f_equal; ring).
  rewrite <- E2. unfold apply_row. apply rsum_ext. intros j Hj. rewrite G. f_equal.
  cbn [r_operators Br]. replace (r_grid_r jac n) with (rootsu jac n 3); [apply r_B_sym_eq|].
  apply FunctionalExtensionality.functional_extensionality. intros k. symmetry. apply r_grid_r_eq.
Qed.
Theorem C122_weights : forall jacobi nr nz, (1 <= nr)%nat -> interior_roots (nr - 1) (jacobi (nr - 1)%nat (dec 25 1) (dec 15 1)) ->
  (forall i, (i < nr)%nat -> 0 < Wr (r_operators jacobi nr nz) i) /\ rsum nr (Wr (r_operators jacobi nr nz)) = 1 / 3.
Proof.
  intros jac n nz Hn HR.
  assert (HR' : interior_roots (n - 1) (jac (n - 1)%nat (dec 15 1 + (3 - 1) / 2) (dec 15 1 + (3 - 1) / 2 - 1))).
  { replace (dec 15 1 + (3 - 1) / 2) with (dec 25 1) by (unfold dec; lra).
    replace (dec 25 1 - 1) with (dec 15 1) by (unfold dec; lra). exact HR. }
  destruct (rootsu_increasing jac n 3 Hn HR') as (HP & HI).
  assert (EG : r_grid_r jac n = rootsu jac n 3).
  { apply FunctionalExtensionality.functional_extensionality. intros i. apply r_grid_r_eq. }
  cbn [r_operators Wr]. rewrite EG.
  destruct (C25_weights n (rootsu jac n 3) 3 ltac:(lia) ltac:(lra) (increasing_distinct _ _ HI) ltac:(intros i Hi; apply HP, Hi)) as (W1 & W2).
  split.
  - intros i Hi. rewrite r_W_eq. apply W1, Hi.
  - specialize (W2 1). rewrite (rsum_ext n (r_W n (rootsu jac n 3)) (fun i => Wx n (rootsu jac n 3) 3 i * 1)); [lra|].
    intros i _. rewrite r_W_eq. ring.
Qed.

(** ** C123 — the application's model is the packaged one *)

(** The package's rate at the same place of the same state, in seconds: its array has the
    liquid first and then the points of the bead. *)
Definition package_rate (psdm : bool) (c : column) (op : operators) (Cin : nat -> R) (x : r_state) (r i z : nat) : R :=
  let u : state := fun r i z => match r with O => x (nr c) i z | S k => x k i z end in
  rhs psdm c op 1 Cin u (if Nat.eqb r (nr c) then 0%nat else S r) i z.

(** When all the ions but the presaturant share their diffusivities. *)
Theorem C123_same_rates_partial : forall psdm c op Cin x dx D P, r_diffun psdm c op Cin x = Ok dx ->
  (forall k, (1 <= k < NION c)%nat -> Ds c k = D) ->
  (psdm = true -> forall k, (1 <= k < NION c)%nat -> Dp c k = P) ->
  forall r i z, (r <= nr c)%nat -> (i < NION c)%nat -> (1 <= z < nz c)%nat ->
  dx r i z = package_rate psdm c op Cin x r i z.
Proof.
  intros psdm c op Cin x dx D P H HD HP r i z Hr Hi Hz. unfold r_diffun in H. destruct (r_shapes c) eqn:Sh; [|discriminate].
  unfold r_shapes in Sh. rewrite !andb_true_iff in Sh. destruct Sh as (((S1 & S2) & S3) & _).
  apply Nat.leb_le in S1, S2, S3.
  assert (E : (if psdm then r_psdm c op Cin x else r_hsdm c op Cin x) = dx) by congruence. rewrite <- E.
  unfold package_rate. change (fun r i z => match r with O => x (nr c) i z | S k => x k i z end) with (as_py c x).
  apply (r_same c op Cin x psdm D P); try assumption; lia.
Qed.

(** The liquid and the bead surfaces see the same film flux whatever the diffusivities: the
    liquid's rates always agree. *)
Theorem C123_liquid_rates_partial : forall psdm c op Cin x dx, r_diffun psdm c op Cin x = Ok dx ->
  forall i z, (i < NION c)%nat -> (1 <= z < nz c)%nat ->
  dx (nr c) i z = package_rate psdm c op Cin x (nr c) i z.
Proof.
  intros psdm c op Cin x dx H i z Hi Hz. unfold r_diffun in H. destruct (r_shapes c) eqn:Sh; [|discriminate].
  unfold r_shapes in Sh. rewrite !andb_true_iff in Sh. destruct Sh as (((S1 & S2) & S3) & _).
  apply Nat.leb_le in S1, S2, S3.
  assert (E : (if psdm then r_psdm c op Cin x else r_hsdm c op Cin x) = dx) by congruence. rewrite <- E.
  unfold package_rate. change (fun r i z => match r with O => x (nr c) i z | S k => x k i z end) with (as_py c x).
  rewrite Nat.eqb_refl.
  set (c0 := {| NION := NION c; nr := nr c; nz := nz c; EBED := EBED c; EPOR := EPOR c; Lbed := Lbed c; vel := vel c; rb := rb c; Qcap := Qcap c;
     kL := kL c; Ds := fun _ => 0; Dp := fun _ => 0; Kxc := Kxc c; val := val c |}).
  assert (X := r_same c0 op Cin x psdm 0 0 (nr c) i z).
  cbn [NION nr c0] in X. specialize (X ltac:(lia) ltac:(lia) ltac:(reflexivity) ltac:(reflexivity) ltac:(lia) ltac:(lia) ltac:(lia)).
  rewrite Nat.eqb_refl in X.
  assert (EL : (if psdm then r_psdm c op Cin x else r_hsdm c op Cin x) (nr c) i z = (if psdm then r_psdm c0 op Cin x else r_hsdm c0 op Cin x) (nr c) i z).
  { destruct psdm; unfold r_psdm, r_hsdm, r_assemble; cbn [nr c0]; rewrite Nat.eqb_refl; reflexivity. }
  rewrite EL, X. destruct psdm; reflexivity.
Qed.

(** Both start from the same state: presaturated beads, and a liquid of presaturant. *)
Theorem C123_same_start_partial : forall c Cin r i z, (r <= nr c)%nat ->
  r_initial c Cin r i z = initial_state c Cin None (if Nat.eqb r (nr c) then 0%nat else S r) i z.
Proof.
  intros c Cin r i z Hr. unfold r_initial, initial_state. destruct (Nat.eqb r (nr c)); reflexivity.
Qed.

(** What the application computes inside the beads: the diffusivity of ion [i] at radial point
    [r] is that of ion 1 + ((r + nr (i - 1)) mod (NION - 1)). *)
Theorem C123_diffusivity_used_partial : forall c op Cin x dx, r_diffun false c op Cin x = Ok dx ->
  forall r i z, (r < nr c - 1)%nat -> (1 <= i < NION c)%nat -> (1 <= z < nz c)%nat ->
  dx r i z = Ds c (1 + (r + nr c * (i - 1)) mod (NION c - 1))%nat / rb c ^ 2 * rsum (nr c) (fun m => Br op r m * x m i z).
Proof.
  intros c op Cin x dx H r i z Hr Hi Hz. unfold r_diffun in H. destruct (r_shapes c) eqn:Sh; [|discriminate].
  assert (E : r_hsdm c op Cin x = dx) by congruence. rewrite <- E. unfold r_hsdm, r_assemble.
  destruct (Nat.eqb_spec z 0); [lia|]. destruct (Nat.eqb_spec r (nr c)); [lia|]. destruct (Nat.eqb_spec r (nr c - 1)); [lia|].
  unfold r_hsdm_dq, r_balance. destruct (Nat.eqb_spec i 0); [lia|]. rewrite recycle_point, r_apply_eq by lia.
  cbn [Nat.add]. unfold Rdiv. ring.
Qed.

(** The rates differ for every column with more than one diffusivity: whenever the first two
    ions after the presaturant diffuse differently there is a state where they do. *)
Theorem C123_rates_refuted : forall jacobi c Cin, (exists x dx, r_diffun false c (r_operators jacobi (nr c) (nz c)) Cin x = Ok dx) -> (3 <= nr c)%nat -> rb c <> 0 ->
  interior_roots (nr c - 1) (jacobi (nr c - 1)%nat (dec 25 1) (dec 15 1)) -> Ds c 1 <> Ds c 2 ->
  let op := r_operators jacobi (nr c) (nz c) in
  exists x dx, r_diffun false c op Cin x = Ok dx /\ dx 1%nat 1%nat 1%nat <> package_rate false c op Cin x 1 1 1.
Proof.
  intros jac c Cin (x0 & dx0 & R0) Hn Hrb HR HD op. assert (Sh : r_shapes c = true) by (unfold r_diffun in R0; destruct (r_shapes c); [reflexivity|discriminate]). clear x0 dx0 R0.
  assert (Sh' := Sh). unfold r_shapes in Sh'. rewrite !andb_true_iff in Sh'. destruct Sh' as (((S1 & S2) & S3) & _).
  apply Nat.leb_le in S1, S2, S3.
  set (x := (fun m i z => rootsu jac (nr c) 3 m) : r_state).
  exists x, (r_hsdm c op Cin x). assert (E0 : r_diffun false c op Cin x = Ok (r_hsdm c op Cin x)) by (unfold r_diffun; rewrite Sh; reflexivity).
  split; [exact E0|]. rewrite (C123_diffusivity_used_partial c op Cin x _ E0) by lia.
  unfold package_rate, rhs, diffun_hsdm, assemble. destruct (Nat.eqb_spec 1 (nr c)); [lia|].
  destruct (Nat.eqb_spec 1 (nr c - 1)); [lia|]. unfold hsdm_dq, implicit_presat. cbn [Nat.eqb].
  replace (1 + (1 + nr c * (1 - 1)) mod (NION c - 1))%nat with 2%nat by (rewrite Nat.mul_0_r, Nat.mod_small by lia; reflexivity).
  set (s := rsum (nr c) (fun m => Br op 1%nat m * x m 1%nat 1%nat)).
  assert (Es : s = 6).
  { assert (HR' : interior_roots (nr c - 1) (jac (nr c - 1)%nat (dec 15 1 + (3 - 1) / 2) (dec 15 1 + (3 - 1) / 2 - 1))).
    { replace (dec 15 1 + (3 - 1) / 2) with (dec 25 1) by (unfold dec; lra).
      replace (dec 25 1 - 1) with (dec 15 1) by (unfold dec; lra). exact HR. }
    destruct (rootsu_increasing jac (nr c) 3 ltac:(lia) HR') as (HP & HI).
    assert (HDi := increasing_distinct _ _ HI). set (w := rootsu jac (nr c) 3) in *.
    assert (EG : r_grid_r jac (nr c) = w).
    { apply FunctionalExtensionality.functional_extensionality. intros k. apply r_grid_r_eq. }
    assert (EA := A_exact_list (nr c) w HDi [0; 1] 1%nat). assert (EB := B_exact_list (nr c) w HDi [0; 1] 1%nat).
    cbn in EA, EB. unfold apply_row in EA, EB.
    specialize (EA ltac:(lia) ltac:(lia)). specialize (EB ltac:(lia) ltac:(lia)).
    unfold s, op. cbn [r_operators Br]. rewrite EG.
    rewrite (rsum_ext (nr c) _ (fun j => 4 * w 1%nat * (Bmat (nr c) w 1%nat j * (0 + w j * (1 + w j * 0))) + 6 * (Amat (nr c) w 1%nat j * (0 + w j * (1 + w j * 0))))).
    - rewrite rsum_plus, !rsum_scal. rewrite EA, EB. ring.
    - intros j Hj. rewrite r_B_sym_eq. unfold Bx, x. fold w. ring. }
  change (rsum (nr c) (fun m => Br op 1%nat m * match S m with O => x (nr c) 1%nat 1%nat | S k => x k 1%nat 1%nat end)) with s.
  rewrite Es. intros Q. apply HD. apply (Rmult_eq_reg_r (6 / rb c ^ 2)).
  - transitivity (Ds c 1 * 1 / rb c ^ 2 * 6); [unfold Rdiv; ring|]. rewrite <- Q. unfold Rdiv. ring.
  - apply Rmult_integral_contrapositive_currified; [lra|]. apply Rinv_neq_0_compat, pow_nonzero, Hrb.
Qed.

(** Ion sheets the package accepts and the application stops on: two ions, two divalent ions,
    or a divalent ion beside exactly one other monovalent ion. *)
Theorem C123_sheets_refuted : forall psdm c op Cin x,
  NION c = 2%nat \/
  (NION c = 3%nat /\ val c 0 = 1%nat /\ val c 1 = 1%nat /\ val c 2 = 2%nat) \/
  (NION c = 5%nat /\ val c 0 = 1%nat /\ val c 1 = 1%nat /\ val c 2 = 1%nat /\ val c 3 = 2%nat /\ val c 4 = 2%nat) ->
  r_diffun psdm c op Cin x = Err ValueError.
Proof.
  intros psdm c op Cin x H. unfold r_diffun. replace (r_shapes c) with false; [reflexivity|].
  symmetry. unfold r_shapes. destruct H as [H|[(H & V0 & V1 & V2)|(H & V0 & V1 & V2 & V3 & V4)]]; rewrite H; [reflexivity| |].
  - rewrite !andb_false_iff. right. unfold has_divalent, count, mv_idx, dv_idx. cbn. rewrite V0, V1, V2. reflexivity.
  - rewrite !andb_false_iff. right. unfold has_divalent, count, mv_idx, dv_idx. cbn. rewrite V0, V1, V2, V3, V4. reflexivity.
Qed.

(** Grids the application stops on. *)
Theorem C123_grids_refuted : forall psdm c op Cin x, (nz c <= 2)%nat \/ (nr c <= 1)%nat -> r_diffun psdm c op Cin x = Err ValueError.
Proof.
  intros psdm c op Cin x H. unfold r_diffun. replace (r_shapes c) with false; [reflexivity|]. symmetry. unfold r_shapes. rewrite !andb_false_iff.
  destruct H as [H|H]; left; [left; right|right]; apply Nat.leb_gt; lia.
Qed.
Lemma count_S n m : count (S n) m = (count n m + if m n then 1 else 0)%nat.
Proof. unfold count. rewrite seq_S, filter_app, app_length. cbn. destruct (m n); reflexivity. Qed.
Lemma count_ions n z : z 0%nat = 1%nat -> (forall i, (i < S n)%nat -> z i = 1%nat \/ z i = 2%nat) -> (count (S n) (mv_idx z) + count (S n) (dv_idx z) = n)%nat.
Proof.
  intros Z0. induction n as [|n IH]; intros Z.
  - rewrite !count_S. unfold mv_idx, dv_idx. rewrite Z0. reflexivity.
  - rewrite !(count_S (S n)). specialize (IH ltac:(intros i Hi; apply Z; lia)). remember (count (S n) (mv_idx z)) as a. remember (count (S n) (dv_idx z)) as b. unfold mv_idx, dv_idx. destruct (Z (S n) ltac:(lia)) as [->| ->]; cbn; lia.
Qed.
Lemma count_0 n m : count n m = 0%nat <-> forall i, (i < n)%nat -> m i = false.
Proof.
  induction n as [|n IH]; [split; [intros _ i Hi; lia|reflexivity]|]. rewrite count_S. split.
  - intros H i Hi. destruct (Nat.eq_dec i n) as [->|Hn]; [destruct (m n); [lia|reflexivity]|]. apply IH; lia.
  - intros H. rewrite (proj2 IH) by (intros; apply H; lia). rewrite H by lia. reflexivity.
Qed.
Lemma count_1 n m : count n m = 1%nat <-> exists k, (k < n)%nat /\ m k = true /\ forall j, (j < n)%nat -> m j = true -> j = k.
Proof.
  induction n as [|n IH]; [split; [discriminate|intros (k & Hk & _); lia]|]. rewrite count_S. split.
  - intros H. destruct (m n) eqn:E.
    + exists n. split; [lia|]. split; [exact E|]. intros j Hj Mj. destruct (Nat.eq_dec j n) as [->|Hn]; [reflexivity|].
      rewrite (proj1 (count_0 n m) ltac:(lia) j ltac:(lia)) in Mj. discriminate.
    + destruct (proj1 IH ltac:(lia)) as (k & Hk & Mk & U). exists k. split; [lia|]. split; [exact Mk|]. intros j Hj Mj.
      destruct (Nat.eq_dec j n) as [->|Hn]; [congruence|]. apply U; [lia|exact Mj].
  - intros (k & Hk & Mk & U). destruct (Nat.eq_dec k n) as [->|Hn].
    + rewrite Mk. rewrite (proj2 (count_0 n m)); [reflexivity|]. intros i Hi. destruct (m i) eqn:E; [|reflexivity]. specialize (U i ltac:(lia) E). lia.
    + destruct (m n) eqn:E; [specialize (U n ltac:(lia) E); lia|]. rewrite (proj2 IH); [reflexivity|]. exists k. split; [lia|]. split; [exact Mk|]. intros j Hj. apply U. lia.
Qed.
(** Exactly the sheets and grids that it can run: no divalent ion among at least three, or a single
    one among at least four. *)
Theorem C123_runs_partial : forall psdm c op Cin x, mono_or_divalent (NION c) (val c) ->
  (exists dx, r_diffun psdm c op Cin x = Ok dx) <->
  (3 <= nz c)%nat /\ (2 <= nr c)%nat /\
  (((3 <= NION c)%nat /\ forall i, (i < NION c)%nat -> val c i = 1%nat) \/
   ((4 <= NION c)%nat /\ exists k, (k < NION c)%nat /\ val c k = 2%nat /\ forall j, (j < NION c)%nat -> val c j = 2%nat -> j = k)).
Proof.
  intros psdm c op Cin x (Z0 & Z). unfold r_diffun.
  enough (Q : r_shapes c = true <-> (3 <= nz c)%nat /\ (2 <= nr c)%nat /\
  (((3 <= NION c)%nat /\ forall i, (i < NION c)%nat -> val c i = 1%nat) \/
   ((4 <= NION c)%nat /\ exists k, (k < NION c)%nat /\ val c k = 2%nat /\ forall j, (j < NION c)%nat -> val c j = 2%nat -> j = k))).
  { rewrite <- Q. destruct (r_shapes c); split; [reflexivity|eexists; reflexivity|intros (dx & H); discriminate|discriminate]. }
  assert (D0 : negb (has_divalent (NION c) (val c)) = true <-> forall i, (i < NION c)%nat -> val c i = 1%nat).
  { rewrite negb_true_iff, <- not_true_iff_false. unfold has_divalent. rewrite existsb_exists. split.
    - intros H i Hi. destruct (Z i Hi) as [E|E]; [exact E|]. exfalso. apply H. exists i. split; [apply in_seq; lia|]. unfold dv_idx. rewrite E. reflexivity.
    - intros H (i & I & E). apply in_seq in I. unfold dv_idx in E. rewrite H in E by lia. discriminate. }
  assert (D1 : count (NION c) (dv_idx (val c)) = 1%nat <-> exists k, (k < NION c)%nat /\ val c k = 2%nat /\ forall j, (j < NION c)%nat -> val c j = 2%nat -> j = k).
  { rewrite count_1. unfold dv_idx. split; intros (k & Hk & Mk & U); exists k; (split; [exact Hk|]).
    - apply Nat.eqb_eq in Mk. split; [exact Mk|]. intros j Hj E. apply U; [exact Hj|]. apply Nat.eqb_eq, E.
    - split; [apply Nat.eqb_eq, Mk|]. intros j Hj E. apply Nat.eqb_eq in E. apply U; assumption. }
  assert (CC : (3 <= NION c)%nat -> (count (NION c) (mv_idx (val c)) + count (NION c) (dv_idx (val c)) = NION c - 1)%nat).
  { intros H. destruct (NION c) as [|n] eqn:En; [lia|]. rewrite count_ions; [lia|exact Z0|exact Z]. }
  unfold r_shapes. rewrite !andb_true_iff, orb_true_iff, andb_true_iff, D0, negb_true_iff, !Nat.leb_le, Nat.eqb_neq, Nat.eqb_eq, D1. split.
  - intros (((H1 & H2) & H3) & H4). split; [exact H2|]. split; [exact H3|]. destruct H4 as [H4|(H4 & H5)]; [left; split; assumption|right].
    split; [|exact H5]. apply D1 in H5. specialize (CC H1). lia.
  - intros (H2 & H3 & [(H1 & H4)|(H1 & H4)]).
    + repeat split; try assumption. left. exact H4.
    + repeat split; try assumption; [lia|]. right. split; [|exact H4]. apply D1 in H4. specialize (CC ltac:(lia)). lia.
Qed.

(** ** C124 — exchange on the application's resin is neutral and conserves every ion *)
Theorem C124_resin_rates_sum_to_zero : forall psdm c op Cin x dx, r_diffun psdm c op Cin x = Ok dx ->
  forall r z, (r < nr c)%nat -> rsum (NION c) (fun i => dx r i z) = 0.
Proof.
  intros psdm c op Cin x dx H r z Hr. unfold r_diffun in H. destruct (r_shapes c) eqn:Sh; [|discriminate].
  unfold r_shapes in Sh. rewrite !andb_true_iff in Sh. destruct Sh as (((S1 & S2) & S3) & _). apply Nat.leb_le in S1.
  assert (E : (if psdm then r_psdm c op Cin x else r_hsdm c op Cin x) = dx) by congruence. rewrite <- E.
  destruct psdm.
  - apply (r_neutral c op Cin x (fun z j => r_q c x (nr c - 1)%nat j z)); lia.
  - apply (r_neutral c op Cin x (fun z j => x (nr c - 1)%nat j z)); lia.
Qed.

Theorem C124_resin_total_is_capacity : forall psdm c op Cin rates Tf x,
  (forall T y, r_diffun psdm c op (Cin T) y = Ok (rates T y)) ->
  is_trajectory (nr c) (NION c) (nz c) rates Tf x -> x 0 = r_initial c (Cin 0) ->
  forall T, 0 <= T <= Tf -> forall r z, (r < nr c)%nat -> (z < nz c)%nat ->
  rsum (NION c) (fun i => x T r i z) = Qcap c.
Proof.
  intros psdm c op Cin rates Tf x HR HT H0 T Ht r z Hr Hz.
  assert (Y := evolves_rsum 0 Tf (NION c) (fun i T => x T r i z) (fun i T => rates T (x T) r i z) ltac:(intros i Hi; apply HT; lia)).
  assert (E : rsum (NION c) (fun i => x T r i z) = rsum (NION c) (fun i => x 0 r i z)).
  { apply (evolves_zero 0 Tf _ _ Y); [|exact Ht]. intros t _. apply (C124_resin_rates_sum_to_zero psdm c op (Cin t) (x t) _ (HR t (x t))). exact Hr. }
  rewrite E, H0. unfold r_initial.
  assert (HN : (0 < NION c)%nat).
  { specialize (HR 0 (x 0)). unfold r_diffun in HR. destruct (r_shapes c) eqn:Sh; [|discriminate].
    unfold r_shapes in Sh. rewrite !andb_true_iff in Sh. destruct Sh as (((S1 & _) & _) & _). apply Nat.leb_le in S1. lia. }
  destruct (Nat.eqb_spec r (nr c)); [lia|]. rewrite (rsum_single _ _ 0%nat HN); [reflexivity|].
  intros i Hi Hn. rewrite (proj2 (Nat.eqb_neq i 0) Hn). reflexivity.
Qed.

(** Hence the application's check of the resin totals accepts every exact run; in particular it
    cannot notice that diffusivities were exchanged (C123_diffusivity_used_partial). *)
Theorem C124_check_accepts : forall psdm c op Cin rates Tf x,
  (forall T y, r_diffun psdm c op (Cin T) y = Ok (rates T y)) ->
  is_trajectory (nr c) (NION c) (nz c) rates Tf x -> x 0 = r_initial c (Cin 0) -> 0 <= Tf ->
  r_result c (x Tf) x = x.
Proof.
  intros psdm c op Cin rates Tf x HR HT H0 Hf.
  assert (X := C124_resin_total_is_capacity psdm c op Cin rates Tf x HR HT H0 Tf ltac:(lra)).
  specialize (HR 0 (x 0)). unfold r_diffun in HR. destruct (r_shapes c) eqn:Sh; [|discriminate].
  unfold r_shapes in Sh. rewrite !andb_true_iff in Sh. destruct Sh as (((S1 & S2) & S3) & _). apply Nat.leb_le in S1, S2, S3.
  unfold r_result. rewrite !X by lia. rewrite (proj2 (reqb_true (Qcap c) (Qcap c)) eq_refl). reflexivity.
Qed.

(** What the liquid of a slice loses its beads gain: only advection changes the amount of an
    ion in it, whatever the diffusivities used inside the beads. *)
Theorem C124_slice_balance : forall psdm c op Cin x dx, r_diffun psdm c op Cin x = Ok dx ->
  Wr op (nr c - 1) <> 0 -> EBED c <> 0 -> rb c <> 0 ->
  forall i z, (i < NION c)%nat -> (1 <= z < nz c)%nat ->
  let C i j := if Nat.eqb j 0 then Cin i else x (nr c) i j in
  EBED c * dx (nr c) i z + (1 - EBED c) * bead_average (nr c) (Wr op) (fun m => dx m i z)
  = - (vel c / Lbed c) * rsum (nz c) (fun j => Az op z j * C i j).
Proof.
  intros psdm c op Cin x dx H HW HE Hb i z Hi Hz C. unfold r_diffun in H. destruct (r_shapes c) eqn:Sh; [|discriminate].
  unfold r_shapes in Sh. rewrite !andb_true_iff in Sh. destruct Sh as (((S1 & S2) & S3) & _). apply Nat.leb_le in S1, S2, S3.
  assert (E : (if psdm then r_psdm c op Cin x else r_hsdm c op Cin x) = dx) by congruence. rewrite <- E.
  unfold bead_average. destruct psdm; apply r_slice; try assumption; lia.
Qed.

(** An ion sheet and grid that meet the hypotheses: sodium as presaturant, two monovalent ions
    and one divalent ion. *)
Definition ex_r (d1 d2 d3 : R) : column :=
  {| NION := 4; nr := 7; nz := 13; EBED := 35 / 100; EPOR := 2 / 10; Lbed := 15; vel := 1 / 10; rb := 3 / 100; Qcap := 1400;
     kL := fun _ => 1 / 1000; Ds := fun i => match i with 1 => d1 | 2 => d2 | _ => d3 end%nat; Dp := fun _ => 1 / 100000;
     Kxc := fun i => match i with 2%nat => 4 | _ => 1 end; val := fun i => match i with 3 => 2 | _ => 1 end%nat |}.
Example ex_r_rates : forall psdm d1 d2 d3 op Cin x, exists dx, r_diffun psdm (ex_r d1 d2 d3) op Cin x = Ok dx.
Proof. intros. eexists. reflexivity. Qed.
Example ex_r_grid : interior_roots 6 (fun i => (INR i + 1) / 10).
Proof.
  split.
  - intros i Hi. assert (L := lt_INR i 6 Hi). assert (P := pos_INR i). cbn in L. lra.
  - intros i j Hij _. assert (L := lt_INR i j Hij). lra.
Qed.
Example ex_r_refuted : forall jacobi Cin, interior_roots 6 (jacobi 6%nat (dec 25 1) (dec 15 1)) ->
  let c := ex_r 1 2 3 in exists x dx, r_diffun false c (r_operators jacobi 7 13) Cin x = Ok dx
  /\ dx 1%nat 1%nat 1%nat <> package_rate false c (r_operators jacobi 7 13) Cin x 1 1 1.
Proof. intros jac Cin HR c. apply (C123_rates_refuted jac c Cin); [exists (fun _ _ _ => 0); eexists; reflexivity| | | |]; cbn; [lia|lra|exact HR|lra]. Qed.

Print Assumptions C122_same_operators.
Print Assumptions C122_axial_exact.
Print Assumptions C122_radial_exact.
Print Assumptions C122_weights.
Print Assumptions C123_same_rates_partial.
Print Assumptions C123_liquid_rates_partial.
Print Assumptions C123_same_start_partial.
Print Assumptions C123_diffusivity_used_partial.
Print Assumptions C123_rates_refuted.
Print Assumptions C123_sheets_refuted.
Print Assumptions C123_grids_refuted.
Print Assumptions C123_runs_partial.
Print Assumptions C124_resin_rates_sum_to_zero.
Print Assumptions C124_resin_total_is_capacity.
Print Assumptions C124_check_accepts.
Print Assumptions C124_slice_balance.
