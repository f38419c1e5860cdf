(** Properties C154 and C155: the list of ions or compounds.  Its order does not matter, and an
    entry that is nowhere present changes nothing. *)
From Coq Require Import Reals List Arith Bool Lra Lia Permutation.
From Verif Require Import Lib_Py Lib_Sum Lib_Pow Lib_Traj S_Order P_Order M_Colloc S_Colloc M_IxEq S_IxEq M_IxColumn S_IxColumn P_IxColumn
  M_IxBatch S_IxBatch M_GacFun P_GacFun M_GacColumn S_GacColumn P_GacColumn Props_IxColumn Props_IxBatch Props_GacColumn Props_GacCapacity.
Import ListNotations.
Open Scope R_scope.
Local Notation length := List.length.

(** ** C154 — ion-exchange columns *)

(** The sheet with the rows listed in another order; the presaturant stays first. *)
Definition reordered (p : nat -> nat) (c : column) : column :=
  {| NION := NION c; nr := nr c; nz := nz c; EBED := EBED c; EPOR := EPOR c; Lbed := Lbed c; vel := vel c;
     rb := rb c; Qcap := Qcap c; kL := fun i => kL c (p i); Ds := fun i => Ds c (p i); Dp := fun i => Dp c (p i);
     Kxc := fun i => Kxc c (p i); val := fun i => val c (p i) |}.
Definition reordered_state (p : nat -> nat) (u : state) : state := fun r i z => u r (p i) z.

Section Ix.
Variables (p : nat -> nat) (c : column).
Hypothesis HN : (0 < NION c)%nat.
Hypothesis Hp : relabelling (NION c) p.
Hypothesis H0 : p 0%nat = 0%nat.
Let c' := reordered p c.

Lemma p_zero i : (i < NION c)%nat -> Nat.eqb (p i) 0 = Nat.eqb i 0.
Proof.
  intros Hi. destruct (Nat.eqb_spec i 0) as [->|N]; [rewrite H0; reflexivity|].
  apply Nat.eqb_neq. intros E. apply N. apply (proj2 Hp); [exact Hi|exact HN|]. rewrite E, H0. reflexivity.
Qed.
Lemma presat_order f i : (i < NION c)%nat -> implicit_presat c' (fun j => f (p j)) i = implicit_presat c f (p i).
Proof.
  intros Hi. unfold implicit_presat. cbn [NION c' reordered]. rewrite p_zero by exact Hi.
  destruct (Nat.eqb i 0); [|reflexivity]. f_equal.
  rewrite (presat_sum _ (fun j => f (p j))), (presat_sum _ f) by exact HN. rewrite rsum_relabel by exact Hp. rewrite H0. reflexivity.
Qed.
Lemma Ceq_order q CT i : (i < NION c)%nat ->
  calc_Ceq (NION c) (Kxc c') (val c') (fun j => q (p j)) CT i = calc_Ceq (NION c) (Kxc c) (val c) q CT (p i).
Proof.
  intros Hi. unfold calc_Ceq, has_divalent.
  assert (E : existsb (dv_idx (val c')) (seq 0 (NION c)) = existsb (dv_idx (val c)) (seq 0 (NION c))).
  { rewrite <- (existsb_relabel _ p (dv_idx (val c)) Hp). reflexivity. }
  rewrite E. destruct (existsb (dv_idx (val c)) (seq 0 (NION c))).
  - unfold Ceq_dv, mass_action. rewrite p_zero by exact Hi.
    assert (EC : Cc_column (NION c) (Kxc c') (val c') (fun j => q (p j)) CT = Cc_column (NION c) (Kxc c) (val c) q CT).
    { unfold Cc_column.
      assert (Ea : eq_aa (NION c) (Kxc c') (val c') (fun j => q (p j)) = eq_aa (NION c) (Kxc c) (val c) q).
      { unfold eq_aa, masked_sum. rewrite H0. f_equal.
        rewrite <- (rsum_relabel _ p (fun i => if dv_idx (val c) i then q i / Kxc c i else 0) Hp). reflexivity. }
      assert (Eb : eq_bb (NION c) (Kxc c') (val c') (fun j => q (p j)) = eq_bb (NION c) (Kxc c) (val c) q).
      { unfold eq_bb, masked_sum. rewrite H0. do 2 f_equal.
        rewrite <- (rsum_relabel _ p (fun i => if mv_idx (val c) i then q i / Kxc c i else 0) Hp).
        apply rsum_ext. intros j Hj. unfold mv_idx. rewrite p_zero by exact Hj. reflexivity. }
      rewrite Ea, Eb. reflexivity. }
    rewrite EC, H0. reflexivity.
  - unfold Ceq_mv. f_equal. rewrite <- (rsum_relabel _ p (fun j => alpha (Kxc c) (p i) j * q j) Hp). reflexivity.
Qed.
Lemma CTz_order Cin u z : CTz c' (fun i => Cin (p i)) (reordered_state p u) z = CTz c Cin u z.
Proof.
  unfold CTz. cbn [NION c' reordered]. rewrite <- (rsum_relabel _ p (fun i => liq Cin u i z) Hp). reflexivity.
Qed.
Lemma flux_order Cin u qs i z : (i < NION c)%nat ->
  flux c' (fun i => Cin (p i)) (reordered_state p u) (fun j => qs (p j)) i z = flux c Cin u qs (p i) z.
Proof.
  intros Hi. unfold flux.
  rewrite <- (presat_order (fun i => - kL c i * (liq Cin u i z - calc_Ceq (NION c) (Kxc c) (val c) qs (CTz c Cin u z) i)) i Hi).
  apply implicit_ext; [|exact Hi]. intros j Hj. cbn [kL NION c' reordered]. do 2 f_equal.
  rewrite CTz_order. apply Ceq_order, Hj.
Qed.
Lemma assemble_order op th Cin u J J' dq dq' r i z :
  J' i z = J (p i) z -> (forall m, dq' m i z = dq m (p i) z) ->
  assemble c' op th (fun i => Cin (p i)) (reordered_state p u) J' dq' r i z = assemble c op th Cin u J dq r (p i) z.
Proof.
  intros EJ Ed. destruct r as [|k]; cbn [assemble].
  - destruct (Nat.eqb z 0); [reflexivity|]. unfold dC. rewrite EJ. reflexivity.
  - cbn [nr rb c' reordered]. destruct (Nat.eqb k (nr c - 1)); [|apply Ed].
    rewrite EJ. do 2 f_equal. apply rsum_ext. intros m _. rewrite Ed. reflexivity.
Qed.
Lemma rhs_order psdm op th Cin u r i z : (i < NION c)%nat ->
  rhs psdm c' op th (fun i => Cin (p i)) (reordered_state p u) r i z = rhs psdm c op th Cin u r (p i) z.
Proof.
  intros Hi. destruct psdm; cbn [rhs]; apply assemble_order.
  - apply (flux_order Cin u (fun i => u (nr c) i z / (1 - EPOR c)) i z Hi).
  - intros m. unfold psdm_dY.
    rewrite <- (presat_order (fun i => th * (EPOR c * (Dp c i - Ds c i) * rsum (nr c) (fun k => Br op m k * psdm_Cpore c Cin u k i z)
       + Ds c i * rsum (nr c) (fun k => Br op m k * u (S k) i z)) / rb c ^ 2) i Hi).
    apply implicit_ext; [|exact Hi]. intros j Hj. cbn [c' reordered EPOR Dp Ds rb nr]. do 4 f_equal.
    apply rsum_ext. intros k _. f_equal. unfold psdm_Cpore. rewrite CTz_order.
    apply (Ceq_order (fun i => psdm_q c u k i z) (CTz c Cin u z) j Hj).
  - apply (flux_order Cin u (fun i => u (nr c) i z) i z Hi).
  - intros m. unfold hsdm_dq. apply (presat_order (fun i => Ds c i * th / rb c ^ 2 * rsum (nr c) (fun k => Br op m k * u (S k) i z)) i Hi).
Qed.
End Ix.

(** Every run of the column is, listed in the other order, a run of the reordered one: the same
    equations and the same start. *)
Theorem C154_ion_exchange : forall psdm c p op th Cin Tf y, (0 < NION c)%nat -> relabelling (NION c) p -> p 0%nat = 0%nat ->
  is_trajectory (nr c) (NION c) (nz c) (fun T => rhs psdm c op th (Cin T)) Tf y ->
  is_trajectory (nr c) (NION c) (nz c) (fun T => rhs psdm (reordered p c) op th (fun i => Cin T (p i))) Tf (fun T => reordered_state p (y T)).
Proof.
  intros psdm c p op th Cin Tf y HN Hp H0 H r i z Hr Hi Hz.
  eapply evolves_ext; [intros; reflexivity| |exact (H r (p i) z Hr (proj1 Hp i Hi) Hz)].
  intros T _. cbv beta. symmetry. apply rhs_order; assumption.
Qed.
Theorem C154_ion_exchange_start : forall c p Cin u_init r i z, (0 < NION c)%nat -> relabelling (NION c) p -> p 0%nat = 0%nat -> (i < NION c)%nat ->
  initial_state (reordered p c) (fun i => Cin (p i)) (option_map (reordered_state p) u_init) r i z = initial_state c Cin u_init r (p i) z.
Proof.
  intros c p Cin u_init r i z HN Hp H0 Hi.
  assert (B : forall r z, (match r with O => if Nat.eqb z 0 then Cin (p i) else if Nat.eqb i 0 then rsum (NION c) (fun i => Cin (p i)) else 0
                           | S _ => if Nat.eqb i 0 then Qcap c else 0 end : R)
                         = match r with O => if Nat.eqb z 0 then Cin (p i) else if Nat.eqb (p i) 0 then rsum (NION c) Cin else 0
                           | S _ => if Nat.eqb (p i) 0 then Qcap c else 0 end).
  { intros r' z'. rewrite (p_zero p c HN Hp H0 i Hi), rsum_relabel by exact Hp. reflexivity. }
  unfold initial_state. cbn [NION nr nz Qcap reordered].
  destruct u_init as [a|]; cbn [option_map]; [|apply B].
  assert (E : np_any3 (nr c + 1) (NION c) (nz c) (reordered_state p a) = np_any3 (nr c + 1) (NION c) (nz c) a).
  { unfold np_any3. generalize (seq 0 (nr c + 1)). induction l as [|x l IH]; [reflexivity|]. cbn [existsb]. rewrite IH. f_equal.
    apply (existsb_relabel _ p (fun i => existsb (fun z => negb (reqb (a x i z) 0)) (seq 0 (nz c))) Hp). }
  rewrite E. destruct (np_any3 (nr c + 1) (NION c) (nz c) a); [|apply B].
  destruct r as [|r]; [|reflexivity]. destruct (Nat.eqb z 0) eqn:Ez; [|reflexivity]. reflexivity.
Qed.

(** ** C154 — granular carbon *)

Definition reordered_gac (p : nat -> nat) (g : gac_in) : gac_in :=
  {| x_n := x_n g; x_epor := x_epor g; x_rhop := x_rhop g; x_ebed := x_ebed g; x_tau := x_tau g;
     x_rad := x_rad g; x_tortu := x_tortu g; x_psdfr := x_psdfr g; x_vw := x_vw g; x_dw := x_dw g;
     x_re := x_re g; x_mass_mul := x_mass_mul g; x_organic_free := x_organic_free g;
     x_K := fun i => x_K g (p i); x_xn := fun i => x_xn g (p i); x_mw := fun i => x_mw g (p i);
     x_molvol := fun i => x_molvol g (p i); x_kf := fun i => x_kf g (p i); x_dp := fun i => x_dp g (p i);
     x_ds := fun i => x_ds g (p i); x_inf0 := fun i => x_inf0 g (p i) |}.
Definition reordered_bed (p : nat -> nat) (y : nat -> nat -> nat -> R) : nat -> nat -> nat -> R := fun i r z => y (p i) r z.

Section Gac.
Variables (p : nat -> nat) (g : gac_in).
Hypothesis Hp : relabelling (x_n g) p.
Let g' := reordered_gac p g.
Lemma qte_order : qte g' = qte g.
Proof. exact (rsum_relabel (x_n g) p (qe g) Hp). Qed.
Lemma dgt_order : dgt g' = dgt g.
Proof. exact (rsum_relabel (x_n g) p (dg g) Hp). Qed.
Lemma tconv_order : tconv g' = tconv g.
Proof. unfold tconv, dg1. rewrite dgt_order. reflexivity. Qed.
Lemma ym_order i : ym g' i = ym g (p i).
Proof. unfold ym. rewrite qte_order. reflexivity. Qed.
Lemma edd_order i : edd g' i = edd g (p i).
Proof. unfold edd. rewrite dgt_order. reflexivity. Qed.
Lemma beds_order i : beds g' i = beds g (p i).
Proof. unfold beds. rewrite edd_order. reflexivity. Qed.
Lemma bedp_order i : bedp g' i = bedp g (p i).
Proof. unfold bedp. rewrite edd_order. reflexivity. Qed.
Lemma stdv_order i : stdv g' i = stdv g (p i).
Proof. unfold stdv. rewrite dgt_order. reflexivity. Qed.
Lemma at_time_order A t i : at_time g' (fun m i => A m (p i)) t i = at_time g A t (p i).
Proof. unfold at_time. rewrite tconv_order. reflexivity. Qed.
Lemma z_raw_order y i r z : z_raw g' (reordered_bed p y) i r z = z_raw g y (p i) r z.
Proof. unfold z_raw. rewrite ym_order. reflexivity. Qed.
Lemma qte2_order y r z : qte2 g' (reordered_bed p y) r z = qte2 g y r z.
Proof.
  unfold qte2. cbn [x_n g' reordered_gac]. rewrite <- (rsum_relabel _ p (fun i => z_raw g y i r z) Hp).
  rewrite (rsum_ext (x_n g) _ (fun i => z_raw g y (p i) r z)) by (intros; apply z_raw_order). reflexivity.
Qed.
Lemma yt0_order y r z : yt0 g' (reordered_bed p y) r z = yt0 g y r z.
Proof.
  unfold yt0. cbn [x_n g' reordered_gac]. rewrite <- (rsum_relabel _ p (fun i => xni g i * z_raw g y i r z) Hp).
  apply rsum_ext. intros i _. rewrite z_raw_order. reflexivity.
Qed.
Lemma cpore_order nc ff ff' y i r z : ff' i = ff (p i) -> cpore g' nc ff' (reordered_bed p y) i r z = cpore g nc ff y (p i) r z.
Proof.
  intros F. unfold cpore, cpore_raw, q0, z2. rewrite F, qte2_order, yt0_order, z_raw_order, ym_order. reflexivity.
Qed.
Lemma bb_order nc br ff fa ff' fa' y i r z : ff' i = ff (p i) -> fa' i = fa (p i) ->
  bb g' nc br ff' fa' (reordered_bed p y) i r z = bb g nc br ff fa y (p i) r z.
Proof.
  intros F A. unfold bb. rewrite A, bedp_order, beds_order. f_equal.
  f_equal. apply rsum_ext. intros m _. rewrite (cpore_order nc ff ff') by exact F. reflexivity.
Qed.
Lemma diffun_order m nc rows foul t y i r z :
  diffun g' m nc (fun i => rows (p i)) (fun i => foul (p i)) t (reordered_bed p y) i r z
  = diffun g m nc rows foul t y (p i) r z.
Proof.
  unfold diffun.
  assert (C : at_time g' (cinfA g' (fun i => rows (p i))) t i = at_time g (cinfA g rows) t (p i)) by apply (at_time_order (cinfA g rows)).
  assert (F : at_time g' (foulFA g' (fun i => foul (p i))) t i = at_time g (foulFA g foul) t (p i)) by apply (at_time_order (foulFA g foul)).
  assert (A : at_time g' (facA g') t i = at_time g (facA g) t (p i)) by apply (at_time_order (facA g)).
  unfold gac_rhs, ww, cbs. rewrite C, stdv_order. unfold dg1. rewrite dgt_order.
  rewrite (bb_order nc (b_r m) _ _ _ _ y i r z F A).
  assert (W : forall z, rsum (nc - 1) (fun r => w_r m r * bb g' nc (b_r m) (at_time g' (foulFA g' (fun i => foul (p i))) t) (at_time g' (facA g') t) (reordered_bed p y) i r z)
     = rsum (nc - 1) (fun r => w_r m r * bb g nc (b_r m) (at_time g (foulFA g foul) t) (at_time g (facA g) t) y (p i) r z)).
  { intros z'. apply rsum_ext. intros k _. rewrite (bb_order nc (b_r m) _ _ _ _ y i k z' F A). reflexivity. }
  rewrite !W. rewrite !(fun z => cpore_order nc _ _ y i (nc - 1) z F). reflexivity.
Qed.
End Gac.

Theorem C154_granular : forall p g m nr rows foul Tf y, relabelling (x_n g) p ->
  gac_trajectory (x_n g) nr (m_c m) (fun T => diffun g m nr rows foul T) Tf y ->
  gac_trajectory (x_n g) nr (m_c m) (fun T => diffun (reordered_gac p g) m nr (fun i => rows (p i)) (fun i => foul (p i)) T) Tf
    (fun T => reordered_bed p (y T)).
Proof.
  intros p g m nr rows foul Tf y Hp H i r z Hi Hr Hz.
  eapply evolves_ext; [intros; reflexivity| |exact (H (p i) r z (proj1 Hp i Hi) Hr Hz)].
  intros T _. cbv beta. symmetry. apply diffun_order. exact Hp.
Qed.
(** Minutes and reported concentrations go with it. *)
Theorem C154_granular_reported : forall p g i cc minute, relabelling (x_n g) p -> (i < x_n g)%nat ->
  INR minute * tconv (reordered_gac p g) = INR minute * tconv g /\ reported (reordered_gac p g) i cc = reported g (p i) cc.
Proof. intros p g i cc k Hp Hi. split; [rewrite tconv_order by exact Hp; reflexivity|reflexivity]. Qed.

(** ** C154 — batch reactors *)
Definition reordered_batch (p : nat -> nat) (b : batch) : batch :=
  {| b_NION := b_NION b; b_nr := b_nr b; b_Qm := b_Qm b; b_RHOP := b_RHOP b; b_EPOR := b_EPOR b; b_VR := b_VR b;
     b_VL := b_VL b; b_Ds := b_Ds b; b_Dp := b_Dp b; b_kL := b_kL b; b_rb := b_rb b;
     b_C0 := fun i => b_C0 b (p i); b_K := fun i => b_K b (p i); b_val := fun i => b_val b (p i) |}.
Definition reordered_beads (p : nat -> nat) (u : bstate) : bstate := fun r i => u r (p i).

Section Batch.
Variables (p : nat -> nat) (b : batch).
Hypothesis HN : (0 < b_NION b)%nat.
Hypothesis Hp : relabelling (b_NION b) p.
Hypothesis H0 : p 0%nat = 0%nat.
Let b' := reordered_batch p b.
Notation N := (b_NION b).
Lemma pb_zero i : (i < N)%nat -> Nat.eqb (p i) 0 = Nat.eqb i 0.
Proof.
  intros Hi. destruct (Nat.eqb_spec i 0) as [->|NE]; [rewrite H0; reflexivity|].
  apply Nat.eqb_neq. intros E. apply NE. apply (proj2 Hp); [exact Hi|exact HN|]. rewrite E, H0. reflexivity.
Qed.
Lemma b_divalent_order : has_divalent N (b_val b') = has_divalent N (b_val b).
Proof. exact (existsb_relabel _ p (dv_idx (b_val b)) Hp). Qed.
Lemma b_CT_order : b_CT b' = b_CT b.
Proof. exact (rsum_relabel _ p (b_C0 b) Hp). Qed.
Lemma Ceq_batch_order q :
  match calc_Ceq_batch N (b_K b') (b_val b') (fun i => q (p i)) (b_CT b'), calc_Ceq_batch N (b_K b) (b_val b) q (b_CT b) with
  | Some a', Some a => forall i, (i < N)%nat -> a' i = a (p i)
  | None, None => True | _, _ => False end.
Proof.
  rewrite b_CT_order. unfold calc_Ceq_batch. rewrite b_divalent_order. destruct (has_divalent N (b_val b)).
  - unfold Ceq_dv_batch.
    assert (Ea : eq_aa N (b_K b') (b_val b') (fun j => q (p j)) = eq_aa N (b_K b) (b_val b) q).
    { unfold eq_aa, masked_sum. rewrite H0. f_equal.
      rewrite <- (rsum_relabel _ p (fun i => if dv_idx (b_val b) i then q i / b_K b i else 0) Hp). reflexivity. }
    assert (Eb : eq_bb N (b_K b') (b_val b') (fun j => q (p j)) = eq_bb N (b_K b) (b_val b) q).
    { unfold eq_bb, masked_sum. rewrite H0. do 2 f_equal.
      rewrite <- (rsum_relabel _ p (fun i => if mv_idx (b_val b) i then q i / b_K b i else 0) Hp).
      apply rsum_ext. intros j Hj. unfold mv_idx. rewrite pb_zero by exact Hj. reflexivity. }
    rewrite Ea, Eb. destruct (reqb _ 0); [exact I|]. intros i Hi. unfold mass_action. rewrite pb_zero, H0 by exact Hi. reflexivity.
  - intros i Hi. unfold Ceq_mv. f_equal. rewrite <- (rsum_relabel _ p (fun j => alpha (b_K b) (p i) j * q j) Hp). reflexivity.
Qed.
Variable u : bstate.
Lemma pore_order n :
  match pore_liquid b' (reordered_beads p u) n, pore_liquid b u n with
  | Some P', Some P => forall r i, (i < N)%nat -> P' r i = P r (p i)
  | None, None => True | _, _ => False end.
Proof.
  induction n as [|n IH]; cbn [pore_liquid]; [reflexivity|].
  assert (C := Ceq_batch_order (fun i => u (S n) i / (1 - b_EPOR b))). cbv beta in C.
  change (b_NION b') with N. change (b_EPOR b') with (b_EPOR b).
  change (calc_Ceq_batch N (b_K b') (b_val b') (fun i => reordered_beads p u (S n) i / (1 - b_EPOR b)) (b_CT b'))
    with (calc_Ceq_batch N (b_K b') (b_val b') (fun i => u (S n) (p i) / (1 - b_EPOR b)) (b_CT b')).
  destruct (pore_liquid b' (reordered_beads p u) n) as [P1|], (pore_liquid b u n) as [P2|]; try contradiction;
  destruct (calc_Ceq_batch N (b_K b') _ _ _) as [a1|], (calc_Ceq_batch N (b_K b) _ _ _) as [a2|]; try contradiction; try exact I.
  intros k i Hi. destruct (Nat.eqb k n); [apply C, Hi|apply IH, Hi].
Qed.
Lemma batch_assemble_order op Ceq Ceq' dq dq' r i : Ceq' i = Ceq (p i) -> (forall m, dq' m i = dq m (p i)) ->
  batch_assemble b' op (reordered_beads p u) Ceq' dq' r i = batch_assemble b op u Ceq dq r (p i).
Proof.
  intros A B. unfold batch_assemble, b', reordered_beads. cbn [b_kL b_VR b_rb b_VL b_nr reordered_batch].
  destruct r as [|k]; [rewrite A; reflexivity|]. destruct (Nat.eqb k (b_nr b - 1)); [|apply B].
  rewrite A. do 2 f_equal. apply rsum_ext. intros m _. rewrite B. reflexivity.
Qed.
Lemma batch_rhs_order psdm op :
  match batch_rhs psdm b' op (reordered_beads p u), batch_rhs psdm b op u with
  | Some d', Some d => forall r i, (i < N)%nat -> d' r i = d r (p i)
  | None, None => True | _, _ => False end.
Proof.
  destruct psdm; cbn [batch_rhs].
  - unfold diffun_psdm_batch. change (b_nr b') with (b_nr b). change (b_EPOR b') with (b_EPOR b).
    assert (P := pore_order (b_nr b)).
    assert (C := Ceq_batch_order (fun i => u (b_nr b) i / (1 - b_EPOR b))). cbv beta in C.
    change (b_NION b') with N.
    change (calc_Ceq_batch N (b_K b') (b_val b') (fun i => reordered_beads p u (b_nr b) i / (1 - b_EPOR b)) (b_CT b'))
      with (calc_Ceq_batch N (b_K b') (b_val b') (fun i => u (b_nr b) (p i) / (1 - b_EPOR b)) (b_CT b')).
    destruct (pore_liquid b' (reordered_beads p u) (b_nr b)) as [P1|], (pore_liquid b u (b_nr b)) as [P2|]; try contradiction; try exact I.
    destruct (calc_Ceq_batch N (b_K b') _ _ _) as [a1|], (calc_Ceq_batch N (b_K b) _ _ _) as [a2|]; try contradiction; try exact I.
    intros r i Hi. apply batch_assemble_order; [apply C, Hi|].
    intros m. cbn [b_Dp b_Ds b_rb b' reordered_batch]. do 3 f_equal. apply rsum_ext. intros k _. rewrite P by exact Hi. reflexivity.
  - unfold diffun_hsdm_batch. change (b_nr b') with (b_nr b). change (b_NION b') with N.
    assert (C := Ceq_batch_order (u (b_nr b))). unfold reordered_beads at 1.
    destruct (calc_Ceq_batch N (b_K b') _ _ _) as [a1|], (calc_Ceq_batch N (b_K b) _ _ _) as [a2|]; try contradiction; try exact I.
    intros r i Hi. apply batch_assemble_order; [apply C, Hi|reflexivity].
Qed.
Lemma ndv_order : ndv b' = ndv b.
Proof.
  assert (E : forall l, length (filter (dv_idx (b_val b')) l) = length (filter (dv_idx (b_val b)) (map p l))).
  { induction l as [|x l IH]; [reflexivity|]. cbn [map filter]. change (dv_idx (b_val b') x) with (dv_idx (b_val b) (p x)).
    destruct (dv_idx (b_val b) (p x)); cbn [List.length]; rewrite IH; reflexivity. }
  unfold ndv. rewrite E. change (b_NION b') with (b_NION b).
  apply Permutation_length. apply filter_perm. apply relabel_perm, Hp.
Qed.
End Batch.

Theorem C154_batch : forall psdm b p op Tf y, (0 < b_NION b)%nat -> relabelling (b_NION b) p -> p 0%nat = 0%nat ->
  (is_batch_trajectory (b_nr b) (b_NION b) (batch_rhs psdm b op) Tf y ->
   is_batch_trajectory (b_nr b) (b_NION b) (batch_rhs psdm (reordered_batch p b) op) Tf (fun T => reordered_beads p (y T))) /\
  forall r i, (i < b_NION b)%nat -> batch_initial (reordered_batch p b) r i = batch_initial b r (p i).
Proof.
  intros psdm b p op Tf y HN Hp H0. split.
  - intros (d & D & E).
    assert (X : forall T, 0 < T < Tf -> exists e, batch_rhs psdm (reordered_batch p b) op (reordered_beads p (y T)) = Some e /\
       forall r i, (i < b_NION b)%nat -> e r i = d T r (p i)).
    { intros T HT. assert (L := batch_rhs_order p b HN Hp H0 (y T) psdm op). rewrite (D T HT) in L.
      destruct (batch_rhs psdm (reordered_batch p b) op (reordered_beads p (y T))) as [e|]; [|contradiction].
      exists e. split; [reflexivity|exact L]. }
    exists (fun T => match batch_rhs psdm (reordered_batch p b) op (reordered_beads p (y T)) with Some e => e | None => d T end).
    split.
    + intros T HT. destruct (X T HT) as (e & F & _). rewrite F. reflexivity.
    + intros r i Hr Hi. eapply evolves_ext; [intros; reflexivity| |apply (E r (p i) Hr (proj1 Hp i Hi))].
      intros T HT. cbv beta. destruct (X T HT) as (e & F & G). rewrite F, G by exact Hi. reflexivity.
  - intros r i Hi. unfold batch_initial. rewrite ndv_order by assumption.
    change (b_NION (reordered_batch p b)) with (b_NION b). rewrite b_divalent_order by assumption.
    change (b_Q (reordered_batch p b)) with (b_Q b).
    destruct r as [|r]; [reflexivity|]. rewrite (pb_zero p b HN Hp H0 i Hi). reflexivity.
Qed.

(** ** C155 — an ion that is nowhere present *)

(** The sheet without its last row. *)
Definition without_last (c : column) : column :=
  {| NION := NION c - 1; nr := nr c; nz := nz c; EBED := EBED c; EPOR := EPOR c; Lbed := Lbed c; vel := vel c;
     rb := rb c; Qcap := Qcap c; kL := kL c; Ds := Ds c; Dp := Dp c; Kxc := Kxc c; val := val c |}.

(** What the equilibrium needs: either the last row does not bring in the first divalent ion, or
    the others are all monovalent, with the presaturant's coefficient one, and the presaturant is
    still in the resin. *)
Definition quiet (N : nat) (K : nat -> R) (val : nat -> nat) (q : nat -> R) : Prop :=
  has_divalent (S N) val = has_divalent N val \/
  ((forall i, (i < N)%nat -> val i = 1%nat) /\ K 0%nat = 1 /\ (forall i, (i < N)%nat -> 0 < K i) /\
   (forall i, (i < N)%nat -> 0 <= q i) /\ 0 < q 0%nat).

Lemma masked_last N mask f : f N = 0 -> masked_sum (S N) mask f = masked_sum N mask f.
Proof. intros E. unfold masked_sum. cbn [rsum]. destruct (mask N); rewrite ?E; ring. Qed.
Lemma Ceq_last_zero N K val q CT : (0 < N)%nat -> q N = 0 -> calc_Ceq (S N) K val q CT N = 0.
Proof.
  intros HN E. unfold calc_Ceq. destruct (has_divalent (S N) val).
  - unfold Ceq_dv, mass_action. destruct (Nat.eqb_spec N 0) as [F|_]; [lia|]. rewrite E. unfold Rdiv. ring.
  - unfold Ceq_mv. rewrite E. unfold Rdiv. ring.
Qed.
Lemma Ceq_mono_dv N K val q CT i : (0 < N)%nat -> (i < N)%nat -> q N = 0 ->
  (forall i, (i < N)%nat -> val i = 1%nat) -> K 0%nat = 1 -> (forall i, (i < N)%nat -> 0 < K i) ->
  (forall i, (i < N)%nat -> 0 <= q i) -> 0 < q 0%nat ->
  Ceq_dv (S N) K val q CT i = Ceq_mv N K q CT i.
Proof.
  intros HN Hi E V K0 KP QP Q0.
  set (S0 := rsum N (fun j => q j / K j)).
  assert (HS : 0 < S0).
  { apply rsum_pos_one with 0%nat; [exact HN| |].
    - intros j Hj. apply Rmult_le_pos; [apply QP, Hj|]. apply Rlt_le, Rinv_0_lt_compat, KP, Hj.
    - apply Rmult_lt_0_compat; [exact Q0|]. apply Rinv_0_lt_compat, KP, HN. }
  assert (Ea : eq_aa (S N) K val q = 0).
  { unfold eq_aa. rewrite masked_last by (rewrite E; unfold Rdiv; ring). unfold masked_sum.
    rewrite (rsum_zero N); [unfold Rdiv; ring|]. intros j Hj. unfold dv_idx. rewrite (V j Hj). reflexivity. }
  assert (Eb : eq_bb (S N) K val q = S0 / q 0%nat).
  { unfold eq_bb. rewrite masked_last by (rewrite E; unfold Rdiv; ring). unfold masked_sum.
    assert (M : rsum N (fun j => if mv_idx val j then q j / K j else 0) = S0 - q 0%nat).
    { unfold S0. replace (q 0%nat) with (q 0%nat / K 0%nat) by (rewrite K0; field).
      rewrite <- (presat_sum N (fun j => q j / K j) HN).
      assert (G := presat_sum N (fun j => if mv_idx val j then q j / K j else 0) HN). cbv beta in G.
      unfold mv_idx in G at 3. cbn [Nat.eqb negb] in G. rewrite andb_false_r in G.
      rewrite Rminus_0_r in G. rewrite <- G. apply rsum_ext. intros j Hj. unfold mv_idx. rewrite V by lia. reflexivity. }
    rewrite M. field. lra. }
  assert (EC : Cc_column (S N) K val q CT = CT * q 0%nat / S0).
  { unfold Cc_column. rewrite Ea, Eb. assert (P : 0 < S0 / q 0%nat) by (apply Rdiv_lt_0_compat; assumption).
    replace ((S0 / q 0%nat) ^ 2 - 4 * 0 * - CT) with ((S0 / q 0%nat) * (S0 / q 0%nat)) by ring.
    rewrite sqrt_square by lra. field. lra. }
  assert (KI := KP i Hi).
  assert (ED : rsum N (fun j => alpha K i j * q j) = K i * S0).
  { unfold S0. rewrite <- rsum_scal. apply rsum_ext. intros j Hj. assert (KJ := KP j Hj). unfold alpha. field. lra. }
  unfold Ceq_dv, mass_action. rewrite EC. unfold Ceq_mv. rewrite ED.
  destruct (Nat.eqb_spec i 0) as [->|NI].
  - rewrite K0. field. lra.
  - rewrite V by exact Hi. field. lra.
Qed.
Lemma Ceq_bystander N K val q CT i : (0 < N)%nat -> (i < N)%nat -> q N = 0 -> quiet N K val q ->
  calc_Ceq (S N) K val q CT i = calc_Ceq N K val q CT i.
Proof.
  intros HN Hi E [S|(V & K0 & KP & QP & Q0)].
  - unfold calc_Ceq. rewrite S. destruct (has_divalent N val).
    + unfold Ceq_dv, mass_action, Cc_column, eq_aa, eq_bb. rewrite !masked_last by (rewrite E; unfold Rdiv; ring). reflexivity.
    + unfold Ceq_mv. cbn [rsum]. rewrite E, Rmult_0_r, Rplus_0_r. reflexivity.
  - assert (D : has_divalent N val = false).
    { unfold has_divalent. destruct (existsb (dv_idx val) (seq 0 N)) eqn:X; [|reflexivity].
      apply existsb_exists in X. destruct X as (j & Hj & Dj). apply in_seq in Hj. unfold dv_idx in Dj.
      rewrite V in Dj by lia. discriminate. }
    unfold calc_Ceq at 2. rewrite D. unfold calc_Ceq. destruct (has_divalent (S N) val).
    + apply Ceq_mono_dv; assumption.
    + unfold Ceq_mv. cbn [rsum]. rewrite E, Rmult_0_r, Rplus_0_r. reflexivity.
Qed.

Section Bystander.
Variables (c : column) (N : nat).
Hypothesis HN : (0 < N)%nat.
Hypothesis HC : NION c = S N.
Lemma presat_bystander f i : (i < S N)%nat -> f N = 0 ->
  implicit_presat c f i = if Nat.eqb i N then 0 else implicit_presat (without_last c) f i.
Proof.
  intros Hi E. unfold implicit_presat. cbn [NION without_last]. rewrite HC.
  destruct (Nat.eqb_spec i N) as [->|NE].
  - destruct (Nat.eqb_spec N 0) as [F|_]; [lia|exact E].
  - destruct (Nat.eqb i 0); [|reflexivity]. f_equal. rewrite !presat_sum by lia.
    replace (S N - 1)%nat with N by lia. cbn [rsum]. rewrite E. ring.
Qed.
Lemma presat_small f g i : (i < N)%nat -> (forall j, (j < N)%nat -> f j = g j) ->
  implicit_presat (without_last c) f i = implicit_presat (without_last c) g i.
Proof.
  intros Hi E. apply implicit_ext; cbn [NION without_last]; rewrite HC; [intros j Hj; apply E; lia|lia].
Qed.
Variables (Cin : nat -> R) (u : state).
Hypothesis Z0 : Cin N = 0.
Hypothesis ZU : forall r z, u r N z = 0.
Lemma liq_bystander z : liq Cin u N z = 0.
Proof. unfold liq. destruct (Nat.eqb z 0); auto. Qed.
Lemma CTz_bystander z : CTz c Cin u z = CTz (without_last c) Cin u z.
Proof. unfold CTz. cbn [NION without_last]. rewrite HC. replace (S N - 1)%nat with N by lia. cbn [rsum]. rewrite liq_bystander. ring. Qed.
Lemma flux_bystander qs i z : (i < S N)%nat -> qs N = 0 -> quiet N (Kxc c) (val c) qs ->
  flux c Cin u qs i z = if Nat.eqb i N then 0 else flux (without_last c) Cin u qs i z.
Proof.
  intros Hi E Qt. unfold flux. rewrite presat_bystander; [|exact Hi|].
  - destruct (Nat.eqb_spec i N) as [|NE]; [reflexivity|]. apply presat_small; [lia|]. intros j Hj.
    cbn [kL Kxc val NION without_last]. rewrite HC, CTz_bystander. replace (S N - 1)%nat with N by lia.
    rewrite Ceq_bystander by assumption. reflexivity.
  - rewrite HC, liq_bystander, Ceq_last_zero by assumption. ring.
Qed.
Lemma assemble_bystander op th J J' dq dq' r i z : (i < S N)%nat ->
  J i z = (if Nat.eqb i N then 0 else J' i z) -> (forall m, dq m i z = if Nat.eqb i N then 0 else dq' m i z) ->
  assemble c op th Cin u J dq r i z = if Nat.eqb i N then 0 else assemble (without_last c) op th Cin u J' dq' r i z.
Proof.
  intros Hi EJ Ed. destruct (Nat.eqb_spec i N) as [->|NE].
  - destruct r as [|k]; cbn [assemble].
    + destruct (Nat.eqb z 0); [reflexivity|]. unfold dC. rewrite EJ.
      rewrite (rsum_zero (nz c)); [unfold Rdiv; ring|]. intros m _. rewrite liq_bystander. ring.
    + rewrite EJ. destruct (Nat.eqb k (nr c - 1)); [|apply Ed].
      rewrite (rsum_zero (nr c - 1)); [unfold Rdiv; ring|]. intros m _. rewrite Ed. ring.
  - destruct r as [|k]; cbn [assemble].
    + destruct (Nat.eqb z 0); [reflexivity|]. unfold dC. rewrite EJ. reflexivity.
    + cbn [nr rb without_last]. rewrite EJ. destruct (Nat.eqb k (nr c - 1)); [|apply Ed].
      do 2 f_equal. apply rsum_ext. intros m _. rewrite Ed. reflexivity.
Qed.
Lemma rhs_bystander psdm op th r i z : (i < S N)%nat ->
  (forall k, (k < nr c)%nat -> quiet N (Kxc c) (val c) (fun i => u (S k) i z / theta psdm c)) -> (0 < nr c)%nat ->
  rhs psdm c op th Cin u r i z = if Nat.eqb i N then 0 else rhs psdm (without_last c) op th Cin u r i z.
Proof.
  intros Hi Qt Hr.
  assert (QS : quiet N (Kxc c) (val c) (fun i => u (nr c) i z / theta psdm c)).
  { specialize (Qt (nr c - 1)%nat). replace (S (nr c - 1)) with (nr c) in Qt by lia. apply Qt. lia. }
  destruct psdm; cbn [rhs theta] in *; apply assemble_bystander; try exact Hi.
  - apply (flux_bystander (fun i => u (nr c) i z / (1 - EPOR c)) i z Hi); [rewrite ZU; unfold Rdiv; ring|exact QS].
  - intros m. unfold psdm_dY. rewrite presat_bystander; [|exact Hi|].
    + destruct (Nat.eqb_spec i N) as [|NE]; [reflexivity|]. apply presat_small; [lia|]. intros j Hj.
      cbn [EPOR Dp Ds rb nr without_last]. do 4 f_equal. apply rsum_ext. intros k Hk. f_equal.
      unfold psdm_Cpore. rewrite CTz_bystander. cbn [Kxc val NION without_last]. rewrite HC. replace (S N - 1)%nat with N by lia.
      apply Ceq_bystander; [exact HN|exact Hj|unfold psdm_q; rewrite ZU; unfold Rdiv; ring|exact (Qt k Hk)].
    + rewrite (rsum_zero (nr c) (fun k => Br op m k * psdm_Cpore c Cin u k N z)).
      * rewrite (rsum_zero (nr c)); [unfold Rdiv; ring|]. intros k _. rewrite ZU. ring.
      * intros k _. unfold psdm_Cpore. rewrite HC, Ceq_last_zero; [ring|exact HN|unfold psdm_q; rewrite ZU; unfold Rdiv; ring].
  - assert (QH : quiet N (Kxc c) (val c) (fun i => u (nr c) i z)).
    { destruct QS as [S|(A & B & C & D & E)]; [left; exact S|right; repeat split; try assumption].
      - intros j Hj. specialize (D j Hj). unfold Rdiv in D. rewrite Rinv_1, Rmult_1_r in D. exact D.
      - unfold Rdiv in E. rewrite Rinv_1, Rmult_1_r in E. exact E. }
    apply (flux_bystander (fun i => u (nr c) i z) i z Hi); [apply ZU|exact QH].
  - intros m. unfold hsdm_dq. rewrite presat_bystander; [|exact Hi|].
    + destruct (Nat.eqb i N); reflexivity.
    + rewrite (rsum_zero (nr c)); [unfold Rdiv; ring|]. intros k _. rewrite ZU. ring.
Qed.
End Bystander.

(** A run in which the last ion is nowhere present is a run of the sheet without it, and the
    other way round. *)
Theorem C155_ion_exchange_partial : forall (psdm : bool) c N op th Cin Tf y,
  (0 < N)%nat -> NION c = S N -> (0 < nr c)%nat -> (forall T, Cin T N = 0) -> (forall T r z, y T r N z = 0) ->
  (forall T z k, (z < nz c)%nat -> (k < nr c)%nat -> quiet N (Kxc c) (val c) (fun i => y T (S k) i z / (if psdm then 1 - EPOR c else 1))) ->
  (is_trajectory (nr c) (S N) (nz c) (fun T => rhs psdm c op th (Cin T)) Tf y <->
   is_trajectory (nr c) N (nz c) (fun T => rhs psdm (without_last c) op th (Cin T)) Tf y).
Proof.
  intros psdm c N op th Cin Tf y HN HC Hr ZC ZY Qt.
  assert (R : forall T r i z, (i < S N)%nat -> (z < nz c)%nat -> rhs psdm c op th (Cin T) (y T) r i z
     = if Nat.eqb i N then 0 else rhs psdm (without_last c) op th (Cin T) (y T) r i z).
  { intros T r i z Hi Hz. apply rhs_bystander; auto. }
  split; intros H r i z Hk Hi Hz.
  - eapply evolves_ext; [intros; reflexivity| |apply (H r i z); [exact Hk|lia|exact Hz]].
    intros T _. cbv beta. rewrite R by lia. destruct (Nat.eqb_spec i N); [lia|reflexivity].
  - destruct (Nat.eq_dec i N) as [->|NE].
    + eapply evolves_ext; [| |apply (evolves_const 0 Tf 0)].
      * intros T. cbv beta. symmetry. apply ZY.
      * intros T _. cbv beta. rewrite R by lia. rewrite Nat.eqb_refl. reflexivity.
    + eapply evolves_ext; [intros; reflexivity| |apply (H r i z); [exact Hk|lia|exact Hz]].
      intros T _. cbv beta. rewrite R by lia. destruct (Nat.eqb_spec i N); [lia|reflexivity].
Qed.
Theorem C155_ion_exchange_start_partial : forall c N Cin r i z, (0 < N)%nat -> NION c = S N -> Cin N = 0 -> (i < S N)%nat ->
  initial_state c Cin None r i z = if Nat.eqb i N then 0 else initial_state (without_last c) Cin None r i z.
Proof.
  intros c N Cin r i z HN HC Z Hi. unfold initial_state. cbn [NION Qcap without_last]. rewrite HC.
  replace (S N - 1)%nat with N by lia. cbn [rsum]. rewrite Z, Rplus_0_r.
  destruct (Nat.eqb_spec i N) as [->|NE]; [|reflexivity].
  destruct (Nat.eqb_spec N 0) as [F|_]; [lia|]. destruct r; [|reflexivity]. destruct (Nat.eqb z 0); [exact Z|reflexivity].
Qed.

(** ** C155 — batch reactors *)
Definition batch_without_last (b : batch) : batch :=
  {| b_NION := b_NION b - 1; b_nr := b_nr b; b_Qm := b_Qm b; b_RHOP := b_RHOP b; b_EPOR := b_EPOR b; b_VR := b_VR b;
     b_VL := b_VL b; b_Ds := b_Ds b; b_Dp := b_Dp b; b_kL := b_kL b; b_rb := b_rb b; b_C0 := b_C0 b; b_K := b_K b; b_val := b_val b |}.

Lemma ndv_last N v : v N <> 2%nat ->
  filter (dv_idx v) (seq 0 (S N)) = filter (dv_idx v) (seq 0 N) /\ has_divalent (S N) v = has_divalent N v.
Proof.
  intros H. unfold has_divalent. rewrite seq_S, filter_app, existsb_app. cbn [Nat.add filter existsb].
  assert (E : dv_idx v N = false) by (apply Nat.eqb_neq, H). rewrite E, app_nil_r, !orb_false_r. split; reflexivity.
Qed.
Lemma Ceq_batch_bystander N K v q CT : (0 < N)%nat -> q N = 0 -> v N <> 2%nat ->
  match calc_Ceq_batch (S N) K v q CT, calc_Ceq_batch N K v q CT with
  | Some a, Some a' => (forall i, (i < N)%nat -> a i = a' i) /\ a N = 0
  | None, None => True | _, _ => False end.
Proof.
  intros HN E V. unfold calc_Ceq_batch. rewrite (proj2 (ndv_last N v V)). destruct (has_divalent N v).
  - unfold Ceq_dv_batch, eq_aa, eq_bb. rewrite !masked_last by (rewrite E; unfold Rdiv; ring).
    destruct (reqb _ 0); [exact I|]. split; [reflexivity|].
    unfold mass_action. destruct (Nat.eqb_spec N 0); [lia|]. rewrite E. unfold Rdiv. ring.
  - unfold Ceq_mv. split.
    + intros i Hi. cbn [rsum]. rewrite E, Rmult_0_r, Rplus_0_r. reflexivity.
    + rewrite E. unfold Rdiv. ring.
Qed.
Section BatchBystander.
Variables (b : batch) (N : nat).
Hypothesis HN : (0 < N)%nat.
Hypothesis HB : b_NION b = S N.
Hypothesis HV : b_val b N <> 2%nat.
Hypothesis HC : b_C0 b N = 0.
Variable u : bstate.
Hypothesis ZU : forall r, u r N = 0.
Let b' := batch_without_last b.
Lemma CT_bystander : b_CT b = b_CT b'.
Proof. unfold b_CT, b'. cbn [b_NION b_C0 batch_without_last]. rewrite HB. replace (S N - 1)%nat with N by lia. cbn [rsum]. rewrite HC. ring. Qed.
Lemma batch_Ceq q : q N = 0 ->
  match calc_Ceq_batch (b_NION b) (b_K b) (b_val b) q (b_CT b), calc_Ceq_batch (b_NION b') (b_K b') (b_val b') q (b_CT b') with
  | Some a, Some a' => (forall i, (i < N)%nat -> a i = a' i) /\ a N = 0
  | None, None => True | _, _ => False end.
Proof.
  intros E. rewrite <- CT_bystander. unfold b'. cbn [b_NION b_K b_val batch_without_last]. rewrite HB.
  replace (S N - 1)%nat with N by lia. apply Ceq_batch_bystander; assumption.
Qed.
Lemma pore_bystander n :
  match pore_liquid b u n, pore_liquid b' u n with
  | Some P, Some P' => forall r, (forall i, (i < N)%nat -> P r i = P' r i) /\ P r N = 0
  | None, None => True | _, _ => False end.
Proof.
  induction n as [|n IH]; cbn [pore_liquid]; [intros r; split; reflexivity|].
  assert (C := batch_Ceq (fun i => u (S n) i / (1 - b_EPOR b))). cbv beta in C. rewrite ZU in C.
  specialize (C ltac:(unfold Rdiv; ring)). change (b_EPOR b') with (b_EPOR b).
  destruct (pore_liquid b u n), (pore_liquid b' u n); try exact IH; try contradiction;
  destruct (calc_Ceq_batch (b_NION b) _ _ _ _) as [a1|], (calc_Ceq_batch (b_NION b') _ _ _ _) as [a2|]; try exact C; try contradiction; try exact I.
  intros k. destruct (Nat.eqb k n); [exact C|apply IH].
Qed.
Lemma batch_assemble_bystander op Ceq Ceq' dq dq' r i : (i < S N)%nat ->
  (forall i, (i < N)%nat -> Ceq i = Ceq' i) -> Ceq N = 0 ->
  (forall m i, (i < N)%nat -> dq m i = dq' m i) -> (forall m, dq m N = 0) ->
  batch_assemble b op u Ceq dq r i = if Nat.eqb i N then 0 else batch_assemble b' op u Ceq' dq' r i.
Proof.
  intros Hi A B C D. unfold b'. unfold batch_assemble. cbn [b_kL b_VR b_rb b_VL b_nr batch_without_last].
  destruct (Nat.eqb_spec i N) as [->|NE].
  - rewrite ZU, B. destruct r as [|k]; [unfold Rdiv; ring|]. destruct (Nat.eqb k (b_nr b - 1)); [|apply D].
    rewrite (rsum_zero (b_nr b - 1)); [unfold Rdiv; ring|]. intros m _. rewrite D. ring.
  - rewrite A by lia. destruct r as [|k]; [reflexivity|]. destruct (Nat.eqb k (b_nr b - 1)); [|apply C; lia].
    do 2 f_equal. apply rsum_ext. intros m _. rewrite C by lia. reflexivity.
Qed.
Lemma batch_rhs_bystander psdm op :
  match batch_rhs psdm b op u, batch_rhs psdm b' op u with
  | Some d, Some d' => forall r i, (i < S N)%nat -> d r i = if Nat.eqb i N then 0 else d' r i
  | None, None => True | _, _ => False end.
Proof.
  destruct psdm; cbn [batch_rhs].
  - unfold diffun_psdm_batch. change (b_nr b') with (b_nr b). change (b_EPOR b') with (b_EPOR b).
    assert (P := pore_bystander (b_nr b)).
    assert (C := batch_Ceq (fun i => u (b_nr b) i / (1 - b_EPOR b))). cbv beta in C. rewrite ZU in C.
    specialize (C ltac:(unfold Rdiv; ring)).
    destruct (pore_liquid b u (b_nr b)) as [P1|], (pore_liquid b' u (b_nr b)) as [P2|]; try contradiction; try exact I.
    destruct (calc_Ceq_batch (b_NION b) _ _ _ _) as [a1|], (calc_Ceq_batch (b_NION b') _ _ _ _) as [a2|]; try contradiction; try exact I.
    intros r i Hi. apply batch_assemble_bystander; [exact Hi|apply C|apply C| |].
    + intros m j Hj. cbn [b_Dp b_Ds b_rb b' batch_without_last]. do 3 f_equal. apply rsum_ext. intros k _.
      rewrite (proj1 (P k)) by exact Hj. reflexivity.
    + intros m. rewrite (rsum_zero (b_nr b)) by (intros k _; rewrite (proj2 (P k)); ring).
      rewrite (rsum_zero (b_nr b)) by (intros k _; rewrite ZU; ring). unfold Rdiv. ring.
  - unfold diffun_hsdm_batch. change (b_nr b') with (b_nr b).
    assert (C := batch_Ceq (u (b_nr b)) (ZU (b_nr b))).
    destruct (calc_Ceq_batch (b_NION b) _ _ _ _) as [a1|], (calc_Ceq_batch (b_NION b') _ _ _ _) as [a2|]; try contradiction; try exact I.
    intros r i Hi. apply batch_assemble_bystander; [exact Hi|apply C|apply C| |].
    + intros m j Hj. reflexivity.
    + intros m. rewrite (rsum_zero (b_nr b)) by (intros k _; rewrite ZU; ring). unfold Rdiv. ring.
Qed.
End BatchBystander.

Theorem C155_batch_partial : forall psdm b N op Tf y,
  (0 < N)%nat -> b_NION b = S N -> b_val b N <> 2%nat -> b_C0 b N = 0 -> (forall T r, y T r N = 0) ->
  (is_batch_trajectory (b_nr b) (S N) (batch_rhs psdm b op) Tf y <->
   is_batch_trajectory (b_nr b) N (batch_rhs psdm (batch_without_last b) op) Tf y) /\
  forall r i, (i < S N)%nat -> batch_initial b r i = if Nat.eqb i N then 0 else batch_initial (batch_without_last b) r i.
Proof.
  intros psdm b N op Tf y HN HB HV HC ZY.
  assert (L : forall T, _) by (intros T; exact (batch_rhs_bystander b N HN HB HV HC (y T) (ZY T) psdm op)).
  split.
  - split; intros (d & D & E).
    + exists (fun T => match batch_rhs psdm (batch_without_last b) op (y T) with Some d' => d' | None => d T end). split.
      * intros T HT. specialize (L T). rewrite (D T HT) in L.
        destruct (batch_rhs psdm (batch_without_last b) op (y T)); [reflexivity|contradiction].
      * intros r i Hr Hi. eapply evolves_ext; [intros; reflexivity| |apply (E r i Hr); lia].
        intros T HT. cbv beta. specialize (L T). rewrite (D T HT) in L.
        destruct (batch_rhs psdm (batch_without_last b) op (y T)); [|reflexivity].
        rewrite L by lia. destruct (Nat.eqb_spec i N); [lia|reflexivity].
    + exists (fun T => match batch_rhs psdm b op (y T) with Some d' => d' | None => fun r i => if Nat.eqb i N then 0 else d T r i end).
      assert (X : forall T, 0 < T < Tf -> exists e, batch_rhs psdm b op (y T) = Some e /\
         forall r i, (i < S N)%nat -> e r i = if Nat.eqb i N then 0 else d T r i).
      { intros T HT. specialize (L T). rewrite (D T HT) in L. destruct (batch_rhs psdm b op (y T)) as [e|]; [|contradiction].
        exists e. split; [reflexivity|exact L]. }
      split.
      * intros T HT. destruct (X T HT) as (e & F & _). rewrite F. reflexivity.
      * intros r i Hr Hi. destruct (Nat.eq_dec i N) as [->|NE].
        -- eapply evolves_ext; [| |apply (evolves_const 0 Tf 0)].
           ++ intros T. cbv beta. symmetry. apply ZY.
           ++ intros T HT. cbv beta. destruct (X T HT) as (e & F & G). rewrite F, G by lia. rewrite Nat.eqb_refl. reflexivity.
        -- eapply evolves_ext; [intros; reflexivity| |apply (E r i Hr); lia].
           intros T HT. cbv beta. destruct (X T HT) as (e & F & G). rewrite F, G by lia. destruct (Nat.eqb_spec i N); [lia|reflexivity].
  - intros r i Hi. unfold batch_initial, ndv. cbn [b_NION b_val b_C0 batch_without_last]. rewrite HB.
    replace (S N - 1)%nat with N by lia. rewrite (proj1 (ndv_last N _ HV)), (proj2 (ndv_last N _ HV)).
    change (b_Q (batch_without_last b)) with (b_Q b).
    destruct (Nat.eqb_spec i N) as [->|NE]; [|reflexivity]. destruct r as [|r]; [exact HC|].
    unfold dv_idx at 2. apply Nat.eqb_neq in HV. rewrite HV. destruct (Nat.eqb_spec N 0); [lia|]. destruct (has_divalent N (b_val b)); reflexivity.
Qed.
(** An absent divalent ion starts with a thousandth of the resin's capacity, all radii over, and
    the presaturant with that much less. *)
Theorem C155_batch_refuted : forall b N r, (0 < N)%nat -> b_NION b = S N -> b_val b N = 2%nat -> b_val b 0%nat <> 2%nat ->
  b_C0 b N = 0 -> 0 < b_Q b ->
  batch_initial b (S r) N = b_Q b / 1000 /\ 0 < batch_initial b (S r) N /\
  batch_initial b (S r) 0%nat = batch_initial (batch_without_last b) (S r) 0%nat - b_Q b / 1000.
Proof.
  intros b N r HN HB HV H0 HC HQ.
  assert (D : has_divalent (S N) (b_val b) = true).
  { unfold has_divalent. rewrite seq_S, existsb_app. cbn [Nat.add existsb]. unfold dv_idx at 2. rewrite HV. apply orb_true_r. }
  assert (F : filter (dv_idx (b_val b)) (seq 0 (S N)) = (filter (dv_idx (b_val b)) (seq 0 N) ++ [N])%list).
  { rewrite seq_S, filter_app. cbn [Nat.add filter]. unfold dv_idx at 2. rewrite HV. reflexivity. }
  unfold batch_initial, ndv. cbn [b_NION b_val batch_without_last]. rewrite HB. replace (S N - 1)%nat with N by lia. rewrite D, F.
  change (b_Q (batch_without_last b)) with (b_Q b).
  assert (Z : dv_idx (b_val b) N = true) by (unfold dv_idx; rewrite HV; reflexivity). rewrite Z.
  destruct (Nat.eqb_spec N 0); [lia|]. cbn [Nat.eqb]. split; [reflexivity|]. split; [lra|].
  rewrite app_length, plus_INR. cbn [List.length INR].
  destruct (has_divalent N (b_val b)) eqn:E; [field|].
  assert (G : filter (dv_idx (b_val b)) (seq 0 N) = []).
  { unfold has_divalent in E. revert E. generalize (seq 0 N). induction l as [|x l IH]; [reflexivity|]. cbn [existsb filter].
    destruct (dv_idx (b_val b) x); [discriminate|exact IH]. }
  rewrite G. cbn [List.length INR]. field.
Qed.

(** ** C155 — granular carbon *)
Definition gac_without_last (g : gac_in) : gac_in :=
  {| x_n := x_n g - 1; x_epor := x_epor g; x_rhop := x_rhop g; x_ebed := x_ebed g; x_tau := x_tau g;
     x_rad := x_rad g; x_tortu := x_tortu g; x_psdfr := x_psdfr g; x_vw := x_vw g; x_dw := x_dw g;
     x_re := x_re g; x_mass_mul := x_mass_mul g; x_organic_free := x_organic_free g;
     x_K := x_K g; x_xn := x_xn g; x_mw := x_mw g; x_molvol := x_molvol g; x_kf := x_kf g; x_dp := x_dp g;
     x_ds := x_ds g; x_inf0 := x_inf0 g |}.
Lemma inlet_zero g rows i : at_time g (cinfA g rows) 0 i = interp_x (cin_table g i (rows i)) 0.
Proof.
  unfold at_time. replace (0 / tconv g) with (IZR 0) by (unfold Rdiv; ring).
  assert (IP : Int_part (IZR 0) = 0%Z).
  { unfold Int_part. rewrite <- (tech_up 0 1); [reflexivity|cbn; lra|cbn; lra]. }
  rewrite IP. cbn [Z.to_nat]. unfold cinfA at 3. cbn [INR]. ring.
Qed.
Lemma clean_surface g nr ff i z : cpore g nr ff (fun _ _ _ => 0) i (nr - 1) z = 0.
Proof.
  unfold cpore. rewrite Nat.eqb_refl.
  assert (E : cpore_raw g ff (fun _ _ _ => 0) i (nr - 1) z = 0).
  { unfold cpore_raw.
    assert (Y : yt0 g (fun _ _ _ => 0) (nr - 1) z = 0).
    { unfold yt0. apply rsum_zero. intros j _. unfold z_raw. rewrite Rmult_0_r.
      rewrite (proj2 (rltb_false 0 0)) by lra. ring. }
    rewrite Y. destruct (rltb _ _); [reflexivity|]. rewrite (proj2 (rleb_true 0 0)) by lra. reflexivity. }
  rewrite E. rewrite (proj2 (rltb_false 0 0)) by lra. reflexivity.
Qed.
(** At the start of a run, at the inlet of the fresh bed, listing a further compound whose influent
    is zero throughout makes the carbon take up every other compound faster. *)
Theorem C155_granular_refuted : forall inv legendre jroots nr nz ne m g N rows foul i,
  good_library inv legendre jroots nr nz -> calc_solver_matrix inv legendre jroots nr nz ne = Ok m ->
  physical g -> x_n g = S N -> (0 < N)%nat -> x_inf0 g N = 0 -> (forall r, In r (rows N) -> snd r = 0) -> (i < N)%nat ->
  0 < kf_v g i -> 0 < interp_x (cin_table g i (rows i)) 0 ->
  bead_uptake (gac_without_last g) nr m rows foul 0 (fun _ _ _ => 0) i 0
  < bead_uptake g nr m rows foul 0 (fun _ _ _ => 0) i 0.
Proof.
  intros inv leg jr nr nz ne m g N rows foul i HG Hm HP HX HN Z ZR Hi KF HI.
  assert (HP' : physical (gac_without_last g)).
  { constructor; cbn [x_n x_epor x_rhop x_ebed x_tau x_rad x_mass_mul x_K x_xn x_mw x_inf0 gac_without_last];
      try (apply HP); try lia; intros j Hj; apply HP; lia. }
  assert (Hi1 : (i < x_n g)%nat) by lia.
  assert (Hi2 : (i < x_n (gac_without_last g))%nat) by (cbn; lia).
  rewrite (C69_film_rate_partial inv leg jr nr nz ne m g rows foul 0 _ i 0 HG Hm HP Hi1).
  rewrite (C69_film_rate_partial inv leg jr nr nz ne m _ rows foul 0 _ i 0 HG Hm HP' Hi2).
  set (F := kf_v g i * (3 * (1 - x_ebed g) / x_rad g) * (cb0 g i * interp_x (cin_table g i (rows i)) 0)).
  assert (E : film_transfer g nr rows foul 0 (fun _ _ _ => 0) i 0 = F).
  { unfold film_transfer, outside, surface_liquid. cbn [Nat.eqb]. rewrite inlet_zero, clean_surface. unfold F. ring. }
  assert (E' : film_transfer (gac_without_last g) nr rows foul 0 (fun _ _ _ => 0) i 0 = F).
  { unfold film_transfer, outside, surface_liquid. cbn [Nat.eqb]. rewrite inlet_zero, clean_surface. unfold F.
    change (cin_table (gac_without_last g) i) with (cin_table g i). change (cb0 (gac_without_last g)) with (cb0 g).
    change (kf_v (gac_without_last g) i) with (kf_v g i). cbn [x_ebed x_rad gac_without_last]. ring. }
  rewrite E, E'.
  assert (FP : 0 < F).
  { assert (B := ph_ebed g HP). assert (Q := ph_rad g HP). assert (C := cb0_pos g HP i Hi1).
    unfold F. apply Rmult_lt_0_compat; [apply Rmult_lt_0_compat; [exact KF|]|apply Rmult_lt_0_compat; assumption].
    apply Rdiv_lt_0_compat; lra. }
  apply Rmult_lt_compat_r; [exact FP|].
  assert (D' : 0 < dgt (gac_without_last g)) by (apply dgt_pos; exact HP').
  assert (D : dgt g = dgt (gac_without_last g) + dg g N).
  { unfold dgt. cbn [x_n gac_without_last]. rewrite HX. replace (S N - 1)%nat with N by lia. reflexivity. }
  assert (P : 0 < dg g N) by (apply dg_pos; [exact HP|lia]).
  rewrite D. set (a := dgt (gac_without_last g)) in *. set (d := dg g N) in *. clearbody a d.
  apply Rmult_lt_reg_r with ((1 + a) * (1 + (a + d))); [apply Rmult_lt_0_compat; lra|].
  replace (a / (1 + a) * ((1 + a) * (1 + (a + d)))) with (a * (1 + (a + d))) by (field; lra).
  replace ((a + d) / (1 + (a + d)) * ((1 + a) * (1 + (a + d)))) with ((a + d) * (1 + a)) by (field; lra).
  lra.
Qed.

(** ** The hypotheses are met *)

(** Chloride, sulphate, nitrate instead of chloride, nitrate, sulphate. *)
Definition swap12 (i : nat) : nat := match i with 1%nat => 2%nat | 2%nat => 1%nat | _ => i end.
Example swap_relabels : relabelling 3 swap12 /\ swap12 0%nat = 0%nat /\ Kxc (reordered swap12 ex_col) 1%nat <> Kxc ex_col 1%nat.
Proof.
  split; [split|split; [reflexivity|cbn; lra]].
  - intros [|[|[|i]]] H; cbn; lia.
  - intros [|[|[|i]]] [|[|[|j]]] Hi Hj; cbn; lia.
Qed.
Example reordered_run : forall psdm op, build_operators even_roots (fun m _ _ => even_roots m) 4 5 false = Ok op ->
  is_trajectory 4 3 5 (fun T => rhs psdm (reordered swap12 ex_col) op 100 (fun _ => 1)) 7 (fun _ => reordered_state swap12 (ex_steady psdm)).
Proof.
  intros psdm op H.
  refine (C154_ion_exchange psdm ex_col swap12 op 100 (fun _ _ => 1) 7 (fun _ => ex_steady psdm) _ (proj1 swap_relabels) eq_refl _); [cbn; lia|].
  apply (ex_col_trajectory psdm op H).
Qed.
(** A fourth ion, monovalent and nowhere present. *)
Definition ex_col4 : column :=
  {| NION := 4; nr := 4; nz := 5; EBED := 2 / 5; EPOR := 1 / 5; Lbed := 50; vel := 1 / 10;
     rb := 1 / 30; Qcap := 1400; kL := fun _ => 1 / 400; Ds := fun _ => 1 / 10000000; Dp := fun _ => 1 / 1000000;
     Kxc := fun i => match i with O => 1 | 1%nat => 3 | _ => 2 end;
     val := fun i => match i with 2%nat => 2%nat | _ => 1%nat end |}.
Definition padded (u : state) : state := fun r i z => if Nat.eqb i 3 then 0 else u r i z.
Definition feed4 : nat -> R := fun i => if Nat.eqb i 3 then 0 else 1.
Example bystander_run : forall psdm op, build_operators even_roots (fun m _ _ => even_roots m) 4 5 false = Ok op ->
  is_trajectory 4 4 5 (fun T => rhs psdm ex_col4 op 100 feed4) 7 (fun _ => padded (ex_steady psdm)).
Proof.
  intros psdm op H.
  refine (proj2 (C155_ion_exchange_partial psdm ex_col4 3 op 100 (fun _ => feed4) 7 (fun _ => padded (ex_steady psdm)) _ eq_refl _ _ _ _) _);
    try (cbn; lia); try reflexivity.
  - intros T z k Hz Hk. left. reflexivity.
  - apply (C18_equilibrium_history psdm (without_last ex_col4)).
    intros r i z Hr Hi Hz.
    apply (C18_equilibrium_is_stationary even_roots (fun m _ _ => even_roots m) false op psdm (without_last ex_col4) 100
      feed4 (padded (ex_steady psdm)) (fun i _ => padded (ex_steady psdm) 1%nat i 0%nat)); try assumption; cbn; try lia.
    + exact even_roots_good.
    + intros [|[|j]] _; cbn; lra.
    + split; [reflexivity|]. intros [|[|[|j]]] Hj; cbn; auto.
    + intros [|[|[|j]]] Hj; cbn; (lra || lia).
    + intros [|[|[|j]]] Hj w; cbn; try reflexivity; lia.
    + intros; reflexivity.
    + intros w _. assert (T : theta psdm (without_last ex_col4) <> 0) by (destruct psdm; cbn; lra).
      assert (E : forall x, theta psdm ex_col * x / theta psdm (without_last ex_col4) = x) by (intros; destruct psdm; cbn; field).
      split.
      * split; [cbn; rewrite E; lra|]. intros [|[|[|j]]] Hj; cbn; rewrite ?E; try lra; lia.
      * left. split; [exists 2%nat; split; [lia|reflexivity]|].
        intros [|[|[|j]]] Hj1 Hj2; try lia; cbn; rewrite !E; lra.
Qed.
(** Two monovalent ions, then sulphate, absent. *)
Example quiet_example :
  quiet 2 (fun i => match i with 1%nat => 3 | _ => 1 end) (fun i => match i with 2%nat => 2%nat | _ => 1%nat end) (fun i => match i with O => 900 | 1%nat => 500 | _ => 0 end) /\
  has_divalent 3 (fun i => match i with 2%nat => 2%nat | _ => 1%nat end) <> has_divalent 2 (fun i => match i with 2%nat => 2%nat | _ => 1%nat end).
Proof.
  split; [right|discriminate]. split; [intros [|[|i]] H; (reflexivity || lia)|]. split; [reflexivity|].
  split; [intros [|[|i]] H; lra|]. split; [intros [|[|i]] H; lra|lra].
Qed.
(** The batch run of [ex_run_trajectory], with a third ion on the sheet. *)
Definition ex_batch3 (v : nat) : batch :=
  {| b_NION := 3; b_nr := 1; b_Qm := 1; b_RHOP := 1; b_EPOR := 1 / 5; b_VR := 1; b_VL := 1;
     b_Ds := 1; b_Dp := 1; b_kL := 1; b_rb := 3; b_C0 := fun i => match i with 1%nat => 1 | _ => 0 end;
     b_K := fun _ => 2; b_val := fun i => match i with 2%nat => v | _ => 1%nat end |}.
Example batch_bystander_run : forall psdm, is_batch_trajectory 1 3 (batch_rhs psdm (ex_batch3 1) ex_op) 5 ex_run.
Proof.
  intros psdm.
  refine (proj2 (proj1 (C155_batch_partial psdm (ex_batch3 1) 2 ex_op 5 ex_run _ eq_refl _ eq_refl _)) _);
    [lia|discriminate|intros T [|r]; reflexivity|].
  replace (batch_without_last (ex_batch3 1)) with ex_batch; [apply ex_run_trajectory|].
  unfold batch_without_last, ex_batch, ex_batch3. cbn. f_equal.
  apply FunctionalExtensionality.functional_extensionality. intros [|[|[|i]]]; reflexivity.
Qed.
Example batch_sulphate_seeded : batch_initial (ex_batch3 2) 1%nat 2%nat = 1 / 1000.
Proof.
  destruct (C155_batch_refuted (ex_batch3 2) 2 0) as (E & _); try reflexivity; try lia; [discriminate|unfold b_Q; cbn; lra|].
  rewrite E. unfold b_Q. cbn. field.
Qed.
(** Two solutes, the second absent. *)
Definition g_absent : gac_in :=
  {| x_n := 2; x_epor := 1 / 2; x_rhop := 1; x_ebed := 1 / 2; x_tau := 60; x_rad := 1 / 20;
     x_tortu := 1; x_psdfr := 5; x_vw := 1 / 100; x_dw := 1; x_re := 1; x_mass_mul := 1; x_organic_free := true;
     x_K := fun i => 10; x_xn := fun i => 1 / 2; x_mw := fun i => 100; x_molvol := fun i => 100;
     x_kf := fun i => 1 / 1000; x_dp := fun i => 1 / 10 ^ 6; x_ds := fun i => 1 / 10 ^ 9;
     x_inf0 := fun i => match i with O => 100 | _ => 0 end |}.
Definition rows_absent (i : nat) : list (R * R) := match i with O => [(0, 100); (1000, 100)] | _ => [(0, 0); (1000, 0)] end.
Example absent_compound_acts : exists m, calc_solver_matrix inv23 leg_mid jac_one 2 3 1 = Ok m /\ forall foul,
  bead_uptake (gac_without_last g_absent) 2 m rows_absent foul 0 (fun _ _ _ => 0) 0 0
  < bead_uptake g_absent 2 m rows_absent foul 0 (fun _ _ _ => 0) 0 0.
Proof.
  destruct (matrices_example 1 (le_n _)) as (m & Hm & _). exists m. split; [exact Hm|]. intros foul.
  apply (C155_granular_refuted inv23 leg_mid jac_one 2 3 1 m g_absent 1); try reflexivity; try lia; try exact Hm.
  - exact library_example.
  - split; cbn; try lra; try lia; intros i Hi; try lra. destruct i; lra.
  - intros r [<- |[<- |[]]]; reflexivity.
  - unfold kf_v. cbn [x_kf g_absent]. rewrite (proj2 (rltb_true 0 (1 / 1000))) by lra. lra.
  - unfold cin_table, rows_absent. cbn [map fst snd].
    assert (C : cb0 g_absent 0 = 1).
    { unfold cb0. cbn [x_inf0 x_mass_mul x_mw g_absent]. replace (100 * 1 / 100) with 1 by field.
      destruct (reqb 1 0); reflexivity. }
    rewrite C. cbn [x_mass_mul x_mw g_absent]. replace (100 * 1 / 100 / 1) with 1 by field.
    change [(0, 1); (1000, 1)] with (steady 1 1000). rewrite (steady_at 1 1000 0); lra.
Qed.

Print Assumptions C154_ion_exchange.
Print Assumptions C154_ion_exchange_start.
Print Assumptions C154_granular.
Print Assumptions C154_granular_reported.
Print Assumptions C154_batch.
Print Assumptions C155_ion_exchange_partial.
Print Assumptions C155_ion_exchange_start_partial.
Print Assumptions C155_batch_partial.
Print Assumptions C155_batch_refuted.
Print Assumptions C155_granular_refuted.
