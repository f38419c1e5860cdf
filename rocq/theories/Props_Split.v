(** Property C173: an ion listed in several rows. *)
From Coq Require Import Reals List Arith Bool Lra Lia FunctionalExtensionality.
From Verif Require Import Lib_Py Lib_Sum Lib_Traj S_IxColumn S_IxBatch S_Split M_Colloc M_IxEq M_IxColumn M_IxBatch.
From Verif Require Import S_IxEq S_Unique Props_Unique Props_Exist.
Import ListNotations.
Open Scope R_scope.

Lemma first_off n f : (0 < n)%nat -> rsum n f = f 0%nat + rsum (n - 1) (fun k => f (S k)).
Proof. intros H. destruct n as [|m]; [lia|]. rewrite rsum_S_first. cbn [Nat.sub]. rewrite Nat.sub_0_r. reflexivity. Qed.
(** ** Totals *)
Section Total.
Variables (rows ions : nat) (g : nat -> nat).
Hypothesis HL : listing rows ions g.
Notation M := (total rows g).
Lemma total_ext f h i : (forall j, (j < rows)%nat -> g j = i -> f j = h j) -> M f i = M h i.
Proof. intros E. apply rsum_ext. intros j Hj. destruct (Nat.eqb_spec (g j) i); [apply E; assumption|reflexivity]. Qed.
Lemma total_scal a f i : M (fun j => a * f j) i = a * M f i.
Proof. unfold total. rewrite <- rsum_scal. apply rsum_ext. intros j _. destruct (Nat.eqb (g j) i); ring. Qed.
Lemma total_own a f i : M (fun j => a (g j) * f j) i = a i * M f i.
Proof. rewrite <- total_scal. apply total_ext. intros j _ ->. reflexivity. Qed.
Lemma total_over a f : M (fun j => f j / a) = fun i => M f i / a.
Proof. apply functional_extensionality. intros i. unfold Rdiv. rewrite Rmult_comm, <- total_scal. apply total_ext. intros. ring. Qed.
Lemma total_plus f h i : M (fun j => f j + h j) i = M f i + M h i.
Proof. unfold total. rewrite <- rsum_plus. apply rsum_ext. intros j _. destruct (Nat.eqb (g j) i); ring. Qed.
Lemma total_minus f h i : M (fun j => f j - h j) i = M f i - M h i.
Proof. unfold total. rewrite <- rsum_minus. apply rsum_ext. intros j _. destruct (Nat.eqb (g j) i); ring. Qed.
Lemma total_rsum n f i : M (fun j => rsum n (fun k => f k j)) i = rsum n (fun k => M (f k) i).
Proof.
  unfold total. rewrite rsum_swap. apply rsum_ext. intros j _. destruct (Nat.eqb (g j) i); [reflexivity|]. symmetry. apply rsum_zero. reflexivity.
Qed.
Lemma ions_rows : (0 < rows)%nat -> (0 < ions)%nat.
Proof. intros H. destruct HL as (A & _). destruct (A 0%nat H) as (B & _). lia. Qed.
Lemma rows_pos : (0 < ions)%nat -> (0 < rows)%nat.
Proof. intros H. destruct HL as (_ & B). destruct (B 0%nat H) as (j & Hj & _). lia. Qed.
Lemma total_first f : (0 < ions)%nat -> M f 0%nat = f 0%nat.
Proof.
  intros H0. pose proof (rows_pos H0) as R0. destruct HL as (A & _). unfold total. rewrite (rsum_single rows _ 0%nat R0).
  - destruct (A 0%nat R0) as (_ & B). rewrite (proj2 B eq_refl). reflexivity.
  - intros j Hj N. destruct (A j Hj) as (_ & B). destruct (Nat.eqb_spec (g j) 0) as [E|]; [|reflexivity]. apply B in E. contradiction.
Qed.
(** Sums over the rows are sums over the ions. *)
Lemma total_sum f : rsum rows f = rsum ions (M f).
Proof.
  unfold total. rewrite rsum_swap. apply rsum_ext. intros j Hj. destruct HL as (A & _). destruct (A j Hj) as (B & _).
  rewrite (rsum_single ions _ (g j) B); [rewrite Nat.eqb_refl; reflexivity|]. intros i _ N. destruct (Nat.eqb_spec (g j) i); [congruence|reflexivity].
Qed.
Lemma total_weight a f : rsum rows (fun j => a (g j) * f j) = rsum ions (fun i => a i * M f i).
Proof. rewrite total_sum. apply rsum_ext. intros i _. apply total_own. Qed.
Lemma total_rest f : (0 < ions)%nat -> rsum (rows - 1) (fun k => f (S k)) = rsum (ions - 1) (fun k => M f (S k)).
Proof.
  intros H0. pose proof (rows_pos H0) as R0. assert (E := total_sum f).
  rewrite (first_off rows f R0), (first_off ions (M f) H0), total_first in E by exact H0. lra.
Qed.
Lemma total_presat (f : nat -> R) (F : nat -> R) i : (i < ions)%nat -> (forall k, (1 <= k < ions)%nat -> M f k = F k) ->
  M (fun j => if Nat.eqb j 0 then - rsum (rows - 1) (fun k => f (S k)) else f j) i =
  (if Nat.eqb i 0 then - rsum (ions - 1) (fun k => F (S k)) else F i).
Proof.
  intros Hi E. destruct (Nat.eqb_spec i 0) as [->|N].
  - rewrite total_first by lia. cbn [Nat.eqb]. rewrite total_rest by lia. f_equal. apply rsum_ext. intros k Hk. apply E. lia.
  - rewrite <- E by lia. apply total_ext. intros j Hj G. destruct (Nat.eqb_spec j 0) as [->|]; [|reflexivity].
    destruct HL as (A & _). destruct (A 0%nat Hj) as (_ & B). rewrite (proj2 B eq_refl) in G. congruence.
Qed.

(** ** The equilibria *)
Variables (K K' : nat -> R) (val val' : nat -> nat).
Hypothesis HR : forall j, (j < rows)%nat -> K' j = K (g j) /\ val' j = val (g j).
Lemma divalent_same : has_divalent rows val' = has_divalent ions val.
Proof.
  unfold has_divalent, dv_idx. destruct HL as (A & B). apply eq_true_iff_eq. rewrite !existsb_exists. split.
  - intros (j & Hj & E). apply in_seq in Hj. exists (g j). split; [apply in_seq; destruct (A j ltac:(lia)); lia|]. rewrite <- (proj2 (HR j ltac:(lia))). exact E.
  - intros (i & Hi & E). apply in_seq in Hi. destruct (B i ltac:(lia)) as (j & Hj & <-). exists j. split; [apply in_seq; lia|]. rewrite (proj2 (HR j Hj)). exact E.
Qed.
Lemma mv_same q CT i : (i < ions)%nat -> M (Ceq_mv rows K' q CT) i = Ceq_mv ions K (M q) CT i.
Proof.
  intros Hi. unfold Ceq_mv.
  transitivity (M (fun j => CT / rsum ions (fun l => alpha K (g j) l * M q l) * q j) i).
  - apply total_ext. intros j Hj _. rewrite <- (total_weight (fun l => alpha K (g j) l) q).
    rewrite (rsum_ext rows (fun l => alpha K' j l * q l) (fun l => alpha K (g j) (g l) * q l)).
    + unfold Rdiv. ring.
    + intros l Hl. unfold alpha. rewrite (proj1 (HR j Hj)), (proj1 (HR l Hl)). reflexivity.
  - rewrite (total_own (fun i => CT / rsum ions (fun l => alpha K i l * M q l))). unfold Rdiv. ring.
Qed.
Lemma masked_same (mask mask' : nat -> bool) q : (forall j, (j < rows)%nat -> mask' j = mask (g j)) ->
  masked_sum rows mask' (fun j => q j / K' j) = masked_sum ions mask (fun i => M q i / K i).
Proof.
  intros E. unfold masked_sum. rewrite (rsum_ext rows _ (fun j => (if mask (g j) then / K (g j) else 0) * q j)).
  - rewrite (total_weight (fun i => if mask i then / K i else 0)). apply rsum_ext. intros i _. destruct (mask i); unfold Rdiv; ring.
  - intros j Hj. rewrite (E j Hj), (proj1 (HR j Hj)). destruct (mask (g j)); unfold Rdiv; ring.
Qed.
Lemma aa_same q : (0 < ions)%nat -> eq_aa rows K' val' q = eq_aa ions K val (M q).
Proof.
  intros H0. unfold eq_aa. rewrite total_first by exact H0. f_equal. apply masked_same. intros j Hj. unfold dv_idx. rewrite (proj2 (HR j Hj)). reflexivity.
Qed.
Lemma bb_same q : (0 < ions)%nat -> eq_bb rows K' val' q = eq_bb ions K val (M q).
Proof.
  intros H0. unfold eq_bb. rewrite total_first by exact H0. f_equal. f_equal. apply masked_same. intros j Hj. unfold mv_idx. rewrite (proj2 (HR j Hj)).
  f_equal. f_equal. destruct HL as (A & _). destruct (A j Hj) as (_ & B). destruct (Nat.eqb_spec j 0), (Nat.eqb_spec (g j) 0); tauto.
Qed.
Lemma action_same q Cc i : (i < ions)%nat -> M (mass_action K' val' q Cc) i = mass_action K val (M q) Cc i.
Proof.
  intros Hi. unfold mass_action. rewrite (total_first q) by lia. destruct (Nat.eqb_spec i 0) as [->|N].
  - rewrite total_first by lia. reflexivity.
  - transitivity (M (fun j => / K (g j) * (Cc / q 0%nat) ^ val (g j) * q j) i).
    + apply total_ext. intros j Hj G. destruct (HR j Hj) as (-> & ->). destruct (Nat.eqb_spec j 0) as [->|]; [|unfold Rdiv; ring].
      destruct HL as (A & _). destruct (A 0%nat Hj) as (_ & B). rewrite (proj2 B eq_refl) in G. congruence.
    + rewrite (total_own (fun i => / K i * (Cc / q 0%nat) ^ val i)). unfold Rdiv. ring.
Qed.
Lemma Ceq_same q CT i : (i < ions)%nat -> M (calc_Ceq rows K' val' q CT) i = calc_Ceq ions K val (M q) CT i.
Proof.
  intros Hi. unfold calc_Ceq. rewrite divalent_same. destruct (has_divalent ions val); [|apply mv_same, Hi].
  unfold Ceq_dv, Cc_column. rewrite aa_same, bb_same by lia. apply action_same, Hi.
Qed.
Lemma Ceq_batch_same q CT Cq : (0 < ions)%nat -> calc_Ceq_batch rows K' val' q CT = Some Cq ->
  exists Ce, calc_Ceq_batch ions K val (M q) CT = Some Ce /\ forall i, (i < ions)%nat -> Ce i = M Cq i.
Proof.
  intros H0. unfold calc_Ceq_batch. rewrite divalent_same. destruct (has_divalent ions val).
  - unfold Ceq_dv_batch. rewrite aa_same, bb_same by exact H0. destruct (reqb _ 0); [discriminate|]. intros E. injection E as <-. eexists. split; [reflexivity|].
    intros i Hi. rewrite action_same by exact Hi. reflexivity.
  - intros E. injection E as <-. eexists. split; [reflexivity|]. intros i Hi. rewrite mv_same by exact Hi. reflexivity.
Qed.
End Total.

(** ** Columns *)
Section Column.
Variables (g : nat -> nat) (c c' : column).
Hypothesis HS : split_rows g c c'.
Hypothesis N0 : (0 < NION c)%nat.
Let HL := sr_listing _ _ _ HS.
Notation M := (total (NION c') g).
Variables (op : operators) (th : R) (Cin : nat -> R) (u : state).
Definition summed (v : state) : state := fun r i z => M (fun j => v r j z) i.
Lemma HR : forall j, (j < NION c')%nat -> Kxc c' j = Kxc c (g j) /\ val c' j = val c (g j).
Proof. intros j Hj. destruct (sr_rows _ _ _ HS j Hj) as (_ & _ & _ & A & B). split; assumption. Qed.
Lemma liq_sum i z : M (fun j => liq Cin u j z) i = liq (M Cin) (summed u) i z.
Proof. unfold liq. destruct (Nat.eqb z 0); reflexivity. Qed.
Lemma CT_sum z : CTz c' Cin u z = CTz c (M Cin) (summed u) z.
Proof. unfold CTz. rewrite (total_sum _ _ g HL). apply rsum_ext. intros i _. apply liq_sum. Qed.
Lemma presat_sum (f F : nat -> R) i : (i < NION c)%nat -> (forall k, (1 <= k < NION c)%nat -> M f k = F k) ->
  M (implicit_presat c' f) i = implicit_presat c F i.
Proof. intros Hi E. unfold implicit_presat. exact (total_presat (NION c') (NION c) g HL f F i Hi E). Qed.
Lemma flux_sum qs i z : (i < NION c)%nat -> M (fun j => flux c' Cin u qs j z) i = flux c (M Cin) (summed u) (M qs) i z.
Proof.
  intros Hi. unfold flux. apply (presat_sum (fun i => - kL c' i * (liq Cin u i z - calc_Ceq (NION c') (Kxc c') (val c') qs (CTz c' Cin u z) i))); [exact Hi|].
  intros k Hk. rewrite <- CT_sum, <- (Ceq_same (NION c') (NION c) g HL (Kxc c) (Kxc c') (val c) (val c') HR) by lia. rewrite <- liq_sum, <- total_minus.
  rewrite <- (total_own (NION c') g (fun i => - kL c i)). apply total_ext. intros j Hj _. rewrite (proj1 (sr_rows _ _ _ HS j Hj)). reflexivity.
Qed.
Lemma dC_sum J J' i z : (forall z, M (fun j => J' j z) i = J i z) ->
  M (fun j => dC c' op th Cin u J' j z) i = dC c op th (M Cin) (summed u) J i z.
Proof.
  intros EJ. unfold dC. rewrite (sr_bed _ _ _ HS), (sr_L _ _ _ HS), (sr_v _ _ _ HS), (sr_rb _ _ _ HS), (sr_nz _ _ _ HS), <- EJ.
  rewrite (rsum_ext (nz c) (fun j => Az op z j * liq (M Cin) (summed u) i j) (fun k => Az op z k * M (fun j => liq Cin u j k) i)) by (intros k _; rewrite liq_sum; reflexivity).
  transitivity (M (fun j => th / EBED c * (- vel c / Lbed c) * rsum (nz c) (fun k => Az op z k * liq Cin u j k) + th / EBED c * ((1 - EBED c) * (3 / rb c)) * J' j z) i).
  - apply total_ext. intros j _ _. unfold Rdiv. ring.
  - rewrite total_plus, !total_scal, total_rsum. rewrite (rsum_ext (nz c) (fun k => M (fun j => Az op z k * liq Cin u j k) i) (fun k => Az op z k * M (fun j => liq Cin u j k) i)) by (intros k _; apply total_scal).
    unfold Rdiv. ring.
Qed.
Lemma assemble_sum J J' dq dq' r i z : (i < NION c)%nat -> (forall z, M (fun j => J' j z) i = J i z) -> (forall r z, M (fun j => dq' r j z) i = dq r i z) ->
  M (fun j => assemble c' op th Cin u J' dq' r j z) i = assemble c op th (M Cin) (summed u) J dq r i z.
Proof.
  intros Hi EJ ED. unfold assemble. destruct r as [|k].
  - destruct (Nat.eqb z 0); [unfold total; apply rsum_zero; intros j _; destruct (Nat.eqb (g j) i); reflexivity|apply dC_sum, EJ].
  - rewrite (sr_nr _ _ _ HS), (sr_rb _ _ _ HS). destruct (Nat.eqb k (nr c - 1)); [|apply ED].
    transitivity (M (fun j => / Wr op (nr c - 1)%nat * (- th / rb c) * J' j z - / Wr op (nr c - 1)%nat * rsum (nr c - 1) (fun m => Wr op m * dq' m j z)) i).
    + apply total_ext. intros j _ _. unfold Rdiv. ring.
    + rewrite total_minus, !total_scal, total_rsum, EJ. rewrite (rsum_ext (nr c - 1) (fun m => M (fun j => Wr op m * dq' m j z) i) (fun m => Wr op m * dq m i z)) by (intros m _; rewrite total_scal, ED; reflexivity).
      unfold Rdiv. ring.
Qed.
Lemma Br_sum (f : nat -> nat -> R) r i : M (fun j => rsum (nr c) (fun m => Br op r m * f m j)) i = rsum (nr c) (fun m => Br op r m * M (f m) i).
Proof. rewrite total_rsum. apply rsum_ext. intros m _. apply total_scal. Qed.
Lemma rhs_sum psdm r i z : (i < NION c)%nat -> M (fun j => rhs psdm c' op th Cin u r j z) i = rhs psdm c op th (M Cin) (summed u) r i z.
Proof.
  intros Hi. destruct psdm; cbn [rhs].
  - unfold diffun_psdm. apply assemble_sum; [exact Hi| |].
    + intros z0. unfold psdm_J. rewrite flux_sum by exact Hi. rewrite (sr_nr _ _ _ HS), (sr_por _ _ _ HS), total_over. reflexivity.
    + intros r0 z0. unfold psdm_dY. apply presat_sum; [exact Hi|]. intros k Hk. rewrite (sr_por _ _ _ HS), (sr_rb _ _ _ HS), (sr_nr _ _ _ HS).
      transitivity (M (fun j => th / rb c ^ 2 * EPOR c * (Dp c (g j) - Ds c (g j)) * rsum (nr c) (fun m => Br op r0 m * psdm_Cpore c' Cin u m j z0)
                                + th / rb c ^ 2 * Ds c (g j) * rsum (nr c) (fun m => Br op r0 m * u (S m) j z0)) k).
      * apply total_ext. intros j Hj _. destruct (sr_rows _ _ _ HS j Hj) as (_ & -> & -> & _). unfold Rdiv. ring.
      * rewrite total_plus, (total_own _ _ (fun i => th / rb c ^ 2 * EPOR c * (Dp c i - Ds c i))), (total_own _ _ (fun i => th / rb c ^ 2 * Ds c i)).
        rewrite (Br_sum (fun m j => psdm_Cpore c' Cin u m j z0)), (Br_sum (fun m j => u (S m) j z0)).
        rewrite (rsum_ext (nr c) (fun m => Br op r0 m * M (fun j => psdm_Cpore c' Cin u m j z0) k) (fun m => Br op r0 m * psdm_Cpore c (M Cin) (summed u) m k z0)).
        -- change (fun m => Br op r0 m * summed u (S m) k z0) with (fun m => Br op r0 m * M (fun j => u (S m) j z0) k). unfold Rdiv. ring.
        -- intros m _. f_equal. unfold psdm_Cpore. rewrite (Ceq_same (NION c') (NION c) g HL (Kxc c) (Kxc c') (val c) (val c') HR) by lia.
           rewrite CT_sum. unfold psdm_q. rewrite (sr_por _ _ _ HS), total_over. reflexivity.
  - unfold diffun_hsdm. apply assemble_sum; [exact Hi| |].
    + intros z0. unfold hsdm_J. rewrite flux_sum by exact Hi. rewrite (sr_nr _ _ _ HS). reflexivity.
    + intros r0 z0. unfold hsdm_dq. apply presat_sum; [exact Hi|]. intros k Hk. rewrite (sr_rb _ _ _ HS), (sr_nr _ _ _ HS).
      transitivity (M (fun j => (Ds c (g j) * th / rb c ^ 2) * rsum (nr c) (fun m => Br op r0 m * u (S m) j z0)) k).
      * apply total_ext. intros j Hj _. destruct (sr_rows _ _ _ HS j Hj) as (_ & -> & _). reflexivity.
      * rewrite (total_own _ _ (fun i => Ds c i * th / rb c ^ 2)), (Br_sum (fun m j => u (S m) j z0)). reflexivity.
Qed.
End Column.

(** ** C173 — the totals of a run are the run of the totals *)
Theorem C173_column : forall g psdm c c' op th Cin Tf y, (0 < NION c)%nat -> split_rows g c c' ->
  is_trajectory (nr c') (NION c') (nz c') (fun T => rhs psdm c' op th (Cin T)) Tf y ->
  is_trajectory (nr c) (NION c) (nz c) (fun T => rhs psdm c op th (total (NION c') g (Cin T))) Tf
    (fun T r i z => total (NION c') g (fun j => y T r j z) i).
Proof.
  intros g psdm c c' op th Cin Tf y N0 HS TR r i z Hr Hi Hz. rewrite <- (sr_nr _ _ _ HS) in Hr. rewrite <- (sr_nz _ _ _ HS) in Hz.
  eapply evolves_ext with (f := fun T => rsum (NION c') (fun j => (if Nat.eqb (g j) i then 1 else 0) * y T r j z))
    (f' := fun T => rsum (NION c') (fun j => (if Nat.eqb (g j) i then 1 else 0) * rhs psdm c' op th (Cin T) (y T) r j z)).
  - intros T. apply rsum_ext. intros j _. destruct (Nat.eqb (g j) i); ring.
  - intros T _. transitivity (total (NION c') g (fun j => rhs psdm c' op th (Cin T) (y T) r j z) i).
    + apply rsum_ext. intros j _. destruct (Nat.eqb (g j) i); ring.
    + apply (rhs_sum g c c' HS N0); exact Hi.
  - apply evolves_rsum. intros j Hj. apply evolves_scal, TR; assumption.
Qed.
(** The solver starts, and divides the time, as for the totals. *)
Theorem C173_column_start : forall g c c' Cin, (0 < NION c)%nat -> split_rows g c c' ->
  (forall r i z, (i < NION c)%nat -> initial_state c (total (NION c') g Cin) None r i z = total (NION c') g (fun j => initial_state c' Cin None r j z) i) /\
  t_half c' (rsum (NION c') Cin) = t_half c (rsum (NION c) (total (NION c') g Cin)).
Proof.
  intros g c c' Cin N0 HS. assert (HL := sr_listing _ _ _ HS). split.
  - intros r i z Hi. unfold initial_state. rewrite <- (total_sum _ _ g HL), (sr_Q _ _ _ HS).
    assert (Z : forall a, total (NION c') g (fun j => if Nat.eqb j 0 then a else 0) i = if Nat.eqb i 0 then a else 0).
    { intros a. destruct (Nat.eqb_spec i 0) as [->|N]; [rewrite (total_first _ _ g HL) by exact N0; reflexivity|].
      unfold total. apply rsum_zero. intros j Hj. destruct (Nat.eqb_spec (g j) i) as [E|]; [|reflexivity]. destruct (Nat.eqb_spec j 0) as [->|]; [|reflexivity].
      destruct HL as (A & _). destruct (A 0%nat Hj) as (_ & B). rewrite (proj2 B eq_refl) in E. congruence. }
    destruct r; [destruct (Nat.eqb z 0); [reflexivity|]|]; rewrite Z; reflexivity.
  - rewrite (total_sum _ _ g HL). unfold t_half, tau, DGT. rewrite (sr_bed _ _ _ HS), (sr_L _ _ _ HS), (sr_v _ _ _ HS), (sr_Q _ _ _ HS). reflexivity.
Qed.

(** The influent read from a sheet in which the columns of an ion are added up. *)
Lemma interp_where xs T : (forall ys, List.length ys = List.length xs -> interp1d (combine xs ys) T = Err ValueError) \/
  exists k w, (S k < List.length xs)%nat /\ forall ys, List.length ys = List.length xs -> interp1d (combine xs ys) T = Ok (nth k ys 0 + (nth (S k) ys 0 - nth k ys 0) * w).
Proof.
  induction xs as [|x0 xs IH]; [left; intros ys _; reflexivity|]. destruct xs as [|x1 xs].
  - left. intros [|y [|]] H; try discriminate H. reflexivity.
  - destruct (rleb x0 T && rleb T x1)%bool eqn:E.
    + right. exists 0%nat, (/ (x1 - x0) * (T - x0)). split; [cbn; lia|]. intros [|y0 [|y1 ys]] H; try discriminate H. cbn [combine interp1d nth]. rewrite E. f_equal. unfold Rdiv. ring.
    + destruct IH as [IH|(k & w & Hk & IH)].
      * left. intros [|y0 [|y1 ys]] H; try discriminate H. cbn [combine interp1d]. rewrite E. apply (IH (y1 :: ys)). cbn in H |- *. lia.
      * right. exists (S k), w. split; [cbn in Hk |- *; lia|]. intros [|y0 [|y1 ys]] H; try discriminate H. specialize (IH (y1 :: ys) ltac:(cbn in H |- *; lia)).
        cbn [combine interp1d]. rewrite E. exact IH.
Qed.
Theorem C173_influent : forall rows g const tm th times (col : nat -> list R) T v, (0 < List.length times)%nat ->
  (forall j, (j < rows)%nat -> List.length (col j) = List.length times /\ get_Cin const tm th times (col j) T = Ok (v j)) ->
  (0 < rows)%nat ->
  forall i, get_Cin const tm th times (map (fun k => total rows g (fun j => nth k (col j) 0) i) (seq 0 (List.length times))) T = Ok (total rows g v i).
Proof.
  intros rows g const tm th times col T v HT HC H0 i. unfold get_Cin in *. destruct const.
  - destruct times as [|t ts]; [cbn in HT; lia|]. cbn [seq List.length map]. f_equal. apply total_ext. intros j Hj _. destruct (HC j Hj) as (L & E).
    destruct (col j) as [|a l]; [discriminate E|]. injection E as <-. reflexivity.
  - set (xs := map (fun t => t * (tm / th)) times) in *. assert (LX : List.length xs = List.length times) by apply map_length.
    destruct (interp_where xs T) as [B|(k & w & Hk & B)].
    + destruct (HC 0%nat H0) as (L & E). rewrite B in E by lia. discriminate E.
    + rewrite B by (rewrite map_length, seq_length; lia). f_equal.
      assert (NT : forall k, (k < List.length times)%nat -> nth k (map (fun k => total rows g (fun j => nth k (col j) 0) i) (seq 0 (List.length times))) 0 = total rows g (fun j => nth k (col j) 0) i).
      { intros m Hm. rewrite (nth_indep _ 0 (total rows g (fun j => nth 0 (col j) 0) i)) by (rewrite map_length, seq_length; exact Hm).
        rewrite (map_nth (fun k => total rows g (fun j => nth k (col j) 0) i)), seq_nth by exact Hm. reflexivity. }
      rewrite !NT by lia. rewrite Rmult_comm, <- total_minus, <- total_scal, <- total_plus. apply total_ext. intros j Hj _.
      destruct (HC j Hj) as (L & E). rewrite B in E by lia. injection E as <-. ring.
Qed.

(** ** Batches *)
Section Batch.
Variables (g : nat -> nat) (b b' : batch).
Hypothesis HS : split_batch g b b'.
Hypothesis N0 : (0 < b_NION b)%nat.
Let HL := sp_listing _ _ _ HS.
Notation M := (total (b_NION b') g).
Lemma bCT_sum : b_CT b' = b_CT b.
Proof. unfold b_CT. rewrite (total_sum _ _ g HL). apply rsum_ext. intros i Hi. symmetry. apply (sp_C0 _ _ _ HS), Hi. Qed.
Variables (op : radial) (u : bstate).
Definition bsummed : bstate := fun r i => M (u r) i.
Lemma bassemble_sum Ce Ce' dq dq' r i : M Ce' i = Ce i -> (forall r, M (dq' r) i = dq r i) ->
  M (batch_assemble b' op u Ce' dq' r) i = batch_assemble b op bsummed Ce dq r i.
Proof.
  intros EC ED. unfold batch_assemble. rewrite (sp_kL _ _ _ HS), (sp_VR _ _ _ HS), (sp_VL _ _ _ HS), (sp_rb _ _ _ HS), (sp_nr _ _ _ HS). rewrite <- EC.
  destruct r as [|k].
  - transitivity (M (fun j => 3 * b_VR b / b_rb b * - b_kL b / b_VL b * (u 0%nat j - Ce' j)) i); [apply total_ext; intros; unfold Rdiv; ring|].
    rewrite total_scal, total_minus. unfold bsummed, Rdiv. ring.
  - destruct (Nat.eqb k (b_nr b - 1)); [|apply ED].
    transitivity (M (fun j => / rWr op (b_nr b - 1)%nat * (b_kL b / b_rb b) * (u 0%nat j - Ce' j) - / rWr op (b_nr b - 1)%nat * rsum (b_nr b - 1) (fun m => rWr op m * dq' m j)) i);
      [apply total_ext; intros; unfold Rdiv; ring|].
    rewrite total_minus, !total_scal, total_minus, total_rsum.
    rewrite (rsum_ext (b_nr b - 1) (fun m => M (fun j => rWr op m * dq' m j) i) (fun m => rWr op m * dq m i)) by (intros m _; rewrite total_scal, ED; reflexivity).
    unfold bsummed, Rdiv. ring.
Qed.
Lemma bBr_sum (f : nat -> nat -> R) r i : M (fun j => rsum (b_nr b) (fun m => rBr op r m * f m j)) i = rsum (b_nr b) (fun m => rBr op r m * M (f m) i).
Proof. rewrite total_rsum. apply rsum_ext. intros m _. apply total_scal. Qed.
Lemma pore_sum n P : pore_liquid b' u n = Some P -> exists P0, pore_liquid b bsummed n = Some P0 /\ forall m i, (m < n)%nat -> (i < b_NION b)%nat -> P0 m i = M (P m) i.
Proof.
  revert P. induction n as [|n IH]; intros P; cbn [pore_liquid].
  - intros E. eexists. split; [reflexivity|]. intros; lia.
  - destruct (pore_liquid b' u n) as [Q|]; [|discriminate]. destruct (IH Q eq_refl) as (Q0 & -> & EQ). rewrite bCT_sum.
    destruct (calc_Ceq_batch (b_NION b') _ _ _ _) as [C|] eqn:EC; [|discriminate]. intros E. injection E as <-.
    destruct (Ceq_batch_same (b_NION b') (b_NION b) g HL (b_K b) (b_K b') (b_val b) (b_val b') (sp_rows _ _ _ HS) _ _ _ N0 EC) as (C0 & E0 & EE).
    rewrite total_over, (sp_por _ _ _ HS) in E0. unfold bsummed at 1. rewrite E0. eexists. split; [reflexivity|].
    intros m i Hm Hi. cbv beta. destruct (Nat.eq_dec m n) as [->|N]; [rewrite Nat.eqb_refl; apply EE, Hi|]. apply Nat.eqb_neq in N as N'. rewrite N'. apply EQ; [lia|exact Hi].
Qed.
Lemma brhs_sum psdm d : batch_rhs psdm b' op u = Some d ->
  exists d0, batch_rhs psdm b op bsummed = Some d0 /\ forall r i, (i < b_NION b)%nat -> d0 r i = M (d r) i.
Proof.
  destruct psdm; cbn [batch_rhs].
  - unfold diffun_psdm_batch. rewrite (sp_nr _ _ _ HS), bCT_sum. destruct (pore_liquid b' u (b_nr b)) as [P|] eqn:EP; [|discriminate].
    destruct (pore_sum _ _ EP) as (P0 & -> & PP). destruct (calc_Ceq_batch (b_NION b') _ _ _ _) as [C|] eqn:EC; [|discriminate]. intros E. injection E as <-.
    destruct (Ceq_batch_same (b_NION b') (b_NION b) g HL (b_K b) (b_K b') (b_val b) (b_val b') (sp_rows _ _ _ HS) _ _ _ N0 EC) as (C0 & E0 & EE).
    rewrite total_over, (sp_por _ _ _ HS) in E0. unfold bsummed at 1. rewrite E0. eexists. split; [reflexivity|].
    intros r i Hi. symmetry. apply bassemble_sum; [symmetry; apply EE, Hi|]. intros k. rewrite (sp_por _ _ _ HS), (sp_Ds _ _ _ HS), (sp_Dp _ _ _ HS), (sp_rb _ _ _ HS).
    transitivity (M (fun j => / b_rb b ^ 2 * (b_EPOR b * (b_Dp b - b_Ds b)) * rsum (b_nr b) (fun m => rBr op k m * P m j) + / b_rb b ^ 2 * b_Ds b * rsum (b_nr b) (fun m => rBr op k m * u (S m) j)) i);
      [apply total_ext; intros j _ _; cbv beta; change (b_rb b * (b_rb b * 1)) with (b_rb b ^ 2); unfold Rdiv; ring|].
    rewrite total_plus, !total_scal, (bBr_sum P), (bBr_sum (fun m => u (S m))).
    rewrite (rsum_ext (b_nr b) (fun m => rBr op k m * M (P m) i) (fun m => rBr op k m * P0 m i)) by (intros m Hm; rewrite PP by assumption; reflexivity).
    unfold bsummed, Rdiv. ring.
  - unfold diffun_hsdm_batch. rewrite (sp_nr _ _ _ HS), bCT_sum. destruct (calc_Ceq_batch (b_NION b') _ _ _ _) as [C|] eqn:EC; [|discriminate]. intros E. injection E as <-.
    destruct (Ceq_batch_same (b_NION b') (b_NION b) g HL (b_K b) (b_K b') (b_val b) (b_val b') (sp_rows _ _ _ HS) _ _ _ N0 EC) as (C0 & E0 & EE).
    change (bsummed (b_nr b)) with (M (u (b_nr b))). rewrite E0. eexists. split; [reflexivity|].
    intros r i Hi. symmetry. apply bassemble_sum; [symmetry; apply EE, Hi|]. intros k. rewrite (sp_Ds _ _ _ HS), (sp_rb _ _ _ HS).
    change (b_rb b * (b_rb b * 1)) with (b_rb b ^ 2). rewrite total_scal, (bBr_sum (fun m => u (S m))). reflexivity.
Qed.
End Batch.
Theorem C173_batch : forall g psdm b b' op tf y, (0 < b_NION b)%nat -> split_batch g b b' ->
  is_batch_trajectory (b_nr b') (b_NION b') (batch_rhs psdm b' op) tf y ->
  is_batch_trajectory (b_nr b) (b_NION b) (batch_rhs psdm b op) tf (fun T r i => total (b_NION b') g (y T r) i).
Proof.
  intros g psdm b b' op tf y N0 HS (d & D & TR).
  exists (fun T => match batch_rhs psdm b op (fun r i => total (b_NION b') g (y T r) i) with Some d => d | None => fun _ _ => 0 end). split.
  - intros T HT. destruct (brhs_sum g b b' HS N0 op (y T) psdm _ (D T HT)) as (d0 & E & _). unfold bsummed in E. rewrite E. reflexivity.
  - intros r i Hr Hi. rewrite <- (sp_nr _ _ _ HS) in Hr.
    eapply evolves_ext with (f := fun T => rsum (b_NION b') (fun j => (if Nat.eqb (g j) i then 1 else 0) * y T r j))
      (f' := fun T => rsum (b_NION b') (fun j => (if Nat.eqb (g j) i then 1 else 0) * d T r j)).
    + intros T. apply rsum_ext. intros j _. destruct (Nat.eqb (g j) i); ring.
    + intros T HT. destruct (brhs_sum g b b' HS N0 op (y T) psdm _ (D T HT)) as (d0 & E & ED). unfold bsummed in E. rewrite E, ED by exact Hi.
      apply rsum_ext. intros j _. destruct (Nat.eqb (g j) i); ring.
    + apply evolves_rsum. intros j Hj. apply evolves_scal, TR; assumption.
Qed.
(** The batch starts as for the totals when no divalent ion has two rows. *)
Lemma count_sum p n : INR (List.length (filter p (seq 0 n))) = rsum n (fun j => if p j then 1 else 0).
Proof.
  induction n as [|n IH]; [reflexivity|]. rewrite seq_S, filter_app, app_length, plus_INR, IH. cbn [rsum filter Nat.add]. destruct (p n); cbn; lra.
Qed.
Theorem C173_batch_start_partial : forall g b b', (0 < b_NION b)%nat -> split_batch g b b' ->
  (forall j k, (j < b_NION b')%nat -> (k < b_NION b')%nat -> b_val b' j = 2%nat -> g j = g k -> j = k) ->
  forall r i, (i < b_NION b)%nat -> batch_initial b r i = total (b_NION b') g (batch_initial b' r) i.
Proof.
  intros g b b' N0 HS HU r i Hi. assert (HL := sp_listing _ _ _ HS). destruct HL as (HA & HB).
  assert (EQ : b_Q b' = b_Q b) by (unfold b_Q; rewrite (sp_rho _ _ _ HS), (sp_Qm _ _ _ HS); reflexivity).
  assert (ONE : forall k a, (k < b_NION b)%nat -> total (b_NION b') g (fun j => if dv_idx (b_val b') j then a else 0) k = if dv_idx (b_val b) k then a else 0).
  { intros k a Hk. destruct (HB k Hk) as (j & Hj & <-). unfold dv_idx. destruct (Nat.eqb_spec (b_val b (g j)) 2) as [V|V].
    - unfold total. rewrite (rsum_single _ _ j Hj).
      + rewrite Nat.eqb_refl, (proj2 (sp_rows _ _ _ HS j Hj)), V. reflexivity.
      + intros l Hl N. destruct (Nat.eqb_spec (g l) (g j)) as [G|]; [|reflexivity]. exfalso. apply N. symmetry. apply HU; try assumption; [|symmetry; exact G].
        rewrite (proj2 (sp_rows _ _ _ HS j Hj)). exact V.
    - unfold total. apply rsum_zero. intros l Hl. destruct (Nat.eqb_spec (g l) (g j)) as [G|]; [|reflexivity].
      rewrite (proj2 (sp_rows _ _ _ HS l Hl)), G. destruct (Nat.eqb_spec (b_val b (g j)) 2); [contradiction|reflexivity]. }
  assert (EN : INR (ndv b') = INR (ndv b)).
  { unfold ndv. rewrite !count_sum, (total_sum _ _ g (conj HA HB)). apply rsum_ext. intros k Hk. apply ONE, Hk. }
  unfold batch_initial. rewrite (divalent_same _ _ g (conj HA HB) (b_K b) (b_K b') (b_val b) (b_val b') (sp_rows _ _ _ HS)), EQ, EN.
  destruct r as [|r]; [apply (sp_C0 _ _ _ HS), Hi|]. destruct (has_divalent (b_NION b) (b_val b)); destruct (Nat.eqb_spec i 0) as [->|N];
    try (rewrite (total_first _ _ g (conj HA HB)) by exact N0; reflexivity).
  - rewrite <- ONE by exact Hi. apply total_ext. intros j Hj G. destruct (Nat.eqb_spec j 0) as [->|]; [|reflexivity].
    destruct (HA 0%nat Hj) as (_ & B). rewrite (proj2 B eq_refl) in G. congruence.
  - symmetry. unfold total. apply rsum_zero. intros j Hj. destruct (Nat.eqb_spec (g j) i) as [G|]; [|reflexivity]. destruct (Nat.eqb_spec j 0) as [->|]; [|reflexivity].
    destruct (HA 0%nat Hj) as (_ & B). rewrite (proj2 B eq_refl) in G. congruence.
Qed.
(** A divalent ion with two rows starts with more than one row of it would. *)
Theorem C173_batch_start_refuted : forall g b b' j k r, (0 < b_NION b)%nat -> split_batch g b b' -> 0 < b_Q b ->
  (0 < j < b_NION b')%nat -> (j < k < b_NION b')%nat -> g j = g k -> b_val b' j = 2%nat ->
  batch_initial b (S r) (g j) < total (b_NION b') g (batch_initial b' (S r)) (g j).
Proof.
  intros g b b' j k r N0 HS HQ Hj Hk G V. assert (HL := sp_listing _ _ _ HS). destruct HL as (HA & HB).
  assert (EQ : b_Q b' = b_Q b) by (unfold b_Q; rewrite (sp_rho _ _ _ HS), (sp_Qm _ _ _ HS); reflexivity).
  assert (VJ : b_val b (g j) = 2%nat) by (rewrite <- (proj2 (sp_rows _ _ _ HS j ltac:(lia))); exact V).
  assert (G0 : g j <> 0%nat) by (intros E; apply (proj2 (HA j ltac:(lia))) in E; lia).
  assert (DV : has_divalent (b_NION b') (b_val b') = true).
  { apply existsb_exists. exists j. split; [apply in_seq; lia|]. unfold dv_idx. rewrite V. reflexivity. }
  assert (S0 : forall l, (l < b_NION b')%nat -> g l = g j -> batch_initial b' (S r) l = b_Q b / 1000).
  { intros l Hl E. unfold batch_initial. rewrite DV, EQ. destruct (Nat.eqb_spec l 0) as [->|].
    - destruct (HA 0%nat Hl) as (_ & B). rewrite (proj2 B eq_refl) in E. congruence.
    - unfold dv_idx. rewrite (proj2 (sp_rows _ _ _ HS l Hl)), E, VJ. reflexivity. }
  assert (SB : batch_initial b (S r) (g j) = b_Q b / 1000).
  { unfold batch_initial. rewrite <- (divalent_same _ _ g (conj HA HB) (b_K b) (b_K b') (b_val b) (b_val b') (sp_rows _ _ _ HS)), DV.
    destruct (Nat.eqb_spec (g j) 0); [contradiction|]. unfold dv_idx. rewrite VJ. reflexivity. }
  rewrite SB. unfold total. rewrite (rsum_split_at _ _ j) by lia. rewrite (rsum_split_at _ _ k) by lia. rewrite Nat.eqb_refl, (S0 j) by lia.
  destruct (Nat.eq_dec k j); [lia|]. rewrite <- G, Nat.eqb_refl, (S0 k) by (auto; lia).
  match goal with |- _ < _ + (_ + ?X) => assert (P : 0 <= X) end.
  { apply rsum_nonneg. intros l Hl. destruct (Nat.eq_dec l k); [lra|]. destruct (Nat.eq_dec l j); [lra|]. destruct (Nat.eqb_spec (g l) (g j)) as [E|]; [|lra]. rewrite S0 by assumption. lra. }
  lra.
Qed.

(** So the results are those of the column with one row for each ion: its run from a fresh bed,
    as long as it is in normal use, is the totals of the run with several rows. *)
Theorem C173_column_results : forall g (psdm : bool) c c' op th Cin Tf y y', (0 < NION c)%nat -> (1 <= nr c)%nat -> selectivities (NION c) (Kxc c) ->
  split_rows g c c' -> (forall i, (i < NION c)%nat -> continuous_between 0 Tf (fun T => total (NION c') g (Cin T) i)) ->
  is_trajectory (nr c) (NION c) (nz c) (fun T => rhs psdm c op th (total (NION c') g (Cin T))) Tf y ->
  same_state (nr c) (NION c) (nz c) (y 0) (initial_state c (total (NION c') g (Cin 0)) None) ->
  (forall T, 0 <= T <= Tf -> in_normal_use psdm (if psdm then 1 - EPOR c else 1) (nr c) (NION c) (nz c) (Kxc c) (val c) (total (NION c') g (Cin T)) (y T)) ->
  is_trajectory (nr c') (NION c') (nz c') (fun T => rhs psdm c' op th (Cin T)) Tf y' ->
  same_state (nr c') (NION c') (nz c') (y' 0) (initial_state c' (Cin 0) None) ->
  forall T, 0 <= T <= Tf -> same_state (nr c) (NION c) (nz c) (y T) (fun r i z => total (NION c') g (fun j => y' T r j z) i).
Proof.
  intros g psdm c c' op th Cin Tf y y' N0 Hr HK HS HC TY Y0 NU TY' Y0'.
  apply (C158_column_partial psdm c op th (fun T => total (NION c') g (Cin T)) Tf y (fun T r i z => total (NION c') g (fun j => y' T r j z) i)); try assumption.
  - exact (C173_column g psdm c c' op th Cin Tf y' N0 HS TY').
  - intros r i z H1 H2 H3. rewrite (Y0 r i z H1 H2 H3), (proj1 (C173_column_start g c c' (Cin 0) N0 HS)) by exact H2.
    apply total_ext. intros j Hj _. symmetry. apply Y0'; [rewrite (sr_nr _ _ _ HS); exact H1|exact Hj|rewrite (sr_nz _ _ _ HS); exact H3].
Qed.

(** ** Examples: chloride resin, nitrate and sulfate, the sulfate in two rows *)
Definition twice_listed (j : nat) : nat := match j with 3%nat => 2%nat | _ => j end.
Definition two_col : column :=
  {| NION := 3; nr := 2; nz := 3; EBED := 2 / 5; EPOR := 1 / 5; Lbed := 100; vel := 1 / 10; rb := 3 / 100; Qcap := 1;
     kL := fun i => INR (S i) / 1000; Ds := fun i => INR (S i); Dp := fun i => 2; Kxc := fun i => INR (S i);
     val := fun i => match i with 2%nat => 2%nat | _ => 1%nat end |}.
Definition two_rows : column :=
  {| NION := 4; nr := 2; nz := 3; EBED := 2 / 5; EPOR := 1 / 5; Lbed := 100; vel := 1 / 10; rb := 3 / 100; Qcap := 1;
     kL := fun i => INR (S (twice_listed i)) / 1000; Ds := fun i => INR (S (twice_listed i)); Dp := fun i => 2; Kxc := fun i => INR (S (twice_listed i));
     val := fun i => match twice_listed i with 2%nat => 2%nat | _ => 1%nat end |}.
Lemma twice_listing : listing 4 3 twice_listed.
Proof.
  split.
  - intros [|[|[|[|j]]]] Hj; cbn; lia.
  - intros i Hi. exists i. split; [lia|]. destruct i as [|[|[|i]]]; try reflexivity; lia.
Qed.
Example split_met : split_rows twice_listed two_col two_rows.
Proof. constructor; try reflexivity; [exact twice_listing|]. intros j Hj. repeat split; reflexivity. Qed.
(** Sulfate at 1/2 in one row and 1/4 in the other is sulfate at 3/4. *)
Definition two_influent (T : R) (j : nat) : R := match j with 0%nat => 1 | 1%nat => 1 | 2%nat => 1 / 2 | _ => 1 / 4 end.
Example split_run : forall psdm op, exists T y, 0 < T <= 5 /\
  is_trajectory 2 3 3 (fun T => rhs psdm two_col op 1 (total 4 twice_listed (two_influent T))) T (fun T r i z => total 4 twice_listed (fun j => y T r j z) i) /\
  total 4 twice_listed (two_influent 0) 2%nat = 3 / 4 /\
  total 4 twice_listed (fun j => y 0 1%nat j 0%nat) 0%nat = 1.
Proof.
  intros psdm op.
  destruct (C168_fresh_bed_starts psdm two_rows op 1 two_influent 5) as (T & y & HT & TR & Y0); try (cbn; lia); try (cbn; lra).
  - intros i _. unfold two_rows. cbn [Kxc]. apply lt_0_INR. lia.
  - destruct psdm; cbn; lra.
  - intros i _ t _ e He. exists 1. split; [lra|]. intros s _ _. replace (two_influent s i - two_influent t i) with 0 by (unfold two_influent; ring). rewrite Rabs_R0. exact He.
  - intros [|[|[|i]]] _; cbn; lra.
  - exists T, y. split; [exact HT|]. split; [exact (C173_column twice_listed psdm two_col two_rows op 1 two_influent T y ltac:(cbn; lia) split_met TR)|].
    split; [unfold total; cbn; lra|]. rewrite (total_first 4 3 twice_listed twice_listing) by lia. rewrite Y0 by (cbn; lia). reflexivity.
Qed.
Definition two_batch (rows : bool) : batch :=
  {| b_NION := if rows then 4 else 3; b_nr := 2; b_Qm := 1; b_RHOP := 1; b_EPOR := 1 / 5; b_VR := 1; b_VL := 10; b_Ds := 1; b_Dp := 2; b_kL := 1; b_rb := 3;
     b_C0 := if rows then two_influent 0 else total 4 twice_listed (two_influent 0);
     b_K := fun i => INR (S (twice_listed i)); b_val := fun i => match twice_listed i with 2%nat => 2%nat | _ => 1%nat end |}.
Example split_batch_met : split_batch twice_listed (two_batch false) (two_batch true) /\
  batch_initial (two_batch false) 1%nat 2%nat < total 4 twice_listed (batch_initial (two_batch true) 1%nat) 2%nat.
Proof.
  assert (S0 : split_batch twice_listed (two_batch false) (two_batch true)).
  { constructor; try reflexivity; [exact twice_listing|]. intros [|[|[|[|j]]]] Hj; cbn in Hj; try lia; split; reflexivity. }
  split; [exact S0|]. apply (C173_batch_start_refuted twice_listed (two_batch false) (two_batch true) 2 3 0); try (cbn; lia); try reflexivity; [exact S0|unfold b_Q; cbn; lra].
Qed.
(** Nitrate in two rows. *)
Definition nitrate_twice (j : nat) : nat := match j with 3%nat => 1%nat | _ => j end.
Definition nit_batch (rows : bool) : batch :=
  {| b_NION := if rows then 4 else 3; b_nr := 2; b_Qm := 1; b_RHOP := 1; b_EPOR := 1 / 5; b_VR := 1; b_VL := 10; b_Ds := 1; b_Dp := 2; b_kL := 1; b_rb := 3;
     b_C0 := if rows then two_influent 0 else total 4 nitrate_twice (two_influent 0);
     b_K := fun i => INR (S (nitrate_twice i)); b_val := fun i => match nitrate_twice i with 2%nat => 2%nat | _ => 1%nat end |}.
Example split_batch_run : forall psdm op, exists T y, 0 < T <= 5 /\
  is_batch_trajectory 2 3 (batch_rhs psdm (nit_batch false) op) T (fun T r i => total 4 nitrate_twice (y T r) i) /\
  forall r i, (r <= 2)%nat -> (i < 3)%nat -> total 4 nitrate_twice (y 0 r) i = batch_initial (nit_batch false) r i.
Proof.
  intros psdm op.
  assert (S0 : split_batch nitrate_twice (nit_batch false) (nit_batch true)).
  { constructor; try reflexivity.
    - split; [intros [|[|[|[|j]]]] Hj; cbn in *; lia|]. intros i Hi. exists i. cbn in *. split; [lia|]. destruct i as [|[|[|i]]]; try reflexivity; lia.
    - intros [|[|[|[|j]]]] Hj; cbn in Hj; try lia; split; reflexivity. }
  destruct (C168_fresh_batch_starts psdm (nit_batch true) op 5) as (T & y & HT & TR & Y0); try (cbn; lia); try (cbn; lra).
  - intros i _. cbn [nit_batch b_K]. apply lt_0_INR. lia.
  - intros [|[|[|[|i]]]] Hi; cbn; lra.
  - unfold b_Q. destruct psdm; cbn; lra.
  - split; [reflexivity|]. intros [|[|[|[|i]]]] Hi; cbn; auto.
  - exists T, y. split; [exact HT|]. split; [exact (C173_batch nitrate_twice psdm (nit_batch false) (nit_batch true) op T y ltac:(cbn; lia) S0 TR)|].
    intros r i Hr Hi. rewrite (C173_batch_start_partial nitrate_twice (nit_batch false) (nit_batch true) ltac:(cbn; lia) S0); [|  |exact Hi].
    + apply total_ext. intros j Hj _. apply Y0; [exact Hr|exact Hj].
    + intros [|[|[|[|j]]]] [|[|[|[|k]]]] Hj Hk V G; cbn in *; lia.
Qed.

Print Assumptions C173_column.
Print Assumptions C173_column_start.
Print Assumptions C173_influent.
Print Assumptions C173_column_results.
Print Assumptions C173_batch.
Print Assumptions C173_batch_start_partial.
Print Assumptions C173_batch_start_refuted.
