(** C168 — a run exists: from a state in normal use the equations can be followed, and the
    only ways for them to end early are named. *)
From Coq Require Import Reals List Arith Bool Lra Lia Classical.
From Verif Require Import Lib_Py Lib_Sum Lib_Traj Lib_Tame Lib_Exist Lib_Grow M_Colloc M_IxEq M_IxColumn S_Colloc S_IxEq S_IxColumn S_Unique
  P_IxEq P_IxColumn P_IxUnique Props_IxColumn Props_Unique.
Import ListNotations.
Open Scope R_scope.

Lemma clamped_bounded a b p : a <= b -> continuous_between a b p -> exists M, forall t, a <= t <= b -> Rabs (p t) <= M.
Proof.
  intros Hab C. set (cl := fun s => Rmax a (Rmin s b)).
  assert (I1 : forall s, a <= cl s <= b) by (intros s; unfold cl, Rmax, Rmin; repeat destruct Rle_dec; lra).
  assert (I2 : forall s, a <= s <= b -> cl s = s) by (intros s Hs; unfold cl, Rmax, Rmin; repeat destruct Rle_dec; lra).
  assert (I3 : forall s t, Rabs (cl s - cl t) <= Rabs (s - t)) by (intros s t; unfold cl, Rmax, Rmin, Rabs; repeat destruct Rle_dec; repeat destruct Rcase_abs; lra).
  assert (G : forall c, a <= c <= b -> continuity_pt (fun s => Rabs (p (cl s))) c).
  { intros c Hc e He. destruct (C (cl c) (I1 c) e He) as (d & Hd & P). exists d. split; [exact Hd|].
    intros s (_ & Hs). simpl in Hs |- *. unfold R_dist in *. specialize (I3 s c). specialize (P (cl s) (I1 s) ltac:(lra)).
    eapply Rle_lt_trans; [apply Rabs_triang_inv2|exact P]. }
  destruct (continuity_ab_maj _ a b Hab G) as (m & Hm & _). exists (Rabs (p (cl m))). intros t Ht.
  specialize (Hm t Ht). cbv beta in Hm. rewrite (I2 t Ht) in Hm. exact Hm.
Qed.

Lemma tame_weaken {X I} (idx idx' : list I) (co : I -> X -> R) D F t x :
  (forall y z, dist idx co y z <= dist idx' co y z) -> tame idx co D F t x -> tame idx' co D F t x.
Proof.
  intros L. assert (W : forall s y, tame0 idx co D F s y -> tame0 idx' co D F s y).
  { intros s y (A & d & K & Hd & HK & B). split.
    - intros e He. destruct (A e He) as (q & Hq & P). exists q. split; [exact Hq|]. intros s' y' Ds Hs Hy. apply P; try assumption.
      eapply Rle_lt_trans; [apply L|exact Hy].
    - exists d, K. split; [exact Hd|]. split; [exact HK|]. intros s' y' z' Ds Hs Hy Hz.
      eapply Rle_trans; [apply B; try assumption; eapply Rle_lt_trans; try apply L; assumption|]. apply Rmult_le_compat_l; [exact HK|apply L]. }
  intros (A & d & Hd & P). split; [apply W, A|]. exists d. split; [exact Hd|]. intros s y Ds Hs Hy. apply W, P; try assumption.
  eapply Rle_lt_trans; [apply L|exact Hy].
Qed.
Lemma dist_filter {X I} (f : I -> bool) (l : list I) (co : I -> X -> R) y z : dist (filter f l) co y z <= dist l co y z.
Proof.
  unfold dist. induction l as [|i l IH]; simpl; [lra|]. assert (A := Rabs_pos (co i y - co i z)). destruct (f i); simpl; lra.
Qed.
(** A property that holds up to the limit. *)
Lemma dist_coord {X I} (idx : list I) (co : I -> X -> R) y z i : In i idx -> Rabs (co i y - co i z) <= dist idx co y z.
Proof.
  unfold dist. induction idx as [|j l IH]; intros H; [destruct H|]. simpl.
  assert (N : 0 <= lsum (map (fun i => Rabs (co i y - co i z)) l)).
  { clear. induction l as [|k l IH]; simpl; [lra|]. assert (A := Rabs_pos (co k y - co k z)). lra. }
  assert (A := Rabs_pos (co j y - co j z)). destruct H as [->|H]; [lra|]. specialize (IH H). lra.
Qed.

(** ** The ion-exchange columns *)
Definition all_entries (nr n nz : nat) : list (nat * nat * nat) := list_prod (list_prod (seq 0 (nr + 1)) (seq 0 n)) (seq 0 nz).
Definition of_entries (f : nat * nat * nat -> R) : state := fun r i z => f (r, i, z).
Lemma in_all nr n nz r i z : (r <= nr)%nat -> (i < n)%nat -> (z < nz)%nat -> In (r, i, z) (all_entries nr n nz).
Proof. intros. apply in_prod; [apply in_prod|]; apply in_seq; lia. Qed.
Lemma all_in nr n nz p : In p (all_entries nr n nz) -> (fst (fst p) <= nr)%nat /\ (snd (fst p) < n)%nat /\ (snd p < nz)%nat.
Proof.
  destruct p as ((r, i), z). intros H. apply in_prod_iff in H as (H & Hz). apply in_prod_iff in H as (Hr & Hi).
  apply in_seq in Hr. apply in_seq in Hi. apply in_seq in Hz. simpl. lia.
Qed.
Lemma entry_eq_dec (p q : nat * nat * nat) : {p = q} + {p <> q}.
Proof. repeat decide equality. Defined.

Section ColumnExists.
Variables (psdm : bool) (c : column) (op : operators) (th a b : R) (Cin : R -> nat -> R).
Hypothesis Hab : a <= b.
Hypothesis Hn : (0 < NION c)%nat.
Hypothesis Hr : (1 <= nr c)%nat.
Hypothesis HK : selectivities (NION c) (Kxc c).
Hypothesis HC : forall i, (i < NION c)%nat -> continuous_between a b (fun T => Cin T i).
Notation E := (all_entries (nr c) (NION c) (nz c)).
Notation D := (fun s => a <= s <= b).
Notation G := (fun p T u => rhs psdm c op th (Cin T) u (fst (fst p)) (snd (fst p)) (snd p)).
Notation use T u := (in_normal_use psdm (theta psdm c) (nr c) (NION c) (nz c) (Kxc c) (val c) (Cin T) u).
Notation use_by m T u := (in_use_by m psdm (theta psdm c) (nr c) (NION c) (nz c) (Kxc c) (val c) (Cin T) u).

Lemma use_tame t u p : a <= t <= b -> use t u -> In p E -> tame E entry_at D (G p) t u.
Proof.
  intros Ht (mg & P1 & P2) Hp. apply all_in in Hp as (A1 & A2 & A3).
  apply (tame_weaken (entries (nr c) (NION c) (nz c))); [intros; apply dist_filter|].
  apply (tame_rhs psdm c op th D Cin t u) with (mg := mg); try assumption.
  intros i Hi t0 [-> | Ht0]; [apply (HC i Hi t Ht)|apply (HC i Hi t0 Ht0)].
Qed.

Section Grow.
Variables (mg M : R) (P : R -> state -> Prop).
Hypothesis Hmg : 0 < mg.
Hypothesis HT : forall t u, P t u -> a <= t <= b.
Hypothesis HP : forall t u, P t u -> use_by mg t u.
Hypothesis HM : forall t u, P t u -> forall z, (z < nz c)%nat -> Rabs (CTz c (Cin t) u z) <= M.
Notation Gr F := (grows E entry_at P F).
Lemma grows_entry r i z : (r <= nr c)%nat -> (i < NION c)%nat -> (z < nz c)%nat -> Gr (fun _ v => v r i z).
Proof. intros. apply (grows_coord E entry_at P (r, i, z)). apply in_all; assumption. Qed.
Lemma grows_liq i z : (i < NION c)%nat -> (z < nz c)%nat -> Gr (fun s v => liq (Cin s) v i z).
Proof.
  intros Hi Hz. unfold liq. destruct (Nat.eqb_spec z 0) as [E0|E0]; [|apply grows_entry; lia].
  destruct (clamped_bounded a b _ Hab (HC i Hi)) as (M1 & HM1). apply (grows_bounded E entry_at P _ M1). intros t x Px. apply HM1, (HT t x Px).
Qed.
Lemma grows_eq r i z : (1 <= r <= nr c)%nat -> (psdm = true \/ r = nr c) -> (i < NION c)%nat -> (z < nz c)%nat ->
  Gr (fun s v => calc_Ceq (NION c) (Kxc c) (val c) (fun i => v r i z / theta psdm c) (CTz c (Cin s) v z) i).
Proof.
  intros Hr1 Hp Hi Hz. set (C := 2 * M / mg + / Kxc c i * (1 + M / mg + (2 * M / mg) ^ val c i)).
  apply (grows_le E entry_at P (fun _ v => C * (v r i z / theta psdm c))).
  - intros t u Px. eapply Rle_trans; [apply (Ceq_bound (NION c) (Kxc c) (val c) _ _ mg M i Hi HK Hmg); [exact (HP t u Px r z Hr1 Hp Hz)|apply (HM t u Px z Hz)]|].
    fold C. rewrite Rmult_comm, (Rabs_mult C). apply Rmult_le_compat_r; [apply Rabs_pos|apply Rle_abs].
  - apply (grows_scal E entry_at P C (fun _ v => v r i z / theta psdm c)). apply (grows_div E entry_at P _ (fun _ v => v r i z)). apply grows_entry; assumption || lia.
Qed.
Lemma grows_presat (f : nat -> R -> state -> R) i : (i < NION c)%nat -> (forall i, (i < NION c)%nat -> Gr (f i)) ->
  Gr (fun s v => implicit_presat c (fun i => f i s v) i).
Proof.
  intros Hi H. unfold implicit_presat. destruct (Nat.eqb i 0); [|apply H, Hi].
  apply (grows_opp E entry_at P (fun s v => rsum (NION c - 1) (fun k => f (S k) s v))).
  apply (grows_rsum E entry_at P (NION c - 1) (fun k => f (S k))). intros k Hk. apply H. lia.
Qed.
Lemma grows_flux i z : (i < NION c)%nat -> (z < nz c)%nat -> Gr (fun s v => flux c (Cin s) v (fun i => v (nr c) i z / theta psdm c) i z).
Proof.
  intros Hi Hz. unfold flux.
  apply (grows_presat (fun i s v => - kL c i * (liq (Cin s) v i z -
    calc_Ceq (NION c) (Kxc c) (val c) (fun i => v (nr c) i z / theta psdm c) (CTz c (Cin s) v z) i)) i Hi).
  intros j Hj. apply (grows_scal E entry_at P (- kL c j) (fun s v => liq (Cin s) v j z -
    calc_Ceq (NION c) (Kxc c) (val c) (fun i => v (nr c) i z / theta psdm c) (CTz c (Cin s) v z) j)).
  apply (grows_minus E entry_at P (fun s v => liq (Cin s) v j z)); [apply grows_liq; assumption|].
  apply grows_eq; try assumption; [lia|right; reflexivity].
Qed.
Lemma grows_assemble (J : R -> state -> nat -> nat -> R) (dq : R -> state -> nat -> nat -> nat -> R) r i z :
  (r <= nr c)%nat -> (i < NION c)%nat -> (z < nz c)%nat ->
  Gr (fun s v => J s v i z) -> (forall m, (m < nr c)%nat -> Gr (fun s v => dq s v m i z)) ->
  Gr (fun s v => assemble c op th (Cin s) v (J s v) (dq s v) r i z).
Proof.
  intros Hr1 Hi Hz HJ Hq. unfold assemble. destruct r as [|k].
  - destruct (Nat.eqb z 0); [apply grows_const|]. unfold dC.
    apply (grows_ext E entry_at P (fun s v => (th / EBED c) *
      (- vel c / Lbed c * rsum (nz c) (fun j => Az op z j * liq (Cin s) v i j) + ((1 - EBED c) * 3 / rb c) * J s v i z))).
    { intros s v. unfold Rdiv. ring. }
    apply (grows_scal E entry_at P (th / EBED c) (fun s v => - vel c / Lbed c * rsum (nz c) (fun j => Az op z j * liq (Cin s) v i j) + ((1 - EBED c) * 3 / rb c) * J s v i z)).
    apply (grows_plus E entry_at P (fun s v => - vel c / Lbed c * rsum (nz c) (fun j => Az op z j * liq (Cin s) v i j)) (fun s v => ((1 - EBED c) * 3 / rb c) * J s v i z)).
    + apply (grows_scal E entry_at P _ (fun s v => rsum (nz c) (fun j => Az op z j * liq (Cin s) v i j))).
      apply (grows_rsum E entry_at P (nz c) (fun j s v => Az op z j * liq (Cin s) v i j)). intros j Hj.
      apply (grows_scal E entry_at P _ (fun s v => liq (Cin s) v i j)). apply grows_liq; assumption.
    + apply (grows_scal E entry_at P _ (fun s v => J s v i z)), HJ.
  - destruct (Nat.eqb k (nr c - 1)); [|apply Hq; lia].
    apply (grows_div E entry_at P _ (fun s v => - th / rb c * J s v i z - rsum (nr c - 1) (fun m => Wr op m * dq s v m i z))).
    apply (grows_minus E entry_at P (fun s v => - th / rb c * J s v i z) (fun s v => rsum (nr c - 1) (fun m => Wr op m * dq s v m i z))).
    + apply (grows_scal E entry_at P _ (fun s v => J s v i z)), HJ.
    + apply (grows_rsum E entry_at P (nr c - 1) (fun m s v => Wr op m * dq s v m i z)). intros m Hm.
      apply (grows_scal E entry_at P _ (fun s v => dq s v m i z)). apply Hq. lia.
Qed.
Lemma grows_Br r i z : (i < NION c)%nat -> (z < nz c)%nat -> Gr (fun _ v => rsum (nr c) (fun m => Br op r m * v (S m) i z)).
Proof.
  intros Hi Hz. apply (grows_rsum E entry_at P (nr c) (fun m _ v => Br op r m * v (S m) i z)). intros m Hm.
  apply (grows_scal E entry_at P _ (fun _ v => v (S m) i z)). apply grows_entry; try assumption; lia.
Qed.
Lemma grows_rhs r i z : (r <= nr c)%nat -> (i < NION c)%nat -> (z < nz c)%nat -> Gr (fun s v => rhs psdm c op th (Cin s) v r i z).
Proof.
  intros Hr1 Hi Hz. assert (TF := grows_flux). assert (TE := grows_eq). unfold rhs. destruct psdm; unfold theta in TF, TE.
  - apply (grows_assemble (fun s v => psdm_J c (Cin s) v) (fun s v => psdm_dY c op th (Cin s) v)); try assumption.
    + unfold psdm_J. apply TF; assumption.
    + intros m Hm. unfold psdm_dY.
      apply (grows_presat (fun i s v => th *
        (EPOR c * (Dp c i - Ds c i) * rsum (nr c) (fun k => Br op m k * psdm_Cpore c (Cin s) v k i z)
         + Ds c i * rsum (nr c) (fun k => Br op m k * v (S k) i z)) / rb c ^ 2) i Hi). intros j Hj.
      apply (grows_div E entry_at P _ (fun s v => th *
        (EPOR c * (Dp c j - Ds c j) * rsum (nr c) (fun k => Br op m k * psdm_Cpore c (Cin s) v k j z)
         + Ds c j * rsum (nr c) (fun k => Br op m k * v (S k) j z)))).
      apply (grows_scal E entry_at P th (fun s v =>
        EPOR c * (Dp c j - Ds c j) * rsum (nr c) (fun k => Br op m k * psdm_Cpore c (Cin s) v k j z)
         + Ds c j * rsum (nr c) (fun k => Br op m k * v (S k) j z))).
      apply (grows_plus E entry_at P (fun s v => EPOR c * (Dp c j - Ds c j) * rsum (nr c) (fun k => Br op m k * psdm_Cpore c (Cin s) v k j z))
        (fun s v => Ds c j * rsum (nr c) (fun k => Br op m k * v (S k) j z))).
      * apply (grows_scal E entry_at P _ (fun s v => rsum (nr c) (fun k => Br op m k * psdm_Cpore c (Cin s) v k j z))).
        apply (grows_rsum E entry_at P (nr c) (fun k s v => Br op m k * psdm_Cpore c (Cin s) v k j z)). intros k Hk.
        apply (grows_scal E entry_at P _ (fun s v => psdm_Cpore c (Cin s) v k j z)). unfold psdm_Cpore, psdm_q.
        apply (TE (S k)); try assumption; [lia|left; reflexivity].
      * apply (grows_scal E entry_at P _ (fun s v => rsum (nr c) (fun k => Br op m k * v (S k) j z))). apply grows_Br; assumption.
  - apply (grows_assemble (fun s v => hsdm_J c (Cin s) v) (fun s v => hsdm_dq c op th v)); try assumption.
    + unfold hsdm_J.
      apply (grows_ext E entry_at P (fun s v => flux c (Cin s) v (fun i => v (nr c) i z / 1) i z)); [|apply TF; assumption].
      intros s v. unfold flux, implicit_presat. 
      assert (Q : forall (f g : nat -> R) k CT, (forall i, f i = g i) ->
        calc_Ceq (NION c) (Kxc c) (val c) f CT k = calc_Ceq (NION c) (Kxc c) (val c) g CT k).
      { intros f g k CT Hfg. unfold calc_Ceq, Ceq_dv, Ceq_mv, mass_action, Cc_column, eq_aa, eq_bb, masked_sum.
        assert (R1 : forall m : nat -> bool, rsum (NION c) (fun i => if m i then f i / Kxc c i else 0) = rsum (NION c) (fun i => if m i then g i / Kxc c i else 0))
          by (intros m; apply rsum_ext; intros; rewrite Hfg; reflexivity).
        assert (R2 : rsum (NION c) (fun j => alpha (Kxc c) k j * f j) = rsum (NION c) (fun j => alpha (Kxc c) k j * g j))
          by (apply rsum_ext; intros; rewrite Hfg; reflexivity).
        destruct (has_divalent (NION c) (val c)); cbv beta; [rewrite !R1, !Hfg|rewrite R2, Hfg]; reflexivity. }
      assert (Q1 : forall k, v (nr c) k z / 1 = v (nr c) k z) by (intros; field).
      destruct (Nat.eqb i 0).
      * apply f_equal. apply rsum_ext. intros k _. rewrite (Q _ _ (S k) (CTz c (Cin s) v z) Q1). reflexivity.
      * rewrite (Q _ _ i (CTz c (Cin s) v z) Q1). reflexivity.
    + intros m Hm. unfold hsdm_dq.
      apply (grows_presat (fun i _ v => Ds c i * th / rb c ^ 2 * rsum (nr c) (fun k => Br op m k * v (S k) i z)) i Hi).
      intros j Hj. apply (grows_scal E entry_at P _ (fun _ v => rsum (nr c) (fun k => Br op m k * v (S k) j z))).
      apply grows_Br; assumption.
Qed.
End Grow.
Lemma use_starts u0 : a < b -> use a u0 -> exists T y, a < T <= b /\ same_state (nr c) (NION c) (nz c) (y a) u0 /\
  forall r i z, (r <= nr c)%nat -> (i < NION c)%nat -> (z < nz c)%nat ->
    evolves a T (fun T => y T r i z) (fun T => rhs psdm c op th (Cin T) (y T) r i z).
Proof.
  intros L U. destruct (exists_near E entry_at of_entries entry_eq_dec (fun f p _ => match p with (r, i, z) => eq_refl end) a b G a u0) with (near := 1)
    as (q & e0 & Hq & He & P).
  - intros p Hp. apply use_tame; [lra|exact U|exact Hp].
  - lra.
  - set (e := Rmin e0 (b - a)). assert (M1 := Rmin_l e0 (b - a)). assert (M2 := Rmin_r e0 (b - a)). fold e in M1, M2.
    assert (He2 : 0 < e) by (apply Rmin_pos; lra).
    destruct (P a u0 e) as (y & Y1 & _ & Y2); try lra; [rewrite Rminus_eq_0, Rabs_R0; exact Hq|rewrite dist_self; exact Hq|].
    exists (a + e), y. split; [lra|]. split.
    + intros r i z H1 H2 H3. apply (Y1 (r, i, z)). apply in_all; assumption.
    + intros r i z H1 H2 H3. assert (Q := Y2 (r, i, z) (in_all _ _ _ _ _ _ H1 H2 H3)). cbv beta in Q. simpl in Q. split.
      * intros t Ht. apply derivable_continuous_pt. eexists. apply (Q t Ht).
      * intros t Ht. apply Q. lra.
Qed.

Section Lasts.
Variables (m : R) (u0 : state).
Hypothesis Hm : 0 < m.
Notation sol := (solves E entry_at a G u0).
Hypothesis Safe : forall T y, a <= T <= b -> sol T y -> use_by m T (y T).

(** The total charge of the liquid follows linear equations of its own, so it stays bounded. *)
Lemma charge_bound : exists M, forall T y, a <= T <= b -> sol T y -> forall z, (z < nz c)%nat -> Rabs (CTz c (Cin T) (y T) z) <= M.
Proof.
  set (idx := seq 1 (nz c - 1)). set (co := fun (z : nat) (v : nat -> R) => v z).
  set (H := fun (z : nat) (T : R) (v : nat -> R) => - (th * (vel c / Lbed c) / EBED c) * rsum (nz c) (fun j => Az op z j * (if Nat.eqb j 0 then rsum (NION c) (Cin T) else v j))).
  set (w0 := fun z => rsum (NION c) (fun i => u0 0%nat i z)).
  destruct (clamped_bounded a b (fun T => rsum (NION c) (Cin T)) Hab) as (M0 & HM0); [apply between_rsum; [exact Hab|exact HC]|].
  destruct (growth_bound idx co (fun f => f) (fun f i _ => eq_refl) a b H w0 (fun t _ => a <= t <= b) Hab) as (M & HM).
  - intros T y HT _. exact HT.
  - intros z Hz. unfold H. apply grows_scal. apply (grows_rsum idx co _ (nz c) (fun j T v => Az op z j * (if Nat.eqb j 0 then rsum (NION c) (Cin T) else v j))).
    intros j Hj. apply (grows_scal idx co _ (Az op z j) (fun T v => if Nat.eqb j 0 then rsum (NION c) (Cin T) else v j)).
    destruct (Nat.eqb_spec j 0); [apply (grows_bounded idx co _ _ M0); intros t x Ht; apply HM0, Ht|].
    apply (grows_coord idx co _ j). apply in_seq. lia.
  - exists (Rmax M0 M). intros T y HT (S0 & S1) z Hz. unfold CTz, liq. destruct (Nat.eqb_spec z 0) as [E0|E0]; [eapply Rle_trans; [apply HM0, HT|apply Rmax_l]|].
    eapply Rle_trans; [|apply Rmax_r]. apply (HM T (fun t z => rsum (NION c) (fun i => y t 0%nat i z)) HT); [|apply in_seq; lia].
    split.
    + intros z' Hz'. apply in_seq in Hz'. unfold co, w0. apply rsum_ext. intros i Hi. apply (S0 (0%nat, i, z')). apply in_all; lia.
    + intros z' Hz'. apply in_seq in Hz'. unfold co.
      refine (evolves_ext a T _ _ _ _ _ _ (evolves_rsum a T (NION c) (fun i t => y t 0%nat i z') (fun i t => rhs psdm c op th (Cin t) (y t) 0%nat i z') _)).
      * reflexivity.
      * intros t Ht. rewrite (rhs_liquid_total psdm c op th (Cin t) (y t) z' Hn ltac:(lia)). unfold H. f_equal. apply rsum_ext. intros j Hj. f_equal.
        unfold CTz, liq. destruct (Nat.eqb j 0); reflexivity.
      * intros i Hi. apply (S1 (0%nat, i, z')). apply in_all; lia.
Qed.
Lemma tame_all_entry t x r i z : (r <= nr c)%nat -> (i < NION c)%nat -> (z < nz c)%nat -> tame E entry_at D (fun _ v => v r i z) t x.
Proof. intros. apply (tame_coord E entry_at D (r, i, z)). apply in_all; assumption. Qed.
Lemma reached_safe t x : a <= t <= b -> reached E entry_at a b G u0 t x -> use t x.
Proof.
  intros Ht Re. exists m. split; [exact Hm|]. intros r z H1 H2 H3.
  set (q := fun (i : nat) (_ : R) (v : state) => v r i z / theta psdm c).
  set (CT := fun (s : R) (v : state) => rsum (NION c) (fun i => if Nat.eqb z 0 then Cin s i else v 0%nat i z)).
  apply (margins_solvable (NION c) (Kxc c) (val c) q CT m t x). intros F HF.
  apply (margin_limit E entry_at D t x F m (fun s y => exists Y, y = Y s /\ a <= s <= b /\ sol s Y)).
  - apply (margins_tame E entry_at D t x (NION c) (Kxc c) (val c) q CT Hn); [| |exact HF].
    + intros i Hi. apply (tame_div_const E entry_at D _ (fun _ v => v r i z)), tame_all_entry; assumption || lia.
    + apply (tame_rsum E entry_at D (NION c) (fun i s v => if Nat.eqb z 0 then Cin s i else v 0%nat i z)). intros i Hi.
      destruct (Nat.eqb z 0); [|apply tame_all_entry; assumption || lia]. apply tame_time. intros t0 [-> | Ht0]; apply (HC i Hi); assumption.
  - intros e He. destruct (Re e He) as (T & Y & HT & S & A & B). exists T, (Y T). split; [exact HT|]. split; [exists Y; split; [reflexivity|split; assumption]|]. split; assumption.
  - intros s y (Y & -> & Hs & S). apply (proj1 (margins_solvable (NION c) (Kxc c) (val c) q CT m s (Y s)) (Safe s Y Hs S r z H1 H2 H3) F HF).
Qed.
Lemma safe_lasts : exists y, sol b y.
Proof.
  destruct charge_bound as (M & HM).
  set (P := fun t u => a <= t <= b /\ use_by m t u /\ forall z, (z < nz c)%nat -> Rabs (CTz c (Cin t) u z) <= M).
  apply (lasting_run E entry_at of_entries entry_eq_dec (fun f p _ => match p with (r, i, z) => eq_refl end) a b G u0 P Hab).
  - intros T y HT S. split; [exact HT|]. split; [apply (Safe T y HT S)|]. apply (HM T y HT S).
  - intros p Hp. apply all_in in Hp as (A1 & A2 & A3). apply (grows_rhs m M P Hm); try assumption; intros t u H; apply H.
  - intros t x Ht Re p Hp. apply use_tame; [exact Ht|apply reached_safe; assumption|exact Hp].
Qed.
End Lasts.
End ColumnExists.

(** From a state in normal use a run starts: the equations have a solution for some time. *)
Theorem C168_column_starts : forall (psdm : bool) c op th Cin Tf u0,
  (0 < NION c)%nat -> (1 <= nr c)%nat -> selectivities (NION c) (Kxc c) -> 0 < Tf ->
  (forall i, (i < NION c)%nat -> continuous_between 0 Tf (fun T => Cin T i)) ->
  in_normal_use psdm (if psdm then 1 - EPOR c else 1) (nr c) (NION c) (nz c) (Kxc c) (val c) (Cin 0) u0 ->
  exists T y, 0 < T <= Tf /\ is_trajectory (nr c) (NION c) (nz c) (fun T u => rhs psdm c op th (Cin T) u) T y /\
    same_state (nr c) (NION c) (nz c) (y 0) u0.
Proof.
  intros psdm c op th Cin Tf u0 Hn Hr HK HT HC U.
  destruct (use_starts psdm c op th 0 Tf Cin ltac:(lra) Hn Hr HK HC u0 HT U) as (T & y & A & B & C). exists T, y. split; [exact A|]. split; [exact C|exact B].
Qed.

(** So every sheet with physical values can be run for some time. *)
Theorem C168_fresh_bed_starts : forall (psdm : bool) c op th Cin Tf,
  (0 < NION c)%nat -> (1 <= nr c)%nat -> selectivities (NION c) (Kxc c) -> 0 < Tf -> 0 < Qcap c -> 0 < (if psdm then 1 - EPOR c else 1) ->
  (forall i, (i < NION c)%nat -> continuous_between 0 Tf (fun T => Cin T i)) -> (forall i, (i < NION c)%nat -> 0 <= Cin 0 i) ->
  exists T y, 0 < T <= Tf /\ is_trajectory (nr c) (NION c) (nz c) (fun T u => rhs psdm c op th (Cin T) u) T y /\
    same_state (nr c) (NION c) (nz c) (y 0) (initial_state c (Cin 0) None).
Proof. intros. apply C168_column_starts; try assumption. apply fresh_use; assumption. Qed.

(** It lasts to the requested end, or some run gets as near as one likes to an exchange
    equilibrium without solution: there is no other way for the equations to end. *)
Theorem C168_column_lasts : forall (psdm : bool) c op th Cin Tf u0,
  (0 < NION c)%nat -> (1 <= nr c)%nat -> selectivities (NION c) (Kxc c) -> 0 <= Tf ->
  (forall i, (i < NION c)%nat -> continuous_between 0 Tf (fun T => Cin T i)) ->
  let runs T y := is_trajectory (nr c) (NION c) (nz c) (fun T u => rhs psdm c op th (Cin T) u) T y /\
    same_state (nr c) (NION c) (nz c) (y 0) u0 in
  (exists y, runs Tf y) \/
  (forall m, 0 < m -> exists T y, 0 <= T <= Tf /\ runs T y /\
     ~ in_use_by m psdm (if psdm then 1 - EPOR c else 1) (nr c) (NION c) (nz c) (Kxc c) (val c) (Cin T) (y T)).
Proof.
  intros psdm c op th Cin Tf u0 Hn Hr HK HT HC runs.
  destruct (classic (exists y, runs Tf y)) as [Y|N]; [left; exact Y|]. right. intros m Hm. apply NNPP. intros N2. apply N.
  destruct (safe_lasts psdm c op th 0 Tf Cin HT Hn Hr HK HC m u0 Hm) as (y & Y0 & Y1).
  - intros T y HTT (S0 & S1). apply NNPP. intros N3. apply N2. exists T, y. split; [exact HTT|]. split; [|exact N3]. split.
    + intros r i z A1 A2 A3. apply (S1 (r, i, z)). apply in_all; assumption.
    + intros r i z A1 A2 A3. apply (S0 (r, i, z)). apply in_all; assumption.
  - exists y. split.
    + intros r i z A1 A2 A3. apply (Y1 (r, i, z)). apply in_all; assumption.
    + intros r i z A1 A2 A3. apply (Y0 (r, i, z)). apply in_all; assumption.
Qed.

(** ** The granular-carbon column *)
From Verif Require Import M_GacColumn S_GacColumn P_GacUnique Props_GacColumn.

Section CarbonExists.
Variables (g : gac_in) (m : gac_matrices) (nr : nat) (rows : nat -> list (R * R)) (foul : nat -> R -> R) (Tf : R) (u0 : nat -> nat -> nat -> R).
Hypothesis HP : physical g.
Hypothesis Hx : forall i, (i < x_n g)%nat -> x_xn g i <= 1.
Hypothesis Hnr : (1 <= nr)%nat.
Notation E := (g_entries g nr (m_c m)).
Notation G := (fun p t u => diffun g m nr rows foul t u (fst (fst p)) (snd (fst p)) (snd p)).
Lemma carbon_tame t u p : 0 <= t <= Tf -> In p E -> tame E g_at (fun s => 0 <= s <= Tf) (G p) t u.
Proof.
  intros Ht Hp. apply g_entries_in in Hp as (A1 & A2 & A3). apply (tame_diffun g HP Hx m nr rows foul Tf t u Hnr Ht); assumption.
Qed.
Lemma carbon_solves T y : solves E g_at 0 G u0 T y <->
  (gac_trajectory (x_n g) nr (m_c m) (diffun g m nr rows foul) T y /\
   forall i r z, (i < x_n g)%nat -> (r <= nr)%nat -> (z < m_c m)%nat -> y 0 i r z = u0 i r z).
Proof.
  split.
  - intros (A & B). split; intros i r z H1 H2 H3; [apply (B (i, r, z))|apply (A (i, r, z))]; apply in_g_entries; assumption.
  - intros (A & B). split; intros p Hp; apply g_entries_in in Hp as (A1 & A2 & A3); [apply B|apply A]; assumption.
Qed.
End CarbonExists.

(** From every state the equations have a solution for some time. *)
Theorem C168_carbon_column_starts : forall g m nr rows foul Tf u0,
  physical g -> (forall i, (i < x_n g)%nat -> x_xn g i <= 1) -> (1 <= nr)%nat -> 0 < Tf ->
  exists T y, 0 < T <= Tf /\ gac_trajectory (x_n g) nr (m_c m) (diffun g m nr rows foul) T y /\
   forall i r z, (i < x_n g)%nat -> (r <= nr)%nat -> (z < m_c m)%nat -> y 0 i r z = u0 i r z.
Proof.
  intros g m nr rows foul Tf u0 HP Hx Hnr HT.
  destruct (run_starts (g_entries g nr (m_c m)) g_at of_entries entry_eq_dec
    (fun f p _ => match p as q return (g_at q (of_entries f) = f q) with (i, r, z) => eq_refl end) 0 Tf
    (fun p t u => diffun g m nr rows foul t u (fst (fst p)) (snd (fst p)) (snd p)) u0 HT) with (near := 1) as (T & y & A & B & _).
  - intros p Hp. apply carbon_tame; try assumption. lra.
  - lra.
  - exists T, y. split; [exact A|]. apply carbon_solves, B.
Qed.
(** It lasts to the requested end, or runs grow beyond every bound. *)
Theorem C168_carbon_column_lasts : forall g m nr rows foul Tf u0,
  physical g -> (forall i, (i < x_n g)%nat -> x_xn g i <= 1) -> (1 <= nr)%nat -> 0 <= Tf ->
  let runs T y := gac_trajectory (x_n g) nr (m_c m) (diffun g m nr rows foul) T y /\
   forall i r z, (i < x_n g)%nat -> (r <= nr)%nat -> (z < m_c m)%nat -> y 0 i r z = u0 i r z in
  (exists y, runs Tf y) \/
  (forall M, exists T y i r z, 0 <= T <= Tf /\ runs T y /\ (i < x_n g)%nat /\ (r <= nr)%nat /\ (z < m_c m)%nat /\ M < Rabs (y T i r z)).
Proof.
  intros g m nr rows foul Tf u0 HP Hx Hnr HT runs.
  destruct (run_or_unbounded (g_entries g nr (m_c m)) g_at of_entries entry_eq_dec
    (fun f p _ => match p as q return (g_at q (of_entries f) = f q) with (i, r, z) => eq_refl end) 0 Tf
    (fun p t u => diffun g m nr rows foul t u (fst (fst p)) (snd (fst p)) (snd p)) u0 HT) as [(y & Y)|N].
  - intros t x Ht p Hp. apply carbon_tame; assumption.
  - left. exists y. apply carbon_solves, Y.
  - right. intros M. destruct (N M) as (T & y & ((i & r) & z) & A & B & Hp & C). apply g_entries_in in Hp as (A1 & A2 & A3).
    exists T, y, i, r, z. split; [exact A|]. split; [apply carbon_solves, B|]. split; [exact A1|]. split; [exact A2|]. split; [exact A3|exact C].
Qed.

(** ** The powdered-carbon contactor *)
From Verif Require Import Lib_Pow M_Pac Props_Pac.

Definition of_pac (f : option nat -> R) : R * (nat -> R) := (f None, fun i => f (Some i)).
Lemma pac_of f o : pac_co o (of_pac f) = f o.
Proof. destruct o; reflexivity. Qed.
Lemma opt_eq_dec (p q : option nat) : {p = q} + {p <> q}.
Proof. repeat decide equality. Defined.
Notation pac_rate nc B W q := (fun o (_ : R) x => match o with None => dC_dt nc q (fst x) (snd x) | Some i => dY_dt nc B W q (fst x) (snd x) i end).
Lemma pac_solves nc B W q a b x0 y : solves (pac_idx nc) pac_co a (pac_rate nc B W q) x0 b y ->
  follows nc B W q a b (fun t => fst (y t)) (fun i t => snd (y t) i) /\ fst (y a) = fst x0 /\ forall i, (i < nc)%nat -> snd (y a) i = snd x0 i.
Proof.
  intros (A & B0). split; [split|split].
  - apply (B0 None). left; reflexivity.
  - intros i Hi. apply (B0 (Some i)), pac_idx_some, Hi.
  - apply (A None). left; reflexivity.
  - intros i Hi. apply (A (Some i)), pac_idx_some, Hi.
Qed.
Lemma pac_tame nc B W q D t x o : (1 <= nc)%nat -> 1 <= q_n q -> tame (pac_idx nc) pac_co D (pac_rate nc B W q o) t x.
Proof. intros Hnc Hn. destruct o as [i|]; [apply tame_dY|apply tame_dC]; assumption. Qed.

(** From every state the equations have a solution for some time; it lasts to the requested
    end, or runs grow beyond every bound. *)
Theorem C168_contactor_starts : forall nc B W q a b C0 Y0, (1 <= nc)%nat -> 1 <= q_n q -> a < b ->
  exists T C Y, a < T <= b /\ follows nc B W q a T C Y /\ C a = C0 /\ forall i, (i < nc)%nat -> Y i a = Y0 i.
Proof.
  intros nc B W q a b C0 Y0 Hnc Hn L.
  destruct (run_starts (pac_idx nc) pac_co of_pac opt_eq_dec (fun f o _ => pac_of f o) a b (pac_rate nc B W q) (C0, Y0) L) with (near := 1) as (T & y & A & S & _).
  - intros o _. apply pac_tame; assumption.
  - lra.
  - apply pac_solves in S as (S1 & S2 & S3). exists T, (fun t => fst (y t)), (fun i t => snd (y t) i). split; [exact A|]. split; [exact S1|]. split; assumption.
Qed.
Theorem C168_contactor_lasts : forall nc B W q a b C0 Y0, (1 <= nc)%nat -> 1 <= q_n q -> a <= b ->
  let runs T C Y := follows nc B W q a T C Y /\ C a = C0 /\ forall i, (i < nc)%nat -> Y i a = Y0 i in
  (exists C Y, runs b C Y) \/
  (forall M, exists T C Y, a <= T <= b /\ runs T C Y /\ (M < Rabs (C T) \/ exists i, (i < nc)%nat /\ M < Rabs (Y i T))).
Proof.
  intros nc B W q a b C0 Y0 Hnc Hn L runs.
  destruct (run_or_unbounded (pac_idx nc) pac_co of_pac opt_eq_dec (fun f o _ => pac_of f o) a b (pac_rate nc B W q) (C0, Y0) L) as [(y & S)|N].
  - intros t x _ o _. apply pac_tame; assumption.
  - left. apply pac_solves in S as (S1 & S2 & S3). exists (fun t => fst (y t)), (fun i t => snd (y t) i). split; [exact S1|]. split; assumption.
  - right. intros M. destruct (N M) as (T & y & o & A & S & Ho & Lt). apply pac_solves in S as (S1 & S2 & S3).
    exists T, (fun t => fst (y t)), (fun i t => snd (y t) i). split; [exact A|]. split; [split; [exact S1|split; assumption]|].
    destruct o as [i|]; [right|left; exact Lt]. exists i. split; [|exact Lt]. destruct Ho as [Ho|Ho]; [discriminate Ho|].
    apply in_map_iff in Ho as (j & Ej & Hj). injection Ej as ->. apply in_seq in Hj. lia.
Qed.
(** ** The ion-exchange batch reactors *)
From Verif Require Import M_IxBatch S_IxBatch P_IxBatch Props_IxBatch.

Definition of_b (f : nat * nat -> R) : bstate := fun r i => f (r, i).
Lemma b_eq_dec (p q : nat * nat) : {p = q} + {p <> q}.
Proof. repeat decide equality. Defined.

Section BatchExists.
Variables (psdm : bool) (b : batch) (op : radial) (Tf : R) (u0 : bstate).
Hypothesis Hn : (0 < b_NION b)%nat.
Hypothesis Hr : (1 <= b_nr b)%nat.
Hypothesis HK : selectivities (b_NION b) (b_K b).
Notation solid := (if psdm then 1 - b_EPOR b else 1).
Notation E := (b_entries (b_nr b) (b_NION b)).
Notation G := (fun p (_ : R) u => tot_rhs psdm b op u (fst p) (snd p)).
Definition needed (r : nat) : Prop := (1 <= r <= b_nr b)%nat /\ (psdm = true \/ r = b_nr b).
Notation use_by m u := (batch_in_use_by m psdm solid (b_nr b) (b_NION b) (b_K b) (b_val b) (b_CT b) u).
Definition fine (u : bstate) : Prop := exists m, 0 < m /\ use_by m u.

(** The margins of all radii as functions of the state. *)
Definition b_charge (r : nat) : R -> bstate -> R :=
  fun _ u => rsum (b_NION b) (fun i => if Nat.eqb (b_val b i) 2 then u r i / solid / b_K b i else 0).
Definition b_margins : list (R -> bstate -> R) :=
  flat_map (fun r => if (psdm || Nat.eqb r (b_nr b))%bool then
    margins (b_NION b) (b_K b) (b_val b) (fun i _ u => u r i / solid) (fun _ _ => b_CT b) ++
    (if has_divalent (b_NION b) (b_val b) then [b_charge r] else []) else []) (seq 1 (b_nr b)).
Lemma b_margins_in F : In F b_margins <-> exists r, needed r /\
  (In F (margins (b_NION b) (b_K b) (b_val b) (fun i _ u => u r i / solid) (fun _ _ => b_CT b)) \/
   (has_divalent (b_NION b) (b_val b) = true /\ F = b_charge r)).
Proof.
  unfold b_margins, needed. rewrite in_flat_map. split.
  - intros (r & Hr1 & HF). apply in_seq in Hr1. exists r. destruct (psdm || Nat.eqb r (b_nr b))%bool eqn:Ep; [|destruct HF].
    split; [split; [lia|]|].
    + apply orb_true_iff in Ep as [Ep|Ep]; [left; exact Ep|right; apply Nat.eqb_eq, Ep].
    + apply in_app_iff in HF as [HF|HF]; [left; exact HF|]. destruct (has_divalent (b_NION b) (b_val b)); [|destruct HF].
      destruct HF as [<-|[]]. right. split; reflexivity.
  - intros (r & (A1 & A2) & HF). exists r. split; [apply in_seq; lia|].
    replace (psdm || Nat.eqb r (b_nr b))%bool with true.
    + apply in_app_iff. destruct HF as [HF|(-> & ->)]; [left; exact HF|right; left; reflexivity].
    + symmetry. apply orb_true_iff. destruct A2 as [A2|A2]; [left; exact A2|right; apply Nat.eqb_eq, A2].
Qed.
Lemma b_margins_ok m u : use_by m u <-> forall F, In F b_margins -> m <= F 0 u.
Proof.
  split.
  - intros H F HF. apply b_margins_in in HF as (r & (A1 & A2) & HF). destruct (H r A1 A2) as (S & C). destruct HF as [HF|(HD & ->)].
    + apply (proj1 (margins_solvable (b_NION b) (b_K b) (b_val b) (fun i (_ : R) (u : bstate) => u r i / solid) (fun _ _ => b_CT b) m 0 u) S F HF).
    + apply C, has_divalent_exists, HD.
  - intros H r A1 A2. split.
    + apply (margins_solvable (b_NION b) (b_K b) (b_val b) (fun i (_ : R) (u : bstate) => u r i / solid) (fun _ _ => b_CT b) m 0 u).
      intros F HF. apply H, b_margins_in. exists r. split; [split; assumption|left; exact HF].
    + intros HD. apply has_divalent_exists in HD. apply (H (b_charge r)). apply b_margins_in. exists r. split; [split; assumption|right; split; [exact HD|reflexivity]].
Qed.
Lemma b_margins_tame D t u F : In F b_margins -> tame E b_at D F t u.
Proof.
  intros HF. apply b_margins_in in HF as (r & (A1 & A2) & HF).
  assert (Tq : forall i, (i < b_NION b)%nat -> tame E b_at D (fun _ v => v r i / solid) t u).
  { intros i Hi. apply (tame_div_const E b_at D _ (fun _ v => v r i)). apply (tame_coord E b_at D (r, i)). apply in_b_entries; lia. }
  destruct HF as [HF|(_ & ->)].
  - apply (margins_tame E b_at D t u (b_NION b) (b_K b) (b_val b) (fun i _ u => u r i / solid) (fun _ _ => b_CT b) Hn Tq); [apply tame_const|exact HF].
  - unfold b_charge. apply (tame_rsum E b_at D (b_NION b) (fun i _ u => if Nat.eqb (b_val b i) 2 then u r i / solid / b_K b i else 0)). intros i Hi.
    destruct (Nat.eqb (b_val b i) 2); [|apply tame_const]. apply (tame_div_const E b_at D _ (fun _ u => u r i / solid)), Tq, Hi.
Qed.
Lemma b_margins_time F s s' u : In F b_margins -> F s u = F s' u.
Proof.
  intros HF. apply b_margins_in in HF as (r & _ & [HF|(_ & ->)]); [|reflexivity].
  unfold margins in HF. cbv zeta in HF. destruct (has_divalent (b_NION b) (b_val b)); [destruct HF as [<-|[<-|[<-|[]]]]|destruct HF as [<-|[]]]; reflexivity.
Qed.
(** With a margin the batch formula gives what the column formula gives. *)
Lemma batch_Ceq m (q : nat -> R) : 0 < m -> solvable m (b_NION b) (b_K b) (b_val b) q (b_CT b) ->
  ((exists i, (i < b_NION b)%nat /\ b_val b i = 2%nat) -> m <= rsum (b_NION b) (fun i => if Nat.eqb (b_val b i) 2 then q i / b_K b i else 0)) ->
  exists C, calc_Ceq_batch (b_NION b) (b_K b) (b_val b) q (b_CT b) = Some C /\
    forall i, C i = calc_Ceq (b_NION b) (b_K b) (b_val b) q (b_CT b) i.
Proof. apply batch_Ceq_column. Qed.
Lemma fine_some u : fine u -> exists d, batch_rhs psdm b op u = Some d.
Proof.
  intros (m & Hm & F). unfold batch_in_use_by in F. unfold batch_rhs. destruct psdm.
  - unfold diffun_psdm_batch.
    assert (Q : forall r, (1 <= r <= b_nr b)%nat -> exists C, calc_Ceq_batch (b_NION b) (b_K b) (b_val b) (fun i => u r i / (1 - b_EPOR b)) (b_CT b) = Some C).
    { intros r H. destruct (F r H (or_introl eq_refl)) as (F0 & F1). destruct (batch_Ceq m _ Hm F0 F1) as (C & EC & _). exists C. exact EC. }
    assert (P : forall n, (n <= b_nr b)%nat -> exists P, pore_liquid b u n = Some P).
    { induction n as [|n IH]; intros L; [eexists; reflexivity|]. cbn [pore_liquid]. destruct (IH ltac:(lia)) as (P & ->).
      destruct (Q (S n) ltac:(lia)) as (C & ->). eexists; reflexivity. }
    destruct (P (b_nr b) (le_n _)) as (p & ->). destruct (Q (b_nr b) ltac:(lia)) as (C & ->). eexists; reflexivity.
  - unfold diffun_hsdm_batch. destruct (F (b_nr b) ltac:(lia) (or_intror eq_refl)) as (F0 & F1).
    destruct (batch_Ceq m _ Hm F0 F1) as (C & EC & _).
    assert (D1 : forall i, u (b_nr b) i / 1 = u (b_nr b) i) by (intros i; field).
    unfold calc_Ceq_batch in EC |- *. destruct (has_divalent (b_NION b) (b_val b)); [|eexists; reflexivity].
    unfold Ceq_dv_batch in EC |- *. cbv zeta in EC |- *.
    replace (eq_aa (b_NION b) (b_K b) (b_val b) (u (b_nr b))) with (eq_aa (b_NION b) (b_K b) (b_val b) (fun i => u (b_nr b) i / 1)).
    + destruct (reqb _ 0); [discriminate EC|]. eexists; reflexivity.
    + unfold eq_aa, masked_sum. rewrite D1. f_equal. apply rsum_ext. intros j Hj. rewrite D1. reflexivity.
Qed.
Lemma fine_near x : fine x -> exists near, 0 < near /\ forall u, dist E b_at u x < near -> fine u.
Proof.
  intros (m & Hm & F). 
  destruct (margins_near E b_at (fun _ => True) 0 x b_margins m Hm) as (near & Hnear & Q).
  - intros G HG. apply b_margins_tame, HG.
  - apply b_margins_ok, F.
  - exists near. split; [exact Hnear|]. intros u Hu. exists (m / 2). split; [lra|]. apply b_margins_ok. intros G HG.
    apply (Q 0 u); try assumption; [exact I|]. rewrite Rminus_diag_eq by reflexivity. rewrite Rabs_R0. exact Hnear.
Qed.
Lemma b_tame D t u : fine u -> forall p, In p E -> tame E b_at D (G p) t u.
Proof.
  intros (m & Hm & F) p Hp. apply b_entries_in in Hp as (A1 & A2). apply tame_tot_rhs with (mg := m); assumption.
Qed.
(** A solution along which the rates are defined is a run of the reactor. *)
Lemma b_solves T y : solves E b_at 0 G u0 T y -> (forall s, 0 < s < T -> fine (y s)) ->
  is_batch_trajectory (b_nr b) (b_NION b) (batch_rhs psdm b op) T y /\
  forall r i, (r <= b_nr b)%nat -> (i < b_NION b)%nat -> y 0 r i = u0 r i.
Proof.
  intros (S0 & S1) F. split.
  - exists (fun t => match batch_rhs psdm b op (y t) with Some d => d | None => fun _ _ => 0 end). split.
    + intros t Ht. destruct (fine_some (y t) (F t Ht)) as (d & ->). reflexivity.
    + intros r i A1 A2. refine (evolves_ext 0 T _ _ _ _ _ _ (S1 (r, i) (in_b_entries _ _ _ _ A1 A2))); [reflexivity|].
      intros t Ht. cbn [fst snd]. destruct (fine_some (y t) (F t Ht)) as (d & Ed). rewrite Ed. symmetry. apply (tot_rhs_ok psdm b op _ _ Ed).
  - intros r i A1 A2. apply (S0 (r, i)), in_b_entries; assumption.
Qed.

Section Lasts.
Variable m : R.
Hypothesis Hm : 0 < m.
Hypothesis HT : 0 <= Tf.
Notation safe u := (use_by m u).
Hypothesis Safe : forall T y, 0 <= T <= Tf -> is_batch_trajectory (b_nr b) (b_NION b) (batch_rhs psdm b op) T y ->
  (forall r i, (r <= b_nr b)%nat -> (i < b_NION b)%nat -> y 0 r i = u0 r i) -> safe (y T).
Lemma safe_fine u : safe u -> fine u.
Proof. intros S. exists m. split; assumption. Qed.
Lemma safe_solves T y : 0 <= T <= Tf -> solves E b_at 0 G u0 T y -> forall t, 0 <= t <= T -> safe (y t).
Proof.
  intros HTT S. 
  assert (R0 : forall t, 0 <= t <= T -> solves E b_at 0 G u0 t y).
  { intros t Ht. destruct S as (S0 & S1). split; [exact S0|]. intros i Hi. apply (evolves_sub 0 T); [lra|]. apply S1, Hi. }
  apply real_induction; [lra| |].
  - intros t Ht P. destruct (b_solves t y (R0 t Ht)) as (B1 & B2).
    + intros s Hs. apply safe_fine, P. lra.
    + apply (Safe t y); [lra|exact B1|exact B2].
  - intros t Ht P. destruct (fine_near (y t) (safe_fine _ (P t ltac:(lra)))) as (near & Hnear & Q).
    destruct (coords_near E b_at 0 t G y ltac:(lra) (proj2 (R0 t ltac:(lra))) near Hnear) as (d & Hd & C).
    exists d. split; [exact Hd|]. intros s Hs Hs2. destruct (b_solves s y (R0 s ltac:(lra))) as (B1 & B2).
    + intros r Hrr. destruct (Rle_lt_dec r t) as [L|L]; [apply safe_fine, P; lra|]. apply Q, C. apply Rabs_def1; lra.
    + apply (Safe s y); [lra|exact B1|exact B2].
Qed.
Lemma b_reached_safe t x : reached E b_at 0 Tf G u0 t x -> safe x.
Proof.
  intros Re. apply b_margins_ok. intros F HF. rewrite (b_margins_time F 0 t x HF).
  apply (margin_limit E b_at (fun _ => True) t x F m (fun s y => exists Y, y = Y s /\ 0 <= s <= Tf /\ solves E b_at 0 G u0 s Y)).
  - apply b_margins_tame, HF.
  - intros e He. destruct (Re e He) as (T & Y & HTT & S & A & B). exists T, (Y T). split; [exact I|]. split; [exists Y; split; [reflexivity|split; assumption]|]. split; assumption.
  - intros s y (Y & -> & Hs & S). rewrite (b_margins_time F s 0 _ HF). apply b_margins_ok; [|exact HF]. apply (safe_solves s Y Hs S). lra.
Qed.
Notation P := (fun (_ : R) u => safe u).
Notation Gr F := (grows E b_at P F).
Lemma grows_b r i : (r <= b_nr b)%nat -> (i < b_NION b)%nat -> Gr (fun _ v => v r i).
Proof. intros. apply (grows_coord E b_at P (r, i)). apply in_b_entries; assumption. Qed.
Lemma grows_tot r i : needed r -> (i < b_NION b)%nat ->
  Gr (fun _ v => tot_Ceq (b_NION b) (b_K b) (b_val b) (fun i => v r i / solid) (b_CT b) i).
Proof.
  intros (A1 & A2) Hi. set (M := Rabs (b_CT b)). set (k := 2 * M / m + / b_K b i * (1 + M / m + (2 * M / m) ^ b_val b i)).
  apply (grows_le E b_at P (fun _ v => k * (v r i / solid))).
  - intros t u S. destruct (S r A1 A2) as (S0 & S1). destruct (batch_Ceq m _ Hm S0 S1) as (C & EC & EQ).
    rewrite <- (tot_Ceq_ok _ _ _ _ _ _ EC), EQ.
    eapply Rle_trans; [apply (Ceq_bound (b_NION b) (b_K b) (b_val b) _ _ m M i Hi HK Hm S0 (Rle_refl _))|].
    fold k. rewrite Rmult_comm, (Rabs_mult k). apply Rmult_le_compat_r; [apply Rabs_pos|apply Rle_abs].
  - apply (grows_scal E b_at P k (fun _ v => v r i / solid)). apply (grows_div E b_at P _ (fun _ v => v r i)). apply grows_b; lia.
Qed.
Lemma grows_tot_rhs r i : (r <= b_nr b)%nat -> (i < b_NION b)%nat -> Gr (fun _ v => tot_rhs psdm b op v r i).
Proof.
  intros Hr1 Hi. unfold tot_rhs, batch_assemble. cbv zeta.
  assert (TJ : Gr (fun _ v => - b_kL b * (v 0%nat i -
    tot_Ceq (b_NION b) (b_K b) (b_val b) (fun i => v (b_nr b) i / solid) (b_CT b) i))).
  { apply (grows_scal E b_at P _ (fun _ v => v 0%nat i - tot_Ceq (b_NION b) (b_K b) (b_val b) (fun i => v (b_nr b) i / solid) (b_CT b) i)).
    apply (grows_minus E b_at P (fun _ v => v 0%nat i)); [apply grows_b; lia|].
    apply grows_tot; [split; [lia|right; reflexivity]|exact Hi]. }
  assert (TB : forall k, Gr (fun _ v => rsum (b_nr b) (fun m => rBr op k m * v (S m) i))).
  { intros k. apply (grows_rsum E b_at P (b_nr b) (fun m _ v => rBr op k m * v (S m) i)). intros j Hj.
    apply (grows_scal E b_at P _ (fun _ v => v (S j) i)). apply grows_b; lia. }
  assert (Tq : forall k, Gr (fun _ v => if psdm then (b_EPOR b * (b_Dp b - b_Ds b) * rsum (b_nr b) (fun m => rBr op k m *
       tot_Ceq (b_NION b) (b_K b) (b_val b) (fun i => v (S m) i / solid) (b_CT b) i)
       + b_Ds b * rsum (b_nr b) (fun m => rBr op k m * v (S m) i)) / b_rb b ^ 2
    else b_Ds b / b_rb b ^ 2 * rsum (b_nr b) (fun m => rBr op k m * v (S m) i))).
  { intros k.
    assert (TP : psdm = true -> Gr (fun _ v => (b_EPOR b * (b_Dp b - b_Ds b) * rsum (b_nr b) (fun m => rBr op k m *
       tot_Ceq (b_NION b) (b_K b) (b_val b) (fun i => v (S m) i / solid) (b_CT b) i)
       + b_Ds b * rsum (b_nr b) (fun m => rBr op k m * v (S m) i)) / b_rb b ^ 2)).
    { intros Ep. apply (grows_div E b_at P _ (fun _ v => b_EPOR b * (b_Dp b - b_Ds b) * rsum (b_nr b) (fun m => rBr op k m *
       tot_Ceq (b_NION b) (b_K b) (b_val b) (fun i => v (S m) i / solid) (b_CT b) i)
       + b_Ds b * rsum (b_nr b) (fun m => rBr op k m * v (S m) i))).
      apply (grows_plus E b_at P (fun _ v => b_EPOR b * (b_Dp b - b_Ds b) * rsum (b_nr b) (fun m => rBr op k m *
       tot_Ceq (b_NION b) (b_K b) (b_val b) (fun i => v (S m) i / solid) (b_CT b) i))
       (fun _ v => b_Ds b * rsum (b_nr b) (fun m => rBr op k m * v (S m) i))).
      - apply (grows_scal E b_at P _ (fun _ v => rsum (b_nr b) (fun m => rBr op k m *
          tot_Ceq (b_NION b) (b_K b) (b_val b) (fun i => v (S m) i / solid) (b_CT b) i))).
        apply (grows_rsum E b_at P (b_nr b) (fun m _ v => rBr op k m *
          tot_Ceq (b_NION b) (b_K b) (b_val b) (fun i => v (S m) i / solid) (b_CT b) i)). intros j Hj.
        apply (grows_scal E b_at P _ (fun _ v => tot_Ceq (b_NION b) (b_K b) (b_val b) (fun i => v (S j) i / solid) (b_CT b) i)).
        apply grows_tot; [split; [lia|left; exact Ep]|exact Hi].
      - apply (grows_scal E b_at P _ (fun _ v => rsum (b_nr b) (fun m => rBr op k m * v (S m) i))), TB. }
    assert (TH : Gr (fun _ v => b_Ds b / b_rb b ^ 2 * rsum (b_nr b) (fun m => rBr op k m * v (S m) i)))
      by (apply (grows_scal E b_at P _ (fun _ v => rsum (b_nr b) (fun m => rBr op k m * v (S m) i))), TB).
    refine (grows_le E b_at P (fun t v => if psdm then _ else _) _ _ _); [intros; apply Rle_refl|]. clear TJ.
    destruct (bool_dec psdm true) as [Ep|Ep].
    - apply (grows_ext E b_at P (fun _ v => (b_EPOR b * (b_Dp b - b_Ds b) * rsum (b_nr b) (fun m => rBr op k m *
       tot_Ceq (b_NION b) (b_K b) (b_val b) (fun i => v (S m) i / solid) (b_CT b) i)
       + b_Ds b * rsum (b_nr b) (fun m => rBr op k m * v (S m) i)) / b_rb b ^ 2)); [|apply TP, Ep].
      intros t v. replace psdm with true. reflexivity.
    - apply (grows_ext E b_at P (fun _ v => b_Ds b / b_rb b ^ 2 * rsum (b_nr b) (fun m => rBr op k m * v (S m) i))); [|exact TH].
      intros t v. destruct psdm; [contradiction Ep; reflexivity|reflexivity]. }
  destruct r as [|k].
  - apply (grows_div E b_at P _ (fun _ v => 3 * b_VR b / b_rb b * (- b_kL b * (v 0%nat i -
      tot_Ceq (b_NION b) (b_K b) (b_val b) (fun i => v (b_nr b) i / solid) (b_CT b) i)))).
    apply (grows_scal E b_at P _ (fun _ v => - b_kL b * (v 0%nat i -
      tot_Ceq (b_NION b) (b_K b) (b_val b) (fun i => v (b_nr b) i / solid) (b_CT b) i))), TJ.
  - destruct (Nat.eqb k (b_nr b - 1)); [|apply Tq].
    match goal with |- grows _ _ _ (fun s v => (@?A s v - @?B s v) / ?w) =>
      apply (grows_div E b_at P w (fun s v => A s v - B s v)); apply (grows_minus E b_at P A B) end.
    + match goal with |- grows _ _ _ (fun s v => - @?A s v / ?w) =>
        apply (grows_div E b_at P w (fun s v => - A s v)); apply (grows_opp E b_at P A) end. exact TJ.
    + match goal with |- grows _ _ _ (fun s v => rsum ?n (fun m => @?A m s v)) => apply (grows_rsum E b_at P n A) end.
      intros j Hj. match goal with |- grows _ _ _ (fun s v => ?w * @?A s v) => apply (grows_scal E b_at P w A) end. apply Tq.
Qed.
Lemma b_lasts : exists y, is_batch_trajectory (b_nr b) (b_NION b) (batch_rhs psdm b op) Tf y /\
  forall r i, (r <= b_nr b)%nat -> (i < b_NION b)%nat -> y 0 r i = u0 r i.
Proof.
  destruct (lasting_run E b_at of_b b_eq_dec (fun f p _ => match p as q return (b_at q (of_b f) = f q) with (r, i) => eq_refl end) 0 Tf G u0 P HT) as (y & Y).
  - intros T y H1 H2. apply (safe_solves T y H1 H2). lra.
  - intros p Hp. apply b_entries_in in Hp as (A1 & A2). apply grows_tot_rhs; assumption.
  - intros t x Ht Re. apply b_tame, safe_fine, (b_reached_safe t), Re.
  - exists y. apply b_solves; [exact Y|]. intros s Hs. apply safe_fine, (safe_solves Tf y ltac:(lra) Y). lra.
Qed.
End Lasts.
End BatchExists.

(** From a batch state in normal use a run starts; so it does from the state the code builds. *)
Theorem C168_batch_starts : forall (psdm : bool) b op Tf u0,
  (0 < b_NION b)%nat -> (1 <= b_nr b)%nat -> selectivities (b_NION b) (b_K b) -> 0 < Tf ->
  let solid := if psdm then 1 - b_EPOR b else 1 in
  (exists m, 0 < m /\ batch_in_use_by m psdm solid (b_nr b) (b_NION b) (b_K b) (b_val b) (rsum (b_NION b) (b_C0 b)) u0) ->
  exists T y, 0 < T <= Tf /\ is_batch_trajectory (b_nr b) (b_NION b) (batch_rhs psdm b op) T y /\
    forall r i, (r <= b_nr b)%nat -> (i < b_NION b)%nat -> y 0 r i = u0 r i.
Proof.
  intros psdm b op Tf u0 Hn Hr HK HT solid F. change (fine psdm b u0) in F.
  destruct (fine_near psdm b Hn Hr u0 F) as (near & Hnear & Q).
  destruct (run_starts (b_entries (b_nr b) (b_NION b)) b_at of_b b_eq_dec (fun f p _ => match p as q return (b_at q (of_b f) = f q) with (r, i) => eq_refl end)
    0 Tf (fun p _ u => tot_rhs psdm b op u (fst p) (snd p)) u0 HT) with (near := near) as (T & y & A & S & Nr).
  - apply b_tame; assumption.
  - exact Hnear.
  - exists T, y. split; [exact A|]. apply b_solves; try assumption. intros s Hs. apply Q, Nr. lra.
Qed.
Theorem C168_fresh_batch_starts : forall (psdm : bool) b op Tf,
  (0 < b_NION b)%nat -> (1 <= b_nr b)%nat -> selectivities (b_NION b) (b_K b) -> (forall i, (i < b_NION b)%nat -> 0 <= b_C0 b i) -> 0 < Tf ->
  0 < b_Q b -> (psdm = true -> b_EPOR b < 1) -> mono_or_divalent (b_NION b) (b_val b) -> (ndv b < 1000)%nat ->
  exists T y, 0 < T <= Tf /\ is_batch_trajectory (b_nr b) (b_NION b) (batch_rhs psdm b op) T y /\
    forall r i, (r <= b_nr b)%nat -> (i < b_NION b)%nat -> y 0 r i = batch_initial b r i.
Proof.
  intros psdm b op Tf Hn Hr HK HC HT HQ Hp (Hv0 & Hv) Hd. apply C168_batch_starts; try assumption. apply (nonneg_batch psdm b _ Hn HK); [apply rsum_nonneg, HC|].
  intros r H1 _. destruct r as [|r]; [lia|]. assert (IS : 0 < / (if psdm then 1 - b_EPOR b else 1)).
  { apply Rinv_0_lt_compat. destruct psdm; [specialize (Hp eq_refl); lra|lra]. }
  assert (ID : INR (ndv b) < 1000) by (replace 1000 with (INR 1000) by (rewrite INR_IZR_INZ; reflexivity); apply lt_INR, Hd).
  assert (Q0 : 0 < b_Q b - INR (ndv b) * b_Q b / 1000) by (unfold Rdiv; nra).
  unfold Rdiv. cbn [batch_initial]. split; [split|].
  - cbn [Nat.eqb]. apply Rmult_lt_0_compat; [|exact IS]. destruct (has_divalent (b_NION b) (b_val b)); assumption.
  - intros i Hi. apply Rmult_le_pos; [|lra]. destruct (has_divalent (b_NION b) (b_val b)); destruct (Nat.eqb i 0); try lra.
    destruct (dv_idx (b_val b) i); lra.
  - intros k Hk Ek. apply Rmult_lt_0_compat; [|exact IS].
    assert (D : has_divalent (b_NION b) (b_val b) = true).
    { unfold has_divalent. apply existsb_exists. exists k. split; [apply in_seq; lia|]. unfold dv_idx. rewrite Ek. reflexivity. }
    rewrite D. destruct (Nat.eqb_spec k 0) as [->|Nk]; [exact Q0|]. unfold dv_idx. rewrite Ek. cbn. lra.
Qed.
(** It lasts to the requested end, or some run gets as near as one likes to an exchange
    equilibrium without solution or, where the batch formula divides by it, to no divalent charge. *)
Theorem C168_batch_lasts : forall (psdm : bool) b op Tf u0,
  (0 < b_NION b)%nat -> (1 <= b_nr b)%nat -> selectivities (b_NION b) (b_K b) -> 0 <= Tf ->
  let solid := if psdm then 1 - b_EPOR b else 1 in
  let runs T y := is_batch_trajectory (b_nr b) (b_NION b) (batch_rhs psdm b op) T y /\
    forall r i, (r <= b_nr b)%nat -> (i < b_NION b)%nat -> y 0 r i = u0 r i in
  (exists y, runs Tf y) \/
  (forall m, 0 < m -> exists T y, 0 <= T <= Tf /\ runs T y /\
     ~ batch_in_use_by m psdm solid (b_nr b) (b_NION b) (b_K b) (b_val b) (rsum (b_NION b) (b_C0 b)) (y T)).
Proof.
  intros psdm b op Tf u0 Hn Hr HK HT solid runs.
  destruct (classic (exists y, runs Tf y)) as [Y|N]; [left; exact Y|]. right. intros m Hm. apply NNPP. intros N2. apply N.
  apply (b_lasts psdm b op Tf u0 Hn Hr HK m Hm HT). intros T y H1 H2 H3. apply NNPP. intros N3. apply N2.
  exists T, y. split; [exact H1|]. split; [split; assumption|exact N3].
Qed.

(** ** The hypotheses are met *)
(** The column of C158 fed half and half: a run from its fresh bed. *)
Example ru_exists : forall psdm, exists T y, 0 < T <= 5 /\
  is_trajectory 1 2 2 (fun T u => rhs psdm ru_col ru_op 1 (fun _ => 1 / 2) u) T y /\ same_state 1 2 2 (y 0) (initial_state ru_col (fun _ => 1 / 2) None).
Proof.
  intros psdm. apply (C168_fresh_bed_starts psdm ru_col ru_op 1 (fun _ _ => 1 / 2) 5); try (cbn; lia); try (cbn; lra).
  - intros i _. cbn. lra.
  - destruct psdm; cbn; lra.
  - intros i _ t _ e He. exists 1. split; [lra|]. intros. rewrite Rminus_diag_eq by reflexivity. rewrite Rabs_R0. exact He.
  - intros i _. lra.
Qed.
(** Two competing compounds on a carbon column with any operators, from any state. *)
Example carbon_exists : forall m u0, exists T y, 0 < T <= 1 /\
  gac_trajectory 2 3 (m_c m) (diffun (g_ex 2 true 1) m 3 (fun _ => [(0, 100); (1000, 100)]) (fun _ _ => 1)) T y /\
  forall i r z, (i < 2)%nat -> (r <= 3)%nat -> (z < m_c m)%nat -> y 0 i r z = u0 i r z.
Proof.
  intros m u0. apply (C168_carbon_column_starts (g_ex 2 true 1) m 3 (fun _ => [(0, 100); (1000, 100)]) (fun _ _ => 1) 1 u0).
  - apply physical_example. lia.
  - intros i _. cbn. lra.
  - lia.
  - lra.
Qed.
Example contactor_exists : forall B W, exists T C Y, 0 < T <= 9 /\ follows 3 B W demo_eqn 0 T C Y /\ C 0 = 1 /\
  forall i, (i < 3)%nat -> Y i 0 = 0.
Proof. intros B W. apply (C168_contactor_starts 3 B W demo_eqn 0 9 1 (fun _ => 0)); [lia|cbn; lra|lra]. Qed.
(** A batch with a divalent ion: chloride, nitrate, sulfate. *)
Definition dv_batch : batch :=
  {| b_NION := 3; b_nr := 4; b_Qm := 1; b_RHOP := 1; b_EPOR := 1 / 5; b_VR := 1; b_VL := 1;
     b_Ds := 1; b_Dp := 1; b_kL := 1; b_rb := 3;
     b_C0 := fun i => match i with 0%nat => 0 | _ => 1 end;
     b_K := fun _ => 2; b_val := fun i => match i with 2%nat => 2%nat | _ => 1%nat end |}.
Example batch_exists : forall psdm op, exists T y, 0 < T <= 5 /\ is_batch_trajectory 4 3 (batch_rhs psdm dv_batch op) T y /\
  forall r i, (r <= 4)%nat -> (i < 3)%nat -> y 0 r i = batch_initial dv_batch r i.
Proof.
  intros psdm op. apply (C168_fresh_batch_starts psdm dv_batch op 5); try (cbn; lia); try (cbn; lra).
  - intros i _. cbn. lra.
  - intros [|i] _; cbn; lra.
  - unfold b_Q. destruct psdm; cbn; lra.
  - split; [reflexivity|]. intros [|[|[|i]]] Hi; cbn; auto.
Qed.
(** The run of C158 shows a batch that does last. *)
Example batch_lasts : forall psdm, exists y, is_batch_trajectory 1 2 (batch_rhs psdm ex_batch ex_op) 5 y /\ y 0 = batch_initial ex_batch.
Proof. intros psdm. exists ex_run. split; [apply ex_run_trajectory|apply ex_run_starts]. Qed.

Print Assumptions C168_column_starts.
Print Assumptions C168_fresh_bed_starts.
Print Assumptions C168_column_lasts.
Print Assumptions C168_carbon_column_starts.
Print Assumptions C168_carbon_column_lasts.
Print Assumptions C168_contactor_starts.
Print Assumptions C168_contactor_lasts.
Print Assumptions C168_batch_starts.
Print Assumptions C168_fresh_batch_starts.
Print Assumptions C168_batch_lasts.
