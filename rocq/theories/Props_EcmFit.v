(** Properties C110-C112: fitting the equilibrium column model. *)
From Coq Require Import Reals List Arith Bool String Lra Lia.
From Verif Require Import Lib_Py Lib_Pow M_GacFun M_GacSmart M_GacCapacity P_GacCapacity M_IxUnc M_Ecm M_EcmFit Lib_Sum.
Import ListNotations.
Open Scope R_scope.
Local Notation length := List.length.

Section Props.
Variable root0 : ecm_in -> nat -> R.
Variable root : ecm_in -> nat -> est -> nat -> R.
(** Predicted days to breakthrough and peaks with the parameters of a trial: the peak of a
    compound is its concentration behind the front of its own zone, relative to that in the first. *)
Definition trial_days e a i := days_to_breakthrough (with_point e a) (root0 (with_point e a)) (root (with_point e a)) i.
Definition trial_peak e a i := let zones := run_ecm (with_point e a) (root0 (with_point e a)) (root (with_point e a)) in cs zones i i / cs zones 0 i.

(** ** C110: the score of a fit to breakthrough days and peaks *)
Lemma rsum_sq_nonneg n f : 0 <= rsum n (fun i => f i ^ 2).
Proof. induction n as [|n IH]; cbn [rsum]; [lra|]. pose proof (pow2_ge_0 (f n)). lra. Qed.
Lemma rsum_sq_zero n f : rsum n (fun i => f i ^ 2) = 0 <-> forall i, (i < n)%nat -> f i = 0.
Proof.
  split.
  - induction n as [|n IH]; intros H i I; [lia|]. cbn [rsum] in H. pose proof (pow2_ge_0 (f n)) as P. pose proof (rsum_sq_nonneg n f) as Q.
    destruct (Nat.eq_dec i n) as [->|N]; [|apply IH; [lra|lia]]. assert (S0 : Rsqr (f n) = 0) by (rewrite Rsqr_pow2; lra). apply Rsqr_0_uniq in S0. exact S0.
  - intros H. induction n as [|n IH]; [reflexivity|]. cbn [rsum]. rewrite IH by (intros; apply H; lia). rewrite (H n) by lia. ring.
Qed.
(** The score is never negative and is zero for parameters that reproduce both; it is zero
    exactly when all days or all peaks are reproduced. *)
Theorem C110_score_partial : forall brk pk w e a, 0 < w ->
  0 <= score root0 root brk pk w e a /\
  (score root0 root brk pk w e a = 0 <-> (forall i, (i < e_n e)%nat -> trial_days e a i = brk i) \/ (forall i, (i < e_n e)%nat -> trial_peak e a i = pk i)).
Proof.
  intros brk pk w e a W. unfold score. set (s1 := rsum _ (fun i => (days _ _ _ _ - brk i) ^ 2)). set (s2 := rsum _ (fun i => (peak _ _ _ _ - pk i) ^ 2)).
  assert (P1 : 0 <= s1) by apply rsum_sq_nonneg. assert (P2 : 0 <= s2) by apply rsum_sq_nonneg. split; [repeat apply Rmult_le_pos; lra|].
  assert (Z1 : s1 = 0 <-> forall i, (i < e_n e)%nat -> trial_days e a i = brk i). { unfold s1. rewrite rsum_sq_zero. unfold trial_days. fold (days root0 root (with_point e a)). split; intros H i I; specialize (H i I); unfold days in *; lra. }
  assert (Z2 : s2 = 0 <-> forall i, (i < e_n e)%nat -> trial_peak e a i = pk i). { unfold s2. rewrite rsum_sq_zero. unfold trial_peak. split; intros H i I; specialize (H i I); unfold peak in *; cbv zeta in *; lra. }
  rewrite <- Z1, <- Z2. split.
  - intros H. apply Rmult_integral in H as [H|H]; [|lra]. apply Rmult_integral in H as [H|H]; [|right; exact H]. apply Rmult_integral in H as [H|H]; [left; exact H|lra].
  - intros [-> | ->]; ring.
Qed.
(** So the best possible score does not mean a fit: any parameters have it for their own days,
    whatever the peaks. *)
Theorem C110_peaks_ignored_refuted : forall e a w (pk : nat -> R), score root0 root (trial_days e a) pk w e a = 0.
Proof.
  intros e a w pk. unfold score. rewrite (proj2 (rsum_sq_zero (e_n e) (fun i => days root0 root (with_point e a) i - trial_days e a i))); [ring|]. intros i _. unfold trial_days, days. ring.
Qed.

(** ** C111: the object after a fit *)
Definition holds (e : ecm_in) (n : nat) (a : point) : Prop := forall i, (i < n)%nat -> e_K e i = a i /\ e_xni e i = a (n + i)%nat /\ e_xn e i = 1 / a (n + i)%nat.
Lemma with_holds e a : holds (with_point e a) (e_n e) a.
Proof. intros i I. cbn. split; [ring|]. split; [ring|reflexivity]. Qed.
Lemma after_n trials : forall e, e_n (after trials e) = e_n e.
Proof. induction trials as [|a l IH]; intros e; [reflexivity|]. cbn. rewrite IH. reflexivity. Qed.
(** The object has the parameters of the last trial: the fitted ones if that was the last. *)
Theorem C111_last_trial_partial : forall e trials a, holds (after (trials ++ [a])%list e) (e_n e) a.
Proof. intros e trials a. unfold after. rewrite fold_left_app. cbn [fold_left]. fold (after trials e). rewrite <- (after_n trials e). apply with_holds. Qed.
(** When the optimiser tries another point after its best one, as it does to estimate
    gradients, the object does not have the fitted parameters. *)
Theorem C111_perturbed_refuted : forall e trials best probe, In best trials -> (exists i, (i < e_n e)%nat /\ probe i <> best i) ->
  ~ holds (after (trials ++ [probe])%list e) (e_n e) best.
Proof.
  intros e trials best probe _ (i & I & N) H. pose proof (C111_last_trial_partial e trials probe) as L. destruct (H i I) as (A & _). destruct (L i I) as (B & _). apply N. rewrite <- A. symmetry. exact B.
Qed.

(** ** C112: the score of a fit to records *)
Lemma mapM_nth {A B} (f : A -> res B) : forall l r, mapM f l = Ok r -> forall a, In a l -> exists b, f a = Ok b /\ In (a, b) (combine l r).
Proof.
  induction l as [|x l IH]; intros r H a I; [contradiction|]. cbn in H. destruct (f x) as [y|] eqn:F; [|discriminate]. cbn in H. destruct (mapM f l) as [ys|] eqn:M; [|discriminate]. cbn in H.
  assert (r = y :: ys) by congruence. subst r. destruct I as [->|I]; [exists y; split; [exact F|left; reflexivity]|]. destruct (IH ys eq_refl a I) as (b & B1 & B2). exists b. split; [exact B1|right; exact B2].
Qed.
Lemma mapM_pairs {A B} (f : A -> res B) : forall l r, mapM f l = Ok r -> forall a b, In (a, b) (combine l r) -> In a l /\ f a = Ok b.
Proof.
  induction l as [|x l IH]; intros r H a b I; cbn in H; [assert (r = []) by congruence; subst r; contradiction|]. destruct (f x) as [y|] eqn:F; [|discriminate]. cbn in H. destruct (mapM f l) as [ys|] eqn:M; [|discriminate]. cbn in H.
  assert (r = y :: ys) by congruence. subst r. destruct I as [E|I]; [assert (x = a /\ y = b) as (-> & ->) by (split; congruence); split; [left; reflexivity|exact F]|]. destruct (IH ys eq_refl a b I) as (A1 & A2). split; [right; exact A1|exact A2].
Qed.
Lemma squares_nonneg (f : R -> R) (l : list (R * R)) : 0 <= fold_right Rplus 0 (map (fun p => (f (fst p) - snd p) ^ 2) l).
Proof. induction l as [|q l IH]; cbn [map fold_right]; [lra|]. pose proof (pow2_ge_0 (f (fst q) - snd q)). lra. Qed.
Lemma squares_zero (f : R -> R) : forall l, fold_right Rplus 0 (map (fun p => (f (fst p) - snd p) ^ 2) l) = 0 <-> forall t y, In (t, y) l -> f t = y.
Proof.
  induction l as [|q l IH]; cbn [map fold_right]; [split; [intros _ t y []|reflexivity]|]. pose proof (pow2_ge_0 (f (fst q) - snd q)) as P. pose proof (squares_nonneg f l) as N. split.
  - intros H t y [->|I]; [|apply IH; [lra|exact I]]. cbn [fst snd] in *. assert (S0 : Rsqr (f t - y) = 0) by (rewrite Rsqr_pow2; lra). apply Rsqr_0_uniq in S0. lra.
  - intros H. rewrite (proj2 IH) by (intros t y I; apply H; right; exact I). destruct q as (t & y). cbn [fst snd]. rewrite (H t y (or_introl eq_refl)). ring.
Qed.
Lemma add_errors_spec curve xs : forall recs s, add_errors curve xs recs = Ok s -> 0 <= s /\
  (s = 0 <-> forall c r t, In (c, r) recs -> In t xs -> exists f v, curve c = Some f /\ r_at r t = Ok v /\ f t = v).
Proof.
  induction recs as [|(c & r) more IH]; intros s H; cbn [add_errors of_option bind] in H. { assert (s = 0) by congruence. subst s. split; [lra|]. split; [intros _ c r t []|reflexivity]. }
  destruct (curve c) as [f|] eqn:C; [|discriminate]. cbn [add_errors of_option bind] in H. destruct (mapM (r_at r) xs) as [raw|] eqn:M; [|discriminate]. cbn [add_errors of_option bind] in H. destruct (add_errors curve xs more) as [rest|]; [|discriminate]. cbn [bind] in H.
  destruct (IH rest eq_refl) as (P & Z). match type of H with Ok (?A + _) = _ => pose proof (squares_nonneg f (combine xs raw)) as N; set (sq := A) in * end. assert (s = sq + rest) by congruence. subst s. split; [lra|]. split.
  - intros E c' r' t [I|I] T.
    + assert (c' = c /\ r' = r) as (-> & ->) by (split; congruence). destruct (mapM_nth _ _ _ M t T) as (v & V1 & V2). exists f, v. split; [exact C|]. split; [exact V1|]. apply (proj1 (squares_zero f (combine xs raw))); [unfold sq in *; lra|exact V2].
    + apply Z; [lra|exact I|exact T].
  - intros E. assert (Q : sq = 0). { apply squares_zero. intros t y I. destruct (mapM_pairs _ _ _ M t y I) as (T & V). destruct (E c r t (or_introl eq_refl) T) as (f' & v & F1 & F2 & F3). congruence. }
    rewrite Q, (proj2 Z); [ring|]. intros c' r' t I T. apply E; [right; exact I|exact T].
Qed.
(** The curve drawn for the compound called [c] with the parameters of the trial. *)
Definition predicted (names : list string) (e : ecm_in) (a : point) (c : string) (t v : R) : Prop :=
  exists j, nth_error names j = Some c /\ (forall i, (i < j)%nat -> nth_error names i <> Some c) /\ v = plot_obj (with_point e a) (root0 (with_point e a)) (root (with_point e a)) j t.
Lemma index_of_spec c : forall names j, index_of c names = Some j <-> nth_error names j = Some c /\ (forall i, (i < j)%nat -> nth_error names i <> Some c).
Proof.
  induction names as [|x names IH]; intros j; cbn; [split; [discriminate|intros (H & _); destruct j; discriminate]|]. destruct (String.eqb_spec c x) as [->|N].
  - split; [intros E; assert (j = 0%nat) by congruence; subst j; split; [reflexivity|intros i I; lia]|]. intros (H1 & H2). destruct j as [|j]; [reflexivity|]. exfalso. apply (H2 0%nat); [lia|reflexivity].
  - destruct (index_of c names) as [j'|] eqn:I; cbn.
    + split.
      * intros E. assert (j = S j') by congruence. subst j. destruct (proj1 (IH j') eq_refl) as (A & B). split; [exact A|]. intros i L. destruct i as [|i]; cbn; [congruence|]. apply B. lia.
      * intros (A & B). destruct j as [|j]; [cbn in A; congruence|]. f_equal. f_equal. assert (Q : Some j' = Some j); [|congruence]. apply IH. split; [exact A|]. intros i L. apply (B (S i)). lia.
    + split; [discriminate|]. intros (A & B). destruct j as [|j]; [cbn in A; congruence|]. assert (Q : None = Some j); [|discriminate]. apply IH. split; [exact A|]. intros i L. apply (B (S i)). lia.
Qed.
(** When all records end at the same time, the score is zero exactly when every record is met on
    every whole day before that time. *)
Theorem C112_records_partial : forall names recs e a s T, score2 root0 root names recs e a = Ok s -> (forall c r, In (c, r) recs -> r_last r = T) ->
  0 <= s /\ (s = 0 <-> forall c r n, In (c, r) recs -> INR n < r_last r -> exists v, r_at r (INR n) = Ok v /\ predicted names e a c (INR n) v).
Proof.
  intros names recs e a s T H E. unfold score2 in H. destruct recs as [|(c0 & r0) more]; [discriminate|]. assert (E0 : r_last r0 = T) by (apply (E c0 r0); left; reflexivity).
  destruct (add_errors_spec _ _ _ _ H) as (P & Z). split; [exact P|]. rewrite Z. rewrite E0. split.
  - intros A c r n I L. rewrite (E c r I) in L. destruct (A c r (INR n) I) as (f & v & F & V & FV); [apply arange_in; exists n; auto|]. exists v. split; [exact V|]. unfold curves in F. destruct (index_of c names) as [j|] eqn:J; [|discriminate]. apply index_of_spec in J as (J1 & J2).
    exists j. split; [exact J1|]. split; [exact J2|]. rewrite <- FV. assert (FE : f = plot_obj (with_point e a) (root0 (with_point e a)) (root (with_point e a)) j) by congruence. rewrite FE. reflexivity.
  - intros A c r t I X. apply arange_in in X as (n & -> & L). destruct (A c r n I) as (v & V & j & J1 & J2 & PV); [rewrite (E c r I); exact L|]. exists (plot_obj (with_point e a) (root0 (with_point e a)) (root (with_point e a)) j), v.
    split; [|split; [exact V|symmetry; exact PV]]. unfold curves. rewrite (proj2 (index_of_spec c names j) (conj J1 J2)). reflexivity.
Qed.
End Props.
(** With a short first record the days after it do not count. *)
Theorem C112_short_first_refuted : forall root0 root names e a c1 c2 f1 f2, names = [c1; c2] -> c1 <> c2 ->
  curves root0 root names (with_point e a) c1 = Some f1 -> curves root0 root names (with_point e a) c2 = Some f2 ->
  exists r1 r2, (forall t, exists v, r_at r2 t = Ok v) /\ r_last r2 = 100 /\ score2 root0 root names [(c1, r1); (c2, r2)] e a = Ok 0 /\
    forall t, 1 <= t -> exists v, r_at r2 t = Ok v /\ v <> f2 t.
Proof.
  intros root0 root names e a c1 c2 f1 f2 N D F1 F2. exists {| r_last := 1; r_at := fun t => Ok (f1 t) |}, {| r_last := 100; r_at := fun t => Ok (if rleb 1 t then f2 t + 1 else f2 t) |}. cbn [r_at r_last].
  split; [intros t; eexists; reflexivity|]. split; [reflexivity|]. split.
  - unfold score2. cbn [r_last]. assert (A : arange 1 = [0]). { unfold arange. assert (L : arange_len 0 1 1 = 1%nat). { assert (L0 := proj2 (arange_len_spec 1 0)). assert (L1 := proj1 (arange_len_spec 1 1)). cbn in L0, L1. destruct (arange_len 0 1 1) as [|[|k]]; [exfalso; specialize (L0 ltac:(lra)); lia|reflexivity|]. specialize (L1 ltac:(lia)). lra. } rewrite L. reflexivity. }
    rewrite A. cbn [add_errors]. rewrite F1. cbn [of_option bind mapM r_at]. rewrite F2. cbn [of_option bind mapM r_at combine map fold_right fst snd]. unfold rleb. destruct (Rle_dec 1 0); [lra|]. f_equal. ring.
  - intros t T. eexists. split; [reflexivity|]. unfold rleb. destruct (Rle_dec 1 t); lra.
Qed.
(** A bed with two compounds meets the hypotheses. *)
Definition demo_ecm : ecm_in := {| e_n := 2; e_K := fun _ => 10; e_xni := fun _ => 1; e_xn := fun _ => 1; e_C0 := fun _ => 1; e_Co := fun _ => 1; e_MW := fun _ => 1; e_vf := 1; e_rhob := 500; e_eps := dec 4 1; e_L := None |}.
Example records_met : exists s, score2 (fun _ _ => 1) (fun _ _ _ _ => 1) ["A"; "B"]%string [("B"%string, {| r_last := 1; r_at := fun _ => Ok 0 |})] demo_ecm (fun _ => 1) = Ok s.
Proof.
  assert (M : forall l, exists raw, mapM (fun _ : R => Ok 0) l = Ok raw). { induction l as [|x l (raw & IH)]; [exists []; reflexivity|]. exists (0 :: raw). cbn [mapM bind]. rewrite IH. reflexivity. }
  destruct (M (arange 1)) as (raw & E). unfold score2. cbn [r_last add_errors]. unfold curves. cbn [index_of String.eqb Ascii.eqb Bool.eqb option_map]. cbn [of_option bind r_at]. rewrite E. cbn [bind]. eexists. reflexivity.
Qed.
Example short_met : exists f1 f2, curves (fun _ _ => 1) (fun _ _ _ _ => 1) ["A"; "B"]%string (with_point demo_ecm (fun _ => 1)) "A" = Some f1 /\ curves (fun _ _ => 1) (fun _ _ _ _ => 1) ["A"; "B"]%string (with_point demo_ecm (fun _ => 1)) "B" = Some f2.
Proof. do 2 eexists. split; reflexivity. Qed.
Example perturbed_met : ~ holds (after [fun _ => 1; fun _ => 2] demo_ecm) 2 (fun _ => 1).
Proof. apply (C111_perturbed_refuted demo_ecm [fun _ => 1] (fun _ => 1) (fun _ => 2)); [left; reflexivity|]. exists 0%nat. cbn. split; [lia|lra]. Qed.
Print Assumptions C110_score_partial.
Print Assumptions C110_peaks_ignored_refuted.
Print Assumptions C111_last_trial_partial.
Print Assumptions C111_perturbed_refuted.
Print Assumptions C112_records_partial.
Print Assumptions C112_short_first_refuted.
