(** Properties C113-C116: helpers kept for older scripts. *)
From Coq Require Import Reals List Arith Bool String Lra Lia FunctionalExtensionality.
From Verif Require Import Lib_Py M_GacFun P_GacFun M_GacMin P_GacMin M_GacFit P_GacFit M_Extra M_GacData Props_GacData M_GacColumn P_GacColumn Props_GacColumn M_GacLegacy P_Colloc.
From Verif Require Import Lib_Sum.
Import ListNotations.
Open Scope R_scope.
Open Scope string_scope.
Local Notation length := List.length.

(** ** C113: the reader of raw data *)
(** The value a set of readings stands for in this reader: zero up to the limit. *)
Definition raw_value (limit : R) (l : list R) : R := if rleb (average l) limit then 0 else average l.
Lemma cut_spec limit l : cut limit l = raw_value limit l.
Proof. unfold cut, raw_value, average. cbv zeta. rewrite lsum_fold. reflexivity. Qed.
Lemma readings_col data ty c t : map m_conc (filter (fun r => reqb (m_time r) t) (of_col data ty c)) = readings data ty c t.
Proof. unfold of_col, readings. rewrite filter_filter. reflexivity. Qed.
Lemma column_spec data ty c t : readings data ty c t <> [] -> raw_column data ty c = true.
Proof.
  rewrite <- readings_col. unfold raw_column. destruct (of_col data ty c) as [|r l]; [cbn; congruence|reflexivity].
Qed.
(** The word Influent occurs in the name of the stream. *)
Definition influent_stream (ty : string) : Prop := exists k, substring k 8 ty = "Influent".
Lemma is_influent_spec ty : is_influent ty = true <-> influent_stream ty.
Proof.
  unfold is_influent, influent_stream. destruct (String.index 0 "Influent" ty) as [k|] eqn:E.
  - apply index_correct1 in E. split; [intros _; exists k; exact E|reflexivity].
  - split; [discriminate|]. intros (k & K). exfalso. apply (index_correct3 0 k "Influent" ty E); [discriminate|lia|exact K].
Qed.
Lemma not_influent ty : ~ influent_stream ty -> is_influent ty = false.
Proof. intros N. destruct (is_influent ty) eqn:E; [apply is_influent_spec in E; contradiction|reflexivity]. Qed.
(** A measured value is kept: the mean of its readings above the limit and zero at or below;
    an influent zero may be lifted to 0.001. *)
Theorem C113_measured_partial : forall data limit chained ty c t, readings data ty c t <> [] ->
  exists may_lift, (may_lift = true <-> chained = true /\ influent_stream ty) /\
  raw_cell data limit chained ty c t = Some (shown may_lift (raw_value limit (readings data ty c t))).
Proof.
  intros data limit chained ty c t N. exists (chained && is_influent ty)%bool. split; [rewrite andb_true_iff, is_influent_spec; reflexivity|]. unfold raw_cell. rewrite (proj2 (has_spec t (times data)) (measured_time _ _ _ _ N)), (column_spec _ _ _ _ N). cbn [andb]. rewrite readings_col.
  destruct (readings data ty c t) as [|x l] eqn:E; [congruence|]. rewrite cut_spec. unfold shown. destruct (chained && is_influent ty && _)%bool; [f_equal; unfold dec; cbn; field|reflexivity].
Qed.
(** Columns exist only for streams and compounds that were measured, rows for times. *)
Theorem C113_cells_partial : forall data limit chained ty c t, raw_cell data limit chained ty c t <> None <->
  (exists r, In r data /\ m_time r = t) /\ exists r, In r data /\ m_type r = ty /\ m_comp r = c.
Proof.
  intros data limit chained ty c t. unfold raw_cell. destruct (has t (times data)) eqn:H; cbn [andb].
  - apply has_spec, times_spec in H. unfold raw_column. destruct (of_col data ty c) as [|r l] eqn:E; cbn [length Nat.eqb negb].
    + split; [congruence|]. intros (_ & r & I & T & C). exfalso. assert (In r (of_col data ty c)) by (apply filter_In; split; [exact I|rewrite T, C, !String.eqb_refl; reflexivity]). rewrite E in *. contradiction.
    + split; [intros _; split; [exact H|]|discriminate]. assert (I : In r (of_col data ty c)) by (rewrite E; left; reflexivity). apply filter_In in I as (I & Q). apply andb_prop in Q as (Q1 & Q2). apply String.eqb_eq in Q1, Q2. exists r. auto.
  - apply has_false in H. split; [congruence|]. intros (Q & _). exfalso. apply H, times_spec, Q.
Qed.
(** The carbons are the types of the data that do not contain the word Influent. *)
Theorem C113_carbons_partial : forall data ty, In ty (raw_carbons data) <-> (exists r, In r data /\ m_type r = ty) /\ ~ influent_stream ty.
Proof.
  intros data ty. unfold raw_carbons. rewrite filter_In, nodup_In, in_map_iff, negb_true_iff. split; intros ((r & A & B) & C); (split; [exists r; tauto|]).
  - intros I. apply is_influent_spec in I. congruence.
  - apply not_influent, C.
Qed.
(** A missing value of a compound measured at other times is reported as a measured zero. *)
Theorem C113_missing_refuted : forall data limit chained ty c t r, In r data -> m_type r = ty -> m_comp r = c -> (exists r, In r data /\ m_time r = t) -> ~ influent_stream ty ->
  readings data ty c t = [] -> raw_cell data limit chained ty c t = Some 0.
Proof.
  intros data limit chained ty c t r I T C (r' & I' & T') F E. apply not_influent in F. assert (N : raw_cell data limit chained ty c t <> None) by (apply C113_cells_partial; split; [exists r'; auto|exists r; auto]).
  unfold raw_cell in *. rewrite readings_col, E, F in *. destruct (has t (times data) && raw_column data ty c)%bool; [|congruence]. rewrite andb_false_r. reflexivity.
Qed.
Example missing_met : raw_cell gappy 0 true "out" "A" 5 = Some 0 /\ raw_cell gappy 0 true "in" "A" 5 = Some 40.
Proof.
  split.
  - apply (C113_missing_refuted gappy 0 true "out" "A" 5 (reading 0 "out" "A" 0)); [cbn; auto|reflexivity|reflexivity|exists (reading 5 "in" "A" 40); split; [cbn; tauto|reflexivity]|intros I; apply is_influent_spec in I; discriminate I|].
    unfold readings, gappy. cbn [filter m_type m_comp m_time m_conc reading String.eqb Ascii.eqb Bool.eqb andb map]. rcase. reflexivity.
  - destruct (C113_measured_partial gappy 0 true "in" "A" 5) as (b & B & E); [|rewrite E; clear E];
      unfold readings, gappy; cbn [filter m_type m_comp m_time m_conc reading String.eqb Ascii.eqb Bool.eqb andb map]; rcase; cbn [map m_conc]; [discriminate|].
    destruct b; [destruct (proj1 B eq_refl) as (_ & I); apply is_influent_spec in I; discriminate I|].
    unfold raw_value, average, shown. cbn [fold_right length INR]. cbn [andb m_conc reading]. rewrite (proj2 (rleb_false ((40 + 0) / 1) 0)) by lra. f_equal. field.
Qed.

(** ** C114: the two workbook readers *)
(** No mean equals the reporting limit. *)
Definition off_limit (data : list measurement) (limit : R) : Prop :=
  limit = 0 \/ forall ty c t, readings data ty c t <> [] -> average (readings data ty c t) <> limit.
Lemma cell_same data limit : off_limit data limit -> cell_new data limit = cell data limit.
Proof.
  intros O. extensionality ty. extensionality c. extensionality t. rewrite cell_spec. unfold cell_new. rewrite readings_col. destruct (readings data ty c t) as [|x l] eqn:E; [reflexivity|]. rewrite cut_spec. unfold raw_value, value_of. f_equal.
  destruct (Rle_dec (average (x :: l)) limit) as [L|L].
  - rewrite (proj2 (rleb_true _ _)) by exact L. destruct (rltb (average (x :: l)) limit) eqn:Q; [reflexivity|]. apply rltb_false in Q. destruct O as [-> | O]; [lra|]. exfalso. apply (O ty c t); rewrite E; [discriminate|lra].
  - rewrite (proj2 (rleb_false _ _)), (proj2 (rltb_false _ _)) by lra. reflexivity.
Qed.
(** They give the same frame, or the same error, when no mean equals a reporting limit other
    than zero, with a pandas that lets chained assignments through. *)
Theorem C114_same_partial : forall data limit infl effl, off_limit data limit -> load_new data limit true infl effl = load data infl effl limit true.
Proof.
  intros data limit infl effl O. assert (C := cell_same data limit O). unfold load_new, load. assert (K : known_new data limit = known data limit). { unfold known_new, known, complete_new, complete. rewrite C. reflexivity. }
  assert (F : filled_new data limit true infl = filled data infl limit). { unfold filled_new, filled, line_new, line_of, base_new, base. rewrite K, C. reflexivity. } rewrite F, K. reflexivity.
Qed.
(** A mean equal to the limit is kept by one and made zero by the other. *)
Definition at_limit : list measurement :=
  [reading 0 "in" "A" 10; reading 0 "out" "A" 10; reading 10 "in" "A" 20; reading 10 "out" "A" 20].
Lemma at_limit_times : times at_limit = [0; 10].
Proof. unfold at_limit. sort_times. Qed.
Lemma at_limit_cells : forall ty, In ty ["in"; "out"] -> cell at_limit 10 ty "A" 0 = Some 10 /\ cell at_limit 10 ty "A" 10 = Some 20 /\ cell_new at_limit 10 ty "A" 0 = Some 0 /\ cell_new at_limit 10 ty "A" 10 = Some 20.
Proof.
  intros ty [<-|[<-|[]]]; unfold cell_new; rewrite !readings_col, !cell_spec; unfold readings, at_limit; cbn [filter m_type m_comp m_time m_conc reading String.eqb Ascii.eqb Bool.eqb andb map]; rcase; cbn [map m_conc];
    rewrite !cut_spec; unfold raw_value, value_of, average; cbn [fold_right length INR m_conc reading]; rcase; repeat split; f_equal; try lra; rewrite cut_spec; unfold raw_value, average; cbn [fold_right length INR]; rcase; lra.
Qed.
Theorem C114_limit_refuted : forall chained, exists f f', load at_limit "in" "out" 10 chained = Ok f /\ load_new at_limit 10 chained "in" "out" = Ok f' /\ l_effl f "A" 0 = Some 10 /\ l_effl f' "A" 0 = Some 0.
Proof.
  intros chained. assert (CC : compounds at_limit = ["A"]) by reflexivity.
  assert (K : forall ty, In ty ["in"; "out"] -> known at_limit 10 ty = [0; 10] /\ known_new at_limit 10 ty = [0; 10]).
  { intros ty I. destruct (at_limit_cells ty I) as (A1 & A2 & A3 & A4). unfold known, known_new, complete, complete_new. rewrite at_limit_times, CC. cbn [filter forallb]. rewrite A1, A2, A3, A4. split; reflexivity. }
  destruct (K "in") as (K1 & K2); [cbn; auto|]. destruct (K "out") as (K3 & K4); [cbn; auto|]. assert (Z : has 0 [0; 10] = true) by (apply has_spec; left; reflexivity). assert (Z' : has 0 [0; 0; 10] = true) by (apply has_spec; left; reflexivity).
  unfold load, load_new. rewrite K1, K2, K3, K4, at_limit_times, CC, Z. cbn -[rltb cell_new cell filled filled_new]. do 2 eexists. split; [reflexivity|]. split; [reflexivity|]. cbn [l_effl].
  destruct (at_limit_cells "out") as (A1 & _ & A3 & _); [cbn; auto|]. unfold filled, filled_new, base, base_new. rewrite K3, K4, at_limit_times, Z, Z'. cbn [negb]. rewrite !andb_false_r. auto.
Qed.
Example off_limit_met : off_limit gappy 0.
Proof. left. reflexivity. Qed.

(** ** C115: selecting compounds *)
Lemma mem_str_in c l : mem_str c l = true <-> In c l.
Proof. unfold mem_str. rewrite existsb_exists. split; [intros (x & I & E); apply String.eqb_eq in E; subst; exact I|intros I; exists c; split; [exact I|apply String.eqb_refl]]. Qed.
(** The result has exactly the columns of the carbon and of the influent with one of the
    compounds, with their values, the carbon's first. *)
Theorem C115_selected : forall {col} (df : frame col) comps carbon influent out, carbon <> influent -> filter_compounds df comps carbon influent = Ok out ->
  (forall ty c x, In ((ty, c), x) out <-> In ((ty, c), x) df /\ In c comps /\ (ty = carbon \/ ty = influent)) /\
  exists a b, out = (a ++ b)%list /\ a <> [] /\ b <> [] /\ (forall q, In q a -> fst (fst q) = carbon) /\ (forall q, In q b -> fst (fst q) = influent).
Proof.
  intros col df comps carbon influent out N H. unfold filter_compounds in H. set (drop := filter _ (map _ df)) in H. set (kept := filter _ df) in H.
  assert (K : forall ty c x, In ((ty, c), x) kept <-> In ((ty, c), x) df /\ In c comps).
  { intros ty c x. unfold kept. rewrite filter_In. cbn [fst snd]. split; intros (I & Q); split; try exact I.
    - apply negb_true_iff in Q. destruct (mem_str c comps) eqn:M; [apply mem_str_in; exact M|]. exfalso. assert (T : mem_str c drop = true); [|congruence]. apply mem_str_in. unfold drop. apply filter_In. split; [|rewrite M; reflexivity]. apply in_map_iff. exists ((ty, c), x). auto.
    - apply negb_true_iff. destruct (mem_str c drop) eqn:M; [|reflexivity]. apply mem_str_in in M. unfold drop in M. apply filter_In in M as (_ & M). rewrite (proj2 (mem_str_in c comps) Q) in M. discriminate. }
  unfold of_type in H. destruct (filter (fun q => String.eqb (fst (fst q)) carbon) kept) as [|a0 a] eqn:A; [discriminate|]. cbn [bind] in H. destruct (filter (fun q => String.eqb (fst (fst q)) influent) kept) as [|b0 b] eqn:B; [discriminate|]. cbn [bind] in H.
  assert (E : out = ((a0 :: a) ++ b0 :: b)%list) by congruence. subst out.
  assert (TA : forall ty (l : frame col), l = filter (fun q => String.eqb (fst (fst q)) ty) kept -> forall t c x, In ((t, c), x) l <-> In ((t, c), x) df /\ In c comps /\ t = ty).
  { intros ty l -> t c x. rewrite filter_In. cbn [fst snd]. rewrite K. rewrite String.eqb_eq. tauto. }
  symmetry in A, B. split.
  - intros ty c x. rewrite in_app_iff, (TA _ _ A), (TA _ _ B). tauto.
  - exists (a0 :: a), (b0 :: b). split; [reflexivity|]. split; [discriminate|]. split; [discriminate|]. split; intros ((t & c) & x) I; [apply (TA _ _ A) in I|apply (TA _ _ B) in I]; cbn; tauto.
Qed.
(** It fails, with a KeyError, exactly when no compound is left for one of the two. *)
Theorem C115_missing : forall {col} (df : frame col) comps carbon influent,
  (exists out, filter_compounds df comps carbon influent = Ok out) \/ filter_compounds df comps carbon influent = Err KeyError /\
    exists ty, (ty = carbon \/ ty = influent) /\ forall c x, In ((ty, c), x) df -> ~ In c comps.
Proof.
  intros col df comps carbon influent. unfold filter_compounds. set (drop := filter _ (map _ df)). set (kept := filter _ df).
  assert (K : forall ty c x, In ((ty, c), x) df -> In c comps -> In ((ty, c), x) kept).
  { intros ty c x I Q. unfold kept. apply filter_In. cbn [fst snd]. split; [exact I|]. apply negb_true_iff. destruct (mem_str c drop) eqn:M; [|reflexivity]. apply mem_str_in in M. unfold drop in M. apply filter_In in M as (_ & M). rewrite (proj2 (mem_str_in c comps) Q) in M. discriminate. }
  assert (T : forall ty, filter (fun q => String.eqb (fst (fst q)) ty) kept = [] -> forall c x, In ((ty, c), x) df -> ~ In c comps).
  { intros ty E c x I Q. assert (J : In ((ty, c), x) (filter (fun q => String.eqb (fst (fst q)) ty) kept)) by (apply filter_In; split; [apply K; assumption|apply String.eqb_refl]). rewrite E in J. contradiction. }
  unfold of_type. destruct (filter (fun q => String.eqb (fst (fst q)) carbon) kept) as [|a0 a] eqn:A; [right; split; [reflexivity|]; exists carbon; split; [left; reflexivity|apply T, A]|]. cbn [bind].
  destruct (filter (fun q => String.eqb (fst (fst q)) influent) kept) as [|b0 b] eqn:B; [right; split; [reflexivity|]; exists influent; split; [right; reflexivity|apply T, B]|]. left. eexists. reflexivity.
Qed.
Example selected_met : filter_compounds [(("gac", "A"), 1); (("in", "A"), 2); (("gac", "B"), 3); (("in", "B"), 4); (("other", "A"), 5)] ["A"] "gac" "in" = Ok [(("gac", "A"), 1); (("in", "A"), 2)].
Proof. reflexivity. Qed.

(** ** C116: the finite-difference Jacobian *)
Definition set_entry (u : nat -> R) (j : nat) (x : R) : nat -> R := fun k => if Nat.eqb k j then x else u k.
Lemma high_eq ff u h i j : calc_Jac ff u h i j = (ff 0 (set_entry u j (u j + h)) i - ff 0 u i) / h.
Proof. unfold calc_Jac, set_entry. cbv zeta. do 2 f_equal. f_equal. extensionality k. destruct (Nat.eqb k j); ring. Qed.
(** It is exact for an affine right-hand side, whatever the step. *)
Theorem C116_affine : forall n (A : nat -> nat -> R) (b : nat -> R) ff u h i j, h <> 0 -> (j < n)%nat ->
  (forall v k, ff 0 v k = b k + rsum n (fun l => A k l * v l)) -> calc_Jac ff u h i j = A i j.
Proof.
  intros n A b ff u h i j H J F. rewrite high_eq, !F. assert (E : rsum n (fun l => A i l * set_entry u j (u j + h) l) = rsum n (fun l => A i l * u l) + A i j * h).
  { clear F. revert J. induction n as [|n IH]; intros J; [lia|]. cbn [rsum]. destruct (Nat.eq_dec j n) as [->|N].
    - unfold set_entry at 2. rewrite Nat.eqb_refl. replace (rsum n (fun l => A i l * set_entry u n (u n + h) l)) with (rsum n (fun l => A i l * u l)); [ring|]. apply rsum_ext. intros k K. unfold set_entry. replace (Nat.eqb k n) with false by (symmetry; apply Nat.eqb_neq; lia). reflexivity.
    - rewrite IH by lia. unfold set_entry. replace (Nat.eqb n j) with false by (symmetry; apply Nat.eqb_neq; lia). ring. }
  rewrite E. field. exact H.
Qed.
(** For a differentiable one it tends to the derivative as the step shrinks. *)
Theorem C116_limit : forall ff u i j d, derivable_pt_lim (fun x => ff 0 (set_entry u j x) i) (u j) d ->
  forall eps, 0 < eps -> exists delta, 0 < delta /\ forall h, h <> 0 -> Rabs h < delta -> Rabs (calc_Jac ff u h i j - d) < eps.
Proof.
  intros ff u i j d D eps E. destruct (D eps E) as (delta & H). exists delta. split; [apply cond_pos|]. intros h N L. specialize (H h N L). rewrite high_eq.
  replace (ff 0 u i) with (ff 0 (set_entry u j (u j)) i); [exact H|]. f_equal. extensionality k. unfold set_entry. destruct (Nat.eqb_spec k j); congruence.
Qed.
(** An entry on which a component does not depend is exactly zero; so the sparsity pattern given
    to the solver (C22) covers this Jacobian of the column, [v] being the state as one array. *)
Theorem C116_independent : forall ff u h i j, (forall x, ff 0 (set_entry u j x) i = ff 0 u i) -> calc_Jac ff u h i j = 0.
Proof. intros ff u h i j E. rewrite high_eq, E. unfold Rdiv. ring. Qed.
Definition unflat (nr mc : nat) (v : nat -> R) : nat -> nat -> nat -> R := fun i r z => v (gflat nr mc i r z).
Theorem C116_sparsity : forall inv legendre jroots nr nz ne m g rows foul ff v h i r z i' r' z',
  calc_solver_matrix inv legendre jroots nr nz ne = Ok m ->
  (forall i r z, (i < x_n g)%nat -> (r <= nr)%nat -> (z < m_c m)%nat -> forall v, ff 0 v (gflat nr (m_c m) i r z) = diffun g m nr rows foul 0 (unflat nr (m_c m) v) i r z) ->
  (i < x_n g)%nat -> (r <= nr)%nat -> (z < m_c m)%nat -> (i' < x_n g)%nat -> (r' <= nr)%nat -> (z' < m_c m)%nat ->
  calc_Jac ff v h (gflat nr (m_c m) i r z) (gflat nr (m_c m) i' r' z') <> 0 -> spar_Jac nr nz ne (gflat nr (m_c m) i r z) (gflat nr (m_c m) i' r' z') <> 0%nat.
Proof.
  intros inv leg jr nr nz ne m g rows foul ff v h i r z i' r' z' Hm F Hi Hr Hz Hi' Hr' Hz' N Z. apply N. apply C116_independent. intros x. rewrite !F by assumption.
  apply (C22_sparsity_sound inv leg jr nr nz ne m g rows foul 0 i r z i' r' z' Hm Hi Hr Hz Hi' Hr' Hz' Z). intros k l w Hk Hl Hw D. unfold unflat, set_entry.
  replace (Nat.eqb _ _) with false; [reflexivity|]. symmetry. apply Nat.eqb_neq. intros E. apply (C22_indexing nr (m_c m)) in E; [|assumption..]. destruct E as (-> & -> & ->). congruence.
Qed.
(** Such a right-hand side of one array exists. *)
Example flat_met : forall m g nr rows foul, (0 < m_c m)%nat -> exists ff, forall i r z, (i < x_n g)%nat -> (r <= nr)%nat -> (z < m_c m)%nat -> forall v, ff 0 v (gflat nr (m_c m) i r z) = diffun g m nr rows foul 0 (unflat nr (m_c m) v) i r z.
Proof.
  intros m g nr rows foul P. exists (fun t v k => diffun g m nr rows foul t (unflat nr (m_c m) v) (k / (m_c m * (nr + 1)))%nat ((k mod (m_c m * (nr + 1))) / m_c m)%nat ((k mod (m_c m * (nr + 1))) mod m_c m)%nat).
  intros i r z Hi Hr Hz v. destruct (gflat_div nr (m_c m) i r z Hr Hz) as (A & B). rewrite A, B. replace ((r * m_c m + z) / m_c m)%nat with r by (apply (Nat.div_unique _ _ r z); lia). replace ((r * m_c m + z) mod m_c m)%nat with z by (apply (Nat.mod_unique _ _ r z); lia). reflexivity.
Qed.
Print Assumptions C113_measured_partial.
Print Assumptions C113_cells_partial.
Print Assumptions C113_carbons_partial.
Print Assumptions C113_missing_refuted.
Print Assumptions C114_same_partial.
Print Assumptions C114_limit_refuted.
Print Assumptions C115_selected.
Print Assumptions C115_missing.
Print Assumptions C116_affine.
Print Assumptions C116_limit.
Print Assumptions C116_independent.
Print Assumptions C116_sparsity.
