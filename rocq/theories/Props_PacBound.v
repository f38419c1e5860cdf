(** C188 — the concentration in a powdered-carbon contactor stays between what film transfer alone
    would leave and what was put in; runs last to their end. *)
From Coq Require Import Reals List Arith Lia Lra String.
From Verif Require Import Lib_Py Lib_Pow Lib_Sum Lib_Traj S_Colloc S_Radial M_Colloc P_Radial P_JacobiRoots M_Pac P_Pac Props_Pac P_PacBound.
Import ListNotations.
Open Scope R_scope.

(** Sheets with physical values: a dose between none and a contactor full of carbon, a pore
    diffusivity no less than the surface diffusivity, and some diffusion. *)
Definition sensible (f : carbon) (dosage : R) (c : comp) : Prop :=
  0 < f_density f /\ 0 <= f_porosity f /\ 0 < f_radius f /\ 0 < f_dw f /\ 0 < dosage < f_dw f * 10 ^ 6 /\
  0 < K c /\ 0 < xn c /\ 0 < kf c /\ 0 <= Ds c <= Dp c /\ (0 < Ds c \/ (0 < f_porosity f /\ Ds c < Dp c)).
(** The operators of a contactor with nc points. *)
Definition contactor_grid (jacobi : nat -> R -> R -> nat -> R) (nc : nat) : Prop :=
  (1 <= nc)%nat /\ jacobi_roots 2 (nc - 1) (jacobi (nc - 1)%nat (5 / 2) (3 / 2)).

Section Contactor.
Variables (jacobi : nat -> R -> R -> nat -> R) (nc : nat) (f : carbon) (dosage : R) (c : comp).
Hypothesis HG : contactor_grid jacobi nc.
Hypothesis HS : sensible f dosage c.
Notation q := (eqn_of f (eps_of f dosage) c).
Lemma INR3 : INR 3 = 3. Proof. simpl. ring. Qed.
Lemma grid_INR : jacobi_roots 2 (nc - 1) (jacobi (nc - 1)%nat (INR 3 / 2 + 1) (INR 3 / 2)).
Proof. rewrite INR3. replace (3 / 2 + 1) with (5 / 2) by field. apply HG. Qed.
Lemma eps_range : 0 < q_E q < 1.
Proof.
  destruct HS as (_ & _ & _ & Hw & Hd & _). cbn. unfold eps_of. assert (P : 0 < f_dw f * 10 ^ 6) by lra.
  assert (X : 0 < dosage / (f_dw f * 10 ^ 6)) by (apply Rdiv_lt_0_compat; lra).
  assert (Z : dosage / (f_dw f * 10 ^ 6) < 1) by (apply Rmult_lt_reg_r with (f_dw f * 10 ^ 6); [exact P|]; unfold Rdiv; rewrite Rmult_assoc, Rinv_l; lra). lra.
Qed.
Lemma qn_pos : 0 < q_n q.
Proof. destruct HS as (_ & _ & _ & _ & _ & _ & H & _). cbn. apply Rdiv_lt_0_compat; lra. Qed.
Lemma diffuses : 0 < q_Ds q \/ 0 < q_Ep q * (q_Dp q - q_Ds q).
Proof.
  destruct HS as (_ & _ & _ & _ & _ & _ & _ & _ & _ & [H|(H1 & H2)]); [left; exact H|right]. cbn. apply Rmult_lt_0_compat; lra.
Qed.
Notation B := (Bx nc (rootsu jacobi nc 3) 3).
Notation W := (Wx nc (rootsu jacobi nc 3) 3).
Variables (a b : R) (C : R -> R) (Y : nat -> R -> R).
Hypothesis HF : follows nc B W q a b C Y.
Hypothesis HC0 : 0 <= C a.

Lemma contactor_lower t : a <= t <= b -> C a * exp (- (3 * kf c * (1 - eps_of f dosage) / (eps_of f dosage * f_radius f)) * (t - a)) <= C t.
Proof.
  intros Ht. destruct HS as (H1 & H2 & H3 & H4 & H5 & H6 & H7 & H8 & H9 & _).
  assert (E := eps_range). rewrite <- INR3 in HF.
  apply (liquid_lower jacobi nc q ltac:(cbn; lra) ltac:(cbn; lra) ltac:(cbn; lra) ltac:(exact E) ltac:(cbn; lra) a b C Y HF t Ht).
Qed.
End Contactor.

(** A run that starts with clean carbon: between film transfer without return and the start. *)
Theorem C188_bounds : forall jacobi nc f dosage c a b C Y,
  contactor_grid jacobi nc -> sensible f dosage c ->
  let '(_, _, B, W) := recur_colloc_symm jacobi nc 3 in
  let eps := 1 - dosage / (f_dw f * 10 ^ 6) in
  follows nc B W (eqn_of f eps c) a b C Y -> 0 <= C a -> (forall i, (i < nc)%nat -> Y i a = 0) ->
  forall t, a <= t <= b -> C a * exp (- (3 * kf c * (1 - eps) / (eps * f_radius f)) * (t - a)) <= C t <= C a.
Proof.
  intros jacobi nc f dosage c a b C Y HG HS. unfold recur_colloc_symm. cbv zeta. intros HF HC HY t Ht.
  split; [exact (contactor_lower jacobi nc f dosage c HS a b C Y HF t Ht)|].
  assert (N := grid_INR jacobi nc HG). assert (E := eps_range f dosage c HS). assert (Q := qn_pos f dosage c HS). assert (D := diffuses f dosage c HS).
  destruct HG as (Hnc & _). destruct HS as (H1 & H2 & H3 & H4 & H5 & H6 & H7 & H8 & H9 & _). rewrite <- INR3 in HF.
  exact (liquid_upper jacobi nc (eqn_of f (eps_of f dosage) c) Hnc N ltac:(cbn; lra) ltac:(cbn; lra) Q ltac:(cbn; lra) E ltac:(cbn; lra) ltac:(cbn; lra) ltac:(cbn; lra) a b C Y HF HC D HY t Ht).
Qed.

(** What the carbon holds on average is never negative and never more than the water has brought. *)
Theorem C188_loading : forall jacobi nc f dosage c a b C Y,
  contactor_grid jacobi nc -> sensible f dosage c ->
  let '(_, _, B, W) := recur_colloc_symm jacobi nc 3 in
  let eps := 1 - dosage / (f_dw f * 10 ^ 6) in
  follows nc B W (eqn_of f eps c) a b C Y -> 0 <= C a -> (forall i, (i < nc)%nat -> Y i a = 0) ->
  forall t, a <= t <= b -> 0 <= (1 - eps) * (3 * rsum nc (fun i => W i * Y i t)) <= eps * C a.
Proof.
  intros jacobi nc f dosage c a b C Y HG HS. assert (BD := C188_bounds jacobi nc f dosage c a b C Y HG HS). revert BD.
  unfold recur_colloc_symm. cbv zeta. intros BD HF HC HY t Ht.
  destruct (BD HF HC HY t Ht) as (L & U).
  assert (E := eps_range f dosage c HS). assert (N := grid_INR jacobi nc HG). destruct HG as (Hnc & _).
  assert (Wn : Wx nc (rootsu jacobi nc 3) 3 (nc - 1)%nat <> 0).
  { apply Rgt_not_eq. rewrite <- INR3. apply (code_weights jacobi nc 2 Hnc N). lia. }
  assert (CC := content_constant nc _ _ _ a b C Y HF Hnc Wn ltac:(apply Rgt_not_eq, E) ltac:(apply Rgt_not_eq; cbn; destruct HS as (_ & _ & H & _); exact H) t Ht).
  unfold content, bead_mean in CC. rewrite (rsum_zero nc (fun i => _ * Y i a)) in CC by (intros i Hi; rewrite HY by exact Hi; ring).
  change (q_E (eqn_of f (1 - dosage / (f_dw f * 10 ^ 6)) c)) with (1 - dosage / (f_dw f * 10 ^ 6)) in CC.
  change (q_E (eqn_of f (eps_of f dosage) c)) with (1 - dosage / (f_dw f * 10 ^ 6)) in E.
  set (eps := 1 - dosage / (f_dw f * 10 ^ 6)) in *. set (S := rsum nc _) in *.
  assert (P : 0 <= C t). { eapply Rle_trans; [|exact L]. apply Rmult_le_pos; [exact HC|left; apply exp_pos]. }
  assert (0 <= eps * C t) by (apply Rmult_le_pos; lra). assert (eps * C t <= eps * C a) by (apply Rmult_le_compat_l; lra). lra.
Qed.

(** The tables: if the integration follows the equations, every reported concentration lies
    between these bounds. *)
Local Notation length := List.length.
Definition exact_run (jacobi : nat -> R -> R -> nat -> R) (nc : nat) (eqs : list eqn) (duration : R) (sol : list (R * list R)) : Prop :=
  let '(_, _, B, W) := recur_colloc_symm jacobi nc 3 in
  forall k q, nth_error eqs k = Some q ->
  exists C Y, follows nc B W q 0 duration C Y /\ C 0 = 1 /\ (forall i, (i < nc)%nat -> Y i 0 = 0) /\
  forall s, In s sol -> 0 <= fst s <= duration /\ nth k (snd s) 0 = C (fst s).
Theorem C188_table : forall jacobi nc f solve o n col,
  contactor_grid jacobi nc -> p_eps o = 1 - p_dosage o / (f_dw f * 10 ^ 6) ->
  (let eqs := map (fun x => eqn_of f (p_eps o) (fst (snd x))) (p_table o) in exact_run jacobi nc eqs (p_duration o) (solve eqs (p_duration o))) ->
  In (n, col) (t_cols (run f solve o)) ->
  exists c d, In (n, (c, d)) (p_table o) /\ (sensible f (p_dosage o) c -> 0 <= C0 c ->
    length (t_min (run f solve o)) = length col /\
    forall j x minute, nth_error col j = Some x -> nth_error (t_min (run f solve o)) j = Some minute ->
      C0 c * exp (- (3 * kf c * (1 - p_eps o) / (p_eps o * f_radius f)) * (60 * minute)) <= x <= C0 c).
Proof.
  intros jacobi nc f solve o n col HG HE HX HI. unfold run in HI. cbn [t_cols] in HI.
  apply in_map_iff in HI as ((i & (n' & (c & d))) & E & HI). cbn [fst snd] in E.
  assert (n' = n) by congruence. subst n'. assert (HN := in_combine_r _ _ _ _ HI). exists c, d. split; [exact HN|]. intros HS HC0.
  assert (Hi : nth_error (p_table o) i = Some (n, (c, d))).
  { revert HI. assert (G : forall (l : list (string * (comp * derived))) k, In (i, (n, (c, d))) (combine (seq k (length l)) l) -> (k <= i)%nat /\ nth_error l (i - k) = Some (n, (c, d))).
    { induction l as [|x l IH]; intros k H; [destruct H|]. cbn [length seq combine] in H. destruct H as [H|H].
      - assert (k = i) by congruence. assert (x = (n, (c, d))) by congruence. subst. rewrite Nat.sub_diag. split; [lia|reflexivity].
      - destruct (IH (S k) H) as (A & A2). split; [lia|]. replace (i - k)%nat with (S (i - S k)) by lia. exact A2. }
    intros H. destruct (G _ _ H) as (_ & A). rewrite Nat.sub_0_r in A. exact A. }
  unfold run. cbn [t_min]. set (eqs := map (fun nx : string * (comp * derived) => eqn_of f (p_eps o) (fst (snd nx))) (p_table o)) in *.
  set (sol := solve eqs (p_duration o)) in *.
  assert (Ecol : col = map (fun s : R * list R => C0 c * nth i (snd s) 0) sol) by congruence. subst col.
  split; [rewrite !map_length; reflexivity|]. intros j x minute Hx Hm.
  rewrite nth_error_map in Hx, Hm. destruct (nth_error sol j) as [s|] eqn:Es; [|discriminate Hx]. cbn [option_map] in Hx, Hm.
  assert (Ex : x = C0 c * nth i (snd s) 0) by congruence. assert (Em : minute = fst s / 60) by congruence. subst x minute.
  assert (Hq : nth_error eqs i = Some (eqn_of f (p_eps o) c)) by (unfold eqs; rewrite nth_error_map, Hi; reflexivity).
  assert (BD := C188_bounds jacobi nc f (p_dosage o) c). unfold exact_run in HX. revert HX BD. unfold recur_colloc_symm. cbv zeta. intros HX BD.
  destruct (HX i _ Hq) as (C & Y & HF & HC1 & HY0 & H2). destruct (H2 s (nth_error_In _ _ Es)) as (Hs & ->). rewrite HE in HF |- *.
  destruct (BD 0 (p_duration o) C Y HG HS HF ltac:(rewrite HC1; lra) HY0 (fst s) Hs) as (L & U).
  rewrite HC1 in L, U. rewrite Rmult_1_l, Rminus_0_r in L. replace (60 * (fst s / 60)) with (fst s) by field.
  split; [apply Rmult_le_compat_l; assumption|]. rewrite <- (Rmult_1_r (C0 c)) at 2. apply Rmult_le_compat_l; assumption.
Qed.

(** Runs last to their end, from every start. *)
From Verif Require Import Props_Exist.
Lemma sq_abs y x : y ^ 2 <= x -> Rabs y <= 1 + x.
Proof. intros H. unfold Rabs. destruct (Rcase_abs y); nra. Qed.
Theorem C188_lasts : forall jacobi nc f dosage c a b C0 Y0,
  contactor_grid jacobi nc -> sensible f dosage c -> 0 < Ds c -> xn c <= 1 -> a <= b -> 0 <= C0 ->
  let '(_, _, B, W) := recur_colloc_symm jacobi nc 3 in
  let eps := 1 - dosage / (f_dw f * 10 ^ 6) in
  exists C Y, follows nc B W (eqn_of f eps c) a b C Y /\ C a = C0 /\ forall i, (i < nc)%nat -> Y i a = Y0 i.
Proof.
  intros jacobi nc f dosage c a b C0 Y0 HG HS HDs Hx Hab HC. unfold recur_colloc_symm. cbv zeta.
  assert (N := grid_INR jacobi nc HG). assert (E := eps_range f dosage c HS). assert (Q := qn_pos f dosage c HS).
  destruct HG as (Hnc & _). destruct HS as (H1 & H2 & H3 & H4 & H5 & H6 & H7 & H8 & H9 & _).
  set (q := eqn_of f (eps_of f dosage) c) in *. change (eqn_of f (1 - dosage / (f_dw f * 10 ^ 6)) c) with q.
  assert (Hn1 : 1 <= q_n q). { unfold q; cbn. apply Rmult_le_reg_r with (xn c); [lra|]. unfold Rdiv. rewrite Rmult_assoc, Rinv_l; lra. }
  set (B := Bx nc (rootsu jacobi nc 3) 3). set (W := Wx nc (rootsu jacobi nc 3) 3).
  assert (WP : forall i, (i < nc)%nat -> 0 < W i) by (unfold W; rewrite <- INR3; apply (code_weights jacobi nc 2 Hnc N)).
  destruct (C168_contactor_lasts nc B W q a b C0 Y0 Hnc Hn1 Hab) as [H|H]; [exact H|exfalso].
  set (E0 := rsum nc (fun i => W i * Phi q (Y0 i)) + q_E q / (3 * (1 - q_E q)) * Gl q C0).
  set (My := fun i => 1 + 2 * E0 / (W i * Ds c)).
  assert (HB : forall T C Y, a <= T <= b -> follows nc B W q a T C Y -> C a = C0 -> (forall i, (i < nc)%nat -> Y i a = Y0 i) -> forall i, (i < nc)%nat -> Rabs (Y i T) <= My i).
  { intros T C Y HT HF HCa HYa i Hi. apply sq_abs.
    assert (X := bead_bound jacobi nc q Hnc N ltac:(unfold q; cbn; lra) ltac:(unfold q; cbn; lra) Q ltac:(unfold q; cbn; lra) E ltac:(unfold q; cbn; lra) ltac:(unfold q; cbn; lra) ltac:(unfold q; cbn; lra) a T C Y).
    rewrite INR3 in X. specialize (X HF ltac:(lra) T i ltac:(lra) Hi).
    assert (EE : energy jacobi nc q C Y a = E0).
    { unfold energy, E0. rewrite INR3, HCa. f_equal. apply rsum_ext. intros j Hj. rewrite HYa by exact Hj. reflexivity. }
    rewrite EE in X. change (q_Ds q) with (Ds c) in X. fold W in X. assert (P := WP i Hi).
    assert (PW : 0 < W i * Ds c) by (apply Rmult_lt_0_compat; lra).
    apply Rmult_le_reg_r with (W i * Ds c); [exact PW|]. unfold Rdiv. rewrite Rmult_assoc, Rinv_l by lra. lra. }
  set (S := rsum nc (fun i => W i * My i)). set (K0 := q_E q * C0 + (1 - q_E q) * (3 * rsum nc (fun i => W i * Y0 i))).
  assert (MyP : forall i, (i < nc)%nat -> 0 <= My i).
  { intros i Hi. assert (P := WP i Hi). assert (PW : 0 < W i * Ds c) by (apply Rmult_lt_0_compat; lra).
    assert (0 <= E0).
    { unfold E0. apply Rplus_le_le_0_compat; [apply rsum_nonneg; intros j Hj; apply Rmult_le_pos; [left; apply WP, Hj|apply Phi_nonneg; first [exact Q|unfold q; cbn; lra]]|].
      apply Rmult_le_pos; [left; apply al_pos; exact E|apply Gl_nonneg; first [exact Q|unfold q; cbn; lra]]. }
    unfold My. assert (0 <= 2 * E0 / (W i * Ds c)); [|lra]. apply Rmult_le_pos; [lra|left; apply Rinv_0_lt_compat, PW]. }
  assert (HCb : forall T C Y, a <= T <= b -> follows nc B W q a T C Y -> C a = C0 -> (forall i, (i < nc)%nat -> Y i a = Y0 i) -> Rabs (C T) <= (Rabs K0 + (1 - q_E q) * (3 * S)) / q_E q).
  { intros T C Y HT HF HCa HYa.
    assert (CC := content_constant nc B W q a T C Y HF Hnc ltac:(apply Rgt_not_eq, WP; lia) ltac:(lra) ltac:(unfold q; cbn; lra) T ltac:(lra)).
    assert (KE : content nc W q C Y a = K0).
    { unfold content, bead_mean, K0. rewrite HCa. do 3 f_equal. apply rsum_ext. intros j Hj. rewrite HYa by exact Hj. reflexivity. }
    rewrite KE in CC. unfold content, bead_mean in CC.
    assert (SB : Rabs (rsum nc (fun i => W i * Y i T)) <= S).
    { eapply Rle_trans; [apply rsum_abs|]. apply rsum_le. intros i Hi. rewrite Rabs_mult, (Rabs_pos_eq (W i)) by (left; apply WP, Hi).
      apply Rmult_le_compat_l; [left; apply WP, Hi|]. apply (HB T C Y HT HF HCa HYa i Hi). }
    apply Rmult_le_reg_r with (q_E q); [lra|]. unfold Rdiv. rewrite Rmult_assoc, Rinv_l, Rmult_1_r by lra.
    rewrite <- (Rabs_pos_eq (q_E q)) at 1 by lra. rewrite <- Rabs_mult.
    replace (C T * q_E q) with (K0 + - ((1 - q_E q) * (3 * rsum nc (fun i => W i * Y i T)))) by lra.
    eapply Rle_trans; [apply Rabs_triang|]. rewrite Rabs_Ropp, !Rabs_mult, (Rabs_pos_eq (1 - q_E q)), (Rabs_pos_eq 3) by lra.
    apply Rplus_le_compat_l, Rmult_le_compat_l; [lra|]. apply Rmult_le_compat_l; [lra|exact SB]. }
  destruct (H (rsum nc My + (Rabs K0 + (1 - q_E q) * (3 * S)) / q_E q)) as (T & C & Y & HT & (HF & HCa & HYa) & [L|(i & Hi & L)]).
  - assert (X := HCb T C Y HT HF HCa HYa). assert (0 <= rsum nc My) by (apply rsum_nonneg; exact MyP). lra.
  - assert (X := HB T C Y HT HF HCa HYa i Hi). assert (Z := rsum_member nc My i Hi MyP).
    assert (Z2 := Rabs_pos (C T)). assert (Z3 := HCb T C Y HT HF HCa HYa). lra.
Qed.

(** The hypotheses are met by a contactor on three points with the powdered carbon of the other
    examples; its run exists for ten hours and takes up some of the compound. *)
Lemma demo_sensible : sensible demo_carbon 10 demo_comp.
Proof. unfold sensible, demo_carbon, demo_comp. cbn. lra. Qed.
Example contactor_met : exists jacobi, contactor_grid jacobi 3 /\ sensible demo_carbon 10 demo_comp /\
  let '(_, _, B, W) := recur_colloc_symm jacobi 3 3 in
  let eps := 1 - 10 / (f_dw demo_carbon * 10 ^ 6) in
  exists C Y, follows 3 B W (eqn_of demo_carbon eps demo_comp) 0 36000 C Y /\ C 0 = 1 /\ (forall i, (i < 3)%nat -> Y i 0 = 0) /\ C 36000 <= 1.
Proof.
  destruct (jacobi_exist 2 2) as (r & Hr). exists (fun _ _ _ => r).
  assert (HG : contactor_grid (fun _ _ _ => r) 3) by (split; [lia|exact Hr]).
  split; [exact HG|]. split; [exact demo_sensible|].
  assert (L := C188_lasts (fun _ _ _ => r) 3 demo_carbon 10 demo_comp 0 36000 1 (fun _ => 0) HG demo_sensible ltac:(cbn; lra) ltac:(cbn; lra) ltac:(lra) ltac:(lra)).
  assert (BD := C188_bounds (fun _ _ _ => r) 3 demo_carbon 10 demo_comp 0 36000).
  revert L BD. unfold recur_colloc_symm. cbv zeta. intros (C & Y & HF & HC & HY) BD. exists C, Y.
  split; [exact HF|]. split; [exact HC|]. split; [exact HY|]. rewrite <- HC.
  apply (BD C Y HG demo_sensible HF ltac:(lra) HY). lra.
Qed.
Example table_met : exists jacobi solve, contactor_grid jacobi 3 /\
  p_eps demo_pac = 1 - p_dosage demo_pac / (f_dw demo_carbon * 10 ^ 6) /\
  (let eqs := map (fun x => eqn_of demo_carbon (p_eps demo_pac) (fst (snd x))) (p_table demo_pac) in exact_run jacobi 3 eqs (p_duration demo_pac) (solve eqs (p_duration demo_pac))) /\
  length (t_min (run demo_carbon solve demo_pac)) = 2%nat.
Proof.
  destruct (jacobi_exist 2 2) as (r & Hr). set (jac := fun (_ : nat) (_ _ : R) => r). exists jac.
  assert (HG : contactor_grid jac 3) by (split; [lia|exact Hr]).
  assert (L := C188_lasts jac 3 demo_carbon 10 demo_comp 0 1200 1 (fun _ => 0) HG demo_sensible ltac:(cbn; lra) ltac:(cbn; lra) ltac:(lra) ltac:(lra)).
  revert L. unfold exact_run, recur_colloc_symm. cbv zeta. intros (C & Y & HF & HC & HY).
  exists (fun _ T => [(0, [1]); (T, [C T])]). split; [exact HG|]. split; [reflexivity|]. split; [|reflexivity].
  intros k q Hq. destruct k as [|k]; [|destruct k; discriminate Hq]. cbn in Hq. injection Hq as <-.
  exists C, Y. split; [exact HF|]. split; [exact HC|]. split; [exact HY|]. intros s [<-|[<-|[]]]; cbn; split; lra.
Qed.

Print Assumptions C188_bounds.
Print Assumptions C188_loading.
Print Assumptions C188_table.
Print Assumptions C188_lasts.
