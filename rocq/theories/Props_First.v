(** Property C197: what the bed is fed at the start of a run. *)
From Coq Require Import Reals List Arith Bool Lra Lia ZArith String.
From Verif Require Import Lib_Py Lib_Sum Lib_Pow M_Colloc M_GacFun P_GacFun M_GacColumn P_GacColumn M_GacFirst
  Props_GacColumn Props_Order M_GacSmart P_GacSmart M_LeadLag P_LeadLag Props_LeadLag.
Import ListNotations.
Open Scope R_scope.

Lemma cin_scaled cow g i rows : cb0 g i <> 0 ->
  map (fun p => (fst p, cb0 g i * snd p)) (cin cow g i rows) = cbo_after cow (cbo g i rows).
Proof.
  intros H. unfold cin. rewrite map_map. erewrite map_ext; [apply map_id|]. intros [t c]. cbn [fst snd]. f_equal. field. exact H.
Qed.
Lemma cbo_kept cow g i rows : cow = true \/ (x_mass_mul g <> 0 /\ x_mw g i <> 0 /\ forall p, In p rows -> fst p = 0 -> snd p <> 0) ->
  cbo_after cow (cbo g i rows) = cbo g i rows.
Proof.
  intros [-> |(M & W & H)]; [reflexivity|]. destruct cow; [reflexivity|]. unfold cbo_after, cbo. rewrite map_map. apply map_ext_in.
  intros [t c] I. cbn [fst snd]. f_equal. unfold reqb at 1. destruct (Req_EM_T t 0) as [E|N]; [|reflexivity]. cbn [andb].
  unfold reqb. destruct (Req_EM_T (c * x_mass_mul g / x_mw g i) 0) as [Z|N]; [|reflexivity]. exfalso.
  assert (C := H _ I E). cbn in C. apply C. replace c with (c * x_mass_mul g / x_mw g i * x_mw g i / x_mass_mul g) by (field; split; assumption).
  rewrite Z. unfold Rdiv. ring.
Qed.
(** The model of the column reads the table of the copying mode. *)
Lemma table_copied g i rows : cin true g i rows = cin_table g i rows.
Proof. unfold cin, cbo_after, cbo, cin_table. rewrite map_map. reflexivity. Qed.
Lemma table_seen cow g rows i : x_mass_mul g <> 0 -> x_mw g i <> 0 -> cin_table g i (sheet_seen cow g rows i) = cin cow g i (rows i).
Proof.
  intros M W. unfold cin_table, sheet_seen, cin. rewrite map_map. apply map_ext. intros [t c]. cbn [fst snd]. f_equal.
  unfold Rdiv. replace (c * x_mw g i * / x_mass_mul g * x_mass_mul g * / x_mw g i) with (c * (x_mw g i * / x_mw g i) * (/ x_mass_mul g * x_mass_mul g)) by ring.
  rewrite Rinv_r, Rinv_l by assumption. ring.
Qed.

(** ** C197 *)

(** The relative influent times its reference concentration is the sheet in molar units, row by
    row, with copy-on-write always and without it for a compound that is there at time zero. *)
Theorem C197_sheet_partial : forall cow g i rows, physical g -> (i < x_n g)%nat ->
  cow = true \/ (forall p, In p rows -> fst p = 0 -> snd p <> 0) ->
  map (fun p => (fst p, cb0 g i * snd p)) (cin cow g i rows) = map (fun p => (fst p, snd p * x_mass_mul g / x_mw g i)) rows.
Proof.
  intros cow g i rows HP Hi H. assert (C := cb0_pos g HP i Hi). assert (M := ph_mul g HP). assert (W := ph_mw g HP i Hi).
  rewrite cin_scaled by lra. rewrite cbo_kept; [reflexivity|]. destruct H as [H|H]; [left; exact H|right; repeat split; try lra; exact H].
Qed.

(** Without copy-on-write a compound that is absent at time zero is fed at one micromole per litre
    there: the excess falls linearly to nothing at the second row, whatever the sheet says. *)
Theorem C197_first_rows_refuted : forall g i rows T c t, physical g -> (i < x_n g)%nat -> x_inf0 g i = 0 ->
  0 < T -> 0 <= t <= T ->
  cb0 g i * interp_x (cin false g i ((0, 0) :: (T, c) :: rows)) t
  = interp_x ((0, 0) :: (T, c) :: rows) t * x_mass_mul g / x_mw g i + (1 - t / T).
Proof.
  intros g i rows T c t HP Hi Z HT Ht. assert (M := ph_mul g HP). assert (W := ph_mw g HP i Hi).
  assert (B : cb0 g i = 1).
  { unfold cb0. rewrite Z. replace (0 * x_mass_mul g / x_mw g i) with 0 by (field; lra). unfold reqb. destruct (Req_EM_T 0 0); [reflexivity|lra]. }
  rewrite B. unfold cin, cbo_after, cbo. cbn [map fst snd]. rewrite B.
  replace (0 * x_mass_mul g / x_mw g i) with 0 by (field; lra).
  assert (R0 : reqb 0 0 = true) by (unfold reqb; destruct (Req_EM_T 0 0); [reflexivity|lra]).
  assert (RT : reqb T 0 = false) by (unfold reqb; destruct (Req_EM_T T 0); [lra|reflexivity]).
  rewrite R0, RT. cbn [andb].
  assert (L : forall y1 l, interp_x ((0, y1) :: l) t = match l with [] => y1 | (a, b) :: _ => if rleb t a then line 0 y1 a b t else interp_x ((0, y1) :: l) t end).
  { intros y1 [|(a, b) [|p l]]; cbn [interp_x]; try reflexivity; destruct (rleb t a) eqn:E; try reflexivity. }
  rewrite (L (1 / 1)), (L 0). rewrite (proj2 (rleb_true t T)) by lra. unfold line. field. lra.
Qed.

(** So a clean bed begins to take up a compound that is nowhere in its sheet. *)
Theorem C197_absent_refuted : forall inv legendre jroots nr nz ne m g rows foul i more,
  good_library inv legendre jroots nr nz -> calc_solver_matrix inv legendre jroots nr nz ne = Ok m ->
  physical g -> (i < x_n g)%nat -> x_inf0 g i = 0 -> rows i = (0, 0) :: more ->
  (forall p, In p more -> 0 < fst p /\ snd p = 0) -> tab_inc (rows i) -> 0 < kf_v g i ->
  bead_uptake g nr m (sheet_seen true g rows) foul 0 (fun _ _ _ => 0) i 0 = 0 /\
  0 < bead_uptake g nr m (sheet_seen false g rows) foul 0 (fun _ _ _ => 0) i 0.
Proof.
  intros inv leg jr nr nz ne m g rows foul i more HG Hm HP Hi Z HR HM HT KF.
  assert (M := ph_mul g HP). assert (W := ph_mw g HP i Hi).
  assert (B : cb0 g i = 1).
  { unfold cb0. rewrite Z. replace (0 * x_mass_mul g / x_mw g i) with 0 by (field; lra). unfold reqb. destruct (Req_EM_T 0 0); [reflexivity|lra]. }
  assert (E : forall cow, bead_uptake g nr m (sheet_seen cow g rows) foul 0 (fun _ _ _ => 0) i 0
    = dgt g / (1 + dgt g) * (kf_v g i * (3 * (1 - x_ebed g) / x_rad g) * interp_x (cin cow g i (rows i)) 0)).
  { intros cow. rewrite (C69_film_rate_partial inv leg jr nr nz ne m g _ foul 0 _ i 0 HG Hm HP Hi).
    unfold film_transfer, outside, surface_liquid. cbn [Nat.eqb]. rewrite inlet_zero, clean_surface, table_seen by lra. rewrite B. ring. }
  assert (D : 0 < dgt g) by (apply dgt_pos; exact HP).
  assert (TI : forall l f, tab_inc l -> tab_inc (map (fun p : R * R => (fst p, f p)) l)).
  { induction l as [|(a, b) [|(a', b') l] IH]; intros f H; [exact Logic.I|exact Logic.I|]. destruct H as (H1 & H2). split; [exact H1|]. apply (IH f H2). }
  assert (HD : forall cow, interp_x (cin cow g i (rows i)) 0 = if cow then 0 else 1).
  { intros cow. rewrite HR in *. unfold cin, cbo_after, cbo.
    assert (R0 : reqb 0 0 = true) by (unfold reqb; destruct (Req_EM_T 0 0); [reflexivity|lra]).
    destruct cow.
    - rewrite map_map. cbn [map fst snd]. replace (0 * x_mass_mul g / x_mw g i / cb0 g i) with 0 by (rewrite B; field; lra).
      apply interp_head. assert (Q := TI _ (fun p => snd p * x_mass_mul g / x_mw g i / cb0 g i) HT). cbn [map fst snd] in Q.
      replace (0 * x_mass_mul g / x_mw g i / cb0 g i) with 0 in Q by (rewrite B; field; lra). exact Q.
    - rewrite !map_map. cbn [map fst snd]. replace (0 * x_mass_mul g / x_mw g i) with 0 by (field; lra). rewrite R0. cbn [andb].
      rewrite interp_head; [rewrite B; field|].
      assert (Q := TI _ (fun p => (if (reqb (fst p) 0 && reqb (snd p * x_mass_mul g / x_mw g i) 0)%bool then 1 else snd p * x_mass_mul g / x_mw g i) / cb0 g i) HT).
      cbn [map fst snd] in Q. replace (0 * x_mass_mul g / x_mw g i) with 0 in Q by (field; lra). rewrite R0 in Q. cbn [andb] in Q. exact Q. }
  assert (F : 0 < 3 * (1 - x_ebed g) / x_rad g).
  { assert (X := ph_ebed g HP). assert (Y := ph_rad g HP). apply Rdiv_lt_0_compat; lra. }
  rewrite !E, !HD. split; [ring|]. rewrite Rmult_1_r. apply Rmult_lt_0_compat; [apply Rdiv_lt_0_compat; lra|apply Rmult_lt_0_compat; assumption].
Qed.

(** Two carbon beds in series: as the effluent of the first one starts at zero, the feed of the
    second one has that zero at time zero. *)
Theorem C197_second_bed : forall gac raw s r r', 1 <= s -> tab_inc ((0, 0) :: r) ->
  ll_step gac raw s 0 ((0, 0) :: r) = Ok r' ->
  exists feed, gac feed = Ok r' /\ hd_error feed = Some (0, 0).
Proof.
  intros gac raw s r r' Hs HI H. destruct (step_fed gac raw s 0 _ _ H) as (feed & G & F1 & F2). exists feed. split; [exact G|].
  destruct feed as [|(t, v) feed].
  - exfalso. assert (L : List.length (quarters 0 (run_duration s)) = 0%nat) by (rewrite <- F1; reflexivity).
    unfold quarters in L. rewrite map_length, seq_length in L.
    assert (K : (0 < arange_len 0 (run_duration s) (1 / 4))%nat).
    { assert (D : 1 <= run_duration s).
      { unfold run_duration. destruct (base_Int_part (s * dec 21 1)) as (B1 & B2).
        assert (X : 2 <= s * dec 21 1) by (unfold dec; cbn; lra).
        assert (Y : (1 <= Int_part (s * dec 21 1))%Z). { assert (0 < Int_part (s * dec 21 1))%Z by (apply lt_IZR; lra). lia. }
        apply IZR_le in Y. exact Y. }
      unfold arange_len. assert (C : 0 < (run_duration s - 0) / (1 / 4)) by lra.
      apply (ceil_gt _ 0) in C. lia. }
    lia.
  - cbn [map fst] in F1. assert (T0 : t = 0).
    { assert (N : nth_error (quarters 0 (run_duration s)) 0 = Some t) by (rewrite <- F1; reflexivity).
      apply nth_error_quarters in N as (N & _). cbn in N. lra. }
    subst t. destruct (F2 0 v (or_introl eq_refl)) as (F3 & _). assert (X := F3 ltac:(lra)). destruct X as (X & _).
    replace (0 + 0) with 0 in X by ring. rewrite interp_head in X by exact HI. cbn. rewrite X. reflexivity.
Qed.

(** ** The hypotheses are met *)

Lemma g_absent_physical : physical g_absent.
Proof. split; cbn; try lra; try lia; intros i Hi; try lra. destruct i; lra. Qed.
(** Two solutes, the second nowhere present (Props_Order.v). *)
Example absent_is_taken_up : exists m, calc_solver_matrix inv23 leg_mid jac_one 2 3 1 = Ok m /\ forall foul,
  bead_uptake g_absent 2 m (sheet_seen true g_absent rows_absent) foul 0 (fun _ _ _ => 0) 1 0 = 0 /\
  0 < bead_uptake g_absent 2 m (sheet_seen false g_absent rows_absent) foul 0 (fun _ _ _ => 0) 1 0.
Proof.
  destruct (matrices_example 1 (le_n _)) as (m & Hm & _). exists m. split; [exact Hm|]. intros foul.
  apply (C197_absent_refuted inv23 leg_mid jac_one 2 3 1 m g_absent rows_absent foul 1 [(1000, 0)]); try reflexivity; try exact Hm.
  - exact library_example.
  - exact g_absent_physical.
  - cbn; lia.
  - intros p [<- |[]]. cbn. lra.
  - cbn. lra.
  - unfold kf_v. cbn [x_kf g_absent]. rewrite (proj2 (rltb_true 0 (1 / 1000))) by lra. lra.
Qed.
(** Half an interval in, half a micromole per litre too much: fifty micrograms. *)
Example half_a_micromole : cb0 g_absent 1 * interp_x (cin false g_absent 1 [(0, 0); (1000, 0)]) 500 = 1 / 2.
Proof.
  rewrite (C197_first_rows_refuted g_absent 1 [] 1000 0 500 g_absent_physical); cbn [x_n g_absent x_inf0]; try lia; try reflexivity; try lra.
  cbn [interp_x x_mass_mul x_mw g_absent]. unfold line. field.
Qed.
(** The solute that is there from the start keeps its influent in both modes. *)
Example present_is_kept : forall cow, map (fun p => (fst p, cb0 g_absent 0 * snd p)) (cin cow g_absent 0 (rows_absent 0)) = [(0, 100 * 1 / 100); (1000, 100 * 1 / 100)].
Proof.
  intros cow. rewrite (C197_sheet_partial cow g_absent 0 (rows_absent 0) g_absent_physical); [reflexivity|cbn; lia|].
  right. intros p [<- |[<- |[]]]; cbn; lra.
Qed.
(** Twelve days between swaps, effluents that rise from zero. *)
Example second_bed_example : exists r', ll_step (fun _ => Ok [(0, 0); (1000, 1)]) 5 (INR 12) 0 [(0, 0); (1000, 1)] = Ok r'.
Proof.
  destruct (C53_carbon_succeeds (fun _ => Ok [(0, 0); (1000, 1)]) 5 12 0%nat) as (o & H); [lia| |].
  - intros f. eexists. split; [reflexivity|]. unfold covers. exists (0, 0). split; [reflexivity|]. cbn [fst last]. split; [lra|]. cbn [INR]. lra.
  - unfold run_LL_gac in H. destruct (bind_inv _ _ _ H) as (r0 & R0 & H1). destruct (bind_inv _ _ _ H1) as (r & R & _).
    cbn [Nat.add ll_steps] in R. destruct (bind_inv _ _ _ R) as (r1 & R1 & _). exists r1. injection R0 as <-. exact R1.
Qed.

Print Assumptions C197_sheet_partial.
Print Assumptions C197_first_rows_refuted.
Print Assumptions C197_absent_refuted.
Print Assumptions C197_second_bed.
