(** C175: a dose study shows what separate runs would. *)
From Coq Require Import Reals List Arith Bool String Lra Lia.
From Verif Require Import Lib_Py M_GacFun M_Tools M_Pac S_Doses Props_Pac M_RPacApp Props_RPacApp.
Import ListNotations.
Open Scope R_scope.
Local Notation length := List.length.

(** A compound without the name of its unit. *)
Definition core (nc : string * comp) : string * (R * R * R * R * R * R) :=
  let c := snd nc in (fst nc, (K c, xn c, kf c, Dp c, Ds c, C0 c)).
Definition rows (t : list (string * (comp * derived))) : list (string * comp) := map (fun x => (fst x, fst (snd x))) t.
Definition looks (o : pac) (l : list (string * comp)) (cv : list R) : Prop := map core (rows (p_table o)) = map core l /\ p_conv o = cv.
Definition blank (l : list (string * comp)) : list (string * (comp * derived)) := map (fun nc => (fst nc, (snd nc, no_derived))) l.
Definition made (f : carbon) (d T : R) (l : list (string * comp)) (cv : list R) : pac :=
  update_values f {| p_dosage := d; p_duration := T; p_eps := 0; p_table := blank l; p_conv := cv |}.

Lemma conv_array_length l : forall cv, conv_array l = Ok cv -> length cv = length l.
Proof.
  induction l as [|[n c] l IH]; intros cv H; cbn [conv_array] in H; [assert (cv = []) as -> by congruence; reflexivity|].
  destruct (lookup (C0_units c) conc_convert) as [k|]; cbn [of_option bind] in H; [|congruence]. destruct (conv_array l) as [ks|]; [|discriminate]. cbn in H. match type of H with Ok ?a = _ => assert (cv = a) as -> by congruence end. cbn. rewrite (IH _ eq_refl). reflexivity.
Qed.
Lemma rows_update f o : length (p_conv o) = length (p_table o) -> rows (p_table (update_values f o)) = rows (p_table o).
Proof.
  unfold rows, update_values. cbn [p_table]. generalize (p_conv o) (eps_of f (p_dosage o)). induction (p_table o) as [|[n [c d]] t IH]; intros [|k ks] e L; try discriminate L; [reflexivity|].
  cbn. f_equal. apply IH. cbn in L. congruence.
Qed.
Lemma rows_blank l : rows (blank l) = l.
Proof. unfold rows, blank. rewrite map_map. induction l as [|[n c] l IH]; [reflexivity|]. cbn. f_equal. exact IH. Qed.
Lemma looks_length o l cv : looks o l cv -> length (p_table o) = length l.
Proof. intros (E & _). apply (f_equal (@length _)) in E. unfold rows in E. rewrite !map_length in E. exact E. Qed.
Lemma made_rows f d T l cv : length cv = length l -> rows (p_table (made f d T l cv)) = l.
Proof. intros L. unfold made. rewrite rows_update; [apply rows_blank|]. cbn. unfold blank. rewrite map_length. exact L. Qed.

Section Studies.
Variables (f : carbon) (solve : list eqn -> R -> list (R * list R)).

(** A run reads the porosity, the duration and the compounds without their units. *)
Lemma run_core o o' : p_eps o = p_eps o' -> p_duration o = p_duration o' -> map core (rows (p_table o)) = map core (rows (p_table o')) -> run f solve o = run f solve o'.
Proof.
  intros E1 E2 E3. unfold run. rewrite E1, E2.
  assert (L : length (p_table o) = length (p_table o')) by (apply (f_equal (@length _)) in E3; unfold rows in E3; rewrite !map_length in E3; exact E3). rewrite L.
  assert (Q : map (fun nx : string * (comp * derived) => eqn_of f (p_eps o') (fst (snd nx))) (p_table o) = map (fun nx => eqn_of f (p_eps o') (fst (snd nx))) (p_table o')).
  { clear - E3. revert E3. generalize (p_table o'). induction (p_table o) as [|[n [c d]] t IH]; intros [|[n' [c' d']] t'] E; try discriminate E; [reflexivity|]. cbn in E |- *.
    injection E as _ E4 E5 E6 E7 E8 _ E9. f_equal; [unfold eqn_of; congruence|apply IH, E9]. }
  rewrite Q. f_equal. clear - E3. revert E3. generalize (solve (map (fun nx : string * (comp * derived) => eqn_of f (p_eps o') (fst (snd nx))) (p_table o')) (p_duration o')).
  intros sol. generalize 0%nat. generalize (p_table o'). induction (p_table o) as [|[n [c d]] t IH]; intros [|[n' [c' d']] t'] k E; try discriminate E; [reflexivity|]. cbn in E |- *.
  injection E as E0 _ _ _ _ _ E8 E9. rewrite E0, E8. f_equal. apply IH, E9.
Qed.
Lemma run_made o l cv d : looks o l cv -> length cv = length l -> run f solve (update_values f (set_dosage o d)) = run f solve (made f d (p_duration o) l cv).
Proof.
  intros LK L. apply run_core; [reflexivity|reflexivity|]. rewrite made_rows by exact L. rewrite rows_update; [exact (proj1 LK)|].
  cbn [set_dosage p_conv p_table]. rewrite (looks_length _ _ _ LK). rewrite (proj2 LK). exact L.
Qed.
Lemma looks_update o l cv d : looks o l cv -> length cv = length l -> looks (update_values f (set_dosage o d)) l cv.
Proof.
  intros LK L. split; [|exact (proj2 LK)]. rewrite rows_update; [exact (proj1 LK)|]. cbn [set_dosage p_conv p_table]. rewrite (looks_length _ _ _ LK), (proj2 LK). exact L.
Qed.
Lemma each_dose_made l cv doses : length cv = length l -> forall o, looks o l cv ->
  snd (each_dose f solve o doses) = map (fun d => (d, run f solve (made f d (p_duration o) l cv))) doses /\ looks (fst (each_dose f solve o doses)) l cv.
Proof.
  intros L. induction doses as [|d doses IH]; intros o LK; [split; [reflexivity|exact LK]|]. cbn [each_dose fst snd map].
  destruct (IH _ (looks_update o l cv d LK L)) as (I1 & I2). split; [|exact I2]. f_equal; [f_equal; apply run_made; assumption|exact I1].
Qed.
Lemma interp_scaled k xs : forall ys h, np_interp (combine xs (map (fun x => x * k) ys)) h = np_interp (combine xs ys) h * k.
Proof.
  induction xs as [|x0 xs IH]; intros [|y0 ys] h; cbn [combine map np_interp]; try ring.
  specialize (IH ys h). destruct xs as [|x1 xs], ys as [|y1 ys]; cbn [combine map] in *; try reflexivity.
  destruct (rleb h x0); [reflexivity|]. destruct (rltb h x1); [unfold line, Rdiv; ring|exact IH].
Qed.
Lemma at_times_scale t cv times : at_times (scale cv t) times =
  map (fun cx => (fst (fst cx), map (fun h => np_interp (combine (t_min t) (snd (fst cx))) h * snd cx) times)) (combine (t_cols t) cv).
Proof.
  unfold at_times, scale. cbn [t_cols t_min]. rewrite map_map. apply map_ext. intros [[n col] k]. cbn [fst snd]. f_equal. apply map_ext. intros h. apply interp_scaled.
Qed.
Lemma waits_scale target t cv : waits (scale cv t) target = hrts_of target cv t.
Proof. unfold waits, hrts_of, hrt_for, scale. cbn [t_cols t_min]. rewrite map_map. apply map_ext. intros [[n col] k]. reflexivity. Qed.
Lemma made_conv d T l cv : p_conv (made f d T l cv) = cv.
Proof. reflexivity. Qed.
Lemma create_made d T l cv : conv_array l = Ok cv -> create f d T l = Ok (made f d T l cv).
Proof. intros E. unfold create. rewrite E. reflexivity. Qed.

Lemma multi_made o l cv doses times : looks o l cv -> length cv = length l ->
  snd (run_multi_doseR f solve o doses times) = map (fun d => (d, at_times (r_run f solve (made f d (1000 * 60) l cv)) times)) doses /\
  looks (fst (run_multi_doseR f solve o doses times)) l cv.
Proof.
  intros LK L. unfold run_multi_doseR, run_multi_dosage, analyze. cbn [fst snd].
  destruct (each_dose_made l cv doses L (set_duration o (1000 * 60)) LK) as (E1 & E2). split.
  - rewrite E1. rewrite map_map. apply map_ext. intros d. cbn [fst snd]. f_equal. unfold r_run. rewrite at_times_scale, made_conv, (proj2 LK). reflexivity.
  - exact E2.
Qed.
Lemma trial_made target l cv doses : length cv = length l -> forall o, looks o l cv ->
  snd (each_trial f solve target o doses) = map (fun d => (d, waits (r_run f solve (made f d (p_duration o) l cv)) target)) doses /\
  looks (fst (each_trial f solve target o doses)) l cv /\ p_duration (fst (each_trial f solve target o doses)) = p_duration o.
Proof.
  intros L. induction doses as [|d doses IH]; intros o LK; [split; [reflexivity|split; [exact LK|reflexivity]]|]. cbn [each_trial fst snd map].
  destruct (IH _ (looks_update o l cv d LK L)) as (I1 & I2 & I3). split; [|split; [exact I2|exact I3]].
  f_equal; [|exact I1]. f_equal. unfold r_run. rewrite waits_scale, made_conv. cbn [update_values set_dosage p_conv]. rewrite (proj2 LK). f_equal. apply run_made; assumption.
Qed.
Lemma core_units u t : map core (rows (set_units u t)) = map core (rows t).
Proof. unfold rows, set_units, core. rewrite !map_map. apply map_ext. intros [n [c d]]. reflexivity. Qed.
Lemma core_in_unit u l : map core (in_unit u l) = map core l.
Proof. unfold in_unit, core. rewrite map_map. apply map_ext. intros [n c]. reflexivity. Qed.
Lemma conv_in_unit u m l : lookup u conc_convert = Some m -> conv_array (in_unit u l) = Ok (map (fun _ => m) l).
Proof. intros E. induction l as [|[n c] l IH]; [reflexivity|]. cbn [in_unit map conv_array fst snd C0_units]. rewrite E. cbn [of_option bind]. fold (in_unit u l). rewrite IH. reflexivity. Qed.
Lemma map_const {A B} (m : R) (l : list A) (l' : list B) : length l = length l' -> map (fun _ => m) l = map (fun _ => m) l'.
Proof. revert l'. induction l as [|a l IH]; intros [|b l'] E; try discriminate E; [reflexivity|]. cbn. f_equal. apply IH. cbn in E. congruence. Qed.
Lemma all_at_unit c0 u l : all_at c0 (in_unit u l) = in_unit u (all_at c0 l).
Proof. unfold all_at, in_unit. rewrite !map_map. reflexivity. Qed.
Lemma core_c0 c0 t l : map core (rows t) = map core l -> map core (rows (set_c0 c0 t)) = map core (all_at c0 l).
Proof.
  unfold rows, set_c0, all_at, core. rewrite !map_map. revert l. induction t as [|[n [c d]] t IH]; intros [|[n' c'] l] E; try discriminate E; [reflexivity|]. cbn in E |- *.
  injection E as E0 E1 E2 E3 E4 E5 _ E6. f_equal; [congruence|apply IH, E6].
Qed.
Lemma all_at_length c l : length (all_at c l) = length l.
Proof. apply map_length. Qed.
Lemma c0_made target l cv doses : length cv = length l -> forall concs o, p_conv o = cv -> (forall c, map core (rows (set_c0 c (p_table o))) = map core (all_at c l)) ->
  snd (each_c0 f solve target o doses concs) =
    flat_map (fun c => map (fun d => (c, d, waits (r_run f solve (made f d (p_duration o) (all_at c l) cv)) target)) doses) concs.
Proof.
  intros L. induction concs as [|c concs IH]; intros o CV LK; [reflexivity|]. cbn [each_c0 fst snd flat_map].
  destruct (trial_made target (all_at c l) cv doses ltac:(rewrite all_at_length; exact L) (set_table o (set_c0 c (p_table o)))) as (T1 & T2 & T3).
  { split; [apply LK|exact CV]. }
  f_equal.
  - rewrite T1, map_map. reflexivity.
  - rewrite IH; [rewrite T3; reflexivity|exact (proj2 T2)|]. intros c'. rewrite (core_c0 c' _ _ (proj1 T2)). unfold all_at. rewrite !map_map. reflexivity.
Qed.

(** Every study leaves the compounds and the units as they were. *)
Lemma study_looks s o l cv : looks o l cv -> length cv = length l -> looks (after_study f solve o s) l cv.
Proof.
  intros LK L. destruct s as [doses times|target u doses cu|target u doses concs cu]; cbn [after_study].
  - apply multi_made; assumption.
  - unfold R_HRT_calculator. destruct (unit_factor u); [|exact LK]. cbv zeta. destruct (String.eqb (lower cu) "same"); [exact LK|]. destruct (lookup (lower cu) conc_convert); exact LK.
  - unfold HRT_calculator. destruct (unit_factor u); [|exact LK]. cbv zeta. destruct (lookup _ conc_convert); exact LK.
Qed.
Lemma history_looks h : forall o l cv, looks o l cv -> length cv = length l -> looks (fold_left (after_study f solve) h o) l cv.
Proof. induction h as [|s h IH]; intros o l cv LK L; [exact LK|]. cbn. apply IH; [apply study_looks; assumption|exact L]. Qed.
Lemma created_looks d T l o : create f d T l = Ok o -> exists cv, conv_array l = Ok cv /\ length cv = length l /\ looks o l cv.
Proof.
  unfold create. destruct (conv_array l) as [cv|] eqn:E; [|discriminate]. cbn [bind]. intros H. exists cv. assert (L := conv_array_length _ _ E). split; [reflexivity|]. split; [exact L|].
  assert (o = made f d T l cv) as -> by (unfold made, blank; congruence). split; [rewrite made_rows by exact L; reflexivity|reflexivity].
Qed.

(** A contactor is made, studied in any ways [h], and then studied by dose: at each dose the
    concentrations are those that a run of a new contactor with this dose shows after the times. *)
Theorem C175_concentrations : forall d0 T0 l o h doses times, create f d0 T0 l = Ok o ->
  let r := snd (run_multi_doseR f solve (fold_left (after_study f solve) h o) doses times) in
  length r = length doses /\
  forall k d, nth_error doses k = Some d -> exists new, create f d (1000 * 60) l = Ok new /\ nth_error r k = Some (d, at_times (r_run f solve new) times).
Proof.
  intros d0 T0 l o h doses times H. cbv zeta. destruct (created_looks _ _ _ _ H) as (cv & E & L & LK).
  rewrite (proj1 (multi_made _ l cv doses times (history_looks h o l cv LK L) L)). split; [apply map_length|].
  intros k d N. exists (made f d (1000 * 60) l cv). split; [apply create_made, E|]. rewrite nth_error_map, N. reflexivity.
Qed.
(** The waiting times, for the concentrations of the sheet ("same") or read in another unit. *)
Theorem C175_waiting_times : forall d0 T0 l o h target u k doses cu r, create f d0 T0 l = Ok o -> lookup (lower u) conc_convert = Some k ->
  snd (R_HRT_calculator f solve (fold_left (after_study f solve) h o) target u doses cu) = Ok r ->
  length r = length doses /\
  forall i d, nth_error doses i = Some d -> exists new, create f d (3000 * 60) (if String.eqb (lower cu) "same" then l else in_unit (lower cu) l) = Ok new /\
    nth_error r i = Some (d, waits (r_run f solve new) (target * k)).
Proof.
  intros d0 T0 l o h target u k doses cu r H U. destruct (created_looks _ _ _ _ H) as (cv & E & L & LK). assert (LH := history_looks h o l cv LK L).
  set (o1 := fold_left (after_study f solve) h o) in *. unfold R_HRT_calculator, unit_factor. rewrite U. cbn [of_option]. cbv zeta. destruct (String.eqb (lower cu) "same").
  - cbn [snd]. intros X. match type of X with Ok ?a = _ => assert (X' : a = r) by congruence end. rewrite <- X'. clear X X'.
    rewrite (proj1 (trial_made (target * k) l cv doses L (set_table (set_duration o1 (3000 * 60)) (set_units (lower u) (p_table o1))) ltac:(split; [cbn [set_table p_table]; rewrite core_units; exact (proj1 LH)|exact (proj2 LH)]))).
    split; [apply map_length|]. intros i d N. exists (made f d (3000 * 60) l cv). split; [apply create_made, E|]. rewrite nth_error_map, N. reflexivity.
  - destruct (lookup (lower cu) conc_convert) as [m|] eqn:M; [|discriminate]. cbn [snd]. intros X. match type of X with Ok ?a = _ => assert (X' : a = r) by congruence end. rewrite <- X'. clear X X'.
    set (l' := in_unit (lower cu) l). assert (L' : length (map (fun _ : string * comp => m) l) = length l') by (unfold l', in_unit; rewrite !map_length; reflexivity).
    rewrite (proj1 (trial_made (target * k) l' (map (fun _ => m) l) doses L' (set_table (set_conv (set_duration o1 (3000 * 60)) (map (fun _ => m) (p_table o1))) (set_units (lower cu) (p_table o1)))
      ltac:(split; [cbn [set_table p_table]; rewrite core_units; unfold l'; rewrite core_in_unit; exact (proj1 LH)|cbn [set_table set_conv p_conv]; apply map_const, (looks_length _ _ _ LH)]))).
    split; [apply map_length|]. intros i d N. exists (made f d (3000 * 60) l' (map (fun _ => m) l)). split; [apply create_made, conv_in_unit, M|]. rewrite nth_error_map, N. reflexivity.
Qed.
(** The waiting times for several starting concentrations: those in the chosen unit, "same" being
    the unit of the target. *)
Theorem C175_starting_concentrations : forall d0 T0 l o h target u k doses concs cu r, create f d0 T0 l = Ok o -> lookup (lower u) conc_convert = Some k ->
  snd (HRT_calculator f solve (fold_left (after_study f solve) h o) target u doses concs cu) = Ok r ->
  let unit_ := if String.eqb (lower cu) "same" then lower u else lower cu in
  length r = (length concs * length doses)%nat /\
  forall i j c d, nth_error concs i = Some c -> nth_error doses j = Some d -> exists new, create f d (3000 * 60) (in_unit unit_ (all_at c l)) = Ok new /\
    nth_error r (i * length doses + j) = Some (c, d, waits (r_run f solve new) (target * k)).
Proof.
  intros d0 T0 l o h target u k doses concs cu r H U. destruct (created_looks _ _ _ _ H) as (cv & E & L & LK). assert (LH := history_looks h o l cv LK L).
  set (o1 := fold_left (after_study f solve) h o) in *. unfold HRT_calculator, unit_factor. rewrite U. cbn [of_option]. cbv zeta. set (un := if String.eqb (lower cu) "same" then lower u else lower cu).
  destruct (lookup un conc_convert) as [m|] eqn:M; [|discriminate]. cbn [snd]. intros X. match type of X with Ok ?a = _ => assert (X' : a = r) by congruence end. rewrite <- X'. clear X X'.
  set (l' := in_unit un l). assert (L' : length (map (fun _ : string * comp => m) l) = length l') by (unfold l', in_unit; rewrite !map_length; reflexivity).
  rewrite (c0_made (target * k) l' (map (fun _ => m) l) doses L' concs).
  2:{ cbn [set_table set_conv p_conv]. apply map_const, (looks_length _ _ _ LH). }
  2:{ intros c. apply core_c0. cbn [set_table p_table]. rewrite core_units. unfold l'. rewrite core_in_unit. exact (proj1 LH). }
  cbn [set_table set_conv set_duration p_duration].
  assert (G : forall (g : R -> R -> R * R * list (string * option R)) (cs : list R), length (flat_map (fun c => map (g c) doses) cs) = (length cs * length doses)%nat /\
    forall i j c d, nth_error cs i = Some c -> nth_error doses j = Some d -> nth_error (flat_map (fun c => map (g c) doses) cs) (i * length doses + j) = Some (g c d)).
  { intros g cs. induction cs as [|c0 cs (IH1 & IH2)]; [split; [reflexivity|intros [|i] j c d Hc; discriminate Hc]|]. split.
    - cbn [flat_map length]. rewrite app_length, map_length, IH1. reflexivity.
    - intros [|i] j c d Hc Hd; cbn [flat_map].
      + cbn in Hc. injection Hc as <-. cbn [Nat.mul Nat.add]. rewrite nth_error_app1 by (rewrite map_length; apply nth_error_Some; congruence). rewrite nth_error_map, Hd. reflexivity.
      + rewrite nth_error_app2 by (rewrite map_length; cbn; lia). rewrite map_length. replace (S i * length doses + j - length doses)%nat with (i * length doses + j)%nat by (cbn; lia). apply IH2; assumption. }
  destruct (G (fun c d => (c, d, waits (r_run f solve (made f d (3000 * 60) (all_at c l') (map (fun _ => m) l))) (target * k))) concs) as (G1 & G2).
  split; [exact G1|]. intros i j c d Hc Hd. exists (made f d (3000 * 60) (all_at c l') (map (fun _ => m) l)). split; [|apply G2; assumption].
  unfold l'. rewrite all_at_unit. apply create_made. rewrite (conv_in_unit un m _ M). f_equal. apply map_const. apply map_length.
Qed.
End Studies.

(** The study of the web page, at 30, 60, 90 and 120 minutes. *)
Theorem C175_page : forall f solve d0 T0 l o h lo hi n k, create f d0 T0 l = Ok o -> lo < hi -> (2 <= n)%nat -> (k < n)%nat ->
  let d := lo + (hi - lo) * (INR k / INR (n - 1)) in
  exists new, create f d (1000 * 60) l = Ok new /\
    nth_error (by_dose f solve (fold_left (after_study f solve) h o) lo hi n) k = Some (d, at_times (r_run f solve new) [30; 60; 90; 120]).
Proof.
  intros f solve d0 T0 l o h lo hi n k H LH N Hk. cbv zeta. set (o1 := fold_left (after_study f solve) h o).
  destruct (proj2 (C145_doses_partial f solve o1 lo hi n LH N) k Hk) as (r & E).
  destruct (C175_concentrations f solve d0 T0 l o h (chosen_doses lo hi n) [30; 60; 90; 120] H) as (L1 & C). fold o1 in L1, C.
  change (snd (run_multi_doseR f solve o1 (chosen_doses lo hi n) [30; 60; 90; 120])) with (by_dose f solve o1 lo hi n) in *.
  destruct (nth_error (chosen_doses lo hi n) k) as [d|] eqn:D.
  - destruct (C k d D) as (new & C1 & C2). rewrite C2 in E. assert (d = lo + (hi - lo) * (INR k / INR (n - 1))) as <- by congruence. exists new. split; assumption.
  - apply nth_error_None in D. rewrite <- L1 in D. apply nth_error_None in D. congruence.
Qed.

Print Assumptions C175_concentrations.
Print Assumptions C175_waiting_times.
Print Assumptions C175_starting_concentrations.
Print Assumptions C175_page.

(** A contactor that was studied twice before, and whose studies are answered. *)
Example C175_met : create demo_carbon 10 1200 [("A"%string, demo_comp)] = Ok demo_pac /\
  (let o := fold_left (after_study demo_carbon demo_solve) [ByDose [5; 20] [30; 60]; Wait 4 "ng" [5; 15] "same"] demo_pac in
   p_dosage o <> p_dosage demo_pac /\ p_eps o <> p_eps demo_pac) /\
  lookup (lower "ng") conc_convert = Some (dec 1 3) /\
  (exists r, snd (R_HRT_calculator demo_carbon demo_solve (fold_left (after_study demo_carbon demo_solve) [ByDose [5; 20] [30; 60]] demo_pac) 4 "ng" [5; 15] "ug") = Ok r) /\
  (exists r, snd (HRT_calculator demo_carbon demo_solve (fold_left (after_study demo_carbon demo_solve) [ByDose [5; 20] [30; 60]] demo_pac) 4 "ng" [5; 15] [30; 50] "same") = Ok r).
Proof.
  split; [reflexivity|]. split.
  - cbv zeta. cbn [fold_left after_study].
    set (o1 := fst (run_multi_doseR demo_carbon demo_solve demo_pac [5; 20] [30; 60])).
    destruct (R_HRT_calculator demo_carbon demo_solve o1 4 "ng" [5; 15] "same") as [o2 [r|e]] eqn:E; [|discriminate E].
    destruct (C56_waiting_time_dose_refuted demo_carbon demo_solve o1 4 "ng" [5] 15 "same" o2 r eq_refl E) as (D1 & D2).
    cbn [fst]. rewrite D1, D2. split; [cbn; lra|]. cbn [demo_pac update_values p_eps p_dosage]. unfold eps_of. cbn [f_dw demo_carbon]. lra.
  - split; [reflexivity|]. split; eexists; reflexivity.
Qed.
