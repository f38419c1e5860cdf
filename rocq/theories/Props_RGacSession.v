(** C181: the session of the granular-carbon page. *)
From Coq Require Import Reals List Arith Bool String Lra Lia.
From Verif Require Import Lib_Py M_GacFun M_GacShiny M_RIexApp S_RIexApp P_RIexApp M_RGacApp S_RGacApp P_RGacApp Props_RGacApp M_IxUnc P_IxUnc M_RGacSession.
Import ListNotations.
Open Scope R_scope.
Open Scope string_scope.
Local Notation length := List.length.

(** The button gives results [o]: the page accepts the inputs and the model runs on them. *)
Definition succeeds {A} (solve : gboxes -> A -> timed -> res timed) (p : gpage A) (o : timed) : Prop :=
  accepted (gp_boxes p) = Ok true /\ solve (gp_boxes p) (gp_sheets p) (gp_inf p) = Ok o.
(** What happens afterwards gives no results: edits, and runs that are refused or fail. *)
Fixpoint fruitless {A} (solve : gboxes -> A -> timed -> res timed) (p : gpage A) (l : list (gaction A)) : Prop :=
  match l with
  | [] => True
  | a :: l' => (a = GRun -> forall o, ~ succeeds solve p o) /\ fruitless solve (gact solve p a) l'
  end.
Definition is_edit {A} (a : gaction A) : Prop := a <> GRun.

Lemma button_ok {A} solve (p : gpage A) o : succeeds solve p o -> button solve p = o.
Proof. intros (H1 & H2). unfold button. rewrite H1, H2. reflexivity. Qed.
Lemma button_none {A} solve (p : gpage A) : (forall o, ~ succeeds solve p o) -> button solve p = gp_out p.
Proof.
  intros H. unfold button. destruct (accepted (gp_boxes p)) as [[|]|] eqn:E1; try reflexivity.
  destruct (solve (gp_boxes p) (gp_sheets p) (gp_inf p)) as [o|] eqn:E2; [|reflexivity]. exfalso. apply (H o). split; assumption.
Qed.
Lemma fruitless_out {A} solve l : forall p : gpage A, fruitless solve p l -> gp_out (session solve p l) = gp_out p.
Proof.
  induction l as [|a l IH]; intros p H; [reflexivity|]. destruct H as (H1 & H2). cbn [session fold_left]. fold (session solve (gact solve p a) l).
  rewrite (IH _ H2). destruct a; [reflexivity|]. cbn [gact gp_out]. apply button_none, H1, eq_refl.
Qed.
Lemma session_out {A} solve (p : gpage A) o l : succeeds solve p o -> fruitless solve (gact solve p GRun) l -> gp_out (session solve p (GRun :: l)) = o.
Proof. intros S F. cbn [session fold_left]. fold (session solve (gact solve p GRun) l). rewrite (fruitless_out _ _ _ F). apply button_ok, S. Qed.
Lemma edits_fruitless {A} solve l : Forall is_edit l -> forall p : gpage A, fruitless solve p l.
Proof. induction 1 as [|a l E _ IH]; intros p; [exact I|]. split; [intros ->; exfalso; apply E; reflexivity|apply IH]. Qed.
Lemma edits_cc0 {A} solve l : Forall is_edit l -> forall p : gpage A, gp_cc0 (session solve p l) = gp_cc0 p.
Proof. induction 1 as [|a l E _ IH]; intros p; [reflexivity|]. cbn [session fold_left]. fold (session solve (gact solve p a) l). rewrite IH. destruct a; [reflexivity|]. exfalso. apply E. reflexivity. Qed.

Lemma mapM_all {A B} (f : A -> res B) (g : A -> B) l : (forall x, In x l -> f x = Ok (g x)) -> mapM f l = Ok (map g l).
Proof.
  induction l as [|x l IH]; intros H; [reflexivity|]. cbn [mapM map]. rewrite (H x (or_introl eq_refl)). cbn [bind].
  rewrite IH by (intros y I; apply H; right; exact I). reflexivity.
Qed.
Lemma zip3 (f g : R -> R) (l : list point) :
  combine (combine (map (fun q => f (fst (fst q))) l) (map (fun q => snd (fst q)) l)) (map (fun q => g (snd q)) l) = map (fun q => (f (fst (fst q)), snd (fst q), g (snd q))) l.
Proof. induction l as [|q l IH]; [reflexivity|]. cbn [map combine]. rewrite IH. reflexivity. Qed.
Lemma drawn_amounts {A} (p : gpage A) tu cu f g : cu <> "c/c0" -> (forall t, g_plot_time (gp_boxes p) tu t = Ok (f t)) -> (forall c, g_plot_conc (gp_boxes p) cu c = Ok (g c)) ->
  drawn p tu cu = Ok (map (fun q => (f (fst (fst q)), snd (fst q), g (snd q))) (by_row (gp_out p))).
Proof.
  intros N F G. unfold drawn, concs_drawn. destruct (String.eqb_spec cu "c/c0") as [E|_]; [contradiction|].
  rewrite (mapM_all _ (fun q => g (snd q))) by (intros; apply G). cbn [bind]. rewrite (mapM_all _ (fun q => f (fst (fst q)))) by (intros; apply F). cbn [bind].
  rewrite zip3. reflexivity.
Qed.
Lemma mass_not_c0 u m : mass_unit u m -> u <> "c/c0". Proof. intros [] E; discriminate E. Qed.
Lemma mass_unit_pos u m : mass_unit u m -> 0 < m. Proof. intros []; lra. Qed.
Lemma plot_days b u d t : days u d -> g_plot_time b u t = Ok (t / d).
Proof. intros D. unfold g_plot_time, factor_of. destruct D; cbn; f_equal; unfold hour2day, day2day, month2day, year2day, month2day; field. Qed.
Lemma in_drawn {A} (p : gpage A) (f g : R -> R) (x : R) (n : string) (y : R) : table_ok (gp_out p) ->
  In (x, n, y) (map (fun q : point => (f (fst (fst q)), snd (fst q), g (snd q))) (by_row (gp_out p))) <-> exists t v, says (gp_out p) t n v /\ x = f t /\ y = g v.
Proof.
  intros T. rewrite in_map_iff. split.
  - intros ([[t m] v] & E & I). cbn [fst snd] in E. assert (m = n) by congruence. subst m. exists t, v. apply (in_by_row _ _ _ _ T) in I. repeat split; congruence || exact I.
  - intros (t & v & S & -> & ->). exists (t, n, v). split; [reflexivity|]. apply (in_by_row _ _ _ _ T), S.
Qed.

(** * C181: the results shown and saved are those of the last run that gave any *)
(** whatever went before, and whatever inputs are edited afterwards, refused and failed runs included, as long as the unit
    of the concentrations is the one of the run *)
Theorem C181_last_run_partial {A} (solve : gboxes -> A -> timed -> res timed) first before after o m tu d cu mu :
  let p := session solve first before in let q := session solve p (GRun :: after) in
  succeeds solve p o -> fruitless solve (gact solve p GRun) after -> table_ok o ->
  g_conc_units (gp_boxes q) = g_conc_units (gp_boxes p) -> mass_unit (g_conc_units (gp_boxes p)) m -> mass_unit cu mu -> days tu d ->
  exists pts, drawn q tu cu = Ok pts /\ forall x n y, In (x, n, y) pts <-> exists t v, says o t n v /\ x = t / d /\ y = v * m / mu.
Proof.
  intros p q S F T E M MU D. assert (O : gp_out q = o) by (apply session_out; assumption).
  eexists. split; [apply drawn_amounts; [apply (mass_not_c0 _ _ MU)|intros t; apply (plot_days _ _ d), D|intros c; apply (C136_concentrations_partial _ _ _ m mu); [rewrite E; exact M|exact MU]]|].
  intros x n y. rewrite (in_drawn q (fun t => t / d) (fun c => c * m / mu)); rewrite O; [reflexivity|exact T].
Qed.
(** another unit chosen after the run: the old results are shown as if they had been given in it *)
Theorem C181_units_refuted {A} (solve : gboxes -> A -> timed -> res timed) first before after o m m' tu d cu mu t n v :
  let p := session solve first before in let q := session solve p (GRun :: after) in
  succeeds solve p o -> fruitless solve (gact solve p GRun) after -> table_ok o ->
  mass_unit (g_conc_units (gp_boxes p)) m -> mass_unit (g_conc_units (gp_boxes q)) m' -> m' <> m -> mass_unit cu mu -> days tu d -> says o t n v -> v <> 0 ->
  exists pts, drawn q tu cu = Ok pts /\ In (t / d, n, v * m' / mu) pts /\ v * m' / mu <> v * m / mu.
Proof.
  intros p q S F T M M' NE MU D HS V. assert (O : gp_out q = o) by (apply session_out; assumption).
  eexists. split; [apply drawn_amounts; [apply (mass_not_c0 _ _ MU)|intros x; apply (plot_days _ _ d), D|intros c; apply (C136_concentrations_partial _ _ _ m' mu); assumption]|].
  split.
  - apply (in_drawn q (fun t => t / d) (fun c => c * m' / mu)); rewrite O; [exact T|]. exists t, v. repeat split. exact HS.
  - assert (P := mass_unit_pos _ _ MU). intros E. apply NE. apply (Rmult_eq_reg_l v); [|exact V]. apply (Rmult_eq_reg_r (/ mu)); [exact E|apply Rinv_neq_0_compat; lra].
Qed.
(** bed volumes are counted with the column on the page now, not with that of the run *)
Theorem C181_beds_partial {A} (solve : gboxes -> A -> timed -> res timed) first before after o m f D L cu mu :
  let p := session solve first before in let q := session solve p (GRun :: after) in let b := gp_boxes q in
  succeeds solve p o -> fruitless solve (gact solve p GRun) after -> table_ok o ->
  g_linear b = false -> g_FlowrateUnits b <> "mgd" -> cubic_metres_per_second (g_FlowrateUnits b) f -> metres (g_DiameterUnits b) D -> metres (g_LengthUnits b) L ->
  g_Fv b <> 0 -> g_Dv b <> 0 -> g_Lv b <> 0 -> mass_unit (g_conc_units b) m -> mass_unit cu mu ->
  exists pts, drawn q "Bed Volumes (x1000)" cu = Ok pts /\ forall x n y, In (x, n, y) pts <->
    exists t v, says o t n v /\ x = (g_Fv b * f) * (t * (24 * (60 * 60))) / (PI * (g_Dv b * D / 2) ^ 2 * (g_Lv b * L)) / 1000 /\ y = v * m / mu.
Proof.
  intros p q b S F T Li N HF HD HL N1 N2 N3 M MU. assert (O : gp_out q = o) by (apply session_out; assumption).
  eexists. split; [apply drawn_amounts; [apply (mass_not_c0 _ _ MU)|intros t; apply (C136_beds_partial b f D L); assumption|intros c; apply (C136_concentrations_partial _ _ _ m mu); assumption]|].
  intros x n y. rewrite (in_drawn q (thousand_beds (g_Fv b * f) (g_Dv b * D) (g_Lv b * L)) (fun c => c * m / mu)); rewrite O; [|exact T].
  unfold thousand_beds, day, hour, minute. reflexivity.
Qed.
(** so that a longer bed entered after the run moves the old results *)
Theorem C181_beds_refuted {A} (solve : gboxes -> A -> timed -> res timed) first before (b' : gboxes) s' inf' o m f D L cu mu t n v :
  let p := session solve first before in let b := gp_boxes p in let q := session solve p [GRun; GEdit b' s' inf'] in
  succeeds solve p o -> table_ok o -> g_linear b' = false -> g_FlowrateUnits b' <> "mgd" -> cubic_metres_per_second (g_FlowrateUnits b') f ->
  metres (g_DiameterUnits b') D -> metres (g_LengthUnits b') L -> mass_unit (g_conc_units b') m -> mass_unit cu mu ->
  g_Fv b' = g_Fv b -> g_FlowrateUnits b = g_FlowrateUnits b' -> g_Dv b' = g_Dv b -> g_DiameterUnits b = g_DiameterUnits b' -> g_LengthUnits b = g_LengthUnits b' ->
  g_Fv b <> 0 -> g_Dv b <> 0 -> g_Lv b <> 0 -> g_Lv b' <> 0 -> g_Lv b' <> g_Lv b -> says o t n v -> t <> 0 ->
  exists pts x, drawn q "Bed Volumes (x1000)" cu = Ok pts /\ In (x, n, v * m / mu) pts /\
    x <> (g_Fv b * f) * (t * (24 * (60 * 60))) / (PI * (g_Dv b * D / 2) ^ 2 * (g_Lv b * L)) / 1000.
Proof.
  intros p b q S T Li N HF HD HL M MU E1 E2 E3 E4 E5 N1 N2 N3 N4 NE HS T0.
  destruct (C181_beds_partial solve first before [GEdit b' s' inf'] o m f D L cu mu) as (pts & P1 & P2); cbn zeta; cbn [session fold_left gact gp_boxes]; try assumption; try congruence.
  { split; [discriminate|exact I]. }
  eexists pts, _. split; [exact P1|]. split; [apply P2; exists t, v; repeat split; exact HS|].
  cbn [session fold_left gact gp_boxes]. rewrite E1, E3. fold p. fold b. assert (PD := metres_pos _ _ HD). assert (PL := metres_pos _ _ HL). assert (PP := PI_RGT_0).
  assert (PF : f <> 0) by (destruct HF; unfold foot, gallon, foot, inch, minute, day, hour, minute; lra).
  intros Q. apply NE.
  set (K := (g_Fv b * f) * (t * (24 * (60 * 60))) / (PI * (g_Dv b * D / 2) ^ 2 * L) / 1000).
  assert (KN : K <> 0).
  { assert (DN : g_Dv b * D / 2 <> 0) by (unfold Rdiv; repeat apply Rmult_integral_contrapositive_currified; lra || exact N2).
    unfold K. intros Z. apply (f_equal (fun z => z * 1000 * (PI * (g_Dv b * D / 2) ^ 2 * L))) in Z.
    replace (_ / (PI * (g_Dv b * D / 2) ^ 2 * L) / 1000 * 1000 * (PI * (g_Dv b * D / 2) ^ 2 * L)) with ((g_Fv b * f) * (t * (24 * (60 * 60)))) in Z by (field; repeat split; lra).
    rewrite !Rmult_0_l in Z. apply Rmult_integral in Z. destruct Z as [Z|Z]; apply Rmult_integral in Z; destruct Z as [Z|Z]; lra || contradiction. }
  assert (Q' : K / g_Lv b' = K / g_Lv b).
  { unfold K. transitivity ((g_Fv b * f) * (t * (24 * (60 * 60))) / (PI * (g_Dv b * D / 2) ^ 2 * (g_Lv b' * L)) / 1000); [field; repeat split; lra|]. rewrite Q. field. repeat split; lra. }
  assert (Q2 : / g_Lv b' = / g_Lv b) by (apply (Rmult_eq_reg_l K); assumption).
  rewrite <- (Rinv_inv (g_Lv b')), <- (Rinv_inv (g_Lv b)), Q2. reflexivity.
Qed.
(** c/c0: right as long as the button is not pressed again *)
Lemma by_row_over inf o : map fst (f_cols o) = map fst (f_cols inf) -> map fst (by_row o) = map fst (by_row (over_c0 inf o)).
Proof.
  intros EN. apply by_row_fst; [reflexivity|]. rewrite (over_c0_cols _ _ EN), map_map. cbn [fst]. rewrite <- (map_map fst fst). rewrite map_fst_combine; [reflexivity|].
  unfold first_row. rewrite map_length, <- (map_length fst), EN, map_length. reflexivity.
Qed.
Lemma drawn_relative {A} (p : gpage A) tu d inf : days tu d -> gp_cc0 p = Some (over_c0 inf (gp_out p)) -> map fst (f_cols (gp_out p)) = map fst (f_cols inf) ->
  drawn p tu "c/c0" = Ok (map (fun q => (fst (fst q) / d, snd (fst q), snd q)) (computed_cc0 inf (gp_out p))).
Proof.
  intros D C EN. unfold drawn, concs_drawn. rewrite C. cbn [String.eqb Ascii.eqb Bool.eqb of_option bind].
  rewrite (mapM_all _ (fun q => fst (fst q) / d)) by (intros; apply (plot_days _ _ d), D). cbn [bind]. f_equal. unfold computed_cc0, with_concs.
  assert (L : length (map fst (by_row (gp_out p))) = length (map snd (by_row (over_c0 inf (gp_out p))))) by (rewrite (by_row_over _ _ EN), !map_length; reflexivity).
  rewrite map_length in L. revert L. generalize (by_row (gp_out p)) (map snd (by_row (over_c0 inf (gp_out p)))). intros l ys. revert ys.
  induction l as [|q l IH]; intros [|y ys] L; try discriminate L; [reflexivity|]. cbn [map combine fst snd]. rewrite IH by (cbn in L; lia). reflexivity.
Qed.
Lemma in_relative inf o d (x : R) (n : string) (y : R) : table_ok inf -> f_time inf <> [] -> table_ok o -> map fst (f_cols o) = map fst (f_cols inf) ->
  In (x, n, y) (map (fun q : point => (fst (fst q) / d, snd (fst q), snd q)) (computed_cc0 inf o)) <-> exists t v c, says o t n v /\ starts_at inf n c /\ x = t / d /\ y = v / c.
Proof.
  intros TI NE TO EN. rewrite in_map_iff. split.
  - intros ([[t k] z] & E & I). cbn [fst snd] in E. assert (k = n) by congruence. assert (z = y) by congruence. subst k z.
    apply (C137_computed_partial inf o t n y TI NE TO EN) in I. destruct I as (v & c & H1 & H2 & H3). exists t, v, c. repeat split; congruence || assumption.
  - intros (t & v & c & H1 & H2 & -> & ->). exists (t, n, v / c). split; [reflexivity|]. apply (C137_computed_partial inf o t n (v / c) TI NE TO EN). exists v, c. repeat split; assumption.
Qed.
Theorem C181_relative_partial {A} (solve : gboxes -> A -> timed -> res timed) first before after o tu d :
  let p := session solve first before in let inf := gp_inf p in let q := session solve p (GRun :: after) in
  succeeds solve p o -> Forall is_edit after -> table_ok o -> table_ok inf -> f_time inf <> [] -> map fst (f_cols o) = map fst (f_cols inf) -> days tu d ->
  exists pts, drawn q tu "c/c0" = Ok pts /\ forall x n y, In (x, n, y) pts <-> exists t v c, says o t n v /\ starts_at inf n c /\ x = t / d /\ y = v / c.
Proof.
  intros p inf q S F T TI NE EN D. assert (O : gp_out q = o) by (apply session_out; [exact S|apply edits_fruitless, F]).
  assert (C : gp_cc0 q = Some (over_c0 inf o)).
  { unfold q. cbn [session fold_left]. fold (session solve (gact solve p GRun) after). rewrite (edits_cc0 _ _ F). cbn [gact gp_cc0]. rewrite (button_ok _ _ _ S).
    rewrite <- (map_length fst), EN, map_length. unfold inf. rewrite Nat.eqb_refl. reflexivity. }
  eexists. split; [apply (drawn_relative q tu d inf D); rewrite O; [exact C|exact EN]|]. intros x n y. rewrite O. apply in_relative; assumption.
Qed.
(** a run that is refused or fails divides the old results by the new influents *)
Theorem C181_relative_refuted {A} (solve : gboxes -> A -> timed -> res timed) first before b' s' inf' o tu d t n v c c' :
  let p := session solve first before in let inf := gp_inf p in let r := session solve p [GRun; GEdit b' s' inf'] in let q := session solve r [GRun] in
  succeeds solve p o -> (forall o', ~ succeeds solve r o') -> table_ok o -> table_ok inf' -> map fst (f_cols o) = map fst (f_cols inf') -> days tu d ->
  says o t n v -> starts_at inf n c -> starts_at inf' n c' -> v <> 0 -> c <> 0 -> c' <> 0 -> c' <> c ->
  exists pts, drawn q tu "c/c0" = Ok pts /\ In (t / d, n, v / c') pts /\ v / c' <> v / c.
Proof.
  intros p inf r q S R T TI EN D HS H1 H2 V C0 C1 NE.
  assert (NI : f_time inf' <> []).
  { destruct H2 as (col & I & Q). destruct TI as (_ & TF). rewrite Forall_forall in TF. apply TF in I. cbn [snd] in I. destruct col; [discriminate Q|]. destruct (f_time inf'); [discriminate I|discriminate]. }
  assert (O' : gp_out r = o) by (apply session_out; [exact S|split; [discriminate|exact I]]).
  assert (O : gp_out q = o) by (unfold q; cbn [session fold_left gact gp_out]; rewrite (button_none _ _ R); exact O').
  assert (IR : gp_inf r = inf') by reflexivity.
  assert (C : gp_cc0 q = Some (over_c0 inf' o)).
  { unfold q. change (session solve r [GRun]) with (gact solve r GRun). unfold gact. cbv zeta. cbn [gp_cc0]. rewrite (button_none _ _ R), O', IR.
    rewrite <- (map_length fst), EN, map_length, Nat.eqb_refl. reflexivity. }
  eexists. split; [apply (drawn_relative q tu d inf' D); rewrite O; [exact C|exact EN]|]. split.
  - rewrite O. apply in_relative; try assumption. exists t, v, c'. repeat split; assumption.
  - intros Q. apply NE. assert (Q2 : / c' = / c) by (apply (Rmult_eq_reg_l v); assumption). rewrite <- (Rinv_inv c'), <- (Rinv_inv c), Q2. reflexivity.
Qed.
(** the workbook: the points of the plot, in its units, or nothing *)
Theorem C181_saved_partial {A} (eff : A -> timed) (p : gpage A) tu cu w : save_results eff p true tu cu = Ok w <->
  exists pts, drawn p tu cu = Ok pts /\ w = {| w_specs := columnspecs (gp_boxes p); w_fouling := (g_WFouling (gp_boxes p), g_CFouling (gp_boxes p));
    w_data := saved_data (gp_inf p) (eff (gp_sheets p)); w_results := Some pts |}.
Proof.
  unfold save_results, saved_fouling. destruct (drawn p tu cu) as [pts|e]; cbn [bind]; split.
  - intros E. exists pts. split; [reflexivity|]. congruence.
  - intros (x & E1 & ->). congruence.
  - discriminate.
  - intros (x & E1 & _). discriminate.
Qed.
Theorem C181_unticked_refuted {A} (eff : A -> timed) (p : gpage A) tu cu : exists w, save_results eff p false tu cu = Ok w /\ w_results w = None.
Proof. eexists. split; reflexivity. Qed.
(** results beside inputs they do not come from: a bed entered after the run is saved with the results of
    the run *)
Theorem C181_inputs_refuted {A} (solve : gboxes -> A -> timed -> res timed) (eff : A -> timed) first before b' s' inf' o m tu d cu mu :
  let p := session solve first before in let q := session solve p [GRun; GEdit b' s' inf'] in
  succeeds solve p o -> table_ok o -> g_conc_units b' = g_conc_units (gp_boxes p) -> mass_unit (g_conc_units b') m -> mass_unit cu mu -> days tu d ->
  exists w pts, save_results eff q true tu cu = Ok w /\ lookup "length" (w_specs w) = Some (Num (g_Lv b'), Txt (g_LengthUnits b')) /\
    w_results w = Some pts /\ forall x n y, In (x, n, y) pts <-> exists t v, says o t n v /\ x = t / d /\ y = v * m / mu.
Proof.
  intros p q S T E M MU D.
  destruct (C181_last_run_partial solve first before [GEdit b' s' inf'] o m tu d cu mu) as (pts & P1 & P2); fold p; try assumption.
  { split; [discriminate|exact I]. }
  { rewrite <- E. exact M. }
  fold q in P1. eexists _, pts. split; [apply C181_saved_partial; exists pts; split; [exact P1|reflexivity]|]. split; [reflexivity|]. split; [reflexivity|exact P2].
Qed.

(** A page, a model that returns a small table, a refused bed *)
Definition some_inf : timed := {| f_time := [0; 1]; f_cols := [("A", [4; 4]); ("B", [2; 2])] |}.
Definition some_out : timed := {| f_time := [0; 1]; f_cols := [("A", [0; 2]); ("B", [0; 1])] |}.
Definition heavy (b : gboxes) : gboxes :=
  {| g_linear := g_linear b; g_Vv := g_Vv b; g_VelocityUnits := g_VelocityUnits b; g_Fv := g_Fv b; g_FlowrateUnits := g_FlowrateUnits b; g_Dv := g_Dv b; g_DiameterUnits := g_DiameterUnits b;
     g_Lv := g_Lv b + 1; g_LengthUnits := g_LengthUnits b; g_prv := g_prv b; g_prunits := g_prunits b; g_EPORv := g_EPORv b; g_psdfrv := g_psdfrv b; g_pdv := g_pdv b; g_pdunits := g_pdunits b;
     g_adv := g_adv b; g_adunits := g_adunits b; g_wv := g_wv b; g_wunits := g_wunits b; g_tortuv := g_tortuv b; g_conc_units := "ug"; g_tunits2 := g_tunits2 b;
     g_nr := g_nr b; g_nz := g_nz b; g_WFouling := "Sea"; g_CFouling := g_CFouling b |}.
Definition other_inf : timed := {| f_time := [0; 1]; f_cols := [("A", [8; 8]); ("B", [2; 2])] |}.
Example C181_met : let solve := fun (_ : gboxes) (_ : unit) (_ : timed) => Ok some_out in let p := opened page tt some_inf in
  succeeds solve p some_out /\ table_ok some_out /\ table_ok some_inf /\ table_ok other_inf /\ says some_out 1 "A" 2 /\ starts_at some_inf "A" 4 /\ starts_at other_inf "A" 8 /\
  (forall o', ~ succeeds solve (session solve p [GRun; GEdit (heavy page) tt other_inf]) o') /\
  fruitless solve (gact solve p GRun) [GEdit (heavy page) tt other_inf; GRun] /\ mass_unit (g_conc_units page) (1 / 1000000) /\ mass_unit (g_conc_units (heavy page)) (1 / 1000) /\ g_Lv (heavy page) <> g_Lv page.
Proof.
  intros solve p. assert (R : accepted (heavy page) <> Ok true).
  { unfold accepted, factor_of. cbn -[PI rltb dec ft2cm m2cm]. rewrite andb_false_r. cbn. intros E. discriminate E. }
  split; [split; [exact (proj1 C138_met)|reflexivity]|].
  assert (T : forall a b c d e f, table_ok {| f_time := [a; b]; f_cols := [("A", [c; d]); ("B", [e; f])] |}).
  { intros. split; [cbn; repeat constructor; cbn; intuition discriminate|repeat constructor]. }
  split; [apply T|]. split; [apply T|]. split; [apply T|].
  split; [exists [0; 2], 1%nat; repeat split; left; reflexivity|]. split; [exists [4; 4]; split; [left; reflexivity|reflexivity]|]. split; [exists [8; 8]; split; [left; reflexivity|reflexivity]|].
  split; [intros o' (H & _); apply R, H|]. split; [split; [discriminate|split; [intros _ o' (H & _); apply R, H|exact I]]|].
  split; [constructor|]. split; [constructor|]. cbn. lra.
Qed.

Print Assumptions C181_last_run_partial.
Print Assumptions C181_units_refuted.
Print Assumptions C181_beds_partial.
Print Assumptions C181_beds_refuted.
Print Assumptions C181_relative_partial.
Print Assumptions C181_relative_refuted.
Print Assumptions C181_saved_partial.
Print Assumptions C181_unticked_refuted.
Print Assumptions C181_inputs_refuted.
