(** C134-C142: the granular-carbon web application. *)
From Coq Require Import Reals List Arith Bool String Lra Lia.
From Verif Require Import Lib_Py M_GacFun M_GacShiny M_RIexApp S_RIexApp P_RIexApp M_RGacApp S_RGacApp P_RGacApp.
Import ListNotations.
Open Scope R_scope.
Open Scope string_scope.
Local Notation length := List.length.

(** A page to try things on. *)
Definition page : gboxes :=
  {| g_linear := false; g_Vv := 1; g_VelocityUnits := "cm/s"; g_Fv := 200; g_FlowrateUnits := "gpm"; g_Dv := 10; g_DiameterUnits := "ft";
     g_Lv := 8; g_LengthUnits := "ft"; g_prv := dec 5 1; g_prunits := "mm"; g_EPORv := dec 6 1; g_psdfrv := 5; g_pdv := dec 8 1; g_pdunits := "g/ml";
     g_adv := dec 5 1; g_adunits := "g/ml"; g_wv := 1000; g_wunits := "kg"; g_tortuv := 1; g_conc_units := "ng"; g_tunits2 := "days";
     g_nr := 7; g_nz := 12; g_WFouling := "Rhine"; g_CFouling := "PFAS" |}.
Definition linear_page : gboxes :=
  {| g_linear := true; g_Vv := 10; g_VelocityUnits := "m/h"; g_Fv := 200; g_FlowrateUnits := "gpm"; g_Dv := 10; g_DiameterUnits := "ft";
     g_Lv := 8; g_LengthUnits := "ft"; g_prv := dec 5 1; g_prunits := "mm"; g_EPORv := dec 6 1; g_psdfrv := 5; g_pdv := dec 8 1; g_pdunits := "g/ml";
     g_adv := dec 5 1; g_adunits := "g/ml"; g_wv := 1000; g_wunits := "kg"; g_tortuv := 1; g_conc_units := "ng"; g_tunits2 := "hours";
     g_nr := 7; g_nz := 12; g_WFouling := "Rhine"; g_CFouling := "PFAS" |}.
Example page_converts : exists t, column_data page = Ok t. Proof. eexists. reflexivity. Qed.
Example linear_page_converts : exists t, column_data linear_page = Ok t. Proof. eexists. reflexivity. Qed.

(** * C134: the column handed to the model is the one on the page, in centimetres, grams, grams
    per millilitre and millilitres per minute *)
Theorem C134_column_partial b t : column_data b = Ok t ->
  (exists m, metres (g_prunits b) m /\ lookup "rad" t = Some (100 * (g_prv b * m))) /\
  (exists m, metres (g_LengthUnits b) m /\ lookup "L" t = Some (100 * (g_Lv b * m))) /\
  (exists m, metres (g_DiameterUnits b) m /\ lookup "diam" t = Some (100 * (g_Dv b * m))) /\
  (exists w x, grams (g_wunits b) w /\ lookup "wt" t = Some x /\ (g_wunits b <> "lb" -> x = g_wv b * w) /\
     (0 <= g_wv b -> Rabs (x - g_wv b * w) <= dec 2 6 * (g_wv b * w))) /\
  lookup "rhop" t = Some (g_pdv b) /\ lookup "rhof" t = Some (g_adv b) /\
  lookup "epor" t = Some (g_EPORv b) /\ lookup "psdfr" t = Some (g_psdfrv b) /\ lookup "tortu" t = Some (g_tortuv b).
Proof.
  intros H. destruct (column_data_inv _ _ H) as (fl & r & pd & ad & l & w & d & _ & (H1 & H2 & H3 & H4 & H5 & H6) & ->).
  destruct (length_ok _ _ H1) as (mr & M1 & ->), (length_ok _ _ H4) as (ml & M4 & ->), (length_ok _ _ H6) as (md & M6 & ->).
  destruct (density_ok _ _ H2) as (_ & ->), (density_ok _ _ H3) as (_ & ->), (weight_ok _ _ H5) as (g & G & E & B).
  split; [exists mr; split; [exact M1|cbn; f_equal; ring]|]. split; [exists ml; split; [exact M4|cbn; f_equal; ring]|].
  split; [exists md; split; [exact M6|cbn; f_equal; ring]|]. split.
  - exists g, (g_wv b * w). split; [exact G|]. split; [reflexivity|]. split; [intros N; rewrite E by exact N; reflexivity|].
    intros P. replace (g_wv b * w - g_wv b * g) with (g_wv b * (w - g)) by ring. rewrite Rabs_mult, (Rabs_pos_eq (g_wv b)) by exact P.
    apply (Rmult_le_compat_l (g_wv b)) in B; [lra|exact P].
  - cbn. repeat split; f_equal; ring.
Qed.
(** the flow: of the velocity in the empty bed, or as given *)
Theorem C134_flow_partial b t : column_data b = Ok t ->
  exists x, lookup "flrt" t = Some x /\
  (g_linear b = true -> exists m, metres (g_DiameterUnits b) m /\
     (forall v, metres_per_second (g_VelocityUnits b) v -> x = 60 * 100 ^ 3 * (PI * (g_Dv b * m / 2) ^ 2 * (g_Vv b * v))) /\
     (g_VelocityUnits b = "gpm/ft^2" -> 0 <= g_Vv b -> let y := 60 * 100 ^ 3 * (PI * (g_Dv b * m / 2) ^ 2 * (g_Vv b * gpm_per_ft2)) in
        Rabs (x - y) <= dec 1 11 * y)) /\
  (g_linear b = false -> g_FlowrateUnits b <> "mgd" -> exists f, cubic_metres_per_second (g_FlowrateUnits b) f /\ x = 60 * 100 ^ 3 * (g_Fv b * f)).
Proof.
  intros H. destruct (column_data_inv _ _ H) as (fl & r & pd & ad & l & w & d & F & (_ & _ & _ & _ & _ & H6) & ->).
  destruct (length_ok _ _ H6) as (md & M6 & ->). exists fl. split; [reflexivity|]. unfold flow_ml_min, factor_of in F. rewrite H6 in F. split.
  - intros L. rewrite L in F. exists md. split; [exact M6|]. destruct (lookup (g_VelocityUnits b) velocity_conv) as [v|] eqn:EV; [|discriminate F].
    cbn [bind of_option] in F. assert (Fe : fl = PI / 4 * (g_Dv b * (100 * md)) ^ 2 * g_Vv b * v * min2sec) by congruence. clear F. subst fl. split.
    + intros v' V'. destruct (velocity_ok _ _ EV) as [E|(v2 & V2 & ->)]; [rewrite E in V'; inversion V'|].
      rewrite (velocity_fun _ _ _ V' V2). unfold min2sec. field.
    + intros E P. destruct gpm_ok as (G1 & G2). rewrite E, G1 in EV. assert (E3 : v = gpmpft2cmps) by congruence. subst v. cbn zeta. unfold min2sec.
      set (A := PI * (g_Dv b * md / 2) ^ 2 * g_Vv b * 60 * 100 ^ 2).
      assert (PA : 0 <= A). { unfold A. assert (X := PI_RGT_0). assert (Y := pow2_ge_0 (g_Dv b * md / 2)). apply Rmult_le_pos; [|lra]. apply Rmult_le_pos; [|lra]. apply Rmult_le_pos; [|exact P]. apply Rmult_le_pos; lra. }
      replace (PI / 4 * (g_Dv b * (100 * md)) ^ 2 * g_Vv b * gpmpft2cmps * 60 - 60 * 100 ^ 3 * (PI * (g_Dv b * md / 2) ^ 2 * (g_Vv b * gpm_per_ft2)))
        with (A * (gpmpft2cmps - 100 * gpm_per_ft2)) by (unfold A; field).
      rewrite Rabs_mult, (Rabs_pos_eq A) by exact PA. apply (Rmult_le_compat_l A) in G2; [|exact PA].
      replace (dec 1 11 * (60 * 100 ^ 3 * (PI * (g_Dv b * md / 2) ^ 2 * (g_Vv b * gpm_per_ft2)))) with (A * (dec 1 11 * (100 * gpm_per_ft2))) by (unfold A; field). exact G2.
  - intros L N. rewrite L in F. destruct (lookup (g_FlowrateUnits b) g_volumetric_conv) as [f|] eqn:EF; [|discriminate F]. cbn [bind of_option] in F.
    assert (Fe : fl = g_Fv b * f) by congruence. destruct (g_flow_ok _ _ EF) as [E|(m & M & ->)]; [contradiction|]. exists m. split; [exact M|]. rewrite Fe. ring.
Qed.
(** a flow in million gallons a day goes in 1440 times too large *)
Theorem C134_mgd_refuted b t : column_data b = Ok t -> g_linear b = false -> g_FlowrateUnits b = "mgd" ->
  exists f, cubic_metres_per_second "mgd" f /\ lookup "flrt" t = Some (1440 * (60 * 100 ^ 3 * (g_Fv b * f))).
Proof.
  intros H L E. destruct (column_data_inv _ _ H) as (fl & r & pd & ad & l & w & d & F & _ & ->). eexists. split; [constructor|].
  cbn [lookup String.eqb Ascii.eqb Bool.eqb]. f_equal. unfold flow_ml_min, factor_of in F. rewrite L, E, g_mgd in F. cbn [bind of_option] in F.
  assert (Fe : fl = g_Fv b * (1440 * (60 * 100 ^ 3 * (10 ^ 6 * gallon / day)))) by congruence. rewrite Fe. unfold Rdiv. ring.
Qed.

(** * C135: the multipliers bring the data to micrograms per litre and to minutes *)
Theorem C135_multipliers_partial b t : column_data b = Ok t ->
  (In (g_conc_units b) ["ug"; "ng"; "mg"; "mg/L"] -> exists m, mass_unit (g_conc_units b) m /\ lookup "mass_mul" t = Some (1000 * m)) /\
  (In (g_tunits2 b) ["days"; "hours"; "hrs"; "hr"; "Hours"] -> exists d, days (g_tunits2 b) d /\ lookup "t_mult" t = Some (24 * 60 * d)).
Proof.
  intros H. destruct (column_data_inv _ _ H) as (fl & r & pd & ad & l & w & d & _ & _ & ->). cbn [lookup String.eqb Ascii.eqb Bool.eqb]. split.
  - intros I. cbn [In] in I. repeat destruct I as [<-|I]; try contradiction; eexists; (split; [constructor|]); cbn; f_equal; unfold dec; lra.
  - intros I. cbn [In] in I. repeat destruct I as [<-|I]; try contradiction; eexists; (split; [constructor|]); cbn; f_equal; lra.
Qed.
(** Other names that the plots know (and a sheet may carry) are taken for mg/L and for hours. *)
Theorem C135_other_names_refuted b t : column_data b = Ok t ->
  (In (g_conc_units b) ["ug/L"; "ng/L"] -> exists m, mass_unit (g_conc_units b) m /\ lookup "mass_mul" t <> Some (1000 * m)) /\
  (In (g_tunits2 b) ["day"; "Days"; "month"; "Months"; "year"; "Years"] -> exists d, days (g_tunits2 b) d /\ lookup "t_mult" t <> Some (24 * 60 * d)).
Proof.
  intros H. destruct (column_data_inv _ _ H) as (fl & r & pd & ad & l & w & d & _ & _ & ->). cbn [lookup String.eqb Ascii.eqb Bool.eqb]. split.
  - intros I. cbn [In] in I. repeat destruct I as [<-|I]; try contradiction; eexists; (split; [constructor|]); cbn; intros E;
    match type of E with Some ?x = Some ?y => assert (Q : x = y) by congruence; lra end.
  - intros I. cbn [In] in I. repeat destruct I as [<-|I]; try contradiction; eexists; (split; [constructor|]); cbn; intros E;
    match type of E with Some ?x = Some ?y => assert (Q : x = y) by congruence; lra end.
Qed.

(** * C136: the axes of the plot *)
Theorem C136_concentrations_partial b u c m o : mass_unit (g_conc_units b) m -> mass_unit u o -> g_plot_conc b u c = Ok (c * m / o).
Proof.
  intros M O. unfold g_plot_conc, factor_of. destruct M, O; cbn; f_equal; unfold dec; field.
Qed.
Theorem C136_times_partial b u d k t : days (g_tunits2 b) k -> k = 1 -> days u d -> g_plot_time b u t = Ok (t * k / d).
Proof.
  intros _ -> D. unfold g_plot_time, factor_of. destruct D; cbn; f_equal; unfold hour2day, day2day, month2day, year2day, month2day; field.
Qed.
(** data in another unit are drawn at wrong times *)
Theorem C136_times_refuted b u d k t : days (g_tunits2 b) k -> k <> 1 -> days u d -> t <> 0 -> exists x, g_plot_time b u t = Ok x /\ x <> t * k / d.
Proof.
  intros _ K D T. exists (t * 1 / d). split.
  - unfold g_plot_time, factor_of. destruct D; cbn; f_equal; unfold hour2day, day2day, month2day, year2day, month2day; field.
  - assert (P := days_pos _ _ D). intros E. apply K. apply (Rmult_eq_reg_l t); [|exact T]. apply (Rmult_eq_reg_r (/ d)); [|apply Rinv_neq_0_compat; lra].
    unfold Rdiv in E. rewrite <- E. ring.
Qed.
(** thousands of bed volumes after [t] days at [q] cubic metres a second *)
Definition thousand_beds (q D L t : R) : R := q * (t * day) / (PI * (D / 2) ^ 2 * L) / 1000.
Theorem C136_beds_partial b f D L t : g_linear b = false -> g_FlowrateUnits b <> "mgd" -> cubic_metres_per_second (g_FlowrateUnits b) f ->
  metres (g_DiameterUnits b) D -> metres (g_LengthUnits b) L -> g_Fv b <> 0 -> g_Dv b <> 0 -> g_Lv b <> 0 ->
  g_plot_time b "Bed Volumes (x1000)" t = Ok (thousand_beds (g_Fv b * f) (g_Dv b * D) (g_Lv b * L) t).
Proof.
  intros Li N F HD HL N1 N2 N3. cbn [g_plot_time String.eqb]. unfold g_plot_time. change (String.eqb "Bed Volumes (x1000)" "Bed Volumes (x1000)") with true. cbn [andb].
  unfold g_bv. rewrite Li. unfold factor_of.
  assert (EF : exists k, lookup (g_FlowrateUnits b) g_volumetric_conv = Some k) by (destruct F; eexists; reflexivity). destruct EF as (k & EF).
  assert (ED : exists k, lookup (g_DiameterUnits b) length_conv = Some k) by (destruct HD; eexists; reflexivity). destruct ED as (kd & ED).
  assert (EL : exists k, lookup (g_LengthUnits b) length_conv = Some k) by (destruct HL; eexists; reflexivity). destruct EL as (kl & EL).
  rewrite EF, ED, EL. cbn [bind of_option]. f_equal.
  destruct (g_flow_ok _ _ EF) as [E|(f' & F' & ->)]; [contradiction|]. rewrite <- (flow_fun _ _ _ F F').
  destruct (length_ok _ _ ED) as (D' & HD' & ->). rewrite <- (metres_fun _ _ _ HD HD'). destruct (length_ok _ _ EL) as (L' & HL' & ->). rewrite <- (metres_fun _ _ _ HL HL').
  assert (PD := metres_pos _ _ HD). assert (PL := metres_pos _ _ HL). assert (PP := PI_RGT_0).
  assert (PF : f <> 0) by (destruct F; unfold foot, gallon, foot, inch, minute, day, hour, minute; lra).
  unfold thousand_beds, day, hour, minute, day2sec, hour2sec, min2sec. field. repeat split; lra.
Qed.
(** with a linear velocity the axis shows a sixtieth of the bed volumes *)
Theorem C136_linear_beds_refuted b v D L t : g_linear b = true -> metres_per_second (g_VelocityUnits b) v ->
  metres (g_LengthUnits b) L -> g_Vv b <> 0 -> g_Lv b <> 0 -> D <> 0 ->
  g_plot_time b "Bed Volumes (x1000)" t = Ok (1 / 60 * thousand_beds (PI * (D / 2) ^ 2 * (g_Vv b * v)) D (g_Lv b * L) t).
Proof.
  intros Li V HL N1 N2 N3. unfold g_plot_time. change (String.eqb "Bed Volumes (x1000)" "Bed Volumes (x1000)") with true. cbn [andb].
  unfold g_bv. rewrite Li. unfold factor_of.
  assert (EV : exists k, lookup (g_VelocityUnits b) velocity_conv = Some k) by (destruct V; eexists; reflexivity). destruct EV as (k & EV).
  assert (EL : exists k, lookup (g_LengthUnits b) length_conv = Some k) by (destruct HL; eexists; reflexivity). destruct EL as (kl & EL).
  rewrite EV, EL. cbn [bind of_option]. f_equal.
  destruct (velocity_ok _ _ EV) as [E|(v' & V' & ->)]; [rewrite E in V; inversion V|]. rewrite <- (velocity_fun _ _ _ V V').
  destruct (length_ok _ _ EL) as (L' & HL' & ->). rewrite <- (metres_fun _ _ _ HL HL'). assert (PL := metres_pos _ _ HL). assert (PP := PI_RGT_0).
  assert (PV : v <> 0) by (destruct V; unfold foot, inch, hour, minute; lra).
  unfold thousand_beds, day, hour, minute, day2sec, hour2sec, min2sec. field. repeat split; lra.
Qed.
Example C136_beds_met : exists f D L, cubic_metres_per_second (g_FlowrateUnits page) f /\ metres (g_DiameterUnits page) D /\ metres (g_LengthUnits page) L.
Proof. do 3 eexists. repeat split; constructor. Qed.
Example C136_linear_met : exists v L k, metres_per_second (g_VelocityUnits linear_page) v /\ metres (g_LengthUnits linear_page) L /\ days (g_tunits2 linear_page) k /\ k <> 1.
Proof. do 3 eexists. split; [constructor|]. split; [constructor|]. split; [constructor|]. lra. Qed.

(** * C137: c/c0 is the concentration over the first influent concentration of its compound *)
Lemma first_row_starts inf : table_ok inf -> f_time inf <> [] -> forall n c, starts_at inf n c <-> In (n, c) (combine (map fst (f_cols inf)) (first_row inf)).
Proof.
  intros (_ & HF) NE n c. unfold starts_at, first_row. assert (E : combine (map fst (f_cols inf)) (map (fun p => nth 0 (snd p) 0) (f_cols inf)) = map (fun p => (fst p, nth 0 (snd p) 0)) (f_cols inf)).
  { generalize (f_cols inf). intros l. induction l as [|p l IH]; [reflexivity|]. cbn. rewrite IH. reflexivity. }
  rewrite E, in_map_iff. rewrite Forall_forall in HF. split.
  - intros (col & I & Q). exists (n, col). split; [cbn [fst snd]; rewrite (nth_nth_error _ _ _ _ Q); reflexivity|exact I].
  - intros ((m & col) & Q & I). cbn [fst snd] in Q. assert (m = n) by congruence. assert (E2 : nth 0 col 0 = c) by congruence. subst m. exists col. split; [exact I|].
    rewrite <- E2. apply nth_error_nth'. assert (L := HF _ I). cbn in L. rewrite L. destruct (f_time inf); [contradiction|cbn; lia].
Qed.
Lemma over_c0_cols inf w : map fst (f_cols w) = map fst (f_cols inf) ->
  f_cols (over_c0 inf w) = map (fun p => (fst (fst p), map (fun v => v / snd p) (snd (fst p)))) (combine (f_cols w) (first_row inf)).
Proof.
  unfold over_c0, first_row. cbn [f_cols]. generalize (f_cols w), (f_cols inf). intros l m. revert m. induction l as [|[n c] l IH]; intros [|[n' c'] m] E; try discriminate E; [reflexivity|].
  cbn [map fst snd combine] in *. assert (E1 : n = n') by congruence. assert (E2 : map fst l = map fst m) by congruence. subst n'. f_equal. apply IH, E2.
Qed.
Lemma map_fst_combine {A B} (l : list A) (m : list B) : length l = length m -> map fst (combine l m) = l.
Proof. revert m. induction l as [|x l IH]; intros [|y m] E; try discriminate E; [reflexivity|]. cbn. rewrite IH; [reflexivity|]. cbn in E. lia. Qed.

Theorem C137_computed_partial inf out t n x : table_ok inf -> f_time inf <> [] -> table_ok out -> map fst (f_cols out) = map fst (f_cols inf) ->
  In (t, n, x) (computed_cc0 inf out) <-> exists v c, says out t n v /\ starts_at inf n c /\ x = v / c.
Proof.
  intros TI NE TO EN. unfold computed_cc0.
  assert (LN : length (f_cols out) = length (first_row inf)) by (unfold first_row; rewrite map_length, <- (map_length fst), EN, map_length; reflexivity).
  assert (EF : map fst (f_cols (over_c0 inf out)) = map fst (f_cols out)).
  { rewrite (over_c0_cols _ _ EN), map_map. cbn [fst]. rewrite <- (map_map fst fst). rewrite map_fst_combine by exact LN. reflexivity. }
  rewrite (with_concs_by_row out (over_c0 inf out)) by (first [reflexivity | symmetry; exact EF]).
  assert (TC : table_ok (over_c0 inf out)).
  { destruct TO as (N1 & F1). split; [rewrite EF; exact N1|]. rewrite (over_c0_cols _ _ EN). rewrite Forall_forall in *. intros p I. apply in_map_iff in I.
    destruct I as ((q & c) & <- & I). cbn [fst snd]. rewrite map_length. apply F1. apply in_combine_l in I. exact I. }
  rewrite (in_by_row _ t n x TC). unfold says at 1. rewrite (over_c0_cols _ _ EN). cbn [over_c0 f_time].
  destruct TO as (NO & FO). destruct TI as (NI & FI). split.
  - intros (col & k & I & A & B). apply in_map_iff in I. destruct I as ((q & c) & Q & I). cbn [fst snd] in Q.
    assert (E1 : fst q = n) by congruence. assert (E2 : map (fun v => v / c) (snd q) = col) by congruence. subst col.
    rewrite nth_error_map in B. destruct (nth_error (snd q) k) as [v|] eqn:EV; [|discriminate B]. cbn in B. assert (E3 : v / c = x) by congruence. subst x.
    exists v, c. split; [|split; [|reflexivity]].
    + exists (snd q), k. split; [|tauto]. apply in_combine_l in I. rewrite <- E1, <- surjective_pairing. exact I.
    + apply (first_row_starts inf (conj NI FI) NE). rewrite <- EN. rewrite <- E1.
      apply In_nth_error in I. destruct I as (j & J). apply nth_error_combine in J. destruct J as (J1 & J2).
      apply (nth_error_In _ j). apply nth_error_combine. split; [rewrite nth_error_map, J1; reflexivity|exact J2].
  - intros (v & c & (col & k & I & A & B) & S & ->). apply (first_row_starts inf (conj NI FI) NE) in S. rewrite <- EN in S.
    apply In_nth_error in S. destruct S as (j & J). apply nth_error_combine in J. destruct J as (J1 & J2).
    apply In_nth_error in I. destruct I as (i & I).
    assert (E : i = j).
    { apply (proj1 (NoDup_nth_error (map fst (f_cols out))) NO); [rewrite map_length; apply nth_error_Some; congruence|]. rewrite J1, nth_error_map, I. reflexivity. }
    subst i. exists (map (fun v => v / c) col), k. split; [|split; [exact A|rewrite nth_error_map, B; reflexivity]].
    apply in_map_iff. exists ((n, col), c). split; [reflexivity|]. apply (nth_error_In _ j). apply nth_error_combine. tauto.
Qed.
(** with one compound the measured points are right as well *)
Theorem C137_one_compound_partial inf eff n col icol t m x : f_cols inf = [(n, icol)] -> f_cols eff = [(n, col)] -> length col = length (f_time eff) ->
  length icol = length (f_time inf) -> (1 < length (f_time eff))%nat -> f_time inf <> [] ->
  (In (t, m, x) (effluent_cc0 inf eff) <-> exists v c, says eff t n v /\ starts_at inf n c /\ m = n ++ "_effluent" /\ x = v / c) /\
  (In (t, m, x) (influent_cc0 inf) <-> exists v c, says inf t n v /\ starts_at inf n c /\ m = n ++ "_influent" /\ x = v / c).
Proof.
  intros EI EE LE LI GE NE.
  assert (C0 : forall c, starts_at inf n c <-> nth_error icol 0 = Some c).
  { intros c. unfold starts_at. rewrite EI. split; [intros (cc & [Q|[]] & B); assert (cc = icol) by congruence; subst; exact B|intros B; exists icol; split; [left; reflexivity|exact B]]. }
  assert (G : forall w c mark, f_cols w = [(n, c)] -> length c = length (f_time w) ->
    (In (t, m, x) (with_concs (by_column (renamed mark w)) (map snd (by_row (over_c0 inf w)))) <-> exists v c, says w t n v /\ starts_at inf n c /\ m = n ++ mark /\ x = v / c)).
  { intros w c mark EW LW. unfold by_column, by_row, with_concs, renamed, over_c0, first_row. rewrite EW, EI. cbn [f_time f_cols map fst snd combine flat_map app].
    rewrite app_nil_r.
    assert (E1 : map snd (flat_map (fun k => [(nth k (f_time w) 0, n, nth k (map (fun v => v / nth 0 icol 0) c) 0)]) (seq 0 (length (f_time w)))) = map (fun v => v / nth 0 icol 0) c).
    { rewrite <- LW. clear. set (h := fun k : nat => _). replace (flat_map h (seq 0 (length c))) with (map (fun k => (nth k (f_time w) 0, n, nth k (map (fun v => v / nth 0 icol 0) c) 0)) (seq 0 (length c))).
      - rewrite map_map. cbn [snd]. apply (nth_ext _ _ 0 0); [rewrite !map_length, seq_length; reflexivity|]. rewrite map_length, seq_length. intros k Hk.
        rewrite (nth_indep _ 0 ((fun j => nth j (map (fun v => v / nth 0 icol 0) c) 0) (length c))) by (rewrite map_length, seq_length; exact Hk).
        rewrite (map_nth (fun j => nth j (map (fun v => v / nth 0 icol 0) c) 0)), seq_nth by exact Hk. reflexivity.
      - generalize (seq 0 (length c)). intros l. induction l as [|k l IH]; [reflexivity|]. cbn. rewrite IH. reflexivity. }
    assert (E2 : map fst (map (fun q : R * R => (fst q, n ++ mark, snd q)) (combine (f_time w) c)) = map (fun a => (a, n ++ mark)) (f_time w)).
    { rewrite map_map. cbn [fst]. rewrite <- (map_map fst (fun a => (a, n ++ mark))). rewrite map_fst_combine by (symmetry; exact LW). reflexivity. }
    assert (H : In (t, m, x) (combine (map (fun a => (a, n ++ mark)) (f_time w)) (map (fun v => v / nth 0 icol 0) c)) <->
       exists v c, says w t n v /\ starts_at inf n c /\ m = n ++ mark /\ x = v / c).
    { assert (S0 : nth_error icol 0 = Some (nth 0 icol 0)) by (apply nth_error_nth'; rewrite LI; destruct (f_time inf); [contradiction|cbn; lia]).
      unfold says. rewrite EW. split.
      - intros I. apply In_nth_error in I. destruct I as (k & I). apply nth_error_combine in I. rewrite !nth_error_map in I. destruct I as (I1 & I2).
        destruct (nth_error (f_time w) k) as [t'|] eqn:ET; [|discriminate I1]. destruct (nth_error c k) as [v|] eqn:EV; [|discriminate I2]. cbn in I1, I2.
        exists v, (nth 0 icol 0). split; [exists c, k; split; [left; reflexivity|split; [rewrite ET; congruence|exact EV]]|]. split; [apply C0, S0|]. split; congruence.
      - intros (v & c0 & (cc & k & [Q|[]] & A & B) & S & -> & ->). assert (cc = c) by congruence. subst cc. apply C0 in S. assert (c0 = nth 0 icol 0) by congruence. subst c0.
        apply (nth_error_In _ k). apply nth_error_combine. rewrite !nth_error_map, A, B. split; reflexivity. }
    rewrite <- H. rewrite E1. rewrite E2. tauto. }
  split.
  - unfold effluent_cc0, effluent_data_processor. rewrite (proj2 (Nat.ltb_lt _ _) GE). apply (G eff col); assumption.
  - unfold influent_cc0, influent_points. apply (G inf icol); assumption.
Qed.
(** Columns are matched by position: results in another order get the other compound's c0. *)
Theorem C137_order_refuted a b t x y ca cb : a <> b ->
  let inf := {| f_time := [0]; f_cols := [(a, [ca]); (b, [cb])] |} in let out := {| f_time := [t]; f_cols := [(b, [y]); (a, [x])] |} in
  computed_cc0 inf out = [((t, b), y / ca); ((t, a), x / cb)].
Proof. reflexivity. Qed.
(** Measured points of two compounds: names and times go down the columns, values along the
    rows. *)
Theorem C137_measured_refuted a b s t x1 x2 y1 y2 ca cb :
  let inf := {| f_time := [0]; f_cols := [(a, [ca]); (b, [cb])] |} in let eff := {| f_time := [s; t]; f_cols := [(a, [x1; x2]); (b, [y1; y2])] |} in
  effluent_cc0 inf eff = [((s, a ++ "_effluent"), x1 / ca); ((t, a ++ "_effluent"), y1 / cb); ((s, b ++ "_effluent"), x2 / ca); ((t, b ++ "_effluent"), y2 / cb)].
Proof. reflexivity. Qed.
Example C137_met : let inf := {| f_time := [0; 9]; f_cols := [("A", [4; 4]); ("B", [2; 3])] |} in let out := {| f_time := [0; 1]; f_cols := [("A", [0; 1]); ("B", [0; 1])] |} in
  table_ok inf /\ table_ok out /\ map fst (f_cols out) = map fst (f_cols inf) /\ In (1, "B", 1 / 2) (computed_cc0 inf out).
Proof.
  cbn zeta. assert (N : NoDup ["A"; "B"]) by (repeat constructor; cbn; intuition discriminate).
  split; [split; [exact N|repeat constructor]|]. split; [split; [exact N|repeat constructor]|]. split; [reflexivity|]. cbn. auto.
Qed.

(** * C138: a run that passes the check *)
Theorem C138_fouling_known_partial b : accepted b = Ok true -> forall compound, exists rk, get_fouling_params (g_WFouling b) (g_CFouling b) compound = Ok rk.
Proof.
  intros H compound. unfold accepted, factor_of in H.
  destruct (lookup (g_wunits b) weight_conv); [|discriminate H]. destruct (lookup (g_DiameterUnits b) length_conv); [|discriminate H].
  destruct (lookup (g_LengthUnits b) length_conv); [|discriminate H]. destruct (lookup (g_adunits b) density_conv); [|discriminate H]. cbn [bind of_option] in H.
  match type of H with Ok ?c = Ok true => assert (H' : c = true) by congruence end. clear H. apply andb_true_iff in H'. destruct H' as (H & HC). apply andb_true_iff in H. destruct H as (_ & HW).
  assert (W : exists a, lookup (g_WFouling b) foul_water = Some a).
  { clear HC. unfold mem_str, wfoulingvector in HW. cbn [existsb] in HW. repeat (apply orb_true_iff in HW; destruct HW as [HW|HW]); try discriminate HW; apply String.eqb_eq in HW; rewrite HW; eexists; reflexivity. }
  assert (C : exists a, foul_b (g_CFouling b) compound = Ok a).
  { clear HW. unfold mem_str, cfoulingvector in HC. cbn [existsb] in HC. unfold foul_b.
    repeat (apply orb_true_iff in HC; destruct HC as [HC|HC]); try discriminate HC; apply String.eqb_eq in HC; rewrite HC; cbn [String.eqb Ascii.eqb Bool.eqb];
    try (eexists; reflexivity). destruct (lookup compound foul_pfas); eexists; reflexivity. }
  destruct W as (a & W), C as (c & C). unfold get_fouling_params. rewrite W. cbn [of_option bind]. rewrite C. eexists. reflexivity.
Qed.
(** the bed has a porosity between 0 and 1 if grains are denser than the packed bed *)
Theorem C138_porosity_partial b t : accepted b = Ok true -> column_data b = Ok t -> 0 < g_adv b < g_pdv b -> 0 < g_wv b -> 0 < g_Dv b -> 0 < g_Lv b ->
  exists e, bed_porosity t = Ok e /\ 0 < e < 1.
Proof.
  intros H HC (P1 & P2) PW PD PL. destruct (column_data_inv _ _ HC) as (fl & r & pd & ad & l & w & d & _ & (_ & H2 & H3 & H4 & H5 & H6) & ->).
  unfold accepted, factor_of in H. rewrite H5, H6, H4, H3 in H. cbn [bind of_option] in H.
  match type of H with Ok ?c = Ok true => assert (H' : c = true) by congruence end. clear H. apply andb_true_iff in H'. destruct H' as (H & _). apply andb_true_iff in H. destruct H as (H & _).
  apply negb_true_iff in H. unfold rltb in H. match type of H with (if Rlt_dec ?a ?b then _ else _) = _ => destruct (Rlt_dec a b) as [?|N]; [discriminate H|] end.
  destruct (density_ok _ _ H2) as (_ & ->), (density_ok _ _ H3) as (_ & ->). rewrite !Rmult_1_r in *.
  destruct (length_ok _ _ H4) as (ml & M4 & ->), (length_ok _ _ H6) as (md & M6 & ->). apply metres_pos in M4, M6.
  assert (PWw : 0 < g_wv b * w). { apply Rmult_lt_0_compat; [exact PW|]. exact (weight_pos _ _ H5). }
  eexists. split; [reflexivity|]. set (W := g_wv b * w) in *. set (dm := g_Dv b * (100 * md)) in *. set (le := g_Lv b * (100 * ml)) in *.
  assert (Pdm : 0 < dm) by (unfold dm; apply Rmult_lt_0_compat; lra). assert (Ple : 0 < le) by (unfold le; apply Rmult_lt_0_compat; lra).
  assert (PV : 0 < PI * (dm / 2) ^ 2 * le). { apply Rmult_lt_0_compat; [|exact Ple]. apply Rmult_lt_0_compat; [apply PI_RGT_0|apply pow_lt; lra]. }
  replace (PI * dm ^ 2 / 4 * le * g_pdv b) with (PI * (dm / 2) ^ 2 * le * g_pdv b) by field. set (V := PI * (dm / 2) ^ 2 * le) in *.
  assert (Q : W / V <= g_adv b) by lra. assert (PQ : 0 < W / V) by (apply Rdiv_lt_0_compat; assumption).
  replace (W / (V * g_pdv b)) with (W / V / g_pdv b) by (field; lra).
  assert (X : 0 < W / V / g_pdv b) by (apply Rdiv_lt_0_compat; lra).
  assert (Y : W / V / g_pdv b < 1). { apply (Rmult_lt_reg_r (g_pdv b)); [lra|]. unfold Rdiv at 1. rewrite Rmult_assoc, Rinv_l, Rmult_1_r by lra. lra. }
  lra.
Qed.
Lemma div_le x y c : 0 < y -> x <= c * y -> x / y <= c.
Proof. intros P H. apply (Rmult_le_reg_r y); [exact P|]. unfold Rdiv. rewrite Rmult_assoc, Rinv_l, Rmult_1_r by lra. exact H. Qed.
Lemma le_div x y c : 0 < y -> c * y <= x -> c <= x / y.
Proof. intros P H. apply (Rmult_le_reg_r y); [exact P|]. unfold Rdiv. rewrite Rmult_assoc, Rinv_l, Rmult_1_r by lra. exact H. Qed.
(** the density of the grains is not looked at: a heavier bed than its grains is let through,
    with a negative porosity *)
Definition dense_page : gboxes :=
  {| g_linear := false; g_Vv := 1; g_VelocityUnits := "cm/s"; g_Fv := 200; g_FlowrateUnits := "gpm"; g_Dv := 2; g_DiameterUnits := "cm";
     g_Lv := 1; g_LengthUnits := "cm"; g_prv := dec 5 1; g_prunits := "mm"; g_EPORv := dec 6 1; g_psdfrv := 5; g_pdv := dec 1 1; g_pdunits := "g/ml";
     g_adv := 1; g_adunits := "g/ml"; g_wv := 1; g_wunits := "g"; g_tortuv := 1; g_conc_units := "ng"; g_tunits2 := "days";
     g_nr := 7; g_nz := 12; g_WFouling := "Rhine"; g_CFouling := "PFAS" |}.
Theorem C138_porosity_refuted : exists b t e, accepted b = Ok true /\ column_data b = Ok t /\ 0 < g_adv b /\ 0 < g_pdv b /\ 0 < g_wv b /\ 0 < g_Dv b /\ 0 < g_Lv b /\
  bed_porosity t = Ok e /\ e < 0.
Proof.
  exists dense_page. do 2 eexists. split; [|split; [reflexivity|]].
  - unfold accepted, dense_page. cbn [g_wunits g_DiameterUnits g_LengthUnits g_adunits factor_of lookup weight_conv length_conv density_conv String.eqb Ascii.eqb Bool.eqb bind of_option g_wv g_Dv g_Lv g_adv g_WFouling g_CFouling].
    cbn. unfold rltb. match goal with |- context [Rlt_dec ?x ?y] => destruct (Rlt_dec x y) as [Q|Q]; [exfalso|reflexivity] end.
    assert (G : 3 < PI) by (assert (X := PI2_3_2); unfold PI2 in X; lra). unfold cm2cm in Q.
    match type of Q with _ < ?x / ?y => assert (B : x / y <= 1 / 3) end.
    { apply div_le; simpl; lra. }
    lra.
  - cbn [dense_page g_adv g_pdv g_wv g_Dv g_Lv]. unfold dec. do 5 (split; [lra|]). split; [cbn; reflexivity|]. unfold cm2cm.
    assert (P : PI <= 4) by apply PI_4. assert (P0 := PI_RGT_0). unfold dec.
    match goal with |- 1 - ?x / ?y < 0 => assert (B : 2 <= x / y) end; [|lra].
    apply le_div; simpl; lra.
Qed.
Example C138_met : accepted page = Ok true /\ 0 < g_adv page < g_pdv page.
Proof.
  split; [|cbn; unfold dec; lra]. unfold accepted, page. cbn. unfold rltb. match goal with |- context [Rlt_dec ?x ?y] => destruct (Rlt_dec x y) as [Q|Q]; [exfalso|reflexivity] end.
  assert (G : 3 < PI) by (assert (X := PI2_3_2); unfold PI2 in X; lra). unfold ft2cm, in2cm, dec in Q.
  match type of Q with _ < ?x / ?y => assert (B : x / y <= 1 / 10) end; [|simpl in *; lra].
  apply div_le; simpl; lra.
Qed.

(** * C139: the collocation points chosen on the page are used *)
Theorem C139_points_refuted b : points_used b = (g_nr b, g_nz b) <-> g_nr b = 7%nat /\ g_nz b = 12%nat.
Proof. unfold points_used. split; [intros E; split; congruence|intros (-> & ->); reflexivity]. Qed.

(** * C140: a saved workbook read again gives the same inputs *)
Theorem C140_specs_partial b d : g_linear b = false -> g_pdunits b = "g/ml" -> g_adunits b = "g/ml" ->
  let b' := reload (columnspecs b) (Some (saved_fouling b)) d in
  column_data b' = column_data b /\ accepted b' = accepted b /\ g_WFouling b' = g_WFouling b /\ g_CFouling b' = g_CFouling b /\ g_conc_units b' = g_conc_units b /\ g_tunits2 b' = g_tunits2 b.
Proof.
  intros L E1 E2. cbn zeta. unfold column_data, flow_ml_min, accepted. rewrite L, E1, E2. cbn -[column_data accepted length_conv density_conv weight_conv g_volumetric_conv velocity_conv factor_of dec wfoulingvector cfoulingvector rltb pow].
  repeat split; reflexivity.
Qed.
(** The collocation points are not saved: the page is back at 7 and 12. *)
Theorem C140_points_refuted b d : let b' := reload (columnspecs b) (Some (saved_fouling b)) d in
  g_nr b' = 7%nat /\ g_nz b' = 12%nat.
Proof. split; reflexivity. Qed.
(** A linear velocity is not saved: the flow of the other box takes its place. *)
Theorem C140_linear_refuted d : exists b t t', g_linear b = true /\ column_data b = Ok t /\
  column_data (reload (columnspecs b) (Some (saved_fouling b)) d) = Ok t' /\ lookup "flrt" t <> lookup "flrt" t'.
Proof.
  exists linear_page. do 2 eexists. split; [reflexivity|]. split; [reflexivity|]. split; [reflexivity|].
  cbn. intros E. match type of E with Some ?x = Some ?y => assert (Q : x = y) by congruence end. clear E.
  assert (G : 3 < PI) by (assert (X := PI2_3_2); unfold PI2 in X; lra). unfold ft2cm, in2cm, mph2cmps, m2cm, hour2sec, min2sec, gal2ml, dec in Q. simpl in Q. lra.
Qed.
(** The tables of measurements. *)
Theorem C140_data_partial inf eff : table_ok inf -> NoDup (f_time inf) -> f_time inf <> [] -> f_cols inf <> [] ->
  table_ok eff -> NoDup (f_time eff) -> f_time eff <> [] -> f_cols eff <> [] ->
  read_data "influent" (saved_data inf eff) = Some (f_time inf, map (fun p => (fst p, map Some (snd p))) (f_cols inf)) /\
  read_data "effluent" (saved_data inf eff) = Some (f_time eff, map (fun p => (fst p, map Some (snd p))) (f_cols eff)).
Proof.
  intros I1 I2 I3 I4 E1 E2 E3 E4. unfold read_data, saved_data.
  assert (S : forall s pts, map snd (filter (fun r : row => String.eqb (fst r) s) (map (pair s) pts)) = pts).
  { intros s pts. induction pts as [|p pts IH]; [reflexivity|]. cbn [map filter fst]. rewrite String.eqb_refl. cbn [map snd]. rewrite IH. reflexivity. }
  assert (D : forall s s' pts, s' <> s -> filter (fun r : row => String.eqb (fst r) s) (map (pair s') pts) = []).
  { intros s s' pts N. induction pts as [|p pts IH]; [reflexivity|]. cbn [map filter fst]. rewrite (proj2 (String.eqb_neq s' s) N). exact IH. }
  rewrite !filter_app, !map_app, !S, (D "influent" "effluent"), (D "effluent" "influent") by discriminate. cbn [map app]. rewrite app_nil_r.
  split; apply pivot_back; assumption.
Qed.
(** two rows of the same time are refused *)
Theorem C140_repeated_time_refuted t n a b eff : read_data "influent" (saved_data {| f_time := [t; t]; f_cols := [(n, [a; b])] |} eff) = None.
Proof.
  unfold read_data, saved_data. rewrite filter_app, map_app.
  assert (D : forall s s' pts, s' <> s -> filter (fun r : row => String.eqb (fst r) s) (map (pair s') pts) = []).
  { intros s s' pts N. induction pts as [|p pts IH]; [reflexivity|]. cbn [map filter fst]. rewrite (proj2 (String.eqb_neq s' s) N). exact IH. }
  rewrite (D "influent" "effluent") by discriminate. cbn [by_row f_time f_cols length seq flat_map map app filter fst snd nth String.eqb Ascii.eqb Bool.eqb]. unfold pivot_wider, uniq. cbn [map fst snd fold_left existsb app]. rewrite reqb_refl, String.eqb_refl. cbn [orb].
  unfold point_at. cbn [forallb filter fst snd]. rewrite reqb_refl, String.eqb_refl. cbn. reflexivity.
Qed.
Example C140_met : let w := {| f_time := [0; 1]; f_cols := [("A", [4; 5]); ("B", [2; 3])] |} in table_ok w /\ NoDup (f_time w) /\ f_time w <> [] /\ f_cols w <> [] /\ g_linear page = false /\ g_pdunits page = "g/ml" /\ g_adunits page = "g/ml".
Proof.
  cbn zeta. split; [split; [repeat constructor; cbn; intuition discriminate|repeat constructor]|].
  split; [repeat constructor; cbn; intros H; [destruct H as [H|[]]; lra|exact H]|]. repeat split; discriminate.
Qed.

(** * C141: "Use Data" replaces the isotherm parameters by fitted ones *)
Theorem C141_fitted_partial k c x rest : k = (c, x :: rest) :: tl k -> x <> 0 -> use_data (M_RGacApp.Fitted k) = (k, true).
Proof. intros -> N. unfold use_data. cbn [kdata_fit]. rewrite reqb_neq by exact N. reflexivity. Qed.
(** Pressed without a fit, or after a fit that failed, it overwrites them all the same. *)
Theorem C141_no_fit_refuted :
  use_data NotFitted = ([("Chemical", [0; 0; 0; 0; 0])], false) /\
  (forall inner, exists x, use_data (M_RGacApp.FitFailed inner) = ([("0", [x; x; x; x; x])], true)).
Proof.
  split; [unfold use_data; cbn [kdata_fit]; rewrite reqb_refl; reflexivity|].
  intros inner. unfold use_data. cbn [kdata_fit]. destruct inner; cbn zeta; rewrite reqb_neq by lra; eexists; reflexivity.
Qed.
Example C141_met : exists (k : ktable) c x rest, k = (c, x :: rest) :: tl k /\ x <> 0.
Proof. exists [("PFOA", [100; dec 45 2; 1; 1; 1])], "PFOA", 100, [dec 45 2; 1; 1; 1]. split; [reflexivity|lra]. Qed.

(** * C142: every measurement is drawn, once, under its compound's name *)
Lemma renamed_says w mark t m v : says (renamed mark w) t m v <-> exists n, m = n ++ mark /\ says w t n v.
Proof.
  unfold says, renamed. cbn [f_time f_cols]. split.
  - intros (col & k & I & A & B). apply in_map_iff in I. destruct I as ((n & c) & Q & I). cbn [fst snd] in Q. exists n. split; [congruence|]. exists c, k.
    split; [exact I|]. split; [exact A|]. replace c with col by congruence. exact B.
  - intros (n & -> & col & k & I & A & B). exists col, k. split; [apply in_map_iff; exists (n, col); split; [reflexivity|exact I]|tauto].
Qed.
Lemma by_column_length w : Forall (fun p => length (snd p) = length (f_time w)) (f_cols w) -> length (by_column w) = (length (f_cols w) * length (f_time w))%nat.
Proof.
  unfold by_column. generalize (f_cols w). intros l H. induction l as [|p l IH]; [reflexivity|]. inversion H as [|a b H1 H2]; subst.
  cbn [flat_map length]. rewrite app_length. cbn [Nat.mul]. f_equal; [rewrite map_length, combine_length, H1; lia|exact (IH H2)].
Qed.
Theorem C142_measurements_partial w : table_ok w ->
  ((1 < length (f_time w))%nat -> (forall t m v, In (t, m, v) (effluent_data_processor w) <-> exists n, m = n ++ "_effluent" /\ says w t n v) /\
     length (effluent_data_processor w) = (length (f_cols w) * length (f_time w))%nat) /\
  (forall t m v, In (t, m, v) (influent_points w) <-> exists n, m = n ++ "_influent" /\ says w t n v) /\
  length (influent_points w) = (length (f_cols w) * length (f_time w))%nat.
Proof.
  intros (_ & HF).
  assert (L : forall mark, length (by_column (renamed mark w)) = (length (f_cols w) * length (f_time w))%nat).
  { intros mark. rewrite by_column_length; [unfold renamed; cbn [f_cols f_time]; rewrite map_length; reflexivity|]. unfold renamed. cbn [f_cols f_time].
    rewrite Forall_forall in *. intros p I. apply in_map_iff in I. destruct I as (q & <- & I). exact (HF _ I). }
  unfold effluent_data_processor, influent_points. split; [|split; [intros t m v; rewrite in_by_column; apply renamed_says|apply L]].
  intros G. rewrite (proj2 (Nat.ltb_lt _ _) G). split; [intros t m v; rewrite in_by_column; apply renamed_says|apply L].
Qed.
(** A single row of effluents is not drawn. *)
Theorem C142_single_row_refuted t n v : let w := {| f_time := [t]; f_cols := [(n, [v])] |} in table_ok w /\ says w t n v /\ effluent_data_processor w = [].
Proof.
  cbn zeta. split; [split; [repeat constructor; intros []|repeat constructor]|]. split; [|reflexivity]. exists [v], 0%nat. repeat split. left. reflexivity.
Qed.

Print Assumptions C134_column_partial.
Print Assumptions C134_flow_partial.
Print Assumptions C134_mgd_refuted.
Print Assumptions C135_multipliers_partial.
Print Assumptions C135_other_names_refuted.
Print Assumptions C136_concentrations_partial.
Print Assumptions C136_times_partial.
Print Assumptions C136_times_refuted.
Print Assumptions C136_beds_partial.
Print Assumptions C136_linear_beds_refuted.
Print Assumptions C137_computed_partial.
Print Assumptions C137_one_compound_partial.
Print Assumptions C137_order_refuted.
Print Assumptions C137_measured_refuted.
Print Assumptions C138_fouling_known_partial.
Print Assumptions C138_porosity_partial.
Print Assumptions C138_porosity_refuted.
Print Assumptions C139_points_refuted.
Print Assumptions C140_specs_partial.
Print Assumptions C140_points_refuted.
Print Assumptions C140_linear_refuted.
Print Assumptions C140_data_partial.
Print Assumptions C140_repeated_time_refuted.
Print Assumptions C141_fitted_partial.
Print Assumptions C141_no_fit_refuted.
Print Assumptions C142_measurements_partial.
Print Assumptions C142_single_row_refuted.
