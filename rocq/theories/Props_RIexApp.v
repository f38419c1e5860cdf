(** Properties C125-C133: what the ion-exchange web application does around its solver.
    Units, equivalents and milligrams are specified in S_RIexApp. *)
From Coq Require Import Reals List Arith Bool String Lra Lia.
From Verif Require Import Lib_Py Lib_Pow M_GacFun M_IxColumn M_IxUnc M_RIexApp S_RIexApp P_IxData P_IxUnc P_LeadLag P_RIexApp.
Import ListNotations.
Open Scope R_scope.
Open Scope string_scope.
Local Notation length := List.length.

(** ** C126 — the solver gets the entered quantities, in centimetres and seconds *)
Lemma prep_inv b ions cins s : model_prep b ions cins = Ok (Solve s) ->
  exists v l r cin cs t, velocity b = Ok v /\ lookup (LengthUnits b) length_conv = Some l /\ lookup (rbunits b) length_conv = Some r /\
  mismatches ions cins = 0%nat /\ cin_correct ions cins = Ok cin /\ mapM (corr_ion (psdm b)) ions = Ok cs /\ lookup (timeunits2 b) time_conv = Some t /\
  s = {| s_column := {| NION := length cs; nr := nrv b; nz := nzv b; EBED := EBEDv b; EPOR := EPORv b; Lbed := Lv b * l; vel := v;
                        rb := rbv b * r; Qcap := Qv b; kL := nth_ion i_kL 0 cs; Ds := nth_ion i_Ds 0 cs; Dp := nth_ion i_Dp 0 cs;
                        Kxc := nth_ion i_KxA 0 cs; val := nth_ion i_valence 0%nat cs |};
         s_names := map i_name cs; s_cin := cin; s_time := t |}.
Proof.
  unfold model_prep, factor_of. intros H. destruct (velocity b) as [v|]; [|discriminate]. cbn [bind] in H.
  destruct (lookup (LengthUnits b) length_conv) as [l|] eqn:El; [|discriminate]. cbn [bind of_option] in H.
  destruct (lookup (rbunits b) length_conv) as [r|] eqn:Er; [|discriminate]. cbn [bind of_option] in H.
  destruct (mismatches ions cins) eqn:Em; [|discriminate].
  destruct (cin_correct ions cins) as [cin|] eqn:Ec; [|discriminate]. cbn [bind] in H.
  destruct (mapM (corr_ion (psdm b)) ions) as [cs|] eqn:Es; [|discriminate]. cbn [bind] in H.
  destruct (lookup (timeunits2 b) time_conv) as [t|] eqn:Et; [|discriminate]. cbn [bind of_option] in H.
  exists v, l, r, cin, cs, t. repeat (split; [first [reflexivity|assumption]|]).
  match type of H with Ok (Solve ?a) = Ok (Solve ?c) => assert (E : a = c) by congruence end. symmetry. exact E.
Qed.

Theorem C126_bed_and_beads : forall b ions cins s, model_prep b ions cins = Ok (Solve s) ->
  let c := s_column s in
  (exists m, metres (LengthUnits b) m /\ Lbed c = 100 * (Lv b * m)) /\
  (exists m, metres (rbunits b) m /\ rb c = 100 * (rbv b * m)) /\
  seconds (timeunits2 b) (s_time s) /\
  EBED c = EBEDv b /\ EPOR c = EPORv b /\ Qcap c = Qv b /\ nr c = nrv b /\ nz c = nzv b /\ NION c = length ions.
Proof.
  intros b ions cins s H c. destruct (prep_inv _ _ _ _ H) as (v & l & r & cin & cs & t & Hv & Hl & Hr & Hm & Hc & Hs & Ht & ->).
  subst c. cbn. destruct (length_ok _ _ Hl) as (ml & U1 & ->). destruct (length_ok _ _ Hr) as (mr & U2 & ->).
  split; [exists ml; split; [exact U1|ring]|]. split; [exists mr; split; [exact U2|ring]|].
  split; [apply time_ok, Ht|]. repeat (split; [reflexivity|]). eapply mapM_length, Hs.
Qed.

Theorem C126_velocity : forall b ions cins s, model_prep b ions cins = Ok (Solve s) ->
  let v := vel (s_column s) in
  (linear b = true -> VelocityUnits b <> "gpm/ft^2" -> exists m, metres_per_second (VelocityUnits b) m /\ v = 100 * (Vv b * m)) /\
  (linear b = true -> VelocityUnits b = "gpm/ft^2" -> 0 <= Vv b -> Rabs (v - 100 * (Vv b * gpm_per_ft2)) <= dec 1 11 * (100 * (Vv b * gpm_per_ft2))) /\
  (linear b = false -> 0 < Dv b -> exists f d, cubic_metres_per_second (FlowrateUnits b) f /\ metres (DiameterUnits b) d /\
     (* flow over the area of the circle *)
     v = 100 * ((Fv b * f) / (PI * (Dv b * d / 2) ^ 2))).
Proof.
  intros b ions cins s H v0. destruct (prep_inv _ _ _ _ H) as (v & l & r & cin & cs & t & Hv & _ & _ & _ & _ & _ & _ & ->).
  subst v0. cbn [s_column vel]. unfold velocity in Hv. repeat split.
  - intros L N. rewrite L in Hv. destruct (lookup (VelocityUnits b) velocity_conv) as [k|] eqn:E; [|discriminate].
    cbn in Hv. assert (Ev : Vv b * k = v) by congruence. destruct (velocity_ok _ _ E) as [C|(m & U & ->)]; [contradiction|].
    exists m. split; [exact U|]. rewrite <- Ev. ring.
  - intros L N P. rewrite L, N in Hv. rewrite (proj1 gpm_ok) in Hv. cbn [of_option bind] in Hv. assert (Ev : Vv b * gpmpft2cmps = v) by congruence.
    rewrite <- Ev. replace (Vv b * gpmpft2cmps - 100 * (Vv b * gpm_per_ft2)) with (Vv b * (gpmpft2cmps - 100 * gpm_per_ft2)) by ring.
    rewrite Rabs_mult, (Rabs_pos_eq (Vv b)) by exact P. assert (B := proj2 gpm_ok).
    apply (Rmult_le_compat_l (Vv b)) in B; [|exact P]. lra.
  - intros L P. rewrite L in Hv. destruct (lookup (FlowrateUnits b) volumetric_conv) as [f|] eqn:Ef; [|discriminate].
    destruct (lookup (DiameterUnits b) length_conv) as [d|] eqn:Ed; [|discriminate]. cbn [of_option bind] in Hv.
    destruct (flow_ok _ _ Ef) as (mf & U1 & ->). destruct (length_ok _ _ Ed) as (md & U2 & ->).
    assert (Ev : Fv b * (100 ^ 3 * mf) / (PI / 4 * (Dv b * (100 * md)) ^ 2) = v) by congruence.
    exists mf, md. split; [exact U1|]. split; [exact U2|]. rewrite <- Ev.
    assert (Hd : md <> 0) by (destruct U2; unfold foot, inch; lra). field. split; [exact Hd|]. split; [lra|]. apply PI_neq0.
Qed.

Theorem C126_ions : forall b ions cins s, model_prep b ions cins = Ok (Solve s) ->
  let c := s_column s in
  forall k i, nth_error ions k = Some i ->
  (exists m, metres_per_second (i_kL_units i) m /\ kL c k = 100 * (i_kL i * m)) /\
  (exists m, square_metres_per_second (i_Ds_units i) m /\ Ds c k = 100 ^ 2 * (i_Ds i * m)) /\
  (psdm b = true -> exists m, square_metres_per_second (i_Dp_units i) m /\ Dp c k = 100 ^ 2 * (i_Dp i * m)) /\
  Kxc c k = i_KxA i /\ val c k = i_valence i /\ nth_error (s_names s) k = Some (i_name i).
Proof.
  intros b ions cins s H c k i Hk. destruct (prep_inv _ _ _ _ H) as (v & l & r & cin & cs & t & _ & _ & _ & _ & _ & Hs & _ & ->).
  subst c. cbn [s_column s_names kL Ds Dp Kxc val].
  destruct (mapM_nth_error _ _ _ Hs k i Hk) as (j & Hj & Ej).
  unfold corr_ion, factor_of in Ej.
  destruct (lookup (i_kL_units i) kL_conv) as [kf|] eqn:E1; [|discriminate]. cbn [of_option bind] in Ej.
  destruct (lookup (i_Ds_units i) ds_conv) as [ds|] eqn:E2; [|discriminate]. cbn [of_option bind] in Ej.
  destruct (kL_ok _ _ E1) as (m1 & U1 & ->). destruct (ds_ok _ _ E2) as (m2 & U2 & ->).
  unfold nth_ion. rewrite nth_error_map. rewrite Hj. cbn [option_map].
  destruct (psdm b).
  - destruct (lookup (i_Dp_units i) ds_conv) as [dp|] eqn:E3; [|discriminate]. cbn [of_option bind] in Ej.
    destruct (ds_ok _ _ E3) as (m3 & U3 & ->).
    match type of Ej with Ok ?a = Ok ?b => assert (Eq : b = a) by congruence end. rewrite Eq. cbn.
    split; [exists m1; split; [exact U1|ring]|]. split; [exists m2; split; [exact U2|ring]|].
    split; [intros _; exists m3; split; [exact U3|ring]|]. repeat split.
  - cbn [bind] in Ej. match type of Ej with Ok ?a = Ok ?b => assert (Eq : b = a) by congruence end. rewrite Eq. cbn.
    split; [exists m1; split; [exact U1|ring]|]. split; [exists m2; split; [exact U2|ring]|].
    split; [discriminate|]. repeat split.
Qed.

(** A bed volume takes the depth over the velocity. *)
Theorem C126_bed_volume : forall b ions cins s, model_prep b ions cins = Ok (Solve s) ->
  get_bv_in_sec b = Ok (Lbed (s_column s) / vel (s_column s)).
Proof.
  intros b ions cins s H. destruct (prep_inv _ _ _ _ H) as (v & l & r & cin & cs & t & Hv & Hl & _ & _ & _ & _ & _ & ->).
  unfold get_bv_in_sec. rewrite Hv, Hl. reflexivity.
Qed.

(** ** C125 — every ion is fed with its own influent *)

(** When the influent table has the time first and then the ions in the order of the ion sheet. *)
Theorem C125_own_influent_partial : forall b ions cins s, model_prep b ions cins = Ok (Solve s) ->
  NoDup ("time" :: map i_name ions) -> keys cins = "time" :: map i_name ions ->
  forall k i, nth_error ions k = Some i -> i_units i <> "meq/L" ->
  exists ts col meq, lookup "time" cins = Some ts /\ lookup (i_name i) cins = Some col /\
  Forall2 (is_meq (i_units i) (i_mw i) (i_valence i)) col meq /\
  forall t, solver_influent s k t = interp1d (combine (map (fun x => x * s_time s) ts) meq) t.
Proof.
  intros b ions cins s H ND HK k i Hk HU. destruct (prep_inv _ _ _ _ H) as (v & l & r & cin & cs & t & _ & _ & _ & _ & Hc & _ & _ & ->).
  inversion ND as [|x ll N1 N2]; subst. destruct (convert_columns_ok _ _ _ _ N2 Hc) as (K & A & B).
  assert (NDc : NoDup (keys cin)) by (rewrite K, HK; exact ND).
  destruct (A i (nth_error_In _ _ Hk)) as (f & col & Ef & El & Eo).
  assert (T : nth_error (keys cin) 0 = Some "time") by (rewrite K, HK; reflexivity).
  assert (C : nth_error (keys cin) (S k) = Some (i_name i)).
  { rewrite K, HK. cbn [nth_error]. rewrite nth_error_map, Hk. reflexivity. }
  destruct (nth_error_key _ _ _ NDc T) as (ts & T1 & T2). destruct (nth_error_key _ _ _ NDc C) as (col' & C1 & C2).
  assert (col' = map (fun v => v * f) col) by congruence. subst col'. rewrite B in T2 by exact N1.
  exists ts, col, (map (fun v => v * f) col). split; [exact T2|]. split; [exact El|]. split.
  - assert (IM : forall v, is_meq (i_units i) (i_mw i) (i_valence i) v (v * f)).
    { intros w. unfold meq_factor in Ef. destruct (String.eqb_spec (i_units i) "meq") as [E|N].
      - left. split; [left; exact E|]. assert (f = 1) by congruence. subst f. ring.
      - destruct (lookup (i_units i) mass_conv) as [m|] eqn:Em; [|discriminate]. cbn in Ef.
        destruct (mass_ok _ _ Em) as [([Q|Q] & _)|Q]; [contradiction|contradiction|]. right. exists m. split; [exact Q|].
        assert (f = m / i_mw i * INR (i_valence i)) by congruence. subst f. unfold Rdiv. ring. }
    clear -IM. induction col; constructor; auto.
  - intros t0. unfold solver_influent, solver_times, matrix_column. cbn [s_cin s_time]. rewrite T1. cbn [of_option bind snd].
    rewrite C1. reflexivity.
Qed.

(** The names of the two tables must agree, in any order: a run is refused exactly when an ion
    has no column or a column other than the time has no ion. *)
Theorem C125_names_checked_partial : forall b ions cins n, model_prep b ions cins = Ok (Mismatch n) ->
  (exists i, In i ions /\ ~ In (i_name i) (keys cins)) \/ (exists c, In c (keys cins) /\ c <> "time" /\ ~ In c (map i_name ions)).
Proof.
  intros b ions cins n H. unfold model_prep, factor_of in H. destruct (velocity b); [|discriminate]. cbn [bind] in H.
  destruct (lookup (LengthUnits b) length_conv); [|discriminate]. destruct (lookup (rbunits b) length_conv); [|discriminate].
  cbn [bind of_option] in H. unfold mismatches in H.
  destruct (filter (fun i => negb (mem_str (i_name i) (keys cins))) ions) as [|i l1] eqn:E1.
  - destruct (filter (fun c => (negb (String.eqb c "time") && negb (mem_str c (map i_name ions)))%bool) (keys cins)) as [|c l2] eqn:E2.
    + exfalso. cbn [List.length Nat.add] in H. destruct (cin_correct ions cins); [|discriminate]. cbn [bind] in H. destruct (mapM (corr_ion (psdm b)) ions); [|discriminate].
      cbn [bind] in H. destruct (lookup (timeunits2 b) time_conv); cbn [of_option bind] in H; discriminate H.
    + right. assert (I : In c (c :: l2)) by (left; reflexivity). rewrite <- E2 in I. apply filter_In in I.
      destruct I as (I & Q). apply andb_true_iff in Q. destruct Q as (Q1 & Q2). exists c. split; [exact I|]. split.
      * intros ->. rewrite String.eqb_refl in Q1. discriminate.
      * intros J. apply negb_true_iff in Q2. unfold mem_str in Q2. apply not_true_iff_false in Q2. apply Q2.
        apply existsb_exists. exists c. split; [exact J|apply String.eqb_refl].
  - left. assert (I : In i (i :: l1)) by (left; reflexivity). rewrite <- E1 in I. apply filter_In in I. destruct I as (I & Q).
    exists i. split; [exact I|]. intros J. apply negb_true_iff in Q. apply not_true_iff_false in Q. apply Q.
    apply existsb_exists. exists (i_name i). split; [exact J|apply String.eqb_refl].
Qed.

Theorem C125_names_agree_partial : forall b ions cins s, model_prep b ions cins = Ok (Solve s) ->
  (forall i, In i ions -> In (i_name i) (keys cins)) /\ (forall c, In c (keys cins) -> c <> "time" -> In c (map i_name ions)).
Proof.
  intros b ions cins s H. destruct (prep_inv _ _ _ _ H) as (v & l & r & cin & cs & t & _ & _ & _ & Hm & _ & _ & _ & _).
  unfold mismatches in Hm. apply Nat.eq_add_0 in Hm. destruct Hm as (H1 & H2). apply length_zero_iff_nil in H1, H2. split.
  - intros i I. destruct (mem_str (i_name i) (keys cins)) eqn:E.
    + unfold mem_str in E. apply existsb_exists in E. destruct E as (x & J & Q). apply String.eqb_eq in Q. rewrite Q. exact J.
    + exfalso. assert (J : In i []); [|destruct J]. rewrite <- H1. apply filter_In. split; [exact I|]. rewrite E. reflexivity.
  - intros c I N. destruct (mem_str c (map i_name ions)) eqn:E.
    + unfold mem_str in E. apply existsb_exists in E. destruct E as (x & J & Q). apply String.eqb_eq in Q. rewrite Q. exact J.
    + exfalso. assert (J : In c []); [|destruct J]. rewrite <- H2. apply filter_In. split; [exact I|].
      apply String.eqb_neq in N. rewrite N, E. reflexivity.
Qed.

Definition ex_ion (n : string) : ion :=
  {| i_name := n; i_mw := 35; i_KxA := 1; i_valence := 1; i_kL := 1; i_kL_units := "cm/s"; i_Ds := 1; i_Ds_units := "cm^2/s";
     i_Dp := 1; i_Dp_units := "cm^2/s"; i_units := "meq" |}.
Definition ex_boxes (u : string) : boxes :=
  {| linear := true; Vv := 1; VelocityUnits := "cm/s"; Fv := 1; FlowrateUnits := "gpm"; Dv := 1; DiameterUnits := "in"; Lv := 15; LengthUnits := "cm";
     rbv := 3; rbunits := u; Qv := 1400; EBEDv := 35 / 100; EPORv := 2 / 10; nrv := 7; nzv := 13; timeunits2 := "hr"; psdm := false |}.

(** The same columns in another order pass the check, and the ions swap their influents. *)
Theorem C125_own_influent_refuted : forall ts nitrate chloride, exists s,
  model_prep (ex_boxes "cm") [ex_ion "CHLORIDE"; ex_ion "NITRATE"] [("time", ts); ("NITRATE", nitrate); ("CHLORIDE", chloride)] = Ok (Solve s) /\
  s_names s = ["CHLORIDE"; "NITRATE"] /\
  forall t, solver_influent s 0 t = interp1d (combine (map (fun x => x * 3600) ts) nitrate) t /\
            solver_influent s 1 t = interp1d (combine (map (fun x => x * 3600) ts) chloride) t.
Proof.
  intros ts a c. eexists. split; [reflexivity|]. split; [reflexivity|]. intros t.
  assert (M1 : forall l, map (fun v : R => v * 1) l = l) by (intros l; rewrite <- (map_id l) at 2; apply map_ext; intros; ring).
  unfold solver_influent, solver_times, matrix_column. cbn. rewrite !M1.
  replace hour2sec with 3600 by (unfold hour2sec, min2sec; ring). split; reflexivity.
Qed.

(** ** C127 — concentrations in milliequivalents and in milligrams *)
Theorem C127_to_meq_partial : forall ions cins out, cin_correct ions cins = Ok out -> NoDup (map i_name ions) ->
  forall i, In i ions -> i_units i <> "meq/L" ->
  exists col meq, lookup (i_name i) cins = Some col /\ lookup (i_name i) out = Some meq /\
  Forall2 (is_meq (i_units i) (i_mw i) (i_valence i)) col meq.
Proof.
  intros ions cins out H ND i Hi HU. destruct (convert_columns_ok _ _ _ _ ND H) as (_ & A & _).
  destruct (A i Hi) as (f & col & Ef & El & Eo). exists col, (map (fun v => v * f) col). split; [exact El|]. split; [exact Eo|].
  assert (IM : forall v, is_meq (i_units i) (i_mw i) (i_valence i) v (v * f)).
  { intros w. unfold meq_factor in Ef. destruct (String.eqb_spec (i_units i) "meq") as [E|N].
    - left. split; [left; exact E|]. assert (f = 1) by congruence. subst f. ring.
    - destruct (lookup (i_units i) mass_conv) as [m|] eqn:Em; [|discriminate]. cbn in Ef.
      destruct (mass_ok _ _ Em) as [([Q|Q] & _)|Q]; [contradiction|contradiction|]. right. exists m. split; [exact Q|].
      assert (f = m / i_mw i * INR (i_valence i)) by congruence. subst f. unfold Rdiv. ring. }
  clear -IM. induction col; constructor; auto.
Qed.
Theorem C127_to_mgl_partial : forall ions concs out, mass_converter_mgl ions concs = Ok out -> NoDup (map i_name ions) ->
  forall i, In i ions -> (0 < i_valence i)%nat ->
  exists col mgl, lookup (i_name i) concs = Some col /\ lookup (i_name i) out = Some mgl /\
  Forall2 (is_mgl (i_units i) (i_mw i) (i_valence i)) col mgl.
Proof.
  intros ions cins out H ND i Hi HV. destruct (convert_columns_ok _ _ _ _ ND H) as (_ & A & _).
  destruct (A i Hi) as (f & col & Ef & El & Eo). exists col, (map (fun v => v * f) col). split; [exact El|]. split; [exact Eo|].
  assert (HZ : INR (i_valence i) <> 0) by (apply not_0_INR; lia).
  assert (IM : forall v, is_mgl (i_units i) (i_mw i) (i_valence i) v (v * f)).
  { intros w. unfold mgl_factor in Ef. destruct (String.eqb_spec (i_units i) "meq") as [E|N]; cbn [orb] in Ef.
    - left. split; [left; exact E|]. assert (f = i_mw i / INR (i_valence i)) by congruence. subst f. field. exact HZ.
    - destruct (String.eqb_spec (i_units i) "meq/L") as [E|N2].
      + left. split; [right; exact E|]. assert (f = i_mw i / INR (i_valence i)) by congruence. subst f. field. exact HZ.
      + destruct (lookup (i_units i) mass_conv) as [m|] eqn:Em; [|discriminate].
        destruct (mass_ok _ _ Em) as [([Q|Q] & _)|Q]; [contradiction|contradiction|]. right. exists m. split; [exact Q|].
        cbn in Ef. assert (f = m) by congruence. subst f. reflexivity. }
  clear -IM. induction col; constructor; auto.
Qed.
(** Results are converted from meq/L to mg/L ion by ion. *)
Theorem C127_results_mgl_partial : forall ions meq, keys meq = map i_name ions -> NoDup (map i_name ions) ->
  forall i, In i ions -> (0 < i_valence i)%nat ->
  exists col mgl, lookup (i_name i) meq = Some col /\ lookup (i_name i) (mgl_columns ions meq) = Some mgl /\
  Forall2 (is_mgl "meq" (i_mw i) (i_valence i)) col mgl.
Proof.
  intros ions. induction ions as [|a ions IH]; intros meq HK ND i Hi HV; [destruct Hi|].
  destruct meq as [|[n col] meq]; [discriminate|]. cbn [keys map fst] in HK.
  assert (n = i_name a) by congruence. assert (HK' : keys meq = map i_name ions) by (unfold keys; congruence). subst n.
  cbn [map] in ND. inversion ND as [|x l N1 N2]; subst.
  unfold mgl_columns. cbn [combine map fst snd lookup]. destruct Hi as [<-|Hi].
  - rewrite String.eqb_refl. eexists _, _. split; [reflexivity|]. split; [reflexivity|].
    assert (HZ : INR (i_valence a) <> 0) by (apply not_0_INR; lia).
    clear -HZ. induction col; constructor; auto. left. split; [left; reflexivity|]. field. exact HZ.
  - destruct (String.eqb_spec (i_name i) (i_name a)) as [E|N]; [exfalso; apply N1; rewrite <- E; apply in_map, Hi|].
    apply (IH meq HK' N2 i Hi HV).
Qed.
(** Drawn in a unit offered, 1 mg/L is 1, 1000 ug/L or 1,000,000 ng/L. *)
Theorem C127_plotted : forall mgl, plot_conc "mg/L" mgl = Ok mgl /\ plot_conc "ug/L" mgl = Ok (1000 * mgl) /\ plot_conc "ng/L" mgl = Ok (1000000 * mgl).
Proof. intros v. unfold plot_conc, factor_of. cbn [lookup mass_conv String.eqb Ascii.eqb Bool.eqb of_option bind]. repeat split; f_equal; unfold dec; simpl; field. Qed.
(** "meq/L" is divided by the equivalent weight although it is a number of equivalents already. *)
Theorem C127_to_meq_refuted : forall i v, i_units i = "meq/L" -> i_mw i <> 0 -> INR (i_valence i) <> i_mw i -> v <> 0 ->
  exists c, cin_correct [i] [(i_name i, [v])] = Ok [(i_name i, [c])] /\ ~ is_meq "meq/L" (i_mw i) (i_valence i) v c.
Proof.
  intros i v U M N V. unfold cin_correct, convert_columns. cbn [fold_left bind].
  assert (F : meq_factor i = Ok (1 / i_mw i * INR (i_valence i))) by (unfold meq_factor; rewrite U; reflexivity).
  rewrite F. cbn [lookup update bind of_option map]. rewrite String.eqb_refl. cbn [bind of_option map update].
  eexists. split; [rewrite ?String.eqb_refl; reflexivity|].
  intros [(_ & E)|(m & Q & _)]; [|inversion Q].
  apply N. assert (E2 : v * (INR (i_valence i) / i_mw i) = v * 1) by (rewrite Rmult_1_r; rewrite <- E at 2; field; exact M).
  apply Rmult_eq_reg_l in E2; [|exact V]. apply (Rmult_eq_reg_r (/ i_mw i)); [|apply Rinv_neq_0_compat, M].
  rewrite Rinv_r by exact M. exact E2.
Qed.

(** ** C128 — saved results are in the chosen units *)
(** The sheet saved as output units is in mg/L (C127_results_mgl_partial says what that is), PFOA
    in the sheet saved as input units in ng/L. *)
Theorem C128_output_units_partial : forall ions meq out, saved false ions meq = Ok out -> out = mgl_columns ions meq.
Proof. intros ions meq out H. unfold saved in H. destruct (meq_ng_columns ions meq); [|discriminate]. cbn in H. congruence. Qed.
Theorem C128_pfoa_partial : forall ions meq out i, saved true ions meq = Ok out -> NoDup (map i_name ions) -> In i ions -> i_name i = "PFOA" ->
  (0 < i_valence i)%nat -> i_mw i <> 0 -> exists col ng, lookup "PFOA" meq = Some col /\ lookup "PFOA" out = Some ng /\
  Forall2 (fun c w => is_meq "ng/L" (i_mw i) (i_valence i) w c) col ng.
Proof.
  intros ions meq out i H ND Hi Hn HV HM. unfold saved, meq_ng_columns in H.
  destruct (find (fun i => String.eqb (i_name i) "PFOA") ions) as [j|] eqn:Ef; [|discriminate].
  apply find_some in Ef. destruct Ef as (Ij & Ej). apply String.eqb_eq in Ej.
  assert (j = i).
  { clear -ND Ij Hi Ej Hn. induction ions as [|a l IH]; [destruct Ij|]. cbn in ND. inversion ND as [|x y N1 N2]; subst.
    destruct Ij as [->|Ij], Hi as [->|Hi]; auto.
    - exfalso. apply N1. rewrite Ej, <- Hn. apply in_map, Hi.
    - exfalso. apply N1. rewrite Hn, <- Ej. apply in_map, Ij. }
  subst j. destruct (lookup "PFOA" meq) as [col|] eqn:El; [|discriminate]. cbn in H.
  match type of H with Ok ?a = Ok ?b => assert (E : b = a) by congruence end. rewrite E.
  exists col. eexists. split; [reflexivity|]. split; [apply lookup_update_eq|].
  assert (HZ : INR (i_valence i) <> 0) by (apply not_0_INR; lia).
  clear -HZ HM. induction col; constructor; auto. right. exists (1 / 1000000). split; [constructor|]. unfold dec. field. split; assumption.
Qed.
(** Without PFOA nothing can be saved, in either unit. *)
Theorem C128_saving_refuted : forall u ions meq, ~ In "PFOA" (map i_name ions) -> saved u ions meq = Err ValueError.
Proof.
  intros u ions meq H. unfold saved, meq_ng_columns. destruct (find (fun i => String.eqb (i_name i) "PFOA") ions) as [j|] eqn:Ef; [|reflexivity].
  exfalso. apply H. apply find_some in Ef. destruct Ef as (I & E). apply String.eqb_eq in E. rewrite <- E. apply in_map, I.
Qed.
(** Every other ion is saved in meq/L whatever the unit of the sheet, so an ion given by mass is
    not saved in its input unit. *)
Theorem C128_input_units_refuted : forall ions meq out i m, saved true ions meq = Ok out -> In i ions -> i_name i <> "PFOA" ->
  mass_unit (i_units i) m -> m * INR (i_valence i) <> i_mw i -> i_mw i <> 0 ->
  lookup (i_name i) out = lookup (i_name i) meq /\
  forall c, c <> 0 -> ~ is_meq (i_units i) (i_mw i) (i_valence i) c c.
Proof.
  intros ions meq out i m H Hi HN HU HD HM. split.
  - unfold saved, meq_ng_columns in H. destruct (find _ ions) as [j|]; [|discriminate]. destruct (lookup "PFOA" meq) as [col|]; [|discriminate].
    cbn in H. match type of H with Ok ?a = Ok ?b => assert (E : b = a) by congruence end. rewrite E. apply lookup_update_neq. congruence.
  - intros c Hc [([Q|Q] & _)|(m' & Q & E)]; [rewrite Q in HU; inversion HU|rewrite Q in HU; inversion HU|].
    assert (m' = m) by (destruct HU; inversion Q; reflexivity). subst m'. apply HD.
    apply (Rmult_eq_reg_l c); [|exact Hc]. rewrite E at 2. field. exact HM.
Qed.

(** ** C129 — times on the axes *)
Theorem C129_plot_time_partial : forall b u h x, plot_time b u h = Ok x ->
  (u <> "Bed Volumes (x1000)" -> exists k, seconds u k /\ x = h * 3600 / k) /\
  (u = "Bed Volumes (x1000)" -> exists bv, get_bv_in_sec b = Ok bv /\ x = h * 3600 / bv / 1000).
Proof.
  intros b u h x H. unfold plot_time in H. destruct (String.eqb_spec u "Bed Volumes (x1000)") as [->|N].
  - split; [intros C; contradiction|]. intros _. destruct (get_bv_in_sec b) as [bv|]; [|discriminate]. cbn [bind] in H. exists bv. split; [reflexivity|].
    assert (E : h / (bv / hour2sec) / 10 ^ 3 = x) by congruence. rewrite <- E. replace hour2sec with 3600 by (unfold hour2sec, min2sec; ring).
    unfold Rdiv. rewrite Rinv_mult, Rinv_inv. replace (10 ^ 3) with 1000 by ring. ring.
  - split; [|intros C; contradiction]. intros _. unfold factor_of in H. destruct (lookup u time_conv) as [k|] eqn:E; [|discriminate]. cbn [of_option bind] in H.
    exists k. split; [apply time_ok, E|]. assert (Q : h / (k / hour2sec) = x) by congruence. rewrite <- Q.
    replace hour2sec with 3600 by (unfold hour2sec, min2sec; ring). unfold Rdiv. rewrite Rinv_mult, Rinv_inv. ring.
Qed.
(** Results are reported at n evenly spaced times up to 99 % of the last influent time, all of them
    inside the influent table. *)
Theorem C129_report_times_partial : forall s n ts times, solver_times s = Ok (ts ++ [times])%list -> (2 <= n)%nat -> 0 <= times ->
  exists l, report_times s n = Ok l /\ length l = n /\
  forall k, (k < n)%nat -> nth k l 0 = INR k * (times * (99 / 100) / INR (n - 1)) /\ 0 <= nth k l 0 <= times * (99 / 100) /\ nth k (t_out l) 0 = nth k l 0 / 3600.
Proof.
  intros s n ts tm H Hn Hp. unfold report_times. rewrite H. cbn [bind]. rewrite rev_app_distr. cbn [rev app].
  eexists. split; [reflexivity|]. unfold linspace. destruct n as [|[|m]]; [lia|lia|]. split; [rewrite map_length, seq_length; reflexivity|].
  intros k Hk.
  match goal with |- _ /\ _ /\ nth k (t_out ?l) 0 = _ => assert (TO : nth k (t_out l) 0 = nth k l 0 / 3600) by (unfold t_out; rewrite (nth_indep _ 0 (0 / 60 / 60)) by (rewrite !map_length, seq_length; exact Hk); rewrite (map_nth (fun t => t / 60 / 60)); field) end.
  rewrite TO. clear TO. set (f := fun i : nat => 0 + INR i * ((tm * dec 99 2 - 0) / INR (S m))).
  rewrite (nth_indep _ 0 (f 0%nat)) by (rewrite map_length, seq_length; exact Hk). rewrite map_nth, seq_nth by exact Hk. cbn [Nat.add].
  assert (E : f k = INR k * (tm * (99 / 100) / INR (S (S m) - 1))).
  { unfold f. replace (S (S m) - 1)%nat with (S m) by lia. replace (dec 99 2) with (99 / 100) by (unfold dec; field). unfold Rdiv. ring. }
  rewrite E. split; [reflexivity|]. replace (S (S m) - 1)%nat with (S m) by lia.
  assert (P1 : 0 < INR (S m)) by (apply lt_0_INR; lia). assert (P2 := pos_INR k).
  assert (P3 : INR k <= INR (S m)) by (apply le_INR; lia). split; [|reflexivity]. split.
  - apply Rmult_le_pos; [exact P2|]. apply Rmult_le_pos; [lra|]. left. apply Rinv_0_lt_compat, P1.
  - apply (Rle_trans _ (INR (S m) * (tm * (99 / 100) / INR (S m)))).
    + apply Rmult_le_compat_r; [|exact P3]. apply Rmult_le_pos; [lra|]. left. apply Rinv_0_lt_compat, P1.
    + right. field. lra.
Qed.
Theorem C129_influent_axis_partial : forall b t k, timeunits2 b = "hr" \/ timeunits2 b = "day" \/ timeunits2 b = "Days" -> seconds (timeunits2 b) k ->
  cindat_hours b t = t * k / 3600.
Proof.
  intros b t k [U|[U|U]] HS; unfold cindat_hours; rewrite U in *; inversion HS; subst; cbn; unfold day, hour, minute; field.
Qed.
(** The other units the solver accepts are plotted as if they were days. *)
Theorem C129_influent_axis_refuted : forall b t k, timeunits2 b <> "hr" -> timeunits2 b <> "day" -> timeunits2 b <> "Days" ->
  seconds (timeunits2 b) k -> t <> 0 -> cindat_hours b t <> t * k / 3600.
Proof.
  intros b t k N1 N2 N3 HS Ht. unfold cindat_hours. apply String.eqb_neq in N1. rewrite N1. intros E.
  assert (K : k = 24 * 3600).
  { apply (Rmult_eq_reg_l t); [|exact Ht]. lra. }
  inversion HS; try congruence; subst; unfold day, hour, minute in *; lra.
Qed.

(** ** C130 — the alkalinity calculator *)
Lemma K1_pos : 0 < K1. Proof. apply rpow_pos; lra. Qed.
Lemma K2_pos : 0 < K2. Proof. apply rpow_pos; lra. Qed.
Lemma KW_pos : 0 < KW. Proof. apply rpow_pos; lra. Qed.
Lemma h_pos pH : 0 < h_plus pH. Proof. apply rpow_pos; lra. Qed.
Lemma K1_is : K1 = rpow 10 (- (6352 / 1000)). Proof. unfold K1, dec. do 2 f_equal. field. Qed.
Lemma K2_is : K2 = rpow 10 (- (10329 / 1000)). Proof. unfold K2, dec. do 2 f_equal. field. Qed.

(** The three carbonate species share the total and are in equilibrium. *)
Theorem C130_speciation : forall h, 0 < h ->
  alpha_0 h + alpha_1 h + alpha_2 h = 1 /\ 0 < alpha_0 h /\ 0 < alpha_1 h /\ 0 < alpha_2 h /\
  h * alpha_1 h = rpow 10 (- (6352 / 1000)) * alpha_0 h /\ h * alpha_2 h = rpow 10 (- (10329 / 1000)) * alpha_1 h.
Proof.
  rewrite <- K1_is, <- K2_is.
  intros h H. assert (P1 := K1_pos). assert (P2 := K2_pos).
  assert (Q : 0 < h ^ 2 + K1 * h + K1 * K2).
  { apply Rplus_lt_0_compat; [apply Rplus_lt_0_compat|]; [apply pow_lt, H|apply Rmult_lt_0_compat; assumption|apply Rmult_lt_0_compat; assumption]. }
  assert (E0 : alpha_0 h = h ^ 2 / (h ^ 2 + K1 * h + K1 * K2)) by (unfold alpha_0; field; repeat split; nra).
  assert (E1 : alpha_1 h = K1 * h / (h ^ 2 + K1 * h + K1 * K2)) by (unfold alpha_1; field; repeat split; nra).
  assert (E2 : alpha_2 h = K1 * K2 / (h ^ 2 + K1 * h + K1 * K2)) by (unfold alpha_2; field; repeat split; nra).
  rewrite E0, E1, E2. split; [field; lra|].
  assert (I := Rinv_0_lt_compat _ Q).
  split; [apply Rmult_lt_0_compat; [apply pow_lt, H|exact I]|].
  split; [apply Rmult_lt_0_compat; [apply Rmult_lt_0_compat; assumption|exact I]|].
  split; [apply Rmult_lt_0_compat; [apply Rmult_lt_0_compat; assumption|exact I]|].
  split; field; lra.
Qed.
(** The total reproduces the entered alkalinity, mg/L as CaCO3 (50 000 mg for an equivalent):
    bicarbonate, twice carbonate and hydroxide less hydrogen ions. *)
Theorem C130_alkalinity_balance : forall alk pH, let h := rpow 10 (- pH) in let T := TOTCO3_M alk pH in
  alk / 50000 = alpha_1 h * T + 2 * (alpha_2 h * T) + rpow 10 (-14) / h - h.
Proof.
  change (rpow 10 (-14)) with KW. intros alk pH. change (rpow 10 (- pH)) with (h_plus pH). revert alk pH.
  intros alk pH h T. unfold T, TOTCO3_M, oh_minus. fold h. destruct (C130_speciation h (h_pos pH)) as (_ & _ & P1 & P2 & _).
  assert (P3 := h_pos pH). fold h in P3. field. split; [lra|]. lra.
Qed.
(** What is shown: millimoles, and milligrams of carbon and of bicarbonate; nothing when the
    alkalinity is below that of the water itself. *)
Theorem C130_shown : forall alk pH,
  match bicarbonate alk pH with
  | Some (mM, mgC, mgHCO3) => mM = 1000 * (alpha_1 (rpow 10 (- pH)) * TOTCO3_M alk pH) /\ 0 <= mM /\ mgC = 12 * mM /\ mgHCO3 = 61 * mM
  | None => alk / 50000 < rpow 10 (-14) / rpow 10 (- pH) - rpow 10 (- pH)
  end.
Proof.
  intros alk pH. change (rpow 10 (-14)) with KW. change (rpow 10 (- pH)) with (h_plus pH). revert alk pH.
  intros alk pH. destruct (C130_speciation (h_plus pH) (h_pos pH)) as (_ & _ & P1 & P2 & _). unfold bicarbonate, rltb.
  destruct (Rlt_dec (HCO3_mM alk pH) 0) as [L|N].
  - unfold HCO3_mM in L. assert (T : TOTCO3_M alk pH < 0) by nra. unfold TOTCO3_M, oh_minus in T.
    set (d := alpha_1 (h_plus pH) + 2 * alpha_2 (h_plus pH)) in *. assert (Hd : 0 < d) by (unfold d; lra).
    apply Rnot_le_lt. intros C. apply (Rlt_not_le _ _ T). unfold Rdiv at 1. apply Rmult_le_pos; [lra|]. left. apply Rinv_0_lt_compat, Hd.
  - unfold HCO3_mM in *. repeat split; lra.
Qed.
(** More alkalinity at the same pH means more bicarbonate. *)
Theorem C130_increasing : forall pH alk1 alk2, alk1 < alk2 -> HCO3_mM alk1 pH < HCO3_mM alk2 pH.
Proof.
  intros pH a1 a2 H. destruct (C130_speciation (h_plus pH) (h_pos pH)) as (_ & _ & P1 & P2 & _). unfold HCO3_mM, TOTCO3_M.
  set (d := alpha_1 (h_plus pH) + 2 * alpha_2 (h_plus pH)). assert (Hd : 0 < / d) by (apply Rinv_0_lt_compat; unfold d; lra).
  apply Rmult_lt_compat_l; [exact P1|]. apply Rmult_lt_compat_l; [lra|]. unfold Rdiv. apply Rmult_lt_compat_r; [exact Hd|]. lra.
Qed.

(** ** C131 — the film-transfer calculator *)
(** With the bead radius in cm and the velocity in cm/s it is the package's correlation, which is
    Gnielinski's with the diffusivity of Hayduk and Laudie. *)
Theorem C131_correlation_partial : forall b ions cins s temp MV, model_prep b ions cins = Ok (Solve s) ->
  linear b = true -> VelocityUnits b = "cm/s" -> rbunits b = "cm" ->
  let c := s_column s in
  kL_estimate b temp MV = simple_Gnielinski (rb c) (vel c) (EBED c) temp (Hayduk_Laudie MV temp) /\
  let rho := density temp in let mu := viscosity temp in
  let D := 1326 / 10000000 * rpow (100 * mu) (- (114 / 100)) * rpow MV (- (589 / 1000)) in
  let d := 2 * rb c in
  let Re := vel c / EBED c * d * (rho / mu) in
  let Sc := mu / rho / D in
  kL_estimate b temp MV = D / d * ((2 + 644 / 1000 * rpow Re (1 / 2) * rpow Sc (1 / 3)) * (1 + 15 / 10 * (1 - EBED c))).
Proof.
  intros b ions cins s temp MV H L VU RU. destruct (prep_inv _ _ _ _ H) as (v & l & r & cin & cs & t & Hv & _ & Hr & _ & _ & _ & _ & ->).
  unfold velocity in Hv. rewrite L, VU in Hv. cbn in Hv. rewrite RU in Hr. cbn in Hr.
  assert (r = 1) by (unfold cm2cm in Hr; congruence). assert (v = Vv b) by (unfold cm2cm in Hv; rewrite Rmult_1_r in Hv; congruence). subst.
  cbn [s_column rb vel EBED]. rewrite Rmult_1_r. split; [reflexivity|]. cbv zeta. unfold kL_estimate. cbv zeta.
  rewrite (Rmult_comm 100). replace (1326 / 10000000) with (dec 1326 7) by (unfold dec; lra). replace (114 / 100) with (dec 114 2) by (unfold dec; lra).
  replace (589 / 1000) with (dec 589 3) by (unfold dec; lra). replace (644 / 1000) with (dec 644 3) by (unfold dec; lra). replace (15 / 10) with (dec 15 1) by (unfold dec; lra).
  unfold Rdiv. ring.
Qed.
(** Other units are ignored: a bead entered in millimetres is taken to be ten times as large, and
    the estimate is too small. *)
Definition in_unit (b : boxes) (r : R) (u : string) : boxes :=
  {| linear := linear b; Vv := Vv b; VelocityUnits := VelocityUnits b; Fv := Fv b; FlowrateUnits := FlowrateUnits b; Dv := Dv b; DiameterUnits := DiameterUnits b;
     Lv := Lv b; LengthUnits := LengthUnits b; rbv := r; rbunits := u; Qv := Qv b; EBEDv := EBEDv b; EPORv := EPORv b; nrv := nrv b; nzv := nzv b;
     timeunits2 := timeunits2 b; psdm := psdm b |}.
Theorem C131_units_refuted : forall b temp MV r, 0 < r -> 0 < Vv b -> 0 < EBEDv b < 1 -> 0 < density temp -> 0 < MV ->
  kL_estimate (in_unit b (10 * r) "mm") temp MV < kL_estimate (in_unit b r "cm") temp MV.
Proof.
  intros b temp MV r Hr HV HE HD HM. unfold kL_estimate, in_unit. cbn [rbv Vv EBEDv].
  assert (Hmu : 0 < viscosity temp) by (unfold viscosity; apply Rmult_lt_0_compat; [apply exp_pos|lra]).
  set (D := dec 1326 7 * rpow (viscosity temp * 100) (- dec 114 2) * rpow MV (- dec 589 3)).
  assert (PD : 0 < D).
  { unfold D. apply Rmult_lt_0_compat; [apply Rmult_lt_0_compat|]; [unfold dec; lra|apply rpow_pos; lra|apply rpow_pos; exact HM]. }
  set (sc := rpow (viscosity temp / density temp / D) (1 / 3)).
  assert (Psc : 0 < sc).
  { apply rpow_pos. apply Rmult_lt_0_compat; [apply Rmult_lt_0_compat; [exact Hmu|apply Rinv_0_lt_compat, HD]|apply Rinv_0_lt_compat, PD]. }
  set (re := Vv b / EBEDv b * (2 * r) * (density temp / viscosity temp)).
  assert (Pre : 0 < re).
  { unfold re. apply Rmult_lt_0_compat; [apply Rmult_lt_0_compat; [apply Rmult_lt_0_compat; [exact HV|apply Rinv_0_lt_compat, HE]|lra]|].
    apply Rmult_lt_0_compat; [exact HD|apply Rinv_0_lt_compat, Hmu]. }
  replace (Vv b / EBEDv b * (2 * (10 * r)) * (density temp / viscosity temp)) with (10 * re) by (unfold re; ring).
  rewrite rpow_mult by lra. set (x := rpow re (1 / 2)). assert (Px : 0 < x) by (apply rpow_pos; exact Pre).
  set (k := rpow 10 (1 / 2)).
  assert (Hk : k < 10).
  { unfold k. rewrite <- (rpow_1 10) at 2 by lra. rewrite !rpow_Rpower by lra. apply Rpower_lt; lra. }
  assert (Pk : 0 < k) by (apply rpow_pos; lra).
  set (g := 1 + dec 15 1 * (1 - EBEDv b)). assert (Pg : 0 < g) by (unfold g, dec; lra).
  replace ((2 + dec 644 3 * (k * x) * sc) * g * D / (2 * (10 * r))) with ((2 + dec 644 3 * (k * x) * sc) / 10 * (g * D / (2 * r))) by (field; lra).
  replace ((2 + dec 644 3 * x * sc) * g * D / (2 * r)) with ((2 + dec 644 3 * x * sc) * (g * D / (2 * r))) by (field; lra).
  apply Rmult_lt_compat_r.
  - apply Rmult_lt_0_compat; [apply Rmult_lt_0_compat; assumption|apply Rinv_0_lt_compat; lra].
  - assert (P : 0 < x * sc) by (apply Rmult_lt_0_compat; assumption). unfold dec. nra.
Qed.

(** ** C132 — every ion appears in one of the two plots *)
Definition counter_ions : list string := ["CHLORIDE"; "SULFATE"; "BICARBONATE"; "NITRATE"].

(** [cols] are the results in the order of the ion sheet, [nt] rows each. *)
Lemma gather_firstn nt : forall cols k, Forall (fun p => length (snd p) = nt) cols ->
  firstn (k * nt) (gather cols) = gather (firstn k cols) /\ skipn (k * nt) (gather cols) = gather (skipn k cols).
Proof.
  induction cols as [|[n c] cols IH]; intros k HF; [cbn; rewrite firstn_nil, skipn_nil; destruct k; split; reflexivity|].
  inversion HF as [|x l H1 H2]; subst. destruct k as [|k]; [cbn; split; reflexivity|].
  cbn [gather flat_map firstn skipn fst snd] in *. change (flat_map (fun p => map (fun v => (fst p, v)) (snd p)) cols) with (gather cols).
  assert (L : length (map (fun v => (n, v)) c) = length c) by apply map_length.
  cbn [Nat.mul]. rewrite firstn_app, skipn_app, L.
  replace (length c + k * length c - length c)%nat with (k * length c)%nat by lia.
  destruct (IH k H2) as (E1 & E2). rewrite E1, E2. split.
  - rewrite firstn_all2 by lia. reflexivity.
  - rewrite skipn_all2 by lia. reflexivity.
Qed.
Lemma in_gather r cols : In r (gather cols) <-> exists p, In p cols /\ fst r = fst p /\ In (snd r) (snd p).
Proof.
  unfold gather. rewrite in_flat_map. split.
  - intros (p & I & J). apply in_map_iff in J. destruct J as (v & <- & V). exists p. auto.
  - intros (p & I & E & V). exists p. split; [exact I|]. apply in_map_iff. exists (snd r). split; [destruct r; cbn in *; congruence|exact V].
Qed.
Lemma mem_str_In s l : mem_str s l = true <-> In s l.
Proof.
  unfold mem_str. rewrite existsb_exists. split.
  - intros (x & I & E). apply String.eqb_eq in E. subst. exact I.
  - intros I. exists s. split; [exact I|apply String.eqb_refl].
Qed.

(** Which rows are drawn: with [k] counter-ions among the influents, those of counter-ions among
    the first [k] ions of the sheet and those of other ions after them. *)
Theorem C132_drawn_partial : forall cins cols nt, Forall (fun p => length (snd p) = nt) cols ->
  let k := length (filter (fun n => mem_str n (keys cins)) counter_ions) in
  (forall r, In r (counter_plot cins cols nt) <-> In (fst r) counter_ions /\ exists p, In p (firstn k cols) /\ fst r = fst p /\ In (snd r) (snd p)) /\
  (forall r, In r (other_plot cins cols nt) <-> ~ In (fst r) counter_ions /\ exists p, In p (skipn k cols) /\ fst r = fst p /\ In (snd r) (snd p)).
Proof.
  intros cins cols nt HF k. unfold counter_plot, other_plot, counterIon_loc. change ion_list with counter_ions. fold k.
  destruct (gather_firstn nt cols k HF) as (E1 & E2). rewrite E1, E2. split; intros r; rewrite filter_In, in_gather.
  - rewrite mem_str_In. tauto.
  - rewrite negb_true_iff, <- not_true_iff_false, mem_str_In. tauto.
Qed.
(** When the counter-ions are the first ions of the sheet every result is drawn, in its plot. *)
Theorem C132_all_drawn_partial : forall cins first rest nt, Forall (fun p => length (snd p) = nt) (first ++ rest)%list ->
  (forall p, In p first -> In (fst p) counter_ions) -> (forall p, In p rest -> ~ In (fst p) counter_ions) ->
  length first = length (filter (fun n => mem_str n (keys cins)) counter_ions) ->
  forall r, (exists p, In p (first ++ rest)%list /\ fst r = fst p /\ In (snd r) (snd p)) ->
  (In (fst r) counter_ions -> In r (counter_plot cins (first ++ rest)%list nt)) /\
  (~ In (fst r) counter_ions -> In r (other_plot cins (first ++ rest)%list nt)).
Proof.
  intros cins first rest nt HF H1 H2 HL r (p & Ip & E & V). destruct (C132_drawn_partial cins _ nt HF) as (A & B). rewrite <- HL in A, B.
  rewrite firstn_app, Nat.sub_diag, firstn_all, firstn_O, app_nil_r in A. rewrite skipn_app, Nat.sub_diag, skipn_all in B. cbn [app skipn] in B.
  apply in_app_iff in Ip. split; intros C.
  - apply A. split; [exact C|]. exists p. destruct Ip as [Ip|Ip]; [auto|]. exfalso. apply (H2 p Ip). rewrite <- E. exact C.
  - apply B. split; [exact C|]. exists p. destruct Ip as [Ip|Ip]; [|auto]. exfalso. apply C. rewrite E. apply H1, Ip.
Qed.
(** Otherwise a counter-ion listed after another ion, beyond the first [k], is in neither plot. *)
Theorem C132_all_drawn_refuted : forall cins cols nt, Forall (fun p => length (snd p) = nt) cols -> NoDup (keys cols) ->
  let k := length (filter (fun n => mem_str n (keys cins)) counter_ions) in
  forall n, In n counter_ions -> In n (keys (skipn k cols)) ->
  forall v, ~ In (n, v) (counter_plot cins cols nt) /\ ~ In (n, v) (other_plot cins cols nt).
Proof.
  intros cins cols nt HF ND k n Hn Hs v. destruct (C132_drawn_partial cins cols nt HF) as (A & B). fold k in A, B. split; intros I.
  - apply A in I. destruct I as (_ & p & Ip & E & _). cbn [fst] in E.
    rewrite <- (firstn_skipn k cols) in ND. unfold keys in ND. rewrite map_app in ND.
    assert (I1 : In n (map fst (firstn k cols))) by (rewrite E; apply in_map, Ip). revert ND I1. generalize (map fst (firstn k cols)).
    intros l ND I1. induction l as [|a l IH]; [destruct I1|]. cbn [app] in ND. inversion ND as [|x y N1 N2]; subst.
    destruct I1 as [->|I1]; [apply N1, in_or_app; right; exact Hs|apply IH; assumption].
  - apply B in I. destruct I as (N & _). apply N, Hn.
Qed.

(** ** C133 — relative concentrations *)

(** The first influent of every ion, in meq/L. *)
Lemma cc0_inv ions cins c0 : cc0_conv_meq ions cins = Ok c0 -> forall k n col, nth_error (filter (fun p => negb (String.eqb (fst p) "time")) cins) k = Some (n, col) ->
  exists i v c, find_ion n ions = Ok i /\ i_name i = n /\ In i ions /\ nth_error col 0 = Some v /\ is_meq (i_units i) (i_mw i) (i_valence i) v c /\ nth_error c0 k = Some (n, c).
Proof.
  unfold cc0_conv_meq. intros H k n col Hk. destruct (mapM_nth_error _ _ _ H k _ Hk) as (y & Hy & Ey). cbn [fst snd] in Ey.
  destruct (find_ion n ions) as [i|] eqn:Ef; [|discriminate]. cbn [bind] in Ey.
  destruct (cc0_factor i) as [f|] eqn:Ec; [|discriminate]. cbn [bind] in Ey.
  destruct (nth_error col 0) as [v|]; [|discriminate]. cbn [of_option bind] in Ey.
  exists i, v, (v * f). split; [reflexivity|]. unfold find_ion in Ef.
  destruct (find (fun i => String.eqb (i_name i) n) ions) as [j|] eqn:Eq; [|discriminate]. cbn in Ef. assert (j = i) by congruence. subst j.
  apply find_some in Eq. destruct Eq as (I & E). apply String.eqb_eq in E. split; [exact E|]. split; [exact I|]. split; [reflexivity|]. split.
  - unfold cc0_factor in Ec. destruct (String.eqb_spec (i_units i) "meq") as [U|N1]; cbn [orb] in Ec.
    + left. split; [left; exact U|]. assert (f = 1) by congruence. subst f. ring.
    + destruct (String.eqb_spec (i_units i) "meq/L") as [U|N2].
      * left. split; [right; exact U|]. assert (f = 1) by congruence. subst f. ring.
      * destruct (lookup (i_units i) mass_conv) as [m|] eqn:Em; [|discriminate]. cbn in Ec.
        destruct (mass_ok _ _ Em) as [([Q|Q] & _)|Q]; [contradiction|contradiction|]. right. exists m. split; [exact Q|].
        assert (f = m * INR (i_valence i) / i_mw i) by congruence. subst f. unfold Rdiv. ring.
  - rewrite Hy. congruence.
Qed.

Lemma filter_time (ns : list string) : forall d : frame, ~ In "time" ns -> keys d = ns -> filter (fun p => negb (String.eqb (fst p) "time")) d = d.
Proof.
  intros d. revert ns. induction d as [|[n c] d IH]; intros ns N K; [reflexivity|]. cbn [keys map fst] in K. cbn [filter fst].
  destruct (String.eqb_spec n "time") as [->|Q]; [exfalso; apply N; rewrite <- K; left; reflexivity|]. cbn [negb]. f_equal.
  apply (IH (keys d)); [|reflexivity]. intros J. apply N. rewrite <- K. right. exact J.
Qed.

(** When the influent table has the time first and then the ions in the order of the sheet, each
    ion's results are divided by its own first influent in meq/L. *)
Theorem C133_relative_partial : forall ions cins meq c0, cc0_conv_meq ions cins = Ok c0 -> NoDup ("time" :: map i_name ions) ->
  keys meq = map i_name ions -> keys cins = "time" :: map i_name ions ->
  forall k i, nth_error ions k = Some i ->
  exists results influents v c, nth_error meq k = Some (i_name i, results) /\ lookup (i_name i) cins = Some influents /\ nth_error influents 0 = Some v /\ 
  is_meq (i_units i) (i_mw i) (i_valence i) v c /\ 
  nth_error (HSDMIX_cc0 meq c0) k = Some (i_name i, map (fun w => w / c) results).
Proof.
  intros ions cins meq c0 H ND KM KC k i Hk. assert (ND' := ND). inversion ND as [|x l N1 N2]; subst.
  destruct cins as [|[tn tc] cins]; [discriminate|]. cbn [keys map fst] in KC.
  assert (tn = "time") by congruence. assert (KC' : keys cins = map i_name ions) by (unfold keys; congruence). subst tn.
  assert (Ekc : nth_error (keys cins) k = Some (i_name i)) by (rewrite KC', nth_error_map, Hk; reflexivity).
  assert (Ekm : nth_error (keys meq) k = Some (i_name i)) by (rewrite KM, nth_error_map, Hk; reflexivity).
  assert (NDc : NoDup (keys cins)) by (rewrite KC'; exact N2). assert (NDm : NoDup (keys meq)) by (rewrite KM; exact N2).
  destruct (nth_error_key _ _ _ NDc Ekc) as (col & C1 & C2). destruct (nth_error_key _ _ _ NDm Ekm) as (res & R1 & R2).
  assert (F : filter (fun p => negb (String.eqb (fst p) "time")) (("time", tc) :: cins) = cins).
  { cbn [filter fst]. rewrite String.eqb_refl. cbn [negb]. apply (filter_time (map i_name ions)); assumption. }
  destruct (cc0_inv _ _ _ H k (i_name i) col) as (j & v & c & _ & Ej & Ij & Hv & Hm & Hc); [rewrite F; exact C1|].
  assert (j = i).
  { apply nth_error_In in Hk. clear -N2 Ij Hk Ej. induction ions as [|a l IH]; [destruct Ij|]. cbn in N2. inversion N2 as [|x y N1 N3]; subst.
    destruct Ij as [->|Ij], Hk as [->|Hk]; auto; exfalso; apply N1; [rewrite Ej|rewrite <- Ej]; apply in_map; assumption. }
  subst j. exists res, col, v, c. split; [exact R1|]. split.
  - cbn [lookup]. destruct (String.eqb_spec (i_name i) "time") as [E|_]; [|exact C2]. exfalso. apply N1. rewrite <- E. apply in_map. apply nth_error_In in Hk. exact Hk.
  - split; [exact Hv|]. split; [exact Hm|]. unfold HSDMIX_cc0. rewrite nth_error_map.
    assert (E : nth_error (combine meq c0) k = Some ((i_name i, res), (i_name i, c))).
    { clear -R1 Hc. revert k c0 R1 Hc. induction meq as [|a meq IH]; intros [|k] [|b c0] R1 Hc; cbn in *; try discriminate; [congruence|apply IH; assumption]. }
    rewrite E. reflexivity.
Qed.
(** In another order each ion is divided by the influent of the one that stands in its place. *)
Theorem C133_order_refuted : forall ts n c results, n <> c -> n <> 0 ->
  let ions := [ex_ion "CHLORIDE"; ex_ion "NITRATE"] in
  exists c0, cc0_conv_meq ions [("time", ts); ("NITRATE", [n]); ("CHLORIDE", [c])] = Ok c0 /\
  nth_error (HSDMIX_cc0 [("CHLORIDE", results); ("NITRATE", results)] c0) 0 = Some ("CHLORIDE", map (fun w => w / n) results).
Proof.
  intros ts n c results N1 N2 ions. eexists. split; [reflexivity|]. cbn. rewrite Rmult_1_r. reflexivity.
Qed.
(** In "meq/L" the solver is given [v * valence / mw] (C127_to_meq_refuted) and the results are
    divided by [v]: an ion at its influent is not at 1. *)
Theorem C133_meq_refuted : forall i ts v, i_units i = "meq/L" -> i_name i <> "time" -> i_mw i <> 0 -> INR (i_valence i) <> i_mw i -> v <> 0 ->
  exists feed c0 x, cin_correct [i] [("time", ts); (i_name i, [v])] = Ok [("time", ts); (i_name i, [feed])] /\
  cc0_conv_meq [i] [("time", ts); (i_name i, [v])] = Ok c0 /\
  HSDMIX_cc0 [(i_name i, [feed])] c0 = [(i_name i, [x])] /\ x <> 1.
Proof.
  intros i ts v U NT M N V. apply String.eqb_neq in NT.
  exists (v * (1 / i_mw i * INR (i_valence i))), [(i_name i, v * 1)], (v * (1 / i_mw i * INR (i_valence i)) / (v * 1)).
  split; [|split; [|split]].
  - unfold cin_correct, convert_columns. cbn [fold_left bind].
    assert (F : meq_factor i = Ok (1 / i_mw i * INR (i_valence i))) by (unfold meq_factor; rewrite U; reflexivity).
    rewrite F. cbn [lookup bind]. rewrite NT, String.eqb_refl. cbn [of_option bind update map]. rewrite ?NT, ?String.eqb_refl. reflexivity.
  - unfold cc0_conv_meq. cbn [filter fst]. rewrite String.eqb_refl, NT. cbn [negb mapM fst snd].
    unfold find_ion. cbn [find]. rewrite String.eqb_refl. cbn [of_option bind].
    assert (F : cc0_factor i = Ok 1) by (unfold cc0_factor; rewrite U; reflexivity). rewrite F. reflexivity.
  - reflexivity.
  - intros E. apply N. apply (Rmult_eq_reg_r (/ i_mw i)); [|apply Rinv_neq_0_compat, M]. rewrite Rinv_r by exact M.
    rewrite <- E. field. split; assumption.
Qed.

(** ** The hypotheses are met *)
Definition ex_ions : list ion := [ex_ion "CHLORIDE"; ex_ion "NITRATE"].
Definition ex_cins : frame := [("time", [0; 100]); ("CHLORIDE", [1; 2]); ("NITRATE", [3; 4])].
Example C125_C126_hypotheses : (exists s, model_prep (ex_boxes "mm") ex_ions ex_cins = Ok (Solve s) /\ solver_times s = Ok [0 * hour2sec; 100 * hour2sec]) /\
  NoDup ("time" :: map i_name ex_ions) /\ keys ex_cins = "time" :: map i_name ex_ions /\ i_units (ex_ion "NITRATE") <> "meq/L".
Proof.
  split; [eexists; split; reflexivity|]. split; [|split; [reflexivity|discriminate]].
  repeat constructor; cbn; intuition discriminate.
Qed.
Example C125_mismatch_hypotheses : model_prep (ex_boxes "mm") ex_ions [("time", [0; 100]); ("CHLORIDE", [1; 2]); ("Nitrate", [3; 4])] = Ok (Mismatch 2).
Proof. reflexivity. Qed.
Definition ex_mass (n u : string) (mw : R) : ion :=
  {| i_name := n; i_mw := mw; i_KxA := 1; i_valence := 1; i_kL := 1; i_kL_units := "cm/s"; i_Ds := 1; i_Ds_units := "cm^2/s";
     i_Dp := 1; i_Dp_units := "cm^2/s"; i_units := u |}.
Example C127_C128_hypotheses : let ions := [ex_mass "CHLORIDE" "mg/L" 35; ex_mass "PFOA" "ng/L" 414] in
  (exists out, cin_correct ions [("time", [0]); ("CHLORIDE", [70]); ("PFOA", [10])] = Ok out) /\
  (exists out, mass_converter_mgl ions [("time", [0]); ("CHLORIDE", [70]); ("PFOA", [10])] = Ok out) /\
  (exists out, saved true ions [("CHLORIDE", [2]); ("PFOA", [1 / 100])] = Ok out) /\
  mass_unit (i_units (ex_mass "CHLORIDE" "mg/L" 35)) 1 /\ 1 * INR (i_valence (ex_mass "CHLORIDE" "mg/L" 35)) <> i_mw (ex_mass "CHLORIDE" "mg/L" 35).
Proof.
  intros ions. repeat (split; [eexists; reflexivity|]). split; [constructor|]. cbn. lra.
Qed.
Example C129_hypotheses : (exists x, plot_time (ex_boxes "cm") "Bed Volumes (x1000)" 5 = Ok x) /\ (exists x, plot_time (ex_boxes "cm") "Days" 5 = Ok x) /\
  timeunits2 (ex_boxes "cm") = "hr" /\ seconds "Hours" hour /\ seconds "Months" (30 * day).
Proof. repeat split; try (eexists; reflexivity); constructor. Qed.
(** 100 mg/L as CaCO3 at pH 7 gives a concentration. *)
Example C130_hypotheses : bicarbonate 100 7 <> None.
Proof.
  intros E. assert (H := C130_shown 100 7). rewrite E in H. apply (Rlt_not_le _ _ H).
  assert (P := h_pos 7). unfold KW, h_plus in *.
  assert (B : rpow 10 (-14) / rpow 10 (- (7)) = rpow 10 (- (7))).
  { assert (Q : -14 = - (7) + - (7)) by lra. rewrite Q, rpow_plus by lra. field. lra. }
  rewrite B. lra.
Qed.
Example C131_hypotheses : 0 < density (dec 515 1) /\ 0 < EBEDv (ex_boxes "cm") < 1 /\ 0 < Vv (ex_boxes "cm").
Proof.
  split; [|cbn; lra]. unfold density. replace ((dec 515 1 + dec 27315 2) / dec 32465 2) with 1 by (unfold dec; field).
  cbv zeta. rewrite !pow1. unfold dec. lra.
Qed.
(** Uranium first: chloride, the only counter-ion, is in neither plot. *)
Example C132_hypotheses : let cols := [("URANIUM", [1; 2]); ("CHLORIDE", [3; 4])] in let cins := [("time", [0]); ("CHLORIDE", [1]); ("URANIUM", [1])] in
  Forall (fun p : string * list R => length (snd p) = 2%nat) cols /\ NoDup (keys cols) /\
  In "CHLORIDE" (keys (skipn (length (filter (fun n => mem_str n (keys cins)) counter_ions)) cols)) /\
  length [("CHLORIDE", [3; 4])] = length (filter (fun n => mem_str n (keys cins)) counter_ions).
Proof. cbn. repeat split; repeat constructor; cbn; intuition discriminate. Qed.
Example C133_hypotheses : exists c0, cc0_conv_meq ex_ions ex_cins = Ok c0 /\ keys [("CHLORIDE", [5]); ("NITRATE", [6])] = map i_name ex_ions.
Proof. eexists. split; reflexivity. Qed.
Print Assumptions C126_bed_and_beads.
Print Assumptions C126_velocity.
Print Assumptions C126_ions.
Print Assumptions C126_bed_volume.
Print Assumptions C125_own_influent_partial.
Print Assumptions C125_names_checked_partial.
Print Assumptions C125_names_agree_partial.
Print Assumptions C125_own_influent_refuted.
Print Assumptions C127_to_meq_partial.
Print Assumptions C127_to_mgl_partial.
Print Assumptions C127_results_mgl_partial.
Print Assumptions C127_plotted.
Print Assumptions C127_to_meq_refuted.
Print Assumptions C128_output_units_partial.
Print Assumptions C128_pfoa_partial.
Print Assumptions C128_saving_refuted.
Print Assumptions C128_input_units_refuted.
Print Assumptions C129_plot_time_partial.
Print Assumptions C129_report_times_partial.
Print Assumptions C129_influent_axis_partial.
Print Assumptions C129_influent_axis_refuted.
Print Assumptions C130_speciation.
Print Assumptions C130_alkalinity_balance.
Print Assumptions C130_shown.
Print Assumptions C130_increasing.
Print Assumptions C131_correlation_partial.
Print Assumptions C131_units_refuted.
Print Assumptions C132_drawn_partial.
Print Assumptions C132_all_drawn_partial.
Print Assumptions C132_all_drawn_refuted.
Print Assumptions C133_relative_partial.
Print Assumptions C133_order_refuted.
Print Assumptions C133_meq_refuted.
