(** Properties C01-C04: unit conversions of ion-exchange parameter sheets. *)
From Coq Require Import List String Reals Lra Lia.
From Verif Require Import Lib_Py M_Units S_Units P_Units.
Import ListNotations.
Open Scope string_scope.

(** ** C01: simple conversions are a consistent system *)

Theorem C01_length_consistent : coherent_converter (keys si_length) conv_length.
Proof. exact length_conv_coherent. Qed.
Theorem C01_volume_consistent : coherent_converter (keys si_volume) conv_volume.
Proof. exact volume_conv_coherent. Qed.
Theorem C01_time_consistent : coherent_converter (keys si_time) conv_time.
Proof. exact time_conv_coherent. Qed.
Theorem C01_area_consistent : coherent_converter (keys si_area) conv_area.
Proof. exact area_conv_coherent. Qed.
Theorem C01_weight_consistent : coherent_converter (keys si_weight) conv_weight.
Proof. exact weight_conv_coherent. Qed.
Theorem C01_concentration_consistent : forall MW val,
  MW <> 0%R -> val <> 0%R ->
  coherent_converter (keys (meq_of MW val)) (conv_conc MW val).
Proof. exact conc_conv_coherent. Qed.
Print Assumptions C01_length_consistent.
Print Assumptions C01_concentration_consistent.

(** The hypotheses are met by sulfate. *)
Example C01_sulfate :
  coherent_converter (keys (meq_of (dec 9606 2) 2)) (conv_conc (dec 9606 2) 2).
Proof. apply C01_concentration_consistent; unfold dec; simpl; lra. Qed.

(** The concrete factor from feet to centimetres. *)
Example C01_feet : conv_length "ft" "cm" [] = Ok ((100 / dec 32808 4)%R, "ft", "cm", []).
Proof. reflexivity. Qed.

(** ** C02: the factors are the physical ones *)

Theorem C02_length_physical : physical_converter (dec 2 5) si_length conv_length.
Proof. exact length_physical. Qed.
Theorem C02_volume_physical : physical_converter (dec 2 5) si_volume conv_volume.
Proof. exact volume_physical. Qed.
Theorem C02_time_physical : physical_converter (dec 2 5) si_time conv_time.
Proof. exact time_physical. Qed.
Theorem C02_area_physical : physical_converter (dec 2 5) si_area conv_area.
Proof. exact area_physical. Qed.
Theorem C02_weight_physical : physical_converter (dec 2 5) si_weight conv_weight.
Proof. exact weight_physical. Qed.
(** Every concentration unit but "mg as N". *)
Theorem C02_concentration_physical_partial : forall MW val,
  (0 < MW)%R -> (0 < val)%R ->
  physical_converter (dec 2 5) (remove_key "mgN" (meq_of MW val)) (conv_conc MW val).
Proof. exact conc_physical. Qed.
(** "mg as N" is off by more than 4e-4 (and less than 5e-4) for every ion: the
    code uses 14.001 for the molar mass of nitrogen. *)
Theorem C02_mgN_refuted : forall MW val t, (0 < MW)%R -> (0 < val)%R ->
  exists factor, conv_conc MW val "mgN" "meq" t = Ok (factor, "mgN", "meq", t) /\
    ~ physical (dec 4 4) (meq_of MW val) "mgN" "meq" factor /\
    physical (dec 5 4) (meq_of MW val) "mgN" "meq" factor.
Proof. exact conc_mgN_off. Qed.

Theorem C02_length_spelling : spelling_converter si_length conv_length.
Proof. exact length_spelling. Qed.
Theorem C02_volume_spelling : spelling_converter si_volume conv_volume.
Proof. exact volume_spelling. Qed.
Theorem C02_time_spelling : spelling_converter si_time conv_time.
Proof. exact time_spelling. Qed.
Theorem C02_area_spelling : spelling_converter si_area conv_area.
Proof. exact area_spelling. Qed.
Theorem C02_weight_spelling : spelling_converter si_weight conv_weight.
Proof. exact weight_spelling. Qed.
(** metric units, times and amounts of substance have no rounding at all *)
Lemma exact_conv_units U C size base : (0 < base)%R -> List.length U = List.length C -> forallb (fun x => mem_str x U) (keys size) = true ->
  (forall a, In a (keys size) -> exists s, lookup a size = Some s /\ s <> 0%R /\ (coef_of U C a * s = base)%R) ->
  physical_converter 0 size (fun a b => conv_units a b U C).
Proof.
  intros HB HL E H a b t Ha Hb.
  assert (HE : forall x, In x (keys size) -> In x U) by (intros x Hx; apply mem_str_In; rewrite forallb_forall in E; apply E, Hx).
  exists (unit_factor U C a b). split; [apply conv_units_ok; [assumption| |]; apply HE; assumption|].
  destruct (H a Ha) as (sa & Hsa & Hsa0 & Ba). destruct (H b Hb) as (sb & Hsb & Hsb0 & Bb). exists sa, sb. split; [assumption|split; [assumption|]].
  unfold unit_factor. set (ca := coef_of U C a) in *. set (cb := coef_of U C b) in *.
  assert (Hca : ca <> 0%R) by (intros Z; rewrite Z in Ba; lra).
  replace (cb / ca * (sb / sa) - 1)%R with ((cb * sb - ca * sa) / (ca * sa))%R by (field; split; assumption).
  rewrite Ba, Bb. replace ((base - base) / base)%R with 0%R by (field; lra). rewrite Rabs_R0. lra.
Qed.
Ltac table_exact :=
  let a := fresh "a" in let H := fresh "H" in
  intros a H; cbn in H;
  repeat (destruct H as [<-|H]; [eexists; split; [reflexivity|]; unfold coef_of, dec;
     cbn [index_of String.eqb Ascii.eqb Bool.eqb option_map nth length_units volume_units time_units area_units weight_units length_coefs volume_coefs time_coefs area_coefs weight_coefs dec pow];
     unfold dec; cbn [pow]; split; lra|]);
  destruct H.
Theorem C02_metric_exact :
  physical_converter 0 [("m", 1%R); ("cm", (1 / 100)%R); ("mm", (1 / 1000)%R); ("um", (1 / 1000000)%R)] conv_length /\
  physical_converter 0 [("m3", 1%R); ("cm3", (1 / 1000000)%R); ("ml", (1 / 1000000)%R); ("mm3", (1 / 1000000000)%R); ("L", (1 / 1000)%R); ("l", (1 / 1000)%R)] conv_volume /\
  physical_converter 0 si_time conv_time /\
  physical_converter 0 [("m2", 1%R); ("cm2", (1 / 10000)%R); ("mm2", (1 / 1000000)%R)] conv_area /\
  physical_converter 0 [("kg", 1%R); ("g", (1 / 1000)%R); ("mg", (1 / 1000000)%R); ("ug", (1 / 1000000000)%R); ("ng", (1 / 1000000000000)%R)] conv_weight.
Proof.
  split; [apply (exact_conv_units length_units length_coefs _ 1); [lra|reflexivity|reflexivity|]; table_exact|].
  split; [apply (exact_conv_units volume_units volume_coefs _ 1); [lra|reflexivity|reflexivity|]; table_exact|].
  split; [apply (exact_conv_units time_units time_coefs _ 86400); [lra|reflexivity|reflexivity|]; table_exact|].
  split; [apply (exact_conv_units area_units area_coefs _ 1); [lra|reflexivity|reflexivity|]; table_exact|].
  apply (exact_conv_units weight_units weight_coefs _ 1); [lra|reflexivity|reflexivity|]; table_exact.
Qed.
Theorem C02_concentration_exact_partial MW val : (0 < MW)%R -> (0 < val)%R ->
  physical_converter 0 [("meq", 1%R); ("eq", 1000%R); ("g", (1000 * val / MW)%R); ("mg", (val / MW)%R); ("ug", (val / MW / 1000)%R); ("ng", (val / MW / 1000000)%R); ("mgC", (val * 1000 / 12011)%R)] (conv_conc MW val).
Proof.
  intros HM HV. apply (exact_conv_units conc_units (conc_coefs MW val) _ 1); [lra|reflexivity|reflexivity|].
  assert (P : (0 < val / MW)%R) by (apply Rdiv_lt_0_compat; assumption).
  intros a H. cbn in H.
  repeat (destruct H as [<-|H]; [eexists; split; [reflexivity|]; unfold coef_of, dec; cbn [index_of String.eqb Ascii.eqb Bool.eqb option_map nth conc_units conc_coefs dec pow];
    unfold dec; cbn [pow]; split; [unfold Rdiv in *; try lra; nra|try (field; lra); lra]|]).
  destruct H.
Qed.
Print Assumptions C02_metric_exact.
Print Assumptions C02_concentration_exact_partial.
Print Assumptions C02_volume_physical.
Print Assumptions C02_concentration_physical_partial.
Print Assumptions C02_mgN_refuted.
Print Assumptions C02_time_spelling.

Example C02_gallons : In "gal" (keys si_volume) /\ In "ft3" (keys si_volume).
Proof. split; simpl; tauto. Qed.
Example C02_two_spellings : In ("hours", 3600%R) si_time /\ In ("hr", 3600%R) si_time.
Proof. split; simpl; tauto. Qed.

(** ** C03: unknown units *)

Theorem C03_length_guarded : guarded_converter (keys si_length) conv_length.
Proof. exact (guarded_conv_units length_units (keys si_length) length_coefs eq_refl eq_refl). Qed.
Theorem C03_volume_guarded : guarded_converter (keys si_volume) conv_volume.
Proof. exact (guarded_conv_units volume_units (keys si_volume) volume_coefs eq_refl eq_refl). Qed.
Theorem C03_time_guarded : guarded_converter (keys si_time) conv_time.
Proof. exact (guarded_conv_units time_units (keys si_time) time_coefs eq_refl eq_refl). Qed.
Theorem C03_area_guarded : guarded_converter (keys si_area) conv_area.
Proof. exact (guarded_conv_units area_units (keys si_area) area_coefs eq_refl eq_refl). Qed.
Theorem C03_weight_guarded : guarded_converter (keys si_weight) conv_weight.
Proof. exact (guarded_conv_units weight_units (keys si_weight) weight_coefs eq_refl eq_refl). Qed.
Theorem C03_concentration_guarded : forall MW val,
  guarded_converter (keys (meq_of MW val)) (conv_conc MW val).
Proof.
  exact (fun MW val =>
    guarded_conv_units conc_units (keys (meq_of MW val)) (conc_coefs MW val) eq_refl eq_refl).
Qed.
Print Assumptions C03_length_guarded.
Print Assumptions C03_concentration_guarded.

(** A misspelt unit, a second misspelling, then an accepted answer. *)
Example C03_retry :
  conv_length "metre" "cm" ["meter"; "m"; "ft"] = Ok ((100 / 1)%R, "m", "cm", ["ft"]).
Proof. reflexivity. Qed.
Example C03_exit : conv_length "m" "cubit" ["m"] = Err SystemExit.
Proof. reflexivity. Qed.

(** ** C04: compound units *)

Theorem C04_flow : coherent_compound (slash_units (keys si_volume) (keys si_time)) conv_vol_per_time
  /\ quotient_converter (keys si_volume) (keys si_time) conv_volume conv_time conv_vol_per_time.
Proof.
  exact (conj (compound_coherent (keys si_volume) (keys si_time) _ _ relabel_flow eq_refl volume_conv_coherent time_conv_coherent)
              (compound_quotient (keys si_volume) (keys si_time) _ _ relabel_flow eq_refl volume_conv_coherent time_conv_coherent)).
Qed.
Theorem C04_flow_gpm : forall u_out t,
  conv_vol_per_time "gpm" u_out t = conv_vol_per_time "gal/min" u_out t.
Proof. exact gpm_is_gal_per_min. Qed.
Theorem C04_velocity : coherent_compound (slash_units (keys si_length) (keys si_time)) conv_vel
  /\ quotient_converter (keys si_length) (keys si_time) conv_length conv_time conv_vel.
Proof.
  exact (conj (compound_coherent (keys si_length) (keys si_time) _ _ relabel_slash eq_refl length_conv_coherent time_conv_coherent)
              (compound_quotient (keys si_length) (keys si_time) _ _ relabel_slash eq_refl length_conv_coherent time_conv_coherent)).
Qed.
Theorem C04_density : coherent_compound (slash_units (keys si_weight) (keys si_volume)) conv_dens
  /\ quotient_converter (keys si_weight) (keys si_volume) conv_weight conv_volume conv_dens.
Proof.
  exact (conj (compound_coherent (keys si_weight) (keys si_volume) _ _ relabel_dens eq_refl weight_conv_coherent volume_conv_coherent)
              (compound_quotient (keys si_weight) (keys si_volume) _ _ relabel_dens eq_refl weight_conv_coherent volume_conv_coherent)).
Qed.
Theorem C04_diffusivity : coherent_compound (slash_units (keys si_area) (keys si_time)) conv_area_per_time
  /\ quotient_converter (keys si_area) (keys si_time) conv_area conv_time conv_area_per_time.
Proof.
  exact (conj (compound_coherent (keys si_area) (keys si_time) _ _ relabel_slash eq_refl area_conv_coherent time_conv_coherent)
              (compound_quotient (keys si_area) (keys si_time) _ _ relabel_slash eq_refl area_conv_coherent time_conv_coherent)).
Qed.
Theorem C04_capacity_mass : forall MW val, MW <> 0%R -> val <> 0%R ->
  coherent_compound (slash_units (keys (meq_of MW val)) (keys si_weight)) (conv_capacity_mass MW val)
  /\ quotient_converter (keys (meq_of MW val)) (keys si_weight)
       (conv_conc MW val) conv_weight (conv_capacity_mass MW val).
Proof.
  exact (fun MW val HM Hv =>
    conj (compound_coherent (keys (meq_of MW val)) (keys si_weight) _ _ relabel_slash eq_refl (conc_conv_coherent MW val HM Hv) weight_conv_coherent)
         (compound_quotient (keys (meq_of MW val)) (keys si_weight) _ _ relabel_slash eq_refl (conc_conv_coherent MW val HM Hv) weight_conv_coherent)).
Qed.
Theorem C04_capacity_volume : forall MW val, MW <> 0%R -> val <> 0%R ->
  coherent_compound (slash_units (keys (meq_of MW val)) (keys si_volume)) (conv_capacity_vol MW val)
  /\ quotient_converter (keys (meq_of MW val)) (keys si_volume)
       (conv_conc MW val) conv_volume (conv_capacity_vol MW val).
Proof.
  exact (fun MW val HM Hv =>
    conj (compound_coherent (keys (meq_of MW val)) (keys si_volume) _ _ relabel_slash eq_refl (conc_conv_coherent MW val HM Hv) volume_conv_coherent)
         (compound_quotient (keys (meq_of MW val)) (keys si_volume) _ _ relabel_slash eq_refl (conc_conv_coherent MW val HM Hv) volume_conv_coherent)).
Qed.
Print Assumptions C04_flow.
Print Assumptions C04_capacity_mass.

Example C04_gpm_member : In "gal/min" (slash_units (keys si_volume) (keys si_time)).
Proof. vm_compute. tauto. Qed.
Example C04_bed_flow :
  conv_vol_per_time "L/hr" "cm3/s" []
  = Ok ((1000000 / 1000 / (24 * 60 * 60 / 24))%R, "L/hr", "cm3/s", []).
Proof. reflexivity. Qed.

Print Assumptions C01_volume_consistent.
Print Assumptions C01_time_consistent.
Print Assumptions C01_area_consistent.
Print Assumptions C01_weight_consistent.
Print Assumptions C02_length_physical.
Print Assumptions C02_time_physical.
Print Assumptions C02_area_physical.
Print Assumptions C02_weight_physical.
Print Assumptions C02_length_spelling.
Print Assumptions C02_volume_spelling.
Print Assumptions C02_area_spelling.
Print Assumptions C02_weight_spelling.
Print Assumptions C03_volume_guarded.
Print Assumptions C03_time_guarded.
Print Assumptions C03_area_guarded.
Print Assumptions C03_weight_guarded.
Print Assumptions C04_flow_gpm.
Print Assumptions C04_velocity.
Print Assumptions C04_density.
Print Assumptions C04_diffusivity.
Print Assumptions C04_capacity_volume.
