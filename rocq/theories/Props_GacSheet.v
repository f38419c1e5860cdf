(** Properties C32, C33, C66: granular-carbon column sheets. *)
From Coq Require Import List String Reals Bool Arith Lra Lia.
From Verif Require Import Lib_Py M_GacSheet S_Units S_GacSheet P_GacSheet.
Import ListNotations.
Open Scope string_scope.

(** ** C32 — unit conversion *)

(** Row label, stored value, units of its kind, unit of the stored value. *)
Definition converted_rows : list (string * (gac -> R) * list (string * R) * string) :=
  [("length", g_L, gac_length, "cm"); ("diameter", g_diam, gac_length, "cm");
   ("radius", g_rad, gac_length, "cm"); ("particleDensity", g_rhop, gac_density, "g/ml");
   ("apparentDensity", g_rhof, gac_density, "g/ml"); ("flowrate", g_flrt, gac_flow, "ml/min");
   ("weight", g_wt, gac_mass, "g")].

Theorem C32_values_physical : forall s g, read_sheet s = Ok g ->
  forall label field size target, In (label, field, size, target) converted_rows ->
  exists v u, lookup label (s_num s) = Some (v, Some u) /\
    (In (lower u) (keys size) -> same_quantity (dec 1 6) size target (field g) v (lower u)) /\
    (unknown_unit size (lower u) -> field g = 0%R).
Proof.
  intros s g H label field size target Hin.
  destruct (read_inv s g H) as (fL & fd & fr & fp & fa & ff & fw & L1 & L2 & L3 & L4 & L5 & L6 & L7
    & E1 & E2 & E3 & E4 & E5 & E6 & E7 & _).
  cbn in Hin.
  repeat match goal with X : _ \/ _ |- _ => destruct X as [X|X] end; try contradiction;
    inversion Hin; subst;
    (eexists _, _; split; [eassumption|]);
    rewrite ?E1, ?E2, ?E3, ?E4, ?E5, ?E6, ?E7;
    auto using dim_ok, dens_ok, flow_ok, mass_ok, dim_unknown, dens_unknown, flow_unknown, mass_unknown.
Qed.

(** Unit-less rows are stored as written. *)
Theorem C32_plain_values : forall s g, read_sheet s = Ok g ->
  (exists u, lookup "tortuosity" (s_num s) = Some (g_tortu g, u)) /\
  (exists u, lookup "porosity" (s_num s) = Some (g_epor g, u)) /\
  (exists u, lookup "psdfr" (s_num s) = Some (g_psdfr g, u)).
Proof.
  intros s g H.
  destruct (read_inv s g H) as (? & ? & ? & ? & ? & ? & ? & _ & _ & _ & _ & _ & _ & _
    & _ & _ & _ & _ & _ & _ & _ & _ & _ & _ & A & B & C). auto.
Qed.

(** Concentrations: factor to ug/L; times: minutes; flows, already in ml/min, are
    turned into litres. *)
Theorem C32_multipliers : forall s g, read_sheet s = Ok g ->
  (exists u, lookup "units" (s_text s) = Some u /\
     (In (lower u) (keys gac_conc) -> lookup (lower u) gac_conc = Some (g_mass_mul g))) /\
  (forall t, lookup "time" (s_text s) = Some t -> In t (keys gac_time) ->
     lookup t gac_time = Some (g_t_mult g) /\ lookup (g_time g) gac_time = Some (g_t_mult g)) /\
  (lookup "time" (s_text s) = None -> g_time g = "days" /\ g_t_mult g = 1440%R) /\
  (g_flow_mult g * 1000 = 1)%R.
Proof.
  intros s g H.
  destruct (read_inv s g H) as (? & ? & ? & ? & ? & ? & ? & _ & _ & _ & _ & _ & _ & _
    & _ & _ & _ & _ & _ & _ & _ & (u & Lu & _ & Mu) & T & F & _).
  split; [|split; [|split]].
  - exists u. split; [exact Lu|]. rewrite Mu. apply conc_ok.
  - intros t Lt Ht. rewrite Lt in T. rewrite (time_ok t Ht), <- T. split; [reflexivity|].
    replace (g_time g) with (fst (time_unit (Some t))) by (rewrite <- T; reflexivity).
    replace (g_t_mult g) with (snd (time_unit (Some t))) by (rewrite <- T; reflexivity). apply time_name, Ht.
  - intros Lt. rewrite Lt in T. injection T as -> ->. split; [reflexivity|]. unfold min_per_day. lra.
  - rewrite F. unfold dec. simpl. lra.
Qed.

(** ** C33 — derived column values *)

(** The same quantities given as keyword arguments: minutes in the unit of time, litres in that of
    volume (a US gallon is 3.785411784 L), micrograms in that of mass. *)
Theorem C32_keyword_units :
  (forall u k, In (u, k) [("days", 1440%R); ("hours", 60%R); ("min", 1%R); ("mins", 1%R); ("minutes", 1%R)] -> kw_t_mult u = k) /\
  (forall u k, In (u, k) [("gal", (3785411784 / 1000000000)%R); ("ml", (1 / 1000)%R); ("L", 1%R); ("l", 1%R)] -> kw_flow_mult u = k) /\
  (forall u k, In (u, k) [("ug", 1%R); ("ng", (1 / 1000)%R); ("mg", 1000%R)] -> kw_mass_mul u = k).
Proof.
  repeat split; intros u k H; repeat (destruct H as [H|H]; [inversion H; subst; clear H|]); try destruct H;
    unfold kw_t_mult, kw_flow_mult, kw_mass_mul; cbn [String.eqb Ascii.eqb Bool.eqb]; unfold min_per_day, lpg, dec; try reflexivity; cbn [pow]; lra.
Qed.

Theorem C33_derived_values_consistent : forall g vw dw,
  (0 < g_diam g)%R -> (0 < g_L g)%R -> (0 < g_flrt g)%R -> (0 < g_rhop g)%R -> (0 < g_wt g)%R ->
  (0 < vw)%R -> (0 < dw)%R -> (0 < g_rad g)%R ->
  (* the bed is a cylinder *)
  (d_bedvol g = PI * (g_diam g / 2) ^ 2 * g_L g)%R /\
  (* carbon and voids fill it *)
  (g_wt g / g_rhop g + d_ebed g * d_bedvol g = d_bedvol g)%R /\
  (* flow = superficial velocity (cm/s) times cross-section, per minute *)
  (d_vs g * d_area g * 60 = g_flrt g)%R /\
  (* empty-bed contact time (min) and residence time (s) *)
  (d_ebct g * g_flrt g = d_bedvol g)%R /\
  (d_tau g = 60 * d_ebct g * d_ebed g)%R /\
  (d_ebed g * g_L g = d_vs g * d_tau g)%R /\
  (* porosity is a fraction exactly when the carbon fits *)
  ((0 < d_ebed g < 1)%R <-> (g_wt g < d_bedvol g * g_rhop g)%R) /\
  (* loading in gallons per minute and square foot *)
  (Rabs (d_sf g * (3785411784 / 1000000) / (2.54 * 12) ^ 2 * d_area g / g_flrt g - 1) <= 1 / 10 ^ 9)%R /\
  (* Reynolds number of the particle diameter and the interstitial velocity *)
  (d_ebed g <> 0 -> d_re g vw dw * vw = dw * (2 * g_rad g) * (d_vs g / d_ebed g))%R.
Proof.
  intros g vw dw Hd HL Hf Hp Hw Hv Hdw Hr.
  assert (HPI := PI_RGT_0).
  assert (Ha : (0 < d_area g)%R).
  { unfold d_area. apply Rmult_lt_0_compat; [|lra]. apply Rmult_lt_0_compat; [exact HPI|].
    apply pow_lt. exact Hd. }
  assert (Hb : (0 < d_bedvol g)%R) by (unfold d_bedvol; apply Rmult_lt_0_compat; assumption).
  assert (Hbp : (0 < d_bedvol g * g_rhop g)%R) by (apply Rmult_lt_0_compat; assumption).
  split; [unfold d_bedvol, d_area; field|].
  split; [unfold d_ebed; field; lra|].
  split; [unfold d_vs; field; lra|].
  split; [unfold d_ebct, d_bedvol; field; lra|].
  split; [unfold d_tau, d_ebct, d_bedvol; field; lra|].
  split; [unfold d_tau, d_vs, d_bedvol; field; lra|].
  split; [|split].
  - unfold d_ebed. assert (Hq : (0 < g_wt g / (d_bedvol g * g_rhop g))%R)
      by (apply Rdiv_lt_0_compat; assumption).
    split.
    + intros (A & _). apply (Rmult_lt_reg_r (/ (d_bedvol g * g_rhop g))); [apply Rinv_0_lt_compat; exact Hbp|].
      rewrite Rinv_r by lra. fold (g_wt g / (d_bedvol g * g_rhop g))%R. lra.
    + intros A. split; [|lra].
      assert (g_wt g / (d_bedvol g * g_rhop g) < 1)%R; [|lra].
      apply (Rmult_lt_reg_r (d_bedvol g * g_rhop g)); [exact Hbp|].
      unfold Rdiv. rewrite Rmult_assoc, Rinv_l by lra. lra.
  - unfold d_sf.
    replace (dec 245423867471 12 * g_flrt g / d_area g * (3785411784 / 1000000) / (2.54 * 12) ^ 2 * d_area g / g_flrt g)%R
      with (dec 245423867471 12 * (3785411784 / 1000000) / (2.54 * 12) ^ 2)%R by (field; lra).
    unfold dec. apply Rabs_le. simpl. lra.
  - intros He. unfold d_re. field. split; lra.
Qed.

(** ** C66 — unrecognised units *)

(** An empty unit cell is refused. *)
Theorem C66_missing_unit_refused_partial : forall s label v,
  In label ["length"; "diameter"; "radius"; "particleDensity"; "apparentDensity"; "flowrate"; "weight"] ->
  lookup label (s_num s) = Some (v, None) -> forall g, read_sheet s <> Ok g.
Proof.
  intros s label v Hin Hl g H.
  destruct (read_inv s g H) as (fL & fd & fr & fp & fa & ff & fw & L1 & L2 & L3 & L4 & L5 & L6 & L7 & _).
  cbn in Hin. repeat destruct Hin as [<-|Hin]; try contradiction; congruence.
Qed.
(** Fails: a length in micrometres is read as zero, ... *)
Definition ex_sheet (ul units : string) (time : list (string * string)) : sheet :=
  {| s_num := [("length", (12%R, Some ul)); ("diameter", (1%R, Some "in")); ("radius", (dec 5 1, Some "mm"));
               ("particleDensity", (dec 8 1, Some "g/ml")); ("apparentDensity", (dec 5 1, Some "g/ml"));
               ("flowrate", (1%R, Some "gpm")); ("weight", (1%R, Some "lb")); ("tortuosity", (1%R, None));
               ("porosity", (dec 6 1, None)); ("psdfr", (5%R, None))];
     s_text := ([("carbonID", "F400"); ("influentID", "influent"); ("effluentID", "effluent");
                ("units", units)] ++ time)%list |}.
Theorem C66_unknown_length_refuted : exists g,
  read_sheet (ex_sheet "um" "ug" []) = Ok g /\ g_L g = 0%R.
Proof. eexists. split; reflexivity. Qed.
(** ... mg/L data are read as ng/L, although the class means 1000 ug by 'mg', ... *)
Theorem C66_milligrams_refuted : forall s g, read_sheet s = Ok g ->
  lookup "units" (s_text s) = Some "mg" -> g_units g = "ng" /\ (kw_mass_mul "mg" = 1000000 * g_mass_mul g)%R.
Proof.
  intros s g H Hu.
  destruct (read_inv s g H) as (? & ? & ? & ? & ? & ? & ? & _ & _ & _ & _ & _ & _ & _
    & _ & _ & _ & _ & _ & _ & _ & (u & Lu & Gu & Mu) & _).
  rewrite Hu in Lu. inversion Lu. subst u. rewrite Gu, Mu. split; [reflexivity|].
  change (conc_mult (conc_unit (lower "mg"))) with (dec 1 3). change (kw_mass_mul "mg") with 1000%R.
  unfold dec. simpl. lra.
Qed.
(** ... and times in 'hours' are read as minutes, although the class means 60 minutes
    by 'hours'. *)
Theorem C66_hours_refuted : forall s g, read_sheet s = Ok g ->
  lookup "time" (s_text s) = Some "hours" -> g_t_mult g = 1%R /\ kw_t_mult "hours" = 60%R.
Proof.
  intros s g H Hu.
  destruct (read_inv s g H) as (? & ? & ? & ? & ? & ? & ? & _ & _ & _ & _ & _ & _ & _
    & _ & _ & _ & _ & _ & _ & _ & _ & T & _).
  rewrite Hu in T. inversion T. split; reflexivity.
Qed.

(** ** A concrete sheet *)
Example ex_reads : exists g, read_sheet (ex_sheet "FT" "ppb" [("time", "hr")]) = Ok g /\
  g_L g = (12 * (dec 254 2 * 12))%R /\ g_mass_mul g = 1%R /\ g_t_mult g = 60%R /\
  (0 < g_wt g < d_bedvol g * g_rhop g)%R.
Proof.
  eexists. split; [reflexivity|]. split; [reflexivity|]. split; [reflexivity|]. split; [reflexivity|].
  match goal with |- (0 < g_wt ?g < _)%R =>
    change (0 < 1 * gm_per_lb < PI * (1 * dec 254 2) ^ 2 / 4 * (12 * cm_per_ft) * (dec 8 1 * 1))%R end.
  unfold gm_per_lb, cm_per_ft, dec.
  assert (H3 : (3 < PI)%R) by (assert (A := PI2_3_2); lra).
  simpl. split; [lra|]. nra.
Qed.

Print Assumptions C32_values_physical.
Print Assumptions C32_plain_values.
Print Assumptions C32_multipliers.
Print Assumptions C32_keyword_units.
Print Assumptions C33_derived_values_consistent.
Print Assumptions C66_missing_unit_refused_partial.
Print Assumptions C66_unknown_length_refuted.
Print Assumptions C66_milligrams_refuted.
Print Assumptions C66_hours_refuted.
