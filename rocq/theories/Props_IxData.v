(** Properties C08-C11, C30 and C31: loading and saving ion-exchange data. *)
From Coq Require Import List String Reals Lra.
From Verif Require Import Lib_Py M_Units M_Params M_IxData S_Units S_Params S_IxData
  P_Units P_Params P_IxData.
Import ListNotations.
Open Scope string_scope.

(** ** C08: results are expressed in the user's units *)

(** Every ion's influent reaches the solver multiplied by its factor to meq. *)
Theorem C08_loaded_in_meq : forall params ions cin typed l rest,
  load_data params ions cin typed = Ok (l, rest) -> no_alkalinity cin ->
  NoDup (keys (ion_rows (l_ions l))) ->
  (forall n i, In (n, i) (ion_rows (l_ions l)) -> convertible i) ->
  keys (c_cols (l_Cin l)) = keys (c_cols cin) /\
  forall n i, In (n, i) (ion_rows (l_ions l)) ->
    exists x f, lookup n (c_cols cin) = Some x /\ conc_conv i (i_units i) "meq" f /\
      lookup n (c_cols (l_Cin l)) = Some (map (fun v => (f * v)%R) x).
Proof. exact load_meq. Qed.

(** Saved without asking for a unit, concentrations equal to the loaded influent
    are the user's own numbers under a label with the user's own unit. *)
Theorem C08_round_trip : forall params ions cin typed l rest period secs typed2 index,
  load_data params ions cin typed = Ok (l, rest) -> no_alkalinity cin ->
  NoDup (keys (ion_rows (l_ions l))) ->
  (forall n i, In (n, i) (ion_rows (l_ions l)) -> convertible i) ->
  time_index l period secs typed2 = Ok (index, typed2) ->
  forall outlet, List.length outlet = List.length (l_names l) ->
  (forall n c, In (n, c) (combine (l_names l) outlet) -> lookup n (c_cols (l_Cin l)) = Some c) ->
  exists out, save_results l period None secs outlet typed2 = Ok ((index, out), typed2) /\
    forall n i, In (n, i) (ion_rows (l_ions l)) ->
      exists x, lookup n (c_cols cin) = Some x /\
        In (column_label n (i_units i), x) out.
Proof. exact roundtrip. Qed.

(** Saved results of any kind: the outlet of each ion, from meq to the requested
    unit, or to the ion's own. *)
Theorem C08_saved_in_requested_unit : forall params ions cin typed l rest,
  load_data params ions cin typed = Ok (l, rest) ->
  NoDup (keys (ion_rows (l_ions l))) ->
  (forall n i, In (n, i) (ion_rows (l_ions l)) -> convertible i) ->
  forall period units secs outlet typed2 index,
  List.length outlet = List.length (l_names l) ->
  (forall u, units = Some u -> In u (keys (meq_of 1 1))) ->
  time_index l period secs typed2 = Ok (index, typed2) ->
  exists out, save_results l period units secs outlet typed2 = Ok ((index, out), typed2) /\
    forall n i col, In (n, i) (ion_rows (l_ions l)) -> In (n, col) (combine (l_names l) outlet) ->
      exists f, let unit := match units with Some u => u | None => i_units i end in
        conc_conv i "meq" unit f /\
        In (column_label n unit, map (fun v => (f * v)%R) col) out.
Proof.
  exact (fun params ions cin typed l rest H ND HC period units secs outlet t2 idx =>
    save_results_ok l period units secs outlet t2 idx (load_in_units _ _ _ _ _ _ H ND HC)).
Qed.
Print Assumptions C08_loaded_in_meq.
Print Assumptions C08_round_trip.
Print Assumptions C08_saved_in_requested_unit.

(** ** C09: alkalinity *)

(** The fraction is the one of the carbonate equilibrium, strictly between 0 and 1. *)
Theorem C09_fraction_range : forall pH, (0 < bicarb_alpha pH < 1)%R.
Proof. exact alpha_range. Qed.
Theorem C09_fraction_equilibrium : forall pH a b c, carbonate_equilibrium pH a b c ->
  (b = bicarb_alpha pH * (a + b + c))%R.
Proof. exact alpha_equilibrium. Qed.

Theorem C09_speciation : forall params ions cin typed l rest alk ph,
  load_data params ions cin typed = Ok (l, rest) ->
  mem_key "BICARBONATE" (c_cols cin) = false ->
  lookup "ALKALINITY" (c_cols cin) = Some alk -> lookup "PH" (c_cols cin) = Some ph ->
  NoDup (keys (ion_rows ions)) -> ~ In "PH" (keys (ion_rows ions)) ->
  (forall n i, In (n, i) (ion_rows ions) -> convertible i) ->
  exists ra ca, lookup "ALKALINITY" (ion_rows ions) = Some ra /\
    conc_conv ra (i_units ra) "meq" ca /\
    (exists bic, lookup "BICARBONATE" (c_cols (l_Cin l)) = Some bic /\ List.length bic = Nat.min (List.length ph) (List.length alk) /\
      forall k p a, nth_error ph k = Some p -> nth_error alk k = Some a -> nth_error bic k = Some (bicarb_alpha p * (ca * a))%R) /\
    lookup "ALKALINITY" (c_cols (l_Cin l)) = None /\
    lookup "PH" (c_cols (l_Cin l)) = None /\
    ~ In "ALKALINITY" (l_names l) /\ In "BICARBONATE" (l_names l) /\
    (forall n, n <> "ALKALINITY" -> n <> "PH" -> n <> "BICARBONATE" ->
      match lookup n (ion_rows ions) with
      | None => lookup n (c_cols (l_Cin l)) = lookup n (c_cols cin)
      | Some i => exists x f, lookup n (c_cols cin) = Some x /\
          conc_conv i (i_units i) "meq" f /\
          lookup n (c_cols (l_Cin l)) = Some (map (fun v => (f * v)%R) x)
      end).
Proof.
  intros params ions cin typed l rest alk ph H1 H2 H3 H4 H5 H6 H7.
  destruct (alkalinity_load params ions cin typed l rest alk ph H1 H2 H3 H4 H5 H6 H7) as (ra & ca & A & B & C & D).
  exists ra, ca. split; [exact A|]. split; [exact B|]. split; [|exact D]. eexists. split; [exact C|]. split.
  - unfold map2. rewrite map_length, combine_length. reflexivity.
  - clear. intros k. revert ph alk. unfold map2. induction k; intros [|p0 ph] [|a0 alk] p a E1 E2; try discriminate; cbn in E1, E2 |- *.
    + congruence.
    + apply IHk; assumption.
Qed.
(** The ion that carries the alkalinity is bicarbonate: 61.02 g/mol, charge 1, with the unit
    and the selectivity of the alkalinity row; so 1 mmol of it is 61.02 mg in every report. *)
Theorem C09_bicarbonate_ion : forall params ions cin typed l rest alk ph,
  load_data params ions cin typed = Ok (l, rest) ->
  mem_key "BICARBONATE" (c_cols cin) = false ->
  lookup "ALKALINITY" (c_cols cin) = Some alk -> lookup "PH" (c_cols cin) = Some ph ->
  exists ra rb, lookup "ALKALINITY" (ion_rows ions) = Some ra /\ lookup "BICARBONATE" (ion_rows (l_ions l)) = Some rb /\
    i_mw rb = (6102 / 100)%R /\ i_val rb = 1%nat /\ i_units rb = i_units ra /\ i_Kxc rb = i_Kxc ra.
Proof. exact bicarbonate_row. Qed.
Print Assumptions C09_bicarbonate_ion.
Print Assumptions C09_fraction_equilibrium.
Print Assumptions C09_speciation.

Ltac run := lazy -[IZR Rmult Rdiv Rminus Rplus Rinv Ropp dec pow Rpower INR bicarb_alpha bicarbMW];
  reflexivity.

(** A column sheet and ions for the examples. *)
Definition ex_params : sheet :=
  [("Q", quantity 1400 "meq/L"); ("EBED", {| p_value := PNum (dec 35 2); p_units := None |});
   ("v", quantity 1 "cm/s"); ("L", quantity 1 "m"); ("time", quantity 1 "hr");
   ("kL", quantity 2 "m/s"); ("Ds", quantity 3 "cm2/s")].
Definition ex_ion (mw : R) (val : nat) (u : string) : ion :=
  {| i_mw := mw; i_val := val; i_units := u; i_Kxc := 1; i_kL := 0; i_Ds := 0; i_Dp := 0 |}.
Definition ex_ions : ions_sheet :=
  {| has_kL := false; has_Ds := false; has_Dp := false;
     ion_rows := [("CHLORIDE", ex_ion 35 1 "mg"); ("ALKALINITY", ex_ion 100 2 "mg");
                  ("NITRATE", ex_ion 62 1 "mg")] |}.
Definition ex_cin : ctable :=
  {| c_times := [0; 10]%R;
     c_cols := [("CHLORIDE", [10; 20]); ("ALKALINITY", [100; 90]); ("NITRATE", [3; 4]);
                ("PH", [7; 8])]%R |}.
Definition ex_ions_plain : ions_sheet :=
  {| has_kL := false; has_Ds := false; has_Dp := false;
     ion_rows := [("CHLORIDE", ex_ion 35 1 "mg"); ("SULFATE", ex_ion 96 2 "meq")] |}.
Definition ex_cin_plain : ctable :=
  {| c_times := [0; 10]%R; c_cols := [("CHLORIDE", [10; 20]); ("SULFATE", [1; 2])]%R |}.

Lemma ex_ion_convertible mw val u : In u (keys (meq_of 1 1)) -> mw <> 0%R -> val <> 0 ->
  convertible (ex_ion mw val u).
Proof. intros. split; [assumption|]. split; assumption. Qed.

Example C08_plain : exists l, load_data ex_params ex_ions_plain ex_cin_plain [] = Ok (l, []) /\
  no_alkalinity ex_cin_plain /\ NoDup (keys (ion_rows (l_ions l))) /\
  (forall n i, In (n, i) (ion_rows (l_ions l)) -> convertible i) /\
  In "hours" (keys si_time).
Proof.
  eexists. split; [run|]. split; [right; left; reflexivity|]. split; [|split].
  - repeat constructor; simpl; intuition discriminate.
  - intros n i Hin. simpl in Hin. destruct Hin as [E|[E|[]]]; injection E as <- <-;
      (split; [simpl; tauto|split; [simpl; lra|discriminate]]).
  - simpl; tauto.
Qed.
Example C09_example : exists l, load_data ex_params ex_ions ex_cin [] = Ok (l, []) /\
  mem_key "BICARBONATE" (c_cols ex_cin) = false /\
  lookup "ALKALINITY" (c_cols ex_cin) = Some [100; 90]%R /\
  lookup "PH" (c_cols ex_cin) = Some [7; 8]%R /\
  NoDup (keys (ion_rows ex_ions)) /\ ~ In "PH" (keys (ion_rows ex_ions)) /\
  (forall n i, In (n, i) (ion_rows ex_ions) -> convertible i).
Proof.
  eexists. split; [run|]. split; [reflexivity|]. split; [reflexivity|].
  split; [reflexivity|]. split; [|split].
  - repeat constructor; simpl; intuition discriminate.
  - simpl; intuition discriminate.
  - intros n i Hin. simpl in Hin. destruct Hin as [E|[E|[E|[]]]]; injection E as <- <-;
      apply ex_ion_convertible; try discriminate; try (simpl; tauto); lra.
Qed.

(** ** C10: valences *)

(** The valences handed to the equilibrium calculation, in the order of the
    solved ions. *)
Theorem C10_valence_order_partial : forall params ions cin typed l rest,
  load_data params ions cin typed = Ok (l, rest) -> no_alkalinity cin ->
  l_valences l = map (fun kr => i_val (snd kr)) (ion_rows (l_ions l)).
Proof. exact valences_ok. Qed.
Theorem C10_valence_order_last_partial : forall params ions cin typed l rest rows ra,
  load_data params ions cin typed = Ok (l, rest) ->
  ion_rows ions = (rows ++ [("ALKALINITY", ra)])%list -> i_val ra = 1 ->
  ~ In "ALKALINITY" (keys rows) -> ~ In "BICARBONATE" (keys rows) ->
  l_valences l = map (fun kr => i_val (snd kr)) (ion_rows (l_ions l)).
Proof. exact valences_ok_last. Qed.

(** The full property is false of the code: alkalinity (valence 2) before nitrate
    makes the solver treat nitrate as divalent. *)
Theorem C10_valence_order_refuted : exists params ions cin l,
  load_data params ions cin [] = Ok (l, []) /\
  nth_error (l_names l) 1 = Some "NITRATE" /\
  lookup "NITRATE" (map (fun kr => (fst kr, i_val (snd kr))) (ion_rows ions)) = Some 1 /\
  nth_error (l_valences l) 1 = Some 2.
Proof.
  exists ex_params, ex_ions, ex_cin. eexists. split; [run|]. repeat split.
Qed.
Print Assumptions C10_valence_order_partial.
Print Assumptions C10_valence_order_last_partial.
Print Assumptions C10_valence_order_refuted.

(** ** C11: mass-transfer coefficients of the parameter sheet *)

(** Missing: units other than the solver's own; see the refutation. *)
Theorem C11_coefficients_converted_partial :
  forall params ions cin typed l rest k x u name has proj,
  load_data params ions cin typed = Ok (l, rest) ->
  In (name, k, has, proj)
    [("kL", Velocity, has_kL ions, i_kL); ("Ds", Diffusivity, has_Ds ions, i_Ds);
     ("Dp", Diffusivity, has_Dp ions, i_Dp)] ->
  lookup name params = Some (quantity x u) -> has = false -> lower u = solver_unit k ->
  forall n i, In (n, i) (ion_rows (l_ions l)) -> solver_value k x u (proj i).
Proof. exact coefficients_own_unit. Qed.

(** What the code does for every unit: the number is used as written. *)
Theorem C11_coefficients_as_written : forall params ions cin typed l rest,
  load_data params ions cin typed = Ok (l, rest) ->
  (forall x u, lookup "kL" params = Some (quantity x u) -> has_kL ions = false ->
     forall n i, In (n, i) (ion_rows (l_ions l)) -> i_kL i = x) /\
  (forall x u, lookup "Ds" params = Some (quantity x u) -> has_Ds ions = false ->
     forall n i, In (n, i) (ion_rows (l_ions l)) -> i_Ds i = x) /\
  (forall x u, lookup "Dp" params = Some (quantity x u) -> has_Dp ions = false ->
     forall n i, In (n, i) (ion_rows (l_ions l)) -> i_Dp i = x).
Proof. exact coefficients_raw. Qed.

(** 2 m/s given for kL is used as 2 cm/s. *)
Theorem C11_coefficients_converted_refuted : exists params ions cin l x u i,
  load_data params ions cin [] = Ok (l, []) /\
  lookup "kL" params = Some (quantity x u) /\ has_kL ions = false /\
  In (lower u) (units_of_kind Velocity) /\
  lookup "CHLORIDE" (ion_rows (l_ions l)) = Some i /\
  ~ solver_value Velocity x u (i_kL i).
Proof.
  exists ex_params, ex_ions_plain, ex_cin_plain. eexists. exists 2%R, "m/s". eexists.
  split; [run|]. split; [reflexivity|]. split; [reflexivity|].
  split; [apply mem_str_In; vm_compute; reflexivity|]. split; [reflexivity|].
  intros (f & sp & E & H). vm_compute in E. injection E as <- _. simpl in H. lra.
Qed.
Print Assumptions C11_coefficients_converted_partial.
Print Assumptions C11_coefficients_as_written.
Print Assumptions C11_coefficients_converted_refuted.

(** ** C30: the time index *)

Theorem C30_period : forall l period secs typed, In period (keys si_time) ->
  exists shown, time_index l period secs typed = Ok (shown, typed) /\
    in_period period secs shown.
Proof. exact time_index_si. Qed.
Theorem C30_bed_volumes : forall l secs typed len v,
  has_value (l_params l) "L" len -> has_value (l_params l) "v" v ->
  time_index l "BV" secs typed = Ok (map (fun s => (s / (len / v))%R) secs, typed).
Proof. exact time_index_BV. Qed.
(** The saved table carries that index. *)
Theorem C30_saved_index : forall l period units secs outlet typed index out rest,
  save_results l period units secs outlet typed = Ok ((index, out), rest) ->
  exists typed1, time_index l period secs typed = Ok (index, typed1).
Proof.
  unfold save_results, io_bind. intros l period units secs outlet typed index out rest H.
  destruct (time_index l period secs typed) as [[i t1]|] eqn:E; [|discriminate].
  exists t1. destruct (io_lift (from_meq l units) t1) as [[sp t2]|]; [|discriminate].
  destruct (conv_database sp _ t2) as [[[d ?] t3]|]; [|discriminate].
  destruct (io_lift _ t3) as [[lb t4]|]; [|discriminate].
  injection H as <- _ _. reflexivity.
Qed.
Print Assumptions C30_period.
Print Assumptions C30_bed_volumes.
Print Assumptions C30_saved_index.
Example C30_example : exists l len v, load_data ex_params ex_ions_plain ex_cin_plain [] = Ok (l, []) /\
  has_value (l_params l) "L" len /\ has_value (l_params l) "v" v.
Proof.
  eexists. eexists. eexists. split; [run|].
  split; eexists; reflexivity.
Qed.

(** ** C31: the dataframe converter *)

(** Missing from the full property: mass units for valences above 1, and meq. *)
Theorem C31_reported_units_partial : forall i, (0 < i_mw i)%R ->
  (i_val i = 1 /\ In (i_units i) ["mg"; "ug"; "ng"]) \/ (i_val i <> 0 /\ i_units i = "g") ->
  reports_own_unit conv_iex_u i.
Proof.
  intros i HM [(HV & Hu)|(HV & Hu)].
  - exact (proj1 (iex_mass_si i HM HV Hu)).
  - exact (iex_gram_si i HM HV Hu).
Qed.
(** The converter of the lead-lag module. *)
Theorem C31_lead_lag_reported_units_partial : forall i, (0 < i_mw i)%R ->
  (i_val i = 1 /\ In (i_units i) ["mg"; "ug"; "ng"]) \/ (i_val i <> 0 /\ i_units i = "meq") ->
  reports_own_unit ll_conv_iex_u i.
Proof.
  intros i HM [(HV & Hu)|(HV & Hu)].
  - exact (proj2 (iex_mass_si i HM HV Hu)).
  - exact (ll_meq_si i HM HV Hu).
Qed.
(** Every ion of valence 2 or more written in a mass unit is misreported. *)
Theorem C31_reported_units_refuted : forall i, (0 < i_mw i)%R -> 2 <= i_val i ->
  In (i_units i) ["mg"; "ug"; "ng"] ->
  ~ reports_own_unit conv_iex_u i /\ ~ reports_own_unit ll_conv_iex_u i.
Proof. exact iex_mass_wrong. Qed.
(** So is every ion lighter than 1000 g/mol written in meq. *)
Theorem C31_reported_meq_refuted : forall i, (0 < i_mw i < 1000)%R -> i_val i <> 0 ->
  i_units i = "meq" -> ~ reports_own_unit conv_iex_u i.
Proof. exact iex_meq_wrong. Qed.
Print Assumptions C31_reported_units_partial.
Print Assumptions C31_lead_lag_reported_units_partial.
Print Assumptions C31_reported_units_refuted.
Print Assumptions C31_reported_meq_refuted.
Example C31_chloride : (0 < i_mw (ex_ion 35 1 "mg"))%R /\ i_val (ex_ion 35 1 "mg") = 1 /\
  In (i_units (ex_ion 35 1 "mg")) ["mg"; "ug"; "ng"].
Proof. simpl. split; [lra|]. auto. Qed.
Example C31_sulfate : (0 < i_mw (ex_ion 96 2 "mg"))%R /\ 2 <= i_val (ex_ion 96 2 "mg").
Proof. simpl. split; [lra|]. auto. Qed.

Print Assumptions C09_fraction_range.
