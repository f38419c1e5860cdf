(** Properties C119, C120 and C121: results of batch reactors and of the command line. *)
From Coq Require Import List String Reals Lra Lia Bool.
From Verif Require Import Lib_Py M_Units M_Params M_IxData M_IxRun S_Units S_Params S_IxData P_Units P_Params P_IxData P_IxRun Props_IxData.
Import ListNotations.
Open Scope string_scope.
Local Notation length := List.length.

(** ** C119: a batch reactor's sheet and its saved results *)
(** The tank starts with the sheet's numbers in meq/L. *)
Theorem C119_loaded_in_meq : forall rows C0 typed c rest,
  batch_C0 rows C0 typed = Ok (c, rest) -> NoDup (keys rows) -> (forall n i, In (n, i) rows -> convertible i) ->
  forall n i, In (n, i) rows -> exists x f, lookup n C0 = Some x /\ conc_conv i (i_units i) "meq" f /\ lookup n c = Some (f * x)%R.
Proof.
  intros rows C0 typed c rest H ND HC n i I. destruct (batch_C0_ok _ _ _ _ _ H ND n i I) as (x & u & L1 & L2 & L3 & L4).
  destruct (HC n i I) as (A & _). assert (A' : In (i_units i) conc_units) by (apply accepted_iff; exact A).
  rewrite (L3 A') in L4. eexists. eexists. split; [exact L1|]. split; [|exact L4]. apply conc_conv_factor; [exact A'|cbn; tauto].
Qed.
(** Saved results: times in the requested unit, each ion's column in the requested unit or
    its own, labelled with it. *)
Theorem C119_saved : forall rows period units secs tank typed,
  NoDup (keys rows) -> (forall n i, In (n, i) rows -> convertible i) ->
  In period (keys si_time) -> (forall u, units = Some u -> In u (keys (meq_of 1 1))) -> length tank = length rows ->
  exists shown out, batch_save rows period units secs tank typed = Ok ((shown, out), typed) /\ in_period period secs shown /\
    forall n i col, In (n, i) rows -> In (n, col) (combine (keys rows) tank) ->
      exists f, let unit := match units with Some u => u | None => i_units i end in
        conc_conv i "meq" unit f /\ In (column_label n unit, map (fun v => (f * v)%R) col) out.
Proof. exact batch_save_ok. Qed.
(** The first row of the results is the sheet. *)
Theorem C119_round_trip : forall rows C0 typed c rest period secs tank typed2,
  batch_C0 rows C0 typed = Ok (c, rest) -> NoDup (keys rows) -> (forall n i, In (n, i) rows -> convertible i) ->
  In period (keys si_time) -> length tank = length rows ->
  (forall n col, In (n, col) (combine (keys rows) tank) -> exists x r, lookup n c = Some x /\ col = x :: r) ->
  exists shown out, batch_save rows period None secs tank typed2 = Ok ((shown, out), typed2) /\
    forall n i, In (n, i) rows -> exists x r, lookup n C0 = Some x /\ In (column_label n (i_units i), x :: r) out.
Proof.
  intros rows C0 typed c rest period secs tank typed2 H ND HC Hp Hl Hs.
  destruct (batch_save_ok rows period None secs tank typed2 ND HC Hp ltac:(discriminate) Hl) as (shown & out & E & _ & P).
  exists shown, out. split; [exact E|]. intros n i I.
  destruct (C119_loaded_in_meq _ _ _ _ _ H ND HC n i I) as (x & f & L1 & L2 & L3).
  assert (Hk : In n (keys (combine (keys rows) tank))).
  { rewrite keys_combine by (unfold keys; rewrite map_length; lia). apply (in_map fst) in I. exact I. }
  unfold keys in Hk at 1. apply in_map_iff in Hk. destruct Hk as ([n' col] & En & Ic). cbn in En. subst n'.
  destruct (Hs n col Ic) as (y & r & Ly & ->). assert (y = (f * x)%R) by congruence. subst y.
  destruct (P n i _ I Ic) as (g & G1 & G2). cbn zeta in G1. exists x, (map (fun v => (g * v)%R) r). split; [exact L1|].
  cbn [map] in G2. destruct (HC n i I) as (A & _).
  assert (FG : (g * f = 1)%R). { apply (conc_conv_inv i "meq" (i_units i) g f); [apply (HC n i I)|cbn; tauto|exact A|exact G1|exact L2]. }
  replace (g * (f * x))%R with x in G2; [exact G2|]. rewrite <- Rmult_assoc, FG. ring.
Qed.
Print Assumptions C119_loaded_in_meq.
Print Assumptions C119_saved.
Print Assumptions C119_round_trip.
Definition ex_batch : list (string * ion) :=
  [("NITRATE", {| i_mw := 62; i_val := 1; i_units := "mg"; i_Kxc := 3; i_kL := 1; i_Ds := 1; i_Dp := 1 |});
   ("SULFATE", {| i_mw := 96; i_val := 2; i_units := "ug"; i_Kxc := 2; i_kL := 1; i_Ds := 1; i_Dp := 1 |})]%R.
Example C119_example : exists c, batch_C0 ex_batch [("NITRATE", 31); ("SULFATE", 480)]%R [] = Ok (c, []) /\
  NoDup (keys ex_batch) /\ (forall n i, In (n, i) ex_batch -> convertible i) /\ In "min" (keys si_time).
Proof.
  eexists. split; [reflexivity|]. split; [repeat constructor; cbn; intuition discriminate|]. split; [|cbn; tauto].
  intros n i Hin. cbn in Hin. destruct Hin as [E|[E|[]]]; injection E as <- <-; (split; [cbn; tauto|split; [cbn; lra|discriminate]]).
Qed.

(** ** C120: a unit corrected at the prompt is the unit of the results *)
(** True of columns: the unit typed (the sheet's own when it is accepted) is the one the
    influent is read in and the one the results are saved in. *)
Theorem C120_columns_partial : forall params ions cin typed l rest period secs outlet typed2,
  load_data params ions cin typed = Ok (l, rest) -> no_alkalinity cin -> NoDup (keys (ion_rows (l_ions l))) ->
  In period (keys si_time) -> length outlet = length (l_names l) ->
  exists shown out, save_results l period None secs outlet typed2 = Ok ((shown, out), typed2) /\ in_period period secs shown /\
    forall n i col, In (n, i) (ion_rows (l_ions l)) -> In (n, col) (combine (l_names l) outlet) ->
      exists u x f g, In u (keys (meq_of 1 1)) /\ (In (i_units i) (keys (meq_of 1 1)) -> u = i_units i) /\
        conc_conv i u "meq" f /\ conc_conv i "meq" u g /\
        lookup n (c_cols cin) = Some x /\ lookup n (c_cols (l_Cin l)) = Some (map (fun v => (f * v)%R) x) /\
        In (column_label n u, map (fun v => (g * v)%R) col) out.
Proof. exact load_corrected. Qed.
(** False of batch reactors: whatever was typed while loading, saving without naming a unit
    ends the program, and the run is lost. *)
Theorem C120_batch_lost : forall rows period secs tank typed,
  NoDup (keys rows) -> In period (keys si_time) -> length tank = length rows ->
  (exists n i, In (n, i) rows /\ ~ In (i_units i) (keys (meq_of 1 1))) ->
  batch_save rows period None secs tank typed = Err SystemExit.
Proof.
  intros rows period secs tank typed ND Hp Hl (n & i & I & Hu). apply batch_exit; try assumption.
  exists n, i. split; [exact I|]. rewrite accepted_iff. exact Hu.
Qed.
Definition ex_batch_typo : list (string * ion) :=
  [("NITRATE", {| i_mw := 62; i_val := 1; i_units := "mg/L"; i_Kxc := 3; i_kL := 1; i_Ds := 1; i_Dp := 1 |})]%R.
(** "mg/L" in the sheet, "mg" typed at the prompt: loaded, and not saved. *)
Theorem C120_batch_refuted : exists c,
  batch_C0 ex_batch_typo [("NITRATE", 31%R)] ["mg"] = Ok (c, []) /\
  (exists x, lookup "NITRATE" c = Some x /\ x = (1 / 2)%R) /\
  forall secs col typed, batch_save ex_batch_typo "hours" None secs [col] typed = Err SystemExit.
Proof.
  eexists. split; [reflexivity|]. split.
  - eexists. split; [reflexivity|]. cbn. field.
  - intros secs col typed. apply C120_batch_lost; [repeat constructor; cbn; intuition discriminate|cbn; tauto|reflexivity|].
    eexists. eexists. split; [left; reflexivity|]. cbn. intuition discriminate.
Qed.
Print Assumptions C120_columns_partial.
Print Assumptions C120_batch_lost.
Print Assumptions C120_batch_refuted.
Example C120_example : exists l, load_data ex_params
   {| has_kL := has_kL ex_ions_plain; has_Ds := has_Ds ex_ions_plain; has_Dp := has_Dp ex_ions_plain;
      ion_rows := map (fun kr => (fst kr, {| i_mw := i_mw (snd kr); i_val := i_val (snd kr); i_units := "mg/L"; i_Kxc := i_Kxc (snd kr);
         i_kL := i_kL (snd kr); i_Ds := i_Ds (snd kr); i_Dp := i_Dp (snd kr) |})) (ion_rows ex_ions_plain) |} ex_cin_plain ["mg"; "ppm"; "ug"] = Ok (l, []) /\
  no_alkalinity ex_cin_plain /\ NoDup (keys (ion_rows (l_ions l))).
Proof. eexists. split; [run|]. split; [right; left; reflexivity|]. repeat constructor; simpl; intuition discriminate. Qed.

(** ** C121: the command line *)
(** A mode other than the two ends the program. *)
Theorem C121_mode : forall mode t c, In mode ["hsdm"; "psdm"] <-> parse_args mode t c = Ok {| a_mode := mode; a_t_unit := t; a_c_unit := c |}.
Proof.
  intros mode t c. split; [intros [<-|[<-|[]]]; reflexivity|]. unfold parse_args. intros H.
  destruct (String.eqb_spec mode "hsdm") as [->|]; [left; reflexivity|].
  destruct (String.eqb_spec mode "psdm") as [->|]; [right; left; reflexivity|]. discriminate.
Qed.
Theorem C121_other_mode : forall mode t c, ~ In mode ["hsdm"; "psdm"] -> parse_args mode t c = Err SystemExit.
Proof.
  intros mode t c H. unfold parse_args. destruct (String.eqb_spec mode "hsdm"); [subst; cbn in H; tauto|].
  destruct (String.eqb_spec mode "psdm"); [subst; cbn in H; tauto|]. reflexivity.
Qed.
(** [given o d]: a non-empty option is used, otherwise [d]. *)
Definition given {A} (o : option string) (used : string -> A) (d : A) : A :=
  match o with Some EmptyString | None => d | Some s => used s end.
(** The model named by the mode is run on the loaded file, and its results are saved in the
    units asked for: hours and each ion's own unit when none is. *)
Theorem C121_run : forall hsdm psdm params ions cin mode t c args typed l rest,
  parse_args mode t c = Ok args ->
  load_data params ions cin typed = Ok (l, rest) -> NoDup (keys (ion_rows (l_ions l))) ->
  (forall n i, In (n, i) (ion_rows (l_ions l)) -> convertible i) ->
  let result := if String.eqb mode "psdm" then psdm l else hsdm l in
  length (snd result) = length (l_names l) ->
  let period := given t (fun s => s) "hours" in
  In period (keys si_time) -> (forall u, c = Some u -> u <> "" -> In u (keys (meq_of 1 1))) ->
  exists shown out, run_ixpy hsdm psdm params ions cin args typed = Ok ((shown, out), rest) /\
    in_period period (fst result) shown /\
    forall n i col, In (n, i) (ion_rows (l_ions l)) -> In (n, col) (combine (l_names l) (snd result)) ->
      exists f, let unit := given c (fun s => s) (i_units i) in
        conc_conv i "meq" unit f /\ In (column_label n unit, map (fun v => (f * v)%R) col) out.
Proof.
  intros hsdm psdm params ions cin mode t c args typed l rest HP HL ND HC result Hlen period Hp Hc.
  assert (Em : args = {| a_mode := mode; a_t_unit := t; a_c_unit := c |} /\ (mode = "hsdm" \/ mode = "psdm")).
  { unfold parse_args in HP. destruct (String.eqb_spec mode "hsdm"); destruct (String.eqb_spec mode "psdm"); cbn in HP; try discriminate; inversion HP; auto. }
  destruct Em as (-> & Hm).
  assert (Er : (if String.eqb mode "hsdm" then hsdm l else psdm l) = result) by (unfold result; destruct Hm as [-> | ->]; reflexivity).
  assert (Et : match truthy t with Some p => p | None => "hours" end = period).
  { unfold period, given, truthy. destruct t as [[|a s]|]; reflexivity. }
  destruct (time_index_si l period (fst result) rest Hp) as (shown & ET & EP).
  destruct (save_results_ok l period (truthy c) (fst result) (snd result) rest shown) as (out & ES & PS).
  - eapply load_in_units; eassumption.
  - exact Hlen.
  - intros u Hu. unfold truthy in Hu. destruct c as [s|]; [|discriminate]. destruct (String.eqb_spec s ""); [discriminate|]. inversion Hu; subst. apply Hc; [reflexivity|assumption].
  - exact ET.
  - exists shown, out. split; [|split; [exact EP|]].
    + unfold run_ixpy, io_bind. rewrite HL. cbn [a_mode a_t_unit a_c_unit]. rewrite Er, Et. exact ES.
    + intros n i col I Ic. destruct (PS n i col I Ic) as (f & Q). exists f. unfold given, truthy in *. destruct c as [[|a s]|]; exact Q.
Qed.
Print Assumptions C121_mode.
Print Assumptions C121_other_mode.
Print Assumptions C121_run.
Example C121_example : exists l args, parse_args "psdm" (Some "") (Some "meq") = Ok args /\
  load_data ex_params ex_ions_plain ex_cin_plain [] = Ok (l, []) /\ NoDup (keys (ion_rows (l_ions l))) /\
  (forall n i, In (n, i) (ion_rows (l_ions l)) -> convertible i) /\ In (given (Some "") (fun s => s) "hours") (keys si_time).
Proof.
  destruct C08_plain as (l & A & _ & B & C & _). exists l. eexists. split; [reflexivity|]. split; [exact A|]. split; [exact B|]. split; [exact C|]. cbn; tauto.
Qed.
