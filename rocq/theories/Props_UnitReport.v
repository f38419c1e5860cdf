(** C174: the unit that a conversion reports back is the one its factor belongs to. *)
From Coq Require Import List String Ascii Reals Bool Arith Lra Lia.
From Verif Require Import Lib_Py M_Units S_Units P_Units.
Import ListNotations.
Open Scope string_scope.

Lemma units_stable U C u_in u_out t r : conv_units u_in u_out U C t = Ok r -> stable (fun a b => conv_units a b U C) u_out r /\ In (snd (fst (fst r))) U.
Proof.
  unfold conv_units. intros H.
  assert (G : exists u i rest, (match index_of u_in U with Some i => Ok (u_in, i, t) | None => prompt_unit U t end) = Ok (u, i, rest) /\ index_of u U = Some i).
  { destruct (index_of u_in U) as [i|] eqn:E; [exists u_in, i, t; auto|].
    destruct (prompt_unit U t) as [((u & i) & rest)|] eqn:P; [|discriminate]. exists u, i, rest. split; [reflexivity|].
    clear H E. revert P. induction t as [|a t IH]; cbn; [discriminate|]. destruct (index_of a U) as [j|] eqn:E; [|exact IH]. intros P. injection P as <- <- <-. exact E. }
  destruct G as (u & i & rest & E & X). rewrite E in H. cbn [bind] in H.
  destruct (index_of u_out U) as [j|] eqn:J; [|discriminate].
  destruct (nth_error C i) as [ci|] eqn:CI; [|discriminate]. destruct (nth_error C j) as [cj|] eqn:CJ; [|discriminate]. cbn in H.
  assert (r = ((cj / ci)%R, u, u_out, rest)) as -> by congruence. split; [|exact (index_of_Some_In _ _ _ X)].
  cbn. split; [reflexivity|]. intros t2. rewrite X. cbn [bind]. rewrite J, CI, CJ. reflexivity.
Qed.
Lemma parts_split u_in u_out pin pout : compound_parts u_in u_out = Ok (pin, pout) -> split_compound u_out = [pout] /\ split_compound u_in = [pin].
Proof.
  assert (L : forall s, split_compound s = [] \/ exists p, split_compound s = [p]).
  { intros s. unfold split_compound. destruct (str_in "/" s); [destruct (split_on slash s) as [|a [|b l]]; eauto|]. destruct (str_in "gpm" s); eauto. }
  unfold compound_parts. destruct (L u_in) as [-> | (p & ->)], (L u_out) as [-> | (q & ->)]; cbn; intros H; try discriminate. split; congruence.
Qed.
Section Compound.
  Variables (U V : list string) (C D : list R) (rl : string -> string -> string).
  Let cn a b := conv_units a b U C. Let cd a b := conv_units a b V D.
  (** what a compound converter answers, split into its parts *)
  Lemma compound_inv u_in u_out t r : conv_compound cn cd rl u_in u_out t = Ok r ->
    exists fn fd a b c d, split_compound u_out = [(c, d)] /\ In a U /\ In b V /\ (exists rest, r = ((fn / fd)%R, rl a b, u_out, rest)) /\
      (forall t, cn a c t = Ok (fn, a, c, t)) /\ (forall t, cd b d t = Ok (fd, b, d, t)).
  Proof.
    unfold conv_compound, io_bind, io_lift. destruct (compound_parts u_in u_out) as [(pin & pout)|] eqn:P; [|discriminate]. cbn [bind].
    destruct (parts_split _ _ _ _ P) as (S & _). destruct (cn (fst pin) (fst pout) t) as [(((fn & a) & c) & t1)|] eqn:N; [|discriminate].
    destruct (cd (snd pin) (snd pout) t1) as [(((fd & b) & d) & t2)|] eqn:M; [|discriminate]. unfold io_ret. intros H.
    destruct (units_stable _ _ _ _ _ _ N) as ((-> & N1) & N2). destruct (units_stable _ _ _ _ _ _ M) as ((-> & M1) & M2).
    exists fn, fd, a, b, (fst pout), (snd pout). assert (r = ((fn / fd)%R, rl a b, u_out, t2)) as -> by congruence. destruct pout as (c & d). cbn in *. repeat split; eauto.
  Qed.
  Lemma compound_again u_out fn fd a b c d s : split_compound u_out = [(c, d)] -> split_compound s = [(a, b)] -> rl a b = s ->
    (forall t, cn a c t = Ok (fn, a, c, t)) -> (forall t, cd b d t = Ok (fd, b, d, t)) ->
    forall t, conv_compound cn cd rl s u_out t = Ok ((fn / fd)%R, s, u_out, t).
  Proof.
    intros S S2 E N M t. unfold conv_compound, io_bind, io_lift, compound_parts. rewrite S, S2. cbn. rewrite N, M. unfold io_ret. rewrite E. reflexivity.
  Qed.
  Hypothesis H : splits_ok U V = true.
  Lemma compound_stable u_in u_out t r : conv_compound cn cd rl u_in u_out t = Ok r ->
    (forall a b, In a U -> In b V -> snd (fst (fst r)) = rl a b -> rl a b = (a ++ "/" ++ b)%string) -> stable (conv_compound cn cd rl) u_out r.
  Proof using H.
    intros R0 E. destruct (compound_inv _ _ _ _ R0) as (fn & fd & a & b & c & d & S & Ia & Ib & (rest & ->) & N & M). cbn in E.
    cbn. split; [reflexivity|]. specialize (E a b Ia Ib eq_refl). apply (compound_again u_out fn fd a b c d); auto. rewrite E. apply (splits_ok_spec U V); assumption.
  Qed.
End Compound.

Theorem C174_simple : forall u_in u_out t r,
  (conv_length u_in u_out t = Ok r -> stable conv_length u_out r) /\
  (conv_volume u_in u_out t = Ok r -> stable conv_volume u_out r) /\
  (conv_time u_in u_out t = Ok r -> stable conv_time u_out r) /\
  (conv_area u_in u_out t = Ok r -> stable conv_area u_out r) /\
  (conv_weight u_in u_out t = Ok r -> stable conv_weight u_out r) /\
  (forall MW val, conv_conc MW val u_in u_out t = Ok r -> stable (conv_conc MW val) u_out r).
Proof. intros u_in u_out t r. repeat split; intros; apply (fun H => proj1 (units_stable _ _ u_in u_out t r H)); assumption. Qed.

Theorem C174_quotients : forall u_in u_out t r,
  (conv_vel u_in u_out t = Ok r -> stable conv_vel u_out r) /\
  (conv_area_per_time u_in u_out t = Ok r -> stable conv_area_per_time u_out r) /\
  (forall MW val, conv_capacity_mass MW val u_in u_out t = Ok r -> stable (conv_capacity_mass MW val) u_out r) /\
  (forall MW val, conv_capacity_vol MW val u_in u_out t = Ok r -> stable (conv_capacity_vol MW val) u_out r).
Proof.
  intros u_in u_out t r. split; [|split; [|split]].
  - intros H. apply (compound_stable length_units time_units length_coefs time_coefs relabel_slash eq_refl u_in u_out t r H). reflexivity.
  - intros H. apply (compound_stable area_units time_units area_coefs time_coefs relabel_slash eq_refl u_in u_out t r H). reflexivity.
  - intros MW val H. apply (compound_stable conc_units weight_units (conc_coefs MW val) weight_coefs relabel_slash eq_refl u_in u_out t r H). reflexivity.
  - intros MW val H. apply (compound_stable conc_units volume_units (conc_coefs MW val) volume_coefs relabel_slash eq_refl u_in u_out t r H). reflexivity.
Qed.

(** Flow rates and densities, when no gallons are involved. *)
Theorem C174_flow_partial : forall u_in u_out t factor reported out rest, conv_vol_per_time u_in u_out t = Ok (factor, reported, out, rest) ->
  (forall x, reported <> "gp" ++ x) -> stable conv_vol_per_time u_out (factor, reported, out, rest).
Proof.
  intros u_in u_out t factor reported out rest H N.
  apply (compound_stable volume_units time_units volume_coefs time_coefs relabel_flow eq_refl u_in u_out t _ H). cbn [fst snd].
  intros a b _ _ E. unfold relabel_flow in *. destruct (String.eqb a "gal"); [|reflexivity]. exfalso. exact (N b E).
Qed.
Theorem C174_density_partial : forall u_in u_out t factor reported out rest, conv_dens u_in u_out t = Ok (factor, reported, out, rest) ->
  (forall x, reported <> x ++ "pg") -> stable conv_dens u_out (factor, reported, out, rest).
Proof.
  intros u_in u_out t factor reported out rest H N.
  apply (compound_stable weight_units volume_units weight_coefs volume_coefs relabel_dens eq_refl u_in u_out t _ H). cbn [fst snd].
  intros a b _ _ E. unfold relabel_dens in *. destruct (String.eqb b "gal"); [|reflexivity]. exfalso. exact (N a E).
Qed.

(** Gallons per minute keep their factor, whichever spelling is reported. *)
Theorem C174_gallons_per_minute_partial : forall b c d t, In b ["min"; "m"] -> In c (keys si_volume) -> In d (keys si_time) ->
  exists factor, conv_vol_per_time ("gal/" ++ b) (c ++ "/" ++ d) t = Ok (factor, "gp" ++ b, c ++ "/" ++ d, t) /\
    conv_vol_per_time ("gp" ++ b) (c ++ "/" ++ d) t = Ok (factor, "gpmin", c ++ "/" ++ d, t).
Proof.
  intros b c d t B C D. assert (C' : In c volume_units) by (apply (same_units_iff _ _ (eq_refl : same_units volume_units (keys si_volume) = true)); exact C).
  assert (D' : In d time_units) by (apply (same_units_iff _ _ (eq_refl : same_units time_units (keys si_time) = true)); exact D).
  exists (volume_factor "gal" c / time_factor "min" d)%R.
  assert (F : time_factor b d = time_factor "min" d) by (cbn in B; destruct B as [<- | [<- | []]]; reflexivity).
  assert (Ib : In b time_units) by (cbn in B |- *; tauto).
  unfold conv_vol_per_time, conv_compound, compound_parts, io_bind, io_lift. rewrite (splits_ok_spec volume_units time_units c d) by (reflexivity || assumption).
  change ("gal/" ++ b) with ("gal" ++ "/" ++ b). rewrite (splits_ok_spec volume_units time_units "gal" b) by (reflexivity || assumption || (cbn; tauto)).
  replace (split_compound ("gp" ++ b)) with [("gal", "min")] by (cbn in B; destruct B as [<- | [<- | []]]; reflexivity). cbn [app nth_error of_option bind fst snd].
  rewrite conv_volume_ok by (assumption || (cbn; tauto)). rewrite !conv_time_ok by (assumption || (cbn; tauto)). rewrite F. split; reflexivity.
Qed.

(** Every other flow in gallons, and every density per gallon: the reported unit is not accepted. *)
Theorem C174_gallons_refuted :
  (forall b c d t, In b (keys si_time) -> b <> "min" -> b <> "m" -> In c (keys si_volume) -> In d (keys si_time) ->
     exists factor, conv_vol_per_time ("gal/" ++ b) (c ++ "/" ++ d) t = Ok (factor, "gp" ++ b, c ++ "/" ++ d, t) /\
       forall t', conv_vol_per_time ("gp" ++ b) (c ++ "/" ++ d) t' = Err IndexError) /\
  (forall a c d t, In a (keys si_weight) -> In c (keys si_weight) -> In d (keys si_volume) ->
     exists factor, conv_dens (a ++ "/gal") (c ++ "/" ++ d) t = Ok (factor, a ++ "pg", c ++ "/" ++ d, t) /\
       forall t', conv_dens (a ++ "pg") (c ++ "/" ++ d) t' = Err IndexError).
Proof.
  assert (VU := same_units_iff _ _ (eq_refl : same_units volume_units (keys si_volume) = true)).
  assert (TU := same_units_iff _ _ (eq_refl : same_units time_units (keys si_time) = true)).
  assert (WU := same_units_iff _ _ (eq_refl : same_units weight_units (keys si_weight) = true)).
  split.
  - intros b c d t B N1 N2 C D. exists (volume_factor "gal" c / time_factor b d)%R.
    unfold conv_vol_per_time, conv_compound, compound_parts, io_bind, io_lift. rewrite (splits_ok_spec volume_units time_units c d) by (reflexivity || (apply VU; assumption) || (apply TU; assumption)).
    assert (S : split_compound ("gp" ++ b) = []). { clear - B N1 N2. cbn in B. repeat (destruct B as [<- | B]; [reflexivity || congruence|]). destruct B. }
    split; [|intros t'; rewrite S; reflexivity].
    change ("gal/" ++ b) with ("gal" ++ "/" ++ b). rewrite (splits_ok_spec volume_units time_units "gal" b) by (reflexivity || (apply TU; assumption) || (cbn; tauto)).
    cbn [app nth_error of_option bind fst snd]. rewrite conv_volume_ok by ((apply VU; assumption) || (cbn; tauto)). rewrite conv_time_ok by (apply TU; assumption). reflexivity.
  - intros a c d t A C D. exists (weight_factor a c / volume_factor "gal" d)%R.
    unfold conv_dens, conv_compound, compound_parts, io_bind, io_lift. rewrite (splits_ok_spec weight_units volume_units c d) by (reflexivity || (apply VU; assumption) || (apply WU; assumption)).
    assert (S : split_compound (a ++ "pg") = []). { clear - A. cbn in A. repeat (destruct A as [<- | A]; [reflexivity|]). destruct A. }
    split; [|intros t'; rewrite S; reflexivity].
    change (a ++ "/gal") with (a ++ "/" ++ "gal"). rewrite (splits_ok_spec weight_units volume_units a "gal") by (reflexivity || (apply WU; assumption) || (cbn; tauto)).
    cbn [app nth_error of_option bind fst snd]. rewrite conv_weight_ok by (apply WU; assumption). rewrite conv_volume_ok by ((apply VU; assumption) || (cbn; tauto)). reflexivity.
Qed.

(** A flow turned into a velocity: gallons per minute are reported as a unit that is asked for again. *)
Theorem C174_velocity_from_flow_refuted : forall diam t, exists factor,
  conv_fr_to_vel "gpm" "cm/s" diam "cm" t = Ok (factor, "gpmin/cm3/s", "cm/s", t) /\
  conv_fr_to_vel "gpmin/cm3/s" "cm/s" diam "cm" [] = Err EOFError.
Proof.
  intros diam t. exists (volume_factor "gal" "cm3" / time_factor "min" "s" * length_factor "cm" "cm" / (PI * diam ^ 2 / 4))%R.
  split; [|reflexivity]. unfold conv_fr_to_vel, io_bind.
  change ((if str_in "/" "cm/s" then match split_on slash "cm/s" with [a; b] => io_ret (a, b) | _ => io_err ValueError end else io_ret ("gal", "min")) t) with (Ok ("cm", "s", t)).
  cbn [append]. change (conv_vol_per_time "gpm" "cm3/s" t) with (conv_vol_per_time "gal/min" "cm3/s" t).
  change (conv_vol_per_time "gal/min" "cm3/s" t) with (Ok ((volume_factor "gal" "cm3" / time_factor "min" "s")%R, "gpmin", "cm3/s", t)).
  cbv iota beta. rewrite conv_length_ok by (cbn; tauto). reflexivity.
Qed.

Print Assumptions C174_simple.
Print Assumptions C174_quotients.
Print Assumptions C174_flow_partial.
Print Assumptions C174_density_partial.
Print Assumptions C174_gallons_per_minute_partial.
Print Assumptions C174_gallons_refuted.
Print Assumptions C174_velocity_from_flow_refuted.

(** A misspelt numerator corrected by the user, and gallons per hour. *)
Example C174_corrected : conv_vel "metre/h" "cm/s" ["meter"; "m"; "spare"] = Ok ((100 / 1) / (24 * 60 * 60 / 24), "m/h", "cm/s", ["spare"])%R.
Proof. reflexivity. Qed.
Example C174_density_met : exists factor, conv_dens "lb/ft3" "g/ml" [] = Ok (factor, "lb/ft3", "g/ml", []) /\ forall x, "lb/ft3" <> x ++ "pg".
Proof.
  eexists. split; [reflexivity|]. intros x E. apply (f_equal (fun s => String.get (String.length s - 1) s)) in E. cbn in E.
  assert (G : forall y, String.get (String.length (y ++ "pg") - 1) (y ++ "pg") = Some "g"%char).
  { induction y as [|c y IH]; [reflexivity|]. cbn [append String.length]. replace (S (String.length (y ++ "pg")) - 1)%nat with (S (String.length (y ++ "pg") - 1))%nat; [exact IH|].
    destruct y; cbn; lia. }
  rewrite G in E. discriminate E.
Qed.
Example C174_flow_met : exists factor, conv_vol_per_time "L/min" "cm3/s" [] = Ok (factor, "L/min", "cm3/s", []) /\ forall x, "L/min" <> "gp" ++ x.
Proof. eexists. split; [reflexivity|]. intros x E. discriminate E. Qed.
