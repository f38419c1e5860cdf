(** Proofs about column sheets. *)
From Coq Require Import List String Reals Bool Arith Lra Lia.
From Verif Require Import Lib_Py M_GacSheet S_Units S_GacSheet.
Import ListNotations.
Open Scope string_scope.

Tactic Notation "binv" hyp(H) ident(x) ident(E) :=
  match type of H with
  | bind ?m _ = Ok _ => destruct m as [x|?] eqn:E; cbn [bind] in H; [|discriminate H]
  end.

Lemma Ok_inj {A} (x y : A) : Ok x = Ok y -> x = y.
Proof. congruence. Qed.

(** Everything a successful reading looked at. *)
Lemma read_inv s g : read_sheet s = Ok g ->
  exists fL fd fr fp fa ff fw,
    lookup "length" (s_num s) = Some (fst fL, Some (snd fL)) /\
    lookup "diameter" (s_num s) = Some (fst fd, Some (snd fd)) /\
    lookup "radius" (s_num s) = Some (fst fr, Some (snd fr)) /\
    lookup "particleDensity" (s_num s) = Some (fst fp, Some (snd fp)) /\
    lookup "apparentDensity" (s_num s) = Some (fst fa, Some (snd fa)) /\
    lookup "flowrate" (s_num s) = Some (fst ff, Some (snd ff)) /\
    lookup "weight" (s_num s) = Some (fst fw, Some (snd fw)) /\
    g_L g = dim_cm (lower (snd fL)) (fst fL) /\
    g_diam g = dim_cm (lower (snd fd)) (fst fd) /\
    g_rad g = dim_cm (lower (snd fr)) (fst fr) /\
    g_rhop g = dens_gml (lower (snd fp)) (fst fp) /\
    g_rhof g = dens_gml (lower (snd fa)) (fst fa) /\
    g_flrt g = flow_mlmin (lower (snd ff)) (fst ff) /\
    g_wt g = mass_g (lower (snd fw)) (fst fw) /\
    (exists units, lookup "units" (s_text s) = Some units /\
       g_units g = conc_unit (lower units) /\ g_mass_mul g = conc_mult (conc_unit (lower units))) /\
    (g_time g, g_t_mult g) = time_unit (lookup "time" (s_text s)) /\ g_flow_mult g = dec 1 3 /\
    (exists ut, lookup "tortuosity" (s_num s) = Some (g_tortu g, ut)) /\
    (exists ut, lookup "porosity" (s_num s) = Some (g_epor g, ut)) /\
    (exists ut, lookup "psdfr" (s_num s) = Some (g_psdfr g, ut)).
Proof.
  assert (HU : forall k u v, unit_of k s = Ok u -> num_of k s = Ok v ->
            exists f, lookup k (s_num s) = Some (fst f, Some (snd f)) /\ u = lower (snd f) /\ v = fst f).
  { intros k u v. unfold unit_of, num_of. destruct (lookup k (s_num s)) as [(v0 & [u0|])|]; cbn; try discriminate.
    intros A B. apply Ok_inj in A, B. exists (v0, u0). cbn. subst. auto. }
  assert (HT : forall k t, text_of k s = Ok t -> lookup k (s_text s) = Some t).
  { intros k t. unfold text_of. destruct (lookup k (s_text s)); cbn; [|discriminate].
    intros A. apply Ok_inj in A. subst. reflexivity. }
  assert (HN : forall k v, num_of k s = Ok v -> exists ut, lookup k (s_num s) = Some (v, ut)).
  { intros k v. unfold num_of. destruct (lookup k (s_num s)) as [(v0 & ut)|]; cbn; [|discriminate].
    intros A. apply Ok_inj in A. subst. eauto. }
  unfold read_sheet. intros H.
  binv H ca E0. binv H uL E1. binv H vL E2. binv H ud E3. binv H vd E4. binv H ur E5. binv H vr E6.
  binv H up E7. binv H vp E8. binv H ua E9. binv H va E10. binv H uf E11. binv H vf E12.
  binv H uw E13. binv H vw E14. binv H to E15. binv H ep E16. binv H ps E17. binv H inf E18.
  binv H eff E19. binv H un E20. apply Ok_inj in H. subst g. cbn.
  destruct (HU _ _ _ E1 E2) as (a1 & L1 & -> & ->). destruct (HU _ _ _ E3 E4) as (a2 & L2 & -> & ->).
  destruct (HU _ _ _ E5 E6) as (a3 & L3 & -> & ->). destruct (HU _ _ _ E7 E8) as (a4 & L4 & -> & ->).
  destruct (HU _ _ _ E9 E10) as (a5 & L5 & -> & ->). destruct (HU _ _ _ E11 E12) as (a6 & L6 & -> & ->).
  destruct (HU _ _ _ E13 E14) as (a7 & L7 & -> & ->).
  exists a1, a2, a3, a4, a5, a6, a7. repeat (split; [assumption || reflexivity|]).
  split; [exists un; split; [apply HT; exact E20|split; reflexivity]|].
  split; [symmetry; apply surjective_pairing|]. split; [reflexivity|].
  split; [apply HN; exact E15|]. split; apply HN; assumption.
Qed.

(** *** The unit ladders *)

Lemma same_exact tol size target stored v u su st :
  (0 <= tol)%R -> lookup u size = Some su -> lookup target size = Some st ->
  (stored * st = v * su)%R -> same_quantity tol size target stored v u.
Proof.
  intros Ht A B E. exists su, st. split; [exact A|]. split; [exact B|]. rewrite E.
  replace (v * su - v * su)%R with 0%R by ring. rewrite Rabs_R0.
  apply Rmult_le_pos; [exact Ht|apply Rabs_pos].
Qed.

Ltac ladder :=
  repeat match goal with H : _ \/ _ |- _ => destruct H as [<-|H] end; try contradiction.

Lemma tol_pos : (0 <= dec 1 6)%R.
Proof. unfold dec. simpl. lra. Qed.

Lemma dim_ok u v : In u (keys gac_length) -> same_quantity (dec 1 6) gac_length "cm" (dim_cm u v) v u.
Proof.
  intros H. cbn in H. ladder; (eapply same_exact; [apply tol_pos|reflexivity|reflexivity|]);
    unfold dim_cm, cm_per_ft, dec; cbn; lra.
Qed.
Lemma flow_ok u v : In u (keys gac_flow) -> same_quantity (dec 1 6) gac_flow "ml/min" (flow_mlmin u v) v u.
Proof.
  intros H. cbn in H. ladder; (eapply same_exact; [apply tol_pos|reflexivity|reflexivity|]);
    unfold flow_mlmin, us_gallon, min_per_day, lpg, cm_per_ft, dec; cbn; lra.
Qed.
Lemma mass_ok u v : In u (keys gac_mass) -> same_quantity (dec 1 6) gac_mass "g" (mass_g u v) v u.
Proof.
  intros H. cbn in H. ladder; (eapply same_exact; [apply tol_pos|reflexivity|reflexivity|]);
    unfold mass_g, gm_per_lb, dec; cbn; lra.
Qed.
Lemma dens_ok u v : In u (keys gac_density) -> same_quantity (dec 1 6) gac_density "g/ml" (dens_gml u v) v u.
Proof.
  intros H. cbn in H. ladder;
    try (eapply same_exact; [apply tol_pos|reflexivity|reflexivity|]; unfold dens_gml, dec; cbn; lra).
  eexists _, _. split; [reflexivity|]. split; [reflexivity|].
  unfold dens_gml. cbn [String.eqb Ascii.eqb Bool.eqb orb].
  set (a := (dec 45359237 8 / dec 3048 4 ^ 3)%R).
  replace (v / dec 62427973725314 12 * 1000 - v * a)%R
    with ((v * a) * (1000 / (dec 62427973725314 12 * a) - 1))%R
    by (unfold a, dec; cbn; field).
  rewrite Rabs_mult, Rmult_comm. apply Rmult_le_compat_r; [apply Rabs_pos|].
  unfold a, dec; cbn. apply Rabs_le. split; lra.
Qed.
Lemma conc_ok u : In u (keys gac_conc) -> lookup u gac_conc = Some (conc_mult (conc_unit u)).
Proof. intros H. cbn in H. ladder; reflexivity. Qed.
Lemma time_ok t : In t (keys gac_time) -> lookup t gac_time = Some (snd (time_unit (Some t))).
Proof.
  intros H. cbn in H. ladder; cbn; try reflexivity; unfold min_per_day; f_equal; lra.
Qed.

Lemma time_name t : In t (keys gac_time) -> lookup (fst (time_unit (Some t))) gac_time = Some (snd (time_unit (Some t))).
Proof.
  intros H. cbn in H. ladder; cbn; try reflexivity; unfold min_per_day; f_equal; lra.
Qed.

Ltac unknown H :=
  repeat match goal with
  | |- context [String.eqb ?u ?s] => destruct (String.eqb_spec u s) as [->|_];
      [exfalso; apply H; cbn; tauto|]
  end; reflexivity.
Lemma dim_unknown u v : unknown_unit gac_length u -> dim_cm u v = 0%R.
Proof. intros H. unfold dim_cm. unknown H. Qed.
Lemma dens_unknown u v : unknown_unit gac_density u -> dens_gml u v = 0%R.
Proof. intros H. unfold dens_gml. unknown H. Qed.
Lemma flow_unknown u v : unknown_unit gac_flow u -> flow_mlmin u v = 0%R.
Proof. intros H. unfold flow_mlmin. unknown H. Qed.
Lemma mass_unknown u v : unknown_unit gac_mass u -> mass_g u v = 0%R.
Proof. intros H. unfold mass_g. unknown H. Qed.
