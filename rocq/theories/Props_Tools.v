(** Properties C46, C47, C48 and C77: the analysis tools. *)
From Coq Require Import Reals List Arith Bool String ZArith Lra Lia.
From Verif Require Import Lib_Py Lib_Pow M_GacSheet M_GacFun P_GacFun M_GacMin P_GacMin M_GacSmart Lib_Sum M_Tools S_Tools P_Tools.
Import ListNotations.
Open Scope R_scope.
Local Notation length := List.length.

(** ** C48: specific throughput *)
Definition real_column (s : specs) : Prop := 0 < s_L s /\ 0 < s_diam s /\ 0 < s_flrt s /\ 0 < s_wt s.
Lemma orig_is_contact o : real_column o -> orig_ebct o = contact_time o.
Proof. intros (H1 & H2 & H3 & H4). unfold orig_ebct, contact_time. field. lra. Qed.
Lemma contact_pos o : real_column o -> 0 < contact_time o.
Proof.
  intros (H1 & H2 & H3 & H4). unfold contact_time. apply Rdiv_lt_0_compat; [|exact H3].
  apply Rmult_lt_0_compat; [|exact H1]. apply Rmult_lt_0_compat; [apply PI_RGT_0|]. apply pow_lt. lra.
Qed.
Lemma cube_root x : 0 < x -> rpow x (1 / 3) ^ 3 = x.
Proof.
  intros H. unfold rpow. destruct (Req_EM_T x 0) as [|N]; [lra|].
  cbn [pow]. rewrite Rmult_1_r. rewrite <- !Rpower_plus. replace (1 / 3 + (1 / 3 + 1 / 3)) with 1 by field. apply Rpower_1. exact H.
Qed.
Lemma rescale_short o e : real_column o -> 0 < e <= contact_time o ->
  contact_time (rescale o e) = e /\ density (rescale o e) = density o /\ real_column (rescale o e).
Proof.
  intros R (E1 & E2). pose proof (contact_pos o R) as C. pose proof (orig_is_contact o R) as O.
  unfold rescale. rewrite (proj2 (rleb_true e (orig_ebct o))) by lra.
  destruct R as (H1 & H2 & H3 & H4). pose proof PI_RGT_0 as P.
  split; [|split].
  - unfold contact_time at 1. cbn [s_L s_diam s_flrt]. rewrite O. unfold contact_time. field.
    repeat split; try lra. 
  - unfold density. cbn [s_L s_diam s_wt]. rewrite !Rmult_1_r. reflexivity.
  - unfold real_column. cbn. rewrite !Rmult_1_r. split; [exact H1|]. split; [exact H2|]. split; [|exact H4].
    apply Rmult_lt_0_compat; [apply Rdiv_lt_0_compat; lra|exact H3].
Qed.

(** Every value of a study whose contact times do not exceed the column's own comes from
    a simulation at exactly the requested contact time and the original density: water
    treated until the last time below the threshold, per mass of carbon. *)
Lemma treat_last ct rows t : treat_days ct rows = Ok t ->
  exists pre v post, rows = (pre ++ (t, v) :: post)%list /\ v < ct /\ forall p, In p post -> ct <= snd p.
Proof.
  unfold treat_days. induction rows as [|[a b] rows IH] using rev_ind; [discriminate|].
  rewrite filter_app. cbn [filter snd]. destruct (rltb b ct) eqn:E.
  - apply rltb_true in E. intros H. exists rows, b, []. split; [|split; [exact E|intros p []]].
    assert (Q : fst (last (filter (fun p => rltb (snd p) ct) rows ++ [(a, b)])%list (0, 0)) = a) by (rewrite last_last; reflexivity).
    destruct (filter (fun p => rltb (snd p) ct) rows ++ [(a, b)])%list eqn:F; [destruct (filter _ rows); discriminate F|].
    assert (t = a) by congruence. subst t. reflexivity.
  - apply rltb_false in E. rewrite app_nil_r. intros H. destruct (IH H) as (pre & v & post & -> & V & P).
    exists pre, v, (post ++ [(a, b)])%list. split; [rewrite <- app_assoc; reflexivity|]. split; [exact V|].
    intros p Hp. apply in_app_or in Hp as [Hp|[<- |[]]]; [apply P; exact Hp|exact E].
Qed.
Section Study.
Variable sim : specs -> string -> res (list (R * R)).
Variable ct : R.
Definition value_at (o : specs) (c : string) (e v : R) : Prop :=
  exists s rows t, contact_time s = e /\ density s = density o /\ sim s c = Ok rows /\
    (exists pre x post, rows = (pre ++ (t, x) :: post)%list /\ x < ct /\ forall p, In p post -> ct <= snd p) /\
    v = (s_flrt s / 10 ^ 6 * 1440 * t) / (s_wt s / 1000).
Lemma loop_values o c : real_column o -> forall ebcts cur vals fin, (forall e, In e ebcts -> 0 < e <= contact_time o) ->
  st_loop sim ct o c ebcts cur = Ok (vals, fin) -> Forall2 (value_at o c) ebcts vals.
Proof.
  intros R. induction ebcts as [|e r IH]; intros cur vals fin He H; cbn [st_loop] in H.
  - injection H as <- <-. constructor.
  - apply bind_ok in H as (rows & S & H). apply bind_ok in H as (t & T & H). apply bind_ok in H as ([vs f] & L & H).
    cbn [fst snd] in H. injection H as <- <-.
    destruct (rescale_short o e R (He e (or_introl eq_refl))) as (A & B & _).
    constructor; [|apply (IH _ _ _ (fun x Hx => He x (or_intror Hx)) L)].
    exists (rescale o e), rows, t. split; [exact A|]. split; [exact B|]. split; [exact S|]. split; [apply treat_last; exact T|reflexivity].
Qed.
Theorem C48_study_partial : forall o comps ebcts tbl fin, real_column o ->
  (forall e, In e ebcts -> 0 < e <= contact_time o) ->
  specific_throughput sim ct o comps ebcts = Ok (tbl, fin) ->
  map fst tbl = comps /\ forall c vals, In (c, vals) tbl -> Forall2 (value_at o c) ebcts vals.
Proof.
  intros o comps ebcts tbl fin R He. unfold specific_throughput. generalize o at 2 as cur. revert tbl fin.
  induction comps as [|c r IH]; intros tbl fin cur H; cbn [st_comps] in H.
  - injection H as <- <-. split; [reflexivity|intros c vals []].
  - apply bind_ok in H as ([vs f] & L & H). apply bind_ok in H as ([tb f'] & L' & H). cbn [fst snd] in *. injection H as <- <-.
    destruct (IH _ _ _ L') as (A & B). split; [cbn; rewrite A; reflexivity|].
    intros c' vals [E|I]; [|apply B; exact I]. injection E as <- <-. apply (loop_values o c R _ _ _ _ He L).
Qed.
Lemma loop_fin o c : forall ebcts e cur vals fin, st_loop sim ct o c (ebcts ++ [e])%list cur = Ok (vals, fin) -> fin = rescale o e.
Proof.
  induction ebcts as [|a r IH]; intros e cur vals fin H; cbn [app st_loop] in H.
  - apply bind_ok in H as (rows & _ & H). apply bind_ok in H as (t & _ & H). cbn in H. injection H as _ <-. reflexivity.
  - apply bind_ok in H as (rows & _ & H). apply bind_ok in H as (t & _ & H). apply bind_ok in H as ([vs f] & L & H).
    cbn in H. injection H as _ <-. apply (IH _ _ _ _ L).
Qed.
(** The user's specification is left at the last contact time studied. *)
Theorem C48_specs_changed_refuted : forall o comps c ebcts e tbl fin, real_column o -> 0 < e -> e <> contact_time o ->
  specific_throughput sim ct o (comps ++ [c])%list (ebcts ++ [e])%list = Ok (tbl, fin) -> fin <> o.
Proof.
  intros o comps c ebcts e tbl fin R He Ne H.
  assert (F : fin = rescale o e).
  { unfold specific_throughput in H. revert H. generalize o at 2 as cur. revert tbl fin.
    induction comps as [|a r IH]; intros tbl fin cur H; cbn [app st_comps] in H.
    - apply bind_ok in H as ([vs f] & L & H). cbn in H. injection H as _ <-. apply (loop_fin _ _ _ _ _ _ _ L).
    - apply bind_ok in H as ([vs f] & L & H). apply bind_ok in H as ([tb f'] & L' & H). cbn in H. injection H as _ <-. apply (IH _ _ _ L'). }
  rewrite F. intros Q. pose proof (contact_pos o R) as C. pose proof (orig_is_contact o R) as O.
  unfold rescale in Q. destruct R as (H1 & H2 & H3 & H4). destruct (rleb e (orig_ebct o)) eqn:E.
  - apply rleb_true in E. apply (f_equal s_flrt) in Q. cbn in Q.
    assert (orig_ebct o / e = 1) by (apply Rmult_eq_reg_r with (s_flrt o); lra).
    assert (orig_ebct o = e) by (apply Rmult_eq_reg_r with (/ e); [|apply Rinv_neq_0_compat; lra]; rewrite Rinv_r by lra; exact H0).
    lra.
  - apply rleb_false in E. apply (f_equal s_wt) in Q. cbn in Q.
    assert (orig_ebct o / e = 1) by (apply Rmult_eq_reg_l with (s_wt o); lra).
    assert (orig_ebct o = e) by (apply Rmult_eq_reg_r with (/ e); [|apply Rinv_neq_0_compat; lra]; rewrite Rinv_r by lra; exact H0).
    lra.
Qed.
End Study.
(** Above the column's own contact time the bed is made smaller instead of larger: the
    contact time simulated is below the original one. *)
Theorem C48_longer_refuted : forall o e, real_column o -> contact_time o < e ->
  contact_time (rescale o e) = contact_time o ^ 2 / e /\ contact_time (rescale o e) < contact_time o /\
  density (rescale o e) = density o.
Proof.
  intros o e R He. pose proof (contact_pos o R) as C. pose proof (orig_is_contact o R) as O.
  unfold rescale. rewrite (proj2 (rleb_false e (orig_ebct o))) by lra.
  destruct R as (H1 & H2 & H3 & H4). pose proof PI_RGT_0 as P. rewrite O.
  set (q := contact_time o / e). assert (Q : 0 < q) by (apply Rdiv_lt_0_compat; lra).
  pose proof (cube_root q Q) as K. set (r := rpow q (1 / 3)) in *.
  assert (T : contact_time {| s_L := s_L o * r; s_diam := s_diam o * r; s_flrt := s_flrt o * 1; s_wt := s_wt o * q |} = contact_time o * q).
  { unfold contact_time at 1. cbn [s_L s_diam s_flrt]. rewrite <- K. unfold contact_time. field. lra. }
  split; [rewrite T; unfold q; field; lra|]. split.
  - rewrite T. assert (q < 1).
    { unfold q. apply Rmult_lt_reg_r with e; [lra|]. replace (contact_time o / e * e) with (contact_time o) by (field; lra). lra. }
    rewrite <- (Rmult_1_r (contact_time o)) at 2. apply Rmult_lt_compat_l; lra.
  - unfold density. cbn [s_L s_diam s_wt]. rewrite <- K.
    assert (r <> 0). { intros Z. rewrite Z in K. cbn in K. lra. }
    field. repeat split; lra.
Qed.

(** ** C46: bed rotation *)
Section Beds.
Variables (max_days : nat) (md : string -> list (R * R)) (target : R) (comps : list string) (total per : nat).
Hypothesis HM : (1 <= max_days)%nat.
Hypothesis HT : (1 <= total)%nat.
Hypothesis HP : (1 <= per)%nat.
(** The effluent of a bed after a number of days: what was simulated, negative values
    being none, summed over the compounds; beyond max_days, continued. *)
Definition effluent : nat -> R :=
  continued max_days (fun d => lsum (map (fun c => Rmax 0 (interp_x (map (fun p => (fst p, Rmax 0 (snd p))) (md c)) (INR d))) comps)).
Lemma ext_eff : forall d, extended max_days (summed md comps) d = effluent d.
Proof. intros d. apply extended_ok. exact HM. Qed.
(** One group for every [per] beds, the beds that are over first; each weighs as much as it has
    of the beds. *)
Theorem C46_weights : weights total per = shares total per /\
  (forall w, In w (weights total per) -> 0 < w) /\ lsum (weights total per) = 1 /\
  length (weights total per) = S ((total - 1) / per).
Proof.
  split; [apply weights_shares; assumption|]. destruct (weights_ok total per HT HP) as (A & B). split; [exact A|]. split; [exact B|]. apply groups_len; assumption.
Qed.
Notation result := (predict_full_scale max_days md target comps total per).
Lemma blended_ext w s s' i t : (forall d, s d = s' d) -> blended w s i t = blended w s' i t.
Proof. intros H. unfold blended. apply lsum_map_ext. intros j _. rewrite H. reflexivity. Qed.
Lemma complies_ext w s s' i : (forall d, s d = s' d) -> complies w s target i <-> complies w s' target i.
Proof. intros H. unfold complies. split; intros C t Ht; [rewrite <- (blended_ext w s s') by exact H|rewrite (blended_ext w s s') by exact H]; apply C; exact Ht. Qed.
Lemma beds_search : (length (weights total per) * (max_days - 1) <= 5 * max_days)%nat -> (2 <= max_days)%nat ->
  complies (weights total per) effluent target 1 ->
  let ws := weights total per in
  complies ws effluent target (fst result) /\ (1 <= fst result < max_days)%nat /\
  (forall t, (t < fst result)%nat -> snd result t = blended ws effluent (fst result) t) /\
  ((S (fst result) < max_days)%nat -> ~ complies ws effluent target (S (fst result))).
Proof.
  intros HL H2 C1 ws.
  assert (C1' : complies ws (extended max_days (summed md comps)) target 1) by (apply (complies_ext _ _ _ _ ext_eff); exact C1).
  unfold predict_full_scale. destruct (max_days - 1)%nat as [|m] eqn:Em; [lia|].
  assert (HG : max_group (bed_info total per 0 1) = Some (length ws)) by (unfold ws; rewrite groups_len by assumption; apply max_group_ok; assumption).
  cbn [search]. 
  destruct (cycle_ok max_days HM (extended max_days (summed md comps)) ws (bed_info total per 0 1) HG 1 ltac:(lia)) as (t & CE & T).
  { apply Nat.le_trans with (2 := HL). apply Nat.mul_le_mono_l. lia. }
  fold ws. rewrite CE.
  assert (L : lmax (map t (seq 0 1)) <= target) by (rewrite lmax_le_iff by lia; intros k Hk; rewrite T; apply C1'; exact Hk).
  rewrite (proj2 (rleb_true _ _) L).
  destruct (search_ok max_days HM (extended max_days (summed md comps)) ws (bed_info total per 0 1) target HG m 2 (1%nat, t)) as (A & B & D).
  - lia.
  - replace (2 + m - 1)%nat with (S m) by lia. exact HL.
  - cbn; lia.
  - left. split; cbn [fst snd]; [exact C1'|]. intros k _. apply T.
  - cbv zeta in *. set (r := search max_days target _ ws _ m 2 (1%nat, t)) in *. cbn [fst] in B. destruct A as (A1 & A2).
    split; [apply (complies_ext _ _ _ _ ext_eff); exact A1|]. split; [lia|]. split.
    + intros k Hk. rewrite A2 by exact Hk. apply blended_ext. apply ext_eff.
    + intros H N. apply (complies_ext _ _ _ _ ext_eff) in N. replace (Nat.max 2 (S (fst r))) with (S (fst r)) in D by lia.
      apply D; [lia|exact N].
Qed.

(** With at most five groups of beds, and a target that daily changes meet: on every day
    of the returned cycle the blended effluent is within the target, and it is the curve
    returned. *)
Theorem C46_complies_partial : (length (shares total per) <= 5)%nat -> (2 <= max_days)%nat ->
  complies (shares total per) effluent target 1 ->
  complies (shares total per) effluent target (fst result) /\
  forall t, (t < fst result)%nat -> snd result t = blended (shares total per) effluent (fst result) t.
Proof.
  rewrite <- weights_shares by assumption.
  intros H5 H2 C1. destruct beds_search as (A & _ & B & _); [nia|exact H2|exact C1|]. split; assumption.
Qed.
(** For effluents that never fall, no longer interval of the search range complies. *)
Theorem C46_longest_partial : (length (shares total per) <= 5)%nat -> (2 <= max_days)%nat ->
  complies (shares total per) effluent target 1 -> nondecreasing max_days effluent ->
  forall i, (fst result < i < max_days)%nat -> exists t, (t < i)%nat /\ target < blended (shares total per) effluent i t.
Proof.
  rewrite <- weights_shares by assumption.
  intros H5 H2 C1 N i Hi. destruct beds_search as (A & B & _ & D); [nia|exact H2|exact C1|].
  apply longer_fails with (M := max_days) (i := S (fst result)); [exact HM|..].
  - intros w Hw. apply (proj1 (weights_ok total per HT HP)). exact Hw.
  - unfold effluent. apply (continued_mono max_days HM). intros d Hd. specialize (N d Hd). unfold effluent, continued in N.
    rewrite (proj2 (Nat.leb_le d max_days)), (proj2 (Nat.leb_le (S d) max_days)) in N by lia. exact N.
  - lia.
  - lia.
  - apply D. lia.
Qed.
(** When not even daily changes meet the target the answer is one day, with an effluent
    of zero. *)
Theorem C46_daily_refuted : (length (shares total per) <= 5)%nat -> (2 <= max_days)%nat ->
  ~ complies (shares total per) effluent target 1 -> fst result = 1%nat /\ snd result 0%nat = 0.
Proof.
  rewrite <- weights_shares by assumption.
  intros H5 H2 N. unfold predict_full_scale. destruct (max_days - 1)%nat as [|m] eqn:Em; [lia|].
  assert (HG : max_group (bed_info total per 0 1) = Some (length (weights total per))) by (rewrite groups_len by assumption; apply max_group_ok; assumption).
  cbn [search]. 
  destruct (cycle_ok max_days HM (extended max_days (summed md comps)) (weights total per) (bed_info total per 0 1) HG 1 ltac:(lia)) as (t & CE & T); [lia|].
  rewrite CE. destruct (rleb (lmax (map t (seq 0 1))) target) eqn:E; [|split; reflexivity].
  exfalso. apply N. apply rleb_true in E. rewrite lmax_le_iff in E by lia. apply (complies_ext _ _ _ _ ext_eff).
  intros k Hk. rewrite <- T. apply E. exact Hk.
Qed.
End Beds.

(** With six or more groups the series runs out before the search does: the answer is
    then max_days, unchecked and with an effluent of zero. *)
Lemma search_all M target s ws info : forall more i best rest,
  (forall k, (i <= k < i + more)%nat -> exists t, cycle M s ws info k = Some t /\ lmax (map t (seq 0 k)) <= target) ->
  cycle M s ws info (i + more) = None ->
  search M target s ws info (more + S rest) i best = (M, fun _ => 0).
Proof.
  induction more as [|m IH]; intros i best rest H N; cbn [Nat.add search].
  - rewrite Nat.add_0_r in N. rewrite N. reflexivity.
  - destruct (H i ltac:(lia)) as (t & -> & L). rewrite (proj2 (rleb_true _ _) L).
    apply IH; [intros k Hk; apply H; lia|]. replace (S i + m)%nat with (i + S m)%nat by lia. exact N.
Qed.
Definition slow (c : string) : list (R * R) := [(0, 0); (10, 10)].
Lemma slow_eff d : effluent 10 slow ["A"%string] d = INR d.
Proof.
  assert (K : forall d, lsum (map (fun c => Rmax 0 (interp_x (map (fun p => (fst p, Rmax 0 (snd p))) (slow c)) (INR d))) ["A"%string]) = INR d).
  { intros k. cbn [slow map fst snd interp_x lsum]. rewrite (Rmax_left 0 0), (Rmax_right 0 10) by lra.
    pose proof (pos_INR k). unfold line. replace (0 + (10 - 0) / (10 - 0) * (INR k - 0)) with (INR k) by field.
    rewrite Rmax_right by assumption. lra. }
  unfold effluent, continued. rewrite !K. destruct (Nat.leb_spec d 10); [reflexivity|].
  rewrite minus_INR by lia. replace (10 - 1)%nat with 9%nat by lia. rewrite (INR_IZR_INZ 10), (INR_IZR_INZ 9). cbn [Z.of_nat Pos.of_succ_nat Pos.succ]. lra.
Qed.
Theorem C46_many_groups_refuted :
  fst (predict_full_scale 10 slow 30 ["A"%string] 6 1) = 10%nat /\
  (forall t, snd (predict_full_scale 10 slow 30 ["A"%string] 6 1) t = 0) /\
  complies (shares 6 1) (effluent 10 slow ["A"%string]) 30 1 /\
  30 < blended (shares 6 1) (effluent 10 slow ["A"%string]) 10 9.
Proof.
  rewrite <- weights_shares by lia.
  assert (B : forall i t, blended (weights 6 1) (effluent 10 slow ["A"%string]) i t = INR t + INR i * 5 / 2).
  { intros i t. unfold blended. change (length (weights 6 1)) with 6%nat. cbn [seq map lsum].
    rewrite !slow_eff, !plus_INR, !mult_INR. cbn [weights Nat.modulo Nat.div Nat.divmod Nat.eqb repeat nth fst snd Nat.sub].
    cbn [INR]. lra. }
  assert (P : predict_full_scale 10 slow 30 ["A"%string] 6 1 = (10%nat, fun _ => 0)).
  { unfold predict_full_scale. change (10 - 1)%nat with (8 + S 0)%nat. apply search_all; [|reflexivity].
    intros k Hk.
    destruct (cycle_ok 10 ltac:(lia) (extended 10 (summed slow ["A"%string])) (weights 6 1) (bed_info 6 1 0 1) eq_refl k ltac:(lia)) as (t & E & T).
    { change (length (weights 6 1)) with 6%nat. lia. }
    exists t. split; [exact E|]. rewrite lmax_le_iff by lia. intros j Hj. rewrite T.
    rewrite (blended_ext _ _ (effluent 10 slow ["A"%string])) by (intros d; apply ext_eff; lia). rewrite B.
    assert (INR j <= 7) by (replace 7 with (INR 7) by (cbn; lra); apply le_INR; lia).
    assert (INR k <= 8) by (replace 8 with (INR 8) by (cbn; lra); apply le_INR; lia). lra. }
  rewrite P. split; [reflexivity|]. split; [reflexivity|]. split.
  - intros t Ht. replace t with 0%nat by lia. rewrite B. cbn. lra.
  - rewrite B. cbn. lra.
Qed.
(** The hypotheses of the theorems above hold, e.g., for three groups of beds. *)
Example C46_example : (length (shares 5 2) <= 5)%nat /\
  complies (shares 5 2) (effluent 10 slow ["A"%string]) 8 1 /\ nondecreasing 10 (effluent 10 slow ["A"%string]).
Proof.
  rewrite <- weights_shares by lia.
  split; [cbn; lia|]. split.
  - intros t Ht. replace t with 0%nat by lia. unfold blended. change (length (weights 5 2)) with 3%nat. cbn [seq map lsum].
    rewrite !slow_eff. cbn. lra.
  - intros d Hd. rewrite !slow_eff, S_INR. lra.
Qed.

(** ** C47: replacement intervals *)

(** The daily curve is the straight line between neighbouring results. *)
Theorem C47_interpolation : forall xs ys t k, increasing xs -> length ys = length xs -> (S k < length xs)%nat ->
  nth k xs 0 <= t <= nth (S k) xs 0 ->
  np_interp (combine xs ys) t = line (nth k xs 0) (nth k ys 0) (nth (S k) xs 0) (nth (S k) ys 0) t.
Proof.
  induction xs as [|x0 xs IH]; intros ys t k I L K H; [cbn in K; lia|].
  destruct ys as [|y0 ys]; [discriminate|]. injection L as L. destruct xs as [|x1 xs]; [cbn in K; lia|].
  destruct ys as [|y1 ys]; [discriminate|]. destruct I as (I0 & I). cbn [combine np_interp].
  destruct k as [|k]; cbn [nth] in H |- *.
  - destruct (rleb t x0) eqn:E0; [apply rleb_true in E0; replace t with x0 by lra; unfold line; lra|].
    destruct (rltb t x1) eqn:E1; [reflexivity|]. apply rltb_false in E1. assert (t = x1) by lra. subst t.
    destruct xs as [|x2 xs]; [destruct ys; [|discriminate]; cbn; unfold line; field; lra|]. destruct ys as [|y2 ys]; [discriminate|].
    cbn [combine np_interp]. rewrite (proj2 (rleb_true x1 x1)) by lra. unfold line. field. lra.
  - assert (G : forall l (a : R), increasing (a :: l) -> forall j, (j < length (a :: l))%nat -> a <= nth j (a :: l) 0).
    { clear. induction l as [|b l IH]; intros a I j Hj; [cbn in Hj; replace j with 0%nat by lia; cbn; lra|].
      destruct j as [|j]; [cbn; lra|]. destruct I as (I0 & I). specialize (IH b I j ltac:(cbn in *; lia)). cbn [nth] in *. lra. }
    cbn [length] in K. pose proof (G xs x1 I k ltac:(cbn; lia)) as G1. 
    rewrite (proj2 (rleb_false t x0)) by (cbn [nth] in *; lra).
    destruct (rltb t x1) eqn:E1; [apply rltb_true in E1; cbn [nth] in *; lra|].
    apply (IH (y1 :: ys) t k I L); [cbn; lia|exact H].
Qed.

Lemma final_lookup d t c : replacement_interval d = Ok t -> exists t0, intervals d = Ok t0 /\
  forall r, lookup c t0 = Some r -> exists r', lookup c t = Some r' /\ predicted r' = predicted r.
Proof.
  intros H. apply bind_ok in H as (t0 & E & H). exists t0. split; [exact E|]. injection H as <-. intros r L.
  unfold day_notes. rewrite (lookup_fmap (fun _ r => match r_note r with None => set_note Days r | Some _ => r end)). rewrite L. cbn [option_map].
  eexists. split; [reflexivity|]. destruct (r_note r); reflexivity.
Qed.
(** A compound with a limit of its own: the day before the first day above it, or
    nothing if no day is. *)
Theorem C47_predicted_partial : forall d t c m, tidy d -> replacement_interval d = Ok t ->
  In (c, m) [("PFOA", 4); ("PFOS", 4); ("PFHxS", 10); ("PFNA", 10); ("GenX", 10)]%string -> In c (keys (columns d)) ->
  exists r, lookup c t = Some r /\ reported (n_days d) (conc d c) m (predicted r).
Proof.
  intros d t c m T H Hc Hk. destruct (final_lookup d t c H) as (t0 & E & F).
  destruct (intervals_ok d t0 T E) as (A & _).
  assert (LM : lookup c mcls = Some m /\ c <> "HI"%string).
  { cbn in Hc. destruct Hc as [Q|[Q|[Q|[Q|[Q|[]]]]]]; injection Q as <- <-; (split; [reflexivity|discriminate]). }
  destruct LM as (LM & NH).
  destruct (lookup c (columns d)) as [vals|] eqn:LC.
  2:{ exfalso. clear -LC Hk. induction (columns d) as [|[k v] l IH]; [exact Hk|]. cbn [lookup] in LC.
      destruct (String.eqb_spec c k) as [-> |N]; [discriminate|]. destruct Hk as [Q|Hk]; [cbn in Q; congruence|]. apply (IH Hk LC). }
  destruct (A c m vals NH LM LC) as (r & L & R). destruct (F r L) as (r' & L' & P).
  exists r'. split; [exact L'|]. rewrite P. unfold conc. rewrite LC. exact R.
Qed.
(** The hazard index, when no PFBS breaks through. *)
Theorem C47_hazard_partial : forall d t, tidy d -> replacement_interval d = Ok t ->
  (forall day, conc d "PFBS" day = 0) ->
  exists r, lookup "HI"%string t = Some r /\ reported (n_days d) (hazard_index d) 1 (predicted r).
Proof.
  intros d t T H Z. destruct (final_lookup d t "HI" H) as (t0 & E & F).
  destruct (intervals_ok d t0 T E) as (_ & (r & L & R) & _). destruct (F r L) as (r' & L' & P).
  exists r'. split; [exact L'|]. rewrite P.
  assert (Q : forall day, lsum (map (fun c => match lookup c (columns d) with Some v => per_day d v day / 10 | None => 0 end) ["PFHxS"; "PFNA"; "GenX"]%string) = hazard_index d day).
  { intros day. unfold hazard_index. rewrite Z. unfold conc. cbn [map lsum].
    destruct (lookup "PFHxS" (columns d)), (lookup "PFNA" (columns d)), (lookup "GenX" (columns d)); lra. }
  destruct (predicted r) as [z|]; cbn in *.
  - destruct R as (day & (R1 & R2 & R3) & ->). exists day. split; [|reflexivity]. split; [exact R1|]. rewrite <- Q. split; [exact R2|].
    intros d' Hd. rewrite <- Q. apply R3. exact Hd.
  - intros day Hd. rewrite <- Q. apply R. exact Hd.
Qed.
(** The PFBS share never enters the index. *)
Definition pfbs_only : dframe :=
  {| index := [0; 1]; columns := [("PFOA", [0; 0]); ("PFOS", [0; 0]); ("PFBS", [4000; 4000])]%string |}.
Lemma pfbs_tidy : tidy pfbs_only.
Proof.
  split; [|split; [discriminate|split; [|split]]].
  - cbn. repeat constructor; cbn; intros H; repeat (destruct H as [H|H]; [discriminate H|]); exact H.
  - intros p Hp. cbn in Hp. destruct Hp as [<- |[<- |[<- |[]]]]; reflexivity.
  - cbn. lra.
  - cbn. intros H. repeat (destruct H as [H|H]; [discriminate H|]). exact H.
Qed.
Lemma two_days : n_days pfbs_only = 2%nat.
Proof.
  unfold n_days. cbn [index pfbs_only last]. replace (1 + 1) with (IZR 2) by lra.
  unfold ceil. replace (Int_part (- IZR 2)) with (- (2))%Z; [reflexivity|].
  rewrite <- opp_IZR. unfold Int_part. rewrite <- (tech_up (IZR (- (2))) (-1)); [reflexivity| |]; rewrite ?opp_IZR; cbn; lra.
Qed.
Theorem C47_hazard_refuted : exists t r, replacement_interval pfbs_only = Ok t /\ lookup "HI"%string t = Some r /\
  predicted r = None /\ r_note r = Some Below /\ (0 < n_days pfbs_only)%nat /\ 1 < hazard_index pfbs_only 0.
Proof.
  assert (H1 : rltb (lmax [0; 0]) 4 = true) by (apply rltb_true; cbn; rewrite (proj2 (rleb_true 0 0)) by lra; lra).
  assert (H2 : rltb (lmax (map (fun _ : nat => 0) (seq 0 2))) 1 = true) by (apply rltb_true; cbn; rewrite (proj2 (rleb_true 0 0)) by lra; lra).
  unfold replacement_interval, intervals. rewrite two_days. cbn -[lmax rltb per_day]. rewrite H1. cbn -[lmax rltb per_day]. rewrite ?H1. cbn -[lmax rltb per_day].
  cbn in H2; cbn -[rltb lmax]; change (if rleb 0 0 then 0 else 0) with (lmax [0; 0]) in H2; rewrite H2. cbn -[lmax rltb per_day]. eexists. eexists. split; [reflexivity|]. split; [reflexivity|]. split; [reflexivity|]. split; [reflexivity|].
  split; [lia|]. unfold hazard_index, conc. cbn -[Rdiv]. unfold per_day. cbn. rewrite (proj2 (rleb_true 0 0)) by lra. lra.
Qed.
(** Without results for PFOA, PFOS or PFBS there is no answer at all. *)
Theorem C47_missing_column_refuted : forall d c, tidy d -> In c ["PFOA"; "PFOS"; "PFBS"]%string -> ~ In c (keys (columns d)) ->
  exists e, replacement_interval d = Err e.
Proof.
  intros d c T Hc N. unfold replacement_interval. destruct (intervals d) as [t|e] eqn:E; [|eexists; reflexivity].
  exfalso. destruct (intervals_ok d t T E) as (_ & _ & A). apply (A c Hc).
  clear -N. induction (columns d) as [|[k v] l IH]; [reflexivity|]. cbn in N |- *. destruct (String.eqb_spec c k) as [-> |]; [exfalso; apply N; left; reflexivity|].
  apply IH. intros F. apply N. right. exact F.
Qed.

(** ** C77: bounds on replacement intervals *)
(** For an uncertainty frame around the results the interval lies between its bounds. *)
Definition around (a b : dframe) : Prop :=
  index a = index b /\ keys (columns a) = keys (columns b) /\
  forall c v w, lookup c (columns a) = Some v -> lookup c (columns b) = Some w -> Forall2 Rle v w.
Lemma lookup_keys {A B} (l : list (string * A)) (l' : list (string * B)) c : keys l = keys l' -> (lookup c l = None <-> lookup c l' = None).
Proof.
  revert l'. induction l as [|[k v] l IH]; intros [|[k' v'] l'] H; cbn in H; try discriminate H; [tauto|].
  injection H as <- H. cbn. destruct (String.eqb c k); [split; discriminate|apply IH; exact H].
Qed.
Lemma around_conc a b c day : tidy a -> tidy b -> around a b -> conc a c day <= conc b c day.
Proof.
  intros TA TB (I & K & F). unfold conc. pose proof (lookup_keys _ _ c K) as LK. specialize (F c).
  destruct (lookup c (columns a)) as [v|] eqn:A, (lookup c (columns b)) as [w|] eqn:B.
  - unfold per_day. rewrite I. apply np_interp_mono; [| |apply F; reflexivity].
    + rewrite <- I. apply (proj1 (proj2 (proj2 TA)) (c, v)). apply lookup_in. exact A.
    + apply (proj1 (proj2 (proj2 TB)) (c, w)). apply lookup_in. exact B.
  - exfalso. assert (Some v = None) by (apply LK; reflexivity). discriminate.
  - exfalso. assert (Some w = None) by (apply LK; reflexivity). discriminate.
  - lra.
Qed.
Theorem C77_bounds : forall d lo up t c, tidy d -> tidy lo -> tidy up -> around lo d -> around d up ->
  replacement_interval_unc d lo up = Ok t ->
  In c ["PFOA"; "PFOS"; "PFHxS"; "PFNA"; "GenX"; "HI"]%string -> c = "HI"%string \/ In c (keys (columns d)) ->
  exists r, lookup c t = Some r /\ no_longer (r_lower r) (predicted r) /\ no_longer (predicted r) (r_upper r).
Proof.
  intros d lo up t c Td Tl Tu Al Au H Hc Hk. unfold replacement_interval_unc in H.
  apply bind_ok in H as (t0 & E0 & H). apply bind_ok in H as (ta & Ea & H). apply bind_ok in H as (tb & Eb & H).
  destruct (final_lookup lo ta c Ea) as (ta0 & Ea0 & Fa). destruct (final_lookup up tb c Eb) as (tb0 & Eb0 & Fb).
  destruct (intervals_ok d t0 Td E0) as (A0 & B0 & _). destruct (intervals_ok lo ta0 Tl Ea0) as (A1 & B1 & _). destruct (intervals_ok up tb0 Tu Eb0) as (A2 & B2 & _).
  set (pred := fun c u => match lookup c u with None => None | Some r => predicted r end) in H.
  assert (G : forall r r1 r2 f f1 f2 m, lookup c t0 = Some r -> lookup c ta0 = Some r1 -> lookup c tb0 = Some r2 ->
     reported (n_days d) f m (predicted r) -> reported (n_days lo) f1 m (predicted r1) -> reported (n_days up) f2 m (predicted r2) ->
     (forall day, f1 day <= f day <= f2 day) ->
     exists r, lookup c t = Some r /\ no_longer (r_lower r) (predicted r) /\ no_longer (predicted r) (r_upper r)).
  { intros r r1 r2 f f1 f2 m L L1 L2 R R1 R2 O. destruct (Fa r1 L1) as (r1' & L1' & P1). destruct (Fb r2 L2) as (r2' & L2' & P2).
    assert (N1 : n_days lo = n_days d) by (unfold n_days; rewrite (proj1 Al); reflexivity).
    assert (N2 : n_days up = n_days d) by (unfold n_days; rewrite (proj1 Au); reflexivity).
    rewrite N1 in R1. rewrite N2 in R2. injection H as <-. unfold day_notes.
    rewrite (lookup_fmap (fun _ r => match r_note r with None => set_note Days r | Some _ => r end)).
    rewrite (lookup_fmap (fun c r => {| predicted := predicted r; r_lower := pred c tb; r_upper := pred c ta; r_note := r_note r |})). rewrite L. cbn [option_map r_note].
    eexists. split; [reflexivity|].
    assert (U : pred c tb = predicted r2) by (unfold pred; rewrite L2'; exact P2).
    assert (D : pred c ta = predicted r1) by (unfold pred; rewrite L1'; exact P1).
    destruct (r_note r); cbn [set_note r_lower r_upper predicted]; rewrite U, D; split.
    1,3: apply (reported_order (n_days d) f f2 m); [intros day _; apply O|exact R|exact R2].
    all: apply (reported_order (n_days d) f1 f m); [intros day _; apply O|exact R1|exact R]. }
  destruct (String.eqb_spec c "HI") as [-> |NH].
  - destruct B0 as (r & L & R), B1 as (r1 & L1 & R1), B2 as (r2 & L2 & R2).
    apply (G _ _ _ _ _ _ _ L L1 L2 R R1 R2). intros day.
    pose proof (fun k => around_conc lo d k day Tl Td Al) as O1. pose proof (fun k => around_conc d up k day Td Tu Au) as O2.
    assert (Q : forall x, lsum (map (fun c => match lookup c (columns x) with Some v => per_day x v day / 10 | None => 0 end) ["PFHxS"; "PFNA"; "GenX"]%string)
                = (conc x "PFHxS" day + conc x "PFNA" day + conc x "GenX" day) / 10).
    { intros x. unfold conc. cbn [map lsum]. destruct (lookup "PFHxS" (columns x)), (lookup "PFNA" (columns x)), (lookup "GenX" (columns x)); lra. }
    rewrite !Q. pose proof (O1 "PFHxS"%string). pose proof (O1 "PFNA"%string). pose proof (O1 "GenX"%string).
    pose proof (O2 "PFHxS"%string). pose proof (O2 "PFNA"%string). pose proof (O2 "GenX"%string). lra.
  - destruct Hk as [|Hk]; [contradiction|].
    assert (LM : exists m, lookup c mcls = Some m).
    { cbn in Hc. destruct Hc as [<- |[<- |[<- |[<- |[<- |[<- |[]]]]]]]; eexists; reflexivity. }
    destruct LM as (m & LM).
    assert (IN : forall x, keys (columns x) = keys (columns d) -> exists v, lookup c (columns x) = Some v).
    { intros x Kx. rewrite <- Kx in Hk. clear -Hk. induction (columns x) as [|[k v] l IH]; [destruct Hk|]. cbn.
      destruct (String.eqb_spec c k); [eauto|]. apply IH. destruct Hk as [Q|Hk]; [cbn in Q; congruence|exact Hk]. }
    destruct (IN d eq_refl) as (v & V). destruct (IN lo (proj1 (proj2 Al))) as (v1 & V1). destruct (IN up (eq_sym (proj1 (proj2 Au)))) as (v2 & V2).
    destruct (A0 c m v NH LM V) as (r & L & R). destruct (A1 c m v1 NH LM V1) as (r1 & L1 & R1). destruct (A2 c m v2 NH LM V2) as (r2 & L2 & R2).
    apply (G _ _ _ _ _ _ _ L L1 L2 R R1 R2). intros day.
    pose proof (around_conc lo d c day Tl Td Al) as O1. pose proof (around_conc d up c day Td Tu Au) as O2.
    unfold conc in O1, O2. rewrite V, V1, V2 in *. lra.
Qed.

(** The frames of C47 and C77 exist and have answers. *)
Definition flat (x : R) : dframe := {| index := [0; 1]; columns := [("PFOA", [x; x]); ("PFOS", [0; 0]); ("PFBS", [0; 0])]%string |}.
Example C77_example : tidy (flat 1) /\ tidy (flat 2) /\ around (flat 1) (flat 2) /\
  exists t, replacement_interval_unc (flat 2) (flat 1) (flat 3) = Ok t.
Proof.
  assert (T : forall x, tidy (flat x)).
  { intros x. split; [|split; [discriminate|split; [|split]]].
    - cbn. repeat constructor; cbn; intros H; repeat (destruct H as [H|H]; [discriminate H|]); exact H.
    - intros p Hp. cbn in Hp. destruct Hp as [<- |[<- |[<- |[]]]]; reflexivity.
    - cbn. lra.
    - cbn. intros H. repeat (destruct H as [H|H]; [discriminate H|]). exact H. }
  split; [apply T|]. split; [apply T|]. split.
  - split; [reflexivity|]. split; [reflexivity|]. intros c v w. cbn.
    destruct (String.eqb c "PFOA"); [intros A B; injection A as <-; injection B as <-; repeat constructor; lra|].
    destruct (String.eqb c "PFOS"); [intros A B; injection A as <-; injection B as <-; repeat constructor; lra|].
    destruct (String.eqb c "PFBS"); [intros A B; injection A as <-; injection B as <-; repeat constructor; lra|discriminate].
  - assert (M : forall x, lmax [x; x] = x) by (intros x; cbn; rewrite (proj2 (rleb_true x x)) by lra; reflexivity).
    assert (D : forall x, n_days (flat x) = 2%nat) by (intros x; exact two_days).
    assert (I : forall x, x < 4 -> exists t, intervals (flat x) = Ok t).
    { intros x Hx. unfold intervals. rewrite D. cbn -[lmax rltb per_day]. rewrite !M.
      rewrite (proj2 (rltb_true x 4)), (proj2 (rltb_true 0 4)) by lra. cbn -[lmax rltb per_day]. rewrite !M.
      rewrite (proj2 (rltb_true 0 1)) by lra. cbn -[lmax rltb per_day]. eexists. reflexivity. }
    unfold replacement_interval_unc, replacement_interval.
    destruct (I 1) as (t1 & ->); [lra|]. destruct (I 2) as (t2 & ->); [lra|]. destruct (I 3) as (t3 & ->); [lra|].
    eexists. reflexivity.
Qed.
(** A study of C48 goes through. *)
Example C48_example : exists o tbl fin, real_column o /\ 0 < 1 / 2 <= contact_time o /\
  specific_throughput (fun _ _ => Ok [(0, 0); (10, 5)]) 2 o ["A"%string] [1 / 2] = Ok (tbl, fin).
Proof.
  exists {| s_L := 1; s_diam := 2; s_flrt := 1; s_wt := 1 |}.
  unfold specific_throughput, st_comps, st_loop, treat_days. cbn -[rescale]. rewrite (proj2 (rltb_true 0 2)), (proj2 (rltb_false 5 2)) by lra.
  cbn -[rescale]. eexists. eexists. split; [unfold real_column; cbn; lra|]. split; [|reflexivity].
  unfold contact_time. cbn [s_L s_diam s_flrt]. pose proof PI2_3_2. assert (3 / 2 < PI / 2) by exact H. lra.
Qed.

Print Assumptions C46_weights.
Print Assumptions C46_complies_partial.
Print Assumptions C46_longest_partial.
Print Assumptions C46_daily_refuted.
Print Assumptions C46_many_groups_refuted.
Print Assumptions C47_interpolation.
Print Assumptions C47_predicted_partial.
Print Assumptions C47_hazard_partial.
Print Assumptions C47_hazard_refuted.
Print Assumptions C47_missing_column_refuted.
Print Assumptions C48_study_partial.
Print Assumptions C48_specs_changed_refuted.
Print Assumptions C48_longer_refuted.
Print Assumptions C77_bounds.
