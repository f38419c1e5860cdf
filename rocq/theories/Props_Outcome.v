(** Property C150: values are reported only for what was simulated. *)
From Coq Require Import Reals List Arith Lra Lia Bool.
From Verif Require Import Lib_Py M_GacFun P_GacFun M_GacColumn Props_GacColumn M_Outcome.
Import ListNotations.
Open Scope R_scope.

(** The times at which the integrator was, in increasing order, at least two. *)
Definition times_increase {S} (o : outcome S) : Prop :=
  forall a p q b, o_points o = a ++ p :: q :: b -> fst p < fst q.
(** [v] at [t] is simulated: it is the value of a point, or lies between those of two neighbours
    before and after [t]. *)
Definition simulated (points : list (R * R)) (t v : R) : Prop :=
  In (t, v) points \/
  exists a x0 y0 x1 y1 b, points = a ++ (x0, y0) :: (x1, y1) :: b /\ x0 <= t <= x1 /\ Rmin y0 y1 <= v <= Rmax y0 y1.

(** Columns, batches and powdered carbon report the points of the integrator and nothing else. *)
Theorem C150_ion_exchange_partial : forall (S : Type) (t_half : R) (o : outcome S),
  (forall t s, In (t, s) (column_answer t_half o) <-> exists T, In (T, s) (o_points o) /\ t = T * t_half) /\
  (forall t s, In (t, s) (batch_answer o) <-> In (t, s) (o_points o)).
Proof.
  intros S th o. split; [|reflexivity]. intros t s. unfold column_answer. rewrite in_map_iff. split.
  - intros ([T s'] & E & I). cbn in E. assert (s' = s) by congruence. assert (T * th = t) by congruence. subst. eauto.
  - intros (T & I & ->). exists (T, s). split; [reflexivity|exact I].
Qed.
Theorem C150_powdered_partial : forall C0 o t c,
  In (t, c) (pac_answer C0 o) <-> exists T x, In (T, x) (o_points o) /\ t = T / 60 /\ c = C0 * x.
Proof.
  intros C0 o t c. unfold pac_answer. rewrite in_map_iff. split.
  - intros ([T x] & E & I). cbn in E. assert (T / 60 = t) by congruence. assert (C0 * x = c) by congruence. subst. eauto.
  - intros (T & x & I & -> & ->). exists (T, x). split; [reflexivity|exact I].
Qed.

Lemma line_between x0 y0 x1 y1 t : x0 < x1 -> x0 <= t <= x1 -> Rmin y0 y1 <= line x0 y0 x1 y1 t <= Rmax y0 y1.
Proof.
  intros L T. unfold line. set (s := (t - x0) / (x1 - x0)).
  assert (S : 0 <= s <= 1). { unfold s. split; [apply Rmult_le_pos; [lra|left; apply Rinv_0_lt_compat; lra]|]. apply Rmult_le_reg_r with (x1 - x0); [lra|]. unfold Rdiv. rewrite Rmult_assoc, Rinv_l by lra. lra. }
  replace (y0 + (y1 - y0) / (x1 - x0) * (t - x0)) with (y0 + (y1 - y0) * s) by (unfold s; field; lra).
  unfold Rmin, Rmax. destruct (Rle_dec y0 y1); nra.
Qed.
Lemma interp_cell l t : (2 <= List.length l)%nat -> (forall a p q b, l = a ++ p :: q :: b -> fst p < fst q) ->
  fst (hd (0, 0) l) <= t <= fst (last l (0, 0)) ->
  exists a x0 y0 x1 y1 b, l = a ++ (x0, y0) :: (x1, y1) :: b /\ x0 <= t <= x1 /\ interp_x l t = line x0 y0 x1 y1 t.
Proof.
  induction l as [|(x0, y0) l IH]; intros N INC T; [cbn in N; lia|]. destruct l as [|(x1, y1) l]; [cbn in N; lia|].
  assert (L01 : x0 < x1) by exact (INC [] (x0, y0) (x1, y1) l eq_refl).
  destruct l as [|p l].
  - exists [], x0, y0, x1, y1, []. cbn in T |- *. split; [reflexivity|]. split; [exact T|reflexivity].
  - change (interp_x ((x0, y0) :: (x1, y1) :: p :: l) t) with (if rleb t x1 then line x0 y0 x1 y1 t else interp_x ((x1, y1) :: p :: l) t).
    destruct (rleb t x1) eqn:E.
    + apply rleb_true in E. exists [], x0, y0, x1, y1, (p :: l). cbn in T. split; [reflexivity|]. split; [lra|reflexivity].
    + apply rleb_false in E. destruct IH as (a & u0 & v0 & u1 & v1 & b & EL & TT & EI).
      * cbn. lia.
      * intros a p' q' b EL. apply (INC ((x0, y0) :: a) p' q' b). rewrite EL. reflexivity.
      * cbn [hd fst]. change (last ((x0, y0) :: (x1, y1) :: p :: l) (0, 0)) with (last ((x1, y1) :: p :: l) (0, 0)) in T. lra.
      * exists ((x0, y0) :: a), u0, v0, u1, v1, b. rewrite <- EI, EL. split; [reflexivity|]. split; [exact TT|reflexivity].
Qed.
Lemma map_split {A B} (h : A -> B) l a p q b : map h l = a ++ p :: q :: b ->
  exists a' p' q' b', l = a' ++ p' :: q' :: b' /\ h p' = p /\ h q' = q.
Proof.
  revert a. induction l as [|x l IH]; intros a E; [destruct a; discriminate|]. destruct a as [|y a].
  - cbn in E. destruct l as [|z l]; [discriminate|]. cbn in E. exists [], x, z, l. split; [reflexivity|]. split; congruence.
  - cbn in E. assert (E' : map h l = a ++ p :: q :: b) by congruence. destruct (IH a E') as (a' & p' & q' & b' & -> & H1 & H2).
    exists (x :: a'), p', q', b'. auto.
Qed.

(** The integrator's points in the units of the user: [60 / tconv] seconds are one unit of its
    time, [t_mult] minutes one of the data's; concentrations are relative to [cb0] umol/L, and
    negative ones count as zero. *)
Definition in_user_units g t_mult i (o : outcome (nat -> R)) : list (R * R) :=
  map (fun p => (fst p * (60 / tconv g) / 60 / t_mult, Rmax 0 (snd p i) * cb0 g i * x_mw g i / x_mass_mul g)) (o_points o).
Lemma points_shown g t_mult i o : 0 < tconv g -> 0 < t_mult -> gac_points g t_mult i o = in_user_units g t_mult i o.
Proof.
  intros T M. unfold gac_points, in_user_units. apply map_ext. intros p. apply f_equal2; [field; lra|]. unfold reported, Rmax.
  destruct (rltb (snd p i) 0) eqn:E; [apply rltb_true in E|apply rltb_false in E]; destruct (Rle_dec 0 (snd p i)); try reflexivity; lra.
Qed.
(** Granular carbon: within the time that the integrator covered the reported value is simulated. *)
Theorem C150_granular_partial : forall g t_mult i o t, physical g -> (i < x_n g)%nat -> 0 < t_mult ->
  times_increase o -> (2 <= List.length (o_points o))%nat ->
  let points := in_user_units g t_mult i o in
  fst (hd (0, 0) points) <= t <= fst (last points (0, 0)) ->
  simulated points t (gac_answer g t_mult i o t) /\ 0 <= gac_answer g t_mult i o t.
Proof.
  intros g tm i o t HP Hi HT INC N points. assert (TC := tconv_pos g HP). unfold points. rewrite <- points_shown by assumption. clear points. set (points := gac_points g tm i o). intros T.
  assert (INC' : forall a p q b, points = a ++ p :: q :: b -> fst p < fst q).
  { intros a p q b E. destruct (map_split _ _ _ _ _ _ E) as (a' & p' & q' & b' & EO & <- & <-). cbn [fst]. specialize (INC a' p' q' b' EO).
    unfold Rdiv. apply Rmult_lt_compat_r; [apply Rinv_0_lt_compat, HT|]. apply Rmult_lt_compat_r; [apply Rinv_0_lt_compat, TC|exact INC]. }
  destruct (interp_cell points t) as (a & x0 & y0 & x1 & y1 & b & E & TT & EI); [unfold points, gac_points; rewrite map_length; exact N|exact INC'|exact T|].
  assert (B := line_between x0 y0 x1 y1 t (INC' _ _ _ _ E) TT). unfold gac_answer. fold points. rewrite EI. split.
  - right. exists a, x0, y0, x1, y1, b. auto.
  - assert (P : forall x y, In (x, y) points -> 0 <= y).
    { intros x y I. unfold points, gac_points in I. apply in_map_iff in I as ([T' c] & E1 & _). cbn in E1. assert (EY : reported g i (c i) = y) by congruence. rewrite <- EY. apply C73_reported_nonneg; assumption. }
    assert (Y0 := P x0 y0 ltac:(rewrite E; apply in_or_app; right; left; reflexivity)). assert (Y1 := P x1 y1 ltac:(rewrite E; apply in_or_app; right; right; left; reflexivity)).
    apply Rle_trans with (Rmin y0 y1); [apply Rmin_glb; assumption|apply B].
Qed.
(** After it, whether the integrator finished or gave up, the value is on the line through the
    last two points. *)
Lemma interp_beyond l x0 y0 x1 y1 t : (forall a p q b, l ++ [(x0, y0); (x1, y1)] = a ++ p :: q :: b -> fst p < fst q) -> x1 < t ->
  interp_x (l ++ [(x0, y0); (x1, y1)]) t = line x0 y0 x1 y1 t.
Proof.
  intros INC T. induction l as [|(u, v) l IH]; [reflexivity|].
  assert (IH' : interp_x (l ++ [(x0, y0); (x1, y1)]) t = line x0 y0 x1 y1 t).
  { apply IH. intros a p q b E. apply (INC ((u, v) :: a) p q b). cbn. rewrite E. reflexivity. }
  assert (BEF : forall l u v, (forall a p q b, (u, v) :: l ++ [(x0, y0); (x1, y1)] = a ++ p :: q :: b -> fst p < fst q) -> u < x1).
  { clear. induction l as [|(u', v') l IH]; intros u v INC.
    - assert (A := INC [] _ _ _ eq_refl). assert (B := INC [(u, v)] _ _ _ eq_refl). cbn in A, B. lra.
    - assert (A := INC [] _ _ _ eq_refl). cbn in A. assert (B : u' < x1); [|lra]. apply (IH u' v'). intros a p q b E. apply (INC ((u, v) :: a) p q b). cbn. cbn in E. rewrite E. reflexivity. }
  destruct l as [|(u', v') l].
  - change (([(u, v)] ++ [(x0, y0); (x1, y1)])) with [(u, v); (x0, y0); (x1, y1)]. assert (X := INC [(u, v)] _ _ _ eq_refl). cbn in X.
    cbn [interp_x]. rewrite (proj2 (rleb_false t x0)) by lra. reflexivity.
  - assert (X : u' < x1). { apply (BEF l u' v'). intros a p q b E. apply (INC ((u, v) :: a) p q b). cbn. cbn in E. rewrite E. reflexivity. }
    cbn [app] in IH' |- *. cbn [interp_x]. destruct (l ++ [(x0, y0); (x1, y1)]) eqn:EL; [destruct l; discriminate|].
    rewrite (proj2 (rleb_false t u')) by lra. exact IH'.
Qed.
Theorem C150_granular_beyond_refuted : forall g t_mult i ok l T0 c0 T1 c1 t, physical g -> 0 < t_mult ->
  let o := {| o_success := ok; o_points := l ++ [(T0, c0); (T1, c1)] |} in times_increase o ->
  let day T := T / tconv g / t_mult in day T1 < t ->
  gac_answer g t_mult i o t = line (day T0) (reported g i (c0 i)) (day T1) (reported g i (c1 i)) t.
Proof.
  intros g tm i ok l T0 c0 T1 c1 t HP HT o INC day L. assert (TC := tconv_pos g HP). unfold gac_answer, gac_points, o. cbn [o_points].
  rewrite map_app. cbn [map fst snd]. apply interp_beyond; [|exact L].
  intros a p q b E.
  assert (E' : map (fun p => (fst p / tconv g / tm, reported g i (snd p i))) (l ++ [(T0, c0); (T1, c1)]) = a ++ p :: q :: b) by (rewrite map_app; exact E).
  destruct (map_split _ _ _ _ _ _ E') as (a' & p' & q' & b' & EO & <- & <-). cbn [fst]. specialize (INC a' p' q' b' EO).
  unfold Rdiv. apply Rmult_lt_compat_r; [apply Rinv_0_lt_compat, HT|]. apply Rmult_lt_compat_r; [apply Rinv_0_lt_compat, TC|exact INC].
Qed.
(** So an integration that gave up in a falling curve yields negative concentrations. *)
Theorem C150_granular_refuted : forall g i, physical g -> (i < x_n g)%nat -> exists o t,
  o_success o = false /\ times_increase o /\ gac_answer g 1 i o t < 0 /\ ~ simulated (in_user_units g 1 i o) t (gac_answer g 1 i o t).
Proof.
  intros g i HP Hi. assert (TC := tconv_pos g HP). set (o := {| o_success := false; o_points := [] ++ [(0, fun _ : nat => 1); (tconv g, fun _ : nat => 0)] |}).
  assert (INC : times_increase o).
  { intros a p q b E. cbn in E. destruct a as [|x [|y [|z a]]]; cbn in E; try discriminate. assert (p = (0, fun _ => 1)) by congruence. assert (q = (tconv g, fun _ => 0)) by congruence. subst. exact TC. }
  assert (RP : 0 < reported g i 1).
  { unfold reported. rewrite (proj2 (rltb_false 1 0)) by lra. assert (C := cb0_pos g HP i Hi). assert (M := ph_mw g HP i Hi). assert (U := ph_mul g HP).
    apply Rmult_lt_0_compat; [|apply Rinv_0_lt_compat; lra]. apply Rmult_lt_0_compat; [|lra]. lra. }
  assert (R0 : reported g i 0 = 0) by (unfold reported; rewrite (proj2 (rltb_false 0 0)) by lra; unfold Rdiv; ring).
  assert (D1 : tconv g / tconv g / 1 = 1) by (field; lra). assert (D0 : 0 / tconv g / 1 = 0) by (unfold Rdiv; ring).
  exists o, 2. split; [reflexivity|]. split; [exact INC|].
  assert (V : gac_answer g 1 i o 2 = - reported g i 1).
  { unfold o. rewrite (C150_granular_beyond_refuted g 1 i false [] 0 (fun _ => 1) (tconv g) (fun _ => 0) 2 HP ltac:(lra) INC ltac:(lra)).
    rewrite D0, D1, R0. unfold line. field. }
  split; [rewrite V; lra|]. rewrite <- points_shown by lra. intros S.
  assert (TM : forall x y, In (x, y) (gac_points g 1 i o) -> x <= 1).
  { intros x y I. cbn in I. destruct I as [E|[E|[]]]; [assert (X : 0 / tconv g / 1 = x) by congruence|assert (X : tconv g / tconv g / 1 = x) by congruence]; lra. }
  destruct S as [I|(a & x0 & y0 & x1 & y1 & b & E & T & _)]; [specialize (TM _ _ I); lra|].
  assert (I : In (x1, y1) (gac_points g 1 i o)) by (rewrite E; apply in_or_app; right; right; left; reflexivity). specialize (TM _ _ I). lra.
Qed.
(** A finished run of a real column: the hypotheses are met. *)
Example outcome_met : physical (g_ex 1 true 1) /\ times_increase {| o_success := true; o_points := [(0, fun _ : nat => 0); (1, fun _ => 1 / 2); (3, fun _ => 1)] |}.
Proof.
  split; [apply physical_example; lia|]. intros a p q b E. cbn in E. destruct a as [|x [|y [|z [|w a]]]]; cbn in E; try discriminate.
  - assert (p = (0, fun _ => 0)) by congruence. assert (q = (1, fun _ => 1 / 2)) by congruence. subst. cbn. lra.
  - assert (p = (1, fun _ => 1 / 2)) by congruence. assert (q = (3, fun _ => 1)) by congruence. subst. cbn. lra.
Qed.
Print Assumptions C150_ion_exchange_partial.
Print Assumptions C150_powdered_partial.
Print Assumptions C150_granular_partial.
Print Assumptions C150_granular_beyond_refuted.
Print Assumptions C150_granular_refuted.
