(** Properties C34, C35, C36, C39, C45, C67: granular-carbon correlations. *)
From Coq Require Import List String Reals Bool Arith Lra Lia Sorted.
From Verif Require Import Lib_Py Lib_Pow M_GacSheet M_GacFun S_GacFun P_GacFun.
Import ListNotations.
Open Scope R_scope.
Local Notation length := List.length.

(** ** C34 — fouling *)

(** The published coefficients: capacity falls as a1 + a2 t + a3 exp(a4 t) in a water, and every
    class of chemicals, or compound among the PFAS, follows it to a degree b1, with an offset b2. *)
Definition water_coefficients : list (string * (R * R * R * R)) :=
  [("Organic Free", (1, 0, 0, 0)); ("Rhine", (35 / 10 ^ 2, - 615 / 10 ^ 10, 65 / 10 ^ 2, - 893 / 10 ^ 7)); ("Portage", (51 / 10 ^ 2, - 921 / 10 ^ 9, 49 /
   10 ^ 2, - 28 / 10 ^ 6)); ("Karlsruhe", (65 / 10 ^ 2, - 671 / 10 ^ 9, 35 / 10 ^ 2, - 1 / 10 ^ 4)); ("Wausau", (83 / 10 ^ 2, - 912 / 10 ^ 9, 17 / 10 ^
   2, - 265 / 10 ^ 6)); ("Houghton", (66 / 10 ^ 2, - 155 / 10 ^ 9, 34 / 10 ^ 2, - 729 / 10 ^ 7))].
Definition class_coefficients : list (string * (R * R)) :=
  [("halogenated alkanes", (12 / 10 ^ 1, - 2 / 10 ^ 1)); ("halogenated alkanes QSPR", (122 / 10 ^ 2, - 12 / 10 ^ 2)); ("halogenated alkenes", (1, 0));
   ("trihalo-methanes", (1, 0)); ("aromatics", (9 / 10 ^ 1, 1 / 10 ^ 1)); ("nitro compounds", (75 / 10 ^ 2, 25 / 10 ^ 2)); ("chlorinated hydrocarbon",
   (59 / 10 ^ 2, 41 / 10 ^ 2)); ("phenols", (65 / 10 ^ 2, 35 / 10 ^ 2)); ("PNAs", (32 / 10 ^ 2, 68 / 10 ^ 2)); ("pesticides", (0, 5 / 10 ^ 2))].
Definition pfas_coefficients : list (string * (R * R)) :=
  [("PFBA", (82 / 10 ^ 2, 12 / 10 ^ 2)); ("PFPeA", (67 / 10 ^ 2, 19 / 10 ^ 2)); ("PFHxA", (55 / 10 ^ 2, 28 / 10 ^ 2)); ("PFHpA", (44 / 10 ^ 2, 36 / 10 ^
   2)); ("PFOA", (34 / 10 ^ 2, 44 / 10 ^ 2)); ("PFNA", (24 / 10 ^ 2, 53 / 10 ^ 2)); ("PFDA", (17 / 10 ^ 2, 61 / 10 ^ 2)); ("PFBS", (68 / 10 ^ 2, 24 / 10
   ^ 2)); ("PFHxS", (44 / 10 ^ 2, 48 / 10 ^ 2)); ("PFHpS", (34 / 10 ^ 2, 57 / 10 ^ 2)); ("PFOS", (25 / 10 ^ 2, 66 / 10 ^ 2)); ("PFMOAA", (88 / 10 ^ 2, 55
   / 10 ^ 3)); ("PFO2HxA", (63 / 10 ^ 2, 17 / 10 ^ 2)); ("PFO3OA", (43 / 10 ^ 2, 27 / 10 ^ 2)); ("GenX", (5 / 10 ^ 1, 34 / 10 ^ 2)); ("PFO4DA", (25 / 10
   ^ 2, 37 / 10 ^ 2)); ("NafionBP2", (29 / 10 ^ 2, 63 / 10 ^ 2)); ("62FTS", (38 / 10 ^ 2, 62 / 10 ^ 2)); ("82FTS", (2 / 10 ^ 1, 79 / 10 ^ 2)); ("PFPrS",
   (63 / 10 ^ 2, 14 / 10 ^ 2)); ("PMPA", (63 / 10 ^ 2, 17 / 10 ^ 2)); ("PFPeS", (49 / 10 ^ 2, 35 / 10 ^ 2)); ("PFPrA", (88 / 10 ^ 2, 3 / 10 ^ 2));
   ("TCE", (1, 0)); ("PFOS_sp", (122 / 10 ^ 2, - 12 / 10 ^ 2)); ("PFOA_sp", (122 / 10 ^ 2, - 12 / 10 ^ 2))].
Definition of_coefficients (a : R * R * R * R) (b : R * R) : R * R * R * R :=
  let '(a1, a2, a3, a4) := a in let '(b1, b2) := b in (b1 * a1 + b2, b1 * a2, b1 * a3, b1 * a4).
Theorem C34_coefficients : forall water a, In (water, a) water_coefficients ->
  (forall class b compound, In (class, b) class_coefficients -> get_fouling_params water class compound = Ok (of_coefficients a b)) /\
  (forall compound b, In (compound, b) pfas_coefficients -> get_fouling_params water "PFAS" compound = Ok (of_coefficients a b)) /\
  (forall compound, ~ In compound (map fst pfas_coefficients) -> get_fouling_params water "PFAS" compound = Ok (of_coefficients a (45 / 100, 41 / 100))).
Proof.
  assert (D : forall n k, dec n k = IZR n / 10 ^ k) by reflexivity.
  assert (W : forall water a, In (water, a) water_coefficients -> lookup water foul_water = Some a).
  { intros water a H. repeat (destruct H as [H|H]; [inversion H; subst; clear H|]); try destruct H; cbn [lookup foul_water String.eqb Ascii.eqb Bool.eqb]; apply f_equal;
      repeat (apply f_equal2); unfold dec; field. }
  assert (C : forall class b, In (class, b) class_coefficients -> String.eqb class "PFAS" = false /\ lookup class foul_chem = Some b).
  { intros class b H. repeat (destruct H as [H|H]; [inversion H; subst; clear H|]); try destruct H; (split; [reflexivity|]); cbn [lookup foul_chem String.eqb Ascii.eqb Bool.eqb]; apply f_equal;
      repeat (apply f_equal2); unfold dec; field. }
  assert (P : forall comp b, In (comp, b) pfas_coefficients -> lookup comp foul_pfas = Some b).
  { intros comp b H. repeat (destruct H as [H|H]; [inversion H; subst; clear H|]); try destruct H; cbn [lookup foul_pfas String.eqb Ascii.eqb Bool.eqb]; apply f_equal;
      repeat (apply f_equal2); unfold dec; field. }
  intros water a H. assert (EA := W _ _ H). destruct a as (((a1 & a2) & a3) & a4). repeat split.
  - intros class (b1 & b2) comp I. destruct (C _ _ I) as (N & L). unfold get_fouling_params, foul_b. rewrite EA, N, L. reflexivity.
  - intros comp (b1 & b2) I. unfold get_fouling_params, foul_b. rewrite EA. cbn [String.eqb Ascii.eqb Bool.eqb bind of_option]. rewrite (P _ _ I). reflexivity.
  - intros comp N. unfold get_fouling_params, foul_b. rewrite EA. cbn [String.eqb Ascii.eqb Bool.eqb bind of_option].
    assert (A : lookup "Ave" foul_pfas = Some (45 / 100, 41 / 100)) by (cbn [lookup foul_pfas String.eqb Ascii.eqb Bool.eqb]; apply f_equal, f_equal2; unfold dec; field).
    destruct (String.eqb comp "Ave") eqn:V.
    + apply String.eqb_eq in V. subst comp. rewrite A. reflexivity.
    + assert (L : lookup comp foul_pfas = None).
      { unfold foul_pfas. cbn [lookup]. cbn [pfas_coefficients map fst] in N.
        repeat (match goal with |- (if String.eqb ?k ?x then _ else _) = _ => let E := fresh in destruct (String.eqb k x) eqn:E;
                  [apply String.eqb_eq in E; exfalso; apply N; rewrite E; cbn; tauto|] end). rewrite V. reflexivity. }
      rewrite L, A. reflexivity.
Qed.

(** For every water, chemical class and compound the code knows, and every tabulated
    horizon, the multiplier never increases with time ... *)
Theorem C34_never_increases : forall water chem comp rk tmax,
  get_fouling_params water chem comp = Ok rk -> 0 < tmax ->
  nonincreasing_on (fun _ => True) (fouling_fun rk tmax).
Proof.
  intros water chem comp rk tmax H Ht t1 t2 _ _ Hle.
  destruct (get_fouling_inv _ _ _ _ H) as (? & ? & ? & ? & ? & ? & _ & _ & _ & _ & Hrk).
  apply fouling_fun_anti; assumption.
Qed.

(** ... is at least a thousandth up to the horizon ... *)
Theorem C34_positive_up_to_horizon_partial : forall water chem comp rk tmax t,
  get_fouling_params water chem comp = Ok rk -> 0 < tmax -> t <= tmax ->
  dec 1 3 <= fouling_fun rk tmax t.
Proof.
  intros water chem comp rk tmax t H Ht Hle.
  destruct (get_fouling_inv _ _ _ _ H) as (? & ? & ? & ? & ? & ? & _ & _ & _ & _ & Hrk).
  apply Rle_trans with (fouling_fun rk tmax tmax); [|apply fouling_fun_anti; assumption].
  assert (E := fouling_fun_at rk tmax 499 Hrk Ht (le_n _)).
  replace (INR 499 * (tmax / 499)) with tmax in E
    by (replace (INR 499) with 499 by (rewrite INR_IZR_INZ; reflexivity); field).
  rewrite E. apply foul_mult_floor.
Qed.

(** ... and the horizon covers the requested duration and the configured maximum. *)
Theorem C34_horizon_covers_run : forall max_days duration t_mult, 0 < t_mult ->
  duration * t_mult <= fouling_horizon max_days duration t_mult /\
  max_days * t_mult <= fouling_horizon max_days duration t_mult.
Proof.
  intros m d t H. unfold fouling_horizon.
  assert (A := Rmax_l m d). assert (B := Rmax_r m d). split; apply Rmult_le_compat_r; lra.
Qed.

(** At the tabulated times it is the correlation of fouling_k (per unit of K). *)
Theorem C34_follows_correlation : forall water chem comp rk tmax i t,
  get_fouling_params water chem comp = Ok rk -> chem <> "PFAS"%string ->
  0 < tmax -> (i <= 499)%nat -> t = INR i * (tmax / 499) ->
  forall k, 0 < k -> fouling_k k t water chem = Ok (k * fouling_fun rk tmax t).
Proof.
  intros water chem comp rk tmax i t H Hp Ht Hi -> k Hk.
  destruct (get_fouling_inv _ _ _ _ H) as (a1 & a2 & a3 & a4 & b1 & b2 & Ew & Eb & Erk & _ & Hrk).
  rewrite fouling_fun_at by assumption. unfold fouling_k. rewrite Ew. cbn [of_option bind].
  unfold foul_b in Eb. destruct (String.eqb_spec chem "PFAS"); [contradiction|]. rewrite Eb. cbn [bind foul_rk].
  rewrite Erk. unfold foul_mult. f_equal.
  set (m := b1 * a1 + b2 + _ + _).
  destruct (rltb m (dec 1 3)) eqn:E; destruct (rltb (k * m) (k / 1000)) eqn:E2;
    rewrite ?rltb_true, ?rltb_false in E; rewrite ?rltb_true, ?rltb_false in E2; unfold dec in *; simpl pow in *.
  - field.
  - exfalso. nra.
  - exfalso. nra.
  - reflexivity.
Qed.

(** Clean carbon keeps its full capacity for these classes ... *)
Theorem C34_starts_at_one_partial : forall water chem comp rk tmax,
  In chem ["halogenated alkanes"; "halogenated alkenes"; "trihalo-methanes"; "aromatics";
           "nitro compounds"; "chlorinated hydrocarbon"; "phenols"; "PNAs"]%string ->
  get_fouling_params water chem comp = Ok rk -> 0 < tmax -> fouling_fun rk tmax 0 = 1.
Proof.
  intros water chem comp rk tmax Hin H Ht.
  destruct (get_fouling_inv _ _ _ _ H) as (? & ? & ? & ? & ? & ? & _ & _ & _ & _ & Hrk).
  assert (E := fouling_fun_at rk tmax 0 Hrk Ht (Nat.le_0_l _)).
  change (INR 0) with 0 in E. rewrite Rmult_0_l in E. rewrite E.
  destruct (foul_mult_0 _ _ _ _ H) as (b1 & b2 & Eb & F).
  assert (S : b1 + b2 = 1).
  { cbn [In] in Hin. repeat destruct Hin as [<-|Hin]; try contradiction;
      cbn in Eb; injection Eb as <- <-; unfold dec; simpl; lra. }
  rewrite F, S; [reflexivity|]. rewrite S. unfold dec. simpl. lra.
Qed.

(** ... but fails for the rest: the QSPR class starts above the clean capacity and
    pesticides at a twentieth of it, ... *)
Theorem C34_other_classes_start_refuted : forall water comp rk tmax, 0 < tmax ->
  (get_fouling_params water "halogenated alkanes QSPR" comp = Ok rk -> fouling_fun rk tmax 0 = 11 / 10) /\
  (get_fouling_params water "pesticides" comp = Ok rk -> fouling_fun rk tmax 0 = 5 / 100).
Proof.
  intros water comp rk tmax Ht. split; intros H;
  (destruct (get_fouling_inv _ _ _ _ H) as (? & ? & ? & ? & ? & ? & _ & _ & _ & _ & Hrk);
   assert (E := fouling_fun_at rk tmax 0 Hrk Ht (Nat.le_0_l _));
   change (INR 0) with 0 in E; rewrite Rmult_0_l in E; rewrite E;
   destruct (foul_mult_0 _ _ _ _ H) as (b1 & b2 & Eb & F);
   cbn in Eb; injection Eb as <- <-; rewrite F; unfold dec; simpl; lra).
Qed.
(** ... and PFOA has lost 22% of its capacity before any time passes, even in water
    free of organic matter, where nothing fouls. *)
Theorem C34_pfas_start_refuted : exists rk, get_fouling_params "Organic Free" "PFAS" "PFOA" = Ok rk /\
  forall tmax, 0 < tmax -> fouling_fun rk tmax 0 = 78 / 100.
Proof.
  eexists. split; [reflexivity|]. intros tmax Ht.
  match goal with |- fouling_fun ?rk _ _ = _ => assert (H : get_fouling_params "Organic Free" "PFAS" "PFOA" = Ok rk) by reflexivity end.
  destruct (get_fouling_inv _ _ _ _ H) as (? & ? & ? & ? & ? & ? & _ & _ & _ & _ & Hrk).
  assert (E := fouling_fun_at _ tmax 0 Hrk Ht (Nat.le_0_l _)).
  change (INR 0) with 0 in E. rewrite Rmult_0_l in E. rewrite E.
  destruct (foul_mult_0 _ _ _ _ H) as (b1 & b2 & Eb & F).
  cbn in Eb. injection Eb as <- <-. rewrite F; unfold dec; simpl; lra.
Qed.

(** Beyond the horizon the last segment is prolonged, and the multiplier can become
    negative: Portage water, a 2000-hour horizon. *)
Theorem C34_positive_beyond_horizon_refuted : exists rk t,
  get_fouling_params "Portage" "halogenated alkenes" "TCE" = Ok rk /\
  fouling_fun rk (2000 * 60) t < 0.
Proof.
  set (rk := (1 * dec 51 2 + 0, 1 * dec (-921) 9, 1 * dec 49 2, 1 * dec (-28) 6)).
  assert (H : get_fouling_params "Portage" "halogenated alkenes" "TCE" = Ok rk) by reflexivity.
  assert (Hrk : rk_ok rk) by (destruct (get_fouling_inv _ _ _ _ H) as (? & ? & ? & ? & ? & ? & _ & _ & _ & _ & Hrk); exact Hrk).
  set (tm := 2000 * 60). assert (Htm : 0 < tm) by (unfold tm; lra).
  exists rk.
  (* the last two tabulated values *)
  set (x0 := INR 498 * (tm / 499)). set (x1 := tm).
  assert (L : forall l a b c d t, tab_inc (l ++ [(a, b); (c, d)]) -> c < t ->
            interp_x (l ++ [(a, b); (c, d)]) t = line a b c d t).
  { clear. induction l as [|(p, q) l IH]; intros a b c d t Ht Hct; [reflexivity|].
    assert (Hd : exists (p1 q1 r1 r2 : R) (l' : list (R * R)), (l ++ [(a, b); (c, d)])%list = (p1, q1) :: (r1, r2) :: l').
    { destruct l as [|(e, f) [|(g, h) l]]; do 5 eexists; reflexivity. }
    destruct Hd as (p1 & q1 & r1 & r2 & l' & El). cbn [app]. rewrite El.
    change (interp_x ((p, q) :: (p1, q1) :: (r1, r2) :: l') t) with
      (if rleb t p1 then line p q p1 q1 t else interp_x ((p1, q1) :: (r1, r2) :: l') t).
    cbn [app] in Ht. rewrite El in Ht. destruct Ht as (A & B).
    assert (p1 < c).
    { assert (Hin : In (c, d) ((r1, r2) :: l')).
      { destruct l as [|(e, f) l0].
        - cbn [app] in El. inversion El. left. reflexivity.
        - cbn [app] in El. assert (E1 : (l0 ++ [(a, b); (c, d)])%list = (r1, r2) :: l') by congruence.
          rewrite <- E1. apply in_or_app. right. right. left. reflexivity. }
      exact (tab_inc_lt _ _ _ _ _ B Hin). }
    destruct (rleb t p1) eqn:E; [apply rleb_true in E; lra|].
    rewrite <- El. apply IH; [rewrite El; exact B|exact Hct]. }
  assert (Tab : exists l, map (fun x => (x, foul_mult rk x)) (linspace 0 tm 500)
            = (l ++ [(x0, foul_mult rk x0); (x1, foul_mult rk x1)])%list).
  { change 500%nat with (S (S 498)). rewrite linspace_eq.
    replace (S (S 498)) with (498 + 2)%nat by reflexivity. rewrite seq_app, map_app, map_app.
    eexists. f_equal. cbn [seq map]. change (0 + 498)%nat with 498%nat.
    replace (lin_i 0 tm 499 498) with x0.
    replace (lin_i 0 tm 499 499) with x1; [reflexivity|].
    - symmetry. apply (lin_m 0 tm 498).
    - unfold lin_i, x0. replace (INR 499) with 499 by (rewrite INR_IZR_INZ; reflexivity). rewrite Rminus_0_r. ring. }
  assert (I498 : INR 498 = 498) by (rewrite INR_IZR_INZ; reflexivity).
  assert (Hx : x0 < x1) by (unfold x0, x1; rewrite I498; lra).
  assert (Hy : foul_mult rk x1 < foul_mult rk x0).
  { unfold foul_mult, rk. 
    set (m1 := 1 * dec 51 2 + 0 + 1 * dec (-921) 9 * x1 + _).
    set (m0 := 1 * dec 51 2 + 0 + 1 * dec (-921) 9 * x0 + _).
    assert (E1 := exp_pos (1 * dec (-28) 6 * x1)). 
    assert (E01 : exp (1 * dec (-28) 6 * x1) < exp (1 * dec (-28) 6 * x0)).
    { apply exp_increasing. unfold dec. simpl pow. lra. }
    assert (X1 : x1 = 120000) by (unfold x1, tm; lra).
    set (e1 := exp (1 * dec (-28) 6 * x1)) in *. set (e0 := exp (1 * dec (-28) 6 * x0)) in *.
    assert (M1 : dec 1 3 < m1) by (unfold m1, dec; simpl pow; clearbody e1 x1; lra).
    assert (M0 : m1 < m0) by (unfold m1, m0, dec; simpl pow; clearbody e0 e1 x0 x1; lra).
    destruct (rltb m1 (dec 1 3)) eqn:F1; [apply rltb_true in F1; lra|].
    destruct (rltb m0 (dec 1 3)) eqn:F0; [apply rltb_true in F0; lra|exact M0]. }
  set (y1 := foul_mult rk x1) in *. set (y0 := foul_mult rk x0) in *.
  assert (Hy1 : 0 < y1).
  { assert (F := foul_mult_floor rk x1). fold y1 in F.
    assert (D : 0 < dec 1 3) by (unfold dec; simpl; lra). lra. }
  exists (x1 + (y1 + 1) * ((x1 - x0) / (y0 - y1))). split; [exact H|].
  assert (Hs : 0 < (x1 - x0) / (y0 - y1)) by (apply Rdiv_lt_0_compat; lra).
  destruct Tab as (l & Tab). unfold fouling_fun. change x1 with tm at 1. rewrite Tab. rewrite L.
  - unfold line. replace (y0 + (y1 - y0) / (x1 - x0) * (x1 + (y1 + 1) * ((x1 - x0) / (y0 - y1)) - x0))
      with (-1) by (field; lra). lra.
  - rewrite <- Tab. apply tab_ok_inc. change 500%nat with (S (S 498)). apply fouling_table_ok; assumption.
  - assert (0 < (y1 + 1) * ((x1 - x0) / (y0 - y1))) by (apply Rmult_lt_0_compat; lra). lra.
Qed.

(** ** C35 — tortuosity *)

Theorem C35_tortuosity : 
  (forall t, 1 <= tortuosity_array t) /\ (forall t, 1 <= tortuosity_scalar t) /\
  nondecreasing_on (fun _ => True) tortuosity_array /\ nondecreasing_on (fun _ => True) tortuosity_scalar /\
  (forall t, t <= 100756 -> tortuosity_array t = 1 /\ tortuosity_scalar t = 1) /\
  (forall t, 100800 <= t -> 1 < tortuosity_array t /\ tortuosity_scalar t = tortuosity_array t).
Proof.
  unfold nondecreasing_on, tortuosity_array, tortuosity_scalar, min_per_day.
  split; [|split; [|split; [|split; [|split]]]].
  - intros t. destruct (rltb _ _) eqn:E; [lra|]. apply rltb_false in E. exact E.
  - intros t. destruct (rltb _ _) eqn:E; [lra|]. apply rltb_false in E. unfold dec. simpl. lra.
  - intros t1 t2 _ _ H.
    destruct (rltb (dec 334 3 + dec 661 8 * t1) 1) eqn:E1;
    destruct (rltb (dec 334 3 + dec 661 8 * t2) 1) eqn:E2;
    rewrite ?rltb_true, ?rltb_false in E1; rewrite ?rltb_true, ?rltb_false in E2;
    unfold dec in *; simpl pow in *; lra.
  - intros t1 t2 _ _ H.
    destruct (rltb t1 (70 * (24 * 60))) eqn:E1; destruct (rltb t2 (70 * (24 * 60))) eqn:E2;
    rewrite ?rltb_true, ?rltb_false in E1; rewrite ?rltb_true, ?rltb_false in E2;
    unfold dec in *; simpl pow in *; lra.
  - intros t H. split.
    + destruct (rltb _ _) eqn:E; [reflexivity|]. apply rltb_false in E. unfold dec in E. simpl in E. lra.
    + destruct (rltb _ _) eqn:E; [reflexivity|]. apply rltb_false in E. lra.
  - intros t H.
    destruct (rltb (dec 334 3 + dec 661 8 * t) 1) eqn:E; rewrite ?rltb_true, ?rltb_false in E.
    + unfold dec in E. simpl in E. lra.
    + destruct (rltb t (70 * (24 * 60))) eqn:E2; rewrite ?rltb_true, ?rltb_false in E2; [lra|].
      split; [unfold dec; simpl; lra|reflexivity].
Qed.

(** The scalar and array versions disagree just before day 70. *)
Theorem C35_versions_agree_refuted : forall t, 100757 <= t < 100800 ->
  tortuosity_scalar t < tortuosity_array t.
Proof.
  intros t H. unfold tortuosity_array, tortuosity_scalar, min_per_day.
  destruct (rltb t (70 * (24 * 60))) eqn:E2; rewrite ?rltb_true, ?rltb_false in E2; [|lra].
  destruct (rltb (dec 334 3 + dec 661 8 * t) 1) eqn:E; rewrite ?rltb_true, ?rltb_false in E.
  - unfold dec in E. simpl in E. lra.
  - unfold dec. simpl. lra.
Qed.

(** ** C36 — Freundlich conversion *)

(** The new constant with the new exponent gives the same loading at the reference
    concentration [C]. *)
Theorem C36_loading_preserved : forall K C q x0 x1, 0 < K -> 0 < C -> x0 <> 0 ->
  q = K * rpow C x0 -> recalc_k K q x0 x1 * rpow C x1 = q.
Proof. exact recalc_loading. Qed.

(** It is the only positive constant that does, and recalculations compose; the same
    exponent gives the constant back. *)
Theorem C36_unique_and_composes : forall K C q x0 x1 x2, 0 < K -> 0 < C -> x0 <> 0 -> x1 <> 0 ->
  q = K * rpow C x0 ->
  (forall K', K' * rpow C x1 = q -> K' = recalc_k K q x0 x1) /\
  recalc_k (recalc_k K q x0 x1) q x1 x2 = recalc_k K q x0 x2 /\
  recalc_k K q x0 x0 = K.
Proof.
  intros K C q x0 x1 x2 HK HC H0 H1 Hq.
  assert (P1 := rpow_pos C x1 HC). assert (P0 := rpow_pos C x0 HC).
  assert (Hqp : 0 < q) by (rewrite Hq; apply Rmult_lt_0_compat; assumption).
  split; [|split].
  - intros K' E. apply (Rmult_eq_reg_r (rpow C x1)); [|lra]. rewrite E. symmetry.
    apply recalc_loading; assumption.
  - apply recalc_compose; assumption.
  - apply (Rmult_eq_reg_r (rpow C x0)); [|lra]. rewrite recalc_loading; assumption.
Qed.

(** ** C39 — search grids *)

(** From two or more range values: the requested number of equally spaced points from
    the smallest to the largest value of each range. *)
Theorem C39_grid_spans_ranges : forall nx nk loop xr kr xs ks,
  (2 <= nx)%nat -> (2 <= nk)%nat -> (loop <> 0%nat \/ (length xr <> 1%nat /\ length kr <> 1%nat)) ->
  generate_grid nx nk loop xr kr = Ok (xs, ks) ->
  forall lo hi lo' hi', smallest xr lo -> largest xr hi -> smallest kr lo' -> largest kr hi' ->
  lo < hi -> lo' < hi' -> spans xs nx lo hi /\ spans ks nk lo' hi'.
Proof.
  intros nx nk loop xr kr xs ks Hx Hk Hl H lo hi lo' hi' S1 S2 S3 S4 H1 H2.
  unfold generate_grid, grid_axis in H.
  assert (B1 : (Nat.eqb loop 0 && Nat.eqb (length xr) 1)%bool = false).
  { apply andb_false_iff. rewrite !Nat.eqb_neq. tauto. }
  assert (B2 : (Nat.eqb loop 0 && Nat.eqb (length kr) 1)%bool = false).
  { apply andb_false_iff. rewrite !Nat.eqb_neq. tauto. }
  rewrite B1, B2 in H.
  destruct (np_max xr) as [a|] eqn:E1; [|discriminate]. destruct (np_min xr) as [b|] eqn:E2; [|discriminate].
  destruct (np_max kr) as [c|] eqn:E3; [|discriminate]. destruct (np_min kr) as [d|] eqn:E4; [|discriminate].
  cbn [bind] in H. injection H as <- <-.
  apply np_max_ok in E1. apply np_min_ok in E2. apply np_max_ok in E3. apply np_min_ok in E4.
  assert (a = hi) by (apply Rle_antisym; [apply S2, E1|apply E1, S2]).
  assert (b = lo) by (apply Rle_antisym; [apply E2, S1|apply S1, E2]).
  assert (c = hi') by (apply Rle_antisym; [apply S4, E3|apply E3, S4]).
  assert (d = lo') by (apply Rle_antisym; [apply E4, S3|apply S3, E4]).
  subst a b c d.
  destruct nx as [|[|nx]]; try lia. destruct nk as [|[|nk]]; try lia.
  split; apply linspace_spans; assumption.
Qed.

(** With an odd number of points the middle of each range is a grid point, so that a
    refinement around a best value between its two neighbours keeps that value. *)
Theorem C39_grid_contains_centre : forall n m loop xr kr xs ks c d c' d',
  generate_grid (2 * S n + 1) (2 * S m + 1) loop xr kr = Ok (xs, ks) ->
  xr = [c - d; c + d] -> kr = [c' - d'; c' + d'] -> 0 < d -> 0 < d' ->
  In c xs /\ In c' ks.
Proof.
  intros n m loop xr kr xs ks c d c' d' H -> -> Hd Hd'.
  unfold generate_grid, grid_axis in H. cbn [length Nat.eqb np_max np_min fold_left bind] in H.
  rewrite !andb_false_r in H. cbn [bind] in H. injection H as <- <-.
  unfold Rmax, Rmin. destruct (Rle_dec (c - d) (c + d)); [|lra]. destruct (Rle_dec (c' - d') (c' + d')); [|lra].
  split.
  - replace c with ((c - d + (c + d)) / 2) at 1 by field. apply linspace_mid.
  - replace c' with ((c' - d' + (c' + d')) / 2) at 1 by field. apply linspace_mid.
Qed.

(** Without ranges the first grid spans 1/n from 0.3 to 0.9 and K multipliers from 1 to 5. *)
Theorem C39_default_grid : forall nx nk x k xs ks, (2 <= nx)%nat -> (2 <= nk)%nat ->
  generate_grid nx nk 0 [x] [k] = Ok (xs, ks) ->
  spans xs nx (3 / 10) (9 / 10) /\ spans ks nk 1 5.
Proof.
  intros nx nk x k xs ks Hx Hk H. cbn [generate_grid grid_axis length Nat.eqb andb bind] in H.
  unfold generate_grid, grid_axis in H. cbn [length Nat.eqb andb bind] in H. injection H as <- <-.
  destruct nx as [|[|nx]]; try lia. destruct nk as [|[|nk]]; try lia.
  replace (3 / 10) with (dec 3 1) by (unfold dec; simpl; lra).
  replace (9 / 10) with (dec 9 1) by (unfold dec; simpl; lra).
  split; apply linspace_spans; unfold dec; simpl; lra.
Qed.

(** ** C45 — film transfer and diffusivity *)

(** Every correlation but two, including the one chosen for an unknown name, is positive
    and does not decrease with the Reynolds number. *)
Theorem C45_film_monotone_partial : forall corr mp re1 re2 sc ebed,
  corr <> "Ohashi et al"%string -> corr <> "Ko et al"%string ->
  0 < mp -> 0 < re1 <= re2 -> 1 <= sc -> 0 < ebed < 1 ->
  exists k1 k2, kf_calc mp re1 sc ebed corr = Num k1 /\ kf_calc mp re2 sc ebed corr = Num k2 /\ 0 < k1 <= k2.
Proof. exact kf_mono. Qed.

(** Two columns that differ in flow only: the film coefficient run_psdm uses. *)
Theorem C45_flow_monotone : forall g g' vw dw mol_vol,
  g_diam g' = g_diam g -> g_L g' = g_L g -> g_wt g' = g_wt g -> g_rhop g' = g_rhop g -> g_rad g' = g_rad g ->
  0 < g_diam g -> 0 < g_rad g -> 0 < d_ebed g < 1 -> 0 < g_flrt g <= g_flrt g' ->
  0 < vw -> 0 < dw -> 0 < mol_vol -> 1 <= schmidt vw dw (difl vw mol_vol) ->
  exists k k', kf_default (g_rad g) (d_re g vw dw) (schmidt vw dw (difl vw mol_vol)) (d_ebed g) (difl vw mol_vol) = Num k /\
    kf_default (g_rad g') (d_re g' vw dw) (schmidt vw dw (difl vw mol_vol)) (d_ebed g') (difl vw mol_vol) = Num k' /\
    0 < k <= k'.
Proof.
  intros g g' vw dw mv Ed El Ew Ep Er Hd Hr He Hf Hv Hdw Hm Hs.
  assert (Ee : d_ebed g' = d_ebed g) by (unfold d_ebed, d_bedvol, d_area; rewrite Ed, El, Ew, Ep; reflexivity).
  assert (Ha : 0 < d_area g).
  { unfold d_area. assert (P := PI_RGT_0). apply Rmult_lt_0_compat; [apply Rmult_lt_0_compat; [exact P|apply pow_lt; exact Hd]|lra]. }
  assert (Ea : d_area g' = d_area g) by (unfold d_area; rewrite Ed; reflexivity).
  rewrite Ee, Er. unfold kf_default. apply kf_mono; try discriminate; try assumption.
  - apply Rdiv_lt_0_compat; [|lra]. unfold difl. apply Rdiv_lt_0_compat; [unfold dec; simpl; lra|].
    apply Rmult_lt_0_compat; apply rpow_pos; lra.
  - assert (Hvs : 0 < d_vs g <= d_vs g').
    { unfold d_vs. rewrite Ea. assert (0 < / (60 * d_area g)) by (apply Rinv_0_lt_compat; lra).
      split; [apply Rdiv_lt_0_compat; lra|]. unfold Rdiv. apply Rmult_le_compat_r; lra. }
    unfold d_re. rewrite Ee, Er.
    assert (Hden : 0 < d_ebed g * vw) by (apply Rmult_lt_0_compat; lra).
    assert (Hi := Rinv_0_lt_compat _ Hden).
    split.
    + apply Rdiv_lt_0_compat; [|exact Hden]. apply Rmult_lt_0_compat; [apply Rmult_lt_0_compat|]; lra.
    + unfold Rdiv. apply Rmult_le_compat_r; [lra|]. apply Rmult_le_compat_r; [lra|]. apply Rmult_le_compat_l; lra.
Qed.

(** The film coefficient is a Sherwood number, which the flow regime and the bed give, times the
    diffusivity over the diameter of a grain. *)
Theorem C45_sherwood : forall re sc ebed, exists sh, forall rad difl, rad <> 0 -> kf_default rad re sc ebed difl = Num (sh * difl / (2 * rad)).
Proof.
  intros re sc ebed. exists ((1 + dec 15 1 * (1 - ebed)) * (2 + dec 644 3 * rpow re (dec 5 1) * rpow sc (1 / 3))).
  intros rad difl Hr. unfold kf_default, kf_calc. cbn [String.eqb Ascii.eqb Bool.eqb]. f_equal. field. exact Hr.
Qed.

(** The ion-exchange estimate, from 0 to 100 degrees. *)
Theorem C45_ion_exchange_film : forall rb v1 v2 EBED T DL,
  0 < rb -> 0 < v1 <= v2 -> 0 < EBED < 1 -> 0 <= T <= 100 -> 0 < DL ->
  0 < simple_Gnielinski rb v1 EBED T DL <= simple_Gnielinski rb v2 EBED T DL.
Proof.
  intros rb v1 v2 EB T DL Hr Hv He HT HD. unfold simple_Gnielinski.
  assert (V := viscosity_pos T). destruct (density_range T HT) as (D & _).
  assert (Hi : 0 < / EB) by (apply Rinv_0_lt_compat; lra).
  assert (Hf : 0 < 2 * rb * (density T / viscosity T)).
  { apply Rmult_lt_0_compat; [lra|]. apply Rdiv_lt_0_compat; lra. }
  assert (R1 : 0 < v1 / EB * (2 * rb) * (density T / viscosity T) <= v2 / EB * (2 * rb) * (density T / viscosity T)).
  { unfold Rdiv at 1 3 5. rewrite !(Rmult_assoc (_ * / EB)).
    fold (density T / viscosity T). split.
    - apply Rmult_lt_0_compat; [apply Rmult_lt_0_compat; lra|exact Hf].
    - apply Rmult_le_compat_r; [lra|]. apply Rmult_le_compat_r; lra. }
  set (r1 := v1 / EB * (2 * rb) * _) in *. set (r2 := v2 / EB * (2 * rb) * _) in *. clearbody r1 r2.
  assert (P1 : 0 < rpow r1 (1 / 2) <= rpow r2 (1 / 2)) by (split; [apply rpow_pos; lra|apply rpow_le; lra]).
  assert (Ps : 0 < rpow (viscosity T / density T / DL) (1 / 3)).
  { apply rpow_pos. apply Rdiv_lt_0_compat; [apply Rdiv_lt_0_compat; lra|lra]. }
  set (s := rpow _ (1 / 3)) in *. clearbody s.
  assert (Hg : 0 < 1 + dec 15 1 * (1 - EB)) by (unfold dec; simpl; lra).
  assert (H6 : 0 < dec 644 3) by (unfold dec; simpl; lra).
  assert (A : 0 < dec 644 3 * rpow r1 (1 / 2) * s <= dec 644 3 * rpow r2 (1 / 2) * s).
  { split; [apply Rmult_lt_0_compat; [apply Rmult_lt_0_compat|]; lra|].
    apply Rmult_le_compat_r; [lra|]. apply Rmult_le_compat_l; lra. }
  assert (Hd : 0 < / (2 * rb)) by (apply Rinv_0_lt_compat; lra).
  unfold Rdiv. split.
  - apply Rmult_lt_0_compat; [|exact Hd]. apply Rmult_lt_0_compat; [|exact HD]. apply Rmult_lt_0_compat; lra.
  - apply Rmult_le_compat_r; [lra|]. apply Rmult_le_compat_r; [lra|]. apply Rmult_le_compat_r; lra.
Qed.

Theorem C45_diffusivities_positive : forall vw MV T MW psi, 0 < vw -> 0 < MV -> -273 <= T -> 0 < MW -> 0 < psi ->
  0 < difl vw MV /\ 0 < Hayduk_Laudie MV T /\ 0 < Wilke_Chang MV T MW psi.
Proof.
  intros vw MV T MW psi Hv HM HT HW Hp. assert (V := viscosity_pos T).
  split; [|split].
  - unfold difl. apply Rdiv_lt_0_compat; [unfold dec; simpl; lra|]. apply Rmult_lt_0_compat; apply rpow_pos; lra.
  - unfold Hayduk_Laudie. apply Rmult_lt_0_compat; [apply Rmult_lt_0_compat; [unfold dec; simpl; lra|]|]; apply rpow_pos; lra.
  - unfold Wilke_Chang. apply Rdiv_lt_0_compat; [|lra].
    apply Rmult_lt_0_compat; [|apply rpow_pos; exact HM].
    apply Rmult_lt_0_compat; [|unfold dec; simpl; lra].
    apply Rmult_lt_0_compat; [unfold dec; simpl; lra|]. apply sqrt_lt_R0. apply Rmult_lt_0_compat; assumption.
Qed.

(** Fails for 'Ohashi et al', which hands back a tuple and drops at Re = 5.8, and for
    'Ko et al', which decreases with flow. *)
Theorem C45_ohashi_refuted : (forall mp re sc ebed k, kf_calc mp re sc ebed "Ohashi et al" <> Num k) /\
  forall sc, 0 < sc -> ohashi (58 / 10) sc < ohashi 5 sc.
Proof.
  split; [intros; unfold kf_calc; cbn; discriminate|].
  intros sc Hs. unfold ohashi.
  destruct (rltb (58 / 10) (dec 58 1)) eqn:E; rewrite ?rltb_true, ?rltb_false in E; [unfold dec in E; simpl in E; lra|].
  destruct (rltb (58 / 10) 500) eqn:E2; rewrite ?rltb_true, ?rltb_false in E2; [|lra].
  destruct (rltb 5 (dec 58 1)) eqn:E3; rewrite ?rltb_true, ?rltb_false in E3; [|unfold dec in E3; simpl in E3; lra].
  assert (P : 0 < rpow sc (1 / 3)) by (apply rpow_pos; exact Hs).
  assert (A : 19 / 10 < rpow 5 (dec 4 1)).
  { apply Rnot_le_lt. intros C.
    assert (Q : rpow (rpow 5 (dec 4 1)) (INR 5) <= rpow (19 / 10) (INR 5)).
    { apply rpow_le; [|simpl; lra]. split; [left; apply rpow_pos; lra|exact C]. }
    rewrite rpow_rpow in Q by lra. replace (dec 4 1 * INR 5) with (INR 2) in Q by (unfold dec; simpl; lra).
    rewrite !rpow_INR in Q by lra. simpl in Q. lra. }
  assert (B : rpow (58 / 10) (dec 5 1) < 241 / 100).
  { apply Rnot_le_lt. intros C.
    assert (Q : rpow (241 / 100) (INR 2) <= rpow (rpow (58 / 10) (dec 5 1)) (INR 2)).
    { apply rpow_le; [|simpl; lra]. split; [lra|exact C]. }
    rewrite rpow_rpow in Q by lra. replace (dec 5 1 * INR 2) with (INR 1) in Q by (unfold dec; simpl; lra).
    rewrite !rpow_INR in Q by lra. simpl in Q. lra. }
  apply Rplus_lt_compat_l. apply Rmult_lt_compat_r; [exact P|].
  unfold dec at 1 3. simpl pow. lra.
Qed.
Theorem C45_ko_refuted : forall mp re1 re2 sc ebed, 0 < mp -> 0 < re1 < re2 -> 0 < sc -> 0 < ebed ->
  exists k1 k2, kf_calc mp re1 sc ebed "Ko et al" = Num k1 /\ kf_calc mp re2 sc ebed "Ko et al" = Num k2 /\ k2 < k1.
Proof.
  intros mp re1 re2 sc ebed Hm Hr Hs He. do 2 eexists. split; [reflexivity|]. split; [reflexivity|].
  assert (P := rpow_pos sc (1 / 3) Hs). assert (P1 := rpow_pos re1 (dec 36 2) (proj1 Hr)).
  assert (L : rpow re1 (dec 36 2) < rpow re2 (dec 36 2)) by (apply rpow_lt; [lra|unfold dec; simpl; lra]).
  apply Rmult_lt_compat_l; [exact Hm|]. unfold Rdiv.
  apply Rmult_lt_compat_l; [unfold dec; simpl; lra|]. apply Rinv_lt_contravar.
  - repeat apply Rmult_lt_0_compat; lra.
  - apply Rmult_lt_compat_r; [exact P|]. apply Rmult_lt_compat_l; lra.
Qed.

(** ** C67 — water properties *)

(** From 0 to 100 degrees: water has about unit density, warmer water is thinner, and
    solutes diffuse faster in it, by either diffusivity correlation. *)
Theorem C67_water : forall T1 T2, 0 <= T1 < T2 -> T2 <= 100 ->
  9 / 10 < density T1 < 11 / 10 /\ 0 < viscosity T2 < viscosity T1 /\
  (forall MV, 0 < MV -> Hayduk_Laudie MV T1 < Hayduk_Laudie MV T2) /\
  (forall MV MW psi, 0 < MV -> 0 < MW -> 0 < psi -> Wilke_Chang MV T1 MW psi < Wilke_Chang MV T2 MW psi).
Proof.
  intros T1 T2 H1 H2. assert (V := viscosity_decr T1 T2 H1 H2). assert (V2 := viscosity_pos T2).
  split; [apply density_range; lra|]. split; [lra|]. split.
  - intros MV HM. unfold Hayduk_Laudie. apply Rmult_lt_compat_r; [apply rpow_pos; exact HM|].
    apply Rmult_lt_compat_l; [unfold dec; simpl; lra|].
    assert (L : rpow (viscosity T2 * 100) (dec 114 2) < rpow (viscosity T1 * 100) (dec 114 2))
      by (apply rpow_lt; [lra|unfold dec; simpl; lra]).
    rewrite !rpow_opp by lra. apply Rinv_lt_contravar; [|exact L].
    apply Rmult_lt_0_compat; apply rpow_pos; lra.
  - intros MV MW psi HM HW Hp. unfold Wilke_Chang.
    assert (S : 0 < sqrt (psi * MW)) by (apply sqrt_lt_R0; apply Rmult_lt_0_compat; assumption).
    assert (P := rpow_pos MV (- dec 6 1) HM).
    assert (C : 0 < dec 74 9 * sqrt (psi * MW)) by (apply Rmult_lt_0_compat; [unfold dec; simpl; lra|exact S]).
    apply Rlt_trans with (dec 74 9 * sqrt (psi * MW) * (T2 + dec 27315 2) * rpow MV (- dec 6 1) / (viscosity T1 * 100)).
    + unfold Rdiv. apply Rmult_lt_compat_r; [apply Rinv_0_lt_compat; lra|].
      apply Rmult_lt_compat_r; [exact P|]. apply Rmult_lt_compat_l; lra.
    + unfold Rdiv. apply Rmult_lt_compat_l.
      * apply Rmult_lt_0_compat; [|exact P]. apply Rmult_lt_0_compat; [exact C|unfold dec; simpl; lra].
      * apply Rinv_lt_contravar; [|lra]. apply Rmult_lt_0_compat; lra.
Qed.

(** The viscosity is the published correlation, ln (mPa s) = -24.71 + 4209 / T + 0.04527 T - 3.376e-5 T^2
    in kelvins, and within two per cent of the 1.0016 mPa s (0.010016 g/(cm s)) measured at 20 degrees. *)
Theorem C67_viscosity : (forall T, let k := T + 27315 / 100 in
    ln (100 * viscosity T) = - (2471 / 100) + 4209 / k + 4527 / 100000 * k - 3376 / 100000000 * k ^ 2) /\
  Rabs (viscosity 20 - 10016 / 1000000) <= 2 / 100 * (10016 / 1000000).
Proof.
  assert (V : forall T, 100 * viscosity T = exp (- (2471 / 100) + 4209 / (T + 27315 / 100) + 4527 / 100000 * (T + 27315 / 100) - 3376 / 100000000 * (T + 27315 / 100) ^ 2)).
  { intros T. unfold viscosity. cbv zeta.
    replace (dec 27315 2) with (27315 / 100) by (unfold dec; simpl; lra). replace (dec 2471 2) with (2471 / 100) by (unfold dec; simpl; lra).
    replace (dec 4527 5) with (4527 / 100000) by (unfold dec; simpl; lra). replace (dec 3376 8) with (3376 / 100000000) by (unfold dec; simpl; lra). field_simplify (100 * (exp (- (2471 / 100) + 4209 / (T + 27315 / 100) + 4527 / 100000 * (T + 27315 / 100) - 3376 / 100000000 * (T + 27315 / 100) ^ 2) / 100)). reflexivity. }
  split; [intros T k; rewrite V; apply ln_exp|].
  specialize (V 20). set (x := - (2471 / 100) + 4209 / (20 + 27315 / 100) + 4527 / 100000 * (20 + 27315 / 100) - 3376 / 100000000 * (20 + 27315 / 100) ^ 2) in V.
  assert (X : 175 / 10000 <= x <= 176 / 10000) by (unfold x; lra).
  assert (L : 1 + x <= exp x) by (destruct (Req_dec x 0) as [-> | N]; [rewrite exp_0; lra|left; apply exp_ineq1; exact N]).
  assert (M : 1 + - x <= exp (- x)) by (destruct (Req_dec (- x) 0) as [-> | N]; [rewrite exp_0; lra|left; apply exp_ineq1; exact N]).
  rewrite exp_Ropp in M. assert (P := exp_pos x).
  assert (U : exp x <= / (1 - x)). { apply Rmult_le_reg_r with (1 - x); [lra|]. rewrite Rinv_l by lra. apply Rmult_le_compat_l with (r := exp x) in M; [|lra]. rewrite Rinv_r in M by lra. lra. }
  assert (U2 : / (1 - x) <= 102 / 100). { apply Rmult_le_reg_r with (1 - x); [lra|]. rewrite Rinv_l by lra. lra. }
  apply Rabs_le. lra.
Qed.

(** The two packages estimate the same liquid diffusivity. *)
Theorem C67_packages_agree : forall MV T, 0 < MV -> Hayduk_Laudie MV T = difl (viscosity T) MV.
Proof.
  intros MV T HM. assert (V := viscosity_pos T). unfold Hayduk_Laudie, difl.
  rewrite !rpow_opp by lra. field. split; apply Rgt_not_eq, rpow_pos; lra.
Qed.

(** ** Concrete cases *)
Example ex_foul : get_fouling_params "Rhine" "PFAS" "unlisted" =
  Ok (dec 45 2 * dec 35 2 + dec 41 2, dec 45 2 * dec (-615) 10, dec 45 2 * dec 65 2, dec 45 2 * dec (-893) 7).
Proof. reflexivity. Qed.
Example ex_grid : exists xs ks, generate_grid 3 5 1 [1 - dec 1 1; 1 + dec 1 1] [2 - 1; 2 + 1] = Ok (xs, ks) /\
  In 1 xs /\ In 2 ks.
Proof.
  do 2 eexists. split; [reflexivity|].
  apply (C39_grid_contains_centre 0 1 1 [1 - dec 1 1; 1 + dec 1 1] [2 - 1; 2 + 1] _ _ 1 (dec 1 1) 2 1);
    [reflexivity|reflexivity|reflexivity|unfold dec; simpl; lra|lra].
Qed.
(** Water at 20 degrees and a large molecule: Schmidt number above one. *)
Example ex_schmidt : 1 <= schmidt 1 1 (difl 1 1).
Proof.
  unfold schmidt, difl. rewrite rpow_one_base, Rmult_1_r.
  assert (L : 1 <= rpow (1 * 100) (dec 114 2)).
  { rewrite <- (rpow_one_base (dec 114 2)) at 1. apply rpow_le; [lra|unfold dec; simpl; lra]. }
  set (p := rpow _ _) in *. clearbody p.
  replace (dec 1326 7) with (1326 / 10000000) by (unfold dec; simpl; lra).
  replace (1 / (1 * (1326 / 10000000 / p))) with (p * (10000000 / 1326)) by (field; lra).
  lra.
Qed.

Print Assumptions C34_never_increases.
Print Assumptions C34_positive_up_to_horizon_partial.
Print Assumptions C34_horizon_covers_run.
Print Assumptions C34_coefficients.
Print Assumptions C34_follows_correlation.
Print Assumptions C34_starts_at_one_partial.
Print Assumptions C34_other_classes_start_refuted.
Print Assumptions C34_pfas_start_refuted.
Print Assumptions C34_positive_beyond_horizon_refuted.
Print Assumptions C35_tortuosity.
Print Assumptions C35_versions_agree_refuted.
Print Assumptions C36_loading_preserved.
Print Assumptions C36_unique_and_composes.
Print Assumptions C39_grid_spans_ranges.
Print Assumptions C39_grid_contains_centre.
Print Assumptions C39_default_grid.
Print Assumptions C45_film_monotone_partial.
Print Assumptions C45_flow_monotone.
Print Assumptions C45_ion_exchange_film.
Print Assumptions C45_diffusivities_positive.
Print Assumptions C45_ohashi_refuted.
Print Assumptions C45_ko_refuted.
Print Assumptions C67_water.
Print Assumptions C67_viscosity.
Print Assumptions C67_packages_agree.
Print Assumptions C45_sherwood.
