(** C162-C164: the session of the ion-exchange page. *)
From Coq Require Import Reals ZArith List Arith Bool String Lra Lia.
From Verif Require Import Lib_Py M_IxUnc M_IxColumn M_RPacApp Props_RPacApp M_RIexApp Props_RIexApp M_RIexSession S_RIexSession.
Import ListNotations.
Open Scope R_scope.
Open Scope string_scope.
Local Notation length := List.length.

(** ** Four digits are within half a thousandth *)
Lemma magnitude_le x : 0 < x -> powerRZ 10 (magnitude x) <= x.
Proof.
  intros X. unfold magnitude. assert (P10 : 0 < ln 10) by (rewrite <- ln_1; apply ln_increasing; lra).
  destruct (base_Int_part (ln x / ln 10)) as [A _]. set (z := Int_part (ln x / ln 10)) in *.
  assert (B : IZR z * ln 10 <= ln x). { apply (Rmult_le_compat_r (ln 10)) in A; [|lra]. replace (ln x / ln 10 * ln 10) with (ln x) in A by (field; lra). exact A. }
  rewrite powerRZ_Rpower by lra. unfold Rpower. rewrite <- (exp_ln x X). destruct B as [B|B]; [left; apply exp_increasing, B|right; f_equal; exact B].
Qed.
Lemma powerRZ_le10 a b : (a <= b)%Z -> powerRZ 10 a <= powerRZ 10 b.
Proof.
  intros H. replace b with (a + (b - a))%Z by lia. rewrite powerRZ_add by lra. assert (P : 0 < powerRZ 10 a) by (apply powerRZ_lt; lra).
  assert (Q : 1 <= powerRZ 10 (b - a)). { rewrite <- (Z2Nat.id (b - a)) by lia. rewrite <- pow_powerRZ. apply pow_R1_Rle. lra. }
  rewrite <- (Rmult_1_r (powerRZ 10 a)) at 1. apply Rmult_le_compat_l; lra.
Qed.
Lemma format4_near x : 0 < x -> near (1 / 2000) x (format4 x).
Proof.
  intros X. unfold near, format4. cbn zeta. set (m := magnitude x). set (q := powerRZ 10 (Z.min 0 (m - 3))).
  assert (Q : 0 < q) by (unfold q; apply powerRZ_lt; lra).
  assert (B : q <= x / 1000).
  { apply Rle_trans with (powerRZ 10 (m - 3)); [apply powerRZ_le10; lia|]. replace (m - 3)%Z with (m + (-3))%Z by lia. rewrite powerRZ_add by lra.
    pose proof (magnitude_le x X). fold m in H. replace (powerRZ 10 (-3)) with (/ 1000) by (simpl; lra). lra. }
  destruct (base_Int_part (x / q + 1 / 2)) as [C D]. set (z := IZR (Int_part (x / q + 1 / 2))) in *.
  assert (E : Rabs (z - x / q) <= 1 / 2) by (apply Rabs_le; lra).
  replace (z * q - x) with ((z - x / q) * q) by (field; lra). rewrite Rabs_mult, (Rabs_right q), (Rabs_right x) by lra.
  apply Rle_trans with (1 / 2 * q); [apply Rmult_le_compat_r; lra|lra].
Qed.

(** * C162: a parameter sheet reaches the solver *)
Lemma shown_num s n d x u : lookup n s = Some (PNum x, u) -> p_shown s n d = if text_column s then x else format4 x.
Proof. intros H. unfold p_shown. rewrite H. reflexivity. Qed.
Lemma near_0 x : near 0 x x.
Proof. unfold near. replace (x - x) with 0 by lra. rewrite Rabs_R0. lra. Qed.
Lemma near_refl e x : 0 <= e -> near e x x.
Proof. intros E. unfold near. replace (x - x) with 0 by lra. rewrite Rabs_R0. apply Rmult_le_pos; [exact E|apply Rabs_pos]. Qed.
Lemma near_scale e x y k : near e x y -> near e (x * k) (y * k).
Proof. unfold near. intros H. replace (y * k - x * k) with ((y - x) * k) by ring. rewrite !Rabs_mult, <- Rmult_assoc. apply Rmult_le_compat_r; [apply Rabs_pos|exact H]. Qed.

(** Positive numbers, and a velocity in a unit that the page offers. *)
Definition sensible (a : asked) : Prop :=
  0 < a_Q a /\ 0 < a_EBED a /\ (forall p, a_EPOR a = Some p -> 0 < p) /\ 0 < a_rb a /\
  match a_flow a with AtVelocity _ u => In u ["cm/s"; "m/s"; "m/min"; "m/h"; "in/s"; "ft/s"; "ft/min"; "gpm/ft^2"] | AtRate _ _ _ _ => True end.
Definition all_short (a : asked) : Prop := short (a_Q a) /\ short (a_EBED a) /\ (forall p, a_EPOR a = Some p -> short p) /\ short (a_rb a).

Lemma fill_velocity s d a v : says s a -> sensible a -> velocity (fill s d) = Ok v -> velocity_asked (a_flow a) v.
Proof.
  intros (_ & _ & _ & _ & _ & F & _) (_ & _ & _ & _ & U) V. unfold velocity, fill in V. cbn [linear Vv VelocityUnits Fv FlowrateUnits Dv DiameterUnits] in V.
  destruct (a_flow a) as [x u|q u di du].
  - unfold mem_key in V. rewrite F in V. cbn [negb andb] in V. unfold p_num, p_unit in V. rewrite F in V.
    replace (mem_str u velocity_choices) with true in V.
    + destruct (lookup u velocity_conv) as [k|] eqn:K; [|discriminate]. cbn in V. exists k. split; [exact K|]. congruence.
    + symmetry. apply existsb_exists. exists u. split; [exact U|apply String.eqb_refl].
  - destruct F as (F1 & F2 & F3). unfold mem_key in V. rewrite F1, F2, F3 in V. cbn [negb andb] in V. unfold p_num, p_unit in V. rewrite F2, F3 in V.
    destruct (lookup u volumetric_conv) as [k|] eqn:K; [|discriminate]. cbn [of_option bind] in V.
    destruct (lookup du length_conv) as [kd|] eqn:Kd; [|discriminate]. cbn [of_option bind] in V. exists k, kd. split; [exact K|]. split; [exact Kd|].
    injection V as <-. f_equal. field.
Qed.

Theorem C162_solver_partial s a d ions cins x :
  says s a -> sensible a -> model_prep (fill s d) ions cins = Ok (Solve x) ->
  geometry_asked a x /\ resin_asked (1 / 2000) a x /\ (text_column s = true \/ all_short a -> resin_asked 0 a x).
Proof.
  intros Sy Se H. destruct (prep_inv _ _ _ _ H) as (v & l & r & cin & cs & t & V & L & Rr & _ & _ & _ & T & ->). clear H.
  pose proof (fill_velocity _ _ _ _ Sy Se V) as VA. destruct Sy as ((uq & Q) & (ue & E) & P & Le & Rb & _ & (un & N) & (uz & Z) & (vt & Ti)).
  cbn [fill LengthUnits rbunits timeunits2] in L, Rr, T. unfold p_unit in L, Rr, T. rewrite Le in L. rewrite Rb in Rr. rewrite Ti in T.
  destruct Se as (SQ & SE & SP & SR & _).
  unfold geometry_asked, resin_asked. cbn [s_column s_time Lbed vel nr nz rb Qcap EBED EPOR fill Lv nrv nzv rbv Qv EBEDv EPORv].
  rewrite (shown_num _ _ _ _ _ Q), (shown_num _ _ _ _ _ E), (shown_num _ _ _ _ _ Rb).
  assert (PS : forall p, a_EPOR a = Some p -> p_shown s "EPOR" (EPORv d) = if text_column s then p else format4 p).
  { intros p Hp. rewrite Hp in P. destruct P as (u & P). exact (shown_num _ _ _ _ _ P). }
  split; [|split].
  - split; [exists l; split; [exact L|]; unfold p_num; rewrite Le; reflexivity|]. split; [exact VA|].
    split; [unfold p_whole; rewrite N; reflexivity|]. split; [unfold p_whole; rewrite Z; reflexivity|exact T].
  - destruct (text_column s).
    + repeat split; try (apply near_refl; lra).
      * intros p Hp. rewrite (PS p Hp). apply near_refl. lra.
      * exists r. split; [exact Rr|]. apply near_refl. lra.
    + split; [apply format4_near, SQ|]. split; [apply format4_near, SE|]. split.
      * intros p Hp. rewrite (PS p Hp). apply format4_near, SP, Hp.
      * exists r. split; [exact Rr|]. apply near_scale, format4_near, SR.
  - intros D. assert (X : forall y, short y \/ text_column s = true -> (if text_column s then y else format4 y) = y).
    { intros y [Y|Y]; [destruct (text_column s); [reflexivity|apply format4_short, Y]|rewrite Y; reflexivity]. }
    rewrite !X by (destruct D as [D|(D1 & D2 & D3 & D4)]; [right; exact D|left; assumption]).
    repeat split; try apply near_0.
    + intros p Hp. rewrite (PS p Hp), X; [apply near_0|]. destruct D as [D|(D1 & D2 & D3 & D4)]; [right; exact D|left; apply D3, Hp].
    + exists r. split; [exact Rr|apply near_0].
Qed.

(** More digits are lost. *)
Definition long_capacity (q : R) : params :=
  [("Q", (PNum q, PText "meq/L")); ("EBED", (PNum (dec 35 2), PNA)); ("L", (PNum (dec 1476 2), PText "cm")); ("v", (PNum (dec 123 3), PText "cm/s"));
   ("rb", (PNum (dec 3375 5), PText "cm")); ("nr", (PWhole 7, PNA)); ("nz", (PWhole 13, PNA)); ("time", (PNum 1, PText "hr"))].
Definition long_asked (q : R) : asked :=
  {| a_Q := q; a_EBED := dec 35 2; a_EPOR := None; a_L := dec 1476 2; a_Lu := "cm"; a_rb := dec 3375 5; a_rbu := "cm"; a_flow := AtVelocity (dec 123 3) "cm/s"; a_nr := 7; a_nz := 13; a_time := "hr" |}.
Lemma long_says q : says (long_capacity q) (long_asked q).
Proof. unfold says, long_capacity, long_asked. cbn. repeat split; eexists; reflexivity. Qed.
Theorem C162_digits_refuted d : exists x,
  says (long_capacity (dec 12346 1)) (long_asked (dec 12346 1)) /\ sensible (long_asked (dec 12346 1)) /\
  model_prep (fill (long_capacity (dec 12346 1)) d) ex_ions ex_cins = Ok (Solve x) /\ Qcap (s_column x) = 1235 /\ Qcap (s_column x) <> a_Q (long_asked (dec 12346 1)).
Proof.
  eexists. split; [apply long_says|]. split; [unfold sensible; cbn; unfold dec; repeat split; try lra; [discriminate|tauto]|]. split; [reflexivity|].
  assert (Q : format4 (dec 12346 1) = 1235).
  { unfold format4. rewrite (magnitude_ok _ 3) by (unfold dec; simpl; lra). unfold dec. simpl.
    match goal with |- IZR (Int_part ?x) * _ = _ => replace (Int_part x) with 1235%Z end; [simpl; lra|]. symmetry. apply int_part. simpl. lra. }
  cbn [s_column Qcap]. change (Qv (fill (long_capacity (dec 12346 1)) d)) with (format4 (dec 12346 1)). rewrite Q. split; [reflexivity|]. cbn. unfold dec. lra.
Qed.

(** * C163: a saved workbook brings the run back *)
(** The boxes hold units that the page offers (1416, 1496-1505, 1527). *)
Definition offered_units (b : boxes) : Prop :=
  In (VelocityUnits b) ["cm/s"; "m/s"; "m/min"; "m/h"; "in/s"; "ft/s"; "ft/min"; "gpm/ft^2"] /\
  In (FlowrateUnits b) ["cm^3/s"; "m^3/s"; "ft^3/s"; "mL/s"; "L/min"; "mL/min"; "gpm"; "mgd"] /\ In (DiameterUnits b) ["cm"; "m"; "in"; "ft"].
Lemma settled b : offered_units b -> In (VelocityUnits (settle b)) velocity_choices /\
  exists v k, velocity b = Ok v /\ lookup (VelocityUnits (settle b)) velocity_conv = Some k /\ Vv (settle b) * k = v.
Proof.
  intros (A & B & C). unfold settle. destruct (linear b) eqn:Li.
  - split; [exact A|]. unfold velocity. rewrite Li. cbn [In] in A.
    repeat (destruct A as [A|A]; [rewrite <- A; do 2 eexists; repeat split; reflexivity|]). destruct A.
  - assert (V : exists v, velocity b = Ok v).
    { unfold velocity. rewrite Li. assert (F : exists f, lookup (FlowrateUnits b) volumetric_conv = Some f).
      { cbn [In] in B. repeat (destruct B as [B|B]; [rewrite <- B; eexists; reflexivity|]). destruct B. }
      assert (G : exists f, lookup (DiameterUnits b) length_conv = Some f).
      { cbn [In] in C. repeat (destruct C as [C|C]; [rewrite <- C; eexists; reflexivity|]). destruct C. }
      destruct F as (f & F), G as (g & G). rewrite F, G. eexists. reflexivity. }
    destruct V as (v & V). rewrite V. cbn. split; [tauto|]. exists v, cm2cm. repeat split. unfold cm2cm. ring.
Qed.
Theorem C163_saved_workbook b d ions cins : offered_units b ->
  let b' := fill (paramdf (settle b)) d in
  psdm b' = psdm b /\ same_call (psdm b) (model_prep b' ions cins) (model_prep b ions cins).
Proof.
  intros U. destruct (settled b U) as (VC & v & k & V & K & E). cbv zeta.
  assert (Fld : LengthUnits (settle b) = LengthUnits b /\ rbunits (settle b) = rbunits b /\ Lv (settle b) = Lv b /\ rbv (settle b) = rbv b /\ Qv (settle b) = Qv b /\
                EBEDv (settle b) = EBEDv b /\ EPORv (settle b) = EPORv b /\ nrv (settle b) = nrv b /\ nzv (settle b) = nzv b /\ timeunits2 (settle b) = timeunits2 b /\ psdm (settle b) = psdm b).
  { unfold settle. destruct (linear b); [repeat split|]. rewrite V. repeat split. }
  destruct Fld as (F1 & F2 & F3 & F4 & F5 & F6 & F7 & F8 & F9 & F10 & F11).
  set (c := settle b) in *.
  assert (T : text_column (paramdf c) = true) by (unfold paramdf; destruct (psdm c); reflexivity).
  assert (M : mem_str (VelocityUnits c) velocity_choices = true) by (apply existsb_exists; exists (VelocityUnits c); split; [exact VC|apply String.eqb_refl]).
  assert (W : velocity (fill (paramdf c) d) = Ok v).
  { unfold velocity, fill. cbn [linear Vv VelocityUnits]. replace (mem_key "v" (paramdf c)) with true by (unfold paramdf; destruct (psdm c); reflexivity).
    replace (p_unit (paramdf c) "v" (VelocityUnits d)) with (VelocityUnits c) by (unfold paramdf; destruct (psdm c); reflexivity).
    cbn zeta. rewrite M, K. cbn [of_option bind]. replace (p_num (paramdf c) "v" (Vv d)) with (Vv c) by (unfold paramdf; destruct (psdm c); reflexivity). rewrite E. reflexivity. }
  assert (PS : psdm (fill (paramdf c) d) = psdm b) by (rewrite <- F11; unfold fill, paramdf; cbn [psdm]; destruct (psdm c); reflexivity).
  split; [exact PS|].
  assert (G : LengthUnits (fill (paramdf c) d) = LengthUnits b /\ rbunits (fill (paramdf c) d) = rbunits b /\ Lv (fill (paramdf c) d) = Lv b /\ nrv (fill (paramdf c) d) = nrv b /\
              nzv (fill (paramdf c) d) = nzv b /\ timeunits2 (fill (paramdf c) d) = timeunits2 b).
  { rewrite <- F1, <- F2, <- F3, <- F8, <- F9, <- F10. unfold fill, paramdf. cbn [LengthUnits rbunits Lv nrv nzv timeunits2]. destruct (psdm c); repeat split. }
  assert (S : rbv (fill (paramdf c) d) = rbv b /\ Qv (fill (paramdf c) d) = Qv b /\ EBEDv (fill (paramdf c) d) = EBEDv b /\ (psdm b = true -> EPORv (fill (paramdf c) d) = EPORv b)).
  { rewrite <- F4, <- F5, <- F6, <- F7, <- F11. unfold fill. cbn [rbv Qv EBEDv EPORv]. unfold p_shown. rewrite T. unfold paramdf. destruct (psdm c); repeat split; discriminate. }
  destruct G as (G1 & G2 & G3 & G4 & G5 & G6), S as (S1 & S2 & S3 & S4). unfold model_prep. rewrite W, V, G1, G2, G3, G4, G5, G6, S1, S2, S3, PS. cbn [bind].
  destruct (factor_of length_conv (LengthUnits b)); [|reflexivity]. cbn [bind]. destruct (factor_of length_conv (rbunits b)); [|reflexivity]. cbn [bind].
  destruct (mismatches ions cins); [|reflexivity]. destruct (cin_correct ions cins); [|reflexivity]. cbn [bind].
  destruct (mapM (corr_ion (psdm b)) ions); [|reflexivity]. cbn [bind]. destruct (factor_of time_conv (timeunits2 b)); [|reflexivity]. cbn [bind].
  cbn. repeat split. exact S4.
Qed.

(** * C164: what the page shows belongs to the last run *)
Lemma whole_complete l : whole_ions (map (fun i => (i_name i, Some i)) l) = Some l.
Proof. induction l as [|i l IH]; [reflexivity|]. cbn. unfold whole_ions in IH. rewrite IH. reflexivity. Qed.
Lemma whole_some s : (exists l, whole_ions s = Some l) <-> forall n r, In (n, r) s -> r <> None.
Proof.
  induction s as [|[n r] s IH].
  - split; [intros _ ? ? []|]. intros _. exists []. reflexivity.
  - cbn [whole_ions fold_right snd]. change (fold_right _ _ s) with (whole_ions s). split.
    + intros (l & H) n' r' [E|I]; [|].
      * destruct r as [i|]; [|discriminate]. assert (r' = Some i) by congruence. subst. discriminate.
      * apply (proj1 IH) with (n := n'); [|exact I]. destruct r; [|discriminate]. destruct (whole_ions s) as [k|]; [exists k; reflexivity|discriminate].
    + intros H. destruct r as [i|]; [|exfalso; apply (H n None); [left; reflexivity|reflexivity]].
      destruct (proj2 IH) as (l & W); [intros n' r' I; apply (H n'); right; exact I|]. rewrite W. exists (i :: l). reflexivity.
Qed.
(** A run is let through exactly when the names agree and nothing is missing. *)
Theorem C164_check s c : may_run s c = true <->
  ((forall n, In n (map fst s) -> In n (map fst c)) /\ (forall n, In n (map fst c) -> n = "time" \/ In n (map fst s)) /\
   (forall n r, In (n, r) s -> r <> None) /\ (forall n col v, In (n, col) c -> In v col -> v <> None)).
Proof.
  unfold may_run. rewrite !andb_true_iff, !forallb_forall.
  assert (M : forall n l, mem_str n l = true <-> In n l).
  { intros n l. unfold mem_str. rewrite existsb_exists. split; [intros (x & I & E); apply String.eqb_eq in E; subst; exact I|intros I; exists n; split; [exact I|apply String.eqb_refl]]. }
  split.
  - intros (((A & B) & W) & N). split; [|split; [|split]].
    + intros n I. apply in_map_iff in I. destruct I as (p & <- & I). apply M, (A p I).
    + intros n I. specialize (B n I). apply orb_true_iff in B. destruct B as [B|B]; [left; apply String.eqb_eq, B|right; apply M, B].
    + apply whole_some. destruct (whole_ions s) as [l|]; [exists l; reflexivity|discriminate].
    + intros n col v I J. unfold no_missing in N. rewrite forallb_forall in N. specialize (N _ I). cbn in N. rewrite forallb_forall in N. specialize (N v J). destruct v; [discriminate|discriminate N].
  - intros (A & B & W & N). split; [split; [split|]|].
    + intros p I. apply M, A, in_map, I.
    + intros n I. apply orb_true_iff. destruct (B n I) as [-> | J]; [left; apply String.eqb_refl|right; apply M, J].
    + destruct (proj2 (whole_some s) W) as (l & ->). reflexivity.
    + unfold no_missing. apply forallb_forall. intros [n col] I. cbn. apply forallb_forall. intros v J. specialize (N n col v I J). destruct v; [reflexivity|exfalso; apply N; reflexivity].
Qed.

Section Runs.
Variable solve : ions_sheet -> cin_sheet -> res (list (list R)).

Lemma mgl_table l o : mgl_columns l (combine (map i_name l) o) = shown_for l o.
Proof.
  revert o. induction l as [|i l IH]; intros [|x o]; [reflexivity|reflexivity|reflexivity|]. unfold mgl_columns, shown_for. cbn [map combine fst snd]. f_equal. apply IH.
Qed.
(** The sheet of the ions is left as it was and no run succeeds since. *)
Definition quiet (l : list ion) (a : action) : Prop := match a with Edit s _ => complete s l | Run => True end.
Definition inv (l : list ion) (o : list (list R)) (p : page) : Prop := complete (p_ions p) l /\ p_out p = Some o /\ p_table p = combine (map i_name l) o.

Theorem C164_display_partial p0 before after l o :
  let p := fold_left (act solve) before p0 in
  complete (p_ions p) l -> length o = length l -> may_run (p_ions p) (p_cin p) = true -> solve (p_ions p) (p_cin p) = Ok o ->
  (forall a, In a after -> quiet l a) ->
  (forall b a, after = (b ++ Run :: a)%list -> let q := fold_left (act solve) b (act solve p Run) in may_run (p_ions q) (p_cin q) = false \/ (exists e, solve (p_ions q) (p_cin q) = Err e)) ->
  displayed (fold_left (act solve) (before ++ Run :: after) p0) = Some (shown_for l o).
Proof.
  cbv zeta. intros C Len Ok_ So Q F. rewrite fold_left_app. cbn [fold_left]. set (p := fold_left (act solve) before p0) in *.
  assert (L : length (p_ions p) = length l) by (rewrite C; apply map_length).
  assert (Nm : map fst (p_ions p) = map i_name l) by (rewrite C, map_map; reflexivity).
  assert (I : inv l o (act solve p Run)).
  { unfold inv, act. rewrite Ok_, So. cbn. rewrite L, Len, Nat.leb_refl, Nm. repeat split. exact C. }
  revert I Q F. generalize (act solve p Run). clear. induction after as [|a after IH]; intros q I Q F.
  - cbn [fold_left]. destruct I as (C & _ & T). unfold displayed. rewrite C, whole_complete. cbn. rewrite T, mgl_table. reflexivity.
  - cbn [fold_left]. apply IH; [|intros x X; apply Q; right; exact X|intros b x E; subst after; exact (F (a :: b) x eq_refl)].
    destruct I as (C & O & T). destruct a as [s c|].
    + specialize (Q (Edit s c) (or_introl eq_refl)). repeat split; assumption.
    + specialize (F [] after eq_refl). cbn [fold_left] in F. unfold inv, act. cbn [p_ions p_out p_table].
      assert (E : (if may_run (p_ions q) (p_cin q) then match solve (p_ions q) (p_cin q) with Ok o' => Some o' | Err _ => p_out q end else p_out q) = Some o).
      { destruct F as [-> | (e & ->)]; [exact O|destruct (may_run _ _); exact O]. }
      rewrite E. split; [exact C|]. split; [reflexivity|].
      destruct (Nat.leb (length (p_ions q)) (length o)); [|exact T]. rewrite C, map_map. reflexivity.
Qed.

(** Two ions change places in the sheet, nothing is run: each is shown with the other's molecular
    weight and valence. *)
Theorem C164_edit_refuted l1 l2 c x y vx vy p0 :
  let s := map (fun i => (i_name i, Some i)) [l1; l2] in let s' := map (fun i => (i_name i, Some i)) [l2; l1] in
  may_run s c = true -> solve s c = Ok [vx :: x; vy :: y] -> vx <> 0 -> i_mw l1 / INR (i_valence l1) <> i_mw l2 / INR (i_valence l2) ->
  exists shown, displayed (fold_left (act solve) [Edit s c; Run; Edit s' c] p0) = Some shown /\
  lookup (i_name l1) shown = Some (map (fun v => v * (i_mw l2 / INR (i_valence l2))) (vx :: x)) /\
  lookup (i_name l1) shown <> lookup (i_name l1) (shown_for [l1; l2] [vx :: x; vy :: y]).
Proof.
  intros s s' M S V N. eexists. split; [cbn [fold_left act p_ions p_cin p_out p_table]; rewrite M, S; reflexivity|].
  cbn [p_ions p_table whole_ions displayed option_map mgl_columns shown_for map combine fold_right fst snd length Nat.leb lookup s s']. rewrite String.eqb_refl. split; [reflexivity|].
  cbn. intros E. match type of E with Some (?p :: _) = Some (?q :: _) => assert (F : p = q) by congruence end. apply N. apply (Rmult_eq_reg_l vx); [symmetry; exact F|exact V].
Qed.
(** And after a run that was refused, for a missing influent say, each is shown as the other. *)
Theorem C164_refused_refuted l1 l2 c c' x y vx vy p0 :
  let s := map (fun i => (i_name i, Some i)) [l1; l2] in let s' := map (fun i => (i_name i, Some i)) [l2; l1] in
  may_run s c = true -> solve s c = Ok [vx :: x; vy :: y] -> may_run s' c' = false -> i_name l1 <> i_name l2 -> vx <> vy -> i_mw l1 / INR (i_valence l1) <> 0 ->
  exists shown, displayed (fold_left (act solve) [Edit s c; Run; Edit s' c'; Run] p0) = Some shown /\
  lookup (i_name l1) shown = Some (map (fun v => v * (i_mw l1 / INR (i_valence l1))) (vy :: y)) /\
  lookup (i_name l1) shown <> lookup (i_name l1) (shown_for [l1; l2] [vx :: x; vy :: y]).
Proof.
  intros s s' M S N D V W. eexists. split; [cbn [fold_left act p_ions p_cin p_out p_table]; rewrite M, S; cbn [p_out]; rewrite N; reflexivity|].
  apply String.eqb_neq in D.
  cbn [p_ions p_table whole_ions displayed option_map mgl_columns shown_for map combine fold_right fst snd length Nat.leb lookup s s']. rewrite String.eqb_refl, D. split; [reflexivity|].
  cbn. intros E. match type of E with Some (?p :: _) = Some (?q :: _) => assert (F : p = q) by congruence end. apply V. apply (Rmult_eq_reg_r (i_mw l1 / INR (i_valence l1))); [symmetry; exact F|exact W].
Qed.
End Runs.

(** ** The hypotheses are met *)
Example C162_met : exists x, says (long_capacity 1400) (long_asked 1400) /\ sensible (long_asked 1400) /\ model_prep (fill (long_capacity 1400) (ex_boxes "cm")) ex_ions ex_cins = Ok (Solve x) /\ all_short (long_asked 1400).
Proof.
  eexists. split; [apply long_says|]. split; [unfold sensible; cbn; unfold dec; repeat split; try lra; [discriminate|tauto]|]. split; [reflexivity|].
  unfold all_short. cbn. repeat split.
  - exists 3%Z, 1400%Z. simpl. lra.
  - exists (-1)%Z, 3500%Z. unfold dec. simpl. lra.
  - discriminate.
  - exists (-2)%Z, 3375%Z. unfold dec. simpl. lra.
Qed.
Definition rate_sheet : params :=
  [("Q", (PNum 1400, PText "meq/L")); ("EBED", (PNum (dec 35 2), PNA)); ("EPOR", (PNum (dec 2 1), PNA)); ("L", (PNum 3, PText "ft")); ("flrt", (PNum 500, PText "gpm")); ("diam", (PNum 10, PText "ft"));
   ("rb", (PNum (dec 3375 5), PText "cm")); ("nr", (PWhole 7, PNA)); ("nz", (PWhole 13, PNA)); ("time", (PText "hr", PText "hr"))].
Example C162_rate_met : exists a x, says rate_sheet a /\ sensible a /\ model_prep (fill rate_sheet (ex_boxes "cm")) ex_ions ex_cins = Ok (Solve x) /\ text_column rate_sheet = true.
Proof.
  exists {| a_Q := 1400; a_EBED := dec 35 2; a_EPOR := Some (dec 2 1); a_L := 3; a_Lu := "ft"; a_rb := dec 3375 5; a_rbu := "cm"; a_flow := AtRate 500 "gpm" 10 "ft"; a_nr := 7; a_nz := 13; a_time := "hr" |}.
  eexists. split; [unfold says, rate_sheet; cbn; repeat split; eexists; reflexivity|]. split; [|split; reflexivity].
  unfold sensible. cbn. unfold dec. repeat split; try lra. intros p E. injection E as <-. lra.
Qed.
Example C163_met : offered_units (ex_boxes "mm") /\ exists x, model_prep (ex_boxes "mm") ex_ions ex_cins = Ok (Solve x).
Proof. split; [unfold offered_units; cbn; tauto|]. eexists. reflexivity. Qed.
Definition heavy_ion : ion := {| i_name := "SULFATE"; i_mw := 96; i_KxA := 1; i_valence := 2; i_kL := 1; i_kL_units := "cm/s"; i_Ds := 1; i_Ds_units := "cm^2/s"; i_Dp := 1; i_Dp_units := "cm^2/s"; i_units := "meq" |}.
Definition two_cin (v : option R) : cin_sheet := [("time", [Some 0; Some 10]); ("CHLORIDE", [Some 1; Some 1]); ("SULFATE", [Some 2; v])].
Definition two_ions : ions_sheet := map (fun i => (i_name i, Some i)) [ex_ion "CHLORIDE"; heavy_ion].
Example C164_met : may_run two_ions (two_cin (Some 2)) = true /\ may_run (map (fun i => (i_name i, Some i)) [heavy_ion; ex_ion "CHLORIDE"]) (two_cin None) = false /\
  i_mw (ex_ion "CHLORIDE") / INR (i_valence (ex_ion "CHLORIDE")) <> i_mw heavy_ion / INR (i_valence heavy_ion) /\ i_mw (ex_ion "CHLORIDE") / INR (i_valence (ex_ion "CHLORIDE")) <> 0 /\
  complete two_ions [ex_ion "CHLORIDE"; heavy_ion] /\ (forall a, In a [Run; Edit two_ions (two_cin None); Run] -> quiet [ex_ion "CHLORIDE"; heavy_ion] a).
Proof.
  repeat split; cbn; try lra. intros a [<- | [<- | [<- | []]]]; cbn; try exact I; reflexivity.
Qed.
(** A session that meets all hypotheses of C164_display_partial: the second run is refused. *)
Example C164_session : let solve := fun (_ : ions_sheet) (_ : cin_sheet) => Ok [[1; 2]; [3; 4]] in
  let p0 := {| p_ions := []; p_cin := []; p_out := None; p_table := [] |} in
  displayed (fold_left (act solve) ([Edit two_ions (two_cin (Some 2))] ++ Run :: [Edit two_ions (two_cin None); Run]) p0) = Some (shown_for [ex_ion "CHLORIDE"; heavy_ion] [[1; 2]; [3; 4]]).
Proof.
  cbv zeta. apply (C164_display_partial (fun _ _ => Ok [[1; 2]; [3; 4]])).
  - reflexivity.
  - reflexivity.
  - reflexivity.
  - reflexivity.
  - intros a [<- | [<- | []]]; [reflexivity|exact I].
  - intros b a E. destruct b as [|b0 b]; [discriminate|]. destruct b as [|b1 b]; [|destruct b; discriminate].
    assert (b0 = Edit two_ions (two_cin None)) by (cbn [app] in E; congruence). subst. left. reflexivity.
Qed.

Print Assumptions C162_solver_partial.
Print Assumptions C162_digits_refuted.
Print Assumptions C163_saved_workbook.
Print Assumptions C164_check.
Print Assumptions C164_display_partial.
Print Assumptions C164_edit_refuted.
Print Assumptions C164_refused_refuted.
