(** Property C180: measured influents and effluents on the plots of the ion-exchange page. *)
From Coq Require Import Reals List Arith Bool String Lra Lia.
From Verif Require Import Lib_Py Lib_Pow M_GacFun M_IxUnc M_GacShiny M_RGacApp S_RGacApp P_RGacApp Props_RGacApp M_RIexApp S_RIexApp P_IxData P_IxUnc P_LeadLag P_RIexApp Props_RIexApp M_RIexPlots.
Import ListNotations.
Open Scope R_scope.
Open Scope string_scope.
Local Notation length := List.length.

(** Every measurement of the sheet is a point, and every point is one of them: its time in units
    of [k] seconds, its concentration in units of [m] mg/L; [s]: the sheet's unit of time. *)
Definition drawn (ions : list ion) (w : timed) (mark : string) (s k m : R) (pts : list point) : Prop :=
  length pts = (length (f_cols w) * length (f_time w))%nat /\
  forall x name y, In (x, name, y) pts <->
  exists t n v i c, says w t n v /\ In i ions /\ i_name i = n /\ name = n ++ mark /\ is_mgl (i_units i) (i_mw i) (i_valence i) v c /\ x * k = t * s /\ y * m = c.
(** An axis: seconds per unit. *)
Definition axis_unit (b : boxes) (u : string) (k : R) : Prop :=
  seconds u k \/ (u = "Bed Volumes (x1000)" /\ exists bv, get_bv_in_sec b = Ok bv /\ bv <> 0 /\ k = 1000 * bv).
Definition known_units (i : ion) : Prop := In (i_units i) ["meq"; "meq/L"; "mg"; "ug"; "ng"; "mg/L"; "ug/L"; "ng/L"] /\ (0 < i_valence i)%nat.
Definition same_names (ions : list ion) (w : timed) : Prop := forall n, In n (map fst (f_cols w)) <-> In n (map i_name ions).

(** ** Conversions succeed *)
Lemma convert_some f ions cins : (forall i, In i ions -> (exists k, f i = Ok k) /\ (exists col, lookup (i_name i) cins = Some col)) ->
  exists m, convert_columns f ions cins = Ok m.
Proof.
  intros H. unfold convert_columns. match goal with |- exists m, fold_left ?F _ _ = _ => enough (G : forall out, exists m, fold_left F ions (Ok out) = Ok m) by apply G end.
  induction ions as [|i ions IH]; intros out; [exists out; reflexivity|]. cbn [fold_left].
  destruct (H i (or_introl eq_refl)) as ((k & K) & (col & L)). cbn [bind]. rewrite K. cbn [bind]. rewrite L. cbn [of_option bind].
  apply IH. intros j J. apply H. right. exact J.
Qed.
Lemma convert_err f ions cins i : In i ions -> lookup (i_name i) cins = None -> exists e, convert_columns f ions cins = Err e.
Proof.
  intros I L. unfold convert_columns. generalize (@Ok frame cins).
  match goal with |- forall r, exists e, fold_left ?F _ _ = _ => assert (ST : forall l e, exists e', fold_left F l (Err e) = Err e') end.
  { induction l as [|j l IH]; intros e; [exists e; reflexivity|]. cbn [fold_left bind]. apply IH. }
  induction ions as [|j ions IH]; [destruct I|]. intros acc. cbn [fold_left]. destruct I as [->|I]; [|apply IH, I].
  destruct acc as [o|e]; [|apply ST]. cbn [bind]. destruct (f i) as [k|e]; [|apply ST]. cbn [bind]. rewrite L. apply ST.
Qed.
Lemma factor_some i : known_units i -> exists f, mgl_factor i = Ok f /\ forall v c, is_mgl (i_units i) (i_mw i) (i_valence i) v c <-> c = v * f.
Proof.
  intros (U & V). assert (HZ : INR (i_valence i) <> 0) by (apply not_0_INR; lia). unfold mgl_factor, is_mgl.
  assert (ME : forall u, u = "meq" \/ u = "meq/L" -> forall v c, ((u = "meq" \/ u = "meq/L") /\ c * INR (i_valence i) = v * i_mw i) \/ (exists m, mass_unit u m /\ c = v * m) <-> c = v * (i_mw i / INR (i_valence i))).
  { intros u Hu v c. split.
    - intros [(_ & E)|(m & Q & _)]; [|destruct Hu as [-> | ->]; inversion Q]. apply (Rmult_eq_reg_r (INR (i_valence i))); [|exact HZ]. rewrite E. field. exact HZ.
    - intros ->. left. split; [exact Hu|]. field. exact HZ. }
  assert (MA : forall u m, mass_unit u m -> forall v c, ((u = "meq" \/ u = "meq/L") /\ c * INR (i_valence i) = v * i_mw i) \/ (exists m, mass_unit u m /\ c = v * m) <-> c = v * m).
  { intros u m Hm v c. split.
    - intros [([-> | ->] & _)|(m' & Q & ->)]; [inversion Hm|inversion Hm|]. f_equal. destruct Hm; inversion Q; reflexivity.
    - intros ->. right. exists m. split; [exact Hm|reflexivity]. }
  cbn [In] in U. repeat destruct U as [U|U]; try contradiction; rewrite <- U; cbn [String.eqb Ascii.eqb Bool.eqb orb];
  (eexists; split; [reflexivity|]);
  first [apply ME; auto | replace (dec 1 3) with (1 / 1000) by (unfold dec; simpl; field); apply MA; constructor
        | replace (dec 1 6) with (1 / 1000000) by (unfold dec; simpl; field); apply MA; constructor | apply MA; constructor].
Qed.
Lemma lookup_in_cols {A} (d : list (string * A)) n v : NoDup (keys d) -> (lookup n d = Some v <-> In (n, v) d).
Proof.
  intros ND. induction d as [|(m & x) d IH]; [split; [discriminate|intros []]|]. inversion ND as [|a l N1 N2]; subst. cbn [lookup].
  destruct (String.eqb_spec n m) as [->|N].
  - split; [intros E; left; congruence|]. intros [E|I]; [congruence|]. exfalso. apply N1. apply in_map_iff. exists (m, v). split; [reflexivity|exact I].
  - rewrite (IH N2). split; [intros I; right; exact I|]. intros [E|I]; [congruence|exact I].
Qed.
Lemma in_mgl_says ions w : table_ok w -> NoDup (map i_name ions) -> same_names ions w -> (forall i, In i ions -> known_units i) ->
  exists m, in_mgl ions w = Ok m /\ f_time m = f_time w /\ length (f_cols m) = length (f_cols w) /\
  Forall (fun p => length (snd p) = length (f_time m)) (f_cols m) /\
  forall t n c, says m t n c <-> exists v i, says w t n v /\ In i ions /\ i_name i = n /\ is_mgl (i_units i) (i_mw i) (i_valence i) v c.
Proof.
  intros (NDw & HF) ND SN KU. unfold in_mgl, mass_converter_mgl.
  destruct (convert_some mgl_factor ions (f_cols w)) as (m & M).
  { intros i I. split; [destruct (factor_some i (KU i I)) as (f & F & _); exists f; exact F|].
    assert (J : In (i_name i) (map fst (f_cols w))) by (apply SN, in_map, I). apply in_map_iff in J. destruct J as ((n & col) & E & J). cbn in E. subst n.
    exists col. apply lookup_in_cols; [exact NDw|exact J]. }
  rewrite M. cbn [bind]. exists {| f_time := f_time w; f_cols := m |}. split; [reflexivity|]. split; [reflexivity|]. cbn [f_time f_cols].
  destruct (convert_columns_ok mgl_factor ions (f_cols w) m ND M) as (KE & A & _).
  assert (NDm : NoDup (keys m)) by (rewrite KE; exact NDw).
  assert (COL : forall n col', In (n, col') m <-> exists i k col, In i ions /\ i_name i = n /\ mgl_factor i = Ok k /\ In (n, col) (f_cols w) /\ col' = map (fun v => v * k) col).
  { intros n col'. split.
    - intros I. assert (J : In n (map i_name ions)) by (apply SN; change (map fst (f_cols w)) with (keys (f_cols w)); rewrite <- KE; apply in_map_iff; exists (n, col'); split; [reflexivity|exact I]).
      apply in_map_iff in J. destruct J as (i & E & J). destruct (A i J) as (k & col & K & L & O). rewrite E in L, O. exists i, k, col.
      split; [exact J|]. split; [exact E|]. split; [exact K|]. split; [apply lookup_in_cols; [exact NDw|exact L]|].
      apply lookup_in_cols in I; [|exact NDm]. congruence.
    - intros (i & k & col & I & E & K & J & ->). destruct (A i I) as (k' & col' & K' & L & O). assert (k' = k) by congruence. subst k'. rewrite E in L, O.
      apply lookup_in_cols in J; [|exact NDw]. assert (col' = col) by congruence. subst col'. apply lookup_in_cols; [exact NDm|exact O]. }
  split; [unfold keys in KE; rewrite <- (map_length fst m), <- (map_length fst (f_cols w)); f_equal; exact KE|]. split.
  - apply Forall_forall. intros (n & col') I. cbn [snd]. apply COL in I. destruct I as (i & k & col & _ & _ & _ & J & ->). rewrite map_length. rewrite Forall_forall in HF. apply (HF _ J).
  - intros t n c. unfold says. cbn [f_time f_cols]. split.
    + intros (col' & j & I & T & C). apply COL in I. destruct I as (i & k & col & I & E & K & J & ->). rewrite nth_error_map in C.
      destruct (nth_error col j) as [v|] eqn:V; [|discriminate]. cbn in C. assert (c = v * k) by congruence. subst c. exists v, i. split; [exists col, j; auto|]. split; [exact I|]. split; [exact E|].
      destruct (factor_some i (KU i I)) as (f & F & G). apply G. congruence.
    + intros (v & i & (col & j & J & T & V) & I & E & G). destruct (factor_some i (KU i I)) as (f & F & H). apply H in G. subst c.
      exists (map (fun x => x * f) col), j. split; [apply COL; exists i, f, col; auto 8|]. split; [exact T|]. rewrite nth_error_map, V. reflexivity.
Qed.

(** ** Axes *)
Lemma plot_time_ok b u k h : axis_unit b u k -> k <> 0 /\ plot_time b u h = Ok (h * 3600 / k).
Proof.
  unfold plot_time, factor_of. replace hour2sec with 3600 by (unfold hour2sec, min2sec; ring). intros [S|(-> & bv & B & Z & ->)].
  - assert (P : k <> 0) by (destruct S; unfold hour, day, hour, minute; lra). split; [exact P|].
    replace (h * 3600 / k) with (h / (k / 3600)) by (field; exact P).
    assert (N : String.eqb u "Bed Volumes (x1000)" = false) by (destruct S; reflexivity). rewrite N.
    assert (L : exists k', lookup u time_conv = Some k') by (destruct S; eexists; reflexivity). destruct L as (k' & L). rewrite L. cbn [of_option bind].
    apply time_ok in L. assert (k' = k) by (destruct S; inversion L; reflexivity). subst k'. reflexivity.
  - split; [lra|]. cbn [String.eqb Ascii.eqb Bool.eqb]. rewrite B. cbn [bind]. f_equal. field. exact Z.
Qed.
Lemma plot_conc_ok u m v : mass_unit u m -> m <> 0 /\ plot_conc u v = Ok (v / m).
Proof.
  intros M. split; [destruct M; lra|]. unfold plot_conc, factor_of. destruct M; cbn [String.eqb Ascii.eqb Bool.eqb lookup mass_conv of_option bind]; repeat f_equal; unfold dec; simpl; field.
Qed.
Lemma mapM_all {A} (f : A -> res R) (g : A -> R) l : (forall x, f x = Ok (g x)) -> mapM f l = Ok (map g l).
Proof. intros H. induction l as [|x l IH]; [reflexivity|]. cbn. rewrite H. cbn. rewrite IH. reflexivity. Qed.
Lemma layer_ok p (ft fc : point -> R) : layer true (Ok p) (Some (map ft p)) (Some (map fc p)) = Ok (map (fun q => (ft q, snd (fst q), fc q)) p).
Proof.
  unfold layer. cbn [bind]. rewrite !map_length, !Nat.eqb_refl. cbn [andb]. f_equal.
  induction p as [|q p IH]; [reflexivity|]. cbn [map combine fst snd]. f_equal. exact IH.
Qed.
Lemma hours_ok b t s : In (timeunits2 b) ["hr"; "day"] -> seconds (timeunits2 b) s -> cindat_hours b t * 3600 = t * s.
Proof.
  intros I S. unfold cindat_hours. cbn [In] in I. destruct I as [E|[E|[]]]; rewrite <- E in S |- *; inversion S; cbn; unfold hour, day, hour, minute; lra.
Qed.
Lemma drawn_from ions w mark s k m ms (pts : list point) b : k <> 0 -> m <> 0 -> In (timeunits2 b) ["hr"; "day"] -> seconds (timeunits2 b) s ->
  f_time ms = f_time w -> length (f_cols ms) = length (f_cols w) -> Forall (fun p => length (snd p) = length (f_time ms)) (f_cols ms) ->
  (forall t n c, says ms t n c <-> exists v i, says w t n v /\ In i ions /\ i_name i = n /\ is_mgl (i_units i) (i_mw i) (i_valence i) v c) ->
  pts = map (fun q => (cindat_hours b (fst (fst q)) * 3600 / k, snd (fst q), snd q / m)) (by_column (renamed mark ms)) ->
  drawn ions w mark s k m pts.
Proof.
  intros Hk Hm TU S FT LC LF SAY ->. split.
  - rewrite map_length, by_column_length; [unfold renamed; cbn [f_cols f_time]; rewrite map_length; congruence|]. unfold renamed. cbn [f_cols f_time].
    rewrite Forall_forall in *. intros p I. apply in_map_iff in I. destruct I as (q & <- & I). exact (LF _ I).
  - intros x name y. rewrite in_map_iff. split.
    + intros (((t & nm) & c) & E & I). cbn [fst snd] in E. apply in_by_column, renamed_says in I. destruct I as (n & -> & I). apply SAY in I. destruct I as (v & i & A & B & C & D).
      exists t, n, v, i, c. assert (x = cindat_hours b t * 3600 / k) by congruence. assert (name = n ++ mark) by congruence. assert (y = c / m) by congruence. subst x name y.
      split; [exact A|]. split; [exact B|]. split; [exact C|]. split; [reflexivity|]. split; [exact D|]. rewrite <- (hours_ok b t s TU S). split; field; assumption.
    + intros (t & n & v & i & c & A & B & C & -> & D & X & Y). exists (t, n ++ mark, c). split.
      * cbn [fst snd]. rewrite (hours_ok b t s TU S), <- X, <- Y. f_equal; [f_equal|]; field; assumption.
      * apply in_by_column, renamed_says. exists n. split; [reflexivity|]. apply SAY. exists v, i. auto.
Qed.

(** ** C180: with sheets that list the ions of the page, in hours or days, and with more than one
    row of effluents, every measurement is drawn once, at its own time and concentration. *)
Theorem C180_drawn_partial : forall t0 c0 b tu cu counter others ions eff inf s k m,
  table_ok eff -> table_ok inf -> (1 < length (f_time eff))%nat -> NoDup (map i_name ions) -> same_names ions eff -> same_names ions inf ->
  (forall i, In i ions -> known_units i) -> In (timeunits2 b) ["hr"; "day"] -> seconds (timeunits2 b) s -> axis_unit b tu k -> mass_unit cu m ->
  exists e i, page_measured t0 c0 b tu cu true true (Ok counter) (Ok others) ions eff inf = Ok (e, i) /\
  drawn ions eff "_effluent" s k m e /\ drawn ions inf "_influent" s k m i.
Proof.
  intros t0 c0 b tu cu counter others ions eff inf s k m TE TI RE ND SE SI KU TU S AU MU.
  destruct (in_mgl_says ions eff TE ND SE KU) as (me & ME & FTe & LCe & LFe & SAYe).
  destruct (in_mgl_says ions (in_hours b inf)) as (mi & MI & FTi & LCi & LFi & SAYi).
  { destruct TI as (A & B). split; [exact A|]. unfold in_hours. cbn [f_cols f_time]. rewrite map_length. exact B. }
  { exact ND. } { exact SI. } { exact KU. }
  assert (KK : k <> 0) by (destruct (plot_time_ok b tu k 0 AU); assumption). assert (MM : m <> 0) by (destruct (plot_conc_ok cu m 0 MU); assumption).
  set (pe := map (fun q : point => (cindat_hours b (fst (fst q)), snd (fst q), snd q)) (by_column (renamed "_effluent" me))).
  set (pi_ := by_column (renamed "_influent" mi)).
  assert (EE : effdat_hours b ions eff = Ok pe). { unfold effdat_hours, effluent_data. rewrite (proj2 (Nat.ltb_lt _ _) RE), ME. reflexivity. }
  assert (EI : cin_mgl_hours_prep b ions inf = Ok pi_). { unfold cin_mgl_hours_prep. rewrite MI. reflexivity. }
  unfold page_measured, measured. rewrite EE, EI. cbv zeta. unfold time_axis, conc_axis, on_axis. cbn [bind].
  assert (MT : forall l : list point, mapM (fun q => plot_time b tu (fst (fst q))) l = Ok (map (fun q => fst (fst q) * 3600 / k) l)) by (intros l; apply mapM_all; intros q; apply plot_time_ok, AU).
  assert (MC : forall l : list point, mapM (fun q => plot_conc cu (snd q)) l = Ok (map (fun q => snd q / m) l)) by (intros l; apply mapM_all; intros q; apply plot_conc_ok, MU).
  rewrite !MT, !MC. unfold observe. cbn [a_effluent a_influent].
  assert (L1 := layer_ok pe (fun q => fst (fst q) * 3600 / k) (fun q => snd q / m)).
  assert (L2 := layer_ok pi_ (fun q => fst (fst q) * 3600 / k) (fun q => snd q / m)).
  unfold point in L1, L2 |- *. rewrite L1. cbn [bind]. rewrite L2. cbn [bind].
  eexists _, _. split; [reflexivity|]. split.
  - apply (drawn_from ions eff "_effluent" s k m me _ b); try assumption. unfold pe. rewrite map_map. reflexivity.
  - (* the influents are in hours already *)
    assert (SAY0 : forall t n c, says {| f_time := f_time inf; f_cols := f_cols mi |} t n c <-> exists v i, says inf t n v /\ In i ions /\ i_name i = n /\ is_mgl (i_units i) (i_mw i) (i_valence i) v c).
    { intros t n c. unfold says in SAYi |- *. cbn [f_time f_cols] in *. split.
      - intros (col & j & I & T & C). destruct (proj1 (SAYi (cindat_hours b t) n c)) as (v & i & (col' & j' & I' & T' & C') & R).
        + exists col, j. split; [exact I|]. rewrite FTi. unfold in_hours. cbn [f_time]. rewrite nth_error_map, T. auto.
        + exists v, i. split; [|exact R]. unfold in_hours in T', I'. cbn [f_time f_cols] in T', I'. rewrite nth_error_map in T'. destruct (nth_error (f_time inf) j') as [t'|] eqn:Q; [|discriminate].
          cbn in T'. exists col', j'. split; [exact I'|]. split; [|exact C']. rewrite Q. f_equal. assert (G : cindat_hours b t' = cindat_hours b t) by congruence.
          unfold cindat_hours in G. destruct (String.eqb _ _); lra.
      - intros (v & i & (col & j & I & T & C) & R). destruct (proj2 (SAYi (cindat_hours b t) n c)) as (col' & j' & I' & T' & C').
        + exists v, i. split; [|exact R]. exists col, j. unfold in_hours. cbn [f_time f_cols]. rewrite nth_error_map, T. auto.
        + exists col', j'. split; [exact I'|]. split; [|exact C']. rewrite FTi in T'. unfold in_hours in T'. cbn [f_time] in T'. rewrite nth_error_map in T'.
          destruct (nth_error (f_time inf) j') as [t'|]; [|discriminate]. cbn in T'. f_equal. assert (G : cindat_hours b t' = cindat_hours b t) by congruence.
          unfold cindat_hours in G. destruct (String.eqb _ _); lra. }
    apply (drawn_from ions inf "_influent" s k m {| f_time := f_time inf; f_cols := f_cols mi |} _ b); try assumption.
    + reflexivity.
    + cbn [f_cols f_time]. rewrite FTi in LFi. unfold in_hours in LFi. cbn [f_time] in LFi. rewrite map_length in LFi. exact LFi.
    + unfold pi_, by_column, renamed. cbn [f_time f_cols]. rewrite FTi. unfold in_hours. cbn [f_time]. clear.
      induction (f_cols mi) as [|p l IH]; [reflexivity|]. cbn [map flat_map fst snd]. rewrite !map_app. f_equal; [|exact IH].
      clear IH. rewrite !map_map. cbn [fst snd]. generalize (snd p). induction (f_time inf) as [|t ts IHt]; intros col; [reflexivity|]. destruct col as [|c col]; [reflexivity|].
      cbn [map combine fst snd]. f_equal. apply IHt.
Qed.

(** Each point is in one of the two plots. *)
Theorem C180_plots_partial : forall mark p q, In q p -> (In q (first_plot mark p) <-> exists n, In n ["CHLORIDE"; "SULFATE"; "NITRATE"; "BICARBONATE"] /\ snd (fst q) = n ++ mark) /\
  (In q (second_plot mark p) <-> ~ In q (first_plot mark p)).
Proof.
  intros mark p q I. assert (F : In q (first_plot mark p) <-> exists n, In n ["CHLORIDE"; "SULFATE"; "NITRATE"; "BICARBONATE"] /\ snd (fst q) = n ++ mark).
  { unfold first_plot, counter_names. rewrite filter_In. unfold mem_str. rewrite existsb_exists. split.
    - intros (_ & x & J & E). apply String.eqb_eq in E. apply in_map_iff in J. destruct J as (n & <- & J). exists n. auto.
    - intros (n & J & E). split; [exact I|]. exists (n ++ mark). split; [apply in_map_iff; exists n; auto|apply String.eqb_eq, E]. }
  split; [exact F|]. unfold second_plot, first_plot. rewrite !filter_In. destruct (mem_str _ _); cbn; intuition congruence.
Qed.

(** Effluents that leave out an ion of the page: nothing of the influents can be drawn, whether or
    not the effluents are asked for. *)
Theorem C180_missing_refuted : forall b tu cu tick counter others ions eff inf i, (1 < length (f_time eff))%nat -> In i ions -> ~ In (i_name i) (map fst (f_cols eff)) ->
  exists e, page_measured unset unset b tu cu tick true counter others ions eff inf = Err e.
Proof.
  intros b tu cu tick counter others ions eff inf i RE I N.
  assert (E : exists e, effdat_hours b ions eff = Err e).
  { unfold effdat_hours, effluent_data. rewrite (proj2 (Nat.ltb_lt _ _) RE). unfold in_mgl, mass_converter_mgl.
    destruct (convert_err mgl_factor ions (f_cols eff) i I) as (e & ->); [|exists e; reflexivity].
    destruct (lookup (i_name i) (f_cols eff)) as [c|] eqn:L; [|reflexivity]. exfalso. apply N. clear -L.
    induction (f_cols eff) as [|(n & x) l IH]; [discriminate|]. cbn [lookup] in L. destruct (String.eqb_spec (i_name i) n) as [->|Q]; [left; reflexivity|right; apply IH, L]. }
  destruct E as (e & E). unfold page_measured, measured. rewrite E. cbv zeta. unfold time_axis, conc_axis, on_axis. cbn [bind].
  set (P := cin_mgl_hours_prep b ions inf). unfold layer at 1. destruct tick; [exists e; reflexivity|]. cbn [bind].
  unfold layer. destruct P as [p|e']; [|exists e'; reflexivity]. cbn [bind].
  assert (T : forall c o w, a_influent (observe unset c o (Err e) w) = None) by (intros c o w; unfold observe; destruct c, o; reflexivity).
  rewrite T. exists ValueError. reflexivity.
Qed.
(** A single row of effluents is not drawn. *)
Theorem C180_single_row_refuted : forall t0 c0 b tu cu counter others ions t cols inf, 
  page_measured t0 c0 b tu cu true false (Ok counter) (Ok others) ions {| f_time := [t]; f_cols := cols |} inf = Ok ([], []) \/
  exists e, page_measured t0 c0 b tu cu true false (Ok counter) (Ok others) ions {| f_time := [t]; f_cols := cols |} inf = Err e.
Proof.
  intros. destruct (page_measured t0 c0 b tu cu true false (Ok counter) (Ok others) ions {| f_time := [t]; f_cols := cols |} inf) as [[e i]|e] eqn:Q; [|right; exists e; reflexivity].
  left. unfold page_measured, measured, effdat_hours, effluent_data in Q. cbn [f_time length Nat.ltb Nat.leb bind map] in Q. unfold layer at 1 in Q. cbn [bind] in Q.
  destruct (a_effluent _) as [x|]; [|discriminate]. destruct (a_effluent _) as [y|]; [|discriminate].
  destruct x as [|? ?]; [|discriminate]. destruct y as [|? ?]; [|discriminate]. cbn [length Nat.eqb andb combine map bind layer] in Q. symmetry. exact Q.
Qed.

(** ** Relative to the influent *)
Definition relative (ions : list ion) (inf : frame) (eff : timed) (t : R) (n : string) (y : R) : Prop :=
  exists v i c f0 c0, says eff t n v /\ In i ions /\ i_name i = n /\ is_meq (i_units i) (i_mw i) (i_valence i) v c /\
  (exists col, lookup n inf = Some col /\ nth_error col 0 = Some f0) /\ is_meq (i_units i) (i_mw i) (i_valence i) f0 c0 /\ y = c / c0.
(** With both sheets in the order of the ion sheet, and no ion in "meq/L". *)
Theorem C180_relative_partial : forall ions ts inf eff pts, NoDup ("time" :: map i_name ions) -> keys inf = map i_name ions -> map fst (f_cols eff) = map i_name ions ->
  table_ok eff -> (forall i, In i ions -> i_units i <> "meq/L") -> (1 < length (f_time eff))%nat -> effluent_cc0 ions (("time", ts) :: inf) eff = Ok pts ->
  (forall t m y, In (t, m, y) pts -> exists n, m = n ++ "_effluent" /\ relative ions inf eff t n y) /\
  (forall t n v, says eff t n v -> exists y, In (t, n ++ "_effluent", y) pts).
Proof.
  intros ions ts inf eff pts ND KI KE TO NM RE H. unfold effluent_cc0 in H. rewrite (proj2 (Nat.ltb_lt _ _) RE) in H.
  destruct (cin_correct ions (f_cols eff)) as [m|] eqn:M; [|discriminate]. cbn [bind] in H.
  destruct (cc0_conv_meq ions (("time", ts) :: inf)) as [c0|] eqn:C; [|discriminate]. cbn [bind] in H.
  match type of H with Ok ?A = _ => assert (pts = A) as -> by congruence end. clear H.
  assert (ND2 : NoDup (map i_name ions)) by (inversion ND; assumption).
  destruct (convert_columns_ok meq_factor ions (f_cols eff) m ND2 M) as (KM & _ & _).
  assert (KM' : keys m = map i_name ions) by (rewrite KM; exact KE). destruct TO as (NDe & HF).
  assert (COL : forall n col, In (n, col) (HSDMIX_cc0 m c0) <-> exists j i r, nth_error ions j = Some i /\ i_name i = n /\ nth_error (HSDMIX_cc0 m c0) j = Some (n, col) /\ r = col).
  { intros n col. split.
    - intros I. destruct (In_nth_error _ _ I) as (j & J). assert (L : (j < length ions)%nat).
      { assert (Q : nth_error (HSDMIX_cc0 m c0) j <> None) by congruence. apply nth_error_Some in Q. unfold HSDMIX_cc0 in Q. rewrite map_length, combine_length in Q.
        assert (W : length m = length ions) by (rewrite <- (map_length fst m); change (map fst m) with (keys m); rewrite KM', map_length; reflexivity). lia. }
      apply nth_error_Some in L. destruct (nth_error ions j) as [i|] eqn:Ei; [|congruence]. clear L.
      destruct (C133_relative_partial ions (("time", ts) :: inf) m c0 C ND KM' (f_equal (cons "time") KI) j i Ei) as (res_ & infl & v & c & A1 & A2 & A3 & A4 & A5).
      exists j, i, col. split; [exact Ei|]. rewrite J in A5. split; [congruence|]. split; [exact J|reflexivity].
    - intros (j & i & r & _ & _ & J & _). exact (nth_error_In _ _ J). }
  assert (VAL : forall n col, In (n, col) (HSDMIX_cc0 m c0) -> exists i f0 c feed raw, In i ions /\ i_name i = n /\ lookup n inf = Some feed /\ nth_error feed 0 = Some f0 /\
            is_meq (i_units i) (i_mw i) (i_valence i) f0 c /\ In (n, raw) (f_cols eff) /\ Forall2 (fun v y => exists e, is_meq (i_units i) (i_mw i) (i_valence i) v e /\ y = e / c) raw col).
  { intros n col I. apply COL in I. destruct I as (j & i & r & Ei & En & J & _).
    destruct (C133_relative_partial ions (("time", ts) :: inf) m c0 C ND KM' (f_equal (cons "time") KI) j i Ei) as (mq & infl & v & c & A1 & A2 & A3 & A4 & A5).
    assert (II : In i ions) by exact (nth_error_In _ _ Ei).
    destruct (C127_to_meq_partial ions (f_cols eff) m M ND2 i II (NM i II)) as (raw & meq & B1 & B2 & B3).
    exists i, v, c, infl, raw. split; [exact II|]. split; [exact En|]. rewrite En in *.
    assert (NT : n <> "time") by (intros ->; inversion ND as [|x l N1 N2]; apply N1; rewrite <- En; apply in_map, II).
    split; [cbn [lookup] in A2; destruct (String.eqb_spec n "time") as [Q|Q]; [contradiction|exact A2]|]. split; [exact A3|]. split; [exact A4|].
    split; [apply lookup_in_cols; [exact NDe|exact B1]|].
    assert (mq = meq). { apply nth_error_In in A1. apply lookup_in_cols in A1; [congruence|]. rewrite KM'. exact ND2. } subst mq.
    assert (col = map (fun w => w / c) meq) by congruence. subst col. clear -B3. induction B3 as [|x y l l' Hx _ IH]; [constructor|]. cbn [map]. constructor; [exists y; auto|exact IH]. }
  split.
  - intros t nm y I. apply in_by_column, renamed_says in I. destruct I as (n & -> & col & j & I & T & Y). cbn [f_time f_cols] in I, T. exists n. split; [reflexivity|].
    destruct (VAL n col I) as (i & f0 & c & feed & raw & I1 & I2 & I3 & I4 & I5 & I6 & F).
    assert (G : exists v e, nth_error raw j = Some v /\ is_meq (i_units i) (i_mw i) (i_valence i) v e /\ y = e / c).
    { clear -F Y. revert j Y. induction F as [|v y' l l' Hx _ IH]; intros j Y; [destruct j; discriminate|]. destruct j as [|j]; [|exact (IH j Y)].
      cbn in Y. destruct Hx as (e & A & B). exists v, e. split; [reflexivity|]. split; [exact A|congruence]. }
    destruct G as (v & e & G1 & G2 & G3). exists v, i, e, f0, c. split; [exists raw, j; auto|]. split; [exact I1|]. split; [exact I2|]. split; [exact G2|]. split; [exists feed; auto|]. auto.
  - intros t n v (raw & j & I & T & V). assert (NI : In n (map i_name ions)) by (rewrite <- KE; apply in_map_iff; exists (n, raw); auto).
    apply in_map_iff in NI. destruct NI as (i & En & Ii). destruct (In_nth_error _ _ Ii) as (q & Ei).
    destruct (C133_relative_partial ions (("time", ts) :: inf) m c0 C ND KM' (f_equal (cons "time") KI) q i Ei) as (mq & infl & v0 & c & _ & _ & _ & _ & A5).
    rewrite En in A5. apply nth_error_In in A5. destruct (VAL _ _ A5) as (i' & f0 & c' & feed & raw' & _ & _ & _ & _ & _ & I6 & F).
    assert (raw' = raw). { apply lookup_in_cols in I6; [|exact NDe]. apply lookup_in_cols in I; [|exact NDe]. congruence. } subst raw'.
    assert (LL : length raw = length (map (fun w => w / c) mq)) by (clear -F; induction F; cbn in *; congruence).
    assert (Q : nth_error raw j <> None) by congruence. apply nth_error_Some in Q. rewrite LL in Q. apply nth_error_Some in Q.
    destruct (nth_error (map (fun w => w / c) mq) j) as [y|] eqn:Y; [|congruence]. exists y. apply in_by_column, renamed_says. exists n. split; [reflexivity|].
    exists (map (fun w => w / c) mq), j. cbn [f_time f_cols]. auto.
Qed.
(** Columns in another order are divided by the influents of other ions. *)
Theorem C180_order_refuted : forall ts t1 t2 n1 c1 x y, n1 <> c1 -> n1 <> 0 -> c1 <> 0 -> x <> 0 ->
  let ions := [ex_ion "CHLORIDE"; ex_ion "NITRATE"] in let inf := [("CHLORIDE", [c1]); ("NITRATE", [n1])] in
  let eff := {| f_time := [t1; t2]; f_cols := [("NITRATE", [x; x]); ("CHLORIDE", [y; y])] |} in
  exists pts, effluent_cc0 ions (("time", ts) :: inf) eff = Ok pts /\ In (t1, "NITRATE_effluent", x / c1) pts /\ relative ions inf eff t1 "NITRATE" (x / n1) /\ x / c1 <> x / n1.
Proof.
  intros ts t1 t2 n1 c1 x y N1 N2 N3 N4 ions inf eff. eexists. split; [reflexivity|]. split; [|split].
  - left. cbn. repeat f_equal; field; exact N3.
  - exists x, (ex_ion "NITRATE"), x, n1, n1. split; [exists [x; x], 0%nat; cbn; auto|]. split; [cbn; auto|]. split; [reflexivity|].
    split; [left; split; [left; reflexivity|reflexivity]|]. split; [exists [n1]; split; reflexivity|]. split; [left; split; [left; reflexivity|reflexivity]|reflexivity].
  - intros E. apply N1. unfold Rdiv in E. apply Rmult_eq_reg_l in E; [|exact N4]. rewrite <- (Rinv_inv n1), <- E. apply Rinv_inv.
Qed.

(** A page with two ions, two rows of effluents and one row of influents. *)
Example C180_met : let ions := [ex_mass "CHLORIDE" "mg/L" 35; ex_mass "PFOA" "ng/L" 414] in
  let eff := {| f_time := [0; 5]; f_cols := [("PFOA", [1; 2]); ("CHLORIDE", [70; 80])] |} in let inf := {| f_time := [0]; f_cols := [("CHLORIDE", [70]); ("PFOA", [10])] |} in
  table_ok eff /\ table_ok inf /\ (1 < length (f_time eff))%nat /\ NoDup (map i_name ions) /\ same_names ions eff /\ same_names ions inf /\
  (forall i, In i ions -> known_units i) /\ axis_unit (ex_boxes "cm") "Days" (24 * 3600) /\ mass_unit "ng/L" (1 / 1000000).
Proof.
  cbn zeta. assert (T : NoDup ["CHLORIDE"; "PFOA"]) by (repeat constructor; cbn; intuition discriminate). assert (T' : NoDup ["PFOA"; "CHLORIDE"]) by (repeat constructor; cbn; intuition discriminate).
  split; [split; [exact T'|repeat constructor]|]. split; [split; [exact T|repeat constructor]|]. split; [cbn; lia|]. split; [exact T|].
  split; [intros n; cbn; tauto|]. split; [intros n; cbn; tauto|]. split; [intros i [<-|[<-|[]]]; split; cbn; auto 9; lia|]. split; [|constructor].
  left. replace (24 * 3600) with day by (unfold day, hour, minute; lra). constructor.
Qed.
Print Assumptions C180_drawn_partial.
Print Assumptions C180_plots_partial.
Print Assumptions C180_missing_refuted.
Print Assumptions C180_single_row_refuted.
Print Assumptions C180_relative_partial.
Print Assumptions C180_order_refuted.
