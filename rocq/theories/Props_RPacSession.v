(** C186: the session of the powdered-carbon page. *)
From Coq Require Import Reals List Arith Bool String Lra Lia.
From Verif Require Import Lib_Py M_IxUnc M_GacFun M_Tools M_GacShiny M_RIexApp S_RIexApp M_RGacApp S_RGacApp P_RGacApp M_Pac S_Doses Props_Pac M_RPacApp Props_RPacApp Props_Doses M_RPacSession.
Import ListNotations.
Open Scope R_scope.
Open Scope string_scope.
Local Notation length := List.length.

Lemma mapM_all {A B} (f : A -> res B) (g : A -> B) l : (forall x, In x l -> f x = Ok (g x)) -> mapM f l = Ok (map g l).
Proof.
  induction l as [|x l IH]; intros H; [reflexivity|]. cbn [mapM map]. rewrite (H x (or_introl eq_refl)). cbn [bind].
  rewrite IH by (intros y I; apply H; right; exact I). reflexivity.
Qed.
Lemma session_none solve l : fold_left (fun q a => match q with Some p => pact solve p a | None => None end) l None = None.
Proof. induction l as [|a l IH]; [reflexivity|exact IH]. Qed.
Lemma session_step solve p a l : psession solve p (a :: l) = match pact solve p a with Some p' => psession solve p' l | None => None end.
Proof. unfold psession. cbn [fold_left]. destruct (pact solve p a); [reflexivity|apply session_none]. Qed.
Lemma session_app solve l1 l2 p : psession solve p (l1 ++ l2) = match psession solve p l1 with Some p' => psession solve p' l2 | None => None end.
Proof.
  revert p. induction l1 as [|a l1 IH]; intros p; [reflexivity|]. cbn [app]. rewrite !session_step. destruct (pact solve p a); [apply IH|reflexivity].
Qed.
Lemma session_out solve l : ~ In PRun l -> forall p q, psession solve p l = Some q -> pg_out q = pg_out p.
Proof.
  induction l as [|a l IH]; intros N p q H; [unfold psession in H; cbn in H; congruence|]. rewrite session_step in H.
  destruct (pact solve p a) as [p'|] eqn:E; [|discriminate H]. rewrite (IH (fun I => N (or_intror I)) _ _ H).
  destruct a; cbn [pact] in E; [| |exfalso; apply N; left; reflexivity|destruct (page_study _ _ _); [|discriminate E]]; injection E as <-; reflexivity.
Qed.
Lemma session_study solve l : ~ In PStudy l -> forall p q, psession solve p l = Some q -> pg_study q = pg_study p.
Proof.
  induction l as [|a l IH]; intros N p q H; [unfold psession in H; cbn in H; congruence|]. rewrite session_step in H.
  destruct (pact solve p a) as [p'|] eqn:E; [|discriminate H]. rewrite (IH (fun I => N (or_intror I)) _ _ H).
  destruct a; cbn [pact] in E; [| |destruct (page_run _ _ _ _); [|discriminate E]|exfalso; apply N; left; reflexivity]; injection E as <-; reflexivity.
Qed.

(** The columns of a run are the compounds of the page. *)
Lemma create_shape f d T l o : create f d T l = Ok o -> length (p_conv o) = length l /\ map fst (p_table o) = map fst l.
Proof.
  unfold create. intros H. destruct (conv_array l) as [cv|] eqn:E; [|discriminate H]. cbn [bind] in H. apply conv_array_length in E.
  assert (o = made f d T l cv) as -> by (unfold made, blank; congruence). split; [exact E|].
  pose proof (made_rows f d T l cv E) as M. apply (f_equal (map fst)) in M. unfold rows in M. rewrite map_map in M. exact M.
Qed.
Lemma run_columns f solve o : map fst (t_cols (run f solve o)) = map fst (p_table o) /\ Forall (fun c => length (snd c) = length (t_min (run f solve o))) (t_cols (run f solve o)).
Proof.
  unfold run. cbn [t_cols t_min]. split.
  - rewrite map_map. cbn [fst]. rewrite <- (map_map snd fst). f_equal. generalize 0%nat. induction (p_table o) as [|x t IH]; intros k; [reflexivity|]. cbn. f_equal. apply IH.
  - apply Forall_forall. intros c I. apply in_map_iff in I. destruct I as (x & <- & _). cbn [snd]. rewrite !map_length. reflexivity.
Qed.
Lemma scale_columns cv t : length cv = length (t_cols t) -> Forall (fun c => length (snd c) = length (t_min t)) (t_cols t) ->
  map fst (t_cols (scale cv t)) = map fst (t_cols t) /\ Forall (fun c => length (snd c) = length (t_min t)) (t_cols (scale cv t)).
Proof.
  unfold scale. cbn [t_cols]. revert cv. induction (t_cols t) as [|c cs IH]; intros [|k cv] L F; try discriminate L; [split; [reflexivity|constructor]|].
  inversion F as [|? ? F1 F2]; subst. destruct (IH cv ltac:(cbn in L; congruence) F2) as (A & B). cbn [combine map fst snd]. split; [f_equal; exact A|].
  constructor; [cbn [snd]; rewrite map_length; exact F1|exact B].
Qed.
Lemma r_run_shape f solve d T l o : create f d T l = Ok o -> map fst (t_cols (r_run f solve o)) = map fst l /\ Forall (fun c => length (snd c) = length (t_min (r_run f solve o))) (t_cols (r_run f solve o)).
Proof.
  intros H. apply create_shape in H. destruct H as (L & N). destruct (run_columns f solve o) as (A & B).
  assert (LL : length (p_conv o) = length (t_cols (run f solve o))) by (rewrite L, <- (map_length fst (t_cols _)), A, N, map_length; reflexivity).
  destruct (scale_columns _ _ LL B) as (C & D). unfold r_run. split; [congruence|exact D].
Qed.
Lemma page_run_pac solve i : page_run solve (n_sizes i) (n_boxes i) (n_compounds i) = do fo <- page_pac i; Ok (r_run (fst fo) solve (snd fo)).
Proof.
  unfold page_run, page_pac. destruct (page_built (n_sizes i) (n_boxes i)) as [w|]; [|reflexivity]. cbn [bind].
  destruct (b_density w), (b_porosity w), (b_radius w), (b_hrt w), (b_crt w), (b_dosage w); try reflexivity.
  destruct (create _ _ _ _); reflexivity.
Qed.
Lemma page_pac_create i f o : page_pac i = Ok (f, o) -> exists d T, create f d T (n_compounds i) = Ok o.
Proof.
  unfold page_pac. intros H. destruct (page_built (n_sizes i) (n_boxes i)) as [w|]; [|discriminate H]. cbn [bind] in H.
  destruct (b_density w), (b_porosity w), (b_radius w), (b_hrt w), (b_crt w), (b_dosage w); try discriminate H.
  match type of H with context [create ?f ?d ?T ?l] => destruct (create f d T l) as [x|] eqn:E; [|discriminate H] end. cbn [bind] in H.
  match type of H with Ok (?a, ?b) = _ => assert (f = a) as -> by congruence; assert (o = b) as -> by congruence end. eauto.
Qed.
Lemma page_table solve i t : NoDup (map fst (n_compounds i)) -> page_run solve (n_sizes i) (n_boxes i) (n_compounds i) = Ok t ->
  table_ok (wide t) /\ map fst (t_cols t) = map fst (n_compounds i).
Proof.
  intros ND H. rewrite page_run_pac in H. destruct (page_pac i) as [[f o]|] eqn:E; [|discriminate H]. cbn [bind fst snd] in H. apply page_pac_create in E. destruct E as (d & T & E).
  assert (t = r_run f solve o) as -> by congruence. destruct (r_run_shape f solve d T _ _ E) as (A & B). split; [|exact A]. split; cbn [wide f_cols f_time]; [rewrite A; exact ND|exact B].
Qed.

(** * C186: the results shown and saved are those of the last run and the last study *)
(** Concentrations [v] in ug/L and times [t] in minutes of the last run, whatever is edited and studied
    before and afterwards. *)
Theorem C186_last_run : forall solve first before after q tu k cu mu,
  psession solve first (before ++ PRun :: after) = Some q -> ~ In PRun after -> minutes tu k -> mass_unit cu mu ->
  exists p, psession solve first before = Some p /\ let i := pg_in p in
  exists t, page_run solve (n_sizes i) (n_boxes i) (n_compounds i) = Ok t /\
  (NoDup (map fst (n_compounds i)) ->
   exists pts, shown q tu cu = Ok pts /\ forall x n y, In (x, n, y) pts <-> exists s v, says (wide t) s n v /\ x = s / k /\ y = Some (v / 1000 / mu)).
Proof.
  intros solve first before after q tu k cu mu H N K M. rewrite session_app in H. destruct (psession solve first before) as [p|]; [|discriminate H].
  exists p. split; [reflexivity|]. cbv zeta. rewrite session_step in H. cbn [pact] in H.
  destruct (page_run solve (n_sizes (pg_in p)) (n_boxes (pg_in p)) (n_compounds (pg_in p))) as [t|] eqn:E; [|discriminate H]. exists t. split; [reflexivity|].
  intros ND. destruct (page_table solve (pg_in p) t ND E) as (T & _). apply session_out in H; [|exact N]. cbn [pg_out] in H.
  unfold shown. rewrite H. assert (NC : String.eqb cu "C/C0" = false) by (destruct M; reflexivity). rewrite NC.
  eexists. split.
  - apply (mapM_all _ (fun z => (fst (fst z) / k, snd (fst z), Some (snd z / 1000 / mu)))). intros z _.
    destruct (C143_units cu mu (snd z / 1000) tu k (fst (fst z)) M K) as (A & B). rewrite B. cbn [bind].
    replace (1000 * (snd z / 1000)) with (snd z) in A by field. rewrite A. reflexivity.
  - intros x n y. rewrite in_map_iff. split.
    + intros ([[s m] v] & Q & I). cbn [fst snd] in Q. apply (in_by_row _ _ _ _ T) in I. assert (m = n) by congruence. subst m. exists s, v. repeat split; congruence || exact I.
    + intros (s & v & S & -> & ->). exists (s, n, v). split; [reflexivity|]. apply (in_by_row _ _ _ _ T), S.
Qed.
(** C/C0 is taken with the starting concentrations of the run, for two compounds (C144). *)
Theorem C186_relative_partial : forall solve first before after q tu k a b ca cb ma mb,
  psession solve first (before ++ PRun :: after) = Some q -> ~ In PRun after -> minutes tu k ->
  exists p, psession solve first before = Some p /\ let i := pg_in p in
  (n_compounds i = [(a, ca); (b, cb)] -> a <> b -> mass_unit (C0_units ca) ma -> mass_unit (C0_units cb) mb ->
   exists t pts, page_run solve (n_sizes i) (n_boxes i) (n_compounds i) = Ok t /\ shown q tu "C/C0" = Ok pts /\
   forall x n y, In (x, n, y) pts <-> exists s v, says (wide t) s n v /\ x = s / k /\
     (n = a /\ y = Some (v / (C0 ca * (1000 * ma))) \/ n = b /\ y = Some (v / (C0 cb * (1000 * mb))))).
Proof.
  intros solve first before after q tu k a b ca cb ma mb H N K. rewrite session_app in H. destruct (psession solve first before) as [p|]; [|discriminate H].
  exists p. split; [reflexivity|]. cbv zeta. rewrite session_step in H. cbn [pact] in H. intros EC NE MA MB.
  destruct (page_run solve (n_sizes (pg_in p)) (n_boxes (pg_in p)) (n_compounds (pg_in p))) as [t|] eqn:E; [|discriminate H].
  assert (ND : NoDup (map fst (n_compounds (pg_in p)))) by (rewrite EC; cbn; constructor; [intros [I|[]]; congruence|constructor; [intros []|constructor]]).
  destruct (page_table solve (pg_in p) t ND E) as (T & TN). rewrite EC in TN. cbn [map fst] in TN.
  apply session_out in H; [|exact N]. cbn [pg_out] in H. exists t. eexists. split; [reflexivity|]. unfold shown. rewrite H. cbn [String.eqb Ascii.eqb Bool.eqb].
  split; [apply (mapM_all _ (fun z => (fst (fst z) / k, snd (fst z), snd z))); intros z _; destruct (C143_units "mg" 1 0 tu k (fst (fst z)) u_mg K) as (_ & B); rewrite B; reflexivity|].
  destruct (t_cols t) as [|[a' cola] [|[b' colb] [|? ?]]] eqn:ET; try discriminate TN. cbn in TN. assert (a' = a) by congruence. assert (b' = b) by congruence. subst a' b'.
  rewrite EC. unfold c0_rows. cbn [map fst snd]. intros x n y. rewrite in_map_iff.
  assert (W : forall w m z, In (w, m, z) (pac_cc0 [(a, C0 ca, C0_units ca); (b, C0 cb, C0_units cb)] t) <->
     exists v, says (wide t) w m v /\ (m = a /\ z = Some (v / (C0 ca * (1000 * ma))) \/ m = b /\ z = Some (v / (C0 cb * (1000 * mb))))).
  { intros w m z. rewrite (C144_two_compounds_partial a b (C0 ca) (C0 cb) (C0_units ca) (C0_units cb) ma mb t cola colb w m z ET T MA MB). split.
    - intros (v & c & S & (x0 & u0 & m0 & I & M0 & ->) & ->). exists v. split; [exact S|]. destruct I as [I|[I|[]]]; [left|right]; injection I as <- <- <-; (split; [reflexivity|]).
      + rewrite (mass_fun _ _ _ M0 MA). reflexivity.
      + rewrite (mass_fun _ _ _ M0 MB). reflexivity.
    - intros (v & S & [(-> & ->)|(-> & ->)]); exists v; eexists; (split; [exact S|]); (split; [|reflexivity]).
      + exists (C0 ca), (C0_units ca), ma. split; [left; reflexivity|split; [exact MA|reflexivity]].
      + exists (C0 cb), (C0_units cb), mb. split; [right; left; reflexivity|split; [exact MB|reflexivity]]. }
  split.
  - intros ([[s m] z] & Q & I). cbn [fst snd] in Q. assert (m = n) by congruence. assert (z = y) by congruence. subst m z. apply W in I. destruct I as (v & S & D). exists s, v. repeat split; congruence || assumption.
  - intros (s & v & S & -> & D). exists (s, n, y). split; [reflexivity|]. apply W. exists v. split; assumption.
Qed.
(** The curve of a compound of the last study at one of the four residence times: at each of the evenly
    spaced doses, what a run of 1000 minutes of a new contactor with that dose shows at that time. *)
Lemma lookup_map_fst {A B} (g : string -> A -> B) (l : list (string * A)) n : In n (map fst l) -> exists x, In (n, x) l /\ lookup n (map (fun c => (fst c, g (fst c) (snd c))) l) = Some (g n x).
Proof.
  induction l as [|[m x] l IH]; intros I; [destruct I|]. cbn [map fst snd lookup]. destruct (String.eqb_spec n m) as [->|NE]; [exists x; split; [left; reflexivity|reflexivity]|].
  destruct I as [I|I]; [cbn in I; congruence|]. destruct (IH I) as (y & A1 & A2). exists y. split; [right; exact A1|exact A2].
Qed.
Lemma mapM_nth_all {A B} (f : A -> res B) (l : list A) : (forall x, In x l -> exists y, f x = Ok y) ->
  exists r, mapM f l = Ok r /\ length r = length l /\ forall j x, nth_error l j = Some x -> exists y, f x = Ok y /\ nth_error r j = Some y.
Proof.
  induction l as [|x l IH]; intros H; [exists []; repeat split; intros [|j] x E; discriminate E|]. destruct (H x (or_introl eq_refl)) as (y & Y).
  destruct (IH (fun z I => H z (or_intror I))) as (r & R1 & R2 & R3). exists (y :: r). cbn [mapM]. rewrite Y. cbn [bind]. rewrite R1. cbn [bind]. split; [reflexivity|].
  split; [cbn; congruence|]. intros [|j] z E; cbn in E |- *; [assert (x = z) by congruence; subst z; exists y; auto|apply R3, E].
Qed.
Theorem C186_last_study : forall solve first before after q n k h cu mu,
  psession solve first (before ++ PStudy :: after) = Some q -> ~ In PStudy after -> nth_error [30; 60; 90; 120] k = Some h -> mass_unit cu mu ->
  exists p, psession solve first before = Some p /\ let i := pg_in p in let w := pg_want p in
  forall kl kh kv qf, offered (n_sizes i) (n_boxes i) kl kh kv qf -> In n (map fst (n_compounds i)) -> v_lo w < v_hi w -> (2 <= v_n w)%nat ->
  exists f pts, f_density f = x_den (n_boxes i) /\ f_porosity f = x_por (n_boxes i) /\ f_radius f = x_rad (n_boxes i) /\ f_hrt f = 60 * x_hrt (n_boxes i) /\
  dose_curve q cu n k = Ok pts /\ length pts = v_n w /\
  forall j, (j < v_n w)%nat -> let d := v_lo w + (v_hi w - v_lo w) * (INR j / INR (v_n w - 1)) in
  exists new col, create f d (1000 * 60) (n_compounds i) = Ok new /\ In (n, col) (t_cols (r_run f solve new)) /\
    nth_error pts j = Some (d, np_interp (combine (t_min (r_run f solve new)) col) h / 1000 / mu).
Proof.
  intros solve first before after q n k h cu mu H N HK M. rewrite session_app in H. destruct (psession solve first before) as [p|]; [|discriminate H].
  exists p. split; [reflexivity|]. cbv zeta. intros kl kh kv qf O IN LH N2. rewrite session_step in H. cbn [pact] in H.
  destruct (page_study solve (pg_in p) (pg_want p)) as [s|] eqn:E; [|discriminate H]. apply session_study in H; [|exact N]. cbn [pg_study] in H.
  unfold page_study in E. destruct (page_pac (pg_in p)) as [[f o]|] eqn:EP; [|discriminate E]. cbn [bind fst snd] in E.
  destruct (for_target _ _ _ _ _ _ _ _ _) as [r|]; [|discriminate E]. cbn [bind] in E.
  set (w := pg_want p) in *. set (i := pg_in p) in *.
  assert (ES : s_doses s = by_dose f solve o (v_lo w) (v_hi w) (v_n w)) by (match type of E with Ok ?x = _ => assert (s = x) as -> by congruence end; reflexivity).
  destruct (page_pac_create _ _ _ EP) as (d0 & T0 & EC).
  assert (F : f_density f = x_den (n_boxes i) /\ f_porosity f = x_por (n_boxes i) /\ f_radius f = x_rad (n_boxes i) /\ f_hrt f = 60 * x_hrt (n_boxes i)).
  { unfold page_pac in EP. rewrite (page_builds _ _ _ _ _ _ O) in EP. cbn [bind b_density b_porosity b_radius b_hrt b_crt b_dosage b_dw] in EP.
    match type of EP with context [create ?a ?b ?c ?l] => destruct (create a b c l) as [o'|]; [|discriminate EP] end. cbn [bind] in EP.
    match type of EP with Ok (?a, _) = _ => assert (f = a) as -> by congruence end. cbn [f_density f_porosity f_radius f_hrt]. repeat split; ring. }
  destruct F as (F1 & F2 & F3 & F4).
  assert (PT : forall j, (j < v_n w)%nat -> let d := v_lo w + (v_hi w - v_lo w) * (INR j / INR (v_n w - 1)) in exists new, create f d (1000 * 60) (n_compounds i) = Ok new /\
     nth_error (s_doses s) j = Some (d, at_times (r_run f solve new) [30; 60; 90; 120])).
  { intros j J. rewrite ES. exact (C175_page f solve d0 T0 (n_compounds i) o [] (v_lo w) (v_hi w) (v_n w) j EC LH N2 J). }
  assert (LS : length (s_doses s) = v_n w) by (rewrite ES; apply (C145_doses_partial f solve o); assumption).
  set (g := fun r : R * list (string * list R) => do l <- of_option KeyError (lookup n (snd r)); do c <- of_option KeyError (nth_error l k); do y <- p_plot_conc cu c; Ok (fst r, y)).
  assert (PC : forall c, p_plot_conc cu c = Ok (c / 1000 / mu)).
  { intros c. destruct (C143_units cu mu (c / 1000) "Minutes" 1 0 M u_Minutes) as (A & _). replace (1000 * (c / 1000)) with c in A by field. exact A. }
  assert (G : forall j, (j < v_n w)%nat -> let d := v_lo w + (v_hi w - v_lo w) * (INR j / INR (v_n w - 1)) in exists new col x, nth_error (s_doses s) j = Some x /\ create f d (1000 * 60) (n_compounds i) = Ok new /\
     In (n, col) (t_cols (r_run f solve new)) /\ g x = Ok (d, np_interp (combine (t_min (r_run f solve new)) col) h / 1000 / mu)).
  { intros j J d. destruct (PT j J) as (new & C1 & C2). fold d in C1, C2. destruct (r_run_shape f solve d _ _ _ C1) as (S1 & S2).
    assert (I2 : In n (map fst (t_cols (r_run f solve new)))) by (rewrite S1; exact IN).
    destruct (lookup_map_fst (fun _ col => map (fun h => np_interp (combine (t_min (r_run f solve new)) col) h) [30; 60; 90; 120]) _ _ I2) as (col & I3 & L3).
    exists new, col, (d, at_times (r_run f solve new) [30; 60; 90; 120]). split; [exact C2|]. split; [exact C1|]. split; [exact I3|].
    unfold g, at_times. cbn [fst snd]. rewrite L3. cbn [of_option bind]. rewrite nth_error_map, HK. cbn [option_map of_option bind]. rewrite PC. reflexivity. }
  destruct (mapM_nth_all g (s_doses s)) as (pts & P1 & P2 & P3).
  { intros x I. apply In_nth_error in I. destruct I as (j & I). assert (J : (j < v_n w)%nat) by (rewrite <- LS; apply nth_error_Some; congruence).
    destruct (G j J) as (new & col & x' & X1 & _ & _ & X2). assert (x = x') by congruence. subst x'. eauto. }
  exists f, pts. repeat (split; [assumption|]). split; [unfold dose_curve; rewrite H; exact P1|]. split; [congruence|].
  intros j J. cbv zeta. destruct (G j J) as (new & col & x & X1 & X2 & X3 & X4). exists new, col. split; [exact X2|]. split; [exact X3|].
  destruct (P3 j x X1) as (y & Y1 & Y2). rewrite Y2. congruence.
Qed.
(** The waiting times are those of the last study, too. *)
Theorem C186_waiting : forall solve first before after q, psession solve first (before ++ PStudy :: after) = Some q -> ~ In PStudy after ->
  exists p f o r, psession solve first before = Some p /\ page_pac (pg_in p) = Ok (f, o) /\ let w := pg_want p in
  for_target f solve o (v_lo w) (v_hi w) (v_n w) (v_target w) (v_tunits w) (v_cunits w) = Ok r /\ waiting q = Some r.
Proof.
  intros solve first before after q H N. rewrite session_app in H. destruct (psession solve first before) as [p|]; [|discriminate H].
  rewrite session_step in H. cbn [pact] in H. destruct (page_study solve (pg_in p) (pg_want p)) as [s|] eqn:E; [|discriminate H]. apply session_study in H; [|exact N]. cbn [pg_study] in H.
  unfold page_study in E. destruct (page_pac (pg_in p)) as [[f o]|] eqn:EP; [|discriminate E]. cbn [bind fst snd] in E.
  destruct (for_target _ _ _ _ _ _ _ _ _) as [r|] eqn:ER; [|discriminate E]. cbn [bind] in E. exists p, f, o, r. split; [reflexivity|]. split; [exact EP|]. split; [exact ER|].
  unfold waiting. rewrite H. cbn [option_map]. f_equal. match type of E with Ok ?x = _ => assert (s = x) as -> by congruence end. reflexivity.
Qed.
(** but their plot is titled with the target entered now: it is the one of the study if nothing was entered since *)
Theorem C186_title_partial : forall solve first before after q, psession solve first (before ++ PStudy :: after) = Some q -> (forall w, ~ In (PWish w) after) ->
  exists p, psession solve first before = Some p /\ waiting_title q = (v_target (pg_want p), v_tunits (pg_want p)).
Proof.
  intros solve first before after q H N. rewrite session_app in H. destruct (psession solve first before) as [p|]; [|discriminate H]. exists p. split; [reflexivity|].
  assert (W : forall l p0 q0, (forall w, ~ In (PWish w) l) -> psession solve p0 l = Some q0 -> pg_want q0 = pg_want p0).
  { clear. induction l as [|a l IH]; intros p0 q0 N H; [unfold psession in H; cbn in H; congruence|]. rewrite session_step in H.
    destruct (pact solve p0 a) as [p'|] eqn:E; [|discriminate H]. rewrite (IH p' q0 (fun w I => N w (or_intror I)) H).
    destruct a; cbn [pact] in E; [|exfalso; eapply N; left; reflexivity|destruct (page_run _ _ _ _); [|discriminate E]|destruct (page_study _ _ _); [|discriminate E]]; injection E as <-; reflexivity. }
  apply W in H; [unfold waiting_title; rewrite H; reflexivity|]. intros w [I|I]; [discriminate I|exact (N w I)].
Qed.
Theorem C186_title_refuted : forall solve first before p s w', psession solve first before = Some p -> page_study solve (pg_in p) (pg_want p) = Ok s ->
  v_target w' <> v_target (pg_want p) ->
  exists q, psession solve first (before ++ [PStudy; PWish w']) = Some q /\ waiting q = Some (s_wait s) /\ waiting_title q <> (v_target (pg_want p), v_tunits (pg_want p)).
Proof.
  intros solve first before p s w' H S NE. rewrite session_app, H. unfold psession. cbn [fold_left pact]. rewrite S. eexists. split; [reflexivity|]. split; [reflexivity|].
  unfold waiting_title. cbn [pg_want]. intros Q. apply NE. congruence.
Qed.
(** A run on compounds of which one has a unit without a size ends the session, results and all. *)
Theorem C186_failed_refuted : forall solve first before p n c, psession solve first before = Some p -> In (n, c) (n_compounds (pg_in p)) ->
  ~ In (C0_units c) ["ug/L"; "ug"; "ng/L"; "ng"; "mg/L"; "mg"] -> forall after, psession solve first (before ++ PRun :: after) = None.
Proof.
  intros solve first before p n c H I U after. rewrite session_app, H, session_step. cbn [pact]. rewrite page_run_pac.
  destruct (page_pac (pg_in p)) as [[f o]|] eqn:E; [exfalso|reflexivity]. apply page_pac_create in E. destruct E as (d & T & E). unfold create in E.
  destruct (conv_array (n_compounds (pg_in p))) as [cv|] eqn:C; [|discriminate E]. clear E. revert cv C. induction (n_compounds (pg_in p)) as [|[m x] l IH]; intros cv C; [exact I|].
  cbn [conv_array] in C. destruct (lookup (C0_units x) conc_convert) as [k|] eqn:L; [|discriminate C]. cbn [of_option bind] in C. destruct (conv_array l) as [ks|] eqn:C2; [|discriminate C].
  destruct I as [I|I]; [|exact (IH I ks eq_refl)]. assert (x = c) by congruence. subst x. apply U.
  change ["ug/L"; "ug"; "ng/L"; "ng"; "mg/L"; "mg"] with (map fst conc_convert). apply in_map_iff. clear -L. induction conc_convert as [|[a b] l IH]; [discriminate L|].
  cbn in L. destruct (String.eqb_spec (C0_units c) a) as [->|]; [exists (a, b); split; [reflexivity|left; reflexivity]|]. destruct (IH L) as (z & Z1 & Z2). exists z. split; [exact Z1|right; exact Z2].
Qed.
(** The workbook holds the points of the plot, the waiting times, the compounds on the page now, and the
    contactor and the carbon of the workbook that was uploaded. *)
Theorem C186_saved_partial : forall file p tu cu b, save_page file p tu cu = Ok b <->
  exists pts, shown p tu cu = Ok pts /\ b = {| k_file := file; k_compounds := n_compounds (pg_in p); k_points := pts; k_wait := option_map s_wait (pg_study p) |}.
Proof.
  intros file p tu cu b. unfold save_page. destruct (shown p tu cu) as [pts|]; cbn [bind]; split; intros H.
  - exists pts. split; [reflexivity|]. unfold saved, waiting in H. congruence.
  - destruct H as (x & E1 & ->). assert (x = pts) by congruence. subst x. reflexivity.
  - discriminate H.
  - destruct H as (x & E1 & _). discriminate E1.
Qed.
(** So the inputs saved need not be those of the results: not the compounds, if they were edited after the
    run, and not the dose, if it is not the one of the workbook. *)
Theorem C186_inputs_refuted : forall solve first before p t i' file cu mu, psession solve first before = Some p ->
  page_run solve (n_sizes (pg_in p)) (n_boxes (pg_in p)) (n_compounds (pg_in p)) = Ok t -> n_compounds i' <> n_compounds (pg_in p) -> w_dosage file <> x_dosage (n_boxes (pg_in p)) -> mass_unit cu mu ->
  exists q b, psession solve first (before ++ [PRun; PEdit i']) = Some q /\ save_page file q "Minutes" cu = Ok b /\ k_points b = map (fun z => (fst (fst z), snd (fst z), Some (snd z / 1000 / mu))) (by_row (wide t)) /\
    k_compounds b <> n_compounds (pg_in p) /\ w_dosage (k_file b) <> x_dosage (n_boxes (pg_in p)).
Proof.
  intros solve first before p t i' file cu mu H R N1 N2 M. rewrite session_app, H. unfold psession. cbn [fold_left pact]. rewrite R.
  assert (NC : String.eqb cu "C/C0" = false) by (destruct M; reflexivity).
  eexists. eexists. split; [reflexivity|]. split.
  - unfold save_page, shown. cbn [pg_out]. rewrite NC. erewrite mapM_all; [reflexivity|]. intros z _. cbv beta.
    destruct (C143_units cu mu (snd z / 1000) "Minutes" 1 (fst (fst z)) M u_Minutes) as (A & B). rewrite B. cbn [bind]. replace (1000 * (snd z / 1000)) with (snd z) in A by field. rewrite A. cbn [bind].
    replace (fst (fst z) / 1) with (fst (fst z)) by field. reflexivity.
  - cbn [k_points k_compounds k_file n_compounds pg_in]. split; [reflexivity|]. split; [exact N1|exact N2].
Qed.

(** The page as it starts, with two compounds, run, studied and edited. *)
Definition taste : comp := {| K := 2; xn := 1 / 2; kf := 1 / 1000; Dp := 1 / 10 ^ 6; Ds := 1 / 10 ^ 9; C0 := 50; C0_units := "ng" |}.
Definition smell : comp := {| K := 3; xn := 1 / 3; kf := 1 / 1000; Dp := 1 / 10 ^ 6; Ds := 1 / 10 ^ 9; C0 := 30; C0_units := "ug" |}.
Definition first_inputs : pinputs := {| n_sizes := default_sizes; n_boxes := start_boxes; n_compounds := [("MIB", taste); ("Geosmin", smell)] |}.
Definition edited_inputs : pinputs := {| n_sizes := default_sizes; n_boxes := start_boxes; n_compounds := [("MIB", taste)] |}.
Definition bad_inputs : pinputs :=
  {| n_sizes := default_sizes; n_boxes := start_boxes; n_compounds := [("MIB", {| K := 2; xn := 1 / 2; kf := 1 / 1000; Dp := 1 / 10 ^ 6; Ds := 1 / 10 ^ 9; C0 := 50; C0_units := "ppt" |})] |}.
Definition first_wishes : wishes := {| v_lo := 5; v_hi := 25; v_n := 5; v_target := 4; v_tunits := "ng"; v_cunits := "ng" |}.
Definition other_wishes : wishes := {| v_lo := 5; v_hi := 25; v_n := 5; v_target := 10; v_tunits := "ng"; v_cunits := "ng" |}.
Example C186_met : forall solve, exists q, psession solve (popened first_inputs first_wishes) ([] ++ PStudy :: [PRun; PEdit edited_inputs; PWish other_wishes]) = Some q /\
  (exists s, page_study solve first_inputs first_wishes = Ok s) /\ (exists t, page_run solve (n_sizes first_inputs) (n_boxes first_inputs) (n_compounds first_inputs) = Ok t) /\
  psession solve (popened first_inputs first_wishes) [PEdit bad_inputs] <> None /\ offered (n_sizes first_inputs) (n_boxes first_inputs) 100 100 1000 (10 ^ 6) /\
  ~ In "ppt" ["ug/L"; "ug"; "ng/L"; "ng"; "mg/L"; "mg"] /\ v_target other_wishes <> v_target first_wishes /\ n_compounds edited_inputs <> n_compounds first_inputs.
Proof.
  intros solve. assert (O : offered default_sizes start_boxes 100 100 1000 (10 ^ 6)) by exact (proj1 C157_met).
  assert (P : exists fo, page_pac first_inputs = Ok fo).
  { unfold page_pac. cbn [n_sizes n_boxes first_inputs]. rewrite (page_builds _ _ _ _ _ _ O). cbn [bind b_density b_porosity b_radius b_hrt b_crt b_dosage b_dw]. eexists. reflexivity. }
  destruct P as ([f o] & P). assert (S : exists s, page_study solve first_inputs first_wishes = Ok s) by (unfold page_study; rewrite P; eexists; reflexivity).
  assert (T : exists t, page_run solve (n_sizes first_inputs) (n_boxes first_inputs) (n_compounds first_inputs) = Ok t) by (rewrite page_run_pac, P; eexists; reflexivity).
  destruct S as (s & S), T as (t & T). eexists. split.
  - cbn [app]. rewrite session_step. cbn [pact popened pg_in pg_want]. rewrite S. rewrite session_step. cbn [pact pg_in]. rewrite T. reflexivity.
  - split; [eauto|]. split; [eauto|]. split; [discriminate|]. split; [exact O|]. split; [cbn; intuition discriminate|]. split; [cbn; lra|discriminate].
Qed.

Print Assumptions C186_last_run.
Print Assumptions C186_relative_partial.
Print Assumptions C186_last_study.
Print Assumptions C186_waiting.
Print Assumptions C186_title_partial.
Print Assumptions C186_title_refuted.
Print Assumptions C186_failed_refuted.
Print Assumptions C186_saved_partial.
Print Assumptions C186_inputs_refuted.
