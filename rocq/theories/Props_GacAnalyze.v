(** Properties C117 and C118: whole-study tools and the column object. *)
From Coq Require Import Reals List Arith Bool String Lra Lia.
From Verif Require Import Lib_Py M_GacFun P_GacFun M_GacMin P_GacMin M_IxUnc P_GacState M_GacAnalyze P_Colloc.
Import ListNotations.
Open Scope R_scope.
Open Scope string_scope.
Local Notation length := List.length.

Lemma entry_put c row x t t' : put c row x t = Ok t' -> lookup c t <> None /\ forall d r, entry d r t' = if (String.eqb d c && String.eqb r row)%bool then Some x else entry d r t.
Proof.
  unfold put, entry. destruct (lookup c t) as [col|] eqn:E; [|discriminate]. cbn. intros H. assert (t' = update c (update row x col) t) by congruence. subst t'. split; [discriminate|]. intros d r. rewrite lookup_update.
  destruct (String.eqb_spec d c) as [->|N]; [|reflexivity]. rewrite E, lookup_update. cbn [andb]. reflexivity.
Qed.
Lemma put_ok c row x t : lookup c t <> None -> exists t', put c row x t = Ok t'.
Proof. unfold put. destruct (lookup c t); [|congruence]. intros _. eexists. reflexivity. Qed.
Lemma put_has c row x t t' d : put c row x t = Ok t' -> lookup d t <> None -> lookup d t' <> None.
Proof. unfold put. destruct (lookup c t) as [col|]; [|discriminate]. cbn. intros H. assert (t' = update c (update row x col) t) by congruence. subst t'. rewrite lookup_update. destruct (String.eqb d c); [discriminate|auto]. Qed.

(** ** C117: the object after a full-scale prediction *)
(** Settings and data but for the isotherm table. *)
Definition same_settings (s s' : study) : Prop :=
  s_opt s' = s_opt s /\ s_comps s' = s_comps s /\ s_test s' = s_test s /\ s_xnr s' = s_xnr s /\ s_xn s' = s_xn s /\ s_kd s' = s_kd s.
Lemma for_compound_same ds c s s' : for_compound ds c s = Ok s' -> s_opt s' = s_opt s /\ s_comps s' = s_comps s /\ s_kd s' = s_kd s /\ s_index s' = s_index s /\ (ds = true -> s_xnr s' = s_xnr s /\ s_xn s' = s_xn s).
Proof.
  unfold for_compound. destruct ds.
  - destruct (entry c "ds" (s_kd s)) as [x|]; [|discriminate]. cbn. intros H. assert (s' = set_test [x] s) by congruence. subst s'. cbn. tauto.
  - destruct (entry c "K" (s_kd s)) as [k|]; [|discriminate]. cbn. destruct (entry c "1/n" (s_kd s)) as [x|]; [|discriminate]. cbn. intros H. assert (s' = set_xn [x] x (set_test [k] s)) by congruence. subst s'. cbn. repeat split; discriminate.
Qed.
Lemma runs_same run ds : forall cs s o s', runs run ds cs s = (o, s') -> s_opt s' = s_opt s /\ s_comps s' = s_comps s /\ s_kd s' = s_kd s /\ s_index s' = s_index s /\ (ds = true -> s_xnr s' = s_xnr s /\ s_xn s' = s_xn s).
Proof.
  induction cs as [|c cs IH]; intros s o s' H; cbn in H; [assert (s' = s) by congruence; subst; tauto|]. destruct (for_compound ds c s) as [s1|] eqn:F; [|assert (s' = s) by congruence; subst; tauto].
  apply for_compound_same in F as (F1 & F2 & F3 & F4 & F5). destruct (run s1 c) as [u|]; [|assert (s' = s1) by congruence; subst; tauto]. apply IH in H as (H1 & H2 & H3 & H4 & H5). split; [congruence|]. split; [congruence|]. split; [congruence|]. split; [congruence|].
  intros D. destruct (F5 D), (H5 D). split; congruence.
Qed.
(** A prediction that returns puts the settings back; and the times of the data too when they
    reach the last day. *)
Theorem C117_restored_partial : forall run ds shared max_days cs s u s', predict run ds shared max_days cs s = (Ok u, s') ->
  same_settings s s' /\ ((exists t, In t (s_index s) /\ max_days <= t) -> s' = s).
Proof.
  intros run ds shared md cs s u s' H. unfold predict in H. destruct (s_index s) as [|t0 l0] eqn:I; [discriminate|]. rewrite <- I in *. cbv zeta in H.
  match type of H with context [runs run ds cs ?X] => destruct (runs run ds cs X) as (o & s2) eqn:Rn end. destruct o as [v|]; [|discriminate]. apply runs_same in Rn as (R1 & R2 & R3 & R4 & R5). cbn in R1, R2, R3, R4, R5.
  match type of H with (_, ?A) = _ => assert (E : s' = A) by congruence end. subst s'. unfold same_settings. cbn. split.
  - repeat (split; [reflexivity|]). destruct ds; [destruct (R5 eq_refl) as (Q1 & Q2); rewrite Q1, Q2; auto|auto].
  - intros (t & T & L). assert (LT : rltb (lmax (s_index s)) md = false). { apply rltb_false. destruct (lmax_spec (s_index s)) as (_ & M); [rewrite I; discriminate|]. specialize (M t T). lra. }
    rewrite R3, R4, LT. cbn [andb]. destruct s as [a b c d e f g h]; cbn in *. destruct ds; [destruct (R5 eq_refl) as (Q1 & Q2); rewrite Q1, Q2; reflexivity|reflexivity].
Qed.
(** Otherwise the last time of the data, the caller's own frame, is moved to the last day. *)
Theorem C117_index_refuted : forall run ds shared max_days cs s u s', predict run ds shared max_days cs s = (Ok u, s') -> (forall t, In t (s_index s) -> t < max_days) ->
  last (s_index s') 0 = max_days /\ s_index s' <> s_index s.
Proof.
  intros run ds shared md cs s u s' H B. unfold predict in H. destruct (s_index s) as [|t0 l0] eqn:I; [discriminate|]. rewrite <- I in *. cbv zeta in H.
  match type of H with context [runs run ds cs ?X] => destruct (runs run ds cs X) as (o & s2) eqn:Rn end. destruct o as [v|]; [|discriminate]. apply runs_same in Rn as (R1 & R2 & R3 & R4 & R5). cbn in R4.
  match type of H with (_, ?A) = _ => assert (E : s' = A) by congruence end. subst s'. cbn. rewrite R4.
  assert (NE : s_index s <> []) by (rewrite I; discriminate). assert (LT : rltb (lmax (s_index s)) md = true). { apply rltb_true. destruct (lmax_spec (s_index s) NE) as (M & _). apply B, M. }
  rewrite LT. unfold last_to. assert (L : last (removelast (s_index s) ++ [md]) 0 = md) by apply last_last. split; [exact L|]. intros E. rewrite E in L.
  assert (IN : In (last (s_index s) 0) (s_index s)). { rewrite (app_removelast_last 0 NE) at 2. apply in_or_app. right. left. reflexivity. } specialize (B _ IN). lra.
Qed.
(** A run that fails leaves the object with the search off and the selected compounds only. *)
Theorem C117_failure_refuted : forall run ds shared max_days cs s e s', predict run ds shared max_days cs s = (Err e, s') -> s_opt s' = false /\ s_comps s' = cs.
Proof.
  intros run ds shared md cs s e s' H. unfold predict in H. destruct (s_index s) as [|t0 l0] eqn:I; [match type of H with (_, ?A) = _ => assert (E : s' = A) by congruence end; subst s'; auto|]. rewrite <- I in *. cbv zeta in H.
  match type of H with context [runs run ds cs ?X] => destruct (runs run ds cs X) as (o & s2) eqn:Rn end. destruct o as [v|]; [discriminate|]. apply runs_same in Rn as (R1 & R2 & _). cbn in R1, R2. assert (s' = s2) by congruence. subst s'. auto.
Qed.
Definition demo_study : study :=
  {| s_opt := true; s_comps := ["A"; "B"]; s_test := [1; 2]; s_xnr := [dec 4 1]; s_xn := dec 45 2; s_xdata := [0; 10]; s_index := [0; 10];
     s_kd := [("A", [("K", 5); ("1/n", dec 5 1)]); ("B", [("K", 7); ("1/n", dec 6 1)])] |}.
Example predict_met : (exists s', predict (fun _ _ => Ok tt) false true 100 ["A"] demo_study = (Ok tt, s')) /\ (forall t, In t (s_index demo_study) -> t < 100) /\
  (exists s', predict (fun _ _ => Ok tt) false true 10 ["A"] demo_study = (Ok tt, s')) /\ exists s', predict (fun _ _ => Ok tt) true true 10 ["A"] demo_study = (Err KeyError, s').
Proof.
  unfold predict. cbn -[rltb lmax last_to]. split; [eexists; reflexivity|]. split; [intros t [<-|[<-|[]]]; lra|]. split; eexists; reflexivity.
Qed.

(** ** C118: fitting all compounds *)
Lemma mapM_fits (fit : string -> res (R * R)) : forall cs rs, mapM (fun c => do r <- fit c; Ok (c, r)) cs = Ok rs -> map fst rs = cs /\ forall c r, In (c, r) rs -> fit c = Ok r.
Proof.
  induction cs as [|c cs IH]; intros rs H; cbn in H; [assert (rs = []) by congruence; subst; split; [reflexivity|intros c r []]|]. destruct (fit c) as [r|] eqn:F; [|discriminate]. cbn in H. destruct (mapM _ cs) as [rs'|] eqn:M; [|discriminate]. cbn in H.
  assert (rs = (c, r) :: rs') by congruence. subst rs. destruct (IH rs' eq_refl) as (A & B). split; [cbn; rewrite A; reflexivity|]. intros d q [E|I]; [congruence|apply B; exact I].
Qed.
(** The fit runs on the object as it was; what it gave is stored and nothing else changes. *)
Definition stored (fit : string -> res (R * R)) (r1 r2 : string) (cs : list string) (t t' : list (string * list (string * R))) : Prop :=
  (forall c, In c cs -> exists a b, fit c = Ok (a, b) /\ entry c r1 t' = Some a /\ entry c r2 t' = Some b) /\
  (forall c r, ~ In c cs \/ (r <> r1 /\ r <> r2) -> entry c r t' = entry c r t).
Lemma store_spec drawn fit : forall rs s u s', (forall c r, In (c, r) rs -> fit c = Ok r) -> store drawn rs s = (Ok u, s') -> stored fit "K" "1/n" (map fst rs) (s_kd s) (s_kd s') /\ s' = set_kd (s_kd s') s.
Proof.
  induction rs as [|(c & k & xn) more IH]; intros s u s' F H; cbn in H. { assert (s' = s) by congruence. subst s'. split; [split; [intros c []|reflexivity]|destruct s; reflexivity]. }
  destruct (put c "K" k (s_kd s)) as [t1|] eqn:P1; [|discriminate]. destruct (put c "1/n" xn t1) as [t2|] eqn:P2; [|discriminate].
  destruct (if s_opt s then drawn s c else Ok tt) as [v|]; [|discriminate]. destruct (IH _ _ _ (fun c r I => F c r (or_intror I)) H) as ((A & B) & C). cbn [s_kd set_kd] in A, B, C.
  destruct (entry_put _ _ _ _ _ P1) as (_ & E1). destruct (entry_put _ _ _ _ _ P2) as (_ & E2). split; [|rewrite C; destruct s; reflexivity]. split.
  - intros d I. destruct (in_dec string_dec d (map fst more)) as [J|J]; [apply A, J|]. destruct I as [<-|I]; [|contradiction]. cbn [fst]. exists k, xn. split; [apply F; left; reflexivity|]. rewrite !B by (left; exact J). rewrite !E2, !E1, String.eqb_refl. auto.
  - intros d r Q. rewrite B by (cbn [map fst In] in Q; tauto). rewrite E2, E1. destruct (String.eqb_spec d c) as [->|N]; [|reflexivity]. destruct Q as [Q|(Q1 & Q2)]; [exfalso; apply Q; left; reflexivity|]. cbn [andb].
    destruct (String.eqb_spec r "1/n"); [contradiction|]. destruct (String.eqb_spec r "K"); [contradiction|]. reflexivity.
Qed.
Theorem C118_stored_partial : forall fit drawn s u s', analyze_all fit drawn s = (Ok u, s') -> stored (fit s) "K" "1/n" (s_comps s) (s_kd s) (s_kd s') /\ s' = set_kd (s_kd s') s.
Proof.
  intros fit drawn s u s' H. unfold analyze_all in H. destruct (mapM _ (s_comps s)) as [rs|] eqn:M; [|discriminate]. destruct (mapM_fits (fit s) _ _ M) as (E & F). destruct (store_spec drawn (fit s) rs s u s' F H) as (A & B). rewrite E in A. auto.
Qed.
(** The surface-diffusion study, with the search on, also gives every compound its two rows. *)
Lemma store_ds_spec fit : forall rs best s, s_opt s = true -> (forall c r, In (c, r) rs -> fit c = Ok r /\ lookup c (s_kd s) <> None) ->
  exists s', store_ds rs best s = (Ok tt, s') /\ stored fit "ds" "base_ds" (map fst rs) (s_kd s) (s_kd s') /\ s' = set_kd (s_kd s') s.
Proof.
  induction rs as [|(c & ds & base) more IH]; intros best s O F. { exists s. split; [reflexivity|]. split; [split; [intros c []|reflexivity]|destruct s; reflexivity]. }
  cbn [store_ds]. destruct (F c (ds, base) (or_introl eq_refl)) as (FC & L). destruct (put_ok c "ds" (ds * 1) (s_kd s) L) as (t1 & P1). rewrite P1. destruct (put_ok c "base_ds" (base * 1) t1 (put_has _ _ _ _ _ _ P1 L)) as (t2 & P2). rewrite P2, O.
  destruct (IH (Some ds) (set_kd t2 s) O) as (s' & S1 & (A & B) & C). { intros d r I. destruct (F d r (or_intror I)) as (F1 & F2). split; [exact F1|]. cbn [s_kd set_kd]. apply (put_has _ _ _ _ _ _ P2), (put_has _ _ _ _ _ _ P1), F2. }
  exists s'. split; [exact S1|]. cbn [s_kd set_kd] in A, B. destruct (entry_put _ _ _ _ _ P1) as (_ & E1). destruct (entry_put _ _ _ _ _ P2) as (_ & E2). split; [|rewrite C; destruct s; reflexivity]. split.
  - intros d I. destruct (in_dec string_dec d (map fst more)) as [J|J]; [apply A, J|]. destruct I as [<-|I]; [|contradiction]. cbn [fst]. exists ds, base. split; [exact FC|]. rewrite !B by (left; exact J). rewrite !E2, !E1, String.eqb_refl. cbn [andb String.eqb Ascii.eqb Bool.eqb]. rewrite !Rmult_1_r. auto.
  - intros d r Q. rewrite B by (cbn [map fst In] in Q; tauto). rewrite E2, E1. destruct (String.eqb_spec d c) as [->|N]; [|reflexivity]. destruct Q as [Q|(Q1 & Q2)]; [exfalso; apply Q; left; reflexivity|]. cbn [andb].
    destruct (String.eqb_spec r "base_ds"); [contradiction|]. destruct (String.eqb_spec r "ds"); [contradiction|]. reflexivity.
Qed.
Lemma new_rows_spec : forall t t', new_rows t = Ok t' -> forall c, (lookup c t' = None <-> lookup c t = None) /\ forall r, entry c r t' = if (mem_key c t && (String.eqb r "ds" || String.eqb r "base_ds"))%bool then entry c "K" t else entry c r t.
Proof.
  unfold new_rows. induction t as [|(c0 & col) t IH]; intros t' H c; cbn in H. { assert (t' = []) by congruence. subst t'. split; [tauto|]. intros r. reflexivity. }
  destruct (lookup "K" col) as [k|] eqn:K; [|discriminate]. cbn [of_option bind] in H. destruct (mapM _ t) as [t1|] eqn:M; [|discriminate]. cbn [bind] in H. match type of H with Ok ?A = _ => assert (E : t' = A) by congruence end. subst t'. destruct (IH t1 eq_refl c) as (A & B).
  unfold entry, mem_key in *. cbn [lookup fst snd]. destruct (String.eqb_spec c c0) as [->|N].
  - split; [split; discriminate|]. intros r. rewrite !lookup_update, K. cbn [andb]. destruct (String.eqb_spec r "base_ds") as [->|N1]; [cbn; rewrite Rmult_1_r; reflexivity|]. destruct (String.eqb_spec r "ds") as [->|N2]; [cbn; rewrite Rmult_1_r; reflexivity|reflexivity].
  - split; [exact A|]. intros r. exact (B r).
Qed.
Theorem C118_ds_partial : forall fit s t, s_opt s = true -> new_rows (s_kd s) = Ok t -> (forall c, In c (s_comps s) -> lookup c (s_kd s) <> None /\ exists r, fit s c = Ok r) ->
  exists s', analyze_all_ds fit s = (Ok tt, s') /\ s' = set_kd (s_kd s') s /\
    (forall c, In c (s_comps s) -> exists ds base, fit s c = Ok (ds, base) /\ entry c "ds" (s_kd s') = Some ds /\ entry c "base_ds" (s_kd s') = Some base) /\
    (forall c r, r <> "ds" -> r <> "base_ds" -> entry c r (s_kd s') = entry c r (s_kd s)).
Proof.
  intros fit s t O N F. unfold analyze_all_ds. rewrite N.
  assert (M : exists rs, mapM (fun c => do r <- fit s c; Ok (c, r)) (s_comps s) = Ok rs). { assert (G : forall c, In c (s_comps s) -> exists r, fit s c = Ok r) by (intros c I; apply (F c I)). revert G. generalize (s_comps s). induction l as [|c l IH]; intros G; [exists []; reflexivity|]. cbn [mapM].
    destruct (G c (or_introl eq_refl)) as (r & ->). cbn [bind]. destruct IH as (rs & ->); [intros d I; apply G; right; exact I|]. eexists. reflexivity. }
  destruct M as (rs & M). rewrite M. destruct (mapM_fits (fit s) _ _ M) as (E & G). destruct (store_ds_spec (fit s) rs None (set_kd t s) O) as (s' & S1 & (A & B) & C).
  { intros c r I. split; [apply G, I|]. cbn [s_kd set_kd]. intros Z. apply (proj1 (new_rows_spec _ _ N c)) in Z. revert Z. apply F. rewrite <- E. apply in_map_iff. exists (c, r). auto. }
  exists s'. split; [exact S1|]. cbn [s_kd set_kd] in A, B. split; [rewrite C; destruct s; reflexivity|]. rewrite E in A, B. split; [exact A|]. intros c r N1 N2. rewrite B by (right; auto). rewrite (proj2 (new_rows_spec _ _ N c)).
  destruct (String.eqb_spec r "ds"); [contradiction|]. destruct (String.eqb_spec r "base_ds"); [contradiction|]. rewrite andb_false_r. reflexivity.
Qed.
(** With the search off it stops at the first compound; the others are left with their K as
    surface diffusivity. *)
Theorem C118_ds_no_search_refuted : forall fit s t c cs, s_opt s = false -> s_comps s = c :: cs -> new_rows (s_kd s) = Ok t -> (forall d, In d (s_comps s) -> lookup d (s_kd s) <> None /\ exists r, fit s d = Ok r) ->
  exists s', analyze_all_ds fit s = (Err UnboundLocalError, s') /\ forall d, In d cs -> d <> c -> entry d "ds" (s_kd s') = entry d "K" (s_kd s) /\ entry d "base_ds" (s_kd s') = entry d "K" (s_kd s).
Proof.
  intros fit s t c cs O CS N F. unfold analyze_all_ds. rewrite N, CS. cbn [mapM]. destruct (F c) as (L & (ds & base) & FC); [rewrite CS; left; reflexivity|]. rewrite FC. cbn [bind].
  assert (M : exists rs, mapM (fun c => do r <- fit s c; Ok (c, r)) cs = Ok rs). { assert (G : forall c, In c cs -> exists r, fit s c = Ok r) by (intros d I; apply (F d); rewrite CS; right; exact I). revert G. generalize cs. induction cs0 as [|d l IH]; intros G; [exists []; reflexivity|]. cbn [mapM].
    destruct (G d (or_introl eq_refl)) as (r & ->). cbn [bind]. destruct IH as (rs & ->); [intros e I; apply G; right; exact I|]. eexists. reflexivity. }
  destruct M as (rs & ->). cbn [bind store_ds s_kd set_kd]. assert (L' : lookup c t <> None) by (intros Z; apply (proj1 (new_rows_spec _ _ N c)) in Z; exact (L Z)).
  destruct (put_ok c "ds" (ds * 1) t L') as (t1 & P1). rewrite P1. destruct (put_ok c "base_ds" (base * 1) t1 (put_has _ _ _ _ _ _ P1 L')) as (t2 & P2). rewrite P2. cbn [s_opt set_kd]. rewrite O. eexists. split; [reflexivity|]. cbn [s_kd set_kd].
  intros d I D. destruct (entry_put _ _ _ _ _ P1) as (_ & E1). destruct (entry_put _ _ _ _ _ P2) as (_ & E2). rewrite !E2, !E1. destruct (String.eqb_spec d c); [contradiction|]. cbn [andb]. rewrite !(proj2 (new_rows_spec _ _ N d)).
  assert (MK : mem_key d (s_kd s) = true). { unfold mem_key. destruct (F d) as (Q & _); [rewrite CS; right; exact I|]. destruct (lookup d (s_kd s)); [reflexivity|congruence]. } rewrite MK. auto.
Qed.
Example analyze_met : (exists s', analyze_all (fun _ _ => Ok (3, dec 4 1)) (fun _ _ => Ok tt) demo_study = (Ok tt, s')) /\ (exists t, new_rows (s_kd demo_study) = Ok t) /\
  forall c, In c (s_comps demo_study) -> lookup c (s_kd demo_study) <> None /\ exists r, (fun (_ : study) (_ : string) => Ok (3, 4)) demo_study c = Ok r.
Proof.
  split; [eexists; reflexivity|]. split; [eexists; reflexivity|]. intros c I. split; [destruct I as [<-|[<-|[]]]; discriminate|eexists; reflexivity].
Qed.
Print Assumptions C117_restored_partial.
Print Assumptions C117_index_refuted.
Print Assumptions C117_failure_refuted.
Print Assumptions C118_stored_partial.
Print Assumptions C118_ds_partial.
Print Assumptions C118_ds_no_search_refuted.
