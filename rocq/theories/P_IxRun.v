(** Proofs about batch results, corrected units and the command line. *)
From Coq Require Import List String Reals Lra Lia Bool.
From Verif Require Import Lib_Py M_Units M_Params M_IxData M_IxRun S_Units S_Params S_IxData P_Units P_Params P_IxData.
Import ListNotations.
Open Scope string_scope.
Local Notation length := List.length.

Lemma accepted_iff u : In u conc_units <-> In u (keys (meq_of 1 1)).
Proof. cbn; tauto. Qed.

(** ** A successful conversion, with or without prompts *)
Lemma conv_conc_inv MW val a b t f a' b' t' :
  conv_conc MW val a b t = Ok (f, a', b', t') ->
  In a' conc_units /\ In b conc_units /\ b' = b /\ f = conc_factor MW val a' b /\
  (In a conc_units -> a' = a).
Proof.
  unfold conv_conc, conv_units, conc_factor, unit_factor, coef_of. intros H.
  destruct (index_of a conc_units) as [i|] eqn:Ea; cbn [bind] in H.
  - destruct (index_of b conc_units) as [j|] eqn:Eb; [|discriminate].
    destruct (nth_error (conc_coefs MW val) i) as [ci|] eqn:E1; [|discriminate].
    destruct (nth_error (conc_coefs MW val) j) as [cj|] eqn:E2; [|discriminate].
    cbn [bind of_option] in H. inversion H; subst. rewrite Ea.
    rewrite (nth_error_nth _ _ 0%R E1), (nth_error_nth _ _ 0%R E2).
    repeat split; eauto using index_of_Some_In.
  - destruct (prompt_unit conc_units t) as [[[u i] rest]|] eqn:Ep; [|discriminate].
    destruct (prompt_unit_spec _ _ _ _ _ Ep) as (pre & _ & _ & Iu & Ei).
    cbn [bind] in H.
    destruct (index_of b conc_units) as [j|] eqn:Eb; [|discriminate].
    destruct (nth_error (conc_coefs MW val) i) as [ci|] eqn:E1; [|discriminate].
    destruct (nth_error (conc_coefs MW val) j) as [cj|] eqn:E2; [|discriminate].
    cbn [bind of_option] in H. inversion H; subst. rewrite Ei.
    rewrite (nth_error_nth _ _ 0%R E1), (nth_error_nth _ _ 0%R E2).
    repeat split; eauto using index_of_Some_In.
    intros K. destruct (index_of_In _ _ K) as (k & Ek & _). congruence.
Qed.

Lemma conc_conv_factor i a b : In a conc_units -> In b conc_units ->
  conc_conv i a b (conc_factor (i_mw i) (INR (i_val i)) a b).
Proof.
  intros Ha Hb. unfold conc_conv, conv_conc, conc_factor. apply conv_units_ok; [reflexivity|assumption|assumption].
Qed.

Lemma conv_database_all spec : forall data t data' uins t',
  conv_database spec data t = Ok ((data', uins), t') -> NoDup (keys spec) ->
  keys data' = keys data /\ keys uins = keys spec /\
  (forall n, ~ In n (keys spec) -> lookup n data' = lookup n data) /\
  (forall n d, In (n, d) spec -> exists x u, lookup n data = Some x /\ lookup n uins = Some u /\
      In u conc_units /\ In (db_out d) conc_units /\ (In (db_in d) conc_units -> u = db_in d) /\
      lookup n data' = Some (map (fun v => (conc_factor (db_mw d) (db_val d) u (db_out d) * v)%R) x)).
Proof.
  induction spec as [|[k d] spec IH]; intros data t data' uins t' H ND.
  - cbn in H. inversion H; subst. repeat split; try reflexivity. intros ? ? [].
  - cbn [conv_database] in H. unfold io_bind in H.
    destruct (conv_conc _ _ _ _ t) as [[[[cf u] b'] t1]|] eqn:Ec; [|discriminate].
    destruct (conv_conc_inv _ _ _ _ _ _ _ _ _ Ec) as (Iu & Ib & -> & -> & Ka).
    destruct (lookup k data) as [col|] eqn:El; [|discriminate]. cbn [io_opt io_ret] in H.
    match type of H with context [conv_database spec ?D ?T] => destruct (conv_database spec D T) as [[[d2 u2] t2]|] eqn:Er; [|discriminate] end.
    cbv beta iota in H. unfold io_ret in H. inversion H; subst; clear H. cbn [keys map fst] in ND. inversion ND as [|? ? Hni ND']; subst.
    destruct (IH _ _ _ _ _ Er ND') as (K1 & K2 & K3 & K4).
    split; [rewrite K1; eapply keys_update_present; exact El|]. split; [cbn; f_equal; exact K2|]. split.
    + intros n Hn. cbn in Hn. rewrite K3 by tauto. apply lookup_update_neq. intros ->; tauto.
    + intros n d' [E|I].
      * inversion E; subst. exists col, u. split; [exact El|]. split; [cbn; rewrite String.eqb_refl; reflexivity|].
        split; [exact Iu|]. split; [exact Ib|]. split; [exact Ka|]. rewrite K3 by exact Hni. apply lookup_update_eq.
      * destruct (K4 n d' I) as (x & u' & L1 & L2 & L3 & L4 & L5 & L6).
        assert (Nn : n <> k) by (intros ->; apply Hni; apply (in_map fst) in I; exact I).
        rewrite lookup_update_neq in L1 by exact Nn. exists x, u'. split; [exact L1|].
        split; [cbn; destruct (String.eqb_spec n k); [contradiction|exact L2]|]. tauto.
Qed.

(** ** Saving when every stored unit is an accepted one *)
Lemma save_stored l period secs outlet t idx (unit_of : string -> string) :
  l_names l = keys (ion_rows (l_ions l)) -> NoDup (l_names l) ->
  (forall n i, In (n, i) (ion_rows (l_ions l)) -> lookup n (l_units l) = Some (unit_of n) /\ In (unit_of n) conc_units) ->
  length outlet = length (l_names l) -> time_index l period secs t = Ok (idx, t) ->
  exists out, save_results l period None secs outlet t = Ok ((idx, out), t) /\
    forall n i col, In (n, i) (ion_rows (l_ions l)) -> In (n, col) (combine (l_names l) outlet) ->
      In (column_label n (unit_of n), map (fun v => (conc_factor (i_mw i) (INR (i_val i)) "meq" (unit_of n) * v)%R) col) out.
Proof.
  intros HN ND HU Hlen HT.
  destruct (from_meq_ok l None) as (spec & ES & KS & S1 & S2).
  { intros n Hn. unfold keys in Hn. apply in_map_iff in Hn. destruct Hn as ([n' i] & <- & Hin). exists (unit_of n'). apply (HU _ _ Hin). }
  assert (Hcn : keys (combine (l_names l) outlet) = l_names l) by (apply keys_combine; lia).
  assert (Hconv : forall sp data t0, (forall n d, In (n, d) sp -> db_in d = "meq" /\ In (db_out d) conc_units) -> (forall n, In n (keys sp) -> lookup n data <> None) ->
     exists r, conv_database sp data t0 = Ok (r, t0)).
  { clear. induction sp as [|[k d] sp IH]; intros data t0 H1 H2; [eexists; reflexivity|].
    destruct (H1 k d (or_introl eq_refl)) as (E1 & E2). cbn [conv_database]. unfold io_bind.
    unfold conv_conc. rewrite E1, conv_units_ok; [|reflexivity|cbn; tauto|exact E2].
    destruct (lookup k data) as [col|] eqn:El; [|exfalso; apply (H2 k); [left; reflexivity|exact El]].
    cbn [io_opt io_ret]. match goal with |- context [conv_database sp ?D t0] => destruct (IH D t0) as ([d2 u2] & E) end.
    { intros n d' I. apply (H1 n d' (or_intror I)). }
    { intros n I. destruct (string_dec n k) as [->|Nn]; [rewrite lookup_update_eq; discriminate|].
      rewrite lookup_update_neq by exact Nn. apply H2. right; exact I. }
    rewrite E. eexists. reflexivity. }
  destruct (Hconv spec (combine (l_names l) outlet) t) as ([data' uins] & ED).
  { intros n d I. destruct (S1 n d I) as (i & Hi & E1 & _ & _ & E4). split; [exact E1|].
    destruct (HU n i Hi) as (L & A). rewrite L in E4. assert (E5 : db_out d = unit_of n) by congruence. rewrite E5. exact A. }
  { intros n Hn. rewrite KS, <- HN, <- Hcn in Hn. intros E. apply lookup_None_keys in E. contradiction. }
  assert (NDS : NoDup (keys spec)) by (rewrite KS, <- HN; exact ND).
  destruct (conv_database_all _ _ _ _ _ _ ED NDS) as (KD & _ & _ & FD).
  destruct (label_fold spec data') as (out & EO & PO).
  { intros n Hn. rewrite KD, Hcn in Hn. rewrite KS, <- HN. exact Hn. }
  exists out. split.
  - unfold save_results, io_bind, io_lift. rewrite HT, ES. cbn [bind]. rewrite ED. cbv beta iota. rewrite EO. reflexivity.
  - intros n i col Hi Hc. destruct (S2 n i Hi) as (d & Hd & E1 & E2 & E3 & E4).
    destruct (HU n i Hi) as (L & A). rewrite L in E4. assert (E5 : db_out d = unit_of n) by congruence.
    destruct (FD n d Hd) as (x & u & L1 & L2 & L3 & L4 & L5 & L6).
    assert (x = col).
    { assert (Q : lookup n (combine (l_names l) outlet) = Some col) by (apply In_lookup; [rewrite Hcn; exact ND|exact Hc]). congruence. }
    subst x. rewrite E1 in L5. rewrite (L5 ltac:(cbn; tauto)) in L6. rewrite E2, E3, E5 in L6.
    destruct (PO n _ (lookup_In _ _ _ L6)) as (d' & D1 & D2).
    assert (d' = d). { assert (lookup n spec = Some d) by (apply In_lookup; assumption). congruence. }
    subst d'. rewrite E5 in D2. exact D2.
Qed.

(** ** Batch *)
Lemma batch_as_save rows period units secs tank t : period <> "BV" ->
  (exists spec, from_meq (batch_loaded rows) units = Ok spec) ->
  batch_save rows period units secs tank t = save_results (batch_loaded rows) period units secs tank t.
Proof.
  intros Np (spec & ES). unfold batch_save, save_results, time_index, io_bind, io_lift. rewrite ES. cbn [bind].
  destruct (String.eqb_spec period "BV"); [contradiction|].
  destruct (conv_time "sec" period t) as [[[[f a] b] t1]|e]; reflexivity.
Qed.

Lemma period_not_BV period : In period (keys si_time) -> period <> "BV".
Proof. intros I ->. cbn in I. repeat (destruct I as [I|I]; [discriminate|]). contradiction. Qed.

Lemma batch_units rows n i : NoDup (keys rows) -> In (n, i) rows -> lookup n (l_units (batch_loaded rows)) = Some (i_units i).
Proof.
  intros ND I. apply In_lookup.
  - unfold batch_loaded. cbn [l_units]. unfold keys. rewrite map_map. exact ND.
  - cbn. apply in_map_iff. exists (n, i). auto.
Qed.

Lemma batch_from_meq rows units : NoDup (keys rows) -> exists spec, from_meq (batch_loaded rows) units = Ok spec.
Proof.
  intros ND. destruct (from_meq_ok (batch_loaded rows) units) as (spec & E & _); [|exists spec; exact E].
  intros n Hn. cbn in Hn. unfold keys in Hn. apply in_map_iff in Hn. destruct Hn as ([n' i] & <- & I). eexists. apply batch_units; [exact ND|exact I].
Qed.

Lemma batch_save_ok rows period units secs tank t :
  NoDup (keys rows) -> (forall n i, In (n, i) rows -> convertible i) ->
  In period (keys si_time) -> (forall u, units = Some u -> In u (keys (meq_of 1 1))) -> length tank = length rows ->
  exists shown out, batch_save rows period units secs tank t = Ok ((shown, out), t) /\ in_period period secs shown /\
    forall n i col, In (n, i) rows -> In (n, col) (combine (keys rows) tank) ->
      exists f, let unit := match units with Some u => u | None => i_units i end in
        conc_conv i "meq" unit f /\ In (column_label n unit, map (fun v => (f * v)%R) col) out.
Proof.
  intros ND HC Hp Hu Hl. destruct (time_index_si (batch_loaded rows) period secs t Hp) as (shown & ET & EP).
  destruct (save_results_ok (batch_loaded rows) period units secs tank t shown) as (out & ES & PS).
  - split; [reflexivity|]. split; [exact ND|]. intros n i I. cbn in I. split; [apply (HC n i I)|apply batch_units; assumption].
  - cbn [batch_loaded l_names]. unfold keys. rewrite map_length. exact Hl.
  - exact Hu.
  - exact ET.
  - exists shown, out. split; [|split; [exact EP|exact PS]].
    rewrite batch_as_save; [exact ES|apply period_not_BV, Hp|apply batch_from_meq, ND].
Qed.

Lemma lookup_map_single (C0 : list (string * R)) n x :
  lookup n (map (fun kx => (fst kx, [snd kx])) C0) = Some x -> exists v, lookup n C0 = Some v /\ x = [v].
Proof.
  induction C0 as [|[k v] C0 IH]; cbn; [discriminate|]. destruct (String.eqb n k); [|exact IH].
  intros H. inversion H; subst. exists v. auto.
Qed.
Lemma lookup_map_hd (d : cols) n : lookup n (map (fun kc => (fst kc, match snd kc with x :: _ => x | [] => 0%R end)) d)
  = match lookup n d with Some c => Some (match c with x :: _ => x | [] => 0%R end) | None => None end.
Proof. induction d as [|[k c] d IH]; cbn; [reflexivity|]. destruct (String.eqb n k); [reflexivity|exact IH]. Qed.

Lemma batch_C0_ok rows C0 t c t' :
  batch_C0 rows C0 t = Ok (c, t') -> NoDup (keys rows) ->
  forall n i, In (n, i) rows -> exists x u, lookup n C0 = Some x /\ In u conc_units /\ (In (i_units i) conc_units -> u = i_units i) /\
    lookup n c = Some (conc_factor (i_mw i) (INR (i_val i)) u "meq" * x)%R.
Proof.
  unfold batch_C0, io_bind. intros H ND n i I.
  destruct (conv_database _ _ t) as [[[d u] t1]|] eqn:E; [|discriminate]. unfold io_ret in H. inversion H; subst; clear H.
  destruct (conv_database_all _ _ _ _ _ _ E) as (_ & _ & _ & F); [rewrite to_meq_keys; exact ND|].
  destruct (F n {| db_in := i_units i; db_out := "meq"; db_mw := i_mw i; db_val := INR (i_val i) |}) as (x & w & L1 & L2 & L3 & L4 & L5 & L6).
  { unfold to_meq. apply in_map_iff. exists (n, i). auto. }
  destruct (lookup_map_single _ _ _ L1) as (v & Lv & ->). exists v, w. split; [exact Lv|]. split; [exact L3|]. split; [exact L5|].
  rewrite lookup_map_hd, L6. reflexivity.
Qed.

(** An unknown unit to save in ends the program. *)
Lemma conv_database_exit sp : forall data t, (forall n d, In (n, d) sp -> db_in d = "meq") ->
  (forall n, In n (keys sp) -> lookup n data <> None) -> (exists n d, In (n, d) sp /\ ~ In (db_out d) conc_units) ->
  conv_database sp data t = Err SystemExit.
Proof.
  induction sp as [|[k d] sp IH]; intros data t H1 H2 (n & d0 & I & Hn); [contradiction|].
  cbn [conv_database]. unfold io_bind. pose proof (H1 k d (or_introl eq_refl)) as E1.
  destruct (in_dec string_dec (db_out d) conc_units) as [Y|N].
  - unfold conv_conc at 1. rewrite E1, conv_units_ok; [|reflexivity|cbn; tauto|exact Y].
    destruct (lookup k data) as [col|] eqn:El; [|exfalso; apply (H2 k); [left; reflexivity|exact El]].
    cbn [io_opt io_ret]. rewrite IH; [reflexivity| | |].
    + intros n' d' I'. apply (H1 n' d' (or_intror I')).
    + intros m Im. destruct (string_dec m k) as [->|Nm]; [rewrite lookup_update_eq; discriminate|].
      rewrite lookup_update_neq by exact Nm. apply H2. right; exact Im.
    + destruct I as [E|I]; [inversion E; subst; contradiction|]. exists n, d0. auto.
  - unfold conv_conc at 1, conv_units. rewrite E1, (index_of_notIn _ _ N).
    change (index_of "meq" conc_units) with (Some 0%nat). reflexivity.
Qed.

Lemma batch_exit rows period secs tank t : NoDup (keys rows) -> In period (keys si_time) -> length tank = length rows ->
  (exists n i, In (n, i) rows /\ ~ In (i_units i) conc_units) ->
  batch_save rows period None secs tank t = Err SystemExit.
Proof.
  intros ND Hp Hl (n & i & I & Hu).
  destruct (from_meq_ok (batch_loaded rows) None) as (spec & E & K & S1 & S2).
  { intros m Hm. cbn in Hm. unfold keys in Hm. apply in_map_iff in Hm. destruct Hm as ([n' i'] & <- & I'). eexists. apply batch_units; [exact ND|exact I']. }
  cbn [batch_loaded l_ions ion_rows] in K, S1, S2.
  rewrite batch_as_save; [|apply period_not_BV, Hp|exists spec; exact E].
  destruct (time_index_si (batch_loaded rows) period secs t Hp) as (shown & ET & _).
  unfold save_results, io_bind, io_lift. rewrite ET, E. cbn [bind batch_loaded l_names].
  rewrite conv_database_exit; [reflexivity| | |].
  - intros m d Hd. destruct (S1 m d Hd) as (i' & _ & Q & _). exact Q.
  - intros m Hm. rewrite K in Hm. intros Q. apply lookup_None_keys in Q. rewrite keys_combine in Q; [contradiction|].
    unfold keys. rewrite map_length. lia.
  - destruct (S2 n i I) as (d & Hd & _ & _ & _ & Q). rewrite (batch_units rows n i ND I) in Q. exists n, d. split; [exact Hd|].
    assert (i_units i = db_out d) by congruence. congruence.
Qed.

(** ** Columns remember the corrected unit *)
Lemma load_corrected params ions cin typed l rest period secs outlet typed2 :
  load_data params ions cin typed = Ok (l, rest) -> no_alkalinity cin -> NoDup (keys (ion_rows (l_ions l))) ->
  In period (keys si_time) -> length outlet = length (l_names l) ->
  exists shown out, save_results l period None secs outlet typed2 = Ok ((shown, out), typed2) /\ in_period period secs shown /\
    forall n i col, In (n, i) (ion_rows (l_ions l)) -> In (n, col) (combine (l_names l) outlet) ->
      exists u x f g, In u (keys (meq_of 1 1)) /\ (In (i_units i) (keys (meq_of 1 1)) -> u = i_units i) /\
        conc_conv i u "meq" f /\ conc_conv i "meq" u g /\
        lookup n (c_cols cin) = Some x /\ lookup n (c_cols (l_Cin l)) = Some (map (fun v => (f * v)%R) x) /\
        In (column_label n u, map (fun v => (g * v)%R) col) out.
Proof.
  intros H HA ND Hp Hl.
  destruct (load_data_inv _ _ _ _ _ _ H) as
    (ions1 & p & t1 & tm & rows & data & t2 & data' & uin & E1 & E2 & E3 & E4 & E5 & E6).
  rewrite speciate_none in E4 by exact HA. inversion E4; subst rows data t2; clear E4. subst l. cbn [l_ions ion_rows l_names l_Cin c_cols] in *.
  set (l := {| l_params := _ |}) in *.
  destruct (conv_database_all _ _ _ _ _ _ E5) as (K1 & K2 & K3 & K4); [rewrite to_meq_keys; exact ND|].
  assert (F : forall n i, In (n, i) (ion_rows ions1) -> exists x u, lookup n (c_cols cin) = Some x /\ lookup n uin = Some u /\ In u conc_units /\
      (In (i_units i) conc_units -> u = i_units i) /\ lookup n data' = Some (map (fun v => (conc_factor (i_mw i) (INR (i_val i)) u "meq" * v)%R) x)).
  { intros n i I. destruct (K4 n {| db_in := i_units i; db_out := "meq"; db_mw := i_mw i; db_val := INR (i_val i) |}) as (x & u & L1 & L2 & L3 & L4 & L5 & L6).
    - unfold to_meq. apply in_map_iff. exists (n, i). auto.
    - exists x, u. tauto. }
  destruct (time_index_si l period secs typed2 Hp) as (shown & ET & EP).
  destruct (save_stored l period secs outlet typed2 shown (fun n => match lookup n uin with Some u => u | None => "" end)) as (out & ES & PS).
  - reflexivity.
  - exact ND.
  - intros n i I. cbn [l l_ions ion_rows l_units] in I |- *. destruct (F n i I) as (x & u & L1 & L2 & L3 & _). rewrite L2. auto.
  - exact Hl.
  - exact ET.
  - exists shown, out. split; [exact ES|]. split; [exact EP|]. intros n i col I Ic.
    destruct (F n i I) as (x & u & L1 & L2 & L3 & L4 & L5).
    exists u, x, (conc_factor (i_mw i) (INR (i_val i)) u "meq"), (conc_factor (i_mw i) (INR (i_val i)) "meq" u).
    split; [apply accepted_iff, L3|]. split; [intros Q; apply L4, accepted_iff, Q|].
    split; [apply conc_conv_factor; [exact L3|cbn; tauto]|]. split; [apply conc_conv_factor; [cbn; tauto|exact L3]|].
    split; [exact L1|]. split; [exact L5|]. specialize (PS n i col I Ic). rewrite L2 in PS. exact PS.
Qed.
