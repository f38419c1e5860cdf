(** Proofs about loading and saving ion-exchange data (C08-C11, C30, C31). *)
From Coq Require Import List String Ascii Reals Bool Arith Lra Lia.
From Verif Require Import Lib_Py M_Units M_Params M_IxData S_Units S_Params S_IxData
  P_Units P_Params.
Import ListNotations.
Open Scope string_scope.
Local Notation length := List.length.

(** ** Dictionaries *)

Lemma lookup_update_eq {A} k (v : A) d : lookup k (update k v d) = Some v.
Proof.
  induction d as [|[k' v'] d IH]; simpl.
  - rewrite String.eqb_refl. reflexivity.
  - destruct (String.eqb k k') eqn:E; simpl; rewrite E; auto.
Qed.

Lemma lookup_update_neq {A} k k' (v : A) d : k <> k' ->
  lookup k (update k' v d) = lookup k d.
Proof.
  intros Hn. induction d as [|[k0 v0] d IH]; simpl.
  - destruct (String.eqb_spec k k'); [congruence|reflexivity].
  - destruct (String.eqb_spec k' k0) as [->|]; simpl.
    + destruct (String.eqb_spec k k0); [congruence|reflexivity].
    + destruct (String.eqb k k0); auto.
Qed.

Lemma keys_update_present {A} k (v w : A) d : lookup k d = Some w ->
  keys (update k v d) = keys d.
Proof.
  induction d as [|[k' v'] d IH]; simpl; [discriminate|].
  destruct (String.eqb k k') eqn:E; simpl; [reflexivity|].
  intros H. f_equal. apply IH, H.
Qed.

Lemma lookup_remove_neq {A} k k' (d : list (string * A)) : k <> k' ->
  lookup k (remove_key k' d) = lookup k d.
Proof.
  intros Hn. induction d as [|[k0 v0] d IH]; simpl; [reflexivity|].
  destruct (String.eqb_spec k' k0) as [->|]; simpl.
  - destruct (String.eqb_spec k k0); [congruence|exact IH].
  - destruct (String.eqb k k0); auto.
Qed.

Lemma lookup_remove_eq {A} k (d : list (string * A)) : lookup k (remove_key k d) = None.
Proof.
  induction d as [|[k0 v0] d IH]; simpl; [reflexivity|].
  destruct (String.eqb_spec k k0) as [->|Hn]; simpl; [exact IH|].
  destruct (String.eqb_spec k k0); [congruence|exact IH].
Qed.

Lemma keys_remove_incl {A} k (d : list (string * A)) x :
  In x (keys (remove_key k d)) -> In x (keys d) /\ x <> k.
Proof.
  unfold keys, remove_key. intros H. apply in_map_iff in H.
  destruct H as ([k' v] & <- & H). apply filter_In in H. destruct H as (H1 & H2).
  simpl in *. split; [apply in_map_iff; exists (k', v); auto|].
  intros ->. rewrite String.eqb_refl in H2. discriminate.
Qed.

Lemma NoDup_keys_remove {A} k (d : list (string * A)) :
  NoDup (keys d) -> NoDup (keys (remove_key k d)).
Proof.
  induction d as [|[k' v] d IH]; simpl; intros H; [constructor|].
  inversion H; subst. destruct (String.eqb k k'); simpl; [auto|].
  constructor; [|auto]. intros Hin. apply keys_remove_incl in Hin. tauto.
Qed.

Lemma NoDup_keys_update {A} k (v : A) d : NoDup (keys d) -> NoDup (keys (update k v d)).
Proof.
  induction d as [|[k' v'] d IH]; simpl; intros H; [repeat constructor; auto|].
  inversion H; subst. destruct (String.eqb_spec k k') as [->|Hn]; simpl; [constructor; auto|].
  constructor; [|auto]. intros Hin.
  assert (X : forall d', In k' (keys (update k v d')) -> In k' (keys d') \/ k' = k).
  { clear. induction d' as [|[k0 v0] d' IH]; simpl; [intuition|].
    destruct (String.eqb_spec k k0) as [->|]; simpl; intuition. }
  destruct (X _ Hin); [auto|congruence].
Qed.

(** ** conv_conc *)

Lemma conv_conc_ok MW val a b : MW <> 0%R -> val <> 0%R ->
  In a (keys (meq_of MW val)) -> In b (keys (meq_of MW val)) ->
  exists f, forall t, conv_conc MW val a b t = Ok (f, a, b, t).
Proof.
  intros HM Hv Ha Hb. destruct (conc_conv_coherent MW val HM Hv) as (fac & _ & E).
  exists (fac a b). intros t. apply E; assumption.
Qed.

Lemma meq_In MW val : In "meq" (keys (meq_of MW val)).
Proof. simpl. auto. Qed.

Lemma conc_keys MW val MW' val' : keys (meq_of MW val) = keys (meq_of MW' val').
Proof. reflexivity. Qed.

Lemma INR_nz n : n <> 0 -> INR n <> 0%R.
Proof. apply not_0_INR. Qed.

(** ** conv_database *)

Definition spec_ok (d : dbspec) : Prop :=
  db_mw d <> 0%R /\ db_val d <> 0%R /\
  In (db_in d) (keys (meq_of 1 1)) /\ In (db_out d) (keys (meq_of 1 1)).

Definition db_factor (d : dbspec) (f : R) : Prop :=
  forall t, conv_conc (db_mw d) (db_val d) (db_in d) (db_out d) t
            = Ok (f, db_in d, db_out d, t).

Lemma spec_ok_factor d : spec_ok d -> exists f, db_factor d f.
Proof. intros (H1 & H2 & H3 & H4). apply conv_conc_ok; assumption. Qed.

Lemma conv_database_ok spec data :
  NoDup (keys spec) -> (forall n d, In (n, d) spec -> spec_ok d) ->
  (forall n, In n (keys spec) -> lookup n data <> None) ->
  exists data' , (forall t, conv_database spec data t
      = Ok ((data', map (fun kd => (fst kd, db_in (snd kd))) spec), t)) /\
    keys data' = keys data /\
    (forall n, ~ In n (keys spec) -> lookup n data' = lookup n data) /\
    (forall n d, In (n, d) spec -> exists x f, lookup n data = Some x /\
        db_factor d f /\ lookup n data' = Some (map (fun v => (f * v)%R) x)).
Proof.
  revert data. induction spec as [|[u d] spec IH]; intros data ND Hok Hcol.
  - exists data. simpl. repeat split; auto. intros n d [].
  - inversion ND; subst.
    destruct (spec_ok_factor d) as (f & Hf); [apply (Hok u d); left; reflexivity|].
    destruct (lookup u data) as [x|] eqn:EL; [|exfalso; apply (Hcol u); [left; reflexivity|exact EL]].
    destruct (IH (update u (map (fun v => (f * v)%R) x) data)) as (data' & E & K & U & F).
    + assumption.
    + intros n d' Hin. apply (Hok n d'); right; exact Hin.
    + intros n Hin. destruct (string_dec n u) as [->|Hn].
      * rewrite lookup_update_eq; discriminate.
      * rewrite lookup_update_neq by exact Hn. apply Hcol; right; exact Hin.
    + exists data'. split; [|split; [|split]].
      * intros t. simpl. unfold io_bind. rewrite Hf. unfold io_opt. rewrite EL.
        unfold io_ret at 1. rewrite E. reflexivity.
      * rewrite K. eapply keys_update_present; exact EL.
      * intros n Hn. simpl in Hn. rewrite U by tauto.
        apply lookup_update_neq. intros ->; apply Hn; auto.
      * intros n d' [Hin|Hin].
        -- injection Hin as -> ->. exists x, f. split; [exact EL|]. split; [exact Hf|].
           rewrite U by assumption. apply lookup_update_eq.
        -- destruct (F n d' Hin) as (x' & f' & L1 & L2 & L3).
           exists x', f'. split; [|auto].
           rewrite lookup_update_neq in L1; [exact L1|].
           intros ->. apply H1. unfold keys. apply in_map_iff. exists (u, d'); auto.
Qed.

(** The same as an inversion, without assuming that the columns exist. *)
Lemma conv_database_inv spec data t data' uins t' :
  conv_database spec data t = Ok ((data', uins), t') ->
  NoDup (keys spec) -> (forall n d, In (n, d) spec -> spec_ok d) ->
  t' = t /\ uins = map (fun kd => (fst kd, db_in (snd kd))) spec /\
  keys data' = keys data /\
  (forall n, ~ In n (keys spec) -> lookup n data' = lookup n data) /\
  (forall n d, In (n, d) spec -> exists x f, lookup n data = Some x /\
      db_factor d f /\ lookup n data' = Some (map (fun v => (f * v)%R) x)).
Proof.
  revert data t data' uins t'.
  induction spec as [|[u d] spec IH]; intros data t data' uins t' H ND Hok.
  - injection H as <- <- <-. simpl. repeat split; auto. intros n d [].
  - inversion ND; subst.
    destruct (spec_ok_factor d) as (f & Hf); [apply (Hok u d); left; reflexivity|].
    simpl in H. unfold io_bind in H. rewrite Hf in H. unfold io_opt in H.
    destruct (lookup u data) as [x|] eqn:EL; [|discriminate].
    unfold io_ret at 1 in H.
    destruct (conv_database spec (update u (map (fun v => (f * v)%R) x) data) t)
      as [[[d1 u1] t1]|] eqn:ED; [|discriminate].
    unfold io_ret in H. injection H as <- <- <-.
    destruct (IH _ _ _ _ _ ED H3) as (-> & -> & K & U & F).
    { intros n d' Hin. apply (Hok n d'); right; exact Hin. }
    repeat split.
    * rewrite K. eapply keys_update_present; exact EL.
    * intros n Hn. simpl in Hn. rewrite U by tauto.
      apply lookup_update_neq. intros ->; apply Hn; auto.
    * intros n d' [Hin|Hin].
      -- injection Hin as -> ->. exists x, f. split; [exact EL|]. split; [exact Hf|].
         rewrite U by assumption. apply lookup_update_eq.
      -- destruct (F n d' Hin) as (x' & f' & L1 & L2 & L3).
         exists x', f'. split; [|auto].
         rewrite lookup_update_neq in L1; [exact L1|].
         intros ->. apply H2. unfold keys. apply in_map_iff. exists (u, d'); auto.
Qed.

Lemma to_meq_keys rows : keys (to_meq rows) = keys rows.
Proof. unfold to_meq, keys. rewrite map_map. reflexivity. Qed.

Lemma to_meq_ok rows : (forall n i, In (n, i) rows -> convertible i) ->
  forall n d, In (n, d) (to_meq rows) -> spec_ok d.
Proof.
  intros H n d Hin. unfold to_meq in Hin. apply in_map_iff in Hin.
  destruct Hin as ([n' i] & E & Hin). injection E as <- <-.
  destruct (H _ _ Hin) as (H1 & H2 & H3).
  repeat split; simpl; auto using INR_nz.
Qed.

(** ** load_data *)

Lemma speciate_none rows cin t :
  no_alkalinity cin -> speciate rows (c_cols cin) t = Ok ((rows, c_cols cin), t).
Proof.
  unfold no_alkalinity. intros H. unfold speciate.
  destruct (mem_key "BICARBONATE" (c_cols cin)); [reflexivity|].
  destruct H as [H|[H|H]]; [discriminate| |]; rewrite H;
    [|destruct (lookup "ALKALINITY" (c_cols cin))]; reflexivity.
Qed.

Lemma load_data_inv params ions cin t l t' :
  load_data params ions cin t = Ok (l, t') ->
  exists ions1 p t1 tm rows data t2 data' uin,
    fill_cols params ions = Ok ions1 /\
    load_params params t = Ok (p, t1) /\
    value_of "time" p = Ok tm /\
    speciate (ion_rows ions1) (c_cols cin) t1 = Ok ((rows, data), t2) /\
    conv_database (to_meq rows) data t2 = Ok ((data', uin), t') /\
    l = {| l_params := p;
            l_ions := {| has_kL := has_kL ions1; has_Ds := has_Ds ions1;
                         has_Dp := has_Dp ions1; ion_rows := rows |};
            l_valences := map (fun kr => i_val (snd kr)) (ion_rows ions1);
            l_names := keys rows;
            l_time_mult := tm;
            l_Cin := {| c_times := c_times cin; c_cols := data' |};
            l_units := uin |}.
Proof.
  unfold load_data, io_bind, io_lift. intros H.
  destruct (fill_cols params ions) as [ions1|] eqn:E1; [|discriminate]. simpl in H.
  destruct (load_params params t) as [[p t1]|] eqn:E2; [|discriminate].
  destruct (value_of "time" p) as [tm|] eqn:E3; [|discriminate]. simpl in H.
  destruct (speciate (ion_rows ions1) (c_cols cin) t1) as [[[rows data] t2]|] eqn:E4;
    [|discriminate].
  destruct (conv_database (to_meq rows) data t2) as [[[data' uin] t3]|] eqn:E5;
    [|discriminate].
  unfold io_ret in H. injection H as <- <-.
  exists ions1, p, t1, tm, rows, data, t2, data', uin. repeat split; assumption.
Qed.

Lemma fill_cols_keys params ions ions1 : fill_cols params ions = Ok ions1 ->
  keys (ion_rows ions1) = keys (ion_rows ions) /\
  map (fun kr => (fst kr, (i_mw (snd kr), i_val (snd kr), i_units (snd kr), i_Kxc (snd kr))))
      (ion_rows ions1)
  = map (fun kr => (fst kr, (i_mw (snd kr), i_val (snd kr), i_units (snd kr), i_Kxc (snd kr))))
      (ion_rows ions).
Proof.
  set (pr := fun kr : string * ion =>
     (fst kr, (i_mw (snd kr), i_val (snd kr), i_units (snd kr), i_Kxc (snd kr)))).
  assert (X : forall n h set rows h' rows', 
     (forall x i, pr ("", set x i) = pr ("", i)) ->
     fill_col n h set params rows = Ok (h', rows') ->
     keys rows' = keys rows /\ map pr rows' = map pr rows).
  { intros n h set rows h' rows' Hs H. unfold fill_col in H.
    destruct h; [injection H as _ <-; auto|].
    destruct (lookup n params); [|injection H as _ <-; auto].
    destruct (p_value p); [|discriminate]. injection H as _ <-.
    unfold keys. rewrite !map_map. split; [reflexivity|].
    apply map_ext. intros [k i]. specialize (Hs r i). unfold pr in *. simpl in *.
    injection Hs as -> -> -> ->. reflexivity. }
  unfold fill_cols. intros H.
  destruct (fill_col "kL" (has_kL ions) set_kL params (ion_rows ions)) as [[hk r1]|] eqn:E1;
    [|discriminate]. simpl in H.
  destruct (fill_col "Ds" (has_Ds ions) set_Ds params r1) as [[hs r2]|] eqn:E2;
    [|discriminate]. simpl in H.
  destruct (fill_col "Dp" (has_Dp ions) set_Dp params r2) as [[hp r3]|] eqn:E3;
    [|discriminate]. simpl in H. injection H as <-. simpl.
  apply X in E1; [|reflexivity]. apply X in E2; [|reflexivity]. apply X in E3; [|reflexivity].
  destruct E1 as (A1 & B1), E2 as (A2 & B2), E3 as (A3 & B3).
  split; congruence.
Qed.

(** Every ion solved for has an entry in [l_units]. *)
Lemma from_meq_ok (l : loaded) units :
  (forall n, In n (keys (ion_rows (l_ions l))) -> exists u, lookup n (l_units l) = Some u) ->
  exists spec, from_meq l units = Ok spec /\ keys spec = keys (ion_rows (l_ions l)) /\
   (forall n d, In (n, d) spec -> exists i, In (n, i) (ion_rows (l_ions l)) /\
      db_in d = "meq" /\ db_mw d = i_mw i /\ db_val d = INR (i_val i) /\
      match units with Some u => db_out d = u | None => lookup n (l_units l) = Some (db_out d) end) /\
   (forall n i, In (n, i) (ion_rows (l_ions l)) -> exists d, In (n, d) spec /\
      db_in d = "meq" /\ db_mw d = i_mw i /\ db_val d = INR (i_val i) /\
      match units with Some u => db_out d = u | None => lookup n (l_units l) = Some (db_out d) end).
Proof.
  unfold from_meq. generalize (ion_rows (l_ions l)). intros rows.
  induction rows as [|[k i] rows IH]; intros H.
  - exists []. simpl. repeat split; auto; intros ? ? [].
  - destruct IH as (spec & E & K & S1 & S2); [intros n Hn; apply H; right; exact Hn|].
    destruct (H k (or_introl eq_refl)) as (u & Hu). simpl.
    set (uo := match units with Some u0 => u0 | None => u end).
    set (d := {| db_in := "meq"; db_out := uo; db_mw := i_mw i; db_val := INR (i_val i) |}).
    assert (HD : match units with Some u => db_out d = u | None => lookup k (l_units l) = Some (db_out d) end).
    { unfold d, uo. destruct units; [reflexivity|exact Hu]. }
    exists ((k, d) :: spec). rewrite E. simpl. split; [|split; [|split]].
    + unfold d, uo. destruct units; simpl; [reflexivity|]. rewrite Hu. reflexivity.
    + f_equal. exact K.
    + intros n d' [Hin|Hin].
      * injection Hin as <- <-. exists i. repeat split; auto.
      * destruct (S1 n d' Hin) as (i' & Hi' & R). exists i'. split; [right; exact Hi'|exact R].
    + intros n i' [Hin|Hin].
      * injection Hin as <- <-. exists d. repeat split; auto.
      * destruct (S2 n i' Hin) as (d' & Hd' & R). exists d'. split; [right; exact Hd'|exact R].
Qed.

(** ** save_results *)

Lemma label_fold (spec : list (string * dbspec)) (data : cols) :
  (forall n, In n (keys data) -> In n (keys spec)) ->
  exists out, fold_right (fun kc acc =>
        do rest <- acc;
        do d <- of_option KeyError (lookup (fst kc) spec);
        Ok (((fst kc ++ " (" ++ db_out d ++ "/L)")%string, snd kc) :: rest))
      (Ok []) data = Ok out /\
    forall n c, In (n, c) data -> exists d, lookup n spec = Some d /\
      In (column_label n (db_out d), c) out.
Proof.
  induction data as [|[n c] data IH]; intros H.
  - exists []. split; [reflexivity|]. intros ? ? [].
  - destruct IH as (out & E & P); [intros m Hm; apply H; right; exact Hm|].
    destruct (lookup n spec) as [d|] eqn:EL.
    + exists ((column_label n (db_out d), c) :: out). split.
      * cbn [fold_right fst snd]. rewrite E. cbn [bind]. rewrite EL. reflexivity.
      * intros m c' [Hin|Hin].
        -- injection Hin as <- <-. exists d. split; [exact EL|left; reflexivity].
        -- destruct (P m c' Hin) as (d' & A & B). exists d'. split; [exact A|right; exact B].
    + exfalso. apply lookup_None_keys in EL. apply EL, H. left; reflexivity.
Qed.

Lemma keys_combine {A} (ns : list string) (cs : list A) : length ns = length cs ->
  keys (combine ns cs) = ns.
Proof.
  revert cs; induction ns as [|n ns IH]; intros [|c cs] H; simpl in *; try lia; [reflexivity|].
  f_equal. apply IH. lia.
Qed.

Definition in_units (l : loaded) : Prop :=
  l_names l = keys (ion_rows (l_ions l)) /\
  NoDup (l_names l) /\
  (forall n i, In (n, i) (ion_rows (l_ions l)) -> convertible i /\
     lookup n (l_units l) = Some (i_units i)).

(** The saved column of every ion is the outlet column times the factor from meq
    to the chosen unit. *)
Lemma save_results_ok l period units secs outlet t idx :
  in_units l -> length outlet = length (l_names l) ->
  (forall u, units = Some u -> In u (keys (meq_of 1 1))) ->
  time_index l period secs t = Ok (idx, t) ->
  exists out, save_results l period units secs outlet t = Ok ((idx, out), t) /\
    forall n i col, In (n, i) (ion_rows (l_ions l)) -> In (n, col) (combine (l_names l) outlet) ->
      exists f, let unit := match units with Some u => u | None => i_units i end in
        conc_conv i "meq" unit f /\
        In (column_label n unit, map (fun v => (f * v)%R) col) out.
Proof.
  intros (HN & ND & HI) Hlen Hu Hidx.
  destruct (from_meq_ok l units) as (spec & ES & KS & S1 & S2).
  { intros n Hn. unfold keys in Hn. apply in_map_iff in Hn. destruct Hn as ([n' i] & <- & Hin).
    exists (i_units i). apply HI, Hin. }
  assert (Hcn : keys (combine (l_names l) outlet) = l_names l)
    by (apply keys_combine; lia).
  destruct (conv_database_ok spec (combine (l_names l) outlet)) as (data' & ED & KD & UD & FD).
  - rewrite KS, <- HN. exact ND.
  - intros n d Hin. destruct (S1 n d Hin) as (i & Hi & E1 & E2 & E3 & E4).
    destruct (HI n i Hi) as ((C1 & C2 & C3) & HL).
    unfold spec_ok. rewrite E1, E2, E3.
    split; [exact C2|]. split; [apply INR_nz; exact C3|]. split; [apply meq_In|].
    destruct units as [u|]; [rewrite E4; apply Hu; reflexivity|].
    rewrite HL in E4. injection E4 as <-. exact C1.
  - intros n Hn. rewrite KS, <- HN, <- Hcn in Hn. intros E.
    apply lookup_None_keys in E. contradiction.
  - destruct (label_fold spec data') as (out & EO & PO).
    { intros n Hn. rewrite KD, Hcn in Hn. rewrite KS, <- HN. exact Hn. }
    exists out. split.
    + unfold save_results, io_bind, io_lift. rewrite Hidx, ES. cbn [bind].
      rewrite ED. cbv beta iota. rewrite EO. reflexivity.
    + intros n i col Hi Hc.
      destruct (S2 n i Hi) as (d & Hd & E1 & E2 & E3 & E4).
      destruct (FD n d Hd) as (x & f & L1 & L2 & L3).
      assert (Hx : x = col).
      { assert (L : lookup n (combine (l_names l) outlet) = Some col)
          by (apply In_lookup; [rewrite Hcn; exact ND|exact Hc]).
        congruence. }
      subst x. destruct (PO n _ (lookup_In _ _ _ L3)) as (d' & D1 & D2).
      assert (d' = d).
      { assert (lookup n spec = Some d)
          by (apply In_lookup; [rewrite KS, <- HN; exact ND|exact Hd]). congruence. }
      subst d'. destruct (HI n i Hi) as (_ & HL).
      assert (EU : db_out d = match units with Some u => u | None => i_units i end).
      { destruct units; [exact E4|]. rewrite HL in E4. congruence. }
      exists f. simpl. rewrite <- EU. split; [|exact D2].
      specialize (L2 []). rewrite E1, E2, E3 in L2. exact L2.
Qed.

(** Loading establishes [in_units]. *)
Lemma load_in_units params ions cin t l t' :
  load_data params ions cin t = Ok (l, t') -> NoDup (keys (ion_rows (l_ions l))) ->
  (forall n i, In (n, i) (ion_rows (l_ions l)) -> convertible i) -> in_units l.
Proof.
  intros H ND HC.
  destruct (load_data_inv _ _ _ _ _ _ H) as
    (ions1 & p & t1 & tm & rows & data & t2 & data' & uin & E1 & E2 & E3 & E4 & E5 & ->).
  simpl in *. assert (ND' : NoDup (keys (to_meq rows))) by (rewrite to_meq_keys; exact ND).
  destruct (conv_database_inv _ _ _ _ _ _ E5 ND' (to_meq_ok _ HC)) as (_ & -> & _ & _ & _).
  split; [reflexivity|]. split; [exact ND|].
  intros n i Hin. cbn [l_ions ion_rows l_units] in Hin |- *.
  split; [apply (HC n i Hin)|].
  assert (Hin' : In (n, i_units i)
     (map (fun kd : string * dbspec => (fst kd, db_in (snd kd))) (to_meq rows))).
  { unfold to_meq. rewrite map_map. apply in_map_iff. exists (n, i). auto. }
  apply In_lookup; [|exact Hin'].
  unfold keys, to_meq. rewrite !map_map. exact ND.
Qed.

(** The loaded influent of every ion is the sheet's column in meq. *)
Lemma load_meq params ions cin t l t' :
  load_data params ions cin t = Ok (l, t') -> no_alkalinity cin ->
  NoDup (keys (ion_rows (l_ions l))) ->
  (forall n i, In (n, i) (ion_rows (l_ions l)) -> convertible i) ->
  keys (c_cols (l_Cin l)) = keys (c_cols cin) /\
  forall n i, In (n, i) (ion_rows (l_ions l)) ->
    exists x f, lookup n (c_cols cin) = Some x /\ conc_conv i (i_units i) "meq" f /\
      lookup n (c_cols (l_Cin l)) = Some (map (fun v => (f * v)%R) x).
Proof.
  intros H HA ND HC.
  destruct (load_data_inv _ _ _ _ _ _ H) as
    (ions1 & p & t1 & tm & rows & data & t2 & data' & uin & E1 & E2 & E3 & E4 & E5 & ->).
  rewrite speciate_none in E4 by exact HA. injection E4 as <- <- <-.
  simpl in *. assert (ND' : NoDup (keys (to_meq (ion_rows ions1)))) by (rewrite to_meq_keys; exact ND).
  destruct (conv_database_inv _ _ _ _ _ _ E5 ND' (to_meq_ok _ HC)) as (_ & _ & K & _ & F).
  split; [exact K|].
  intros n i Hin.
  destruct (F n {| db_in := i_units i; db_out := "meq"; db_mw := i_mw i; db_val := INR (i_val i) |})
    as (x & f & L1 & L2 & L3).
  { unfold to_meq. apply in_map_iff. exists (n, i). auto. }
  exists x, f. split; [exact L1|]. split; [exact (L2 [])|exact L3].
Qed.

Lemma map_scale_inv f g (x : list R) : (f * g = 1)%R ->
  map (fun v => (f * v)%R) (map (fun v => (g * v)%R) x) = x.
Proof.
  intros E. rewrite map_map. rewrite <- (map_id x) at 2. apply map_ext. intros v.
  rewrite <- Rmult_assoc, E. ring.
Qed.

Lemma conc_conv_inv i a b f g : convertible i -> In a (keys (meq_of 1 1)) ->
  In b (keys (meq_of 1 1)) -> conc_conv i a b f -> conc_conv i b a g -> (f * g = 1)%R.
Proof.
  intros (H1 & H2 & H3) Ha Hb Hf Hg.
  destruct (conc_conv_coherent (i_mw i) (INR (i_val i)) H2 (INR_nz _ H3)) as (fac & (_ & F2 & _) & E).
  unfold conc_conv in Hf, Hg. rewrite E in Hf by assumption. rewrite E in Hg by assumption.
  injection Hf as <-. injection Hg as <-. apply F2; assumption.
Qed.

(** Round trip: results equal to the loaded influent are saved as the user's own
    numbers, labelled with the user's own units. *)
Lemma roundtrip params ions cin t l t' period secs t2 idx :
  load_data params ions cin t = Ok (l, t') -> no_alkalinity cin ->
  NoDup (keys (ion_rows (l_ions l))) ->
  (forall n i, In (n, i) (ion_rows (l_ions l)) -> convertible i) ->
  time_index l period secs t2 = Ok (idx, t2) ->
  forall outlet, length outlet = length (l_names l) ->
  (forall n c, In (n, c) (combine (l_names l) outlet) -> lookup n (c_cols (l_Cin l)) = Some c) ->
  exists out, save_results l period None secs outlet t2 = Ok ((idx, out), t2) /\
    forall n i, In (n, i) (ion_rows (l_ions l)) ->
      exists x, lookup n (c_cols cin) = Some x /\
        In (column_label n (i_units i), x) out.
Proof.
  intros H HA ND HC HT outlet Hlen Hout.
  assert (IU := load_in_units _ _ _ _ _ _ H ND HC).
  destruct (load_meq _ _ _ _ _ _ H HA ND HC) as (_ & LM).
  destruct (save_results_ok l period None secs outlet t2 idx IU Hlen) as (out & ES & PS);
    [discriminate|exact HT|].
  exists out. split; [exact ES|]. intros n i Hin.
  destruct (LM n i Hin) as (x & f & L1 & L2 & L3). exists x. split; [exact L1|].
  assert (Hn : In n (l_names l)).
  { destruct IU as (-> & _). unfold keys. apply in_map_iff. exists (n, i); auto. }
  assert (Hc : exists c, In (n, c) (combine (l_names l) outlet)).
  { clear - Hn Hlen. revert outlet Hlen Hn. generalize (l_names l).
    induction l0 as [|a l0 IH]; intros outlet Hl Hn; simpl in *; [tauto|].
    destruct outlet as [|c outlet]; simpl in *; [lia|].
    destruct Hn as [->|Hn]; [exists c; auto|].
    destruct (IH outlet ltac:(lia) Hn) as (c' & Hc'). exists c'; auto. }
  destruct Hc as (c & Hc).
  destruct (PS n i c Hin Hc) as (g & G1 & G2). simpl in G1, G2.
  assert (Ec : c = map (fun v => (f * v)%R) x) by (specialize (Hout n c Hc); congruence).
  subst c. rewrite map_scale_inv in G2; [exact G2|].
  pose proof (HC n i Hin) as HCi.
  apply (conc_conv_inv i "meq" (i_units i)); [exact HCi|apply meq_In| |exact G1|exact L2].
  destruct HCi as (C1 & _). exact C1.
Qed.

(** ** C09: alkalinity *)

Lemma Rpower10_pos x : (0 < Rpower 10 x)%R.
Proof. unfold Rpower. apply exp_pos. Qed.

Lemma alpha_den_pos pH : let h := Rpower 10 (- pH) in
  (0 < h ^ 2 + k1 * h + k1 * k2)%R.
Proof.
  simpl. assert (H := Rpower10_pos (- pH)).
  assert (H1 : (0 < k1)%R) by apply Rpower10_pos.
  assert (H2 : (0 < k2)%R) by apply Rpower10_pos.
  assert (0 < Rpower 10 (- pH) * Rpower 10 (- pH))%R by (apply Rmult_lt_0_compat; lra).
  assert (0 < k1 * Rpower 10 (- pH))%R by (apply Rmult_lt_0_compat; lra).
  assert (0 < k1 * k2)%R by (apply Rmult_lt_0_compat; lra). lra.
Qed.

Lemma alpha_range pH : (0 < bicarb_alpha pH < 1)%R.
Proof.
  unfold bicarb_alpha. assert (HD := alpha_den_pos pH). simpl in HD |- *.
  set (h := Rpower 10 (- pH)) in *.
  assert (H : (0 < h)%R) by apply Rpower10_pos.
  assert (H1 : (0 < k1)%R) by apply Rpower10_pos.
  assert (H2 : (0 < k2)%R) by apply Rpower10_pos.
  assert (P1 : (0 < h * h)%R) by (apply Rmult_lt_0_compat; lra).
  assert (P2 : (0 < k1 * h)%R) by (apply Rmult_lt_0_compat; lra).
  assert (P3 : (0 < k1 * k2)%R) by (apply Rmult_lt_0_compat; lra).
  set (D := (h * (h * 1) + k1 * h + k1 * k2)%R) in *.
  split; [apply Rdiv_lt_0_compat; lra|].
  apply Rmult_lt_reg_r with D; [exact HD|].
  unfold Rdiv. rewrite Rmult_assoc, Rinv_l by lra. unfold D; lra.
Qed.

Lemma alpha_equilibrium pH a b c : carbonate_equilibrium pH a b c ->
  (b = bicarb_alpha pH * (a + b + c))%R.
Proof.
  intros (Ha & Hb & Hc & E1 & E2). fold k1 in E1. fold k2 in E2.
  unfold bicarb_alpha. assert (HD := alpha_den_pos pH). simpl in HD |- *.
  set (h := Rpower 10 (- pH)) in *.
  assert (H : (0 < h)%R) by apply Rpower10_pos.
  assert (H1 : (0 < k1)%R) by apply Rpower10_pos.
  assert (Ea : (a = h * b / k1)%R) by (field_simplify_eq; lra).
  assert (Ec : (c = k2 * b / h)%R) by (field_simplify_eq; lra).
  rewrite Ea, Ec. field. repeat split; lra.
Qed.

(** The row that carries bicarbonate after speciation. *)
Definition bicarb_row (ra : ion) : ion :=
  {| i_mw := bicarbMW; i_val := 1; i_units := i_units ra; i_Kxc := i_Kxc ra;
     i_kL := i_kL ra; i_Ds := i_Ds ra; i_Dp := i_Dp ra |}.

Lemma bicarbMW_nz : bicarbMW <> 0%R.
Proof. unfold bicarbMW, dec. lra. Qed.

Lemma speciate_alk rows data t ra alk ph rows' data' t' :
  mem_key "BICARBONATE" data = false -> lookup "ALKALINITY" data = Some alk ->
  lookup "PH" data = Some ph -> lookup "ALKALINITY" rows = Some ra -> convertible ra ->
  speciate rows data t = Ok ((rows', data'), t') ->
  exists ca cb, conc_conv ra (i_units ra) "meq" ca /\
    conc_conv (bicarb_row ra) (i_units ra) "meq" cb /\ cb <> 0%R /\ t' = t /\
    rows' = remove_key "ALKALINITY" (update "BICARBONATE" (bicarb_row ra) rows) /\
    data' = remove_key "PH" (remove_key "ALKALINITY" (update "BICARBONATE"
       (map2 (fun p a => (bicarb_alpha p * a * ca / cb)%R) ph alk) data)).
Proof.
  intros H1 H2 H3 H4 (C1 & C2 & C3) H. unfold speciate in H.
  rewrite H1, H2, H3 in H. unfold io_bind, io_opt in H. rewrite H4 in H. simpl in H.
  destruct (conv_conc_ok (i_mw ra) (INR (i_val ra)) (i_units ra) "meq" C2 (INR_nz _ C3) C1
    (meq_In _ _)) as (ca & Ea).
  destruct (conv_conc_ok bicarbMW 1 (i_units ra) "meq" bicarbMW_nz R1_neq_R0 C1
    (meq_In _ _)) as (cb & Eb).
  unfold io_ret in H. rewrite Ea, Eb in H. injection H as <- <- <-.
  exists ca, cb. split; [exact (Ea [])|]. split; [exact (Eb [])|]. split; [|auto].
  destruct (conc_conv_coherent bicarbMW 1 bicarbMW_nz R1_neq_R0) as (fac & (_ & F & _) & E).
  assert (G : fac (i_units ra) "meq" = cb).
  { specialize (Eb []). rewrite E in Eb; [congruence|exact C1|apply meq_In]. }
  intros ->. specialize (F (i_units ra) "meq" C1 (meq_In _ _)). rewrite G in F. lra.
Qed.

Lemma bicarbonate_row params ions cin t l t' alk ph :
  load_data params ions cin t = Ok (l, t') ->
  mem_key "BICARBONATE" (c_cols cin) = false ->
  lookup "ALKALINITY" (c_cols cin) = Some alk -> lookup "PH" (c_cols cin) = Some ph ->
  exists ra rb, lookup "ALKALINITY" (ion_rows ions) = Some ra /\ lookup "BICARBONATE" (ion_rows (l_ions l)) = Some rb /\
    i_mw rb = (6102 / 100)%R /\ i_val rb = 1%nat /\ i_units rb = i_units ra /\ i_Kxc rb = i_Kxc ra.
Proof.
  intros H HB HA HP. destruct (load_data_inv _ _ _ _ _ _ H) as
    (ions1 & p & t1 & tm & rows & data & t2 & data' & uin & E1 & E2 & E3 & E4 & E5 & ->).
  cbn [l_ions ion_rows]. destruct (fill_cols_keys _ _ _ E1) as (K1 & P1).
  unfold speciate in E4. rewrite HB, HA, HP in E4. unfold io_bind, io_opt in E4.
  destruct (lookup "ALKALINITY" (ion_rows ions1)) as [ra|] eqn:LA; [|discriminate]. unfold io_ret in E4.
  destruct (conv_conc (i_mw ra) (INR (i_val ra)) (i_units ra) "meq" t1) as [[[[ca ?] ?] ?]|]; [|discriminate].
  match type of E4 with context [conv_conc bicarbMW 1 ?u ?v ?w] => destruct (conv_conc bicarbMW 1 u v w) as [[[[cb ?] ?] ?]|]; [|discriminate] end.
  match type of E4 with Ok ((?A, _), _) = _ => assert (rows = A) as -> by congruence end.
  assert (RA : exists ra0, lookup "ALKALINITY" (ion_rows ions) = Some ra0 /\ i_units ra = i_units ra0 /\ i_Kxc ra = i_Kxc ra0).
  { clear - P1 LA. revert P1 LA. generalize (ion_rows ions) as rs'. generalize (ion_rows ions1) as rs.
    induction rs as [|[k i] rs IH]; intros [|[k' i'] rs'] HE L; try discriminate. cbn [map fst snd] in HE. cbn [lookup] in *. injection HE as -> Q1 Q2 Q3 Q4 HE.
    destruct (String.eqb "ALKALINITY" k'); [assert (i = ra) by congruence; subst i; exists i'; auto|]. apply IH; assumption. }
  destruct RA as (ra0 & R1 & R2 & R3). eexists ra0, _. split; [exact R1|]. split; [rewrite lookup_remove_neq by discriminate; apply lookup_update_eq|].
  cbn [i_mw i_val i_units i_Kxc]. repeat split; try assumption. unfold bicarbMW, dec. simpl. lra.
Qed.

Lemma alkalinity_load params ions cin t l t' alk ph :
  load_data params ions cin t = Ok (l, t') ->
  mem_key "BICARBONATE" (c_cols cin) = false ->
  lookup "ALKALINITY" (c_cols cin) = Some alk -> lookup "PH" (c_cols cin) = Some ph ->
  NoDup (keys (ion_rows ions)) -> ~ In "PH" (keys (ion_rows ions)) ->
  (forall n i, In (n, i) (ion_rows ions) -> convertible i) ->
  exists ra ca, lookup "ALKALINITY" (ion_rows ions) = Some ra /\
    conc_conv ra (i_units ra) "meq" ca /\
    lookup "BICARBONATE" (c_cols (l_Cin l))
      = Some (map2 (fun p a => (bicarb_alpha p * (ca * a))%R) ph alk) /\
    lookup "ALKALINITY" (c_cols (l_Cin l)) = None /\
    lookup "PH" (c_cols (l_Cin l)) = None /\
    ~ In "ALKALINITY" (l_names l) /\ In "BICARBONATE" (l_names l) /\
    (forall n, n <> "ALKALINITY" -> n <> "PH" -> n <> "BICARBONATE" ->
      match lookup n (ion_rows ions) with
      | None => lookup n (c_cols (l_Cin l)) = lookup n (c_cols cin)
      | Some i => exists x f, lookup n (c_cols cin) = Some x /\
          conc_conv i (i_units i) "meq" f /\
          lookup n (c_cols (l_Cin l)) = Some (map (fun v => (f * v)%R) x)
      end).
Proof.
  intros H HB HA HP ND NP HC.
  destruct (load_data_inv _ _ _ _ _ _ H) as
    (ions1 & p & t1 & tm & rows & data & t2 & data' & uin & E1 & E2 & E3 & E4 & E5 & ->).
  cbn [l_names l_Cin c_cols].
  destruct (fill_cols_keys _ _ _ E1) as (K1 & P1).
  (* rows of ions1 and of the sheet agree on what matters here *)
  assert (AG : forall rs rs' : list (string * ion), map (fun kr => (fst kr,
      (i_mw (snd kr), i_val (snd kr), i_units (snd kr), i_Kxc (snd kr)))) rs
      = map (fun kr => (fst kr,
      (i_mw (snd kr), i_val (snd kr), i_units (snd kr), i_Kxc (snd kr)))) rs' ->
      forall n, match lookup n rs, lookup n rs' with
        | Some i, Some i' => i_mw i = i_mw i' /\ i_val i = i_val i' /\ i_units i = i_units i'
        | None, None => True | _, _ => False end).
  { clear. induction rs as [|[k i] rs IH]; intros [|[k' i'] rs'] HE n; try discriminate; simpl.
    - exact I.
    - injection HE as -> E1 E2 E3 E4 HE. destruct (String.eqb n k'); [auto|].
      apply IH. exact HE. }
  specialize (AG _ _ P1).
  assert (HC1 : forall n i, In (n, i) (ion_rows ions1) -> convertible i).
  { intros n i Hin. assert (L : lookup n (ion_rows ions1) = Some i)
      by (apply In_lookup; [rewrite K1; exact ND|exact Hin]).
    specialize (AG n). rewrite L in AG.
    destruct (lookup n (ion_rows ions)) as [i'|] eqn:L'; [|tauto].
    destruct AG as (A1 & A2 & A3). apply lookup_In, HC in L'.
    unfold convertible in *. rewrite A1, A2, A3. exact L'. }
  assert (HR : exists ra, lookup "ALKALINITY" (ion_rows ions1) = Some ra).
  { unfold speciate in E4. rewrite HB, HA, HP in E4. unfold io_bind, io_opt in E4.
    destruct (lookup "ALKALINITY" (ion_rows ions1)) as [ra|]; [exists ra; reflexivity|discriminate]. }
  destruct HR as (ra1 & HR). pose proof (HC1 _ _ (lookup_In _ _ _ HR)) as CR.
  destruct (speciate_alk _ _ _ _ _ _ _ _ _ HB HA HP HR CR E4)
    as (ca & cb & Q1 & Q2 & Q3 & -> & -> & ->).
  set (rows' := remove_key "ALKALINITY" (update "BICARBONATE" (bicarb_row ra1) (ion_rows ions1))) in *.
  assert (NDr : NoDup (keys rows'))
    by (apply NoDup_keys_remove, NoDup_keys_update; rewrite K1; exact ND).
  assert (LB : lookup "BICARBONATE" rows' = Some (bicarb_row ra1)).
  { unfold rows'. rewrite lookup_remove_neq by discriminate. apply lookup_update_eq. }
  assert (LO : forall n, n <> "ALKALINITY" -> n <> "BICARBONATE" ->
     lookup n rows' = lookup n (ion_rows ions1)).
  { intros n N1 N2. unfold rows'. rewrite lookup_remove_neq, lookup_update_neq by assumption.
    reflexivity. }
  assert (LA : lookup "ALKALINITY" rows' = None) by apply lookup_remove_eq.
  assert (HC' : forall n i, In (n, i) rows' -> convertible i).
  { intros n i Hin. assert (L : lookup n rows' = Some i) by (apply In_lookup; assumption).
    destruct (string_dec n "ALKALINITY") as [->|N1]; [congruence|].
    destruct (string_dec n "BICARBONATE") as [->|N2].
    - rewrite LB in L. injection L as <-. destruct CR as (C1 & _).
      split; [exact C1|]. split; [exact bicarbMW_nz|discriminate].
    - rewrite LO in L by assumption. apply (HC1 n), lookup_In, L. }
  assert (ND' : NoDup (keys (to_meq rows'))) by (rewrite to_meq_keys; exact NDr).
  destruct (conv_database_inv _ _ _ _ _ _ E5 ND' (to_meq_ok _ HC')) as (-> & -> & K & U & F).
  rewrite to_meq_keys in U.
  assert (FI : forall n i, lookup n rows' = Some i -> exists x f,
     lookup n (remove_key "PH" (remove_key "ALKALINITY" (update "BICARBONATE"
       (map2 (fun p a => (bicarb_alpha p * a * ca / cb)%R) ph alk) (c_cols cin)))) = Some x /\
     conc_conv i (i_units i) "meq" f /\
     lookup n data' = Some (map (fun v => (f * v)%R) x)).
  { intros n i L.
    destruct (F n {| db_in := i_units i; db_out := "meq"; db_mw := i_mw i; db_val := INR (i_val i) |})
      as (x & f & L1 & L2 & L3).
    { unfold to_meq. apply in_map_iff. exists (n, i). split; [reflexivity|apply lookup_In, L]. }
    exists x, f. split; [exact L1|]. split; [exact (L2 [])|exact L3]. }
  pose proof (AG "ALKALINITY") as AGA. rewrite HR in AGA.
  destruct (lookup "ALKALINITY" (ion_rows ions)) as [ra|] eqn:LRA; [|tauto].
  destruct AGA as (A1 & A2 & A3).
  exists ra, ca. split; [reflexivity|].
  split; [unfold conc_conv in *; rewrite <- A1, <- A2, <- A3; exact Q1|].
  split; [|split; [|split; [|split; [|split]]]].
  - destruct (FI _ _ LB) as (x & f & L1 & L2 & L3).
    rewrite !lookup_remove_neq, lookup_update_eq in L1 by discriminate. injection L1 as <-.
    assert (f = cb).
    { unfold conc_conv in L2, Q2. simpl in L2, Q2. congruence. }
    subst f. rewrite L3. f_equal. unfold map2. rewrite map_map. apply map_ext.
    intros [p' a']. simpl. field. exact Q3.
  - rewrite U; [|apply lookup_None_keys, LA].
    rewrite lookup_remove_neq by discriminate. apply lookup_remove_eq.
  - rewrite U; [apply lookup_remove_eq|].
    apply lookup_None_keys. rewrite LO by discriminate. apply lookup_None_keys. rewrite K1. exact NP.
  - apply lookup_None_keys, LA.
  - destruct (in_dec string_dec "BICARBONATE" (keys rows')) as [I|I]; [exact I|].
    apply lookup_None_keys in I. congruence.
  - intros n N1 N2 N3. specialize (AG n). specialize (LO n N1 N3).
    assert (LC : lookup n (remove_key "PH" (remove_key "ALKALINITY" (update "BICARBONATE"
       (map2 (fun p a => (bicarb_alpha p * a * ca / cb)%R) ph alk) (c_cols cin))))
       = lookup n (c_cols cin))
      by (rewrite !lookup_remove_neq, lookup_update_neq by assumption; reflexivity).
    destruct (lookup n (ion_rows ions)) as [i|] eqn:Li.
    + destruct (lookup n (ion_rows ions1)) as [i1|] eqn:Li1; [|tauto].
      destruct (FI n i1 LO) as (x & f & L1 & L2 & L3). exists x, f.
      split; [rewrite <- LC; exact L1|]. split; [|exact L3].
      destruct AG as (B1 & B2 & B3). unfold conc_conv in *. rewrite <- B1, <- B2, <- B3. exact L2.
    + destruct (lookup n (ion_rows ions1)) as [i1|] eqn:Li1; [tauto|].
      rewrite U; [exact LC|]. apply lookup_None_keys. exact LO.
Qed.

(** ** C10: order of the valences *)

Lemma valences_ok params ions cin t l t' :
  load_data params ions cin t = Ok (l, t') -> no_alkalinity cin ->
  l_valences l = map (fun kr => i_val (snd kr)) (ion_rows (l_ions l)).
Proof.
  intros H HA.
  destruct (load_data_inv _ _ _ _ _ _ H) as
    (ions1 & p & t1 & tm & rows & data & t2 & data' & uin & E1 & E2 & E3 & E4 & E5 & ->).
  rewrite speciate_none in E4 by exact HA. injection E4 as <- <- <-. reflexivity.
Qed.

Lemma update_absent {A} k (v : A) d : ~ In k (keys d) -> update k v d = (d ++ [(k, v)])%list.
Proof.
  induction d as [|[k' v'] d IH]; simpl; intros H; [reflexivity|].
  destruct (String.eqb_spec k k') as [->|]; [tauto|]. f_equal. apply IH. tauto.
Qed.

Lemma remove_absent {A} k (d : list (string * A)) : ~ In k (keys d) -> remove_key k d = d.
Proof.
  induction d as [|[k' v'] d IH]; simpl; intros H; [reflexivity|].
  destruct (String.eqb_spec k k') as [->|]; simpl; [tauto|]. f_equal. apply IH. tauto.
Qed.

Lemma remove_app {A} k (d e : list (string * A)) :
  remove_key k (d ++ e)%list = (remove_key k d ++ remove_key k e)%list.
Proof. unfold remove_key. apply filter_app. Qed.

(** The alkalinity row written last, with valence 1, is replaced in place. *)
Lemma valences_ok_last params ions cin t l t' rows ra :
  load_data params ions cin t = Ok (l, t') ->
  ion_rows ions = (rows ++ [("ALKALINITY", ra)])%list -> i_val ra = 1 ->
  ~ In "ALKALINITY" (keys rows) -> ~ In "BICARBONATE" (keys rows) ->
  l_valences l = map (fun kr => i_val (snd kr)) (ion_rows (l_ions l)).
Proof.
  intros H HR HV NA NB.
  destruct (load_data_inv _ _ _ _ _ _ H) as
    (ions1 & p & t1 & tm & rows1 & data & t2 & data' & uin & E1 & E2 & E3 & E4 & E5 & ->).
  cbn [l_valences l_ions ion_rows].
  destruct (fill_cols_keys _ _ _ E1) as (K1 & P1). rewrite HR in K1, P1.
  unfold keys in K1. rewrite map_app in K1, P1. simpl in K1, P1.
  assert (HS : exists r a, ion_rows ions1 = (r ++ [("ALKALINITY", a)])%list /\
     keys r = keys rows /\ i_val a = 1).
  { apply map_eq_app in P1. destruct P1 as (r & s & HI & P2 & P3).
    rewrite HI in K1 |- *.
    destruct s as [|[k a] [|? ?]]; try discriminate. simpl in P3.
    injection P3 as E6 E7 E8 E9 E10. subst k. exists r, a. split; [reflexivity|]. split; [|congruence].
    rewrite map_app in K1. simpl in K1. apply app_inj_tail in K1. apply K1. }
  destruct HS as (r & a & HS & HK & HA). rewrite HS in *.
  unfold speciate in E4.
  destruct (mem_key "BICARBONATE" (c_cols cin)); [injection E4 as <- <- <-; reflexivity|].
  destruct (lookup "ALKALINITY" (c_cols cin)); [|injection E4 as <- <- <-; reflexivity].
  destruct (lookup "PH" (c_cols cin)); [|injection E4 as <- <- <-; reflexivity].
  unfold io_bind, io_opt in E4.
  destruct (lookup "ALKALINITY" (r ++ [("ALKALINITY", a)])%list) as [a'|] eqn:EA; [|discriminate].
  unfold io_ret at 1 in E4.
  destruct (conv_conc (i_mw a') (INR (i_val a')) (i_units a') "meq" t1) as [[[[? ?] ?] ts]|]; [|discriminate].
  destruct (conv_conc bicarbMW 1 (i_units a') "meq" ts) as [[[[? ?] ?] ?]|]; [|discriminate].
  injection E4 as <- _ _.
  rewrite update_absent.
  - rewrite !remove_app. simpl. rewrite remove_absent by (rewrite HK; exact NA).
    rewrite app_nil_r, !map_app. simpl. rewrite HA. reflexivity.
  - unfold keys. rewrite map_app. intros Hin. apply in_app_or in Hin.
    destruct Hin as [Hin|[Hin|[]]]; [|discriminate]. apply NB. rewrite <- HK. exact Hin.
Qed.

(** ** C11: mass-transfer coefficients *)

Lemma fill_col_raw name set params rows x u :
  lookup name params = Some (quantity x u) ->
  fill_col name false set params rows
  = Ok (true, map (fun kr => (fst kr, set x (snd kr))) rows).
Proof. intros H. unfold fill_col. rewrite H. reflexivity. Qed.

Lemma fill_cols_values params ions ions1 :
  fill_cols params ions = Ok ions1 ->
  (forall x u, lookup "kL" params = Some (quantity x u) -> has_kL ions = false ->
     forall n i, In (n, i) (ion_rows ions1) -> i_kL i = x) /\
  (forall x u, lookup "Ds" params = Some (quantity x u) -> has_Ds ions = false ->
     forall n i, In (n, i) (ion_rows ions1) -> i_Ds i = x) /\
  (forall x u, lookup "Dp" params = Some (quantity x u) -> has_Dp ions = false ->
     forall n i, In (n, i) (ion_rows ions1) -> i_Dp i = x).
Proof.
  assert (X : forall (A : Type) (proj : ion -> A) nm h set rows h' rows',
     (forall x i, proj (set x i) = proj i) ->
     fill_col nm h set params rows = Ok (h', rows') ->
     forall n i, In (n, i) rows' -> exists i0, In (n, i0) rows /\ proj i = proj i0).
  { intros A proj nm h set rows h' rows' Hs H n i Hin. unfold fill_col in H.
    destruct h; [injection H as _ <-; exists i; auto|].
    destruct (lookup nm params); [|injection H as _ <-; exists i; auto].
    destruct (p_value p); [|discriminate]. injection H as _ <-.
    apply in_map_iff in Hin. destruct Hin as ([k i0] & E & Hin). injection E as <- <-.
    exists i0. split; [exact Hin|apply Hs]. }
  unfold fill_cols. intros H.
  destruct (fill_col "kL" (has_kL ions) set_kL params (ion_rows ions)) as [[hk r1]|] eqn:E1;
    [|discriminate]. simpl in H.
  destruct (fill_col "Ds" (has_Ds ions) set_Ds params r1) as [[hs r2]|] eqn:E2;
    [|discriminate]. simpl in H.
  destruct (fill_col "Dp" (has_Dp ions) set_Dp params r2) as [[hp r3]|] eqn:E3;
    [|discriminate]. simpl in H. injection H as <-. cbn [ion_rows].
  split; [|split].
  - intros x u L Hh n i Hin. rewrite Hh in E1. rewrite (fill_col_raw _ _ _ _ _ _ L) in E1.
    injection E1 as <- <-.
    destruct (X _ i_kL _ _ set_Dp _ _ _ (fun _ _ => eq_refl) E3 n i Hin) as (i2 & H2 & ->).
    destruct (X _ i_kL _ _ set_Ds _ _ _ (fun _ _ => eq_refl) E2 n i2 H2) as (i1 & H1 & ->).
    apply in_map_iff in H1. destruct H1 as ([k i0] & E & _). injection E as _ <-. reflexivity.
  - intros x u L Hh n i Hin. rewrite Hh in E2. rewrite (fill_col_raw _ _ _ _ _ _ L) in E2.
    injection E2 as <- <-.
    destruct (X _ i_Ds _ _ set_Dp _ _ _ (fun _ _ => eq_refl) E3 n i Hin) as (i2 & H2 & ->).
    apply in_map_iff in H2. destruct H2 as ([k i0] & E & _). injection E as _ <-. reflexivity.
  - intros x u L Hh n i Hin. rewrite Hh in E3. rewrite (fill_col_raw _ _ _ _ _ _ L) in E3.
    injection E3 as <- <-.
    apply in_map_iff in Hin. destruct Hin as ([k i0] & E & _). injection E as _ <-. reflexivity.
Qed.

(** Speciation copies the coefficients of the alkalinity row. *)
Lemma speciate_proj (proj : ion -> R) x rows data t rows' data' t' :
  (forall ra, proj (bicarb_row ra) = proj ra) ->
  speciate rows data t = Ok ((rows', data'), t') ->
  (forall n i, In (n, i) rows -> proj i = x) ->
  forall n i, In (n, i) rows' -> proj i = x.
Proof.
  intros Hb E4 Hr. unfold speciate in E4.
  destruct (mem_key "BICARBONATE" data); [injection E4 as <- <- <-; exact Hr|].
  destruct (lookup "ALKALINITY" data); [|injection E4 as <- <- <-; exact Hr].
  destruct (lookup "PH" data); [|injection E4 as <- <- <-; exact Hr].
  unfold io_bind, io_opt in E4.
  destruct (lookup "ALKALINITY" rows) as [a|] eqn:EA; [|discriminate].
  unfold io_ret at 1 in E4.
  destruct (conv_conc (i_mw a) (INR (i_val a)) (i_units a) "meq" t) as [[[[? ?] ?] ts]|]; [|discriminate].
  destruct (conv_conc bicarbMW 1 (i_units a) "meq" ts) as [[[[? ?] ?] ?]|]; [|discriminate].
  injection E4 as <- _ _. fold (bicarb_row a).
  intros n i Hin. unfold remove_key in Hin. apply filter_In in Hin. destruct Hin as (Hin & _).
  assert (X : forall d, In (n, i) (update "BICARBONATE" (bicarb_row a) d) ->
     In (n, i) d \/ i = bicarb_row a).
  { induction d as [|[k v] d IH]; cbn [update]; intros E.
    - destruct E as [E|[]]. injection E as _ <-. right; reflexivity.
    - destruct (String.eqb "BICARBONATE" k); destruct E as [E|E];
        [injection E as _ <-; auto|left; right; exact E|left; left; exact E|].
      destruct (IH E); [left; right; assumption|auto]. }
  destruct (X _ Hin) as [Hin' | ->]; [apply (Hr n i Hin')|].
  rewrite Hb. apply (Hr "ALKALINITY"), lookup_In, EA.
Qed.

(** The coefficients the solver uses are the numbers of the parameter sheet as
    written. *)
Lemma coefficients_raw params ions cin t l t' :
  load_data params ions cin t = Ok (l, t') ->
  (forall x u, lookup "kL" params = Some (quantity x u) -> has_kL ions = false ->
     forall n i, In (n, i) (ion_rows (l_ions l)) -> i_kL i = x) /\
  (forall x u, lookup "Ds" params = Some (quantity x u) -> has_Ds ions = false ->
     forall n i, In (n, i) (ion_rows (l_ions l)) -> i_Ds i = x) /\
  (forall x u, lookup "Dp" params = Some (quantity x u) -> has_Dp ions = false ->
     forall n i, In (n, i) (ion_rows (l_ions l)) -> i_Dp i = x).
Proof.
  intros H.
  destruct (load_data_inv _ _ _ _ _ _ H) as
    (ions1 & p & t1 & tm & rows & data & t2 & data' & uin & E1 & E2 & E3 & E4 & E5 & ->).
  destruct (fill_cols_values _ _ _ E1) as (F1 & F2 & F3). cbn [l_ions ion_rows].
  split; [|split].
  - intros x u L Hh. apply (speciate_proj i_kL x _ _ _ _ _ _ (fun _ => eq_refl) E4).
    apply (F1 x u L Hh).
  - intros x u L Hh. apply (speciate_proj i_Ds x _ _ _ _ _ _ (fun _ => eq_refl) E4).
    apply (F2 x u L Hh).
  - intros x u L Hh. apply (speciate_proj i_Dp x _ _ _ _ _ _ (fun _ => eq_refl) E4).
    apply (F3 x u L Hh).
Qed.

(** ** C30: the time index *)

Lemma time_index_period l period secs t :
  In period (keys si_time) ->
  exists f, conv_time "sec" period [] = Ok (f, "sec", period, []) /\
    time_index l period secs t = Ok (map (fun s => (s * f)%R) secs, t).
Proof.
  intros Hp. destruct time_conv_coherent as (fac & _ & E).
  assert (Hs : In "sec" (keys si_time)) by (simpl; tauto).
  exists (fac "sec" period). split; [apply E; assumption|].
  unfold time_index. destruct (String.eqb_spec period "BV") as [->|].
  - simpl in Hp. repeat (destruct Hp as [Hp|Hp]; [discriminate|]). destruct Hp.
  - unfold io_bind. rewrite E by assumption. reflexivity.
Qed.

Lemma time_index_BV l secs t len v :
  has_value (l_params l) "L" len -> has_value (l_params l) "v" v ->
  time_index l "BV" secs t = Ok (map (fun s => (s / (len / v))%R) secs, t).
Proof.
  intros (uL & HL) (uv & Hv). unfold time_index. simpl.
  unfold io_bind, io_lift, value_of. rewrite HL. simpl. rewrite Hv. reflexivity.
Qed.

(** ** C31: [conv_iex_u] *)

Lemma iex_mass i : i_mw i <> 0%R -> i_val i = 1 ->
  In (i_units i) ["mg"; "ug"; "ng"] ->
  conc_conv i "meq" (i_units i) (iex_factor i) /\
  conc_conv i "meq" (i_units i) (ll_iex_factor i).
Proof.
  intros HM HV Hin. unfold conc_conv, iex_factor, ll_iex_factor. rewrite HV.
  simpl in Hin.
  destruct Hin as [<-|[<-|[<-|[]]]];
    unfold conv_conc, conv_units; simpl; split;
    match goal with |- Ok (?a, _, _, _) = Ok (?b, _, _, _) =>
      replace a with b by (field; lra); reflexivity end.
Qed.

Lemma iex_gram i : i_mw i <> 0%R -> i_val i <> 0 -> i_units i = "g" ->
  conc_conv i "meq" "g" (iex_factor i).
Proof.
  intros HM HV Hu. unfold conc_conv, iex_factor. rewrite Hu.
  unfold conv_conc, conv_units; simpl.
  match goal with |- Ok (?a, _, _, _) = Ok (?b, _, _, _) =>
      replace a with b by (field; apply INR_nz; exact HV); reflexivity end.
Qed.

Lemma ll_iex_meq i : i_units i = "meq" -> conc_conv i "meq" "meq" (ll_iex_factor i).
Proof.
  intros Hu. unfold conc_conv, ll_iex_factor. rewrite Hu.
  unfold conv_conc, conv_units; simpl.
  match goal with |- Ok (?a, _, _, _) = Ok (?b, _, _, _) =>
      replace a with b by field; reflexivity end.
Qed.

(** Values above zero are kept, others become 1e-16. *)
Lemma floor_conc_spec x : ((0 < x)%R -> floor_conc x = x) /\
  ((x <= 0)%R -> floor_conc x = dec 1 16).
Proof.
  unfold floor_conc, rleb. destruct (Rle_dec x 0); split; intros; lra.
Qed.

(** What the dataframe shows for a positive concentration is the value in the
    ion's own unit, whenever the factor is the unit's factor. *)
Lemma conv_iex_inverts i f g (conc : list R) : convertible i ->
  conc_conv i (i_units i) "meq" f -> conc_conv i "meq" (i_units i) g ->
  (forall c, In c conc -> (0 < c)%R) ->
  map (fun x => floor_conc (x * g)%R) (map (fun c => (f * c)%R) conc) = conc.
Proof.
  intros HC Hf Hg Hp. rewrite map_map. rewrite <- (map_id conc) at 2.
  apply map_ext_in. intros c Hc.
  assert (E : (f * g = 1)%R).
  { apply (conc_conv_inv i (i_units i) "meq"); auto; [apply HC|apply meq_In]. }
  replace (f * c * g)%R with c by (replace (f * c * g)%R with (f * g * c)%R by ring; rewrite E; ring).
  apply (proj1 (floor_conc_spec c)), Hp, Hc.
Qed.

Lemma conc_conv_fun i a b f g : conc_conv i a b f -> conc_conv i a b g -> f = g.
Proof. unfold conc_conv. congruence. Qed.

(** ** C30, C31 in terms of physical sizes *)

Lemma time_index_si l period secs t : In period (keys si_time) ->
  exists shown, time_index l period secs t = Ok (shown, t) /\ in_period period secs shown.
Proof.
  intros Hp. destruct (time_index_period l period secs t Hp) as (f & E & ->).
  eexists. split; [reflexivity|]. unfold in_period.
  simpl in Hp.
  repeat (destruct Hp as [<-|Hp];
    [injection E as <-; eexists; split; [reflexivity|apply map_ext; intros s; field]|]).
  destruct Hp.
Qed.

Lemma reports_factor (fac : ion -> R) i m :
  (0 < i_mw i)%R -> i_val i <> 0 ->
  lookup (i_units i) (meq_of (i_mw i) (INR (i_val i))) = Some m ->
  (fac i = / m)%R -> (0 < m)%R ->
  reports_own_unit (fun i outlet => map (fun x => floor_conc (x * fac i)%R) outlet) i.
Proof.
  intros HM HV HL HF Hm. exists m. split; [exact HL|]. intros xs Hx.
  apply map_ext_in. intros x Hin. rewrite HF.
  apply (proj1 (floor_conc_spec _)). apply Rdiv_lt_0_compat; auto.
Qed.

Lemma iex_mass_si i : (0 < i_mw i)%R -> i_val i = 1 ->
  In (i_units i) ["mg"; "ug"; "ng"] ->
  reports_own_unit conv_iex_u i /\ reports_own_unit ll_conv_iex_u i.
Proof.
  intros HM HV Hin.
  assert (HV' : i_val i <> 0) by (rewrite HV; discriminate).
  unfold conv_iex_u, ll_conv_iex_u.
  simpl in Hin; destruct Hin as [Hu|[Hu|[Hu|[]]]]; split.
  all: eapply reports_factor; [exact HM|exact HV'|rewrite <- Hu; reflexivity| |].
  all: try (unfold iex_factor, ll_iex_factor; rewrite <- Hu, HV; simpl; field; lra).
  all: rewrite HV; simpl; repeat apply Rmult_lt_0_compat; try lra; apply Rinv_0_lt_compat; lra.
Qed.

Lemma iex_gram_si i : (0 < i_mw i)%R -> i_val i <> 0 -> i_units i = "g" ->
  reports_own_unit conv_iex_u i.
Proof.
  intros HM HV Hu. unfold conv_iex_u.
  assert (0 < INR (i_val i))%R by (apply lt_0_INR; lia).
  eapply reports_factor; [exact HM|exact HV|rewrite Hu; reflexivity| |].
  - unfold iex_factor. rewrite Hu. simpl. field. lra.
  - apply Rdiv_lt_0_compat; lra.
Qed.

Lemma ll_meq_si i : (0 < i_mw i)%R -> i_val i <> 0 -> i_units i = "meq" ->
  reports_own_unit ll_conv_iex_u i.
Proof.
  intros HM HV Hu. unfold ll_conv_iex_u.
  eapply reports_factor; [exact HM|exact HV|rewrite Hu; reflexivity| |lra].
  unfold ll_iex_factor. rewrite Hu. simpl. field.
Qed.

(** A wrong factor is seen on any positive concentration. *)
Lemma reports_wrong (fac : ion -> R) i m :
  lookup (i_units i) (meq_of (i_mw i) (INR (i_val i))) = Some m ->
  (0 < fac i)%R -> (fac i <> / m)%R ->
  ~ reports_own_unit (fun i outlet => map (fun x => floor_conc (x * fac i)%R) outlet) i.
Proof.
  intros HL Hp Hf (m' & HL' & HR). assert (m' = m) by congruence. subst m'.
  specialize (HR [1%R]). simpl in HR.
  assert (E : [floor_conc (1 * fac i)] = [(1 / m)%R]).
  { apply HR. intros x [<-|[]]. lra. }
  injection E as E. rewrite (proj1 (floor_conc_spec _)) in E by lra.
  apply Hf. lra.
Qed.

(** Any ion of valence above 1 in mass units, and any ion in meq, is misreported
    by the ixpy converter. *)
Lemma iex_mass_wrong i : (0 < i_mw i)%R -> 2 <= i_val i ->
  In (i_units i) ["mg"; "ug"; "ng"] ->
  ~ reports_own_unit conv_iex_u i /\ ~ reports_own_unit ll_conv_iex_u i.
Proof.
  intros HM HV Hin.
  assert (HI : (2 <= INR (i_val i))%R) by (apply le_INR in HV; simpl in HV; lra).
  assert (X : forall k, (0 < k)%R -> (i_mw i * k <> / (INR (i_val i) / i_mw i / k))%R).
  { intros k Hk E. assert (E2 : (/ (INR (i_val i) / i_mw i / k) = i_mw i * k / INR (i_val i))%R)
      by (field; lra).
    rewrite E2 in E. assert (E3 : (i_mw i * k * INR (i_val i) = i_mw i * k)%R).
    { rewrite E at 1. field. lra. }
    assert (0 < i_mw i * k)%R by (apply Rmult_lt_0_compat; lra). nra. }
  unfold conv_iex_u, ll_conv_iex_u.
  simpl in Hin; destruct Hin as [Hu|[Hu|[Hu|[]]]]; split.
  all: eapply reports_wrong; [rewrite <- Hu; reflexivity| |];
    unfold iex_factor, ll_iex_factor; rewrite <- Hu; cbn [String.eqb Ascii.eqb Bool.eqb].
  all: try (apply Rmult_lt_0_compat; lra).
  all: try (replace (INR (i_val i) / i_mw i)%R with (INR (i_val i) / i_mw i / 1)%R by (field; lra);
            apply X; lra).
  all: apply X; lra.
Qed.

Lemma iex_meq_wrong i : (0 < i_mw i < 1000)%R -> i_val i <> 0 -> i_units i = "meq" ->
  ~ reports_own_unit conv_iex_u i.
Proof.
  intros HM HV Hu. unfold conv_iex_u.
  assert (HI : (1 <= INR (i_val i))%R).
  { replace 1%R with (INR 1) by reflexivity. apply le_INR. lia. }
  eapply reports_wrong; [rewrite Hu; reflexivity| |]; unfold iex_factor; rewrite Hu;
    cbn [String.eqb Ascii.eqb Bool.eqb].
  - apply Rdiv_lt_0_compat; [apply Rdiv_lt_0_compat|]; lra.
  - intros E. rewrite Rinv_1 in E.
    assert (i_mw i = 1000 * INR (i_val i))%R.
    { replace (i_mw i) with (i_mw i / INR (i_val i) / 1000 * (1000 * INR (i_val i)))%R by (field; lra).
      rewrite E. ring. }
    lra.
Qed.

(** ** C11: with the solver's own unit the raw number is right *)

Lemma own_unit_factor k : k = Velocity \/ k = Diffusivity ->
  exists sp f, converter_of_kind k (solver_unit k) (solver_unit k) [] = Ok (f, sp, solver_unit k, [])
    /\ f = 1%R.
Proof.
  intros [-> | ->]; simpl; [exists "cm/s"|exists "cm2/s"]; eexists; (split; [reflexivity|field]).
Qed.

Lemma coefficients_own_unit params ions cin t l t' k x u name has proj :
  load_data params ions cin t = Ok (l, t') ->
  In (name, k, has, proj)
    [("kL", Velocity, has_kL ions, i_kL); ("Ds", Diffusivity, has_Ds ions, i_Ds);
     ("Dp", Diffusivity, has_Dp ions, i_Dp)] ->
  lookup name params = Some (quantity x u) -> has = false -> lower u = solver_unit k ->
  forall n i, In (n, i) (ion_rows (l_ions l)) -> solver_value k x u (proj i).
Proof.
  intros H Hin L Hh Hu n i Hi. destruct (coefficients_raw _ _ _ _ _ _ H) as (F1 & F2 & F3).
  assert (K : k = Velocity \/ k = Diffusivity /\ True) by
    (simpl in Hin; destruct Hin as [E|[E|[E|[]]]]; injection E; intros; subst; auto).
  assert (K' : k = Velocity \/ k = Diffusivity) by tauto.
  destruct (own_unit_factor k K') as (sp & f & E & Ef).
  exists f, sp. rewrite Hu. split; [exact E|]. rewrite Ef, Rmult_1_r.
  simpl in Hin; destruct Hin as [E0|[E0|[E0|[]]]]; injection E0; intros; subst; eauto.
Qed.
