(** Proofs about unit conversions (C01-C04). *)
From Coq Require Import List String Ascii Reals Bool Arith Lra Lia.
From Verif Require Import Lib_Py M_Units S_Units.
Import ListNotations.
Open Scope string_scope.
Local Notation length := List.length.

(** ** Generic facts about [conv_units] *)

Lemma index_of_In s l : In s l -> exists i, index_of s l = Some i /\ (i < length l)%nat.
Proof.
  induction l as [|x l IH]; simpl; [tauto|].
  intros H. destruct (String.eqb_spec s x) as [->|Hne].
  - exists O; split; [reflexivity|lia].
  - destruct H as [H|H]; [congruence|].
    destruct (IH H) as (i & Hi & Hl). exists (S i). rewrite Hi. split; [reflexivity|lia].
Qed.

Lemma index_of_notIn s l : ~ In s l -> index_of s l = None.
Proof.
  induction l as [|x l IH]; simpl; [reflexivity|].
  intros H. destruct (String.eqb_spec s x) as [->|Hne]; [tauto|].
  rewrite IH by tauto. reflexivity.
Qed.

Lemma index_of_Some_In s l i : index_of s l = Some i -> In s l.
Proof.
  revert i; induction l as [|x l IH]; simpl; intros i H; [discriminate|].
  destruct (String.eqb_spec s x) as [->|Hne]; [auto|].
  destruct (index_of s l) eqn:E; [|discriminate]. right; eapply IH; reflexivity.
Qed.

Definition coef_of (U : list string) (C : list R) (a : string) : R :=
  match index_of a U with Some i => nth i C 0%R | None => 0%R end.

Definition unit_factor (U : list string) (C : list R) (a b : string) : R :=
  (coef_of U C b / coef_of U C a)%R.

Lemma nth_error_nth_R (C : list R) i :
  (i < length C)%nat -> nth_error C i = Some (nth i C 0%R).
Proof. intros H. apply nth_error_nth'. exact H. Qed.

Lemma conv_units_ok U C a b t :
  length U = length C -> In a U -> In b U ->
  conv_units a b U C t = Ok (unit_factor U C a b, a, b, t).
Proof.
  intros HL Ha Hb. unfold conv_units, unit_factor, coef_of.
  destruct (index_of_In a U Ha) as (i & Hi & Hil).
  destruct (index_of_In b U Hb) as (j & Hj & Hjl).
  rewrite Hi; cbn [bind]. rewrite Hj.
  rewrite (nth_error_nth_R C i) by lia. cbn [bind of_option].
  rewrite (nth_error_nth_R C j) by lia. reflexivity.
Qed.

Lemma coef_of_In U C a :
  length U = length C -> In a U -> In (coef_of U C a) C.
Proof.
  intros HL Ha. unfold coef_of.
  destruct (index_of_In a U Ha) as (i & Hi & Hil). rewrite Hi.
  apply nth_In; lia.
Qed.

Lemma unit_factor_coherent U C :
  length U = length C -> (forall c, In c C -> c <> 0%R) ->
  coherent U (unit_factor U C).
Proof.
  intros HL HC. unfold unit_factor.
  assert (Hnz : forall a, In a U -> coef_of U C a <> 0%R)
    by (intros a Ha; apply HC, coef_of_In; assumption).
  repeat split.
  - intros a Ha. specialize (Hnz a Ha). field; assumption.
  - intros a b Ha Hb. assert (Hna := Hnz a Ha). assert (Hnb := Hnz b Hb).
    field; split; assumption.
  - intros a b c Ha Hb Hc. assert (Hna := Hnz a Ha). assert (Hnb := Hnz b Hb).
    field; split; assumption.
Qed.

Lemma prompt_unit_spec U ans u i rest :
  prompt_unit U ans = Ok (u, i, rest) ->
  exists pre, ans = (pre ++ u :: rest)%list /\ (forall x, In x pre -> ~ In x U)
              /\ In u U /\ index_of u U = Some i.
Proof.
  revert u i rest; induction ans as [|a ans IH]; simpl; intros u i rest H;
    [discriminate|].
  destruct (index_of a U) eqn:E.
  - injection H as -> -> ->. exists []. repeat split; auto.
    eapply index_of_Some_In; eassumption.
  - destruct (IH _ _ _ H) as (pre & -> & Hpre & Hu & Hi).
    exists (a :: pre). repeat split; auto.
    intros x [<-|Hx]; [|auto]. intros Hin.
    destruct (index_of_In _ _ Hin) as (k & Hk & _). congruence.
Qed.

Lemma prompt_unit_first U pre u rest :
  (forall x, In x pre -> ~ In x U) -> In u U ->
  exists i, prompt_unit U (pre ++ u :: rest)%list = Ok (u, i, rest)
            /\ index_of u U = Some i.
Proof.
  intros Hpre Hu. induction pre as [|a pre IH]; simpl.
  - destruct (index_of_In u U Hu) as (i & Hi & _). rewrite Hi. exists i; auto.
  - rewrite index_of_notIn by (apply Hpre; left; reflexivity).
    apply IH. intros x Hx; apply Hpre; right; exact Hx.
Qed.

Lemma prompt_unit_none U ans :
  (forall x, In x ans -> ~ In x U) -> prompt_unit U ans = Err EOFError.
Proof.
  induction ans as [|a ans IH]; simpl; intros H; [reflexivity|].
  rewrite index_of_notIn by (apply H; auto). apply IH; intros; apply H; auto.
Qed.

(** First accepted answer wins; everything else is an error. *)
Lemma conv_units_prompt U C u_in u_out pre u rest :
  length U = length C ->
  ~ In u_in U -> (forall x, In x pre -> ~ In x U) -> In u U -> In u_out U ->
  conv_units u_in u_out U C (pre ++ u :: rest)%list
  = Ok (unit_factor U C u u_out, u, u_out, rest).
Proof.
  intros HL Hin Hpre Hu Hout. unfold conv_units.
  rewrite (index_of_notIn u_in U Hin).
  destruct (prompt_unit_first U pre u rest Hpre Hu) as (i & -> & Hi).
  assert (HH := conv_units_ok U C u u_out rest HL Hu Hout).
  unfold conv_units in HH. rewrite Hi in HH. exact HH.
Qed.

Lemma conv_units_bad_out U C u_in u_out t :
  ~ In u_out U ->
  conv_units u_in u_out U C t = Err SystemExit
  \/ (~ In u_in U /\ (forall x, In x t -> ~ In x U)
      /\ conv_units u_in u_out U C t = Err EOFError).
Proof.
  intros Hout. unfold conv_units. rewrite (index_of_notIn u_out U Hout).
  destruct (index_of u_in U) as [i|] eqn:E; [left; reflexivity|].
  destruct (prompt_unit U t) as [[[u i] rest]|e] eqn:EP; [left; reflexivity|].
  right. repeat split.
  - intros Hin. destruct (index_of_In _ _ Hin) as (k & Hk & _). congruence.
  - intros x Hx Hin. apply in_split in Hx. 
    assert (Hne : exists u i rest, prompt_unit U t = Ok (u, i, rest)).
    { clear EP. destruct Hx as (l1 & l2 & ->). 
      induction l1 as [|y l1 IH]; simpl.
      - destruct (index_of_In x U Hin) as (k & Hk & _). rewrite Hk. eauto.
      - destruct (index_of y U); eauto. }
    destruct Hne as (u & i & rest & Hp). congruence.
  - assert (Ht : forall x, In x t -> ~ In x U).
    { intros x Hx Hin. apply in_split in Hx. destruct Hx as (l1 & l2 & ->).
      assert (Hne : exists u i rest, prompt_unit U (l1 ++ x :: l2)%list = Ok (u, i, rest)).
      { clear EP. induction l1 as [|y l1 IH]; simpl.
        - destruct (index_of_In x U Hin) as (k & Hk & _). rewrite Hk. eauto.
        - destruct (index_of y U); eauto. }
      destruct Hne as (u & i & rest & Hp). congruence. }
    rewrite (prompt_unit_none U t Ht) in EP. injection EP as <-. reflexivity.
Qed.

Lemma conv_units_no_answer U C u_in u_out t :
  ~ In u_in U -> (forall x, In x t -> ~ In x U) ->
  conv_units u_in u_out U C t = Err EOFError.
Proof.
  intros Hin Ht. unfold conv_units. rewrite (index_of_notIn _ _ Hin).
  rewrite (prompt_unit_none _ _ Ht). reflexivity.
Qed.

(** ** The concrete tables *)

Lemma dec_pos m k : (0 < m)%Z -> (0 < dec m k)%R.
Proof.
  intros H. unfold dec. apply Rdiv_lt_0_compat; [apply IZR_lt; exact H|].
  apply pow_lt; lra.
Qed.

Ltac nonzero_coefs :=
  let c := fresh in let H := fresh in
  intros c H; simpl in H;
  repeat (destruct H as [<-|H]; [try lra; try (apply Rgt_not_eq, dec_pos; lia)|]);
  destruct H.

Lemma length_coefs_nz c : In c length_coefs -> c <> 0%R.
Proof. revert c. nonzero_coefs. Qed.
Lemma volume_coefs_nz c : In c volume_coefs -> c <> 0%R.
Proof. revert c. nonzero_coefs. Qed.
Lemma time_coefs_nz c : In c time_coefs -> c <> 0%R.
Proof. revert c. nonzero_coefs. Qed.
Lemma area_coefs_nz c : In c area_coefs -> c <> 0%R.
Proof. revert c. nonzero_coefs. Qed.
Lemma weight_coefs_nz c : In c weight_coefs -> c <> 0%R.
Proof. revert c. nonzero_coefs. Qed.
Lemma conc_coefs_nz MW val c :
  MW <> 0%R -> val <> 0%R -> In c (conc_coefs MW val) -> c <> 0%R.
Proof.
  intros HM Hv H. simpl in H.
  assert (Hi : (/ val <> 0)%R) by (apply Rinv_neq_0_compat; exact Hv).
  assert (H14 : dec 14001 3 <> 0%R) by (apply Rgt_not_eq, dec_pos; lia).
  assert (H12 : dec 12011 3 <> 0%R) by (apply Rgt_not_eq, dec_pos; lia).
  unfold Rdiv in H.
  repeat (destruct H as [<-|H];
    [repeat apply Rmult_integral_contrapositive_currified;
     try assumption; try lra|]).
  destruct H.
Qed.

Definition length_factor := unit_factor length_units length_coefs.
Definition volume_factor := unit_factor volume_units volume_coefs.
Definition time_factor := unit_factor time_units time_coefs.
Definition area_factor := unit_factor area_units area_coefs.
Definition weight_factor := unit_factor weight_units weight_coefs.
Definition conc_factor MW val := unit_factor conc_units (conc_coefs MW val).

Lemma conv_length_ok a b t : In a length_units -> In b length_units ->
  conv_length a b t = Ok (length_factor a b, a, b, t).
Proof. intros; apply conv_units_ok; auto. Qed.
Lemma conv_volume_ok a b t : In a volume_units -> In b volume_units ->
  conv_volume a b t = Ok (volume_factor a b, a, b, t).
Proof. intros; apply conv_units_ok; auto. Qed.
Lemma conv_time_ok a b t : In a time_units -> In b time_units ->
  conv_time a b t = Ok (time_factor a b, a, b, t).
Proof. intros; apply conv_units_ok; auto. Qed.
Lemma conv_area_ok a b t : In a area_units -> In b area_units ->
  conv_area a b t = Ok (area_factor a b, a, b, t).
Proof. intros; apply conv_units_ok; auto. Qed.
Lemma conv_weight_ok a b t : In a weight_units -> In b weight_units ->
  conv_weight a b t = Ok (weight_factor a b, a, b, t).
Proof. intros; apply conv_units_ok; auto. Qed.
Lemma conv_conc_ok MW val a b t : In a conc_units -> In b conc_units ->
  conv_conc MW val a b t = Ok (conc_factor MW val a b, a, b, t).
Proof. intros; apply conv_units_ok; auto. Qed.

Lemma length_coherent : coherent length_units length_factor.
Proof. apply unit_factor_coherent; [reflexivity|exact length_coefs_nz]. Qed.
Lemma volume_coherent : coherent volume_units volume_factor.
Proof. apply unit_factor_coherent; [reflexivity|exact volume_coefs_nz]. Qed.
Lemma time_coherent : coherent time_units time_factor.
Proof. apply unit_factor_coherent; [reflexivity|exact time_coefs_nz]. Qed.
Lemma area_coherent : coherent area_units area_factor.
Proof. apply unit_factor_coherent; [reflexivity|exact area_coefs_nz]. Qed.
Lemma weight_coherent : coherent weight_units weight_factor.
Proof. apply unit_factor_coherent; [reflexivity|exact weight_coefs_nz]. Qed.
Lemma conc_coherent MW val :
  MW <> 0%R -> val <> 0%R -> coherent conc_units (conc_factor MW val).
Proof.
  intros HM Hv. apply unit_factor_coherent; [reflexivity|].
  intros c; apply conc_coefs_nz; assumption.
Qed.

(** ** Independence from the order of the tables *)

Definition same_units (U V : list string) : bool :=
  forallb (fun x => mem_str x V) U && forallb (fun x => mem_str x U) V.

Lemma mem_str_In s l : mem_str s l = true <-> In s l.
Proof.
  unfold mem_str. rewrite existsb_exists. split.
  - intros (x & Hx & E). apply String.eqb_eq in E. subst; assumption.
  - intros H. exists s. split; [assumption|apply String.eqb_refl].
Qed.

Lemma same_units_iff U V : same_units U V = true -> forall x, In x U <-> In x V.
Proof.
  unfold same_units. rewrite Bool.andb_true_iff, !forallb_forall.
  intros (H1 & H2) x. split; intros Hx.
  - apply mem_str_In, H1, Hx.
  - apply mem_str_In, H2, Hx.
Qed.

Lemma coherent_iff U V f :
  (forall x, In x U <-> In x V) -> coherent U f -> coherent V f.
Proof.
  intros E (H1 & H2 & H3). repeat split; intros; try apply H1; try apply H2;
    try apply H3; apply E; assumption.
Qed.

Lemma coherent_conv_units U V C :
  length U = length C -> (forall c, In c C -> c <> 0%R) ->
  same_units U V = true ->
  coherent_converter V (fun a b => conv_units a b U C).
Proof.
  intros HL HC E. assert (HE := same_units_iff _ _ E).
  exists (unit_factor U C). split.
  - eapply coherent_iff; [exact HE|]. apply unit_factor_coherent; assumption.
  - intros a b t Ha Hb. apply conv_units_ok; [assumption| |]; apply HE; assumption.
Qed.

Lemma guarded_conv_units U V C :
  length U = length C -> same_units U V = true ->
  guarded_converter V (fun a b => conv_units a b U C).
Proof.
  intros HL E. assert (HE := same_units_iff _ _ E).
  assert (HN : forall x, ~ In x V -> ~ In x U)
    by (intros x Hx HU; apply Hx, HE, HU).
  split; [|split; [|split]].
  - intros u_in u_out t Hout.
    destruct (conv_units_bad_out U C u_in u_out t (HN _ Hout)) as [H|(_ & _ & H)];
      rewrite H; auto.
  - intros u_in u_out t Hin Hout.
    destruct (conv_units_bad_out U C u_in u_out t (HN _ Hout)) as [H|(Hn & _ & _)].
    + exact H.
    + exfalso; apply Hn, HE, Hin.
  - intros u_in u_out bad u rest Hin Hbad Hu Hout.
    exists (unit_factor U C u u_out). split.
    + apply conv_units_ok; [assumption| |]; apply HE; assumption.
    + apply conv_units_prompt;
        [assumption|apply HN, Hin|intros x Hx; apply HN, Hbad, Hx
        |apply HE, Hu|apply HE, Hout].
  - intros u_in u_out bad Hin Hbad. apply conv_units_no_answer; auto.
Qed.

(** ** Physical correctness *)

(** The coefficient times the size is the same constant up to a small relative
    error. *)
Lemma physical_conv_units U C size base :
  (0 < base)%R ->
  length U = length C -> forallb (fun x => mem_str x U) (keys size) = true ->
  (forall a, In a (keys size) -> exists s, lookup a size = Some s /\ s <> 0%R /\
     (base * (1 - dec 13 6) <= coef_of U C a * s <= base * (1 + dec 1 6))%R) ->
  physical_converter (dec 2 5) size (fun a b => conv_units a b U C).
Proof.
  intros Hbase HL E H a b t Ha Hb.
  assert (HE : forall x, In x (keys size) -> In x U).
  { intros x Hx. apply mem_str_In. rewrite forallb_forall in E. apply E, Hx. }
  exists (unit_factor U C a b). split.
  { apply conv_units_ok; [assumption| |]; apply HE; assumption. }
  destruct (H a Ha) as (sa & Hsa & Hsa0 & Ba).
  destruct (H b Hb) as (sb & Hsb & Hsb0 & Bb).
  exists sa, sb. split; [assumption|split; [assumption|]].
  unfold unit_factor.
  set (ca := coef_of U C a) in *. set (cb := coef_of U C b) in *.
  unfold dec in *. simpl in *.
  assert (Pa : (0 < ca * sa)%R) by nra.
  assert (Hca : ca <> 0%R) by (intros ->; lra).
  replace (cb / ca * (sb / sa) - 1)%R with ((cb * sb - ca * sa) / (ca * sa))%R
    by (field; split; assumption).
  unfold Rdiv. rewrite Rabs_mult, (Rabs_pos_eq (/ (ca * sa)))
    by (left; apply Rinv_0_lt_compat; assumption).
  apply (Rmult_le_reg_r (ca * sa)); [assumption|].
  rewrite Rmult_assoc, Rinv_l, Rmult_1_r by lra.
  apply Rabs_le. split; lra.
Qed.

Ltac table_bounds :=
  let a := fresh "a" in let H := fresh "H" in
  intros a H; cbn in H;
  repeat (destruct H as [<-|H];
    [eexists; split; [reflexivity|];
     unfold coef_of, dec; cbn [index_of String.eqb Ascii.eqb Bool.eqb option_map nth
                               length_units volume_units time_units area_units
                               weight_units conc_units
                               length_coefs volume_coefs time_coefs area_coefs
                               weight_coefs conc_coefs dec pow];
     unfold dec; cbn [pow]; split; [lra|split; lra]|]);
  destruct H.

Lemma length_physical : physical_converter (dec 2 5) si_length conv_length.
Proof.
  apply (physical_conv_units length_units length_coefs si_length 1);
    [lra|reflexivity|reflexivity|]. table_bounds.
Qed.

Lemma volume_physical : physical_converter (dec 2 5) si_volume conv_volume.
Proof.
  apply (physical_conv_units volume_units volume_coefs si_volume 1);
    [lra|reflexivity|reflexivity|]. table_bounds.
Qed.

Lemma time_physical : physical_converter (dec 2 5) si_time conv_time.
Proof.
  apply (physical_conv_units time_units time_coefs si_time 86400);
    [lra|reflexivity|reflexivity|]. table_bounds.
Qed.

Lemma area_physical : physical_converter (dec 2 5) si_area conv_area.
Proof.
  apply (physical_conv_units area_units area_coefs si_area 1);
    [lra|reflexivity|reflexivity|]. table_bounds.
Qed.

Lemma weight_physical : physical_converter (dec 2 5) si_weight conv_weight.
Proof.
  apply (physical_conv_units weight_units weight_coefs si_weight 1);
    [lra|reflexivity|reflexivity|]. table_bounds.
Qed.

(** Every concentration unit except "mgN" is exact. *)
Lemma conc_physical MW val : (0 < MW)%R -> (0 < val)%R ->
  physical_converter (dec 2 5) (remove_key "mgN" (meq_of MW val)) (conv_conc MW val).
Proof.
  intros HM Hv.
  apply (physical_conv_units conc_units (conc_coefs MW val) _ 1);
    [lra|reflexivity|reflexivity|].
  assert (Hd : forall m k, (0 < m)%Z -> dec m k <> 0%R)
    by (intros; apply Rgt_not_eq, dec_pos; assumption).
  assert (Hp1 : (0 < dec 13 6)%R) by (apply dec_pos; lia).
  assert (Hp2 : (0 < dec 1 6)%R) by (apply dec_pos; lia).
  assert (X : forall c s, (c * s = 1)%R -> s <> 0%R /\
     (1 * (1 - dec 13 6) <= c * s <= 1 * (1 + dec 1 6))%R).
  { intros c s E. split; [intros ->; lra|]. rewrite E. lra. }
  intros a H; cbn in H.
  repeat (destruct H as [<-|H]; [eexists; split; [reflexivity|]; apply X; cbn;
      field; repeat split; try lra; try (apply Hd; lia)|]).
  destruct H.
Qed.

Lemma conc_mgN_off MW val t : (0 < MW)%R -> (0 < val)%R ->
  exists factor, conv_conc MW val "mgN" "meq" t = Ok (factor, "mgN", "meq", t) /\
    ~ physical (dec 4 4) (meq_of MW val) "mgN" "meq" factor /\
    physical (dec 5 4) (meq_of MW val) "mgN" "meq" factor.
Proof.
  intros HM Hv. exists (1 / (dec 14001 3 / val))%R. split; [reflexivity|].
  assert (Hd : forall m k, (0 < m)%Z -> dec m k <> 0%R)
    by (intros; apply Rgt_not_eq, dec_pos; assumption).
  assert (E : (1 / (dec 14001 3 / val) * (1 / (val / dec 14007 3))
               = 14007 / 14001)%R).
  { unfold dec. field. lra. }
  split.
  - intros (sa & sb & Ha & Hb & H). cbn in Ha, Hb. injection Ha as <-.
    injection Hb as <-. rewrite E in H.
    rewrite Rabs_pos_eq in H by lra. unfold dec in H. simpl in H. lra.
  - exists (val / dec 14007 3)%R, 1%R. repeat split.
    rewrite E. rewrite Rabs_pos_eq by lra. unfold dec; simpl; lra.
Qed.

(** ** Spellings *)

Lemma spelling_conv_units U C size :
  length U = length C -> forallb (fun x => mem_str x U) (keys size) = true ->
  (forall a a' s, In (a, s) size -> In (a', s) size -> coef_of U C a = coef_of U C a') ->
  spelling_converter size (fun a b => conv_units a b U C).
Proof.
  intros HL E H a a' b s t Ha Ha' Hb.
  assert (HE : forall x, In x (keys size) -> In x U).
  { intros x Hx. apply mem_str_In. rewrite forallb_forall in E. apply E, Hx. }
  assert (K : forall x y, In (x, y) size -> In x (keys size))
    by (intros x y Hxy; unfold keys; apply in_map_iff; exists (x, y); auto).
  assert (Ka := HE _ (K _ _ Ha)). assert (Ka' := HE _ (K _ _ Ha')).
  apply HE in Hb.
  exists (unit_factor U C a b), (unit_factor U C b a).
  rewrite !(conv_units_ok U C) by assumption.
  assert (EC := H _ _ _ Ha Ha'). unfold unit_factor. rewrite EC. auto.
Qed.

Ltac spellings :=
  let a := fresh in let a' := fresh in let s := fresh in
  let H := fresh "H" in let H' := fresh "H'" in
  intros a a' s H H'; cbn in H, H'; unfold dec in H, H';
  repeat (destruct H as [H|H]); [..|destruct H];
  injection H as <- <-;
  repeat (destruct H' as [H'|H']; [first [injection H' as <- H'|injection H' as <-]; try reflexivity;
                                   exfalso; simpl in H'; lra|]);
  destruct H'.

Lemma length_spelling : spelling_converter si_length conv_length.
Proof. apply spelling_conv_units; [reflexivity|reflexivity|spellings]. Qed.
Lemma volume_spelling : spelling_converter si_volume conv_volume.
Proof. apply spelling_conv_units; [reflexivity|reflexivity|spellings]. Qed.
Lemma time_spelling : spelling_converter si_time conv_time.
Proof. apply spelling_conv_units; [reflexivity|reflexivity|spellings]. Qed.
Lemma area_spelling : spelling_converter si_area conv_area.
Proof. apply spelling_conv_units; [reflexivity|reflexivity|spellings]. Qed.
Lemma weight_spelling : spelling_converter si_weight conv_weight.
Proof. apply spelling_conv_units; [reflexivity|reflexivity|spellings]. Qed.

(** ** Compound units *)

Definition splits_ok (A B : list string) : bool :=
  forallb (fun a => forallb (fun b =>
    match split_compound (a ++ "/" ++ b) with
    | [(x, y)] => String.eqb x a && String.eqb y b
    | _ => false
    end) B) A.

Lemma splits_ok_spec A B a b : splits_ok A B = true -> In a A -> In b B ->
  split_compound (a ++ "/" ++ b) = [(a, b)].
Proof.
  unfold splits_ok. rewrite forallb_forall. intros H Ha Hb.
  specialize (H a Ha). rewrite forallb_forall in H. specialize (H b Hb).
  cbv beta in H.
  destruct (split_compound (a ++ "/" ++ b)) as [|[x y] [|? ?]]; try discriminate.
  apply Bool.andb_true_iff in H. destruct H as (H1 & H2).
  apply String.eqb_eq in H1. apply String.eqb_eq in H2. subst; reflexivity.
Qed.

Lemma slash_units_In A B u : In u (slash_units A B) <->
  exists a b, In a A /\ In b B /\ u = (a ++ "/" ++ b)%string.
Proof.
  unfold slash_units. rewrite in_flat_map. split.
  - intros (a & Ha & H). apply in_map_iff in H. destruct H as (b & <- & Hb).
    exists a, b; auto.
  - intros (a & b & Ha & Hb & ->). exists a. split; [assumption|].
    apply in_map_iff. exists b; auto.
Qed.

Section Compound.
  Variables (A B : list string).
  Variables (cn cd : string -> string -> io conv_result) (rl : string -> string -> string).
  Hypothesis Hsplit : splits_ok A B = true.
  Hypothesis Hn : coherent_converter A cn.
  Hypothesis Hd : coherent_converter B cd.

  Lemma compound_quotient : quotient_converter A B cn cd (conv_compound cn cd rl).
  Proof using Hsplit Hn Hd.
    intros a b c d t Ha Hb Hc Hd'.
    destruct Hn as (fn & Fn & En). destruct Hd as (fd & Fd & Ed).
    exists (fn a c), (fd b d), (rl a b).
    split; [apply En; assumption|]. split; [apply Ed; assumption|].
    unfold conv_compound, compound_parts, io_bind, io_lift.
    rewrite !(splits_ok_spec A B) by assumption. simpl.
    rewrite En by assumption. rewrite Ed by assumption. reflexivity.
  Qed.

  Lemma compound_coherent : coherent_compound (slash_units A B) (conv_compound cn cd rl).
  Proof using Hsplit Hn Hd.
    destruct Hn as (fn & (N1 & N2 & N3) & En).
    destruct Hd as (fd & (D1 & D2 & D3) & Ed).
    set (p := fun u => match split_compound u with
                       | x :: _ => x | [] => ("", "") end).
    assert (P : forall a b, In a A -> In b B -> p (a ++ "/" ++ b)%string = (a, b)).
    { intros. unfold p. rewrite (splits_ok_spec A B) by assumption. reflexivity. }
    exists (fun u v => fn (fst (p u)) (fst (p v)) / fd (snd (p u)) (snd (p v)))%R.
    assert (NZ : forall b d, In b B -> In d B -> fd b d <> 0%R).
    { intros b d Hb Hd' E. specialize (D2 b d Hb Hd'). rewrite E in D2. lra. }
    split; [split; [|split]|].
    - intros u Hu. apply slash_units_In in Hu.
      destruct Hu as (a & b & Ha & Hb & ->). rewrite P by assumption. simpl.
      rewrite N1, D1 by assumption. field.
    - intros u v Hu Hv. apply slash_units_In in Hu, Hv.
      destruct Hu as (a & b & Ha & Hb & ->). destruct Hv as (c & d & Hc & Hd' & ->).
      rewrite !P by assumption. simpl.
      assert (X := D2 b d Hb Hd'). assert (Y := N2 a c Ha Hc).
      transitivity ((fn a c * fn c a) / (fd b d * fd d b))%R.
      + field. split; apply NZ; assumption.
      + rewrite X, Y. field.
    - intros u v w Hu Hv Hw. apply slash_units_In in Hu, Hv, Hw.
      destruct Hu as (a & b & Ha & Hb & ->). destruct Hv as (c & d & Hc & Hd' & ->).
      destruct Hw as (e & f & He & Hf & ->).
      rewrite !P by assumption. simpl.
      rewrite <- (N3 a c e), <- (D3 b d f) by assumption.
      field. split; apply NZ; assumption.
    - intros u v t Hu Hv. apply slash_units_In in Hu, Hv.
      destruct Hu as (a & b & Ha & Hb & ->). destruct Hv as (c & d & Hc & Hd' & ->).
      rewrite !P by assumption. cbn [fst snd]. exists (rl a b).
      unfold conv_compound, compound_parts, io_bind, io_lift.
      rewrite !(splits_ok_spec A B) by assumption. simpl.
      rewrite En by assumption. rewrite Ed by assumption. reflexivity.
  Qed.
End Compound.

Lemma length_conv_coherent : coherent_converter (keys si_length) conv_length.
Proof. apply coherent_conv_units; [reflexivity|apply length_coefs_nz|reflexivity]. Qed.
Lemma volume_conv_coherent : coherent_converter (keys si_volume) conv_volume.
Proof. apply coherent_conv_units; [reflexivity|apply volume_coefs_nz|reflexivity]. Qed.
Lemma time_conv_coherent : coherent_converter (keys si_time) conv_time.
Proof. apply coherent_conv_units; [reflexivity|apply time_coefs_nz|reflexivity]. Qed.
Lemma area_conv_coherent : coherent_converter (keys si_area) conv_area.
Proof. apply coherent_conv_units; [reflexivity|apply area_coefs_nz|reflexivity]. Qed.
Lemma weight_conv_coherent : coherent_converter (keys si_weight) conv_weight.
Proof. apply coherent_conv_units; [reflexivity|apply weight_coefs_nz|reflexivity]. Qed.
Lemma conc_conv_coherent MW val : MW <> 0%R -> val <> 0%R ->
  coherent_converter (keys (meq_of MW val)) (conv_conc MW val).
Proof.
  intros. apply coherent_conv_units;
    [reflexivity|intros c; apply conc_coefs_nz; assumption|reflexivity].
Qed.

Lemma gpm_is_gal_per_min u_out t :
  conv_vol_per_time "gpm" u_out t = conv_vol_per_time "gal/min" u_out t.
Proof. reflexivity. Qed.
