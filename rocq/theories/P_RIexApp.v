(** Proofs about the ion-exchange web application. *)
From Coq Require Import Reals List Arith Bool String Lra Lia.
From Verif Require Import Lib_Py Lib_Pow M_GacFun M_IxColumn M_IxUnc M_RIexApp S_RIexApp P_IxData P_IxUnc.
Import ListNotations.
Open Scope R_scope.
Open Scope string_scope.
Local Notation length := List.length.

(** ** Units *)
Ltac case_lookup H := cbn [lookup] in H;
  repeat match type of H with
  | (if String.eqb ?u ?s then _ else _) = _ => destruct (String.eqb_spec u s) as [->|?]; [|]
  end.
Ltac unit_case H := match type of H with Some _ = Some _ => let E := fresh in assert (E := H); clear H; match type of E with Some ?a = Some ?b => assert (H : a = b) by congruence; clear E end | None = Some _ => discriminate H end.

Lemma length_ok u k : lookup u length_conv = Some k -> exists m, metres u m /\ k = 100 * m.
Proof.
  intros H. unfold length_conv in H. case_lookup H; unit_case H; subst k; eexists; (split; [constructor|]);
  unfold m2cm, cm2cm, mm2cm, in2cm, ft2cm, foot, inch, in2cm, dec; lra.
Qed.
Lemma velocity_ok u k : lookup u velocity_conv = Some k -> u = "gpm/ft^2" \/ exists m, metres_per_second u m /\ k = 100 * m.
Proof.
  intros H. unfold velocity_conv in H. case_lookup H; unit_case H; try (left; reflexivity); right; subst k; eexists; (split; [constructor|]);
  unfold m2cm, cm2cm, mm2cm, in2cm, ft2cm, mpmin2cmps, mph2cmps, ftpmin2cmps, m2cm, ft2cm, in2cm, hour2sec, min2sec, foot, inch, hour, minute, dec; lra.
Qed.
Lemma gpm_ok : lookup "gpm/ft^2" velocity_conv = Some gpmpft2cmps /\ Rabs (gpmpft2cmps - 100 * gpm_per_ft2) <= dec 1 11 * (100 * gpm_per_ft2).
Proof.
  split; [reflexivity|]. unfold gpmpft2cmps, gpm_per_ft2, gal2ft3, ft2cm, in2cm, min2sec, gallon, foot, inch, minute, dec.
  apply Rabs_le. lra.
Qed.
Lemma kL_ok u k : lookup u kL_conv = Some k -> exists m, metres_per_second u m /\ k = 100 * m.
Proof.
  intros H. unfold kL_conv in H. case_lookup H; unit_case H; subst k; eexists; (split; [constructor|]);
  unfold m2cm, cm2cm, mm2cm, in2cm, ft2cm, mpmin2cmps, mph2cmps, ftpmin2cmps, m2cm, ft2cm, in2cm, hour2sec, min2sec, foot, inch, hour, minute, dec; lra.
Qed.
Lemma flow_ok u k : lookup u volumetric_conv = Some k -> exists m, cubic_metres_per_second u m /\ k = 100 ^ 3 * m.
Proof.
  intros H. unfold volumetric_conv in H. case_lookup H; unit_case H; subst k; eexists; (split; [constructor|]);
  unfold m2cm, cm2cm, l2ml, gal2ml, mgd2mlps, gal2ml, day2sec, hour2sec, ft2cm, in2cm, min2sec, gallon, foot, inch, day, hour, minute, dec; lra.
Qed.
Lemma ds_ok u k : lookup u ds_conv = Some k -> exists m, square_metres_per_second u m /\ k = 100 ^ 2 * m.
Proof.
  intros H. unfold ds_conv in H. case_lookup H; unit_case H; subst k; eexists; (split; [constructor|]);
  unfold m2cm, cm2cm, ft2cm, in2cm, foot, inch, dec; lra.
Qed.
Lemma time_ok u k : lookup u time_conv = Some k -> seconds u k.
Proof.
  intros H. unfold time_conv in H. case_lookup H; unit_case H; subst k;
  unfold year2sec, month2sec, day2sec, hour2sec, min2sec, dec;
  match goal with |- seconds _ ?a => first
   [ replace a with hour by (unfold hour, minute; lra); constructor
   | replace a with day by (unfold day, hour, minute; lra); constructor
   | replace a with (30 * day) by (unfold day, hour, minute; lra); constructor
   | replace a with (36525 / 100 * day) by (unfold day, hour, minute; lra); constructor ] end.
Qed.
Lemma mass_ok u k : lookup u mass_conv = Some k -> ((u = "meq" \/ u = "meq/L") /\ k = 1) \/ mass_unit u k.
Proof.
  intros H. unfold mass_conv in H. case_lookup H; unit_case H; subst k; auto; right; unfold dec;
  match goal with |- mass_unit _ ?a => first [ constructor | replace a with (1/1000) by lra; constructor | replace a with (1/1000000) by lra; constructor] end.
Qed.

(** ** Columns *)
Lemma convert_err f ions cins e :
  fold_left (fun acc i => do out <- acc; do k <- f i; do col <- of_option KeyError (lookup (i_name i) cins);
                          Ok (update (i_name i) (map (fun v => v * k) col) out)) ions (Err e : res frame) = Err e.
Proof. induction ions; cbn; auto. Qed.
Lemma convert_fold f cins : forall ions acc out, NoDup (map i_name ions) ->
  fold_left (fun acc i => do out <- acc; do k <- f i; do col <- of_option KeyError (lookup (i_name i) cins);
                          Ok (update (i_name i) (map (fun v => v * k) col) out)) ions (Ok acc : res frame) = Ok out ->
  keys acc = keys cins ->
  keys out = keys cins /\
  (forall i, In i ions -> exists k col, f i = Ok k /\ lookup (i_name i) cins = Some col /\ lookup (i_name i) out = Some (map (fun v => v * k) col)) /\
  (forall n, ~ In n (map i_name ions) -> lookup n out = lookup n acc).
Proof.
  induction ions as [|a ions IH]; intros acc out ND H HK; cbn [fold_left] in H.
  - assert (acc = out) by congruence. subst. split; [exact HK|]. split; [intros i []|reflexivity].
  - cbn [map] in ND. inversion ND as [|x l N1 N2]; subst. cbn [bind] in H.
    destruct (f a) as [k|e] eqn:Ef; [|cbn in H; rewrite convert_err in H; discriminate].
    cbn [bind] in H. destruct (lookup (i_name a) cins) as [col|] eqn:El; [|cbn in H; rewrite convert_err in H; discriminate].
    cbn [bind of_option] in H.
    destruct (IH _ _ N2 H) as (K & A & B).
    { destruct (lookup (i_name a) acc) eqn:Ea.
      - erewrite keys_update_present; eauto.
      - exfalso. apply lookup_in in El. rewrite <- HK in El. destruct (lookup_mem _ _ El). congruence. }
    split; [exact K|]. split.
    + intros i [<-|Hi]; [|apply A, Hi]. exists k, col. split; [exact Ef|]. split; [exact El|].
      rewrite B by exact N1. apply lookup_update_eq.
    + intros n Hn. cbn [map In] in Hn. rewrite B by tauto. apply lookup_update_neq. intros E. apply Hn. left. congruence.
Qed.
Lemma convert_columns_ok f ions cins out : NoDup (map i_name ions) -> convert_columns f ions cins = Ok out ->
  keys out = keys cins /\
  (forall i, In i ions -> exists k col, f i = Ok k /\ lookup (i_name i) cins = Some col /\ lookup (i_name i) out = Some (map (fun v => v * k) col)) /\
  (forall n, ~ In n (map i_name ions) -> lookup n out = lookup n cins).
Proof. intros ND H. apply (convert_fold f cins ions cins out ND H eq_refl). Qed.

Lemma nth_error_key {A} (d : list (string * A)) k n : NoDup (keys d) -> nth_error (keys d) k = Some n ->
  exists v, nth_error d k = Some (n, v) /\ lookup n d = Some v.
Proof.
  intros ND H. unfold keys in H. rewrite nth_error_map in H. destruct (nth_error d k) as [[m v]|] eqn:E; cbn in H; [|discriminate].
  assert (m = n) by congruence. subst. exists v. split; [reflexivity|].
  clear H. revert k E. induction d as [|[m w] d IH]; intros [|k] E; cbn in E |- *; try discriminate.
  - assert (m = n /\ w = v) as (-> & ->) by (split; congruence). rewrite String.eqb_refl. reflexivity.
  - inversion ND as [|x l N1 N2]; subst. destruct (String.eqb_spec n m) as [->|N].
    + exfalso. apply N1. unfold keys. apply (in_map fst) with (x := (m, v)). eapply nth_error_In, E.
    + apply (IH N2 k E).
Qed.
