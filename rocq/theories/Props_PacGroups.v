(** Property C179: the groups a powdered-carbon study prints are those of its transport. *)
From Coq Require Import Reals List Arith Bool String Lra Lia.
From Verif Require Import Lib_Py Lib_Pow M_GacFun P_GacFun M_Pac.
Import ListNotations.
Open Scope R_scope.
Open Scope string_scope.

(** The column of a compound in a new study: its entries are computed from its own values, the
    influent in ug/L and the dose. *)
Inductive micrograms_per_litre : string -> R -> Prop :=
| c_ug : micrograms_per_litre "ug" 1 | c_ugl : micrograms_per_litre "ug/L" 1
| c_ng : micrograms_per_litre "ng" (1 / 1000) | c_ngl : micrograms_per_litre "ng/L" (1 / 1000)
| c_mg : micrograms_per_litre "mg" 1000 | c_mgl : micrograms_per_litre "mg/L" 1000.
Lemma units_ok u k : lookup u conc_convert = Some k -> micrograms_per_litre u k.
Proof.
  unfold conc_convert. cbn [lookup].
  repeat match goal with |- context [String.eqb ?x u] => destruct (String.eqb_spec x u) as [<-|?]
                       | |- context [String.eqb u ?x] => destruct (String.eqb_spec u x) as [->|?] end;
  intros H; try discriminate; injection H as <-; try (replace (dec 1 3) with (1 / 1000) by (unfold dec; simpl; field)); constructor.
Qed.
Lemma column f d T l o : create f d T l = Ok o -> forall n c g, In (n, (c, g)) (p_table o) ->
  In (n, c) l /\ exists k, micrograms_per_litre (C0_units c) k /\ g = derive f (1 - d / (f_dw f * 10 ^ 6)) k c.
Proof.
  unfold create. destruct (conv_array l) as [cv|] eqn:E; [|discriminate]. cbn [bind]. intros H n c g I.
  match type of H with Ok ?A = _ => assert (o = A) as -> by congruence end. cbn [update_values p_table p_conv p_dosage] in I.
  clear H. revert cv E I. induction l as [|(m & e) l IH]; intros cv E I; [destruct I|]. cbn [conv_array] in E.
  destruct (lookup (C0_units e) conc_convert) as [k|] eqn:Q; [|discriminate]. cbn [of_option bind] in E. destruct (conv_array l) as [ks|] eqn:W; [|discriminate].
  cbn [bind] in E. assert (cv = k :: ks) as -> by congruence. cbn [map combine fst snd] in I. destruct I as [I|I].
  - match type of I with (_, (_, ?x)) = _ => assert (n = m) as -> by congruence; assert (c = e) as -> by congruence; assert (g = x) as -> by congruence end. split; [left; reflexivity|]. exists k. split; [apply units_ok, Q|reflexivity].
  - destruct (IH _ eq_refl I) as (A & B). split; [right; exact A|exact B].
Qed.

(** What is in the grains per litre of grain when they are in equilibrium with the influent: on
    the carbon, K c0^(1/n) ug per gram, and in its pores. *)
Definition on_carbon (f : carbon) (c : comp) (c0 : R) : R := f_density f * 1000 * (K c * rpow c0 (xn c)).
Definition in_pores (f : carbon) (c0 : R) : R := f_porosity f * c0.

(** A litre of suspension holds [eps] of water and [1 - eps] of grains.  The distribution numbers
    are the amounts in the grains over the amount in the water, and Ye is the amount in the
    grains per gram of carbon. *)
Theorem C179_distribution : forall f d T l o n c g, create f d T l = Ok o -> In (n, (c, g)) (p_table o) ->
  0 < f_density f -> 0 < f_dw f -> 0 < d < f_dw f * 1000000 -> 0 < C0 c ->
  exists k, micrograms_per_litre (C0_units c) k /\
  let c0 := C0 c * k in let grains := d / (f_dw f * 1000000) in let water := 1 - grains in
  0 < grains < 1 /\
  d_qe g = K c * rpow c0 (xn c) /\
  d_Dgs g = grains * on_carbon f c c0 / (water * c0) /\
  d_Dgp g = grains * in_pores f c0 / (water * c0) /\
  d_Dg g = grains * (on_carbon f c c0 + in_pores f c0) / (water * c0) /\
  d_Ye g = (on_carbon f c c0 + in_pores f c0) / (f_density f * 1000).
Proof.
  intros f d T l o n c g H I Hd Hw D HC. destruct (column _ _ _ _ _ H _ _ _ I) as (_ & k & U & ->). exists k. split; [exact U|].
  assert (Hk : 0 < k) by (destruct U; lra). replace (10 ^ 6) with 1000000 by ring. cbv zeta.
  assert (G : 0 < d / (f_dw f * 1000000) < 1).
  { split; [apply Rdiv_lt_0_compat; lra|]. apply (Rmult_lt_reg_r (f_dw f * 1000000)); [lra|]. unfold Rdiv. rewrite Rmult_assoc, Rinv_l; lra. }
  set (gr := d / (f_dw f * 1000000)) in *. assert (HP : 0 < C0 c * k) by nra.
  unfold derive, on_carbon, in_pores. cbn [d_qe d_Dgs d_Dgp d_Dg d_Ye]. set (q := K c * rpow (C0 c * k) (xn c)). clearbody q gr.
  split; [exact G|]. repeat split; field; repeat split; lra.
Qed.

(** X is the surface-diffusion time scale, and X + Z the one of both ways of diffusing together,
    each weighted with its own share of the capacity. *)
Theorem C179_diffusion : forall f d T l o n c g, create f d T l = Ok o -> In (n, (c, g)) (p_table o) ->
  0 < f_radius f -> d_Dg g <> 0 ->
  d_X g = Ds c * f_hrt f / (f_radius f) ^ 2 /\
  (d_X g + d_Z g) * d_Dg g = (Ds c * d_Dgs g + Dp c * d_Dgp g) * f_hrt f / (f_radius f) ^ 2.
Proof.
  intros f d T l o n c g H I HR HD. destruct (column _ _ _ _ _ H _ _ _ I) as (_ & k & U & ->).
  unfold derive in *. cbn [d_X d_Z d_Dg d_Dgs d_Dgp] in *.
  match goal with |- context [(_ + _) * (?a + ?b)] => set (A := a) in *; set (B := b) in * end. clearbody A B.
  split; field; repeat split; lra.
Qed.

(** The Biot number weighs surface diffusion with the whole capacity, although pores do not take
    part in it: it is smaller than film transfer over diffusion in the grains, and equal only
    without surface diffusion or without pores. *)
Theorem C179_biot_partial : forall f d T l o n c g, create f d T l = Ok o -> In (n, (c, g)) (p_table o) ->
  Ds c = 0 \/ f_porosity f = 0 ->
  let grains := d / (f_dw f * 1000000) in let water := 1 - grains in
  d_Bi g = kf c * f_radius f * grains / (water * (Ds c * d_Dgs g + Dp c * d_Dgp g)).
Proof.
  intros f d T l o n c g H I Z. destruct (column _ _ _ _ _ H _ _ _ I) as (_ & k & U & ->). cbv zeta. unfold derive. cbn [d_Bi d_Dgs d_Dgp].
  replace (10 ^ 6) with 1000000 by ring. set (gr := d / (f_dw f * 1000000)). clearbody gr.
  replace (1 - (1 - gr)) with gr by ring.
  match goal with |- context [Ds c * (?a + ?b)] => replace (Ds c * (a + b)) with (Ds c * a) end.
  - f_equal. ring.
  - destruct Z as [Z|Z]; rewrite Z; unfold Rdiv; ring.
Qed.
Theorem C179_biot_refuted : forall f d T l o n c g, create f d T l = Ok o -> In (n, (c, g)) (p_table o) ->
  0 < f_density f -> 0 < f_porosity f -> 0 < f_radius f -> 0 < f_dw f -> 0 < d < f_dw f * 1000000 -> 0 < C0 c -> 0 < K c -> 0 < kf c -> 0 < Ds c -> 0 <= Dp c ->
  let grains := d / (f_dw f * 1000000) in let water := 1 - grains in
  d_Bi g < kf c * f_radius f * grains / (water * (Ds c * d_Dgs g + Dp c * d_Dgp g)).
Proof.
  intros f d T l o n c g H I Hd Hp HR Hw D HC HK Hkf HDs HDp. destruct (column _ _ _ _ _ H _ _ _ I) as (_ & k & U & ->). cbv zeta. unfold derive. cbn [d_Bi d_Dgs d_Dgp].
  assert (Hk : 0 < k) by (destruct U; lra). replace (10 ^ 6) with 1000000 by ring.
  assert (G : 0 < d / (f_dw f * 1000000) < 1).
  { split; [apply Rdiv_lt_0_compat; lra|]. apply (Rmult_lt_reg_r (f_dw f * 1000000)); [lra|]. unfold Rdiv. rewrite Rmult_assoc, Rinv_l; lra. }
  set (gr := d / (f_dw f * 1000000)) in *. clearbody gr. assert (HP : 0 < C0 c * k) by nra.
  assert (HQ := rpow_pos (C0 c * k) (xn c) HP).
  replace (1 - (1 - gr)) with gr by ring.
  match goal with |- context [Ds c * (?a + ?b)] => assert (HA : 0 < a); [|assert (HB : 0 < b); [|set (A := a) in *; set (B := b) in *]] end.
  - apply Rdiv_lt_0_compat; [|nra]. repeat apply Rmult_lt_0_compat; lra.
  - apply Rdiv_lt_0_compat; nra.
  - clearbody A B. replace (f_radius f * kf c * gr) with (kf c * f_radius f * gr) by ring.
    assert (0 < kf c * f_radius f * gr) by (repeat apply Rmult_lt_0_compat; lra).
    unfold Rdiv. apply Rmult_lt_compat_l; [assumption|]. assert (0 < Ds c * A) by nra. assert (0 < Ds c * B) by nra. assert (0 <= Dp c * B) by nra.
    apply Rinv_lt_contravar; [apply Rmult_lt_0_compat; apply Rmult_lt_0_compat; lra|]. apply Rmult_lt_compat_l; lra.
Qed.

(** A study of one compound: 2 g of carbon in 100 mL of water and grains. *)
Definition ex_f : carbon := {| f_density := 1 / 2; f_porosity := 1 / 4; f_radius := 1 / 100; f_dw := 1; f_hrt := 600 |}.
Definition ex_c : comp := {| K := 3; xn := 1; kf := 1 / 100; Dp := 1 / 10 ^ 6; Ds := 1 / 10 ^ 9; C0 := 2; C0_units := "mg/L" |}.
Example C179_met : exists o g, create ex_f 20000 60 [("TCE", ex_c)] = Ok o /\ In ("TCE", (ex_c, g)) (p_table o) /\
  0 < 20000 < f_dw ex_f * 1000000 /\ 0 < C0 ex_c /\ d_Dg g <> 0 /\ micrograms_per_litre (C0_units ex_c) 1000.
Proof.
  eexists _, _. split; [reflexivity|]. split; [left; reflexivity|]. cbn [ex_f ex_c f_dw C0 C0_units]. split; [lra|]. split; [lra|]. split; [|constructor].
  unfold derive. cbn [d_Dg f_density f_porosity K xn C0 ex_f ex_c]. unfold eps_of. cbn [p_dosage f_dw]. cbn [snd ex_c ex_f K C0 xn f_dw]. rewrite rpow_1 by lra. simpl. apply Rgt_not_eq.
  match goal with |- ?x > 0 => replace x with (500 * 6000 * (20000 / 1000000) / ((1 - 20000 / 1000000) * 2000) + 1 / 4 * (20000 / 1000000) / (1 - 20000 / 1000000)) by field end.
  lra.
Qed.
Print Assumptions C179_distribution.
Print Assumptions C179_diffusion.
Print Assumptions C179_biot_partial.
Print Assumptions C179_biot_refuted.
