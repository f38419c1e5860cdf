(** Properties C51, C52, C79 and C156: large columns and rapid small-scale columns. *)
From Coq Require Import Reals ZArith List Bool String Lra Lia.
From Verif Require Import Lib_Py Lib_Pow M_GacSheet M_Extra.
Import ListNotations.
Open Scope R_scope.
Open Scope string_scope.

(** ** Vocabulary *)
(** Cross-section in cm2 of a bed of diameter [d] cm; cm/min from m/h. *)
Definition section_of (d : R) : R := PI * (d / 2) ^ 2.
Definition cm_per_min (v : R) : R := v * 100 / 60.

(** Sizes of units in cm, cm3/min, g and days, from their definitions. *)
Definition inch : R := 254 / 100.
Definition foot : R := 12 * inch.
Definition yard : R := 3 * foot.
Definition gallon : R := 231 * inch ^ 3.
Definition pound : R := 45359237 / 100000.
Definition minute : R := 1 / 1440.
Definition length_units : list (string * R) :=
  [("cm", 1); ("m", 100); ("mm", 1 / 10); ("in", inch); ("ft", foot); ("yd", yard); ("yard", yard)].
Definition flow_units : list (string * R) :=
  [("cm3/min", 1); ("ml/min", 1); ("m3/min", 100 ^ 3); ("mm3/min", (1 / 10) ^ 3); ("in3/min", inch ^ 3); ("ft3/min", foot ^ 3);
   ("lpm", 1000); ("l/min", 1000); ("gpm", gallon); ("gal/min", gallon); ("mgd", 10 ^ 6 * gallon * minute);
   ("m3/day", 100 ^ 3 * minute); ("m3pd", 100 ^ 3 * minute)].
Definition mass_units : list (string * R) :=
  [("g", 1); ("gm", 1); ("grams", 1); ("kg", 1000); ("lb", pound); ("pounds", pound); ("ton", 2000 * pound); ("tons", 2000 * pound);
   ("mton", 1000 * 1000); ("metric tons", 1000 * 1000)].
Definition time_units : list (string * R) :=
  [("day", 1); ("days", 1); ("d", 1); ("min", minute); ("hr", 60 * minute); ("hours", 60 * minute); ("h", 60 * minute);
   ("s", minute / 60); ("sec", minute / 60)].
(** filtration velocities in m/h *)
Definition velocity_units : list (string * R) :=
  [("m/h", 1); ("m/hr", 1); ("gpm/ft2", gallon / foot ^ 2 * 60 / 100); ("cm/s", 3600 / 100)].

(** ** C79: every accepted unit has its true size, any other gives a missing value *)
Definition exact (conv : R -> string -> num) (units : list (string * R)) : Prop :=
  forall x u, conv x u = match lookup (lower u) units with Some f => Some (x * f) | None => None end.
Ltac units := intros x u; generalize (lower u); intros v; cbn [lookup length_units flow_units mass_units time_units velocity_units];
  repeat match goal with |- context [String.eqb v ?s] =>
    destruct (String.eqb_spec v s) as [-> |?];
    [cbn -[pow Rmult Rdiv]; unfold mulN, divN; cbn [map2]; f_equal; unfold dec, gallon, yard, foot, inch, pound, minute; field|cbn [orb]] end;
  try reflexivity.
Theorem C79_lengths : exact length_convert2cm length_units.
Proof. unfold exact, length_convert2cm. units. Qed.
Theorem C79_flows : exact flrt_convert2cm3min flow_units.
Proof. unfold exact, flrt_convert2cm3min. units. Qed.
Theorem C79_masses : exact mass_convert2g mass_units.
Proof. unfold exact, mass_convert2g. units. Qed.
Theorem C79_times : exact time_convert2day time_units.
Proof. unfold exact, time_convert2day. units. Qed.
Lemma minute_v : time_convert2day 1 "min" = Some minute. Proof. rewrite C79_times. change (lookup (lower "min") time_units) with (Some minute). cbv iota beta. f_equal. ring. Qed.
Lemma hour_v : time_convert2day 1 "hr" = Some (60 * minute). Proof. rewrite C79_times. change (lookup (lower "hr") time_units) with (Some (60 * minute)). cbv iota beta. f_equal. ring. Qed.
Lemma sec_v : time_convert2day 1 "s" = Some (minute / 60). Proof. rewrite C79_times. change (lookup (lower "s") time_units) with (Some (minute / 60)). cbv iota beta. f_equal. ring. Qed.
Lemma metre_v : length_convert2cm 1 "m" = Some 100. Proof. rewrite C79_lengths. change (lookup (lower "m") length_units) with (Some 100). cbv iota beta. f_equal. ring. Qed.
Lemma mm_x x : length_convert2cm x "mm" = Some (x / 10). Proof. reflexivity. Qed.
Lemma mm_v : length_convert2cm 1 "mm" = Some (1 / 10). Proof. rewrite C79_lengths. change (lookup (lower "mm") length_units) with (Some (1 / 10)). cbv iota beta. f_equal. ring. Qed.
Lemma litre_v : flrt_convert2cm3min 1 "lpm" = Some 1000. Proof. rewrite C79_flows. change (lookup (lower "lpm") flow_units) with (Some 1000). cbv iota beta. f_equal. ring. Qed.
Lemma minhr_v : minhr = Some (1 / 60).
Proof. unfold minhr. rewrite minute_v, hour_v. cbn. f_equal. unfold minute. field. Qed.
Theorem C79_velocities : exact (fun x u => loading_cell (InUnit x u)) velocity_units.
Proof.
  unfold exact, loading_cell. rewrite hour_v, sec_v, metre_v. units.
Qed.
(** Bulk densities in g/ml, the pound per cubic foot to twelve digits. *)
Theorem C79_densities : forall x u,
  match density_cell x u with
  | Some d => (In (lower u) ["g/ml"; "gm/ml"; "g/cm3"; "gm/cm3"] /\ d = x) \/
      (lower u = "lb/ft3" /\ Rabs (d - x * (pound / foot ^ 3)) <= Rabs x * (pound / foot ^ 3) / 10 ^ 12)
  | None => ~ In (lower u) ["g/ml"; "gm/ml"; "g/cm3"; "gm/cm3"; "lb/ft3"]
  end.
Proof.
  intros x u. unfold density_cell. cbv zeta. generalize (lower u). intros v.
  destruct (String.eqb_spec v "gm/ml") as [-> |A]; cbn [orb]; [left; split; [cbn; auto|reflexivity]|].
  destruct (String.eqb_spec v "g/ml") as [-> |B]; cbn [orb]; [left; split; [cbn; auto|reflexivity]|].
  destruct (String.eqb_spec v "gm/cm3") as [-> |C]; cbn [orb]; [left; split; [cbn; auto|reflexivity]|].
  destruct (String.eqb_spec v "g/cm3") as [-> |D]; cbn [orb]; [left; split; [cbn; auto|reflexivity]|].
  destruct (String.eqb_spec v "lb/ft3") as [-> |E].
  - right. split; [reflexivity|]. unfold pound, foot, inch, dec.
    match goal with |- Rabs ?a <= _ => replace a with (x * (1 / (624279605761 / 10 ^ 10) - 45359237 / 100000 / (12 * (254 / 100)) ^ 3)) by field end.
    rewrite Rabs_mult. set (k := 45359237 / 100000 / (12 * (254 / 100)) ^ 3). replace (Rabs x * k / 10 ^ 12) with (Rabs x * (k / 10 ^ 12)) by field.
    apply Rmult_le_compat_l; [apply Rabs_pos|].
    apply Rabs_le. unfold k. split; lra.
  - cbn. intuition congruence.
Qed.

(** ** C51 *)
(** The large column: contact time is bed volume over flow, and flow is velocity times
    section, whether the flow or the velocity was given. *)
Theorem C51_large_column : forall a l d q, let lc := build_large_scale_column a in
  l_L lc = Some l -> l_diam lc = Some d -> l_flrt lc = Some q -> 0 < d ->
  l_ebct lc = Some (l * section_of d / q) /\
  exists v, l_loading lc = Some v /\ cm_per_min v * section_of d = q.
Proof.
  intros a l d q lc HL HD HQ Hd. pose proof PI_RGT_0 as HP.
  assert (HS : PI / 4 * d ^ 2 = section_of d) by (unfold section_of; field).
  assert (S0 : 0 < section_of d) by (unfold section_of; apply Rmult_lt_0_compat; [exact HP|apply pow_lt; lra]).
  unfold lc, build_large_scale_column in *. rewrite minhr_v, metre_v in *.
  destruct (a_flrt a) as [fq|], (a_loading a) as [v|]; cbn [l_L l_diam l_flrt l_ebct l_loading] in *; rewrite ?HL, ?HD, ?HQ in *;
    unfold area, mulN, divN in *; cbn [map1 map2] in *; rewrite ?HS in *; try discriminate HQ.
  1,2: split; [reflexivity|]; eexists; split; [reflexivity|]; unfold cm_per_min; field; lra.
  destruct (loading_cell v) as [r|]; cbn [map2] in *; [|discriminate HQ]. injection HQ as HQ.
  split; [rewrite <- HQ; reflexivity|]. exists r. split; [reflexivity|]. unfold cm_per_min. lra.
Qed.

(** Every entry comes from its own argument: a plain number as it is, a number with a unit
    by the size of the unit. *)
Definition entered (units : list (string * R)) (a : option quant) (x : num) : Prop :=
  match a with
  | None => x = None
  | Some (Plain y) => x = Some y
  | Some (InUnit y u) => forall f, lookup (lower u) units = Some f -> x = Some (y * f)
  end.
Theorem C51_entries : forall a, let lc := build_large_scale_column a in
  entered length_units (a_L a) (l_L lc) /\ entered length_units (a_diam a) (l_diam lc) /\
  (a_flrt a <> None -> entered flow_units (a_flrt a) (l_flrt lc)) /\
  (a_flrt a = None -> a_loading a <> None -> entered velocity_units (a_loading a) (l_loading lc)) /\
  entered mass_units (a_mass a) (l_mass lc) /\ entered time_units (a_time a) (l_time lc) /\
  (forall y, a_part a = Some (Plain y) -> l_part lc = Some y) /\
  (forall y, a_density a = Some (Plain y) -> l_density lc = Some y) /\
  (forall cd part mesh x, entered length_units cd (s_diam (calc_RSSCT_specs lc cd part mesh x))) /\
  (forall cd y mesh x, s_part (calc_RSSCT_specs lc cd (Some (Plain y)) mesh x) = Some y).
Proof.
  assert (C : forall units conv a, exact conv units -> entered units a (cell conv a)).
  { intros units conv [[y|y u]|] X; cbn; try reflexivity. intros f H. rewrite X, H. reflexivity. }
  intros a. cbv zeta. unfold build_large_scale_column. split; [|split; [|split; [|split; [|split; [|split; [|split; [|split; [|split]]]]]]]].
  - destruct (a_flrt a), (a_loading a); apply C, C79_lengths.
  - destruct (a_flrt a), (a_loading a); apply C, C79_lengths.
  - intros H. destruct (a_flrt a) as [q|]; [|congruence]. destruct (a_loading a); apply (C _ _ (Some q)), C79_flows.
  - intros H H'. rewrite H. destruct (a_loading a) as [[y|y u]|]; [| |congruence]; cbn [l_loading entered]; [reflexivity|].
    intros f E. pose proof (C79_velocities y u) as V. rewrite E in V. cbv beta in V. rewrite V. reflexivity.
  - destruct (a_flrt a), (a_loading a); apply C, C79_masses.
  - destruct (a_flrt a), (a_loading a); apply C, C79_times.
  - intros y H. destruct (a_flrt a), (a_loading a); cbn [l_part]; rewrite H; reflexivity.
  - intros y H. destruct (a_flrt a), (a_loading a); cbn [l_density]; rewrite H; reflexivity.
  - intros cd part mesh x. unfold calc_RSSCT_specs. destruct part as [[|]|]; [| |destruct mesh]; apply C, C79_lengths.
  - intros cd y mesh x. reflexivity.
Qed.

(** The small column of any large one whose entries are known and positive. *)
Record known_large (lc : large) (E T V P rho : R) : Prop := {
  kE : l_ebct lc = Some E; kT : l_time lc = Some T; kV : l_loading lc = Some V; kP : l_part lc = Some P; kR : l_density lc = Some rho;
  pE : 0 < E; pV : 0 < V; pP : 0 < P }.
Record known_small (s : small) (d len p E T v q m w : R) : Prop := {
  kd : s_diam s = Some d; kl : s_length s = Some len; kp : s_part s = Some p; ke : s_ebct s = Some E; kt : s_time s = Some T;
  kv : s_loading s = Some v; kq : s_Q s = Some q; km : s_mass s = Some m; kw : s_water s = Some w }.
Theorem C51_scaling : forall lc E T V P rho cd particle mesh x d p,
  known_large lc E T V P rho ->
  let sc := calc_RSSCT_specs lc cd particle mesh x in
  s_diam sc = Some d -> s_part sc = Some p -> 0 < d -> 0 < p ->
  exists len e t v q m w, known_small sc d len p e t v q m w /\
    (* the scaling laws *)
    e / E = rpow (p / P) (2 - x) /\ t * E = T * e /\ v * p = V * P /\
    (* geometry: length from velocity and contact time, flow, mass and water volume *)
    len = cm_per_min v * e /\ q = cm_per_min v * section_of d /\ q * e = section_of d * len /\
    m = rho * (section_of d * len) /\ w = q * (t / minute) / 1000.
Proof.
  intros lc E T V P rho cd particle mesh x d p [kE kT kV kP kR pE pV pP] sc HD HP Hd Hp.
  assert (HS : PI / 4 * d ^ 2 = section_of d) by (unfold section_of; field).
  set (A := rpow p (2 - x)). set (B := rpow P (2 - x)). assert (A0 : 0 < A) by (apply rpow_pos; exact Hp). assert (B0 : 0 < B) by (apply rpow_pos; exact pP).
  assert (R1 : rpow (p / P) (2 - x) = A / B).
  { assert (0 < p / P) by (apply Rdiv_lt_0_compat; assumption). unfold A, B. apply (Rmult_eq_reg_r (rpow P (2 - x))); [|fold B; lra].
    rewrite <- rpow_mult by assumption. replace (p / P * P) with p by (field; lra). fold A B. field. lra. }
  rewrite R1. exists (cm_per_min (V * P / p) * (E * A / B)), (E * A / B), (T * A / B), (V * P / p), (cm_per_min (V * P / p) * section_of d),
    (rho * (section_of d * (cm_per_min (V * P / p) * (E * A / B)))), (cm_per_min (V * P / p) * section_of d * ((T * A / B) / minute) / 1000).
  split.
  - unfold sc, calc_RSSCT_specs in *. rewrite minute_v, hour_v, metre_v, litre_v, kE, kT, kV, kP, kR in *.
    destruct particle as [[y|y u]|]; [| |destruct mesh as [me|]]; cbn [s_diam s_part] in HD, HP; try discriminate HP; rewrite ?HP; rewrite HD;
      unfold area, mulN, divN; cbn [map1 map2]; try (injection HP as HP; rewrite HP);
      (constructor; cbn [s_diam s_length s_part s_ebct s_time s_loading s_Q s_mass s_water map1 map2]; fold A B; rewrite ?HS; f_equal;
       unfold cm_per_min, minute; field; repeat split; lra).
  - unfold cm_per_min. repeat split; try (field; repeat split; lra); ring.
Qed.
(** So the small column treats as many bed volumes as the large one. *)
Corollary C51_bed_volumes : forall lc E T V P rho cd particle mesh x d p,
  known_large lc E T V P rho ->
  let sc := calc_RSSCT_specs lc cd particle mesh x in
  s_diam sc = Some d -> s_part sc = Some p -> 0 < d -> 0 < p ->
  exists e t len w, s_ebct sc = Some e /\ s_time sc = Some t /\ s_length sc = Some len /\ s_water sc = Some w /\
    t / e = T / E /\ w * 1000 / (section_of d * len) = T / minute / E.
Proof.
  intros lc E T V P rho cd particle mesh x d p K sc HD HP Hd Hp.
  destruct (C51_scaling lc E T V P rho cd particle mesh x d p K HD HP Hd Hp) as (len & e & t & v & q & m & w & KS & L1 & L2 & L3 & G1 & G2 & G3 & G4 & G5).
  exists e, t, len, w. destruct KS. repeat split; try assumption. 
  all: assert (HE : 0 < E) by apply K.
  all: assert (e0 : 0 < e) by (assert (0 < rpow (p / P) (2 - x)) by (apply rpow_pos, Rdiv_lt_0_compat; [exact Hp|apply K]); rewrite <- L1 in *;
         replace e with (e / E * E) by (field; lra); apply Rmult_lt_0_compat; lra).
  - apply (Rmult_eq_reg_r (e * E)); [|apply Rgt_not_eq, Rmult_lt_0_compat; lra]. replace (t / e * (e * E)) with (t * E) by (field; lra). rewrite L2. field. lra.
  - rewrite <- G3, G5.
    assert (0 < q). { rewrite G2. apply Rmult_lt_0_compat; [unfold cm_per_min|unfold section_of; apply Rmult_lt_0_compat; [apply PI_RGT_0|apply pow_lt; lra]].
      assert (0 < v) by (replace v with (V * P / p) by (rewrite <- L3; field; lra); destruct K; apply Rdiv_lt_0_compat; [apply Rmult_lt_0_compat|]; lra). lra. }
    replace (q * (t / minute) / 1000 * 1000 / (q * e)) with (t * E / minute / (e * E)) by (unfold minute; field; repeat split; lra).
    rewrite L2. unfold minute. field. split; lra.
Qed.

(** ** C52 *)
(** Explicit units agree with one another, in the large and in the small column. *)
Theorem C52_explicit_units_partial : forall x u f x' u' f', lookup (lower u) length_units = Some f -> lookup (lower u') length_units = Some f' ->
  x * f = x' * f' ->
  (forall L dm fl lo de ma ti me,
     build_large_scale_column {| a_L := L; a_diam := dm; a_flrt := fl; a_loading := lo; a_density := de; a_mass := ma; a_time := ti; a_part := Some (InUnit x u); a_mesh := me |} =
     build_large_scale_column {| a_L := L; a_diam := dm; a_flrt := fl; a_loading := lo; a_density := de; a_mass := ma; a_time := ti; a_part := Some (InUnit x' u'); a_mesh := me |}) /\
  (forall lc cd me pw, calc_RSSCT_specs lc cd (Some (InUnit x u)) me pw = calc_RSSCT_specs lc cd (Some (InUnit x' u')) me pw).
Proof.
  intros x u f x' u' f' H H' E.
  assert (C : length_convert2cm x u = length_convert2cm x' u') by (rewrite !C79_lengths, H, H', E; reflexivity).
  split; intros; [unfold build_large_scale_column; cbn [a_part a_L a_diam a_flrt a_loading a_density a_mass a_time a_mesh cell]|unfold calc_RSSCT_specs]; rewrite C; reflexivity.
Qed.
(** A plain number and a mesh are both in mm. *)
Theorem C52_mesh_partial : forall m,
  (forall L dm fl lo de ma ti,
     build_large_scale_column {| a_L := L; a_diam := dm; a_flrt := fl; a_loading := lo; a_density := de; a_mass := ma; a_time := ti; a_part := None; a_mesh := Some m |} =
     build_large_scale_column {| a_L := L; a_diam := dm; a_flrt := fl; a_loading := lo; a_density := de; a_mass := ma; a_time := ti; a_part := Some (Plain (calc_mesh_diameter m)); a_mesh := None |}) /\
  (forall lc cd pw, calc_RSSCT_specs lc cd None (Some m) pw = calc_RSSCT_specs lc cd (Some (Plain (calc_mesh_diameter m))) None pw).
Proof. intros m. split; reflexivity. Qed.
(** But a number in mm and the same number with the unit mm never give the same design. *)
Theorem C52_large_refuted : forall a x, 0 < x ->
  let with_part p := {| a_L := a_L a; a_diam := a_diam a; a_flrt := a_flrt a; a_loading := a_loading a; a_density := a_density a;
                        a_mass := a_mass a; a_time := a_time a; a_part := Some p; a_mesh := a_mesh a |} in
  l_part (build_large_scale_column (with_part (Plain x))) = Some x /\
  l_part (build_large_scale_column (with_part (InUnit x "mm"))) = Some (x / 10).
Proof.
  intros a x Hx w. unfold w, build_large_scale_column. cbn [a_part a_flrt a_loading].
  destruct (a_flrt a), (a_loading a); split; reflexivity.
Qed.
Theorem C52_small_refuted : forall lc E T V P rho cd x pw, known_large lc E T V P rho -> 0 < x ->
  let plain := calc_RSSCT_specs lc cd (Some (Plain x)) None pw in
  let unit := calc_RSSCT_specs lc cd (Some (InUnit x "mm")) None pw in
  exists v, s_loading plain = Some v /\ s_loading unit = Some (100 * v) /\ s_part unit = Some (x / 100) /\ s_loading unit <> s_loading plain.
Proof.
  intros lc E T V P rho cd x pw [kE kT kV kP kR pE pV pP] Hx plain unit. exists (V * P / x).
  assert (A : s_loading plain = Some (V * P / x)) by (unfold plain, calc_RSSCT_specs; cbn [s_loading]; rewrite kV, kP; reflexivity).
  assert (B : s_loading unit = Some (100 * (V * P / x))).
  { unfold unit, calc_RSSCT_specs. cbn [s_loading]. rewrite kV, kP, !mm_x. unfold mulN, divN. cbn [map2]. f_equal. field. lra. }
  split; [exact A|]. split; [exact B|]. split; [unfold unit, calc_RSSCT_specs; cbn [s_part]; rewrite !mm_x; unfold mulN; cbn [map2]; f_equal; field|].
  rewrite A, B. intros H. injection H as H. assert (0 < V * P / x) by (apply Rdiv_lt_0_compat; [apply Rmult_lt_0_compat|]; assumption). lra.
Qed.

(** ** Example 15-14 of the file's own tests *)
Definition ex : largeargs := {| a_L := Some (InUnit (833 / 10) "cm"); a_diam := Some (InUnit (51 / 10) "cm"); a_flrt := Some (InUnit (1701 / 10) "mL/min");
  a_loading := None; a_density := Some (Plain (49 / 100)); a_mass := Some (InUnit (8338 / 10) "g"); a_time := Some (InUnit 100 "day");
  a_part := Some (Plain 1); a_mesh := None |}.
Example C51_example : exists E V, let lc := build_large_scale_column ex in
  l_L lc = Some (833 / 10) /\ l_diam lc = Some (51 / 10) /\ l_flrt lc = Some (1701 / 10) /\ known_large lc E 100 V 1 (49 / 100) /\
  s_diam (calc_RSSCT_specs lc (Some (InUnit (11 / 10) "cm")) (Some (Plain (21 / 100))) None 0) = Some (11 / 10).
Proof.
  cbv zeta. set (lc := build_large_scale_column ex).
  assert (L : l_L lc = Some (833 / 10)) by reflexivity. assert (D : l_diam lc = Some (51 / 10)) by reflexivity. assert (Q : l_flrt lc = Some (1701 / 10)) by reflexivity.
  destruct (C51_large_column ex _ _ _ L D Q ltac:(lra)) as (HE & v & HV & HQ).
  assert (S0 : 0 < section_of (51 / 10)) by (unfold section_of; apply Rmult_lt_0_compat; [apply PI_RGT_0|apply pow_lt; lra]).
  exists (833 / 10 * section_of (51 / 10) / (1701 / 10)), v. repeat split; try assumption; try reflexivity.
  - apply Rdiv_lt_0_compat; [apply Rmult_lt_0_compat|]; lra.
  - unfold cm_per_min in HQ. destruct (Rlt_dec 0 v) as [P|P]; [exact P|]. exfalso.
    assert (v * 100 / 60 <= 0) by lra. assert (v * 100 / 60 * section_of (51 / 10) <= 0) by (apply Rmult_le_0_r_alt || nra). lra.
  - lra.
Qed.


(** ** C156 — mesh designations *)

(** The fine series of U.S. standard sieves: openings fall by the fourth root of two from one sieve
    to the next, and sieve 18 has an opening of one millimetre. *)
Definition sieve_numbers : list string :=
  ["4"; "5"; "6"; "7"; "8"; "10"; "12"; "14"; "16"; "18"; "20"; "25"; "30"; "35"; "40"; "45"; "50"; "60"; "70"; "80"; "100";
   "120"; "140"; "170"; "200"; "230"; "270"; "325"; "400"].
Definition opening (s : string) (o : R) : Prop :=
  exists k, nth_error sieve_numbers k = Some s /\ 0 < o /\ o ^ 4 * 2 ^ k = 2 ^ 9.
Definition nominal (o t : R) : Prop :=
  Rabs (t - o) <= 1 / 100 * o /\ Rabs (t - o) <= (if Rle_dec 1 o then 5 / 1000 else 5 / 10000).

Lemma fourth_le a b : 0 < b -> a ^ 4 <= b ^ 4 -> a <= b.
Proof.
  intros Hb H. destruct (Rle_or_lt a b) as [|C]; [assumption|]. exfalso.
  assert (L : b ^ 2 < a ^ 2) by nra. assert (P : 0 < b ^ 2) by (apply pow_lt; exact Hb).
  replace (a ^ 4) with (a ^ 2 * a ^ 2) in H by ring. replace (b ^ 4) with (b ^ 2 * b ^ 2) in H by ring. nra.
Qed.
Lemma near o t P e : 0 < o -> o ^ 4 = P -> 0 < e -> 101 * e <= t -> (t - e) ^ 4 <= P <= (t + e) ^ 4 ->
  (e <= 5 / 10000 \/ e <= 5 / 1000 /\ 1 <= P) -> nominal o t.
Proof.
  intros Ho E He A (L & H) C.
  assert (X : t - e <= o) by (apply fourth_le; [exact Ho|rewrite E; exact L]).
  assert (Y : o <= t + e) by (apply fourth_le; [lra|rewrite E; exact H]).
  split; [apply Rabs_le; lra|]. destruct C as [C|(C & O)].
  - destruct (Rle_dec 1 o); apply Rabs_le; lra.
  - destruct (Rle_dec 1 o) as [|N]; [apply Rabs_le; lra|]. exfalso. apply N. apply fourth_le; [exact Ho|]. rewrite E. lra.
Qed.
Definition size_of (s : string) : R := match lookup s sizes with Some d => d | None => 0 end.
Ltac near_by Ho P e := apply (near _ _ _ e Ho P); [lra|lra|split; lra|first [left; lra|right; split; lra]].
Lemma sizes_nominal s o : opening s o -> nominal o (size_of s).
Proof.
  intros (k & N & Ho & E).
  assert (P : o ^ 4 = 512 / IZR (2 ^ Z.of_nat k)).
  { rewrite <- pow_IZR. replace 512 with (2 ^ 9) by ring. rewrite <- E. field. apply pow_nonzero. lra. }
  clear E.
  do 29 (destruct k as [|k]; [cbn [sieve_numbers nth_error] in N; apply (f_equal (fun x => match x with Some y => y | None => s end)) in N; cbn beta iota in N; subst s;
    unfold size_of; cbn [lookup sizes String.eqb Ascii.eqb Bool.eqb fst snd]; unfold dec;
    match type of P with _ = _ / IZR ?z => let v := eval vm_compute in z in change z with v in P end;
    first [near_by Ho P (5 / 1000)|near_by Ho P (5 / 10000)|near_by Ho P (4 / 10000)|near_by Ho P (3 / 10000)]|]).
  exfalso. cbn in N. destruct k; discriminate N.
Qed.

(** A mesh of two sieves of the series is the mean of two nominal openings, ... *)
Theorem C156_mesh_partial : forall a b oa ob, opening a oa -> opening b ob ->
  exists ta tb, nominal oa ta /\ nominal ob tb /\ calc_mesh_diameter (a, b) = (ta + tb) / 2.
Proof.
  intros a b oa ob A B. exists (size_of a), (size_of b).
  split; [apply sizes_nominal, A|]. split; [apply sizes_nominal, B|reflexivity].
Qed.
(** ... hence within a hundredth of the mean opening. *)
Corollary C156_mean_partial : forall a b oa ob, opening a oa -> opening b ob ->
  Rabs (calc_mesh_diameter (a, b) - (oa + ob) / 2) <= 1 / 100 * ((oa + ob) / 2).
Proof.
  intros a b oa ob A B. destruct (C156_mesh_partial a b oa ob A B) as (ta & tb & (X & _) & (Y & _) & ->).
  revert X Y. unfold Rabs. repeat destruct Rcase_abs; lra.
Qed.
(** A designation outside the series counts as an opening of zero: the design goes on with half the
    other opening. *)
Theorem C156_unknown_refuted : forall a b oa lc cd x, opening a oa -> ~ In b sieve_numbers ->
  exists ta, nominal oa ta /\ s_part (calc_RSSCT_specs lc cd None (Some (a, b)) x) = Some (ta / 2).
Proof.
  intros a b oa lc cd x A B. exists (size_of a). split; [apply sizes_nominal, A|].
  assert (Z : size_of b = 0).
  { unfold size_of. assert (G : forall l : list (string * R), ~ In b (map fst l) -> lookup b l = None).
    { induction l as [|(k, v) l IH]; [reflexivity|]. cbn [map fst In lookup]. intros N.
      destruct (String.eqb_spec b k) as [->|_]; [exfalso; apply N; left; reflexivity|]. apply IH. intros I. apply N. right. exact I. }
    rewrite G; [reflexivity|exact B]. }
  cbn [calc_RSSCT_specs s_part]. unfold calc_mesh_diameter. cbn [fst snd]. fold (size_of a). fold (size_of b). rewrite Z.
  do 2 f_equal. ring.
Qed.
Example mesh_12x40 : exists oa ob, opening "12" oa /\ opening "40" ob /\ calc_mesh_diameter ("12", "40") = 105 / 100.
Proof.
  assert (O : forall s k, nth_error sieve_numbers k = Some s -> exists o, opening s o).
  { intros s k N. exists (rpow (2 ^ 9 / 2 ^ k) (/ 4)). exists k. split; [exact N|].
    assert (P : 0 < 2 ^ 9 / 2 ^ k) by (apply Rdiv_lt_0_compat; apply pow_lt; lra).
    split; [apply rpow_pos; exact P|].
    rewrite <- rpow_INR by (apply rpow_pos; exact P). rewrite rpow_rpow by exact P.
    replace (/ 4 * INR 4) with 1 by (cbn; field). rewrite rpow_1 by lra. field. apply pow_nonzero. lra. }
  destruct (O "12" 6%nat eq_refl) as (oa & A). destruct (O "40" 14%nat eq_refl) as (ob & B). exists oa, ob.
  split; [exact A|]. split; [exact B|]. unfold calc_mesh_diameter. cbn. unfold dec. field.
Qed.
Example mesh_13_unknown : ~ In "13" sieve_numbers.
Proof. cbn. intuition discriminate. Qed.

Print Assumptions C51_large_column.
Print Assumptions C51_entries.
Print Assumptions C51_scaling.
Print Assumptions C51_bed_volumes.
Print Assumptions C52_explicit_units_partial.
Print Assumptions C52_mesh_partial.
Print Assumptions C52_large_refuted.
Print Assumptions C52_small_refuted.
Print Assumptions C79_lengths.
Print Assumptions C79_flows.
Print Assumptions C79_masses.
Print Assumptions C79_times.
Print Assumptions C79_velocities.
Print Assumptions C79_densities.
Print Assumptions C156_mesh_partial.
Print Assumptions C156_mean_partial.
Print Assumptions C156_unknown_refuted.
