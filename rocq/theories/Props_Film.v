(** C183: film-transfer correlations by name; more of C45. *)
From Coq Require Import Reals List Bool String Lra.
From Verif Require Import Lib_Py Lib_Pow M_GacFun P_GacFun Props_GacFun.
Import ListNotations.
Open Scope R_scope.
Open Scope string_scope.

(** Sherwood numbers of the compiled list that kf_calc cites (Xu et al. 2013), by Reynolds number, Schmidt number and bed porosity. *)
Definition gnielinski_1978 (re sc e : R) : R :=
  let laminar := 644 / 1000 * sqrt re * Rpower sc (1 / 3) in
  let turbulent := 37 / 1000 * Rpower re (8 / 10) * sc / (1 + 2443 / 1000 * (Rpower sc (2 / 3) - 1) / Rpower re (1 / 10)) in
  (2 + sqrt (laminar * laminar + turbulent * turbulent)) * (1 + 3 / 2 * (1 - e)).
Inductive correlation (re sc e : R) : string -> R -> Prop :=
| k_gnielinski : correlation re sc e "Gnielinski" (gnielinski_1978 re sc e)
| k_chern : correlation re sc e "Chern and Chien" ((1 + 3 / 2 * (1 - e)) * (2 + 644 / 1000 * sqrt re * Rpower sc (1 / 3)))
| k_tan : correlation re sc e "Tan et al" (11 / 10 / e * Rpower re (1 / 3) * Rpower sc (1 / 3))
| k_wilson : correlation re sc e "Wilson and Geankoplis" (109 / 100 / e * Rpower re (1 / 3) * Rpower sc (1 / 3))
| k_williamson : correlation re sc e "Williamson et al" (24 / 10 * e * Rpower re (3 / 10) * Rpower sc (42 / 100))
| k_wakao : correlation re sc e "Wakau and Funazkri" (2 + 11 / 10 * Rpower re (6 / 10) * Rpower sc (1 / 3))
| k_kataoka : correlation re sc e "Kakaoka et al" (185 / 100 * Rpower ((1 - e) / e) (1 / 3) * Rpower re (1 / 3) * Rpower sc (1 / 3))
| k_ko : correlation re sc e "Ko et al" (325 / 1000 / e * Rpower re (36 / 100) * Rpower sc (1 / 3))
| k_ohashi_slow : re < 58 / 10 -> correlation re sc e "Ohashi et al" (2 + 158 / 100 * Rpower re (4 / 10) * Rpower sc (1 / 3))
| k_ohashi : 58 / 10 <= re < 500 -> correlation re sc e "Ohashi et al" (2 + 121 / 100 * sqrt re * Rpower sc (1 / 3))
| k_ohashi_fast : 500 <= re -> correlation re sc e "Ohashi et al" (2 + 59 / 100 * Rpower re (6 / 10) * Rpower sc (1 / 3)).
Definition named : list string :=
  ["Gnielinski"; "Chern and Chien"; "Tan et al"; "Wilson and Geankoplis"; "Ohashi et al"; "Williamson et al"; "Ko et al"; "Wakau and Funazkri"; "Kakaoka et al"].

Lemma half x : 0 < x -> rpow x (dec 5 1) = sqrt x.
Proof. intros H. rewrite rpow_Rpower by exact H. rewrite <- Rpower_sqrt by exact H. f_equal. unfold dec. simpl. lra. Qed.
Lemma pow_as x y z : 0 < x -> y = z -> rpow x y = Rpower x z.
Proof. intros H ->. apply rpow_Rpower, H. Qed.
Ltac decs := unfold dec; simpl; lra.
Lemma gnielinski_eq re sc e : 0 < re -> 0 < sc -> gnielinski re sc e = gnielinski_1978 re sc e.
Proof.
  intros Hr Hs. unfold gnielinski, gnielinski_1978. cbv zeta.
  assert (L : dec 644 3 * rpow re (dec 5 1) * rpow sc (1 / 3) = 644 / 1000 * sqrt re * Rpower sc (1 / 3)).
  { rewrite (half re Hr), (rpow_Rpower sc _ Hs). unfold dec. simpl. lra. }
  assert (T : dec 37 3 * rpow re (dec 8 1) * sc / (1 + dec 2443 3 * rpow re (dec (-1) 1) * (rpow sc (2 / 3) - 1)) =
    37 / 1000 * Rpower re (8 / 10) * sc / (1 + 2443 / 1000 * (Rpower sc (2 / 3) - 1) / Rpower re (1 / 10))).
  { rewrite (rpow_Rpower sc _ Hs), (pow_as re (dec 8 1) (8 / 10)) by (exact Hr || decs). rewrite (pow_as re (dec (-1) 1) (- (1 / 10))) by (exact Hr || decs).
    rewrite Rpower_Ropp. unfold dec, Rdiv. simpl. f_equal; [lra|]. f_equal. lra. }
  rewrite L, T. set (l := 644 / 1000 * sqrt re * Rpower sc (1 / 3)). set (t := 37 / 1000 * _ * _ / _).
  assert (P : 0 < l) by (unfold l; apply Rmult_lt_0_compat; [apply Rmult_lt_0_compat; [lra|apply sqrt_lt_R0, Hr]|apply exp_pos]).
  rewrite half by nra. replace (l ^ 2 + t ^ 2) with (l * l + t * t) by ring. unfold dec. simpl. f_equal. lra.
Qed.

(** * C183: the correlation of a name is the one of that name *)
Theorem C183_named_partial re sc e mp corr sh : correlation re sc e corr sh -> corr <> "Ohashi et al" -> corr <> "Ko et al" -> 0 < re -> 0 < sc -> 0 < e < 1 ->
  kf_calc mp re sc e corr = Num (mp * sh).
Proof.
  intros C N1 N2 Hr Hs He. assert (P : 0 < re * sc) by (apply Rmult_lt_0_compat; assumption).
  assert (Q : 0 < (1 - e) / e) by (apply Rdiv_lt_0_compat; lra).
  destruct C; try contradiction; unfold kf_calc; cbn [String.eqb Ascii.eqb Bool.eqb]; f_equal.
  - rewrite gnielinski_eq by assumption. reflexivity.
  - rewrite (half re Hr), (rpow_Rpower sc _ Hs). unfold dec. simpl. lra.
  - rewrite rpow_mult by assumption. rewrite !rpow_Rpower by assumption. unfold dec. simpl. field. lra.
  - rewrite rpow_mult by assumption. rewrite !rpow_Rpower by assumption. unfold dec. simpl. field. lra.
  - rewrite (pow_as re (dec 3 1) (3 / 10)), (pow_as sc (dec 42 2) (42 / 100)) by (assumption || decs). unfold dec. simpl. lra.
  - rewrite (pow_as re (dec 6 1) (6 / 10)), (rpow_Rpower sc _ Hs) by (assumption || decs). unfold dec. simpl. lra.
  - rewrite !rpow_Rpower by assumption. unfold dec. simpl. lra.
Qed.
(** any other name is computed as Gnielinski's *)
Theorem C183_other_names re sc e mp corr : ~ In corr named -> 0 < re -> 0 < sc -> kf_calc mp re sc e corr = Num (mp * gnielinski_1978 re sc e).
Proof.
  intros N Hr Hs. unfold kf_calc, named in *. cbn [In] in N.
  repeat match goal with |- context [String.eqb corr ?s] => destruct (String.eqb_spec corr s); [exfalso; subst; tauto|] end.
  rewrite gnielinski_eq by assumption. reflexivity.
Qed.
(** so that Kataoka and Wakao, spelt as they are, are not their correlations *)
Theorem C183_spelling_refuted re sc e mp : 0 < re -> 0 < sc ->
  kf_calc mp re sc e "Kataoka et al" = Num (mp * gnielinski_1978 re sc e) /\ kf_calc mp re sc e "Wakao and Funazkri" = Num (mp * gnielinski_1978 re sc e).
Proof. intros Hr Hs. split; apply C183_other_names; try assumption; cbn; intuition discriminate. Qed.
(** Ohashi's comes in a tuple *)
Theorem C183_ohashi_refuted re sc e mp sh : correlation re sc e "Ohashi et al" sh -> 0 < re -> 0 < sc -> kf_calc mp re sc e "Ohashi et al" = Tuple1 (mp * sh).
Proof.
  intros C Hr Hs. unfold kf_calc. cbn [String.eqb Ascii.eqb Bool.eqb]. do 2 f_equal. unfold ohashi.
  inversion C; subst.
  - rewrite (proj2 (rltb_true re (dec 58 1))) by decs. rewrite (pow_as re (dec 4 1) (4 / 10)), (rpow_Rpower sc _ Hs) by (assumption || decs). unfold dec. simpl. lra.
  - rewrite (proj2 (rltb_false re (dec 58 1))) by decs. rewrite (proj2 (rltb_true re 500)) by lra. rewrite (half re Hr), (rpow_Rpower sc _ Hs). unfold dec. simpl. lra.
  - rewrite (proj2 (rltb_false re (dec 58 1))) by decs. rewrite (proj2 (rltb_false re 500)) by lra. rewrite (pow_as re (dec 6 1) (6 / 10)), (rpow_Rpower sc _ Hs) by (assumption || decs). unfold dec. simpl. lra.
Qed.
(** Ko's is divided by the powers of the Reynolds and Schmidt numbers instead of multiplied *)
Theorem C183_ko_refuted re sc e mp sh : correlation re sc e "Ko et al" sh -> 1 < re -> 1 < sc -> 0 < e -> 0 < mp ->
  exists k, kf_calc mp re sc e "Ko et al" = Num k /\ k * (Rpower re (36 / 100) * Rpower sc (1 / 3)) ^ 2 = mp * sh /\ k < mp * sh.
Proof.
  intros C Hr Hs He Hm. inversion C; subst. unfold kf_calc. cbn [String.eqb Ascii.eqb Bool.eqb]. eexists. split; [reflexivity|].
  rewrite (pow_as re (dec 36 2) (36 / 100)), (rpow_Rpower sc) by (lra || decs).
  assert (A : 1 < Rpower re (36 / 100)) by (assert (Z := Rpower_lt re 0 (36 / 100) Hr); rewrite Rpower_O in Z by lra; apply Z; lra).
  assert (B : 1 < Rpower sc (1 / 3)) by (assert (Z := Rpower_lt sc 0 (1 / 3) Hs); rewrite Rpower_O in Z by lra; apply Z; lra).
  set (a := Rpower re (36 / 100)) in *. set (b := Rpower sc (1 / 3)) in *.
  assert (AB : 1 < a * b) by nra.
  assert (E : mp * (dec 325 3 / (e * a * b)) * (a * b) ^ 2 = mp * (325 / 1000 / e * a * b)) by (unfold dec; simpl; field; repeat split; lra).
  split; [exact E|]. rewrite <- E. rewrite <- (Rmult_1_r (mp * (dec 325 3 / (e * a * b)))) at 1. apply Rmult_lt_compat_l; [|nra].
  apply Rmult_lt_0_compat; [exact Hm|]. apply Rdiv_lt_0_compat; [decs|]. rewrite Rmult_assoc. apply Rmult_lt_0_compat; lra.
Qed.
Example C183_met : correlation 10 600 (4 / 10) "Gnielinski" (gnielinski_1978 10 600 (4 / 10)) /\ (exists sh, correlation 10 600 (4 / 10) "Ohashi et al" sh) /\
  (exists sh, correlation 10 600 (4 / 10) "Ko et al" sh) /\ ~ In "Kataoka et al" named.
Proof.
  split; [constructor|]. split; [eexists; apply k_ohashi; lra|]. split; [eexists; constructor|]. cbn. intuition discriminate.
Qed.

(** * C45: Ohashi's correlation is positive and increases within each of its ranges *)
Theorem C45_ohashi_partial re1 re2 sc : 0 < re1 <= re2 -> 0 < sc -> (re2 < 58 / 10 \/ 58 / 10 <= re1 /\ re2 < 500 \/ 500 <= re1) ->
  0 < ohashi re1 sc <= ohashi re2 sc.
Proof.
  intros Hr Hs H. unfold ohashi. assert (S3 := rpow_pos sc (1 / 3) Hs).
  assert (M : forall a, 0 <= a -> 0 < rpow re1 a <= rpow re2 a) by (intros a Ha; split; [apply rpow_pos; lra|apply rpow_le; lra]).
  assert (D5 : dec 58 1 = 58 / 10) by decs.
  assert (G : forall k a, 0 <= k -> 0 <= a -> 0 < 2 + k * rpow re1 a * rpow sc (1 / 3) <= 2 + k * rpow re2 a * rpow sc (1 / 3)).
  { intros k a Hk Ha. destruct (M a Ha) as (M1 & M2). assert (0 <= k * rpow re1 a) by (apply Rmult_le_pos; lra). assert (0 <= k * rpow re1 a * rpow sc (1 / 3)) by (apply Rmult_le_pos; lra).
    split; [lra|]. apply Rplus_le_compat_l. apply Rmult_le_compat_r; [lra|]. apply Rmult_le_compat_l; lra. }
  destruct H as [H|[(H1 & H2)|H]].
  - rewrite (proj2 (rltb_true re1 (dec 58 1))), (proj2 (rltb_true re2 (dec 58 1))) by lra. apply G; decs.
  - rewrite (proj2 (rltb_false re1 (dec 58 1))), (proj2 (rltb_false re2 (dec 58 1))), (proj2 (rltb_true re1 500)), (proj2 (rltb_true re2 500)) by lra. apply G; decs.
  - rewrite (proj2 (rltb_false re1 (dec 58 1))), (proj2 (rltb_false re2 (dec 58 1))), (proj2 (rltb_false re1 500)), (proj2 (rltb_false re2 500)) by lra. apply G; decs.
Qed.

Print Assumptions C183_named_partial.
Print Assumptions C183_other_names.
Print Assumptions C183_spelling_refuted.
Print Assumptions C183_ohashi_refuted.
Print Assumptions C183_ko_refuted.
Print Assumptions C45_ohashi_partial.
