(** A bead in water of constant composition loses free energy until it is in equilibrium with the water. *)
From Coq Require Import Reals Arith Lra Lia.
From Verif Require Import Lib_Sum Lib_Traj Lib_Settle P_Entropy P_EntropyDv P_L1.
Open Scope R_scope.

Section Water.
Variables (n : nat) (z : nat -> nat) (K : nat -> R) (CT Q ka ws w1 al de : R) (C q : nat -> R).
Hypothesis HK : forall i, (i < n)%nat -> 0 < K i.
Hypothesis Hz : forall i, (i < n)%nat -> z i = 1%nat \/ z i = 2%nat.
Hypothesis HN : (0 < n)%nat.
Hypothesis HCT : 0 < CT.
Hypothesis HQ : 0 < Q.
Hypothesis Hka : 0 < ka.
Hypothesis Hws : 0 < ws.
Hypothesis Hw1 : 0 < w1.
Hypothesis Hal : 0 <= al.
Hypothesis Hde : 0 < de.
Hypothesis HC : forall i, (i < n)%nat -> 0 < C i.
Hypothesis HCS : rsum n C = CT.
Let el (q : nat -> R) (i : nat) : R := eliq n z K CT q i.
(** the loading in equilibrium with the water *)
Hypothesis q0 : forall i, (i < n)%nat -> 0 <= q i.
Hypothesis qs : rsum n q = Q.
Hypothesis qe : forall i, (i < n)%nat -> el q i = C i.
Variables (Tf : R) (Y Z Y' Z' : nat -> R -> R).
Hypothesis EY : forall i, (i < n)%nat -> evolves 0 Tf (Y i) (Y' i).
Hypothesis EZ : forall i, (i < n)%nat -> evolves 0 Tf (Z i) (Z' i).
Let fl (i : nat) (t : R) : R := C i - el (row Y t) i.
Let G (i : nat) (t : R) : R := al * (el (row Y t) i - el (row Z t) i) + de * (Y i t - Z i t).
Hypothesis RY : forall i t, (i < n)%nat -> 0 < t < Tf -> ws * Y' i t = ka * fl i t - G i t.
Hypothesis RZ : forall i t, (i < n)%nat -> 0 < t < Tf -> w1 * Z' i t = G i t.
Hypothesis PY : forall i t, (i < n)%nat -> 0 <= t <= Tf -> 0 <= Y i t.
Hypothesis PZ : forall i t, (i < n)%nat -> 0 <= t <= Tf -> 0 <= Z i t.
Hypothesis SY : forall t, 0 <= t <= Tf -> rsum n (row Y t) = Q.
Hypothesis SZ : forall t, 0 <= t <= Tf -> rsum n (row Z t) = Q.
Lemma yrow t : 0 <= t <= Tf -> forall j, (j < n)%nat -> 0 <= row Y t j.
Proof. intros T j J. apply PY; assumption. Qed.
Lemma zrow t : 0 <= t <= Tf -> forall j, (j < n)%nat -> 0 <= row Z t j.
Proof. intros T j J. apply PZ; assumption. Qed.
Lemma el_pos v i : (forall j, (j < n)%nat -> 0 <= v j) -> rsum n v = Q -> (i < n)%nat -> 0 < v i -> 0 < el v i.
Proof. intros P S I V. apply (eliq_pos n z K CT Q HK HN HCT HQ v P S i I V). Qed.
Lemma el_nonneg v i : (forall j, (j < n)%nat -> 0 <= v j) -> rsum n v = Q -> (i < n)%nat -> 0 <= el v i.
Proof. intros P S I. apply (eliq_nonneg n z K CT Q HK HN HCT HQ v P S i I). Qed.
Lemma el_le v i : (forall j, (j < n)%nat -> 0 <= v j) -> rsum n v = Q -> (i < n)%nat -> el v i <= CT.
Proof. intros P S I. apply (eliq_le n z K CT Q HK Hz HN HCT HQ v P S i I). Qed.
Lemma el_sum v : (forall j, (j < n)%nat -> 0 <= v j) -> rsum n v = Q -> rsum n (fun i => el v i) = CT.
Proof. intros P S. apply (eliq_sum n z K CT Q HK Hz HN HCT HQ v P S). Qed.
(** after any time every ion of the water is in the bead *)
Lemma inside i t : (i < n)%nat -> 0 < t <= Tf -> 0 < Y i t /\ 0 < Z i t.
Proof.
  intros I T. set (M := Rmax 1 (CT / (Q / rsum n K)) ^ 2 / K i). assert (KI : 0 < K i) by (apply HK, I). destruct (p_sizes n K CT Q HK HN HCT HQ) as (P1 & _).
  assert (MP : 0 < M) by (apply Rdiv_lt_0_compat; [apply pow_lt; lra|exact KI]).
  assert (EYB : forall t, 0 <= t <= Tf -> el (row Y t) i <= M * Y i t) by (intros s S; apply (eliq_share n z K CT Q HK Hz HN HCT HQ (row Y s) i I (yrow s S) (SY s S))).
  assert (EZB : forall t, 0 <= t <= Tf -> el (row Z t) i <= M * Z i t) by (intros s S; apply (eliq_share n z K CT Q HK Hz HN HCT HQ (row Z s) i I (zrow s S) (SZ s S))).
  assert (EY0 : forall t, 0 <= t <= Tf -> 0 <= el (row Y t) i) by (intros s S; apply el_nonneg; [apply yrow, S|apply SY, S|exact I]).
  assert (EZ0 : forall t, 0 <= t <= Tf -> 0 <= el (row Z t) i) by (intros s S; apply el_nonneg; [apply zrow, S|apply SZ, S|exact I]).
  set (LY := ((ka + al) * M + de) / ws).
  assert (DY : forall t, 0 < t < Tf -> - LY * Y i t + (ka * C i + de * Z i t) / ws <= Y' i t).
  { intros s S. assert (S0 : 0 <= s <= Tf) by lra. assert (H := RY i s I S). unfold fl, G in H. apply Rmult_le_reg_l with ws; [exact Hws|]. rewrite H.
    replace (ws * (- LY * Y i s + (ka * C i + de * Z i s) / ws)) with (- ((ka + al) * (M * Y i s)) - de * Y i s + ka * C i + de * Z i s) by (unfold LY; field; lra).
    assert (0 <= (ka + al) * (M * Y i s - el (row Y s) i)) by (apply Rmult_le_pos; [lra|specialize (EYB s S0); lra]). assert (0 <= al * el (row Z s) i) by (apply Rmult_le_pos; [exact Hal|apply EZ0, S0]). lra. }
  assert (DZ : forall t, 0 < t < Tf -> - ((al * M + de) / w1) * Z i t + de / w1 * Y i t <= Z' i t).
  { intros s S. assert (S0 : 0 <= s <= Tf) by lra. assert (H := RZ i s I S). unfold G in H. apply Rmult_le_reg_l with w1; [exact Hw1|]. rewrite H.
    replace (w1 * (- ((al * M + de) / w1) * Z i s + de / w1 * Y i s)) with (- (al * (M * Z i s)) - de * Z i s + de * Y i s) by (field; lra).
    assert (0 <= al * (M * Z i s - el (row Z s) i)) by (apply Rmult_le_pos; [lra|specialize (EZB s S0); lra]). assert (0 <= al * el (row Y s) i) by (apply Rmult_le_pos; [exact Hal|apply EY0, S0]). lra. }
  assert (YP : forall t, 0 < t <= Tf -> 0 < Y i t).
  { intros s S. apply (spreads 0 s (Y i) (Y' i) LY (proj1 S) (evolves_sub _ _ _ _ _ (proj2 S) (EY i I))); [|apply PY; [exact I|lra]]. intros r R. specialize (DY r ltac:(lra)). assert (X2 := PZ i r I ltac:(lra)).
    assert (0 < ka * C i) by (apply Rmult_lt_0_compat; [exact Hka|apply HC, I]). assert (0 <= de * Z i r) by (apply Rmult_le_pos; lra). assert (0 < (ka * C i + de * Z i r) / ws) by (apply Rdiv_lt_0_compat; lra). lra. }
  split; [apply YP, T|]. apply (spreads 0 t (Z i) (Z' i) ((al * M + de) / w1) (proj1 T) (evolves_sub _ _ _ _ _ (proj2 T) (EZ i I))); [|apply PZ; [exact I|lra]]. intros s Hs. specialize (DZ s ltac:(lra)). assert (P := YP s ltac:(lra)).
  assert (0 < de / w1 * Y i s) by (apply Rmult_lt_0_compat; [apply Rdiv_lt_0_compat; assumption|exact P]). lra.
Qed.
Lemma C_le i : (i < n)%nat -> C i <= CT.
Proof. intros I. rewrite <- HCS. apply (one_le n C); [exact I|]. intros j J. left. apply HC, J. Qed.
Lemma Y_le i t : (i < n)%nat -> 0 <= t <= Tf -> Y i t <= Q.
Proof. intros I T. rewrite <- (SY t T). apply (one_le n (row Y t)); [exact I|apply yrow, T]. Qed.
Lemma Z_le i t : (i < n)%nat -> 0 <= t <= Tf -> Z i t <= Q.
Proof. intros I T. rewrite <- (SZ t T). apply (one_le n (row Z t)); [exact I|apply zrow, T]. Qed.

(** ** Free energy *)
Let u (i : nat) : R := / INR (z i).
Lemma uu i : (i < n)%nat -> / 2 <= u i <= 1 /\ u i * INR (z i) = 1.
Proof. intros I. apply (u_between n z Hz i I). Qed.
Lemma q_pos i : (i < n)%nat -> 0 < q i.
Proof.
  intros I. destruct (Rle_lt_or_eq_dec _ _ (q0 i I)) as [L|E]; [exact L|]. assert (X := qe i I). assert (P := HC i I). unfold el, eliq in X. rewrite <- E in X. unfold Rdiv in X. rewrite !Rmult_0_l in X. lra.
Qed.
Definition hh (a b : R) : R := a * ln (a / b) - a + b.
Lemma hh_high a b : 0 < a -> 0 < b -> hh a b <= (a - b) ^ 2 / b.
Proof.
  intros A B. assert (P : 0 < a / b) by (apply Rdiv_lt_0_compat; assumption). assert (L : ln (a / b) <= a / b - 1) by (assert (X := exp_ineq1_le (ln (a / b))); rewrite exp_ln in X by exact P; lra).
  apply Rle_trans with (a * (a / b - 1) - a + b); [|right; field; lra]. unfold hh. assert (a * ln (a / b) <= a * (a / b - 1)) by (apply Rmult_le_compat_l; lra). lra.
Qed.
Lemma hh_low a b : 0 < a <= Q -> 0 < b <= Q -> (a - b) ^ 2 <= 4 * Q * hh a b.
Proof.
  intros A B. assert (SA := sqrt_lt_R0 a (proj1 A)). assert (SB := sqrt_lt_R0 b (proj1 B)). assert (EA := sqrt_sqrt a ltac:(lra)). assert (EB := sqrt_sqrt b ltac:(lra)). set (r := sqrt a) in *. set (s := sqrt b) in *.
  assert (SP : 0 < s / r) by (apply Rdiv_lt_0_compat; assumption). assert (L : ln (s / r) <= s / r - 1) by (assert (X := exp_ineq1_le (ln (s / r))); rewrite exp_ln in X by exact SP; lra).
  assert (LE : ln (a / b) = - 2 * ln (s / r)) by (rewrite <- EA, <- EB, !ln_div, !ln_mult by (try apply Rmult_lt_0_compat; assumption); ring).
  assert (LOW : (r - s) ^ 2 <= hh a b).
  { unfold hh. rewrite LE. apply Rle_trans with (a * (- 2 * (s / r - 1)) - a + b); [right; rewrite <- EA, <- EB; field; lra|]. assert (a * (- 2 * (s / r - 1)) <= a * (- 2 * ln (s / r))) by (apply Rmult_le_compat_l; lra). lra. }
  apply Rle_trans with (4 * Q * (r - s) ^ 2); [|apply Rmult_le_compat_l; lra].
  replace ((a - b) ^ 2) with ((r + s) ^ 2 * (r - s) ^ 2) by (rewrite <- EA, <- EB; ring). apply Rmult_le_compat_r; [apply pow2_ge_0|].
  assert (X := pow2_ge_0 (r - s)). replace ((r + s) ^ 2) with (2 * (r * r) + 2 * (s * s) - (r - s) ^ 2) by ring. rewrite EA, EB. lra.
Qed.
Let ent (i : nat) (t : R) : R := u i * (ws * hh (Y i t) (q i) + w1 * hh (Z i t) (q i)).
Let diss (i : nat) (t : R) : R := u i * (ka * fl i t * (ln (C i) - ln (Y i t / K i)) + G i t * (ln (Y i t / K i) - ln (Z i t / K i))).
Let lq : R := ln (ep n z K CT q).
Lemma ent_evolves i s b : (i < n)%nat -> 0 < s -> b <= Tf -> evolves s b (ent i) (fun t => - diss i t + lq * ka * fl i t).
Proof.
  intros I S B. assert (YV : evolves s b (Y i) (Y' i)) by (apply (evolves_from 0); [lra|apply (evolves_sub 0 Tf); [exact B|apply EY, I]]). assert (ZV : evolves s b (Z i) (Z' i)) by (apply (evolves_from 0); [lra|apply (evolves_sub 0 Tf); [exact B|apply EZ, I]]).
  assert (QP := q_pos i I). destruct (uu i I) as (_ & UZ).
  eapply evolves_ext; [| |].
  3:{ apply (evolves_scal s b (u i)). apply (evolves_plus s b); [apply (evolves_scal s b ws)|apply (evolves_scal s b w1)]; apply (evolves_plus s b).
      - apply (evolves_xlnx s b (Y i) (Y' i) (q i) QP); [intros t T; apply inside; [exact I|lra]|exact YV].
      - apply (evolves_plus s b); [apply (evolves_scal s b (- 1)), YV|apply (evolves_const s b (q i))].
      - apply (evolves_xlnx s b (Z i) (Z' i) (q i) QP); [intros t T; apply inside; [exact I|lra]|exact ZV].
      - apply (evolves_plus s b); [apply (evolves_scal s b (- 1)), ZV|apply (evolves_const s b (q i))]. }
  { intros t. unfold ent, hh. ring. }
  intros t T. cbv beta. assert (X2 := RY i t I ltac:(lra)). assert (X3 := RZ i t I ltac:(lra)). destruct (inside i t I ltac:(lra)) as (YP & ZP).
  assert (LQ := ln_load n z K CT Q HK Hz HN HCT HQ q q0 qs i I QP). fold (el q i) in LQ. rewrite (qe i I) in LQ. fold lq in LQ.
  assert (LL : forall x, 0 < x -> ln (x / q i) = ln (x / K i) - ln (C i) + INR (z i) * lq) by (intros x X; assert (KI := HK i I); rewrite ln_div in LQ by assumption; rewrite !ln_div by assumption; lra).
  rewrite (LL _ YP), (LL _ ZP).
  replace (u i * (ws * (Y' i t * (ln (Y i t / K i) - ln (C i) + INR (z i) * lq + 1) + (- 1 * Y' i t + 0)) + w1 * (Z' i t * (ln (Z i t / K i) - ln (C i) + INR (z i) * lq + 1) + (- 1 * Z' i t + 0))))
    with (u i * (ws * Y' i t * (ln (Y i t / K i) - ln (C i)) + w1 * Z' i t * (ln (Z i t / K i) - ln (C i))) + u i * INR (z i) * lq * (ws * Y' i t + w1 * Z' i t)) by ring.
  rewrite X2, X3, UZ. unfold diss. ring.
Qed.
Lemma fl_sum t : 0 <= t <= Tf -> rsum n (fun i => fl i t) = 0.
Proof. intros T. unfold fl. rewrite rsum_minus. assert (X := el_sum _ (yrow t T) (SY t T)). change (rsum n (el (row Y t)) = CT) in X. change (rsum n C - rsum n (el (row Y t)) = 0). lra. Qed.
Lemma diss_sum t : 0 < t <= Tf -> rsum n (fun i => diss i t) =
  rsum n (fun i => u i * (ka * (fl i t * (ln (C i) - ln (el (row Y t) i))) + (al * ((el (row Y t) i - el (row Z t) i) * (ln (el (row Y t) i) - ln (el (row Z t) i))) + de * ((Y i t - Z i t) * (ln (Y i t) - ln (Z i t)))))).
Proof.
  intros T. assert (T0 : 0 <= t <= Tf) by lra. assert (Y0 := yrow t T0). assert (Z0 := zrow t T0). assert (YS := SY t T0). assert (ZS := SZ t T0).
  set (ly := - ln (ep n z K CT (row Y t))). set (lz := - ln (ep n z K CT (row Z t))).
  assert (S1 := fl_sum t T0).
  assert (S2 : rsum n (fun i => el (row Y t) i - el (row Z t) i) = 0) by (rewrite rsum_minus; assert (X1 := el_sum _ Y0 YS); assert (X2 := el_sum _ Z0 ZS); change (rsum n (el (row Y t)) = CT) in X1; change (rsum n (el (row Z t)) = CT) in X2; change (rsum n (el (row Y t)) - rsum n (el (row Z t)) = 0); lra).
  transitivity (rsum n (fun i => u i * (ka * (fl i t * (ln (C i) - ln (el (row Y t) i))) + (al * ((el (row Y t) i - el (row Z t) i) * (ln (el (row Y t) i) - ln (el (row Z t) i))) + de * ((Y i t - Z i t) * (ln (Y i t) - ln (Z i t)))))
     + (- (ka * ly) * fl i t + al * (ly - lz) * (el (row Y t) i - el (row Z t) i)))).
  - apply rsum_ext. intros i I. destruct (inside i t I T) as (A2 & A3). destruct (uu i I) as (_ & UZ). unfold diss, G.
    assert (LY := ln_load n z K CT Q HK Hz HN HCT HQ (row Y t) Y0 YS i I A2). assert (LZ := ln_load n z K CT Q HK Hz HN HCT HQ (row Z t) Z0 ZS i I A3). unfold Rminus in LY, LZ. rewrite Ropp_mult_distr_r in LY, LZ. fold ly in LY. fold lz in LZ.
    change (row Y t i) with (Y i t) in LY. change (row Z t i) with (Z i t) in LZ. fold (el (row Y t) i) in LY. fold (el (row Z t) i) in LZ.
    assert (DL : ln (Y i t) - ln (Z i t) = ln (Y i t / K i) - ln (Z i t / K i)) by (rewrite !ln_div by (assumption || apply HK, I); ring).
    rewrite DL, LY, LZ. set (e1 := el (row Y t) i) in *. set (e2 := el (row Z t) i) in *.
    replace (- (ka * ly) * fl i t + al * (ly - lz) * (e1 - e2)) with (u i * INR (z i) * (- (ka * ly) * fl i t + al * (ly - lz) * (e1 - e2))) by (rewrite UZ; ring). ring.
  - rewrite rsum_plus. rewrite (rsum_plus n (fun i => - (ka * ly) * fl i t)). rewrite (rsum_scal n (- (ka * ly))), (rsum_scal n (al * (ly - lz))), S1, S2. ring.
Qed.
Lemma diss_low i t : (i < n)%nat -> 0 < t <= Tf -> ka / CT / 2 * fl i t ^ 2 <= rsum n (fun i => diss i t) /\ de / Q / 2 * (Y i t - Z i t) ^ 2 <= rsum n (fun i => diss i t).
Proof.
  intros I T. rewrite diss_sum by exact T. assert (T0 : 0 <= t <= Tf) by lra. assert (Y0 := yrow t T0). assert (Z0 := zrow t T0). assert (YS := SY t T0). assert (ZS := SZ t T0).
  assert (P : forall j, (j < n)%nat -> ka / CT * fl j t ^ 2 <= ka * (fl j t * (ln (C j) - ln (el (row Y t) j))) /\
     0 <= al * ((el (row Y t) j - el (row Z t) j) * (ln (el (row Y t) j) - ln (el (row Z t) j))) /\ de / Q * (Y j t - Z j t) ^ 2 <= de * ((Y j t - Z j t) * (ln (Y j t) - ln (Z j t)))).
  { intros j J. destruct (inside j t J T) as (P2 & P3). assert (U2 := el_pos (row Y t) j Y0 YS J P2). assert (U3 := el_pos (row Z t) j Z0 ZS J P3).
    assert (L1 := ln_mono _ _ CT HCT (C_le j J) (el_le (row Y t) j Y0 YS J) (or_introl (conj (HC j J) U2))).
    assert (L2 := ln_mono _ _ CT HCT (el_le (row Y t) j Y0 YS J) (el_le (row Z t) j Z0 ZS J) (or_introl (conj U2 U3))).
    assert (L3 := ln_mono _ _ Q HQ (Y_le j t J T0) (Z_le j t J T0) (or_introl (conj P2 P3))). split; [|split].
    - fold (fl j t) in L1. replace (ka / CT * fl j t ^ 2) with (ka * (fl j t ^ 2 / CT)) by (field; lra). apply Rmult_le_compat_l; lra.
    - apply Rmult_le_pos; [exact Hal|]. eapply Rle_trans; [|exact L2]. apply Rmult_le_pos; [apply pow2_ge_0|left; apply Rinv_0_lt_compat, HCT].
    - replace (de / Q * (Y j t - Z j t) ^ 2) with (de * ((Y j t - Z j t) ^ 2 / Q)) by (field; lra). apply Rmult_le_compat_l; lra. }
  assert (D1 : forall j, 0 <= ka / CT * fl j t ^ 2) by (intros j; apply Rmult_le_pos; [left; apply Rdiv_lt_0_compat; assumption|apply pow2_ge_0]).
  assert (D2 : forall j, 0 <= de / Q * (Y j t - Z j t) ^ 2) by (intros j; apply Rmult_le_pos; [left; apply Rdiv_lt_0_compat; assumption|apply pow2_ge_0]).
  assert (UU : forall j, (j < n)%nat -> / 2 <= u j <= 1) by (intros j J; apply (uu j J)).
  match goal with |- _ <= rsum n ?f /\ _ => assert (O := one_le n f i I); assert (N : forall j, (j < n)%nat -> 0 <= f j) end.
  { intros j J. cbv beta. destruct (P j J) as (A1 & A2 & A3). specialize (D1 j). specialize (D2 j). assert (UB := UU j J). apply Rmult_le_pos; lra. }
  specialize (O N). cbv beta in O. destruct (P i I) as (A1 & A2 & A3). specialize (D1 i). specialize (D2 i). assert (UB := UU i I).
  match type of O with u i * ?e <= _ => assert (UE : / 2 * e <= u i * e) by (apply Rmult_le_compat_r; lra) end. lra.
Qed.
(** the surface is as near equilibrium as the film lets on *)
Lemma root v : (forall j, (j < n)%nat -> 0 <= v j) -> rsum n v = Q -> 0 <= ep n z K CT v /\ rsum n (fun i => ep n z K CT v ^ z i / K i * v i) = CT.
Proof.
  intros P S. split; [left; apply (ep_root n z K CT Q HK HN HCT HQ v P S)|]. transitivity (rsum n (fun i => el v i)); [|apply (el_sum v P S)]. apply rsum_ext. intros i _. unfold el, eliq, Rdiv. ring.
Qed.
Lemma near t : 0 <= t <= Tf -> kap n K Q CT * rsum n (fun i => Rabs (Y i t - q i)) <= rsum n (fun i => Rabs (fl i t)).
Proof.
  intros T. assert (Y0 := yrow t T). assert (YS := SY t T). destruct (root _ Y0 YS) as (P1 & E1). destruct (root _ q0 qs) as (P2 & E2).
  set (s := fun i => if Rle_lt_dec 0 (Y i t - q i) then 1 else - 1).
  assert (SG : forall i, (i < n)%nat -> sign_of (s i) (row Y t i - q i)) by (intros i _; unfold s, row; destruct (Rle_lt_dec 0 (Y i t - q i)); [left; split; [reflexivity|assumption]|right; split; [reflexivity|lra]]).
  destruct (ratio_low n z K HK Hz CT Q _ _ HCT HQ HN P1 Y0 YS ltac:(rewrite E1; lra)) as (L1 & L2). destruct (ratio_low n z K HK Hz CT Q _ _ HCT HQ HN P2 q0 qs ltac:(rewrite E2; lra)) as (L3 & L4).
  assert (M0 : 0 <= Rmin 1 ((CT / (Q * rsum n (fun i => / K i))) ^ 2)) by (apply Rmin_glb; [lra|apply pow2_ge_0]).
  assert (AC := accretive n z K HK Hz _ CT _ _ (row Y t) q s M0 L1 L2 L3 L4 Y0 q0 ltac:(lra) E1 E2 SG).
  eapply Rle_trans; [exact AC|]. apply rsum_le. intros i I.
  replace (ep n z K CT (row Y t) ^ z i / K i * row Y t i - ep n z K CT q ^ z i / K i * q i) with (- fl i t) by (unfold fl; rewrite <- (qe i I); unfold el, eliq; unfold Rdiv; ring).
  assert (X := sign_below (s i) _ (- fl i t) (SG i I)). rewrite Rabs_Ropp in X. exact X.
Qed.
(** ** It is approached at a rate *)
Let P2 : R := (INR n / kap n K Q CT) ^ 2 * (2 * CT / ka).
Let R2 : R := 2 * P2 + 2 * (2 * Q / de).
Let rest : R := (ws * P2 + w1 * R2) * rsum n (fun i => / q i).
Definition water_rate : R := / rest.
Definition water_span : R := sqrt (8 * Q * (/ ws + / w1) * ((ws + w1) * Q ^ 2 * rsum n (fun i => / q i)) + Q ^ 2).
Lemma P2_pos : 0 < P2 /\ 0 < R2 /\ 0 < rsum n (fun i => / q i) /\ 0 < rest.
Proof.
  assert (KP := kap_pos n K Q CT HK HN HQ HCT). assert (NP : 0 < INR n) by (apply lt_0_INR, HN).
  assert (A : 0 < P2) by (apply Rmult_lt_0_compat; [apply pow_lt, Rdiv_lt_0_compat; assumption|apply Rdiv_lt_0_compat; lra]). assert (B : 0 < 2 * Q / de) by (apply Rdiv_lt_0_compat; lra).
  assert (D : 0 < rsum n (fun i => / q i)) by (apply (rsum_pos_one n _ 0%nat HN); [intros i I; left|]; apply Rinv_0_lt_compat, q_pos; assumption).
  assert (E : 0 < R2) by (unfold R2; lra). split; [exact A|]. split; [exact E|]. split; [exact D|]. apply Rmult_lt_0_compat; [|exact D].
  assert (0 < ws * P2) by (apply Rmult_lt_0_compat; assumption). assert (0 < w1 * R2) by (apply Rmult_lt_0_compat; assumption). lra.
Qed.
Let En (t : R) : R := rsum n (fun i => ent i t).
Let S (t : R) : R := rsum n (fun i => diss i t).
Lemma square_le x m : 0 <= m -> x ^ 2 <= m -> Rabs x <= sqrt m.
Proof. intros M H. rewrite <- (sqrt_pow2 (Rabs x)) by apply Rabs_pos. apply sqrt_le_1_alt. rewrite pow2_abs. exact H. Qed.
Lemma far_low i t : (i < n)%nat -> 0 < t <= Tf -> (Y i t - q i) ^ 2 <= P2 * S t /\ (Z i t - q i) ^ 2 <= R2 * S t.
Proof.
  intros I T. assert (T0 : 0 <= t <= Tf) by lra. assert (KP := kap_pos n K Q CT HK HN HQ HCT). destruct P2_pos as (PP & RP & _).
  assert (S0 : 0 <= S t) by (destruct (diss_low i t I T) as (D1 & _); eapply Rle_trans; [|exact D1]; apply Rmult_le_pos; [left; apply Rdiv_lt_0_compat; [apply Rdiv_lt_0_compat; assumption|lra]|apply pow2_ge_0]).
  set (m := 2 * CT / ka * S t). assert (M0 : 0 <= m) by (apply Rmult_le_pos; [left; apply Rdiv_lt_0_compat; lra|exact S0]).
  assert (FL : forall j, (j < n)%nat -> Rabs (fl j t) <= sqrt m).
  { intros j J. apply square_le; [exact M0|]. destruct (diss_low j t J T) as (D1 & _). fold (S t) in D1. unfold m. replace (fl j t ^ 2) with (2 * CT / ka * (ka / CT / 2 * fl j t ^ 2)) by (field; lra). apply Rmult_le_compat_l; [left; apply Rdiv_lt_0_compat; lra|exact D1]. }
  assert (SU : rsum n (fun j => Rabs (fl j t)) <= INR n * sqrt m) by (rewrite <- (rsum_const n (sqrt m)); apply rsum_le; exact FL).
  assert (N := near t T0). assert (O := one_le n (fun i => Rabs (Y i t - q i)) i I ltac:(intros; apply Rabs_pos)). cbv beta in O.
  assert (AB : Rabs (Y i t - q i) <= INR n / kap n K Q CT * sqrt m).
  { apply (Rmult_le_reg_l (kap n K Q CT)); [exact KP|]. replace (kap n K Q CT * (INR n / kap n K Q CT * sqrt m)) with (INR n * sqrt m) by (field; lra). eapply Rle_trans; [|exact SU]. eapply Rle_trans; [|exact N]. apply Rmult_le_compat_l; lra. }
  assert (Y2 : (Y i t - q i) ^ 2 <= P2 * S t).
  { rewrite <- pow2_abs. apply Rle_trans with ((INR n / kap n K Q CT * sqrt m) ^ 2); [apply pow_incr; split; [apply Rabs_pos|exact AB]|]. right. rewrite Rpow_mult_distr. replace (sqrt m ^ 2) with m by (rewrite <- Rsqr_pow2; symmetry; apply Rsqr_sqrt, M0). unfold m, P2. ring. }
  split; [exact Y2|]. destruct (diss_low i t I T) as (_ & D2). fold (S t) in D2.
  assert (Z2 : (Y i t - Z i t) ^ 2 <= 2 * Q / de * S t) by (replace ((Y i t - Z i t) ^ 2) with (2 * Q / de * (de / Q / 2 * (Y i t - Z i t) ^ 2)) by (field; lra); apply Rmult_le_compat_l; [left; apply Rdiv_lt_0_compat; lra|exact D2]).
  assert (X := pow2_ge_0 ((Y i t - q i) + (Y i t - Z i t))). unfold R2. replace ((Z i t - q i) ^ 2) with (2 * (Y i t - q i) ^ 2 + 2 * (Y i t - Z i t) ^ 2 - (Y i t - q i + (Y i t - Z i t)) ^ 2) by ring. lra.
Qed.
Lemma En_le t a b : 0 < t <= Tf -> 0 <= a -> 0 <= b -> (forall i, (i < n)%nat -> (Y i t - q i) ^ 2 <= a /\ (Z i t - q i) ^ 2 <= b) -> En t <= (ws * a + w1 * b) * rsum n (fun i => / q i).
Proof.
  intros T A B H. rewrite <- rsum_scal. apply rsum_le. intros i I. destruct (uu i I) as (UB & _). assert (QP := q_pos i I). assert (IQ := Rinv_0_lt_compat _ QP). destruct (inside i t I T) as (YP & ZP). destruct (H i I) as (H1 & H2).
  assert (X1 : hh (Y i t) (q i) <= a * / q i) by (eapply Rle_trans; [apply hh_high; assumption|]; unfold Rdiv; apply Rmult_le_compat_r; lra).
  assert (X2 : hh (Z i t) (q i) <= b * / q i) by (eapply Rle_trans; [apply hh_high; assumption|]; unfold Rdiv; apply Rmult_le_compat_r; lra).
  assert (X3 : ws * hh (Y i t) (q i) <= ws * (a * / q i)) by (apply Rmult_le_compat_l; lra). assert (X4 : w1 * hh (Z i t) (q i) <= w1 * (b * / q i)) by (apply Rmult_le_compat_l; lra).
  assert (N1 : 0 <= ws * (a * / q i)) by (apply Rmult_le_pos; [lra|apply Rmult_le_pos; lra]). assert (N2 : 0 <= w1 * (b * / q i)) by (apply Rmult_le_pos; [lra|apply Rmult_le_pos; lra]).
  unfold ent. apply Rle_trans with (u i * (ws * (a * / q i) + w1 * (b * / q i))); [apply Rmult_le_compat_l; lra|]. apply Rle_trans with (1 * (ws * (a * / q i) + w1 * (b * / q i))); [apply Rmult_le_compat_r; lra|right; ring].
Qed.
Lemma En_falls s t : 0 < s <= t -> t <= Tf -> En t <= En s * exp (- water_rate * (t - s)).
Proof.
  intros ST TF. destruct P2_pos as (PP & RP & SQ & RE). set (k := water_rate).
  assert (EV : evolves s t (fun r => exp (k * r) * En r) (fun r => k * exp (k * r) * En r + exp (k * r) * (- S r))).
  { apply (evolves_mult s t); [apply evolves_exp|]. eapply evolves_ext; [reflexivity| |apply (evolves_rsum s t n ent (fun i r => - diss i r + lq * ka * fl i r)); intros i I; apply ent_evolves; [exact I|lra|exact TF]].
    intros r R. cbv beta. rewrite rsum_plus, rsum_opp, rsum_scal, fl_sum by lra. unfold S. ring. }
  assert (DEC := evolves_nonincreasing s t _ _ EV).
  assert (NEG : forall r, s < r < t -> k * exp (k * r) * En r + exp (k * r) * (- S r) <= 0).
  { intros r R. replace (k * exp (k * r) * En r + exp (k * r) * - S r) with (- (exp (k * r) * (S r - k * En r))) by ring. assert (X := exp_pos (k * r)).
    assert (F := fun i I => far_low i r I ltac:(lra)). assert (S0 : 0 <= S r). { destruct (F 0%nat HN) as (F1 & _). assert (Y0 := pow2_ge_0 (Y 0%nat r - q 0%nat)). apply Rnot_lt_le. intros N. assert (P2 * S r < P2 * 0) by (apply Rmult_lt_compat_l; assumption). lra. }
    assert (B := En_le r (P2 * S r) (R2 * S r) ltac:(lra) ltac:(apply Rmult_le_pos; lra) ltac:(apply Rmult_le_pos; lra) F).
    assert (L : k * En r <= S r). { unfold k, water_rate. apply (Rmult_le_reg_l rest); [exact RE|]. rewrite <- Rmult_assoc, Rinv_r, Rmult_1_l by lra. eapply Rle_trans; [exact B|]. right. unfold rest. ring. }
    assert (0 <= exp (k * r) * (S r - k * En r)) by (apply Rmult_le_pos; lra). lra. }
  specialize (DEC NEG t (conj (proj2 ST) (Rle_refl t))). cbv beta in DEC.
  apply (Rmult_le_reg_l (exp (k * t))); [apply exp_pos|]. replace (exp (k * t) * (En s * exp (- k * (t - s)))) with (exp (k * s) * En s); [lra|].
  replace (k * s) with (k * t + - k * (t - s)) by ring. rewrite exp_plus. ring.
Qed.
Lemma bead_settles i t : (i < n)%nat -> 0 <= t <= Tf -> Rabs (Y i t - q i) <= water_span * exp (- (water_rate / 4) * t) /\ Rabs (Z i t - q i) <= water_span * exp (- (water_rate / 4) * t).
Proof.
  intros I T. destruct P2_pos as (PP & RP & SQ & RE). set (k := water_rate). assert (KP : 0 < k) by (apply Rinv_0_lt_compat, RE). set (D0 := (ws + w1) * Q ^ 2 * rsum n (fun i => / q i)).
  assert (Q2 : 0 < Q ^ 2) by (apply pow_lt, HQ). assert (DP : 0 < D0) by (apply Rmult_lt_0_compat; [apply Rmult_lt_0_compat; lra|exact SQ]).
  assert (IW := Rinv_0_lt_compat _ Hws). assert (IV := Rinv_0_lt_compat _ Hw1). assert (QL : forall j, (j < n)%nat -> q j <= Q) by (intros j J; rewrite <- qs; apply (one_le n q j J q0)).
  set (b := 8 * Q * (/ ws + / w1) * D0 + Q ^ 2). assert (BP : 0 < 8 * Q * (/ ws + / w1) * D0) by (apply Rmult_lt_0_compat; [apply Rmult_lt_0_compat; lra|exact DP]).
  assert (WS : water_span = sqrt b) by reflexivity. set (e := exp (- (k / 4) * t)). assert (EP : 0 < e) by apply exp_pos.
  assert (FAR : forall s j, (j < n)%nat -> 0 <= s <= Tf -> (Y j s - q j) ^ 2 <= Q ^ 2 /\ (Z j s - q j) ^ 2 <= Q ^ 2).
  { intros s j J Hs. assert (A1 := PY j s J Hs). assert (A2 := PZ j s J Hs). assert (A3 := Y_le j s J Hs). assert (A4 := Z_le j s J Hs). assert (A5 := q0 j J). assert (A6 := QL j J).
    split; rewrite <- pow2_abs; (apply pow_incr; split; [apply Rabs_pos|apply Rabs_le; lra]). }
  assert (GO : (Y i t - q i) ^ 2 <= b * (e * e) /\ (Z i t - q i) ^ 2 <= b * (e * e)).
  { destruct (Rle_lt_or_eq_dec _ _ (proj1 T)) as [TP|<-].
    2:{ unfold e. rewrite Rmult_0_r, exp_0, !Rmult_1_r. destruct (FAR 0 i I T) as (F1 & F2). unfold b. lra. }
    assert (EN := En_falls (t / 2) t ltac:(lra) (proj2 T)). assert (E0 := En_le (t / 2) (Q ^ 2) (Q ^ 2) ltac:(lra) ltac:(lra) ltac:(lra) (fun j J => FAR (t / 2) j J ltac:(lra))).
    fold k in EN. replace (exp (- k * (t - t / 2))) with (e * e) in EN by (unfold e; rewrite <- exp_plus; f_equal; field).
    assert (EE : 0 < e * e) by (apply Rmult_lt_0_compat; assumption). assert (ED : En t <= D0 * (e * e)).
    { eapply Rle_trans; [exact EN|]. apply Rmult_le_compat_r; [lra|]. eapply Rle_trans; [exact E0|]. right. unfold D0. ring. }
    assert (HP : forall a j, (j < n)%nat -> 0 < a <= Q -> 0 <= hh a (q j)).
    { intros a j J A. assert (X := hh_low a (q j) A (conj (q_pos j J) (QL j J))). assert (Y0 := pow2_ge_0 (a - q j)). apply Rnot_lt_le. intros N. assert (4 * Q * hh a (q j) < 4 * Q * 0) by (apply Rmult_lt_compat_l; lra). lra. }
    assert (IN : forall j, (j < n)%nat -> 0 < Y j t <= Q /\ 0 < Z j t <= Q) by (intros j J; destruct (inside j t J ltac:(lra)) as (A1 & A2); split; split; try assumption; [apply Y_le|apply Z_le]; assumption).
    assert (O := one_le n (fun j => ent j t) i I ltac:(intros j J; destruct (IN j J) as (A1 & A2); destruct (uu j J) as (UB & _); assert (B1 := HP _ j J A1); assert (B2 := HP _ j J A2); unfold ent; apply Rmult_le_pos; [lra|]; assert (0 <= ws * hh (Y j t) (q j)) by (apply Rmult_le_pos; lra); assert (0 <= w1 * hh (Z j t) (q j)) by (apply Rmult_le_pos; lra); lra)).
    cbv beta in O. change (rsum n (fun j => ent j t)) with (En t) in O. destruct (IN i I) as (A1 & A2). destruct (uu i I) as (UB & _). assert (B1 := HP _ i I A1). assert (B2 := HP _ i I A2).
    assert (C1 : 0 <= ws * hh (Y i t) (q i)) by (apply Rmult_le_pos; lra). assert (C2 : 0 <= w1 * hh (Z i t) (q i)) by (apply Rmult_le_pos; lra).
    assert (C3 : / 2 * (ws * hh (Y i t) (q i) + w1 * hh (Z i t) (q i)) <= D0 * (e * e)) by (eapply Rle_trans; [|eapply Rle_trans; [exact O|exact ED]]; unfold ent; apply Rmult_le_compat_r; lra).
    assert (LOW : forall wt x, 0 < wt -> / wt <= / ws + / w1 -> 0 < x <= Q -> wt * hh x (q i) <= 2 * (D0 * (e * e)) -> (x - q i) ^ 2 <= b * (e * e)).
    { intros wt x WP WL XP H. eapply Rle_trans; [apply (hh_low x (q i) XP (conj (q_pos i I) (QL i I)))|].
      assert (H1 : hh x (q i) <= / wt * (2 * (D0 * (e * e)))) by (apply (Rmult_le_reg_l wt); [exact WP|]; rewrite <- Rmult_assoc, Rinv_r, Rmult_1_l by lra; exact H).
      assert (DE : 0 < D0 * (e * e)) by (apply Rmult_lt_0_compat; assumption). assert (H2 : / wt * (2 * (D0 * (e * e))) <= (/ ws + / w1) * (2 * (D0 * (e * e)))) by (apply Rmult_le_compat_r; lra).
      apply Rle_trans with (4 * Q * ((/ ws + / w1) * (2 * (D0 * (e * e))))); [apply Rmult_le_compat_l; lra|]. unfold b. assert (0 < Q ^ 2 * (e * e)) by (apply Rmult_lt_0_compat; assumption). lra. }
    split; [apply (LOW ws)|apply (LOW w1)]; try assumption; lra. }
  assert (RT : forall x, x ^ 2 <= b * (e * e) -> Rabs x <= water_span * e).
  { intros x H. eapply Rle_trans; [apply (square_le x (b * (e * e)) ltac:(apply Rmult_le_pos; [unfold b; lra|left; apply Rmult_lt_0_compat; assumption]) H)|]. right. rewrite sqrt_mult by (try (left; apply Rmult_lt_0_compat; assumption); unfold b; lra). rewrite (sqrt_square e) by lra. rewrite WS. reflexivity. }
  split; apply RT; apply GO.
Qed.
End Water.
