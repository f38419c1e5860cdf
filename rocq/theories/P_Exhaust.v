(** States of exhaustion exist: one-dimensional searches, by the intermediate value theorem. *)
From Coq Require Import Reals List Arith Bool Lra Lia.
From Coq Require Ranalysis5.
From Verif Require Import Lib_Py Lib_Sum Lib_Pow S_IxEq S_IxColumn P_RestEq P_RestGac.
Import ListNotations.
Open Scope R_scope.

Lemma between_any (F : R -> R) Q x y : (forall a, 0 < a -> continuity_pt F a) -> 0 < x -> 0 < y -> Q <= F x -> F y <= Q -> exists w, 0 < w /\ F w = Q.
Proof.
  intros HF Hx Hy LX LY.
  destruct (Req_dec (F x) Q) as [E|NX]; [exists x; split; assumption|]. destruct (Req_dec (F y) Q) as [E|NY]; [exists y; split; assumption|].
  destruct (Rtotal_order x y) as [L|[L|L]].
  - destruct (Ranalysis5.IVT_interv (fun a => Q - F a) x y) as (w & W & E); [|exact L|lra|lra|].
    + intros a Ha. apply continuity_pt_minus; [apply continuity_pt_const; intros ? ?; reflexivity|apply HF; lra].
    + exists w. split; lra.
  - subst y. lra.
  - destruct (Ranalysis5.IVT_interv (fun a => F a - Q) y x) as (w & W & E); [|exact L|lra|lra|].
    + intros a Ha. apply continuity_pt_minus; [apply HF; lra|apply continuity_pt_const; intros ? ?; reflexivity].
    + exists w. split; lra.
Qed.
Lemma sum_continuous n (f : nat -> R -> R) a : (forall i, (i < n)%nat -> continuity_pt (f i) a) -> continuity_pt (fun t => rsum n (fun i => f i t)) a.
Proof.
  induction n as [|n IH]; intros H; cbn [rsum]; [apply continuity_pt_const; intros ? ?; reflexivity|].
  apply (continuity_pt_plus (fun t => rsum n (fun i => f i t)) (f n)); [apply IH; intros; apply H; lia|apply H; lia].
Qed.

Lemma rsum_ge_one n f j : (j < n)%nat -> (forall i, (i < n)%nat -> 0 <= f i) -> f j <= rsum n f.
Proof.
  induction n as [|n IH]; intros Hj H; [lia|]. cbn [rsum]. assert (P := H n ltac:(lia)).
  destruct (Nat.eq_dec j n) as [->|]; [assert (0 <= rsum n f) by (apply rsum_nonneg; intros; apply H; lia); lra|].
  assert (T := IH ltac:(lia) (fun i Hi => H i ltac:(lia))). lra.
Qed.

(** ** Ion exchange *)
Section Exchange.
Variables (n : nat) (k : nat -> R) (z : nat -> nat) (A : nat -> R) (a b Q : R).
Hypothesis Hn : (0 < n)%nat.
Hypothesis Hk : forall i, (i < n)%nat -> 0 < k i.
Hypothesis Hz : forall i, (i < n)%nat -> z i = 1%nat \/ z i = 2%nat.
Hypothesis HA : forall i, (i < n)%nat -> 0 <= A i.
Hypothesis Ha : 0 < a.
Hypothesis Hb : 0 <= b.
Hypothesis HQ : 0 < Q.
Hypothesis HQA : Q * b < rsum n A.
Let den i p := a * k i * p ^ z i + b.
Let F p := rsum n (fun i => A i / den i p).
Lemma den_pos i p : (i < n)%nat -> 0 < p -> 0 < den i p.
Proof.
  intros Hi P. unfold den. assert (0 < a * k i * p ^ z i) by (apply Rmult_lt_0_compat; [apply Rmult_lt_0_compat; [exact Ha|apply Hk, Hi]|apply pow_lt, P]). lra.
Qed.
Lemma F_cont p : 0 < p -> continuity_pt F p.
Proof.
  intros P. apply (sum_continuous n (fun i p => A i / den i p)). intros i Hi.
  apply (continuity_pt_div (fun _ => A i) (den i)).
  - apply continuity_pt_const. intros ? ?; reflexivity.
  - unfold den. apply continuity_pt_plus; [|apply continuity_pt_const; intros ? ?; reflexivity].
    apply (continuity_pt_mult (fun _ => a * k i) (fun p => p ^ z i)); [apply continuity_pt_const; intros ? ?; reflexivity|].
    apply derivable_continuous_pt. exists (INR (z i) * p ^ pred (z i)). apply derivable_pt_lim_pow.
  - apply Rgt_not_eq. apply den_pos; assumption.
Qed.
Lemma resin_total_any : exists p, 0 < p /\ F p = Q.
Proof.
  assert (SA : 0 < rsum n A) by (assert (0 <= Q * b) by (apply Rmult_le_pos; lra); lra).
  destruct (some_positive n A HA SA) as (j & Hj & PJ).
  set (M := rsum n k). assert (KM : forall i, (i < n)%nat -> k i <= M) by (intros i Hi; unfold M; apply (rsum_ge_one n k i Hi); intros m Hm; left; apply Hk, Hm).
  assert (MP : 0 < M) by (assert (T := KM 0%nat Hn); assert (T2 := Hk 0%nat Hn); lra).
  (* small ratio *)
  set (d := (rsum n A / Q - b) / (a * M)).
  assert (DP : 0 < d).
  { unfold d. apply Rdiv_lt_0_compat; [|apply Rmult_lt_0_compat; assumption].
    assert (b < rsum n A / Q); [|lra]. apply (Rmult_lt_reg_l Q); [exact HQ|]. replace (Q * (rsum n A / Q)) with (rsum n A) by (field; lra). exact HQA. }
  set (x := Rmin 1 d). assert (X : 0 < x /\ x <= 1 /\ x <= d) by (unfold x; split; [apply Rmin_glb_lt; lra|split; [apply Rmin_l|apply Rmin_r]]).
  (* large ratio *)
  set (S := rsum n (fun i => A i / (a * k i))).
  assert (TP : forall i, (i < n)%nat -> 0 <= A i / (a * k i)).
  { intros i Hi. apply Rmult_le_pos; [apply HA, Hi|]. left. apply Rinv_0_lt_compat, Rmult_lt_0_compat; [exact Ha|apply Hk, Hi]. }
  set (y := Rmax 1 (S / Q)). assert (Y : 1 <= y /\ S / Q <= y) by (unfold y; split; [apply Rmax_l|apply Rmax_r]).
  apply (between_any F Q x y F_cont); try lra.
  - assert (B : 0 < a * M * x + b) by (assert (0 < a * M * x) by (apply Rmult_lt_0_compat; [apply Rmult_lt_0_compat; assumption|lra]); lra).
    apply Rle_trans with (rsum n A / (a * M * x + b)).
    + apply (Rmult_le_reg_r (a * M * x + b)); [exact B|]. replace (rsum n A / (a * M * x + b) * (a * M * x + b)) with (rsum n A) by (field; lra).
      assert (E : a * M * d = rsum n A / Q - b) by (unfold d; field; lra).
      assert (L : a * M * x <= a * M * d) by (apply Rmult_le_compat_l; [apply Rmult_le_pos; lra|lra]).
      replace (rsum n A) with (Q * (rsum n A / Q)) by (field; lra). apply Rmult_le_compat_l; lra.
    + unfold F, Rdiv. rewrite <- rsum_scal_r. apply rsum_le. intros i Hi. apply Rmult_le_compat_l; [apply HA, Hi|]. apply Rinv_le_contravar; [apply den_pos; [exact Hi|lra]|].
      unfold den. apply Rplus_le_compat_r. assert (K := Hk i Hi). assert (KI := KM i Hi).
      assert (PX : 0 < x ^ z i <= x) by (split; [apply pow_lt; lra|destruct (Hz i Hi) as [-> | ->]; simpl; nra]).
      apply Rmult_le_compat; [apply Rmult_le_pos; lra|lra|apply Rmult_le_compat_l; lra|lra].
  - apply Rle_trans with (S / y).
    + unfold F, S, Rdiv at 2. rewrite <- rsum_scal_r. apply rsum_le. intros i Hi. assert (K := Hk i Hi).
      replace (A i / (a * k i) * / y) with (A i * / (a * k i * y)) by (field; lra). unfold Rdiv. apply Rmult_le_compat_l; [apply HA, Hi|].
      assert (PK : 0 < a * k i) by (apply Rmult_lt_0_compat; assumption). apply Rinv_le_contravar; [apply Rmult_lt_0_compat; lra|].
      unfold den. assert (a * k i * y <= a * k i * y ^ z i); [|lra]. apply Rmult_le_compat_l; [lra|].
      destruct (Hz i Hi) as [-> | ->]; simpl; nra.
    + apply (Rmult_le_reg_r y); [lra|]. replace (S / y * y) with S by (field; lra).
      replace S with (Q * (S / Q)) by (field; lra). apply Rmult_le_compat_l; lra.
Qed.
Lemma exchange_exists : 0 < A 0%nat -> exists q C rho, 0 < rho /\ 0 < q 0%nat /\ rsum n q = Q /\
  forall i, (i < n)%nat -> 0 <= q i /\ (0 < A i -> 0 < q i) /\ 0 <= C i /\ C i = k i * q i * rho ^ z i /\ a * C i + b * q i = A i.
Proof.
  intros A0. destruct resin_total_any as (p & P & E). exists (fun i => A i / den i p), (fun i => k i * (A i / den i p) * p ^ z i), p.
  split; [exact P|]. split; [apply Rdiv_lt_0_compat; [exact A0|apply den_pos; assumption]|]. split; [exact E|].
  intros i Hi. assert (D := den_pos i p Hi P). assert (K := Hk i Hi). assert (PP : 0 < p ^ z i) by (apply pow_lt, P).
  assert (QN : 0 <= A i / den i p) by (apply Rmult_le_pos; [apply HA, Hi|left; apply Rinv_0_lt_compat, D]).
  split; [exact QN|]. split; [intros; apply Rdiv_lt_0_compat; assumption|]. split; [apply Rmult_le_pos; [apply Rmult_le_pos; lra|lra]|]. split; [reflexivity|].
  replace (a * (k i * (A i / den i p) * p ^ z i) + b * (A i / den i p)) with (A i / den i p * den i p) by (unfold den; ring). field. lra.
Qed.
End Exchange.
(** the shape is an equilibrium *)
Lemma shape_equilibrium n K z q C rho : (0 < n)%nat -> selectivities n K -> mono_or_divalent n z -> 
  (forall i, (i < n)%nat -> C i = coef n K z i * q i * rho ^ z i) -> in_equilibrium n K z q C.
Proof.
  intros Hn HK (Z0 & Hz) E. unfold in_equilibrium. destruct (has2 n z) eqn:H2.
  - left. split; [apply has2_true, H2|]. intros i I Hi. rewrite (E i Hi), (E 0%nat Hn). unfold coef. rewrite H2.
    rewrite (proj2 (Nat.eqb_neq i 0)) by lia. rewrite Z0. cbn [Nat.eqb]. rewrite pow_1, Rmult_1_l, Rpow_mult_distr. assert (KI := HK i Hi). field. lra.
  - right. assert (Z1 : forall i, (i < n)%nat -> z i <> 2%nat).
    { intros i Hi X. assert (has2 n z = true) by (apply has2_true; exists i; split; assumption). congruence. }
    split; [exact Z1|]. assert (Z : forall i, (i < n)%nat -> z i = 1%nat) by (intros i Hi; destruct (Hz i Hi) as [|X]; [assumption|destruct (Z1 i Hi X)]).
    intros i j Hi Hj. rewrite (E i Hi), (E j Hj). unfold coef. rewrite H2, (Z i Hi), (Z j Hj), pow_1. assert (KI := HK i Hi). assert (KJ := HK j Hj). field. lra.
Qed.

(** ** Carbon: loadings whose pore liquid is a given liquid *)
Section Loading.
Variables (n : nat) (e w : nat -> R) (h : nat -> R -> R).
Hypothesis He : forall i, (i < n)%nat -> 0 <= e i.
Hypothesis Hw : forall i, (i < n)%nat -> 0 < w i.
Hypothesis Hh0 : forall i x, (i < n)%nat -> 0 < x -> 0 < h i x.
Hypothesis Hh : forall i x y, (i < n)%nat -> 0 < x -> x < y -> h i x < h i y.
Hypothesis Hc : forall i x, (i < n)%nat -> 0 < x -> continuity_pt (h i) x.
Hypothesis Hs : forall i v, (i < n)%nat -> 0 < v -> exists x, 0 < x /\ h i x = v.
Let G p := rsum n (fun i => e i / h i p).
Lemma large_pressure m eps : (m <= n)%nat -> 0 < eps -> exists p, 0 < p /\ forall i, (i < m)%nat -> e i / h i p <= eps.
Proof.
  intros Hm HE. induction m as [|m IH]; [exists 1; split; [lra|intros; lia]|]. destruct IH as (p & P & HP); [lia|].
  assert (EM := He m ltac:(lia)). destruct (Hs m ((e m + 1) / eps)) as (x & X & EX); [lia|apply Rdiv_lt_0_compat; lra|].
  assert (mono : forall i x y, (i < n)%nat -> 0 < x -> x <= y -> h i x <= h i y).
  { intros i x0 y0 Hi H0 [L| ->]; [left; apply Hh; assumption|lra]. }
  exists (Rmax p x). split; [apply Rlt_le_trans with p; [exact P|apply Rmax_l]|]. intros i Hi.
  assert (D : forall q, 0 < q -> q <= Rmax p x -> e i / h i (Rmax p x) <= e i / h i q).
  { intros q Q L. unfold Rdiv. apply Rmult_le_compat_l; [apply He; lia|]. apply Rinv_le_contravar; [apply Hh0; [lia|exact Q]|apply mono; [lia|exact Q|exact L]]. }
  destruct (Nat.eq_dec i m) as [->|].
  - apply Rle_trans with (e m / h m x); [apply D; [exact X|apply Rmax_r]|]. rewrite EX.
    apply (Rmult_le_reg_r ((e m + 1) / eps)); [apply Rdiv_lt_0_compat; lra|].
    replace (e m / ((e m + 1) / eps) * ((e m + 1) / eps)) with (e m) by (field; lra). replace (eps * ((e m + 1) / eps)) with (e m + 1) by (field; lra). lra.
  - apply Rle_trans with (e i / h i p); [apply D; [exact P|apply Rmax_l]|apply HP; lia].
Qed.
Lemma pressure_exists : 0 < rsum n e -> exists p, 0 < p /\ G p = 1.
Proof.
  intros SE. destruct (some_positive n e He SE) as (j & Hj & PJ).
  destruct (Hs j (e j) Hj PJ) as (x & X & EX). assert (N : 0 < INR n) by (apply lt_0_INR; lia).
  destruct (large_pressure n (/ INR n) (le_n n) (Rinv_0_lt_compat _ N)) as (y & Y & HY).
  apply (between_any G 1 x y); try assumption.
  - intros a Pa. apply (sum_continuous n (fun i p => e i / h i p)). intros i Hi. apply (continuity_pt_div (fun _ => e i) (h i)).
    + apply continuity_pt_const. intros ? ?; reflexivity.
    + apply Hc; assumption.
    + apply Rgt_not_eq. apply Hh0; assumption.
  - replace 1 with (e j / h j x) by (rewrite EX; field; lra). unfold G. apply (rsum_ge_one n (fun i => e i / h i x) j Hj).
    intros i Hi. apply Rmult_le_pos; [apply He, Hi|]. left. apply Rinv_0_lt_compat, Hh0; assumption.
  - apply Rle_trans with (rsum n (fun _ => / INR n)); [apply rsum_le; intros i Hi; apply HY, Hi|]. rewrite rsum_const. right. field. lra.
Qed.
Lemma loading_exists : 0 < rsum n e -> exists q, (forall i, (i < n)%nat -> 0 <= q i) /\ 0 < rsum n q /\
  forall i, (i < n)%nat -> q i / rsum n q * h i (rsum n (fun j => w j * q j)) = e i.
Proof.
  intros SE. destruct (pressure_exists SE) as (p & P & E).
  set (x := fun i => e i / h i p). assert (X0 : forall i, (i < n)%nat -> 0 <= x i).
  { intros i Hi. apply Rmult_le_pos; [apply He, Hi|]. left. apply Rinv_0_lt_compat, Hh0; assumption. }
  assert (SX : rsum n x = 1) by exact E.
  assert (WX : 0 < rsum n (fun j => w j * x j)) by (apply wsum_pos; [exact Hw|exact X0|lra]).
  set (T := p / rsum n (fun j => w j * x j)). assert (TP : 0 < T) by (apply Rdiv_lt_0_compat; assumption).
  assert (ST : rsum n (fun i => x i * T) = T) by (rewrite rsum_scal_r, SX; ring).
  assert (WT : rsum n (fun j => w j * (x j * T)) = p).
  { rewrite (rsum_ext _ _ (fun j => w j * x j * T)) by (intros; ring). rewrite rsum_scal_r. unfold T. field. lra. }
  exists (fun i => x i * T). split; [intros i Hi; apply Rmult_le_pos; [apply X0, Hi|lra]|]. split; [rewrite ST; exact TP|].
  intros i Hi. rewrite ST, WT. unfold x. assert (H := Hh0 i p Hi P). field. lra.
Qed.
End Loading.
