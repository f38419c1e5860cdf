(** Real powers of non-negative numbers, as Python's [**] on floats. *)
From Coq Require Import Reals Lra.
Open Scope R_scope.

(** [x ** y]; negative bases are not modelled. *)
Definition rpow (x y : R) : R :=
  if Req_EM_T x 0 then (if Req_EM_T y 0 then 1 else 0) else Rpower x y.

Lemma rpow_Rpower x y : 0 < x -> rpow x y = Rpower x y.
Proof. intros H. unfold rpow. destruct (Req_EM_T x 0); [lra|reflexivity]. Qed.
Lemma rpow_pos x y : 0 < x -> 0 < rpow x y.
Proof. intros H. rewrite rpow_Rpower by exact H. apply exp_pos. Qed.
Lemma rpow_0 y : y <> 0 -> rpow 0 y = 0.
Proof. intros H. unfold rpow. destruct (Req_EM_T 0 0); [|lra]. destruct (Req_EM_T y 0); [lra|reflexivity]. Qed.
Lemma rpow_nonneg x y : 0 <= x -> 0 <= rpow x y.
Proof.
  intros [H|<-]; [left; apply rpow_pos; exact H|].
  unfold rpow. destruct (Req_EM_T 0 0); [|lra]. destruct (Req_EM_T y 0); lra.
Qed.
Lemma rpow_1 x : 0 <= x -> rpow x 1 = x.
Proof.
  intros [H|<-]; [rewrite rpow_Rpower by exact H; apply Rpower_1; exact H|].
  apply rpow_0. lra.
Qed.
Lemma rpow_plus x a b : 0 < x -> rpow x (a + b) = rpow x a * rpow x b.
Proof. intros H. rewrite !rpow_Rpower by exact H. apply Rpower_plus. Qed.
Lemma rpow_rpow x a b : 0 < x -> rpow (rpow x a) b = rpow x (a * b).
Proof.
  intros H. rewrite (rpow_Rpower _ b) by (apply rpow_pos; exact H).
  rewrite !rpow_Rpower by exact H. apply Rpower_mult.
Qed.
Lemma rpow_mult x y a : 0 < x -> 0 < y -> rpow (x * y) a = rpow x a * rpow y a.
Proof.
  intros Hx Hy. rewrite !rpow_Rpower by (try exact Hx; try exact Hy; apply Rmult_lt_0_compat; assumption).
  unfold Rpower. rewrite ln_mult by assumption. rewrite <- exp_plus. f_equal. ring.
Qed.
Lemma rpow_inv x a : 0 < x -> rpow (/ x) a = / rpow x a.
Proof.
  intros H. rewrite !rpow_Rpower by (try exact H; apply Rinv_0_lt_compat; exact H).
  unfold Rpower. rewrite ln_Rinv by exact H. rewrite <- exp_Ropp. f_equal. ring.
Qed.
Lemma rpow_div x y a : 0 < x -> 0 < y -> rpow (x / y) a = rpow x a / rpow y a.
Proof.
  intros Hx Hy. unfold Rdiv. rewrite rpow_mult by (try exact Hx; apply Rinv_0_lt_compat; exact Hy).
  rewrite rpow_inv by exact Hy. reflexivity.
Qed.
Lemma rpow_opp x a : 0 < x -> rpow x (- a) = / rpow x a.
Proof. intros H. rewrite !rpow_Rpower by exact H. apply Rpower_Ropp. Qed.
Lemma rpow_zero_exp x : rpow x 0 = 1.
Proof.
  unfold rpow. destruct (Req_EM_T x 0).
  - destruct (Req_EM_T 0 0); lra.
  - unfold Rpower. rewrite Rmult_0_l. apply exp_0.
Qed.
Lemma rpow_one_base a : rpow 1 a = 1.
Proof. rewrite rpow_Rpower by lra. unfold Rpower. rewrite ln_1, Rmult_0_r. apply exp_0. Qed.
(** Monotone in the base for a non-negative exponent, antitone for a negative one. *)
Lemma rpow_le x y a : 0 <= x <= y -> 0 <= a -> rpow x a <= rpow y a.
Proof.
  intros (H0 & H) [Ha|<-]; [|rewrite !rpow_zero_exp; lra].
  destruct H0 as [H0|<-].
  - rewrite !rpow_Rpower by lra. apply Rle_Rpower_l; lra.
  - rewrite rpow_0 by lra. apply rpow_nonneg. lra.
Qed.
Lemma rpow_lt x y a : 0 <= x < y -> 0 < a -> rpow x a < rpow y a.
Proof.
  intros (H0 & H) Ha. destruct H0 as [H0|<-].
  - rewrite !rpow_Rpower by lra. unfold Rpower. apply exp_increasing.
    apply Rmult_lt_compat_l; [exact Ha|]. apply ln_increasing; assumption.
  - rewrite rpow_0 by lra. apply rpow_pos. exact H.
Qed.
Lemma rpow_inj x y a : 0 <= x -> 0 <= y -> 0 < a -> rpow x a = rpow y a -> x = y.
Proof.
  intros Hx Hy Ha E. destruct (Rtotal_order x y) as [L|[L|L]]; [|exact L|].
  - assert (A := rpow_lt x y a (conj Hx L) Ha). lra.
  - assert (A := rpow_lt y x a (conj Hy L) Ha). lra.
Qed.
(** Integer exponents agree with [pow]. *)
Lemma rpow_INR x n : 0 < x -> rpow x (INR n) = x ^ n.
Proof. intros H. rewrite rpow_Rpower by exact H. apply Rpower_pow. exact H. Qed.
