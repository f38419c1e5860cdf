(** Three families of amounts whose sum of absolute values grows no faster than in proportion. *)
From Coq Require Import Reals List Arith Bool Lra Lia.
From Verif Require Import Lib_Sum Lib_Traj P_L1.
Open Scope R_scope.

Lemma sign_scaled s e x : 0 < e -> sign_of s (e * x) -> sign_of s x.
Proof. intros E [(-> & P)|(-> & P)]; [left|right]; (split; [reflexivity|]); apply (Rmult_le_reg_l e); try exact E; lra. Qed.

Section Grows.
Variables (n : nat) (p q c p' q' c' : nat -> R -> R) (T K : R).
Hypothesis EP : forall z, (z < n)%nat -> evolves 0 T (p z) (p' z).
Hypothesis EQ : forall z, (z < n)%nat -> evolves 0 T (q z) (q' z).
Hypothesis EC : forall z, (z < n)%nat -> evolves 0 T (c z) (c' z).
Let S (t : R) : R := rsum n (fun z => Rabs (p z t) + Rabs (q z t) + Rabs (c z t)).
Hypothesis H : forall t sp sq sc, 0 < t < T -> (forall z, (z < n)%nat -> sign_of (sp z) (p z t)) -> (forall z, (z < n)%nat -> sign_of (sq z) (q z t)) -> (forall z, (z < n)%nat -> sign_of (sc z) (c z t)) ->
  rsum n (fun z => sp z * p' z t + sq z * q' z t + sc z * c' z t) <= K * (S t + INR n).
Lemma l1_grows t : 0 <= t <= T -> S t + INR n <= exp (K * t) * (S 0 + INR n).
Proof.
  intros HT. set (e := fun t => exp (- K * t)). assert (PE : forall t, 0 < e t) by (intros s; apply exp_pos). assert (EE : evolves 0 T e (fun t => - K * e t)) by apply evolves_exp.
  set (X := fun i => if Nat.ltb i n then p i else q (i - n)%nat). set (X' := fun i => if Nat.ltb i n then p' i else q' (i - n)%nat).
  set (Z := fun i => if Nat.ltb i n then c i else fun _ => 1). set (Z' := fun i => if Nat.ltb i n then c' i else fun _ => 0).
  assert (EX : forall i, (i < n + n)%nat -> evolves 0 T (X i) (X' i)) by (intros i I; unfold X, X'; destruct (Nat.ltb_spec i n); [apply EP; lia|apply EQ; lia]).
  assert (EZ : forall i, (i < n + n)%nat -> evolves 0 T (Z i) (Z' i)) by (intros i I; unfold Z, Z'; destruct (Nat.ltb_spec i n); [apply EC; lia|apply evolves_const]).
  assert (LO : forall z, (z < n)%nat -> Nat.ltb z n = true) by (intros z I; apply Nat.ltb_lt, I). assert (HI : forall z, Nat.ltb (n + z) n = false) by (intros z; apply Nat.ltb_ge; lia).
  assert (SUB : forall z, (n + z - n = z)%nat) by (intros; lia).
  assert (Y := l1_falls (n + n) (fun i t => e t * X i t) (fun i t => - K * e t * X i t + e t * X' i t) (fun i t => e t * Z i t) (fun i t => - K * e t * Z i t + e t * Z' i t) T
    (fun i I => evolves_mult 0 T _ _ _ _ EE (EX i I)) (fun i I => evolves_mult 0 T _ _ _ _ EE (EZ i I))).
  assert (VE : forall s, rsum (n + n) (fun i => Rabs (e s * X i s) + Rabs (e s * Z i s)) = e s * (S s + INR n)).
  { intros s. rewrite rsum_app. unfold S. replace (INR n) with (rsum n (fun _ => 1)) by (rewrite rsum_const; ring). rewrite <- rsum_plus, <- rsum_plus, <- rsum_scal. apply rsum_ext. intros z I.
    unfold X, Z. rewrite (LO z I), (HI z), SUB, !Rabs_mult, (Rabs_right (e s)), Rabs_R1 by (left; apply PE). ring. }
  lapply Y; [clear Y; intros Y|clear Y].
  - assert (B := Y t HT). cbv beta in B. rewrite !VE in B. unfold e in B at 2. rewrite Rmult_0_r, exp_0, Rmult_1_l in B.
    replace (S t + INR n) with (exp (K * t) * (e t * (S t + INR n))); [apply Rmult_le_compat_l; [left; apply exp_pos|exact B]|].
    unfold e. rewrite <- Rmult_assoc, <- exp_plus. replace (K * t + - K * t) with 0 by ring. rewrite exp_0. ring.
  - intros s sx sz HS SX SZ. cbv beta. assert (PS := PE s).
    assert (B := H s sx (fun z => sx (n + z)%nat) sz HS).
    assert (A1 : forall z, (z < n)%nat -> sign_of (sx z) (p z s)) by (intros z I; assert (W := SX z ltac:(lia)); cbv beta in W; unfold X in W; rewrite (LO z I) in W; apply (sign_scaled _ (e s)); assumption).
    assert (A2 : forall z, (z < n)%nat -> sign_of (sx (n + z)%nat) (q z s)) by (intros z I; assert (W := SX (n + z)%nat ltac:(lia)); cbv beta in W; unfold X in W; rewrite (HI z), SUB in W; apply (sign_scaled _ (e s)); assumption).
    assert (A3 : forall z, (z < n)%nat -> sign_of (sz z) (c z s)) by (intros z I; assert (W := SZ z ltac:(lia)); cbv beta in W; unfold Z in W; rewrite (LO z I) in W; apply (sign_scaled _ (e s)); assumption).
    assert (A4 : forall z, (z < n)%nat -> sz (n + z)%nat = 1) by (intros z I; assert (W := SZ (n + z)%nat ltac:(lia)); cbv beta in W; unfold Z in W; rewrite (HI z) in W; destruct W as [(W & _)|(_ & W)]; [exact W|lra]).
    specialize (B A1 A2 A3). rewrite rsum_app, <- rsum_plus.
    rewrite (rsum_ext n _ (fun z => e s * ((sx z * p' z s + sx (n + z)%nat * q' z s + sz z * c' z s) + - K * (Rabs (p z s) + Rabs (q z s) + Rabs (c z s) + 1)))).
    2:{ intros z I. unfold X, X', Z, Z'. rewrite (LO z I), (HI z), SUB, (A4 z I), <- (sign_abs _ _ (A1 z I)), <- (sign_abs _ _ (A2 z I)), <- (sign_abs _ _ (A3 z I)). ring. }
    assert (E1 : rsum n (fun z => Rabs (p z s) + Rabs (q z s) + Rabs (c z s) + 1) = S s + INR n) by (rewrite (rsum_plus n _ (fun _ => 1)), rsum_const; unfold S; ring).
    rewrite rsum_scal, rsum_plus, rsum_scal, E1.
    assert (e s * (rsum n (fun z => sx z * p' z s + sx (n + z)%nat * q' z s + sz z * c' z s) + - K * (S s + INR n)) <= e s * 0) by (apply Rmult_le_compat_l; lra). lra.
Qed.
End Grows.
