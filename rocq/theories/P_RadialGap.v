(** How much a profile dissipates, and that one which dissipates little is nearly flat. *)
From Coq Require Import Reals Lra Lia Arith List.
From Verif Require Import Lib_Py Lib_Sum Lib_Poly Lib_Moment S_Colloc S_Radial M_Colloc P_Colloc P_Radial.
Import ListNotations.
Open Scope R_scope.

Fixpoint pabs (c : list R) : R := match c with [] => 0 | x :: t => Rabs x + pabs t end.
Lemma pabs_nonneg c : 0 <= pabs c.
Proof. induction c as [|x c IH]; simpl; [lra|]. assert (P := Rabs_pos x). lra. Qed.
Lemma pabs_bound c y : 0 <= y <= 1 -> Rabs (peval c y) <= pabs c.
Proof.
  intros Hy. induction c as [|x c IH]; simpl; [rewrite Rabs_R0; lra|].
  eapply Rle_trans; [apply Rabs_triang|]. apply Rplus_le_compat_l. rewrite Rabs_mult, (Rabs_pos_eq y) by lra.
  assert (P := Rabs_pos (peval c y)). nra.
Qed.

Lemma rsum_one n f i : (i < n)%nat -> (forall j, 0 <= f j) -> f i <= rsum n f.
Proof.
  induction n as [|n IH]; intros Hi Hp; [lia|]. cbn [rsum]. destruct (Nat.eq_dec i n) as [->|N].
  - assert (0 <= rsum n f) by (apply rsum_nonneg; intros; apply Hp). lra.
  - assert (f i <= rsum n f) by (apply IH; [lia|exact Hp]). assert (X := Hp n). lra.
Qed.
Section Gap.
Variables (jac : nat -> R -> R -> nat -> R) (n d : nat).
Notation a := (INR (S d)).
Notation u := (rootsu jac n a).
Hypothesis Hn : (1 <= n)%nat.
Hypothesis HJ : jacobi_roots d (n - 1) (jac (n - 1)%nat (a / 2 + 1) (a / 2)).
Notation z F i := (apply_row n (Amat n u) F i).

Lemma u_le1 i : (i < n)%nat -> u i <= 1.
Proof.
  intros Hi. destruct (Nat.eq_dec i (n - 1)) as [->|NE]; [rewrite u_last; lra|]. rewrite (u_inner jac n d) by lia.
  destruct HJ as ((H & _) & _). assert (X := H i ltac:(lia)). lra.
Qed.
Lemma row_z F P i : (length P <= n)%nat -> (forall j, (j < n)%nat -> peval P (u j) = F j) -> (i < n)%nat -> z F i = peval (pderiv P) (u i).
Proof.
  intros LP EP Hi. rewrite <- (A_exact_list n u (u_distinct jac n d Hn HJ) P i LP Hi). unfold apply_row. apply rsum_ext. intros j Hj. rewrite EP by exact Hj. reflexivity.
Qed.
Lemma code_power F :
  rsum n (fun i => Wx n u a i * (F i - F (n - 1)%nat) * apply_row n (Bx n u a) F i) = - 4 * rsum n (fun i => Wx n u a i * (u i * z F i ^ 2)).
Proof.
  destruct (dissipation n u a (u_distinct jac n d Hn HJ) (a_pos n d Hn) (u_pos jac n d Hn HJ) Hn (u_last jac n d) (u_orth jac n d Hn HJ) F) as (P & D & LP & EP & LD & ED & ->).
  f_equal. assert (X : mom (a + 2) (pmul D D) = mom a (0 :: pmul D D)) by (cbn [mom]; unfold Rdiv; ring). rewrite X.
  rewrite <- (code_quad jac n d Hn HJ).
  - apply rsum_ext. intros i Hi. f_equal. rewrite (row_z F P i LP EP Hi), ED. cbn [peval]. rewrite peval_pmul. ring.
  - cbn [length]. destruct (Nat.eq_dec (length D) 0) as [E|E].
    + destruct D; [simpl; lia|discriminate E].
    + assert (Q := length_pmul_pred D D ltac:(lia)). lia.
Qed.
Lemma code_gap : exists K, 0 <= K /\ forall F i, (i < n)%nat -> Rabs (F i - F (n - 1)%nat) <= K * rsum n (fun j => Rabs (z F j)).
Proof.
  set (k := fun j => pabs (gpoly n u j) / Rabs (peval (gpoly n u j) (u j))).
  assert (kp : forall j, 0 <= k j). { intros j. apply Rmult_le_pos; [apply pabs_nonneg|]. left. apply Rinv_0_lt_compat, Rabs_pos_lt, g_own. }
  exists (rsum n k). split; [apply rsum_nonneg; intros; apply kp|]. intros F i Hi.
  destruct (dissipation n u a (u_distinct jac n d Hn HJ) (a_pos n d Hn) (u_pos jac n d Hn HJ) Hn (u_last jac n d) (u_orth jac n d Hn HJ) F) as (P & D & LP & EP & LD & ED & _).
  assert (DB : forall y, 0 <= y <= 1 -> Rabs (peval D y) <= rsum n k * rsum n (fun j => Rabs (z F j))).
  { intros y Hy. rewrite (interp_exact n u (u_distinct jac n d Hn HJ) D y ltac:(lia)). unfold interp. rewrite peval_plin.
    eapply Rle_trans; [apply rsum_abs|]. rewrite Rmult_comm, <- rsum_scal. apply rsum_le. intros j Hj.
    assert (M : Rabs (peval D (u j)) <= rsum n (fun j => Rabs (z F j))).
    { rewrite <- ED, <- (row_z F P j LP EP Hj). apply (rsum_one n (fun j => Rabs (z F j)) j Hj). intros; apply Rabs_pos. }
    unfold Rdiv. rewrite !Rabs_mult, Rabs_inv. assert (Q := pabs_bound (gpoly n u j) y Hy).
    assert (I : 0 <= / Rabs (peval (gpoly n u j) (u j))) by (left; apply Rinv_0_lt_compat, Rabs_pos_lt, g_own).
    rewrite Rmult_assoc. apply Rmult_le_compat; [apply Rabs_pos| |exact M|].
    - apply Rmult_le_pos; [exact I|apply Rabs_pos].
    - unfold k, Rdiv. rewrite Rmult_comm. apply Rmult_le_compat_r; assumption. }
  rewrite <- (EP i Hi), <- (EP (n - 1)%nat) by lia. rewrite u_last. assert (U1 := u_le1 i Hi). assert (U0 := u_pos jac n d Hn HJ i Hi).
  destruct (Req_dec (u i) 1) as [E|E].
  - rewrite E, Rminus_eq_0, Rabs_R0. eapply Rle_trans; [apply Rabs_pos|apply (DB 1); lra].
  - destruct (MVT_cor2 (peval P) (peval (pderiv P)) (u i) 1 ltac:(lra)) as (y & EY & Hy); [intros; apply peval_deriv|].
    rewrite Rabs_minus_sym, EY, ED, Rabs_mult, (Rabs_pos_eq (1 - u i)) by lra.
    assert (Q := DB y ltac:(lra)). assert (Q2 := Rabs_pos (peval D y)). nra.
Qed.
End Gap.
