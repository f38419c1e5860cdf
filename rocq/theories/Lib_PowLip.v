(** Powers with exponent at least one are Lipschitz on bounded sets of non-negative numbers. *)
From Coq Require Import Reals Lra Lia.
From Verif Require Import Lib_Sum Lib_Pow Lib_Traj Lib_Tame.
Open Scope R_scope.

Lemma rpow_lip n M a b : 1 <= n -> 0 < M -> 0 <= a <= M -> 0 <= b <= M ->
  Rabs (rpow a n - rpow b n) <= n * rpow M (n - 1) * Rabs (a - b).
Proof.
  intros Hn HM.
  assert (PM : 0 < rpow M (n - 1)) by (apply rpow_pos, HM).
  assert (W : forall a b, 0 <= a -> a < b -> b <= M -> Rabs (rpow b n - rpow a n) <= n * rpow M (n - 1) * (b - a)).
  { clear a b. intros a b Ha Hab Hb.
    assert (LE : rpow a n <= rpow b n) by (apply rpow_le; lra).
    rewrite Rabs_right by lra.
    destruct (Req_dec a 0) as [->|Na].
    - rewrite (rpow_0 n) by lra. replace n with (1 + (n - 1)) at 1 by ring.
      rewrite rpow_plus by lra. rewrite rpow_1 by lra.
      assert (L2 : rpow b (n - 1) <= rpow M (n - 1)) by (apply rpow_le; lra).
      assert (0 <= rpow b (n - 1)) by (apply rpow_nonneg; lra).
      rewrite !Rminus_0_r.
      apply Rle_trans with (b * rpow M (n - 1)); [apply Rmult_le_compat_l; lra|].
      rewrite Rmult_comm. apply Rmult_le_compat_r; [lra|]. nra.
    - destruct (MVT_cor2 (fun x => Rpower x n) (fun x => n * Rpower x (n - 1)) a b Hab) as (c & E & Hc).
      { intros c Hc. apply derivable_pt_lim_power. lra. }
      rewrite (rpow_Rpower b n), (rpow_Rpower a n) by lra. rewrite E. apply Rmult_le_compat_r; [lra|].
      apply Rmult_le_compat_l; [lra|]. rewrite <- rpow_Rpower by lra. apply rpow_le; lra. }
  intros Ha Hb. destruct (Rtotal_order a b) as [H|[->|H]].
  - rewrite (Rabs_minus_sym (rpow a n)), (Rabs_minus_sym a). rewrite (Rabs_right (b - a)) by lra. apply W; lra.
  - rewrite !Rminus_eq_0, Rabs_R0. lra.
  - rewrite (Rabs_right (a - b)) by lra. apply W; lra.
Qed.

(** The positive part. *)
Lemma pospart_lip a b : Rabs (Rmax 0 a - Rmax 0 b) <= Rabs (a - b).
Proof. unfold Rmax, Rabs. repeat destruct Rle_dec; repeat destruct Rcase_abs; lra. Qed.

Lemma lip_at_ramp n x : 1 <= n -> lip_at (fun a => rpow (Rmax 0 a) n) x.
Proof.
  intros Hn. set (M := Rabs x + 1). assert (HM : 0 < M) by (unfold M; assert (P := Rabs_pos x); lra).
  exists 1, (n * rpow M (n - 1)). assert (PM := rpow_pos M (n - 1) HM).
  split; [lra|]. split; [nra|]. intros a b Ha Hb.
  assert (B : forall a, Rabs (a - x) < 1 -> 0 <= Rmax 0 a <= M).
  { intros c Hc. split; [apply Rmax_l|]. apply Rmax_lub; [lra|].
    unfold M. apply Rabs_def2 in Hc. assert (Q := Rle_abs x). lra. }
  eapply Rle_trans; [apply (rpow_lip n M); auto|].
  apply Rmult_le_compat_l; [nra|]. apply pospart_lip.
Qed.

(** A mixture's share times a power of its weighted total, for non-negative amounts. *)
Section Share.
Variables (n : nat) (w : nat -> R) (c p : R).
Hypothesis Hw : forall i, (i < n)%nat -> 1 <= w i.
Hypothesis Hc : 0 < c.
Hypothesis Hp : 1 <= p.
Definition total (v : nat -> R) : R := rsum n v.
Definition wtotal (v : nat -> R) : R := rsum n (fun i => w i * v i).
Definition share (i : nat) (v : nat -> R) : R :=
  if Rle_dec (wtotal v) 0 then 0 else v i / total v * rpow (c * wtotal v) p.
Notation NW := (rsum n w).

Lemma w_le i : (i < n)%nat -> w i <= NW.
Proof.
  intros Hi. rewrite (rsum_split_at n w i Hi).
  assert (0 <= rsum n (fun j => if Nat.eq_dec j i then 0 else w j)); [|lra].
  apply rsum_nonneg. intros j Hj. destruct (Nat.eq_dec j i); [lra|]. specialize (Hw j Hj). lra.
Qed.
Lemma wtotal_ge v : (forall i, (i < n)%nat -> 0 <= v i) -> total v <= wtotal v.
Proof. intros H. apply rsum_le. intros i Hi. specialize (Hw i Hi). specialize (H i Hi). nra. Qed.
Lemma wtotal_le v : (forall i, (i < n)%nat -> 0 <= v i) -> wtotal v <= NW * total v.
Proof.
  intros H. unfold wtotal, total. rewrite <- rsum_scal. apply rsum_le. intros i Hi.
  apply Rmult_le_compat_r; [apply H, Hi|apply w_le, Hi].
Qed.
Lemma elem_le v i : (i < n)%nat -> (forall i, (i < n)%nat -> 0 <= v i) -> 0 <= v i <= total v.
Proof.
  intros Hi H. split; [apply H, Hi|]. unfold total. rewrite (rsum_split_at n v i Hi).
  assert (0 <= rsum n (fun j => if Nat.eq_dec j i then 0 else v j)); [|lra].
  apply rsum_nonneg. intros j Hj. destruct (Nat.eq_dec j i); [lra|]. apply H, Hj.
Qed.
Lemma share_lip M i u v : (i < n)%nat -> 0 < M ->
  (forall i, (i < n)%nat -> 0 <= u i) -> (forall i, (i < n)%nat -> 0 <= v i) ->
  c * wtotal u <= M -> c * wtotal v <= M ->
  Rabs (share i u - share i v) <= 3 * (p * rpow M (p - 1) * c * NW) * rsum n (fun j => Rabs (u j - v j)).
Proof.
  intros Hi HM Pu Pv Mu Mv.
  set (L := p * rpow M (p - 1)). set (S := rsum n (fun j => Rabs (u j - v j))).
  assert (PM : 0 < rpow M (p - 1)) by (apply rpow_pos, HM).
  assert (HL : 0 < L) by (unfold L; nra).
  assert (HNW : 1 <= NW).
  { assert (Q := w_le i Hi). specialize (Hw i Hi). lra. }
  assert (HS : 0 <= S) by (apply rsum_nonneg; intros; apply Rabs_pos).
  assert (Si : Rabs (u i - v i) <= S).
  { unfold S. rewrite (rsum_split_at n _ i Hi).
    assert (0 <= rsum n (fun j => if Nat.eq_dec j i then 0 else Rabs (u j - v j))); [|lra].
    apply rsum_nonneg. intros j Hj. destruct (Nat.eq_dec j i); [lra|apply Rabs_pos]. }
  assert (SA : Rabs (total u - total v) <= S).
  { unfold total. rewrite <- rsum_minus. apply rsum_abs. }
  assert (SW : Rabs (wtotal u - wtotal v) <= NW * S).
  { unfold wtotal, S. rewrite <- rsum_minus, <- rsum_scal. eapply Rle_trans; [apply rsum_abs|].
    apply rsum_le. intros j Hj. rewrite <- Rmult_minus_distr_l, Rabs_mult, (Rabs_right (w j)) by (specialize (Hw j Hj); lra).
    apply Rmult_le_compat_r; [apply Rabs_pos|apply w_le, Hj]. }
  assert (T0 : forall x, (forall i, (i < n)%nat -> 0 <= x i) -> 0 <= total x) by (intros; apply rsum_nonneg; assumption).
  assert (Tu := T0 u Pu). assert (Tv := T0 v Pv).
  assert (Gu := wtotal_ge u Pu). assert (Gv := wtotal_ge v Pv).
  assert (Lu := wtotal_le u Pu). assert (Lv := wtotal_le v Pv).
  assert (Eu := elem_le u i Hi Pu). assert (Ev := elem_le v i Hi Pv).
  assert (K0 : 0 <= L * c * NW) by (apply Rmult_le_pos; [apply Rmult_le_pos|]; lra).
  assert (LK : 0 <= L * c * NW * S) by (apply Rmult_le_pos; assumption).
  (* the power is bounded by the total, and Lipschitz *)
  assert (PB : forall x, (forall i, (i < n)%nat -> 0 <= x i) -> c * wtotal x <= M ->
    0 <= rpow (c * wtotal x) p <= L * c * NW * total x).
  { intros x Px Mx. assert (Gx := wtotal_ge x Px). assert (Lx := wtotal_le x Px). assert (Tx := T0 x Px).
    split; [apply rpow_nonneg; nra|].
    assert (Q := rpow_lip p M (c * wtotal x) 0 Hp HM ltac:(split; [nra|lra]) ltac:(lra)).
    rewrite (rpow_0 p) in Q by lra. rewrite !Rminus_0_r in Q.
    rewrite Rabs_right in Q by (apply Rle_ge, rpow_nonneg; nra).
    rewrite (Rabs_right (c * wtotal x)) in Q by (apply Rle_ge; nra). fold L in Q.
    eapply Rle_trans; [exact Q|].
    replace (L * (c * wtotal x)) with (L * c * wtotal x) by ring. rewrite !Rmult_assoc.
    rewrite <- !(Rmult_assoc L c). apply Rmult_le_compat_l; [nra|]. exact Lx. }
  assert (ShB : forall x, (forall i, (i < n)%nat -> 0 <= x i) -> c * wtotal x <= M -> 0 <= share i x <= L * c * NW * total x).
  { intros x Px Mx. destruct (PB x Px Mx) as (B1 & B2). assert (Tx := T0 x Px). unfold share.
    destruct (Rle_dec (wtotal x) 0) as [Z|Z].
    - split; [lra|]. apply Rmult_le_pos; assumption.
    - assert (Gx := wtotal_ge x Px). assert (Lx := wtotal_le x Px). assert (Ex := elem_le x i Hi Px).
      assert (PT : 0 < total x) by nra.
      assert (F : 0 <= x i / total x <= 1).
      { split; [apply Rmult_le_pos; [lra|left; apply Rinv_0_lt_compat, PT]|].
        apply Rmult_le_reg_r with (total x); [exact PT|]. unfold Rdiv. rewrite Rmult_assoc, Rinv_l by lra. lra. }
      split; [apply Rmult_le_pos; lra|]. nra. }
  assert (ZT : forall x, (forall i, (i < n)%nat -> 0 <= x i) -> wtotal x <= 0 -> total x = 0).
  { intros x Px Z. assert (Gx := wtotal_ge x Px). assert (Tx := T0 x Px). lra. }
  destruct (Rle_dec (wtotal u) 0) as [Zu|Zu].
  - assert (Zt := ZT u Pu Zu). assert (B := ShB v Pv Mv). assert (Su : share i u = 0) by (unfold share; destruct (Rle_dec (wtotal u) 0); [reflexivity|contradiction]).
    rewrite Su. rewrite Rabs_minus_sym, Rminus_0_r, Rabs_right by lra.
    assert (total v <= S) by (rewrite Zt in SA; rewrite Rabs_minus_sym, Rminus_0_r, Rabs_right in SA by lra; exact SA).
    fold L. assert (L * c * NW * total v <= L * c * NW * S) by (apply Rmult_le_compat_l; assumption). lra.
  - destruct (Rle_dec (wtotal v) 0) as [Zv|Zv].
    + assert (Zt := ZT v Pv Zv). assert (B := ShB u Pu Mu). assert (Sv : share i v = 0) by (unfold share; destruct (Rle_dec (wtotal v) 0); [reflexivity|contradiction]).
      rewrite Sv. rewrite Rminus_0_r, Rabs_right by lra.
      assert (total u <= S) by (rewrite Zt in SA; rewrite Rminus_0_r, Rabs_right in SA by lra; exact SA).
      fold L. assert (L * c * NW * total u <= L * c * NW * S) by (apply Rmult_le_compat_l; assumption). lra.
    + assert (Au : 0 < total u) by nra. assert (Av : 0 < total v) by nra.
      unfold share. destruct (Rle_dec (wtotal u) 0) as [Q|_]; [contradiction|]. destruct (Rle_dec (wtotal v) 0) as [Q|_]; [contradiction|].
      set (Pu1 := rpow (c * wtotal u) p). set (Pv1 := rpow (c * wtotal v) p).
      replace (u i / total u * Pu1 - v i / total v * Pv1) with
        (u i / total u * (Pu1 - Pv1) + Pv1 * (u i / total u - v i / total v)) by ring.
      eapply Rle_trans; [apply Rabs_triang|]. rewrite !Rabs_mult.
      assert (F : Rabs (u i / total u) <= 1).
      { rewrite Rabs_right by (apply Rle_ge, Rmult_le_pos; [lra|left; apply Rinv_0_lt_compat, Au]).
        apply Rmult_le_reg_r with (total u); [exact Au|]. unfold Rdiv. rewrite Rmult_assoc, Rinv_l by lra. lra. }
      assert (DP : Rabs (Pu1 - Pv1) <= L * c * NW * S).
      { unfold Pu1, Pv1. eapply Rle_trans; [apply (rpow_lip p M); try assumption; split; nra|]. fold L.
        rewrite <- Rmult_minus_distr_l, Rabs_mult, (Rabs_right c) by lra.
        replace (L * (c * Rabs (wtotal u - wtotal v))) with (L * c * Rabs (wtotal u - wtotal v)) by ring.
        rewrite (Rmult_assoc (L * c)). apply Rmult_le_compat_l; [nra|]. exact SW. }
      assert (T1 : Rabs (u i / total u) * Rabs (Pu1 - Pv1) <= L * c * NW * S).
      { assert (A1 := Rabs_pos (Pu1 - Pv1)). assert (A2 := Rabs_pos (u i / total u)). nra. }
      destruct (PB v Pv Mv) as (B1 & B2). fold Pv1 in B1, B2.
      assert (DF : Rabs (u i / total u - v i / total v) <= (2 * S) / total v).
      { replace (u i / total u - v i / total v) with
          ((u i / total u * (total v - total u) + (u i - v i)) * / total v) by (field; split; lra).
        rewrite Rabs_mult, (Rabs_right (/ total v)) by (apply Rle_ge; left; apply Rinv_0_lt_compat, Av).
        apply Rmult_le_compat_r; [left; apply Rinv_0_lt_compat, Av|].
        eapply Rle_trans; [apply Rabs_triang|]. rewrite Rabs_mult, (Rabs_minus_sym (total v)).
        assert (A1 := Rabs_pos (total u - total v)). assert (A2 := Rabs_pos (u i / total u)). nra. }
      rewrite (Rabs_right Pv1) by lra.
      assert (T2 : Pv1 * Rabs (u i / total u - v i / total v) <= L * c * NW * total v * (2 * S / total v)).
      { apply Rmult_le_compat; try assumption. apply Rabs_pos. }
      replace (L * c * NW * total v * (2 * S / total v)) with (2 * (L * c * NW * S)) in T2 by (field; lra).
      fold L. lra.
Qed.
End Share.
