(** What a history that converges converges to. *)
From Coq Require Import Reals List Arith Lra Lia.
From Verif Require Import Lib_Sum Lib_Traj Lib_Settle Lib_Tame.
Import ListNotations.
Open Scope R_scope.

(** A quantity that converges and whose pace converges comes to a standstill. *)
Lemma settled_pace f f' L l : (forall b, evolves 0 b f f') -> vanishes (fun t => f t - L) -> vanishes (fun t => f' t - l) -> l = 0.
Proof.
  intros HE HF HD. destruct (Req_dec l 0) as [Z|N]; [exact Z|exfalso]. assert (P : 0 < Rabs l / 4) by (assert (Q := Rabs_pos_lt l N); lra).
  destruct (HF _ P) as (T1 & H1). destruct (HD _ P) as (T2 & H2). set (T := Rmax 0 (Rmax T1 T2)).
  assert (A := Rmax_l 0 (Rmax T1 T2)). assert (B := Rmax_r 0 (Rmax T1 T2)). assert (C := Rmax_l T1 T2). assert (D := Rmax_r T1 T2). fold T in A, B.
  destruct (Lib_Traj.evolves_mvt T (T + 1) f f' ltac:(lra) (Lib_Settle.evolves_from 0 (T + 1) T f f' A (HE (T + 1)))) as (x & Hx & E).
  assert (F1 := H1 T ltac:(lra)). assert (F2 := H1 (T + 1) ltac:(lra)). assert (F3 := H2 x ltac:(lra)).
  replace (f' x * (T + 1 - T)) with (f' x) in E by ring.
  assert (X : Rabs l <= Rabs (f (T + 1) - L) + Rabs (f T - L) + Rabs (f' x - l)).
  { replace l with ((f (T + 1) - L) - (f T - L) - (f' x - l)) at 1 by (rewrite <- E; ring).
    eapply Rle_trans; [apply Rabs_triang|]. rewrite Rabs_Ropp. apply Rplus_le_compat_r. eapply Rle_trans; [apply Rabs_triang|]. rewrite Rabs_Ropp. lra. }
  lra.
Qed.
Lemma vanishes_ext f g : (forall t, f t = g t) -> vanishes f -> vanishes g.
Proof. intros E V eps He. destruct (V eps He) as (T & HT). exists T. intros t Ht. rewrite <- E. apply HT, Ht. Qed.
Lemma vanishes_late t0 f g : (forall t, t0 <= t -> f t = g t) -> vanishes f -> vanishes g.
Proof.
  intros E V eps He. destruct (V eps He) as (T & HT). exists (Rmax T t0). intros t Ht. assert (A := Rmax_l T t0). assert (B := Rmax_r T t0).
  rewrite <- E by lra. apply HT. lra.
Qed.
Lemma vanishes_unique f a b : vanishes (fun t => f t - a) -> vanishes (fun t => f t - b) -> a = b.
Proof.
  intros A B. destruct (Req_dec a b) as [Z|N]; [exact Z|exfalso]. assert (P : 0 < Rabs (a - b) / 2) by (assert (Q := Rabs_pos_lt (a - b) ltac:(lra)); lra).
  destruct (A _ P) as (T & HT). destruct (B _ P) as (U & HU). assert (L1 := Rmax_l T U). assert (L2 := Rmax_r T U).
  specialize (HT (Rmax T U) L1). specialize (HU (Rmax T U) L2).
  assert (X := Rabs_triang (f (Rmax T U) - b) (- (f (Rmax T U) - a))). rewrite Rabs_Ropp in X.
  replace (f (Rmax T U) - b + - (f (Rmax T U) - a)) with (a - b) in X by ring. lra.
Qed.
(** What is tame converges with the state. *)
Lemma vanishes_lsum {I} (l : list I) (f : I -> R -> R) : (forall i, In i l -> vanishes (f i)) -> vanishes (fun t => lsum (map (fun i => Rabs (f i t)) l)).
Proof.
  induction l as [|i l IH]; intros H; cbn [map lsum]; [apply vanishes_0|].
  apply (vanishes_plus (fun t => Rabs (f i t))); [apply vanishes_abs, H; left; reflexivity|apply IH; intros; apply H; right; assumption].
Qed.
Lemma tame_limit {X I} (idx : list I) (co : I -> X -> R) (D : R -> Prop) F t x (s : R -> R) (y : R -> X) t0 :
  tame idx co D F t x -> (forall T, t0 <= T -> D (s T)) -> vanishes (fun T => s T - t) ->
  (forall i, In i idx -> vanishes (fun T => co i (y T) - co i x)) -> vanishes (fun T => F (s T) (y T) - F t x).
Proof.
  intros ((HF & _) & _) HD HS HY eps He. destruct (HF eps He) as (d & Hd & Q).
  assert (V := vanishes_lsum idx (fun i T => co i (y T) - co i x) HY).
  destruct (HS d Hd) as (T1 & H1). destruct (V d Hd) as (T2 & H2). exists (Rmax t0 (Rmax T1 T2)). intros T HT.
  assert (A := Rmax_l t0 (Rmax T1 T2)). assert (B := Rmax_r t0 (Rmax T1 T2)). assert (C := Rmax_l T1 T2). assert (E := Rmax_r T1 T2).
  apply Q; [apply HD; lra|apply H1; lra|]. specialize (H2 T ltac:(lra)). unfold dist.
  rewrite Rabs_right in H2; [exact H2|]. apply Rle_ge, lsum_nonneg. intros; apply Rabs_pos.
Qed.
