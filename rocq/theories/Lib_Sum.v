(** Finite sums of reals indexed by [0 .. n-1]. *)
From Coq Require Import Reals Lra Lia Arith List.
Import ListNotations.
Open Scope R_scope.

Fixpoint rsum (n : nat) (f : nat -> R) : R :=
  match n with
  | O => 0
  | S k => rsum k f + f k
  end.

Lemma rsum_ext n f g :
  (forall i, (i < n)%nat -> f i = g i) -> rsum n f = rsum n g.
Proof.
  induction n as [|n IH]; intros H; simpl; [reflexivity|].
  rewrite IH by (intros i Hi; apply H; lia). rewrite H by lia. reflexivity.
Qed.

Lemma rsum_plus n f g : rsum n (fun i => f i + g i) = rsum n f + rsum n g.
Proof. induction n as [|n IH]; simpl; [lra|]. rewrite IH; lra. Qed.

Lemma rsum_minus n f g : rsum n (fun i => f i - g i) = rsum n f - rsum n g.
Proof. induction n as [|n IH]; simpl; [lra|]. rewrite IH; lra. Qed.

Lemma rsum_scal n c f : rsum n (fun i => c * f i) = c * rsum n f.
Proof. induction n as [|n IH]; simpl; [lra|]. rewrite IH; lra. Qed.

Lemma rsum_scal_r n c f : rsum n (fun i => f i * c) = rsum n f * c.
Proof. induction n as [|n IH]; simpl; [lra|]. rewrite IH; lra. Qed.

Lemma rsum_opp n f : rsum n (fun i => - f i) = - rsum n f.
Proof. induction n as [|n IH]; simpl; [lra|]. rewrite IH; lra. Qed.

Lemma rsum_div n f c : rsum n (fun i => f i / c) = rsum n f / c.
Proof. unfold Rdiv. apply rsum_scal_r. Qed.

Lemma rsum_zero n f : (forall i, (i < n)%nat -> f i = 0) -> rsum n f = 0.
Proof.
  induction n as [|n IH]; intros H; simpl; [reflexivity|].
  rewrite IH by (intros i Hi; apply H; lia). rewrite H by lia. lra.
Qed.

Lemma rsum_const n c : rsum n (fun _ => c) = INR n * c.
Proof.
  induction n as [|n IH]; [simpl; lra|].
  cbn [rsum]. rewrite IH, S_INR. lra.
Qed.

(** First term split off. *)
Lemma rsum_S_first n f : rsum (S n) f = f O + rsum n (fun i => f (S i)).
Proof.
  induction n as [|n IH]; [simpl; lra|].
  change (rsum (S (S n)) f) with (rsum (S n) f + f (S n)).
  rewrite IH. simpl. lra.
Qed.

Lemma rsum_app n m f :
  rsum (n + m) f = rsum n f + rsum m (fun i => f (n + i)%nat).
Proof.
  induction m as [|m IH]; [rewrite Nat.add_0_r; simpl; lra|].
  rewrite Nat.add_succ_r; simpl. rewrite IH; lra.
Qed.

Lemma rsum_swap n m (f : nat -> nat -> R) :
  rsum n (fun i => rsum m (fun j => f i j)) =
  rsum m (fun j => rsum n (fun i => f i j)).
Proof.
  induction n as [|n IH]; simpl.
  - symmetry; apply rsum_zero; reflexivity.
  - rewrite IH, <- rsum_plus. reflexivity.
Qed.

(** Only one term is non zero. *)
Lemma rsum_single n f k :
  (k < n)%nat -> (forall i, (i < n)%nat -> i <> k -> f i = 0) -> rsum n f = f k.
Proof.
  induction n as [|n IH]; intros Hk H; [lia|].
  simpl. destruct (Nat.eq_dec k n) as [->|Hn].
  - rewrite rsum_zero; [lra|]. intros i Hi; apply H; lia.
  - rewrite IH by (try lia; intros i Hi Hik; apply H; lia).
    rewrite (H n) by lia. lra.
Qed.

(** Split off the k-th term. *)
Lemma rsum_split_at n f k :
  (k < n)%nat ->
  rsum n f = f k + rsum n (fun i => if Nat.eq_dec i k then 0 else f i).
Proof.
  intros Hk.
  rewrite (rsum_ext n f (fun i => (if Nat.eq_dec i k then f k else 0)
             + (if Nat.eq_dec i k then 0 else f i))).
  - rewrite rsum_plus. f_equal.
    rewrite (rsum_single n _ k Hk).
    + destruct (Nat.eq_dec k k); [reflexivity|congruence].
    + intros i Hi Hne. destruct (Nat.eq_dec i k); [congruence|reflexivity].
  - intros i Hi. destruct (Nat.eq_dec i k) as [->|]; lra.
Qed.

Lemma rsum_nonneg n f : (forall i, (i < n)%nat -> 0 <= f i) -> 0 <= rsum n f.
Proof.
  induction n as [|n IH]; intros H; simpl; [lra|].
  assert (0 <= f n) by (apply H; lia).
  assert (0 <= rsum n f) by (apply IH; intros; apply H; lia). lra.
Qed.

Lemma rsum_pos n f :
  (0 < n)%nat -> (forall i, (i < n)%nat -> 0 < f i) -> 0 < rsum n f.
Proof.
  induction n as [|n IH]; intros Hn H; [lia|].
  simpl. assert (0 < f n) by (apply H; lia).
  assert (0 <= rsum n f)
    by (apply rsum_nonneg; intros i Hi; left; apply H; lia). lra.
Qed.

Lemma rsum_pos_one n f k :
  (k < n)%nat -> (forall i, (i < n)%nat -> 0 <= f i) -> 0 < f k -> 0 < rsum n f.
Proof.
  intros Hk H Hp. rewrite (rsum_split_at n f k Hk).
  assert (0 <= rsum n (fun i => if Nat.eq_dec i k then 0 else f i)).
  { apply rsum_nonneg. intros i Hi. destruct (Nat.eq_dec i k); [lra|auto]. }
  lra.
Qed.

Lemma rsum_le n f g :
  (forall i, (i < n)%nat -> f i <= g i) -> rsum n f <= rsum n g.
Proof.
  induction n as [|n IH]; intros H; simpl; [lra|].
  assert (f n <= g n) by (apply H; lia).
  assert (rsum n f <= rsum n g) by (apply IH; intros; apply H; lia). lra.
Qed.

Lemma rsum_abs n f : Rabs (rsum n f) <= rsum n (fun i => Rabs (f i)).
Proof.
  induction n as [|n IH]; simpl; [rewrite Rabs_R0; lra|].
  eapply Rle_trans; [apply Rabs_triang|]. lra.
Qed.

(** Sum of a list. *)
Fixpoint lsum (l : list R) : R :=
  match l with [] => 0 | x :: t => x + lsum t end.

Lemma lsum_app a b : lsum (a ++ b) = lsum a + lsum b.
Proof. induction a as [|x a IH]; simpl; [lra|]. rewrite IH; lra. Qed.

Lemma lsum_map_ext {A} (f g : A -> R) l :
  (forall x, In x l -> f x = g x) -> lsum (map f l) = lsum (map g l).
Proof.
  induction l as [|x l IH]; simpl; intros H; [reflexivity|].
  rewrite (H x), IH by auto. reflexivity.
Qed.

Lemma lsum_map_seq f n : lsum (map f (seq 0 n)) = rsum n f.
Proof.
  induction n as [|n IH]; [reflexivity|].
  rewrite seq_S, map_app, lsum_app, IH. simpl. lra.
Qed.
