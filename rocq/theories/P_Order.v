(** Sums do not depend on the order. *)
From Coq Require Import Reals List Arith Bool Lra Lia Permutation.
From Verif Require Import Lib_Py Lib_Sum S_Order M_IxEq M_IxColumn P_IxColumn.
Import ListNotations.
Open Scope R_scope.

Definition lsum (l : list R) : R := fold_right Rplus 0 l.
Lemma lsum_app l l' : lsum (l ++ l') = lsum l + lsum l'.
Proof. unfold lsum. induction l as [|a l IH]; cbn [app fold_right]; [ring|]. rewrite IH. ring. Qed.
Lemma rsum_list n f : rsum n f = lsum (map f (seq 0 n)).
Proof.
  induction n as [|n IH]; [reflexivity|]. rewrite seq_S, map_app, lsum_app, <- IH. unfold lsum. cbn [map fold_right rsum Nat.add]. ring.
Qed.
Lemma lsum_perm l l' : Permutation l l' -> lsum l = lsum l'.
Proof. unfold lsum. induction 1; cbn [fold_right] in *; lra. Qed.
Lemma relabel_perm n p : relabelling n p -> Permutation (map p (seq 0 n)) (seq 0 n).
Proof.
  intros (A & B).
  assert (ND : NoDup (map p (seq 0 n))).
  { apply NoDup_nth with (d := p 0%nat). rewrite map_length, seq_length. intros i j Hi Hj E.
    rewrite !map_nth, !seq_nth in E by assumption. apply (B i j Hi Hj E). }
  apply NoDup_Permutation_bis; [exact ND|rewrite map_length; lia|].
  intros x Hx. apply in_map_iff in Hx. destruct Hx as (i & <- & Hi). apply in_seq in Hi.
  apply in_seq. specialize (A i). lia.
Qed.
Lemma rsum_relabel n p f : relabelling n p -> rsum n (fun i => f (p i)) = rsum n f.
Proof.
  intros H. rewrite !rsum_list. rewrite <- (map_map p f). apply lsum_perm, Permutation_map, relabel_perm, H.
Qed.
Lemma existsb_relabel n p f : relabelling n p -> existsb (fun i => f (p i)) (seq 0 n) = existsb f (seq 0 n).
Proof.
  intros H. assert (P := relabel_perm n p H).
  assert (E : existsb (fun i => f (p i)) (seq 0 n) = existsb f (map p (seq 0 n))).
  { generalize (seq 0 n). induction l as [|a l IH]; cbn; [reflexivity|rewrite IH; reflexivity]. }
  rewrite E. apply eq_true_iff_eq. rewrite !existsb_exists.
  split; intros (x & Hx & Fx); exists x; split; try assumption.
  - apply (Permutation_in _ P Hx).
  - apply (Permutation_in _ (Permutation_sym P) Hx).
Qed.
Lemma presat_sum n f : (0 < n)%nat -> rsum (n - 1) (fun k => f (S k)) = rsum n f - f 0%nat.
Proof.
  intros H. destruct n as [|n]; [lia|]. replace (S n - 1)%nat with n by lia.
  assert (G : forall m, rsum (S m) f = f 0%nat + rsum m (fun k => f (S k))).
  { induction m as [|m IH]; [cbn; ring|]. change (rsum (S (S m)) f) with (rsum (S m) f + f (S m)).
    rewrite IH. cbn [rsum]. ring. }
  rewrite G. ring.
Qed.
Lemma filter_perm {A} (f : A -> bool) l l' : Permutation l l' -> Permutation (filter f l) (filter f l').
Proof.
  induction 1 as [|x l l' H IH|x y l|l l' l'' H1 IH1 H2 IH2]; cbn [filter].
  - constructor.
  - destruct (f x); [constructor; exact IH|exact IH].
  - destruct (f x), (f y); try constructor; apply Permutation_refl.
  - apply (Permutation_trans IH1 IH2).
Qed.
