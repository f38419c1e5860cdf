(** There is only one radial grid: the Jacobi points are determined by orthogonality. *)
From Coq Require Import Reals List Arith Lra Lia.
From Verif Require Import Lib_Py Lib_Sum Lib_Poly Lib_Moment M_Colloc S_Colloc S_Radial P_Radial P_JacobiRoots.
Import ListNotations.
Open Scope R_scope.

Lemma factors_lead r m : exists e, (length e <= m)%nat /\ forall y, factors m r y = y ^ m + peval e y.
Proof.
  induction m as [|m (e & L & E)].
  - exists []. split; [simpl; lia|]. intros y. simpl. ring.
  - exists (padd (0 :: e) (pscal (- r m) (padd (pmono m) e))). split.
    + rewrite length_padd, length_pscal, length_padd, length_pmono. cbn [length]. lia.
    + intros y. cbn [factors]. rewrite E, peval_padd, peval_pscal, peval_padd, peval_pmono. simpl. ring.
Qed.
Lemma factors_root m r i : (i < m)%nat -> factors m r (r i) = 0.
Proof.
  induction m as [|m IH]; intros H; [lia|]. cbn [factors]. destruct (Nat.eq_dec i m) as [-> |N]; [ring|]. rewrite IH by lia. ring.
Qed.
Lemma factors_zero m r y : factors m r y = 0 -> exists i, (i < m)%nat /\ y = r i.
Proof.
  induction m as [|m IH]; cbn [factors]; intros H; [lra|]. apply Rmult_integral in H as [H|H].
  - destruct (IH H) as (i & Hi & ->). exists i. split; [lia|reflexivity].
  - exists m. split; [lia|lra].
Qed.
Lemma integral_sub f g v w : integral f 0 1 v -> integral g 0 1 w -> integral (fun x => f x - g x) 0 1 (v - w).
Proof.
  intros (F & DF & EF) (G & DG & EG). exists (fun x => F x - G x). split; [|lra]. intros x. apply derivable_pt_lim_minus; [apply DF|apply DG].
Qed.

Lemma jacobi_same_poly d m r r' : jacobi_roots d m r -> jacobi_roots d m r' -> forall y, factors m r y = factors m r' y.
Proof.
  intros (_ & O) (_ & O'). destruct (factors_lead r m) as (e & L & E). destruct (factors_lead r' m) as (e' & L' & E').
  set (q := padd e (pscal (-1) e')). assert (Lq : (length q <= m)%nat) by (unfold q; rewrite length_padd, length_pscal; lia).
  assert (Eq : forall y, factors m r y - factors m r' y = peval q y) by (intros y; unfold q; rewrite peval_padd, peval_pscal, E, E'; ring).
  assert (EP : forall y, poly m (fun k => nth k q 0) y = peval q y) by (intros y; symmetry; apply peval_nth; exact Lq).
  assert (Z : ip d q q = 0).
  { unfold ip. apply (integral_unique (fun s => s ^ d * peval (pmul [1; -1] (pmul q q)) (s ^ 2))); [apply integral_mom|].
    apply (integral_ext (fun s => s ^ d * (1 - s ^ 2) * factors m r (s ^ 2) * poly m (fun k => nth k q 0) (s ^ 2)
      - s ^ d * (1 - s ^ 2) * factors m r' (s ^ 2) * poly m (fun k => nth k q 0) (s ^ 2))).
    - intros s. rewrite EP, !peval_pmul, ip_eval, <- (Eq (s ^ 2)). ring.
    - replace 0 with (0 - 0) at 2 by ring. apply integral_sub; [apply O|apply O']. }
  intros y. apply Rminus_diag_uniq. rewrite Eq.
  assert (X := ip_null d q q ltac:(intros; apply Rle_0_sqr) Z y). apply Rmult_integral in X as [X|X]; exact X.
Qed.

Lemma jacobi_unique d m r r' : jacobi_roots d m r -> jacobi_roots d m r' -> forall i, (i < m)%nat -> r i = r' i.
Proof.
  intros H H'. assert (P := jacobi_same_poly d m r r' H H'). destruct H as ((_ & S1) & _). destruct H' as ((_ & S2) & _).
  intros i. induction i as [i IH] using (well_founded_induction lt_wf). intros Hi.
  destruct (factors_zero m r' (r i)) as (j & Hj & Ej); [rewrite <- P; apply factors_root; exact Hi|].
  destruct (factors_zero m r (r' i)) as (k & Hk & Ek); [rewrite P; apply factors_root; exact Hi|].
  assert (A : (i <= j)%nat). { destruct (le_lt_dec i j) as [A|A]; [exact A|]. exfalso. rewrite <- (IH j A Hj) in Ej. assert (X := S1 j i A Hi). lra. }
  assert (B : (i <= k)%nat). { destruct (le_lt_dec i k) as [B|B]; [exact B|]. exfalso. rewrite (IH k B Hk) in Ek. assert (X := S2 k i B Hi). lra. }
  assert (C : r' i <= r i). { rewrite Ej. destruct (Nat.eq_dec i j) as [-> |N]; [lra|]. left. apply S2; lia. }
  assert (D : r i <= r' i). { rewrite Ek. destruct (Nat.eq_dec i k) as [-> |N]; [lra|]. left. apply S1; lia. }
  lra.
Qed.

(** The operators follow the points. *)
Lemma px_ext n u v s : (forall i, (i < n)%nat -> u i = v i) -> calc_px_column s n u = calc_px_column s n v.
Proof.
  intros H. unfold calc_px_column.
  assert (G : forall l p, (forall i, In i l -> (i < n)%nat) ->
    fold_left (fun p j => if reqb (u j - s) 0 then p else recur p (s - u j)) l p = fold_left (fun p j => if reqb (v j - s) 0 then p else recur p (s - v j)) l p).
  { induction l as [|j l IH]; intros p Hl; [reflexivity|]. cbn [fold_left]. rewrite (H j) by (apply Hl; left; reflexivity). apply IH. intros i Hi. apply Hl. right. exact Hi. }
  apply G. intros i Hi. apply in_seq in Hi. lia.
Qed.
Lemma Amat_ext n u v i j : (forall i, (i < n)%nat -> u i = v i) -> (i < n)%nat -> (j < n)%nat -> Amat n u i j = Amat n v i j.
Proof.
  intros H Hi Hj. unfold Amat, px1, px2. rewrite !(px_ext n u v _ H), (H i Hi), (H j Hj). reflexivity.
Qed.
Lemma Bmat_ext n u v i j : (forall i, (i < n)%nat -> u i = v i) -> (i < n)%nat -> (j < n)%nat -> Bmat n u i j = Bmat n v i j.
Proof.
  intros H Hi Hj. unfold Bmat. rewrite (Amat_ext n u v i j H Hi Hj). unfold px1, px2, px3. rewrite !(px_ext n u v _ H), (H i Hi), (H j Hj). reflexivity.
Qed.
Lemma Wx_ext n u v a i : (forall i, (i < n)%nat -> u i = v i) -> (i < n)%nat -> Wx n u a i = Wx n v a i.
Proof.
  intros H Hi. unfold Wx, wp_sum. rewrite (rsum_ext n (fun i => 1 / (u i * px1 n u i ^ 2)) (fun i => 1 / (v i * px1 n v i ^ 2))).
  - unfold px1. rewrite !(px_ext n u v _ H), (H i Hi). reflexivity.
  - intros k Hk. unfold px1. rewrite !(px_ext n u v _ H), (H k Hk). reflexivity.
Qed.
