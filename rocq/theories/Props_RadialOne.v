(** C187 — the radial grid does not depend on how its points are found. *)
From Coq Require Import Reals List Arith Lia Lra.
From Verif Require Import Lib_Py Lib_Sum Lib_Poly Lib_Moment S_Colloc S_Radial M_Colloc P_Radial P_JacobiRoots P_JacobiUnique Props_Radial.
Import ListNotations.
Open Scope R_scope.

(** The points are determined by what they are asked to satisfy. *)
Theorem C187_points_unique : forall d m r r', jacobi_roots d m r -> jacobi_roots d m r' -> forall i, (i < m)%nat -> r i = r' i.
Proof. exact jacobi_unique. Qed.

(** Two root finders that keep their promise lead to the same radii, gradient, Laplacian and
    weights. *)
Theorem C187_one_grid : forall jacobi jacobi' n d i j, (1 <= n)%nat ->
  jacobi_roots d (n - 1) (jacobi (n - 1)%nat (INR (d + 1) / 2 + 1) (INR (d + 1) / 2)) ->
  jacobi_roots d (n - 1) (jacobi' (n - 1)%nat (INR (d + 1) / 2 + 1) (INR (d + 1) / 2)) ->
  (i < n)%nat -> (j < n)%nat ->
  let '(x, A, B, W) := recur_colloc_symm jacobi n (INR (d + 1)) in
  let '(x', A', B', W') := recur_colloc_symm jacobi' n (INR (d + 1)) in
  x i = x' i /\ A i j = A' i j /\ B i j = B' i j /\ W i = W' i.
Proof.
  intros jacobi jacobi' n d i j Hn HJ HJ' Hi Hj. rewrite Nat.add_1_r in *. unfold recur_colloc_symm. cbv zeta.
  assert (U : forall k, (k < n)%nat -> rootsu jacobi n (INR (S d)) k = rootsu jacobi' n (INR (S d)) k).
  { intros k Hk. destruct (Nat.eq_dec k (n - 1)) as [-> |N].
    - unfold rootsu. rewrite Nat.eqb_refl. reflexivity.
    - rewrite !u_inner by lia. apply (jacobi_unique d (n - 1)); [exact HJ|exact HJ'|lia]. }
  split; [rewrite (U i Hi); reflexivity|]. unfold Ax, Bx.
  rewrite (Amat_ext n _ _ i j U Hi Hj), (Bmat_ext n _ _ i j U Hi Hj), (U i Hi), (Wx_ext n _ _ (INR (S d)) i U Hi). repeat split.
Qed.

(** One interior point of a sphere can only be at the squared radius 3/7. *)
Example only_three_sevenths : forall r, jacobi_roots 2 1 r -> r 0%nat = 3 / 7.
Proof. intros r H. apply (C187_points_unique 2 1 r (fun _ => 3 / 7) H sphere_met). lia. Qed.

Print Assumptions C187_points_unique.
Print Assumptions C187_one_grid.
