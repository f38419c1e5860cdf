(** C187 — the radial weights integrate, and the radial Laplacian is the divergence of a flux. *)
From Coq Require Import Reals List Arith Lia Lra.
From Verif Require Import Lib_Py Lib_Sum Lib_Poly Lib_Moment S_Colloc S_Radial M_Colloc P_Colloc P_Radial P_JacobiRoots.
Import ListNotations.
Open Scope R_scope.

(** Every polynomial of degree up to 2n-2 in the squared radius is integrated exactly. *)
Theorem C187_integrals : forall jacobi n d c, (1 <= n)%nat ->
  jacobi_roots d (n - 1) (jacobi (n - 1)%nat (INR (d + 1) / 2 + 1) (INR (d + 1) / 2)) ->
  let '(x, _, _, W) := recur_colloc_symm jacobi n (INR (d + 1)) in
  integral (fun s => s ^ d * poly (2 * n - 1) c (s ^ 2)) 0 1 (rsum n (fun i => W i * poly (2 * n - 1) c (x i ^ 2))).
Proof.
  intros jacobi n d c Hn HJ. rewrite Nat.add_1_r in *. unfold recur_colloc_symm. cbv zeta.
  set (P := coefs (2 * n - 1) c).
  assert (EP : forall y, poly (2 * n - 1) c y = peval P y) by (intros y; unfold P, poly; symmetry; apply peval_coefs).
  apply (integral_ext (fun s => s ^ d * peval P (s ^ 2))); [intros s; rewrite EP; reflexivity|].
  replace (rsum n _) with (mom (INR (S d)) P); [apply integral_mom|].
  rewrite <- (code_quad jacobi n d Hn HJ) by (unfold P; rewrite length_coefs; lia). apply rsum_ext. intros i Hi.
  rewrite EP, <- Rsqr_pow2, Rsqr_sqrt; [reflexivity|]. left. apply (u_pos jacobi n d Hn HJ i Hi).
Qed.
(** The weighted sum of the Laplacian of a profile is its gradient at the surface. *)
Theorem C187_divergence : forall jacobi n d c, (1 <= n)%nat ->
  jacobi_roots d (n - 1) (jacobi (n - 1)%nat (INR (d + 1) / 2 + 1) (INR (d + 1) / 2)) ->
  let '(x, _, B, W) := recur_colloc_symm jacobi n (INR (d + 1)) in
  derivable_pt_lim (fun s => poly n c (s ^ 2)) 1 (rsum n (fun i => W i * rsum n (fun j => B i j * poly n c (x j ^ 2)))).
Proof.
  intros jacobi n d c Hn HJ. rewrite Nat.add_1_r in *. unfold recur_colloc_symm. cbv zeta.
  set (P := coefs n c). set (u := rootsu jacobi n (INR (S d))).
  assert (EP : forall y, poly n c y = peval P y) by (intros y; unfold P, poly; symmetry; apply peval_coefs).
  assert (HD := u_distinct jacobi n d Hn HJ). assert (Ha := a_pos n d Hn).
  assert (Q : rsum n (fun i => Wx n u (INR (S d)) i * rsum n (fun j => Bx n u (INR (S d)) i j * poly n c (sqrt (u j) ^ 2))) = 2 * peval (pderiv P) 1).
  { set (L := padd (pscal (2 * INR (S d)) (pderiv P)) (pscal 4 (0 :: pderiv (pderiv P)))).
    rewrite (rsum_ext n _ (fun i => Wx n u (INR (S d)) i * peval L (u i))).
    - assert (LL : (length P <= S (n - 1))%nat) by (unfold P; rewrite length_coefs; lia).
      destruct (pderiv_short P (n - 1) LL) as (D & LD & ED & _).
      transitivity (rsum n (fun i => Wx n u (INR (S d)) i * peval (padd (pscal (2 * INR (S d)) D) (pscal 4 (0 :: pderiv D))) (u i))).
      { apply rsum_ext. intros i Hi. unfold L. rewrite !peval_padd, !peval_pscal. cbn [peval]. rewrite ED, (pderiv_ext _ _ ED). reflexivity. }
      unfold u. rewrite (code_quad jacobi n d Hn HJ).
      + rewrite ED. rewrite <- (mom_parts D (INR (S d)) Ha), <- mom_pscal. apply mom_ext. intros y.
        repeat (rewrite ?peval_padd, ?peval_pscal; cbn [peval]). ring.
      + rewrite length_padd, !length_pscal. cbn [length]. rewrite length_pderiv. lia.
    - intros i Hi. f_equal. rewrite (rsum_ext n _ (fun j => Bx n u (INR (S d)) i j * peval P (u j))).
      + change (apply_row n (Bx n u (INR (S d))) (fun j => peval P (u j)) i = peval L (u i)).
        rewrite Bx_list; [|exact HD|unfold P; rewrite length_coefs; lia|exact Hi].
        unfold L. rewrite !peval_padd, !peval_pscal. cbn [peval]. ring.
      + intros j Hj. rewrite EP, <- Rsqr_pow2, Rsqr_sqrt; [reflexivity|]. left. apply (u_pos jacobi n d Hn HJ j Hj). }
  fold u. rewrite Q. apply (derivable_pt_lim_ext (fun s => peval P (s ^ 2))); [intros s; symmetry; apply EP|].
  replace (2 * peval (pderiv P) 1) with (peval (pderiv P) (1 ^ 2) * (INR 2 * 1 ^ Nat.pred 2)) by (simpl; replace (1 * (1 * 1)) with 1 by ring; ring).
  apply (derivable_pt_lim_comp (fun s => s ^ 2) (peval P)); [apply derivable_pt_lim_pow|apply peval_deriv].
Qed.
(** Diffusion only evens out: the weighted sum of any profile times its Laplacian is at most what
    crosses the surface times the value there. *)
Theorem C187_dissipation : forall jacobi n d (f : nat -> R), (1 <= n)%nat ->
  jacobi_roots d (n - 1) (jacobi (n - 1)%nat (INR (d + 1) / 2 + 1) (INR (d + 1) / 2)) ->
  let '(x, _, B, W) := recur_colloc_symm jacobi n (INR (d + 1)) in
  let lap i := rsum n (fun j => B i j * f j) in
  rsum n (fun i => W i * (f i * lap i)) <= f (n - 1)%nat * rsum n (fun i => W i * lap i).
Proof.
  intros jacobi n d f Hn HJ. rewrite Nat.add_1_r in *. unfold recur_colloc_symm. cbv zeta.
  assert (D := code_dissipation jacobi n d Hn HJ f). unfold apply_row in D.
  set (u := rootsu jacobi n (INR (S d))) in *. set (W := Wx n u (INR (S d))) in *. set (B := Bx n u (INR (S d))) in *.
  rewrite <- rsum_scal. apply Rminus_le. eapply Rle_trans; [right|exact D].
  unfold Rminus. rewrite <- (Rmult_1_l (- rsum n _)), <- Ropp_mult_distr_r, Ropp_mult_distr_l, <- rsum_scal, <- rsum_plus.
  apply rsum_ext. intros i Hi. ring.
Qed.

(** The points asked for exist for every number of points and every shape. *)
Theorem C187_points : forall d m, exists r, jacobi_roots d m r.
Proof. exact jacobi_exist. Qed.

(** One interior point of a sphere: its radius is the square root of 3/7. *)
Example sphere_met : jacobi_roots 2 (2 - 1) (fun _ => 3 / 7).
Proof.
  split; [split; [intros; lra|intros; lia]|]. intros c.
  apply (integral_ext (fun s => s ^ 2 * peval [- (3 / 7) * c 0%nat; (1 + 3 / 7) * c 0%nat; - c 0%nat] (s ^ 2))).
  - intros s. unfold poly. simpl. ring.
  - replace 0 with (mom (INR 3) [- (3 / 7) * c 0%nat; (1 + 3 / 7) * c 0%nat; - c 0%nat]) at 2; [apply integral_mom|].
    unfold mom. simpl. field.
Qed.
Example radial_met : let jacobi := fun (_ : nat) (_ _ : R) (_ : nat) => 3 / 7 in
  jacobi_roots 2 (2 - 1) (jacobi (2 - 1)%nat (INR (2 + 1) / 2 + 1) (INR (2 + 1) / 2)).
Proof. exact sphere_met. Qed.

Print Assumptions C187_integrals.
Print Assumptions C187_divergence.
Print Assumptions C187_dissipation.
Print Assumptions C187_points.
