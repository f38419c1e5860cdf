(** Properties C23-C26: collocation operators. *)
From Coq Require Import Reals List Arith Bool Lra Lia.
From Verif Require Import Lib_Py Lib_Sum Lib_Poly M_Colloc S_Colloc P_Colloc P_Ocfe.
Import ListNotations.
Open Scope R_scope.

(** ** C23 — axial derivative matrices *)

Theorem C23_derivatives_exact : forall n (x : nat -> R), distinct n x ->
  forall c : nat -> R, exists f' f'',
  derivative (poly n c) f' /\ derivative f' f'' /\
  forall i, (i < n)%nat ->
    apply_row n (Amat n x) (fun j => poly n c (x j)) i = f' (x i) /\
    apply_row n (Bmat n x) (fun j => poly n c (x j)) i = f'' (x i).
Proof. exact colloc_exact. Qed.

(** The grid and matrices the code returns. *)
Theorem C23_axial_grid_exact : forall legendre n, (2 <= n)%nat ->
  interior_roots (n - 2) (legendre (n - 2)%nat) ->
  let '(x, A, B) := recur_colloc legendre n in
  x 0%nat = 0 /\ x (n - 1)%nat = 1 /\
  (forall i j, (i < j)%nat -> (j < n)%nat -> x i < x j) /\
  forall c : nat -> R, exists f' f'',
  derivative (poly n c) f' /\ derivative f' f'' /\
  forall i, (i < n)%nat ->
    apply_row n A (fun j => poly n c (x j)) i = f' (x i) /\
    apply_row n B (fun j => poly n c (x j)) i = f'' (x i).
Proof.
  intros leg n Hn HR. cbn. destruct (rootsz_increasing leg n Hn HR) as (H0 & H1 & HI).
  split; [exact H0|]. split; [exact H1|]. split; [exact HI|].
  apply colloc_exact, increasing_distinct, HI.
Qed.

Theorem C23_constant_profiles : forall n (x : nat -> R), distinct n x ->
  forall (k : R) i, (i < n)%nat ->
    apply_row n (Amat n x) (fun _ => k) i = 0 /\ apply_row n (Bmat n x) (fun _ => k) i = 0.
Proof. intros n x H k i Hi. split; [apply A_constant|apply B_constant]; assumption. Qed.

(** ** C24 — radial operators *)

Theorem C24_radial_exact : forall n (u : nat -> R) (a : R), distinct n u ->
  (forall i, (i < n)%nat -> 0 < u i) ->
  forall c : nat -> R, exists f' f'',
  derivative (fun r => poly n c (r ^ 2)) f' /\ derivative f' f'' /\
  forall i, (i < n)%nat ->
    apply_row n (Ax n u) (fun j => poly n c (sqrt (u j) ^ 2)) i = f' (sqrt (u i)) /\
    apply_row n (Bx n u a) (fun j => poly n c (sqrt (u j) ^ 2)) i
      = f'' (sqrt (u i)) + (a - 1) / sqrt (u i) * f' (sqrt (u i)).
Proof. intros n u a HD Hp c. apply symm_exact; assumption. Qed.

(** The grid and matrices the code returns, for any geometry. *)
Theorem C24_radial_grid_exact : forall jacobi n a, (1 <= n)%nat ->
  interior_roots (n - 1)
    (jacobi (n - 1)%nat (dec 15 1 + (a - 1) / 2) (dec 15 1 + (a - 1) / 2 - 1)) ->
  let '(r, G, Lap, _) := recur_colloc_symm jacobi n a in
  r (n - 1)%nat = 1 /\
  forall c : nat -> R, exists f' f'',
  derivative (fun s => poly n c (s ^ 2)) f' /\ derivative f' f'' /\
  forall i, (i < n)%nat -> 0 < r i <= 1 /\
    apply_row n G (fun j => poly n c (r j ^ 2)) i = f' (r i) /\
    apply_row n Lap (fun j => poly n c (r j ^ 2)) i = f'' (r i) + (a - 1) / r i * f' (r i).
Proof.
  intros jac n a Hn HR. cbn beta iota zeta delta [recur_colloc_symm].
  destruct (rootsu_increasing jac n a Hn HR) as (HP & HI). split.
  - unfold rootsu. rewrite Nat.eqb_refl. apply sqrt_1.
  - intros c.
    destruct (symm_exact n (rootsu jac n a) (increasing_distinct _ _ HI) a c) as (f' & f'' & D1 & D2 & E).
    + intros i Hi. apply HP, Hi.
    + exists f', f''. split; [exact D1|]. split; [exact D2|]. intros i Hi.
      split; [|apply E, Hi]. destruct (HP i Hi) as (P1 & P2). split.
      * apply sqrt_lt_R0, P1.
      * rewrite <- sqrt_1. apply sqrt_le_1_alt, P2.
Qed.

Theorem C24_uniform_bead_no_diffusion : forall n (u : nat -> R) (a k : R), distinct n u ->
  forall i, (i < n)%nat -> apply_row n (Bx n u a) (fun _ => k) i = 0.
Proof. intros. apply Bx_constant; assumption. Qed.

(** ** C25 — quadrature weights *)

Theorem C25_weights : forall n (u : nat -> R) (a : R), (0 < n)%nat -> 0 < a ->
  distinct n u -> (forall i, (i < n)%nat -> 0 < u i) ->
  (forall i, (i < n)%nat -> 0 < Wx n u a i) /\
  (forall k : R, a * rsum n (fun i => Wx n u a i * k) = k).
Proof.
  intros n u a Hn Ha HD Hp. destruct (weights n u a Ha Hn Hp) as (W1 & W2).
  split; [exact W1|]. intros k. rewrite rsum_scal_r, W2. field. lra.
Qed.

Theorem C25_sphere_weights : forall jacobi legendre nr nz, (1 <= nr)%nat ->
  interior_roots (nr - 1) (jacobi (nr - 1)%nat (dec 15 1 + (3 - 1) / 2) (dec 15 1 + (3 - 1) / 2 - 1)) ->
  let k := build_collocation legendre jacobi nr nz in
  (forall i, (i < nr)%nat -> 0 < k_Wr k i) /\ rsum nr (k_Wr k) = 1 / 3.
Proof.
  intros jac leg nr nz Hn HR. cbn.
  destruct (rootsu_increasing jac nr 3 Hn HR) as (HP & HI).
  apply weights; [lra|exact Hn|]. intros i Hi. apply HP, Hi.
Qed.

(** ** C26 — axial finite elements *)

Theorem C26_grid : forall legendre NE NP, (1 <= NE)%nat -> (2 <= NP)%nat ->
  interior_roots (NP - 2) (legendre (NP - 2)%nat) ->
  let X := snd (advect_operator legendre NE NP) in
  length X = (NE * (NP - 1) + 1)%nat /\
  nth 0 X 0 = 0 /\ nth (NE * (NP - 1)) X 0 = 1 /\
  (forall i j, (i < j)%nat -> (j < length X)%nat -> nth i X 0 < nth j X 0) /\
  (* point p of element k *)
  forall k p, (k < NE)%nat -> (p < NP)%nat ->
    nth (k * (NP - 1) + p) X 0 = (rootsz legendre NP p + INR k) / INR NE.
Proof.
  intros leg NE NP HE HP HR. destruct NP as [|L]; [lia|].
  replace (S L - 2)%nat with (L - 1)%nat in HR by lia.
  cbn [advect_operator snd]. replace (S L - 1)%nat with L by lia.
  assert (HL : (1 <= L)%nat) by lia.
  split; [apply X_length; assumption|].
  split; [apply X_first; assumption|].
  split; [apply X_last; assumption|].
  split.
  - intros i j Hi Hj. unfold advect_operator in Hj. cbn [snd] in Hj.
    rewrite X_length in Hj by assumption. apply X_increasing; assumption.
  - intros k p Hk Hp. apply X_value; try assumption. lia.
Qed.

Theorem C26_inlet_row : forall legendre NE NP, (1 <= NE)%nat -> (2 <= NP)%nat ->
  forall f : nat -> R,
  apply_row (NE * (NP - 1) + 1) (fst (advect_operator legendre NE NP)) f 0 = 0.
Proof.
  intros leg NE NP HE HP f. destruct NP as [|L]; [lia|].
  replace (S L - 1)%nat with L by lia.
  apply (Adv_row_inlet leg NE L HE); lia.
Qed.

(** A profile that is a polynomial of degree below NP on every element, with a
    continuous slope where elements meet, is differentiated exactly at every
    point but the inlet. *)
Theorem C26_piecewise_exact : forall legendre NE NP, (1 <= NE)%nat -> (2 <= NP)%nat ->
  interior_roots (NP - 2) (legendre (NP - 2)%nat) ->
  let Adv := fst (advect_operator legendre NE NP) in
  let X m := nth m (snd (advect_operator legendre NE NP)) 0 in
  forall (f : nat -> R) (c : nat -> nat -> R) (d : nat -> R -> R),
  (forall k, (k < NE)%nat -> derivative (poly NP (c k)) (d k)) ->
  (forall k p, (k < NE)%nat -> (p < NP)%nat ->
     f (k * (NP - 1) + p)%nat = poly NP (c k) (X (k * (NP - 1) + p)%nat)) ->
  (forall k, (S k < NE)%nat -> d k (X (S k * (NP - 1))%nat) = d (S k) (X (S k * (NP - 1))%nat)) ->
  forall k p, (k < NE)%nat -> (1 <= p < NP)%nat ->
    apply_row (NE * (NP - 1) + 1) Adv f (k * (NP - 1) + p) = d k (X (k * (NP - 1) + p)%nat).
Proof.
  intros leg NE NP HE HP HR. destruct NP as [|L]; [lia|].
  replace (S L - 2)%nat with (L - 1)%nat in HR by lia.
  replace (S L - 1)%nat with L by lia. cbv zeta.
  intros f c d Hd Hf Hj k p Hk Hp. assert (HL : (1 <= L)%nat) by lia.
  apply (Adv_exact leg NE L HE HL HR f c d); try assumption; try lia.
  - intros k' p' Hk' Hp'. apply Hf; lia.
  - intros k' Hk'. specialize (Hj k' Hk').
    replace (S k' * L)%nat with (k' * L + L)%nat in Hj by lia. exact Hj.
Qed.

(** A single polynomial on the whole bed. *)
Theorem C26_polynomial_exact : forall legendre NE NP, (1 <= NE)%nat -> (2 <= NP)%nat ->
  interior_roots (NP - 2) (legendre (NP - 2)%nat) ->
  let Adv := fst (advect_operator legendre NE NP) in
  let X m := nth m (snd (advect_operator legendre NE NP)) 0 in
  forall (c : nat -> R) (d : R -> R), derivative (poly NP c) d ->
  forall m, (1 <= m)%nat -> (m < NE * (NP - 1) + 1)%nat ->
    apply_row (NE * (NP - 1) + 1) Adv (fun j => poly NP c (X j)) m = d (X m).
Proof.
  intros leg NE NP HE HP HR Adv X c d Hd m Hm1 Hm2.
  destruct (split_index NE (NP - 1) HE ltac:(lia) m Hm2) as [->|(k & p & Hk & Hp & ->)]; [lia|].
  apply (C26_piecewise_exact leg NE NP HE HP HR (fun j => poly NP c (X j)) (fun _ => c) (fun _ => d));
    try assumption; try reflexivity; try lia.
  intros; exact Hd.
Qed.

Theorem C26_constants : forall legendre NE NP, (1 <= NE)%nat -> (2 <= NP)%nat ->
  interior_roots (NP - 2) (legendre (NP - 2)%nat) ->
  forall (k : R) m, (m < NE * (NP - 1) + 1)%nat ->
    apply_row (NE * (NP - 1) + 1) (fst (advect_operator legendre NE NP)) (fun _ => k) m = 0.
Proof.
  intros leg NE NP HE HP HR k m Hm. destruct m as [|m]; [apply C26_inlet_row; assumption|].
  set (c := fun i => match i with O => k | S _ => 0 end).
  assert (E : forall y, poly NP c y = k).
  { intros y. unfold poly. destruct NP as [|L]; [lia|]. rewrite rsum_S_first.
    rewrite rsum_zero; [simpl; ring|]. intros i Hi. simpl. ring. }
  rewrite <- (C26_polynomial_exact leg NE NP HE HP HR c (fun _ => 0)) with (m := S m) at 1.
  - apply rsum_ext. intros j Hj. rewrite E. reflexivity.
  - intros y. eapply derivable_pt_lim_ext; [intros z; symmetry; apply E|].
    apply derivable_pt_lim_const.
  - lia.
  - exact Hm.
Qed.

(** ** Concrete cases *)

(** Three points per element: roots_sh_legendre(1) = [1/2]. *)
Definition leg3 : nat -> nat -> R := fun _ _ => 1 / 2.
Example leg3_interior : interior_roots 1 (leg3 1%nat).
Proof.
  split; unfold leg3; intros; [lra|]. lia.
Qed.
Example leg3_A : Amat 3 (rootsz leg3 3) 1 0 = -1 /\ Amat 3 (rootsz leg3 3) 0 1 = 4 /\
  Amat 3 (rootsz leg3 3) 2 2 = 3.
Proof.
  unfold Amat, px1, px2, calc_px_column. cbn [Nat.eqb seq fold_left].
  change (rootsz leg3 3 0) with 0. change (rootsz leg3 3 1) with (1 / 2).
  change (rootsz leg3 3 2) with 1.
  unfold reqb, recur. repeat destruct Req_EM_T; try (exfalso; lra); cbn [fst snd];
    repeat split; field.
Qed.
(** The interior grid really is non-trivial: x^2 on two elements. *)
Example two_elements_quadratic :
  let X m := nth m (snd (advect_operator leg3 2 3)) 0 in
  apply_row 5 (fst (advect_operator leg3 2 3)) (fun j => X j ^ 2) 2 = 1 /\ X 2%nat = 1 / 2.
Proof.
  set (X := fun m => nth m (snd (advect_operator leg3 2 3)) 0). cbv zeta.
  assert (HX : X 2%nat = 1 / 2).
  { destruct (C26_grid leg3 2 3) as (_ & _ & _ & _ & H); [lia|lia|exact leg3_interior|].
    unfold X. specialize (H 1%nat 0%nat). simpl (1 * (3 - 1) + 0)%nat in H.
    rewrite H by lia. change (rootsz leg3 3 0) with 0. simpl. field. }
  split; [|exact HX].
  set (c := fun i : nat => match i with 2%nat => 1 | _ => 0 end).
  assert (H := C26_polynomial_exact leg3 2 3 ltac:(lia) ltac:(lia) leg3_interior c (fun y => 2 * y)).
  cbv zeta in H. change (2 * (3 - 1) + 1)%nat with 5%nat in H.
  assert (E : forall y, poly 3 c y = y ^ 2).
  { intros y. unfold poly, c. simpl. ring. }
  replace 1 with (2 * X 2%nat) by (rewrite HX; field). unfold X at 2.
  rewrite <- H.
  - apply rsum_ext. intros j Hj. rewrite E. reflexivity.
  - intros y. eapply derivable_pt_lim_ext; [intros z; symmetry; apply E|].
    replace (2 * y) with (INR 2 * y ^ Nat.pred 2) by (simpl; ring). apply derivable_pt_lim_pow.
  - lia.
  - lia.
Qed.
Example jacobi_hypothesis :
  interior_roots 2 (fun i => match i with O => 1 / 4 | _ => 2 / 3 end) /\
  distinct 3 (rootsu (fun _ _ _ i => match i with O => 1 / 4 | _ => 2 / 3 end) 3 3).
Proof.
  assert (H : interior_roots 2 (fun i => match i with O => 1 / 4 | _ => 2 / 3 end)).
  { split.
    - intros [|i] _; lra.
    - intros [|i] [|j] Hi Hj; try lia. lra. }
  split; [exact H|].
  apply increasing_distinct. apply rootsu_increasing; [lia|exact H].
Qed.

Print Assumptions C23_derivatives_exact.
Print Assumptions C23_axial_grid_exact.
Print Assumptions C23_constant_profiles.
Print Assumptions C24_radial_exact.
Print Assumptions C24_radial_grid_exact.
Print Assumptions C24_uniform_bead_no_diffusion.
Print Assumptions C25_weights.
Print Assumptions C25_sphere_weights.
Print Assumptions C26_grid.
Print Assumptions C26_inlet_row.
Print Assumptions C26_piecewise_exact.
Print Assumptions C26_polynomial_exact.
Print Assumptions C26_constants.
