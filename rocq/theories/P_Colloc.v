(** Proofs about collocation operators (C23-C26). *)
From Coq Require Import Reals List Arith Bool Lra Lia.
From Verif Require Import Lib_Py Lib_Sum Lib_Poly M_Colloc S_Colloc.
Import ListNotations.
Open Scope R_scope.

Lemma reqb_true x y : reqb x y = true <-> x = y.
Proof. unfold reqb. destruct (Req_EM_T x y); split; intros; congruence. Qed.
Lemma reqb_false x y : reqb x y = false <-> x <> y.
Proof. unfold reqb. destruct (Req_EM_T x y); split; intros; congruence. Qed.

(** ** Nodal polynomials *)

Definition gstep (x : nat -> R) (r : R) (p : list R) (j : nat) : list R :=
  if reqb (x j - r) 0 then p else pmul_lin (x j) p.
Definition gpoly (n : nat) (x : nat -> R) (i : nat) : list R :=
  fold_left (gstep x (x i)) (seq 0 n) [1].

Definition triple (p : list R) (r : R) : R * R * R :=
  (peval p r, 2 * peval (pderiv p) r, 3 * peval (pderiv (pderiv p)) r).

Lemma px_fold x r l p :
  fold_left (fun t j => if reqb (x j - r) 0 then t else recur t (r - x j)) l (triple p r)
  = triple (fold_left (gstep x r) l p) r.
Proof.
  revert p; induction l as [|j l IH]; intros p; simpl; [reflexivity|].
  unfold gstep at 2. destruct (reqb (x j - r) 0); [apply IH|].
  rewrite <- IH. f_equal. unfold triple.
  rewrite peval_pmul_lin, pderiv_pmul_lin, pderiv2_pmul_lin. simpl.
  f_equal; [f_equal|]; ring.
Qed.

Lemma calc_px_triple n x i : calc_px_column (x i) n x = triple (gpoly n x i) (x i).
Proof.
  unfold calc_px_column, gpoly. rewrite <- px_fold. f_equal.
  unfold triple. simpl. f_equal; [f_equal|]; ring.
Qed.

Lemma px1_g n x i : px1 n x i = peval (gpoly n x i) (x i).
Proof. unfold px1. rewrite calc_px_triple. reflexivity. Qed.
Lemma px2_g n x i : px2 n x i = 2 * peval (pderiv (gpoly n x i)) (x i).
Proof. unfold px2. rewrite calc_px_triple. reflexivity. Qed.
Lemma px3_g n x i : px3 n x i = 3 * peval (pderiv (pderiv (gpoly n x i))) (x i).
Proof. unfold px3. rewrite calc_px_triple. reflexivity. Qed.

(** Length. *)
Lemma gstep_length x r l p : (length (fold_left (gstep x r) l p) <= length p + length l)%nat.
Proof.
  revert p; induction l as [|j l IH]; intros p; simpl; [lia|].
  unfold gstep at 2. destruct (reqb _ _).
  - specialize (IH p). lia.
  - specialize (IH (pmul_lin (x j) p)). rewrite length_pmul_lin in IH. lia.
Qed.
Lemma gstep_length_skip x r l p i : In i l -> x i = r ->
  (S (length (fold_left (gstep x r) l p)) <= length p + length l)%nat.
Proof.
  revert p; induction l as [|j l IH]; intros p Hin Hr; simpl; [destruct Hin|].
  unfold gstep at 2. destruct (reqb (x j - r) 0) eqn:E.
  - assert (H := gstep_length x r l p). lia.
  - destruct Hin as [->|Hin].
    + apply reqb_false in E. exfalso; apply E. lra.
    + specialize (IH (pmul_lin (x j) p) Hin Hr). rewrite length_pmul_lin in IH. lia.
Qed.
Lemma gpoly_length n x i : (i < n)%nat -> (length (gpoly n x i) <= n)%nat.
Proof.
  intros Hi. assert (H := gstep_length_skip x (x i) (seq 0 n) [1] i).
  rewrite seq_length in H. simpl in H. unfold gpoly.
  assert (In i (seq 0 n)) by (apply in_seq; lia). specialize (H H0 eq_refl). lia.
Qed.

(** Values. *)
Fixpoint nodal (x : nat -> R) (l : list nat) (y : R) : R :=
  match l with [] => 1 | j :: t => (y - x j) * nodal x t y end.

Lemma gstep_all x r l p y : (forall j, In j l -> x j <> r) ->
  peval (fold_left (gstep x r) l p) y = nodal x l y * peval p y.
Proof.
  revert p; induction l as [|j l IH]; intros p H; simpl; [ring|].
  unfold gstep at 2. destruct (reqb (x j - r) 0) eqn:E.
  - apply reqb_true in E. exfalso. apply (H j); [left; reflexivity|lra].
  - rewrite IH by (intros; apply H; right; assumption). rewrite peval_pmul_lin. ring.
Qed.
Lemma gstep_nodal x l p i y : NoDup l -> In i l ->
  (forall j, In j l -> x j = x i -> j = i) ->
  (y - x i) * peval (fold_left (gstep x (x i)) l p) y = nodal x l y * peval p y.
Proof.
  revert p; induction l as [|j l IH]; intros p ND Hin H; simpl; [destruct Hin|].
  inversion ND; subst. unfold gstep at 2. destruct (reqb (x j - x i) 0) eqn:E.
  - apply reqb_true in E. assert (j = i) by (apply H; [left; reflexivity|lra]). subst j.
    rewrite gstep_all; [ring|]. intros k Hk Ek.
    assert (k = i) by (apply H; [right|]; assumption). subst k. contradiction.
  - destruct Hin as [->|Hin]; [apply reqb_false in E; exfalso; apply E; ring|].
    rewrite IH; [|assumption|assumption|intros; apply H; [right|]; assumption].
    rewrite peval_pmul_lin. ring.
Qed.
Lemma nodal_zero x l i : In i l -> nodal x l (x i) = 0.
Proof.
  induction l as [|j l IH]; simpl; [intros []|]. intros [H|H]; [subst; ring|rewrite IH by assumption; ring].
Qed.

Section Grid.
Variables (n : nat) (x : nat -> R).
Hypothesis HD : distinct n x.

Lemma g_nodal i y : (i < n)%nat ->
  (y - x i) * peval (gpoly n x i) y = nodal x (seq 0 n) y.
Proof.
  intros Hi. unfold gpoly. rewrite gstep_nodal.
  - simpl. ring.
  - apply seq_NoDup.
  - apply in_seq; lia.
  - intros j Hj E. apply in_seq in Hj. apply HD; [lia|lia|exact E].
Qed.

Lemma g_other i j : (i < n)%nat -> (j < n)%nat -> i <> j -> peval (gpoly n x j) (x i) = 0.
Proof.
  intros Hi Hj Hn. assert (H := g_nodal j (x i) Hj).
  rewrite nodal_zero in H by (apply in_seq; lia).
  apply Rmult_integral in H. destruct H as [H|H]; [|exact H].
  exfalso. apply Hn. apply HD; [assumption|assumption|lra].
Qed.

Lemma gstep_nz r l p : peval p r <> 0 ->
  peval (fold_left (gstep x r) l p) r <> 0.
Proof.
  revert p; induction l as [|j l IH]; intros p H; simpl; [exact H|].
  apply IH. unfold gstep. destruct (reqb (x j - r) 0) eqn:E; [exact H|].
  rewrite peval_pmul_lin. apply reqb_false in E. apply Rmult_integral_contrapositive.
  split; [lra|exact H].
Qed.
Lemma g_own i : peval (gpoly n x i) (x i) <> 0.
Proof. apply gstep_nz. simpl. lra. Qed.

Lemma g_same i j y : (i < n)%nat -> (j < n)%nat ->
  peval (pmul_lin (x i) (gpoly n x i)) y = peval (pmul_lin (x j) (gpoly n x j)) y.
Proof. intros. rewrite !peval_pmul_lin, !g_nodal by assumption. reflexivity. Qed.

Lemma g_deriv_other i j : (i < n)%nat -> (j < n)%nat -> i <> j ->
  peval (gpoly n x i) (x i) = (x i - x j) * peval (pderiv (gpoly n x j)) (x i).
Proof.
  intros Hi Hj Hn.
  assert (H := pderiv_ext _ _ (fun y => g_same i j y Hi Hj) (x i)).
  rewrite !pderiv_pmul_lin, (g_other i j) in H by assumption. lra.
Qed.
Lemma g_deriv2_other i j : (i < n)%nat -> (j < n)%nat -> i <> j ->
  2 * peval (pderiv (gpoly n x i)) (x i)
  = 2 * peval (pderiv (gpoly n x j)) (x i)
    + (x i - x j) * peval (pderiv (pderiv (gpoly n x j))) (x i).
Proof.
  intros Hi Hj Hn.
  assert (H := pderiv_ext _ _ (pderiv_ext _ _ (fun y => g_same i j y Hi Hj)) (x i)).
  rewrite !pderiv2_pmul_lin in H. lra.
Qed.

Lemma Amat_lagrange i j : (i < n)%nat -> (j < n)%nat ->
  Amat n x i j = peval (pderiv (gpoly n x j)) (x i) / peval (gpoly n x j) (x j).
Proof.
  intros Hi Hj. unfold Amat. rewrite !px1_g, !px2_g.
  destruct (Nat.eqb_spec i j) as [->|Hn].
  - field. apply g_own.
  - rewrite (g_deriv_other i j) by assumption. field. split; [apply g_own|].
    intros E. apply Hn, HD; [assumption|assumption|lra].
Qed.
Lemma Bmat_lagrange i j : (i < n)%nat -> (j < n)%nat ->
  Bmat n x i j = peval (pderiv (pderiv (gpoly n x j))) (x i) / peval (gpoly n x j) (x j).
Proof.
  intros Hi Hj. unfold Bmat. rewrite Amat_lagrange by assumption.
  rewrite !px1_g, !px2_g, px3_g.
  destruct (Nat.eqb_spec i j) as [->|Hn].
  - field. apply g_own.
  - rewrite (g_deriv2_other i j) by assumption. field. split; [apply g_own|].
    intros E. apply Hn, HD; [assumption|assumption|lra].
Qed.

(** Interpolation is exact on polynomials of degree below n. *)
Definition interp (P : list R) : list R :=
  plin n (fun j => peval P (x j) / peval (gpoly n x j) (x j)) (gpoly n x).

Lemma interp_exact P y : (length P <= n)%nat -> peval P y = peval (interp P) y.
Proof.
  intros HP.
  assert (H : peval (padd P (pscal (-1) (interp P))) y = 0).
  { apply root_count with (rs := map x (seq 0 n)).
    - assert (X : forall l, NoDup l -> (forall i, In i l -> (i < n)%nat) -> NoDup (map x l)).
      { induction l as [|a l IH]; simpl; intros ND Hb; [constructor|].
        inversion ND; subst. constructor; [|apply IH; auto].
        intros Hin. apply in_map_iff in Hin. destruct Hin as (b & E & Hb').
        assert (b = a) by (apply HD; auto). subst b. contradiction. }
      apply X; [apply seq_NoDup|]. intros i Hi. apply in_seq in Hi. lia.
    - rewrite map_length, seq_length, length_padd, length_pscal.
      apply Nat.max_lub; [exact HP|]. apply length_plin. intros j Hj. apply gpoly_length, Hj.
    - intros r Hr. apply in_map_iff in Hr. destruct Hr as (i & <- & Hi).
      apply in_seq in Hi. rewrite peval_padd, peval_pscal. unfold interp. rewrite peval_plin.
      rewrite (rsum_single n _ i).
      + field. apply g_own.
      + lia.
      + intros j Hj Hn. rewrite (g_other i j) by lia. ring. }
  rewrite peval_padd, peval_pscal in H. lra.
Qed.

Lemma A_exact_list P i : (length P <= n)%nat -> (i < n)%nat ->
  apply_row n (Amat n x) (fun j => peval P (x j)) i = peval (pderiv P) (x i).
Proof.
  intros HP Hi. rewrite (pderiv_ext _ _ (fun y => interp_exact P y HP)).
  unfold interp. rewrite pderiv_plin. apply rsum_ext. intros j Hj.
  rewrite Amat_lagrange by assumption. field. apply g_own.
Qed.
Lemma B_exact_list P i : (length P <= n)%nat -> (i < n)%nat ->
  apply_row n (Bmat n x) (fun j => peval P (x j)) i = peval (pderiv (pderiv P)) (x i).
Proof.
  intros HP Hi. rewrite (pderiv_ext _ _ (pderiv_ext _ _ (fun y => interp_exact P y HP))).
  unfold interp. rewrite pderiv2_plin. apply rsum_ext. intros j Hj.
  rewrite Bmat_lagrange by assumption. field. apply g_own.
Qed.

(** ** C23 *)

Lemma poly_peval c y : poly n c y = peval (coefs n c) y.
Proof. unfold poly. rewrite peval_coefs. reflexivity. Qed.

Lemma colloc_exact c : exists f' f'',
  derivative (poly n c) f' /\ derivative f' f'' /\
  forall i, (i < n)%nat ->
    apply_row n (Amat n x) (fun j => poly n c (x j)) i = f' (x i) /\
    apply_row n (Bmat n x) (fun j => poly n c (x j)) i = f'' (x i).
Proof.
  exists (peval (pderiv (coefs n c))), (peval (pderiv (pderiv (coefs n c)))).
  split; [|split].
  - intros y. eapply derivable_pt_lim_ext; [|apply peval_deriv].
    intros z; symmetry; apply poly_peval.
  - intros y. apply peval_deriv.
  - intros i Hi. rewrite <- A_exact_list, <- B_exact_list by (rewrite ?length_coefs; lia).
    split; apply rsum_ext; intros j Hj; rewrite poly_peval; reflexivity.
Qed.

Lemma A_constant k i : (i < n)%nat -> apply_row n (Amat n x) (fun _ => k) i = 0.
Proof.
  intros Hi. assert (H := A_exact_list [k] i). simpl in H.
  replace (0 + x i * 0) with 0 in H by ring. rewrite <- H; [|lia|exact Hi].
  apply rsum_ext. intros; ring.
Qed.
Lemma B_constant k i : (i < n)%nat -> apply_row n (Bmat n x) (fun _ => k) i = 0.
Proof.
  intros Hi. assert (H := B_exact_list [k] i). simpl in H.
  replace (0 + x i * 0) with 0 in H by ring. rewrite <- H; [|lia|exact Hi].
  apply rsum_ext. intros; ring.
Qed.

(** ** C24: radial operators *)

Lemma symm_exact a c : (forall i, (i < n)%nat -> 0 < x i) ->
  exists f' f'',
  derivative (fun r => poly n c (r ^ 2)) f' /\ derivative f' f'' /\
  forall i, (i < n)%nat ->
    apply_row n (Ax n x) (fun j => poly n c (sqrt (x j) ^ 2)) i = f' (sqrt (x i)) /\
    apply_row n (Bx n x a) (fun j => poly n c (sqrt (x j) ^ 2)) i
      = f'' (sqrt (x i)) + (a - 1) / sqrt (x i) * f' (sqrt (x i)).
Proof.
  intros Hp. set (P := coefs n c).
  exists (fun r => 2 * r * peval (pderiv P) (r ^ 2)),
    (fun r => 2 * peval (pderiv P) (r ^ 2) + 4 * r ^ 2 * peval (pderiv (pderiv P)) (r ^ 2)).
  assert (Dsq : forall r, derivable_pt_lim (fun s => s ^ 2) r (2 * r)).
  { intros r. replace (2 * r) with (INR 2 * r ^ Nat.pred 2) by (simpl; ring).
    apply derivable_pt_lim_pow. }
  assert (Dc : forall Q r, derivable_pt_lim (fun s => peval Q (s ^ 2)) r (peval (pderiv Q) (r ^ 2) * (2 * r))).
  { intros Q r. apply (derivable_pt_lim_comp (fun s => s ^ 2) (peval Q)); [apply Dsq|apply peval_deriv]. }
  split; [|split].
  - intros r. eapply derivable_pt_lim_ext with (f := fun s => peval P (s ^ 2)).
    + intros s. symmetry. apply poly_peval.
    + replace (2 * r * peval (pderiv P) (r ^ 2)) with (peval (pderiv P) (r ^ 2) * (2 * r)) by ring.
      apply Dc.
  - intros r.
    replace (2 * peval (pderiv P) (r ^ 2) + 4 * r ^ 2 * peval (pderiv (pderiv P)) (r ^ 2))
      with ((2 * 1) * peval (pderiv P) (r ^ 2)
            + (2 * r) * (peval (pderiv (pderiv P)) (r ^ 2) * (2 * r))) by ring.
    apply (derivable_pt_lim_mult (fun s => 2 * s) (fun s => peval (pderiv P) (s ^ 2))); [|apply Dc].
    apply (derivable_pt_lim_scal (fun s => s)). apply derivable_pt_lim_id.
  - intros i Hi.
    assert (Hs : forall j, (j < n)%nat -> sqrt (x j) ^ 2 = x j).
    { intros j Hj. rewrite <- Rsqr_pow2. apply Rsqr_sqrt. left; apply Hp, Hj. }
    assert (EA := A_exact_list P i). assert (EB := B_exact_list P i).
    unfold P in EA, EB at 1. rewrite length_coefs in EA, EB.
    specialize (EA (le_n n) Hi). specialize (EB (le_n n) Hi). fold P in EA, EB.
    assert (HA : rsum n (fun j => Amat n x i j * poly n c (sqrt (x j) ^ 2))
                 = peval (pderiv P) (x i)).
    { rewrite <- EA. apply rsum_ext. intros j Hj. rewrite poly_peval, Hs by assumption. reflexivity. }
    assert (HB : rsum n (fun j => Bmat n x i j * poly n c (sqrt (x j) ^ 2))
                 = peval (pderiv (pderiv P)) (x i)).
    { rewrite <- EB. apply rsum_ext. intros j Hj. rewrite poly_peval, Hs by assumption. reflexivity. }
    assert (Hsq : sqrt (x i) <> 0) by (apply Rgt_not_eq, sqrt_lt_R0, Hp, Hi).
    split.
    + rewrite (Hs i Hi). rewrite <- HA. rewrite <- rsum_scal. unfold apply_row.
      apply rsum_ext. intros j Hj. unfold Ax. ring.
    + replace (apply_row n (Bx n x a) (fun j => poly n c (sqrt (x j) ^ 2)) i)
        with (2 * a * peval (pderiv P) (x i) + x i * 4 * peval (pderiv (pderiv P)) (x i)).
      * rewrite (Hs i Hi). field. exact Hsq.
      * rewrite <- HA, <- HB, <- !rsum_scal, <- rsum_plus. apply rsum_ext.
        intros j Hj. unfold Bx. ring.
Qed.

Lemma Bx_constant a k i : (i < n)%nat -> apply_row n (Bx n x a) (fun _ => k) i = 0.
Proof.
  intros Hi. unfold apply_row, Bx.
  rewrite (rsum_ext n _ (fun j => 2 * a * (Amat n x i j * k) + x i * 4 * (Bmat n x i j * k)))
    by (intros; ring).
  rewrite rsum_plus, !rsum_scal.
  assert (HA := A_constant k i Hi). assert (HB := B_constant k i Hi).
  unfold apply_row in HA, HB. rewrite HA, HB. ring.
Qed.

(** ** C25: weights *)

Lemma weight_term_pos i : 0 < x i -> 0 < 1 / (x i * px1 n x i ^ 2).
Proof.
  intros Hp. apply Rdiv_lt_0_compat; [lra|]. apply Rmult_lt_0_compat; [exact Hp|].
  rewrite px1_g. assert (H := g_own i). rewrite <- Rsqr_pow2. apply Rlt_0_sqr, H.
Qed.
Lemma weights a : 0 < a -> (0 < n)%nat -> (forall i, (i < n)%nat -> 0 < x i) ->
  (forall i, (i < n)%nat -> 0 < Wx n x a i) /\ rsum n (Wx n x a) = 1 / a.
Proof.
  intros Ha Hn Hp.
  assert (HS : 0 < wp_sum n x) by (apply rsum_pos; [exact Hn|intros; apply weight_term_pos; auto]).
  split.
  - intros i Hi. unfold Wx. repeat apply Rdiv_lt_0_compat; try assumption; try lra.
    assert (H := weight_term_pos i (Hp i Hi)).
    unfold Rdiv in H. rewrite Rmult_1_l in H.
    rewrite <- (Rinv_inv (x i * px1 n x i ^ 2)). apply Rinv_0_lt_compat, H.
  - unfold Wx. rewrite rsum_div, rsum_div. fold (wp_sum n x). field. lra.
Qed.

End Grid.

(** ** The grids of the code *)

Lemma rootsz_increasing leg n : (2 <= n)%nat -> interior_roots (n - 2) (leg (n - 2)%nat) ->
  rootsz leg n 0 = 0 /\ rootsz leg n (n - 1) = 1 /\
  forall i j, (i < j)%nat -> (j < n)%nat -> rootsz leg n i < rootsz leg n j.
Proof.
  intros Hn (HI & HO). split; [reflexivity|]. split.
  { unfold rootsz. destruct (Nat.eqb_spec (n - 1) 0); [lia|]. rewrite Nat.eqb_refl. reflexivity. }
  intros i j Hij Hj. unfold rootsz.
  destruct (Nat.eqb_spec j 0); [lia|].
  destruct (Nat.eqb_spec i (n - 1)); [lia|].
  destruct (Nat.eqb_spec i 0), (Nat.eqb_spec j (n - 1)).
  - lra.
  - destruct (HI (j - 1)%nat); [lia|lra].
  - destruct (HI (i - 1)%nat); [lia|lra].
  - apply HO; lia.
Qed.

Lemma increasing_distinct n x : (forall i j, (i < j)%nat -> (j < n)%nat -> x i < x j) -> distinct n x.
Proof.
  intros H i j Hi Hj E. destruct (lt_eq_lt_dec i j) as [[L| ->]|L]; [|reflexivity|].
  - specialize (H i j L Hj). lra.
  - specialize (H j i L Hi). lra.
Qed.

Lemma rootsu_increasing jac n a : (1 <= n)%nat ->
  interior_roots (n - 1) (jac (n - 1)%nat (dec 15 1 + (a - 1) / 2) (dec 15 1 + (a - 1) / 2 - 1)) ->
  (forall i, (i < n)%nat -> 0 < rootsu jac n a i <= 1) /\
  (forall i j, (i < j)%nat -> (j < n)%nat -> rootsu jac n a i < rootsu jac n a j).
Proof.
  intros Hn (HI & HO). split.
  - intros i Hi. unfold rootsu. destruct (Nat.eqb_spec i (n - 1)); [lra|].
    destruct (HI i); [lia|]. split; lra.
  - intros i j Hij Hj. unfold rootsu.
    destruct (Nat.eqb_spec i (n - 1)); [lia|]. destruct (Nat.eqb_spec j (n - 1)).
    + destruct (HI i); [lia|]. assumption.
    + apply HO; lia.
Qed.

(** Every grid function has an interpolating polynomial. *)
Lemma interpolant n x (f : nat -> R) : distinct n x ->
  exists c, forall i, (i < n)%nat -> poly n c (x i) = f i.
Proof.
  intros HD.
  set (L := plin n (fun j => f j / peval (gpoly n x j) (x j)) (gpoly n x)).
  exists (fun k => nth k L 0). intros i Hi. unfold poly.
  rewrite <- peval_nth by (apply length_plin; intros; apply gpoly_length; assumption).
  unfold L. rewrite peval_plin, (rsum_single _ _ i Hi).
  - field. apply g_own.
  - intros j Hj Hn. rewrite (g_other n x HD i j) by auto. ring.
Qed.
