(** Proofs about the collocation matrices of the granular-carbon column. *)
From Coq Require Import Reals List Arith Bool Lra Lia ZArith FinFun.
From Verif Require Import Lib_Py Lib_Sum Lib_Poly Lib_Traj M_Colloc S_Colloc P_Colloc P_Ocfe
  M_IxColumn M_GacFun M_GacColumn S_GacColumn.
Import ListNotations.
Open Scope R_scope.

(** ** Linear algebra *)

Lemma rsum_delta n i f : (i < n)%nat -> rsum n (fun j => delta i j * f j) = f i.
Proof.
  intros Hi. rewrite (rsum_single n _ i Hi).
  - unfold delta. rewrite Nat.eqb_refl. ring.
  - intros j Hj Hn. unfold delta. rewrite (proj2 (Nat.eqb_neq i j)) by lia. ring.
Qed.
Lemma rsum_delta_r n j f : (j < n)%nat -> rsum n (fun i => f i * delta i j) = f j.
Proof.
  intros Hi. rewrite (rsum_single n _ j Hi).
  - unfold delta. rewrite Nat.eqb_refl. ring.
  - intros i Hj Hn. unfold delta. rewrite (proj2 (Nat.eqb_neq i j)) by lia. ring.
Qed.

(** C . inv(Q) applied to the values Q c gives C c. *)
Lemma row_times_inverse n (f : nat -> R) Q B c : inverts n Q B ->
  rsum n (fun j => rsum n (fun k => f k * B k j) * rsum n (fun k => Q j k * c k))
  = rsum n (fun k => f k * c k).
Proof.
  intros HI.
  rewrite (rsum_ext n _ (fun j => rsum n (fun k => f k * (B k j * rsum n (fun l => Q j l * c l))))).
  2:{ intros j Hj. rewrite <- rsum_scal_r. apply rsum_ext. intros; ring. }
  rewrite rsum_swap. apply rsum_ext. intros k Hk. rewrite rsum_scal. f_equal.
  rewrite (rsum_ext n _ (fun j => rsum n (fun l => B k j * Q j l * c l))).
  2:{ intros j Hj. rewrite <- rsum_scal. apply rsum_ext. intros; ring. }
  rewrite rsum_swap. rewrite (rsum_ext n _ (fun l => delta k l * c l)).
  - apply rsum_delta, Hk.
  - intros l Hl. rewrite rsum_scal_r. f_equal. apply HI; assumption.
Qed.

(** A polynomial vanishing at n distinct points has zero coefficients. *)
Lemma peval_zero_coefs l : (forall x, peval l x = 0) -> forall k, nth k l 0 = 0.
Proof.
  induction l as [|a l IH]; intros H k; [destruct k; reflexivity|].
  assert (A : a = 0). { specialize (H 0). simpl in H. lra. }
  assert (HL : forall x, peval l x = 0).
  { (* zero except at 0, hence everywhere by counting roots *)
    apply (root_count l (map (fun i => INR (S i)) (seq 0 (length l)))).
    - apply Injective_map_NoDup; [|apply seq_NoDup].
      intros i j E. apply INR_eq in E. lia.
    - rewrite map_length, seq_length. lia.
    - intros r Hr. apply in_map_iff in Hr. destruct Hr as (i & <- & _).
      specialize (H (INR (S i))). cbn [peval] in H. rewrite A in H.
      assert (0 < INR (S i)) by (apply lt_0_INR; lia).
      apply Rmult_eq_reg_l with (INR (S i)); lra. }
  destruct k; [exact A|]. simpl. apply IH, HL.
Qed.
Lemma poly_unique n x c : distinct n x -> (forall i, (i < n)%nat -> poly n c (x i) = 0) ->
  forall k, (k < n)%nat -> c k = 0.
Proof.
  intros HD Hz k Hk.
  assert (E := peval_zero_coefs (coefs n c)).
  replace (c k) with (nth k (coefs n c) 0).
  - apply E. apply (root_count (coefs n c) (map x (seq 0 n))).
    + clear - HD. assert (G : forall l, NoDup l -> (forall i, In i l -> (i < n)%nat) -> NoDup (map x l)).
      { induction l as [|a l IH]; intros ND HB; simpl; [constructor|].
        inversion ND; subst. constructor; [|apply IH; [assumption|intros; apply HB; right; assumption]].
        intros HI. apply in_map_iff in HI. destruct HI as (b & E & Hb).
        assert (b = a) by (apply HD; [apply HB; right; exact Hb|apply HB; left; reflexivity|exact E]).
        subst. contradiction. }
      apply G; [apply seq_NoDup|]. intros i Hi. apply in_seq in Hi. lia.
    + rewrite length_coefs, map_length, seq_length. lia.
    + intros r Hr. apply in_map_iff in Hr. destruct Hr as (i & <- & Hi). apply in_seq in Hi.
      rewrite peval_coefs. apply Hz. lia.
  - unfold coefs. rewrite (nth_indep _ 0 (c 0%nat)) by (rewrite map_length, seq_length; lia).
    rewrite map_nth, seq_nth by lia. f_equal; lia.
Qed.

(** The Vandermonde matrix of distinct points has an inverse. *)
Definition vander (x : nat -> R) : matrix := fun i j => x i ^ j.
Lemma vander_invertible n x : distinct n x -> exists M, inverts n (vander x) M.
Proof.
  intros HD.
  set (M := fun k j => nth k (gpoly n x j) 0 / peval (gpoly n x j) (x j)).
  assert (QM : forall i j, (i < n)%nat -> (j < n)%nat ->
            rsum n (fun k => vander x i k * M k j) = delta i j).
  { intros i j Hi Hj. unfold M.
    rewrite (rsum_ext n _ (fun k => nth k (gpoly n x j) 0 * x i ^ k / peval (gpoly n x j) (x j)))
      by (intros; unfold vander, Rdiv; ring).
    rewrite rsum_div, <- peval_nth by (apply gpoly_length; exact Hj).
    unfold delta. destruct (Nat.eqb_spec i j) as [->|Hn].
    - field. apply g_own.
    - rewrite (g_other n x HD) by auto. unfold Rdiv. ring. }
  exists M. intros i j Hi Hj. split; [apply QM; assumption|].
  (* column j of M Q - I is in the kernel of Q *)
  assert (Z := poly_unique n x (fun i => rsum n (fun k => M i k * vander x k j) - delta i j) HD).
  cbv beta in Z.
  enough (E : rsum n (fun k => M i k * vander x k j) - delta i j = 0) by lra.
  apply (Z); [|exact Hi]. intros p Hp. unfold poly.
  rewrite (rsum_ext n _ (fun l => rsum n (fun k => x p ^ l * M l k * vander x k j) - delta l j * x p ^ l)).
  2:{ intros l Hl. rewrite Rmult_minus_distr_r. f_equal. rewrite <- rsum_scal_r.
      apply rsum_ext. intros; ring. }
  rewrite rsum_minus, rsum_swap.
  rewrite (rsum_ext n (fun l => delta l j * x p ^ l) (fun l => x p ^ l * delta l j)) by (intros; ring).
  rewrite (rsum_delta_r n j (fun l => x p ^ l)) by exact Hj.
  rewrite (rsum_ext n _ (fun k => delta p k * vander x k j)).
  - rewrite (rsum_delta n p (fun k => vander x k j)) by exact Hp. unfold vander. ring.
  - intros k Hk. rewrite <- (QM p k Hp Hk), <- rsum_scal_r. reflexivity.
Qed.
Lemma inverts_ext n Q Q' M : (forall i j, (i < n)%nat -> (j < n)%nat -> Q i j = Q' i j) ->
  inverts n Q M -> inverts n Q' M.
Proof.
  intros E H i j Hi Hj. destruct (H i j Hi Hj) as (A & B). split.
  - rewrite <- A. apply rsum_ext. intros k Hk. rewrite E by assumption. reflexivity.
  - rewrite <- B. apply rsum_ext. intros k Hk. rewrite E by assumption. reflexivity.
Qed.
Lemma inv_vander inv n Q x : inverter inv n -> distinct n x ->
  (forall i j, (i < n)%nat -> (j < n)%nat -> Q i j = x i ^ j) -> inverts n Q (inv n Q).
Proof.
  intros HI HD E. apply HI. destruct (vander_invertible n x HD) as (M & HM). exists M.
  revert HM. apply inverts_ext. intros i j Hi Hj. symmetry. apply E; assumption.
Qed.

(** ** Axial matrices *)

Lemma deriv_term (c : R) k x : derivable_pt_lim (fun y => c * y ^ k) x (c * (INR k * x ^ Nat.pred k)).
Proof. apply (derivable_pt_lim_scal (fun y => y ^ k)). apply derivable_pt_lim_pow. Qed.
Lemma deriv_rsum n (f f' : nat -> R -> R) x : (forall k, (k < n)%nat -> derivable_pt_lim (f k) x (f' k x)) ->
  derivable_pt_lim (fun y => rsum n (fun k => f k y)) x (rsum n (fun k => f' k x)).
Proof.
  induction n as [|n IH]; intros H; simpl.
  - apply derivable_pt_lim_const.
  - apply (derivable_pt_lim_plus (fun y => rsum n (fun k => f k y)) (f n)).
    + apply IH. intros k Hk. apply H. lia.
    + apply H. lia.
Qed.
Lemma deriv_poly n c x : derivable_pt_lim (poly n c) x (rsum n (fun k => c k * (INR k * x ^ Nat.pred k))).
Proof. apply (deriv_rsum n (fun k y => c k * y ^ k) (fun k x => c k * (INR k * x ^ Nat.pred k))).
  intros. apply deriv_term. Qed.
Lemma deriv_unique f g1 g2 x : derivable_pt_lim f x g1 -> derivable_pt_lim f x g2 -> g1 = g2.
Proof. apply uniqueness_limite. Qed.

(** build_colloc_A differentiates polynomials exactly, hence is the derivative matrix. *)
Lemma colloc_A_exact inv n x c i : inverter inv n -> distinct n x -> (i < n)%nat ->
  apply_row n (build_colloc_A inv x n) (fun j => poly n c (x j)) i
  = rsum n (fun k => c k * (INR k * x i ^ Nat.pred k)).
Proof.
  intros HI HD Hi. unfold apply_row, build_colloc_A, mdot.
  assert (HV := inv_vander inv n (mono_q x) x HI HD ltac:(reflexivity)).
  rewrite (rsum_ext n _ (fun j => rsum n (fun k => mono_c x i k * inv n (mono_q x) k j)
                                  * rsum n (fun k => mono_q x j k * c k))).
  2:{ intros j Hj. f_equal. apply rsum_ext. intros. unfold mono_q. ring. }
  rewrite (row_times_inverse n (mono_c x i) (mono_q x) _ c HV).
  apply rsum_ext. intros k Hk. unfold mono_c. destruct k; [simpl; ring|]. simpl Nat.pred. ring.
Qed.
Lemma exact_unique n x A A' : distinct n x ->
  (forall c i, (i < n)%nat -> apply_row n A (fun j => poly n c (x j)) i
                            = apply_row n A' (fun j => poly n c (x j)) i) ->
  forall i j, (i < n)%nat -> (j < n)%nat -> A i j = A' i j.
Proof.
  intros HD H i j Hi Hj.
  destruct (interpolant n x (fun k => delta k j) HD) as (c & Hc).
  specialize (H c i Hi). unfold apply_row in H.
  rewrite (rsum_ext n _ (fun k => A i k * delta k j)) in H
    by (intros k Hk; rewrite Hc by exact Hk; reflexivity).
  rewrite (rsum_ext n (fun k => A' i k * _) (fun k => A' i k * delta k j)) in H
    by (intros k Hk; rewrite Hc by exact Hk; reflexivity).
  rewrite !rsum_delta_r in H by exact Hj. exact H.
Qed.
Lemma colloc_A_Amat inv n x i j : inverter inv n -> distinct n x -> (i < n)%nat -> (j < n)%nat ->
  build_colloc_A inv x n i j = Amat n x i j.
Proof.
  intros HI HD Hi Hj. apply (exact_unique n x); try assumption. intros c p Hp.
  rewrite colloc_A_exact by assumption.
  destruct (colloc_exact n x HD c) as (f' & f'' & D1 & _ & E). destruct (E p Hp) as (E1 & _).
  rewrite E1. apply (deriv_unique (poly n c) _ _ (x p)); [apply deriv_poly|apply D1].
Qed.

(** One element: powers of 2z-1. *)
Lemma dupoly_exact inv n x c i : inverter inv n -> distinct n x -> (i < n)%nat ->
  apply_row n (mdot n (dupoly_c x) (inv n (dupoly_q x))) (fun j => poly n c (2 * x j - 1)) i
  = 2 * rsum n (fun k => c k * (INR k * (2 * x i - 1) ^ Nat.pred k)).
Proof.
  intros HI HD Hi. unfold apply_row, mdot.
  assert (HD2 : distinct n (fun j => 2 * x j - 1)).
  { intros a b Ha Hb E. apply HD; [assumption|assumption|lra]. }
  assert (HV := inv_vander inv n (dupoly_q x) _ HI HD2 ltac:(reflexivity)).
  rewrite (rsum_ext n _ (fun j => rsum n (fun k => dupoly_c x i k * inv n (dupoly_q x) k j)
                                  * rsum n (fun k => dupoly_q x j k * c k))).
  2:{ intros j Hj. f_equal. apply rsum_ext. intros. unfold dupoly_q. ring. }
  rewrite (row_times_inverse n (dupoly_c x i) (dupoly_q x) _ c HV), <- rsum_scal.
  apply rsum_ext. intros k Hk. unfold dupoly_c. destruct k as [|[|k]]; simpl Nat.pred.
  - simpl. ring.
  - simpl. ring.
  - ring.
Qed.
Lemma dupoly_Amat inv n x i j : inverter inv n -> distinct n x -> (i < n)%nat -> (j < n)%nat ->
  mdot n (dupoly_c x) (inv n (dupoly_q x)) i j = Amat n x i j.
Proof.
  intros HI HD Hi Hj.
  set (w := fun k => 2 * x k - 1).
  assert (HDw : distinct n w). { intros a b Ha Hb E. apply HD; [assumption|assumption|unfold w in E; lra]. }
  apply (exact_unique n w); try assumption. intros c p Hp.
  change (fun j => poly n c (w j)) with (fun j => poly n c (2 * x j - 1)) at 1.
  rewrite (dupoly_exact inv n x c p HI HD Hp).
  (* the same function as a polynomial of x *)
  set (P := paff 2 (-1) (coefs n c)).
  assert (EP : forall y, peval P y = poly n c (2 * y - 1)).
  { intros y. unfold P. rewrite peval_paff. rewrite peval_coefs. unfold poly, Rminus. reflexivity. }
  assert (HA := A_exact_list n x HD P p).
  assert (LP : (length P <= n)%nat) by (unfold P; rewrite <- (length_coefs n c) at 2; apply length_paff).
  specialize (HA LP Hp). unfold apply_row.
  rewrite (rsum_ext n (fun j0 => Amat n x p j0 * poly n c (w j0)) (fun j0 => Amat n x p j0 * peval P (x j0))).
  2:{ intros k Hk. rewrite EP. reflexivity. }
  unfold apply_row in HA. rewrite HA. unfold P. rewrite pderiv_paff. f_equal.
  replace (2 * x p + -1) with (2 * x p - 1) by ring.
  apply (deriv_unique (peval (coefs n c)) _ _ (2 * x p - 1)); [|apply peval_deriv].
  eapply derivable_pt_lim_ext; [|apply deriv_poly]. intros y. unfold poly. symmetry. apply peval_coefs.
Qed.

(** The element blocks and joints only read the matrix inside its range. *)
Lemma set_block_ext M M' r0 r1 c0 c1 f f' : (forall i j, M i j = M' i j) ->
  (forall i j, (i < r1 - r0)%nat -> (j < c1 - c0)%nat -> f i j = f' i j) ->
  forall i j, set_block M r0 r1 c0 c1 f i j = set_block M' r0 r1 c0 c1 f' i j.
Proof.
  intros HM Hf i j. unfold set_block.
  destruct (Nat.leb_spec r0 i), (Nat.ltb_spec i r1), (Nat.leb_spec c0 j), (Nat.ltb_spec j c1);
    cbn [andb]; auto. apply Hf; lia.
Qed.
Lemma fold_matrix_ext (F F' : matrix -> nat -> matrix) l : forall M M',
  (forall k M M', In k l -> (forall i j, M i j = M' i j) -> forall i j, F M k i j = F' M' k i j) ->
  (forall i j, M i j = M' i j) ->
  forall i j, fold_left F l M i j = fold_left F' l M' i j.
Proof.
  induction l as [|k l IH]; intros M M' H HM; simpl; [exact HM|].
  apply IH.
  - intros k' N N' Hk. apply H. right; exact Hk.
  - apply H; [left; reflexivity|exact HM].
Qed.
Lemma fill_blocks_ext A A' NE NP : (1 <= NP)%nat ->
  (forall i j, (i < NP)%nat -> (j < NP)%nat -> A i j = A' i j) ->
  forall i j, fill_blocks A NE NP i j = fill_blocks A' NE NP i j.
Proof.
  intros HP H. apply fold_matrix_ext; [|reflexivity]. intros k M M' _ HM. cbv beta zeta.
  apply set_block_ext; [exact HM|]. intros i j Hi Hj. rewrite H; [reflexivity|nia|nia].
Qed.
Lemma fill_joints_ext A A' NE NP NZ M M' : (2 <= NP)%nat ->
  (forall i j, (i < NP)%nat -> (j < NP)%nat -> A i j = A' i j) -> (forall i j, M i j = M' i j) ->
  forall i j, fill_joints A NE NP NZ M i j = fill_joints A' NE NP NZ M' i j.
Proof.
  intros HP H HM. apply fold_matrix_ext; [|exact HM]. intros k N N' _ HN. cbv beta zeta.
  assert (E : ((k + 1) * NP - (k + 1) - (k * NP - k) = NP - 1)%nat) by nia.
  assert (E2 : ((k + 2) * NP - (k + 1) - ((k + 1) * NP - (k + 1) + 1) = NP - 1)%nat) by nia.
  apply set_block_ext.
  - apply set_block_ext.
    + apply set_block_ext; [exact HN|reflexivity].
    + intros i j Hi Hj. rewrite !H by lia. reflexivity.
  - intros i j Hi Hj. rewrite !H by lia. reflexivity.
Qed.
Lemma gac_advect_eq inv leg ne nz : inverter inv nz -> (2 <= nz)%nat ->
  interior_roots (nz - 2) (leg (nz - 2)%nat) ->
  forall i j, gac_advect inv leg ne nz i j = fst (advect_operator leg ne nz) i j.
Proof.
  intros HI Hn HR.
  assert (HD : distinct nz (rootsz leg nz)).
  { apply increasing_distinct. apply rootsz_increasing; assumption. }
  unfold gac_advect, advect_operator. cbv zeta. cbn [fst].
  apply set_block_ext; [|reflexivity].
  apply fill_joints_ext; [exact Hn| |].
  - intros i j Hi Hj. apply colloc_A_Amat; assumption.
  - apply fill_blocks_ext; [lia|]. intros i j Hi Hj. apply colloc_A_Amat; assumption.
Qed.

(** ** Radial matrices *)

Lemma dspoly_q_pow x i k : dspoly_q x i k = (x i ^ 2) ^ k.
Proof.
  rewrite <- pow_mult. unfold dspoly_q. destruct k; [reflexivity|]. f_equal. lia.
Qed.
Section Radial.
Variables (inv : nat -> matrix -> matrix) (n : nat) (x : nat -> R).
Hypothesis HI : inverter inv n.
Hypothesis HD : distinct n (fun i => x i ^ 2).
Let B := inv n (dspoly_q x).
Lemma radial_inverse : inverts n (dspoly_q x) B.
Proof. apply (inv_vander inv n _ (fun i => x i ^ 2)); auto. intros; apply dspoly_q_pow. Qed.

Lemma weights_exact c : rsum n (fun j => vdot n (dspoly_f 3) B j * poly n c (x j ^ 2))
  = rsum n (fun k => c k / (2 * INR k + 3)).
Proof.
  unfold vdot. rewrite <- (rsum_ext n (fun j => rsum n (fun k => dspoly_f 3 k * B k j) * rsum n (fun k => dspoly_q x j k * c k))).
  - rewrite (row_times_inverse n (dspoly_f 3) (dspoly_q x) B c radial_inverse).
    apply rsum_ext. intros k Hk. unfold dspoly_f. assert (0 <= INR k) by apply pos_INR. field. lra.
  - intros j Hj. f_equal. unfold poly. apply rsum_ext. intros k Hk. rewrite dspoly_q_pow. ring.
Qed.

Lemma laplace_exact c i : (i < n)%nat ->
  apply_row n (mdot n (dspoly_d 3 x) B) (fun j => poly n c (x j ^ 2)) i
  = rsum n (fun k => c k * (2 * INR k * (2 * INR k + 1) * (x i) ^ (2 * k - 2))).
Proof.
  intros Hi. unfold apply_row, mdot.
  rewrite <- (rsum_ext n (fun j => rsum n (fun k => dspoly_d 3 x i k * B k j) * rsum n (fun k => dspoly_q x j k * c k))).
  - rewrite (row_times_inverse n (dspoly_d 3 x i) (dspoly_q x) B c radial_inverse).
    apply rsum_ext. intros k Hk. unfold dspoly_d. destruct k as [|[|k]].
    + simpl. ring.
    + simpl. ring.
    + replace (2 * S (S k) - 3 + 1)%nat with (2 * S (S k) - 2)%nat by lia.
      rewrite plus_INR. replace (INR 1) with 1 by reflexivity. ring.
  - intros j Hj. f_equal. unfold poly. apply rsum_ext. intros k Hk. rewrite dspoly_q_pow. ring.
Qed.
End Radial.

(** Derivatives of an even polynomial. *)
Definition even_d1 (n : nat) (c : nat -> R) (r : R) : R :=
  rsum n (fun k => c k * (INR (2 * k) * r ^ (2 * k - 1))).
Definition even_d2 (n : nat) (c : nat -> R) (r : R) : R :=
  rsum n (fun k => c k * (INR (2 * k) * (INR (2 * k - 1) * r ^ (2 * k - 2)))).
Lemma even_derivs n c : derivative (fun r => poly n c (r ^ 2)) (even_d1 n c) /\
  derivative (even_d1 n c) (even_d2 n c).
Proof.
  split; intros r.
  - eapply derivable_pt_lim_ext with (f := fun r => rsum n (fun k => c k * r ^ (2 * k))).
    + intros s. unfold poly. apply rsum_ext. intros k _. rewrite <- pow_mult. reflexivity.
    + apply (deriv_rsum n (fun k r => c k * r ^ (2 * k))
               (fun k r => c k * (INR (2 * k) * r ^ (2 * k - 1)))). intros k _.
      replace (2 * k - 1)%nat with (Nat.pred (2 * k)) by lia. apply deriv_term.
  - apply (deriv_rsum n (fun k r => c k * (INR (2 * k) * r ^ (2 * k - 1)))
             (fun k r => c k * (INR (2 * k) * (INR (2 * k - 1) * r ^ (2 * k - 2))))). intros k _.
    apply (derivable_pt_lim_scal (fun s => INR (2 * k) * s ^ (2 * k - 1))).
    replace (2 * k - 2)%nat with (Nat.pred (2 * k - 1)) by lia. apply deriv_term.
Qed.
Lemma even_laplacian n c r : r <> 0 ->
  rsum n (fun k => c k * (2 * INR k * (2 * INR k + 1) * r ^ (2 * k - 2)))
  = even_d2 n c r + 2 / r * even_d1 n c r.
Proof.
  intros Hr. unfold even_d2, even_d1. rewrite <- rsum_scal, <- rsum_plus. apply rsum_ext.
  intros k _. destruct k as [|k]; [simpl; ring|].
  replace (2 * S k - 1)%nat with (S (2 * k)) by lia.
  replace (2 * S k - 2)%nat with (2 * k)%nat by lia.
  rewrite mult_INR, (S_INR (2 * k)), mult_INR, S_INR, <- tech_pow_Rmult.
  replace (INR 2) with 2 by (simpl; ring). field. exact Hr.
Qed.

(** Integral of an even polynomial with weight r^2. *)
Definition even_int (n : nat) (c : nat -> R) (r : R) : R :=
  rsum n (fun k => c k / (2 * INR k + 3) * r ^ (2 * k + 3)).
Lemma even_int_deriv n c : derivative (even_int n c) (fun r => r ^ 2 * poly n c (r ^ 2)).
Proof.
  intros r. unfold even_int.
  replace (r ^ 2 * poly n c (r ^ 2))
    with (rsum n (fun k => c k / (2 * INR k + 3) * (INR (2 * k + 3) * r ^ Nat.pred (2 * k + 3)))).
  - apply (deriv_rsum n (fun k r => c k / (2 * INR k + 3) * r ^ (2 * k + 3))
             (fun k r => c k / (2 * INR k + 3) * (INR (2 * k + 3) * r ^ Nat.pred (2 * k + 3)))).
    intros k _. apply deriv_term.
  - unfold poly. rewrite <- rsum_scal. apply rsum_ext. intros k _.
    rewrite plus_INR, mult_INR. replace (INR 2) with 2 by (simpl; ring). replace (INR 3) with 3 by (simpl; ring).
    replace (Nat.pred (2 * k + 3)) with (2 + 2 * k)%nat by lia. rewrite pow_add, pow_mult.
    assert (0 <= INR k) by apply pos_INR. field. lra.
Qed.
Lemma even_int_01 n c : rsum n (fun k => c k / (2 * INR k + 3)) = even_int n c 1 - even_int n c 0.
Proof.
  unfold even_int. rewrite <- rsum_minus. apply rsum_ext. intros k _.
  rewrite pow1, pow_i by lia. ring.
Qed.
Lemma integral01_unique f v w : integral01 f v -> integral01 f w -> v = w.
Proof.
  intros (F & DF & ->) (G & DG & ->).
  assert (E : evolves 0 1 (fun t => F t - G t) (fun _ => 0)).
  { split; intros t Ht.
    - apply (continuity_pt_minus F G); apply derivable_continuous_pt; eexists; [apply DF|apply DG].
    - replace 0 with (f t - f t) by ring. apply (derivable_pt_lim_minus F G); [apply DF|apply DG]. }
  assert (Z := evolves_zero 0 1 _ _ E (fun _ _ => eq_refl) 1 ltac:(lra)). cbv beta in Z. lra.
Qed.
Lemma integral01_linear f g h v w a b : integral01 f v -> integral01 g w ->
  (forall x, h x = a * f x + b * g x) -> integral01 h (a * v + b * w).
Proof.
  intros (F & DF & ->) (G & DG & ->) E. exists (fun x => a * F x + b * G x). split; [|ring].
  intros x. rewrite E.
  apply (derivable_pt_lim_plus (fun x => a * F x) (fun x => b * G x)).
  - apply (derivable_pt_lim_scal F), DF.
  - apply (derivable_pt_lim_scal G), DG.
Qed.

(** ** The weight of the surface point is positive *)

Fixpoint npoly (n : nat) (x : nat -> R) : list R :=
  match n with O => [1] | S m => pmul_lin (x m) (npoly m x) end.
Lemma npoly_eval n x u : peval (npoly n x) u = node_product n x u.
Proof.
  induction n as [|n IH]; simpl; [ring|]. rewrite peval_pmul_lin, IH. ring.
Qed.
Lemma npoly_length n x : length (npoly n x) = S n.
Proof. induction n as [|n IH]; simpl; [reflexivity|]. rewrite length_pmul_lin, IH. reflexivity. Qed.
Lemma node_product_zero n x i : (i < n)%nat -> node_product n x (x i) = 0.
Proof.
  induction n as [|n IH]; intros H; [lia|]. simpl.
  destruct (Nat.eq_dec i n) as [->|]; [ring|]. rewrite IH by lia. ring.
Qed.
Lemma node_product_nz n x u : (forall i, (i < n)%nat -> u <> x i) -> node_product n x u <> 0.
Proof.
  induction n as [|n IH]; intros H; simpl; [lra|].
  apply Rmult_integral_contrapositive. split; [apply IH; intros; apply H; lia|].
  specialize (H n ltac:(lia)). lra.
Qed.
Lemma node_product_ext n x x' u : (forall i, (i < n)%nat -> x i = x' i) ->
  node_product n x u = node_product n x' u.
Proof.
  induction n as [|n IH]; intros H; simpl; [reflexivity|]. rewrite IH, (H n) by (intros; auto with arith; apply H; lia).
  reflexivity.
Qed.

Lemma even_integral n c : integral01 (fun r => r ^ 2 * poly n c (r ^ 2)) (rsum n (fun k => c k / (2 * INR k + 3))).
Proof.
  exists (even_int n c). split; [apply even_int_deriv|apply even_int_01].
Qed.

Lemma square_integral_pos n c v : (0 < n)%nat -> (exists k, (k < n)%nat /\ c k <> 0) ->
  integral01 (fun r => r ^ 2 * (poly n c (r ^ 2) * poly n c (r ^ 2))) v -> 0 < v.
Proof.
  intros Hn (k & Hk & Hc) (F & DF & ->).
  set (f := fun r => r ^ 2 * (poly n c (r ^ 2) * poly n c (r ^ 2))) in *.
  assert (Hf : forall r, 0 <= f r).
  { intros r. unfold f. apply Rmult_le_pos; [apply pow2_ge_0|apply Rle_0_sqr]. }
  assert (CF : forall t, continuity_pt F t).
  { intros t. apply derivable_continuous_pt. eexists. apply DF. }
  assert (EV : forall a b, evolves a b (fun t => - F t) (fun t => - f t)).
  { intros a b. split; intros t Ht.
    - apply (continuity_pt_opp F), CF.
    - apply (derivable_pt_lim_opp F), DF. }
  assert (MONO : forall a b, a <= b -> F a <= F b).
  { intros a b Hab. assert (X := evolves_nonincreasing a b _ _ (EV a b)).
    specialize (X (fun t _ => ltac:(specialize (Hf t); lra)) b ltac:(lra)). cbv beta in X. lra. }
  destruct (Req_dec (F 1) (F 0)) as [E|E]; [|specialize (MONO 0 1 ltac:(lra)); lra].
  exfalso. apply Hc.
  assert (Z : forall r, 0 < r < 1 -> poly n c (r ^ 2) = 0).
  { intros r Hr.
    assert (D0 : derivable_pt_lim F r 0).
    { intros eps He. set (dl := Rmin r (1 - r)).
      assert (0 < dl) by (unfold dl; apply Rmin_glb_lt; lra).
      exists (mkposreal dl H). intros h Hh Hb. simpl in Hb.
      assert (dl <= r) by apply Rmin_l. assert (dl <= 1 - r) by apply Rmin_r.
      apply Rabs_def2 in Hb.
      assert (F (r + h) = F 0).
      { assert (M1 := MONO 0 (r + h) ltac:(lra)). assert (M2 := MONO (r + h) 1 ltac:(lra)). lra. }
      assert (F r = F 0).
      { assert (M1 := MONO 0 r ltac:(lra)). assert (M2 := MONO r 1 ltac:(lra)). lra. }
      rewrite H2, H3. replace ((F 0 - F 0) / h - 0) with 0 by (field; exact Hh).
      rewrite Rabs_R0. exact He. }
    assert (E0 := deriv_unique F _ _ r (DF r) D0). unfold f in E0.
    assert (r ^ 2 <> 0) by (apply pow_nonzero; lra).
    apply Rmult_integral in E0. destruct E0 as [E0|E0]; [contradiction|].
    apply Rmult_integral in E0. tauto. }
  assert (PN : 0 < INR (S n)) by (apply lt_0_INR; lia).
  apply (poly_unique n (fun i => (INR (S i) / INR (S n)) ^ 2)); [| |exact Hk].
  - intros i j Hi Hj Eq. cbv beta in Eq.
    assert (P1 : 0 < INR (S i)) by (apply lt_0_INR; lia).
    assert (P2 : 0 < INR (S j)) by (apply lt_0_INR; lia).
    assert (Q1 : 0 < INR (S i) / INR (S n)) by (apply Rdiv_lt_0_compat; assumption).
    assert (Q2 : 0 < INR (S j) / INR (S n)) by (apply Rdiv_lt_0_compat; assumption).
    assert (Eq2 : INR (S i) / INR (S n) = INR (S j) / INR (S n)).
    { rewrite <- !Rsqr_pow2 in Eq. apply Rsqr_inj in Eq; lra. }
    apply Rmult_eq_reg_r in Eq2; [|apply Rinv_neq_0_compat; lra]. apply INR_eq in Eq2. lia.
  - intros i Hi. apply Z. split.
    + apply Rdiv_lt_0_compat; [apply lt_0_INR; lia|exact PN].
    + apply Rmult_lt_reg_r with (INR (S n)); [exact PN|].
      unfold Rdiv. rewrite Rmult_assoc, Rinv_l, Rmult_1_r, Rmult_1_l by lra. apply lt_INR. lia.
Qed.

Lemma half_dec : dec 5 1 = / 2.
Proof. unfold dec. simpl. field. Qed.
Section Surface.
Variables (inv : nat -> matrix -> matrix) (jroots : nat -> R -> R -> nat -> R) (nr : nat).
Hypothesis HI : inverter inv nr.
Hypothesis Hn : (1 <= nr)%nat.
Hypothesis HJ : jacobi_nodes (nr - 1) (jroots (nr - 1)%nat 1 (dec 5 1)).
Let u := gac_rr jroots nr.
Let x i := sqrt (u i).

Lemma rr_range i : (i < nr)%nat -> 0 < u i <= 1.
Proof.
  intros Hi. unfold u, gac_rr. destruct (Nat.eqb_spec i (nr - 1)); [lra|].
  destruct HJ as (HB & _). specialize (HB i ltac:(lia)). rewrite half_dec.
  rewrite half_dec in HB. lra.
Qed.
Lemma rr_increasing i j : (i < j)%nat -> (j < nr)%nat -> u i < u j.
Proof.
  intros Hij Hj. unfold u, gac_rr. destruct HJ as (HB & HO & _).
  destruct (Nat.eqb_spec i (nr - 1)); [lia|].
  destruct (Nat.eqb_spec j (nr - 1)).
  - specialize (HB i ltac:(lia)). rewrite half_dec in *. lra.
  - specialize (HO i j Hij ltac:(lia)). rewrite half_dec in *. lra.
Qed.
Lemma x_sq i : (i < nr)%nat -> x i ^ 2 = u i.
Proof. intros Hi. unfold x. rewrite <- Rsqr_pow2. apply Rsqr_sqrt. left. apply rr_range, Hi. Qed.
Lemma x_pos i : (i < nr)%nat -> 0 < x i <= 1.
Proof.
  intros Hi. destruct (rr_range i Hi) as (A & B). split; [apply sqrt_lt_R0, A|].
  rewrite <- sqrt_1. apply sqrt_le_1_alt, B.
Qed.
Lemma x_last : x (nr - 1)%nat = 1.
Proof. unfold x, u, gac_rr. rewrite Nat.eqb_refl. apply sqrt_1. Qed.
Lemma u_distinct : distinct nr u.
Proof. apply increasing_distinct. apply rr_increasing. Qed.
Lemma x2_distinct : distinct nr (fun i => x i ^ 2).
Proof.
  intros i j Hi Hj E. cbv beta in E. rewrite !x_sq in E by assumption. apply u_distinct; assumption.
Qed.

Lemma surface_weight_pos : 0 < vdot nr (dspoly_f 3) (inv nr (dspoly_q x)) (nr - 1)%nat.
Proof.
  set (w := vdot nr (dspoly_f 3) (inv nr (dspoly_q x))).
  destruct (interpolant nr u (fun k => delta k (nr - 1)) u_distinct) as (c & Hc).
  assert (W : w (nr - 1)%nat = rsum nr (fun k => c k / (2 * INR k + 3))).
  { rewrite <- (weights_exact inv nr x HI x2_distinct c). fold w.
    rewrite (rsum_ext nr _ (fun j => w j * delta j (nr - 1))).
    - rewrite rsum_delta_r by lia. reflexivity.
    - intros j Hj. rewrite x_sq by exact Hj. rewrite Hc by exact Hj. reflexivity. }
  set (v := fun i => (jroots (nr - 1)%nat 1 (dec 5 1) i + 1) / 2).
  assert (uv : forall i, (i < nr - 1)%nat -> u i = v i).
  { intros i Hi. unfold u, v, gac_rr. rewrite (proj2 (Nat.eqb_neq i (nr - 1))) by lia.
    rewrite half_dec. field. }
  set (P1 := node_product (nr - 1) v 1).
  assert (HP1 : P1 <> 0).
  { apply node_product_nz. intros i Hi E. rewrite <- uv in E by exact Hi.
    assert (X := rr_increasing i (nr - 1) ltac:(lia) ltac:(lia)).
    unfold u, gac_rr at 2 in X. rewrite Nat.eqb_refl in X. fold u in X. lra. }
  (* the interpolant is the normalised node polynomial *)
  assert (L : forall s, poly nr c s = node_product (nr - 1) v s / P1).
  { intros s.
    set (D := padd (coefs nr c) (pscal (- / P1) (npoly (nr - 1) v))).
    assert (ED : forall y, peval D y = poly nr c y - node_product (nr - 1) v y / P1).
    { intros y. unfold D. rewrite peval_padd, peval_pscal, npoly_eval, peval_coefs. unfold poly, Rdiv. ring. }
    enough (Z : peval D s = 0) by (rewrite ED in Z; lra).
    apply (root_count D (map u (seq 0 nr))).
    - assert (G : forall l, NoDup l -> (forall i, In i l -> (i < nr)%nat) -> NoDup (map u l)).
      { induction l as [|a l IH]; intros ND HB; simpl; [constructor|].
        inversion ND; subst. constructor; [|apply IH; [assumption|intros; apply HB; right; assumption]].
        intros HIn. apply in_map_iff in HIn. destruct HIn as (b & E & Hb).
        assert (b = a) by (apply u_distinct; [apply HB; right; exact Hb|apply HB; left; reflexivity|exact E]).
        subst. contradiction. }
      apply G; [apply seq_NoDup|]. intros i Hi. apply in_seq in Hi. lia.
    - unfold D. rewrite length_padd, length_pscal, npoly_length, length_coefs, map_length, seq_length. lia.
    - intros r Hr. apply in_map_iff in Hr. destruct Hr as (i & <- & Hi). apply in_seq in Hi.
      rewrite ED, Hc by lia. unfold delta. destruct (Nat.eqb_spec i (nr - 1)) as [->|Hne].
      + unfold u, gac_rr. rewrite Nat.eqb_refl. fold P1. field. exact HP1.
      + rewrite (uv i) by lia. rewrite node_product_zero by lia. field. exact HP1. }
  (* L - 1 vanishes at 1 *)
  set (one := fun k : nat => match k with O => 1 | S _ => 0 end).
  set (cm := fun k => c k - one k).
  assert (OP : forall y, poly nr one y = 1).
  { intros y. unfold poly. destruct nr as [|m]; [lia|]. rewrite rsum_S_first.
    rewrite rsum_zero by (intros; unfold one; simpl; ring). unfold one. simpl. ring. }
  assert (EM : forall y, peval (coefs nr cm) y = poly nr c y - 1).
  { intros y. rewrite peval_coefs, <- (OP y). unfold poly, cm. rewrite <- rsum_minus. apply rsum_ext. intros; ring. }
  set (Sq := pquo (coefs nr cm) 1).
  assert (ES : forall y, poly nr c y - 1 = (y - 1) * peval Sq y).
  { intros y. rewrite <- EM. rewrite (peval_pquo (coefs nr cm) 1 y). rewrite EM.
    rewrite L. fold P1. unfold Sq. field. exact HP1. }
  set (sc := fun k => nth k Sq 0).
  assert (EQ : forall y, peval Sq y = poly (nr - 1) sc y).
  { intros y. unfold poly, sc. apply peval_nth. unfold Sq.
    eapply Nat.le_trans; [apply length_pquo|]. rewrite length_coefs. lia. }
  destruct HJ as (_ & _ & HO). specialize (HO sc). fold v in HO.
  assert (I1 := even_integral nr c). rewrite <- W in I1.
  assert (I3 : integral01 (fun r => r ^ 2 * (poly nr c (r ^ 2) * poly nr c (r ^ 2))) (w (nr - 1)%nat)).
  { replace (w (nr - 1)%nat) with (1 * w (nr - 1)%nat + - / P1 * 0) by ring.
    apply (integral01_linear _ _ _ _ _ 1 (- / P1) I1 HO). intros r.
    rewrite <- EQ. set (U := r ^ 2).
    assert (EU := ES U). rewrite (L U) in *. set (N := node_product (nr - 1) v U) in *.
    replace (peval Sq U * (U - 1)) with (N / P1 - 1) in * by lra.
    replace (1 * (U * (N / P1)) + - / P1 * (U * (1 - U) * N * peval Sq U))
      with (U * (N / P1) * (1 + (U - 1) * peval Sq U)) by (field; exact HP1).
    rewrite <- EU. ring. }
  apply (square_integral_pos nr c); [lia| |exact I3].
  (* some coefficient is non zero, as L(1) = 1 *)
  destruct (Rlt_dec 0 (rsum nr (fun k => Rabs (c k)))) as [H|H].
  - clear - H. induction nr as [|m IH]; simpl in H; [lra|].
    destruct (Req_dec (c m) 0) as [Z|Z]; [|exists m; split; [lia|exact Z]].
    rewrite Z, Rabs_R0, Rplus_0_r in H. destruct (IH H) as (k & Hk & Hz). exists k. split; [lia|exact Hz].
  - exfalso. assert (Z : poly nr c 1 = 0).
    { unfold poly. apply rsum_zero. intros k Hk.
      destruct (Req_dec (c k) 0) as [->|Hz]; [ring|]. exfalso. apply H.
      apply (rsum_pos_one nr _ k); try assumption.
      - intros; apply Rabs_pos.
      - apply Rabs_pos_lt, Hz. }
    rewrite L in Z. fold P1 in Z. apply HP1. unfold Rdiv in Z. rewrite Rinv_r in Z by exact HP1. lra.
Qed.
End Surface.
