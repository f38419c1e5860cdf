(** The radial grid as a quadrature rule: its weights are those of interpolation, exact to degree
    2n-2 in the squared radius when the interior nodes are zeros of the Jacobi polynomial; so the
    radial Laplacian is dissipative. *)
From Coq Require Import Reals Lra Lia Arith List FinFun.
From Verif Require Import Lib_Py Lib_Sum Lib_Poly Lib_Moment S_Colloc M_Colloc P_Colloc.
Import ListNotations.
Open Scope R_scope.

Lemma nodal_nprod x l y : nodal x l y = nprod (map x l) y.
Proof. induction l as [|j l IH]; simpl; [reflexivity|]. rewrite IH. reflexivity. Qed.

Lemma peval_const c x y : (forall z, peval (pderiv c) z = 0) -> peval c x = peval c y.
Proof.
  intros H. assert (W : forall p q, p < q -> peval c p = peval c q).
  { intros p q Hpq. destruct (MVT_cor2 (peval c) (peval (pderiv c)) p q Hpq) as (z & E & _); [intros; apply peval_deriv|]. rewrite H in E. lra. }
  destruct (Rtotal_order x y) as [G|[->|G]]; [apply W, G|reflexivity|symmetry; apply W, G].
Qed.
Definition monic (p : list R) : Prop := (1 <= length p)%nat /\ nth (length p - 1) p 0 = 1.
Lemma monic_pmul_lin u p : monic p -> monic (pmul_lin u p).
Proof.
  intros (L & H). split; rewrite length_pmul_lin; [lia|].
  replace (S (length p) - 1)%nat with (S (length p - 1)) by lia. rewrite nth_pmul_lin, H, nth_overflow by lia. ring.
Qed.
Lemma monic_gstep x r l p : monic p -> monic (fold_left (gstep x r) l p).
Proof.
  revert p; induction l as [|j l IH]; intros p H; simpl; [exact H|]. apply IH. unfold gstep.
  destruct (reqb (x j - r) 0); [exact H|apply monic_pmul_lin, H].
Qed.

Section Radial.
Variables (n : nat) (u : nat -> R) (a : R).
Hypothesis HD : distinct n u.
Hypothesis Ha : 0 < a.
Hypothesis Hu : forall i, (i < n)%nat -> 0 < u i.
Notation g := (gpoly n u).
Notation L := (mom a).

Lemma g_len i : (i < n)%nat -> length (g i) = n.
Proof.
  intros Hi. assert (U := gpoly_length n u i Hi).
  destruct (Nat.eq_dec (length (g i)) n) as [E|NE]; [exact E|exfalso].
  apply (g_own n u i). apply root_count with (rs := map u (filter (fun j => negb (Nat.eqb j i)) (seq 0 n))).
  - assert (X : forall l, NoDup l -> (forall i, In i l -> (i < n)%nat) -> NoDup (map u l)).
    { induction l as [|b l IH]; simpl; intros ND Hb; [constructor|].
      inversion ND; subst. constructor; [|apply IH; auto].
      intros Hin. apply in_map_iff in Hin. destruct Hin as (c & E & Hb').
      assert (c = b) by (apply HD; auto). subst c. contradiction. }
    apply X; [apply NoDup_filter, seq_NoDup|]. intros j Hj. apply filter_In in Hj as (Hj & _). apply in_seq in Hj. lia.
  - rewrite map_length. assert (X : forall m k, (length (filter (fun j => negb (Nat.eqb j i)) (seq k m)) + (if andb (Nat.leb k i) (Nat.ltb i (k + m)) then 1 else 0) = m)%nat).
    { induction m as [|m IH]; intros k; simpl.
      - destruct (Nat.leb_spec k i), (Nat.ltb_spec i (k + 0)); simpl; lia.
      - specialize (IH (S k)). destruct (Nat.eqb_spec k i); simpl;
        destruct (Nat.leb_spec k i), (Nat.ltb_spec i (k + S m)), (Nat.leb_spec (S k) i), (Nat.ltb_spec i (S k + m)); simpl in *; lia. }
    specialize (X n 0%nat). destruct (Nat.leb_spec 0 i), (Nat.ltb_spec i (0 + n)); simpl in X; lia.
  - intros r Hr. apply in_map_iff in Hr as (j & <- & Hj). apply filter_In in Hj as (Hj & N). apply in_seq in Hj.
    apply Bool.negb_true_iff, Nat.eqb_neq in N. apply (g_other n u HD); lia.
Qed.
Lemma g_lead i : (i < n)%nat -> nth (n - 1) (g i) 0 = 1.
Proof.
  intros Hi. destruct (monic_gstep u (u i) (seq 0 n) [1]) as (_ & H); [split; simpl; [lia|reflexivity]|].
  fold (g i) in H. rewrite g_len in H by exact Hi. exact H.
Qed.

(** Interpolatory weights. *)
Definition wi (i : nat) : R := L (g i) / peval (g i) (u i).
Lemma wi_exact P : (length P <= n)%nat -> rsum n (fun i => wi i * peval P (u i)) = L P.
Proof.
  intros HP. rewrite (mom_ext a P (interp n u P) (fun y => interp_exact n u HD P y HP)). unfold interp. rewrite mom_plin.
  apply rsum_ext. intros i Hi. unfold wi. field. apply g_own.
Qed.

(** Zeros of the Jacobi polynomial, and 1. *)
Hypothesis Hn : (1 <= n)%nat.
Hypothesis H1 : u (n - 1)%nat = 1.
Definition N0 : list R := pmul_lin (u 0%nat) (g 0%nat).
Hypothesis Hort : forall q, (length q <= n - 1)%nat -> L (pmul N0 q) = 0.

Lemma N0_nodal y : peval N0 y = nprod (map u (seq 0 n)) y.
Proof. unfold N0. rewrite peval_pmul_lin, (g_nodal n u HD) by lia. apply nodal_nprod. Qed.
Lemma N0_g i y : (i < n)%nat -> peval N0 y = (y - u i) * peval (g i) y.
Proof. intros Hi. rewrite N0_nodal, <- nodal_nprod. symmetry. apply (g_nodal n u HD), Hi. Qed.
Lemma N0_root i : (i < n)%nat -> peval N0 (u i) = 0.
Proof. intros Hi. rewrite (N0_g i) by exact Hi. ring. Qed.
Definition kap : R := L (pmul N0 (pmono (n - 1))).
Lemma N0_mom s : (length s <= n)%nat -> L (pmul N0 s) = nth (n - 1) s 0 * kap.
Proof.
  intros Ls. destruct (split_last s (n - 1)) as (d & Ld & Hd); [lia|].
  rewrite (mom_ext a _ (padd (pmul N0 d) (pscal (nth (n - 1) s 0) (pmul N0 (pmono (n - 1)))))).
  - rewrite mom_padd, mom_pscal, Hort by exact Ld. unfold kap. ring.
  - intros y. rewrite peval_padd, peval_pscal, !peval_pmul, Hd, peval_pmono. ring.
Qed.
Lemma N0_len : length N0 = S n.
Proof. unfold N0. rewrite length_pmul_lin, g_len by lia. reflexivity. Qed.
Lemma N0_lead : nth n N0 0 = 1.
Proof.
  replace (nth n N0 0) with (nth (S (n - 1)) N0 0) by (f_equal; lia). unfold N0. rewrite nth_pmul_lin, g_lead by lia.
  rewrite nth_overflow; [ring|]. rewrite g_len; lia.
Qed.

Lemma wi_shape i : (i < n)%nat ->
  wi i * (2 * u i * peval (g i) (u i) ^ 2) = - (a + 2 * INR n + 2 * INR (n - 1)) * kap.
Proof.
  intros Hi.
  destruct (pderiv_short N0 n) as (dN & LdN & EdN & ldN); [rewrite N0_len; lia|].
  destruct (pderiv_short (g i) (n - 1)) as (dg & Ldg & Edg & ldg); [rewrite g_len by exact Hi; lia|].
  set (s := pquo (0 :: dN) (u i)).
  assert (Ls : (length s <= n)%nat) by (unfold s; assert (X := length_pquo (0 :: dN) (u i)); cbn [length Nat.pred] in X; lia).
  assert (ls : nth (n - 1) s 0 = INR n).
  { unfold s. rewrite nth_pquo by (simpl; lia). cbn [nth]. rewrite ldN, N0_lead by lia. ring. }
  assert (ls2 : nth (n - 1) (0 :: dg) 0 = INR (n - 1)).
  { destruct (n - 1)%nat as [|m] eqn:E; [reflexivity|]. cbn [nth]. replace (S m - 1)%nat with m in ldg by lia. rewrite ldg by lia. rewrite <- E, (g_lead i Hi). ring. }
  assert (D1 : forall y, peval (pderiv N0) y = peval (g i) y + (y - u i) * peval (pderiv (g i)) y).
  { intros y. rewrite (pderiv_ext N0 (pmul_lin (u i) (g i))), pderiv_pmul_lin; [reflexivity|]. intros z. rewrite peval_pmul_lin. apply N0_g, Hi. }
  assert (Ds : forall y, y * peval (pderiv N0) y = u i * peval (g i) (u i) + (y - u i) * peval s y).
  { intros y. assert (X := peval_pquo (0 :: dN) (u i) y). cbn [peval] in X. rewrite <- !EdN in X. fold s in X.
    rewrite (D1 (u i)) in X. lra. }
  (* f = N g_i *)
  assert (DP : forall y, peval (pderiv (pmul N0 (g i))) y = peval (pderiv N0) y * peval (g i) y + peval N0 y * peval (pderiv (g i)) y).
  { intros y. apply (uniqueness_limite (peval (pmul N0 (g i))) y); [apply peval_deriv|].
    apply (derivable_pt_lim_ext (fun z => peval N0 z * peval (g i) z)); [intros z; symmetry; apply peval_pmul|].
    apply (derivable_pt_lim_mult (peval N0) (peval (g i))); apply peval_deriv. }
  assert (IP := mom_parts (pmul N0 (g i)) a Ha).
  rewrite peval_pmul, <- H1, N0_root, Rmult_0_l in IP by lia.
  rewrite (mom_ext a _ (padd (pscal (2 * (u i * peval (g i) (u i))) (g i))
      (padd (pscal a (pmul N0 (g i))) (padd (pscal 2 (pmul N0 s)) (pscal 2 (pmul N0 (0 :: dg))))))) in IP.
  - rewrite !mom_padd, !mom_pscal, !N0_mom, ls, ls2, (g_lead i Hi) in IP by (rewrite ?g_len; simpl; lia).
    unfold wi. replace (L (g i) / peval (g i) (u i) * (2 * u i * peval (g i) (u i) ^ 2)) with (2 * (u i * peval (g i) (u i)) * L (g i)) by (field; apply g_own). lra.
  - intros y. rewrite !peval_padd, !peval_pscal. cbn [peval]. rewrite !peval_pmul, DP. cbn [peval]. rewrite <- Edg.
    replace (2 * (0 + y * (peval (pderiv N0) y * peval (g i) y + peval N0 y * peval (pderiv (g i)) y)))
      with (2 * (y * peval (pderiv N0) y) * peval (g i) y + 2 * (peval N0 y * (y * peval (pderiv (g i)) y))) by ring.
    rewrite Ds. rewrite (N0_g i y Hi). ring.
Qed.
Lemma Wx_wi i : (i < n)%nat -> Wx n u a i = wi i.
Proof.
  intros Hi. set (k := - (a + 2 * INR n + 2 * INR (n - 1)) * kap / 2).
  assert (E : forall j, (j < n)%nat -> wi j = k * (1 / (u j * px1 n u j ^ 2))).
  { intros j Hj. rewrite px1_g. assert (S := wi_shape j Hj). assert (U := Hu j Hj). assert (G := g_own n u j).
    unfold k. rewrite <- S. field. split; [exact G|lra]. }
  assert (T := wi_exact [1] ltac:(simpl; lia)). cbn [mom peval] in T.
  rewrite (rsum_ext n _ (fun j => k * (1 / (u j * px1 n u j ^ 2)))) in T by (intros j Hj; rewrite E by exact Hj; ring).
  rewrite rsum_scal in T. fold (wp_sum n u) in T.
  assert (Z : wp_sum n u <> 0). { intros Z. rewrite Z in T. assert (0 < 1 / a) by (apply Rdiv_lt_0_compat; lra). lra. }
  rewrite E by exact Hi. unfold Wx. replace k with (1 / a / wp_sum n u); [|rewrite Rplus_0_r in T; rewrite <- T; field; exact Z].
  assert (U := Hu i Hi). assert (G := g_own n u i). rewrite px1_g. field. repeat split; try exact G; try exact Z; lra.
Qed.

(** Exact to degree 2n - 2. *)
Lemma quad_exact P : (length P <= 2 * n - 1)%nat -> rsum n (fun i => Wx n u a i * peval P (u i)) = L P.
Proof.
  intros LP. set (us := map u (seq 0 n)). assert (Lu : length us = n) by (unfold us; rewrite map_length, seq_length; reflexivity).
  set (Q := fst (newton us P)). set (Rm := snd (newton us P)).
  assert (E : forall y, peval P y = peval N0 y * peval Q y + peval Rm y) by (intros y; rewrite N0_nodal; apply newton_spec).
  rewrite (mom_ext a P (padd (pmul N0 Q) Rm)) by (intros y; rewrite peval_padd, peval_pmul; apply E).
  assert (LQ := newton_quo us P). fold Q in LQ. assert (LR := newton_rem us P). fold Rm in LR. rewrite Lu in *.
  rewrite mom_padd, Hort, Rplus_0_l by lia. rewrite <- (wi_exact Rm LR). apply rsum_ext. intros i Hi.
  rewrite Wx_wi, E, N0_root by exact Hi. ring.
Qed.

(** The Laplacian. *)
Lemma Bx_list P i : (length P <= n)%nat -> (i < n)%nat ->
  apply_row n (Bx n u a) (fun j => peval P (u j)) i = 2 * a * peval (pderiv P) (u i) + 4 * u i * peval (pderiv (pderiv P)) (u i).
Proof.
  intros LP Hi. rewrite <- (A_exact_list n u HD P i LP Hi), <- (B_exact_list n u HD P i LP Hi). unfold apply_row.
  rewrite <- !rsum_scal, <- rsum_plus. apply rsum_ext. intros j Hj. unfold Bx. ring.
Qed.
Lemma dissipation F : exists P D, (length P <= n)%nat /\ (forall i, (i < n)%nat -> peval P (u i) = F i) /\
  (length D <= n - 1)%nat /\ (forall y, peval (pderiv P) y = peval D y) /\
  rsum n (fun i => Wx n u a i * (F i - F (n - 1)%nat) * apply_row n (Bx n u a) F i) = - 4 * mom (a + 2) (pmul D D).
Proof.
  destruct (interpolant n u F HD) as (c & Hc). set (P := coefs n c).
  assert (LP : length P = n) by apply length_coefs.
  assert (EP : forall i, (i < n)%nat -> peval P (u i) = F i) by (intros i Hi; rewrite <- Hc by exact Hi; unfold P, poly; apply peval_coefs).
  destruct (pderiv_short P (n - 1)) as (D & LD & ED & _); [lia|].
  destruct (pderiv_short D (n - 2)) as (D2 & LD2 & ED2 & _).
  { destruct (Nat.eq_dec n 1) as [E1|E1]; [|lia]. rewrite E1 in LD. simpl in LD. lia. }
  exists P, D. split; [lia|]. split; [exact EP|]. split; [exact LD|]. split; [exact ED|]. set (P0 := padd P [- F (n - 1)%nat]).
  assert (LP0 : (length P0 <= n)%nat) by (unfold P0; rewrite length_padd; simpl; lia).
  assert (EP0 : forall y, peval P0 y = peval P y - F (n - 1)%nat) by (intros y; unfold P0; rewrite peval_padd; simpl; ring).
  assert (ED2' : forall y, peval (pderiv (pderiv P)) y = peval D2 y) by (intros y; rewrite (pderiv_ext _ _ ED); apply ED2).
  rewrite (rsum_ext n _ (fun i => Wx n u a i * peval (pmul P0 (padd (pscal (2 * a) D) (pscal 4 (0 :: D2)))) (u i))).
    + rewrite quad_exact.
      * (* parts with f = P0 D *)
        assert (IP := mom_parts (pmul P0 D) a Ha).
        rewrite peval_pmul, EP0, <- H1, EP in IP by lia. replace ((F (n - 1)%nat - F (n - 1)%nat) * peval D (u (n - 1)%nat)) with 0 in IP by ring.
        assert (DP : forall y, peval (pderiv (pmul P0 D)) y = peval D y * peval D y + peval P0 y * peval D2 y).
        { intros y. apply (uniqueness_limite (peval (pmul P0 D)) y); [apply peval_deriv|].
          apply (derivable_pt_lim_ext (fun z => peval P0 z * peval D z)); [intros z; symmetry; apply peval_pmul|].
          rewrite <- (ED2 y). apply (derivable_pt_lim_mult (peval P0) (peval D)); [|apply peval_deriv].
          rewrite <- ED. replace (peval (pderiv P) y) with (peval (pderiv P0) y); [apply peval_deriv|].
          unfold P0. rewrite pderiv_padd. simpl. ring. }
        assert (X : mom (a + 2) (pmul D D) = mom a (0 :: pmul D D)) by (cbn [mom]; unfold Rdiv; ring). rewrite X.
        enough (Y : mom a (pmul P0 (padd (pscal (2 * a) D) (pscal 4 (0 :: D2)))) + 4 * mom a (0 :: pmul D D) = 0) by lra.
        rewrite <- mom_pscal, <- mom_padd.
        assert (IP2 := mom_pscal 2 (padd (pscal a (pmul P0 D)) (pscal 2 (0 :: pderiv (pmul P0 D)))) a). rewrite IP, Rmult_0_r in IP2.
        etransitivity; [|exact IP2]. apply mom_ext. intros y.
        repeat (rewrite ?peval_padd, ?peval_pscal, ?peval_pmul, ?DP; cbn [peval]). ring.
      * destruct (Nat.eq_dec (length (padd (pscal (2 * a) D) (pscal 4 (0 :: D2)))) 0) as [Z|Z].
        -- rewrite length_padd, !length_pscal in Z. cbn [length] in Z. lia.
        -- assert (X := length_pmul_pred P0 (padd (pscal (2 * a) D) (pscal 4 (0 :: D2))) ltac:(lia)).
           rewrite length_padd, !length_pscal in X. cbn [length] in X. destruct (Nat.eq_dec n 1) as [E1|E1]; lia.
    + intros i Hi. rewrite peval_pmul, EP0, EP by exact Hi. rewrite Rmult_assoc. f_equal. f_equal.
      unfold apply_row. rewrite (rsum_ext n _ (fun j => Bx n u a i j * peval P (u j))) by (intros j Hj; rewrite EP by exact Hj; reflexivity).
      change (apply_row n (Bx n u a) (fun j => peval P (u j)) i = peval (padd (pscal (2 * a) D) (pscal 4 (0 :: D2))) (u i)).
      rewrite Bx_list by lia. rewrite ED, ED2'. rewrite peval_padd, !peval_pscal. cbn [peval]. ring.
Qed.
End Radial.

(** ** The grid of the code *)
From Verif Require Import S_Radial.

Lemma antideriv_unique G H f : (forall x, derivable_pt_lim G x (f x)) -> (forall x, derivable_pt_lim H x (f x)) -> G 1 - G 0 = H 1 - H 0.
Proof.
  intros HG HH.
  destruct (MVT_cor2 (fun x => G x - H x) (fun x => f x - f x) 0 1) as (z & E & _); [lra| |lra].
  intros x _. apply (derivable_pt_lim_minus G H); [apply HG|apply HH].
Qed.
Lemma integral_mom d c : integral (fun s => s ^ d * peval c (s ^ 2)) 0 1 (mom (INR (S d)) c).
Proof. exists (anti (S d) c). split; [apply anti_deriv|]. rewrite anti_0, anti_1. ring. Qed.
Lemma integral_unique f v w : integral f 0 1 v -> integral f 0 1 w -> v = w.
Proof. intros (G & HG & <-) (H & HH & <-). apply (antideriv_unique G H f); assumption. Qed.
Lemma integral_ext f g v : (forall x, f x = g x) -> integral f 0 1 v -> integral g 0 1 v.
Proof. intros E (G & HG & HV). exists G. split; [|exact HV]. intros x. rewrite <- E. apply HG. Qed.
Lemma nprod_app l m y : nprod (l ++ m) y = nprod l y * nprod m y.
Proof. induction l as [|x l IH]; simpl; [ring|]. rewrite IH. ring. Qed.
Lemma factors_nprod m r y : factors m r y = nprod (map r (seq 0 m)) y.
Proof. induction m as [|m IH]; [reflexivity|]. rewrite seq_S, map_app, nprod_app, <- IH. simpl. ring. Qed.

Section CodeGrid.
Variables (jac : nat -> R -> R -> nat -> R) (n d : nat).
Notation a := (INR (S d)).
Notation u := (rootsu jac n a).
Hypothesis Hn : (1 <= n)%nat.
Hypothesis HJ : jacobi_roots d (n - 1) (jac (n - 1)%nat (a / 2 + 1) (a / 2)).

Lemma a_pos : 0 < a. Proof. apply lt_0_INR. lia. Qed.
Lemma u_inner i : (i < n - 1)%nat -> u i = jac (n - 1)%nat (a / 2 + 1) (a / 2) i.
Proof.
  intros Hi. unfold rootsu. destruct (Nat.eqb_spec i (n - 1)); [lia|].
  replace (dec 15 1 + (a - 1) / 2) with (a / 2 + 1) by (unfold dec; simpl; lra). f_equal. ring.
Qed.
Lemma u_last : u (n - 1)%nat = 1.
Proof. unfold rootsu. rewrite Nat.eqb_refl. reflexivity. Qed.
Lemma u_pos i : (i < n)%nat -> 0 < u i.
Proof.
  intros Hi. destruct (Nat.eq_dec i (n - 1)) as [->|NE]; [rewrite u_last; lra|]. rewrite u_inner by lia.
  destruct HJ as ((H & _) & _). apply H. lia.
Qed.
Lemma u_distinct : distinct n u.
Proof.
  assert (M : forall i j, (i < j)%nat -> (j < n)%nat -> u i < u j).
  { intros i j Hij Hj. destruct HJ as ((H & H2) & _). destruct (Nat.eq_dec j (n - 1)) as [->|NE].
    - rewrite u_last, u_inner by lia. apply H. lia.
    - rewrite !u_inner by lia. apply H2; lia. }
  intros i j Hi Hj E. destruct (lt_eq_lt_dec i j) as [[G|G]|G]; [|exact G|]; [assert (X := M i j G Hj)|assert (X := M j i G Hi)]; lra.
Qed.
Lemma u_orth q : (length q <= n - 1)%nat -> mom a (pmul (N0 n u) q) = 0.
Proof.
  intros Lq. destruct HJ as (_ & HO). specialize (HO (fun k => nth k q 0)).
  apply (integral_unique (fun s => s ^ d * peval (pmul (N0 n u) q) (s ^ 2))); [apply integral_mom|].
  destruct HO as (G & HG & HV). exists (fun s => - G s). split; [|lra]. intros s.
  replace (s ^ d * peval (pmul (N0 n u) q) (s ^ 2))
    with (- (s ^ d * (1 - s ^ 2) * factors (n - 1) (jac (n - 1)%nat (a / 2 + 1) (a / 2)) (s ^ 2) * poly (n - 1) (fun k => nth k q 0) (s ^ 2)));
    [apply (derivable_pt_lim_opp G), HG|].
  rewrite peval_pmul, (N0_nodal n u u_distinct Hn), factors_nprod.
  replace (map u (seq 0 n)) with (map u (seq 0 (n - 1)) ++ [1])%list.
  - rewrite nprod_app. rewrite (map_ext_in u (jac (n - 1)%nat (a / 2 + 1) (a / 2)) (seq 0 (n - 1))) by (intros i Hi; apply in_seq in Hi; apply u_inner; lia).
    unfold poly. rewrite <- peval_nth by exact Lq. simpl nprod. ring.
  - replace n with (S (n - 1)) at 4 by lia. rewrite seq_S, map_app. cbn [map plus]. rewrite u_last. reflexivity.
Qed.

Lemma code_quad P : (length P <= 2 * n - 1)%nat -> rsum n (fun i => Wx n u a i * peval P (u i)) = mom a P.
Proof. intros LP. apply quad_exact; [apply u_distinct|apply a_pos|intros; apply u_pos; assumption|exact Hn|apply u_last|apply u_orth|exact LP]. Qed.
Lemma code_dissipation F :
  rsum n (fun i => Wx n u a i * (F i - F (n - 1)%nat) * apply_row n (Bx n u a) F i) <= 0.
Proof.
  destruct (dissipation n u a u_distinct a_pos u_pos Hn u_last u_orth F) as (P & D & _ & _ & _ & _ & ->).
  replace (a + 2) with (INR (S (S (S d)))) by (rewrite !S_INR; ring).
  assert (0 <= mom (INR (S (S (S d)))) (pmul D D)); [|lra].
  apply mom_nonneg. intros s _. rewrite peval_pmul. apply Rle_0_sqr.
Qed.
Lemma code_weights : (forall i, (i < n)%nat -> 0 < Wx n u a i) /\ rsum n (Wx n u a) = 1 / a.
Proof. apply weights; [apply a_pos|lia|apply u_pos]. Qed.
End CodeGrid.
