(** The points asked of roots_sh_jacobi exist, for every number of points and every geometry. *)
From Coq Require Import Reals Lra Lia Arith List Sorted Classical FinFun.
From Verif Require Import Lib_Sum Lib_Poly Lib_Moment S_Colloc S_Radial P_Radial.
Import ListNotations.
Open Scope R_scope.

Lemma peval_cont c : continuity (peval c).
Proof. intros x. apply derivable_continuous_pt. exists (peval (pderiv c) x). apply peval_deriv. Qed.

(** Enough zeros. *)
Lemma inv_nodup y k m : k <> 0 -> NoDup (map (fun i => y + k / INR (S (S i))) (seq 0 m)).
Proof.
  intros Hk. apply Injective_map_NoDup; [|apply seq_NoDup]. intros i j E.
  assert (A : INR (S (S i)) <> 0) by (apply not_0_INR; lia). assert (B : INR (S (S j)) <> 0) by (apply not_0_INR; lia).
  assert (E2 : k / INR (S (S i)) = k / INR (S (S j))) by lra.
  assert (X : INR (S (S j)) = INR (S (S i))). { apply Rmult_eq_reg_l with (k / INR (S (S i)) / INR (S (S j)) * 1). - transitivity (k / INR (S (S i))); [field; split; assumption|]. rewrite E2 at 1. field. split; assumption.
    - rewrite Rmult_1_r. unfold Rdiv. repeat apply Rmult_integral_contrapositive_currified; try assumption; apply Rinv_neq_0_compat; assumption. }
  apply INR_eq in X. lia.
Qed.
Lemma inv_range i : 0 < / INR (S (S i)) < 1.
Proof.
  assert (A : 1 < INR (S (S i))) by (apply (lt_INR 1); lia). split; [apply Rinv_0_lt_compat; lra|].
  rewrite <- Rinv_1. apply Rinv_lt_contravar; lra.
Qed.
Lemma zero_near c y k : 0 < k -> (forall z, y < z < y + k -> peval c z = 0) -> forall z, peval c z = 0.
Proof.
  intros Hk H. apply root_count with (rs := map (fun i => y + k / INR (S (S i))) (seq 0 (length c))).
  - apply inv_nodup. lra.
  - rewrite map_length, seq_length. lia.
  - intros r Hr. apply in_map_iff in Hr as (i & <- & _). apply H. assert (X := inv_range i). unfold Rdiv. nra.
Qed.
Lemma no_zero_div c d : (forall y, peval c y * peval d y = 0) -> ~ (forall y, peval c y = 0) -> forall y, peval d y = 0.
Proof.
  intros H N. apply not_all_ex_not in N as (y0 & N).
  destruct (continuous_neq_0 (peval c) y0 (peval_cont c y0) N) as (e & He).
  apply (zero_near d y0 e (cond_pos e)). intros z Hz. assert (X := He (z - y0)). replace (y0 + (z - y0)) with z in X by ring.
  assert (Y := H z). apply Rmult_integral in Y as [Y|Y]; [|exact Y]. exfalso. apply X; [|exact Y]. rewrite Rabs_pos_eq; lra.
Qed.
Lemma peval_zero_nth c : (forall y, peval c y = 0) -> forall k, nth k c 0 = 0.
Proof.
  induction c as [|x c IH]; intros H k; [destruct k; reflexivity|]. destruct (peval_zero_tail x c H) as (-> & Ht).
  destruct k; [reflexivity|]. apply IH, Ht.
Qed.

(** A polynomial that is not negative and has integral zero is zero. *)
Lemma mom_null k c : (forall y, 0 < y < 1 -> 0 <= peval c y) -> mom (INR (S k)) c = 0 -> forall y, peval c y = 0.
Proof.
  intros H Z.
  assert (HS : forall s, 0 < s < 1 -> 0 <= s ^ k * peval c (s ^ 2)).
  { intros s Hs. apply Rmult_le_pos; [apply pow_le; lra|]. apply H. split; [apply pow_lt; lra|]. simpl. nra. }
  assert (M : forall s t, 0 <= s -> s < t -> t <= 1 -> anti (S k) c s <= anti (S k) c t).
  { intros s t Hs Hst Ht. destruct (MVT_cor2 (anti (S k) c) (fun s => s ^ k * peval c (s ^ 2)) s t Hst) as (z & E & Hz); [intros; apply anti_deriv|].
    assert (P := HS z ltac:(lra)). nra. }
  assert (Cst : forall s, 0 <= s <= 1 -> anti (S k) c s = 0).
  { intros s Hs. assert (A0 := anti_0 c k). assert (A1 := anti_1 c k). rewrite Z in A1.
    destruct (Req_dec s 0) as [->|N0]; [exact A0|]. destruct (Req_dec s 1) as [->|N1]; [exact A1|].
    assert (X := M 0 s ltac:(lra) ltac:(lra) ltac:(lra)). assert (Y := M s 1 ltac:(lra) ltac:(lra) ltac:(lra)). lra. }
  apply (zero_near c 0 1); [lra|]. intros y Hy. rewrite Rplus_0_l in Hy. set (s := sqrt y).
  assert (Hs : 0 < s < 1). { unfold s. split; [apply sqrt_lt_R0; lra|]. rewrite <- sqrt_1. apply sqrt_lt_1; lra. }
  assert (Ey : s ^ 2 = y) by (unfold s; rewrite <- Rsqr_pow2; apply Rsqr_sqrt; lra).
  assert (D : s ^ k * peval c (s ^ 2) = 0).
  { apply (uniqueness_limite (anti (S k) c) s); [apply anti_deriv|]. intros eps He.
    assert (Q : 0 < Rmin s (1 - s)) by (apply Rmin_pos; lra). exists (mkposreal _ Q). intros h Hh Hl. simpl in Hl.
    assert (L1 : Rabs h < s) by (eapply Rlt_le_trans; [exact Hl|apply Rmin_l]). assert (L2 : Rabs h < 1 - s) by (eapply Rlt_le_trans; [exact Hl|apply Rmin_r]).
    apply Rabs_def2 in L1. apply Rabs_def2 in L2. rewrite !Cst by lra. replace ((0 - 0) / h - 0) with 0 by (field; exact Hh). rewrite Rabs_R0. exact He. }
  rewrite Ey in D. apply Rmult_integral in D as [D|D]; [|exact D]. exfalso. revert D. apply pow_nonzero. lra.
Qed.

Section Jacobi.
Variable d : nat.
Definition ip (f g : list R) : R := mom (INR (S d)) (pmul [1; -1] (pmul f g)).
Lemma ip_eval y : peval [1; -1] y = 1 - y. Proof. simpl. ring. Qed.
Lemma ip_ext f f' g g' : (forall y, peval f y * peval g y = peval f' y * peval g' y) -> ip f g = ip f' g'.
Proof. intros H. apply mom_ext. intros y. rewrite !peval_pmul, H. reflexivity. Qed.
Lemma ip_sym f g : ip f g = ip g f.
Proof. apply ip_ext. intros y. ring. Qed.
Lemma ip_lin f k g h : ip f (padd (pscal k g) h) = k * ip f g + ip f h.
Proof.
  unfold ip. rewrite <- mom_pscal, <- mom_padd. apply mom_ext. intros y.
  repeat rewrite ?peval_padd, ?peval_pscal, ?peval_pmul. ring.
Qed.
Lemma ip_plin f n k g : ip f (plin n k g) = rsum n (fun j => k j * ip f (g j)).
Proof.
  induction n as [|n IH].
  - apply mom_zero. intros y. rewrite !peval_pmul. simpl. ring.
  - cbn [plin rsum]. rewrite <- IH. rewrite Rplus_comm, <- ip_lin. apply ip_ext. intros y. rewrite !peval_padd. ring.
Qed.
Lemma ip_null f g : (forall y, 0 < y < 1 -> 0 <= peval f y * peval g y) -> ip f g = 0 -> forall y, peval f y * peval g y = 0.
Proof.
  intros H Z. assert (X : forall y, peval (pmul [1; -1] (pmul f g)) y = 0).
  { apply (mom_null d); [|exact Z]. intros y Hy. rewrite !peval_pmul, ip_eval. apply Rmult_le_pos; [lra|apply H, Hy]. }
  intros y. rewrite <- peval_pmul. revert y. apply (no_zero_div [1; -1]).
  - intros y. rewrite <- peval_pmul. apply X.
  - intros N. specialize (N 0). simpl in N. lra.
Qed.
Lemma length_pmono m : length (pmono m) = S m.
Proof. induction m; simpl; auto. Qed.
Lemma nth_pmono m : nth m (pmono m) 0 = 1.
Proof. induction m; simpl; auto. Qed.

Definition orthogonal (m : nat) (p : list R) : Prop :=
  length p = S m /\ nth m p 0 = 1 /\ forall q, (length q <= m)%nat -> ip p q = 0.
Lemma orthogonal_nz m p : orthogonal m p -> ~ (forall y, peval p y = 0).
Proof. intros (_ & H & _) Z. rewrite (peval_zero_nth p Z) in H. lra. Qed.
Lemma orthogonal_self m p : orthogonal m p -> ip p p <> 0.
Proof.
  intros H Z. apply (orthogonal_nz m p H). intros y. assert (X := ip_null p p ltac:(intros; apply Rle_0_sqr) Z y).
  apply Rmult_integral in X as [X|X]; exact X.
Qed.
Lemma orthogonal_family m : exists fam, forall k, (k < m)%nat -> orthogonal k (fam k).
Proof.
  induction m as [|m (fam & IH)]; [exists (fun _ => []); intros; lia|].
  set (co := fun k => - (ip (pmono m) (fam k) / ip (fam k) (fam k))).
  set (p := padd (plin m co fam) (pmono m)).
  assert (Lp : (length (plin m co fam) <= m)%nat) by (apply length_plin; intros j Hj; destruct (IH j Hj) as (-> & _); lia).
  assert (Op : orthogonal m p).
  { split; [|split].
    - unfold p. rewrite length_padd, length_pmono. lia.
    - unfold p. rewrite nth_padd, nth_pmono, nth_overflow by lia. ring.
    - assert (PJ : forall j, (j < m)%nat -> ip p (fam j) = 0).
      { intros j Hj. rewrite ip_sym. rewrite (ip_ext _ (fam j) _ (padd (pscal 1 (plin m co fam)) (pmono m))).
        - rewrite ip_lin, ip_plin. rewrite (rsum_single m _ j Hj).
          + unfold co. rewrite (ip_sym (fam j) (pmono m)). field. apply (orthogonal_self j), IH, Hj.
          + intros k Hk N. destruct (lt_eq_lt_dec k j) as [[G|G]|G]; [|contradiction|].
            * destruct (IH j Hj) as (_ & _ & O). rewrite O; [ring|]. destruct (IH k Hk) as (-> & _). lia.
            * rewrite ip_sym. destruct (IH k Hk) as (_ & _ & O). rewrite O; [ring|]. destruct (IH j Hj) as (-> & _). lia.
        - intros y. unfold p. rewrite !peval_padd, peval_pscal. ring. }
      assert (Q : forall j, (j <= m)%nat -> forall q, (length q <= j)%nat -> ip p q = 0).
      { induction j as [|j IHj]; intros Hj q Lq.
        - destruct q; [|simpl in Lq; lia]. apply mom_zero. intros y. rewrite !peval_pmul. simpl. ring.
        - destruct (IH j ltac:(lia)) as (Lf & Nf & _).
          set (r := padd q (pscal (- nth j q 0) (fam j))).
          assert (Lr : (length r <= S j)%nat) by (unfold r; rewrite length_padd, length_pscal, Lf; lia).
          assert (Nr : nth j r 0 = 0) by (unfold r; rewrite nth_padd, nth_pscal, Nf; ring).
          destruct (split_last r j Lr) as (e & Le & He).
          rewrite (ip_ext p p q (padd (pscal (nth j q 0) (fam j)) e)).
          + rewrite ip_lin, PJ, (IHj ltac:(lia) e Le) by lia. ring.
          + intros y. specialize (He y). rewrite Nr in He. unfold r in He. rewrite peval_padd, peval_pscal in He. rewrite peval_padd, peval_pscal.
            f_equal. lra. }
      intros q. apply (Q m). lia. }
  exists (fun k => if Nat.eqb k m then p else fam k). intros k Hk. destruct (Nat.eqb_spec k m) as [->|N]; [exact Op|apply IH; lia].
Qed.

(** Its zeros. *)
Fixpoint plist (rs : list R) : list R := match rs with [] => [1] | r :: t => pmul_lin r (plist t) end.
Lemma peval_plist rs y : peval (plist rs) y = nprod rs y.
Proof. induction rs as [|r rs IH]; simpl; [ring|]. rewrite peval_pmul_lin, IH. reflexivity. Qed.
Lemma length_plist rs : length (plist rs) = S (length rs).
Proof. induction rs as [|r rs IH]; simpl; [reflexivity|]. rewrite length_pmul_lin, IH. reflexivity. Qed.
Lemma nprod_remove r rs : In r rs -> exists rs', length rs = S (length rs') /\ forall y, nprod rs y = (y - r) * nprod rs' y.
Proof.
  intros H. apply in_split in H as (l1 & l2 & ->). exists (l1 ++ l2)%list. split; [rewrite !app_length; simpl; lia|].
  intros y. rewrite !nprod_app. simpl. ring.
Qed.
Lemma same_sign h : (forall y, 0 < y < 1 -> peval h y <> 0) ->
  (forall y, 0 < y < 1 -> 0 < peval h y) \/ (forall y, 0 < y < 1 -> peval h y < 0).
Proof.
  intros N. assert (X : forall y z, 0 < y < 1 -> 0 < z < 1 -> y <= z -> 0 < peval h y * peval h z).
  { intros y z Hy Hz L. apply Rnot_le_lt. intros P. destruct (IVT_cor (peval h) y z (peval_cont h) L P) as (w & Hw & E). apply (N w); [lra|exact E]. }
  assert (X2 : forall y, 0 < y < 1 -> 0 < peval h y * peval h (1 / 2)).
  { intros y Hy. destruct (Rle_dec y (1 / 2)); [apply X; lra|]. rewrite Rmult_comm. apply X; lra. }
  assert (M := N (1 / 2) ltac:(lra)). destruct (Rtotal_order (peval h (1 / 2)) 0) as [G|[G|G]]; [right|contradiction|left]; intros y Hy; assert (P := X2 y Hy); nra.
Qed.
Lemma zeros m p : orthogonal m p -> forall j, (j <= m)%nat -> exists rs h, NoDup rs /\ (forall r, In r rs -> 0 < r < 1) /\ length rs = j /\
  (length h <= S m - j)%nat /\ forall y, peval p y = nprod rs y * peval h y.
Proof.
  intros HO. destruct (HO) as (Lp & _ & O). induction j as [|j IH]; intros Hj.
  - exists [], p. split; [constructor|]. split; [intros r []|]. split; [reflexivity|]. split; [lia|]. intros y. simpl. ring.
  - destruct (IH ltac:(lia)) as (rs & h & ND & HI & Lr & Lh & E).
    destruct (classic (exists r, 0 < r < 1 /\ peval h r = 0)) as [(r & Hr & Z)|N].
    + assert (Eh : forall y, peval h y = (y - r) * peval (pquo h r) y) by (intros y; rewrite (peval_pquo h r y), Z; ring).
      assert (Lq := length_pquo h r).
      exists (r :: rs), (pquo h r). split; [constructor; [|exact ND]|].
      * intros HIn. destruct (nprod_remove r rs HIn) as (rs' & Lr' & E').
        (* a double zero *)
        set (g := pmul (plist rs') (pquo h r)).
        assert (Eg : forall y, peval p y = (y - r) ^ 2 * peval g y) by (intros y; unfold g; rewrite E, E', Eh, peval_pmul, peval_plist; ring).
        assert (Lg : (length g <= m)%nat). { unfold g. assert (X := length_pmul (plist rs') (pquo h r)). rewrite length_plist in X. lia. }
        assert (Zg := ip_null p g ltac:(intros y _; rewrite Eg; replace ((y - r) ^ 2 * peval g y * peval g y) with (((y - r) * peval g y) ^ 2) by ring; apply pow2_ge_0) (O g Lg)).
        apply (orthogonal_nz m p HO). intros y. rewrite Eg.
        assert (A : (y - r) * peval g y = 0). { specialize (Zg y). rewrite Eg in Zg. replace ((y - r) ^ 2 * peval g y * peval g y) with (Rsqr ((y - r) * peval g y)) in Zg by (unfold Rsqr; ring). apply Rsqr_0_uniq, Zg. }
        replace ((y - r) ^ 2 * peval g y) with ((y - r) * ((y - r) * peval g y)) by ring. rewrite A. ring.
      * split; [intros x [<-|Hx]; [exact Hr|apply HI, Hx]|]. split; [simpl; lia|]. split; [lia|]. intros y. simpl. rewrite E, Eh. ring.
    + exfalso. assert (SG : forall y, 0 < y < 1 -> peval h y <> 0) by (intros y Hy Zy; apply N; exists y; split; assumption).
      set (g := plist rs). assert (Lg : (length g <= m)%nat) by (unfold g; rewrite length_plist; lia).
      assert (EG : forall y, peval p y * peval g y = (nprod rs y) ^ 2 * peval h y) by (intros y; unfold g; rewrite E, peval_plist; ring).
      assert (Z : forall y, peval p y * peval g y = 0).
      { destruct (same_sign h SG) as [G|G].
        - apply ip_null; [|apply O, Lg]. intros y Hy. rewrite EG. apply Rmult_le_pos; [apply pow2_ge_0|left; apply G, Hy].
        - assert (Z0 : forall y, peval p y * peval (pscal (-1) g) y = 0).
          { apply ip_null; [|apply O; rewrite length_pscal; exact Lg]. intros y Hy. rewrite peval_pscal.
            replace (peval p y * (-1 * peval g y)) with (nprod rs y ^ 2 * - peval h y) by (assert (X := EG y); lra). apply Rmult_le_pos; [apply pow2_ge_0|]. assert (X := G y Hy). lra. }
          intros y. specialize (Z0 y). rewrite peval_pscal in Z0. lra. }
      assert (Zg := no_zero_div p g Z (orthogonal_nz m p HO)).
      assert (M : monic g). { unfold g. clear. induction rs as [|r rs IH]; simpl; [split; simpl; [lia|reflexivity]|apply monic_pmul_lin, IH]. }
      destruct M as (_ & M). rewrite (peval_zero_nth g Zg) in M. lra.
Qed.

(** In increasing order. *)
Fixpoint rinsert (x : R) (l : list R) : list R :=
  match l with [] => [x] | y :: t => if Rlt_dec x y then x :: y :: t else y :: rinsert x t end.
Lemma rinsert_in x l z : In z (rinsert x l) <-> z = x \/ In z l.
Proof.
  induction l as [|y l IH]; simpl; [intuition|]. destruct (Rlt_dec x y); simpl; [intuition|]. rewrite IH. intuition.
Qed.
Lemma rinsert_sorted x l : ~ In x l -> StronglySorted Rlt l -> StronglySorted Rlt (rinsert x l).
Proof.
  induction l as [|y l IH]; intros N S; simpl; [repeat constructor|]. inversion S as [|? ? S' F]; subst.
  destruct (Rlt_dec x y) as [L|L].
  - constructor; [exact S|]. constructor; [exact L|]. eapply Forall_impl; [|exact F]. intros z Hz. simpl in Hz. lra.
  - constructor; [apply IH; [simpl in N; tauto|exact S']|]. apply Forall_forall. intros z Hz. apply rinsert_in in Hz as [->|Hz].
    + simpl in N. assert (x <> y) by (intros ->; tauto). lra.
    + rewrite Forall_forall in F. apply F, Hz.
Qed.
Lemma rinsert_nprod x l y : nprod (rinsert x l) y = (y - x) * nprod l y.
Proof. induction l as [|z l IH]; simpl; [ring|]. destruct (Rlt_dec x z); simpl; [ring|]. rewrite IH. ring. Qed.
Lemma rinsert_length x l : length (rinsert x l) = S (length l).
Proof. induction l as [|z l IH]; simpl; [reflexivity|]. destruct (Rlt_dec x z); simpl; [reflexivity|]. rewrite IH. reflexivity. Qed.
Lemma sorted_exists l : NoDup l -> exists s, StronglySorted Rlt s /\ length s = length l /\ (forall z, In z s <-> In z l) /\ forall y, nprod s y = nprod l y.
Proof.
  induction l as [|x l IH]; intros ND; [exists []; repeat split; auto; constructor|]. inversion ND; subst.
  destruct (IH H2) as (s & S1 & S2 & S3 & S4). exists (rinsert x s). split; [apply rinsert_sorted; [rewrite S3; assumption|exact S1]|].
  split; [rewrite rinsert_length, S2; reflexivity|]. split; [intros z; rewrite rinsert_in, S3; simpl; intuition|].
  intros y. rewrite rinsert_nprod, S4. reflexivity.
Qed.
Lemma sorted_nth s : StronglySorted Rlt s -> forall i j, (i < j)%nat -> (j < length s)%nat -> nth i s 0 < nth j s 0.
Proof.
  induction s as [|x s IH]; intros S i j Hij Hj; [simpl in Hj; lia|]. inversion S as [|? ? S' F]; subst.
  destruct j as [|j]; [lia|]. destruct i as [|i]; simpl.
  - rewrite Forall_forall in F. apply F, nth_In. simpl in Hj. lia.
  - apply IH; [exact S'|lia|simpl in Hj; lia].
Qed.
End Jacobi.

Lemma jacobi_exist d m : exists r, jacobi_roots d m r.
Proof.
  destruct (orthogonal_family d (S m)) as (fam & HF). assert (HO := HF m ltac:(lia)). set (p := fam m) in *.
  destruct (zeros d m p HO m (le_n m)) as (rs & h & ND & HI & Lr & Lh & E).
  destruct (sorted_exists rs ND) as (s & S1 & S2 & S3 & S4). rewrite Lr in S2.
  exists (fun i => nth i s 0). split; [split|].
  - intros i Hi. apply HI, S3, nth_In. lia.
  - intros i j Hij Hj. apply sorted_nth; [exact S1|exact Hij|lia].
  - intros c. set (q := coefs m c).
    assert (Hh : exists k, k <> 0 /\ forall y, peval h y = k).
    { destruct h as [|k [|z l]]; [| |cbn [length] in Lh; lia].
      - exfalso. apply (orthogonal_nz d m p HO). intros y. rewrite E. simpl. ring.
      - exists k. split; [|intros y; simpl; ring]. intros ->. apply (orthogonal_nz d m p HO). intros y. rewrite E. simpl. ring. }
    destruct Hh as (k & Nk & Hk). destruct HO as (_ & _ & O). assert (Z := O q ltac:(unfold q; rewrite length_coefs; lia)).
    apply (integral_ext (fun x => x ^ d * peval (pscal (/ k) (pmul [1; -1] (pmul p q))) (x ^ 2))).
    + intros x. rewrite peval_pscal, !peval_pmul, E, Hk, <- S4. rewrite factors_nprod.
      replace (map (fun i => nth i s 0) (seq 0 m)) with s.
      * unfold poly, q. rewrite peval_coefs. replace (peval [1; -1] (x ^ 2)) with (1 - x ^ 2) by (simpl; ring). field. exact Nk.
      * rewrite <- S2. clear. induction s as [|z s IH]; [reflexivity|]. cbn [length seq map nth]. rewrite <- seq_shift, map_map. f_equal. exact IH.
    + replace 0 with (mom (INR (S d)) (pscal (/ k) (pmul [1; -1] (pmul p q)))) at 2; [apply integral_mom|].
      rewrite mom_pscal. fold (ip d p q). rewrite Z. ring.
Qed.
