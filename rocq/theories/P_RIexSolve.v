(** Proofs about the solver of the ion-exchange web application. *)
From Coq Require Import Reals List Arith Bool Lra Lia.
From Verif Require Import Lib_Py Lib_Sum Lib_Traj M_Colloc M_IxEq M_IxColumn M_RIexSolve S_Colloc S_IxEq S_IxColumn P_Colloc P_IxColumn.
Import ListNotations.
Open Scope R_scope.

(** ** Collocation *)
Lemma fold_filter {A B} (f : A -> B -> A) (g : B -> bool) l : forall a,
  fold_left (fun p j => if g j then p else f p j) l a = fold_left f (filter (fun j => negb (g j)) l) a.
Proof. induction l as [|b l IH]; intros a; cbn; [reflexivity|]. destruct (g b); cbn; apply IH. Qed.
Lemma fold_map {A B C} (f : A -> B -> A) (h : C -> B) l : forall a,
  fold_left f (map h l) a = fold_left (fun p j => f p (h j)) l a.
Proof. induction l as [|b l IH]; intros a; cbn; [reflexivity|apply IH]. Qed.
Lemma filter_map {A B} (g : B -> bool) (h : A -> B) l : filter g (map h l) = map h (filter (fun a => g (h a)) l).
Proof. induction l as [|b l IH]; cbn; [reflexivity|]. destruct (g (h b)); cbn; rewrite IH; reflexivity. Qed.
Lemma fold_ext {A B} (f g : A -> B -> A) l : (forall a b, f a b = g a b) -> forall a, fold_left f l a = fold_left g l a.
Proof. intros E. induction l as [|b l IH]; intros a; cbn; [reflexivity|]. rewrite E. apply IH. Qed.

Lemma r_px_eq n roots i : r_px n roots i = calc_px_column (roots i) n roots.
Proof.
  unfold r_px, calc_px_column. rewrite filter_map, map_map, fold_map. rewrite fold_filter.
  assert (E : filter (fun a => negb (reqb (roots a) (roots i))) (seq 0 n) = filter (fun j => negb (reqb (roots j - roots i) 0)) (seq 0 n)).
  { apply filter_ext. intros a. f_equal. destruct (reqb (roots a - roots i) 0) eqn:Q.
    - apply reqb_true in Q. apply reqb_true. lra.
    - apply reqb_false in Q. apply reqb_false. lra. }
  rewrite E. apply fold_ext. intros [[p1 p2] p3] b. reflexivity.
Qed.
Lemma r_p1_eq n roots i : r_p1 n roots i = px1 n roots i.
Proof. unfold r_p1. rewrite r_px_eq. reflexivity. Qed.
Lemma r_p2_eq n roots i : r_p2 n roots i = px2 n roots i.
Proof. unfold r_p2. rewrite r_px_eq. reflexivity. Qed.
Lemma r_p3_eq n roots i : r_p3 n roots i = px3 n roots i.
Proof. unfold r_p3. rewrite r_px_eq. reflexivity. Qed.
Lemma px1_nz n roots i : px1 n roots i <> 0.
Proof. rewrite px1_g. apply g_own. Qed.
Lemma r_A_eq n roots i j : r_A n roots i j = Amat n roots i j.
Proof. unfold r_A, Amat. rewrite !r_p1_eq, r_p2_eq. reflexivity. Qed.
Lemma r_B_eq n roots i j : r_B n roots i j = Bmat n roots i j.
Proof.
  unfold r_B, Bmat. rewrite !r_A_eq, r_p1_eq, r_p3_eq. destruct (Nat.eqb_spec i j) as [->|N]; [reflexivity|].
  unfold Amat. rewrite (proj2 (Nat.eqb_neq i j) N), Nat.eqb_refl.
  unfold Rdiv. pose proof (px1_nz n roots i) as Hi. set (d := / (roots i - roots j)). set (q := / px1 n roots j).
  assert (E : px1 n roots i * / px1 n roots i = 1) by (apply Rinv_r; exact Hi).
  transitivity (d * q * px2 n roots i * (px1 n roots i * / px1 n roots i) - 2 * d * d * q * px1 n roots i); [field; exact Hi|].
  rewrite E. ring.
Qed.
Lemma r_B_sym_eq n roots i j : r_B_sym n roots i j = Bx n roots 3 i j.
Proof. unfold r_B_sym, Bx. rewrite r_B_eq, r_A_eq. ring. Qed.
Lemma r_W_eq n roots i : r_W n roots i = Wx n roots 3 i.
Proof.
  unfold r_W, Wx, wp_sum, r_w. rewrite r_p1_eq.
  rewrite (rsum_ext n (fun i0 => 1 / (roots i0 * r_p1 n roots i0 ^ 2)) (fun i0 => 1 / (roots i0 * px1 n roots i0 ^ 2))) by (intros k _; rewrite r_p1_eq; reflexivity).
  unfold Rdiv. replace (2 + 1) with 3 by ring. ring.
Qed.
Lemma dec25 : dec 25 1 = dec 15 1 + (3 - 1) / 2.
Proof. unfold dec. lra. Qed.
Lemma dec15 : dec 15 1 = dec 15 1 + (3 - 1) / 2 - 1.
Proof. unfold dec. lra. Qed.

Lemma r_grid_r_eq jac n i : r_grid_r jac n i = rootsu jac n 3 i.
Proof.
  unfold r_grid_r, rootsu. destruct (Nat.eqb i (n - 1)); [reflexivity|]. rewrite dec25 at 1.
  f_equal. exact dec15.
Qed.

(** ** The same state in the package's layout: the liquid first *)
Definition as_py (c : column) (x : r_state) : state := fun r i z =>
  match r with O => x (nr c) i z | S k => x k i z end.

Lemma recycle_ion v n i z : (1 <= i)%nat -> (i < n)%nat -> recycle (fun k => v (S k)) (n - 1) (elem2 (n - 1) (i - 1) z) = v i.
Proof.
  intros H1 H2. unfold recycle, elem2. rewrite (Nat.mul_comm (n - 1)), Nat.mod_add by lia. rewrite Nat.mod_small by lia. f_equal. lia.
Qed.
Lemma recycle_point v n d r i z : (1 <= i)%nat -> (i < n)%nat ->
  recycle v (n - 1) (elem3 d (n - 1) r (i - 1) z) = v ((r + d * (i - 1)) mod (n - 1))%nat.
Proof.
  intros H1 H2. unfold recycle, elem3. replace (r + d * (i - 1 + (n - 1) * z))%nat with (r + d * (i - 1) + d * z * (n - 1))%nat by ring.
  rewrite Nat.mod_add by lia. reflexivity.
Qed.

Section Same.
Variables (c : column) (op : operators) (Cin : nat -> R) (x : r_state).
Let u := as_py c x.

Lemma r_CT_eq z : (1 <= z)%nat -> r_CT c x z = CTz c Cin u z.
Proof.
  intros Hz. unfold r_CT, CTz. apply rsum_ext. intros i _. unfold liq. destruct (Nat.eqb_spec z 0); [lia|]. reflexivity.
Qed.
Lemma r_C_eq i z : r_C c Cin x i z = liq Cin u i z.
Proof. reflexivity. Qed.

Lemma masked_scal n mask k f : masked_sum n mask (fun j => k * f j) = k * masked_sum n mask f.
Proof. unfold masked_sum. rewrite <- rsum_scal. apply rsum_ext. intros i _. destruct (mask i); ring. Qed.
Lemma masked_ext n mask f g : (forall i, f i = g i) -> masked_sum n mask f = masked_sum n mask g.
Proof. intros E. unfold masked_sum. apply rsum_ext. intros i _. rewrite E. reflexivity. Qed.

Lemma r_Ceq_eq q z i : (1 <= z)%nat -> (1 <= i)%nat -> (i < NION c)%nat ->
  r_Ceq c x q z i = calc_Ceq (NION c) (Kxc c) (val c) q (CTz c Cin u z) i.
Proof.
  intros Hz Hi Hn. unfold r_Ceq, calc_Ceq. rewrite (r_CT_eq z Hz). set (CT := CTz c Cin u z).
  assert (E0 : Nat.eqb i 0 = false) by (apply Nat.eqb_neq; lia). rewrite E0.
  destruct (has_divalent (NION c) (val c)).
  - unfold Ceq_dv, mass_action, Cc_column. rewrite E0, recycle_ion by lia.
    assert (EB : 1 + 1 / q 0%nat * masked_sum (NION c) (mv_idx (val c)) (fun j => q j / Kxc c j) = eq_bb (NION c) (Kxc c) (val c) q).
    { unfold eq_bb, Rdiv. ring. }
    assert (EA : masked_sum (NION c) (dv_idx (val c)) (fun j => 1 / q 0%nat ^ 2 * q j / Kxc c j) = eq_aa (NION c) (Kxc c) (val c) q).
    { unfold eq_aa. rewrite (masked_ext _ _ _ (fun j => / q 0%nat ^ 2 * (q j / Kxc c j))) by (intros j; unfold Rdiv; ring).
      rewrite masked_scal. unfold Rdiv. ring. }
    rewrite EB, EA. unfold Rdiv. rewrite <- Rmult_assoc. reflexivity.
  - unfold Ceq_mv, alpha.
    rewrite (rsum_ext (NION c) (fun j => Kxc c i / Kxc c j * q j) (fun j => Kxc c i * (q j / Kxc c j))) by (intros; unfold Rdiv; ring).
    rewrite rsum_scal. unfold Rdiv. rewrite !Rinv_mult, Rinv_inv. ring.
Qed.

Lemma r_J_eq q i z : (1 <= z)%nat -> (i < NION c)%nat -> r_J c Cin x q i z = flux c Cin u q i z.
Proof.
  intros Hz Hi. unfold r_J, flux, implicit_presat. destruct (Nat.eqb_spec z 0); [lia|].
  destruct (Nat.eqb_spec i 0) as [->|N].
  - f_equal. apply rsum_ext. intros k Hk. rewrite recycle_ion, r_Ceq_eq, r_C_eq by lia. reflexivity.
  - rewrite recycle_ion, r_Ceq_eq, r_C_eq by lia. reflexivity.
Qed.

Lemma r_assemble_eq J J' dq dq' r i z : (1 <= nr c)%nat -> (1 <= z)%nat -> (r <= nr c)%nat ->
  J i z = J' i z -> (forall m, (m < nr c - 1)%nat -> dq m i z = dq' m i z) ->
  r_assemble c op Cin x J dq r i z = assemble c op 1 Cin u J' dq' (if Nat.eqb r (nr c) then 0%nat else S r) i z.
Proof.
  intros Hr Hz Hle EJ Ed. unfold r_assemble, assemble. destruct (Nat.eqb_spec z 0); [lia|].
  destruct (Nat.eqb_spec r (nr c)) as [E|N].
  - unfold dC. rewrite EJ. destruct (Nat.eqb_spec z 0); [lia|]. unfold Rdiv. 
    rewrite (rsum_ext (nz c) (fun j => Az op z j * r_C c Cin x i j) (fun j => Az op z j * liq Cin u i j)) by (intros; rewrite r_C_eq; reflexivity).
    ring.
  - destruct (Nat.eqb_spec r (nr c - 1)) as [E|N2].
    + rewrite EJ. f_equal. f_equal. apply rsum_ext. intros m Hm. rewrite Ed by exact Hm. reflexivity.
    + apply Ed. lia.
Qed.
Lemma r_apply_eq f r i z : (1 <= z)%nat -> r_apply c op f r i z = rsum (nr c) (fun m => Br op r m * f m i z).
Proof. intros Hz. unfold r_apply. destruct (Nat.eqb_spec z 0); [lia|reflexivity]. Qed.

(** With one surface and one pore diffusivity for all the ions but the presaturant *)
Lemma r_same psdm D P r i z : (2 <= NION c)%nat -> (1 <= nr c)%nat ->
  (forall k, (1 <= k < NION c)%nat -> Ds c k = D) -> (psdm = true -> forall k, (1 <= k < NION c)%nat -> Dp c k = P) ->
  (r <= nr c)%nat -> (i < NION c)%nat -> (1 <= z)%nat ->
  (if psdm then r_psdm c op Cin x else r_hsdm c op Cin x) r i z
  = rhs psdm c op 1 Cin u (if Nat.eqb r (nr c) then 0%nat else S r) i z.
Proof.
  intros HN Hr HD HP Hle Hi Hz.
  assert (HM : forall k, (S (k mod (NION c - 1)) < NION c)%nat) by (intros k; pose proof (Nat.mod_upper_bound k (NION c - 1)); lia).
  destruct psdm; unfold rhs.
  - unfold r_psdm, diffun_psdm. apply r_assemble_eq; [exact Hr|exact Hz|exact Hle| |].
    + rewrite r_J_eq by lia. unfold psdm_J. unfold r_q, u, as_py. destruct (nr c) as [|n] eqn:En; [lia|]. cbn [Nat.sub]. rewrite Nat.sub_0_r. reflexivity.
    + intros m Hm. unfold r_psdm_dY, r_balance, psdm_dY, implicit_presat.
      assert (EQ : forall j, (1 <= j)%nat -> (j < NION c)%nat ->
        1 * (recycle (fun k => EPOR c * (Dp c (S k) - Ds c (S k))) (NION c - 1) (elem3 (nr c) (NION c - 1) m (j - 1) z) * r_apply c op (r_Cpore c x) m j z
         + recycle (fun k => Ds c (S k)) (NION c - 1) (elem3 (nr c) (NION c - 1) m (j - 1) z) * r_apply c op x m j z) / rb c ^ 2
        = 1 * (EPOR c * (Dp c j - Ds c j) * rsum (nr c) (fun k => Br op m k * psdm_Cpore c Cin u k j z)
               + Ds c j * rsum (nr c) (fun k => Br op m k * u (S k) j z)) / rb c ^ 2).
      { intros j H1 H2. rewrite !recycle_point, !r_apply_eq by lia.
        rewrite (HD j), (HP eq_refl j), !HD, !(HP eq_refl) by (try split; try apply HM; lia).
        rewrite (rsum_ext (nr c) (fun k => Br op m k * r_Cpore c x k j z) (fun k => Br op m k * psdm_Cpore c Cin u k j z)); [reflexivity|].
        intros k Hk. f_equal. unfold r_Cpore, psdm_Cpore. rewrite r_Ceq_eq by lia. reflexivity. }
      destruct (Nat.eqb_spec i 0) as [->|N].
      * f_equal. apply rsum_ext. intros k Hk. apply EQ; lia.
      * apply EQ; lia.
  - unfold r_hsdm, diffun_hsdm. apply r_assemble_eq; [exact Hr|exact Hz|exact Hle| |].
    + rewrite r_J_eq by lia. unfold hsdm_J. unfold u, as_py. destruct (nr c) as [|n] eqn:En; [lia|]. cbn [Nat.sub]. rewrite Nat.sub_0_r. reflexivity.
    + intros m Hm. unfold r_hsdm_dq, r_balance, hsdm_dq, implicit_presat.
      assert (EQ : forall j, (1 <= j)%nat -> (j < NION c)%nat ->
        recycle (fun k => Ds c (S k) * 1 / rb c ^ 2) (NION c - 1) (elem3 (nr c) (NION c - 1) m (j - 1) z) * r_apply c op x m j z
        = Ds c j * 1 / rb c ^ 2 * rsum (nr c) (fun k => Br op m k * u (S k) j z)).
      { intros j H1 H2. rewrite recycle_point, r_apply_eq by lia. rewrite (HD j), HD by (try split; try apply HM; lia). reflexivity. }
      destruct (Nat.eqb_spec i 0) as [->|N].
      * f_equal. apply rsum_ext. intros k Hk. apply EQ; lia.
      * apply EQ; lia.
Qed.

(** Resin rates sum to zero, whatever the diffusivities. *)
Lemma r_J_sum q z : (1 <= NION c)%nat -> rsum (NION c) (fun i => r_J c Cin x q i z) = 0.
Proof.
  intros HN. unfold r_J. destruct (Nat.eqb_spec z 0); [apply rsum_zero; reflexivity|].
  destruct (NION c) as [|n0] eqn:En; [lia|]. rewrite rsum_S_first. cbn [Nat.eqb Nat.sub]. rewrite Nat.sub_0_r. ring.
Qed.
Lemma r_balance_sum f r z : (1 <= NION c)%nat -> rsum (NION c) (fun i => r_balance c f r i z) = 0.
Proof.
  intros HN. unfold r_balance. destruct (NION c) as [|n0] eqn:En; [lia|]. rewrite rsum_S_first. cbn [Nat.eqb Nat.sub]. rewrite Nat.sub_0_r. ring.
Qed.
Lemma r_neutral q f r z : (1 <= NION c)%nat -> (r < nr c)%nat ->
  rsum (NION c) (fun i => r_assemble c op Cin x (fun i z => r_J c Cin x (q z) i z) (r_balance c f) r i z) = 0.
Proof.
  intros HN Hr. unfold r_assemble. destruct (Nat.eqb_spec z 0); [apply rsum_zero; reflexivity|].
  destruct (Nat.eqb_spec r (nr c)); [lia|]. destruct (Nat.eqb_spec r (nr c - 1)).
  - rewrite rsum_div, rsum_minus, rsum_scal, r_J_sum by exact HN. rewrite rsum_swap.
    rewrite (rsum_zero (nr c - 1)); [unfold Rdiv; ring|]. intros m _. rewrite rsum_scal, r_balance_sum by exact HN. ring.
  - apply r_balance_sum. exact HN.
Qed.
End Same.

(** ** The operators are the package's *)
Lemma r_operators_eq jac nr nz : exists op,
  build_operators (fun m => jac m 1 1) jac nr nz false = Ok op /\
  (forall i j, Az (r_operators jac nr nz) i j = Az op i j) /\
  (forall i j, Br (r_operators jac nr nz) i j = Br op i j) /\
  (forall i, Wr (r_operators jac nr nz) i = Wr op i).
Proof.
  assert (EG : r_grid_r jac nr = rootsu jac nr 3).
  { apply FunctionalExtensionality.functional_extensionality. intros i. apply r_grid_r_eq. }
  eexists. split; [reflexivity|]. cbn. rewrite EG. repeat split; intros.
  - apply r_A_eq.
  - apply r_B_sym_eq.
  - apply r_W_eq.
Qed.

(** ** Balances, whatever the diffusivities *)
Lemma r_bead_gain c op Cin x J f i z : (1 <= nr c)%nat -> (1 <= z)%nat -> Wr op (nr c - 1) <> 0 ->
  rsum (nr c) (fun m => Wr op m * r_assemble c op Cin x J f m i z) = - 1 / rb c * J i z.
Proof.
  intros Hr Hz HW. destruct (nr c) as [|n] eqn:En; [lia|]. cbn [rsum].
  rewrite (rsum_ext n _ (fun m => Wr op m * f m i z)).
  - unfold r_assemble. rewrite En. cbn [Nat.sub] in *. rewrite Nat.sub_0_r in *.
    destruct (Nat.eqb_spec z 0); [lia|]. destruct (Nat.eqb_spec n (S n)); [lia|].
    rewrite Nat.eqb_refl. set (s := rsum n (fun m => Wr op m * f m i z)). unfold Rdiv.
    rewrite <- (Rmult_comm (/ Wr op n)), <- Rmult_assoc, Rinv_r by exact HW. ring.
  - intros m Hm. unfold r_assemble. rewrite En. destruct (Nat.eqb_spec z 0); [lia|].
    destruct (Nat.eqb_spec m (S n)); [lia|]. destruct (Nat.eqb_spec m (S n - 1)); [lia|]. reflexivity.
Qed.
Lemma r_slice c op Cin x J f i z : (1 <= nr c)%nat -> (1 <= z)%nat -> Wr op (nr c - 1) <> 0 -> EBED c <> 0 -> rb c <> 0 ->
  EBED c * r_assemble c op Cin x J f (nr c) i z
  + (1 - EBED c) * (3 * rsum (nr c) (fun m => Wr op m * r_assemble c op Cin x J f m i z))
  = - (vel c / Lbed c) * rsum (nz c) (fun j => Az op z j * r_C c Cin x i j).
Proof.
  intros Hr Hz HW HE Hb. rewrite r_bead_gain by assumption. unfold r_assemble at 1.
  destruct (Nat.eqb_spec z 0); [lia|]. rewrite Nat.eqb_refl.
  set (s := rsum (nz c) _). unfold Rdiv. set (a := / Lbed c). field. split; assumption.
Qed.
