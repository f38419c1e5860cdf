(** The right-hand side of the GAC column is locally Lipschitz for isotherms with 1/n <= 1. *)
From Coq Require Import Reals List Arith Bool Lra Lia ZArith.
From Verif Require Import Lib_Py Lib_Sum Lib_Pow Lib_Traj Lib_Tame Lib_PowLip M_Colloc M_GacColumn S_GacColumn P_GacFun P_GacColumn S_Unique Props_GacColumn.
Import ListNotations.
Open Scope R_scope.

(** ** The time tables are continuous *)
Lemma at_time_segment g A k i s : 0 < tconv g -> INR k <= s <= INR k + 1 ->
  at_time g A (s * tconv g) i = A k i + (s - INR k) * (A (S k) i - A k i).
Proof.
  intros H Hs. destruct (Req_dec s (INR k + 1)) as [->|N].
  - rewrite <- S_INR, at_time_minute by lra. rewrite S_INR. ring.
  - replace s with (INR k + (s - INR k)) at 1 by ring. rewrite at_time_between by lra. ring.
Qed.
Lemma floor_nat m : 0 <= m -> exists k, INR k <= m < INR k + 1.
Proof.
  intros H. destruct (base_Int_part m) as (A & B). exists (Z.to_nat (Int_part m)).
  assert (0 <= Int_part m)%Z.
  { assert (IZR (-1) < IZR (Int_part m)) by lra. apply lt_IZR in H0. lia. }
  rewrite INR_IZR_INZ, Z2Nat.id by assumption. lra.
Qed.
Lemma at_time_continuous g A i Tf : 0 < tconv g -> continuous_between 0 Tf (fun t => at_time g A t i).
Proof.
  intros H t Ht e He.
  assert (IT : 0 < / tconv g) by (apply Rinv_0_lt_compat, H).
  set (m := t / tconv g). assert (Hm : 0 <= m) by (unfold m, Rdiv; nra).
  destruct (floor_nat m Hm) as (k & Hk).
  assert (ET : forall s, at_time g A s i = at_time g A (s / tconv g * tconv g) i).
  { intros s. f_equal. field. lra. }
  set (L := Rabs (A (S k) i - A k i) + Rabs (A k i - A (pred k) i) + 1).
  assert (P1 := Rabs_pos (A (S k) i - A k i)). assert (P2 := Rabs_pos (A k i - A (pred k) i)).
  assert (HL : 1 <= L) by (unfold L; lra).
  (* near m the interpolant is Lipschitz with constant L *)
  set (r := if Req_EM_T m (INR k) then 1 else Rmin (m - INR k) (INR k + 1 - m)).
  assert (Hr : 0 < r).
  { unfold r. destruct (Req_EM_T m (INR k)); [lra|]. apply Rmin_pos; lra. }
  assert (LIP : forall s, 0 <= s -> Rabs (s - m) < r ->
    Rabs (at_time g A (s * tconv g) i - at_time g A (m * tconv g) i) <= L * Rabs (s - m)).
  { intros s Hs Hd. rewrite (at_time_segment g A k i m H) by lra.
    assert (RIGHT : INR k <= s <= INR k + 1 -> Rabs (at_time g A (s * tconv g) i -
      (A k i + (m - INR k) * (A (S k) i - A k i))) <= L * Rabs (s - m)).
    { intros Q. rewrite (at_time_segment g A k i s H Q).
      replace (A k i + (s - INR k) * (A (S k) i - A k i) - (A k i + (m - INR k) * (A (S k) i - A k i)))
        with ((A (S k) i - A k i) * (s - m)) by ring.
      rewrite Rabs_mult. apply Rmult_le_compat_r; [apply Rabs_pos|unfold L; lra]. }
    unfold r in Hd. destruct (Req_EM_T m (INR k)) as [Em|Em].
    - destruct (Rle_lt_dec m s) as [Q|Q].
      + apply RIGHT. rewrite Rabs_right in Hd by lra. lra.
      + rewrite Rabs_left in Hd by lra.
        destruct k as [|k]; [simpl in Em; lra|]. rewrite S_INR in *.
        rewrite (at_time_segment g A k i s H) by lra.
        replace (A k i + (s - INR k) * (A (S k) i - A k i) -
          (A (S k) i + (m - (INR k + 1)) * (A (S (S k)) i - A (S k) i)))
          with ((A (S k) i - A k i) * (s - m)) by (rewrite Em; ring).
        rewrite Rabs_mult. apply Rmult_le_compat_r; [apply Rabs_pos|]. unfold L. simpl pred. simpl pred in P2. lra.
    - assert (M1 := Rmin_l (m - INR k) (INR k + 1 - m)). assert (M2 := Rmin_r (m - INR k) (INR k + 1 - m)).
      apply Rabs_def2 in Hd. apply RIGHT. lra. }
  exists (Rmin r (e / L) * tconv g).
  assert (PE : 0 < e / L) by (apply Rdiv_lt_0_compat; lra).
  assert (PR : 0 < Rmin r (e / L)) by (apply Rmin_pos; assumption).
  split; [apply Rmult_lt_0_compat; assumption|]. intros s Hs Hd.
  rewrite (ET s), (ET t). fold m.
  assert (Dm : Rabs (s / tconv g - m) < Rmin r (e / L)).
  { unfold m. replace (s / tconv g - t / tconv g) with ((s - t) * / tconv g) by (unfold Rdiv; ring).
    rewrite Rabs_mult, (Rabs_right (/ tconv g)) by lra.
    apply Rmult_lt_reg_r with (tconv g); [exact H|]. rewrite Rmult_assoc, Rinv_l by lra. lra. }
  assert (B1 := Rmin_l r (e / L)). assert (B2 := Rmin_r r (e / L)).
  eapply Rle_lt_trans; [apply LIP; [unfold Rdiv; nra|lra]|].
  apply Rlt_le_trans with (L * (e / L)); [apply Rmult_lt_compat_l; lra|]. right. field. lra.
Qed.

(** ** The pore liquid *)
Section Gac.
Variable g : gac_in.
Hypothesis HP : physical g.
Hypothesis Hxn : forall i, (i < x_n g)%nat -> x_xn g i <= 1.

Lemma xni_ge1 i : (i < x_n g)%nat -> 1 <= xni g i.
Proof.
  intros Hi. unfold xni. assert (A := ph_xn g HP i Hi). specialize (Hxn i Hi).
  apply Rmult_le_reg_r with (x_xn g i); [exact A|]. unfold Rdiv. rewrite Rmult_assoc, Rinv_l by lra. lra.
Qed.
Lemma ym_pos i : (i < x_n g)%nat -> 0 < ym g i.
Proof.
  intros Hi. unfold ym. apply Rdiv_lt_0_compat; [apply (qe_pos g HP), Hi|].
  apply rsum_pos; [apply HP|]. intros j Hj. apply (qe_pos g HP), Hj.
Qed.
Definition loads (r z : nat) (y : nat -> nat -> nat -> R) (j : nat) : R := Rmax 0 (ym g j * y j r z).
Lemma z_raw_max y i r z : z_raw g y i r z = loads r z y i.
Proof.
  unfold z_raw, loads, Rmax. cbv zeta. destruct (rltb (ym g i * y i r z) 0) eqn:E.
  - apply rltb_true in E. destruct (Rle_dec 0 (ym g i * y i r z)); lra.
  - apply rltb_false in E. destruct (Rle_dec 0 (ym g i * y i r z)); lra.
Qed.
Lemma loads_nonneg r z y j : 0 <= loads r z y j.
Proof. apply Rmax_l. Qed.

Lemma cpore_share nc ff y i r z : (i < x_n g)%nat -> 0 <= ff i ->
  cpore g nc ff y i r z = ff i * share (x_n g) (xni g) (x_xn g i / ym g i) (xni g i) i (loads r z y).
Proof.
  intros Hi Hf.
  assert (Y0 := ym_pos i Hi). assert (X0 := ph_xn g HP i Hi). assert (X1 := xni_ge1 i Hi).
  assert (C0 : 0 < x_xn g i / ym g i) by (apply Rdiv_lt_0_compat; assumption).
  assert (EY : yt0 g y r z = wtotal (x_n g) (xni g) (loads r z y)).
  { unfold yt0, wtotal. apply rsum_ext. intros j _. rewrite z_raw_max. reflexivity. }
  assert (ES : rsum (x_n g) (fun j => z_raw g y j r z) = total (x_n g) (loads r z y)).
  { unfold total. apply rsum_ext. intros j _. apply z_raw_max. }
  assert (LN : forall j, (j < x_n g)%nat -> 0 <= loads r z y j) by (intros; apply loads_nonneg).
  assert (TN : 0 <= total (x_n g) (loads r z y)) by (apply rsum_nonneg; exact LN).
  assert (W1 := wtotal_ge (x_n g) (xni g) xni_ge1 _ LN). assert (W2 := wtotal_le (x_n g) (xni g) xni_ge1 _ LN).
  assert (RAW : cpore_raw g ff y i r z = ff i * share (x_n g) (xni g) (x_xn g i / ym g i) (xni g i) i (loads r z y)).
  { unfold cpore_raw, q0, z2, qte2, share. cbv zeta. rewrite EY, ES, z_raw_max.
    set (W := wtotal (x_n g) (xni g) (loads r z y)) in *. set (T := total (x_n g) (loads r z y)) in *.
    assert (Q0 : 0 <= xni g i * (x_xn g i / ym g i * W)).
    { apply Rmult_le_pos; [lra|]. apply Rmult_le_pos; lra. }
    rewrite (proj2 (rltb_false (xni g i * (x_xn g i / ym g i * W)) (-20))) by lra.
    destruct (Rle_dec W 0) as [Z|Z].
    - rewrite (proj2 (rleb_true W 0)) by exact Z. ring.
    - rewrite (proj2 (rleb_false W 0)) by lra.
      assert (TP : 0 < T) by (destruct (Rle_lt_or_eq_dec 0 T TN) as [Q|Q]; [exact Q|rewrite <- Q in W2; lra]).
      assert (EQ : reqb T 0 = false) by (unfold reqb; destruct (Req_EM_T T 0); [lra|reflexivity]).
      rewrite EQ.
      rewrite (proj2 (rleb_false T 0)) by lra. reflexivity. }
  unfold cpore. cbv zeta. rewrite RAW.
  destruct (Nat.eqb r (nc - 1)); [|reflexivity].
  rewrite (proj2 (rltb_false _ 0)); [reflexivity|].
  apply Rmult_le_pos; [exact Hf|]. unfold share.
  destruct (Rle_dec _ 0); [lra|]. apply Rmult_le_pos.
  - apply Rmult_le_pos; [apply loads_nonneg|]. left. apply Rinv_0_lt_compat.
    destruct (Rle_lt_or_eq_dec 0 _ TN) as [Q|Q]; [exact Q|rewrite <- Q in W2; lra].
  - apply rpow_nonneg. apply Rmult_le_pos; lra.
Qed.

(** Entries of the state. *)
Definition g_entries (nr mc : nat) : list (nat * nat * nat) :=
  list_prod (list_prod (seq 0 (x_n g)) (seq 0 (nr + 1))) (seq 0 mc).
Definition g_at (p : nat * nat * nat) (u : nat -> nat -> nat -> R) : R := u (fst (fst p)) (snd (fst p)) (snd p).
Lemma in_g_entries nr mc i r z : (i < x_n g)%nat -> (r <= nr)%nat -> (z < mc)%nat -> In (i, r, z) (g_entries nr mc).
Proof. intros. unfold g_entries. repeat apply in_prod; apply in_seq; lia. Qed.
Lemma g_entries_in nr mc p : In p (g_entries nr mc) ->
  (fst (fst p) < x_n g)%nat /\ (snd (fst p) <= nr)%nat /\ (snd p < mc)%nat.
Proof.
  intros H. destruct p as ((r, i), z).
  apply in_prod_iff in H as (H & Hz). apply in_prod_iff in H as (Hr & Hi).
  apply in_seq in Hr. apply in_seq in Hi. apply in_seq in Hz. simpl. lia.
Qed.

Lemma tame0_lip {X I} (idx : list I) (co : I -> X -> R) D (H : X -> R) t x :
  (exists d K, 0 < d /\ 0 <= K /\ forall y z, dist idx co y x < d -> dist idx co z x < d ->
     Rabs (H y - H z) <= K * dist idx co y z) -> tame0 idx co D (fun _ y => H y) t x.
Proof.
  intros (d & K & Hd & HK & L).
  assert (D0 : dist idx co x x = 0).
  { unfold dist. clear. induction idx as [|i l IH]; simpl; [reflexivity|]. rewrite IH, Rminus_eq_0, Rabs_R0. ring. }
  split.
  - intros e He. exists (Rmin d (e / (K + 1))).
    assert (P : 0 < e / (K + 1)) by (apply Rdiv_lt_0_compat; lra).
    split; [apply Rmin_pos; assumption|]. intros s y _ _ Hy.
    assert (A := Rmin_l d (e / (K + 1))). assert (B := Rmin_r d (e / (K + 1))).
    assert (N := dist_nonneg idx co y x).
    eapply Rle_lt_trans; [apply L; lra|].
    apply Rle_lt_trans with ((K + 1) * dist idx co y x); [apply Rmult_le_compat_r; lra|].
    apply Rlt_le_trans with ((K + 1) * (e / (K + 1))); [apply Rmult_lt_compat_l; lra|]. right. field. lra.
  - exists d, K. split; [exact Hd|]. split; [exact HK|]. intros s y z _ _ Hy Hz. apply L; assumption.
Qed.
Lemma tame_lip {X I} (idx : list I) (co : I -> X -> R) D (H : X -> R) t x :
  (exists d K, 0 < d /\ 0 <= K /\ forall y z, dist idx co y x < d -> dist idx co z x < d ->
     Rabs (H y - H z) <= K * dist idx co y z) -> tame idx co D (fun _ y => H y) t x.
Proof.
  intros L. split; [apply tame0_lip, L|]. destruct L as (d & K & Hd & HK & L). exists d. split; [exact Hd|].
  intros s y _ _ Hy. apply tame0_lip. exists (d - dist idx co y x), K. split; [lra|]. split; [exact HK|].
  intros v w Hv Hw. assert (T1 := dist_triangle idx co v y x). assert (T2 := dist_triangle idx co w y x). apply L; lra.
Qed.

Section Rhs.
Variables (m : gac_matrices) (nc : nat) (rows : nat -> list (R * R)) (foul : nat -> R -> R) (Tf t : R)
  (u : nat -> nat -> nat -> R).
Hypothesis Hnc : (1 <= nc)%nat.
Hypothesis Ht : 0 <= t <= Tf.
Notation E := (g_entries nc (m_c m)).
Notation D := (fun s => 0 <= s <= Tf).
Notation Tm F := (tame E g_at D F t u).

Lemma tame_g i r z : (i < x_n g)%nat -> (r <= nc)%nat -> (z < m_c m)%nat -> Tm (fun _ v => v i r z).
Proof. intros. apply (tame_coord E g_at D (i, r, z)). apply in_g_entries; assumption. Qed.
Lemma tame_table A i : Tm (fun s _ => at_time g A s i).
Proof. apply tame_time. intros u0 Hu. apply (at_time_continuous g A i Tf (tconv_pos g HP) u0). destruct Hu as [-> | Hu]; assumption. Qed.
Lemma tame_share i r z : (i < x_n g)%nat -> (r < nc)%nat -> (z < m_c m)%nat ->
  Tm (fun _ v => share (x_n g) (xni g) (x_xn g i / ym g i) (xni g i) i (loads r z v)).
Proof.
  intros Hi Hr Hz.
  apply (tame_lip E g_at D (fun v => share (x_n g) (xni g) (x_xn g i / ym g i) (xni g i) i (loads r z v))).
  assert (Y0 : forall j, (j < x_n g)%nat -> 0 < ym g j) by (intros; apply ym_pos; assumption).
  assert (X0 := ph_xn g HP i Hi). assert (X1 := xni_ge1).
  assert (C0 : 0 < x_xn g i / ym g i) by (apply Rdiv_lt_0_compat; [exact X0|apply Y0, Hi]).
  set (c := x_xn g i / ym g i) in *. set (p := xni g i).
  set (B := wtotal (x_n g) (xni g) (fun j => ym g j * (Rabs (u j r z) + 1))).
  assert (HB : 0 <= B).
  { apply rsum_nonneg. intros j Hj. specialize (X1 j Hj). specialize (Y0 j Hj). assert (Q := Rabs_pos (u j r z)).
    apply Rmult_le_pos; [lra|]. apply Rmult_le_pos; lra. }
  set (M := c * B + 1). assert (HM : 0 < M) by (unfold M; nra).
  set (NW := rsum (x_n g) (xni g)). set (SY := rsum (x_n g) (ym g)).
  set (K := 3 * (p * rpow M (p - 1) * c * NW)).
  assert (PM := rpow_pos M (p - 1) HM). assert (Hp : 1 <= p) by (apply X1, Hi).
  assert (HNW : 0 <= NW) by (apply rsum_nonneg; intros j Hj; specialize (X1 j Hj); lra).
  assert (HSY : 0 <= SY) by (apply rsum_nonneg; intros j Hj; specialize (Y0 j Hj); lra).
  assert (HK : 0 <= K).
  { unfold K. apply Rmult_le_pos; [lra|]. apply Rmult_le_pos; [|exact HNW]. apply Rmult_le_pos; [|lra]. apply Rmult_le_pos; lra. }
  exists 1, (K * SY). split; [lra|]. split; [apply Rmult_le_pos; assumption|].
  assert (BND : forall v, dist E g_at v u < 1 -> c * wtotal (x_n g) (xni g) (loads r z v) <= M).
  { intros v Hv. apply Rle_trans with (c * B); [|unfold M; lra]. apply Rmult_le_compat_l; [lra|].
    apply rsum_le. intros j Hj. assert (Q1 := X1 j Hj). assert (Q2 := Y0 j Hj).
    apply Rmult_le_compat_l; [lra|]. unfold loads. apply Rmax_lub.
    - assert (Q := Rabs_pos (u j r z)). apply Rmult_le_pos; lra.
    - apply Rmult_le_compat_l; [lra|].
      assert (Q := dist_coord E g_at v u (j, r, z) ltac:(apply in_g_entries; lia)). unfold g_at in Q. simpl in Q.
      assert (Q3 : Rabs (v j r z - u j r z) < 1) by (eapply Rle_lt_trans; [exact Q|exact Hv]).
      apply Rabs_def2 in Q3. assert (Q4 := Rle_abs (u j r z)). lra. }
  intros v w Hv Hw.
  eapply Rle_trans; [apply (share_lip (x_n g) (xni g) c p X1 C0 Hp M i (loads r z v) (loads r z w) Hi HM);
    try (intros; apply loads_nonneg); apply BND; assumption|].
  fold NW K. rewrite Rmult_assoc. apply Rmult_le_compat_l; [exact HK|].
  unfold SY. rewrite <- rsum_scal_r. apply rsum_le. intros j Hj. specialize (Y0 j Hj).
  eapply Rle_trans; [apply pospart_lip|]. rewrite <- Rmult_minus_distr_l, Rabs_mult, (Rabs_right (ym g j)) by lra.
  apply Rmult_le_compat_l; [lra|].
  apply (dist_coord E g_at v w (j, r, z)). apply in_g_entries; lia.
Qed.
Lemma tame_cpore i r z : (i < x_n g)%nat -> (r < nc)%nat -> (z < m_c m)%nat ->
  Tm (fun s v => cpore g nc (at_time g (foulFA g foul) s) v i r z).
Proof.
  intros Hi Hr Hz.
  apply (tame_ext E g_at D (fun s v => at_time g (foulFA g foul) s i *
    share (x_n g) (xni g) (x_xn g i / ym g i) (xni g i) i (loads r z v))).
  { intros s v. symmetry. apply cpore_share; [exact Hi|]. apply at_time_nonneg. intros k. apply rpow_ge_0. }
  apply (tame_mult E g_at D (fun s _ => at_time g (foulFA g foul) s i)); [apply tame_table|apply tame_share; assumption].
Qed.
Lemma tame_cbs i z : (i < x_n g)%nat -> (z < m_c m)%nat ->
  Tm (fun s v => cbs g nc (at_time g (foulFA g foul) s) v i z).
Proof.
  intros Hi Hz. unfold cbs. destruct (Nat.eqb z 0); [apply tame_const|].
  apply (tame_mult E g_at D (fun s v => v i nc z - cpore g nc (at_time g (foulFA g foul) s) v i (nc - 1) z) (fun _ _ => stdv g i));
    [|apply tame_const].
  apply (tame_minus E g_at D (fun _ v => v i nc z)); [apply tame_g; lia|apply tame_cpore; lia].
Qed.
Lemma tame_bb i r z : (i < x_n g)%nat -> (z < m_c m)%nat ->
  Tm (fun s v => bb g nc (b_r m) (at_time g (foulFA g foul) s) (at_time g (facA g) s) v i r z).
Proof.
  intros Hi Hz. unfold bb.
  apply (tame_plus E g_at D
    (fun s v => rsum nc (fun k => bedp g i * b_r m r k * cpore g nc (at_time g (foulFA g foul) s) v i k z) * at_time g (facA g) s i)
    (fun s v => rsum nc (fun k => beds g i * b_r m r k * v i k z))).
  - apply (tame_mult E g_at D
      (fun s v => rsum nc (fun k => bedp g i * b_r m r k * cpore g nc (at_time g (foulFA g foul) s) v i k z))
      (fun s _ => at_time g (facA g) s i)); [|apply tame_table].
    apply (tame_rsum E g_at D nc (fun k s v => bedp g i * b_r m r k * cpore g nc (at_time g (foulFA g foul) s) v i k z)).
    intros k Hk. apply (tame_scal E g_at D _ (fun s v => cpore g nc (at_time g (foulFA g foul) s) v i k z)).
    apply tame_cpore; lia.
  - apply (tame_rsum E g_at D nc (fun k _ v => beds g i * b_r m r k * v i k z)). intros k Hk.
    apply (tame_scal E g_at D _ (fun _ v => v i k z)). apply tame_g; lia.
Qed.
Lemma tame_ww i z : (i < x_n g)%nat -> (z < m_c m)%nat ->
  Tm (fun s v => ww g nc (w_r m) (b_r m) (at_time g (foulFA g foul) s) (at_time g (facA g) s) v i z).
Proof.
  intros Hi Hz. unfold ww.
  apply (tame_rsum E g_at D (nc - 1) (fun r s v => w_r m r *
    bb g nc (b_r m) (at_time g (foulFA g foul) s) (at_time g (facA g) s) v i r z)).
  intros r Hr. apply (tame_scal E g_at D _ (fun s v =>
    bb g nc (b_r m) (at_time g (foulFA g foul) s) (at_time g (facA g) s) v i r z)). apply tame_bb; assumption.
Qed.
Lemma tame_diffun i r z : (i < x_n g)%nat -> (r <= nc)%nat -> (z < m_c m)%nat ->
  Tm (fun s v => diffun g m nc rows foul s v i r z).
Proof.
  intros Hi Hr Hz. unfold diffun, gac_rhs.
  destruct (Nat.ltb r (nc - 1)); [apply tame_bb; assumption|].
  destruct (Nat.eqb r (nc - 1)).
  - destruct (Nat.eqb z 0).
    + apply (tame_div_const E g_at D _ (fun s v =>
        (at_time g (cinfA g rows) s i - cpore g nc (at_time g (foulFA g foul) s) v i (nc - 1) 0) * (stdv g i * dgI g i)
        - ww g nc (w_r m) (b_r m) (at_time g (foulFA g foul) s) (at_time g (facA g) s) v i 0)).
      apply (tame_minus E g_at D (fun s v =>
        (at_time g (cinfA g rows) s i - cpore g nc (at_time g (foulFA g foul) s) v i (nc - 1) 0) * (stdv g i * dgI g i)));
        [|apply tame_ww; lia].
      apply (tame_mult E g_at D (fun s v => at_time g (cinfA g rows) s i - cpore g nc (at_time g (foulFA g foul) s) v i (nc - 1) 0)
        (fun _ _ => stdv g i * dgI g i)); [|apply tame_const].
      apply (tame_minus E g_at D (fun s _ => at_time g (cinfA g rows) s i)); [apply tame_table|apply tame_cpore; lia].
    + apply (tame_div_const E g_at D _ (fun s v => cbs g nc (at_time g (foulFA g foul) s) v i z * dgI g i
        - ww g nc (w_r m) (b_r m) (at_time g (foulFA g foul) s) (at_time g (facA g) s) v i z)).
      apply (tame_minus E g_at D (fun s v => cbs g nc (at_time g (foulFA g foul) s) v i z * dgI g i)); [|apply tame_ww; assumption].
      apply (tame_mult E g_at D (fun s v => cbs g nc (at_time g (foulFA g foul) s) v i z) (fun _ _ => dgI g i));
        [apply tame_cbs; assumption|apply tame_const].
  - destruct (Nat.eqb z 0); [apply tame_const|].
    apply (tame_minus E g_at D (fun s v => - dg1 g * (a_z m z 0%nat * at_time g (cinfA g rows) s i +
      rsum (m_c m - 1) (fun j => a_z m z (S j) * v i nc (S j)))) (fun s v => 3 * cbs g nc (at_time g (foulFA g foul) s) v i z)).
    + apply (tame_scal E g_at D _ (fun s v => a_z m z 0%nat * at_time g (cinfA g rows) s i +
        rsum (m_c m - 1) (fun j => a_z m z (S j) * v i nc (S j)))).
      apply (tame_plus E g_at D (fun s _ => a_z m z 0%nat * at_time g (cinfA g rows) s i)).
      * apply (tame_scal E g_at D _ (fun s _ => at_time g (cinfA g rows) s i)), tame_table.
      * apply (tame_rsum E g_at D (m_c m - 1) (fun j _ v => a_z m z (S j) * v i nc (S j))). intros j Hj.
        apply (tame_scal E g_at D _ (fun _ v => v i nc (S j))). apply tame_g; lia.
    + apply (tame_scal E g_at D 3 (fun s v => cbs g nc (at_time g (foulFA g foul) s) v i z)). apply tame_cbs; assumption.
Qed.
End Rhs.
End Gac.
