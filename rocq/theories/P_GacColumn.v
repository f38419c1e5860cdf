(** Proofs about the granular-carbon column. *)
From Coq Require Import Reals List Arith Bool Lra Lia ZArith.
From Verif Require Import Lib_Py Lib_Sum Lib_Pow Lib_Poly Lib_Traj M_Colloc S_Colloc P_Colloc P_Ocfe
  M_IxColumn S_IxColumn P_IxColumn M_GacFun P_GacFun M_GacColumn S_GacColumn P_GacColloc Props_Colloc.
Import ListNotations.
Open Scope R_scope.

(** ** Matrices *)

Lemma solver_matrix_inv inv leg jr nr nz ne m : calc_solver_matrix inv leg jr nr nz ne = Ok m ->
  (2 <= nr)%nat /\ (3 <= nz)%nat /\ (1 <= ne)%nat /\ m_c m = (ne * (nz - 1) + 1)%nat /\
  let r i := sqrt (gac_rr jr nr i) in
  w_r m = vdot nr (dspoly_f 3) (inv nr (dspoly_q r)) /\
  b_r m = mdot nr (dspoly_d 3 r) (inv nr (dspoly_q r)) /\
  a_z m = (if Nat.eqb ne 1 then mdot nz (dupoly_c (rootsz leg nz)) (inv nz (dupoly_q (rootsz leg nz)))
           else gac_advect inv leg ne nz).
Proof.
  unfold calc_solver_matrix.
  destruct (Nat.ltb_spec nr 2); cbn [orb]; [discriminate|].
  destruct (Nat.ltb_spec nz 3); cbn [orb]; [discriminate|].
  destruct ne as [|[|ne]]; [discriminate| |]; intros E; apply Ok_inj in E; subst m; cbn [m_c w_r b_r a_z].
  - repeat split; lia.
  - repeat split; try lia. nia.
Qed.

(** Row sums of the axial matrix. *)
Lemma axial_constants inv leg jr nr nz ne m : inverter inv nz ->
  interior_roots (nz - 2) (leg (nz - 2)%nat) ->
  calc_solver_matrix inv leg jr nr nz ne = Ok m ->
  forall z, (z < m_c m)%nat -> rsum (m_c m) (a_z m z) = 0.
Proof.
  intros HI HR Hm z Hz. destruct (solver_matrix_inv _ _ _ _ _ _ _ Hm) as (H2 & H3 & H1 & Emc & _ & _ & Ea).
  rewrite Ea. rewrite Emc in *.
  assert (HX : distinct nz (rootsz leg nz)).
  { apply increasing_distinct. apply rootsz_increasing; [lia|assumption]. }
  destruct (Nat.eqb_spec ne 1) as [->|Hne].
  - replace (1 * (nz - 1) + 1)%nat with nz in * by lia.
    rewrite (rsum_ext nz _ (fun j => Amat nz (rootsz leg nz) z j * 1)).
    + apply (A_constant nz (rootsz leg nz) HX 1 z Hz).
    + intros j Hj. rewrite dupoly_Amat by assumption. ring.
  - assert (C := Props_Colloc.C26_constants leg ne nz H1 ltac:(lia) HR 1 z Hz).
    rewrite <- C. apply rsum_ext. intros j Hj. rewrite gac_advect_eq by (try assumption; lia). ring.
Qed.

(** Row sums of the radial matrix. *)
Lemma radial_constants inv leg jr nr nz ne m : inverter inv nr ->
  jacobi_nodes (nr - 1) (jr (nr - 1)%nat 1 (dec 5 1)) ->
  calc_solver_matrix inv leg jr nr nz ne = Ok m ->
  forall i, (i < nr)%nat -> rsum nr (b_r m i) = 0.
Proof.
  intros HI HJ Hm i Hi. destruct (solver_matrix_inv _ _ _ _ _ _ _ Hm) as (H2 & _ & _ & _ & _ & Eb & _).
  rewrite Eb.
  set (one := fun k : nat => match k with O => 1 | S _ => 0 end).
  assert (OP : forall y, poly nr one y = 1).
  { intros y. unfold poly. destruct nr as [|k]; [lia|]. rewrite rsum_S_first.
    rewrite rsum_zero by (intros; unfold one; simpl; ring). unfold one. simpl. ring. }
  assert (L := laplace_exact inv nr (fun i => sqrt (gac_rr jr nr i)) HI
                 (x2_distinct jr nr ltac:(lia) HJ) one i Hi).
  unfold apply_row in L. rewrite (rsum_ext nr _ _ (fun j _ => f_equal _ (OP _))) in L.
  rewrite (rsum_ext nr _ (fun j => mdot nr (dspoly_d 3 (fun i => sqrt (gac_rr jr nr i)))
     (inv nr (dspoly_q (fun i => sqrt (gac_rr jr nr i)))) i j * 1)) by (intros; ring).
  rewrite L. apply rsum_zero. intros k Hk. unfold one. destruct k; simpl; ring.
Qed.
Lemma surface_weight inv leg jr nr nz ne m : inverter inv nr ->
  jacobi_nodes (nr - 1) (jr (nr - 1)%nat 1 (dec 5 1)) ->
  calc_solver_matrix inv leg jr nr nz ne = Ok m -> 0 < w_r m (nr - 1)%nat.
Proof.
  intros HI HJ Hm. destruct (solver_matrix_inv _ _ _ _ _ _ _ Hm) as (H2 & _ & _ & _ & Ew & _).
  rewrite Ew. apply surface_weight_pos; [exact HI|lia|exact HJ].
Qed.

Lemma rsum_last n f : (0 < n)%nat -> rsum n f = rsum (n - 1) f + f (n - 1)%nat.
Proof. destruct n as [|n]; intros; [lia|]. cbn [rsum]. replace (S n - 1)%nat with n by lia. reflexivity. Qed.

(** ** Exchange between beads and liquid *)

Section Exchange.
Variables (g : gac_in) (nc mc : nat) (wr : nat -> R) (az br : matrix).
Variables (cinfl ff fa : nat -> R) (y : nat -> nat -> nat -> R).
Hypothesis Hnc : (1 <= nc)%nat.
Hypothesis Hw : wr (nc - 1)%nat <> 0.
Let du := gac_rhs g nc mc wr az br cinfl ff fa y.
Let surf i z := cpore g nc ff y i (nc - 1) z.

Lemma gac_bead_gain i z :
  rsum nc (fun r => wr r * du i r z)
  = dgI g i * (stdv g i * ((if Nat.eqb z 0 then cinfl i else y i nc z) - surf i z)).
Proof.
  rewrite rsum_last by lia.
  assert (E1 : rsum (nc - 1) (fun r => wr r * du i r z) = ww g nc wr br ff fa y i z).
  { unfold ww. apply rsum_ext. intros r Hr. f_equal.
    unfold du, gac_rhs. rewrite (proj2 (Nat.ltb_lt r (nc - 1))) by lia. reflexivity. }
  rewrite E1. unfold du, gac_rhs.
  rewrite Nat.ltb_irrefl, Nat.eqb_refl. destruct (Nat.eqb_spec z 0) as [->|Hz].
  - unfold surf. field. exact Hw.
  - unfold cbs. rewrite (proj2 (Nat.eqb_neq z 0)) by exact Hz. unfold surf. field. exact Hw.
Qed.

Lemma gac_liquid i z : (1 <= z)%nat ->
  du i nc z = - dg1 g * (az z 0%nat * cinfl i + rsum (mc - 1) (fun j => az z (S j) * y i nc (S j)))
              - 3 * (stdv g i * (y i nc z - surf i z)).
Proof.
  intros Hz. unfold du, gac_rhs.
  rewrite (proj2 (Nat.ltb_ge nc (nc - 1))) by lia.
  rewrite (proj2 (Nat.eqb_neq nc (nc - 1))) by lia.
  rewrite (proj2 (Nat.eqb_neq z 0)) by lia. unfold cbs.
  rewrite (proj2 (Nat.eqb_neq z 0)) by lia. unfold surf. ring.
Qed.

Lemma gac_balance i z : (1 <= z)%nat -> dg g i <> 0 ->
  du i nc z + dg g i * (3 * rsum nc (fun r => wr r * du i r z))
  = - dg1 g * (az z 0%nat * cinfl i + rsum (mc - 1) (fun j => az z (S j) * y i nc (S j))).
Proof.
  intros Hz Hd. rewrite gac_bead_gain, gac_liquid by exact Hz.
  rewrite (proj2 (Nat.eqb_neq z 0)) by lia. unfold dgI. field. exact Hd.
Qed.
End Exchange.

(** ** Positivity of the derived numbers *)

Lemma rsum_pos_all n f : (0 < n)%nat -> (forall i, (i < n)%nat -> 0 < f i) -> 0 < rsum n f.
Proof. intros. apply rsum_pos; assumption. Qed.

(** ** Equilibrium *)

Section Equilibrium.
Variables (g : gac_in) (nc : nat) (ff : nat -> R) (y : nat -> nat -> nat -> R) (r z : nat).
Hypothesis Hn : (0 < x_n g)%nat.
Hypothesis Hqe : forall i, (i < x_n g)%nat -> 0 < qe g i.
Hypothesis Hxn : forall i, (i < x_n g)%nat -> 0 < x_xn g i.
Hypothesis Hff : forall i, (i < x_n g)%nat -> 0 <= ff i.
Hypothesis Hy : forall i, (i < x_n g)%nat -> 0 <= y i r z.
Hypothesis Hy1 : exists i, (i < x_n g)%nat /\ 0 < y i r z.
Let q i := qe g i * y i r z.

Lemma qte_pos : 0 < qte g.
Proof. apply rsum_pos; assumption. Qed.
Lemma z_raw_eq i : (i < x_n g)%nat -> z_raw g y i r z = q i / qte g.
Proof.
  intros Hi. unfold z_raw, ym, q. assert (Q := qte_pos). assert (A := Hqe i Hi). assert (B := Hy i Hi).
  assert (0 <= qe g i / qte g * y i r z).
  { apply Rmult_le_pos; [|exact B]. left. apply Rdiv_lt_0_compat; assumption. }
  destruct (rltb (qe g i / qte g * y i r z) 0) eqn:E; [apply rltb_true in E; lra|]. field. lra.
Qed.
Lemma q_nonneg i : (i < x_n g)%nat -> 0 <= q i.
Proof. intros Hi. apply Rmult_le_pos; [left; apply Hqe, Hi|apply Hy, Hi]. Qed.
Lemma Qsum_pos : 0 < rsum (x_n g) q.
Proof.
  destruct Hy1 as (i & Hi & Hp). apply (rsum_pos_one _ _ i Hi); [apply q_nonneg|].
  apply Rmult_lt_0_compat; [apply Hqe, Hi|exact Hp].
Qed.
Lemma Psum_pos : 0 < rsum (x_n g) (fun i => q i / x_xn g i).
Proof.
  destruct Hy1 as (i & Hi & Hp). apply (rsum_pos_one _ _ i Hi).
  - intros j Hj. apply Rmult_le_pos; [apply q_nonneg, Hj|]. left. apply Rinv_0_lt_compat, Hxn, Hj.
  - apply Rdiv_lt_0_compat; [|apply Hxn, Hi]. apply Rmult_lt_0_compat; [apply Hqe, Hi|exact Hp].
Qed.
Lemma qte2_eq : qte2 g y r z = rsum (x_n g) q / qte g.
Proof.
  unfold qte2. rewrite (rsum_ext _ _ _ (fun i Hi => z_raw_eq i Hi)), rsum_div.
  assert (Q := qte_pos). assert (S := Qsum_pos).
  destruct (reqb (rsum (x_n g) q / qte g) 0) eqn:E; [|reflexivity].
  apply reqb_true in E. assert (0 < rsum (x_n g) q / qte g) by (apply Rdiv_lt_0_compat; assumption). lra.
Qed.
Lemma yt0_eq : yt0 g y r z = rsum (x_n g) (fun i => q i / x_xn g i) / qte g.
Proof.
  unfold yt0. rewrite <- rsum_div. apply rsum_ext. intros i Hi. rewrite z_raw_eq by exact Hi.
  unfold xni. assert (Q := qte_pos). assert (A := Hxn i Hi). field. lra.
Qed.
Lemma q0_eq i : (i < x_n g)%nat ->
  q0 g y i r z = x_xn g i / qe g i * rsum (x_n g) (fun j => q j / x_xn g j).
Proof.
  intros Hi. unfold q0, ym. rewrite yt0_eq. assert (Q := qte_pos). assert (A := Hqe i Hi). field. lra.
Qed.
Lemma cpore_eq i : (i < x_n g)%nat ->
  cpore g nc ff y i r z
  = ff i * (q i / rsum (x_n g) q * rpow (x_xn g i / qe g i * rsum (x_n g) (fun j => q j / x_xn g j)) (xni g i)).
Proof.
  intros Hi. assert (Q := qte_pos). assert (S := Qsum_pos). assert (P := Psum_pos).
  assert (A := Hqe i Hi). assert (X := Hxn i Hi). assert (F := Hff i Hi).
  assert (Y0 : 0 < yt0 g y r z) by (rewrite yt0_eq; apply Rdiv_lt_0_compat; assumption).
  assert (Q2 : 0 < qte2 g y r z) by (rewrite qte2_eq; apply Rdiv_lt_0_compat; assumption).
  assert (B : 0 < x_xn g i / qe g i * rsum (x_n g) (fun j => q j / x_xn g j)).
  { apply Rmult_lt_0_compat; [apply Rdiv_lt_0_compat; assumption|exact P]. }
  assert (E : cpore_raw g ff y i r z
    = ff i * (q i / rsum (x_n g) q * rpow (x_xn g i / qe g i * rsum (x_n g) (fun j => q j / x_xn g j)) (xni g i))).
  { unfold cpore_raw.
    destruct (rltb (xni g i * q0 g y i r z) (-20)) eqn:E1.
    { exfalso. apply rltb_true in E1. rewrite q0_eq in E1 by exact Hi.
      assert (0 < xni g i) by (unfold xni; apply Rdiv_lt_0_compat; lra).
      assert (0 < xni g i * (x_xn g i / qe g i * rsum (x_n g) (fun j => q j / x_xn g j)))
        by (apply Rmult_lt_0_compat; assumption). lra. }
    destruct (rleb (yt0 g y r z) 0) eqn:E2; [apply rleb_true in E2; lra|].
    destruct (rleb (qte2 g y r z) 0) eqn:E3; [apply rleb_true in E3; lra|].
    rewrite q0_eq by exact Hi. unfold z2. rewrite E3, z_raw_eq by exact Hi. rewrite qte2_eq.
    f_equal. f_equal. field. lra. }
  unfold cpore. rewrite E. destruct (Nat.eqb r (nc - 1)); [|reflexivity].
  match goal with |- (if rltb ?a 0 then _ else _) = _ => destruct (rltb a 0) eqn:E4 end; [|reflexivity].
  exfalso. apply rltb_true in E4.
  match type of E4 with ?a < 0 => assert (0 <= a) end; [|lra].
  apply Rmult_le_pos; [exact F|]. apply Rmult_le_pos; [|apply rpow_nonneg; lra].
  apply Rmult_le_pos; [apply q_nonneg, Hi|left; apply Rinv_0_lt_compat, S].
Qed.
End Equilibrium.

(** ** Dependencies *)

Section Deps.
Variables (g : gac_in) (nc mc : nat) (wr : nat -> R) (az br : matrix).
Variables (cinfl ff fa : nat -> R) (u1 u2 : nat -> nat -> nat -> R).
Hypothesis Hnc : (1 <= nc)%nat.

Lemma z_raw_dep i r z : u1 i r z = u2 i r z -> z_raw g u1 i r z = z_raw g u2 i r z.
Proof. intros H. unfold z_raw. rewrite H. reflexivity. Qed.
Lemma cpore_dep i r z : (i < x_n g)%nat -> (forall j, (j < x_n g)%nat -> u1 j r z = u2 j r z) ->
  cpore g nc ff u1 i r z = cpore g nc ff u2 i r z.
Proof.
  intros Hi H.
  assert (A : qte2 g u1 r z = qte2 g u2 r z).
  { unfold qte2. rewrite (rsum_ext (x_n g) _ (fun i => z_raw g u2 i r z)) by (intros; apply z_raw_dep, H; assumption).
    reflexivity. }
  assert (B : yt0 g u1 r z = yt0 g u2 r z).
  { unfold yt0. apply rsum_ext. intros j Hj. rewrite (z_raw_dep j r z) by (apply H, Hj). reflexivity. }
  unfold cpore, cpore_raw, q0, z2. rewrite A, B, (z_raw_dep i r z) by (apply H, Hi). reflexivity.
Qed.
Lemma bb_dep i r z : (i < x_n g)%nat ->
  (forall j s, (j < x_n g)%nat -> (s < nc)%nat -> u1 j s z = u2 j s z) ->
  bb g nc br ff fa u1 i r z = bb g nc br ff fa u2 i r z.
Proof.
  intros Hi H. unfold bb. f_equal; [f_equal|].
  - apply rsum_ext. intros s Hs. rewrite (cpore_dep i s z) by (auto). reflexivity.
  - apply rsum_ext. intros s Hs. rewrite (H i s) by assumption. reflexivity.
Qed.
Lemma gac_bead_dep i r z : (i < x_n g)%nat -> (r < nc)%nat ->
  (forall j s, (j < x_n g)%nat -> (s < nc)%nat -> u1 j s z = u2 j s z) ->
  (r = (nc - 1)%nat -> (z <> 0)%nat -> u1 i nc z = u2 i nc z) ->
  gac_rhs g nc mc wr az br cinfl ff fa u1 i r z = gac_rhs g nc mc wr az br cinfl ff fa u2 i r z.
Proof.
  intros Hi Hr H HL. unfold gac_rhs.
  destruct (Nat.ltb_spec r (nc - 1)); [apply bb_dep; assumption|].
  destruct (Nat.eqb_spec r (nc - 1)) as [->|]; [|lia].
  assert (W : ww g nc wr br ff fa u1 i z = ww g nc wr br ff fa u2 i z).
  { unfold ww. apply rsum_ext. intros s Hs. f_equal. apply bb_dep; assumption. }
  destruct (Nat.eqb_spec z 0) as [->|Hz].
  - rewrite W, (cpore_dep i (nc - 1) 0) by (try assumption; (intros; apply H; [assumption|lia])). reflexivity.
  - unfold cbs. rewrite (proj2 (Nat.eqb_neq z 0)) by exact Hz.
    rewrite W, (cpore_dep i (nc - 1) z), HL by (try assumption; try reflexivity; (intros; apply H; [assumption|lia])).
    reflexivity.
Qed.
Lemma gac_liquid_dep i z : (i < x_n g)%nat -> (z < mc)%nat ->
  ((z <> 0)%nat -> forall j, (1 <= j < mc)%nat -> u1 i nc j = u2 i nc j) ->
  ((z <> 0)%nat -> forall j, (j < x_n g)%nat -> u1 j (nc - 1)%nat z = u2 j (nc - 1)%nat z) ->
  gac_rhs g nc mc wr az br cinfl ff fa u1 i nc z = gac_rhs g nc mc wr az br cinfl ff fa u2 i nc z.
Proof.
  intros Hi Hz H1 H2. unfold gac_rhs.
  rewrite (proj2 (Nat.ltb_ge nc (nc - 1))) by lia.
  rewrite (proj2 (Nat.eqb_neq nc (nc - 1))) by lia.
  destruct (Nat.eqb_spec z 0) as [->|Hz0]; [reflexivity|].
  f_equal.
  - f_equal. f_equal. apply rsum_ext. intros j Hj. rewrite H1 by (try assumption; lia). reflexivity.
  - unfold cbs. rewrite (proj2 (Nat.eqb_neq z 0)) by exact Hz0.
    rewrite (cpore_dep i (nc - 1) z), (H1 Hz0 z) by (try assumption; try lia; apply H2; assumption). reflexivity.
Qed.
End Deps.

Lemma gflat_div nc mc i r z : (r <= nc)%nat -> (z < mc)%nat ->
  ((gflat nc mc i r z) / (mc * (nc + 1)) = i /\ (gflat nc mc i r z) mod (mc * (nc + 1)) = r * mc + z)%nat.
Proof.
  intros Hr Hz. unfold gflat.
  assert (B : (r * mc + z < mc * (nc + 1))%nat) by nia.
  replace (i * ((nc + 1) * mc) + r * mc + z)%nat with (r * mc + z + i * (mc * (nc + 1)))%nat by nia.
  split.
  - rewrite Nat.div_add by nia. rewrite Nat.div_small by exact B. lia.
  - rewrite Nat.mod_add by nia. apply Nat.mod_small, B.
Qed.

(** Declared zero: the possible positions. *)
Lemma spar_zero nr nz ne i r z i' r' z' :
  let mc := (nz * ne - (ne - 1))%nat in
  (1 <= nr)%nat -> (r <= nr)%nat -> (z < mc)%nat -> (r' <= nr)%nat -> (z' < mc)%nat ->
  spar_Jac nr nz ne (gflat nr mc i r z) (gflat nr mc i' r' z') = 0%nat ->
  (* bead state seen from a bead row *)
  ((r' < nr)%nat -> (r < nr)%nat -> z <> z') /\
  (* bead state seen from the liquid *)
  ((r' < nr)%nat -> r = nr -> r' = (nr - 1)%nat -> z = z' -> z = 0%nat) /\
  (* liquid seen from a bead row of the same compound *)
  (r' = nr -> i = i' -> r = (nr - 1)%nat -> z = z' -> z = 0%nat) /\
  (* liquid seen from the liquid of the same compound *)
  (r' = nr -> i = i' -> r = nr -> z = 0%nat \/ z' = 0%nat).
Proof.
  intros mc Hnr Hr Hz Hr' Hz' HJ. unfold spar_Jac in HJ. cbv zeta in HJ.
  change (nz * ne - (ne - 1))%nat with mc in HJ.
  destruct (gflat_div nr mc i r z Hr Hz) as (E1 & E2).
  destruct (gflat_div nr mc i' r' z' Hr' Hz') as (E3 & E4).
  rewrite E1, E2, E3, E4 in HJ. clear E1 E2 E3 E4.
  destruct (Nat.ltb_spec (r' * mc + z') (nr * mc)) as [Hb|Hb].
  - assert (L : (r' < nr)%nat) by nia.
    unfold jac_left in HJ. destruct (Nat.ltb_spec (r * mc + z) (nr * mc)) as [Ha|Ha].
    + assert (L2 : (r < nr)%nat) by nia. repeat split; try (intros; lia).
      intros _ _ <-. unfold jac_mat1 in HJ.
      assert (Z := nsum_zero _ _ HJ (nr - 1 + r' - r)%nat ltac:(lia)). cbv beta in Z. unfold eye in Z.
      match type of Z with (if ?b then _ else _) = _ => destruct b eqn:E end; [discriminate|].
      apply Z.eqb_neq in E. apply E.
      remember (nr - 1 + r' - r)%nat as k eqn:Ek.
      assert (K : (k * mc + r * mc = (nr - 1) * mc + r' * mc)%nat)
        by (rewrite <- !Nat.mul_add_distr_r; f_equal; lia).
      clear - K. lia.
    + assert (L2 : r = nr) by nia. subst r. repeat split; try (intros; lia).
      intros _ _ -> <-. unfold jac_lower in HJ.
      destruct (Nat.eqb_spec ((nr - 1) * mc + z) (nr * mc - mc)) as [Ez|Ez]; [nia|].
      unfold eye in HJ.
      match type of HJ with (if ?b then _ else _) = _ => destruct b eqn:E end; [discriminate|].
      exfalso. apply Z.eqb_neq in E. apply E. rewrite <- Nat2Z.inj_add. f_equal. nia.
  - assert (L : r' = nr) by nia. subst r'. repeat split; try (intros; lia).
    + intros _ <- -> <-. unfold jac_right in HJ. rewrite Nat.eqb_refl in HJ. cbn [negb] in HJ.
      destruct (Nat.ltb_spec ((nr - 1) * mc + z) (nr * mc - mc)); [nia|].
      destruct (Nat.ltb_spec ((nr - 1) * mc + z) (nr * mc)); [|nia].
      replace ((nr - 1) * mc + z - (nr * mc - mc))%nat with z in HJ by nia.
      replace (nr * mc + z - nr * mc)%nat with z in HJ by lia.
      rewrite Nat.eqb_refl in HJ. destruct (Nat.eqb_spec z 0); [assumption|]. cbn in HJ. discriminate.
    + intros _ <- ->. unfold jac_right in HJ. rewrite Nat.eqb_refl in HJ. cbn [negb] in HJ.
      destruct (Nat.ltb_spec (nr * mc + z) (nr * mc - mc)); [nia|].
      destruct (Nat.ltb_spec (nr * mc + z) (nr * mc)); [lia|].
      replace (nr * mc + z - nr * mc)%nat with z in HJ by lia.
      replace (nr * mc + z' - nr * mc)%nat with z' in HJ by lia.
      destruct (Nat.eqb_spec z 0); [left; assumption|].
      destruct (Nat.eqb_spec z' 0); [right; assumption|]. cbn in HJ. discriminate.
Qed.

Lemma gac_sparsity g nr nz ne wr az br cinfl ff fa i r z i' r' z' :
  let mc := (nz * ne - (ne - 1))%nat in
  (1 <= nr)%nat -> (i < x_n g)%nat -> (r <= nr)%nat -> (z < mc)%nat ->
  (i' < x_n g)%nat -> (r' <= nr)%nat -> (z' < mc)%nat ->
  spar_Jac nr nz ne (gflat nr mc i r z) (gflat nr mc i' r' z') = 0%nat ->
  forall u1 u2, agree_but (x_n g) nr mc u1 u2 i' r' z' ->
  gac_rhs g nr mc wr az br cinfl ff fa u1 i r z = gac_rhs g nr mc wr az br cinfl ff fa u2 i r z.
Proof.
  intros mc Hnr Hi Hr Hz Hi' Hr' Hz' HJ u1 u2 HA.
  destruct (spar_zero nr nz ne i r z i' r' z' Hnr Hr Hz Hr' Hz' HJ) as (J1 & J2 & J3 & J4).
  destruct (Nat.eq_dec r nr) as [->|Hne].
  - apply gac_liquid_dep; try assumption.
    + intros Hz0 j Hj. apply HA; try lia. intros E. inversion E; subst.
      destruct (J4 eq_refl eq_refl eq_refl); lia.
    + intros Hz0 j Hj. apply HA; try lia. intros E. inversion E; subst.
      apply Hz0. apply J2; try reflexivity. lia.
  - apply gac_bead_dep; try assumption; try lia.
    + intros j s Hj Hs. apply HA; try lia. intros E. inversion E; subst. apply J1; try lia.
    + intros -> Hz0. apply HA; try lia. intros E. inversion E; subst. apply Hz0. apply J3; reflexivity.
Qed.

(** ** Time tables *)

Lemma Int_part_INR m : Int_part (INR m) = Z.of_nat m.
Proof.
  destruct (base_Int_part (INR m)) as (A & B).
  rewrite INR_IZR_INZ in *. apply le_IZR in A.
  assert (IZR (Z.of_nat m) < IZR (Int_part (IZR (Z.of_nat m)) + 1)) by (rewrite plus_IZR; lra).
  apply lt_IZR in H. lia.
Qed.
Lemma at_time_minute g A m i : tconv g <> 0 -> at_time g A (INR m * tconv g) i = A m i.
Proof.
  intros H. unfold at_time. replace (INR m * tconv g / tconv g) with (INR m) by (field; exact H).
  rewrite Int_part_INR, Nat2Z.id, <- INR_IZR_INZ. ring.
Qed.
Lemma at_time_between g A m s i : tconv g <> 0 -> 0 <= s < 1 ->
  at_time g A ((INR m + s) * tconv g) i = (1 - s) * A m i + s * A (S m) i.
Proof.
  intros H Hs. unfold at_time.
  replace ((INR m + s) * tconv g / tconv g) with (INR m + s) by (field; exact H).
  assert (E : Int_part (INR m + s) = Z.of_nat m).
  { destruct (base_Int_part (INR m + s)) as (A1 & B1). rewrite INR_IZR_INZ in *.
    assert (C1 : IZR (Int_part (IZR (Z.of_nat m) + s)) < IZR (Z.of_nat m + 1)) by (rewrite plus_IZR; lra).
    assert (C2 : IZR (Z.of_nat m) < IZR (Int_part (IZR (Z.of_nat m) + s) + 1)) by (rewrite plus_IZR; lra).
    apply lt_IZR in C1. apply lt_IZR in C2. lia. }
  rewrite E, Nat2Z.id, <- INR_IZR_INZ. ring.
Qed.
Lemma interp_x_scale k l t : interp_x (map (fun p => (fst p, k * snd p)) l) t = k * interp_x l t.
Proof.
  induction l as [|(x0, y0) l IH]; [simpl; ring|].
  destruct l as [|(x1, y1) l]; [reflexivity|].
  destruct l as [|p l].
  - cbn [map fst snd interp_x]. unfold line, Rdiv. ring.
  - cbn [map fst snd] in *. cbn [interp_x] in *.
    destruct (rleb t x1); [unfold line, Rdiv; ring|]. exact IH.
Qed.
