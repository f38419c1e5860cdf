(** The isotherm of two exchanging ions, and the batch reactor that holds them. *)
From Coq Require Import Reals List Arith Bool Lra Lia.
From Verif Require Import Lib_Py Lib_Sum Lib_Traj Lib_Settle S_Colloc M_Colloc P_Colloc S_Radial P_Radial P_RadialGap M_IxEq M_IxColumn M_IxBatch
  S_IxEq S_IxColumn S_IxBatch P_IxEq P_IxColumn P_IxBatch P_Rest P_RestEq P_RestIx P_RestBatch P_Exhaust P_Mono.
Import ListNotations.
Open Scope R_scope.

(** ** The isotherm: [y] of the second ion on a resin of [Q], the rest the first. *)
Section Isotherm.
Variables (k0 k1 s Q CT : R) (z : nat).
Hypothesis Hk0 : 0 < k0.
Hypothesis Hk1 : 0 < k1.
Hypothesis Hs : 0 < s.
Hypothesis HQ : 0 < Q.
Hypothesis HCT : 0 < CT.
Hypothesis Hz : z = 1%nat \/ z = 2%nat.
Definition iA (y : R) : R := k1 / s * y.
Definition iB (y : R) : R := k0 / s * (Q - y).
Definition irho (y : R) : R := if Nat.eqb z 1 then CT / (iA y + iB y) else 2 * CT / (iB y + sqrt (iB y ^ 2 + 4 * iA y * CT)).
Lemma s1 : 0 < k1 / s. Proof. apply Rdiv_lt_0_compat; assumption. Qed.
Lemma s0 : 0 < k0 / s. Proof. apply Rdiv_lt_0_compat; assumption. Qed.
Lemma iA_nonneg y : 0 <= y -> 0 <= iA y. Proof. intros H. apply Rmult_le_pos; [left; apply s1|exact H]. Qed.
Lemma iB_nonneg y : y <= Q -> 0 <= iB y. Proof. intros H. apply Rmult_le_pos; [left; apply s0|lra]. Qed.
Lemma iAB y : 0 <= y <= Q -> 0 < iA y + iB y.
Proof.
  intros H. assert (A := iA_nonneg y ltac:(lra)). assert (B := iB_nonneg y ltac:(lra)). assert (X := s1). assert (Y := s0).
  destruct (Rlt_dec 0 y) as [O|O]; [assert (0 < iA y) by (apply Rmult_lt_0_compat; lra); lra|].
  assert (0 < iB y) by (apply Rmult_lt_0_compat; lra). lra.
Qed.
Lemma irho_spec y : 0 <= y <= Q -> 0 < irho y /\ iA y * irho y ^ z + iB y * irho y = CT.
Proof.
  intros H. assert (A := iA_nonneg y ltac:(lra)). assert (B := iB_nonneg y ltac:(lra)). assert (AB := iAB y H). unfold irho.
  destruct Hz as [-> | ->]; cbn [Nat.eqb].
  - split; [apply Rdiv_lt_0_compat; lra|]. field. lra.
  - set (a := iA y) in *. set (b := iB y) in *. assert (D : 0 <= b ^ 2 + 4 * a * CT) by (assert (P := pow2_ge_0 b); assert (0 <= a * CT) by (apply Rmult_le_pos; lra); lra).
    set (r := sqrt (b ^ 2 + 4 * a * CT)). assert (R0 : 0 <= r) by apply sqrt_pos. assert (RR : r * r = b ^ 2 + 4 * a * CT) by (apply sqrt_sqrt, D).
    assert (P : 0 < b + r).
    { destruct (Rlt_dec 0 b) as [O|O]; [lra|]. assert (b = 0) by lra. assert (0 < a) by lra. assert (0 < a * CT) by (apply Rmult_lt_0_compat; lra).
      destruct (Req_dec r 0) as [E|E]; [rewrite E in RR; nra|lra]. }
    split; [apply Rdiv_lt_0_compat; lra|]. apply (Rmult_eq_reg_r ((b + r) ^ 2)); [|apply pow_nonzero; lra].
    transitivity (4 * a * CT * CT + 2 * b * CT * (b + r)); [field; lra|]. replace (4 * a * CT) with (r * r - b ^ 2) by lra. ring.
Qed.
Lemma irho_unique y r : 0 <= y <= Q -> 0 < r -> iA y * r ^ z + iB y * r = CT -> r = irho y.
Proof.
  intros H R0 E. destruct (irho_spec y H) as (P & S). set (p := irho y) in *. assert (A := iA_nonneg y ltac:(lra)). assert (B := iB_nonneg y ltac:(lra)). assert (AB := iAB y H).
  assert (M : forall u v, 0 < u -> u < v -> iA y * u ^ z + iB y * u < iA y * v ^ z + iB y * v).
  { intros u v U V. assert (UV : u ^ z < v ^ z). { destruct Hz as [-> | ->]; [rewrite !pow_1; exact V|]. nra. }
    destruct (Rlt_dec 0 (iA y)) as [O|O].
    - assert (iA y * u ^ z < iA y * v ^ z) by (apply Rmult_lt_compat_l; assumption). assert (iB y * u <= iB y * v) by (apply Rmult_le_compat_l; lra). lra.
    - assert (iA y * u ^ z <= iA y * v ^ z) by (apply Rmult_le_compat_l; lra). assert (iB y * u < iB y * v) by (apply Rmult_lt_compat_l; lra). lra. }
  destruct (Rtotal_order r p) as [O|[O|O]]; [|exact O|].
  - assert (X := M r p R0 O). lra.
  - assert (X := M p r P O). lra.
Qed.
Lemma pow_small r : 0 < r <= 1 -> r ^ z <= r.
Proof. intros H. destruct Hz as [-> | ->]; [rewrite pow_1; lra|]. nra. Qed.
Lemma pow_large r : 1 <= r -> r <= r ^ z.
Proof. intros H. destruct Hz as [-> | ->]; [rewrite pow_1; lra|]. nra. Qed.
Lemma irho_bounds : exists lo hi, 0 < lo /\ forall y, 0 <= y <= Q -> lo <= irho y <= hi.
Proof.
  assert (X := s1). assert (Y := s0).
  set (A2 := k1 / s * (Q / 2)). set (B2 := k0 / s * (Q / 2)). assert (PA : 0 < A2) by (apply Rmult_lt_0_compat; lra). assert (PB : 0 < B2) by (apply Rmult_lt_0_compat; lra).
  exists (Rmin 1 (CT / (2 * A2 + 2 * B2))), (1 + CT / A2 + CT / B2). assert (C1 : 0 < CT / A2) by (apply Rdiv_lt_0_compat; lra). assert (C2 : 0 < CT / B2) by (apply Rdiv_lt_0_compat; lra).
  split; [apply Rmin_glb_lt; [lra|apply Rdiv_lt_0_compat; lra]|]. intros y H. destruct (irho_spec y H) as (P & S). set (p := irho y) in *.
  assert (A := iA_nonneg y ltac:(lra)). assert (B := iB_nonneg y ltac:(lra)). assert (Pz : 0 < p ^ z) by (apply pow_lt, P). split.
  - destruct (Rle_dec 1 p) as [O|O]; [eapply Rle_trans; [apply Rmin_l|exact O]|]. eapply Rle_trans; [apply Rmin_r|].
    apply Rmult_le_reg_r with (2 * A2 + 2 * B2); [lra|]. unfold Rdiv. rewrite Rmult_assoc, Rinv_l, Rmult_1_r by lra. rewrite <- S at 1.
    assert (L := pow_small p ltac:(lra)).
    assert (iA y <= 2 * A2). { unfold iA, A2. replace (2 * (k1 / s * (Q / 2))) with (k1 / s * Q) by (field; lra). apply Rmult_le_compat_l; lra. }
    assert (iB y <= 2 * B2). { unfold iB, B2. replace (2 * (k0 / s * (Q / 2))) with (k0 / s * Q) by (field; lra). apply Rmult_le_compat_l; lra. }
    assert (iA y * p ^ z <= iA y * p) by (apply Rmult_le_compat_l; lra). assert (iA y * p <= 2 * A2 * p) by (apply Rmult_le_compat_r; lra).
    assert (iB y * p <= 2 * B2 * p) by (apply Rmult_le_compat_r; lra). lra.
  - destruct (Rle_dec p 1) as [O|O]; [lra|]. assert (L := pow_large p ltac:(lra)). assert (0 <= iA y * p ^ z) by (apply Rmult_le_pos; lra). assert (0 <= iB y * p) by (apply Rmult_le_pos; lra).
    destruct (Rle_dec (Q / 2) y) as [Oy|Oy].
    + assert (A2 <= iA y) by (apply Rmult_le_compat_l; lra). assert (A2 * p <= A2 * p ^ z) by (apply Rmult_le_compat_l; lra). assert (A2 * p ^ z <= iA y * p ^ z) by (apply Rmult_le_compat_r; lra).
      assert (p <= CT / A2); [|lra]. apply Rmult_le_reg_r with A2; [exact PA|]. unfold Rdiv. rewrite Rmult_assoc, Rinv_l, Rmult_1_r by lra. lra.
    + assert (B2 <= iB y) by (apply Rmult_le_compat_l; lra). assert (B2 * p <= iB y * p) by (apply Rmult_le_compat_r; lra).
      assert (p <= CT / B2); [|lra]. apply Rmult_le_reg_r with B2; [exact PB|]. unfold Rdiv. rewrite Rmult_assoc, Rinv_l, Rmult_1_r by lra. lra.
Qed.
Definition ifun (y : R) : R := iA y * irho y ^ z.
Lemma ifun_range y : 0 <= y <= Q -> 0 <= ifun y <= CT.
Proof.
  intros H. destruct (irho_spec y H) as (P & S). assert (A := iA_nonneg y ltac:(lra)). assert (B := iB_nonneg y ltac:(lra)). unfold ifun.
  assert (0 < irho y ^ z) by (apply pow_lt, P). assert (0 <= iA y * irho y ^ z) by (apply Rmult_le_pos; lra). assert (0 <= iB y * irho y) by (apply Rmult_le_pos; lra). lra.
Qed.
Lemma ifun_bilip : exists m L, 0 < m /\ forall x y, 0 <= y -> y <= x -> x <= Q -> m * (x - y) <= ifun x - ifun y <= L * (x - y).
Proof.
  destruct irho_bounds as (lo & hi & PL & HB). assert (X := s1). assert (Y := s0).
  exists (Rmin (k1 / s * lo ^ z) (k0 / s * lo)), (k1 / s * hi ^ z + k0 / s * hi).
  assert (LZ : 0 < lo ^ z) by (apply pow_lt, PL). split; [apply Rmin_glb_lt; apply Rmult_lt_0_compat; assumption|].
  intros x y Hy Hxy Hx. destruct (irho_spec x ltac:(lra)) as (P1 & S1). destruct (irho_spec y ltac:(lra)) as (P2 & S2).
  assert (B1 := HB x ltac:(lra)). assert (B2 := HB y ltac:(lra)). unfold ifun in *. set (p := irho x) in *. set (q := irho y) in *.
  assert (AX := iA_nonneg x ltac:(lra)). assert (AY := iA_nonneg y ltac:(lra)). assert (BX := iB_nonneg x ltac:(lra)). assert (BY := iB_nonneg y ltac:(lra)).
  assert (DA : iA x - iA y = k1 / s * (x - y)) by (unfold iA; ring). assert (DB : iB y - iB x = k0 / s * (x - y)) by (unfold iB; ring).
  assert (D1 : 0 <= k1 / s * (x - y)) by (apply Rmult_le_pos; lra). assert (D0 : 0 <= k0 / s * (x - y)) by (apply Rmult_le_pos; lra).
  assert (Pp : 0 < p ^ z) by (apply pow_lt, P1). assert (Pq : 0 < q ^ z) by (apply pow_lt, P2).
  assert (HZ : 0 < hi ^ z) by (apply pow_lt; lra).
  assert (pl : lo ^ z <= q ^ z) by (apply pow_incr; lra). assert (ph : p ^ z <= hi ^ z) by (apply pow_incr; lra).
  assert (M1 := Rmin_l (k1 / s * lo ^ z) (k0 / s * lo)). assert (M2 := Rmin_r (k1 / s * lo ^ z) (k0 / s * lo)). set (m := Rmin _ _) in *.
  assert (MX1 : m * (x - y) <= k1 / s * lo ^ z * (x - y)) by (apply Rmult_le_compat_r; lra). assert (MX2 : m * (x - y) <= k0 / s * lo * (x - y)) by (apply Rmult_le_compat_r; lra).
  assert (T1 : k1 / s * (x - y) * lo ^ z <= k1 / s * (x - y) * q ^ z) by (apply Rmult_le_compat_l; assumption).
  assert (T2 : k0 / s * (x - y) * lo <= k0 / s * (x - y) * q) by (apply Rmult_le_compat_l; lra).
  assert (T3 : k1 / s * (x - y) * p ^ z <= k1 / s * (x - y) * hi ^ z) by (apply Rmult_le_compat_l; assumption).
  assert (T4 : k0 / s * (x - y) * q <= k0 / s * (x - y) * hi) by (apply Rmult_le_compat_l; lra).
  assert (T5 : 0 <= k0 / s * (x - y) * hi) by (apply Rmult_le_pos; lra). assert (T6 : 0 <= k1 / s * (x - y) * hi ^ z) by (apply Rmult_le_pos; lra).
  assert (EQ : iA x * p ^ z - iA y * q ^ z = iB y * q - iB x * p) by lra.
  destruct (Rle_dec q p) as [O|O].
  - assert (PQ : q ^ z <= p ^ z) by (apply pow_incr; lra). assert (iA x * q ^ z <= iA x * p ^ z) by (apply Rmult_le_compat_l; lra).
    assert (iB x * q <= iB x * p) by (apply Rmult_le_compat_l; lra).
    assert ((iA x - iA y) * q ^ z = k1 / s * (x - y) * q ^ z) by (rewrite DA; reflexivity). assert ((iB y - iB x) * q = k0 / s * (x - y) * q) by (rewrite DB; reflexivity). lra.
  - assert (PQ : p ^ z <= q ^ z) by (apply pow_incr; lra). assert (iA y * p ^ z <= iA y * q ^ z) by (apply Rmult_le_compat_l; lra).
    assert (iB x * p <= iB x * q) by (apply Rmult_le_compat_l; lra).
    assert ((iA x - iA y) * p ^ z = k1 / s * (x - y) * p ^ z) by (rewrite DA; reflexivity). assert ((iB y - iB x) * q = k0 / s * (x - y) * q) by (rewrite DB; reflexivity). lra.
Qed.

(** continued outside [0, Q] along lines of slope one *)
Definition clamp (y : R) : R := Rmin (Rmax 0 y) Q.
Definition iext (y : R) : R := ifun (clamp y) + (y - clamp y).
Lemma clamp_in y : 0 <= y <= Q -> clamp y = y.
Proof. intros H. unfold clamp. rewrite Rmax_right by lra. apply Rmin_left. lra. Qed.
Lemma clamp_range y : 0 <= clamp y <= Q.
Proof. unfold clamp. split; [apply Rmin_glb; [apply Rmax_l|lra]|apply Rmin_r]. Qed.
Lemma clamp_le x y : y <= x -> clamp y <= clamp x /\ y - clamp y <= x - clamp x.
Proof. intros H. unfold clamp, Rmin, Rmax. destruct (Rle_dec 0 x), (Rle_dec 0 y); repeat destruct (Rle_dec _ _); lra. Qed.
Lemma iext_in y : 0 <= y <= Q -> iext y = ifun y.
Proof. intros H. unfold iext. rewrite clamp_in by exact H. ring. Qed.
Lemma iext_0 : iext 0 = 0.
Proof. rewrite iext_in by lra. unfold ifun, iA. ring. Qed.
Lemma iext_bilip : exists m L, 0 < m /\ forall x y, y <= x -> m * (x - y) <= iext x - iext y <= L * (x - y).
Proof.
  destruct ifun_bilip as (m & L & Pm & H). exists (Rmin m 1), (Rmax L 1). split; [apply Rmin_glb_lt; lra|]. intros x y O.
  destruct (clamp_le x y O) as (C1 & C2). assert (R1 := clamp_range x). assert (R2 := clamp_range y). specialize (H (clamp x) (clamp y) ltac:(lra) C1 ltac:(lra)).
  unfold iext. set (a := clamp x - clamp y) in *. set (r := (x - clamp x) - (y - clamp y)). assert (E : x - y = a + r) by (unfold a, r; ring). rewrite E.
  assert (Ha : 0 <= a) by (unfold a; lra). assert (Hr : 0 <= r) by (unfold r; lra).
  assert (A1 : Rmin m 1 * a <= m * a) by (apply Rmult_le_compat_r; [exact Ha|apply Rmin_l]). assert (A2 : Rmin m 1 * r <= 1 * r) by (apply Rmult_le_compat_r; [exact Hr|apply Rmin_r]).
  assert (A3 : L * a <= Rmax L 1 * a) by (apply Rmult_le_compat_r; [exact Ha|apply Rmax_l]). assert (A4 : 1 * r <= Rmax L 1 * r) by (apply Rmult_le_compat_r; [exact Hr|apply Rmax_r]).
  replace (ifun (clamp x) + (x - clamp x) - (ifun (clamp y) + (y - clamp y))) with (ifun (clamp x) - ifun (clamp y) + r) by (unfold r; ring). lra.
Qed.
End Isotherm.

(** ** The reactor *)
Section Reactor.
Variables (legendre : nat -> nat -> R) (jacobi : nat -> R -> R -> nat -> R) (psdm : bool) (b : batch) (y : R -> nat -> nat -> R).
Notation nr := (b_nr b).
Notation th := (btheta psdm b).
Notation K := (b_K b).
Notation zz := (b_val b).
Let op := build_radial legendre jacobi nr.
Hypothesis HG : good_roots legendre jacobi.
Hypothesis HJ : jacobi_roots 2 (nr - 1) (jacobi (nr - 1)%nat (INR 3 / 2 + 1) (INR 3 / 2)).
Hypothesis HN : b_NION b = 2%nat.
Hypothesis Hr : (1 <= nr)%nat.
Hypothesis HK : selectivities 2 K.
Hypothesis HV : mono_or_divalent 2 zz.
Hypothesis Hrb : 0 < b_rb b.
Hypothesis HVL : 0 < b_VL b.
Hypothesis HVR : 0 < b_VR b.
Hypothesis HkL : 0 < b_kL b.
Hypothesis HD : 0 < b_Ds b.
Hypothesis Hpor : psdm = true -> 0 < b_EPOR b < 1 /\ b_Ds b <= b_Dp b.
Hypothesis HCT : 0 < b_CT b.
Hypothesis HT : forall Tf, is_batch_trajectory nr 2 (batch_rhs psdm b op) Tf y.
Hypothesis H0 : rsum 2 (y 0 0%nat) = b_CT b.
Hypothesis H1 : forall r, (1 <= r <= nr)%nat -> rsum 2 (y 0 r) = b_Q b.
Hypothesis HP : forall T r, 0 < T -> (1 <= r <= nr)%nat -> psdm = true \/ r = nr -> 0 < y T r 0%nat /\ 0 <= y T r 1%nat.

Lemma thp : 0 < th. Proof. apply btheta_pos. exact Hpor. Qed.
Lemma two (F : nat -> R) : rsum 2 F = F 0%nat + F 1%nat. Proof. cbn [rsum]. ring. Qed.
Lemma comp T r : 0 < T -> (1 <= r <= nr)%nat -> psdm = true \/ r = nr -> resin_composition 2 (fun i => y T r i / th).
Proof.
  intros H2 H3 H4. destruct (HP T r H2 H3 H4) as (A & B). assert (I := Rinv_0_lt_compat _ thp). unfold Rdiv.
  split; [apply Rmult_lt_0_compat; assumption|]. intros [|[|i]] Hi; [| |lia]; apply Rmult_le_pos; lra.
Qed.
(** what the code computes, at every time and radius that it uses *)
Lemma computed T : 0 < T -> exists d, batch_rhs psdm b op (y T) = Some d /\
  forall r, (1 <= r <= nr)%nat -> psdm = true \/ r = nr -> exists C, calc_Ceq_batch 2 K zz (fun i => y T r i / th) (b_CT b) = Some C.
Proof.
  intros H2. destruct (HT (T + 1)) as (d & Hd & _). assert (E := Hd T ltac:(lra)). exists (d T). split; [exact E|]. intros r H3 H4. revert E. unfold batch_rhs, btheta. destruct psdm.
  - unfold diffun_psdm_batch. destruct (pore_liquid b (y T) nr) as [P|] eqn:EP; [|discriminate]. intros _. exists (P (r - 1)%nat).
    assert (X := pore_liquid_some b (y T) nr P EP (r - 1)%nat ltac:(lia)). rewrite HN in X. replace (S (r - 1)) with r in X by lia. exact X.
  - destruct H4 as [H4|H4]; [discriminate|]. subst r. unfold diffun_hsdm_batch. rewrite HN. intros X.
    destruct (calc_Ceq_batch 2 K zz (y T nr) (b_CT b)) as [C|] eqn:EC; [|discriminate]. exists C.
    rewrite <- EC. f_equal. apply FunctionalExtensionality.functional_extensionality. intros i. field.
Qed.
Lemma divalent_there T r k : 0 < T -> (1 <= r <= nr)%nat -> psdm = true \/ r = nr -> (k < 2)%nat -> zz k = 2%nat -> 0 < y T r k / th.
Proof.
  intros H2 H3 H4 Hk Ek. destruct HV as (Z0 & _). destruct k as [|[|k]]; [congruence| |lia]. destruct (computed T H2) as (_ & _ & C). destruct (C r H3 H4) as (c & E).
  destruct (comp T r H2 H3 H4) as (_ & NN). specialize (NN 1%nat ltac:(lia)). destruct NN as [L|L]; [exact L|exfalso].
  assert (HD2 : has_divalent 2 zz = true). { unfold has_divalent, dv_idx. cbn [seq existsb]. rewrite Ek. cbn. rewrite orb_true_r. reflexivity. }
  unfold calc_Ceq_batch in E. rewrite HD2 in E. unfold Ceq_dv_batch in E.
  replace (eq_aa 2 K zz (fun i => y T r i / th)) with 0 in E.
  - rewrite (proj2 (P_Colloc.reqb_true 0 0) eq_refl) in E. discriminate.
  - unfold eq_aa, masked_sum. cbn [rsum]. unfold dv_idx. rewrite Z0, Ek. cbn [Nat.eqb]. rewrite <- L. unfold Rdiv. ring.
Qed.
Lemma totals T : 0 <= T -> y T 0%nat 0%nat + y T 0%nat 1%nat = b_CT b /\ forall r, (1 <= r <= nr)%nat -> y T r 0%nat + y T r 1%nat = b_Q b.
Proof.
  intros H2. destruct (radial_ok legendre jacobi nr Hr HG) as (HB & _). fold op in HB.
  assert (X : rsum (b_NION b) (y T 0%nat) = b_CT b /\ forall r, (1 <= r <= nr)%nat -> rsum (b_NION b) (y T r) = b_Q b).
  { apply (totals_kept psdm b op) with (Tf := T + 1); rewrite ?HN; try assumption; try lia; try lra.
    - apply HT.
    - intros t Ht. unfold admissible, btheta. apply nonneg_batch; rewrite ?HN; [lia|exact HK|lra|]. intros r H3 H4. split; [apply (comp t r); (assumption || lra)|].
      intros k Hk Ek. apply (divalent_there t r k); (assumption || lra). }
  rewrite HN in X. setoid_rewrite two in X. exact X.
Qed.
Lemma Qp : 0 < b_Q b.
Proof. destruct (totals 1 ltac:(lra)) as (_ & A). rewrite <- (A nr) by lia. destruct (HP 1 nr ltac:(lra) ltac:(lia) ltac:(right; reflexivity)) as (X & Y). lra. Qed.
Notation g0 := (coef 2 K zz 0).
Notation g1 := (coef 2 K zz 1).
Notation F := (iext g0 g1 th (b_Q b) (b_CT b) (zz 1%nat)).
Lemma g0p : 0 < g0. Proof. apply coef_pos; [exact HK|lia]. Qed.
Lemma g1p : 0 < g1. Proof. apply coef_pos; [exact HK|lia]. Qed.
Lemma z1 : zz 1%nat = 1%nat \/ zz 1%nat = 2%nat. Proof. apply HV. lia. Qed.
Lemma surface_range T r : 0 < T -> (1 <= r <= nr)%nat -> psdm = true \/ r = nr -> 0 <= y T r 1%nat <= b_Q b.
Proof. intros H2 H3 H4. destruct (HP T r H2 H3 H4). destruct (totals T ltac:(lra)) as (_ & A). specialize (A r H3). lra. Qed.
Lemma Ceq_is T r C : 0 < T -> (1 <= r <= nr)%nat -> psdm = true \/ r = nr -> calc_Ceq_batch 2 K zz (fun i => y T r i / th) (b_CT b) = Some C ->
  C 1%nat = F (y T r 1%nat).
Proof.
  intros H2 H3 H4 E. assert (CO := comp T r H2 H3 H4). destruct (computed_equilibrium_batch 2 K zz _ (b_CT b) C ltac:(lia) HK HV CO ltac:(lra) E) as (EQ & S & NN).
  destruct (equilibrium_ratio 2 K zz _ C ltac:(lia) HK HV CO EQ NN ltac:(lra)) as (rho & RP & RE).
  assert (R0 := RE 0%nat ltac:(lia)). assert (R1 := RE 1%nat ltac:(lia)). destruct HV as (Z0 & _). rewrite Z0, pow_1 in R0.
  assert (SR := surface_range T r H2 H3 H4). destruct (totals T ltac:(lra)) as (_ & A). specialize (A r H3). rewrite two in S. assert (X := thp).
  rewrite iext_in by exact SR. unfold ifun.
  rewrite <- (irho_unique g0 g1 th (b_Q b) (b_CT b) (zz 1%nat) g0p g1p X Qp HCT z1 (y T r 1%nat) rho SR RP).
  - rewrite R1. unfold iA. field. lra.
  - rewrite <- S, R0, R1. unfold iA, iB. rewrite <- A. field. lra.
Qed.

Notation al := (b_VL b / (3 * b_VR b)).
Notation kf := (b_kL b / b_rb b).
Notation dd := (if psdm then b_EPOR b * (b_Dp b - b_Ds b) else 0).
Notation CL := (fun T => y T 0%nat 1%nat).
Notation YL := (fun i T => y T (S i) 1%nat).
Notation u3 := (rootsu jacobi nr (INR 3)).
Lemma i3 : INR 3 = 3. Proof. simpl. ring. Qed.
Lemma oB : rBr op = Bx nr u3 (INR 3).
Proof. unfold op, build_radial, build_collocation, recur_colloc_symm. rewrite i3. reflexivity. Qed.
Lemma oW : rWr op = Wx nr u3 (INR 3).
Proof. unfold op, build_radial, build_collocation, recur_colloc_symm. rewrite i3. reflexivity. Qed.
Lemma follows_mono : (forall t, evolves 0 t CL (fun T => - (kf / al) * flm nr F CL YL T)) /\
  forall i t, (i < nr)%nat -> evolves 0 t (YL i) (dYm jacobi nr F dd (b_Ds b) kf (b_rb b ^ 2) CL YL i).
Proof.
  assert (RT : forall Tf d T, (forall T, 0 < T < Tf -> batch_rhs psdm b op (y T) = Some (d T)) -> 0 < T < Tf ->
    exists Ceq, d T 0%nat 1%nat = 3 * b_VR b / b_rb b * (- b_kL b * (y T 0%nat 1%nat - Ceq)) / b_VL b /\ Ceq = F (y T nr 1%nat) /\
    forall i, (i < nr)%nat -> d T (S i) 1%nat = dYm jacobi nr F dd (b_Ds b) kf (b_rb b ^ 2) CL YL i T).
  { intros Tf d T Hd H2. assert (E := Hd T H2). assert (EN : S (nr - 1) = nr) by lia. assert (RB : b_rb b <> 0) by lra.
    assert (PW : forall i, (i < nr)%nat -> 0 < rWr op i) by (intros i Hi; rewrite oW; apply (code_weights jacobi nr 2 Hr HJ), Hi).
    assert (CE := Ceq_is T). 
    assert (Y : exists Ceq dq, d T = batch_assemble b op (y T) Ceq dq /\ Ceq 1%nat = F (y T nr 1%nat) /\
      forall k, (k < nr)%nat -> dq k 1%nat = dif jacobi nr F dd (b_Ds b) (b_rb b ^ 2) YL k T).
    { revert E CE. unfold batch_rhs, btheta. destruct psdm.
      - unfold diffun_psdm_batch. rewrite HN. destruct (pore_liquid b (y T) nr) as [P|] eqn:EP; [|discriminate].
        destruct (calc_Ceq_batch 2 K zz _ _) as [C|] eqn:EC; [|discriminate]. intros E CE. apply Some_inj in E. eexists _, _. split; [symmetry; exact E|].
        split; [apply (CE nr); (assumption || lra || lia || (left; reflexivity))|]. intros k Hk. cbv beta. unfold dif, apply_row, drv. rewrite oB.
        rewrite (rsum_ext nr (fun m => Bx nr u3 (INR 3) k m * P m 1%nat) (fun m => Bx nr u3 (INR 3) k m * iext g0 g1 (1 - b_EPOR b) (b_Q b) (b_CT b) (zz 1%nat) (y T (S m) 1%nat))).
        2:{ intros m Hm. f_equal. assert (X := pore_liquid_some b (y T) nr P EP m Hm). rewrite HN in X. apply (CE (S m)); (exact X || lra || lia || (left; reflexivity)). }
        unfold Rdiv. f_equal. rewrite <- !rsum_scal, <- rsum_plus. apply rsum_ext. intros; ring.
      - unfold diffun_hsdm_batch. rewrite HN. destruct (calc_Ceq_batch 2 K zz _ _) as [C|] eqn:EC; [|discriminate]. intros E CE. apply Some_inj in E. eexists _, _. split; [symmetry; exact E|].
        split.
        + apply (CE nr); [lra|lia|right; reflexivity|]. rewrite <- EC. f_equal. apply FunctionalExtensionality.functional_extensionality. intros i. field.
        + intros k Hk. cbv beta. unfold dif, apply_row, drv. rewrite oB. unfold Rdiv. rewrite <- rsum_scal, <- rsum_scal_r. apply rsum_ext. intros; ring. }
    destruct Y as (Ceq & dq & -> & CQ & DQ). exists (Ceq 1%nat). split; [reflexivity|]. split; [exact CQ|]. intros i Hi. unfold batch_assemble, dYm.
    destruct (Nat.eqb_spec i (nr - 1)) as [E1|E1]; [|apply DQ, Hi].
    rewrite (rsum_ext (nr - 1) (fun m => rWr op m * dq m 1%nat) (fun k => rWr op k * dif jacobi nr F dd (b_Ds b) (b_rb b ^ 2) YL k T)) by (intros m Hm; rewrite DQ by lia; reflexivity).
    rewrite oW. f_equal. f_equal. unfold flm. cbv beta. rewrite EN, CQ. field. exact RB. }
  split.
  - intros t. destruct (HT t) as (d & Hd & HE). apply (evolves_ext 0 t CL CL (fun T => d T 0%nat 1%nat)); [reflexivity| |apply HE; lia].
    intros T H2. destruct (RT t d T Hd H2) as (c & E & EC & _). rewrite E, EC. unfold flm. cbv beta. replace (S (nr - 1)) with nr by lia. field. lra.
  - intros i t Hi. destruct (HT t) as (d & Hd & HE). apply (evolves_ext 0 t (YL i) (YL i) (fun T => d T (S i) 1%nat)); [reflexivity| |apply HE; lia].
    intros T H2. destruct (RT t d T Hd H2) as (c & _ & _ & E). apply E, Hi.
Qed.
Lemma closed_unit f x l h : (forall T, 0 < T -> l <= f T <= h) -> vanishes (fun T => f T - x) -> l <= x <= h.
Proof.
  intros R V. split; apply Rnot_lt_le; intros O.
  - destruct (V (l - x) ltac:(lra)) as (T & H2). assert (X := H2 (Rmax T 1) (Rmax_l _ _)). assert (M := Rmax_r T 1). specialize (R (Rmax T 1) ltac:(lra)). apply Rabs_def2 in X. lra.
  - destruct (V (x - h) ltac:(lra)) as (T & H2). assert (X := H2 (Rmax T 1) (Rmax_l _ _)). assert (M := Rmax_r T 1). specialize (R (Rmax T 1) ltac:(lra)). apply Rabs_def2 in X. lra.
Qed.
Theorem reactor_settles : exists q C : nat -> R, C 1%nat = F (q 1%nat) /\
  (forall i, (i < 2)%nat -> 0 <= q i /\ 0 <= C i) /\ in_equilibrium 2 K zz (fun i => q i / th) C /\
  rsum 2 q = b_Q b /\ rsum 2 C = b_CT b /\
  (forall i, (i < 2)%nat -> b_VL b * C i + b_VR b * q i = amount nr (rWr op) (b_VL b) (b_VR b) (y 0) i) /\
  forall i, (i < 2)%nat -> vanishes (fun T => y T 0%nat i - C i) /\ forall r, (1 <= r <= nr)%nat -> vanishes (fun T => y T r i - q i).
Proof.
  destruct (iext_bilip g0 g1 th (b_Q b) (b_CT b) (zz 1%nat) g0p g1p thp Qp HCT z1) as (m & L & Pm & BL).
  destruct follows_mono as (FC & FY).
  assert (DDp : 0 <= dd). { destruct psdm; [|lra]. destruct (Hpor eq_refl). apply Rmult_le_pos; lra. }
  assert (KF : 0 < kf) by (apply Rdiv_lt_0_compat; assumption). assert (R2 : 0 < b_rb b ^ 2) by (apply pow_lt; exact Hrb). assert (AL : 0 < al) by (apply Rdiv_lt_0_compat; lra).
  destruct (mono_settles jacobi nr Hr HJ F m L Pm (iext_0 g0 g1 th (b_Q b) (b_CT b) (zz 1%nat) Qp) BL dd (b_Ds b) kf (b_rb b ^ 2) al DDp HD KF R2 AL 0 CL YL FC FY) as (x & HX & VC & VY).
  assert (VS : vanishes (fun T => y T nr 1%nat - x)). { assert (V := VY (nr - 1)%nat ltac:(lia)). cbv beta in V. replace (S (nr - 1)) with nr in V by lia. exact V. }
  assert (RX : 0 <= x <= b_Q b). { apply (closed_unit (fun T => y T nr 1%nat)); [|exact VS]. intros T H2. apply (surface_range T nr); (assumption || lia || (right; reflexivity)). }
  assert (QP := Qp). assert (TP := thp).
  destruct (irho_spec g0 g1 th (b_Q b) (b_CT b) (zz 1%nat) g0p g1p thp Qp HCT z1 x RX) as (RP & RE).
  assert (FR := ifun_range g0 g1 th (b_Q b) (b_CT b) (zz 1%nat) g0p g1p thp Qp HCT z1 x RX).
  assert (EF : F x = ifun g0 g1 th (b_Q b) (b_CT b) (zz 1%nat) x) by (apply iext_in, RX).
  set (rho := irho g0 g1 th (b_Q b) (b_CT b) (zz 1%nat) x) in *. rewrite EF in *. set (c := ifun g0 g1 th (b_Q b) (b_CT b) (zz 1%nat) x) in *.
  assert (WS : rsum nr (rWr op) = 1 / 3) by (destruct (radial_ok legendre jacobi nr Hr HG) as (_ & _ & S); exact S).
  assert (A1 : b_VL b * c + b_VR b * x = amount nr (rWr op) (b_VL b) (b_VR b) (y 0) 1%nat).
  { unfold hold in HX. rewrite <- oW in HX. unfold amount. apply (Rmult_eq_compat_l (3 * b_VR b)) in HX.
    transitivity (3 * b_VR b * (al * c + x / 3)); [field; lra|]. rewrite HX. field. lra. }
  assert (TT : forall i, (i < 2)%nat -> amount nr (rWr op) (b_VL b) (b_VR b) (y 0) 0%nat + amount nr (rWr op) (b_VL b) (b_VR b) (y 0) 1%nat = b_VL b * b_CT b + b_VR b * b_Q b).
  { intros _ _. unfold amount. destruct (totals 0 ltac:(lra)) as (S0 & S1).
    transitivity (b_VL b * (y 0 0%nat 0%nat + y 0 0%nat 1%nat) + b_VR b * (3 * rsum nr (fun m => rWr op m * (y 0 (S m) 0%nat + y 0 (S m) 1%nat)))).
    - rewrite (rsum_ext nr (fun m => rWr op m * (y 0 (S m) 0%nat + y 0 (S m) 1%nat)) (fun m => rWr op m * y 0 (S m) 0%nat + rWr op m * y 0 (S m) 1%nat)) by (intros; ring). rewrite rsum_plus. ring.
    - rewrite S0. rewrite (rsum_ext nr (fun m => rWr op m * (y 0 (S m) 0%nat + y 0 (S m) 1%nat)) (fun m => rWr op m * b_Q b)) by (intros k Hk; rewrite S1 by lia; reflexivity).
      rewrite rsum_scal_r, WS. field. }
  specialize (TT 0%nat ltac:(lia)).
  exists (fun i => match i with O => b_Q b - x | _ => x end), (fun i => match i with O => b_CT b - c | _ => c end).
  split; [symmetry; exact EF|]. split; [intros [|[|i]] Hi; [| |lia]; lra|]. split.
  { apply (shape_equilibrium 2 K zz _ _ rho); [lia|exact HK|exact HV|]. destruct HV as (Z0 & _). intros [|[|i]] Hi; [| |lia].
    - rewrite Z0, pow_1. rewrite <- RE. unfold c, ifun. fold rho. unfold iB. field. lra.
    - unfold c, ifun. fold rho. unfold iA. field. lra. }
  split; [rewrite two; ring|]. split; [rewrite two; ring|]. split; [intros [|[|i]] Hi; [| |lia]; lra|].
  assert (V1 : forall r, (1 <= r <= nr)%nat -> vanishes (fun T => y T r 1%nat - x)).
  { intros r H2. assert (V := VY (r - 1)%nat ltac:(lia)). cbv beta in V. replace (S (r - 1)) with r in V by lia. exact V. }
  intros [|[|i]] Hi; [| |lia]; (split; [|intros r H2]).
  - apply (vanishes_le 1 0 (fun T => y T 0%nat 1%nat - c)); [lra| |exact VC]. intros T H2. destruct (totals T H2) as (A & _). right.
    replace (y T 0%nat 0%nat - (b_CT b - c)) with (- (y T 0%nat 1%nat - c)) by lra. rewrite Rabs_Ropp. ring.
  - apply (vanishes_le 1 0 (fun T => y T r 1%nat - x)); [lra| |apply V1, H2]. intros T H3. destruct (totals T H3) as (_ & A). specialize (A r H2). right.
    replace (y T r 0%nat - (b_Q b - x)) with (- (y T r 1%nat - x)) by lra. rewrite Rabs_Ropp. ring.
  - exact VC.
  - apply V1, H2.
Qed.
Lemma rest_fixed x x' : b_VL b * F x + b_VR b * x = b_VL b * F x' + b_VR b * x' -> x = x'.
Proof.
  destruct (iext_bilip g0 g1 th (b_Q b) (b_CT b) (zz 1%nat) g0p g1p thp Qp HCT z1) as (m & L & Pm & BL). intros E.
  assert (G : forall u v, u < v -> b_VL b * F u + b_VR b * u < b_VL b * F v + b_VR b * v).
  { intros u v O. assert (X := BL v u ltac:(lra)). assert (0 < m * (v - u)) by (apply Rmult_lt_0_compat; lra). assert (b_VL b * F u < b_VL b * F v) by (apply Rmult_lt_compat_l; lra).
    assert (b_VR b * u < b_VR b * v) by (apply Rmult_lt_compat_l; lra). lra. }
  destruct (Rtotal_order x x') as [O|[O|O]]; [|exact O|]; specialize (G _ _ O); lra.
Qed.
End Reactor.
