(** The last column of the radial operator: the surface of a bead raises the point next to it,
    lowers the next, and so on inwards. *)
From Coq Require Import Reals List Arith Bool Lra Lia.
From Verif Require Import Lib_Py Lib_Sum Lib_Poly Lib_Moment Lib_Traj M_Colloc S_Colloc P_Colloc S_Radial P_Radial Props_Negative.
Import ListNotations.
Open Scope R_scope.

Lemma pderiv_pmul p q y : peval (pderiv (pmul p q)) y = peval (pderiv p) y * peval q y + peval p y * peval (pderiv q) y.
Proof.
  apply (uniqueness_limite (peval (pmul p q)) y); [apply peval_deriv|].
  apply (derivable_pt_lim_ext (fun z => peval p z * peval q z)); [intros z; symmetry; apply peval_pmul|].
  apply (derivable_pt_lim_mult (peval p) (peval q)); apply peval_deriv.
Qed.
Lemma short_lap a P n : (length P <= n)%nat -> (2 <= n)%nat ->
  exists S, (length S <= n - 1)%nat /\ forall y, peval S y = 2 * a * peval (pderiv P) y + 4 * y * peval (pderiv (pderiv P)) y.
Proof.
  intros LP N. destruct (pderiv_short P (n - 1)) as (D & LD & ED & _); [lia|].
  destruct (pderiv_short D (n - 2)) as (D2 & LD2 & ED2 & _); [lia|].
  exists (padd (pscal (2 * a) D) (pscal 4 (0 :: D2))). split.
  - rewrite length_padd, !length_pscal. cbn [length]. lia.
  - intros y. rewrite peval_padd, !peval_pscal. cbn [peval]. rewrite ED, (pderiv_ext _ _ ED), ED2. ring.
Qed.
Lemma rsum_only n f i : (i < n)%nat -> (forall j, (j < n)%nat -> j <> i -> f j = 0) -> rsum n f = f i.
Proof.
  revert i. induction n as [|n IH]; intros i I H; [lia|]. cbn. destruct (Nat.eq_dec i n) as [->|NE].
  - rewrite (rsum_zero n) by (intros; apply H; lia). ring.
  - rewrite (IH i) by (try lia; intros; apply H; lia). rewrite (H n) by lia. ring.
Qed.

Lemma pmul_nil_len (l : list R) : (length (pmul l []) <= length l)%nat.
Proof. induction l as [|x l IH]; [cbn; lia|]. cbn. lia. Qed.
Section Column.
Variables (jac : nat -> R -> R -> nat -> R) (n d : nat).
Notation a := (INR (S d)).
Notation u := (rootsu jac n a).
Hypothesis Hn : (2 <= n)%nat.
Hypothesis HJ : jacobi_roots d (n - 1) (jac (n - 1)%nat (a / 2 + 1) (a / 2)).
Lemma ap : 0 < a. Proof. apply lt_0_INR. lia. Qed.
Lemma N1 : (1 <= n)%nat. Proof. lia. Qed.
Lemma HD : distinct n u. Proof. apply u_distinct; [exact N1|exact HJ]. Qed.
Let lst := (n - 1)%nat.
Let P := gpoly n u lst.
Lemma UL : u lst = 1. Proof. apply u_last. Qed.
Lemma LP : length P = n. Proof. apply g_len; [exact HD|unfold lst; lia]. Qed.
Lemma quad S : (length S <= 2 * n - 1)%nat -> rsum n (fun i => Wx n u a i * peval S (u i)) = mom a S.
Proof. apply code_quad; [exact N1|exact HJ]. Qed.
Let W := Wx n u a.
Lemma u_increasing i j : (i < j)%nat -> (j < n)%nat -> u i < u j.
Proof.
  intros Hij Hj. destruct HJ as ((H & H2) & _). destruct (Nat.eq_dec j (n - 1)) as [->|NE].
  - rewrite u_last, u_inner by lia. apply H. lia.
  - rewrite !u_inner by lia. apply H2; lia.
Qed.
(** The weight of the surface. *)
Lemma surface_weight : peval P 1 = W lst * (a * peval P 1 + 4 * peval (pderiv P) 1).
Proof.
  assert (LPn := LP). assert (NZ : peval P 1 <> 0) by (rewrite <- UL; apply g_own).
  assert (M := mom_parts (pmul P P) a ap). rewrite peval_pmul in M.
  destruct (pderiv_short P (n - 1)) as (D & LD & ED & _); [lia|].
  set (S := padd (pscal a (pmul P P)) (pscal 2 (0 :: padd (pmul D P) (pmul P D)))).
  rewrite (mom_ext a _ S) in M.
  2:{ intros y. unfold S. rewrite !peval_padd, !peval_pscal. cbn [peval]. rewrite pderiv_pmul, peval_padd, !peval_pmul, ED. ring. }
  rewrite <- (quad S) in M.
  2:{ unfold S. rewrite length_padd, !length_pscal. cbn [length]. rewrite length_padd.
      assert (A := length_pmul_pred P P ltac:(lia)). assert (B := length_pmul_pred D P ltac:(lia)).
      destruct (Nat.eq_dec (length D) 0) as [Z|Z]; [|assert (C := length_pmul_pred P D ltac:(lia)); lia].
      destruct D; [|discriminate Z]. assert (C : length (pmul P []) = length (pmul P []) ) by reflexivity.
      assert (forall l : list R, (length (pmul l []) <= length l)%nat) as G.
      { intros l. apply pmul_nil_len. }
      specialize (G P). lia. }
  rewrite (rsum_only n _ lst) in M; [|unfold lst; lia|].
  2:{ intros j J NJ. unfold S. rewrite !peval_padd, !peval_pscal. cbn [peval]. rewrite peval_padd, !peval_pmul.
      assert (E : peval P (u j) = 0) by (apply (g_other n u HD); unfold lst in *; lia). rewrite E. ring. }
  unfold S in M. rewrite !peval_padd, !peval_pscal in M. cbn [peval] in M. rewrite peval_padd, !peval_pmul, <- ED, UL in M.
  fold W in M. apply (Rmult_eq_reg_r (peval P 1)); [|exact NZ]. rewrite <- M. ring.
Qed.
(** The Laplacian of the polynomial that is zero inside. *)
Lemma inside i : (i < lst)%nat ->
  W i * px1 n u i * (2 * a * peval (pderiv P) (u i) + 4 * u i * peval (pderiv (pderiv P)) (u i)) * (1 - u i) ^ 2 = - 8 * W lst * peval P 1 ^ 2.
Proof.
  intros I. assert (LPn := LP). set (q := gpoly n u i). assert (Lq : length q = n) by (apply g_len; [exact HD|unfold lst in *; lia]).
  assert (B1 : u i < 1) by (rewrite <- UL; apply u_increasing; unfold lst in *; lia).
  destruct (short_lap a P n ltac:(lia) Hn) as (SP & LSP & ESP). destruct (short_lap a q n ltac:(lia) Hn) as (SQ & LSQ & ESQ).
  assert (E1 : mom a (pmul q SP) = W i * px1 n u i * peval SP (u i)).
  { rewrite <- quad.
    - rewrite (rsum_only n _ i); [|unfold lst in *; lia|].
      + rewrite peval_pmul, px1_g. fold q. fold W. ring.
      + intros j J NJ. rewrite peval_pmul. assert (E : peval q (u j) = 0) by (apply (g_other n u HD); unfold lst in *; lia). rewrite E. ring.
    - destruct (Nat.eq_dec (length SP) 0) as [Z|Z]; [|assert (C := length_pmul_pred q SP ltac:(lia)); lia].
      destruct SP; [|discriminate Z]. assert (forall l : list R, (length (pmul l []) <= length l)%nat) as G.
      { intros l. apply pmul_nil_len. }
      specialize (G q). lia. }
  assert (E2 : mom a (pmul P SQ) = W lst * peval P 1 * peval SQ 1).
  { rewrite <- quad.
    - rewrite (rsum_only n _ lst); [|unfold lst in *; lia|].
      + rewrite peval_pmul, UL. fold W. ring.
      + intros j J NJ. rewrite peval_pmul. assert (E : peval P (u j) = 0) by (apply (g_other n u HD); unfold lst in *; lia). rewrite E. ring.
    - destruct (Nat.eq_dec (length SQ) 0) as [Z|Z]; [|assert (C := length_pmul_pred P SQ ltac:(lia)); lia].
      destruct SQ; [|discriminate Z]. assert (forall l : list R, (length (pmul l []) <= length l)%nat) as G.
      { intros l. apply pmul_nil_len. }
      specialize (G P). lia. }
  (* parts *)
  set (f := padd (pmul q (pderiv P)) (pscal (-1) (pmul P (pderiv q)))).
  assert (M := mom_parts f a ap).
  assert (M2 : 2 * mom a (padd (pscal a f) (pscal 2 (0 :: pderiv f))) = mom a (pmul q SP) - mom a (pmul P SQ)).
  { replace (mom a (pmul q SP) - mom a (pmul P SQ)) with (mom a (pmul q SP) + (-1) * mom a (pmul P SQ)) by ring.
    rewrite <- !mom_pscal, <- mom_padd. apply mom_ext. intros y. rewrite !peval_pscal, !peval_padd, !peval_pscal, !peval_pmul, ESP, ESQ.
    cbn [peval].
    assert (DF : peval (pderiv f) y = peval q y * peval (pderiv (pderiv P)) y - peval P y * peval (pderiv (pderiv q)) y).
    { apply (uniqueness_limite (peval f) y); [apply peval_deriv|].
      apply (derivable_pt_lim_ext (fun z => peval (pmul q (pderiv P)) z - peval (pmul P (pderiv q)) z)).
      - intros z. unfold f. rewrite peval_padd, peval_pscal. ring.
      - replace (peval q y * peval (pderiv (pderiv P)) y - peval P y * peval (pderiv (pderiv q)) y) with (peval (pderiv (pmul q (pderiv P))) y - peval (pderiv (pmul P (pderiv q))) y) by (rewrite !pderiv_pmul; ring).
        apply (derivable_pt_lim_minus (peval (pmul q (pderiv P))) (peval (pmul P (pderiv q)))); apply peval_deriv. }
    rewrite DF. unfold f. rewrite peval_padd, peval_pscal, !peval_pmul. ring. }
  rewrite M in M2. unfold f in M2. rewrite peval_padd, peval_pscal, !peval_pmul in M2.
  assert (Q1 : peval q 1 = 0) by (rewrite <- UL; apply (g_other n u HD); unfold lst in *; lia).
  (* (x - u i) q = (x - 1) P *)
  assert (NN : forall y, peval (pmul_lin (u i) q) y = peval (pmul_lin 1 P) y).
  { intros y. rewrite !peval_pmul_lin. rewrite <- UL at 1. unfold q, P. rewrite !(g_nodal n u HD) by (unfold lst in *; lia). reflexivity. }
  assert (DL : forall r p y, peval (pderiv (pmul_lin r p)) y = peval p y + (y - r) * peval (pderiv p) y).
  { intros r p y. apply (uniqueness_limite (peval (pmul_lin r p)) y); [apply peval_deriv|].
    apply (derivable_pt_lim_ext (fun z => (z - r) * peval p z)); [intros z; symmetry; apply peval_pmul_lin|].
    replace (peval p y + (y - r) * peval (pderiv p) y) with (1 * peval p y + (y - r) * peval (pderiv p) y) by ring.
    apply (derivable_pt_lim_mult (fun z => z - r) (peval p)); [|apply peval_deriv].
    replace 1 with (1 - 0) by ring. apply (derivable_pt_lim_minus id (fct_cte r)); [apply derivable_pt_lim_id|apply derivable_pt_lim_const]. }
  assert (N2 : forall y, peval (padd q (pmul_lin (u i) (pderiv q))) y = peval (padd P (pmul_lin 1 (pderiv P))) y).
  { intros y. rewrite !peval_padd, !peval_pmul_lin, <- !DL. apply pderiv_ext, NN. }
  assert (F1 := N2 1). rewrite !peval_padd, !peval_pmul_lin in F1. rewrite Q1 in F1.
  assert (F2 := pderiv_ext _ _ N2 1). rewrite !pderiv_padd, !DL in F2.
  assert (SW := surface_weight). assert (EQ := ESQ 1). assert (EP := ESP (u i)). rewrite E1, E2, EQ in M2. rewrite EP in M2.
  rewrite Q1 in M2. set (p := peval P 1) in *. set (p' := peval (pderiv P) 1) in *. set (q' := peval (pderiv q) 1) in *. set (q'' := peval (pderiv (pderiv q)) 1) in *.
  set (w := W lst) in *. set (b := 1 - u i) in *.
  set (X := W i * px1 n u i * (2 * a * peval (pderiv P) (u i) + 4 * u i * peval (pderiv (pderiv P)) (u i))) in *.
  assert (XE : X = w * p * (2 * a * q' + 4 * 1 * q'') - 2 * p * q') by lra. rewrite XE.
  assert (A1 : p = b * q') by lra. assert (A2 : 2 * p' = 2 * q' + b * q'') by lra.
  clearbody p p' q' q'' w b X. clear - SW A1 A2.
  assert (A3 : b * q'' = 2 * p' - 2 * q') by lra.
  replace ((w * p * (2 * a * q' + 4 * 1 * q'') - 2 * p * q') * b ^ 2) with (2 * b * p * (w * (a * (b * q') + 2 * (b * q'')) - b * q')) by ring.
  rewrite A3, <- A1. replace (w * (a * p + 2 * (2 * p' - 2 * q')) - p) with (w * (a * p + 4 * p') - p - 4 * w * q') by ring. rewrite <- SW, A1. ring.
Qed.
Lemma last_entry i : (i < n)%nat -> Bx n u a i lst * peval P 1 = 2 * a * peval (pderiv P) (u i) + 4 * u i * peval (pderiv (pderiv P)) (u i).
Proof.
  intros I. assert (LPn := LP). rewrite <- (Bx_list n u a HD P i ltac:(lia) I). unfold apply_row. rewrite (rsum_only n _ lst); [rewrite UL; reflexivity|unfold lst; lia|].
  intros j J NJ. assert (E : peval P (u j) = 0) by (apply (g_other n u HD); unfold lst in *; lia). rewrite E. ring.
Qed.
(** The signs, from the surface inwards: +, -, +, ... *)
Theorem last_column_sign i : (i < n - 1)%nat -> 0 < (-1) ^ (n - i) * Bx n u a i (n - 1)%nat.
Proof.
  intros I. assert (IN := inside i I). rewrite <- last_entry in IN by lia. fold lst.
  assert (PX := px1_sign n u u_increasing i ltac:(lia)). assert (PL := px1_sign n u u_increasing lst ltac:(unfold lst; lia)).
  replace (n - 1 - lst)%nat with 0%nat in PL by (unfold lst; lia). rewrite px1_g in PL. fold P in PL. rewrite UL in PL. cbn [pow] in PL.
  destruct (code_weights jac n d N1 HJ) as (HW & _). assert (W0 := HW i ltac:(lia)). assert (W1 := HW lst ltac:(unfold lst; lia)). fold W in W0, W1.
  assert (B1 : u i < 1) by (rewrite <- UL; apply u_increasing; unfold lst in *; lia).
  replace (n - i)%nat with (S (n - 1 - i)) by lia. cbn [pow]. set (s := (-1) ^ (n - 1 - i)) in *.
  assert (S2 : s * s = 1) by (unfold s; rewrite <- Rpow_mult_distr; replace (-1 * -1) with 1 by ring; apply pow1).
  set (B := Bx n u a i lst) in *. set (p := peval P 1) in *. set (x := px1 n u i) in *. set (b := 1 - u i) in *.
  assert (K : 0 < W i * (s * x) * p * b ^ 2).
  { apply Rmult_lt_0_compat; [|apply pow_lt; unfold b; lra]. apply Rmult_lt_0_compat; [apply Rmult_lt_0_compat; assumption|lra]. }
  assert (E : W i * (s * x) * p * b ^ 2 * (-1 * s * B) = 8 * W lst * p ^ 2).
  { transitivity (- (s * s) * (W i * x * (B * p) * b ^ 2)); [ring|]. rewrite IN, S2. ring. }
  assert (Z : 0 < 8 * W lst * p ^ 2) by (apply Rmult_lt_0_compat; [lra|apply pow_lt; lra]).
  apply (Rmult_lt_reg_l (W i * (s * x) * p * b ^ 2)); [exact K|]. rewrite Rmult_0_r, E. exact Z.
Qed.
End Column.
