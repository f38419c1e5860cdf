(** Kernels of the collocation operators: profiles they do not see are constant. *)
From Coq Require Import Reals List Arith Lra Lia.
From Verif Require Import Lib_Py Lib_Sum Lib_Poly Lib_Moment M_Colloc S_Colloc P_Colloc P_Ocfe P_Radial.
Import ListNotations.
Open Scope R_scope.

(** Points that are distinct as a list. *)
Lemma points_nodup (x : nat -> R) a m n : distinct n x -> (a + m <= n)%nat -> NoDup (map x (seq a m)).
Proof.
  intros HD. revert a. induction m as [|m IH]; intros a H; cbn [seq map]; [constructor|]. constructor; [|apply IH; lia].
  intros I. apply in_map_iff in I. destruct I as (j & E & J). apply in_seq in J. assert (j = a) by (apply HD; try lia; exact E). lia.
Qed.
(** A polynomial that vanishes away from zero. *)
Lemma poly_zero c : (forall y, y <> 0 -> peval c y = 0) -> forall y, peval c y = 0.
Proof.
  intros H. apply (root_count c (map INR (seq 1 (length c)))).
  - apply FinFun.Injective_map_NoDup; [intros a b; apply INR_eq|apply seq_NoDup].
  - rewrite map_length, seq_length. lia.
  - intros r I. apply in_map_iff in I. destruct I as (k & <- & K). apply in_seq in K. apply H. apply not_0_INR. lia.
Qed.

(** ** Along the bed *)
Section Element.
Variables (n : nat) (x : nat -> R).
Hypothesis HD : distinct n x.
Lemma A_kernel f : (forall i, (1 <= i < n)%nat -> apply_row n (Amat n x) f i = 0) -> forall j, (j < n)%nat -> f j = f 0%nat.
Proof.
  intros H j Hj. destruct (interpolant n x f HD) as (c & Hc).
  assert (LP : (length (coefs n c) <= S (n - 1))%nat) by (rewrite length_coefs; lia).
  destruct (pderiv_short (coefs n c) (n - 1) LP) as (d & Ld & Ed & _).
  assert (E : forall i, (i < n)%nat -> apply_row n (Amat n x) f i = peval (pderiv (coefs n c)) (x i)).
  { intros i Hi. rewrite <- (A_exact_list n x HD (coefs n c) i) by (rewrite ?length_coefs; lia). unfold apply_row. apply rsum_ext. intros k Hk.
    rewrite <- (poly_peval n c), Hc by exact Hk. reflexivity. }
  assert (Z : forall y, peval d y = 0).
  { apply (root_count d (map x (seq 1 (n - 1)))).
    - apply (points_nodup x 1 (n - 1) n HD). lia.
    - rewrite map_length, seq_length. exact Ld.
    - intros r I. apply in_map_iff in I. destruct I as (k & <- & K). apply in_seq in K. rewrite <- Ed, <- E by lia. apply H. lia. }
  rewrite <- (Hc j Hj), <- (Hc 0%nat) by lia. rewrite !(poly_peval n c). apply peval_const. intros z. rewrite Ed. apply Z.
Qed.
End Element.

(** ** Finite elements *)
Section Elements.
Variables (leg : nat -> nat -> R) (NE L : nat).
Hypothesis HE : (1 <= NE)%nat.
Hypothesis HL : (1 <= L)%nat.
Hypothesis HR : interior_roots (L - 1) (leg (L - 1)%nat).
Notation x := (rootsz leg (S L)).
Notation A := (Amat (S L) x).
Notation NZ := (NE * L + 1)%nat.
Variable f : nat -> R.
Hypothesis Z : forall z, (1 <= z < NZ)%nat -> rsum NZ (fun j => Adv leg NE L z j * f j) = 0.
Lemma interior_row k p : (k < NE)%nat -> (1 <= p <= L)%nat -> (p < L \/ S k = NE)%nat -> apply_row (S L) A (fun j => f (k * L + j)%nat) p = 0.
Proof.
  intros Hk Hp Hc. assert (PN := INR_NE NE L HE HL). assert (B : (k * L + L <= NE * L)%nat) by (assert (S k * L <= NE * L)%nat by (apply Nat.mul_le_mono_r; lia); lia).
  assert (E := Z (k * L + p) ltac:(lia)).
  rewrite (rsum_window NE L HE HL NZ (k * L) (S L)) in E by
    (try lia; intros j Hj1 Hj2; rewrite (Adv_interior leg NE L HE HL) by lia;
     destruct (Nat.leb_spec (k * L) j), (Nat.ltb_spec j (k * L + L + 1)); cbn [andb]; try lra; lia).
  apply Rmult_eq_reg_l with (INR NE); [|lra]. rewrite Rmult_0_r, <- E. unfold apply_row. rewrite <- rsum_scal. apply rsum_ext. intros q Hq.
  rewrite (Adv_interior leg NE L HE HL) by lia. rewrite (proj2 (Nat.leb_le _ _)), (proj2 (Nat.ltb_lt _ _)) by lia. cbn [andb].
  replace (k * L + q - k * L)%nat with q by lia. ring.
Qed.
(** Where elements meet, if the next one is constant. *)
Lemma joint_row k : (S k < NE)%nat -> (forall p, (p <= L)%nat -> f (S k * L + p)%nat = f (S k * L)%nat) -> apply_row (S L) A (fun j => f (k * L + j)%nat) L = 0.
Proof.
  intros Hk HC. assert (PN := INR_NE NE L HE HL). assert (B : (S k * L + L <= NE * L)%nat) by (assert (S (S k) * L <= NE * L)%nat by (apply Nat.mul_le_mono_r; lia); lia).
  assert (E := Z (k * L + L) ltac:(lia)). assert (HQ := Qd_pos leg NE L HE HL HR).
  assert (A0 : 0 < -1 * A 0%nat 0%nat).
  { destruct (x_facts leg NE L HE HL HR) as (X0 & X1 & HI). apply (A_diag_sign leg NE L HE HL (-1) 0%nat L); [lia| |].
    - intros j J. destruct (Nat.eq_dec j 0) as [->|]; [lra|]. assert (x 0%nat < x j) by (apply HI; lia). lra.
    - assert (x 0%nat < x L) by (apply HI; lia). lra. }
  assert (R0 := A_constant (S L) x (x_distinct leg NE L HE HL HR) (f (S k * L)%nat) 0 ltac:(lia)). unfold apply_row in R0. rewrite rsum_S_first in R0.
  rewrite (rsum_window NE L HE HL NZ (k * L) (L + S L)) in E.
  - rewrite rsum_app in E.
    rewrite (rsum_ext L _ (fun q => (1 - A L L / Qd leg L) * (INR NE * A L q * f (k * L + q)%nat))) in E.
    2:{ intros q Hq. rewrite (Adv_joint leg NE L HE HL) by (unfold P_Ocfe.NZ; lia).
        rewrite (proj2 (Nat.leb_le _ _)), (proj2 (Nat.ltb_lt _ _)) by lia. cbn [andb].
        replace (k * L + q - k * L)%nat with q by lia. field. lra. }
    rewrite rsum_S_first in E.
    rewrite (rsum_ext L (fun i => Adv leg NE L (k * L + L)%nat (k * L + (L + S i))%nat * f (k * L + (L + S i))%nat)
               (fun q => A L L / Qd leg L * INR NE * (A 0%nat (S q) * f (S k * L)%nat))) in E.
    2:{ intros q Hq. rewrite (Adv_joint leg NE L HE HL) by (unfold P_Ocfe.NZ; lia).
        rewrite (proj2 (Nat.ltb_ge (k * L + (L + S q)) (k * L + L))) by lia.
        rewrite Bool.andb_false_r.
        rewrite (proj2 (Nat.leb_le (k * L + L + 1) _)), (proj2 (Nat.ltb_lt _ (k * L + 2 * L + 1))) by lia.
        cbn [andb].
        replace (k * L + (L + S q) - (k * L + L))%nat with (S q) by lia.
        replace (k * L + (L + S q))%nat with (S k * L + S q)%nat by lia. rewrite HC by lia. field. lra. }
    rewrite (Adv_joint leg NE L HE HL) in E by (unfold P_Ocfe.NZ; lia).
    rewrite (proj2 (Nat.ltb_ge (k * L + (L + 0)) (k * L + L))) in E by lia.
    rewrite Bool.andb_false_r in E. rewrite (proj2 (Nat.leb_gt (k * L + L + 1) _)) in E by lia. cbn [andb] in E.
    rewrite !rsum_scal in E. unfold apply_row. cbn [rsum]. replace (k * L + L)%nat with (S k * L)%nat in * by lia.
    rewrite (rsum_ext L (fun q => INR NE * A L q * f (k * L + q)%nat) (fun q => INR NE * (A L q * f (k * L + q)%nat))) in E by (intros; ring). rewrite rsum_scal in E.
    set (S1 := rsum L (fun q => A L q * f (k * L + q)%nat)) in *.
    set (S2 := rsum L (fun i => A 0%nat (S i) * f (S k * L)%nat)) in *.
    set (fj := f (S k * L)%nat) in *. unfold Qd in *. set (a := A L L) in *. set (b := A 0%nat 0%nat) in *.
    assert (E2 : S2 = - (b * fj)) by lra. rewrite E2 in E.
    apply Rmult_eq_reg_l with (INR NE * (- b) / (a - b)); [|apply Rgt_not_eq; apply Rdiv_lt_0_compat; [apply Rmult_lt_0_compat; lra|lra]].
    rewrite Rmult_0_r, <- E. field. lra.
  - lia.
  - intros j Hj1 Hj2. rewrite (Adv_joint leg NE L HE HL) by (unfold P_Ocfe.NZ; lia).
    destruct (Nat.leb_spec (k * L) j), (Nat.ltb_spec j (k * L + L)); cbn [andb]; try lia;
    destruct (Nat.leb_spec (k * L + L + 1) j), (Nat.ltb_spec j (k * L + 2 * L + 1)); cbn [andb]; try lra; lia.
Qed.
Lemma element_constant m k : (k + S m = NE)%nat -> forall p, (p <= L)%nat -> f (k * L + p)%nat = f (k * L)%nat.
Proof.
  revert k. induction m as [|m IH]; intros k E p Hp; rewrite <- (Nat.add_0_r (k * L)) at 2;
    apply (A_kernel (S L) x (x_distinct leg NE L HE HL HR) (fun j => f (k * L + j)%nat)); try lia; intros i Hi.
  - apply interior_row; lia.
  - destruct (Nat.eq_dec i L) as [->|]; [|apply interior_row; lia]. apply joint_row; [lia|]. apply IH. lia.
Qed.
Lemma bed_constant z : (z < NZ)%nat -> f z = f 0%nat.
Proof.
  assert (J : forall k, (k <= NE)%nat -> f (k * L)%nat = f 0%nat).
  { induction k as [|k IHk]; intros Hk; [reflexivity|]. rewrite <- IHk by lia. replace (S k * L)%nat with (k * L + L)%nat by lia. apply (element_constant (NE - S k)); lia. }
  intros Hz. destruct (split_index NE L HE HL z Hz) as [->|(k & p & Hk & Hp & ->)]; [reflexivity|].
  rewrite (element_constant (NE - S k)) by lia. apply J. lia.
Qed.
End Elements.

(** ** Inside a bead *)
Lemma radial_zero D : forall b, 0 < b -> (forall y, b * peval D y + 4 * y * peval (pderiv D) y = 0) -> forall y, peval D y = 0.
Proof.
  induction D as [|d E IH]; intros b Hb H; [reflexivity|].
  assert (D0 : d = 0).
  { specialize (H 0). cbn [peval] in H. rewrite !Rmult_0_r, !Rmult_0_l, !Rplus_0_r in H. apply Rmult_integral in H. destruct H; [lra|assumption]. }
  subst d. assert (HE : forall y, peval E y = 0).
  { apply (IH (b + 4)); [lra|]. set (c := padd (pscal (b + 4) E) (pscal 4 (0 :: pderiv E))).
    assert (EV : forall y, peval c y = (b + 4) * peval E y + 4 * y * peval (pderiv E) y) by (intros y; unfold c; rewrite peval_padd, !peval_pscal; cbn [peval]; ring).
    intros y. rewrite <- EV. apply poly_zero. intros z Hz. rewrite EV. apply Rmult_eq_reg_l with z; [|exact Hz]. rewrite Rmult_0_r, <- (H z).
    cbn [peval pderiv]. rewrite peval_padd. cbn [peval]. ring. }
  intros y. cbn [peval]. rewrite HE. ring.
Qed.
Section Bead.
Variables (n : nat) (u : nat -> R) (a : R) (B : nat -> nat -> R).
Hypothesis HD : distinct n u.
Hypothesis Ha : 0 < a.
Hypothesis HB : forall P i, (length P <= n)%nat -> (i < n)%nat ->
  rsum n (fun j => B i j * peval P (u j)) = 2 * a * peval (pderiv P) (u i) + 4 * u i * peval (pderiv (pderiv P)) (u i).
Lemma B_kernel f : (forall i, (i < n - 1)%nat -> rsum n (fun j => B i j * f j) = 0) -> forall j, (j < n)%nat -> f j = f (n - 1)%nat.
Proof.
  intros H j Hj. destruct (interpolant n u f HD) as (c & Hc).
  assert (LP : (length (coefs n c) <= S (n - 1))%nat) by (rewrite length_coefs; lia).
  destruct (pderiv_short (coefs n c) (n - 1) LP) as (d & Ld & Ed & _).
  set (l := padd (pscal (2 * a) d) (pscal 4 (0 :: pderiv d))).
  assert (Ll : exists l', (length l' <= n - 1)%nat /\ forall y, peval l' y = 2 * a * peval d y + 4 * y * peval (pderiv d) y).
  { destruct (n - 1)%nat as [|m] eqn:E.
    - exists []. split; [cbn; lia|]. intros y. destruct d; [cbn; ring|cbn in Ld; lia].
    - destruct (pderiv_short d m ltac:(lia)) as (d' & Ld' & Ed' & _).
      exists (padd (pscal (2 * a) d) (pscal 4 (0 :: d'))). split; [rewrite length_padd, !length_pscal; cbn [length]; lia|].
      intros y. rewrite peval_padd, !peval_pscal. cbn [peval]. rewrite Ed'. ring. }
  destruct Ll as (l' & Ll' & El').
  assert (Zl : forall y, peval l' y = 0).
  { apply (root_count l' (map u (seq 0 (n - 1)))).
    - apply (points_nodup u 0 (n - 1) n HD). lia.
    - rewrite map_length, seq_length. exact Ll'.
    - intros r I. apply in_map_iff in I. destruct I as (k & <- & K). apply in_seq in K.
      rewrite El', <- !Ed, <- (pderiv_ext _ _ Ed). rewrite <- (HB (coefs n c) k) by (rewrite ?length_coefs; lia).
      rewrite <- (H k) by lia. apply rsum_ext. intros q Hq. rewrite <- (poly_peval n c), Hc by exact Hq. reflexivity. }
  assert (Z : forall y, peval d y = 0).
  { apply (radial_zero d (2 * a)); [lra|]. intros y. rewrite <- El'. apply Zl. }
  rewrite <- (Hc j Hj), <- (Hc (n - 1)%nat) by lia. rewrite !(poly_peval n c). apply peval_const. intros z. rewrite Ed. apply Z.
Qed.
End Bead.
