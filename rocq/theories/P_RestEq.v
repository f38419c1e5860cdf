(** Uniqueness of ion-exchange equilibria under a linear constraint per ion. *)
From Coq Require Import Reals List Arith Bool Lra Lia.
From Verif Require Import Lib_Py Lib_Sum S_IxEq S_IxColumn.
Import ListNotations.
Open Scope R_scope.

Section Exchange.
Variables (n : nat) (k : nat -> R) (z : nat -> nat) (a b : nat -> R).
Hypothesis Hn : (0 < n)%nat.
Hypothesis Hk : forall i, (i < n)%nat -> 0 < k i.
Hypothesis Hz0 : z 0%nat = 1%nat.
Hypothesis Hab : forall i, (1 <= i < n)%nat -> 0 <= a i /\ 0 <= b i /\ 0 < a i + b i.
Lemma sum_same_le f g : (forall i, (i < n)%nat -> f i <= g i) -> rsum n f = rsum n g -> forall i, (i < n)%nat -> f i = g i.
Proof.
  clear. revert f g. induction n as [|m IH]; intros f g H E i Hi; [lia|]. cbn [rsum] in E.
  assert (L : rsum m f <= rsum m g) by (apply rsum_le; intros; apply H; lia).
  assert (T := H m ltac:(lia)). destruct (Nat.eq_dec i m) as [->|]; [lra|]. apply IH; try lia; [intros; apply H; lia|lra].
Qed.
Lemma exchange_ordered q q' c c' rho rho' :
  (forall i, (i < n)%nat -> 0 <= q i) -> (forall i, (i < n)%nat -> 0 <= q' i) -> 0 < q 0%nat -> 0 < rho -> rho <= rho' ->
  (forall i, (i < n)%nat -> c i = k i * q i * rho ^ z i) -> (forall i, (i < n)%nat -> c' i = k i * q' i * rho' ^ z i) ->
  (forall i, (1 <= i < n)%nat -> a i * c i + b i * q i = a i * c' i + b i * q' i) ->
  rsum n q = rsum n q' -> rsum n c = rsum n c' -> forall i, (i < n)%nat -> q i = q' i.
Proof.
  intros Q Q' Q0 R RR C C' E SQ SC.
  assert (P : forall i, 0 < rho ^ z i) by (intros; apply pow_lt; exact R).
  assert (P2 : forall i, rho ^ z i <= rho' ^ z i) by (intros; apply pow_incr; lra).
  assert (D : forall i, (1 <= i < n)%nat -> q' i <= q i /\ c i <= c' i).
  { intros i Hi. destruct (Hab i Hi) as (A & B & AB). assert (K := Hk i ltac:(lia)). assert (Ei := E i Hi). rewrite C, C' in Ei by lia.
    assert (P1 := P i). assert (P3 := P2 i). assert (Qi := Q i ltac:(lia)). assert (Qi' := Q' i ltac:(lia)).
    set (r := rho ^ z i) in *. set (r' := rho' ^ z i) in *.
    assert (W : 0 < a i * k i * r + b i).
    { destruct (Req_dec (a i) 0) as [A0|A0]; [rewrite A0 in *; lra|]. assert (0 < a i * k i * r) by (apply Rmult_lt_0_compat; [apply Rmult_lt_0_compat; lra|lra]). lra. }
    assert (W' : a i * k i * r + b i <= a i * k i * r' + b i) by (apply Rplus_le_compat_r; apply Rmult_le_compat_l; [apply Rmult_le_pos; lra|exact P3]).
    assert (F : q i * (a i * k i * r + b i) = q' i * (a i * k i * r' + b i)) by lra.
    assert (LQ : q' i <= q i).
    { apply Rnot_lt_le. intros N.
      assert (q i * (a i * k i * r + b i) < q' i * (a i * k i * r + b i)) by (apply Rmult_lt_compat_r; assumption).
      assert (q' i * (a i * k i * r + b i) <= q' i * (a i * k i * r' + b i)) by (apply Rmult_le_compat_l; assumption). lra. }
    split; [exact LQ|]. rewrite C, C' by lia. fold r r'. destruct (Req_dec (a i) 0) as [A0|A0].
    - rewrite A0 in F. assert (q i = q' i) by (apply Rmult_eq_reg_r with (b i); lra). rewrite H. apply Rmult_le_compat_l; [apply Rmult_le_pos; lra|exact P3].
    - apply Rmult_le_reg_l with (a i); [lra|]. assert (b i * q' i <= b i * q i) by (apply Rmult_le_compat_l; lra). lra. }
  assert (SP : forall f, rsum n f = f 0%nat + rsum (n - 1) (fun i => f (S i))).
  { intros f. replace n with (S (n - 1)) at 1 by lia. rewrite rsum_S_first. reflexivity. }
  assert (LQ0 : q 0%nat <= q' 0%nat).
  { rewrite !SP in SQ. assert (rsum (n - 1) (fun i => q' (S i)) <= rsum (n - 1) (fun i => q (S i))) by (apply rsum_le; intros i Hi; apply D; lia). lra. }
  assert (K0 := Hk 0%nat Hn).
  assert (LC0 : c 0%nat <= c' 0%nat).
  { rewrite C, C' by lia. rewrite Hz0, !pow_1. apply Rmult_le_compat; try lra; [apply Rmult_le_pos; lra|]. apply Rmult_le_compat_l; lra. }
  assert (CE : forall i, (i < n)%nat -> c i = c' i).
  { apply sum_same_le; [|exact SC]. intros [|i] Hi; [exact LC0|apply D; lia]. }
  assert (RE : rho = rho').
  { assert (E0 := CE 0%nat Hn). rewrite C, C' in E0 by lia. rewrite Hz0, !pow_1 in E0.
    apply Rle_antisym; [exact RR|]. apply Rnot_lt_le. intros N.
    assert (k 0%nat * q 0%nat * rho < k 0%nat * q 0%nat * rho') by (apply Rmult_lt_compat_l; [apply Rmult_lt_0_compat; lra|exact N]).
    assert (k 0%nat * q 0%nat * rho' <= k 0%nat * q' 0%nat * rho') by (apply Rmult_le_compat_r; [lra|apply Rmult_le_compat_l; lra]). lra. }
  intros i Hi. assert (Ei := CE i Hi). rewrite C, C', <- RE in Ei by exact Hi. assert (K := Hk i Hi). assert (P1 := P i).
  apply Rmult_eq_reg_l with (k i * rho ^ z i); [lra|]. apply Rgt_not_eq. apply Rmult_lt_0_compat; assumption.
Qed.
Lemma exchange_unique q q' c c' rho rho' :
  (forall i, (i < n)%nat -> 0 <= q i) -> (forall i, (i < n)%nat -> 0 <= q' i) -> 0 < q 0%nat -> 0 < q' 0%nat -> 0 < rho -> 0 < rho' ->
  (forall i, (i < n)%nat -> c i = k i * q i * rho ^ z i) -> (forall i, (i < n)%nat -> c' i = k i * q' i * rho' ^ z i) ->
  (forall i, (1 <= i < n)%nat -> a i * c i + b i * q i = a i * c' i + b i * q' i) ->
  rsum n q = rsum n q' -> rsum n c = rsum n c' -> forall i, (i < n)%nat -> q i = q' i.
Proof.
  intros Q Q' Q0 Q0' R R' C C' E SQ SC i Hi. destruct (Rle_lt_dec rho rho') as [L|L].
  - apply (exchange_ordered q q' c c' rho rho'); assumption.
  - symmetry. apply (exchange_ordered q' q c' c rho' rho); try assumption; try lra. intros j Hj. symmetry. apply E, Hj.
Qed.
End Exchange.

(** Equilibria have this shape. *)
Definition has2 (n : nat) (z : nat -> nat) : bool := existsb (fun i => Nat.eqb (z i) 2) (seq 0 n).
Definition coef (n : nat) (K : nat -> R) (z : nat -> nat) (i : nat) : R :=
  if has2 n z then (if Nat.eqb i 0 then 1 else / K i) else / K i.
Lemma has2_true n z : has2 n z = true <-> exists i, (i < n)%nat /\ z i = 2%nat.
Proof.
  unfold has2. rewrite existsb_exists. split.
  - intros (i & I & E). apply in_seq in I. apply Nat.eqb_eq in E. exists i. split; [lia|exact E].
  - intros (i & I & E). exists i. split; [apply in_seq; lia|apply Nat.eqb_eq; exact E].
Qed.
Lemma coef_pos n K z i : selectivities n K -> (i < n)%nat -> 0 < coef n K z i.
Proof. intros H Hi. assert (P := Rinv_0_lt_compat _ (H i Hi)). unfold coef. destruct (has2 n z); [destruct (Nat.eqb i 0)|]; lra. Qed.
Lemma equilibrium_ratio n K z q C : (0 < n)%nat -> selectivities n K -> mono_or_divalent n z -> resin_composition n q ->
  in_equilibrium n K z q C -> (forall i, (i < n)%nat -> 0 <= C i) -> 0 < rsum n C ->
  exists rho, 0 < rho /\ forall i, (i < n)%nat -> C i = coef n K z i * q i * rho ^ z i.
Proof.
  intros Hn HK (Hz0 & Hz) (Q0 & Q) HE HC HT. assert (K0 := HK 0%nat Hn).
  destruct HE as [(D & M)|(D & M)].
  - assert (H2 := proj2 (has2_true n z) D). exists (C 0%nat / q 0%nat).
    assert (EQ : forall i, (i < n)%nat -> C i = coef n K z i * q i * (C 0%nat / q 0%nat) ^ z i).
    { intros i Hi. unfold coef. rewrite H2. destruct (Nat.eqb_spec i 0) as [->|Ni]; [rewrite Hz0; field; lra|].
      assert (E := M i ltac:(lia) Hi). assert (Ki := HK i Hi). unfold Rdiv. rewrite Rpow_mult_distr, pow_inv.
      assert (PQ : 0 < q 0%nat ^ z i) by (apply pow_lt; exact Q0).
      apply Rmult_eq_reg_r with (K i * q 0%nat ^ z i); [|apply Rgt_not_eq; apply Rmult_lt_0_compat; assumption].
      rewrite <- Rmult_assoc, E. field. split; lra. }
    split; [|exact EQ]. apply Rdiv_lt_0_compat; [|exact Q0]. destruct (HC 0%nat Hn) as [L|L]; [exact L|exfalso].
    rewrite rsum_zero in HT; [lra|]. intros i Hi. rewrite (EQ i Hi), <- L. unfold Rdiv. rewrite Rmult_0_l, pow_i; [ring|]. destruct (Hz i Hi); lia.
  - assert (H2 : has2 n z = false) by (apply not_true_is_false; intros X; apply has2_true in X; destruct X as (i & Hi & Ei); apply (D i Hi Ei)).
    assert (Z1 : forall i, (i < n)%nat -> z i = 1%nat) by (intros i Hi; destruct (Hz i Hi) as [|E2]; [assumption|destruct (D i Hi E2)]).
    exists (C 0%nat * K 0%nat / q 0%nat).
    assert (EQ : forall i, (i < n)%nat -> C i = coef n K z i * q i * (C 0%nat * K 0%nat / q 0%nat) ^ z i).
    { intros i Hi. unfold coef. rewrite H2, (Z1 i Hi), pow_1. assert (E := M i 0%nat Hi Hn). assert (Ki := HK i Hi).
      apply Rmult_eq_reg_l with (K i / K 0%nat * q 0%nat); [|apply Rgt_not_eq; apply Rmult_lt_0_compat; [apply Rdiv_lt_0_compat; assumption|exact Q0]].
      rewrite Rmult_assoc, <- E. field. lra. }
    split; [|exact EQ]. apply Rdiv_lt_0_compat; [|exact Q0]. apply Rmult_lt_0_compat; [|exact K0]. destruct (HC 0%nat Hn) as [L|L]; [exact L|exfalso].
    rewrite rsum_zero in HT; [lra|]. intros i Hi. rewrite (EQ i Hi), <- L, (Z1 i Hi). unfold Rdiv. ring.
Qed.

(** Two resins in equilibrium with liquids of the same total, of the same capacity, and with the
    same value of a non-negative combination of liquid and resin for every ion but the presaturant. *)
Lemma equilibrium_unique n K z a b q q' C C' : (0 < n)%nat -> selectivities n K -> mono_or_divalent n z ->
  (forall i, (1 <= i < n)%nat -> 0 <= a i /\ 0 <= b i /\ 0 < a i + b i) ->
  resin_composition n q -> resin_composition n q' -> in_equilibrium n K z q C -> in_equilibrium n K z q' C' ->
  (forall i, (i < n)%nat -> 0 <= C i) -> (forall i, (i < n)%nat -> 0 <= C' i) -> 0 < rsum n C -> rsum n C = rsum n C' -> rsum n q = rsum n q' ->
  (forall i, (1 <= i < n)%nat -> a i * C i + b i * q i = a i * C' i + b i * q' i) -> forall i, (i < n)%nat -> q i = q' i.
Proof.
  intros Hn HK Hz Hab HQ HQ' E E' HC HC' HT SC SQ L.
  destruct (equilibrium_ratio n K z q C Hn HK Hz HQ E HC HT) as (r & R & Er).
  destruct (equilibrium_ratio n K z q' C' Hn HK Hz HQ' E' HC' ltac:(lra)) as (r' & R' & Er').
  apply (exchange_unique n (coef n K z) z a b Hn (fun i Hi => coef_pos n K z i HK Hi) (proj1 Hz) Hab q q' C C' r r'); try assumption; try apply HQ; apply HQ'.
Qed.
