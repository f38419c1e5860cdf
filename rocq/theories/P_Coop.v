(** Systems in which no quantity drives another one down. *)
From Coq Require Import Reals Arith Lra Lia.
From Verif Require Import Lib_Pow Lib_Sum Lib_Traj Lib_Grow P_PacBound.
Open Scope R_scope.

Lemma prim_sq x : prim 1 x = clip x * clip x / 2.
Proof.
  unfold prim. assert (H := clip_nonneg x). replace (1 + 1) with 2 by ring. destruct (Req_dec (clip x) 0) as [->|N]; [rewrite rpow_0; lra|].
  replace 2 with (1 + 1) at 1 by ring. rewrite rpow_plus, !rpow_1 by lra. reflexivity.
Qed.
Lemma ng_deriv x : derivable_pt_lim (fun y => prim 1 (- y)) x (- clip (- x)).
Proof.
  replace (- clip (- x)) with (rpow (clip (- x)) 1 * (-1)) by (rewrite rpow_1 by apply clip_nonneg; ring).
  apply (derivable_pt_lim_comp (fun y => - y) (prim 1)); [|apply prim_deriv; lra].
  replace (-1) with (- (1)) by ring. apply (derivable_pt_lim_opp id), derivable_pt_lim_id.
Qed.
Lemma ng_cases y : (y <= 0 /\ clip (- y) = - y) \/ (0 <= y /\ clip (- y) = 0).
Proof. destruct (Rle_dec y 0) as [L|L]; [left; split; [exact L|apply clip_pos; lra]|right; split; [lra|apply clip_neg; lra]]. Qed.

Section Cooperative.
Variables (a b K : R) (n : nat) (x g : nat -> R -> R) (A : R -> nat -> nat -> R).
Hypothesis EV : forall i, (i < n)%nat -> evolves a b (x i) (fun t => rsum n (fun j => A t i j * x j t) + g i t).
Hypothesis HG : forall t i, a < t < b -> (i < n)%nat -> 0 <= g i t.
Hypothesis HA : forall t i j, a < t < b -> (i < n)%nat -> (j < n)%nat -> i <> j -> 0 <= A t i j.
Hypothesis KP : 0 <= K.
Hypothesis HB : forall t i j, a < t < b -> (i < n)%nat -> (j < n)%nat -> A t i j <= K.
Hypothesis H0 : forall i, (i < n)%nat -> 0 <= x i a.
Lemma cooperative i t : (i < n)%nat -> a <= t <= b -> 0 <= x i t.
Proof.
  intros I T. set (V := fun t => rsum n (fun i => prim 1 (- x i t))).
  set (V' := fun t => rsum n (fun i => - clip (- x i t) * (rsum n (fun j => A t i j * x j t) + g i t))).
  assert (E : evolves a b V V').
  { unfold V, V'. apply (evolves_rsum a b n (fun i t => prim 1 (- x i t))). intros k Hk. apply (evolves_comp a b (x k) _ (fun y => prim 1 (- y)) (fun y => - clip (- y)) ng_deriv), EV, Hk. }
  assert (UP : forall s, a < s < b -> V' s <= 2 * INR n * K * V s).
  { intros s Hs. set (c := fun i => clip (- x i s)).
    apply Rle_trans with (rsum n (fun i => rsum n (fun j => K * (c i * c i + c j * c j) / 2))).
    - unfold V'. apply rsum_le. intros k Hk. fold (c k). assert (C := clip_nonneg (- x k s)). fold (c k) in C. assert (G := Rmult_le_pos _ _ C (HG s k Hs Hk)).
      apply Rle_trans with (rsum n (fun j => - c k * (A s k j * x j s))); [rewrite rsum_scal; lra|].
      apply rsum_le. intros j Hj. assert (B := HB s k j Hs Hk Hj).
      destruct (Nat.eq_dec k j) as [<-|NE].
      + destruct (ng_cases (x k s)) as [(L & EC)|(L & EC)]; fold (c k) in EC.
        * replace (x k s) with (- c k) by lra. assert (0 <= c k * c k) by (apply Rmult_le_pos; exact C). assert (0 <= (K - A s k k) * (c k * c k)) by (apply Rmult_le_pos; lra). lra.
        * rewrite EC. lra.
      + assert (P := HA s k j Hs Hk Hj NE). assert (CJ := clip_nonneg (- x j s)). fold (c j) in CJ.
        assert (X : - c j <= x j s) by (destruct (ng_cases (x j s)) as [(L & EC)|(L & EC)]; fold (c j) in EC; lra).
        assert (Q : 0 <= c k * A s k j) by (apply Rmult_le_pos; assumption).
        assert (Q1 : 0 <= c k * A s k j * (x j s + c j)) by (apply Rmult_le_pos; lra).
        assert (Q2 : 0 <= (K - A s k j) * (c k * c j)) by (apply Rmult_le_pos; [lra|apply Rmult_le_pos; assumption]).
        assert (Q3 : 0 <= K * ((c k - c j) * (c k - c j))) by (apply Rmult_le_pos; [exact KP|apply Rle_0_sqr]). lra.
    - apply Req_le. transitivity (rsum n (fun i => K / 2 * (INR n * (c i * c i) + rsum n (fun j => c j * c j)))).
      + apply rsum_ext. intros k _. rewrite (rsum_ext n _ (fun j => K / 2 * (c k * c k + c j * c j))) by (intros; field). rewrite rsum_scal, rsum_plus, rsum_const. ring.
      + rewrite rsum_scal, rsum_plus, rsum_scal, rsum_const. unfold V. rewrite (rsum_ext n (fun i => prim 1 (- x i s)) (fun i => / 2 * (c i * c i))) by (intros; rewrite prim_sq; unfold c; field). rewrite rsum_scal. field. }
  assert (N : forall s, 0 <= V s) by (intros s; unfold V; apply rsum_nonneg; intros; apply prim_nonneg; lra).
  assert (VA : V a = 0) by (unfold V; apply rsum_zero; intros j Hj; apply prim_neg; [lra|]; specialize (H0 j Hj); lra).
  assert (Z := gronwall_zero a b V V' _ E VA (fun s _ => N s) UP t T).
  apply Rnot_lt_le. intros L. assert (P : 0 < V t); [|lra]. unfold V. apply (rsum_pos_one n _ i I).
  - intros j _. apply prim_nonneg. lra.
  - rewrite prim_sq, clip_pos by lra. assert (0 < - x i t * - x i t) by (apply Rmult_lt_0_compat; lra). lra.
Qed.
End Cooperative.

(** What falls no faster than in proportion to itself stays above zero. *)
Lemma stays_positive a b f f' L : evolves a b f f' -> (forall t, a < t < b -> - L * f t <= f' t) ->
  forall t, a <= t <= b -> f a * exp (- L * (t - a)) <= f t.
Proof.
  intros E H t T. assert (G := gronwall a b (fun t => -1 * f t) (fun t => -1 * f' t) (- L) (evolves_scal a b (-1) _ _ E)). cbv beta in G.
  assert (X : -1 * f t <= -1 * f a * exp (- L * (t - a))) by (apply G; [intros s S; specialize (H s S); lra|exact T]). lra.
Qed.
