(** Existence of a solution of an initial-value problem on a short interval, by
    successive approximation. *)
From Coq Require Import Reals List Arith Lra Lia Classical_Prop.
From Verif Require Import Lib_Sum Lib_Traj Lib_Tame.
Import ListNotations.
Open Scope R_scope.

(** ** Antiderivatives *)
Definition anti (lo hi : R) (LH : lo <= hi) (a : R) (f : R -> R) (C : continuity f) (s : R) : R :=
  primitive LH (FTC_P1 LH (fun x _ => C x)) s - primitive LH (FTC_P1 LH (fun x _ => C x)) a.
Lemma anti_deriv lo hi LH a f C s : lo <= s <= hi -> derivable_pt_lim (anti lo hi LH a f C) s (f s).
Proof.
  intros Hs. unfold anti. rewrite <- (Rminus_0_r (f s)).
  apply (derivable_pt_lim_minus (primitive LH (FTC_P1 LH (fun x _ => C x))) (fun _ => primitive LH (FTC_P1 LH (fun x _ => C x)) a)).
  - apply RiemannInt_P28, Hs.
  - apply derivable_pt_lim_const.
Qed.
Lemma anti_start lo hi LH a f C : anti lo hi LH a f C a = 0.
Proof. unfold anti. ring. Qed.

(** A bound on the derivative bounds the increments. *)
Lemma increments f f' lo hi B : (forall s, lo <= s <= hi -> derivable_pt_lim f s (f' s)) -> (forall s, lo <= s <= hi -> Rabs (f' s) <= B) ->
  forall s t, lo <= s <= hi -> lo <= t <= hi -> Rabs (f s - f t) <= B * Rabs (s - t).
Proof.
  intros Df Bd.
  assert (W : forall s t, lo <= s <= hi -> lo <= t <= hi -> s < t -> Rabs (f t - f s) <= B * Rabs (t - s)).
  { intros s t Hs Ht L. destruct (MVT_cor2 f f' s t L) as (c & E & Hc); [intros c Hc; apply Df; lra|].
    rewrite E, Rabs_mult. apply Rmult_le_compat_r; [apply Rabs_pos|apply Bd; lra]. }
  intros s t Hs Ht. destruct (Rtotal_order s t) as [L|[->|L]].
  - rewrite (Rabs_minus_sym (f s)), (Rabs_minus_sym s). apply W; assumption.
  - rewrite !Rminus_eq_0, Rabs_R0. lra.
  - apply W; assumption.
Qed.

Lemma half_pow_pos k : 0 < (1 / 2) ^ k.
Proof. apply pow_lt. lra. Qed.
Lemma half_pow_small C e : 0 < e -> exists N, forall k, (N <= k)%nat -> Rabs C * (1 / 2) ^ k < e.
Proof.
  intros He. destruct (pow_lt_1_zero (1 / 2) ltac:(rewrite Rabs_right; lra) (e / (Rabs C + 1))) as (N & P).
  { apply Rdiv_lt_0_compat; [exact He|]. assert (Q := Rabs_pos C). lra. }
  exists N. intros k Hk. specialize (P k Hk). assert (Q := half_pow_pos k). rewrite (Rabs_right ((1 / 2) ^ k)) in P by lra.
  assert (Z := Rabs_pos C).
  apply Rle_lt_trans with ((Rabs C + 1) * (1 / 2) ^ k); [nra|].
  apply Rlt_le_trans with ((Rabs C + 1) * (e / (Rabs C + 1))); [apply Rmult_lt_compat_l; lra|]. right. field. lra.
Qed.
Lemma le_half_pow x y C : (forall k, x <= y + C * (1 / 2) ^ k) -> x <= y.
Proof.
  intros H. destruct (Rle_lt_dec x y) as [L|L]; [exact L|]. exfalso.
  destruct (half_pow_small C (x - y) ltac:(lra)) as (N & P). specialize (P N (le_n N)). specialize (H N).
  assert (Q := half_pow_pos N). assert (Z := Rle_abs C). nra.
Qed.

Section Picard.
Context {X I : Type}.
Variables (idx : list I) (co : I -> X -> R) (mk : (I -> R) -> X).
Hypothesis eq_dec : forall i j : I, {i = j} + {i <> j}.
Hypothesis co_mk : forall f i, In i idx -> co i (mk f) = f i.
Variables (a b : R) (G : I -> R -> X -> R) (x0 : X).
Notation D := (fun s => a <= s <= b).
Notation dst := (dist idx co).
Notation n := (INR (length idx)).

Section Short.
Variables (d M K e : R).
Hypothesis HM : 0 <= M.
Hypothesis HK : 0 <= K.
Hypothesis He : 0 < e.
Hypothesis E1 : e <= b - a.
Hypothesis E2 : e < d.
Hypothesis E3 : n * (M * e) < d.
Hypothesis E4 : n * K * e <= 1 / 2.
Hypothesis Bound : forall i, In i idx -> forall s y, D s -> Rabs (s - a) < d -> dst y x0 < d -> Rabs (G i s y) <= M.
Hypothesis Lips : forall i, In i idx -> forall s y z, D s -> Rabs (s - a) < d -> dst y x0 < d -> dst z x0 < d ->
  Rabs (G i s y - G i s z) <= K * dst y z.
Hypothesis Cont : forall i, In i idx -> forall s y, D s -> Rabs (s - a) < d -> dst y x0 < d ->
  forall eps, 0 < eps -> exists q, 0 < q /\ forall s' y', D s' -> Rabs (s' - s) < q -> dst y' y < q -> Rabs (G i s' y' - G i s y) < eps.
Notation T := (a + e).

Definition clamp (s : R) : R := Rmax a (Rmin s T).
Lemma clamp_in s : a <= clamp s <= T.
Proof. unfold clamp, Rmax, Rmin. repeat destruct Rle_dec; lra. Qed.
Lemma clamp_id s : a <= s <= T -> clamp s = s.
Proof. intros H. unfold clamp, Rmax, Rmin. repeat destruct Rle_dec; lra. Qed.
Lemma clamp_lip s t : Rabs (clamp s - clamp t) <= Rabs (s - t).
Proof. unfold clamp, Rmax, Rmin, Rabs. repeat destruct Rle_dec; repeat destruct Rcase_abs; lra. Qed.

Definition at_time (f : I -> R -> R) (s : R) : X := mk (fun i => f i s).
Lemma dist_mk (f : I -> R -> R) s y B : (forall i, In i idx -> Rabs (f i s - co i y) <= B) -> dst (at_time f s) y <= n * B.
Proof.
  intros H. unfold dist, at_time.
  assert (W : forall l, incl l idx -> lsum (map (fun i => Rabs (co i (mk (fun i => f i s)) - co i y)) l) <= INR (length l) * B).
  { induction l as [|i l IH]; intros Hl; [simpl; lra|]. cbn [map lsum fold_right length]. rewrite S_INR.
    change (fold_right Rplus 0) with lsum. specialize (IH (fun j Hj => Hl j (or_intror Hj))).
    rewrite co_mk by (apply Hl; left; reflexivity). specialize (H i (Hl i (or_introl eq_refl))). lra. }
  apply W, incl_refl.
Qed.

Definition good (f : I -> R -> R) : Prop :=
  (forall i s t, a <= s <= T -> a <= t <= T -> Rabs (f i s - f i t) <= M * Rabs (s - t)) /\
  (forall i s, a <= s <= T -> Rabs (f i s - co i x0) <= M * e).
Lemma good_near f s : good f -> a <= s <= T -> dst (at_time f s) x0 < d.
Proof. intros (_ & H) Hs. eapply Rle_lt_trans; [apply dist_mk; intros i _; apply H, Hs|exact E3]. Qed.
Lemma near_a s : a <= s <= T -> Rabs (s - a) < d.
Proof. intros Hs. rewrite Rabs_right; lra. Qed.

Definition rate (i : I) (s : R) (y : X) : R := if in_dec eq_dec i idx then G i s y else 0.
Definition field (f : I -> R -> R) (i : I) (s : R) : R := rate i (clamp s) (at_time f (clamp s)).
Lemma field_bound f i s : good f -> Rabs (field f i s) <= M.
Proof.
  intros H. unfold field, rate. assert (C := clamp_in s). destruct (in_dec eq_dec i idx) as [Hi|Hi].
  - apply Bound; [exact Hi|lra|apply near_a, C|apply good_near; assumption].
  - rewrite Rabs_R0. exact HM.
Qed.
Lemma n_nonneg : 0 <= n.
Proof. apply pos_INR. Qed.
Lemma field_cont f i : good f -> continuity (field f i).
Proof.
  intros H s eps Heps. unfold field, rate. destruct (in_dec eq_dec i idx) as [Hi|Hi].
  - assert (C := clamp_in s).
    destruct (Cont i Hi (clamp s) (at_time f (clamp s)) ltac:(lra) (near_a _ C) (good_near f _ H C) eps Heps) as (q & Hq & P).
    assert (N := n_nonneg). assert (NM : 0 <= n * M) by (apply Rmult_le_pos; lra).
    exists (Rmin q (q / (n * M + 1))). assert (Q : 0 < q / (n * M + 1)) by (apply Rdiv_lt_0_compat; lra).
    split; [apply Rmin_pos; assumption|]. intros t (_ & Ht). simpl in Ht |- *. unfold R_dist in *.
    assert (A1 := Rmin_l q (q / (n * M + 1))). assert (A2 := Rmin_r q (q / (n * M + 1))).
    assert (L := clamp_lip t s). assert (C2 := clamp_in t).
    apply P; [lra|lra|].
    eapply Rle_lt_trans; [apply (dist_mk f (clamp t) (at_time f (clamp s)) (M * Rabs (clamp t - clamp s)))|].
    + intros j Hj. unfold at_time. rewrite co_mk by exact Hj. apply H; assumption.
    + assert (Z := Rabs_pos (clamp t - clamp s)).
      apply Rle_lt_trans with ((n * M + 1) * Rabs (clamp t - clamp s)); [nra|].
      apply Rlt_le_trans with ((n * M + 1) * (q / (n * M + 1))); [apply Rmult_lt_compat_l; lra|]. right. field. lra.
  - exists 1. split; [lra|]. intros t _. simpl. unfold R_dist. rewrite Rminus_eq_0, Rabs_R0. exact Heps.
Qed.
Lemma lo_hi : a - 1 <= T + 1.
Proof. lra. Qed.
Definition next (f : I -> R -> R) (H : good f) (i : I) (s : R) : R :=
  co i x0 + anti (a - 1) (T + 1) lo_hi a (field f i) (field_cont f i H) s.
Lemma next_deriv f H i s : a <= s <= T -> derivable_pt_lim (next f H i) s (field f i s).
Proof.
  intros Hs. unfold next. rewrite <- (Rplus_0_l (field f i s)).
  apply (derivable_pt_lim_plus (fun _ => co i x0) (anti (a - 1) (T + 1) lo_hi a (field f i) (field_cont f i H))); [apply derivable_pt_lim_const|].
  apply anti_deriv. lra.
Qed.
Lemma next_start f H i : next f H i a = co i x0.
Proof. unfold next. rewrite anti_start. ring. Qed.
Lemma next_good f (H : good f) : good (next f H).
Proof.
  assert (A : forall i s t, a <= s <= T -> a <= t <= T -> Rabs (next f H i s - next f H i t) <= M * Rabs (s - t)).
  { intros i. apply (increments (next f H i) (field f i) a T M).
    - intros s Hs. apply next_deriv, Hs.
    - intros s _. apply field_bound, H. }
  split; [exact A|]. intros i s Hs. rewrite <- (next_start f H i).
  eapply Rle_trans; [apply A; lra|]. apply Rmult_le_compat_l; [exact HM|]. rewrite Rabs_right; lra.
Qed.
(** One step halves the distance. *)
Lemma next_half f g (Hf : good f) (Hg : good g) B : (forall i s, In i idx -> a <= s <= T -> Rabs (f i s - g i s) <= B) ->
  forall i s, a <= s <= T -> 0 <= B -> Rabs (next f Hf i s - next g Hg i s) <= B / 2.
Proof.
  intros H i s Hs HB. assert (N := n_nonneg).
  assert (KB : 0 <= K * (n * B)) by (repeat apply Rmult_le_pos; assumption).
  assert (A := increments (fun s => next f Hf i s - next g Hg i s) (fun s => field f i s - field g i s) a T (K * (n * B))).
  specialize (A (fun s Hs => derivable_pt_lim_minus _ _ s _ _ (next_deriv f Hf i s Hs) (next_deriv g Hg i s Hs))).
  assert (FB : forall s, a <= s <= T -> Rabs (field f i s - field g i s) <= K * (n * B)).
  { intros t Ht. unfold field, rate. rewrite clamp_id by exact Ht. destruct (in_dec eq_dec i idx) as [Hi|Hi].
    - eapply Rle_trans; [apply Lips; [exact Hi|lra|apply near_a, Ht|apply good_near; assumption|apply good_near; assumption]|].
      apply Rmult_le_compat_l; [exact HK|]. apply dist_mk. intros j Hj. unfold at_time. rewrite co_mk by exact Hj. apply H; assumption.
    - rewrite Rminus_eq_0, Rabs_R0. exact KB. }
  specialize (A FB s a Hs ltac:(lra)). cbv beta in A. rewrite !next_start in A.
  replace (next f Hf i s - next g Hg i s - (co i x0 - co i x0)) with (next f Hf i s - next g Hg i s) in A by ring.
  eapply Rle_trans; [exact A|]. rewrite Rabs_right by lra.
  apply Rle_trans with (K * (n * B) * e); [apply Rmult_le_compat_l; lra|].
  replace (K * (n * B) * e) with (n * K * e * B) by ring.
  apply Rle_trans with (1 / 2 * B); [apply Rmult_le_compat_r; assumption|]. lra.
Qed.

Lemma first_good : good (fun i _ => co i x0).
Proof. split; intros; rewrite Rminus_eq_0, Rabs_R0; apply Rmult_le_pos; try assumption; try apply Rabs_pos; lra. Qed.
Fixpoint approx (k : nat) : {f : I -> R -> R | good f} :=
  match k with
  | O => exist _ (fun i _ => co i x0) first_good
  | S j => exist _ (next (proj1_sig (approx j)) (proj2_sig (approx j))) (next_good _ (proj2_sig (approx j)))
  end.
Notation ap k := (proj1_sig (approx k)).
Notation C0 := (M * e).
Lemma C0_nonneg : 0 <= C0.
Proof. apply Rmult_le_pos; lra. Qed.
Lemma approx_step k : forall i s, a <= s <= T -> Rabs (ap (S k) i s - ap k i s) <= C0 * (1 / 2) ^ k.
Proof.
  induction k as [|k IH]; intros i s Hs.
  - assert (A := proj2 (proj2_sig (approx 1)) i s Hs). simpl in A |- *. rewrite Rmult_1_r. exact A.
  - assert (Q := half_pow_pos k). assert (Z := C0_nonneg).
    assert (A := next_half (ap (S k)) (ap k) (proj2_sig (approx (S k))) (proj2_sig (approx k)) (C0 * (1 / 2) ^ k)
      (fun i s _ Hs => IH i s Hs) i s Hs ltac:(nra)).
    change (Rabs (ap (S (S k)) i s - ap (S k) i s) <= C0 * (1 / 2) ^ k / 2) in A.
    replace (C0 * (1 / 2) ^ S k) with (C0 * (1 / 2) ^ k / 2) by (simpl; field). exact A.
Qed.
Lemma approx_far k m i s : a <= s <= T -> Rabs (ap (k + m) i s - ap k i s) <= 2 * C0 * (1 / 2) ^ k * (1 - (1 / 2) ^ m).
Proof.
  intros Hs. induction m as [|m IH].
  - rewrite Nat.add_0_r, Rminus_eq_0, Rabs_R0. simpl. lra.
  - rewrite Nat.add_succ_r. assert (A := approx_step (k + m) i s Hs).
    assert (Tr := Rabs_triang (ap (S (k + m)) i s - ap (k + m) i s) (ap (k + m) i s - ap k i s)).
    replace (ap (S (k + m)) i s - ap (k + m) i s + (ap (k + m) i s - ap k i s)) with (ap (S (k + m)) i s - ap k i s) in Tr by ring.
    rewrite pow_add in A. change ((1 / 2) ^ S m) with (1 / 2 * (1 / 2) ^ m). nra.
Qed.
Lemma approx_far' k m i s : a <= s <= T -> Rabs (ap (k + m) i s - ap k i s) <= 2 * C0 * (1 / 2) ^ k.
Proof.
  intros Hs. eapply Rle_trans; [apply approx_far, Hs|]. assert (Q := half_pow_pos k). assert (Q2 := half_pow_pos m). assert (Z := C0_nonneg).
  rewrite <- (Rmult_1_r (2 * C0 * (1 / 2) ^ k)) at 2. apply Rmult_le_compat_l; [|lra]. repeat apply Rmult_le_pos; lra.
Qed.
Lemma approx_cauchy i s : Cauchy_crit (fun k => ap k i (clamp s)).
Proof.
  intros eps Heps. destruct (half_pow_small (4 * C0) eps Heps) as (N & P). exists N. intros k m Hk Hm.
  specialize (P N (le_n N)). assert (Z := C0_nonneg). rewrite (Rabs_right (4 * C0)) in P by lra.
  unfold R_dist. assert (A := approx_far' N (k - N) i (clamp s) (clamp_in s)). assert (B := approx_far' N (m - N) i (clamp s) (clamp_in s)).
  replace (N + (k - N))%nat with k in A by lia. replace (N + (m - N))%nat with m in B by lia.
  assert (Tr := Rabs_triang (ap k i (clamp s) - ap N i (clamp s)) (- (ap m i (clamp s) - ap N i (clamp s)))). rewrite Rabs_Ropp in Tr.
  replace (ap k i (clamp s) - ap N i (clamp s) + - (ap m i (clamp s) - ap N i (clamp s))) with (ap k i (clamp s) - ap m i (clamp s)) in Tr by ring.
  lra.
Qed.
Definition limit (i : I) (s : R) : R := proj1_sig (R_complete _ (approx_cauchy i s)).
Lemma limit_near k i s : a <= s <= T -> Rabs (limit i s - ap k i s) <= 2 * C0 * (1 / 2) ^ k.
Proof.
  intros Hs. unfold limit. destruct (R_complete _ (approx_cauchy i s)) as (l & Hl). simpl.
  destruct (Rle_lt_dec (Rabs (l - ap k i s)) (2 * C0 * (1 / 2) ^ k)) as [L|L]; [exact L|]. exfalso.
  destruct (Hl (Rabs (l - ap k i s) - 2 * C0 * (1 / 2) ^ k) ltac:(lra)) as (N & P). specialize (P (k + N)%nat ltac:(lia)).
  unfold R_dist in P. rewrite (clamp_id s Hs) in P. assert (A := approx_far' k N i s Hs).
  assert (Tr := Rabs_triang (- (ap (k + N) i s - l)) (ap (k + N) i s - ap k i s)). rewrite Rabs_Ropp in Tr.
  replace (- (ap (k + N) i s - l) + (ap (k + N) i s - ap k i s)) with (l - ap k i s) in Tr by ring. lra.
Qed.
Lemma limit_good : good limit.
Proof.
  split.
  - intros i s t Hs Ht. apply (le_half_pow _ _ (4 * C0)). intros k.
    assert (A := limit_near k i s Hs). assert (B := limit_near k i t Ht). assert (C := proj1 (proj2_sig (approx k)) i s t Hs Ht).
    assert (T1 := Rabs_triang (limit i s - ap k i s) (ap k i s - ap k i t)).
    assert (T2 := Rabs_triang (limit i s - ap k i t) (- (limit i t - ap k i t))). rewrite Rabs_Ropp in T2.
    replace (limit i s - ap k i s + (ap k i s - ap k i t)) with (limit i s - ap k i t) in T1 by ring.
    replace (limit i s - ap k i t + - (limit i t - ap k i t)) with (limit i s - limit i t) in T2 by ring. lra.
  - intros i s Hs. apply (le_half_pow _ _ (2 * C0)). intros k.
    assert (A := limit_near k i s Hs). assert (C := proj2 (proj2_sig (approx k)) i s Hs).
    assert (T1 := Rabs_triang (limit i s - ap k i s) (ap k i s - co i x0)).
    replace (limit i s - ap k i s + (ap k i s - co i x0)) with (limit i s - co i x0) in T1 by ring. lra.
Qed.
Definition sol : I -> R -> R := next limit limit_good.
Lemma sol_limit i s : a <= s <= T -> sol i s = limit i s.
Proof.
  intros Hs. assert (Z : Rabs (sol i s - limit i s) <= 0).
  { apply (le_half_pow _ _ (2 * C0)). intros k. assert (Q := half_pow_pos k). assert (P := C0_nonneg).
    assert (A := next_half limit (ap k) limit_good (proj2_sig (approx k)) (2 * C0 * (1 / 2) ^ k) (fun i s _ Hs => limit_near k i s Hs) i s Hs ltac:(nra)).
    change (Rabs (sol i s - ap (S k) i s) <= 2 * C0 * (1 / 2) ^ k / 2) in A. assert (B := limit_near (S k) i s Hs).
    change ((1 / 2) ^ S k) with (1 / 2 * (1 / 2) ^ k) in B.
    assert (T1 := Rabs_triang (sol i s - ap (S k) i s) (- (limit i s - ap (S k) i s))). rewrite Rabs_Ropp in T1.
    replace (sol i s - ap (S k) i s + - (limit i s - ap (S k) i s)) with (sol i s - limit i s) in T1 by ring. lra. }
  assert (P := Rabs_pos (sol i s - limit i s)). assert (E : Rabs (sol i s - limit i s) = 0) by lra.
  destruct (Req_dec (sol i s - limit i s) 0) as [E0|N]; [lra|]. apply Rabs_no_R0 in N. contradiction.
Qed.
Lemma short_run : exists y : R -> X, (forall i, In i idx -> co i (y a) = co i x0) /\
  (forall s, a <= s <= T -> dst (y s) x0 < d) /\
  forall i, In i idx -> (forall s, a <= s <= T -> derivable_pt_lim (fun t => co i (y t)) s (G i s (y s))).
Proof.
  exists (at_time sol). split; [|split].
  - intros i Hi. unfold at_time. rewrite co_mk by exact Hi. apply next_start.
  - intros s Hs. apply good_near; [|exact Hs]. apply next_good.
  - intros i Hi s Hs. assert (E : G i s (at_time sol s) = field limit i s).
    { unfold field, rate. rewrite clamp_id by exact Hs. destruct (in_dec eq_dec i idx) as [_|N]; [|contradiction].
      assert (L := Lips i Hi s (at_time sol s) (at_time limit s) ltac:(lra) (near_a s Hs) (good_near sol s (next_good _ _) Hs) (good_near limit s limit_good Hs)).
      assert (Z : dst (at_time sol s) (at_time limit s) <= n * 0).
      { apply dist_mk. intros j Hj. unfold at_time. rewrite co_mk by exact Hj. rewrite sol_limit by exact Hs. rewrite Rminus_eq_0, Rabs_R0. lra. }
      assert (Z2 := dist_nonneg idx co (at_time sol s) (at_time limit s)).
      assert (Rabs (G i s (at_time sol s) - G i s (at_time limit s)) <= 0) by nra.
      destruct (Req_dec (G i s (at_time sol s) - G i s (at_time limit s)) 0) as [E0|N]; [lra|].
      apply Rabs_pos_lt in N. lra. }
    rewrite E. intros eps Heps. destruct (next_deriv limit limit_good i s Hs eps Heps) as (dl & P). exists dl.
    intros h Hh Hl. unfold at_time. rewrite !co_mk by exact Hi. apply P; assumption.
Qed.
End Short.

End Picard.

(** Common constants for the rates around a point. *)
Lemma bounds_near {X I} (idx : list I) (co : I -> X -> R) (D : R -> Prop) (G : I -> R -> X -> R) a x0 :
  (forall i, In i idx -> tame idx co D (G i) a x0) ->
  exists d M K, 0 < d /\ 0 <= M /\ 0 <= K /\
    (forall i, In i idx -> forall s y, D s -> Rabs (s - a) < d -> dist idx co y x0 < d -> Rabs (G i s y) <= M) /\
    (forall i, In i idx -> forall s y z, D s -> Rabs (s - a) < d -> dist idx co y x0 < d -> dist idx co z x0 < d ->
       Rabs (G i s y - G i s z) <= K * dist idx co y z) /\
    (forall i, In i idx -> forall s y, D s -> Rabs (s - a) < d -> dist idx co y x0 < d ->
      forall eps, 0 < eps -> exists q, 0 < q /\ forall s' y', D s' -> Rabs (s' - s) < q -> dist idx co y' y < q -> Rabs (G i s' y' - G i s y) < eps).
Proof.
  intros Tm.
  assert (U : forall l, incl l idx -> exists d M K, 0 < d /\ 0 <= M /\ 0 <= K /\
    (forall i, In i l -> forall s y, D s -> Rabs (s - a) < d -> dist idx co y x0 < d -> Rabs (G i s y) <= M) /\
    (forall i, In i l -> forall s y z, D s -> Rabs (s - a) < d -> dist idx co y x0 < d -> dist idx co z x0 < d -> Rabs (G i s y - G i s z) <= K * dist idx co y z) /\
    (forall i, In i l -> forall s y, D s -> Rabs (s - a) < d -> dist idx co y x0 < d ->
      forall eps, 0 < eps -> exists q, 0 < q /\ forall s' y', D s' -> Rabs (s' - s) < q -> dist idx co y' y < q -> Rabs (G i s' y' - G i s y) < eps)).
  { induction l as [|i l IH]; intros Hl.
    - exists 1, 0, 0. repeat split; try lra; intros i Hi; destruct Hi.
    - destruct IH as (d & M & K & Hd & HM & HK & P1 & P2 & P3); [intros j Hj; apply Hl; right; exact Hj|].
      assert (Ti := Tm i (Hl i (or_introl eq_refl))). destruct (tame_bounded idx co D (G i) a x0 Ti) as (d1 & Hd1 & B).
      destruct Ti as ((_ & d2 & K2 & Hd2 & HK2 & L) & d3 & Hd3 & C).
      set (q := Rmin (Rmin d d1) (Rmin d2 d3)).
      assert (Q1 := Rmin_l (Rmin d d1) (Rmin d2 d3)). assert (Q2 := Rmin_r (Rmin d d1) (Rmin d2 d3)).
      assert (Q3 := Rmin_l d d1). assert (Q4 := Rmin_r d d1). assert (Q5 := Rmin_l d2 d3). assert (Q6 := Rmin_r d2 d3). fold q in Q1, Q2.
      assert (M1 := Rmax_l M (Rabs (G i a x0) + 1)). assert (M2 := Rmax_r M (Rabs (G i a x0) + 1)).
      assert (N1 := Rmax_l K K2). assert (N2 := Rmax_r K K2).
      exists q, (Rmax M (Rabs (G i a x0) + 1)), (Rmax K K2).
      split; [repeat apply Rmin_pos; assumption|]. split; [lra|]. split; [lra|]. split; [|split].
      + intros j [<-|Hj] s y Ds Hs Hy; [eapply Rle_trans; [apply B; try exact Ds; lra|exact M2]|].
        eapply Rle_trans; [apply (P1 j Hj s y Ds); lra|exact M1].
      + intros j Hj s y z Ds Hs Hy Hz. assert (DN := dist_nonneg idx co y z). destruct Hj as [<-|Hj].
        * eapply Rle_trans; [apply L; try exact Ds; lra|]. apply Rmult_le_compat_r; lra.
        * eapply Rle_trans; [apply (P2 j Hj s y z Ds); lra|]. apply Rmult_le_compat_r; lra.
      + intros j [<-|Hj] s y Ds Hs Hy.
        * destruct (C s y Ds ltac:(lra) ltac:(lra)) as (Cc & _). exact Cc.
        * apply (P3 j Hj s y Ds); lra. }
  apply U, incl_refl.
Qed.

Section Near.
Context {X I : Type}.
Variables (idx : list I) (co : I -> X -> R) (mk : (I -> R) -> X).
Hypothesis eq_dec : forall i j : I, {i = j} + {i <> j}.
Hypothesis co_mk : forall f i, In i idx -> co i (mk f) = f i.
Variables (t0 b : R) (G : I -> R -> X -> R).
Notation D := (fun s => t0 <= s <= b).
Notation dst := (dist idx co).

(** Around a point where the rates are tame, every start has a solution, for a common time. *)
Theorem exists_near ts xs : (forall i, In i idx -> tame idx co D (G i) ts xs) -> forall near, 0 < near ->
  exists r e0, 0 < r /\ 0 < e0 /\ forall a x e, t0 <= a -> 0 < e <= e0 -> a + e <= b -> Rabs (a - ts) < r -> dst x xs < r ->
  exists y, (forall i, In i idx -> co i (y a) = co i x) /\ (forall s, a <= s <= a + e -> dst (y s) xs < near) /\
  forall i, In i idx -> forall s, a <= s <= a + e -> derivable_pt_lim (fun t => co i (y t)) s (G i s (y s)).
Proof.
  intros Tm near Hnear. destruct (bounds_near idx co D G ts xs Tm) as (d & M & K & Hd & HM & HK & P1 & P2 & P3).
  set (n := INR (length idx)). assert (N : 0 <= n) by apply pos_INR.
  set (h := Rmin d near / 2). assert (D1 := Rmin_l d near). assert (D2 := Rmin_r d near).
  assert (Hh : 0 < h) by (unfold h; assert (0 < Rmin d near) by (apply Rmin_pos; assumption); lra).
  assert (H1 : 2 * h <= d) by (unfold h; lra). assert (H2 : 2 * h <= near) by (unfold h; lra). clearbody h.
  assert (NM : 0 <= n * M) by (apply Rmult_le_pos; assumption). assert (NK : 0 <= n * K) by (apply Rmult_le_pos; assumption).
  set (e0 := Rmin (h / 2) (Rmin (h / (2 * (n * M + 1))) (1 / (2 * (n * K + 1))))).
  assert (Q1 := Rmin_l (h / 2) (Rmin (h / (2 * (n * M + 1))) (1 / (2 * (n * K + 1))))).
  assert (Q2 := Rmin_r (h / 2) (Rmin (h / (2 * (n * M + 1))) (1 / (2 * (n * K + 1))))). fold e0 in Q1, Q2.
  assert (Q5 := Rmin_l (h / (2 * (n * M + 1))) (1 / (2 * (n * K + 1)))). assert (Q6 := Rmin_r (h / (2 * (n * M + 1))) (1 / (2 * (n * K + 1)))).
  assert (He0 : 0 < e0).
  { unfold e0. repeat apply Rmin_pos; try lra; apply Rdiv_lt_0_compat; lra. }
  exists h, e0. split; [exact Hh|]. split; [exact He0|]. intros a x e Ha He Hb Hat Hx.
  assert (Tt : forall s, Rabs (s - a) < h -> Rabs (s - ts) < d).
  { intros s Hs. assert (T := Rabs_triang (s - a) (a - ts)). replace (s - a + (a - ts)) with (s - ts) in T by ring. lra. }
  assert (Tx : forall y, dst y x < h -> dst y xs < d).
  { intros y Hy. assert (T := dist_triangle idx co y x xs). lra. }
  destruct (short_run idx co mk eq_dec co_mk a b G x h M K e HM HK ltac:(lra) ltac:(lra) ltac:(lra)) as (y & Y1 & Y2 & Y3).
  - fold n. apply Rle_lt_trans with ((n * M + 1) * (h / (2 * (n * M + 1)))).
    + rewrite <- Rmult_assoc. apply Rle_trans with ((n * M + 1) * e); [apply Rmult_le_compat_r; lra|]. apply Rmult_le_compat_l; lra.
    + replace ((n * M + 1) * (h / (2 * (n * M + 1)))) with (h / 2) by (field; lra). lra.
  - fold n. apply Rle_trans with ((n * K + 1) * (1 / (2 * (n * K + 1)))).
    + apply Rle_trans with ((n * K + 1) * e); [apply Rmult_le_compat_r; lra|]. apply Rmult_le_compat_l; lra.
    + right. field. lra.
  - intros i Hi s y Ds Hs Hy. apply (P1 i Hi s y ltac:(lra)); [apply Tt, Hs|apply Tx, Hy].
  - intros i Hi s y z Ds Hs Hy Hz. apply (P2 i Hi s y z ltac:(lra)); [apply Tt, Hs|apply Tx, Hy|apply Tx, Hz].
  - intros i Hi s y Ds Hs Hy eps Heps. destruct (P3 i Hi s y ltac:(lra) (Tt s Hs) (Tx y Hy) eps Heps) as (q & Hq & P).
    exists q. split; [exact Hq|]. intros s' y' Ds'. apply P. lra.
  - exists y. split; [exact Y1|]. split; [|exact Y3]. intros s Hs. specialize (Y2 s Hs). assert (T := dist_triangle idx co (y s) x xs). lra.
Qed.
End Near.

(** ** Continuing a solution *)
Lemma tame_sub {X I} (idx : list I) (co : I -> X -> R) (D D' : R -> Prop) F t x : (forall s, D' s -> D s) ->
  tame idx co D F t x -> tame idx co D' F t x.
Proof.
  intros S. assert (W : forall s y, tame0 idx co D F s y -> tame0 idx co D' F s y).
  { intros s y (A & d & K & Hd & HK & L). split.
    - intros e He. destruct (A e He) as (q & Hq & P). exists q. split; [exact Hq|]. intros s' y' Ds. apply P, S, Ds.
    - exists d, K. split; [exact Hd|]. split; [exact HK|]. intros s' y' z' Ds. apply L, S, Ds. }
  intros (A & d & Hd & P). split; [apply W, A|]. exists d. split; [exact Hd|]. intros s y Ds Hs Hy. apply W, P; try assumption. apply S, Ds.
Qed.
Lemma cont_local f g x q : 0 < q -> (forall s, Rabs (s - x) < q -> g s = f s) -> continuity_pt f x -> continuity_pt g x.
Proof.
  intros Hq E C eps He. destruct (C eps He) as (al & Hal & P). exists (Rmin al q). split; [apply Rmin_pos; assumption|].
  intros s (A & B). simpl in B |- *. unfold R_dist in *. assert (M1 := Rmin_l al q). assert (M2 := Rmin_r al q).
  rewrite !E by (try rewrite Rminus_eq_0, Rabs_R0; lra). apply (P s). split; [exact A|]. simpl. unfold R_dist. lra.
Qed.
Lemma deriv_local f g x l q : 0 < q -> (forall s, Rabs (s - x) < q -> g s = f s) -> derivable_pt_lim f x l -> derivable_pt_lim g x l.
Proof.
  intros Hq E Df eps He. destruct (Df eps He) as (dl & P). assert (M1 := Rmin_l dl q). assert (M2 := Rmin_r dl q).
  exists (mkposreal _ (Rmin_pos dl q (cond_pos dl) Hq)). simpl. intros h Hh Hl.
  rewrite !E by (try rewrite Rminus_eq_0, Rabs_R0; try (replace (x + h - x) with h by ring); lra). apply P; [exact Hh|lra].
Qed.

Section Continue.
Context {X I : Type}.
Variables (idx : list I) (co : I -> X -> R) (mk : (I -> R) -> X).
Hypothesis eq_dec : forall i j : I, {i = j} + {i <> j}.
Hypothesis co_mk : forall f i, In i idx -> co i (mk f) = f i.
Variables (t0 t1 b : R) (G : I -> R -> X -> R) (y : R -> X).
Notation D := (fun s => t0 <= s <= b).
Hypothesis Ht : t0 <= t1.
Hypothesis Hb : t1 < b.
Hypothesis Y : forall i, In i idx -> evolves t0 t1 (fun t => co i (y t)) (fun t => G i t (y t)).
Hypothesis Tm : forall i, In i idx -> tame idx co D (G i) t1 (y t1).

Lemma coords_near q : 0 < q -> exists d, 0 < d /\ forall s, Rabs (s - t1) < d -> dist idx co (y s) (y t1) < q.
Proof.
  assert (W : forall l, incl l idx -> forall q, 0 < q -> exists e, 0 < e /\ forall s, Rabs (s - t1) < e ->
      lsum (map (fun i => Rabs (co i (y s) - co i (y t1))) l) < q).
  { induction l as [|i l IH]; intros Hl p Hp.
    - exists 1. split; [lra|]. intros. simpl. exact Hp.
    - destruct (IH ltac:(intros j Hj; apply Hl; right; exact Hj) (p / 2) ltac:(lra)) as (e & He & Q).
      destruct (Y i ltac:(apply Hl; left; reflexivity)) as (C & _).
      destruct (C t1 ltac:(lra) (p / 2) ltac:(lra)) as (e2 & He2 & Q2).
      exists (Rmin e e2). split; [apply Rmin_pos; assumption|].
      assert (M := Rmin_l e e2). assert (M2 := Rmin_r e e2). intros s Hs. simpl. specialize (Q s ltac:(lra)).
      assert (Rabs (co i (y s) - co i (y t1)) < p / 2); [|lra].
      destruct (Req_dec s t1) as [->|Ns]; [rewrite Rminus_eq_0, Rabs_R0; lra|].
      apply (Q2 s). split; [split; [exact Logic.I|intros E; apply Ns; symmetry; exact E]|]. unfold R_met, Base, R_dist. simpl. lra. }
  apply W, incl_refl.
Qed.
(** the slope of a solution at the end of its interval *)
Lemma left_slope i : In i idx -> t0 < t1 -> forall eps, 0 < eps -> exists d, 0 < d /\ forall h, - d < h < 0 ->
  Rabs ((co i (y (t1 + h)) - co i (y t1)) / h - G i t1 (y t1)) < eps.
Proof.
  intros Hi L eps He. destruct (Tm i Hi) as ((C & _) & _). destruct (C eps He) as (q & Hq & P).
  destruct (coords_near q Hq) as (d & Hd & Q). set (r := Rmin (Rmin d q) (t1 - t0)).
  assert (M1 := Rmin_l (Rmin d q) (t1 - t0)). assert (M2 := Rmin_r (Rmin d q) (t1 - t0)). assert (M3 := Rmin_l d q). assert (M4 := Rmin_r d q). fold r in M1, M2.
  exists r. split; [unfold r; repeat apply Rmin_pos; lra|]. intros h Hh.
  destruct (evolves_mvt (t1 + h) t1 _ _ ltac:(lra) (evolves_from t0 t1 (t1 + h) t1 _ _ ltac:(lra) ltac:(lra) (Y i Hi))) as (c & Hc & E).
  cbv beta in E. replace ((co i (y (t1 + h)) - co i (y t1)) / h) with (G i c (y c)).
  - apply P; [lra|rewrite Rabs_left; lra|apply Q; rewrite Rabs_left; lra].
  - replace (co i (y (t1 + h)) - co i (y t1)) with (- (co i (y t1) - co i (y (t1 + h)))) by ring. rewrite E. field. lra.
Qed.

(** Two solutions joined. *)
Theorem glue_runs e w : 0 < e -> t1 + e <= b -> (forall i, In i idx -> co i (w t1) = co i (y t1)) ->
  (forall i, In i idx -> forall s, t1 <= s <= t1 + e -> derivable_pt_lim (fun t => co i (w t)) s (G i s (w s))) ->
  exists z, (forall s, s <= t1 -> z s = y s) /\ (forall s, t1 < s -> z s = w s) /\
  forall i, In i idx -> evolves t0 (t1 + e) (fun t => co i (z t)) (fun t => G i t (z t)).
Proof.
  intros He Hl W0 W.
  set (z := fun s => if Rle_dec s t1 then y s else w s).
  assert (Z1 : forall s, s <= t1 -> z s = y s) by (intros s Hs; unfold z; destruct (Rle_dec s t1); [reflexivity|lra]).
  assert (Z2 : forall s, t1 < s -> z s = w s) by (intros s Hs; unfold z; destruct (Rle_dec s t1); [lra|reflexivity]).
  exists z. split; [exact Z1|]. split; [exact Z2|]. intros i Hi.
  assert (G0 : G i t1 (w t1) = G i t1 (y t1)).
  { destruct (Tm i Hi) as ((_ & d & K & Hd & HK & L) & _).
    assert (Z : dist idx co (w t1) (y t1) = 0).
    { unfold dist. rewrite (lsum_map_ext _ (fun _ => 0)).
      - clear. induction idx as [|j l IH]; simpl; [reflexivity|]. rewrite IH. ring.
      - intros j Hj. rewrite W0 by exact Hj. rewrite Rminus_eq_0. apply Rabs_R0. }
    assert (B := L t1 (w t1) (y t1) ltac:(lra) ltac:(rewrite Rminus_eq_0, Rabs_R0; exact Hd) ltac:(rewrite Z; exact Hd) ltac:(rewrite dist_self; exact Hd)).
    rewrite Z in B. destruct (Req_dec (G i t1 (w t1) - G i t1 (y t1)) 0) as [E|N]; [lra|]. apply Rabs_pos_lt in N. lra. }
  split.
  - intros t Htt. destruct (Rtotal_order t t1) as [L|[->|L]].
    + apply (cont_local (fun t => co i (y t)) _ t (t1 - t)); [lra| |apply (Y i Hi); lra].
      intros s Hs. apply Rabs_def2 in Hs. rewrite Z1 by lra. reflexivity.
    + intros eps Heps. destruct (proj1 (Y i Hi) t1 ltac:(lra) eps Heps) as (a1 & H1 & P1).
      destruct (derivable_continuous_pt _ _ (exist _ _ (W i Hi t1 ltac:(lra)) : derivable_pt (fun t => co i (w t)) t1) eps Heps) as (a2 & H2 & P2).
      exists (Rmin a1 a2). split; [apply Rmin_pos; assumption|]. assert (M1 := Rmin_l a1 a2). assert (M2 := Rmin_r a1 a2).
      intros s (A & B). rewrite (Z1 t1) by lra. destruct (Rle_lt_dec s t1) as [L|L].
      * rewrite Z1 by exact L. apply P1. split; [exact A|]. simpl in B |- *. unfold R_dist in *. lra.
      * rewrite Z2 by exact L. rewrite <- (W0 i Hi). apply P2. split; [exact A|]. simpl in B |- *. unfold R_dist in *. lra.
    + apply (cont_local (fun t => co i (w t)) _ t (t - t1)); [lra| |].
      * intros s Hs. apply Rabs_def2 in Hs. rewrite Z2 by lra. reflexivity.
      * apply derivable_continuous_pt. exists (G i t (w t)). apply W; [exact Hi|lra].
  - intros t Htt. destruct (Rtotal_order t t1) as [L|[->|L]].
    + rewrite Z1 by lra. apply (deriv_local (fun t => co i (y t)) _ t _ (t1 - t)); [lra| |apply (Y i Hi); lra].
      intros s Hs. apply Rabs_def2 in Hs. rewrite Z1 by lra. reflexivity.
    + rewrite (Z1 t1) by lra. intros eps Heps. destruct (left_slope i Hi ltac:(lra) eps Heps) as (d & Hd & P).
      destruct (W i Hi t1 ltac:(lra) eps Heps) as (dl & P2). rewrite G0 in P2.
      assert (M1 := Rmin_l d dl). assert (M2 := Rmin_r d dl).
      exists (mkposreal _ (Rmin_pos d dl Hd (cond_pos dl))). simpl. intros h Hh Hlh. rewrite (Z1 t1) by lra.
      destruct (Rle_lt_dec (t1 + h) t1) as [L|L].
      * rewrite Z1 by exact L. apply P. apply Rabs_def2 in Hlh. lra.
      * rewrite Z2 by exact L. rewrite <- (W0 i Hi). apply P2; [exact Hh|lra].
    + rewrite Z2 by lra. apply (deriv_local (fun t => co i (w t)) _ t _ (t - t1)); [lra| |apply W; [exact Hi|lra]].
      intros s Hs. apply Rabs_def2 in Hs. rewrite Z2 by lra. reflexivity.
Qed.
End Continue.

(** ** Solutions up to a given time *)
(** A cluster point of bounded states. *)
Lemma cluster1 {X} (f : X -> R) M (Q : R -> X -> Prop) : (forall e e' x, e <= e' -> Q e x -> Q e' x) ->
  (forall e, 0 < e -> exists x, Q e x) -> (forall e x, Q e x -> Rabs (f x) <= M) ->
  exists v, forall e, 0 < e -> exists x, Q e x /\ Rabs (f x - v) < e.
Proof.
  intros Mo Ne Bd. set (A := fun r => forall e, 0 < e -> exists x, Q e x /\ r <= f x).
  assert (Bd' : forall e x, Q e x -> - M <= f x <= M).
  { intros e x H. assert (B := Bd e x H). split; [|eapply Rle_trans; [apply Rle_abs|exact B]].
    assert (C := Rle_abs (- f x)). rewrite Rabs_Ropp in C. lra. }
  destruct (completeness A) as (v & U & L).
  - exists M. intros r Hr. destruct (Hr 1 Rlt_0_1) as (x & H & G). assert (B := Bd' 1 x H). lra.
  - exists (- M). intros e He. destruct (Ne e He) as (x & H). exists x. split; [exact H|]. apply (Bd' e x H).
  - exists v. intros e He.
    assert (N1 : exists r, A r /\ v - e < r).
    { apply NNPP. intros N. assert (v <= v - e); [|lra]. apply L. intros r Hr.
      destruct (Rle_lt_dec r (v - e)) as [G|G]; [exact G|]. exfalso. apply N. exists r. split; assumption. }
    destruct N1 as (r & Ar & Hr).
    assert (N2 : exists e1, 0 < e1 /\ forall x, Q e1 x -> f x < v + e / 2).
    { apply NNPP. intros N. assert (v + e / 2 <= v); [|lra]. apply U. intros e1 He1. apply NNPP. intros N2. apply N.
      exists e1. split; [exact He1|]. intros x Hx. apply Rnot_le_lt. intros G. apply N2. exists x. split; assumption. }
    destruct N2 as (e1 & He1 & P). destruct (Ar (Rmin e e1) ltac:(apply Rmin_pos; assumption)) as (x & Qx & G).
    exists x. split; [apply (Mo (Rmin e e1)); [apply Rmin_l|exact Qx]|].
    specialize (P x (Mo _ e1 x (Rmin_r e e1) Qx)). apply Rabs_def1; lra.
Qed.

Section Full.
Context {X I : Type}.
Variables (idx : list I) (co : I -> X -> R) (mk : (I -> R) -> X).
Hypothesis eq_dec : forall i j : I, {i = j} + {i <> j}.
Hypothesis co_mk : forall f i, In i idx -> co i (mk f) = f i.
Variables (t0 b : R) (G : I -> R -> X -> R) (x0 : X).
Notation D := (fun s => t0 <= s <= b).
Notation dst := (dist idx co).

Lemma cluster M (Q : R -> X -> Prop) : (forall e e' x, e <= e' -> Q e x -> Q e' x) ->
  (forall e, 0 < e -> exists x, Q e x) -> (forall e x, Q e x -> forall i, In i idx -> Rabs (co i x) <= M) ->
  exists v, forall e, 0 < e -> exists x, Q e x /\ dst x v < e.
Proof.
  intros Mo Ne Bd.
  assert (W : forall l, incl l idx -> forall Q : R -> X -> Prop, (forall e e' x, e <= e' -> Q e x -> Q e' x) ->
    (forall e, 0 < e -> exists x, Q e x) -> (forall e x, Q e x -> forall i, In i idx -> Rabs (co i x) <= M) ->
    exists f, forall e, 0 < e -> exists x, Q e x /\ forall i, In i l -> Rabs (co i x - f i) < e).
  { clear Q Mo Ne Bd. induction l as [|i l IH]; intros Hl Q Mo Ne Bd.
    - exists (fun _ => 0). intros e He. destruct (Ne e He) as (x & H). exists x. split; [exact H|]. intros i Hi. destruct Hi.
    - destruct (cluster1 (co i) M Q Mo Ne) as (v & V); [intros e x H; apply (Bd e x H), Hl; left; reflexivity|].
      destruct (IH (fun j Hj => Hl j (or_intror Hj)) (fun e x => Q e x /\ Rabs (co i x - v) < e)) as (f & F).
      + intros e e' x L (A & B). split; [apply (Mo e); assumption|lra].
      + exact V.
      + intros e x (A & _). apply (Bd e x A).
      + exists (fun j => if eq_dec j i then v else f j). intros e He. destruct (F e He) as (x & (A & B) & C).
        exists x. split; [exact A|]. intros j Hj. destruct (eq_dec j i) as [->|N]; [exact B|].
        destruct Hj as [->|Hj]; [contradiction|]. apply C, Hj. }
  destruct (W idx (incl_refl idx) Q Mo Ne Bd) as (f & F). exists (mk f).
  assert (N := pos_INR (length idx)).
  intros e He. set (q := Rmin e (e / (INR (length idx) + 1))).
  assert (Q1 := Rmin_l e (e / (INR (length idx) + 1))). assert (Q2 := Rmin_r e (e / (INR (length idx) + 1))). fold q in Q1, Q2.
  assert (Hq : 0 < q) by (apply Rmin_pos; [exact He|apply Rdiv_lt_0_compat; lra]).
  destruct (F q Hq) as (x & A & B). exists x. split; [apply (Mo q); assumption|].
  assert (S : forall l, incl l idx -> lsum (map (fun i => Rabs (co i x - co i (mk f))) l) <= INR (length l) * q).
  { induction l as [|i l IH]; intros Hl; [simpl; lra|]. cbn [map lsum fold_right length]. rewrite S_INR.
    change (fold_right Rplus 0) with lsum. specialize (IH (fun j Hj => Hl j (or_intror Hj))).
    rewrite co_mk by (apply Hl; left; reflexivity). specialize (B i (Hl i (or_introl eq_refl))). lra. }
  eapply Rle_lt_trans; [apply S, incl_refl|].
  apply Rle_lt_trans with (INR (length idx) * (e / (INR (length idx) + 1))); [apply Rmult_le_compat_l; lra|].
  apply Rmult_lt_reg_r with (INR (length idx) + 1); [lra|].
  replace (INR (length idx) * (e / (INR (length idx) + 1)) * (INR (length idx) + 1)) with (INR (length idx) * e) by (field; lra). nra.
Qed.

(** [y] solves the equations from [x0] at [t0] to [T]. *)
Definition solves (T : R) (y : R -> X) : Prop :=
  (forall i, In i idx -> co i (y t0) = co i x0) /\
  forall i, In i idx -> evolves t0 T (fun t => co i (y t)) (fun t => G i t (y t)).
(** ([t], [x]) is a limit of states that solutions reach. *)
Definition reached (t : R) (x : X) : Prop :=
  forall e, 0 < e -> exists T y, t0 <= T <= b /\ solves T y /\ Rabs (T - t) < e /\ dst (y T) x < e.

Theorem full_run M : t0 <= b ->
  (forall T y, t0 <= T <= b -> solves T y -> forall i, In i idx -> Rabs (co i (y T)) <= M) ->
  (forall t x, t0 <= t <= b -> reached t x -> forall i, In i idx -> tame idx co D (G i) t x) ->
  exists y, solves b y.
Proof.
  intros H0 Bd Tm. set (E := fun T => t0 <= T <= b /\ exists y, solves T y).
  assert (E0 : E t0).
  { split; [lra|]. exists (fun _ => x0). split; [reflexivity|]. intros i Hi. split.
    - intros t Ht. apply continuity_pt_const. intros u v. reflexivity.
    - intros t Ht. lra. }
  destruct (completeness E) as (S & U & L).
  - exists b. intros T (HT & _). lra.
  - exists t0. exact E0.
  - assert (S1 := U t0 E0). assert (S2 : S <= b) by (apply L; intros T (HT & _); lra).
    set (Q := fun e x => exists T y, t0 <= T <= b /\ T <= S /\ S - e < T /\ solves T y /\ x = y T).
    destruct (cluster M Q) as (xs & Hxs).
    + intros e e' x Le (T & y & A & B & C & F & G'). exists T, y. split; [exact A|]. split; [exact B|]. split; [lra|]. split; [exact F|exact G'].
    + intros e He. assert (N1 : exists T, E T /\ S - e < T).
      { apply NNPP. intros N. assert (S <= S - e); [|lra]. apply L. intros T HT.
        destruct (Rle_lt_dec T (S - e)) as [K|K]; [exact K|]. exfalso. apply N. exists T. split; assumption. }
      destruct N1 as (T & HT & G'). assert (UT := U T HT). destruct HT as (HT & y & Y). exists (y T), T, y. split; [exact HT|].
      split; [exact UT|]. split; [exact G'|]. split; [exact Y|reflexivity].
    + intros e x (T & y & A & _ & _ & F & ->). apply (Bd T y A F).
    + assert (R1 : reached S xs).
      { intros e He. destruct (Hxs e He) as (x & (T & y & A & B & C & F & ->) & G').
        exists T, y. split; [exact A|]. split; [exact F|]. split; [|exact G']. apply Rabs_def1; lra. }
      destruct (exists_near idx co mk eq_dec co_mk t0 b G S xs (Tm S xs ltac:(lra) R1) 1 Rlt_0_1) as (r & e0 & Hr & He0 & P).
      destruct (Hxs (Rmin r (e0 / 2)) ltac:(apply Rmin_pos; lra)) as (x & (T & y & A & B & C & F & ->) & G').
      assert (M1 := Rmin_l r (e0 / 2)). assert (M2 := Rmin_r r (e0 / 2)).
      destruct (Req_dec T b) as [->|NT]; [exists y; exact F|].
      set (e := Rmin e0 (b - T)). assert (M3 := Rmin_l e0 (b - T)). assert (M4 := Rmin_r e0 (b - T)). fold e in M3, M4.
      assert (He : 0 < e) by (apply Rmin_pos; lra).
      destruct (P T (y T) e ltac:(lra) ltac:(lra) ltac:(lra)) as (w & W0 & _ & W); [apply Rabs_def1; lra|lra|].
      destruct F as (F0 & F1).
      destruct (glue_runs idx co t0 T b G y ltac:(lra) ltac:(lra) F1) with (e := e) (w := w) as (z & Z1 & Z2 & Z); try assumption; try lra.
      { apply Tm; [lra|]. intros q Hq. exists T, y. split; [lra|]. split; [split; assumption|].
        rewrite Rminus_eq_0, Rabs_R0, dist_self. split; exact Hq. }
      assert (Sz : solves (T + e) z).
      { split; [|exact Z]. intros i Hi. rewrite Z1 by lra. apply F0, Hi. }
      assert (V : T + e <= S) by (apply U; split; [lra|exists z; exact Sz]).
      exists z. replace b with (T + e); [exact Sz|]. unfold e in *. unfold Rmin in *. destruct (Rle_dec e0 (b - T)); [|lra].
      destruct (Rle_dec r (e0 / 2)); lra.
Qed.
End Full.

Section Tame.
Context {X I : Type}.
Variables (idx : list I) (co : I -> X -> R) (mk : (I -> R) -> X).
Hypothesis eq_dec : forall i j : I, {i = j} + {i <> j}.
Hypothesis co_mk : forall f i, In i idx -> co i (mk f) = f i.
Variables (t0 b : R) (G : I -> R -> X -> R) (x0 : X).

(** A solution starts where the rates are tame, near the start. *)
Theorem run_starts : t0 < b -> (forall i, In i idx -> tame idx co (fun s => t0 <= s <= b) (G i) t0 x0) -> forall near, 0 < near ->
  exists T y, t0 < T <= b /\ solves idx co t0 G x0 T y /\ forall s, t0 <= s <= T -> dist idx co (y s) x0 < near.
Proof.
  intros L Tm near Hnear. destruct (exists_near idx co mk eq_dec co_mk t0 b G t0 x0 Tm near Hnear) as (q & e0 & Hq & He & P).
  set (e := Rmin e0 (b - t0)). assert (M1 := Rmin_l e0 (b - t0)). assert (M2 := Rmin_r e0 (b - t0)). fold e in M1, M2.
  assert (He2 : 0 < e) by (apply Rmin_pos; lra).
  destruct (P t0 x0 e) as (y & Y1 & Y3 & Y2); try lra; [rewrite Rminus_eq_0, Rabs_R0; exact Hq|rewrite dist_self; exact Hq|].
  exists (t0 + e), y. split; [lra|]. split; [|exact Y3]. split; [exact Y1|]. intros i Hi. split.
  - intros t Ht. apply derivable_continuous_pt. eexists. apply (Y2 i Hi t Ht).
  - intros t Ht. apply Y2; [exact Hi|lra].
Qed.
(** Where the rates are tame everywhere, a solution lasts or solutions grow without bound. *)
Theorem run_or_unbounded : t0 <= b -> (forall t x, t0 <= t <= b -> forall i, In i idx -> tame idx co (fun s => t0 <= s <= b) (G i) t x) ->
  (exists y, solves idx co t0 G x0 b y) \/
  (forall M, exists T y i, t0 <= T <= b /\ solves idx co t0 G x0 T y /\ In i idx /\ M < Rabs (co i (y T))).
Proof.
  intros Hb Tm. destruct (classic (exists y, solves idx co t0 G x0 b y)) as [Y|N]; [left; exact Y|]. right. intros M. apply NNPP. intros N2. apply N.
  apply (full_run idx co mk eq_dec co_mk t0 b G x0 M Hb); [|intros; apply Tm; assumption].
  intros T y HT S i Hi. apply Rnot_lt_le. intros Lt. apply N2. exists T, y, i. split; [exact HT|]. split; [exact S|]. split; [exact Hi|exact Lt].
Qed.
End Tame.

Lemma real_induction a b (P : R -> Prop) : a <= b ->
  (forall t, a <= t <= b -> (forall s, a <= s < t -> P s) -> P t) ->
  (forall t, a <= t < b -> (forall s, a <= s <= t -> P s) -> exists d, 0 < d /\ forall s, t < s < t + d -> s <= b -> P s) ->
  forall t, a <= t <= b -> P t.
Proof.
  intros Hab H1 H2. set (A := fun t => a <= t <= b /\ forall s, a <= s <= t -> P s).
  assert (A0 : A a).
  { split; [lra|]. intros s Hs. apply H1; [lra|]. intros r Hr. lra. }
  destruct (completeness A) as (S & U & L).
  - exists b. intros t (Ht & _). lra.
  - exists a. exact A0.
  - assert (S1 := U a A0). assert (S2 : S <= b) by (apply L; intros t (Ht & _); lra).
    assert (B : forall s, a <= s < S -> P s).
    { intros s Hs. apply NNPP. intros N. assert (S <= s); [|lra]. apply L. intros t (Ht & Q).
      destruct (Rle_lt_dec t s) as [G|G]; [exact G|]. exfalso. apply N, Q. lra. }
    assert (C : forall s, a <= s <= S -> P s).
    { intros s Hs. destruct (Req_dec s S) as [->|N]; [apply H1; [lra|exact B]|apply B; lra]. }
    destruct (Req_dec S b) as [->|N]; [exact C|]. exfalso.
    destruct (H2 S ltac:(lra) C) as (d & Hd & Q). set (t := Rmin b (S + d / 2)).
    assert (T1 := Rmin_l b (S + d / 2)). assert (T2 := Rmin_r b (S + d / 2)). fold t in T1, T2.
    assert (T3 : S < t) by (unfold t; apply Rmin_glb_lt; lra).
    assert (t <= S); [|lra]. apply U. split; [lra|]. intros s Hs. destruct (Rle_lt_dec s S) as [G|G]; [apply C; lra|apply Q; lra].
Qed.
