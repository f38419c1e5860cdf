(** Facts about trajectories of differential equations, from the mean value theorem. *)
From Coq Require Import Reals Lra Lia Arith.
From Verif Require Import Lib_Sum.
Open Scope R_scope.

(** [f] is a trajectory component on [a,b]: continuous on the closed interval,
    with derivative [f'] inside. *)
Definition evolves (a b : R) (f f' : R -> R) : Prop :=
  (forall t, a <= t <= b -> continuity_pt f t) /\
  (forall t, a < t < b -> derivable_pt_lim f t (f' t)).

Lemma evolves_ext a b f g f' g' :
  (forall t, f t = g t) -> (forall t, a < t < b -> f' t = g' t) ->
  evolves a b f f' -> evolves a b g g'.
Proof.
  intros E E' (C & D). split.
  - intros t Ht. intros eps He. destruct (C t Ht eps He) as (d & Hd & P).
    exists d. split; [exact Hd|]. intros x Hx. rewrite <- !E. apply P, Hx.
  - intros t Ht. rewrite <- E' by assumption.
    intros eps He. destruct (D t Ht eps He) as (d & P). exists d.
    intros h Hh1 Hh2. rewrite <- !E. apply P; assumption.
Qed.

Lemma evolves_const a b k : evolves a b (fun _ => k) (fun _ => 0).
Proof.
  split; intros t _.
  - apply continuity_pt_const. intros x y; reflexivity.
  - apply derivable_pt_lim_const.
Qed.
Lemma evolves_plus a b f g f' g' : evolves a b f f' -> evolves a b g g' ->
  evolves a b (fun t => f t + g t) (fun t => f' t + g' t).
Proof.
  intros (C & D) (C2 & D2). split; intros t Ht.
  - apply (continuity_pt_plus f g); auto.
  - apply (derivable_pt_lim_plus f g); auto.
Qed.
Lemma evolves_mult a b f g f' g' : evolves a b f f' -> evolves a b g g' ->
  evolves a b (fun t => f t * g t) (fun t => f' t * g t + f t * g' t).
Proof.
  intros (C & D) (C2 & D2). split; intros t Ht.
  - apply (continuity_pt_mult f g); auto.
  - apply (derivable_pt_lim_mult f g); auto.
Qed.
Lemma evolves_scal a b k f f' : evolves a b f f' ->
  evolves a b (fun t => k * f t) (fun t => k * f' t).
Proof.
  intros H. eapply evolves_ext; [| |apply (evolves_mult a b _ _ _ _ (evolves_const a b k) H)].
  - reflexivity.
  - intros; simpl. ring.
Qed.
Lemma evolves_rsum a b n (f f' : nat -> R -> R) :
  (forall i, (i < n)%nat -> evolves a b (f i) (f' i)) ->
  evolves a b (fun t => rsum n (fun i => f i t)) (fun t => rsum n (fun i => f' i t)).
Proof.
  induction n as [|n IH]; intros H; simpl; [apply evolves_const|].
  apply evolves_plus; [apply IH; intros; apply H; lia|apply H; lia].
Qed.

Lemma evolves_sub a b c f f' : c <= b -> evolves a b f f' -> evolves a c f f'.
Proof. intros Hc (C & D). split; intros t Ht; [apply C|apply D]; lra. Qed.

Lemma evolves_mvt a b f f' : a < b -> evolves a b f f' ->
  exists c, a < c < b /\ f b - f a = f' c * (b - a).
Proof.
  intros Hab (C & D).
  assert (pr1 : forall c, a < c < b -> derivable_pt f c).
  { intros c Hc. exists (f' c). apply D, Hc. }
  assert (pr2 : forall c, a < c < b -> derivable_pt id c).
  { intros c Hc. apply derivable_pt_id. }
  destruct (MVT f id a b pr1 pr2 Hab C) as (c & P & E).
  - intros c _. apply derivable_continuous_pt, derivable_pt_id.
  - exists c. split; [exact P|].
    rewrite (derive_pt_eq_0 f c (f' c) (pr1 c P)) in E by (apply D, P).
    rewrite (derive_pt_eq_0 id c 1 (pr2 c P)) in E by apply derivable_pt_lim_id.
    unfold id in E. lra.
Qed.

Lemma evolves_zero a b f f' : evolves a b f f' -> (forall t, a < t < b -> f' t = 0) ->
  forall t, a <= t <= b -> f t = f a.
Proof.
  intros H Z t Ht. destruct (Req_dec t a) as [->|Hn]; [reflexivity|].
  destruct (evolves_mvt a t f f') as (c & Hc & E); [lra|apply (evolves_sub a b); [lra|exact H]|].
  rewrite Z in E by lra. lra.
Qed.
Lemma evolves_nonincreasing a b f f' : evolves a b f f' -> (forall t, a < t < b -> f' t <= 0) ->
  forall t, a <= t <= b -> f t <= f a.
Proof.
  intros H Z t Ht. destruct (Req_dec t a) as [->|Hn]; [lra|].
  destruct (evolves_mvt a t f f') as (c & Hc & E); [lra|apply (evolves_sub a b); [lra|exact H]|].
  assert (f' c <= 0) by (apply Z; lra).
  assert (0 < t - a) by lra. nra.
Qed.

(** A linear system started from zero stays at zero. *)
Lemma square_bound x y : x * y <= (x * x + y * y) / 2.
Proof. assert (0 <= (x - y) * (x - y)) by apply Rle_0_sqr. lra. Qed.

Lemma evolves_exp a b k : evolves a b (fun t => exp (k * t)) (fun t => k * exp (k * t)).
Proof.
  assert (D : forall t, derivable_pt_lim (fun t => exp (k * t)) t (k * exp (k * t))).
  { intros t. rewrite Rmult_comm.
    apply (derivable_pt_lim_comp (fun t => k * t) exp); [|apply derivable_pt_lim_exp].
    enough (D : derivable_pt_lim (fun t => k * t) t (k * 1)) by (rewrite Rmult_1_r in D; exact D).
    apply (derivable_pt_lim_scal (fun t => t)). apply derivable_pt_lim_id. }
  split; intros t Ht.
  - apply derivable_continuous_pt. exists (k * exp (k * t)). apply D.
  - apply D.
Qed.

Lemma gronwall_zero a b E E' K : evolves a b E E' -> E a = 0 ->
  (forall t, a <= t <= b -> 0 <= E t) -> (forall t, a < t < b -> E' t <= K * E t) ->
  forall t, a <= t <= b -> E t = 0.
Proof.
  intros H E0 P B t Ht.
  assert (X := evolves_mult a b _ _ _ _ (evolves_exp a b (- K)) H).
  assert (Y := evolves_nonincreasing a b _ _ X).
  cbv beta in Y.
  assert (Z : exp (- K * t) * E t <= exp (- K * a) * E a).
  { apply Y; [|exact Ht]. intros s Hs. specialize (B s Hs).
    assert (0 < exp (- K * s)) by apply exp_pos.
    assert (exp (- K * s) * (E' s - K * E s) <= 0) by nra. lra. }
  rewrite E0, Rmult_0_r in Z.
  assert (0 < exp (- K * t)) by apply exp_pos. specialize (P t Ht).
  assert (0 <= exp (- K * t) * E t) by (apply Rmult_le_pos; lra).
  assert (Q : exp (- K * t) * E t = 0) by lra.
  apply Rmult_integral in Q. destruct Q; lra.
Qed.

Lemma rsum_sq_zero n (w : nat -> R) : rsum n (fun i => w i * w i) = 0 ->
  forall i, (i < n)%nat -> w i = 0.
Proof.
  intros H i Hi. destruct (Req_dec (w i) 0) as [E|E]; [exact E|]. exfalso.
  assert (0 < rsum n (fun i => w i * w i)); [|lra].
  apply (rsum_pos_one n _ i Hi).
  - intros; apply Rle_0_sqr.
  - apply Rlt_0_sqr, E.
Qed.

Lemma linear_zero a b n (M : nat -> nat -> R) (w : nat -> R -> R) :
  (forall i, (i < n)%nat -> evolves a b (w i) (fun t => rsum n (fun j => M i j * w j t))) ->
  (forall i, (i < n)%nat -> w i a = 0) ->
  forall t, a <= t <= b -> forall i, (i < n)%nat -> w i t = 0.
Proof.
  intros H H0 t Ht. apply rsum_sq_zero.
  set (E' := fun t => rsum n (fun i => rsum n (fun j => M i j * w j t) * w i t
                                     + w i t * rsum n (fun j => M i j * w j t))).
  set (K := rsum n (fun i => rsum n (fun j => Rabs (M i j) + Rabs (M j i)))).
  assert (HE : evolves a b (fun t => rsum n (fun i => w i t * w i t)) E').
  { apply evolves_rsum. intros i Hi. apply evolves_mult; apply H, Hi. }
  apply (gronwall_zero a b _ E' K HE).
  - apply rsum_zero. intros i Hi. rewrite H0 by exact Hi. ring.
  - intros s Hs. apply rsum_nonneg. intros; apply Rle_0_sqr.
  - intros s Hs. unfold E'.
    assert (B1 : rsum n (fun i => rsum n (fun j => M i j * w j s) * w i s
                               + w i s * rsum n (fun j => M i j * w j s))
                 <= rsum n (fun i => rsum n (fun j => (Rabs (M i j) + Rabs (M j i)) * (w i s * w i s)))).
    { rewrite (rsum_ext n _ (fun i => rsum n (fun j => 2 * (M i j * (w j s * w i s))))).
      2:{ intros i Hi. rewrite <- rsum_scal_r, <- rsum_scal, <- rsum_plus.
          apply rsum_ext. intros; ring. }
      rewrite (rsum_ext n (fun i => rsum n (fun j => (Rabs (M i j) + Rabs (M j i)) * (w i s * w i s)))
        (fun i => rsum n (fun j => Rabs (M i j) * (w i s * w i s))
                  + rsum n (fun j => Rabs (M j i) * (w i s * w i s)))).
      2:{ intros i Hi. rewrite <- rsum_plus. apply rsum_ext. intros; ring. }
      rewrite rsum_plus, (rsum_swap n n (fun i j => Rabs (M j i) * (w i s * w i s))), <- rsum_plus.
      apply rsum_le. intros i Hi. rewrite <- rsum_plus. apply rsum_le. intros j Hj.
      assert (A := Rle_abs (M i j)). assert (A2 := Rle_abs (- M i j)). rewrite Rabs_Ropp in A2.
      assert (S1 := square_bound (w j s) (w i s)).
      assert (S2 := square_bound (w j s) (- w i s)).
      set (m := M i j) in *. set (x := w i s) in *. set (y := w j s) in *.
      assert (0 <= Rabs m) by apply Rabs_pos.
      assert (Hx : - (x * x + y * y) / 2 <= y * x) by lra.
      destruct (Rle_dec 0 (y * x)).
      - assert (m * (y * x) <= Rabs m * (y * x)) by (apply Rmult_le_compat_r; lra).
        assert (Rabs m * (y * x) <= Rabs m * ((y * y + x * x) / 2)) by (apply Rmult_le_compat_l; lra).
        lra.
      - assert (m * (y * x) <= Rabs m * - (y * x)) by nra.
        assert (Rabs m * - (y * x) <= Rabs m * ((y * y + x * x) / 2)) by (apply Rmult_le_compat_l; lra).
        lra. }
    eapply Rle_trans; [exact B1|].
    unfold K. rewrite <- rsum_scal_r. rewrite (rsum_ext n _ (fun i =>
      rsum n (fun j => Rabs (M i j) + Rabs (M j i)) * (w i s * w i s)))
      by (intros; rewrite rsum_scal_r; reflexivity).
    apply rsum_le. intros i Hi. apply Rmult_le_compat_l.
    + apply rsum_nonneg. intros j Hj. assert (A := Rabs_pos (M i j)).
      assert (A2 := Rabs_pos (M j i)). lra.
    + rewrite (rsum_split_at n _ i Hi).
      assert (0 <= rsum n (fun i0 => if Nat.eq_dec i0 i then 0 else w i0 s * w i0 s)); [|lra].
      apply rsum_nonneg. intros j Hj. destruct (Nat.eq_dec j i); [lra|apply Rle_0_sqr].
  - exact Ht.
Qed.
