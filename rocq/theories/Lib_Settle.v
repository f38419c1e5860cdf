(** Functions of time that vanish in the long run; Barbalat's lemma for energies. *)
From Coq Require Import Reals Lra Lia.
From Verif Require Import Lib_Sum Lib_Traj.
Open Scope R_scope.

Definition vanishes (f : R -> R) : Prop := forall eps, 0 < eps -> exists T, forall t, T <= t -> Rabs (f t) < eps.

Lemma vanishes_le k t0 f g : 0 <= k -> (forall t, t0 <= t -> Rabs (g t) <= k * Rabs (f t)) -> vanishes f -> vanishes g.
Proof.
  intros Hk H V eps He. destruct (V (eps / (k + 1))) as (T & HT); [apply Rdiv_lt_0_compat; lra|].
  exists (Rmax T t0). intros t Ht. assert (A := Rmax_l T t0). assert (B := Rmax_r T t0).
  specialize (HT t ltac:(lra)). eapply Rle_lt_trans; [apply H; lra|].
  assert (P := Rabs_pos (f t)). apply Rle_lt_trans with ((k + 1) * Rabs (f t)); [nra|].
  apply Rmult_lt_reg_r with (/ (k + 1)); [apply Rinv_0_lt_compat; lra|].
  replace ((k + 1) * Rabs (f t) * / (k + 1)) with (Rabs (f t)) by (field; lra). exact HT.
Qed.
Lemma vanishes_0 : vanishes (fun _ => 0).
Proof. intros eps He. exists 0. intros t _. rewrite Rabs_R0. exact He. Qed.
Lemma vanishes_plus f g : vanishes f -> vanishes g -> vanishes (fun t => f t + g t).
Proof.
  intros F G eps He. destruct (F (eps / 2)) as (T & HT); [lra|]. destruct (G (eps / 2)) as (U & HU); [lra|].
  exists (Rmax T U). intros t Ht. assert (A := Rmax_l T U). assert (B := Rmax_r T U).
  eapply Rle_lt_trans; [apply Rabs_triang|]. specialize (HT t ltac:(lra)). specialize (HU t ltac:(lra)). lra.
Qed.
Lemma vanishes_scal k f : vanishes f -> vanishes (fun t => k * f t).
Proof. apply (vanishes_le (Rabs k) 0); [apply Rabs_pos|]. intros t _. rewrite Rabs_mult. lra. Qed.
Lemma vanishes_abs f : vanishes f -> vanishes (fun t => Rabs (f t)).
Proof. apply (vanishes_le 1 0); [lra|]. intros t _. rewrite Rabs_Rabsolu. lra. Qed.
Lemma vanishes_rsum n (f : nat -> R -> R) : (forall i, (i < n)%nat -> vanishes (f i)) -> vanishes (fun t => rsum n (fun i => f i t)).
Proof.
  induction n as [|n IH]; intros H; [apply vanishes_0|]. cbn [rsum]. apply vanishes_plus; [apply IH; intros; apply H; lia|apply H; lia].
Qed.

(** A function that moves at a bounded pace and drains an energy that cannot become negative. *)
Section Barbalat.
Variables (t0 k K : R) (E E' z : R -> R).
Hypothesis Hk : 0 < k.
Hypothesis HK : 0 < K.
Hypothesis HE : forall b, evolves t0 b E E'.
Hypothesis HP : forall t, t0 <= t -> 0 <= E t.
Hypothesis HD : forall t, t0 < t -> E' t <= - k * z t ^ 2.
Hypothesis HL : forall s t, t0 <= s -> s <= t -> Rabs (z t - z s) <= K * (t - s).
Lemma evolves_from a b c f f' : a <= c -> evolves a b f f' -> evolves c b f f'.
Proof. intros H (HC & HF). split; intros t Ht; [apply HC|apply HF]; lra. Qed.
Lemma drains s t : t0 <= s -> s <= t -> E t <= E s.
Proof.
  intros Hs Hst. apply (evolves_nonincreasing s t E E' (evolves_from t0 t s E E' Hs (HE t))); [|lra].
  intros x Hx. specialize (HD x ltac:(lra)). assert (P := pow2_ge_0 (z x)). nra.
Qed.
Lemma drop e s : 0 < e -> t0 <= s -> e <= Rabs (z s) -> E (s + e / (2 * K)) <= E s - k * (e / 2) ^ 2 * (e / (2 * K)).
Proof.
  intros He Hs Hz. set (h := e / (2 * K)). assert (Hh : 0 < h) by (apply Rdiv_lt_0_compat; lra).
  destruct (evolves_mvt s (s + h) E E' ltac:(lra) (evolves_from t0 (s + h) s E E' Hs (HE (s + h)))) as (x & Hx & EQ).
  assert (D := HD x ltac:(lra)). assert (L := HL s x Hs ltac:(lra)).
  assert (KH : K * (x - s) <= e / 2). { apply Rle_trans with (K * h); [apply Rmult_le_compat_l; lra|]. unfold h. right. field. lra. }
  assert (Z : e / 2 <= Rabs (z x)). { assert (T := Rabs_triang_inv (z s) (z x)). rewrite Rabs_minus_sym in T. lra. }
  assert (Q : (e / 2) ^ 2 <= z x ^ 2). { rewrite <- (pow2_abs (z x)). apply pow_incr. lra. }
  assert (E' x <= - k * (e / 2) ^ 2) by nra. nra.
Qed.
Lemma barbalat : vanishes z.
Proof.
  intros e He. set (h := e / (2 * K)). set (c := k * (e / 2) ^ 2 * h).
  assert (Hh : 0 < h) by (apply Rdiv_lt_0_compat; lra).
  assert (Hc : 0 < c) by (unfold c; apply Rmult_lt_0_compat; [apply Rmult_lt_0_compat; [exact Hk|apply pow_lt; lra]|exact Hh]).
  assert (X : forall m : nat, (exists T, t0 <= T /\ forall t, T <= t -> Rabs (z t) < e) \/ exists s, t0 <= s /\ E s <= E t0 - INR m * c).
  { induction m as [|m [IH|(s & Hs & IH)]]; [right; exists t0; simpl; lra|left; exact IH|].
    destruct (Classical_Prop.classic (forall t, s <= t -> Rabs (z t) < e)) as [A|A]; [left; exists s; split; assumption|right].
    apply Classical_Pred_Type.not_all_ex_not in A as (t & A). apply Classical_Prop.imply_to_and in A as (A1 & A2). apply Rnot_lt_le in A2.
    exists (t + h). split; [lra|]. assert (D := drop e t He ltac:(lra) A2). fold h c in D.
    assert (M := drains s t Hs A1). rewrite S_INR. lra. }
  destruct (archimed_cor1 (c / (E t0 + 1))) as (m & Hm & Hm0); [apply Rdiv_lt_0_compat; [exact Hc|]; assert (Y := HP t0 (Rle_refl t0)); lra|].
  destruct (X m) as [(T & _ & H)|(s & Hs & H)]; [exists T; exact H|exfalso].
  assert (P := HP s Hs). assert (P0 := HP t0 (Rle_refl t0)). assert (PM : 0 < INR m) by (apply lt_0_INR; exact Hm0).
  assert (Y : E t0 + 1 < INR m * c).
  { apply Rmult_lt_compat_r with (r := INR m * (E t0 + 1)) in Hm; [|apply Rmult_lt_0_compat; lra].
    replace (/ INR m * (INR m * (E t0 + 1))) with (E t0 + 1) in Hm by (field; lra).
    replace (c / (E t0 + 1) * (INR m * (E t0 + 1))) with (INR m * c) in Hm by (field; lra). exact Hm. }
  lra.
Qed.
End Barbalat.

(** A unique number can be named. *)
Lemma the_number (P : R -> Prop) : (exists x, P x) -> (forall x y, P x -> P y -> x = y) -> { x | P x }.
Proof.
  intros HX HU. destruct (completeness (fun y => exists x, P x /\ y <= x)) as (m & Hm).
  - destruct HX as (x & Hx). exists x. intros y (x' & Hx' & L). rewrite (HU x x' Hx Hx'). exact L.
  - destruct HX as (x & Hx). exists x, x. split; [exact Hx|lra].
  - exists m. destruct HX as (x & Hx). replace m with x; [exact Hx|]. destruct Hm as (U & L). apply Rle_antisym.
    + apply U. exists x. split; [exact Hx|lra].
    + apply L. intros y (x' & Hx' & L2). rewrite (HU x x' Hx Hx'). exact L2.
Defined.
