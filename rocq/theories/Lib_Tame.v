(** Local Lipschitz functions of a state and a time, and uniqueness of the
    solutions of an initial-value problem. *)
From Coq Require Import Reals List Arith Lra Lia.
From Verif Require Import Lib_Sum Lib_Traj.
Import ListNotations.
Open Scope R_scope.

(** ** Real functions that are Lipschitz around a point *)
Definition lip_at (g : R -> R) (x : R) : Prop :=
  exists d K, 0 < d /\ 0 <= K /\
    forall a b, Rabs (a - x) < d -> Rabs (b - x) < d -> Rabs (g a - g b) <= K * Rabs (a - b).

Lemma lip_at_ext f g x d : 0 < d -> (forall a, Rabs (a - x) < d -> f a = g a) ->
  lip_at f x -> lip_at g x.
Proof.
  intros Hd E (d1 & K & Hd1 & HK & L). exists (Rmin d d1), K.
  split; [apply Rmin_pos; assumption|]. split; [exact HK|]. intros a b Ha Hb.
  assert (A := Rmin_l d d1). assert (B := Rmin_r d d1).
  rewrite <- !E by lra. apply L; lra.
Qed.

(** A function with a bounded derivative near the point. *)
Lemma lip_at_deriv g g' x d M : 0 < d ->
  (forall a, Rabs (a - x) < d -> derivable_pt_lim g a (g' a)) ->
  (forall a, Rabs (a - x) < d -> Rabs (g' a) <= M) -> lip_at g x.
Proof.
  intros Hd D B.
  assert (HM : 0 <= M).
  { eapply Rle_trans; [apply Rabs_pos|apply (B x)]. rewrite Rminus_eq_0, Rabs_R0. exact Hd. }
  exists d, M. split; [exact Hd|]. split; [exact HM|].
  assert (W : forall a b, a < b -> Rabs (a - x) < d -> Rabs (b - x) < d ->
    Rabs (g b - g a) <= M * Rabs (b - a)).
  { intros a b Hab Ha Hb.
    assert (In : forall c, a <= c <= b -> Rabs (c - x) < d).
    { intros c Hc. apply Rabs_def2 in Ha. apply Rabs_def2 in Hb. apply Rabs_def1; lra. }
    destruct (MVT_cor2 g g' a b Hab) as (c & E & Hc).
    - intros c Hc. apply D, In, Hc.
    - rewrite E, Rabs_mult. apply Rmult_le_compat_r; [apply Rabs_pos|]. apply B, In. lra. }
  intros a b Ha Hb. destruct (Rtotal_order a b) as [H|[->|H]].
  - rewrite (Rabs_minus_sym (g a)), (Rabs_minus_sym a). apply W; assumption.
  - rewrite !Rminus_eq_0, Rabs_R0. lra.
  - apply W; assumption.
Qed.

Lemma lip_at_inv x : x <> 0 -> lip_at Rinv x.
Proof.
  intros Hx. assert (H0 : 0 < Rabs x) by (apply Rabs_pos_lt; exact Hx).
  exists (Rabs x / 2), (4 / (Rabs x * Rabs x)).
  assert (P : 0 < Rabs x * Rabs x) by nra.
  split; [lra|]. split.
  { left. apply Rdiv_lt_0_compat; lra. }
  assert (L : forall a, Rabs (a - x) < Rabs x / 2 -> Rabs x / 2 <= Rabs a).
  { intros a Ha. assert (T := Rabs_triang a (x - a)).
    replace (a + (x - a)) with x in T by ring. rewrite (Rabs_minus_sym x) in T. lra. }
  intros a b Ha Hb. apply L in Ha. apply L in Hb.
  assert (Na : a <> 0) by (intros ->; rewrite Rabs_R0 in Ha; lra).
  assert (Nb : b <> 0) by (intros ->; rewrite Rabs_R0 in Hb; lra).
  replace (/ a - / b) with ((b - a) * / (a * b)) by (field; split; assumption).
  rewrite Rabs_mult, (Rabs_minus_sym b), Rmult_comm.
  apply Rmult_le_compat_r; [apply Rabs_pos|].
  rewrite Rabs_inv, Rabs_mult.
  unfold Rdiv. replace 4 with (/ (/4)) by lra. rewrite <- Rinv_mult.
  apply Rinv_le_contravar; nra.
Qed.

Lemma lip_at_sqrt x : 0 < x -> lip_at sqrt x.
Proof.
  intros Hx. apply (lip_at_deriv sqrt (fun a => / (2 * sqrt a)) x (x / 2) (/ (2 * sqrt (x / 2)))).
  - lra.
  - intros a Ha. apply Rabs_def2 in Ha. apply derivable_pt_lim_sqrt. lra.
  - intros a Ha. apply Rabs_def2 in Ha.
    assert (P : 0 < sqrt (x / 2)) by (apply sqrt_lt_R0; lra).
    assert (Q : sqrt (x / 2) <= sqrt a) by (apply sqrt_le_1; lra).
    rewrite Rabs_right by (apply Rle_ge; left; apply Rinv_0_lt_compat; lra).
    apply Rinv_le_contravar; lra.
Qed.

Lemma lip_at_exp x : lip_at exp x.
Proof.
  apply (lip_at_deriv exp exp x 1 (exp (x + 1))); [lra| |].
  - intros a _. apply derivable_pt_lim_exp.
  - intros a Ha. apply Rabs_def2 in Ha. rewrite Rabs_right by (left; apply exp_pos).
    left. apply exp_increasing. lra.
Qed.

Lemma lip_at_ln x : 0 < x -> lip_at ln x.
Proof.
  intros Hx. apply (lip_at_deriv ln Rinv x (x / 2) (/ (x / 2))); [lra| |].
  - intros a Ha. apply Rabs_def2 in Ha. apply derivable_pt_lim_ln. lra.
  - intros a Ha. apply Rabs_def2 in Ha.
    rewrite Rabs_right by (apply Rle_ge; left; apply Rinv_0_lt_compat; lra).
    apply Rinv_le_contravar; lra.
Qed.

Lemma lip_at_scal k x : lip_at (fun a => k * a) x.
Proof.
  exists 1, (Rabs k). split; [lra|]. split; [apply Rabs_pos|]. intros a b _ _.
  rewrite <- Rmult_minus_distr_l, Rabs_mult. lra.
Qed.

Lemma lip_at_comp f g x : lip_at f x -> lip_at g (f x) -> lip_at (fun a => g (f a)) x.
Proof.
  intros (d & K & Hd & HK & L) (e & M & He & HM & L2).
  exists (Rmin d (e / (K + 1))), (M * K).
  assert (A := Rmin_l d (e / (K + 1))). assert (B := Rmin_r d (e / (K + 1))).
  assert (P : 0 < e / (K + 1)) by (apply Rdiv_lt_0_compat; lra).
  split; [apply Rmin_pos; assumption|]. split; [apply Rmult_le_pos; assumption|].
  assert (N : forall a, Rabs (a - x) < Rmin d (e / (K + 1)) -> Rabs (f a - f x) < e).
  { intros a Ha. assert (Q := L a x). assert (Hxx : Rabs (x - x) < d) by (rewrite Rminus_eq_0, Rabs_R0; exact Hd).
    specialize (Q ltac:(lra) Hxx).
    assert (K * Rabs (a - x) <= K * (e / (K + 1))) by (apply Rmult_le_compat_l; lra).
    assert (K * (e / (K + 1)) < e); [|lra].
    apply Rlt_le_trans with ((K + 1) * (e / (K + 1))); [nra|]. right. field. lra. }
  intros a b Ha Hb.
  eapply Rle_trans; [apply L2; apply N; assumption|].
  rewrite Rmult_assoc. apply Rmult_le_compat_l; [exact HM|]. apply L; lra.
Qed.

Lemma lip_at_Rpower x p : 0 < x -> lip_at (fun a => Rpower a p) x.
Proof.
  intros Hx. unfold Rpower.
  apply (lip_at_comp (fun a => p * ln a) exp); [|apply lip_at_exp].
  apply (lip_at_comp ln (fun a => p * a)); [apply lip_at_ln; exact Hx|apply lip_at_scal].
Qed.

Lemma lip_at_near g x : lip_at g x -> exists e, 0 < e /\ forall a, Rabs (a - x) < e -> lip_at g a.
Proof.
  intros (d & K & Hd & HK & L). exists d. split; [exact Hd|]. intros a Ha. exists (d - Rabs (a - x)), K.
  split; [lra|]. split; [exact HK|].
  assert (N : forall b, Rabs (b - a) < d - Rabs (a - x) -> Rabs (b - x) < d).
  { intros b Hb. assert (T := Rabs_triang (b - a) (a - x)). replace (b - a + (a - x)) with (b - x) in T by ring. lra. }
  intros b c Hb Hc. apply L; apply N; assumption.
Qed.

(** ** Functions of a time and a state *)
Section Tame.
Context {X I : Type}.
Variables (idx : list I) (co : I -> X -> R) (D : R -> Prop).

Definition dist (x y : X) : R := lsum (map (fun i => Rabs (co i x - co i y)) idx).

Lemma lsum_nonneg {A} (f : A -> R) l : (forall a, In a l -> 0 <= f a) -> 0 <= lsum (map f l).
Proof.
  induction l as [|a l IH]; intros H; simpl; [lra|].
  assert (0 <= f a) by (apply H; left; reflexivity).
  assert (0 <= lsum (map f l)) by (apply IH; intros; apply H; right; assumption). lra.
Qed.
Lemma lsum_le {A} (f g : A -> R) l : (forall a, In a l -> f a <= g a) ->
  lsum (map f l) <= lsum (map g l).
Proof.
  induction l as [|a l IH]; intros H; simpl; [lra|].
  assert (f a <= g a) by (apply H; left; reflexivity).
  assert (lsum (map f l) <= lsum (map g l)) by (apply IH; intros; apply H; right; assumption). lra.
Qed.
Lemma dist_nonneg x y : 0 <= dist x y.
Proof. apply lsum_nonneg. intros; apply Rabs_pos. Qed.
Lemma dist_triangle x y z : dist x z <= dist x y + dist y z.
Proof.
  unfold dist. induction idx as [|i l IH]; simpl; [lra|].
  assert (T := Rabs_triang (co i x - co i y) (co i y - co i z)).
  replace (co i x - co i y + (co i y - co i z)) with (co i x - co i z) in T by ring. lra.
Qed.
Lemma dist_sym x y : dist x y = dist y x.
Proof. unfold dist. apply f_equal, map_ext. intros i. apply Rabs_minus_sym. Qed.
Lemma dist_self x : dist x x = 0.
Proof. unfold dist. induction idx as [|i l IH]; simpl; [reflexivity|]. rewrite IH, Rminus_eq_0, Rabs_R0. ring. Qed.
Lemma dist_coord x y i : In i idx -> Rabs (co i x - co i y) <= dist x y.
Proof.
  unfold dist. induction idx as [|j l IH]; intros H; [destruct H|]. simpl.
  assert (P := Rabs_pos (co j x - co j y)).
  assert (Q : 0 <= lsum (map (fun i => Rabs (co i x - co i y)) l)) by (apply lsum_nonneg; intros; apply Rabs_pos).
  destruct H as [->|H]; [lra|]. specialize (IH H). lra.
Qed.

(** Continuous at the point and Lipschitz in the state near it. *)
Definition tame0 (F : R -> X -> R) (t : R) (x : X) : Prop :=
  (forall e, 0 < e -> exists d, 0 < d /\
     forall s y, D s -> Rabs (s - t) < d -> dist y x < d -> Rabs (F s y - F t x) < e) /\
  (exists d K, 0 < d /\ 0 <= K /\
     forall s y z, D s -> Rabs (s - t) < d -> dist y x < d -> dist z x < d ->
       Rabs (F s y - F s z) <= K * dist y z).

Lemma tame0_ext F G t x : (forall s y, F s y = G s y) -> tame0 F t x -> tame0 G t x.
Proof.
  intros E (A & d & K & Hd & HK & L). split.
  - intros e He. destruct (A e He) as (d1 & H1 & P). exists d1. split; [exact H1|].
    intros. rewrite <- !E. apply P; assumption.
  - exists d, K. split; [exact Hd|]. split; [exact HK|]. intros. rewrite <- !E. apply L; assumption.
Qed.
Lemma tame0_const k t x : tame0 (fun _ _ => k) t x.
Proof.
  split.
  - intros e He. exists 1. split; [lra|]. intros. rewrite Rminus_eq_0, Rabs_R0. exact He.
  - exists 1, 0. split; [lra|]. split; [lra|]. intros. rewrite Rminus_eq_0, Rabs_R0. lra.
Qed.
Lemma tame0_time p t x :
  (forall e, 0 < e -> exists d, 0 < d /\ forall s, D s -> Rabs (s - t) < d -> Rabs (p s - p t) < e) ->
  tame0 (fun s _ => p s) t x.
Proof.
  intros H. split.
  - intros e He. destruct (H e He) as (d & Hd & P). exists d. split; [exact Hd|]. intros; apply P; assumption.
  - exists 1, 0. split; [lra|]. split; [lra|]. intros. rewrite Rminus_eq_0, Rabs_R0. lra.
Qed.
Lemma tame0_coord i t x : In i idx -> tame0 (fun _ y => co i y) t x.
Proof.
  intros Hi. split.
  - intros e He. exists e. split; [exact He|]. intros s y _ _ Hy.
    eapply Rle_lt_trans; [apply dist_coord; exact Hi|exact Hy].
  - exists 1, 1. split; [lra|]. split; [lra|]. intros s y z _ _ _ _. rewrite Rmult_1_l. apply dist_coord, Hi.
Qed.
Lemma tame0_plus F G t x : tame0 F t x -> tame0 G t x -> tame0 (fun s y => F s y + G s y) t x.
Proof.
  intros (A & d & K & Hd & HK & L) (A2 & d2 & K2 & Hd2 & HK2 & L2). split.
  - intros e He. destruct (A (e / 2)) as (a & Ha & P); [lra|]. destruct (A2 (e / 2)) as (b & Hb & P2); [lra|].
    exists (Rmin a b). split; [apply Rmin_pos; assumption|]. intros s y Ds Hs Hy.
    assert (M := Rmin_l a b). assert (M2 := Rmin_r a b).
    specialize (P s y Ds ltac:(lra) ltac:(lra)). specialize (P2 s y Ds ltac:(lra) ltac:(lra)).
    replace (F s y + G s y - (F t x + G t x)) with ((F s y - F t x) + (G s y - G t x)) by ring.
    assert (T := Rabs_triang (F s y - F t x) (G s y - G t x)). lra.
  - exists (Rmin d d2), (K + K2). split; [apply Rmin_pos; assumption|]. split; [lra|].
    intros s y z Ds Hs Hy Hz. assert (M := Rmin_l d d2). assert (M2 := Rmin_r d d2).
    specialize (L s y z Ds ltac:(lra) ltac:(lra) ltac:(lra)).
    specialize (L2 s y z Ds ltac:(lra) ltac:(lra) ltac:(lra)).
    replace (F s y + G s y - (F s z + G s z)) with ((F s y - F s z) + (G s y - G s z)) by ring.
    assert (T := Rabs_triang (F s y - F s z) (G s y - G s z)). lra.
Qed.
Lemma tame0_bounded F t x : tame0 F t x ->
  exists d, 0 < d /\ forall s y, D s -> Rabs (s - t) < d -> dist y x < d -> Rabs (F s y) <= Rabs (F t x) + 1.
Proof.
  intros (A & _). destruct (A 1) as (d & Hd & P); [lra|]. exists d. split; [exact Hd|].
  intros s y Ds Hs Hy. specialize (P s y Ds Hs Hy).
  assert (T := Rabs_triang (F s y - F t x) (F t x)).
  replace (F s y - F t x + F t x) with (F s y) in T by ring. lra.
Qed.
Lemma tame0_mult F G t x : tame0 F t x -> tame0 G t x -> tame0 (fun s y => F s y * G s y) t x.
Proof.
  intros HF HG. destruct (tame0_bounded F t x HF) as (bf & Hbf & BF).
  destruct (tame0_bounded G t x HG) as (bg & Hbg & BG).
  destruct HF as (A & d & K & Hd & HK & L). destruct HG as (A2 & d2 & K2 & Hd2 & HK2 & L2).
  set (MF := Rabs (F t x) + 1) in *. set (MG := Rabs (G t x) + 1) in *.
  assert (PF : 1 <= MF) by (unfold MF; assert (Q := Rabs_pos (F t x)); lra).
  assert (PG : 1 <= MG) by (unfold MG; assert (Q := Rabs_pos (G t x)); lra).
  split.
  - intros e He.
    destruct (A (e / (2 * MG))) as (a & Ha & P); [apply Rdiv_lt_0_compat; lra|].
    destruct (A2 (e / (2 * MF))) as (b & Hb & P2); [apply Rdiv_lt_0_compat; lra|].
    exists (Rmin (Rmin a b) bg). split; [repeat apply Rmin_pos; assumption|]. intros s y Ds Hs Hy.
    assert (M := Rmin_l (Rmin a b) bg). assert (M2 := Rmin_r (Rmin a b) bg).
    assert (M3 := Rmin_l a b). assert (M4 := Rmin_r a b).
    specialize (P s y Ds ltac:(lra) ltac:(lra)). specialize (P2 s y Ds ltac:(lra) ltac:(lra)).
    specialize (BG s y Ds ltac:(lra) ltac:(lra)).
    replace (F s y * G s y - F t x * G t x) with ((F s y - F t x) * G s y + F t x * (G s y - G t x)) by ring.
    eapply Rle_lt_trans; [apply Rabs_triang|]. rewrite !Rabs_mult.
    assert (E1 : Rabs (F s y - F t x) * Rabs (G s y) <= Rabs (F s y - F t x) * MG)
      by (apply Rmult_le_compat_l; [apply Rabs_pos|exact BG]).
    assert (E2 : Rabs (F s y - F t x) * MG < e / (2 * MG) * MG) by (apply Rmult_lt_compat_r; lra).
    assert (E3 : Rabs (F t x) * Rabs (G s y - G t x) <= MF * Rabs (G s y - G t x))
      by (apply Rmult_le_compat_r; [apply Rabs_pos|unfold MF; lra]).
    assert (E4 : MF * Rabs (G s y - G t x) < MF * (e / (2 * MF))) by (apply Rmult_lt_compat_l; lra).
    replace (e / (2 * MG) * MG) with (e / 2) in E2 by (field; lra).
    replace (MF * (e / (2 * MF))) with (e / 2) in E4 by (field; lra). lra.
  - set (r := Rmin (Rmin d d2) (Rmin bf bg)).
    exists r, (K * MG + MF * K2). split; [repeat apply Rmin_pos; assumption|].
    split; [assert (0 <= K * MG) by (apply Rmult_le_pos; lra); assert (0 <= MF * K2) by (apply Rmult_le_pos; lra); lra|].
    intros s y z Ds Hs Hy Hz.
    assert (M := Rmin_l (Rmin d d2) (Rmin bf bg)). assert (M2 := Rmin_r (Rmin d d2) (Rmin bf bg)).
    assert (M3 := Rmin_l d d2). assert (M4 := Rmin_r d d2).
    assert (M5 := Rmin_l bf bg). assert (M6 := Rmin_r bf bg). fold r in M, M2.
    specialize (L s y z Ds ltac:(lra) ltac:(lra) ltac:(lra)).
    specialize (L2 s y z Ds ltac:(lra) ltac:(lra) ltac:(lra)).
    specialize (BG s y Ds ltac:(lra) ltac:(lra)). specialize (BF s z Ds ltac:(lra) ltac:(lra)).
    replace (F s y * G s y - F s z * G s z) with ((F s y - F s z) * G s y + F s z * (G s y - G s z)) by ring.
    eapply Rle_trans; [apply Rabs_triang|]. rewrite !Rabs_mult, Rmult_plus_distr_r.
    assert (DN := dist_nonneg y z).
    apply Rplus_le_compat.
    + replace (K * MG * dist y z) with (K * dist y z * MG) by ring.
      apply Rmult_le_compat; try apply Rabs_pos; assumption.
    + rewrite Rmult_assoc. apply Rmult_le_compat; try apply Rabs_pos; assumption.
Qed.
Lemma tame0_scal k F t x : tame0 F t x -> tame0 (fun s y => k * F s y) t x.
Proof. intros H. apply (tame0_mult (fun _ _ => k) F); [apply tame0_const|exact H]. Qed.
Lemma tame0_opp F t x : tame0 F t x -> tame0 (fun s y => - F s y) t x.
Proof.
  intros H. apply (tame0_ext (fun s y => (-1) * F s y)); [intros; ring|]. apply tame0_scal, H.
Qed.
Lemma tame0_minus F G t x : tame0 F t x -> tame0 G t x -> tame0 (fun s y => F s y - G s y) t x.
Proof. intros H H2. apply (tame0_plus F (fun s y => - G s y)); [exact H|]. apply tame0_opp, H2. Qed.
Lemma tame0_rsum n (F : nat -> R -> X -> R) t x : (forall i, (i < n)%nat -> tame0 (F i) t x) ->
  tame0 (fun s y => rsum n (fun i => F i s y)) t x.
Proof.
  induction n as [|n IH]; intros H; simpl; [apply tame0_const|].
  apply (tame0_plus (fun s y => rsum n (fun i => F i s y)) (F n)); [apply IH; intros|]; apply H; lia.
Qed.
Lemma tame0_pow F n t x : tame0 F t x -> tame0 (fun s y => F s y ^ n) t x.
Proof.
  intros H. induction n as [|n IH]; simpl; [apply tame0_const|]. apply tame0_mult; assumption.
Qed.
Lemma tame0_comp g F t x : lip_at g (F t x) -> tame0 F t x -> tame0 (fun s y => g (F s y)) t x.
Proof.
  intros (e0 & M & He0 & HM & LG) (A & d & K & Hd & HK & L).
  assert (Z : Rabs (F t x - F t x) < e0) by (rewrite Rminus_eq_0, Rabs_R0; exact He0).
  split.
  - intros e He. destruct (A (Rmin e0 (e / (M + 1)))) as (d1 & H1 & P).
    { apply Rmin_pos; [exact He0|]. apply Rdiv_lt_0_compat; lra. }
    exists d1. split; [exact H1|]. intros s y Ds Hs Hy. specialize (P s y Ds Hs Hy).
    assert (B := Rmin_l e0 (e / (M + 1))). assert (B2 := Rmin_r e0 (e / (M + 1))).
    eapply Rle_lt_trans; [apply LG; [lra|exact Z]|].
    apply Rle_lt_trans with ((M + 1) * Rabs (F s y - F t x));
      [apply Rmult_le_compat_r; [apply Rabs_pos|lra]|].
    apply Rlt_le_trans with ((M + 1) * (e / (M + 1))); [apply Rmult_lt_compat_l; lra|]. right. field. lra.
  - destruct (A e0 He0) as (d1 & H1 & P).
    exists (Rmin d d1), (M * K). split; [apply Rmin_pos; assumption|].
    split; [apply Rmult_le_pos; assumption|]. intros s y z Ds Hs Hy Hz.
    assert (B := Rmin_l d d1). assert (B2 := Rmin_r d d1).
    eapply Rle_trans; [apply LG; apply P; try exact Ds; lra|].
    rewrite Rmult_assoc. apply Rmult_le_compat_l; [exact HM|]. apply L; try exact Ds; lra.
Qed.
Lemma tame0_inv F t x : F t x <> 0 -> tame0 F t x -> tame0 (fun s y => / F s y) t x.
Proof. intros N H. apply (tame0_comp Rinv); [apply lip_at_inv; exact N|exact H]. Qed.
Lemma tame0_div F G t x : G t x <> 0 -> tame0 F t x -> tame0 G t x -> tame0 (fun s y => F s y / G s y) t x.
Proof. intros N H H2. apply (tame0_mult F (fun s y => / G s y)); [exact H|apply tame0_inv; assumption]. Qed.
Lemma tame0_div_const k F t x : tame0 F t x -> tame0 (fun s y => F s y / k) t x.
Proof.
  intros H. apply (tame0_ext (fun s y => / k * F s y)); [intros; unfold Rdiv; ring|]. apply tame0_scal, H.
Qed.
Lemma tame0_sqrt F t x : 0 < F t x -> tame0 F t x -> tame0 (fun s y => sqrt (F s y)) t x.
Proof. intros P H. apply (tame0_comp sqrt); [apply lip_at_sqrt; exact P|exact H]. Qed.

(** The same at the point and everywhere around it. *)
Definition tame (F : R -> X -> R) (t : R) (x : X) : Prop :=
  tame0 F t x /\ exists d, 0 < d /\ forall s y, D s -> Rabs (s - t) < d -> dist y x < d -> tame0 F s y.

Lemma tame_all F t x : (forall s y, tame0 F s y) -> tame F t x.
Proof. intros H. split; [apply H|]. exists 1. split; [lra|]. intros; apply H. Qed.
Lemma tame_lift F H t x : (forall s y, tame0 F s y -> tame0 H s y) -> tame F t x -> tame H t x.
Proof.
  intros L (A & d & Hd & P). split; [apply L, A|]. exists d. split; [exact Hd|]. intros. apply L, P; assumption.
Qed.
Lemma tame_lift2 F G H t x : (forall s y, tame0 F s y -> tame0 G s y -> tame0 H s y) -> tame F t x -> tame G t x -> tame H t x.
Proof.
  intros L (A & d & Hd & P) (A2 & d2 & Hd2 & P2). split; [apply L; assumption|].
  exists (Rmin d d2). assert (M := Rmin_l d d2). assert (M2 := Rmin_r d d2).
  split; [apply Rmin_pos; assumption|]. intros. apply L; [apply P|apply P2]; try assumption; lra.
Qed.
Lemma tame_ext F G t x : (forall s y, F s y = G s y) -> tame F t x -> tame G t x.
Proof. intros E. apply tame_lift. intros s y. apply tame0_ext, E. Qed.
Lemma tame_const k t x : tame (fun _ _ => k) t x.
Proof. apply tame_all. intros. apply tame0_const. Qed.
Lemma tame_time p t x :
  (forall u, u = t \/ D u -> forall e, 0 < e -> exists d, 0 < d /\ forall s, D s -> Rabs (s - u) < d -> Rabs (p s - p u) < e) ->
  tame (fun s _ => p s) t x.
Proof.
  intros H. split; [apply tame0_time, H; left; reflexivity|]. exists 1. split; [lra|]. intros s y Ds _ _.
  apply tame0_time, H. right; exact Ds.
Qed.
Lemma tame_coord i t x : In i idx -> tame (fun _ y => co i y) t x.
Proof. intros Hi. apply tame_all. intros. apply tame0_coord, Hi. Qed.
Lemma tame_plus F G t x : tame F t x -> tame G t x -> tame (fun s y => F s y + G s y) t x.
Proof. apply tame_lift2. intros s y. apply tame0_plus. Qed.
Lemma tame_bounded F t x : tame F t x ->
  exists d, 0 < d /\ forall s y, D s -> Rabs (s - t) < d -> dist y x < d -> Rabs (F s y) <= Rabs (F t x) + 1.
Proof. intros (A & _). apply tame0_bounded, A. Qed.
Lemma tame_mult F G t x : tame F t x -> tame G t x -> tame (fun s y => F s y * G s y) t x.
Proof. apply tame_lift2. intros s y. apply tame0_mult. Qed.
Lemma tame_scal k F t x : tame F t x -> tame (fun s y => k * F s y) t x.
Proof. apply tame_lift. intros s y. apply tame0_scal. Qed.
Lemma tame_opp F t x : tame F t x -> tame (fun s y => - F s y) t x.
Proof. apply tame_lift. intros s y. apply tame0_opp. Qed.
Lemma tame_minus F G t x : tame F t x -> tame G t x -> tame (fun s y => F s y - G s y) t x.
Proof. apply tame_lift2. intros s y. apply tame0_minus. Qed.
Lemma tame_rsum n (F : nat -> R -> X -> R) t x : (forall i, (i < n)%nat -> tame (F i) t x) ->
  tame (fun s y => rsum n (fun i => F i s y)) t x.
Proof.
  induction n as [|n IH]; intros H; simpl; [apply tame_const|].
  apply (tame_plus (fun s y => rsum n (fun i => F i s y)) (F n)); [apply IH; intros|]; apply H; lia.
Qed.
Lemma tame_pow F n t x : tame F t x -> tame (fun s y => F s y ^ n) t x.
Proof. apply tame_lift. intros s y. apply tame0_pow. Qed.
Lemma tame_comp g F t x : lip_at g (F t x) -> tame F t x -> tame (fun s y => g (F s y)) t x.
Proof.
  intros Lg (A & d & Hd & P). split; [apply tame0_comp; assumption|].
  destruct (lip_at_near g _ Lg) as (e & He & N). assert (A' := A). destruct A' as (C & _).
  destruct (C e He) as (d2 & Hd2 & Q). exists (Rmin d d2). assert (M := Rmin_l d d2). assert (M2 := Rmin_r d d2).
  split; [apply Rmin_pos; assumption|]. intros s y Ds Hs Hy. apply (tame0_comp g F); [|apply P; try assumption; lra].
  apply N, Q; try assumption; lra.
Qed.
Lemma tame_inv F t x : F t x <> 0 -> tame F t x -> tame (fun s y => / F s y) t x.
Proof. intros N H. apply (tame_comp Rinv); [apply lip_at_inv; exact N|exact H]. Qed.
Lemma tame_div F G t x : G t x <> 0 -> tame F t x -> tame G t x -> tame (fun s y => F s y / G s y) t x.
Proof. intros N H H2. apply (tame_mult F (fun s y => / G s y)); [exact H|apply tame_inv; assumption]. Qed.
Lemma tame_div_const k F t x : tame F t x -> tame (fun s y => F s y / k) t x.
Proof.
  intros H. apply (tame_ext (fun s y => / k * F s y)); [intros; unfold Rdiv; ring|]. apply tame_scal, H.
Qed.
Lemma tame_sqrt F t x : 0 < F t x -> tame F t x -> tame (fun s y => sqrt (F s y)) t x.
Proof. intros P H. apply (tame_comp sqrt); [apply lip_at_sqrt; exact P|exact H]. Qed.
End Tame.

(** ** Uniqueness *)
Section Unique.
Context {X I : Type}.
Variables (idx : list I) (co : I -> X -> R) (a b : R) (G : I -> R -> X -> R) (y1 y2 : R -> X).
Notation D := (fun s => a <= s <= b).
Notation same t := (forall i, In i idx -> co i (y1 t) = co i (y2 t)).

Hypothesis Y1 : forall i, In i idx -> evolves a b (fun t => co i (y1 t)) (fun t => G i t (y1 t)).
Hypothesis Y2 : forall i, In i idx -> evolves a b (fun t => co i (y2 t)) (fun t => G i t (y2 t)).
Hypothesis L : forall t, a <= t <= b -> same t -> forall i, In i idx -> tame idx co D (G i) t (y1 t).
Hypothesis Y0 : same a.

Lemma evolves_from c0 c f f' : a <= c0 -> c <= b -> evolves a b f f' -> evolves c0 c f f'.
Proof. intros H1 H2 (C & DD). split; intros t Ht; [apply C|apply DD]; lra. Qed.
Lemma evolves_lsum c0 c (l : list I) (f f' : I -> R -> R) :
  (forall i, In i l -> evolves c0 c (f i) (f' i)) ->
  evolves c0 c (fun t => lsum (map (fun i => f i t) l)) (fun t => lsum (map (fun i => f' i t) l)).
Proof.
  induction l as [|i l IH]; intros H; simpl; [apply evolves_const|].
  apply (evolves_plus c0 c (f i) (fun t => lsum (map (fun i => f i t) l)) (f' i)
    (fun t => lsum (map (fun i => f' i t) l))).
  - apply H. left; reflexivity.
  - apply IH. intros; apply H; right; assumption.
Qed.
(** (sum |d|)^2 <= n sum d^2, in the form used below. *)
Lemma sq_lsum (l : list I) (d : I -> R) s : 0 <= s ->
  s * lsum (map (fun i => Rabs (d i)) l) <=
  (INR (length l) * (s * s) + lsum (map (fun i => d i * d i) l)) / 2.
Proof.
  intros Hs. induction l as [|i l IH]; [simpl; lra|].
  cbn [map lsum length]. change (fold_right Rplus 0) with lsum in *. rewrite S_INR.
  assert (Q : s * Rabs (d i) <= (s * s + d i * d i) / 2).
  { eapply Rle_trans; [apply square_bound|]. rewrite <- Rabs_mult, Rabs_right; [lra|apply Rle_ge, Rle_0_sqr]. }
  simpl. lra.
Qed.
Lemma norm1_sq (l : list I) (d : I -> R) :
  lsum (map (fun i => Rabs (d i)) l) * lsum (map (fun i => Rabs (d i)) l) <=
  INR (length l) * lsum (map (fun i => d i * d i) l).
Proof.
  set (s := lsum (map (fun i => Rabs (d i)) l)). set (E := lsum (map (fun i => d i * d i) l)).
  assert (P : 0 <= E) by (apply lsum_nonneg; intros; apply Rle_0_sqr).
  assert (S0 : 0 <= s) by (apply lsum_nonneg; intros; apply Rabs_pos).
  destruct (Nat.eq_dec (length l) 0) as [Z|Z].
  - destruct l; [|simpl in Z; lia]. unfold s, E. simpl. lra.
  - assert (N : 0 < INR (length l)) by (apply lt_0_INR; lia).
    assert (Q := sq_lsum l d (s / INR (length l))).
    assert (0 <= s / INR (length l)) by (apply Rmult_le_pos; [exact S0|left; apply Rinv_0_lt_compat, N]).
    specialize (Q H). fold s E in Q.
    replace (s / INR (length l) * s) with (s * s / INR (length l)) in Q by (field; lra).
    replace (INR (length l) * (s / INR (length l) * (s / INR (length l)))) with (s * s / INR (length l)) in Q by (field; lra).
    assert (Q2 : s * s / INR (length l) <= E) by lra.
    apply Rmult_le_compat_l with (r := INR (length l)) in Q2; [|lra].
    replace (INR (length l) * (s * s / INR (length l))) with (s * s) in Q2 by (field; lra). exact Q2.
Qed.

(** Solutions that agree at a time agree a little longer. *)
Lemma same_longer t : a <= t < b -> same t -> exists e, 0 < e /\ forall s, t <= s <= t + e -> s <= b -> same s.
Proof.
  intros Ht St.
  (* a common neighbourhood and constant for all the coordinates *)
  assert (U : forall l, incl l idx -> exists d K, 0 < d /\ 0 <= K /\ forall i, In i l ->
    forall s y z, D s -> Rabs (s - t) < d -> dist idx co y (y1 t) < d -> dist idx co z (y1 t) < d ->
      Rabs (G i s y - G i s z) <= K * dist idx co y z).
  { induction l as [|i l IH]; intros Hl.
    - exists 1, 0. split; [lra|]. split; [lra|]. intros i Hi. destruct Hi.
    - destruct IH as (d & K & Hd & HK & P); [intros j Hj; apply Hl; right; exact Hj|].
      destruct (L t ltac:(lra) St i ltac:(apply Hl; left; reflexivity)) as ((_ & d2 & K2 & Hd2 & HK2 & P2) & _).
      exists (Rmin d d2), (Rmax K K2). split; [apply Rmin_pos; assumption|].
      assert (M := Rmin_l d d2). assert (M2 := Rmin_r d d2).
      assert (N := Rmax_l K K2). assert (N2 := Rmax_r K K2). split; [lra|].
      intros j Hj s y z Ds Hs Hy Hz. assert (DN := dist_nonneg idx co y z).
      destruct Hj as [<-|Hj].
      + eapply Rle_trans; [apply P2; try exact Ds; lra|]. apply Rmult_le_compat_r; lra.
      + eapply Rle_trans; [apply P; try exact Ds; try exact Hj; lra|]. apply Rmult_le_compat_r; lra. }
  destruct (U idx (incl_refl idx)) as (d & K & Hd & HK & P).
  (* both solutions stay in it for a while *)
  assert (V : forall y, (forall i, In i idx -> evolves a b (fun t => co i (y t)) (fun t => G i t (y t))) ->
    same t -> (forall i, In i idx -> co i (y t) = co i (y1 t)) ->
    exists e, 0 < e /\ forall s, Rabs (s - t) < e -> dist idx co (y s) (y1 t) < d).
  { intros y Hy _ Ey.
    enough (W : forall l, incl l idx -> forall q, 0 < q -> exists e, 0 < e /\ forall s, Rabs (s - t) < e ->
      lsum (map (fun i => Rabs (co i (y s) - co i (y1 t))) l) < q) by (apply W; [apply incl_refl|exact Hd]).
    induction l as [|i l IH]; intros Hl q Hq.
    - exists 1. split; [lra|]. intros. simpl. exact Hq.
    - destruct (IH ltac:(intros j Hj; apply Hl; right; exact Hj) (q / 2) ltac:(lra)) as (e & He & Q).
      destruct (Hy i ltac:(apply Hl; left; reflexivity)) as (C & _).
      destruct (C t ltac:(lra) (q / 2) ltac:(lra)) as (e2 & He2 & Q2).
      exists (Rmin e e2). split; [apply Rmin_pos; assumption|].
      assert (M := Rmin_l e e2). assert (M2 := Rmin_r e e2). intros s Hs. simpl.
      specialize (Q s ltac:(lra)).
      assert (Rabs (co i (y s) - co i (y1 t)) < q / 2); [|lra].
      rewrite <- (Ey i) by (apply Hl; left; reflexivity).
      destruct (Req_dec s t) as [->|Ns]; [rewrite Rminus_eq_0, Rabs_R0; lra|].
      apply (Q2 s). split; [split; [exact Logic.I|intros E; apply Ns; symmetry; exact E]|].
      unfold R_met, Base, R_dist. simpl. lra. }
  destruct (V y1 Y1 St) as (e1 & He1 & V1); [reflexivity|].
  destruct (V y2 Y2 St) as (e2 & He2 & V2); [intros i Hi; symmetry; apply St, Hi|].
  set (e := Rmin (Rmin e1 e2) d / 2).
  assert (M := Rmin_l (Rmin e1 e2) d). assert (M2 := Rmin_r (Rmin e1 e2) d).
  assert (M3 := Rmin_l e1 e2). assert (M4 := Rmin_r e1 e2).
  assert (M5 : 0 < Rmin (Rmin e1 e2) d) by (repeat apply Rmin_pos; assumption).
  exists e. split; [unfold e; lra|].
  set (c := Rmin (t + e) b).
  assert (Hc1 := Rmin_l (t + e) b). assert (Hc2 := Rmin_r (t + e) b). fold c in Hc1, Hc2.
  set (df := fun (i : I) s => co i (y1 s) - co i (y2 s)).
  set (df' := fun (i : I) s => G i s (y1 s) - G i s (y2 s)).
  assert (EV : forall i, In i idx -> evolves t c (df i) (df' i)).
  { intros i Hi. assert (A1 := evolves_from t c _ _ ltac:(lra) Hc2 (Y1 i Hi)).
    assert (A2 := evolves_scal t c (-1) _ _ (evolves_from t c _ _ ltac:(lra) Hc2 (Y2 i Hi))).
    refine (evolves_ext t c _ _ _ _ _ _ (evolves_plus t c _ _ _ _ A1 A2)).
    - intros s. unfold df. ring.
    - intros s _. unfold df'. ring. }
  assert (EE : evolves t c (fun s => lsum (map (fun i => df i s * df i s) idx))
                           (fun s => lsum (map (fun i => df' i s * df i s + df i s * df' i s) idx))).
  { apply (evolves_lsum t c idx (fun i s => df i s * df i s) (fun i s => df' i s * df i s + df i s * df' i s)).
    intros i Hi. apply (evolves_mult t c (df i) (df i)); apply EV, Hi. }
  assert (ZZ := gronwall_zero t c _ _ (2 * K * INR (length idx)) EE).
  intros s Hs Hsb.
  assert (Hsc : t <= s <= c) by (split; [lra|unfold c; apply Rmin_glb; lra]).
  assert (E0 : lsum (map (fun i => df i s * df i s) idx) = 0).
  { apply ZZ; [| | |exact Hsc].
    - rewrite (lsum_map_ext _ (fun _ => 0)).
      + clear. induction idx as [|i l IH]; simpl; [reflexivity|]. rewrite IH. ring.
      + intros i Hi. unfold df. rewrite (St i Hi). ring.
    - intros u _. apply lsum_nonneg. intros; apply Rle_0_sqr.
    - intros u Hu.
      assert (Hut : Rabs (u - t) < Rmin (Rmin e1 e2) d).
      { rewrite Rabs_right by lra. unfold e in Hc1. lra. }
      assert (B : forall i, In i idx -> Rabs (df' i u) <= K * dist idx co (y1 u) (y2 u)).
      { intros i Hi. apply P; [exact Hi|lra|lra|apply V1; lra|apply V2; lra]. }
      assert (DD : dist idx co (y1 u) (y2 u) = lsum (map (fun i => Rabs (df i u)) idx)) by reflexivity.
      set (S1 := lsum (map (fun i => Rabs (df i u)) idx)) in *.
      assert (S0 : 0 <= S1) by (apply lsum_nonneg; intros; apply Rabs_pos).
      apply Rle_trans with (lsum (map (fun i => (2 * K * S1) * Rabs (df i u)) idx)).
      + apply lsum_le. intros i Hi. specialize (B i Hi). rewrite DD in B.
        assert (T : df' i u * df i u <= Rabs (df' i u) * Rabs (df i u)) by (rewrite <- Rabs_mult; apply Rle_abs).
        assert (T2 : Rabs (df' i u) * Rabs (df i u) <= K * S1 * Rabs (df i u))
          by (apply Rmult_le_compat_r; [apply Rabs_pos|exact B]). lra.
      + replace (lsum (map (fun i => 2 * K * S1 * Rabs (df i u)) idx)) with (2 * K * (S1 * S1)).
        * rewrite !(Rmult_assoc (2 * K)). apply Rmult_le_compat_l; [lra|]. apply norm1_sq.
        * transitivity (2 * K * S1 * S1); [ring|]. unfold S1 at 2. generalize (2 * K * S1). intros k.
          clear. induction idx as [|i l IH]; simpl; [ring|]. rewrite <- IH. ring. }
  intros i Hi. assert (Z : df i s = 0).
  { revert E0. clear - Hi. induction idx as [|j l IH]; [destruct Hi|]. simpl. intros E0.
    assert (A1 : 0 <= df j s * df j s) by apply Rle_0_sqr.
    assert (A2 : 0 <= lsum (map (fun i => df i s * df i s) l)) by (apply lsum_nonneg; intros; apply Rle_0_sqr).
    destruct Hi as [<-|Hi].
    - destruct (Rmult_integral (df j s) (df j s)) as [Q|Q]; [lra|exact Q|exact Q].
    - apply IH; [exact Hi|lra]. }
  unfold df in Z. lra.
Qed.

Theorem unique : forall t, a <= t <= b -> same t.
Proof.
  intros t Ht.
  destruct (Rle_lt_dec b a) as [Hab|Hab].
  { replace t with a by lra. exact Y0. }
  set (S := fun u => a <= u <= b /\ forall s, a <= s <= u -> same s).
  assert (Sa : S a).
  { split; [lra|]. intros s Hs. replace s with a by lra. exact Y0. }
  destruct (completeness S) as (m & Hm).
  - exists b. intros u (Hu & _). lra.
  - exists a. exact Sa.
  - destruct Hm as (UB & LB).
    assert (Ham : a <= m) by (apply UB, Sa).
    assert (Hmb : m <= b) by (apply LB; intros u (Hu & _); lra).
    assert (Below : forall s, a <= s < m -> same s).
    { intros s Hs. destruct (Classical_Prop.classic (exists u, S u /\ s < u)) as [(u & (Hu & Q) & Hsu)|N].
      - apply Q. lra.
      - exfalso. assert (m <= s); [|lra]. apply LB. intros u Su.
        destruct (Rle_lt_dec u s) as [H|H]; [exact H|]. exfalso. apply N. exists u. split; assumption. }
    assert (At : same m).
    { destruct (Req_dec m a) as [->|Nm]; [exact Y0|].
      intros i Hi. destruct (Req_dec (co i (y1 m)) (co i (y2 m))) as [E|N]; [exact E|]. exfalso.
      set (q := Rabs (co i (y1 m) - co i (y2 m))).
      assert (Hq : 0 < q) by (apply Rabs_pos_lt; lra).
      destruct (Y1 i Hi) as (C1 & _). destruct (Y2 i Hi) as (C2 & _).
      destruct (C1 m ltac:(lra) (q / 2) ltac:(lra)) as (d1 & Hd1 & Q1).
      destruct (C2 m ltac:(lra) (q / 2) ltac:(lra)) as (d2 & Hd2 & Q2).
      set (s := Rmax a (m - Rmin d1 d2 / 2)).
      assert (M := Rmin_l d1 d2). assert (M2 := Rmin_r d1 d2).
      assert (M3 : 0 < Rmin d1 d2) by (apply Rmin_pos; assumption).
      assert (N1 := Rmax_l a (m - Rmin d1 d2 / 2)). assert (N2 := Rmax_r a (m - Rmin d1 d2 / 2)).
      fold s in N1, N2.
      assert (Hsm : s < m) by (unfold s; apply Rmax_lub_lt; lra).
      assert (E := Below s ltac:(lra) i Hi).
      assert (Hds : Rabs (s - m) < Rmin d1 d2) by (rewrite Rabs_left by lra; lra).
      assert (A1 : Rabs (co i (y1 s) - co i (y1 m)) < q / 2).
      { apply (Q1 s). split; [split; [exact Logic.I|lra]|]. unfold R_met, Base, R_dist. simpl. lra. }
      assert (A2 : Rabs (co i (y2 s) - co i (y2 m)) < q / 2).
      { apply (Q2 s). split; [split; [exact Logic.I|lra]|]. unfold R_met, Base, R_dist. simpl. lra. }
      rewrite E in A1.
      assert (T := Rabs_triang (- (co i (y2 s) - co i (y1 m))) (co i (y2 s) - co i (y2 m))).
      rewrite Rabs_Ropp in T.
      replace (- (co i (y2 s) - co i (y1 m)) + (co i (y2 s) - co i (y2 m))) with (co i (y1 m) - co i (y2 m)) in T by ring.
      fold q in T. lra. }
    destruct (Rle_lt_dec b m) as [H|H].
    + destruct (Req_dec t m) as [->|N]; [exact At|]. apply Below. lra.
    + exfalso. destruct (same_longer m ltac:(lra) At) as (e & He & Q).
      assert (Sx : S (Rmin (m + e) b)).
      { assert (B1 := Rmin_l (m + e) b). assert (B2 := Rmin_r (m + e) b).
        assert (B3 : m < Rmin (m + e) b) by (apply Rmin_glb_lt; lra).
        split; [lra|]. intros s Hs. destruct (Rlt_le_dec s m) as [Hsm|Hsm]; [apply Below; lra|].
        apply Q; lra. }
      assert (B3 : m < Rmin (m + e) b) by (apply Rmin_glb_lt; lra).
      specialize (UB _ Sx). lra.
Qed.
End Unique.
