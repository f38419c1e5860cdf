(** Two beads in the same liquid approach one another: the sum of the differences of their loadings falls exponentially. *)
From Coq Require Import Reals List Arith Bool Lra Lia.
From Verif Require Import Lib_Sum Lib_Traj Lib_Exist Props_Negative P_EntropyDv P_InletTwo.
Open Scope R_scope.

(** a sign of a number; zero has both *)
Definition sign_of (s x : R) : Prop := (s = 1 /\ 0 <= x) \/ (s = - 1 /\ x <= 0).
Lemma sign_abs s x : sign_of s x -> s * x = Rabs x.
Proof. intros [(-> & P)|(-> & P)]; [rewrite Rabs_right by lra; ring|rewrite Rabs_left1 by lra; ring]. Qed.
Lemma sign_below s x y : sign_of s x -> s * y <= Rabs y.
Proof. intros [(-> & _)|(-> & _)]; [rewrite Rmult_1_l; apply Rle_abs|rewrite <- Rabs_Ropp; replace (- 1 * y) with (- y) by ring; apply Rle_abs]. Qed.

Lemma abs_le_between x y : Rabs x <= y -> - y <= x <= y.
Proof. unfold Rabs. destruct (Rcase_abs x); lra. Qed.

(** right of a point the absolute value follows a tangent *)
Lemma abs_right f t l e : derivable_pt_lim f t l -> 0 < e -> exists s, sign_of s (f t) /\ exists d, 0 < d /\ forall r, t < r < t + d -> Rabs (f r) <= Rabs (f t) + (r - t) * (s * l + e).
Proof.
  intros D E. destruct (D e E) as (d & P).
  assert (Q : forall r, t < r < t + d -> Rabs (f r - f t - l * (r - t)) <= e * (r - t)).
  { intros r R0. assert (X := P (r - t) ltac:(lra) ltac:(rewrite Rabs_right; lra)). replace (t + (r - t)) with r in X by ring.
    replace (f r - f t - l * (r - t)) with (((f r - f t) / (r - t) - l) * (r - t)) by (field; lra). rewrite Rabs_mult, (Rabs_right (r - t)) by lra. apply Rmult_le_compat_r; lra. }
  assert (DP := cond_pos d).
  destruct (Rtotal_order (f t) 0) as [N|[Z|N]].
  - exists (- 1). split; [right; split; lra|].
    destruct (derivable_continuous_pt f t (exist _ l D) (- f t) ltac:(lra)) as (d2 & D2 & P2). exists (Rmin d d2). split; [apply Rmin_pos; assumption|]. intros r R0.
    assert (A1 := Rmin_l d d2). assert (A2 := Rmin_r d d2). assert (X : R_dist (f r) (f t) < - f t) by (apply P2; split; [split; [exact I|lra]|cbn; unfold R_dist; rewrite Rabs_right; lra]).
    unfold R_dist in X. apply Rabs_def2 in X. assert (Y := Q r ltac:(lra)). apply abs_le_between in Y. rewrite (Rabs_left1 (f r)), (Rabs_left1 (f t)) by lra. replace ((r - t) * (- 1 * l + e)) with (- (l * (r - t)) + e * (r - t)) by ring. lra.
  - assert (Y : forall s, (s = 1 \/ s = - 1) -> s * l = Rabs l -> forall r, t < r < t + d -> Rabs (f r) <= Rabs (f t) + (r - t) * (s * l + e)).
    { intros s _ SL r R0. assert (Y := Q r R0). rewrite Z in *. rewrite Rabs_R0, SL. replace (f r) with ((f r - 0 - l * (r - t)) + l * (r - t)) by ring.
      eapply Rle_trans; [apply Rabs_triang|]. rewrite (Rabs_mult l), (Rabs_right (r - t)) by lra. lra. }
    destruct (Rle_lt_dec 0 l) as [L|L].
    + exists 1. split; [left; lra|]. exists d. split; [exact DP|]. apply Y; [left; reflexivity|rewrite Rabs_right; lra].
    + exists (- 1). split; [right; lra|]. exists d. split; [exact DP|]. apply Y; [right; reflexivity|rewrite Rabs_left; lra].
  - exists 1. split; [left; split; lra|].
    destruct (derivable_continuous_pt f t (exist _ l D) (f t) ltac:(lra)) as (d2 & D2 & P2). exists (Rmin d d2). split; [apply Rmin_pos; assumption|]. intros r R0.
    assert (A1 := Rmin_l d d2). assert (A2 := Rmin_r d d2). assert (X : R_dist (f r) (f t) < f t) by (apply P2; split; [split; [exact I|lra]|cbn; unfold R_dist; rewrite Rabs_right; lra]).
    unfold R_dist in X. apply Rabs_def2 in X. assert (Y := Q r ltac:(lra)). apply abs_le_between in Y. rewrite (Rabs_right (f r)), (Rabs_right (f t)) by lra. replace ((r - t) * (1 * l + e)) with (l * (r - t) + e * (r - t)) by ring. lra.
Qed.
Lemma abs_right_all n (F F' : nat -> R -> R) t e : (forall i, (i < n)%nat -> derivable_pt_lim (F i) t (F' i t)) -> 0 < e ->
  exists s d, 0 < d /\ (forall i, (i < n)%nat -> sign_of (s i) (F i t)) /\ forall i r, (i < n)%nat -> t < r < t + d -> Rabs (F i r) <= Rabs (F i t) + (r - t) * (s i * F' i t + e).
Proof.
  intros D E. induction n as [|n IH].
  - exists (fun _ => 1), 1. split; [lra|]. split; intros; lia.
  - destruct IH as (s & d & D0 & S & P); [intros i I; apply D; lia|]. destruct (abs_right (F n) t (F' n t) e (D n ltac:(lia)) E) as (s1 & S1 & d1 & D1 & P1).
    exists (fun i => if Nat.eqb i n then s1 else s i), (Rmin d d1). assert (A1 := Rmin_l d d1). assert (A2 := Rmin_r d d1). split; [apply Rmin_pos; assumption|]. split.
    + intros i I. destruct (Nat.eqb_spec i n) as [->|NE]; [exact S1|apply S; lia].
    + intros i r I R0. destruct (Nat.eqb_spec i n) as [->|NE]; [apply P1; lra|apply P; [lia|lra]].
Qed.

Section Falls.
Variables (n : nat) (F F' G G' : nat -> R -> R) (Tf : R).
Hypothesis EF : forall i, (i < n)%nat -> evolves 0 Tf (F i) (F' i).
Hypothesis EG : forall i, (i < n)%nat -> evolves 0 Tf (G i) (G' i).
Hypothesis H : forall t s r, 0 < t < Tf -> (forall i, (i < n)%nat -> sign_of (s i) (F i t)) -> (forall i, (i < n)%nat -> sign_of (r i) (G i t)) ->
  rsum n (fun i => s i * F' i t + r i * G' i t) <= 0.
Let V (t : R) : R := rsum n (fun i => Rabs (F i t) + Rabs (G i t)).
Lemma V_cont t : 0 <= t <= Tf -> continuity_pt V t.
Proof.
  intros T. apply c_rsum. intros i I. apply c_plus; [apply (continuity_pt_comp (F i) Rabs)|apply (continuity_pt_comp (G i) Rabs)]; try apply Rcontinuity_abs; [apply (proj1 (EF i I)), T|apply (proj1 (EG i I)), T].
Qed.
Lemma V_near t e : 0 <= t <= Tf -> 0 < e -> exists d, 0 < d /\ forall r, Rabs (r - t) < d -> Rabs (V r - V t) < e.
Proof.
  intros T E. destruct (V_cont t T e E) as (d & D & P). exists d. split; [exact D|]. intros r R0.
  destruct (Req_dec r t) as [->|NE]; [rewrite Rminus_diag_eq, Rabs_R0 by reflexivity; exact E|]. apply P. split; [split; [exact I|intros X; apply NE; symmetry; exact X]|exact R0].
Qed.
Lemma V_inside a b e : 0 < a -> a <= b -> b < Tf -> 0 < e -> V b <= V a + e * (b - a).
Proof.
  intros A AB B E. apply (real_induction a b (fun t => V t <= V a + e * (t - a)) AB); [| |lra].
  - intros t T P. destruct (Req_dec t a) as [->|NE]; [lra|]. apply Rnot_lt_le. intros N.
    destruct (V_near t (V t - (V a + e * (t - a))) ltac:(lra) ltac:(lra)) as (d & D & Q).
    set (r := Rmax a (t - d / 2)). assert (R1 : a <= r < t) by (unfold r; split; [apply Rmax_l|apply Rmax_lub_lt; lra]). assert (R2 : t - d / 2 <= r) by apply Rmax_r.
    assert (X := P r R1). assert (Y := Q r ltac:(rewrite Rabs_left; lra)). apply Rabs_def2 in Y. assert (e * (r - a) <= e * (t - a)) by (apply Rmult_le_compat_l; lra). lra.
  - intros t T P. set (e1 := e / (2 * INR (S n))). assert (NP : 0 < INR (S n)) by (apply lt_0_INR; lia). assert (E1 : 0 < e1) by (apply Rdiv_lt_0_compat; lra).
    destruct (abs_right_all n F F' t e1) as (s & d & D & S & PF); [intros i I; apply (proj2 (EF i I)); lra|exact E1|].
    destruct (abs_right_all n G G' t e1) as (r & d2 & D2 & S2 & PG); [intros i I; apply (proj2 (EG i I)); lra|exact E1|].
    exists (Rmin d d2). assert (A1 := Rmin_l d d2). assert (A2 := Rmin_r d d2). split; [apply Rmin_pos; assumption|]. intros x X XB.
    assert (U : V x <= V t + (x - t) * (rsum n (fun i => s i * F' i t + r i * G' i t) + INR n * (2 * e1))).
    { unfold V. rewrite <- (rsum_const n (2 * e1)), <- rsum_plus, <- rsum_scal, <- rsum_plus. apply rsum_le. intros i I. assert (B1 := PF i x I ltac:(lra)). assert (B2 := PG i x I ltac:(lra)).
      replace ((x - t) * (s i * F' i t + r i * G' i t + 2 * e1)) with ((x - t) * (s i * F' i t + e1) + (x - t) * (r i * G' i t + e1)) by ring. lra. }
    assert (N := H t s r ltac:(lra) S S2). assert (L : INR n * (2 * e1) <= e).
    { replace (INR n * (2 * e1)) with (e * (INR n / INR (Datatypes.S n))) by (unfold e1; field; lra). rewrite <- (Rmult_1_r e) at 2. apply Rmult_le_compat_l; [lra|]. apply (Rmult_le_reg_r (INR (Datatypes.S n))); [exact NP|].
      unfold Rdiv. rewrite Rmult_assoc, Rinv_l, Rmult_1_r, Rmult_1_l by lra. rewrite S_INR. lra. }
    assert (W := P t ltac:(lra)). assert (Y : (x - t) * (rsum n (fun i => s i * F' i t + r i * G' i t) + INR n * (2 * e1)) <= (x - t) * e) by (apply Rmult_le_compat_l; lra). lra.
Qed.
Lemma V_open a b : 0 < a -> a <= b -> b < Tf -> V b <= V a.
Proof.
  intros A AB B. apply Rnot_lt_le. intros N. destruct (Req_dec a b) as [->|NE]; [lra|]. assert (X := V_inside a b ((V b - V a) / (2 * (b - a))) A AB B ltac:(apply Rdiv_lt_0_compat; lra)).
  replace ((V b - V a) / (2 * (b - a)) * (b - a)) with ((V b - V a) / 2) in X by (field; lra). lra.
Qed.
Lemma l1_falls t : 0 <= t <= Tf -> V t <= V 0.
Proof.
  intros T. destruct (Req_dec t 0) as [->|NE]; [lra|]. apply Rnot_lt_le. intros N. set (e := (V t - V 0) / 2). assert (E : 0 < e) by (unfold e; lra).
  destruct (V_near 0 e ltac:(lra) E) as (d & D & P). destruct (V_near t e T E) as (d2 & D2 & P2).
  set (m := Rmin (t / 2) (Rmin (d / 2) (d2 / 2))). assert (M1 : m <= t / 2) by apply Rmin_l. assert (M2 : m <= d / 2) by (eapply Rle_trans; [apply Rmin_r|apply Rmin_l]). assert (M3 : m <= d2 / 2) by (eapply Rle_trans; [apply Rmin_r|apply Rmin_r]).
  assert (M0 : 0 < m) by (unfold m; repeat apply Rmin_pos; lra).
  assert (X := V_open m (t - m) M0 ltac:(lra) ltac:(lra)). assert (X1 := P m ltac:(rewrite Rminus_0_r, Rabs_right; lra)). assert (X2 := P2 (t - m) ltac:(replace (t - m - t) with (- m) by ring; rewrite Rabs_left; lra)).
  apply Rabs_def2 in X1. apply Rabs_def2 in X2. unfold e in *. lra.
Qed.
End Falls.

(** ** Exchange: more of some ions on the resin, more of them in the liquid *)
Section Exchange.
Variables (n : nat) (z : nat -> nat) (K : nat -> R).
Hypothesis HK : forall i, (i < n)%nat -> 0 < K i.
Hypothesis Hz : forall i, (i < n)%nat -> z i = 1%nat \/ z i = 2%nat.
Let KM : R := rsum n K.
Let KS : R := rsum n (fun i => / K i).
Lemma pow_mono i a b : (i < n)%nat -> 0 <= a <= b -> a ^ z i <= b ^ z i.
Proof. intros I L. apply pow_incr, L. Qed.
Lemma accretive m c p p' v v' s : 0 <= m -> m <= p -> m <= p ^ 2 -> m <= p' -> m <= p' ^ 2 ->
  (forall i, (i < n)%nat -> 0 <= v i) -> (forall i, (i < n)%nat -> 0 <= v' i) -> rsum n v = rsum n v' ->
  rsum n (fun i => p ^ z i / K i * v i) = c -> rsum n (fun i => p' ^ z i / K i * v' i) = c ->
  (forall i, (i < n)%nat -> sign_of (s i) (v i - v' i)) ->
  m / KM * rsum n (fun i => Rabs (v i - v' i)) <= rsum n (fun i => s i * (p ^ z i / K i * v i - p' ^ z i / K i * v' i)).
Proof.
  intros M0 M1 M2 M3 M4 V V' SV E E' S. rewrite <- rsum_scal.
  assert (KP : forall i, (i < n)%nat -> 0 < KM) by (intros i I; eapply Rlt_le_trans; [apply (HK i I)|apply (one_le n K i I); intros j J; left; apply HK, J]).
  assert (LOW : forall i q, (i < n)%nat -> m <= q -> m <= q ^ 2 -> m / KM <= q ^ z i / K i).
  { intros i q I Q1 Q2. assert (KI := HK i I). assert (KL : K i <= KM) by (apply one_le; [exact I|intros j J; left; apply HK, J]). unfold Rdiv. apply Rmult_le_compat; [exact M0|left; apply Rinv_0_lt_compat; lra| |apply Rinv_le_contravar; lra].
    destruct (Hz i I) as [-> | ->]; [rewrite pow_1; exact Q1|exact Q2]. }
  assert (Z0 : rsum n (fun i => p ^ z i / K i * v i - p' ^ z i / K i * v' i) = 0) by (rewrite rsum_minus; lra).
  assert (Z1 : rsum n (fun i => v i - v' i) = 0) by (rewrite rsum_minus; lra).
  destruct (Rle_lt_dec p' p) as [L|L].
  - replace (rsum n (fun i => s i * (p ^ z i / K i * v i - p' ^ z i / K i * v' i))) with (rsum n (fun i => (s i + 1) * (p ^ z i / K i * v i - p' ^ z i / K i * v' i)))
      by (rewrite (rsum_ext n _ (fun i => s i * (p ^ z i / K i * v i - p' ^ z i / K i * v' i) + (p ^ z i / K i * v i - p' ^ z i / K i * v' i))) by (intros; ring); rewrite rsum_plus, Z0; ring).
    replace (rsum n (fun i => m / KM * Rabs (v i - v' i))) with (rsum n (fun i => m / KM * ((s i + 1) * (v i - v' i)))).
    + apply rsum_le. intros i I. destruct (S i I) as [(-> & P)|(-> & P)]; [|replace (- 1 + 1) with 0 by ring; lra].
      assert (A := LOW i p I M1 M2). assert (KI := Rinv_0_lt_compat _ (HK i I)). assert (B : p' ^ z i <= p ^ z i) by (apply pow_mono; [exact I|lra]).
      assert (C1 : m / KM * (v i - v' i) <= p ^ z i / K i * (v i - v' i)) by (apply Rmult_le_compat_r; assumption).
      assert (C2 : p' ^ z i / K i * v' i <= p ^ z i / K i * v' i) by (apply Rmult_le_compat_r; [apply V', I|]; unfold Rdiv; apply Rmult_le_compat_r; lra). lra.
    + rewrite !rsum_scal. f_equal. rewrite (rsum_ext n (fun i => (s i + 1) * (v i - v' i)) (fun i => Rabs (v i - v' i) + (v i - v' i))) by (intros i I; rewrite <- (sign_abs _ _ (S i I)); ring). rewrite rsum_plus, Z1. ring.
  - replace (rsum n (fun i => s i * (p ^ z i / K i * v i - p' ^ z i / K i * v' i))) with (rsum n (fun i => (s i - 1) * (p ^ z i / K i * v i - p' ^ z i / K i * v' i)))
      by (rewrite (rsum_ext n _ (fun i => s i * (p ^ z i / K i * v i - p' ^ z i / K i * v' i) - (p ^ z i / K i * v i - p' ^ z i / K i * v' i))) by (intros; ring); rewrite rsum_minus, Z0; ring).
    replace (rsum n (fun i => m / KM * Rabs (v i - v' i))) with (rsum n (fun i => m / KM * ((s i - 1) * (v i - v' i)))).
    + apply rsum_le. intros i I. destruct (S i I) as [(-> & P)|(-> & P)]; [replace (1 - 1) with 0 by ring; lra|].
      assert (A := LOW i p' I M3 M4). assert (KI := Rinv_0_lt_compat _ (HK i I)). assert (B : p ^ z i <= p' ^ z i) by (apply pow_mono; [exact I|lra]).
      assert (C1 : m / KM * (v' i - v i) <= p' ^ z i / K i * (v' i - v i)) by (apply Rmult_le_compat_r; [lra|assumption]).
      assert (C2 : p ^ z i / K i * v i <= p' ^ z i / K i * v i) by (apply Rmult_le_compat_r; [apply V, I|]; unfold Rdiv; apply Rmult_le_compat_r; lra). lra.
    + rewrite !rsum_scal. f_equal. rewrite (rsum_ext n (fun i => (s i - 1) * (v i - v' i)) (fun i => Rabs (v i - v' i) - (v i - v' i))) by (intros i I; rewrite <- (sign_abs _ _ (S i I)); ring). rewrite rsum_minus, Z1. ring.
Qed.
(** the ratio is bounded away from zero *)
Lemma ratio_low c0 Q p v : 0 < c0 -> 0 < Q -> (0 < n)%nat -> 0 <= p -> (forall i, (i < n)%nat -> 0 <= v i) -> rsum n v = Q -> c0 <= rsum n (fun i => p ^ z i / K i * v i) ->
  Rmin 1 ((c0 / (Q * KS)) ^ 2) <= p /\ Rmin 1 ((c0 / (Q * KS)) ^ 2) <= p ^ 2.
Proof.
  intros C HQ N P V SV L. assert (M1 := Rmin_l 1 ((c0 / (Q * KS)) ^ 2)). assert (M2 := Rmin_r 1 ((c0 / (Q * KS)) ^ 2)). destruct (Rle_lt_dec 1 p) as [B|B].
  - assert (1 * p <= p * p) by (apply Rmult_le_compat_r; lra). replace (p ^ 2) with (p * p) by ring. lra.
  - assert (SP : 0 < KS) by (eapply Rlt_le_trans; [apply Rinv_0_lt_compat, (HK 0%nat N)|apply (one_le n (fun i => / K i) 0%nat N); intros j J; left; apply Rinv_0_lt_compat, HK, J]).
    assert (U : rsum n (fun i => p ^ z i / K i * v i) <= p * KS * Q).
    { rewrite <- SV, <- rsum_scal. apply rsum_le. intros i I. apply Rmult_le_compat_r; [apply V, I|]. assert (KI := Rinv_0_lt_compat _ (HK i I)).
      unfold Rdiv. apply Rmult_le_compat; [apply pow_le, P|lra| |apply (one_le n (fun i => / K i) i I); intros j J; left; apply Rinv_0_lt_compat, HK, J].
      destruct (Hz i I) as [-> | ->]; [rewrite pow_1; lra|]. replace (p ^ 2) with (p * p) by ring. rewrite <- (Rmult_1_r p) at 3. apply Rmult_le_compat_l; lra. }
    assert (QK : 0 < Q * KS) by (apply Rmult_lt_0_compat; assumption).
    assert (X : c0 / (Q * KS) <= p). { apply (Rmult_le_reg_r (Q * KS)); [exact QK|]. unfold Rdiv. rewrite Rmult_assoc, Rinv_l, Rmult_1_r by lra. lra. }
    assert (X0 : 0 < c0 / (Q * KS)) by (apply Rdiv_lt_0_compat; assumption). assert (X2 : (c0 / (Q * KS)) ^ 2 <= p ^ 2) by (apply pow_incr; lra).
    assert (p ^ 2 <= p) by (replace (p ^ 2) with (p * p) by ring; rewrite <- (Rmult_1_r p) at 3; apply Rmult_le_compat_l; lra). lra.
Qed.
End Exchange.

Lemma sign_scale k s x : 0 < k -> sign_of s (k * x) -> sign_of s x.
Proof.
  intros P [(-> & L)|(-> & L)]; [left|right]; (split; [reflexivity|]); apply Rnot_lt_le; intros N.
  - assert (k * x < k * 0) by (apply Rmult_lt_compat_l; assumption). lra.
  - assert (k * 0 < k * x) by (apply Rmult_lt_compat_l; assumption). lra.
Qed.
(** ** Two beads in the same liquid *)
Section TwoBeads.
Variables (n : nat) (z : nat -> nat) (K : nat -> R) (Q c0 h w be de : R).
Hypothesis HK : forall i, (i < n)%nat -> 0 < K i.
Hypothesis Hz : forall i, (i < n)%nat -> z i = 1%nat \/ z i = 2%nat.
Hypothesis Z0 : z 0%nat = 1%nat.
Hypothesis HN : (0 < n)%nat.
Hypothesis HQ : 0 < Q.
Hypothesis Hc : 0 < c0.
Hypothesis Hh : 0 < h.
Hypothesis Hw : 0 < w.
Hypothesis Hbe : 0 < be.
Hypothesis Hde : 0 < de.
Definition kap : R := Rmin 1 ((c0 / (Q * rsum n (fun i => / K i))) ^ 2) / rsum n K.
Definition core_weight : R := (w + h * kap / (2 * de)) / be.
Definition decay : R := Rmin (h * kap / 2) (h * kap / 2 / core_weight).
Lemma kap_pos : 0 < kap.
Proof.
  apply Rdiv_lt_0_compat.
  - apply Rmin_pos; [lra|]. apply pow_lt, Rdiv_lt_0_compat; [exact Hc|]. apply Rmult_lt_0_compat; [exact HQ|]. apply (rsum_pos_one n _ 0%nat HN); [intros i I; left|]; apply Rinv_0_lt_compat, HK; assumption.
  - apply (rsum_pos_one n _ 0%nat HN); [intros i I; left|]; apply HK; assumption.
Qed.
Lemma hk_pos : 0 < h * kap / 2.
Proof. assert (X := Rmult_lt_0_compat _ _ Hh kap_pos). lra. Qed.
Lemma core_pos : 0 < core_weight.
Proof. assert (X := Rdiv_lt_0_compat _ _ hk_pos Hde). unfold core_weight. apply Rdiv_lt_0_compat; [|exact Hbe]. replace (h * kap / (2 * de)) with (h * kap / 2 / de) by (field; lra). lra. Qed.
Lemma decay_pos : 0 < decay.
Proof. apply Rmin_pos; [apply hk_pos|apply Rdiv_lt_0_compat; [apply hk_pos|apply core_pos]]. Qed.

Variables (Tf : R) (Y Z Y' Z' X W X' W' : nat -> R -> R) (C : R -> nat -> R).
Let CT (t : R) : R := rsum n (C t).
Hypothesis HCT : forall t, 0 < t < Tf -> c0 <= CT t.
Hypothesis EY : forall i, (i < n)%nat -> evolves 0 Tf (Y i) (Y' i).
Hypothesis EZ : forall i, (i < n)%nat -> evolves 0 Tf (Z i) (Z' i).
Hypothesis EX : forall i, (i < n)%nat -> evolves 0 Tf (X i) (X' i).
Hypothesis EW : forall i, (i < n)%nat -> evolves 0 Tf (W i) (W' i).
Hypothesis KY : forall t, 0 <= t <= Tf -> kept n Y Z t.
Hypothesis KX : forall t, 0 <= t <= Tf -> kept n X W t.
Hypothesis SY : forall t, 0 <= t <= Tf -> rsum n (rowx Y t) = Q.
Hypothesis SX : forall t, 0 <= t <= Tf -> rsum n (rowx X t) = Q.
Hypothesis RY : forall t i, 0 < t < Tf -> (i < n)%nat -> Y' i t = h * (C t i - shr n z K (CT t) (rowx Y t) i * Y i t) - w * (de * (Y i t - Z i t)) /\ Z' i t = be * (de * (Y i t - Z i t)).
Hypothesis RX : forall t i, 0 < t < Tf -> (i < n)%nat -> X' i t = h * (C t i - shr n z K (CT t) (rowx X t) i * X i t) - w * (de * (X i t - W i t)) /\ W' i t = be * (de * (X i t - W i t)).

Lemma mono_rate t s : 0 < t < Tf -> (forall i, (i < n)%nat -> sign_of (s i) (Y i t - X i t)) ->
  kap * rsum n (fun i => Rabs (Y i t - X i t)) <= rsum n (fun i => s i * (shr n z K (CT t) (rowx Y t) i * Y i t - shr n z K (CT t) (rowx X t) i * X i t)).
Proof.
  intros T S. assert (CP : 0 <= CT t) by (assert (A := HCT t T); lra). destruct (KY t ltac:(lra)) as (NY & PY & _). destruct (KX t ltac:(lra)) as (NX & PX & _).
  assert (VY : forall i, (i < n)%nat -> 0 <= rowx Y t i) by (intros i I; apply NY, I). assert (VX : forall i, (i < n)%nat -> 0 <= rowx X t i) by (intros i I; apply NX, I).
  assert (SOY : sound n z K (CT t) (rowx Y t)) by (apply (kept_sound n z K); assumption). assert (SOX : sound n z K (CT t) (rowx X t)) by (apply (kept_sound n z K); assumption).
  assert (SUM : forall v, sound n z K (CT t) v -> rsum n (fun i => rat n z K (CT t) v ^ z i / K i * v i) = CT t /\ 0 <= rat n z K (CT t) v).
  { intros v (_ & D & DI). destruct (ratio_ok (CT t) _ _ CP D DI) as (BD & ROOT). split; [|apply BD]. unfold rat. set (p := ratio (CT t) (ea n z K v) (ed n z K v)) in *. rewrite <- ROOT at 1. unfold ea, ed.
    rewrite (Rmult_comm _ (p ^ 2)), (Rmult_comm _ p), <- !rsum_scal, <- rsum_plus. apply rsum_ext. intros i I. destruct (Hz i I) as [V|V]; rewrite V; cbn [Nat.eqb]; unfold Rdiv; ring. }
  destruct (SUM _ SOY) as (E1 & P1). destruct (SUM _ SOX) as (E2 & P2).
  destruct (ratio_low n z K HK Hz c0 Q _ _ Hc HQ HN P1 VY (SY t ltac:(lra)) ltac:(rewrite E1; apply HCT, T)) as (L1 & L2).
  destruct (ratio_low n z K HK Hz c0 Q _ _ Hc HQ HN P2 VX (SX t ltac:(lra)) ltac:(rewrite E2; apply HCT, T)) as (L3 & L4).
  apply (accretive n z K HK Hz _ (CT t) (rat n z K (CT t) (rowx Y t)) (rat n z K (CT t) (rowx X t)) (rowx Y t) (rowx X t) s); try assumption.
  - apply Rmin_glb; [lra|apply pow2_ge_0].
  - rewrite SY, SX by lra. reflexivity.
Qed.
Lemma beads_approach t : 0 <= t <= Tf ->
  rsum n (fun i => Rabs (Y i t - X i t) + core_weight * Rabs (Z i t - W i t)) <= exp (- decay * t) * rsum n (fun i => Rabs (Y i 0 - X i 0) + core_weight * Rabs (Z i 0 - W i 0)).
Proof.
  intros T. set (A := decay). set (b := core_weight). assert (BP : 0 < b) by apply core_pos. assert (KP := hk_pos).
  assert (BB : b * be * de = w * de + h * kap / 2) by (unfold b, core_weight; field; lra).
  assert (A1 : A <= h * kap / 2) by apply Rmin_l. assert (A2 : A * b <= h * kap / 2).
  { replace (h * kap / 2) with (h * kap / 2 / b * b) by (field; lra). apply Rmult_le_compat_r; [lra|apply Rmin_r]. }
  assert (FE : forall (U U1 V V1 : nat -> R -> R), (forall i, (i < n)%nat -> evolves 0 Tf (U i) (U1 i)) -> (forall i, (i < n)%nat -> evolves 0 Tf (V i) (V1 i)) ->
     forall i, (i < n)%nat -> evolves 0 Tf (fun t => exp (A * t) * (U i t - V i t)) (fun t => A * exp (A * t) * (U i t - V i t) + exp (A * t) * (U1 i t - V1 i t))).
  { intros U U1 V V1 EU EV i I. apply (evolves_mult 0 Tf (fun t => exp (A * t)) (fun t => U i t - V i t)); [apply evolves_exp|].
    apply (evolves_ext 0 Tf (fun t => U i t + (- 1) * V i t) _ (fun t => U1 i t + (- 1) * V1 i t)); [intros; ring|intros; ring|]. apply evolves_plus; [apply EU, I|apply evolves_scal, EV, I]. }
  assert (FALL := l1_falls n (fun i t => exp (A * t) * (Y i t - X i t)) (fun i t => A * exp (A * t) * (Y i t - X i t) + exp (A * t) * (Y' i t - X' i t))
    (fun i t => b * (exp (A * t) * (Z i t - W i t))) (fun i t => b * (A * exp (A * t) * (Z i t - W i t) + exp (A * t) * (Z' i t - W' i t))) Tf
    (FE Y Y' X X' EY EX) (fun i I => evolves_scal 0 Tf b _ _ (FE Z Z' W W' EZ EW i I))).
  assert (SC : forall s, rsum n (fun i => Rabs (exp (A * s) * (Y i s - X i s)) + Rabs (b * (exp (A * s) * (Z i s - W i s)))) = exp (A * s) * rsum n (fun i => Rabs (Y i s - X i s) + b * Rabs (Z i s - W i s))).
  { intros s. rewrite <- rsum_scal. apply rsum_ext. intros i _. assert (E := exp_pos (A * s)). rewrite !Rabs_mult, (Rabs_right (exp (A * s))), (Rabs_right b) by lra. ring. }
  cbv beta in FALL. lapply FALL; [clear FALL; intros FALL|clear FALL].
  - assert (FT := FALL t T). rewrite !SC in FT. rewrite Rmult_0_r, exp_0, Rmult_1_l in FT.
    apply (Rmult_le_reg_l (exp (A * t))); [apply exp_pos|]. rewrite <- Rmult_assoc, <- exp_plus. replace (A * t + - A * t) with 0 by ring. rewrite exp_0, Rmult_1_l. exact FT.
  - intros s sg rr S1 SF SG. assert (E := exp_pos (A * s)).
    assert (SF' : forall i, (i < n)%nat -> sign_of (sg i) (Y i s - X i s)) by (intros i I; apply (sign_scale (exp (A * s))); [exact E|apply SF, I]).
    assert (SG' : forall i, (i < n)%nat -> sign_of (rr i) (Z i s - W i s)).
    { intros i I. apply (sign_scale (b * exp (A * s))); [apply Rmult_lt_0_compat; assumption|]. rewrite Rmult_assoc. apply SG, I. }
    assert (MR := mono_rate s sg S1 SF').
    set (DY := rsum n (fun i => Rabs (Y i s - X i s))) in *. set (DZ := rsum n (fun i => Rabs (Z i s - W i s))).
    assert (DYP : 0 <= DY) by (apply rsum_nonneg; intros; apply Rabs_pos). assert (DZP : 0 <= DZ) by (apply rsum_nonneg; intros; apply Rabs_pos).
    set (U := rsum n (fun i => sg i * (shr n z K (CT s) (rowx Y s) i * Y i s - shr n z K (CT s) (rowx X s) i * X i s))) in *.
    apply Rle_trans with (exp (A * s) * (A * DY - h * U - w * de * DY + w * de * DZ + b * A * DZ + b * be * de * (DY - DZ))).
    + unfold DY, DZ, U. rewrite <- !rsum_minus, <- !rsum_scal, <- !rsum_minus, <- !rsum_plus, <- !rsum_scal. apply rsum_le. intros i I.
      destruct (RY s i S1 I) as (RY1 & RY2). destruct (RX s i S1 I) as (RX1 & RX2). rewrite RY1, RY2, RX1, RX2.
      assert (B1 := sign_abs _ _ (SF' i I)). assert (B2 := sign_abs _ _ (SG' i I)). assert (B3 := sign_below _ _ (Z i s - W i s) (SF' i I)). assert (B4 := sign_below _ _ (Y i s - X i s) (SG' i I)).
      rewrite <- B1 at 1 2. rewrite <- B1 in B4 |- *. rewrite <- B2 in B3 |- *.
      assert (WD : 0 <= w * de) by (apply Rmult_le_pos; lra). assert (BD : 0 <= b * be * de) by (apply Rmult_le_pos; [apply Rmult_le_pos; lra|lra]).
      assert (M1 := Rmult_le_compat_l _ _ _ WD B3). assert (M2 := Rmult_le_compat_l _ _ _ BD B4).
      set (sy := shr n z K (CT s) (rowx Y s) i) in *. set (sx := shr n z K (CT s) (rowx X s) i) in *.
      match goal with |- ?l <= exp (A * s) * ?r => replace l with (exp (A * s) * (A * (sg i * (Y i s - X i s)) - h * (sg i * (sy * Y i s - sx * X i s)) - w * de * (sg i * (Y i s - X i s)) + w * de * (sg i * (Z i s - W i s)) + b * A * (rr i * (Z i s - W i s)) + b * be * de * (rr i * (Y i s - X i s) - rr i * (Z i s - W i s)))) end.
      * apply Rmult_le_compat_l; [lra|]. lra.
      * unfold CT in sy, sx. fold sy sx. ring.
    + assert (HU := Rmult_le_compat_l h _ _ ltac:(lra) MR). rewrite BB. assert (P1 := Rmult_le_compat_r _ _ _ DYP A1). assert (P2 := Rmult_le_compat_r _ _ _ DZP A2).
      rewrite <- (Rmult_0_r (exp (A * s))). apply Rmult_le_compat_l; [lra|]. assert (h * (kap * DY) = 2 * (h * kap / 2 * DY)) by field.
      replace (b * A * DZ) with (A * b * DZ) by ring. lra.
Qed.
End TwoBeads.
