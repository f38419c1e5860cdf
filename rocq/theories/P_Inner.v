(** The first moments inside a bead whose surface starts to load. *)
From Coq Require Import Reals List Arith Bool Lra Lia.
From Verif Require Import Lib_Py Lib_Sum Lib_Traj.
Open Scope R_scope.

Lemma rsum_abs n f : Rabs (rsum n f) <= rsum n (fun k => Rabs (f k)).
Proof. induction n as [|n IH]; cbn; [rewrite Rabs_R0; lra|]. eapply Rle_trans; [apply Rabs_triang|]. lra. Qed.
Lemma rsum_bound n (f g : nat -> R) M : 0 <= M -> (forall k, (k < n)%nat -> Rabs (g k) <= M) -> Rabs (rsum n (fun k => f k * g k)) <= rsum n (fun k => Rabs (f k)) * M.
Proof.
  intros HM H. induction n as [|n IH]; cbn; [rewrite Rabs_R0; lra|]. eapply Rle_trans; [apply Rabs_triang|].
  specialize (IH ltac:(intros; apply H; lia)). rewrite Rabs_mult. assert (Rabs (f n) * Rabs (g n) <= Rabs (f n) * M) by (apply Rmult_le_compat_l; [apply Rabs_pos|apply H; lia]). lra.
Qed.
(** What starts at zero and changes at no more than [M] stays within [M t]. *)
Lemma slow d f f' M : evolves 0 d f f' -> f 0 = 0 -> 0 <= M -> forall t, 0 <= t <= d -> (forall x, 0 < x < t -> Rabs (f' x) <= M) -> Rabs (f t) <= M * t.
Proof.
  intros EV Z HM t T H. destruct (Req_dec t 0) as [->|NZ]; [rewrite Z, Rabs_R0; lra|].
  destruct (evolves_mvt 0 t f f' ltac:(lra) (evolves_sub 0 d t f f' ltac:(lra) EV)) as (x & X & E).
  rewrite Z in E. replace (f t) with (f' x * t) by lra. rewrite Rabs_mult, (Rabs_right t) by lra. apply Rmult_le_compat_r; [lra|]. apply H. lra.
Qed.

Section Inner.
Variables (m : nat) (B : nat -> nat -> R) (Y F : nat -> R -> R) (Tf e L c s S : R) (i : nat).
Hypothesis HT : 0 < Tf.
Hypothesis HE : 0 < e.
Hypothesis HL : 0 <= L.
Hypothesis Hc : 0 < c.
Hypothesis Hs : 0 < s.
Hypothesis I : (i < m)%nat.
(** Inside, the loadings follow what drives them. *)
Hypothesis EV : forall j, (j < m)%nat -> evolves 0 Tf (Y j) (fun t => rsum m (fun k => B j k * F k t) + B j m * F m t).
Hypothesis Y0 : forall j, (j < m)%nat -> Y j 0 = 0.
(** What drives them is comparable with the loading, at first. *)
Hypothesis FY : forall t, 0 < t < Tf -> forall k, (k <= m)%nat -> Rabs (Y k t) <= e -> Rabs (F k t) <= L * Rabs (Y k t).
Hypothesis FM : forall t, 0 < t < Tf -> 0 <= Y m t <= e -> c * Y m t <= F m t.
Hypothesis YS : forall t, 0 < t < Tf -> s * t <= Y m t <= S * t.
Hypothesis YC : forall j, (j < m)%nat -> continuity_pt (Y j) 0.

Lemma small_inside : exists d, 0 < d <= Tf /\ forall t, 0 < t < d -> forall j, (j <= m)%nat -> Rabs (Y j t) <= e.
Proof.
  assert (SP : 0 < S). { assert (A := YS (Tf / 2) ltac:(lra)). apply (Rmult_lt_reg_r (Tf / 2)); [lra|]. rewrite Rmult_0_l. assert (0 < s * (Tf / 2)) by (apply Rmult_lt_0_compat; lra). lra. }
  assert (G : forall p, (p <= m)%nat -> exists d, 0 < d <= Tf /\ forall t, 0 < t < d -> forall j, (j < p)%nat -> Rabs (Y j t) <= e).
  { induction p as [|p IH]; intros P; [exists Tf; split; [lra|intros; lia]|]. destruct IH as (d & D & H); [lia|].
    destruct (YC p ltac:(lia) e HE) as (d2 & D2 & H2). exists (Rmin d d2). split; [split; [apply Rmin_glb_lt; lra|eapply Rle_trans; [apply Rmin_l|lra]]|].
    intros t T j J. assert (A := Rmin_l d d2). assert (A2 := Rmin_r d d2). destruct (Nat.eq_dec j p) as [->|NE]; [|apply H; [lra|lia]].
    assert (Q : R_dist (Y p t) (Y p 0) < e). { apply H2. split; [split; [exact Logic.I|lra]|]. cbn. unfold R_dist. rewrite Rminus_0_r, Rabs_right; lra. }
    unfold R_dist in Q. rewrite Y0 in Q by lia. rewrite Rminus_0_r in Q. lra. }
  destruct (G m ltac:(lia)) as (d & D & H). assert (ES : 0 < e / S) by (apply Rdiv_lt_0_compat; lra). exists (Rmin d (e / S)). assert (A := Rmin_l d (e / S)). assert (A2 := Rmin_r d (e / S)).
  split; [split; [apply Rmin_glb_lt; lra|lra]|]. intros t T j J. destruct (Nat.eq_dec j m) as [->|NE]; [|apply H; [lra|lia]].
  assert (YY := YS t ltac:(lra)). assert (0 < s * t) by (apply Rmult_lt_0_compat; lra). rewrite Rabs_right by lra.
  assert (S * t <= S * (e / S)) by (apply Rmult_le_compat_l; lra). replace (S * (e / S)) with e in H1 by (field; lra). lra.
Qed.
Let LB : R := rsum m (fun j => rsum m (fun k => Rabs (B j k)) + Rabs (B j m)).
Lemma row_le j : (j < m)%nat -> rsum m (fun k => Rabs (B j k)) + Rabs (B j m) <= LB.
Proof.
  intros J. unfold LB. set (f := fun j => rsum m (fun k => Rabs (B j k)) + Rabs (B j m)).
  assert (P : forall j, 0 <= f j). { intros k. unfold f. assert (0 <= rsum m (fun k0 => Rabs (B k k0))) by (apply rsum_nonneg; intros; apply Rabs_pos). assert (Q := Rabs_pos (B k m)). lra. }
  change (f j <= rsum m f). clear - P J. clearbody f. induction m as [|n IH]; [lia|]. cbn. destruct (Nat.eq_dec j n) as [->|NE].
  - assert (0 <= rsum n f) by (apply rsum_nonneg; intros; apply P). lra.
  - specialize (IH ltac:(lia)). assert (Q := P n). lra.
Qed.
Lemma LB_pos : 0 <= LB.
Proof. eapply Rle_trans; [|apply (row_le i I)]. assert (0 <= rsum m (fun k0 => Rabs (B i k0))) by (apply rsum_nonneg; intros; apply Rabs_pos). assert (Q := Rabs_pos (B i m)). lra. Qed.
Lemma rate_le j t M : (j < m)%nat -> 0 <= M -> (forall k, (k <= m)%nat -> Rabs (F k t) <= M) -> Rabs (rsum m (fun k => B j k * F k t) + B j m * F m t) <= LB * M.
Proof.
  intros J HM H. eapply Rle_trans; [apply Rabs_triang|]. assert (A := rsum_bound m (B j) (fun k => F k t) M HM ltac:(intros; apply H; lia)). cbv beta in A.
  rewrite Rabs_mult. assert (Rabs (B j m) * Rabs (F m t) <= Rabs (B j m) * M) by (apply Rmult_le_compat_l; [apply Rabs_pos|apply H; lia]).
  assert (R := row_le j J). assert ((rsum m (fun k => Rabs (B j k)) + Rabs (B j m)) * M <= LB * M) by (apply Rmult_le_compat_r; assumption). lra.
Qed.
(** Linear, then quadratic. *)
Lemma quadratic : exists d K, 0 < d <= Tf /\ 0 <= K /\ (forall t, 0 < t < d -> forall j, (j <= m)%nat -> Rabs (Y j t) <= e) /\ forall t, 0 < t < d -> forall j, (j < m)%nat -> Rabs (Y j t) <= K * t * t.
Proof.
  destruct small_inside as (d & D & H). assert (LP := LB_pos).
  assert (SP : 0 < S). { assert (A := YS (Tf / 2) ltac:(lra)). apply (Rmult_lt_reg_r (Tf / 2)); [lra|]. rewrite Rmult_0_l. assert (0 < s * (Tf / 2)) by (apply Rmult_lt_0_compat; lra). lra. }
  set (M1 := LB * (L * e)). assert (M1P : 0 <= M1) by (unfold M1; apply Rmult_le_pos; [lra|apply Rmult_le_pos; lra]).
  assert (A1 : forall t, 0 < t < d -> forall j, (j < m)%nat -> Rabs (Y j t) <= M1 * t).
  { intros t T j J. apply (slow Tf (Y j) _ M1 (EV j J) (Y0 j J) M1P); [lra|]. intros x X. unfold M1. apply rate_le; [exact J|apply Rmult_le_pos; lra|].
    intros k K. eapply Rle_trans; [apply FY; [lra|exact K|apply H; [lra|exact K]]|]. apply Rmult_le_compat_l; [exact HL|]. apply H; [lra|exact K]. }
  set (M := M1 + S). assert (MP : 0 <= M) by (unfold M; lra).
  assert (A2 : forall t, 0 < t < d -> forall j, (j <= m)%nat -> Rabs (Y j t) <= M * t).
  { intros t T j J. destruct (Nat.eq_dec j m) as [->|NE].
    - assert (YY := YS t ltac:(lra)). assert (0 < s * t) by (apply Rmult_lt_0_compat; lra). rewrite Rabs_right by lra. unfold M. assert (0 <= M1 * t) by (apply Rmult_le_pos; lra). lra.
    - eapply Rle_trans; [apply A1; [exact T|lia]|]. unfold M. assert (0 <= S * t) by (apply Rmult_le_pos; lra). lra. }
  exists d, (LB * (L * M)). split; [exact D|]. split; [apply Rmult_le_pos; [lra|apply Rmult_le_pos; lra]|]. split; [exact H|]. intros t T j J.
  assert (MT : 0 <= M * t) by (apply Rmult_le_pos; lra).
  apply (slow Tf (Y j) _ (LB * (L * M) * t) (EV j J) (Y0 j J)); [apply Rmult_le_pos; [apply Rmult_le_pos; [lra|apply Rmult_le_pos; lra]|lra]|lra|].
  intros x X. eapply Rle_trans; [apply (rate_le j x (L * (M * t)) J)|].
  - apply Rmult_le_pos; lra.
  - intros k K. eapply Rle_trans; [apply FY; [lra|exact K|apply H; [lra|exact K]]|]. apply Rmult_le_compat_l; [exact HL|].
    eapply Rle_trans; [apply A2; [lra|exact K]|]. apply Rmult_le_compat_l; lra.
  - right. ring.
Qed.
(** The point [i] goes the way the surface drives it. *)
Lemma follows_surface : B i m <> 0 -> exists d, 0 < d <= Tf /\ forall t, 0 < t < d -> 0 < B i m * Y i t.
Proof.
  intros NB. destruct quadratic as (d & K & D & KP & H & Q). assert (LP := LB_pos).
  set (b := B i m) in *. assert (BB : 0 < b * b) by (apply Rlt_0_sqr in NB; exact NB).
  set (g := b * b * (c * s)). assert (GP : 0 < g) by (unfold g; apply Rmult_lt_0_compat; [exact BB|apply Rmult_lt_0_compat; assumption]).
  set (N := Rabs b * (LB * (L * K)) + 1). assert (NP : 0 < N). { unfold N. assert (0 <= Rabs b * (LB * (L * K))) by (apply Rmult_le_pos; [apply Rabs_pos|apply Rmult_le_pos; [lra|apply Rmult_le_pos; lra]]). lra. }
  assert (GN : 0 < g / N) by (apply Rdiv_lt_0_compat; assumption).
  exists (Rmin d (g / N)). assert (A := Rmin_l d (g / N)). assert (A2 := Rmin_r d (g / N)). split; [split; [apply Rmin_glb_lt; lra|lra]|].
  intros t T. destruct (evolves_mvt 0 t (Y i) _ ltac:(lra) (evolves_sub 0 Tf t _ _ ltac:(lra) (EV i I))) as (x & X & E). rewrite Y0 in E by exact I. cbv beta in E. fold b in E.
  set (r := rsum m (fun k => B i k * F k x)) in *. replace (Y i t) with ((r + b * F m x) * t) by lra. rewrite <- Rmult_assoc. apply Rmult_lt_0_compat; [|lra].
  assert (RR : Rabs r <= LB * (L * (K * x * x))).
  { unfold r. eapply Rle_trans; [apply (rsum_bound m (B i) (fun k => F k x) (L * (K * x * x)))|].
    - apply Rmult_le_pos; [lra|]. apply Rmult_le_pos; [apply Rmult_le_pos|]; lra.
    - intros k KK. eapply Rle_trans; [apply FY; [lra|lia|apply H; [lra|lia]]|]. apply Rmult_le_compat_l; [exact HL|]. apply Q; [lra|exact KK].
    - apply Rmult_le_compat_r; [apply Rmult_le_pos; [lra|]; apply Rmult_le_pos; [apply Rmult_le_pos|]; lra|]. assert (W := row_le i I). assert (V := Rabs_pos (B i m)). lra. }
  assert (FB : c * (s * x) <= F m x).
  { assert (YY := YS x ltac:(lra)). assert (YE := H x ltac:(lra) m ltac:(lia)). assert (0 < s * x) by (apply Rmult_lt_0_compat; lra). rewrite Rabs_right in YE by lra.
    eapply Rle_trans; [|apply FM; lra]. apply Rmult_le_compat_l; lra. }
  assert (T1 : g * x <= b * (b * F m x)). { replace (g * x) with (b * b * (c * (s * x))) by (unfold g; ring). replace (b * (b * F m x)) with (b * b * F m x) by ring. apply Rmult_le_compat_l; lra. }
  assert (T2 : - (b * r) <= (N - 1) * x * x).
  { eapply Rle_trans; [apply Rle_abs|]. rewrite Rabs_Ropp, Rabs_mult. eapply Rle_trans; [apply Rmult_le_compat_l; [apply Rabs_pos|exact RR]|]. unfold N. right. ring. }
  assert (T3 : (N - 1) * x * x < g * x).
  { apply Rmult_lt_compat_r; [lra|]. assert (N * x < g). { assert (N * x < N * (g / N)) by (apply Rmult_lt_compat_l; lra). replace (N * (g / N)) with g in H0 by (field; lra). exact H0. } lra. }
  rewrite Rmult_plus_distr_l. lra.
Qed.
End Inner.

(** What starts at zero with a positive rate grows linearly at first. *)
Lemma starts_linear Tf f f' : 0 < Tf -> evolves 0 Tf f f' -> continuity_pt f' 0 -> f 0 = 0 -> 0 < f' 0 ->
  exists d, 0 < d <= Tf /\ forall t, 0 < t < d -> f' 0 / 2 * t <= f t <= 2 * f' 0 * t.
Proof.
  intros HT EV C Z P. destruct (C (f' 0 / 2) ltac:(lra)) as (d & D & H). exists (Rmin d Tf). assert (A := Rmin_l d Tf). assert (A2 := Rmin_r d Tf). split; [split; [apply Rmin_glb_lt; lra|lra]|].
  intros t T. destruct (evolves_mvt 0 t f f' ltac:(lra) (evolves_sub 0 Tf t f f' ltac:(lra) EV)) as (x & X & E). rewrite Z in E.
  assert (Q : R_dist (f' x) (f' 0) < f' 0 / 2). { apply H. split; [split; [exact I|lra]|]. cbn. unfold R_dist. rewrite Rminus_0_r, Rabs_right; lra. }
  unfold R_dist in Q. apply Rabs_def2 in Q. replace (f t) with (f' x * t) by lra. split; apply Rmult_le_compat_r; lra.
Qed.
