(** Beads in different waters stay as near one another as the waters are. *)
From Coq Require Import Reals Arith Bool Lra Lia.
From Verif Require Import Lib_Sum Lib_Traj P_EntropyDv P_InletTwo P_L1.
Open Scope R_scope.

(** ** A sum of absolute values that decays but for a disturbance *)
Section Forced.
Variables (n : nat) (F F' G G' : nat -> R -> R) (Tf A g : R).
Hypothesis HA : 0 < A.
Hypothesis Hg : 0 <= g.
Hypothesis EF : forall i, (i < n)%nat -> evolves 0 Tf (F i) (F' i).
Hypothesis EG : forall i, (i < n)%nat -> evolves 0 Tf (G i) (G' i).
Let V (t : R) : R := rsum n (fun i => Rabs (F i t) + Rabs (G i t)).
Hypothesis H : forall t s r, 0 < t < Tf -> (forall i, (i < n)%nat -> sign_of (s i) (F i t)) -> (forall i, (i < n)%nat -> sign_of (r i) (G i t)) ->
  rsum n (fun i => s i * F' i t + r i * G' i t) <= g - A * V t.
Lemma l1_tracks t : 0 <= t <= Tf -> V t <= exp (- A * t) * V 0 + g / A.
Proof.
  intros T. set (M := g / A * exp (A * Tf) + 1). assert (GA : 0 <= g / A) by (apply Rmult_le_pos; [exact Hg|left; apply Rinv_0_lt_compat, HA]).
  set (P := fun t => M - g / A * exp (A * t)).
  assert (PP : forall s, s <= Tf -> 0 < P s).
  { intros s S. unfold P, M. assert (exp (A * s) <= exp (A * Tf)). { destruct (Req_dec s Tf) as [->|N]; [lra|]. left. apply exp_increasing, Rmult_lt_compat_l; lra. }
    assert (g / A * exp (A * s) <= g / A * exp (A * Tf)) by (apply Rmult_le_compat_l; assumption). lra. }
  set (F1 := fun i t => if (i <? n)%nat then exp (A * t) * F i t else P t). set (F1' := fun i t => if (i <? n)%nat then A * exp (A * t) * F i t + exp (A * t) * F' i t else - g * exp (A * t)).
  set (G1 := fun i t => if (i <? n)%nat then exp (A * t) * G i t else 0). set (G1' := fun i t => if (i <? n)%nat then A * exp (A * t) * G i t + exp (A * t) * G' i t else 0).
  assert (LT : forall i, (i < n)%nat -> (i <? n)%nat = true) by (intros i I; apply Nat.ltb_lt, I). assert (NN : (n <? n)%nat = false) by apply Nat.ltb_irrefl.
  assert (VAL : forall s, s <= Tf -> rsum (S n) (fun i => Rabs (F1 i s) + Rabs (G1 i s)) = exp (A * s) * V s + P s).
  { intros s S. cbn [rsum]. unfold F1, G1 at 2. rewrite NN, Rabs_R0, (Rabs_right (P s)) by (left; apply PP, S). rewrite Rplus_0_r. f_equal. unfold V. rewrite <- rsum_scal. apply rsum_ext. intros i I. unfold G1. rewrite (LT i I).
    assert (E := exp_pos (A * s)). rewrite !Rabs_mult, (Rabs_right (exp (A * s))) by lra. ring. }
  assert (FALL := l1_falls (S n) F1 F1' G1 G1' Tf).
  lapply FALL; [clear FALL; intros FALL|clear FALL].
  2:{ intros i I. unfold F1, F1'. destruct (i <? n)%nat eqn:E; [apply Nat.ltb_lt in E; apply evolves_mult; [apply evolves_exp|apply EF, E]|].
      unfold P. apply (evolves_ext 0 Tf (fun t => M + (- (g / A)) * exp (A * t)) _ (fun t => 0 + (- (g / A)) * (A * exp (A * t)))); [intros; ring|intros; field; lra|]. apply evolves_plus; [apply evolves_const|apply evolves_scal, evolves_exp]. }
  lapply FALL; [clear FALL; intros FALL|clear FALL].
  2:{ intros i I. unfold G1, G1'. destruct (i <? n)%nat eqn:E; [apply Nat.ltb_lt in E; apply evolves_mult; [apply evolves_exp|apply EG, E]|apply evolves_const]. }
  lapply FALL; [clear FALL; intros FALL|clear FALL].
  - assert (X := FALL t T). cbv beta in X. rewrite !VAL in X by lra. rewrite Rmult_0_r, exp_0, Rmult_1_l in X. unfold P in X. rewrite Rmult_0_r, exp_0, Rmult_1_r in X.
    apply (Rmult_le_reg_l (exp (A * t))); [apply exp_pos|]. replace (exp (A * t) * (exp (- A * t) * V 0 + g / A)) with (exp (A * t) * exp (- A * t) * V 0 + g / A * exp (A * t)) by ring. rewrite <- exp_plus. replace (A * t + - A * t) with 0 by ring. rewrite exp_0. lra.
  - intros s sg rr S SF SG. assert (E := exp_pos (A * s)). cbn [rsum].
    assert (SN : sg n = 1). { assert (X := SF n ltac:(lia)). unfold F1 in X. rewrite NN in X. assert (X2 := PP s ltac:(lra)). destruct X as [(X & _)|(_ & X)]; [exact X|lra]. }
    assert (FS : forall i, (i < n)%nat -> sign_of (sg i) (F i s)) by (intros i I; assert (X := SF i ltac:(lia)); unfold F1 in X; rewrite (LT i I) in X; apply (sign_scale (exp (A * s))); assumption).
    assert (GS : forall i, (i < n)%nat -> sign_of (rr i) (G i s)) by (intros i I; assert (X := SG i ltac:(lia)); unfold G1 in X; rewrite (LT i I) in X; apply (sign_scale (exp (A * s))); assumption).
    assert (X := H s sg rr S FS GS). unfold F1', G1' at 2. rewrite NN, SN.
    rewrite (rsum_ext n _ (fun i => exp (A * s) * (A * (Rabs (F i s) + Rabs (G i s)) + (sg i * F' i s + rr i * G' i s)))).
    + rewrite rsum_scal, rsum_plus, rsum_scal. fold (V s). set (D := rsum n (fun i => sg i * F' i s + rr i * G' i s)) in *.
      replace (exp (A * s) * (A * V s + D) + (1 * (- g * exp (A * s)) + rr n * 0)) with (- (exp (A * s) * (g - A * V s - D))) by ring. assert (0 <= exp (A * s) * (g - A * V s - D)) by (apply Rmult_le_pos; lra). lra.
    + intros i I. unfold G1'. rewrite (LT i I), <- (sign_abs _ _ (FS i I)), <- (sign_abs _ _ (GS i I)). ring.
Qed.
End Forced.

(** ** Two waters and one loading *)
Section Waters.
Variables (n : nat) (z : nat -> nat) (K : nat -> R).
Hypothesis HK : forall i, (i < n)%nat -> 0 < K i.
Hypothesis Hz : forall i, (i < n)%nat -> z i = 1%nat \/ z i = 2%nat.
Lemma rat_total c v : 0 <= c -> sound n z K c v -> rsum n (fun i => shr n z K c v i * v i) = c /\ 0 <= rat n z K c v.
Proof.
  intros C (_ & D & DI). destruct (ratio_ok c _ _ C D DI) as (BD & ROOT). split; [|apply BD]. unfold shr, rat. set (p := ratio c (ea n z K v) (ed n z K v)) in *. rewrite <- ROOT at 1. unfold ea, ed.
  rewrite (Rmult_comm _ (p ^ 2)), (Rmult_comm _ p), <- !rsum_scal, <- rsum_plus. apply rsum_ext. intros i I. destruct (Hz i I) as [V|V]; rewrite V; cbn [Nat.eqb]; unfold Rdiv; ring.
Qed.
Lemma waters_apart c d v : 0 <= c -> 0 <= d -> sound n z K c v -> sound n z K d v -> (forall i, (i < n)%nat -> 0 <= v i) ->
  rsum n (fun i => Rabs (shr n z K c v i * v i - shr n z K d v i * v i)) = Rabs (c - d).
Proof.
  intros C D SC SD V. destruct (rat_total c v C SC) as (E1 & P1). destruct (rat_total d v D SD) as (E2 & P2).
  assert (MON : forall a b, 0 <= rat n z K a v <= rat n z K b v -> forall i, (i < n)%nat -> shr n z K a v i * v i <= shr n z K b v i * v i).
  { intros a b L i I. apply Rmult_le_compat_r; [apply V, I|]. unfold shr, Rdiv. apply Rmult_le_compat_r; [left; apply Rinv_0_lt_compat, HK, I|apply pow_incr, L]. }
  assert (DIF : rsum n (fun i => shr n z K c v i * v i - shr n z K d v i * v i) = c - d) by (rewrite rsum_minus, E1, E2; reflexivity).
  destruct (Rle_lt_dec (rat n z K c v) (rat n z K d v)) as [L|L].
  - assert (M := MON c d (conj P1 L)). rewrite (rsum_ext n _ (fun i => - (shr n z K c v i * v i - shr n z K d v i * v i))) by (intros i I; specialize (M i I); apply Rabs_left1; lra).
    rewrite rsum_opp, DIF. symmetry. apply Rabs_left1. assert (LE := rsum_le n _ _ M). rewrite E1, E2 in LE. lra.
  - assert (M := MON d c (conj P2 (Rlt_le _ _ L))). rewrite (rsum_ext n _ (fun i => shr n z K c v i * v i - shr n z K d v i * v i)) by (intros i I; specialize (M i I); apply Rabs_right; lra).
    rewrite DIF. symmetry. apply Rabs_right. rewrite <- DIF. apply Rle_ge, rsum_nonneg. intros i I. specialize (M i I). lra.
Qed.
End Waters.

Section TwoWaters.
Variables (n : nat) (z : nat -> nat) (K : nat -> R) (Q c0 h eps : R).
Hypothesis HK : forall i, (i < n)%nat -> 0 < K i.
Hypothesis Hz : forall i, (i < n)%nat -> z i = 1%nat \/ z i = 2%nat.
Hypothesis Z0 : z 0%nat = 1%nat.
Hypothesis HN : (0 < n)%nat.
Hypothesis HQ : 0 < Q.
Hypothesis Hc : 0 < c0.
Hypothesis Hh : 0 < h.
Hypothesis He : 0 <= eps.
Variables (Tf : R) (Y Z X W : nat -> R -> R) (C D : R -> nat -> R).
Hypothesis HCT : forall t, 0 < t < Tf -> c0 <= rsum n (C t).
Hypothesis HDT : forall t, 0 < t < Tf -> 0 <= rsum n (D t).
Hypothesis KY : forall t, 0 <= t <= Tf -> kept n Y Z t.
Hypothesis KX : forall t, 0 <= t <= Tf -> kept n X W t.
Hypothesis SY : forall t, 0 <= t <= Tf -> rsum n (rowx Y t) = Q.
Hypothesis SX : forall t, 0 <= t <= Tf -> rsum n (rowx X t) = Q.
Hypothesis CD : forall t, 0 < t < Tf -> rsum n (fun i => Rabs (C t i - D t i)) <= eps.
Let fy (i : nat) (t : R) : R := C t i - shr n z K (rsum n (C t)) (rowx Y t) i * Y i t.
Let fx (i : nat) (t : R) : R := D t i - shr n z K (rsum n (D t)) (rowx X t) i * X i t.
(** what the films do to the distance *)
Lemma films t s : 0 < t < Tf -> (forall i, (i < n)%nat -> sign_of (s i) (Y i t - X i t)) ->
  rsum n (fun i => s i * (fy i t - fx i t)) <= 2 * eps - kap n K Q c0 * rsum n (fun i => Rabs (Y i t - X i t)).
Proof.
  intros T S. assert (MR := mono_rate n z K Q c0 HK Hz Z0 HN HQ Hc Tf Y Z X W C HCT KY KX SY SX t s T S). cbv beta in MR.
  destruct (KX t ltac:(lra)) as (NX & PX & _). assert (CP := HCT t T). assert (DP := HDT t T). assert (VX : forall i, (i < n)%nat -> 0 <= rowx X t i) by (intros i I; apply NX, I).
  assert (WA := waters_apart n z K HK Hz (rsum n (C t)) (rsum n (D t)) (rowx X t) ltac:(lra) DP ltac:(apply (kept_sound n z K); try assumption; lra) ltac:(apply (kept_sound n z K); try assumption; lra) VX).
  assert (TOT : Rabs (rsum n (C t) - rsum n (D t)) <= eps). { rewrite <- rsum_minus. eapply Rle_trans; [apply rsum_abs|apply CD, T]. }
  set (U := rsum n (fun i => s i * (shr n z K (rsum n (C t)) (rowx Y t) i * Y i t - shr n z K (rsum n (C t)) (rowx X t) i * X i t))) in *.
  set (N := rsum n (fun i => Rabs (shr n z K (rsum n (C t)) (rowx X t) i * rowx X t i - shr n z K (rsum n (D t)) (rowx X t) i * rowx X t i))) in *.
  assert (C1 := CD t T). set (E := rsum n (fun i => Rabs (C t i - D t i))) in *.
  apply Rle_trans with (E + N - U); [|lra]. unfold E, N, U. rewrite <- rsum_plus, <- rsum_minus. apply rsum_le. intros i I.
  assert (B1 := sign_below _ _ (C t i - D t i) (S i I)). assert (B2 := sign_below _ _ (- (shr n z K (rsum n (C t)) (rowx X t) i * rowx X t i - shr n z K (rsum n (D t)) (rowx X t) i * rowx X t i)) (S i I)). rewrite Rabs_Ropp in B2.
  unfold fy, fx. change (rowx X t i) with (X i t) in *. lra.
Qed.
(** *** One radial point *)
Lemma alone_tracks Y' X' : (forall i, (i < n)%nat -> evolves 0 Tf (Y i) (Y' i)) -> (forall i, (i < n)%nat -> evolves 0 Tf (X i) (X' i)) ->
  (forall t i, 0 < t < Tf -> (i < n)%nat -> Y' i t = h * fy i t) -> (forall t i, 0 < t < Tf -> (i < n)%nat -> X' i t = h * fx i t) ->
  forall t, 0 <= t <= Tf -> rsum n (fun i => Rabs (Y i t - X i t)) <= exp (- (h * kap n K Q c0) * t) * rsum n (fun i => Rabs (Y i 0 - X i 0)) + 2 * h * eps / (h * kap n K Q c0).
Proof.
  intros EY EX RY RX t T. assert (KP := kap_pos n K Q c0 HK HN HQ Hc).
  assert (X1 := l1_tracks n (fun i t => Y i t - X i t) (fun i t => Y' i t - X' i t) (fun _ _ => 0) (fun _ _ => 0) Tf (h * kap n K Q c0) (2 * h * eps) ltac:(apply Rmult_lt_0_compat; assumption) ltac:(apply Rmult_le_pos; lra)).
  cbv beta in X1. assert (SIMP : forall s, rsum n (fun i => Rabs (Y i s - X i s) + Rabs 0) = rsum n (fun i => Rabs (Y i s - X i s))) by (intros s; apply rsum_ext; intros; rewrite Rabs_R0; ring).
  rewrite <- !SIMP. apply X1; [| | |exact T].
  - intros i I. apply (evolves_ext 0 Tf (fun t => Y i t + (- 1) * X i t) _ (fun t => Y' i t + (- 1) * X' i t)); [intros; ring|intros; ring|]. apply evolves_plus; [apply EY, I|apply evolves_scal, EX, I].
  - intros i I. apply evolves_const.
  - intros s sg rr S SF _. rewrite SIMP. assert (FI := films s sg S SF). rewrite (rsum_ext n _ (fun i => h * (sg i * (fy i s - fx i s)))) by (intros i I; rewrite (RY s i S I), (RX s i S I); ring).
    rewrite rsum_scal. assert (L := Rmult_le_compat_l h _ _ ltac:(lra) FI). lra.
Qed.
(** *** Two radial points *)
Variables (w be de : R).
Hypothesis Hw : 0 < w.
Hypothesis Hbe : 0 < be.
Hypothesis Hde : 0 < de.
Let b := core_weight n K Q c0 h w be de.
Let A := decay n K Q c0 h w be de.
Lemma beads_track Y' X' Z' W' : (forall i, (i < n)%nat -> evolves 0 Tf (Y i) (Y' i)) -> (forall i, (i < n)%nat -> evolves 0 Tf (X i) (X' i)) ->
  (forall i, (i < n)%nat -> evolves 0 Tf (Z i) (Z' i)) -> (forall i, (i < n)%nat -> evolves 0 Tf (W i) (W' i)) ->
  (forall t i, 0 < t < Tf -> (i < n)%nat -> Y' i t = h * fy i t - w * (de * (Y i t - Z i t)) /\ Z' i t = be * (de * (Y i t - Z i t))) ->
  (forall t i, 0 < t < Tf -> (i < n)%nat -> X' i t = h * fx i t - w * (de * (X i t - W i t)) /\ W' i t = be * (de * (X i t - W i t))) ->
  forall t, 0 <= t <= Tf -> rsum n (fun i => Rabs (Y i t - X i t) + b * Rabs (Z i t - W i t)) <= exp (- A * t) * rsum n (fun i => Rabs (Y i 0 - X i 0) + b * Rabs (Z i 0 - W i 0)) + 2 * h * eps / A.
Proof.
  intros EY EX EZ EW RY RX t T. assert (BP : 0 < b) by (apply core_pos; assumption). assert (AP : 0 < A) by (apply decay_pos; assumption). assert (KP := hk_pos n K Q c0 h HK HN HQ Hc Hh). set (k := kap n K Q c0) in *.
  assert (BB : b * be * de = w * de + h * k / 2) by (unfold b, core_weight; fold k; field; lra).
  assert (A1 : A <= h * k / 2) by apply Rmin_l. assert (A2 : A * b <= h * k / 2).
  { replace (h * k / 2) with (h * k / 2 / b * b) by (field; lra). apply Rmult_le_compat_r; [lra|apply Rmin_r]. }
  assert (DI : forall U U1 V V1 : nat -> R -> R, (forall i, (i < n)%nat -> evolves 0 Tf (U i) (U1 i)) -> (forall i, (i < n)%nat -> evolves 0 Tf (V i) (V1 i)) -> forall i, (i < n)%nat -> evolves 0 Tf (fun t => U i t - V i t) (fun t => U1 i t - V1 i t)).
  { intros U U1 V V1 EU EV i I. apply (evolves_ext 0 Tf (fun t => U i t + (- 1) * V i t) _ (fun t => U1 i t + (- 1) * V1 i t)); [intros; ring|intros; ring|]. apply evolves_plus; [apply EU, I|apply evolves_scal, EV, I]. }
  assert (SIMP : forall s, rsum n (fun i => Rabs (Y i s - X i s) + Rabs (b * (Z i s - W i s))) = rsum n (fun i => Rabs (Y i s - X i s) + b * Rabs (Z i s - W i s))) by (intros s; apply rsum_ext; intros; rewrite Rabs_mult, (Rabs_right b) by lra; ring).
  rewrite <- !SIMP.
  apply (l1_tracks n (fun i t => Y i t - X i t) (fun i t => Y' i t - X' i t) (fun i t => b * (Z i t - W i t)) (fun i t => b * (Z' i t - W' i t)) Tf A (2 * h * eps) AP ltac:(apply Rmult_le_pos; lra) (DI Y Y' X X' EY EX) (fun i I => evolves_scal 0 Tf b _ _ (DI Z Z' W W' EZ EW i I))); [|exact T].
  intros s sg rr S SF SG. cbv beta. rewrite SIMP. assert (SG' : forall i, (i < n)%nat -> sign_of (rr i) (Z i s - W i s)) by (intros i I; apply (sign_scale b); [exact BP|apply SG, I]).
  assert (FI := films s sg S SF). fold k in FI. set (U := rsum n (fun i => sg i * (fy i s - fx i s))) in *.
  set (DY := rsum n (fun i => Rabs (Y i s - X i s))) in *. set (DZ := rsum n (fun i => Rabs (Z i s - W i s))).
  assert (DYP : 0 <= DY) by (apply rsum_nonneg; intros; apply Rabs_pos). assert (DZP : 0 <= DZ) by (apply rsum_nonneg; intros; apply Rabs_pos).
  replace (rsum n (fun i => Rabs (Y i s - X i s) + b * Rabs (Z i s - W i s))) with (DY + b * DZ) by (rewrite rsum_plus, rsum_scal; reflexivity).
  apply Rle_trans with (h * U - w * de * DY + w * de * DZ + b * be * de * (DY - DZ)).
  - unfold DY, DZ, U. rewrite <- rsum_minus, <- !rsum_scal, <- !rsum_minus, <- !rsum_plus. apply rsum_le. intros i I.
    destruct (RY s i S I) as (RY1 & RY2). destruct (RX s i S I) as (RX1 & RX2). rewrite RY1, RY2, RX1, RX2.
    assert (B1 := sign_abs _ _ (SF i I)). assert (B2 := sign_abs _ _ (SG' i I)). assert (B3 := sign_below _ _ (Z i s - W i s) (SF i I)). assert (B4 := sign_below _ _ (Y i s - X i s) (SG' i I)). cbv beta in B1.
    assert (WD : 0 <= w * de) by (apply Rmult_le_pos; lra). assert (BD : 0 <= b * be * de) by (apply Rmult_le_pos; [apply Rmult_le_pos; lra|lra]).
    assert (M1 := Rmult_le_compat_l _ _ _ WD B3). assert (M2 := Rmult_le_compat_l _ _ _ BD B4).
    replace (sg i * (h * fy i s - w * (de * (Y i s - Z i s)) - (h * fx i s - w * (de * (X i s - W i s)))) + rr i * (b * (be * (de * (Y i s - Z i s)) - be * (de * (X i s - W i s)))))
      with (h * (sg i * (fy i s - fx i s)) - w * de * (sg i * (Y i s - X i s)) + w * de * (sg i * (Z i s - W i s)) + b * be * de * (rr i * (Y i s - X i s)) - b * be * de * (rr i * (Z i s - W i s))) by ring.
    rewrite B1, B2. lra.
  - rewrite BB. assert (L := Rmult_le_compat_l h _ _ ltac:(lra) FI). assert (P1 := Rmult_le_compat_r _ _ _ DYP A1). assert (P2 := Rmult_le_compat_r _ _ _ DZP A2).
    assert (h * (k * DY) = 2 * (h * k / 2 * DY)) by field. replace (A * (DY + b * DZ)) with (A * DY + A * b * DZ) by ring. lra.
Qed.
End TwoWaters.
