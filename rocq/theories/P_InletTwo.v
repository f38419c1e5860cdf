(** A bead with a surface and a core in a liquid given from outside: what it keeps. *)
From Coq Require Import Reals List Arith Bool Lra Lia.
From Verif Require Import Lib_Sum Lib_Traj Lib_Exist Props_Negative P_Coop P_EntropyDv.
Open Scope R_scope.

Lemma ratio_ok CT a d : 0 <= CT -> 0 < d -> 0 <= d ^ 2 + 4 * a * CT -> 0 <= ratio CT a d <= 2 * CT / d /\ a * ratio CT a d ^ 2 + d * ratio CT a d = CT.
Proof.
  intros C D E. unfold ratio. set (s := sqrt (d ^ 2 + 4 * a * CT)). assert (S0 : 0 <= s) by apply sqrt_pos. assert (S2 : s * s = d ^ 2 + 4 * a * CT) by (apply sqrt_sqrt; exact E).
  assert (I1 : 0 < / (d + s)) by (apply Rinv_0_lt_compat; lra). split; [split|].
  - apply Rmult_le_pos; lra.
  - unfold Rdiv. apply Rmult_le_compat_l; [lra|]. apply Rinv_le_contravar; lra.
  - apply (Rmult_eq_reg_r ((d + s) ^ 2)); [|apply pow_nonzero; lra].
    replace ((a * (2 * CT / (d + s)) ^ 2 + d * (2 * CT / (d + s))) * (d + s) ^ 2) with (CT * (4 * a * CT + 2 * d ^ 2 + 2 * d * s)) by (field; lra).
    replace (4 * a * CT) with (s * s - d ^ 2) by lra. ring.
Qed.
Lemma opens_at (f : R -> R) t c : continuity_pt f t -> c < f t -> exists d, 0 < d /\ forall s, t < s < t + d -> c < f s.
Proof.
  intros C M. destruct (C (f t - c) ltac:(lra)) as (d2 & D2 & P2). exists d2. split; [exact D2|]. intros s S.
  assert (Q : R_dist (f s) (f t) < f t - c). { apply P2. split; [split; [exact I|lra]|]. cbn. unfold R_dist. rewrite Rabs_right; lra. }
  unfold R_dist in Q. apply Rabs_def2 in Q. lra.
Qed.

Section Bead.
Variables (n : nat) (z : nat -> nat) (K : nat -> R) (Q M h w be al de Tf : R).
Variables (Y Z Y' Z' : nat -> R -> R) (C : R -> nat -> R).
Hypothesis HK : forall i, (i < n)%nat -> 0 < K i.
Hypothesis Hz : forall i, (i < n)%nat -> z i = 1%nat \/ z i = 2%nat.
Hypothesis Z0 : z 0%nat = 1%nat.
Hypothesis HN : (0 < n)%nat.
Hypothesis HQ : 0 < Q.
Hypothesis HM : 0 <= M.
Hypothesis Hh : 0 <= h.
Hypothesis Hw : 0 <= w.
Hypothesis Hbe : 0 <= be.
Hypothesis Hal : 0 <= al.
Hypothesis Hde : 0 <= de.
Let CT (t : R) : R := rsum n (C t).
Hypothesis HC : forall t i, 0 < t < Tf -> (i < n)%nat -> 0 <= C t i.
Hypothesis HCT : forall t, 0 < t < Tf -> CT t <= M.
Definition rowx (X : nat -> R -> R) (t : R) (i : nat) : R := X i t.
Definition rat (c : R) (q : nat -> R) : R := ratio c (ea n z K q) (ed n z K q).
Definition shr (c : R) (q : nat -> R) (i : nat) : R := rat c q ^ z i / K i.
Definition spd (c : R) (q : nat -> R) (i : nat) : R := al * shr c q i + de.
(** the equilibrium has one meaning *)
Definition sound (c : R) (q : nat -> R) : Prop := 0 < q 0%nat /\ 0 < ed n z K q /\ 0 <= ed n z K q ^ 2 + 4 * ea n z K q * c.
Hypothesis EY : forall i, (i < n)%nat -> evolves 0 Tf (Y i) (Y' i).
Hypothesis EZ : forall i, (i < n)%nat -> evolves 0 Tf (Z i) (Z' i).
Hypothesis RT : forall t i, 0 < t < Tf -> (i < n)%nat -> sound (CT t) (rowx Y t) -> sound (CT t) (rowx Z t) ->
  let g := spd (CT t) (rowx Y t) i * Y i t - spd (CT t) (rowx Z t) i * Z i t in
  Y' i t = h * (C t i - shr (CT t) (rowx Y t) i * Y i t) - w * g /\ Z' i t = be * g.
Hypothesis SY : forall t, 0 <= t <= Tf -> rsum n (rowx Y t) = Q.
Hypothesis SZ : forall t, 0 <= t <= Tf -> rsum n (rowx Z t) = Q.
Hypothesis PY : forall i, (i < n)%nat -> 0 <= Y i 0.
Hypothesis PZ : forall i, (i < n)%nat -> 0 <= Z i 0.
Hypothesis QY : 0 < Y 0%nat 0.
Hypothesis QZ : 0 < Z 0%nat 0.
Hypothesis TF : 0 <= Tf.

Lemma CT_nonneg t : 0 < t < Tf -> 0 <= CT t.
Proof. intros T. apply rsum_nonneg. intros i I. apply HC; assumption. Qed.
Lemma shr_below c q i B : (i < n)%nat -> 0 <= rat c q <= B -> 1 <= B -> 0 <= shr c q i <= B ^ 2 / K i.
Proof.
  intros I (P & L) O. assert (KI := Rinv_0_lt_compat _ (HK i I)).
  assert (X : 0 <= rat c q ^ z i <= B ^ 2).
  { split; [apply pow_le, P|]. assert (B * 1 <= B * B) by (apply Rmult_le_compat_l; lra). destruct (Hz i I) as [-> | ->]; [rewrite pow_1; lra|apply pow_incr; lra]. }
  unfold shr, Rdiv. split; [apply Rmult_le_pos; lra|apply Rmult_le_compat_r; lra].
Qed.
Lemma ed_pre q : (forall i, (i < n)%nat -> 0 <= q i) -> 0 < q 0%nat -> 0 < ed n z K q.
Proof.
  intros P P0. unfold ed. apply (rsum_pos_one n _ 0%nat HN).
  - intros i I. destruct (Nat.eqb (z i) 2); [lra|]. apply Rmult_le_pos; [apply P, I|left; apply Rinv_0_lt_compat, HK, I].
  - rewrite Z0. cbn [Nat.eqb]. apply Rdiv_lt_0_compat; [exact P0|apply HK, HN].
Qed.
Lemma kept_sound c q : 0 <= c -> (forall i, (i < n)%nat -> 0 <= q i) -> 0 < q 0%nat -> sound c q.
Proof.
  intros P PQ P0. assert (A := ea_nonneg n z K HK q PQ). split; [exact P0|]. split; [apply ed_pre; assumption|].
  assert (0 <= ea n z K q * c) by (apply Rmult_le_pos; assumption). assert (0 <= ed n z K q ^ 2) by apply pow2_ge_0. lra.
Qed.
Let m : R := Q / rsum n K.
Let p1 : R := Rmax 1 (M / m).
Lemma m_pos : 0 < m.
Proof. apply Rdiv_lt_0_compat; [exact HQ|]. apply (rsum_pos_one n _ 0%nat HN); [intros i I; left; apply HK, I|apply HK, HN]. Qed.
Lemma kept_rat c q : 0 <= c <= M -> (forall i, (i < n)%nat -> 0 <= q i) -> 0 < q 0%nat -> rsum n q = Q -> 0 <= rat c q <= p1.
Proof.
  intros (P & L) PQ P0 E. assert (MP := m_pos). destruct (kept_sound c q P PQ P0) as (_ & D & DI). destruct (ratio_ok c _ _ P D DI) as ((R0 & _) & ER). fold (rat c q) in R0, ER. split; [exact R0|].
  assert (A := ea_nonneg n z K HK q PQ). assert (X := eden_low n K Q HK q PQ E). fold m in X. rewrite <- (ea_ed n z) in X.
  destruct (Rle_lt_dec (rat c q) 1) as [L1|L1]; [apply Rle_trans with 1; [exact L1|apply Rmax_l]|]. apply Rle_trans with (M / m); [|apply Rmax_r].
  apply (Rmult_le_reg_r m); [exact MP|]. replace (M / m * m) with M by (field; lra). apply Rle_trans with c; [|exact L]. rewrite <- ER at 2.
  assert (ea n z K q * rat c q <= ea n z K q * rat c q ^ 2) by (apply Rmult_le_compat_l; [exact A|]; assert (rat c q * 1 <= rat c q * rat c q) by (apply Rmult_le_compat_l; lra); lra).
  assert (rat c q * m <= rat c q * (ea n z K q + ed n z K q)) by (apply Rmult_le_compat_l; lra). lra.
Qed.
Definition kept (t : R) : Prop := (forall i, (i < n)%nat -> 0 <= Y i t /\ 0 <= Z i t) /\ 0 < Y 0%nat t /\ 0 < Z 0%nat t.

Lemma closes t : 0 <= t <= Tf -> (forall s, 0 <= s < t -> kept s) -> kept t.
Proof.
  intros T IH. assert (P1 : 1 <= p1) by apply Rmax_l.
  assert (LOW : forall i, (i < n)%nat -> exists L, Y i 0 * exp (- L * (t - 0)) <= Y i t /\ Z i 0 * exp (- L * (t - 0)) <= Z i t).
  { intros i I. set (B := p1 ^ 2 / K i). set (G := al * B + de).
    assert (BP : 0 <= B) by (apply Rmult_le_pos; [apply pow2_ge_0|left; apply Rinv_0_lt_compat, HK, I]). assert (GP : 0 <= G) by (assert (0 <= al * B) by (apply Rmult_le_pos; assumption); unfold G; lra).
    exists (h * B + w * G + be * G).
    assert (H : forall s, 0 < s < t -> - (h * B + w * G + be * G) * Y i s <= Y' i s /\ - (h * B + w * G + be * G) * Z i s <= Z' i s).
    { intros s S. destruct (IH s ltac:(lra)) as (NN & NY & NZ). assert (CP := CT_nonneg s ltac:(lra)). assert (CM := HCT s ltac:(lra)). destruct (NN i I) as (YI & ZI).
      destruct (RT s i ltac:(lra) I (kept_sound _ (rowx Y s) CP (fun j J => proj1 (NN j J)) NY) (kept_sound _ (rowx Z s) CP (fun j J => proj2 (NN j J)) NZ)) as (E1 & E2). rewrite E1, E2.
      assert (B1 := shr_below _ (rowx Y s) i p1 I (kept_rat (CT s) (rowx Y s) (conj CP CM) (fun j J => proj1 (NN j J)) NY (SY s ltac:(lra))) P1). fold B in B1.
      assert (B2 := shr_below _ (rowx Z s) i p1 I (kept_rat (CT s) (rowx Z s) (conj CP CM) (fun j J => proj2 (NN j J)) NZ (SZ s ltac:(lra))) P1). fold B in B2.
      unfold spd. revert B1 B2. generalize (shr (CT s) (rowx Y s) i) (shr (CT s) (rowx Z s) i). intros a1 a2 B1 B2.
      assert (C0 := HC s i ltac:(lra) I).
      assert (G1 : 0 <= al * a1 + de <= G) by (unfold G; assert (0 <= al * a1) by (apply Rmult_le_pos; lra); assert (al * a1 <= al * B) by (apply Rmult_le_compat_l; lra); lra).
      assert (G2 : 0 <= al * a2 + de <= G) by (unfold G; assert (0 <= al * a2) by (apply Rmult_le_pos; lra); assert (al * a2 <= al * B) by (apply Rmult_le_compat_l; lra); lra).
      revert G1 G2. generalize (al * a1 + de) (al * a2 + de). intros g1 g2 G1 G2.
      assert (0 <= h * C s i) by (apply Rmult_le_pos; lra). assert (0 <= h * ((B - a1) * Y i s)) by (apply Rmult_le_pos; [lra|apply Rmult_le_pos; lra]).
      assert (0 <= w * ((G - g1) * Y i s)) by (apply Rmult_le_pos; [lra|apply Rmult_le_pos; lra]). assert (0 <= w * (g2 * Z i s)) by (apply Rmult_le_pos; [lra|apply Rmult_le_pos; lra]).
      assert (0 <= be * (g1 * Y i s)) by (apply Rmult_le_pos; [lra|apply Rmult_le_pos; lra]). assert (0 <= be * ((G - g2) * Z i s)) by (apply Rmult_le_pos; [lra|apply Rmult_le_pos; lra]).
      assert (0 <= be * G * Y i s) by (apply Rmult_le_pos; [apply Rmult_le_pos; lra|lra]). assert (0 <= h * B * Z i s) by (apply Rmult_le_pos; [apply Rmult_le_pos; lra|lra]). assert (0 <= w * G * Z i s) by (apply Rmult_le_pos; [apply Rmult_le_pos; lra|lra]).
      split; lra. }
    split; [apply (stays_positive 0 t (Y i) (Y' i))|apply (stays_positive 0 t (Z i) (Z' i))]; try lra; try (apply (evolves_sub 0 Tf); [lra|apply EY || apply EZ; exact I]); intros s S; apply (H s S). }
  split; [|split].
  - intros i I. destruct (LOW i I) as (L & A1 & A2). assert (X := exp_pos (- L * (t - 0))). assert (0 <= Y i 0 * exp (- L * (t - 0))) by (apply Rmult_le_pos; [apply PY, I|lra]). assert (0 <= Z i 0 * exp (- L * (t - 0))) by (apply Rmult_le_pos; [apply PZ, I|lra]). lra.
  - destruct (LOW 0%nat HN) as (L & A1 & _). assert (0 < Y 0%nat 0 * exp (- L * (t - 0))) by (apply Rmult_lt_0_compat; [exact QY|apply exp_pos]). lra.
  - destruct (LOW 0%nat HN) as (L & _ & A1). assert (0 < Z 0%nat 0 * exp (- L * (t - 0))) by (apply Rmult_lt_0_compat; [exact QZ|apply exp_pos]). lra.
Qed.

Definition near (e : R) (q : nat -> R) : Prop := e < q 0%nat /\ e < ed n z K q /\ - (3 / 16 * e ^ 2 / (M + 1)) < ea n z K q.
Lemma near_ok e q c : 0 < e -> 0 <= c <= M -> near e q -> sound c q /\ 0 <= rat c q <= Rmax 1 (2 * M / e).
Proof.
  intros E (C0 & C1) (N0 & N1 & N2). assert (SO : sound c q).
  { split; [lra|]. split; [lra|]. set (x := 3 / 16 * e ^ 2 / (M + 1)) in *. assert (XP : 0 < x) by (apply Rdiv_lt_0_compat; [apply Rmult_lt_0_compat; [lra|apply pow_lt, E]|lra]).
    assert (XM : x * (M + 1) = 3 / 16 * e ^ 2) by (unfold x; field; lra). assert (A1 : - x * c <= ea n z K q * c) by (apply Rmult_le_compat_r; lra). assert (A2 : x * c <= x * (M + 1)) by (apply Rmult_le_compat_l; lra).
    assert (A3 : e * e <= ed n z K q * ed n z K q) by (apply Rmult_le_compat; lra). assert (0 <= e * e) by (apply Rmult_le_pos; lra). lra. }
  split; [exact SO|]. destruct SO as (_ & D & DI). destruct (ratio_ok c _ _ C0 D DI) as ((R0 & R1) & _). fold (rat c q) in R0, R1. split; [exact R0|]. eapply Rle_trans; [exact R1|]. eapply Rle_trans; [|apply Rmax_r].
  unfold Rdiv. apply Rmult_le_compat; [lra|left; apply Rinv_0_lt_compat; lra|lra|]. apply Rinv_le_contravar; lra.
Qed.
Lemma near_opens (X X' : nat -> R -> R) t : (forall i, (i < n)%nat -> evolves 0 Tf (X i) (X' i)) -> 0 <= t < Tf -> (forall i, (i < n)%nat -> 0 <= X i t) -> 0 < X 0%nat t ->
  exists e d, 0 < e /\ 0 < d /\ forall s, t < s < t + d -> near e (rowx X s).
Proof.
  intros EX T P P0. assert (D := ed_pre (rowx X t) P P0). assert (A := ea_nonneg n z K HK (rowx X t) P).
  set (e := Rmin (X 0%nat t) (ed n z K (rowx X t)) / 2). assert (M1 := Rmin_l (X 0%nat t) (ed n z K (rowx X t))). assert (M2 := Rmin_r (X 0%nat t) (ed n z K (rowx X t))).
  assert (E : 0 < e) by (unfold e; apply Rdiv_lt_0_compat; [apply Rmin_glb_lt; assumption|lra]).
  assert (XC : forall i, (i < n)%nat -> continuity_pt (X i) t) by (intros i I; apply (EX i I); lra).
  assert (CJ : forall j, (j < n)%nat -> continuity_pt (fun s => rowx X s j / K j) t) by (intros j J; apply c_div; [apply XC, J|apply c_const|assert (XX := HK j J); lra]).
  destruct (opens_at (X 0%nat) t e (XC 0%nat HN)) as (d1 & D1 & O1); [unfold e in *; lra|].
  destruct (opens_at (fun s => ed n z K (rowx X s)) t e) as (d2 & D2 & O2); [unfold ed; apply c_rsum; intros j J; destruct (Nat.eqb (z j) 2); [apply c_const|apply CJ, J]|unfold e in *; lra|].
  assert (XP : 0 < 3 / 16 * e ^ 2 / (M + 1)) by (apply Rdiv_lt_0_compat; [apply Rmult_lt_0_compat; [lra|apply pow_lt, E]|lra]).
  destruct (opens_at (fun s => ea n z K (rowx X s)) t (- (3 / 16 * e ^ 2 / (M + 1)))) as (d3 & D3 & O3); [unfold ea; apply c_rsum; intros j J; destruct (Nat.eqb (z j) 2); [apply CJ, J|apply c_const]|lra|].
  exists e, (Rmin d1 (Rmin d2 d3)). split; [exact E|]. split; [repeat apply Rmin_glb_lt; assumption|]. assert (L1 := Rmin_l d1 (Rmin d2 d3)). assert (L2 := Rmin_r d1 (Rmin d2 d3)). assert (L3 := Rmin_l d2 d3). assert (L4 := Rmin_r d2 d3).
  intros s S. split; [apply O1; lra|]. split; [apply O2; lra|apply O3; lra].
Qed.
Lemma moves t : 0 <= t < Tf -> kept t -> exists d, 0 < d /\ forall s, t < s < t + d -> s <= Tf -> kept s.
Proof.
  intros T (NN & NY & NZ). destruct (near_opens Y Y' t EY T (fun i I => proj1 (NN i I)) NY) as (e1 & d1 & E1 & D1 & O1). destruct (near_opens Z Z' t EZ T (fun i I => proj2 (NN i I)) NZ) as (e2 & d2 & E2 & D2 & O2).
  exists (Rmin d1 d2). split; [apply Rmin_glb_lt; assumption|]. assert (L1 := Rmin_l d1 d2). assert (L2 := Rmin_r d1 d2). intros s S SF.
  split; [|destruct (O1 s ltac:(lra)) as (A1 & _); destruct (O2 s ltac:(lra)) as (A2 & _); unfold rowx in A1, A2; lra].
  intros i I. set (B1 := Rmax 1 (2 * M / e1) ^ 2 / K i). set (B2 := Rmax 1 (2 * M / e2) ^ 2 / K i). set (G1 := al * B1 + de). set (G2 := al * B2 + de).
  assert (KI := Rinv_0_lt_compat _ (HK i I)).
  assert (G1P : 0 <= G1) by (assert (0 <= al * B1) by (apply Rmult_le_pos; [lra|apply Rmult_le_pos; [apply pow2_ge_0|lra]]); unfold G1; lra).
  assert (G2P : 0 <= G2) by (assert (0 <= al * B2) by (apply Rmult_le_pos; [lra|apply Rmult_le_pos; [apply pow2_ge_0|lra]]); unfold G2; lra).
  set (f1 := fun x => spd (CT x) (rowx Y x) i). set (f2 := fun x => spd (CT x) (rowx Z x) i). set (a1 := fun x => shr (CT x) (rowx Y x) i).
  assert (BND : forall x, t < x < s -> 0 <= a1 x /\ 0 <= f1 x <= G1 /\ 0 <= f2 x <= G2 /\ Y' i x = h * (C x i - a1 x * Y i x) - w * (f1 x * Y i x - f2 x * Z i x) /\ Z' i x = be * (f1 x * Y i x - f2 x * Z i x)).
  { intros x X. assert (CP := CT_nonneg x ltac:(lra)). assert (CM := HCT x ltac:(lra)).
    destruct (near_ok e1 (rowx Y x) (CT x) E1 (conj CP CM) (O1 x ltac:(lra))) as (S1 & R1). destruct (near_ok e2 (rowx Z x) (CT x) E2 (conj CP CM) (O2 x ltac:(lra))) as (S2 & R2).
    assert (A1 := shr_below (CT x) (rowx Y x) i _ I R1 (Rmax_l _ _)). assert (A2 := shr_below (CT x) (rowx Z x) i _ I R2 (Rmax_l _ _)). fold B1 in A1. fold B2 in A2.
    split; [apply A1|]. split; [|split; [|apply (RT x i ltac:(lra) I S1 S2)]].
    - unfold f1, spd, G1. assert (0 <= al * shr (CT x) (rowx Y x) i) by (apply Rmult_le_pos; lra). assert (al * shr (CT x) (rowx Y x) i <= al * B1) by (apply Rmult_le_compat_l; lra). lra.
    - unfold f2, spd, G2. assert (0 <= al * shr (CT x) (rowx Z x) i) by (apply Rmult_le_pos; lra). assert (al * shr (CT x) (rowx Z x) i <= al * B2) by (apply Rmult_le_compat_l; lra). lra. }
  set (A := fun x (k j : nat) => match k, j with 0%nat, 0%nat => - (h * a1 x + w * f1 x) | 0%nat, _ => w * f2 x | _, 0%nat => be * f1 x | _, _ => - (be * f2 x) end).
  set (V := fun k : nat => match k with 0%nat => Y i | _ => Z i end).
  assert (W2 : 0 <= w * G2) by (apply Rmult_le_pos; assumption). assert (W1 : 0 <= be * G1) by (apply Rmult_le_pos; assumption).
  assert (NV : forall k, (k < 2)%nat -> 0 <= V k s).
  { intros k K2. apply (cooperative t s (w * G2 + be * G1) 2 V (fun k x => match k with 0%nat => h * C x i | _ => 0 end) A); try exact K2; try lra.
    - intros j J. assert (RS : forall f f', evolves 0 Tf f f' -> evolves t s f f') by (intros f f' (F1 & F2); split; intros x X; [apply F1|apply F2]; lra).
      destruct j as [|[|j]]; [| |lia]; cbn [V rsum A].
      + eapply evolves_ext; [reflexivity| |apply RS, (EY i I)]. intros x X. cbv beta. destruct (BND x X) as (_ & _ & _ & EQ & _). rewrite EQ. ring.
      + eapply evolves_ext; [reflexivity| |apply RS, (EZ i I)]. intros x X. cbv beta. destruct (BND x X) as (_ & _ & _ & _ & EQ). rewrite EQ. ring.
    - intros x j X J. destruct j; [apply Rmult_le_pos; [exact Hh|apply HC; [lra|exact I]]|lra].
    - intros x k' j X KK JJ NE. destruct (BND x X) as (A0 & A1 & A2 & _). assert (0 <= w * f2 x) by (apply Rmult_le_pos; lra). assert (0 <= be * f1 x) by (apply Rmult_le_pos; lra). unfold A. destruct k' as [|[|k']], j as [|[|j]]; try lia; lra.
    - intros x k' j X _ _. destruct (BND x X) as (A0 & A1 & A2 & _). assert (w * f2 x <= w * G2) by (apply Rmult_le_compat_l; lra). assert (be * f1 x <= be * G1) by (apply Rmult_le_compat_l; lra).
      assert (0 <= w * f1 x) by (apply Rmult_le_pos; lra). assert (0 <= be * f2 x) by (apply Rmult_le_pos; lra). assert (0 <= h * a1 x) by (apply Rmult_le_pos; lra). unfold A. destruct k', j; lra.
    - intros j J. destruct j; cbn [V]; apply NN, I. }
  split; [apply (NV 0%nat)|apply (NV 1%nat)]; lia.
Qed.
Lemma bead_keeps t : 0 <= t <= Tf -> kept t.
Proof. apply (real_induction 0 Tf kept TF); [exact closes|]. intros s S IH. apply moves; [exact S|]. apply IH. lra. Qed.
End Bead.
