(** Exchange of monovalent and divalent ions between a liquid, a bead surface and a core loses free energy until it is
    in equilibrium. *)
From Coq Require Import Reals Arith Lra Lia.
From Verif Require Import Lib_Sum Lib_Traj Lib_Settle P_Entropy.
Open Scope R_scope.

(** ** The ratio of liquid to loading that has a given total *)
Definition ratio (CT a d : R) : R := 2 * CT / (d + sqrt (d ^ 2 + 4 * a * CT)).
Lemma ratio_root CT a d : 0 < CT -> 0 <= a -> 0 <= d -> 0 < a + d -> 0 < ratio CT a d /\ a * ratio CT a d ^ 2 + d * ratio CT a d = CT.
Proof.
  intros C A D P. unfold ratio. assert (AC : 0 <= a * CT) by (apply Rmult_le_pos; lra). assert (DD : 0 <= d ^ 2) by apply pow2_ge_0.
  assert (X : 0 <= d ^ 2 + 4 * a * CT) by lra. set (s := sqrt (d ^ 2 + 4 * a * CT)). assert (S0 : 0 <= s) by apply sqrt_pos.
  assert (SS : s ^ 2 = d ^ 2 + 4 * a * CT) by (unfold s; rewrite <- Rsqr_pow2; apply Rsqr_sqrt, X).
  assert (DS : 0 < d + s).
  { destruct (Rle_lt_or_eq_dec _ _ D) as [L|<-]; [lra|]. destruct (Rle_lt_or_eq_dec _ _ S0) as [L|E]; [lra|]. exfalso. rewrite <- E in SS. assert (0 < a * CT) by (apply Rmult_lt_0_compat; lra). lra. }
  split; [apply Rdiv_lt_0_compat; lra|]. replace (a * (2 * CT / (d + s)) ^ 2 + d * (2 * CT / (d + s))) with (CT * (4 * a * CT + 2 * d * (d + s)) / (d + s) ^ 2) by (field; lra).
  replace (4 * a * CT) with (s ^ 2 - d ^ 2) by lra. field. lra.
Qed.

Section Exchange.
Variables (n : nat) (z : nat -> nat) (K : nat -> R) (CT Q VL ka ws w1 al de : R).
Hypothesis HK : forall i, (i < n)%nat -> 0 < K i.
Hypothesis Hz : forall i, (i < n)%nat -> z i = 1%nat \/ z i = 2%nat.
Hypothesis HN : (0 < n)%nat.
Hypothesis HCT : 0 < CT.
Hypothesis HQ : 0 < Q.
Hypothesis HVL : 0 < VL.
Hypothesis Hka : 0 < ka.
Hypothesis Hws : 0 < ws.
Hypothesis Hw1 : 0 <= w1.
Hypothesis Hal : 0 <= al.
Hypothesis Hde : 0 < de.
(** the liquid in equilibrium with a loading *)
Definition eden (q : nat -> R) : R := rsum n (fun j => q j / K j).
Definition ea (q : nat -> R) : R := rsum n (fun j => if Nat.eqb (z j) 2 then q j / K j else 0).
Definition ed (q : nat -> R) : R := rsum n (fun j => if Nat.eqb (z j) 2 then 0 else q j / K j).
Definition ep (q : nat -> R) : R := ratio CT (ea q) (ed q).
Definition eliq (q : nat -> R) (i : nat) : R := q i / K i * ep q ^ z i.
Lemma ea_ed q : ea q + ed q = eden q.
Proof. unfold ea, ed, eden. rewrite <- rsum_plus. apply rsum_ext. intros i _. destruct (Nat.eqb (z i) 2); ring. Qed.

Lemma one_le f i : (i < n)%nat -> (forall j, (j < n)%nat -> 0 <= f j) -> f i <= rsum n f.
Proof.
  intros I P. rewrite (rsum_split_at n f i I). assert (0 <= rsum n (fun k => if Nat.eq_dec k i then 0 else f k)); [|lra].
  apply rsum_nonneg. intros k Hk. destruct (Nat.eq_dec k i); [lra|apply P, Hk].
Qed.
Let SK : R := rsum n K.
Lemma SK_ge i : (i < n)%nat -> K i <= SK.
Proof. intros I. apply one_le; [exact I|]. intros j J. left. apply HK, J. Qed.
Lemma SK_pos : 0 < SK.
Proof. assert (X := SK_ge 0%nat HN). assert (Y := HK 0%nat HN). lra. Qed.
Let x0 : R := Q / SK.
Let x1 : R := Q * rsum n (fun j => / K j).
Lemma x0_pos : 0 < x0. Proof. apply Rdiv_lt_0_compat; [exact HQ|exact SK_pos]. Qed.
Section Loading.
Variable q : nat -> R.
Hypothesis q0 : forall i, (i < n)%nat -> 0 <= q i.
Hypothesis qs : rsum n q = Q.
Lemma eden_low : x0 <= eden q.
Proof.
  unfold x0, eden. rewrite <- qs. unfold Rdiv. rewrite <- rsum_scal_r. apply rsum_le. intros i I. apply Rmult_le_compat_l; [apply q0, I|].
  apply Rinv_le_contravar; [apply HK, I|apply SK_ge, I].
Qed.
Lemma eden_high : eden q <= x1.
Proof.
  unfold x1, eden. rewrite <- rsum_scal. apply rsum_le. intros i I. unfold Rdiv. apply Rmult_le_compat_r; [left; apply Rinv_0_lt_compat, HK, I|].
  rewrite <- qs. apply one_le; [exact I|exact q0].
Qed.
Lemma eden_pos : 0 < eden q. Proof. assert (X := eden_low). assert (Y := x0_pos). lra. Qed.
Lemma ea_nonneg : 0 <= ea q.
Proof. apply rsum_nonneg. intros i I. destruct (Nat.eqb (z i) 2); [|lra]. apply Rmult_le_pos; [apply q0, I|left; apply Rinv_0_lt_compat, HK, I]. Qed.
Lemma ed_nonneg : 0 <= ed q.
Proof. apply rsum_nonneg. intros i I. destruct (Nat.eqb (z i) 2); [lra|]. apply Rmult_le_pos; [apply q0, I|left; apply Rinv_0_lt_compat, HK, I]. Qed.
Lemma ep_root : 0 < ep q /\ ea q * ep q ^ 2 + ed q * ep q = CT.
Proof. apply ratio_root; [exact HCT|apply ea_nonneg|apply ed_nonneg|rewrite ea_ed; apply eden_pos]. Qed.
Lemma eliq_sum : rsum n (eliq q) = CT.
Proof.
  destruct ep_root as (_ & E). rewrite <- E. unfold ea, ed, eliq. rewrite <- !rsum_scal_r, <- rsum_plus. apply rsum_ext. intros i I. destruct (Hz i I) as [-> | ->]; cbn [Nat.eqb]; ring.
Qed.
Lemma eliq_nonneg i : (i < n)%nat -> 0 <= eliq q i.
Proof.
  intros I. destruct ep_root as (P & _). unfold eliq. apply Rmult_le_pos; [|apply pow_le; lra]. apply Rmult_le_pos; [apply q0, I|left; apply Rinv_0_lt_compat, HK, I].
Qed.
Lemma eliq_le i : (i < n)%nat -> eliq q i <= CT.
Proof. intros I. rewrite <- eliq_sum. apply one_le; [exact I|exact eliq_nonneg]. Qed.
Lemma eliq_pos i : (i < n)%nat -> 0 < q i -> 0 < eliq q i.
Proof.
  intros I P. destruct ep_root as (PP & _). unfold eliq. apply Rmult_lt_0_compat; [|apply pow_lt, PP]. apply Rdiv_lt_0_compat; [exact P|apply HK, I].
Qed.
Lemma ln_load i : (i < n)%nat -> 0 < q i -> ln (q i / K i) = ln (eliq q i) - INR (z i) * ln (ep q).
Proof.
  intros I P. destruct ep_root as (PP & _). unfold eliq. assert (QK : 0 < q i / K i) by (apply Rdiv_lt_0_compat; [exact P|apply HK, I]).
  rewrite ln_mult by (assumption || apply pow_lt, PP). destruct (Hz i I) as [-> | ->]; [rewrite pow_1; cbn [INR]; ring|]. replace (ep q ^ 2) with (ep q * ep q) by ring. rewrite ln_mult by assumption. cbn [INR]. ring.
Qed.
(** bounds of the ratio *)
Let p1 : R := Rmax 1 (CT / x0).
Let p0 : R := Rmin 1 (CT / x1).
Lemma p1_one : 1 <= p1. Proof. apply Rmax_l. Qed.
Lemma x1_pos : 0 < x1. Proof. assert (X := eden_low). assert (Y := x0_pos). assert (Z := eden_high). lra. Qed.
Lemma p0_pos : 0 < p0 <= 1. Proof. split; [|apply Rmin_l]. apply Rmin_glb_lt; [lra|]. apply Rdiv_lt_0_compat; [exact HCT|exact x1_pos]. Qed.
Lemma ep_high : ep q <= p1.
Proof.
  destruct ep_root as (P & E). destruct (Rle_lt_dec (ep q) 1) as [L|L]; [assert (X := p1_one); lra|]. apply Rle_trans with (CT / x0); [|apply Rmax_r].
  assert (X := x0_pos). assert (D := eden_low). rewrite <- ea_ed in D. assert (A := ea_nonneg). assert (B := ed_nonneg).
  apply (Rmult_le_reg_r x0); [exact X|]. replace (CT / x0 * x0) with CT by (field; lra). rewrite <- E.
  assert (ea q * ep q <= ea q * ep q ^ 2) by (apply Rmult_le_compat_l; [exact A|]; assert (ep q * 1 <= ep q * ep q) by (apply Rmult_le_compat_l; lra); lra).
  assert (ep q * x0 <= ep q * (ea q + ed q)) by (apply Rmult_le_compat_l; lra). lra.
Qed.
Lemma ep_low : p0 <= ep q.
Proof.
  destruct ep_root as (P & E). destruct (Rle_lt_dec 1 (ep q)) as [L|L]; [assert (X := p0_pos); lra|]. apply Rle_trans with (CT / x1); [apply Rmin_r|].
  assert (X := x1_pos). assert (D := eden_high). rewrite <- ea_ed in D. assert (A := ea_nonneg). assert (B := ed_nonneg).
  apply (Rmult_le_reg_r x1); [exact X|]. replace (CT / x1 * x1) with CT by (field; lra). rewrite <- E.
  assert (ea q * ep q ^ 2 <= ea q * ep q) by (apply Rmult_le_compat_l; [exact A|]; assert (ep q * ep q <= ep q * 1) by (apply Rmult_le_compat_l; lra); lra).
  assert (ep q * (ea q + ed q) <= ep q * x1) by (apply Rmult_le_compat_l; lra). lra.
Qed.
Lemma pow_high i : (i < n)%nat -> ep q ^ z i <= p1 ^ 2.
Proof.
  intros I. assert (H := ep_high). assert (O := p1_one). destruct ep_root as (P & _). assert (p1 * 1 <= p1 * p1) by (apply Rmult_le_compat_l; lra).
  destruct (Hz i I) as [-> | ->]; [rewrite pow_1; lra|]. apply pow_incr. lra.
Qed.
Lemma share_le i : (i < n)%nat -> q i / K i <= eden q.
Proof. intros I. unfold eden. apply (one_le (fun j => q j / K j)); [exact I|]. intros j J. apply Rmult_le_pos; [apply q0, J|left; apply Rinv_0_lt_compat, HK, J]. Qed.
End Loading.
Definition epsi : R := rsum n (fun j => / K j).
Lemma epsi_ge i : (i < n)%nat -> / K i <= epsi.
Proof. intros I. apply (one_le (fun j => / K j)); [exact I|]. intros j J. left. apply Rinv_0_lt_compat, HK, J. Qed.
Lemma epsi_pos : 0 < epsi.
Proof. assert (X := epsi_ge 0%nat HN). assert (Y := Rinv_0_lt_compat _ (HK 0%nat HN)). lra. Qed.
Lemma eden_lip q r B : (forall i, (i < n)%nat -> Rabs (q i - r i) <= B) -> Rabs (eden q - eden r) <= epsi * B.
Proof.
  intros H. unfold eden. rewrite <- rsum_minus. eapply Rle_trans; [apply rsum_abs|]. unfold epsi. rewrite <- rsum_scal_r. apply rsum_le. intros i I. assert (Y := Rinv_0_lt_compat _ (HK i I)).
  replace (q i / K i - r i / K i) with (/ K i * (q i - r i)) by (unfold Rdiv; ring). rewrite Rabs_mult, (Rabs_right (/ K i)) by lra. apply Rmult_le_compat_l; [lra|apply H, I].
Qed.
Lemma ea_lip q r B : (forall i, (i < n)%nat -> Rabs (q i - r i) <= B) -> Rabs (ea q - ea r) <= epsi * B /\ Rabs (ed q - ed r) <= epsi * B.
Proof.
  intros H. assert (T : forall i, (i < n)%nat -> Rabs (q i / K i - r i / K i) <= / K i * B /\ 0 <= / K i * B).
  { intros i I. assert (Y := Rinv_0_lt_compat _ (HK i I)). assert (N := Rabs_pos (q i - r i)). specialize (H i I). split; [|apply Rmult_le_pos; lra].
    replace (q i / K i - r i / K i) with (/ K i * (q i - r i)) by (unfold Rdiv; ring). rewrite Rabs_mult, (Rabs_right (/ K i)) by lra. apply Rmult_le_compat_l; lra. }
  unfold ea, ed, epsi. rewrite <- !rsum_minus, <- rsum_scal_r. split; (eapply Rle_trans; [apply rsum_abs|]; apply rsum_le; intros i I; destruct (T i I) as (T1 & T2); destruct (Nat.eqb (z i) 2);
    [exact T1 || (rewrite Rminus_0_r, Rabs_R0; exact T2)|exact T1 || (rewrite Rminus_0_r, Rabs_R0; exact T2)]).
Qed.
Let p1 : R := Rmax 1 (CT / x0).
Let p0 : R := Rmin 1 (CT / x1).
Let Lp : R := 2 * epsi * p1 ^ 2 / (p0 * x0).
Lemma p_sizes : 1 <= p1 /\ 0 < p0 <= 1 /\ 0 < x1 /\ 0 < Lp.
Proof.
  assert (X1 : 0 < x1) by (unfold x1; apply Rmult_lt_0_compat; [exact HQ|exact epsi_pos]). assert (P1 : 1 <= p1) by apply Rmax_l.
  assert (P0 : 0 < p0 <= 1) by (split; [apply Rmin_glb_lt; [lra|apply Rdiv_lt_0_compat; assumption]|apply Rmin_l]). split; [exact P1|]. split; [exact P0|]. split; [exact X1|].
  unfold Lp. assert (EP := epsi_pos). assert (0 < p1 ^ 2) by (apply pow_lt; lra). apply Rdiv_lt_0_compat; [apply Rmult_lt_0_compat; lra|apply Rmult_lt_0_compat; [lra|exact x0_pos]].
Qed.
Lemma ep_lip q r B : (forall j, (j < n)%nat -> 0 <= q j) -> rsum n q = Q -> (forall j, (j < n)%nat -> 0 <= r j) -> rsum n r = Q ->
  (forall j, (j < n)%nat -> Rabs (q j - r j) <= B) -> Rabs (ep q - ep r) <= Lp * B.
Proof.
  intros Q0 QS R0 RS H. destruct (ea_lip q r B H) as (LA & LD). destruct (ep_root q Q0 QS) as (PQ & EQ). destruct (ep_root r R0 RS) as (PR & ER).
  assert (HQ1 := ep_low q Q0 QS). assert (HR1 := ep_high r R0 RS). fold p0 in HQ1. fold p1 in HR1. destruct p_sizes as (P1 & P0 & X1 & LP). assert (X0 := x0_pos). assert (EP := epsi_pos).
  assert (A := ea_nonneg q Q0). assert (D := ed_nonneg q Q0). assert (LOW := eden_low q Q0 QS). rewrite <- ea_ed in LOW.
  assert (BP : 0 <= B) by (specialize (H 0%nat HN); assert (N := Rabs_pos (q 0%nat - r 0%nat)); lra).
  set (c := ea q * (ep q + ep r) + ed q). assert (CL : p0 * x0 <= c).
  { unfold c. assert (p0 * x0 <= p0 * (ea q + ed q)) by (apply Rmult_le_compat_l; lra). assert (ea q * p0 <= ea q * (ep q + ep r)) by (apply Rmult_le_compat_l; lra). assert (ed q * p0 <= ed q * 1) by (apply Rmult_le_compat_l; lra). lra. }
  assert (ID : (ep q - ep r) * c = - ((ea q - ea r) * ep r ^ 2 + (ed q - ed r) * ep r)) by (unfold c; replace ((ep q - ep r) * (ea q * (ep q + ep r) + ed q)) with ((ea q * ep q ^ 2 + ed q * ep q) - ea q * ep r ^ 2 - ed q * ep r) by ring; rewrite EQ; replace CT with (ea r * ep r ^ 2 + ed r * ep r) by exact ER; ring).
  assert (P2 : ep r ^ 2 <= p1 ^ 2) by (apply pow_incr; lra). assert (P3 : ep r <= p1 ^ 2) by (assert (p1 * 1 <= p1 * p1) by (apply Rmult_le_compat_l; lra); lra).
  assert (UB : Rabs (ep q - ep r) * c <= 2 * epsi * p1 ^ 2 * B).
  { assert (CP : 0 < p0 * x0) by (apply Rmult_lt_0_compat; lra). rewrite <- (Rabs_right c) at 1 by lra. rewrite <- Rabs_mult, ID, Rabs_Ropp. eapply Rle_trans; [apply Rabs_triang|]. rewrite !Rabs_mult, (Rabs_right (ep r ^ 2)), (Rabs_right (ep r)) by (try apply Rle_ge; try apply pow_le; lra).
    assert (N1 := Rabs_pos (ea q - ea r)). assert (N2 := Rabs_pos (ed q - ed r)).
    assert (Rabs (ea q - ea r) * ep r ^ 2 <= epsi * B * p1 ^ 2) by (apply Rmult_le_compat; try lra; apply pow_le; lra). assert (Rabs (ed q - ed r) * ep r <= epsi * B * p1 ^ 2) by (apply Rmult_le_compat; lra). lra. }
  assert (CP : 0 < p0 * x0) by (apply Rmult_lt_0_compat; lra). apply (Rmult_le_reg_r (p0 * x0)); [exact CP|].
  replace (Lp * B * (p0 * x0)) with (2 * epsi * p1 ^ 2 * B) by (unfold Lp; field; lra). eapply Rle_trans; [|exact UB]. apply Rmult_le_compat_l; [apply Rabs_pos|exact CL].
Qed.
Let Le : R := epsi * p1 ^ 2 + Q * epsi * (2 * p1 * Lp).
Lemma Le_pos : 0 < Le.
Proof. destruct p_sizes as (P1 & P0 & X1 & LP). assert (EP := epsi_pos). unfold Le. assert (0 < epsi * p1 ^ 2) by (apply Rmult_lt_0_compat; [lra|apply pow_lt; lra]). assert (0 <= Q * epsi * (2 * p1 * Lp)) by (apply Rmult_le_pos; [apply Rmult_le_pos; lra|apply Rmult_le_pos; lra]). lra. Qed.
Lemma eliq_lip q r B i : (forall j, (j < n)%nat -> 0 <= q j) -> rsum n q = Q -> (forall j, (j < n)%nat -> 0 <= r j) -> rsum n r = Q ->
  (forall j, (j < n)%nat -> Rabs (q j - r j) <= B) -> (i < n)%nat -> Rabs (eliq q i - eliq r i) <= Le * B.
Proof.
  intros Q0 QS R0 RS H I. assert (PL := ep_lip q r B Q0 QS R0 RS H). destruct p_sizes as (P1 & P0 & X1 & LP). assert (EP := epsi_pos). assert (KI := HK i I). assert (Y := Rinv_0_lt_compat _ KI). assert (EG := epsi_ge i I).
  destruct (ep_root q Q0 QS) as (PQ & _). destruct (ep_root r R0 RS) as (PR & _). assert (HQ1 := ep_high q Q0 QS). assert (HR1 := ep_high r R0 RS). assert (PW := pow_high q Q0 QS i I). fold p1 in HQ1, HR1, PW.
  assert (BP : 0 <= B) by (specialize (H i I); assert (N := Rabs_pos (q i - r i)); lra). assert (RQ : r i <= Q) by (rewrite <- RS; apply one_le; assumption). assert (R0I := R0 i I).
  assert (DP : Rabs (ep q ^ z i - ep r ^ z i) <= 2 * p1 * (Lp * B)).
  { assert (N := Rabs_pos (ep q - ep r)). assert (0 <= Lp * B) by (apply Rmult_le_pos; lra). destruct (Hz i I) as [-> | ->].
    - rewrite !pow_1. assert (1 * (Lp * B) <= 2 * p1 * (Lp * B)) by (apply Rmult_le_compat_r; lra). lra.
    - replace (ep q ^ 2 - ep r ^ 2) with ((ep q + ep r) * (ep q - ep r)) by ring. rewrite Rabs_mult, (Rabs_right (ep q + ep r)) by lra. apply Rmult_le_compat; lra. }
  replace (eliq q i - eliq r i) with ((q i - r i) * / K i * ep q ^ z i + r i * / K i * (ep q ^ z i - ep r ^ z i)) by (unfold eliq, Rdiv; ring).
  eapply Rle_trans; [apply Rabs_triang|]. unfold Le. rewrite Rmult_plus_distr_r. apply Rplus_le_compat.
  - rewrite !Rabs_mult, (Rabs_right (/ K i)), (Rabs_right (ep q ^ z i)) by (try apply Rle_ge; try apply pow_le; lra). specialize (H i I). assert (N := Rabs_pos (q i - r i)).
    replace (epsi * p1 ^ 2 * B) with (B * epsi * p1 ^ 2) by ring. apply Rmult_le_compat; [apply Rmult_le_pos; lra|apply pow_le; lra|apply Rmult_le_compat; lra|exact PW].
  - rewrite !Rabs_mult, (Rabs_right (r i)), (Rabs_right (/ K i)) by lra. replace (Q * epsi * (2 * p1 * Lp) * B) with (Q * epsi * (2 * p1 * (Lp * B))) by ring.
    apply Rmult_le_compat; [apply Rmult_le_pos; lra|apply Rabs_pos|apply Rmult_le_compat; lra|exact DP].
Qed.

Variables (C Y Z C' Y' Z' : nat -> R -> R).
Definition row (X : nat -> R -> R) (t : R) (i : nat) : R := X i t.
Hypothesis EC : forall i b, (i < n)%nat -> evolves 0 b (C i) (C' i).
Hypothesis EY : forall i b, (i < n)%nat -> evolves 0 b (Y i) (Y' i).
Hypothesis EZ : forall i b, (i < n)%nat -> evolves 0 b (Z i) (Z' i).
Let fl (i : nat) (t : R) : R := C i t - eliq (row Y t) i.
Let G (i : nat) (t : R) : R := al * (eliq (row Y t) i - eliq (row Z t) i) + de * (Y i t - Z i t).
Hypothesis RC : forall i t, (i < n)%nat -> 0 < t -> VL * C' i t = - (ka * fl i t).
Hypothesis RY : forall i t, (i < n)%nat -> 0 < t -> ws * Y' i t = ka * fl i t - G i t.
Hypothesis RZ : forall i t, (i < n)%nat -> 0 < t -> w1 * Z' i t = G i t.
Hypothesis SOLE : 0 < w1 \/ forall i t, (i < n)%nat -> Z i t = Y i t.
Hypothesis PC : forall i t, (i < n)%nat -> 0 <= t -> 0 <= C i t.
Hypothesis PY : forall i t, (i < n)%nat -> 0 <= t -> 0 <= Y i t.
Hypothesis PZ : forall i t, (i < n)%nat -> 0 <= t -> 0 <= Z i t.
Hypothesis SC : forall t, 0 <= t -> rsum n (row C t) = CT.
Hypothesis SY : forall t, 0 <= t -> rsum n (row Y t) = Q.
Hypothesis SZ : forall t, 0 <= t -> rsum n (row Z t) = Q.
Variable A : nat -> R.
Hypothesis HA : forall i t, (i < n)%nat -> 0 <= t -> VL * C i t + ws * Y i t + w1 * Z i t = A i.
Lemma eliq_share v i : (i < n)%nat -> (forall j, (j < n)%nat -> 0 <= v j) -> rsum n v = Q -> eliq v i <= p1 ^ 2 / K i * v i.
Proof.
  intros I P E. assert (H := pow_high v P E i I). fold p1 in H. assert (KI := Rinv_0_lt_compat _ (HK i I)). unfold eliq.
  replace (p1 ^ 2 / K i * v i) with (v i / K i * p1 ^ 2) by (unfold Rdiv; ring). apply Rmult_le_compat_l; [apply Rmult_le_pos; [apply P, I|lra]|exact H].
Qed.
(** An ion is nowhere, or after any time everywhere. *)
Lemma THERE : forall i, (i < n)%nat -> (forall t, 0 <= t -> C i t = 0 /\ Y i t = 0 /\ Z i t = 0) \/ (forall t, 0 < t -> 0 < C i t /\ 0 < Y i t /\ 0 < Z i t).
Proof.
  intros i I.
  assert (PT : forall t, 0 <= t -> 0 <= VL * C i t /\ 0 <= ws * Y i t /\ 0 <= w1 * Z i t) by (intros t T; assert (X1 := PC i t I T); assert (X2 := PY i t I T); assert (X3 := PZ i t I T); repeat split; apply Rmult_le_pos; lra).
  assert (AP : 0 <= A i) by (rewrite <- (HA i 0 I (Rle_refl 0)); destruct (PT 0 (Rle_refl 0)) as (? & ? & ?); lra).
  destruct (Rle_lt_or_eq_dec _ _ AP) as [AI|AI].
  2:{ left. intros t T. assert (H := HA i t I T). destruct (PT t T) as (P1 & P2 & P3).
      assert (Y i t = 0) by (apply Rmult_eq_reg_l with ws; lra). split; [apply Rmult_eq_reg_l with VL; lra|]. split; [assumption|]. destruct SOLE as [S1|S1]; [apply Rmult_eq_reg_l with w1; lra|rewrite S1 by exact I; assumption]. }
  right. set (M := p1 ^ 2 / K i). assert (KI : 0 < K i) by (apply HK, I). assert (MP : 0 < M) by (destruct p_sizes as (P1 & _); apply Rdiv_lt_0_compat; [apply pow_lt; lra|exact KI]).
  assert (EYB : forall t, 0 <= t -> eliq (row Y t) i <= M * Y i t) by (intros t T; apply (eliq_share (row Y t) i I); [intros j J; apply PY; assumption|apply SY, T]).
  assert (EZB : forall t, 0 <= t -> eliq (row Z t) i <= M * Z i t) by (intros t T; apply (eliq_share (row Z t) i I); [intros j J; apply PZ; assumption|apply SZ, T]).
  assert (EY0 : forall t, 0 <= t -> 0 <= eliq (row Y t) i) by (intros t T; apply eliq_nonneg; [intros j J; apply PY; assumption|apply SY, T|exact I]).
  assert (EZ0 : forall t, 0 <= t -> 0 <= eliq (row Z t) i) by (intros t T; apply eliq_nonneg; [intros j J; apply PZ; assumption|apply SZ, T|exact I]).
  set (LC := ka / VL). set (LY := ((ka + al) * M + de) / ws).
  assert (DC : forall t, 0 < t -> C' i t = - LC * C i t + ka / VL * eliq (row Y t) i) by (intros t T; assert (H := RC i t I T); unfold fl in H; apply Rmult_eq_reg_l with VL; [|lra]; rewrite H; unfold LC; field; lra).
  assert (DY : forall t, 0 < t -> - LY * Y i t + (ka * C i t + de * Z i t) / ws <= Y' i t).
  { intros t T. assert (T0 : 0 <= t) by lra. assert (H := RY i t I T). unfold fl, G in H. apply Rmult_le_reg_l with ws; [exact Hws|]. rewrite H. 
    replace (ws * (- LY * Y i t + (ka * C i t + de * Z i t) / ws)) with (- ((ka + al) * (M * Y i t)) - de * Y i t + ka * C i t + de * Z i t) by (unfold LY; field; lra).
    assert (0 <= (ka + al) * (M * Y i t - eliq (row Y t) i)) by (apply Rmult_le_pos; [lra|specialize (EYB t T0); lra]). assert (0 <= al * eliq (row Z t) i) by (apply Rmult_le_pos; [exact Hal|apply EZ0, T0]). lra. }
  assert (CS : forall a t, 0 <= a < t -> (forall s, a < s < t -> 0 < Y i s) -> 0 < C i t).
  { intros a t T P. apply (spreads a t (C i) (C' i) LC); [lra|apply (evolves_from 0); [lra|apply EC, I]| |apply PC; [exact I|lra]]. intros s Hs. rewrite DC by lra.
    assert (0 < ka / VL * eliq (row Y s) i); [|lra]. apply Rmult_lt_0_compat; [apply Rdiv_lt_0_compat; assumption|]. apply eliq_pos; [intros j J; apply PY; [exact J|lra]|apply SY; lra|exact I|apply P, Hs]. }
  assert (YS : forall t, 0 < t -> (forall s, 0 < s < t -> 0 < C i s \/ 0 < Z i s) -> 0 < Y i t).
  { intros t T P. apply (spreads 0 t (Y i) (Y' i) LY T (EY i t I)); [|apply PY; [exact I|lra]]. intros s Hs. specialize (DY s ltac:(lra)). 
    assert (X1 := PC i s I ltac:(lra)). assert (X2 := PZ i s I ltac:(lra)). assert (0 <= ka * C i s) by (apply Rmult_le_pos; lra). assert (0 <= de * Z i s) by (apply Rmult_le_pos; lra).
    assert (0 < (ka * C i s + de * Z i s) / ws); [|lra]. apply Rdiv_lt_0_compat; [|exact Hws]. destruct (P s Hs) as [P1|P1]; [assert (0 < ka * C i s) by (apply Rmult_lt_0_compat; lra); lra|assert (0 < de * Z i s) by (apply Rmult_lt_0_compat; lra); lra]. }
  assert (DZ : 0 < w1 -> forall t, 0 < t -> - ((al * M + de) / w1) * Z i t + de / w1 * Y i t <= Z' i t).
  { intros W1 t T. assert (T0 : 0 <= t) by lra. assert (H := RZ i t I T). unfold G in H. apply Rmult_le_reg_l with w1; [exact W1|]. rewrite H.
    replace (w1 * (- ((al * M + de) / w1) * Z i t + de / w1 * Y i t)) with (- (al * (M * Z i t)) - de * Z i t + de * Y i t) by (field; lra).
    assert (0 <= al * (M * Z i t - eliq (row Z t) i)) by (apply Rmult_le_pos; [lra|specialize (EZB t T0); lra]). assert (0 <= al * eliq (row Y t) i) by (apply Rmult_le_pos; [exact Hal|apply EY0, T0]). lra. }
  assert (YP : forall t, 0 < t -> 0 < Y i t).
  { assert (SOME : 0 < C i 0 \/ 0 < Y i 0 \/ (0 < w1 /\ 0 < Z i 0)).
    { assert (X1 := PC i 0 I (Rle_refl 0)). assert (X2 := PY i 0 I (Rle_refl 0)). assert (X3 := PZ i 0 I (Rle_refl 0)). assert (H := HA i 0 I (Rle_refl 0)).
      destruct (Rle_lt_or_eq_dec _ _ X1) as [L|E1]; [left; exact L|]. destruct (Rle_lt_or_eq_dec _ _ X2) as [L|E2]; [right; left; exact L|]. rewrite <- E1, <- E2 in H.
      destruct (Rle_lt_or_eq_dec _ _ X3) as [L|E3]; [|exfalso; rewrite <- E3 in H; lra]. destruct (Rle_lt_or_eq_dec _ _ Hw1) as [L1|E4]; [right; right; split; assumption|]. exfalso. rewrite <- E4 in H. lra. }
    intros t T. destruct SOME as [P|[P|(W1 & P)]].
    - apply YS; [exact T|]. intros s Hs. left. apply (remains 0 s (C i) (C' i) LC (EC i s I)); [|exact P|lra]. intros r R. rewrite DC by lra. assert (0 <= ka / VL * eliq (row Y r) i); [|lra]. apply Rmult_le_pos; [left; apply Rdiv_lt_0_compat; assumption|apply EY0; lra].
    - apply (remains 0 t (Y i) (Y' i) LY (EY i t I)); [|exact P|lra]. intros r R. specialize (DY r ltac:(lra)). assert (X1 := PC i r I ltac:(lra)). assert (X2 := PZ i r I ltac:(lra)).
      assert (0 <= (ka * C i r + de * Z i r) / ws); [|lra]. apply Rmult_le_pos; [|left; apply Rinv_0_lt_compat, Hws]. assert (0 <= ka * C i r) by (apply Rmult_le_pos; lra). assert (0 <= de * Z i r) by (apply Rmult_le_pos; lra). lra.
    - apply YS; [exact T|]. intros s Hs. right. apply (remains 0 s (Z i) (Z' i) ((al * M + de) / w1) (EZ i s I)); [|exact P|lra]. intros r R. specialize (DZ W1 r ltac:(lra)). assert (X2 := PY i r I ltac:(lra)). 
      assert (0 <= de / w1 * Y i r) by (apply Rmult_le_pos; [left; apply Rdiv_lt_0_compat; assumption|exact X2]). eapply Rle_trans; [|exact DZ]. lra. }
  intros t T. split; [apply (CS 0 t ltac:(lra)); intros s Hs; apply YP; lra|]. split; [apply YP, T|].
  destruct SOLE as [W1|S1]; [|rewrite S1 by exact I; apply YP, T].
  apply (spreads 0 t (Z i) (Z' i) ((al * M + de) / w1) T (EZ i t I)); [|apply PZ; [exact I|lra]]. intros s Hs. specialize (DZ W1 s ltac:(lra)). assert (P := YP s ltac:(lra)).
  assert (0 < de / w1 * Y i s) by (apply Rmult_lt_0_compat; [apply Rdiv_lt_0_compat; assumption|exact P]). lra.
Qed.

Lemma C_le i t : (i < n)%nat -> 0 <= t -> C i t <= CT.
Proof. intros I T. rewrite <- (SC t T). apply (one_le (row C t)); [exact I|]. intros j J. apply PC; assumption. Qed.
Lemma Y_le i t : (i < n)%nat -> 0 <= t -> Y i t <= Q.
Proof. intros I T. rewrite <- (SY t T). apply (one_le (row Y t)); [exact I|]. intros j J. apply PY; assumption. Qed.
Lemma Z_le i t : (i < n)%nat -> 0 <= t -> Z i t <= Q.
Proof. intros I T. rewrite <- (SZ t T). apply (one_le (row Z t)); [exact I|]. intros j J. apply PZ; assumption. Qed.

(** ** Free energy *)
Let u (i : nat) : R := / INR (z i).
Lemma u_between i : (i < n)%nat -> / 2 <= u i <= 1 /\ u i * INR (z i) = 1.
Proof. intros I. unfold u. destruct (Hz i I) as [-> | ->]; cbn [INR]; lra. Qed.
Let ent (i : nat) (t : R) : R := u i * (VL * (C i t * ln (C i t / 1)) + (ws * (Y i t * ln (Y i t / K i)) + w1 * (Z i t * ln (Z i t / K i)))).
Let diss (i : nat) (t : R) : R := u i * (ka * fl i t * (ln (C i t) - ln (Y i t / K i)) + G i t * (ln (Y i t / K i) - ln (Z i t / K i))).
Lemma ent_evolves i b : (i < n)%nat -> evolves 1 b (ent i) (fun t => - diss i t).
Proof.
  intros I. destruct (THERE i I) as [AB|PR].
  - assert (Z0 : forall t, 1 < t < b -> diss i t = 0).
    { intros t T. destruct (AB t ltac:(lra)) as (A1 & A2 & A3). unfold diss, G, fl, eliq, row. rewrite A1, A2, A3. unfold Rdiv. ring. }
    split; intros t T.
    + intros eps He. exists (1/2). split; [lra|]. intros x (_ & Hx). cbn in Hx. unfold R_dist in Hx. apply Rabs_def2 in Hx.
      destruct (AB t ltac:(lra)) as (A1 & A2 & A3). destruct (AB x ltac:(lra)) as (B1 & B2 & B3). cbn. unfold R_dist, ent. rewrite A1, A2, A3, B1, B2, B3.
      rewrite !Rmult_0_l, !Rmult_0_r, !Rplus_0_r, !Rmult_0_r. rewrite Rminus_diag_eq by reflexivity. rewrite Rabs_R0. exact He.
    + rewrite (Z0 t T), Ropp_0. intros eps He. exists (mkposreal (1/2) ltac:(lra)). intros h Hh Hb. cbn in Hb. apply Rabs_def2 in Hb.
      destruct (AB t ltac:(lra)) as (A1 & A2 & A3). destruct (AB (t + h) ltac:(lra)) as (B1 & B2 & B3). unfold ent. rewrite A1, A2, A3, B1, B2, B3.
      rewrite !Rmult_0_l, !Rmult_0_r, !Rplus_0_r, !Rmult_0_r. replace ((0 - 0) / h - 0) with 0 by (field; exact Hh). rewrite Rabs_R0. exact He.
  - eapply evolves_ext; [reflexivity| |].
    2:{ apply (evolves_scal 1 b (u i)). apply (evolves_plus 1 b); [apply (evolves_scal 1 b VL)|apply (evolves_plus 1 b); [apply (evolves_scal 1 b ws)|apply (evolves_scal 1 b w1)]].
        - apply (evolves_xlnx 1 b (C i) (C' i)); [lra|intros t T; apply PR; lra|apply (evolves_from 0); [lra|apply EC, I]].
        - apply (evolves_xlnx 1 b (Y i) (Y' i)); [apply HK, I|intros t T; apply PR; lra|apply (evolves_from 0); [lra|apply EY, I]].
        - apply (evolves_xlnx 1 b (Z i) (Z' i)); [apply HK, I|intros t T; apply PR; lra|apply (evolves_from 0); [lra|apply EZ, I]]. }
    intros t T. cbv beta. assert (X1 := RC i t I ltac:(lra)). assert (X2 := RY i t I ltac:(lra)). assert (X3 := RZ i t I ltac:(lra)).
    rewrite <- !Rmult_assoc, X1, X2, X3. unfold Rdiv at 1. rewrite Rinv_1, Rmult_1_r. unfold diss. ring.
Qed.
(** present together or absent together *)
Lemma pairs i t : (i < n)%nat -> 0 < t ->
  ((0 < C i t /\ 0 < eliq (row Y t) i) \/ (C i t = 0 /\ eliq (row Y t) i = 0)) /\
  ((0 < eliq (row Y t) i /\ 0 < eliq (row Z t) i) \/ (eliq (row Y t) i = 0 /\ eliq (row Z t) i = 0)) /\
  ((0 < Y i t /\ 0 < Z i t) \/ (Y i t = 0 /\ Z i t = 0)).
Proof.
  intros I T. assert (Y0 : forall j, (j < n)%nat -> 0 <= row Y t j) by (intros; apply PY; [assumption|lra]). assert (Z0 : forall j, (j < n)%nat -> 0 <= row Z t j) by (intros; apply PZ; [assumption|lra]).
  assert (YS := SY t ltac:(lra)). assert (ZS := SZ t ltac:(lra)).
  destruct (THERE i I) as [AB|PR].
  - destruct (AB t ltac:(lra)) as (A1 & A2 & A3). assert (B2 : eliq (row Y t) i = 0) by (unfold eliq, row; rewrite A2; unfold Rdiv; ring). assert (B3 : eliq (row Z t) i = 0) by (unfold eliq, row; rewrite A3; unfold Rdiv; ring).
    repeat split; right; split; assumption.
  - destruct (PR t T) as (A1 & A2 & A3). assert (B2 := eliq_pos (row Y t) Y0 YS i I A2). assert (B3 := eliq_pos (row Z t) Z0 ZS i I A3).
    repeat split; left; split; assumption.
Qed.
Lemma diss_sum t : 0 < t -> rsum n (fun i => diss i t) =
  rsum n (fun i => u i * (ka * (fl i t * (ln (C i t) - ln (eliq (row Y t) i))) + (al * ((eliq (row Y t) i - eliq (row Z t) i) * (ln (eliq (row Y t) i) - ln (eliq (row Z t) i))) + de * ((Y i t - Z i t) * (ln (Y i t) - ln (Z i t)))))).
Proof.
  intros T. assert (T0 : 0 <= t) by lra. assert (Y0 : forall j, (j < n)%nat -> 0 <= row Y t j) by (intros; apply PY; assumption). assert (Z0 : forall j, (j < n)%nat -> 0 <= row Z t j) by (intros; apply PZ; assumption).
  assert (YS := SY t T0). assert (ZS := SZ t T0).
  set (ly := - ln (ep (row Y t))). set (lz := - ln (ep (row Z t))).
  assert (S1 : rsum n (fun i => fl i t) = 0).
  { unfold fl. rewrite rsum_minus. change (rsum n (fun i => C i t)) with (rsum n (row C t)). rewrite SC by exact T0. change (rsum n (fun i => eliq (row Y t) i)) with (rsum n (eliq (row Y t))). rewrite eliq_sum by assumption. ring. }
  assert (S2 : rsum n (fun i => eliq (row Y t) i - eliq (row Z t) i) = 0).
  { rewrite rsum_minus. change (rsum n (fun i => eliq (row Y t) i)) with (rsum n (eliq (row Y t))). change (rsum n (fun i => eliq (row Z t) i)) with (rsum n (eliq (row Z t))). rewrite !eliq_sum by assumption. ring. }
  transitivity (rsum n (fun i => u i * (ka * (fl i t * (ln (C i t) - ln (eliq (row Y t) i))) + (al * ((eliq (row Y t) i - eliq (row Z t) i) * (ln (eliq (row Y t) i) - ln (eliq (row Z t) i))) + de * ((Y i t - Z i t) * (ln (Y i t) - ln (Z i t)))))
     + (- (ka * ly) * fl i t + al * (ly - lz) * (eliq (row Y t) i - eliq (row Z t) i)))).
  - apply rsum_ext. intros i I. destruct (pairs i t I T) as (P1 & P2 & P3). destruct (u_between i I) as (_ & UZ). unfold diss, G.
    destruct P3 as [(A2 & A3)|(A2 & A3)].
    + assert (LY := ln_load (row Y t) Y0 YS i I A2). assert (LZ := ln_load (row Z t) Z0 ZS i I A3). unfold Rminus in LY, LZ. rewrite Ropp_mult_distr_r in LY, LZ. fold ly in LY. fold lz in LZ.
      change (row Y t i) with (Y i t) in LY. change (row Z t i) with (Z i t) in LZ.
      assert (DL : ln (Y i t) - ln (Z i t) = ln (Y i t / K i) - ln (Z i t / K i)) by (rewrite !ln_div by (assumption || apply HK, I); ring).
      rewrite DL, LY, LZ. set (e1 := eliq (row Y t) i) in *. set (e2 := eliq (row Z t) i) in *.
      replace (- (ka * ly) * fl i t + al * (ly - lz) * (e1 - e2)) with (u i * INR (z i) * (- (ka * ly) * fl i t + al * (ly - lz) * (e1 - e2))) by (rewrite UZ; ring). ring.
    + assert (B2 : eliq (row Y t) i = 0) by (unfold eliq, row; rewrite A2; unfold Rdiv; ring). assert (B3 : eliq (row Z t) i = 0) by (unfold eliq, row; rewrite A3; unfold Rdiv; ring).
      assert (B1 : C i t = 0) by (destruct P1 as [(X1 & X2)|(X1 & _)]; lra). unfold fl. rewrite A2, A3, B1, B2, B3. ring.
  - rewrite rsum_plus. rewrite (rsum_plus n (fun i => - (ka * ly) * fl i t)). rewrite (rsum_scal n (- (ka * ly))), (rsum_scal n (al * (ly - lz))), S1, S2. ring.
Qed.
Let E (t : R) : R := rsum n (fun i => ent i t) + rsum n (fun i => VL + (ws * K i + w1 * K i)).
Lemma E_evolves b : evolves 1 b E (fun t => - rsum n (fun i => diss i t)).
Proof.
  unfold E. eapply evolves_ext; [reflexivity| |apply (evolves_plus 1 b); [apply (evolves_rsum 1 b n ent (fun i t => - diss i t)); intros i I; apply ent_evolves, I|apply evolves_const]].
  intros t T. cbv beta. rewrite rsum_opp. ring.
Qed.
Lemma E_pos t : 1 <= t -> 0 <= E t.
Proof.
  intros T. unfold E. rewrite <- rsum_plus. apply rsum_nonneg. intros i I. unfold ent. assert (KI := HK i I). destruct (u_between i I) as (UB & _).
  assert (A1 := xlnx_low (C i t) ltac:(apply PC; [exact I|lra])).
  assert (LO : forall x, 0 <= x -> - K i <= x * ln (x / K i)).
  { intros x X. assert (B := xlnx_low (x / K i) ltac:(apply Rmult_le_pos; [exact X|left; apply Rinv_0_lt_compat, KI])).
    assert (K i * - (1) <= K i * (x / K i * ln (x / K i))) by (apply Rmult_le_compat_l; lra). replace (K i * (x / K i * ln (x / K i))) with (x * ln (x / K i)) in H by (field; lra). lra. }
  assert (A2 := LO (Y i t) ltac:(apply PY; [exact I|lra])). assert (A3 := LO (Z i t) ltac:(apply PZ; [exact I|lra])).
  replace (C i t / 1) with (C i t) by field.
  assert (VL * - (1) <= VL * (C i t * ln (C i t))) by (apply Rmult_le_compat_l; lra).
  assert (ws * - K i <= ws * (Y i t * ln (Y i t / K i))) by (apply Rmult_le_compat_l; lra).
  assert (w1 * - K i <= w1 * (Z i t * ln (Z i t / K i))) by (apply Rmult_le_compat_l; lra).
  set (e := VL * (C i t * ln (C i t)) + (ws * (Y i t * ln (Y i t / K i)) + w1 * (Z i t * ln (Z i t / K i)))). set (c := VL + (ws * K i + w1 * K i)).
  assert (0 <= u i * (e + c)) by (apply Rmult_le_pos; [lra|unfold e, c; lra]). assert (c0 : 0 <= c) by (unfold c; assert (0 <= ws * K i) by (apply Rmult_le_pos; lra); assert (0 <= w1 * K i) by (apply Rmult_le_pos; lra); lra).
  assert (u i * c <= 1 * c) by (apply Rmult_le_compat_r; lra). lra.
Qed.
Lemma diss_low i t : (i < n)%nat -> 0 < t -> ka / CT / 2 * fl i t ^ 2 <= rsum n (fun i => diss i t) /\ de / Q / 2 * (Y i t - Z i t) ^ 2 <= rsum n (fun i => diss i t).
Proof.
  intros I T. rewrite diss_sum by exact T. assert (T0 : 0 <= t) by lra. assert (Y0 : forall j, (j < n)%nat -> 0 <= row Y t j) by (intros; apply PY; assumption). assert (Z0 : forall j, (j < n)%nat -> 0 <= row Z t j) by (intros; apply PZ; assumption).
  assert (YS := SY t T0). assert (ZS := SZ t T0).
  assert (P : forall j, (j < n)%nat -> ka / CT * fl j t ^ 2 <= ka * (fl j t * (ln (C j t) - ln (eliq (row Y t) j))) /\
     0 <= al * ((eliq (row Y t) j - eliq (row Z t) j) * (ln (eliq (row Y t) j) - ln (eliq (row Z t) j))) /\ de / Q * (Y j t - Z j t) ^ 2 <= de * ((Y j t - Z j t) * (ln (Y j t) - ln (Z j t)))).
  { intros j J. destruct (pairs j t J T) as (P1 & P2 & P3).
    assert (L1 := ln_mono _ _ CT HCT (C_le j t J T0) (eliq_le (row Y t) Y0 YS j J) P1).
    assert (L2 := ln_mono _ _ CT HCT (eliq_le (row Y t) Y0 YS j J) (eliq_le (row Z t) Z0 ZS j J) P2).
    assert (L3 := ln_mono _ _ Q HQ (Y_le j t J T0) (Z_le j t J T0) P3). split; [|split].
    - fold (fl j t) in L1. replace (ka / CT * fl j t ^ 2) with (ka * (fl j t ^ 2 / CT)) by (field; lra). apply Rmult_le_compat_l; lra.
    - apply Rmult_le_pos; [exact Hal|]. eapply Rle_trans; [|exact L2]. apply Rmult_le_pos; [apply pow2_ge_0|left; apply Rinv_0_lt_compat, HCT].
    - replace (de / Q * (Y j t - Z j t) ^ 2) with (de * ((Y j t - Z j t) ^ 2 / Q)) by (field; lra). apply Rmult_le_compat_l; lra. }
  assert (D1 : forall j, 0 <= ka / CT * fl j t ^ 2) by (intros j; apply Rmult_le_pos; [left; apply Rdiv_lt_0_compat; assumption|apply pow2_ge_0]).
  assert (D2 : forall j, 0 <= de / Q * (Y j t - Z j t) ^ 2) by (intros j; apply Rmult_le_pos; [left; apply Rdiv_lt_0_compat; assumption|apply pow2_ge_0]).
  match goal with |- _ <= rsum n ?f /\ _ => assert (O := one_le f i I); assert (N : forall j, (j < n)%nat -> 0 <= f j) end.
  { intros j J. cbv beta. destruct (P j J) as (A1 & A2 & A3). specialize (D1 j). specialize (D2 j). destruct (u_between j J) as (UB & _). apply Rmult_le_pos; lra. }
  specialize (O N). cbv beta in O. destruct (P i I) as (A1 & A2 & A3). specialize (D1 i). specialize (D2 i). destruct (u_between i I) as (UB & _).
  match type of O with u i * ?e <= _ => assert (UE : / 2 * e <= u i * e) by (apply Rmult_le_compat_r; lra) end. lra.
Qed.

(** ** Everything moves at a bounded pace *)
Lemma pace f f' B : (forall b, evolves 0 b f f') -> (forall t, 0 < t -> Rabs (f' t) <= B) -> forall s t, 0 <= s -> s <= t -> Rabs (f t - f s) <= B * (t - s).
Proof.
  intros EV H s t S ST. destruct (Req_dec s t) as [->|NE]; [rewrite !Rminus_diag_eq by reflexivity; rewrite Rabs_R0; lra|].
  destruct (evolves_mvt s t f f' ltac:(lra) (evolves_from 0 t s f f' S (EV t))) as (x & Hx & EQ). rewrite EQ, Rabs_mult, (Rabs_right (t - s)) by lra.
  apply Rmult_le_compat_r; [lra|apply H; lra].
Qed.
Lemma fl_le i t : (i < n)%nat -> 0 <= t -> Rabs (fl i t) <= CT.
Proof.
  intros I T. assert (Y0 : forall j, (j < n)%nat -> 0 <= row Y t j) by (intros; apply PY; assumption). assert (YS := SY t T).
  assert (A1 := C_le i t I T). assert (B := PC i t I T). assert (A2 := eliq_le (row Y t) Y0 YS i I). assert (A3 := eliq_nonneg (row Y t) Y0 YS i I). unfold fl. apply Rabs_le. lra.
Qed.
Lemma G_le i t : (i < n)%nat -> 0 <= t -> Rabs (G i t) <= al * CT + de * Q.
Proof.
  intros I T. assert (Y0 : forall j, (j < n)%nat -> 0 <= row Y t j) by (intros; apply PY; assumption). assert (Z0 : forall j, (j < n)%nat -> 0 <= row Z t j) by (intros; apply PZ; assumption).
  assert (YS := SY t T). assert (ZS := SZ t T).
  assert (A2 := eliq_le (row Y t) Y0 YS i I). assert (A3 := eliq_nonneg (row Y t) Y0 YS i I). assert (A4 := eliq_le (row Z t) Z0 ZS i I). assert (A5 := eliq_nonneg (row Z t) Z0 ZS i I).
  assert (B1 := Y_le i t I T). assert (B2 := Z_le i t I T). assert (B3 := PY i t I T). assert (B4 := PZ i t I T).
  unfold G. eapply Rle_trans; [apply Rabs_triang|]. rewrite !Rabs_mult, (Rabs_right al), (Rabs_right de) by lra.
  apply Rplus_le_compat; apply Rmult_le_compat_l; try lra; apply Rabs_le; lra.
Qed.
Lemma paces : exists B, 0 < B /\ forall i s t, (i < n)%nat -> 0 <= s -> s <= t -> Rabs (C i t - C i s) <= B * (t - s) /\ Rabs (Y i t - Y i s) <= B * (t - s) /\ Rabs (Z i t - Z i s) <= B * (t - s).
Proof.
  set (g := al * CT + de * Q). assert (GP : 0 < g) by (unfold g; assert (0 <= al * CT) by (apply Rmult_le_pos; lra); assert (0 < de * Q) by (apply Rmult_lt_0_compat; lra); lra).
  assert (KC : 0 < ka * CT) by (apply Rmult_lt_0_compat; assumption).
  set (b1 := ka * CT / VL). set (b2 := (ka * CT + g) / ws).
  assert (P1 : 0 < b1) by (apply Rdiv_lt_0_compat; assumption). assert (P2 : 0 < b2) by (apply Rdiv_lt_0_compat; lra).
  assert (KF : forall i t, (i < n)%nat -> 0 < t -> Rabs (ka * fl i t) <= ka * CT).
  { intros i t I T. rewrite Rabs_mult, (Rabs_right ka) by lra. apply Rmult_le_compat_l; [lra|apply fl_le; [exact I|lra]]. }
  assert (DC : forall i t, (i < n)%nat -> 0 < t -> Rabs (C' i t) <= b1).
  { intros i t I T. replace (C' i t) with (VL * C' i t * / VL) by (field; lra). rewrite RC by assumption. rewrite Rabs_mult, Rabs_Ropp, (Rabs_right (/ VL)); [|left; apply Rinv_0_lt_compat, HVL].
    apply Rmult_le_compat_r; [left; apply Rinv_0_lt_compat, HVL|apply KF; assumption]. }
  assert (DY : forall i t, (i < n)%nat -> 0 < t -> Rabs (Y' i t) <= b2).
  { intros i t I T. replace (Y' i t) with (ws * Y' i t * / ws) by (field; lra). rewrite RY by assumption. rewrite Rabs_mult, (Rabs_right (/ ws)); [|left; apply Rinv_0_lt_compat, Hws].
    apply Rmult_le_compat_r; [left; apply Rinv_0_lt_compat, Hws|]. unfold Rminus. eapply Rle_trans; [apply Rabs_triang|]. rewrite Rabs_Ropp. apply Rplus_le_compat; [apply KF; assumption|apply G_le; [exact I|lra]]. }
  assert (LC : forall i s t, (i < n)%nat -> 0 <= s -> s <= t -> Rabs (C i t - C i s) <= b1 * (t - s)) by (intros i s t I; apply (pace (C i) (C' i)); [intros; apply EC, I|intros; apply DC; assumption]).
  assert (LY : forall i s t, (i < n)%nat -> 0 <= s -> s <= t -> Rabs (Y i t - Y i s) <= b2 * (t - s)) by (intros i s t I; apply (pace (Y i) (Y' i)); [intros; apply EY, I|intros; apply DY; assumption]).
  destruct SOLE as [WP|SO].
  - set (b3 := g / w1). assert (P3 : 0 < b3) by (apply Rdiv_lt_0_compat; assumption).
    assert (LZ : forall i s t, (i < n)%nat -> 0 <= s -> s <= t -> Rabs (Z i t - Z i s) <= b3 * (t - s)).
    { intros i s t I. apply (pace (Z i) (Z' i)); [intros; apply EZ, I|]. intros x X. replace (Z' i x) with (w1 * Z' i x * / w1) by (field; lra). rewrite RZ by assumption.
      rewrite Rabs_mult, (Rabs_right (/ w1)); [|left; apply Rinv_0_lt_compat, WP]. apply Rmult_le_compat_r; [left; apply Rinv_0_lt_compat, WP|apply G_le; [exact I|lra]]. }
    exists (b1 + b2 + b3). split; [lra|]. intros i s t I S ST. assert (X := LC i s t I S ST). assert (X2 := LY i s t I S ST). assert (X3 := LZ i s t I S ST).
    assert (0 <= b1 * (t - s)) by (apply Rmult_le_pos; lra). assert (0 <= b2 * (t - s)) by (apply Rmult_le_pos; lra). assert (0 <= b3 * (t - s)) by (apply Rmult_le_pos; lra). lra.
  - exists (b1 + b2). split; [lra|]. intros i s t I S ST. assert (X := LC i s t I S ST). assert (X2 := LY i s t I S ST). rewrite !SO by exact I.
    assert (0 <= b1 * (t - s)) by (apply Rmult_le_pos; lra). assert (0 <= b2 * (t - s)) by (apply Rmult_le_pos; lra). lra.
Qed.
Lemma tends i : (i < n)%nat -> vanishes (fl i) /\ vanishes (fun t => Y i t - Z i t).
Proof.
  intros I. destruct paces as (B & BP & LB). assert (X := x0_pos). assert (EP := epsi_pos).
  assert (CE := Le_pos).
  set (L := Le) in *. assert (LBP : 0 < L * B) by (apply Rmult_lt_0_compat; assumption). split.
  - apply (barbalat 1 (ka / CT / 2) (B + L * B) E (fun t => - rsum n (fun i => diss i t))).
    + apply Rdiv_lt_0_compat; [apply Rdiv_lt_0_compat; assumption|lra].
    + lra.
    + exact E_evolves.
    + exact E_pos.
    + intros t T. destruct (diss_low i t I ltac:(lra)) as (DL & _). lra.
    + intros s t S ST. unfold fl.
      assert (Y0 : forall r j, 1 <= r -> (j < n)%nat -> 0 <= row Y r j) by (intros; apply PY; [assumption|lra]).
      assert (A1 : Rabs (eliq (row Y t) i - eliq (row Y s) i) <= L * (B * (t - s))).
      { apply eliq_lip; try assumption; try (intros; apply Y0; [lra|assumption]); try (apply SY; lra). intros j J. apply LB; [exact J|lra|exact ST]. }
      assert (A2 : Rabs (C i t - C i s) <= B * (t - s)) by (apply LB; [exact I|lra|exact ST]).
      replace (C i t - eliq (row Y t) i - (C i s - eliq (row Y s) i)) with ((C i t - C i s) + - (eliq (row Y t) i - eliq (row Y s) i)) by ring.
      eapply Rle_trans; [apply Rabs_triang|]. rewrite Rabs_Ropp. lra.
  - apply (barbalat 1 (de / Q / 2) (2 * B) E (fun t => - rsum n (fun i => diss i t))).
    + apply Rdiv_lt_0_compat; [apply Rdiv_lt_0_compat; assumption|lra].
    + lra.
    + exact E_evolves.
    + exact E_pos.
    + intros t T. destruct (diss_low i t I ltac:(lra)) as (_ & DL). lra.
    + intros s t S ST. destruct (LB i s t I ltac:(lra) ST) as (_ & A1 & A2).
      replace (Y i t - Z i t - (Y i s - Z i s)) with ((Y i t - Y i s) + - (Z i t - Z i s)) by ring. eapply Rle_trans; [apply Rabs_triang|]. rewrite Rabs_Ropp. lra.
Qed.

(** ** The state it ends in *)
Variables (q : nat -> R) (pb : R).
Let W : R := ws + w1.
Let a (p : R) (i : nat) : R := VL * / K i * p ^ z i.
Hypothesis Hpb : 0 < pb.
Hypothesis Hq : forall i, (i < n)%nat -> q i * (W + a pb i) = A i.
Hypothesis Hqs : rsum n q = Q.
Lemma A_nonneg i : (i < n)%nat -> 0 <= A i.
Proof.
  intros I. rewrite <- (HA i 0 I (Rle_refl 0)). assert (X1 := PC i 0 I (Rle_refl 0)). assert (X2 := PY i 0 I (Rle_refl 0)). assert (X3 := PZ i 0 I (Rle_refl 0)).
  assert (0 <= VL * C i 0) by (apply Rmult_le_pos; lra). assert (0 <= ws * Y i 0) by (apply Rmult_le_pos; lra). assert (0 <= w1 * Z i 0) by (apply Rmult_le_pos; lra). lra.
Qed.
Lemma W_pos : 0 < W. Proof. unfold W. lra. Qed.
Lemma a_pos p i : (i < n)%nat -> 0 < p -> 0 < a p i.
Proof. intros I P. unfold a. apply Rmult_lt_0_compat; [apply Rmult_lt_0_compat; [exact HVL|apply Rinv_0_lt_compat, HK, I]|apply pow_lt, P]. Qed.
Lemma A_some : exists j, (j < n)%nat /\ 0 < A j.
Proof.
  destruct (Classical_Prop.classic (exists j, (j < n)%nat /\ 0 < A j)) as [X|X]; [exact X|exfalso].
  assert (Z0 : rsum n q = 0); [|lra]. apply rsum_zero. intros i I. assert (AI : A i = 0). { assert (P := A_nonneg i I). destruct (Rle_lt_or_eq_dec _ _ P) as [L|L]; [exfalso; apply X; exists i; split; assumption|lra]. }
  assert (H := Hq i I). rewrite AI in H. assert (P := a_pos pb i I Hpb). assert (WP := W_pos). apply Rmult_integral in H as [H|H]; [exact H|lra].
Qed.
Let err (i : nat) (t : R) : R := VL * fl i t - w1 * (Y i t - Z i t).
(** how the ratio moves what is left in the liquid *)
Let sz (p : R) (i : nat) : R := if Nat.eqb (z i) 2 then p + pb else 1.
Lemma a_minus p i : (i < n)%nat -> a p i - a pb i = VL * / K i * sz p i * (p - pb).
Proof. intros I. unfold a, sz. destruct (Hz i I) as [-> | ->]; cbn [Nat.eqb]; ring. Qed.
Let s0 : R := Rmin 1 pb.
Let s1 : R := 1 + p1 + pb.
Lemma sz_between p i : 0 < p <= p1 -> s0 <= sz p i <= s1.
Proof. intros P. assert (A1 := Rmin_l 1 pb). assert (A2 := Rmin_r 1 pb). destruct p_sizes as (P1 & _). unfold s0, s1, sz. destruct (Nat.eqb (z i) 2); lra. Qed.
Lemma s0_pos : 0 < s0. Proof. apply Rmin_glb_lt; lra. Qed.
Let amax (i : nat) : R := VL * / K i * p1 ^ 2.
Let slope : R := rsum n (fun i => A i * (VL * / K i * s0 / ((W + amax i) * (W + a pb i)))).
Lemma amax_pos i : (i < n)%nat -> 0 < amax i.
Proof. intros I. destruct p_sizes as (P1 & _). unfold amax. apply Rmult_lt_0_compat; [apply Rmult_lt_0_compat; [exact HVL|apply Rinv_0_lt_compat, HK, I]|apply pow_lt; lra]. Qed.
Lemma slope_pos : 0 < slope.
Proof.
  destruct A_some as (j & J & P). assert (WP := W_pos). assert (S0 := s0_pos).
  assert (T : forall i, (i < n)%nat -> 0 < VL * / K i * s0 / ((W + amax i) * (W + a pb i))).
  { intros i I. assert (AI := a_pos pb i I Hpb). assert (AM := amax_pos i I). apply Rdiv_lt_0_compat; [apply Rmult_lt_0_compat; [apply Rmult_lt_0_compat; [exact HVL|apply Rinv_0_lt_compat, HK, I]|exact S0]|]. apply Rmult_lt_0_compat; lra. }
  unfold slope. apply (rsum_pos_one n _ j J).
  - intros i I. apply Rmult_le_pos; [apply A_nonneg, I|]. left. apply T, I.
  - apply Rmult_lt_0_compat; [exact P|apply T, J].
Qed.
Lemma ratio_at t : 0 <= t -> 0 < ep (row Y t) <= p1.
Proof. intros T. assert (Y0 : forall j, (j < n)%nat -> 0 <= row Y t j) by (intros; apply PY; assumption). split; [apply (ep_root (row Y t) Y0 (SY t T))|apply (ep_high (row Y t) Y0 (SY t T))]. Qed.
Let F (p : R) (i : nat) : R := A i * (VL * / K i * sz p i / ((W + a p i) * (W + a pb i))).
Lemma Y_minus i t : (i < n)%nat -> 0 <= t -> let p := ep (row Y t) in
  Y i t - q i = - (F p i * (p - pb)) - err i t * / (W + a p i).
Proof.
  intros I T p. assert (WP := W_pos). destruct (ratio_at t T) as (P & _). fold p in P. assert (AI := a_pos p i I P). assert (AB := a_pos pb i I Hpb).
  assert (E1 : Y i t = (A i - err i t) * / (W + a p i)).
  { assert (H : A i - err i t = Y i t * (W + a p i)).
    { rewrite <- (HA i t I T). unfold err, fl, eliq. fold p. unfold row, a, W, Rdiv. ring. }
    rewrite H. field. lra. }
  assert (E2 : q i = A i * / (W + a pb i)) by (rewrite <- (Hq i I); field; lra).
  unfold F. replace (A i * (VL * / K i * sz p i / ((W + a p i) * (W + a pb i))) * (p - pb)) with (A i * (a p i - a pb i) * / ((W + a p i) * (W + a pb i))) by (rewrite (a_minus p i I); unfold Rdiv; ring).
  rewrite E1, E2. field. lra.
Qed.
Lemma F_between p i : (i < n)%nat -> 0 < p <= p1 -> A i * (VL * / K i * s0 / ((W + amax i) * (W + a pb i))) <= F p i <= A i * (VL * / K i * s1 / (W * W)).
Proof.
  intros I P. assert (WP := W_pos). assert (AN := A_nonneg i I). assert (AI := a_pos p i I (proj1 P)). assert (AB := a_pos pb i I Hpb). assert (AM := amax_pos i I). assert (S := sz_between p i P). assert (S0 := s0_pos).
  assert (VK : 0 < VL * / K i) by (apply Rmult_lt_0_compat; [exact HVL|apply Rinv_0_lt_compat, HK, I]). destruct p_sizes as (P1 & _).
  assert (AP : a p i <= amax i).
  { unfold a, amax. apply Rmult_le_compat_l; [lra|]. destruct (Hz i I) as [-> | ->]; [rewrite pow_1; assert (p1 * 1 <= p1 * p1) by (apply Rmult_le_compat_l; lra); lra|apply pow_incr; lra]. }
  unfold F. split; apply Rmult_le_compat_l; try exact AN; unfold Rdiv.
  - apply Rmult_le_compat; [apply Rmult_le_pos; lra|left; apply Rinv_0_lt_compat, Rmult_lt_0_compat; lra|apply Rmult_le_compat_l; lra|].
    apply Rinv_le_contravar; [apply Rmult_lt_0_compat; lra|]. apply Rmult_le_compat_r; lra.
  - apply Rmult_le_compat; [apply Rmult_le_pos; lra|left; apply Rinv_0_lt_compat, Rmult_lt_0_compat; lra|apply Rmult_le_compat_l; lra|].
    apply Rinv_le_contravar; [apply Rmult_lt_0_compat; lra|]. apply Rmult_le_compat; lra.
Qed.
Lemma err_vanishes i : (i < n)%nat -> vanishes (err i).
Proof.
  intros I. destruct (tends i I) as (V1 & V2). assert (U := vanishes_plus _ _ (vanishes_scal VL _ V1) (vanishes_scal (- w1) _ V2)).
  apply (vanishes_le 1 0 _ _ ltac:(lra)) with (2 := U). intros t _. right. rewrite Rmult_1_l. unfold err. f_equal. ring.
Qed.
Lemma over i p : (i < n)%nat -> 0 < p -> 0 < / (W + a p i) <= / W.
Proof.
  intros I P. assert (WP := W_pos). assert (AI := a_pos p i I P). split; [apply Rinv_0_lt_compat; lra|]. apply Rinv_le_contravar; lra.
Qed.
Lemma p_vanishes : vanishes (fun t => ep (row Y t) - pb).
Proof.
  assert (S := slope_pos). assert (WP := W_pos).
  apply (vanishes_le (/ (W * slope)) 0 (fun t => rsum n (fun i => Rabs (err i t)))); [left; apply Rinv_0_lt_compat, Rmult_lt_0_compat; assumption| |].
  2:{ apply (vanishes_rsum n (fun i t => Rabs (err i t))). intros i I. apply vanishes_abs, err_vanishes, I. }
  intros t T. set (p := ep (row Y t)). assert (P := ratio_at t T). fold p in P.
  assert (Z0 : rsum n (F p) * (p - pb) = - rsum n (fun i => err i t * / (W + a p i))).
  { assert (D : rsum n (fun i => Y i t - q i) = 0). { rewrite rsum_minus. change (rsum n (fun i => Y i t)) with (rsum n (row Y t)). change (rsum n (fun i => q i)) with (rsum n q). rewrite (SY t T). lra. }
    rewrite (rsum_ext n (fun i => Y i t - q i) (fun i => - (p - pb) * F p i - err i t * / (W + a p i))) in D by (intros i I; rewrite (Y_minus i t I T); fold p; ring).
    rewrite rsum_minus, rsum_scal in D. change (rsum n (fun i => F p i)) with (rsum n (F p)) in D. lra. }
  assert (SL : slope <= rsum n (F p)) by (unfold slope; apply rsum_le; intros i I; apply F_between; assumption).
  set (ee := rsum n (fun i => Rabs (err i t))). assert (EN : 0 <= ee) by (apply rsum_nonneg; intros; apply Rabs_pos). rewrite (Rabs_right ee) by lra.
  assert (UP : slope * Rabs (p - pb) <= / W * ee).
  { apply Rle_trans with (Rabs (rsum n (F p) * (p - pb))).
    - rewrite Rabs_mult, (Rabs_right (rsum n (F p))) by lra. apply Rmult_le_compat_r; [apply Rabs_pos|exact SL].
    - rewrite Z0, Rabs_Ropp. eapply Rle_trans; [apply rsum_abs|]. unfold ee. rewrite <- rsum_scal. apply rsum_le. intros i I. assert (O := over i p I (proj1 P)).
      rewrite Rabs_mult, (Rabs_right (/ (W + a p i))) by lra. rewrite Rmult_comm. apply Rmult_le_compat_r; [apply Rabs_pos|lra]. }
  apply (Rmult_le_reg_l slope); [exact S|]. eapply Rle_trans; [exact UP|]. right. field. lra.
Qed.
Lemma Y_settles i : (i < n)%nat -> vanishes (fun t => Y i t - q i).
Proof.
  intros I. assert (WP := W_pos). set (fm := A i * (VL * / K i * s1 / (W * W))).
  assert (U := vanishes_plus _ _ (vanishes_abs _ (vanishes_scal fm _ p_vanishes)) (vanishes_abs _ (vanishes_scal (/ W) _ (err_vanishes i I)))).
  apply (vanishes_le 1 0 _ _ ltac:(lra)) with (2 := U). intros t T. cbv beta. rewrite (Y_minus i t I T). set (p := ep (row Y t)). assert (P := ratio_at t T). fold p in P.
  assert (O := over i p I (proj1 P)). assert (FB := F_between p i I P). fold fm in FB. assert (PW : 0 < / W) by (apply Rinv_0_lt_compat, WP). assert (S0 := s0_pos).
  assert (F0 : 0 <= F p i).
  { eapply Rle_trans; [|apply FB]. apply Rmult_le_pos; [apply A_nonneg, I|]. assert (AB := a_pos pb i I Hpb). assert (AM := amax_pos i I). apply Rmult_le_pos; [apply Rmult_le_pos; [apply Rmult_le_pos; [lra|left; apply Rinv_0_lt_compat, HK, I]|lra]|left; apply Rinv_0_lt_compat, Rmult_lt_0_compat; lra]. }
  rewrite Rmult_1_l. unfold Rminus at 1. eapply Rle_trans; [apply Rabs_triang|]. rewrite !Rabs_Ropp, !Rabs_mult, (Rabs_right (F p i)), (Rabs_right (/ (W + a p i))), (Rabs_right fm), (Rabs_right (/ W)) by lra.
  rewrite (Rabs_right (fm * Rabs (p - pb) + / W * Rabs (err i t))).
  - apply Rplus_le_compat; [apply Rmult_le_compat_r; [apply Rabs_pos|lra]|]. rewrite Rmult_comm. apply Rmult_le_compat_r; [apply Rabs_pos|lra].
  - assert (0 <= fm * Rabs (p - pb)) by (apply Rmult_le_pos; [lra|apply Rabs_pos]). assert (0 <= / W * Rabs (err i t)) by (apply Rmult_le_pos; [lra|apply Rabs_pos]). lra.
Qed.
Lemma Z_settles i : (i < n)%nat -> vanishes (fun t => Z i t - q i).
Proof.
  intros I. destruct (tends i I) as (_ & V). assert (U := vanishes_plus _ _ (Y_settles i I) (vanishes_scal (-1) _ V)).
  apply (vanishes_le 1 0 _ _ ltac:(lra)) with (2 := U). intros t _. right. rewrite Rmult_1_l. f_equal. ring.
Qed.
Lemma C_settles i : (i < n)%nat -> vanishes (fun t => C i t - (A i - W * q i) / VL).
Proof.
  intros I. assert (U := vanishes_plus _ _ (vanishes_scal (- ws / VL) _ (Y_settles i I)) (vanishes_scal (- w1 / VL) _ (Z_settles i I))).
  apply (vanishes_le 1 0 _ _ ltac:(lra)) with (2 := U). intros t T. right. rewrite Rmult_1_l. f_equal. rewrite <- (HA i t I T). unfold W. field. lra.
Qed.
End Exchange.
