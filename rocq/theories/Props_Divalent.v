(** Batch reactors with divalent ions on one or two radial points: they stay physical and run to any
    end (C196, C200) and settle (C195). *)
From Coq Require Import Reals List Arith Bool Lra Lia Classical.
From Verif Require Import Lib_Py Lib_Sum Lib_Traj Lib_Settle P_Settle S_Colloc M_Colloc S_Radial P_Radial P_JacobiRoots S_IxColumn Props_Negative.
From Verif Require Import M_IxEq S_IxEq M_IxBatch S_IxBatch P_IxUnique P_IxBatch S_Unique Props_Rest P_RestEq P_Exhaust Props_IxColumn Props_IxBatch Props_Unique Props_Exist Props_BatchTwo.
From Verif Require Import P_EntropyDv P_BatchDv.
From Verif Require Props_PacSettle.
Import ListNotations.
Open Scope R_scope.

(** A sheet with a divalent ion, and a state without negative concentrations, with the charges of the
    feed and of the resin, and with presaturant and some divalent ion at every radial point. *)
Definition divalent_start (b : batch) (u : nat -> nat -> R) : Prop :=
  sound_start b u /\ (exists j, (j < b_NION b)%nat /\ b_val b j = 2%nat) /\
  forall r, (1 <= r <= b_nr b)%nat -> 0 < u r 0%nat /\ exists j, (j < b_NION b)%nat /\ b_val b j = 2%nat /\ 0 < u r j.

Definition margin (psdm : bool) (b : batch) : R := b_Q b / rsum (b_NION b) (dK psdm b) / 2.
Lemma margin_pos (psdm : bool) b : working_batch psdm b -> 0 < b_Q b -> 0 < margin psdm b.
Proof.
  intros WB HQ. assert (N0 : (0 < b_NION b)%nat) by apply WB. unfold margin. apply Rdiv_lt_0_compat; [|lra]. apply Rdiv_lt_0_compat; [exact HQ|].
  apply (rsum_pos_one _ _ 0%nat N0); [intros i I; left; apply dK_pos; assumption|apply dK_pos; assumption].
Qed.
Lemma run_keeps : forall legendre jacobi (psdm : bool) b Tf y,
  jacobi_roots 2 (b_nr b - 1) (jacobi (b_nr b - 1)%nat (5 / 2) (3 / 2)) -> working_batch psdm b -> (b_nr b <= 2)%nat -> 0 < b_RHOP b * b_Qm b ->
  is_batch_trajectory (b_nr b) (b_NION b) (batch_rhs psdm b (build_radial legendre jacobi (b_nr b))) Tf y ->
  divalent_start b (y 0) -> forall T, 0 <= T <= Tf ->
  (forall r i, (r <= b_nr b)%nat -> (i < b_NION b)%nat -> 0 <= y T r i) /\ rsum (b_NION b) (y T 0%nat) = b_CT b /\ (forall r, (1 <= r <= b_nr b)%nat -> rsum (b_NION b) (y T r) = b_Q b) /\
  (forall r i, (1 <= r <= b_nr b)%nat -> (i < b_NION b)%nat -> 0 < y 0 r i -> 0 < y T r i) /\ (forall r, (r < b_nr b)%nat -> fine psdm b (margin psdm b) (y T) r).
Proof.
  intros legendre jacobi psdm b Tf y HJ WB N2 HQ TR ((S0 & S1 & S2) & DV & PD) T HT.
  apply (dv_run legendre jacobi psdm b HJ WB DV (margin psdm b) (margin_pos psdm b WB HQ) N2 Tf y TR S0 S1 S2 HQ eq_refl (fun r R => proj1 (PD r R)) (fun r R => proj2 (PD r R)) ltac:(lra) T HT).
Qed.

(** ** It stays physical *)
Theorem C200_divalent_stays_physical : forall legendre jacobi (psdm : bool) b Tf y,
  jacobi_roots 2 (b_nr b - 1) (jacobi (b_nr b - 1)%nat (5 / 2) (3 / 2)) -> working_batch psdm b -> (b_nr b <= 2)%nat -> 0 < b_RHOP b * b_Qm b ->
  is_batch_trajectory (b_nr b) (b_NION b) (batch_rhs psdm b (build_radial legendre jacobi (b_nr b))) Tf y ->
  divalent_start b (y 0) -> forall T, 0 <= T <= Tf -> divalent_start b (y T) /\
  (* none above the total *)
  (forall i, (i < b_NION b)%nat -> y T 0%nat i <= rsum (b_NION b) (b_C0 b) /\ forall r, (1 <= r <= b_nr b)%nat -> y T r i <= b_RHOP b * b_Qm b) /\
  (* what is loaded with an ion stays so *)
  (forall r i, (1 <= r <= b_nr b)%nat -> (i < b_NION b)%nat -> 0 < y 0 r i -> 0 < y T r i).
Proof.
  intros legendre jacobi psdm b Tf y HJ WB N2 HQ TR DS T HT. assert (N0 : (0 < b_NION b)%nat) by apply WB.
  destruct (run_keeps legendre jacobi psdm b Tf y HJ WB N2 HQ TR DS T HT) as (A1 & A2 & A3 & A4 & _). destruct DS as (SS & DV & PD).
  split; [split; [split; [exact A1|split; [exact A2|exact A3]]|split; [exact DV|]]|split; [|exact A4]].
  - intros r R. destruct (PD r R) as (P & j & J & V & PJ). split; [apply A4; assumption|]. exists j. split; [exact J|]. split; [exact V|]. apply A4; assumption.
  - intros i I. split.
    + change (rsum (b_NION b) (b_C0 b)) with (b_CT b). rewrite <- A2. apply one_le; [exact I|]. intros j J. apply A1; [lia|exact J].
    + intros r R. change (b_RHOP b * b_Qm b) with (b_Q b). rewrite <- (A3 r R). apply one_le; [exact I|]. intros j J. apply A1; [lia|exact J].
Qed.
Theorem C196_divalent_two_points_partial : forall legendre jacobi (psdm : bool) b Tf y,
  jacobi_roots 2 (b_nr b - 1) (jacobi (b_nr b - 1)%nat (5 / 2) (3 / 2)) -> working_batch psdm b -> (b_nr b <= 2)%nat -> 0 < b_RHOP b * b_Qm b ->
  is_batch_trajectory (b_nr b) (b_NION b) (batch_rhs psdm b (build_radial legendre jacobi (b_nr b))) Tf y ->
  divalent_start b (y 0) -> forall T r i, 0 <= T <= Tf -> (1 <= r <= b_nr b)%nat -> (i < b_NION b)%nat -> 0 <= y T r i.
Proof.
  intros legendre jacobi psdm b Tf y HJ WB N2 HQ TR DS T r i HT R I.
  destruct (C200_divalent_stays_physical legendre jacobi psdm b Tf y HJ WB N2 HQ TR DS T HT) as (((A & _) & _) & _). apply A; [lia|exact I].
Qed.

(** ** It runs to any requested end *)
Lemma start_as b u v : (forall r i, (r <= b_nr b)%nat -> (i < b_NION b)%nat -> u r i = v r i) -> (0 < b_NION b)%nat -> divalent_start b v -> divalent_start b u.
Proof.
  intros E N0 ((S0 & S1 & S2) & DV & PD). split; [split; [|split]|split; [exact DV|]].
  - intros r i R I. rewrite E by assumption. apply S0; assumption.
  - rewrite <- S1. apply rsum_ext. intros i I. apply E; [lia|exact I].
  - intros r R. rewrite <- (S2 r R). apply rsum_ext. intros i I. apply E; [lia|exact I].
  - intros r R. destruct (PD r R) as (P & j & J & V & PJ). rewrite E by (assumption || lia). split; [exact P|]. exists j. rewrite E by (assumption || lia). split; [exact J|]. split; assumption.
Qed.
Theorem C200_divalent_lasts : forall legendre jacobi (psdm : bool) b u0 Tf,
  jacobi_roots 2 (b_nr b - 1) (jacobi (b_nr b - 1)%nat (5 / 2) (3 / 2)) -> working_batch psdm b -> (b_nr b <= 2)%nat -> 0 < b_RHOP b * b_Qm b ->
  divalent_start b u0 -> 0 <= Tf ->
  exists y, is_batch_trajectory (b_nr b) (b_NION b) (batch_rhs psdm b (build_radial legendre jacobi (b_nr b))) Tf y /\
    forall r i, (r <= b_nr b)%nat -> (i < b_NION b)%nat -> y 0 r i = u0 r i.
Proof.
  intros legendre jacobi psdm b u0 Tf HJ WB N2 HQ DS TF. assert (N0 : (0 < b_NION b)%nat) by apply WB. assert (TP := th_pos psdm b WB). assert (CP := ct_pos psdm b WB). assert (MP := margin_pos psdm b WB HQ). assert (DS' := DS). destruct DS' as (_ & DV & PD).
  set (op := build_radial legendre jacobi (b_nr b)).
  destruct (C168_batch_lasts psdm b op Tf u0 ltac:(apply WB) ltac:(apply WB) ltac:(apply WB) TF) as [Y|Y]; [exact Y|]. exfalso.
  pose (low := fun r e => (1 <= r <= b_nr b)%nat -> forall T y, 0 <= T <= Tf -> is_batch_trajectory (b_nr b) (b_NION b) (batch_rhs psdm b op) T y ->
     (forall r i, (r <= b_nr b)%nat -> (i < b_NION b)%nat -> y 0 r i = u0 r i) -> e <= y T r 0%nat / btheta psdm b /\ e <= da psdm b (y T) (r - 1) /\ e <= 4 * da psdm b (y T) (r - 1) * b_CT b).
  destruct (common_margin (b_nr b + 1) low) as (e & E & LOW).
  - intros r m m' L Q R T y HT TR Y0. destruct (Q R T y HT TR Y0) as (A1 & A2 & A3). lra.
  - intros r _. destruct (classic (1 <= r <= b_nr b)%nat) as [R|R]; [|exists 1; split; [lra|intros R1; contradiction]].
    destruct (PD r R) as (P & j & J & V & PJ). destruct (loss legendre jacobi psdm b HJ WB DV _ MP N2 0%nat N0) as (L0 & L0P & HL0). destruct (loss legendre jacobi psdm b HJ WB DV _ MP N2 j J) as (Lj & LjP & HLj).
    set (x := u0 r 0%nat * exp (- L0 * Tf) / btheta psdm b). set (a := u0 r j * exp (- Lj * Tf) / dK psdm b j).
    assert (X : 0 < x) by (apply Rdiv_lt_0_compat; [apply Rmult_lt_0_compat; [exact P|apply exp_pos]|exact TP]).
    assert (A : 0 < a) by (apply Rdiv_lt_0_compat; [apply Rmult_lt_0_compat; [exact PJ|apply exp_pos]|apply dK_pos; assumption]).
    assert (AC : 0 < 4 * a * b_CT b) by (apply Rmult_lt_0_compat; [lra|exact CP]).
    exists (Rmin x (Rmin a (4 * a * b_CT b))). split; [repeat apply Rmin_glb_lt; assumption|]. intros _ T y HT TR Y0.
    assert (M1 := Rmin_l x (Rmin a (4 * a * b_CT b))). assert (M2 := Rmin_r x (Rmin a (4 * a * b_CT b))). assert (M3 := Rmin_l a (4 * a * b_CT b)). assert (M4 := Rmin_r a (4 * a * b_CT b)).
    assert (DY : divalent_start b (y 0)) by (apply (start_as b _ u0); assumption).
    assert (RK := fun s S => run_keeps legendre jacobi psdm b T y HJ WB N2 HQ TR DY s S). assert (NN := proj1 (RK 0 ltac:(lra))).
    assert (FN : forall t k, 0 < t < T -> (k < b_nr b)%nat -> fine psdm b (margin psdm b) (y t) k) by (intros t k Ht K; apply (RK t ltac:(lra)); exact K).
    assert (EXP : forall L, 0 <= L -> exp (- L * Tf) <= exp (- L * T)).
    { intros L LP. destruct (Req_dec (- L * Tf) (- L * T)) as [->|NE]; [lra|]. left. apply exp_increasing. assert (L * T <= L * Tf) by (apply Rmult_le_compat_l; lra). lra. }
    assert (K0 := dv_keeps legendre jacobi psdm b HJ WB DV _ MP N2 T y TR NN T ltac:(lra) FN L0 r 0%nat T HL0 R N0 ltac:(lra)). rewrite Y0 in K0 by (assumption || lia).
    assert (K1 := dv_keeps legendre jacobi psdm b HJ WB DV _ MP N2 T y TR NN T ltac:(lra) FN Lj r j T HLj R J ltac:(lra)). rewrite Y0 in K1 by (assumption || lia).
    assert (X1 : x <= y T r 0%nat / btheta psdm b).
    { unfold x. apply Rmult_le_compat_r; [left; apply Rinv_0_lt_compat, TP|]. eapply Rle_trans; [|exact K0]. apply Rmult_le_compat_l; [lra|apply EXP, L0P]. }
    assert (A1 : a <= da psdm b (y T) (r - 1)).
    { unfold da, ea. replace (S (r - 1))%nat with r by lia. assert (PT := proj1 (RK T ltac:(lra))).
      assert (O := one_le (b_NION b) (fun j => if Nat.eqb (b_val b j) 2 then y T r j / dK psdm b j else 0) j J). cbv beta in O. rewrite V in O. cbn [Nat.eqb] in O.
      apply Rle_trans with (y T r j / dK psdm b j).
      - unfold a. apply Rmult_le_compat_r; [left; apply Rinv_0_lt_compat, dK_pos; assumption|]. eapply Rle_trans; [|exact K1]. apply Rmult_le_compat_l; [lra|apply EXP, LjP].
      - apply O. intros i I. destruct (Nat.eqb (b_val b i) 2); [|lra]. apply Rmult_le_pos; [apply PT; [lia|exact I]|left; apply Rinv_0_lt_compat, dK_pos; assumption]. }
    split; [lra|]. split; [lra|]. assert (4 * a * b_CT b <= 4 * da psdm b (y T) (r - 1) * b_CT b) by (apply Rmult_le_compat_r; lra). lra.
  - destruct (Y e E) as (T & y & HT & (TR & Y0) & NU). apply NU. clear NU Y.
    assert (DY : divalent_start b (y 0)) by (apply (start_as b _ u0); assumption).
    assert (RK := run_keeps legendre jacobi psdm b T y HJ WB N2 HQ TR DY T ltac:(lra)). destruct RK as (NN & _ & _ & _ & FN).
    intros r R _. destruct (LOW r ltac:(lia) R T y HT TR Y0) as (A1 & A2 & A3). change (if psdm then 1 - b_EPOR b else 1) with (btheta psdm b).
    destruct (FN (r - 1)%nat ltac:(lia)) as ((_ & B2 & B3) & _).
    assert (SUM := sums psdm b WB (y T) (r - 1) (fun j => y T r j / btheta psdm b)). replace (S (r - 1))%nat with r in SUM by lia. destruct (SUM (fun j _ => eq_refl)) as (SA & SD). unfold masked_sum, dv_idx, mv_idx in SA, SD.
    assert (NS : 0 <= rsum (b_NION b) (fun i => if Nat.eqb (b_val b i) 1 && negb (Nat.eqb i 0) then y T r i / btheta psdm b / b_K b i else 0)).
    { apply rsum_nonneg. intros i I. destruct (Nat.eqb (b_val b i) 1 && negb (Nat.eqb i 0)); [|lra]. assert (0 < b_K b i) by (apply WB; exact I). apply Rmult_le_pos; [apply Rmult_le_pos; [apply NN; [lia|exact I]|left; apply Rinv_0_lt_compat, TP]|left; apply Rinv_0_lt_compat; assumption]. }
    split; [split|].
    + intros ND. exfalso. destruct DV as (j & J & V). exact (ND j J V).
    + intros _. cbv zeta. split; [exact A1|]. split; [lra|]. rewrite SA. assert (0 <= (y T r 0%nat / btheta psdm b + rsum (b_NION b) (fun i => if Nat.eqb (b_val b i) 1 && negb (Nat.eqb i 0) then y T r i / btheta psdm b / b_K b i else 0)) ^ 2) by apply pow2_ge_0. change (rsum (b_NION b) (b_C0 b)) with (b_CT b). lra.
    + intros _. rewrite SA. exact A2.
Qed.

(** The start that the code makes is one, unless the sheet has a thousand divalent ions. *)
Theorem C200_divalent_fresh_start : forall (psdm : bool) b, working_batch psdm b -> 0 < b_RHOP b * b_Qm b -> (forall i, (i < b_NION b)%nat -> 0 <= b_C0 b i) ->
  (exists j, (j < b_NION b)%nat /\ b_val b j = 2%nat) -> (b_NION b <= 1000)%nat -> divalent_start b (batch_initial b).
Proof.
  intros psdm b WB HQ HC DV N. assert (HD := dv_has b DV). assert (N0 : (0 < b_NION b)%nat) by apply WB. assert (Z0 : b_val b 0%nat = 1%nat) by apply WB. change (0 < b_Q b) in HQ.
  assert (CNT : (ndv b < 1000)%nat).
  { assert (ndv b < b_NION b)%nat; [|lia]. unfold ndv. destruct (b_NION b) as [|k]; [lia|]. cbn [seq filter]. unfold dv_idx at 1. rewrite Z0. cbn [Nat.eqb].
    assert (L : forall (f : nat -> bool) l, (length (filter f l) <= length l)%nat) by (intros f; induction l as [|x l IH]; [apply le_n|cbn [filter]; destruct (f x); cbn [length]; lia]).
    assert (X := L (dv_idx (b_val b)) (seq 1 k)). rewrite seq_length in X. lia. }
  assert (PRE : 0 < b_Q b - INR (ndv b) * b_Q b / 1000).
  { assert (INR (ndv b) < 1000) by (apply lt_INR in CNT; replace (INR 1000) with 1000 in CNT by (rewrite INR_IZR_INZ; reflexivity); exact CNT).
    replace (b_Q b - INR (ndv b) * b_Q b / 1000) with ((1000 - INR (ndv b)) * b_Q b / 1000) by field. apply Rdiv_lt_0_compat; [apply Rmult_lt_0_compat; lra|lra]. }
  split; [split; [|split]|split; [exact DV|]].
  - intros [|r] i R I; cbn [batch_initial]; [apply HC, I|]. rewrite HD. destruct (Nat.eqb i 0); [lra|]. destruct (dv_idx (b_val b) i); lra.
  - reflexivity.
  - intros [|r] R; [lia|]. apply C19_batch_start_total; assumption.
  - intros [|r] R; [lia|]. cbn [batch_initial]. rewrite HD. cbn [Nat.eqb]. split; [exact PRE|]. destruct DV as (j & J & V). exists j. split; [exact J|]. split; [exact V|].
    destruct (Nat.eqb_spec j 0) as [->|_]; [rewrite Z0 in V; discriminate V|]. unfold dv_idx. rewrite V. cbn [Nat.eqb]. lra.
Qed.

(** ** The reactor as an exchange between liquid, bead surface and core *)
Lemma dv_liq (psdm : bool) b v r i : eliq (b_NION b) (b_val b) (dK psdm b) (b_CT b) (v (S r)) i = dshare psdm b v r i * v (S r) i.
Proof. unfold eliq, dshare, dp, Rdiv. ring. Qed.
Lemma dv_exchange legendre jacobi (psdm : bool) b :
  good_roots legendre jacobi -> jacobi_roots 2 (b_nr b - 1) (jacobi (b_nr b - 1)%nat (5 / 2) (3 / 2)) ->
  working_batch psdm b -> (b_nr b <= 2)%nat -> (exists j, (j < b_NION b)%nat /\ b_val b j = 2%nat) ->
  let op := build_radial legendre jacobi (b_nr b) in
  let el (q : nat -> R) i := eliq (b_NION b) (b_val b) (dK psdm b) (b_CT b) q i in
  exists ws w1 al de, 0 < ws /\ 0 <= w1 /\ 0 <= al /\ 0 < de /\ ws + w1 = b_VR b /\ (0 < w1 \/ b_nr b = 1%nat) /\
  (forall v i, amount (b_nr b) (rWr op) (b_VL b) (b_VR b) v i = b_VL b * v 0%nat i + ws * v (b_nr b) i + w1 * v 1%nat i) /\
  forall v d, batch_rhs psdm b op v = Some d -> (forall r, (r < b_nr b)%nat -> clear psdm b v r) -> forall i, (i < b_NION b)%nat ->
  let flow := 3 * b_VR b * b_kL b / b_rb b * (v 0%nat i - el (v (b_nr b)) i) in
  let inward := al * (el (v (b_nr b)) i - el (v 1%nat) i) + de * (v (b_nr b) i - v 1%nat i) in
  b_VL b * d 0%nat i = - flow /\ ws * d (b_nr b) i = flow - inward /\ w1 * d 1%nat i = inward.
Proof.
  intros HG HJ WB N2 DV op el.
  assert (N1 : (1 <= b_nr b)%nat) by apply WB. assert (HV : 0 < b_VR b) by apply WB. assert (HR : 0 < b_rb b) by apply WB. assert (HL : 0 < b_VL b) by apply WB.
  destruct (radial_ok legendre jacobi (b_nr b) N1 HG) as (_ & _ & WS). fold op in WS.
  assert (WP := w_pos legendre jacobi b HJ). fold op in WP. assert (HD : 0 < b_Ds b) by apply WB.
  assert (CASE : b_nr b = 1%nat \/ b_nr b = 2%nat) by lia. destruct CASE as [E|E].
  - assert (W0 := WP 0%nat ltac:(lia)). exists (3 * b_VR b * rWr op 0%nat), 0, 0, 1. rewrite E in WS. cbn [rsum] in WS.
    split; [apply Rmult_lt_0_compat; lra|]. split; [lra|]. split; [lra|]. split; [lra|]. split; [replace (rWr op 0%nat) with (1 / 3) by lra; field|]. split; [right; exact E|]. split.
    + intros v i. unfold amount. rewrite E. cbn [rsum]. ring.
    + intros v d EQ D i I flow inward. unfold flow, inward. destruct (dv_rates legendre jacobi psdm b WB DV v d EQ D i I) as (R0 & _ & R1). fold op in R1. cbv beta in R0, R1.
      assert (EL := dv_liq psdm b v 0 i). fold (el (v 1%nat) i) in EL. rewrite E in R0, R1 |- *. change (1 - 1)%nat with 0%nat in R0, R1. rewrite <- EL in R0, R1. cbn [rsum] in R1.
      split; [rewrite R0; field; lra|]. split; [rewrite R1; field; lra|ring].
  - assert (W0 := WP 0%nat ltac:(lia)). assert (W1 := WP 1%nat ltac:(lia)). destruct (radial2 legendre jacobi b HJ E) as (be & BP & B0 & B1). fold op in B0, B1.
    set (g := 3 * b_VR b * rWr op 0%nat * be / b_rb b ^ 2). assert (G : 0 < g) by (unfold g; apply Rdiv_lt_0_compat; [apply Rmult_lt_0_compat; [apply Rmult_lt_0_compat; lra|exact BP]|apply pow_lt, HR]).
    exists (3 * b_VR b * rWr op 1%nat), (3 * b_VR b * rWr op 0%nat), (if psdm then g * (b_EPOR b * (b_Dp b - b_Ds b)) else 0), (g * b_Ds b). rewrite E in WS. cbn [rsum] in WS.
    assert (P0 : 0 < 3 * b_VR b * rWr op 0%nat) by (apply Rmult_lt_0_compat; lra).
    split; [apply Rmult_lt_0_compat; lra|]. split; [lra|]. split.
    { destruct WB as (_ & _ & _ & _ & _ & _ & _ & _ & _ & HE & _). destruct psdm; [|lra]. destruct (HE eq_refl) as (X1 & X2). apply Rmult_le_pos; [lra|apply Rmult_le_pos; lra]. }
    split; [apply Rmult_lt_0_compat; assumption|]. split; [replace (rWr op 0%nat) with (1 / 3 - rWr op 1%nat) by lra; field|]. split; [left; exact P0|]. split.
    + intros v i. unfold amount. rewrite E. cbn [rsum]. ring.
    + intros v d EQ D i I flow inward. unfold flow, inward. destruct (dv_rates legendre jacobi psdm b WB DV v d EQ D i I) as (R0 & R1 & R2). fold op in R1, R2. cbv beta in R0, R2. specialize (R1 0%nat ltac:(lia)).
      assert (EL := dv_liq psdm b v 0 i). fold (el (v 1%nat) i) in EL. assert (EL2 := dv_liq psdm b v 1 i). fold (el (v 2%nat) i) in EL2.
      rewrite E in R0, R1, R2 |- *. change (2 - 1)%nat with 1%nat in R0, R1, R2. rewrite <- EL2 in R0, R2. cbn [rsum] in R1, R2. rewrite B0, B1 in R1, R2.
      assert (SP : b_rb b ^ 2 * (dspeed psdm b v 1 i * v 2%nat i - dspeed psdm b v 0 i * v 1%nat i) =
        (if psdm then b_EPOR b * (b_Dp b - b_Ds b) else 0) * (el (v 2%nat) i - el (v 1%nat) i) + b_Ds b * (v 2%nat i - v 1%nat i)).
      { rewrite EL, EL2. unfold dspeed. destruct psdm; field; lra. }
      assert (IN : (if psdm then g * (b_EPOR b * (b_Dp b - b_Ds b)) else 0) * (el (v 2%nat) i - el (v 1%nat) i) + g * b_Ds b * (v 2%nat i - v 1%nat i) = 3 * b_VR b * rWr op 0%nat * be * (dspeed psdm b v 1 i * v 2%nat i - dspeed psdm b v 0 i * v 1%nat i)).
      { transitivity (g * (b_rb b ^ 2 * (dspeed psdm b v 1 i * v 2%nat i - dspeed psdm b v 0 i * v 1%nat i))); [rewrite SP; destruct psdm; ring|unfold g; field; lra]. }
      rewrite IN. split; [rewrite R0; field; lra|]. split; [rewrite R2; field; lra|rewrite R1; ring].
Qed.

(** ** It settles *)
Lemma dv_settles_from : forall legendre jacobi (psdm : bool) b y,
  good_roots legendre jacobi -> jacobi_roots 2 (b_nr b - 1) (jacobi (b_nr b - 1)%nat (5 / 2) (3 / 2)) ->
  working_batch psdm b -> (b_nr b <= 2)%nat -> 0 < b_RHOP b * b_Qm b ->
  let op := build_radial legendre jacobi (b_nr b) in
  (forall Tf, is_batch_trajectory (b_nr b) (b_NION b) (batch_rhs psdm b op) Tf y) -> divalent_start b (y 0) ->
  forall A : nat -> R, (forall i, (i < b_NION b)%nat -> amount (b_nr b) (rWr op) (b_VL b) (b_VR b) (y 0) i = A i) ->
  let at_ratio p := 0 < p /\ rsum (b_NION b) (fun i => A i / (b_VL b * / dK psdm b i * p ^ b_val b i + b_VR b)) = b_Q b in
  (exists p, at_ratio p) /\ forall p, at_ratio p ->
  let q i := A i / (b_VL b * / dK psdm b i * p ^ b_val b i + b_VR b) in
  let C i := (A i - b_VR b * q i) / b_VL b in
  (forall i, (i < b_NION b)%nat -> vanishes (fun T => y T 0%nat i - C i) /\ forall r, (1 <= r <= b_nr b)%nat -> vanishes (fun T => y T r i - q i)) /\
  (forall i, (i < b_NION b)%nat -> 0 <= q i /\ 0 <= C i) /\
  in_equilibrium (b_NION b) (b_K b) (b_val b) (fun i => q i / (if psdm then 1 - b_EPOR b else 1)) C /\
  rsum (b_NION b) C = rsum (b_NION b) (b_C0 b) /\ rsum (b_NION b) q = b_RHOP b * b_Qm b /\
  (forall i, (i < b_NION b)%nat -> b_VL b * C i + b_VR b * q i = amount (b_nr b) (rWr op) (b_VL b) (b_VR b) (y 0) i).
Proof.
  intros legendre jacobi psdm b y HG HJ WB N2 HQ op TR SS A EA at_ratio.
  assert (N1 : (1 <= b_nr b)%nat) by apply WB. assert (HV : 0 < b_VR b) by apply WB. assert (HR : 0 < b_rb b) by apply WB. assert (HL : 0 < b_VL b) by apply WB. assert (HKL : 0 < b_kL b) by apply WB.
  assert (N0 : (0 < b_NION b)%nat) by apply WB. assert (HK : forall i, (i < b_NION b)%nat -> 0 < dK psdm b i) by (intros i I; apply dK_pos; assumption). assert (DV := proj1 (proj2 SS)). assert (Hz : forall i, (i < b_NION b)%nat -> b_val b i = 1%nat \/ b_val b i = 2%nat) by apply WB. assert (CT := ct_pos psdm b WB). change (0 < b_Q b) in HQ.
  destruct (dv_exchange legendre jacobi psdm b HG HJ WB N2 DV) as (ws & w1 & al & de & Pws & Pw1 & Pal & Pde & WW & SOLE & AM & RT). fold op in AM, RT.
  set (n := b_NION b) in *. set (K := dK psdm b) in *. set (VL := b_VL b) in *. set (VR := b_VR b) in *.
  (* what is kept *)
  assert (RUN : forall T, 0 <= T -> _) by (intros T HT; exact (run_keeps legendre jacobi psdm b T y HJ WB N2 HQ (TR T) SS T (conj HT (Rle_refl T)))). cbv beta in RUN.
  assert (PT : forall r i t, (r <= b_nr b)%nat -> (i < n)%nat -> 0 <= t -> 0 <= y t r i) by (intros r i t R I T; apply (RUN t T); assumption).
  assert (SL : forall t, 0 <= t -> rsum n (y t 0%nat) = b_CT b) by (intros t T; apply (RUN t T)).
  assert (SR : forall r t, (1 <= r <= b_nr b)%nat -> 0 <= t -> rsum n (y t r) = b_Q b) by (intros r t R T; apply (RUN t T); exact R).
  assert (HA : forall i t, (i < n)%nat -> 0 <= t -> VL * y t 0%nat i + ws * y t (b_nr b) i + w1 * y t 1%nat i = A i).
  { intros i t I T. rewrite <- AM, <- (EA i I). apply (C17_batch_mass_conserved legendre jacobi psdm b t y HG N1); try lra; try (unfold VL in HL; lra); [apply TR|exact I]. }
  set (d := fun t => tot_rhs psdm b op (y t)).
  assert (EV : forall r i B, (r <= b_nr b)%nat -> (i < n)%nat -> evolves 0 B (fun t => y t r i) (fun t => d t r i)).
  { intros r i B R I. destruct (TR B) as (d1 & D1 & E1). refine (evolves_ext 0 B _ _ _ _ _ _ (E1 r i R I)); [reflexivity|]. intros t Ht. apply tot_rhs_ok, D1, Ht. }
  assert (RATE : forall i t, (i < n)%nat -> 0 < t -> let flow := 3 * VR * b_kL b / b_rb b * (y t 0%nat i - eliq n (b_val b) K (b_CT b) (y t (b_nr b)) i) in
     let inward := al * (eliq n (b_val b) K (b_CT b) (y t (b_nr b)) i - eliq n (b_val b) K (b_CT b) (y t 1%nat) i) + de * (y t (b_nr b) i - y t 1%nat i) in
     VL * d t 0%nat i = - flow /\ ws * d t (b_nr b) i = flow - inward /\ w1 * d t 1%nat i = inward).
  { intros i t I T. destruct (TR (t + 1)) as (d1 & D1 & _). specialize (D1 t ltac:(lra)). unfold d. rewrite <- !(tot_rhs_ok psdm b op (y t) (d1 t) D1).
    apply (RT (y t) (d1 t) D1); [|exact I]. intros r R. apply (RUN t ltac:(lra)), R. }
  (* the state it ends in *)
  assert (AN : forall i, (i < n)%nat -> 0 <= A i).
  { intros i I. rewrite <- (HA i 0 I (Rle_refl 0)). assert (0 <= VL * y 0 0%nat i) by (apply Rmult_le_pos; [lra|apply PT; [lia|exact I|lra]]).
    assert (0 <= ws * y 0 (b_nr b) i) by (apply Rmult_le_pos; [lra|apply PT; [lia|exact I|lra]]). assert (0 <= w1 * y 0 1%nat i) by (apply Rmult_le_pos; [lra|apply PT; [lia|exact I|lra]]). lra. }
  assert (AS : rsum n A = VL * b_CT b + VR * b_Q b).
  { rewrite (rsum_ext n A (fun i => VL * y 0 0%nat i + ws * y 0 (b_nr b) i + w1 * y 0 1%nat i)) by (intros i I; symmetry; apply HA; [exact I|lra]).
    rewrite (rsum_plus n (fun i => VL * y 0 0%nat i + ws * y 0 (b_nr b) i) (fun i => w1 * y 0 1%nat i)), (rsum_plus n (fun i => VL * y 0 0%nat i) (fun i => ws * y 0 (b_nr b) i)), !rsum_scal.
    rewrite (SL 0 (Rle_refl 0)), (SR (b_nr b) 0 ltac:(lia) (Rle_refl 0)), (SR 1%nat 0 ltac:(lia) (Rle_refl 0)), <- WW. ring. }
  assert (P1 : 0 < VL * b_CT b) by (apply Rmult_lt_0_compat; assumption).
  split.
  { apply (resin_total_any n (fun i => / K i) (b_val b) A VL VR (b_Q b)); try assumption; try lra; try lia. intros i I. apply Rinv_0_lt_compat, HK, I. }
  intros p AR q C. assert (PP : 0 < p) by apply AR. assert (EP := proj2 AR).
  change (rsum n q = b_Q b) in EP.
  assert (DP : forall i, (i < n)%nat -> 0 < VL * / K i * p ^ b_val b i + VR).
  { intros i I. assert (0 < VL * / K i * p ^ b_val b i); [|lra]. apply Rmult_lt_0_compat; [apply Rmult_lt_0_compat; [exact HL|apply Rinv_0_lt_compat, HK, I]|apply pow_lt, PP]. }
  assert (CQ : forall i, (i < n)%nat -> C i = q i / K i * p ^ b_val b i).
  { intros i I. assert (X := DP i I). assert (KI := HK i I). assert (AE : A i = q i * (VL * / K i * p ^ b_val b i + VR)) by (unfold q, Rdiv; rewrite Rmult_assoc, Rinv_l by lra; ring).
    unfold C. rewrite AE. field. lra. }
  assert (QN : forall i, (i < n)%nat -> 0 <= q i) by (intros i I; apply Rmult_le_pos; [apply AN, I|left; apply Rinv_0_lt_compat, DP, I]).
  assert (Hq : forall i, (i < n)%nat -> q i * (ws + w1 + VL * / K i * p ^ b_val b i) = A i).
  { intros i I. assert (KI := HK i I). assert (X := CQ i I). unfold C in X. assert (A i = VL * (q i / K i * p ^ b_val b i) + (ws + w1) * q i) by (rewrite <- X, WW; field; lra). rewrite H. field. lra. }
  assert (Hka : 0 < 3 * VR * b_kL b / b_rb b) by (apply Rdiv_lt_0_compat; [apply Rmult_lt_0_compat; lra|exact HR]).
  pose (C_ := fun i t => y t 0%nat i). pose (Y_ := fun i t => y t (b_nr b) i). pose (Z_ := fun i t => y t 1%nat i).
  assert (EC : forall i B, (i < n)%nat -> evolves 0 B (C_ i) (fun t => d t 0%nat i)) by (intros; apply EV; [lia|assumption]).
  assert (EY : forall i B, (i < n)%nat -> evolves 0 B (Y_ i) (fun t => d t (b_nr b) i)) by (intros; apply EV; [lia|assumption]).
  assert (EZ : forall i B, (i < n)%nat -> evolves 0 B (Z_ i) (fun t => d t 1%nat i)) by (intros; apply EV; [lia|assumption]).
  assert (SO : 0 < w1 \/ forall i t, (i < n)%nat -> Z_ i t = Y_ i t) by (destruct SOLE as [L|L]; [left; exact L|right; intros; unfold Y_, Z_; rewrite L; reflexivity]).
  assert (FC := C_settles n (b_val b) K (b_CT b) (b_Q b) VL _ ws w1 al de HK Hz N0 CT HQ HL Hka Pws Pw1 Pal Pde C_ Y_ Z_ (fun i t => d t 0%nat i) (fun i t => d t (b_nr b) i) (fun i t => d t 1%nat i) EC EY EZ
    (fun i t I T => proj1 (RATE i t I T)) (fun i t I T => proj1 (proj2 (RATE i t I T))) (fun i t I T => proj2 (proj2 (RATE i t I T))) SO
    (fun i t I T => PT 0%nat i t (Nat.le_0_l _) I T) (fun i t I T => PT (b_nr b) i t (le_n _) I T) (fun i t I T => PT 1%nat i t N1 I T)
    (fun t T => SL t T) (fun t T => SR (b_nr b) t (conj N1 (le_n _)) T) (fun t T => SR 1%nat t (conj (le_n _) N1) T) A HA q p PP Hq EP).
  assert (FY := Y_settles n (b_val b) K (b_CT b) (b_Q b) VL _ ws w1 al de HK Hz N0 CT HQ HL Hka Pws Pw1 Pal Pde C_ Y_ Z_ (fun i t => d t 0%nat i) (fun i t => d t (b_nr b) i) (fun i t => d t 1%nat i) EC EY EZ
    (fun i t I T => proj1 (RATE i t I T)) (fun i t I T => proj1 (proj2 (RATE i t I T))) (fun i t I T => proj2 (proj2 (RATE i t I T))) SO
    (fun i t I T => PT 0%nat i t (Nat.le_0_l _) I T) (fun i t I T => PT (b_nr b) i t (le_n _) I T) (fun i t I T => PT 1%nat i t N1 I T)
    (fun t T => SL t T) (fun t T => SR (b_nr b) t (conj N1 (le_n _)) T) (fun t T => SR 1%nat t (conj (le_n _) N1) T) A HA q p PP Hq EP).
  assert (FZ := Z_settles n (b_val b) K (b_CT b) (b_Q b) VL _ ws w1 al de HK Hz N0 CT HQ HL Hka Pws Pw1 Pal Pde C_ Y_ Z_ (fun i t => d t 0%nat i) (fun i t => d t (b_nr b) i) (fun i t => d t 1%nat i) EC EY EZ
    (fun i t I T => proj1 (RATE i t I T)) (fun i t I T => proj1 (proj2 (RATE i t I T))) (fun i t I T => proj2 (proj2 (RATE i t I T))) SO
    (fun i t I T => PT 0%nat i t (Nat.le_0_l _) I T) (fun i t I T => PT (b_nr b) i t (le_n _) I T) (fun i t I T => PT 1%nat i t N1 I T)
    (fun t T => SL t T) (fun t T => SR (b_nr b) t (conj N1 (le_n _)) T) (fun t T => SR 1%nat t (conj (le_n _) N1) T) A HA q p PP Hq EP).
  rewrite WW in FC. split; [|split; [|split; [|split; [|split]]]].
  - intros i I. split; [apply FC, I|]. intros r R. assert (CR : r = b_nr b \/ r = 1%nat) by lia. destruct CR as [->| ->]; [apply FY, I|apply FZ, I].
  - intros i I. split; [apply QN, I|]. rewrite CQ by exact I. apply Rmult_le_pos; [apply Rmult_le_pos; [apply QN, I|left; apply Rinv_0_lt_compat, HK, I]|left; apply pow_lt, PP].
  - apply (shape_equilibrium n (b_K b) (b_val b) _ C p N0); [apply WB|split; [apply WB|exact Hz]|]. intros i I. rewrite (CQ i I). unfold coef. rewrite (proj2 (has2_true n (b_val b)) DV).
    assert (TP := th_pos psdm b WB). assert (KI : 0 < b_K b i) by (apply WB; exact I). change (if psdm then 1 - b_EPOR b else 1) with (btheta psdm b). unfold K, dK. destruct (Nat.eqb i 0); field; lra.
  - rewrite (rsum_ext n C (fun i => / VL * (A i + - VR * q i))) by (intros i I; unfold C; field; lra). rewrite rsum_scal, (rsum_plus n A (fun i => - VR * q i)), rsum_scal, EP, AS. change (rsum n (b_C0 b)) with (b_CT b). field. lra.
  - exact EP.
  - intros i I. rewrite (EA i I). unfold C. field. lra.
Qed.

Theorem C195_divalent_settle : forall legendre jacobi (psdm : bool) b y,
  good_roots legendre jacobi -> jacobi_roots 2 (b_nr b - 1) (jacobi (b_nr b - 1)%nat (5 / 2) (3 / 2)) ->
  working_batch psdm b -> (b_nr b <= 2)%nat -> 0 < b_RHOP b * b_Qm b ->
  let op := build_radial legendre jacobi (b_nr b) in
  (forall Tf, is_batch_trajectory (b_nr b) (b_NION b) (batch_rhs psdm b op) Tf y) -> divalent_start b (y 0) ->
  exists q C : nat -> R,
  (forall i, (i < b_NION b)%nat -> vanishes (fun T => y T 0%nat i - C i) /\ forall r, (1 <= r <= b_nr b)%nat -> vanishes (fun T => y T r i - q i)) /\
  (forall i, (i < b_NION b)%nat -> 0 <= q i /\ 0 <= C i) /\
  in_equilibrium (b_NION b) (b_K b) (b_val b) (fun i => q i / (if psdm then 1 - b_EPOR b else 1)) C /\
  rsum (b_NION b) C = rsum (b_NION b) (b_C0 b) /\ rsum (b_NION b) q = b_RHOP b * b_Qm b /\
  (forall i, (i < b_NION b)%nat -> b_VL b * C i + b_VR b * q i = amount (b_nr b) (rWr op) (b_VL b) (b_VR b) (y 0) i).
Proof.
  intros legendre jacobi psdm b y HG HJ WB N2 HQ op TR SS.
  destruct (dv_settles_from legendre jacobi psdm b y HG HJ WB N2 HQ TR SS _ (fun i _ => eq_refl)) as ((p & P) & ALL). eexists _, _. exact (ALL p P).
Qed.

(** Only how much of each ion there is matters for where it ends. *)
Theorem C195_divalent_forget : forall legendre jacobi (psdm : bool) b y1 y2,
  good_roots legendre jacobi -> jacobi_roots 2 (b_nr b - 1) (jacobi (b_nr b - 1)%nat (5 / 2) (3 / 2)) ->
  working_batch psdm b -> (b_nr b <= 2)%nat -> 0 < b_RHOP b * b_Qm b ->
  let op := build_radial legendre jacobi (b_nr b) in
  (forall Tf, is_batch_trajectory (b_nr b) (b_NION b) (batch_rhs psdm b op) Tf y1) -> divalent_start b (y1 0) ->
  (forall Tf, is_batch_trajectory (b_nr b) (b_NION b) (batch_rhs psdm b op) Tf y2) -> divalent_start b (y2 0) ->
  (forall i, (i < b_NION b)%nat -> amount (b_nr b) (rWr op) (b_VL b) (b_VR b) (y1 0) i = amount (b_nr b) (rWr op) (b_VL b) (b_VR b) (y2 0) i) ->
  forall r i, (r <= b_nr b)%nat -> (i < b_NION b)%nat -> vanishes (fun T => y1 T r i - y2 T r i).
Proof.
  intros legendre jacobi psdm b y1 y2 HG HJ WB N2 HQ op T1 S1 T2 S2 EQ r i R I.
  destruct (dv_settles_from legendre jacobi psdm b y1 HG HJ WB N2 HQ T1 S1 _ EQ) as ((p & P) & ALL).
  destruct (dv_settles_from legendre jacobi psdm b y2 HG HJ WB N2 HQ T2 S2 _ (fun i _ => eq_refl)) as (_ & ALL2).
  destruct (ALL p P) as (V1 & _). destruct (ALL2 p P) as (V2 & _). clear ALL ALL2. destruct (V1 i I) as (A1 & A2). destruct (V2 i I) as (B1 & B2).
  destruct r as [|r].
  - refine (vanishes_ext _ _ _ (vanishes_plus _ _ A1 (vanishes_scal (-1) _ B1))). intros t. fold op. ring.
  - refine (vanishes_ext _ _ _ (vanishes_plus _ _ (A2 (S r) ltac:(lia)) (vanishes_scal (-1) _ (B2 (S r) ltac:(lia))))). intros t. fold op. ring.
Qed.

(** ** The run has no end *)
Lemma dv_clear_as (psdm : bool) b v w : (0 < b_NION b)%nat -> (forall r i, (r <= b_nr b)%nat -> (i < b_NION b)%nat -> v r i = w r i) ->
  (forall r, (r < b_nr b)%nat -> clear psdm b v r) -> forall r, (r < b_nr b)%nat -> clear psdm b w r.
Proof.
  intros N0 VW D r R. destruct (D r R) as (D0 & D1 & D2). unfold clear, da, dd in *. split; [rewrite <- VW by (assumption || lia); exact D0|]. split.
  - replace (ea (b_NION b) (b_val b) (dK psdm b) (w (S r))) with (ea (b_NION b) (b_val b) (dK psdm b) (v (S r))); [exact D1|]. apply rsum_ext. intros j J. rewrite VW by (assumption || lia). reflexivity.
  - replace (ed (b_NION b) (b_val b) (dK psdm b) (w (S r))) with (ed (b_NION b) (b_val b) (dK psdm b) (v (S r))); [exact D2|]. apply rsum_ext. intros j J. rewrite VW by (assumption || lia). reflexivity.
Qed.
Lemma dv_same legendre jacobi (psdm : bool) b v w d e : working_batch psdm b -> (exists j, (j < b_NION b)%nat /\ b_val b j = 2%nat) ->
  let op := build_radial legendre jacobi (b_nr b) in
  (forall r i, (r <= b_nr b)%nat -> (i < b_NION b)%nat -> v r i = w r i) -> (forall r, (r < b_nr b)%nat -> clear psdm b v r) ->
  batch_rhs psdm b op v = Some d -> batch_rhs psdm b op w = Some e ->
  forall r i, (r <= b_nr b)%nat -> (i < b_NION b)%nat -> d r i = e r i.
Proof.
  intros WB DV op VW D E1 E2 r i R I. assert (N1 : (1 <= b_nr b)%nat) by apply WB.
  assert (DA : forall k, (k < b_nr b)%nat -> da psdm b v k = da psdm b w k) by (intros k Hk; apply rsum_ext; intros j J; rewrite VW by (assumption || lia); reflexivity).
  assert (DD : forall k, (k < b_nr b)%nat -> dd psdm b v k = dd psdm b w k) by (intros k Hk; apply rsum_ext; intros j J; rewrite VW by (assumption || lia); reflexivity).
  assert (N0 : (0 < b_NION b)%nat) by apply WB.
  assert (DW : forall k, (k < b_nr b)%nat -> clear psdm b w k) by (intros k Hk; unfold clear; rewrite <- VW, <- DA, <- DD by (assumption || lia); apply D, Hk).
  assert (DE : forall k, (k < b_nr b)%nat -> dp psdm b v k = dp psdm b w k).
  { intros k Hk. unfold dp, ep. change (ratio (b_CT b) (da psdm b v k) (dd psdm b v k) = ratio (b_CT b) (da psdm b w k) (dd psdm b w k)). rewrite DA, DD by exact Hk. reflexivity. }
  destruct (dv_rates legendre jacobi psdm b WB DV v d E1 D i I) as (A0 & A1 & A2).
  destruct (dv_rates legendre jacobi psdm b WB DV w e E2 DW i I) as (B0 & B1 & B2). cbv beta in A0, A2, B0, B2.
  assert (SH : forall k, (k < b_nr b)%nat -> dshare psdm b v k i = dshare psdm b w k i) by (intros k Hk; unfold dshare; rewrite DE by exact Hk; reflexivity).
  assert (TM : forall k, rsum (b_nr b) (fun m => rBr op k m * (dspeed psdm b v m i * v (S m) i)) = rsum (b_nr b) (fun m => rBr op k m * (dspeed psdm b w m i * w (S m) i))).
  { intros k. apply rsum_ext. intros m M. unfold dspeed. rewrite SH by exact M. rewrite (VW (S m) i) by (assumption || lia). reflexivity. }
  assert (CASE : r = 0%nat \/ r = b_nr b \/ exists k, r = S k /\ (k < b_nr b - 1)%nat).
  { destruct r as [|k]; [left; reflexivity|right]. destruct (Nat.eq_dec (S k) (b_nr b)) as [E|E]; [left; exact E|right; exists k; split; [reflexivity|lia]]. }
  destruct CASE as [->|[->|(k & -> & Hk)]].
  - rewrite A0, B0, SH, (VW 0%nat i), (VW (b_nr b) i) by (assumption || lia). reflexivity.
  - rewrite A2, B2, SH, (VW 0%nat i), (VW (b_nr b) i) by (assumption || lia). do 2 f_equal. apply rsum_ext. intros k _. f_equal. apply TM.
  - rewrite A1, B1 by exact Hk. apply TM.
Qed.
Section DvEndless.
Variables (legendre : nat -> nat -> R) (jacobi : nat -> R -> R -> nat -> R) (psdm : bool) (b : batch) (u0 : nat -> nat -> R).
Hypothesis HJ : jacobi_roots 2 (b_nr b - 1) (jacobi (b_nr b - 1)%nat (5 / 2) (3 / 2)).
Hypothesis WB : working_batch psdm b.
Hypothesis N2 : (b_nr b <= 2)%nat.
Hypothesis HQ : 0 < b_RHOP b * b_Qm b.
Hypothesis SS : divalent_start b u0.
Let op := build_radial legendre jacobi (b_nr b).
Definition runs (Tf : R) (y : R -> nat -> nat -> R) : Prop :=
  is_batch_trajectory (b_nr b) (b_NION b) (batch_rhs psdm b op) Tf y /\ forall r i, (r <= b_nr b)%nat -> (i < b_NION b)%nat -> y 0 r i = u0 r i.
Lemma runs_sub T1 T2 y : T1 <= T2 -> runs T2 y -> runs T1 y.
Proof. intros L ((d & D & E) & Y0). split; [|exact Y0]. exists d. split; [intros T HT; apply D; lra|]. intros r i R I. apply (evolves_sub 0 T2); [exact L|apply E; assumption]. Qed.
Lemma runs_clear Tf y : runs Tf y -> forall T r, 0 <= T <= Tf -> (r < b_nr b)%nat -> clear psdm b (y T) r.
Proof.
  intros (TR & Y0) T r HT R. assert (N0 : (0 < b_NION b)%nat) by apply WB.
  assert (DY : divalent_start b (y 0)) by (apply (start_as b _ u0); assumption).
  apply (run_keeps legendre jacobi psdm b Tf y HJ WB N2 HQ TR DY T HT), R.
Qed.
Lemma runs_agree T1 T2 y1 y2 t r i : runs T1 y1 -> runs T2 y2 -> 0 <= t -> t <= T1 -> t <= T2 -> (r <= b_nr b)%nat -> (i < b_NION b)%nat -> y1 t r i = y2 t r i.
Proof.
  intros H1 H2 T L1 L2 R I. apply (runs_sub t) in H1; [|exact L1]. apply (runs_sub t) in H2; [|exact L2].
  apply (C158_batch_partial psdm b op t y1 y2); try (apply WB); try apply H1; try apply H2; try assumption; try lra.
  - intros k j K J. destruct H1 as (_ & Y1). destruct H2 as (_ & Y2). rewrite Y1, Y2 by assumption. reflexivity.
  - intros s Hs. apply (dv_use psdm b WB (proj1 (proj2 SS)) N2 (y1 s)). intros k K. apply (runs_clear t y1 H1 s k Hs K).
Qed.
Definition at_time (r i : nat) (t x : R) : Prop := exists y, runs (Rmax t 0 + 1) y /\ y (Rmax t 0) r i = x.
Lemma at_some r i t : exists x, at_time r i t x.
Proof.
  assert (A := Rmax_r t 0). destruct (C200_divalent_lasts legendre jacobi psdm b u0 (Rmax t 0 + 1) HJ WB N2 HQ SS ltac:(lra)) as (y & TR & Y0).
  exists (y (Rmax t 0) r i), y. split; [split; assumption|reflexivity].
Qed.
Lemma at_one r i (R : (r <= b_nr b)%nat) (I : (i < b_NION b)%nat) t x z : at_time r i t x -> at_time r i t z -> x = z.
Proof. assert (A := Rmax_r t 0). intros (y & H & <-) (w & G & <-). apply (runs_agree (Rmax t 0 + 1) (Rmax t 0 + 1)); try assumption; lra. Qed.
Definition endless (t : R) (r i : nat) : R :=
  match le_dec r (b_nr b), lt_dec i (b_NION b) with
  | left Hr, left Hi => proj1_sig (the_number (at_time r i t) (at_some r i t) (at_one r i Hr Hi t))
  | _, _ => 0
  end.
Lemma endless_is Tf y t r i : runs Tf y -> Rmax t 0 <= Tf -> (r <= b_nr b)%nat -> (i < b_NION b)%nat -> endless t r i = y (Rmax t 0) r i.
Proof.
  intros H L R I. assert (A := Rmax_r t 0). unfold endless. destruct (le_dec r (b_nr b)) as [R1|]; [|contradiction]. destruct (lt_dec i (b_NION b)) as [I1|]; [|contradiction].
  destruct (the_number _ _ _) as (x & w & G & <-). cbn. apply (runs_agree (Rmax t 0 + 1) Tf); try assumption; lra.
Qed.
Lemma endless_clear t r : 0 <= t -> (r < b_nr b)%nat -> clear psdm b (endless t) r.
Proof.
  intros T. assert (N0 : (0 < b_NION b)%nat) by apply WB. destruct (C200_divalent_lasts legendre jacobi psdm b u0 (t + 1) HJ WB N2 HQ SS ltac:(lra)) as (y & TR & Y0). assert (H : runs (t + 1) y) by (split; assumption).
  apply (dv_clear_as psdm b (y t) (endless t) N0).
  - intros k j K J. rewrite (endless_is (t + 1) y t k j H) by (assumption || (rewrite Rmax_left; lra)). rewrite Rmax_left by lra. reflexivity.
  - intros k K. apply (runs_clear (t + 1) y H); [lra|exact K].
Qed.
Lemma endless_runs Tf : is_batch_trajectory (b_nr b) (b_NION b) (batch_rhs psdm b op) Tf endless.
Proof.
  assert (DV := proj1 (proj2 SS)).
  assert (SOME : forall T, 0 < T -> exists d, batch_rhs psdm b op (endless T) = Some d) by (intros T HT; apply (dv_some legendre jacobi psdm b WB DV); intros r R; apply endless_clear; [lra|exact R]).
  exists (fun T => match batch_rhs psdm b op (endless T) with Some d => d | None => fun _ _ => 0 end). split.
  { intros T HT. destruct (SOME T ltac:(lra)) as (d & ->). reflexivity. }
  intros r i R I. destruct (Rlt_le_dec Tf 0) as [NE|TF]; [split; intros t Ht; exfalso; lra|].
  destruct (C200_divalent_lasts legendre jacobi psdm b u0 (Tf + 1) HJ WB N2 HQ SS ltac:(lra)) as (y & TR & Y0). assert (H : runs (Tf + 1) y) by (split; assumption). destruct TR as (d & D & E).
  apply (Props_PacSettle.glue_evolves 0 Tf (fun t => endless t r i) (fun t => y t r i) (fun t => d t r i)); [|intros t Ht|apply E; assumption].
  - intros t Ht. apply (endless_is (Tf + 1) y t r i H Ht R I).
  - destruct (SOME t ltac:(lra)) as (e & EE). rewrite EE.
    apply (dv_same legendre jacobi psdm b (y t) (endless t) (d t) e WB DV); try assumption.
    + intros k j K J. rewrite (endless_is (Tf + 1) y t k j H) by (assumption || (rewrite Rmax_left; lra)). rewrite Rmax_left by lra. reflexivity.
    + intros k K. apply (runs_clear (Tf + 1) y H); [lra|exact K].
    + apply D. lra.
Qed.
Lemma endless_start r i : (r <= b_nr b)%nat -> (i < b_NION b)%nat -> endless 0 r i = u0 r i.
Proof.
  intros R I. destruct (C200_divalent_lasts legendre jacobi psdm b u0 1 HJ WB N2 HQ SS ltac:(lra)) as (y & TR & Y0).
  rewrite (endless_is 1 y 0 r i (conj TR Y0)) by (assumption || (rewrite Rmax_left; lra)). rewrite Rmax_left by lra. apply Y0; assumption.
Qed.
End DvEndless.

(** One run for all times. *)
Theorem C200_divalent_endless : forall legendre jacobi (psdm : bool) b u0,
  jacobi_roots 2 (b_nr b - 1) (jacobi (b_nr b - 1)%nat (5 / 2) (3 / 2)) -> working_batch psdm b -> (b_nr b <= 2)%nat -> 0 < b_RHOP b * b_Qm b -> divalent_start b u0 ->
  exists y, (forall Tf, is_batch_trajectory (b_nr b) (b_NION b) (batch_rhs psdm b (build_radial legendre jacobi (b_nr b))) Tf y) /\
    forall r i, (r <= b_nr b)%nat -> (i < b_NION b)%nat -> y 0 r i = u0 r i.
Proof.
  intros legendre jacobi psdm b u0 HJ WB N2 HQ SS. exists (endless legendre jacobi psdm b u0 HJ WB N2 HQ SS). split; [apply endless_runs|apply endless_start].
Qed.
Print Assumptions C200_divalent_stays_physical.
Print Assumptions C196_divalent_two_points_partial.
Print Assumptions C200_divalent_lasts.
Print Assumptions C200_divalent_fresh_start.
Print Assumptions C195_divalent_settle.
Print Assumptions C195_divalent_forget.
Print Assumptions C200_divalent_endless.

(** Chloride, sulphate and nitrate on two radial points: the run from the start that the code makes
    has no end, stays physical and settles, with either model. *)
Definition beaker : batch :=
  {| b_NION := 3; b_nr := 2; b_Qm := 2; b_RHOP := 1; b_EPOR := 1 / 2; b_VR := 1; b_VL := 10;
     b_Ds := 1; b_Dp := 2; b_kL := 1; b_rb := 1; b_C0 := fun _ => 1; b_K := fun i => INR (S i); b_val := fun i => if Nat.eqb i 1 then 2%nat else 1%nat |}.
Example beaker_settles : forall psdm : bool, exists legendre jacobi y, good_roots legendre jacobi /\ jacobi_roots 2 1 (jacobi 1%nat (5 / 2) (3 / 2)) /\ working_batch psdm beaker /\
  (forall Tf, is_batch_trajectory 2 3 (batch_rhs psdm beaker (build_radial legendre jacobi 2)) Tf y) /\
  (forall r i, (r <= 2)%nat -> (i < 3)%nat -> y 0 r i = batch_initial beaker r i) /\ divalent_start beaker (y 0) /\
  (forall T, 0 <= T -> divalent_start beaker (y T)) /\
  exists q C, (forall i, (i < 3)%nat -> vanishes (fun T => y T 0%nat i - C i) /\ forall r, (1 <= r <= 2)%nat -> vanishes (fun T => y T r i - q i)) /\ rsum 3 q = 2 /\ rsum 3 C = 3.
Proof.
  intros psdm. destruct (jacobi_exist 2 1) as (r & Hr). exists even_roots, (fun m _ _ => if Nat.eqb m 1 then r else even_roots m).
  destruct even_roots_good as (GL & GJ).
  assert (HG : good_roots even_roots (fun m _ _ => if Nat.eqb m 1 then r else even_roots m)).
  { split; [exact GL|]. intros m p q. destruct (Nat.eqb_spec m 1) as [->|N]; [apply Hr|apply (GJ m p q)]. }
  assert (SK : selectivities 3 (b_K beaker)) by (intros i _; cbn [b_K beaker]; apply lt_0_INR; lia).
  assert (WB : working_batch psdm beaker) by (repeat split; try (cbn; lia); try (cbn; lra); try exact SK; intros i I; cbn [b_val beaker]; destruct (Nat.eqb i 1); [right|left]; reflexivity).
  assert (HQ : 0 < b_RHOP beaker * b_Qm beaker) by (cbn; lra).
  assert (SS : divalent_start beaker (batch_initial beaker)) by (apply (C200_divalent_fresh_start psdm beaker WB HQ); [intros; cbn; lra|exists 1%nat; split; [cbn; lia|reflexivity]|cbn [b_NION beaker]; lia]).
  destruct (C200_divalent_endless even_roots (fun m _ _ => if Nat.eqb m 1 then r else even_roots m) psdm beaker (batch_initial beaker) Hr WB ltac:(cbn; lia) HQ SS) as (y & TR & Y0).
  assert (S0 : divalent_start beaker (y 0)) by (apply (start_as beaker _ (batch_initial beaker)); [exact Y0|cbn; lia|exact SS]).
  exists y. split; [exact HG|]. split; [exact Hr|]. split; [exact WB|]. split; [exact TR|]. split; [exact Y0|]. split; [exact S0|]. split.
  { intros T HT. apply (C200_divalent_stays_physical even_roots (fun m _ _ => if Nat.eqb m 1 then r else even_roots m) psdm beaker T y Hr WB ltac:(cbn; lia) HQ (TR T) S0). lra. }
  destruct (C195_divalent_settle even_roots (fun m _ _ => if Nat.eqb m 1 then r else even_roots m) psdm beaker y HG Hr WB ltac:(cbn; lia) HQ TR S0) as (q & C & V & _ & _ & EC & EQ & _).
  exists q, C. split; [exact V|]. split; [etransitivity; [exact EQ|cbn; ring]|etransitivity; [exact EC|cbn; ring]].
Qed.
