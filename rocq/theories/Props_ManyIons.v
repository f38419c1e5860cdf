(** C195 — a batch reactor with any number of monovalent ions on one or two radial points settles;
    C200 — its run has no end. *)
From Coq Require Import Reals List Arith Bool Lra Lia.
From Verif Require Import Lib_Py Lib_Sum Lib_Traj Lib_Settle P_Settle S_Colloc M_Colloc S_Radial P_Radial P_JacobiRoots S_IxColumn Props_Negative.
From Verif Require Import M_IxEq S_IxEq M_IxBatch S_IxBatch P_IxBatch S_Unique Props_Rest P_Exhaust Props_IxColumn Props_IxBatch Props_Unique Props_BatchTwo P_Entropy.
From Verif Require Props_PacSettle.
Import ListNotations.
Open Scope R_scope.

Lemma eliq_is (psdm : bool) b v r i : working_batch psdm b -> (i < b_NION b)%nat -> 0 < den b v r ->
  eliq (b_NION b) (b_K b) (b_CT b) (v (S r)) i = share b v r i * v (S r) i.
Proof.
  intros WB I D. assert (KI : 0 < b_K b i) by (apply WB; exact I). unfold eliq, share. change (eden (b_NION b) (b_K b) (v (S r))) with (den b v r). field. lra.
Qed.

(** ** The reactor as an exchange between liquid, bead surface and core *)
Lemma as_exchange legendre jacobi (psdm : bool) b :
  good_roots legendre jacobi -> jacobi_roots 2 (b_nr b - 1) (jacobi (b_nr b - 1)%nat (5 / 2) (3 / 2)) ->
  working_batch psdm b -> (b_nr b <= 2)%nat -> (forall i, (i < b_NION b)%nat -> b_val b i = 1%nat) ->
  let op := build_radial legendre jacobi (b_nr b) in
  let el (q : nat -> R) i := eliq (b_NION b) (b_K b) (b_CT b) q i in
  exists ws w1 al de, 0 < ws /\ 0 <= w1 /\ 0 <= al /\ 0 < de /\ ws + w1 = b_VR b /\ (0 < w1 \/ b_nr b = 1%nat) /\
  (forall v i, amount (b_nr b) (rWr op) (b_VL b) (b_VR b) v i = b_VL b * v 0%nat i + ws * v (b_nr b) i + w1 * v 1%nat i) /\
  forall v d, batch_rhs psdm b op v = Some d -> (forall r, (r < b_nr b)%nat -> 0 < den b v r) -> forall i, (i < b_NION b)%nat ->
  let flow := 3 * b_VR b * b_kL b / b_rb b * (v 0%nat i - el (v (b_nr b)) i) in
  let inward := al * (el (v (b_nr b)) i - el (v 1%nat) i) + de * (v (b_nr b) i - v 1%nat i) in
  b_VL b * d 0%nat i = - flow /\ ws * d (b_nr b) i = flow - inward /\ w1 * d 1%nat i = inward.
Proof.
  intros HG HJ WB N2 MV op el.
  assert (N1 : (1 <= b_nr b)%nat) by apply WB. assert (HV : 0 < b_VR b) by apply WB. assert (HR : 0 < b_rb b) by apply WB. assert (HL : 0 < b_VL b) by apply WB.
  destruct (radial_ok legendre jacobi (b_nr b) N1 HG) as (_ & _ & WS). fold op in WS.
  assert (WP := w_pos legendre jacobi b HJ). fold op in WP. assert (HD : 0 < b_Ds b) by apply WB.
  assert (CASE : b_nr b = 1%nat \/ b_nr b = 2%nat) by lia. destruct CASE as [E|E].
  - assert (W0 := WP 0%nat ltac:(lia)). exists (3 * b_VR b * rWr op 0%nat), 0, 0, 1. rewrite E in WS. cbn [rsum] in WS.
    split; [apply Rmult_lt_0_compat; lra|]. split; [lra|]. split; [lra|]. split; [lra|]. split; [replace (rWr op 0%nat) with (1 / 3) by lra; field|]. split; [right; exact E|]. split.
    + intros v i. unfold amount. rewrite E. cbn [rsum]. ring.
    + intros v d EQ D i I flow inward. unfold flow, inward. destruct (mono_rates legendre jacobi psdm b WB MV v d EQ D i I) as (R0 & _ & R1). fold op in R1. cbv beta in R0, R1.
      assert (EL := eliq_is psdm b v 0 i WB I (D 0%nat ltac:(lia))). fold (el (v 1%nat) i) in EL. rewrite E in R0, R1 |- *. change (1 - 1)%nat with 0%nat in R0, R1. rewrite <- EL in R0, R1. cbn [rsum] in R1.
      split; [rewrite R0; field; lra|]. split; [rewrite R1; field; lra|ring].
  - assert (W0 := WP 0%nat ltac:(lia)). assert (W1 := WP 1%nat ltac:(lia)). destruct (radial2 legendre jacobi b HJ E) as (be & BP & B0 & B1). fold op in B0, B1.
    set (g := 3 * b_VR b * rWr op 0%nat * be / b_rb b ^ 2). assert (G : 0 < g) by (unfold g; apply Rdiv_lt_0_compat; [apply Rmult_lt_0_compat; [apply Rmult_lt_0_compat; lra|exact BP]|apply pow_lt, HR]).
    exists (3 * b_VR b * rWr op 1%nat), (3 * b_VR b * rWr op 0%nat), (if psdm then g * (b_EPOR b * (b_Dp b - b_Ds b)) else 0), (g * b_Ds b). rewrite E in WS. cbn [rsum] in WS.
    assert (P0 : 0 < 3 * b_VR b * rWr op 0%nat) by (apply Rmult_lt_0_compat; lra).
    split; [apply Rmult_lt_0_compat; lra|]. split; [lra|]. split.
    { destruct WB as (_ & _ & _ & _ & _ & _ & _ & _ & _ & HE & _). destruct psdm; [|lra]. destruct (HE eq_refl) as (X1 & X2). apply Rmult_le_pos; [lra|apply Rmult_le_pos; lra]. }
    split; [apply Rmult_lt_0_compat; assumption|]. split; [replace (rWr op 0%nat) with (1 / 3 - rWr op 1%nat) by lra; field|]. split; [left; exact P0|]. split.
    + intros v i. unfold amount. rewrite E. cbn [rsum]. ring.
    + intros v d EQ D i I flow inward. unfold flow, inward. destruct (mono_rates legendre jacobi psdm b WB MV v d EQ D i I) as (R0 & R1 & R2). fold op in R1, R2. cbv beta in R0, R2. specialize (R1 0%nat ltac:(lia)).
      assert (EL := eliq_is psdm b v 0 i WB I (D 0%nat ltac:(lia))). fold (el (v 1%nat) i) in EL. assert (EL2 := eliq_is psdm b v 1 i WB I (D 1%nat ltac:(lia))). fold (el (v 2%nat) i) in EL2.
      rewrite E in R0, R1, R2 |- *. change (2 - 1)%nat with 1%nat in R0, R1, R2. rewrite <- EL2 in R0, R2. cbn [rsum] in R1, R2. rewrite B0, B1 in R1, R2.
      assert (SP : b_rb b ^ 2 * (speed psdm b v 1 i * v 2%nat i - speed psdm b v 0 i * v 1%nat i) =
        (if psdm then b_EPOR b * (b_Dp b - b_Ds b) else 0) * (el (v 2%nat) i - el (v 1%nat) i) + b_Ds b * (v 2%nat i - v 1%nat i)).
      { rewrite EL, EL2. unfold speed. destruct psdm; field; lra. }
      assert (IN : (if psdm then g * (b_EPOR b * (b_Dp b - b_Ds b)) else 0) * (el (v 2%nat) i - el (v 1%nat) i) + g * b_Ds b * (v 2%nat i - v 1%nat i) = 3 * b_VR b * rWr op 0%nat * be * (speed psdm b v 1 i * v 2%nat i - speed psdm b v 0 i * v 1%nat i)).
      { transitivity (g * (b_rb b ^ 2 * (speed psdm b v 1 i * v 2%nat i - speed psdm b v 0 i * v 1%nat i))); [rewrite SP; destruct psdm; ring|unfold g; field; lra]. }
      rewrite IN. split; [rewrite R0; field; lra|]. split; [rewrite R2; field; lra|rewrite R1; ring].
Qed.

(** ** It settles *)
Lemma settles_from : forall legendre jacobi (psdm : bool) b y,
  good_roots legendre jacobi -> jacobi_roots 2 (b_nr b - 1) (jacobi (b_nr b - 1)%nat (5 / 2) (3 / 2)) ->
  working_batch psdm b -> (b_nr b <= 2)%nat -> (forall i, (i < b_NION b)%nat -> b_val b i = 1%nat) -> 0 < b_RHOP b * b_Qm b ->
  let op := build_radial legendre jacobi (b_nr b) in
  (forall Tf, is_batch_trajectory (b_nr b) (b_NION b) (batch_rhs psdm b op) Tf y) -> sound_start b (y 0) ->
  forall A : nat -> R, (forall i, (i < b_NION b)%nat -> amount (b_nr b) (rWr op) (b_VL b) (b_VR b) (y 0) i = A i) ->
  let at_ratio p := 0 < p /\ rsum (b_NION b) (fun i => A i / (b_VL b * / b_K b i * p ^ 1 + b_VR b)) = b_Q b in
  (exists p, at_ratio p) /\ forall p, at_ratio p ->
  let q i := A i / (b_VL b * / b_K b i * p ^ 1 + b_VR b) in
  let C i := (A i - b_VR b * q i) / b_VL b in
  (forall i, (i < b_NION b)%nat -> vanishes (fun T => y T 0%nat i - C i) /\ forall r, (1 <= r <= b_nr b)%nat -> vanishes (fun T => y T r i - q i)) /\
  (forall i, (i < b_NION b)%nat -> 0 <= q i /\ 0 <= C i) /\
  in_equilibrium (b_NION b) (b_K b) (b_val b) (fun i => q i / (if psdm then 1 - b_EPOR b else 1)) C /\
  rsum (b_NION b) C = rsum (b_NION b) (b_C0 b) /\ rsum (b_NION b) q = b_RHOP b * b_Qm b /\
  (forall i, (i < b_NION b)%nat -> b_VL b * C i + b_VR b * q i = amount (b_nr b) (rWr op) (b_VL b) (b_VR b) (y 0) i).
Proof.
  intros legendre jacobi psdm b y HG HJ WB N2 MV HQ op TR SS A EA at_ratio.
  assert (N1 : (1 <= b_nr b)%nat) by apply WB. assert (HV : 0 < b_VR b) by apply WB. assert (HR : 0 < b_rb b) by apply WB. assert (HL : 0 < b_VL b) by apply WB. assert (HKL : 0 < b_kL b) by apply WB.
  assert (N0 : (0 < b_NION b)%nat) by apply WB. assert (HK : forall i, (i < b_NION b)%nat -> 0 < b_K b i) by apply WB. assert (CT := ct_pos psdm b WB). change (0 < b_Q b) in HQ.
  destruct (as_exchange legendre jacobi psdm b HG HJ WB N2 MV) as (ws & w1 & al & de & Pws & Pw1 & Pal & Pde & WW & SOLE & AM & RT). fold op in AM, RT.
  set (n := b_NION b) in *. set (K := b_K b) in *. set (VL := b_VL b) in *. set (VR := b_VR b) in *.
  (* what is kept *)
  destruct (selK psdm b WB 0%nat N0) as (K1 & K2). destruct SS as (S0 & S1 & S2).
  assert (Hm : 0 < b_Q b / rsum n (b_K b) / 2) by (apply Rdiv_lt_0_compat; [apply Rdiv_lt_0_compat; [exact HQ|unfold n; lra]|lra]).
  assert (RUN : forall T, 0 <= T -> _) by (intros T HT; exact (mono_run legendre jacobi psdm b HJ WB MV _ Hm T y N2 (TR T) S0 S1 S2 eq_refl HT T (conj HT (Rle_refl T)))). cbv beta in RUN.
  assert (PT : forall r i t, (r <= b_nr b)%nat -> (i < n)%nat -> 0 <= t -> 0 <= y t r i) by (intros r i t R I T; apply (RUN t T); assumption).
  assert (SL : forall t, 0 <= t -> rsum n (y t 0%nat) = b_CT b) by (intros t T; apply (RUN t T)).
  assert (SR : forall r t, (1 <= r <= b_nr b)%nat -> 0 <= t -> rsum n (y t r) = b_Q b) by (intros r t R T; apply (RUN t T); exact R).
  assert (HA : forall i t, (i < n)%nat -> 0 <= t -> VL * y t 0%nat i + ws * y t (b_nr b) i + w1 * y t 1%nat i = A i).
  { intros i t I T. rewrite <- AM, <- (EA i I). apply (C17_batch_mass_conserved legendre jacobi psdm b t y HG N1); try lra; try (unfold VL in HL; lra); [apply TR|exact I]. }
  set (d := fun t => tot_rhs psdm b op (y t)).
  assert (EV : forall r i B, (r <= b_nr b)%nat -> (i < n)%nat -> evolves 0 B (fun t => y t r i) (fun t => d t r i)).
  { intros r i B R I. destruct (TR B) as (d1 & D1 & E1). refine (evolves_ext 0 B _ _ _ _ _ _ (E1 r i R I)); [reflexivity|]. intros t Ht. apply tot_rhs_ok, D1, Ht. }
  assert (RATE : forall i t, (i < n)%nat -> 0 < t -> let flow := 3 * VR * b_kL b / b_rb b * (y t 0%nat i - eliq n K (b_CT b) (y t (b_nr b)) i) in
     let inward := al * (eliq n K (b_CT b) (y t (b_nr b)) i - eliq n K (b_CT b) (y t 1%nat) i) + de * (y t (b_nr b) i - y t 1%nat i) in
     VL * d t 0%nat i = - flow /\ ws * d t (b_nr b) i = flow - inward /\ w1 * d t 1%nat i = inward).
  { intros i t I T. destruct (TR (t + 1)) as (d1 & D1 & _). specialize (D1 t ltac:(lra)). unfold d. rewrite <- !(tot_rhs_ok psdm b op (y t) (d1 t) D1).
    apply (RT (y t) (d1 t) D1); [|exact I]. intros r R. apply Rlt_trans with (b_Q b / rsum n (b_K b) / 2); [exact Hm|]. apply (RUN t ltac:(lra)), R. }
  (* the state it ends in *)
  assert (AN : forall i, (i < n)%nat -> 0 <= A i).
  { intros i I. rewrite <- (HA i 0 I (Rle_refl 0)). assert (0 <= VL * y 0 0%nat i) by (apply Rmult_le_pos; [lra|apply PT; [lia|exact I|lra]]).
    assert (0 <= ws * y 0 (b_nr b) i) by (apply Rmult_le_pos; [lra|apply PT; [lia|exact I|lra]]). assert (0 <= w1 * y 0 1%nat i) by (apply Rmult_le_pos; [lra|apply PT; [lia|exact I|lra]]). lra. }
  assert (AS : rsum n A = VL * b_CT b + VR * b_Q b).
  { rewrite (rsum_ext n A (fun i => VL * y 0 0%nat i + ws * y 0 (b_nr b) i + w1 * y 0 1%nat i)) by (intros i I; symmetry; apply HA; [exact I|lra]).
    rewrite (rsum_plus n (fun i => VL * y 0 0%nat i + ws * y 0 (b_nr b) i) (fun i => w1 * y 0 1%nat i)), (rsum_plus n (fun i => VL * y 0 0%nat i) (fun i => ws * y 0 (b_nr b) i)), !rsum_scal.
    rewrite (SL 0 (Rle_refl 0)), (SR (b_nr b) 0 ltac:(lia) (Rle_refl 0)), (SR 1%nat 0 ltac:(lia) (Rle_refl 0)), <- WW. ring. }
  assert (P1 : 0 < VL * b_CT b) by (apply Rmult_lt_0_compat; assumption).
  split.
  { apply (resin_total_any n (fun i => / K i) (fun _ => 1%nat) A VL VR (b_Q b)); try assumption; try lra; try lia. intros i I. apply Rinv_0_lt_compat, HK, I. }
  intros p AR q C. assert (PP : 0 < p) by apply AR. assert (EP := proj2 AR).
  change (rsum n q = b_Q b) in EP.
  assert (DP : forall i, (i < n)%nat -> 0 < VL * / K i * p ^ 1 + VR).
  { intros i I. assert (0 < VL * / K i * p ^ 1); [|lra]. rewrite pow_1. apply Rmult_lt_0_compat; [apply Rmult_lt_0_compat; [exact HL|apply Rinv_0_lt_compat, HK, I]|exact PP]. }
  assert (CQ : forall i, (i < n)%nat -> C i = q i / K i * p).
  { intros i I. assert (X := DP i I). assert (KI := HK i I). assert (AE : A i = q i * (VL * / K i * p ^ 1 + VR)) by (unfold q, Rdiv; rewrite Rmult_assoc, Rinv_l by lra; ring).
    unfold C. rewrite AE, pow_1. field. lra. }
  assert (QN : forall i, (i < n)%nat -> 0 <= q i) by (intros i I; apply Rmult_le_pos; [apply AN, I|left; apply Rinv_0_lt_compat, DP, I]).
  assert (Hq : forall i, (i < n)%nat -> q i * (ws + w1 + VL * b_CT b / K i / (b_CT b / p)) = A i).
  { intros i I. assert (KI := HK i I). assert (X := CQ i I). unfold C in X. assert (A i = VL * (q i / K i * p) + (ws + w1) * q i) by (rewrite <- X, WW; field; lra). rewrite H. field. lra. }
  assert (XB : 0 < b_CT b / p) by (apply Rdiv_lt_0_compat; assumption).
  assert (Hka : 0 < 3 * VR * b_kL b / b_rb b) by (apply Rdiv_lt_0_compat; [apply Rmult_lt_0_compat; lra|exact HR]).
  pose (C_ := fun i t => y t 0%nat i). pose (Y_ := fun i t => y t (b_nr b) i). pose (Z_ := fun i t => y t 1%nat i).
  assert (EC : forall i B, (i < n)%nat -> evolves 0 B (C_ i) (fun t => d t 0%nat i)) by (intros; apply EV; [lia|assumption]).
  assert (EY : forall i B, (i < n)%nat -> evolves 0 B (Y_ i) (fun t => d t (b_nr b) i)) by (intros; apply EV; [lia|assumption]).
  assert (EZ : forall i B, (i < n)%nat -> evolves 0 B (Z_ i) (fun t => d t 1%nat i)) by (intros; apply EV; [lia|assumption]).
  assert (SO : 0 < w1 \/ forall i t, (i < n)%nat -> Z_ i t = Y_ i t) by (destruct SOLE as [L|L]; [left; exact L|right; intros; unfold Y_, Z_; rewrite L; reflexivity]).
  assert (FC := C_settles n K (b_CT b) (b_Q b) VL _ ws w1 al de HK N0 CT HQ HL Hka Pws Pw1 Pal Pde C_ Y_ Z_ (fun i t => d t 0%nat i) (fun i t => d t (b_nr b) i) (fun i t => d t 1%nat i) EC EY EZ
    (fun i t I T => proj1 (RATE i t I T)) (fun i t I T => proj1 (proj2 (RATE i t I T))) (fun i t I T => proj2 (proj2 (RATE i t I T))) SO
    (fun i t I T => PT 0%nat i t (Nat.le_0_l _) I T) (fun i t I T => PT (b_nr b) i t (le_n _) I T) (fun i t I T => PT 1%nat i t N1 I T)
    (fun t T => SL t T) (fun t T => SR (b_nr b) t (conj N1 (le_n _)) T) (fun t T => SR 1%nat t (conj (le_n _) N1) T) A HA q (b_CT b / p) XB Hq EP).
  assert (FY := Y_settles n K (b_CT b) (b_Q b) VL _ ws w1 al de HK N0 CT HQ HL Hka Pws Pw1 Pal Pde C_ Y_ Z_ (fun i t => d t 0%nat i) (fun i t => d t (b_nr b) i) (fun i t => d t 1%nat i) EC EY EZ
    (fun i t I T => proj1 (RATE i t I T)) (fun i t I T => proj1 (proj2 (RATE i t I T))) (fun i t I T => proj2 (proj2 (RATE i t I T))) SO
    (fun i t I T => PT 0%nat i t (Nat.le_0_l _) I T) (fun i t I T => PT (b_nr b) i t (le_n _) I T) (fun i t I T => PT 1%nat i t N1 I T)
    (fun t T => SL t T) (fun t T => SR (b_nr b) t (conj N1 (le_n _)) T) (fun t T => SR 1%nat t (conj (le_n _) N1) T) A HA q (b_CT b / p) XB Hq EP).
  assert (FZ := Z_settles n K (b_CT b) (b_Q b) VL _ ws w1 al de HK N0 CT HQ HL Hka Pws Pw1 Pal Pde C_ Y_ Z_ (fun i t => d t 0%nat i) (fun i t => d t (b_nr b) i) (fun i t => d t 1%nat i) EC EY EZ
    (fun i t I T => proj1 (RATE i t I T)) (fun i t I T => proj1 (proj2 (RATE i t I T))) (fun i t I T => proj2 (proj2 (RATE i t I T))) SO
    (fun i t I T => PT 0%nat i t (Nat.le_0_l _) I T) (fun i t I T => PT (b_nr b) i t (le_n _) I T) (fun i t I T => PT 1%nat i t N1 I T)
    (fun t T => SL t T) (fun t T => SR (b_nr b) t (conj N1 (le_n _)) T) (fun t T => SR 1%nat t (conj (le_n _) N1) T) A HA q (b_CT b / p) XB Hq EP).
  rewrite WW in FC. split; [|split; [|split; [|split; [|split]]]].
  - intros i I. split; [apply FC, I|]. intros r R. assert (CR : r = b_nr b \/ r = 1%nat) by lia. destruct CR as [->| ->]; [apply FY, I|apply FZ, I].
  - intros i I. split; [apply QN, I|]. rewrite CQ by exact I. apply Rmult_le_pos; [apply Rmult_le_pos; [apply QN, I|left; apply Rinv_0_lt_compat, HK, I]|lra].
  - right. split; [intros i I; rewrite MV by exact I; discriminate|]. intros i j I J. rewrite (CQ i I), (CQ j J). assert (KI := HK i I). assert (KJ := HK j J). assert (TP := th_pos psdm b WB). change (if psdm then 1 - b_EPOR b else 1) with (btheta psdm b). fold K. field. lra.
  - rewrite (rsum_ext n C (fun i => / VL * (A i + - VR * q i))) by (intros i I; unfold C; field; lra). rewrite rsum_scal, (rsum_plus n A (fun i => - VR * q i)), rsum_scal, EP, AS. change (rsum n (b_C0 b)) with (b_CT b). field. lra.
  - exact EP.
  - intros i I. rewrite (EA i I). unfold C. field. lra.
Qed.

Theorem C195_many_ions_settle : forall legendre jacobi (psdm : bool) b y,
  good_roots legendre jacobi -> jacobi_roots 2 (b_nr b - 1) (jacobi (b_nr b - 1)%nat (5 / 2) (3 / 2)) ->
  working_batch psdm b -> (b_nr b <= 2)%nat -> (forall i, (i < b_NION b)%nat -> b_val b i = 1%nat) -> 0 < b_RHOP b * b_Qm b ->
  let op := build_radial legendre jacobi (b_nr b) in
  (forall Tf, is_batch_trajectory (b_nr b) (b_NION b) (batch_rhs psdm b op) Tf y) -> sound_start b (y 0) ->
  exists q C : nat -> R,
  (forall i, (i < b_NION b)%nat -> vanishes (fun T => y T 0%nat i - C i) /\ forall r, (1 <= r <= b_nr b)%nat -> vanishes (fun T => y T r i - q i)) /\
  (forall i, (i < b_NION b)%nat -> 0 <= q i /\ 0 <= C i) /\
  in_equilibrium (b_NION b) (b_K b) (b_val b) (fun i => q i / (if psdm then 1 - b_EPOR b else 1)) C /\
  rsum (b_NION b) C = rsum (b_NION b) (b_C0 b) /\ rsum (b_NION b) q = b_RHOP b * b_Qm b /\
  (forall i, (i < b_NION b)%nat -> b_VL b * C i + b_VR b * q i = amount (b_nr b) (rWr op) (b_VL b) (b_VR b) (y 0) i).
Proof.
  intros legendre jacobi psdm b y HG HJ WB N2 MV HQ op TR SS.
  destruct (settles_from legendre jacobi psdm b y HG HJ WB N2 MV HQ TR SS _ (fun i _ => eq_refl)) as ((p & P) & ALL). eexists _, _. exact (ALL p P).
Qed.

(** Only how much of each ion there is matters for where it ends. *)
Theorem C195_many_ions_forget : forall legendre jacobi (psdm : bool) b y1 y2,
  good_roots legendre jacobi -> jacobi_roots 2 (b_nr b - 1) (jacobi (b_nr b - 1)%nat (5 / 2) (3 / 2)) ->
  working_batch psdm b -> (b_nr b <= 2)%nat -> (forall i, (i < b_NION b)%nat -> b_val b i = 1%nat) -> 0 < b_RHOP b * b_Qm b ->
  let op := build_radial legendre jacobi (b_nr b) in
  (forall Tf, is_batch_trajectory (b_nr b) (b_NION b) (batch_rhs psdm b op) Tf y1) -> sound_start b (y1 0) ->
  (forall Tf, is_batch_trajectory (b_nr b) (b_NION b) (batch_rhs psdm b op) Tf y2) -> sound_start b (y2 0) ->
  (forall i, (i < b_NION b)%nat -> amount (b_nr b) (rWr op) (b_VL b) (b_VR b) (y1 0) i = amount (b_nr b) (rWr op) (b_VL b) (b_VR b) (y2 0) i) ->
  forall r i, (r <= b_nr b)%nat -> (i < b_NION b)%nat -> vanishes (fun T => y1 T r i - y2 T r i).
Proof.
  intros legendre jacobi psdm b y1 y2 HG HJ WB N2 MV HQ op T1 S1 T2 S2 EQ r i R I.
  destruct (settles_from legendre jacobi psdm b y1 HG HJ WB N2 MV HQ T1 S1 _ EQ) as ((p & P) & ALL).
  destruct (settles_from legendre jacobi psdm b y2 HG HJ WB N2 MV HQ T2 S2 _ (fun i _ => eq_refl)) as (_ & ALL2).
  destruct (ALL p P) as (V1 & _). destruct (ALL2 p P) as (V2 & _). clear ALL ALL2. destruct (V1 i I) as (A1 & A2). destruct (V2 i I) as (B1 & B2).
  destruct r as [|r].
  - refine (vanishes_ext _ _ _ (vanishes_plus _ _ A1 (vanishes_scal (-1) _ B1))). intros t. fold op. ring.
  - refine (vanishes_ext _ _ _ (vanishes_plus _ _ (A2 (S r) ltac:(lia)) (vanishes_scal (-1) _ (B2 (S r) ltac:(lia))))). intros t. fold op. ring.
Qed.

(** ** The run has no end *)
Lemma mono_some (psdm : bool) b op v : (forall i, (i < b_NION b)%nat -> b_val b i = 1%nat) -> exists d, batch_rhs psdm b op v = Some d.
Proof.
  intros MV. unfold batch_rhs. destruct psdm.
  - unfold diffun_psdm_batch. rewrite (mono_calc b MV). assert (P : forall k, exists P, pore_liquid b v k = Some P).
    { induction k as [|k (P & IH)]; [eexists; reflexivity|]. cbn [pore_liquid]. rewrite IH, (mono_calc b MV). eexists; reflexivity. }
    destruct (P (b_nr b)) as (P1 & ->). eexists; reflexivity.
  - unfold diffun_hsdm_batch. rewrite (mono_calc b MV). eexists; reflexivity.
Qed.
Lemma mono_same legendre jacobi (psdm : bool) b v w d e : working_batch psdm b -> (forall i, (i < b_NION b)%nat -> b_val b i = 1%nat) ->
  let op := build_radial legendre jacobi (b_nr b) in
  (forall r i, (r <= b_nr b)%nat -> (i < b_NION b)%nat -> v r i = w r i) -> (forall r, (r < b_nr b)%nat -> 0 < den b v r) ->
  batch_rhs psdm b op v = Some d -> batch_rhs psdm b op w = Some e ->
  forall r i, (r <= b_nr b)%nat -> (i < b_NION b)%nat -> d r i = e r i.
Proof.
  intros WB MV op VW D E1 E2 r i R I. assert (N1 : (1 <= b_nr b)%nat) by apply WB.
  assert (DE : forall k, (k < b_nr b)%nat -> den b v k = den b w k) by (intros k Hk; apply rsum_ext; intros j J; rewrite VW by (assumption || lia); reflexivity).
  destruct (mono_rates legendre jacobi psdm b WB MV v d E1 D i I) as (A0 & A1 & A2).
  destruct (mono_rates legendre jacobi psdm b WB MV w e E2 ltac:(intros k Hk; rewrite <- DE by exact Hk; apply D, Hk) i I) as (B0 & B1 & B2). cbv beta in A0, A2, B0, B2.
  assert (SH : forall k, (k < b_nr b)%nat -> share b v k i = share b w k i) by (intros k Hk; unfold share; rewrite DE by exact Hk; reflexivity).
  assert (TM : forall k, rsum (b_nr b) (fun m => rBr op k m * (speed psdm b v m i * v (S m) i)) = rsum (b_nr b) (fun m => rBr op k m * (speed psdm b w m i * w (S m) i))).
  { intros k. apply rsum_ext. intros m M. unfold speed. rewrite SH by exact M. rewrite (VW (S m) i) by (assumption || lia). reflexivity. }
  assert (CASE : r = 0%nat \/ r = b_nr b \/ exists k, r = S k /\ (k < b_nr b - 1)%nat).
  { destruct r as [|k]; [left; reflexivity|right]. destruct (Nat.eq_dec (S k) (b_nr b)) as [E|E]; [left; exact E|right; exists k; split; [reflexivity|lia]]. }
  destruct CASE as [->|[->|(k & -> & Hk)]].
  - rewrite A0, B0, SH, (VW 0%nat i), (VW (b_nr b) i) by (assumption || lia). reflexivity.
  - rewrite A2, B2, SH, (VW 0%nat i), (VW (b_nr b) i) by (assumption || lia). do 2 f_equal. apply rsum_ext. intros k _. f_equal. apply TM.
  - rewrite A1, B1 by exact Hk. apply TM.
Qed.
Section Endless.
Variables (legendre : nat -> nat -> R) (jacobi : nat -> R -> R -> nat -> R) (psdm : bool) (b : batch) (u0 : nat -> nat -> R).
Hypothesis HJ : jacobi_roots 2 (b_nr b - 1) (jacobi (b_nr b - 1)%nat (5 / 2) (3 / 2)).
Hypothesis WB : working_batch psdm b.
Hypothesis N2 : (b_nr b <= 2)%nat.
Hypothesis MV : forall i, (i < b_NION b)%nat -> b_val b i = 1%nat.
Hypothesis HQ : 0 < b_RHOP b * b_Qm b.
Hypothesis SS : sound_start b u0.
Let op := build_radial legendre jacobi (b_nr b).
Definition runs (Tf : R) (y : R -> nat -> nat -> R) : Prop :=
  is_batch_trajectory (b_nr b) (b_NION b) (batch_rhs psdm b op) Tf y /\ forall r i, (r <= b_nr b)%nat -> (i < b_NION b)%nat -> y 0 r i = u0 r i.
Lemma runs_sub T1 T2 y : T1 <= T2 -> runs T2 y -> runs T1 y.
Proof. intros L ((d & D & E) & Y0). split; [|exact Y0]. exists d. split; [intros T HT; apply D; lra|]. intros r i R I. apply (evolves_sub 0 T2); [exact L|apply E; assumption]. Qed.
Lemma runs_dens Tf y : 0 <= Tf -> runs Tf y -> forall T r, 0 <= T <= Tf -> (r < b_nr b)%nat -> 0 < den b (y T) r.
Proof.
  intros TF (TR & Y0) T r HT R. destruct SS as (S0 & S1 & S2). assert (N0 : (0 < b_NION b)%nat) by apply WB. destruct (selK psdm b WB 0%nat N0) as (K1 & K2). change (0 < b_Q b) in HQ.
  assert (Hm : 0 < b_Q b / rsum (b_NION b) (b_K b) / 2) by (apply Rdiv_lt_0_compat; [apply Rdiv_lt_0_compat; [exact HQ|lra]|lra]).
  assert (P0 : forall r i, (r <= b_nr b)%nat -> (i < b_NION b)%nat -> 0 <= y 0 r i) by (intros k i K I; rewrite Y0 by assumption; apply S0; assumption).
  assert (P1 : rsum (b_NION b) (y 0 0%nat) = b_CT b) by (rewrite (rsum_ext _ _ (u0 0%nat)); [exact S1|]; intros i I; apply Y0; [lia|exact I]).
  assert (P2 : forall r, (1 <= r <= b_nr b)%nat -> rsum (b_NION b) (y 0 r) = b_Q b) by (intros k K; rewrite (rsum_ext _ _ (u0 k)); [apply S2, K|]; intros i I; apply Y0; [lia|exact I]).
  destruct (mono_run legendre jacobi psdm b HJ WB MV _ Hm Tf y N2 TR P0 P1 P2 eq_refl TF T HT) as (_ & _ & _ & _ & D). specialize (D r R). lra.
Qed.
Lemma runs_agree T1 T2 y1 y2 t r i : runs T1 y1 -> runs T2 y2 -> 0 <= t -> t <= T1 -> t <= T2 -> (r <= b_nr b)%nat -> (i < b_NION b)%nat -> y1 t r i = y2 t r i.
Proof.
  intros H1 H2 T L1 L2 R I. apply (runs_sub t) in H1; [|exact L1]. apply (runs_sub t) in H2; [|exact L2].
  apply (C158_batch_partial psdm b op t y1 y2); try (apply WB); try apply H1; try apply H2; try assumption; try lra.
  - intros k j K J. destruct H1 as (_ & Y1). destruct H2 as (_ & Y2). rewrite Y1, Y2 by assumption. reflexivity.
  - intros s Hs. apply (den_use psdm b WB MV N2 (y1 s)). intros k K. apply (runs_dens t y1 T H1 s k Hs K).
Qed.
Definition at_time (r i : nat) (t x : R) : Prop := exists y, runs (Rmax t 0 + 1) y /\ y (Rmax t 0) r i = x.
Lemma at_some r i t : exists x, at_time r i t x.
Proof.
  assert (A := Rmax_r t 0). destruct (C200_lasts legendre jacobi psdm b u0 (Rmax t 0 + 1) HJ WB N2 MV HQ SS ltac:(lra)) as (y & TR & Y0).
  exists (y (Rmax t 0) r i), y. split; [split; assumption|reflexivity].
Qed.
Lemma at_one r i (R : (r <= b_nr b)%nat) (I : (i < b_NION b)%nat) t x z : at_time r i t x -> at_time r i t z -> x = z.
Proof. assert (A := Rmax_r t 0). intros (y & H & <-) (w & G & <-). apply (runs_agree (Rmax t 0 + 1) (Rmax t 0 + 1)); try assumption; lra. Qed.
Definition endless (t : R) (r i : nat) : R :=
  match le_dec r (b_nr b), lt_dec i (b_NION b) with
  | left Hr, left Hi => proj1_sig (the_number (at_time r i t) (at_some r i t) (at_one r i Hr Hi t))
  | _, _ => 0
  end.
Lemma endless_is Tf y t r i : runs Tf y -> Rmax t 0 <= Tf -> (r <= b_nr b)%nat -> (i < b_NION b)%nat -> endless t r i = y (Rmax t 0) r i.
Proof.
  intros H L R I. assert (A := Rmax_r t 0). unfold endless. destruct (le_dec r (b_nr b)) as [R1|]; [|contradiction]. destruct (lt_dec i (b_NION b)) as [I1|]; [|contradiction].
  destruct (the_number _ _ _) as (x & w & G & <-). cbn. apply (runs_agree (Rmax t 0 + 1) Tf); try assumption; lra.
Qed.
Lemma endless_runs Tf : is_batch_trajectory (b_nr b) (b_NION b) (batch_rhs psdm b op) Tf endless.
Proof.
  exists (fun T => match batch_rhs psdm b op (endless T) with Some d => d | None => fun _ _ => 0 end). split.
  { intros T _. destruct (mono_some psdm b op (endless T) MV) as (d & ->). reflexivity. }
  intros r i R I. destruct (Rlt_le_dec Tf 0) as [NE|TF]; [split; intros t Ht; exfalso; lra|].
  destruct (C200_lasts legendre jacobi psdm b u0 (Tf + 1) HJ WB N2 MV HQ SS ltac:(lra)) as (y & TR & Y0). assert (H : runs (Tf + 1) y) by (split; assumption). destruct TR as (d & D & E).
  apply (Props_PacSettle.glue_evolves 0 Tf (fun t => endless t r i) (fun t => y t r i) (fun t => d t r i)); [|intros t Ht|apply E; assumption].
  - intros t Ht. apply (endless_is (Tf + 1) y t r i H Ht R I).
  - destruct (mono_some psdm b op (endless t) MV) as (e & EE). rewrite EE.
    apply (mono_same legendre jacobi psdm b (y t) (endless t) (d t) e WB MV); try assumption.
    + intros k j K J. rewrite (endless_is (Tf + 1) y t k j H) by (assumption || (rewrite Rmax_left; lra)). rewrite Rmax_left by lra. reflexivity.
    + intros k K. apply (runs_dens (Tf + 1) y ltac:(lra) H); [lra|exact K].
    + apply D. lra.
Qed.
Lemma endless_start r i : (r <= b_nr b)%nat -> (i < b_NION b)%nat -> endless 0 r i = u0 r i.
Proof.
  intros R I. destruct (C200_lasts legendre jacobi psdm b u0 1 HJ WB N2 MV HQ SS ltac:(lra)) as (y & TR & Y0).
  rewrite (endless_is 1 y 0 r i (conj TR Y0)) by (assumption || (rewrite Rmax_left; lra)). rewrite Rmax_left by lra. apply Y0; assumption.
Qed.
End Endless.

(** One run for all times, from any sound start. *)
Theorem C200_endless : forall legendre jacobi (psdm : bool) b u0,
  jacobi_roots 2 (b_nr b - 1) (jacobi (b_nr b - 1)%nat (5 / 2) (3 / 2)) -> working_batch psdm b -> (b_nr b <= 2)%nat ->
  (forall i, (i < b_NION b)%nat -> b_val b i = 1%nat) -> 0 < b_RHOP b * b_Qm b -> sound_start b u0 ->
  exists y, (forall Tf, is_batch_trajectory (b_nr b) (b_NION b) (batch_rhs psdm b (build_radial legendre jacobi (b_nr b))) Tf y) /\
    forall r i, (r <= b_nr b)%nat -> (i < b_NION b)%nat -> y 0 r i = u0 r i.
Proof.
  intros legendre jacobi psdm b u0 HJ WB N2 MV HQ SS. exists (endless legendre jacobi psdm b u0 HJ WB N2 MV HQ SS). split; [apply endless_runs|apply endless_start].
Qed.
Print Assumptions C195_many_ions_settle.
Print Assumptions C195_many_ions_forget.
Print Assumptions C200_endless.

(** Three monovalent ions on two radial points: the run from the start that the code makes has no
    end and settles, with either model. *)
Example glass_settles : forall psdm : bool, exists legendre jacobi y, good_roots legendre jacobi /\ jacobi_roots 2 1 (jacobi 1%nat (5 / 2) (3 / 2)) /\ working_batch psdm glass /\
  (forall Tf, is_batch_trajectory 2 3 (batch_rhs psdm glass (build_radial legendre jacobi 2)) Tf y) /\
  (forall r i, (r <= 2)%nat -> (i < 3)%nat -> y 0 r i = batch_initial glass r i) /\ sound_start glass (y 0) /\
  exists q C, (forall i, (i < 3)%nat -> vanishes (fun T => y T 0%nat i - C i) /\ forall r, (1 <= r <= 2)%nat -> vanishes (fun T => y T r i - q i)) /\ rsum 3 q = 2 /\ rsum 3 C = 3.
Proof.
  intros psdm. destruct (jacobi_exist 2 1) as (r & Hr). exists even_roots, (fun m _ _ => if Nat.eqb m 1 then r else even_roots m).
  destruct even_roots_good as (GL & GJ).
  assert (HG : good_roots even_roots (fun m _ _ => if Nat.eqb m 1 then r else even_roots m)).
  { split; [exact GL|]. intros m p q. destruct (Nat.eqb_spec m 1) as [->|N]; [apply Hr|apply (GJ m p q)]. }
  assert (SK : selectivities 3 (b_K glass)) by (intros i _; cbn [b_K glass]; apply lt_0_INR; lia).
  assert (WB : working_batch psdm glass) by (repeat split; try (cbn; lia); try (cbn; lra); try exact SK; intros; left; reflexivity).
  assert (MV : forall i, (i < b_NION glass)%nat -> b_val glass i = 1%nat) by reflexivity.
  assert (HQ : 0 < b_RHOP glass * b_Qm glass) by (cbn; lra).
  destruct (C200_fresh_start psdm glass WB MV HQ) as (SS & _); [intros; cbn; lra|].
  destruct (C200_endless even_roots (fun m _ _ => if Nat.eqb m 1 then r else even_roots m) psdm glass (batch_initial glass) Hr WB ltac:(cbn; lia) MV HQ SS) as (y & TR & Y0).
  assert (S0 : sound_start glass (y 0)).
  { destruct SS as (A0 & A1 & A2). split; [|split].
    - intros k i K I. rewrite Y0 by assumption. apply A0; assumption.
    - rewrite <- A1. apply rsum_ext. intros i I. apply Y0; [cbn; lia|exact I].
    - intros k K. rewrite <- (A2 k K). apply rsum_ext. intros i I. apply Y0; [cbn in K |- *; lia|exact I]. }
  exists y. split; [exact HG|]. split; [exact Hr|]. split; [exact WB|]. split; [exact TR|]. split; [exact Y0|]. split; [exact S0|].
  destruct (C195_many_ions_settle even_roots (fun m _ _ => if Nat.eqb m 1 then r else even_roots m) psdm glass y HG Hr WB ltac:(cbn; lia) MV HQ TR S0) as (q & C & V & _ & _ & EC & EQ & _).
  exists q, C. split; [exact V|]. split; [etransitivity; [exact EQ|cbn; ring]|etransitivity; [exact EC|cbn; ring]].
Qed.
