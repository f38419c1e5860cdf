(** Property C196: signs of the loadings inside the beads. *)
From Coq Require Import Reals List Arith Bool Lra Lia.
From Verif Require Import Lib_Py Lib_Pow Lib_Sum Lib_Traj S_Colloc M_Colloc P_Colloc S_Radial P_Radial P_RadialSign P_Inner Props_Negative.
From Verif Require Import M_Pac P_GacFun Props_Pac P_PacBound Props_PacBound.
Import ListNotations.
Open Scope R_scope.

(** ** A contactor *)
Lemma rpow_le_self x n : 0 <= x <= 1 -> 1 <= n -> 0 <= rpow x n <= x.
Proof.
  intros X N. split; [apply rpow_nonneg; lra|]. destruct (Req_dec x 0) as [->|NZ]; [rewrite rpow_0; lra|].
  replace n with (1 + (n - 1)) by ring. rewrite rpow_plus, rpow_1 by lra.
  assert (H := rpow_le x 1 (n - 1) ltac:(lra) ltac:(lra)). rewrite rpow_one_base in H.
  assert (x * rpow x (n - 1) <= x * 1) by (apply Rmult_le_compat_l; lra). lra.
Qed.
Lemma cont_zero (g : R -> R) (Y : R -> R) L e : 0 <= L -> 0 < e -> g 0 = 0 -> (forall x, Rabs x <= e -> Rabs (g x) <= L * Rabs x) -> continuity_pt Y 0 -> Y 0 = 0 -> continuity_pt (fun t => g (Y t)) 0.
Proof.
  intros HL He G0 H C Y0. apply (continuity_pt_comp Y g); [exact C|]. rewrite Y0. intros eps Hp.
  assert (P : 0 < eps / (L + 1)) by (apply Rdiv_lt_0_compat; lra).
  exists (Rmin e (eps / (L + 1))). split; [apply Rmin_glb_lt; lra|]. intros x (_ & D). cbn in D |- *. unfold R_dist in *. rewrite Rminus_0_r in D. rewrite G0, Rminus_0_r.
  assert (A := Rmin_l e (eps / (L + 1))). assert (A2 := Rmin_r e (eps / (L + 1))). eapply Rle_lt_trans; [apply H; lra|].
  apply Rle_lt_trans with (L * (eps / (L + 1))); [apply Rmult_le_compat_l; lra|]. replace eps with ((L + 1) * (eps / (L + 1))) at 2 by (field; lra). apply Rmult_lt_compat_r; lra.
Qed.

Lemma rsum_top n f : (1 <= n)%nat -> rsum n f = rsum (n - 1) f + f (n - 1)%nat.
Proof. destruct n as [|n]; [lia|]. intros _. cbn [rsum]. replace (S n - 1)%nat with n by lia. reflexivity. Qed.

Section Contactor.
Variables (jac : nat -> R -> R -> nat -> R) (nc : nat) (q : eqn).
Notation a3 := (INR 3).
Notation u := (rootsu jac nc a3).
Notation B := (Bx nc u a3).
Notation W := (Wx nc u a3).
Hypothesis Hnc : (1 <= nc)%nat.
Hypothesis HJ : jacobi_roots 2 (nc - 1) (jac (nc - 1)%nat (a3 / 2 + 1) (a3 / 2)).
Hypothesis Hrho : 0 < q_rho q.
Hypothesis HK : 0 < q_K q.
Hypothesis HkL : 0 < q_kL q.
Hypothesis HEp : 0 <= q_Ep q.
Hypothesis HDs : 0 <= q_Ds q <= q_Dp q.
Hypothesis Hra : 0 < q_ra q.
Notation dd := (q_Ep q * (q_Dp q - q_Ds q)).
Notation k0 := (q_rho q * q_K q).
Let G (y : R) : R := drive q y / q_ra q ^ 2.
Let ra2 : 0 < q_ra q ^ 2. Proof. apply pow_lt, Hra. Qed.
Lemma diffusion_drive Y i : diffusion nc B q Y i = rsum nc (fun j => B i j * G (Y j)).
Proof.
  unfold diffusion, G. rewrite (rsum_ext nc (fun j => B i j * (drive q (Y j) / q_ra q ^ 2)) (fun j => / q_ra q ^ 2 * (dd * (B i j * pore q Y j) + q_Ds q * (B i j * Y j)))).
  - rewrite rsum_scal, rsum_plus, !rsum_scal. unfold Rdiv. ring.
  - intros j _. rewrite (pore_por q) by assumption. unfold drive, Rdiv. ring.
Qed.

(** *** The start *)
Section Start.
Hypothesis HD : 0 < q_Ds q.
Hypothesis Hq : 1 <= q_n q.
Let L : R := (dd / k0 + q_Ds q) / q_ra q ^ 2.
Lemma por_small x : Rabs x <= k0 -> 0 <= por q x <= Rabs x / k0.
Proof.
  intros H. assert (KP : 0 < k0) by (apply Rmult_lt_0_compat; assumption). unfold por. assert (A := Rabs_pos x).
  assert (X : 0 <= Rabs x / k0) by (apply Rmult_le_pos; [exact A|left; apply Rinv_0_lt_compat, KP]).
  destruct (Rle_dec x 0) as [N|N].
  - rewrite clip_neg, rpow_0 by (try lra; assert (0 <= - x * / k0) by (apply Rmult_le_pos; [lra|left; apply Rinv_0_lt_compat, KP]); unfold Rdiv; lra). lra.
  - rewrite Rabs_right in * by lra. rewrite clip_pos by lra. apply rpow_le_self; [|exact Hq]. split; [exact X|].
    apply (Rmult_le_reg_r k0); [exact KP|]. unfold Rdiv. rewrite Rmult_assoc, Rinv_l by lra. lra.
Qed.
Lemma G_lip x : Rabs x <= k0 -> Rabs (G x) <= L * Rabs x.
Proof.
  intros H. assert (P := por_small x H). assert (KP : 0 < k0) by (apply Rmult_lt_0_compat; assumption). assert (DD : 0 <= dd) by (apply Rmult_le_pos; lra). assert (R2 := ra2).
  unfold G, L, drive. unfold Rdiv at 1. rewrite Rabs_mult, (Rabs_right (/ q_ra q ^ 2)) by (left; apply Rinv_0_lt_compat, R2).
  replace ((dd / k0 + q_Ds q) / q_ra q ^ 2 * Rabs x) with ((dd * (Rabs x / k0) + q_Ds q * Rabs x) * / q_ra q ^ 2) by (field; lra).
  apply Rmult_le_compat_r; [left; apply Rinv_0_lt_compat, R2|]. eapply Rle_trans; [apply Rabs_triang|]. rewrite (Rabs_mult dd), (Rabs_mult (q_Ds q)), (Rabs_right dd), (Rabs_right (q_Ds q)), (Rabs_right (por q x)) by lra.
  assert (dd * por q x <= dd * (Rabs x / k0)) by (apply Rmult_le_compat_l; lra). lra.
Qed.
Lemma G_low x : 0 <= x <= k0 -> q_Ds q / q_ra q ^ 2 * x <= G x.
Proof.
  intros H. assert (P := por_small x ltac:(rewrite Rabs_right; lra)). assert (DD : 0 <= dd) by (apply Rmult_le_pos; lra). assert (R2 := ra2).
  unfold G, drive. replace (q_Ds q / q_ra q ^ 2 * x) with ((q_Ds q * x) / q_ra q ^ 2) by (field; lra).
  apply Rmult_le_compat_r; [left; apply Rinv_0_lt_compat, R2|]. assert (0 <= dd * por q x) by (apply Rmult_le_pos; lra). lra.
Qed.
Lemma L_pos : 0 <= L.
Proof.
  assert (DD : 0 <= dd) by (apply Rmult_le_pos; lra). assert (KP : 0 < k0) by (apply Rmult_lt_0_compat; assumption). unfold L. apply Rmult_le_pos; [|left; apply Rinv_0_lt_compat, ra2].
  assert (0 <= dd / k0) by (apply Rmult_le_pos; [exact DD|left; apply Rinv_0_lt_compat, KP]). lra.
Qed.
Lemma G_zero : G 0 = 0.
Proof. assert (H := G_lip 0). rewrite Rabs_R0, Rmult_0_r in H. assert (KP : 0 < k0) by (apply Rmult_lt_0_compat; assumption). specialize (H ltac:(lra)). assert (P := Rabs_pos (G 0)). destruct (Req_dec (G 0) 0) as [E|E]; [exact E|]. apply Rabs_pos_lt in E. lra. Qed.
Variables (b : R) (C : R -> R) (Y : nat -> R -> R) (i : nat).
Hypothesis Hb : 0 < b.
Hypothesis HF : follows nc B W q 0 b C Y.
Hypothesis HC : 0 < C 0.
Hypothesis HY : forall j, (j < nc)%nat -> Y j 0 = 0.
Hypothesis Hi : (i < nc - 1)%nat.
Lemma contactor_start : exists d, 0 < d <= b /\ forall t, 0 < t < d -> 0 < B i (nc - 1)%nat * Y i t.
Proof.
  destruct HF as (FC & FY). assert (KP : 0 < k0) by (apply Rmult_lt_0_compat; assumption). assert (R2 := ra2).
  destruct (code_weights jac nc 2 Hnc HJ) as (WP & _). assert (W0 := WP (nc - 1)%nat ltac:(lia)).
  assert (CY : forall j, (j < nc)%nat -> continuity_pt (Y j) 0) by (intros j J; apply (FY j J); lra).
  assert (CG : forall j, (j < nc)%nat -> continuity_pt (fun t => G (Y j t)) 0) by (intros j J; apply (cont_zero G (Y j) L k0 L_pos KP G_zero G_lip); [apply CY, J|apply HY, J]).
  assert (CP : continuity_pt (fun t => por q (Y (nc - 1)%nat t)) 0).
  { apply (cont_zero (por q) (Y (nc - 1)%nat) (/ k0) k0); [left; apply Rinv_0_lt_compat, KP|exact KP| | |apply CY; lia|apply HY; lia].
    - assert (Z := por_small 0 ltac:(rewrite Rabs_R0; lra)). rewrite Rabs_R0 in Z. unfold Rdiv in Z. lra.
    - intros x X. assert (Z := por_small x X). rewrite Rabs_right by lra. unfold Rdiv in Z. lra. }
  set (S' := fun t => - (- q_kL q * (C t - por q (Y (nc - 1)%nat t)) / q_ra q + rsum (nc - 1) (fun k => W k * rsum nc (fun j => B k j * G (Y j t)))) / W (nc - 1)%nat).
  assert (ES : evolves 0 b (Y (nc - 1)%nat) S').
  { eapply evolves_ext; [reflexivity| |apply (FY (nc - 1)%nat ltac:(lia))]. intros t _. unfold S', dY_dt, flux. rewrite Nat.eqb_refl, (pore_por q) by assumption.
    rewrite (rsum_ext (nc - 1) (fun k => W k * diffusion nc B q (fun i0 => Y i0 t) k) (fun k => W k * rsum nc (fun j => B k j * G (Y j t)))) by (intros k _; rewrite diffusion_drive; reflexivity). reflexivity. }
  assert (CS : continuity_pt S' 0).
  { unfold S'. apply c_div; [|apply c_const|lra]. apply c_opp. apply c_plus.
    - apply c_div; [|apply c_const|lra]. apply c_mult; [apply c_const|]. apply c_minus; [apply FC; lra|exact CP].
    - apply c_rsum. intros k Hk. apply c_mult; [apply c_const|]. apply c_rsum. intros j Hj. apply c_mult; [apply c_const|apply CG, Hj]. }
  assert (S0 : 0 < S' 0).
  { unfold S'. rewrite (rsum_zero (nc - 1)).
    - rewrite HY by lia. assert (Z := por_small 0 ltac:(rewrite Rabs_R0; lra)). rewrite Rabs_R0 in Z. unfold Rdiv in Z. replace (por q 0) with 0 by lra.
      replace (- (- q_kL q * (C 0 - 0) / q_ra q + 0) / W (nc - 1)%nat) with (q_kL q * C 0 / q_ra q / W (nc - 1)%nat) by (unfold Rdiv; ring).
      apply Rdiv_lt_0_compat; [|exact W0]. apply Rdiv_lt_0_compat; [|exact Hra]. apply Rmult_lt_0_compat; assumption.
    - intros k Hk. rewrite rsum_zero; [ring|]. intros j Hj. rewrite HY, G_zero by exact Hj. ring. }
  destruct (starts_linear b _ S' Hb ES CS (HY (nc - 1)%nat ltac:(lia)) S0) as (d & D & SL).
  assert (SIGN := last_column_sign jac nc 2 ltac:(lia) HJ i Hi).
  destruct (follows_surface (nc - 1) B Y (fun j t => G (Y j t)) d k0 L (q_Ds q / q_ra q ^ 2) (S' 0 / 2) (2 * S' 0) i) as (d' & D' & P); try lra; try assumption.
  - apply L_pos.
  - apply Rdiv_lt_0_compat; assumption.
  - intros j J. eapply evolves_ext; [reflexivity| |apply (evolves_sub 0 b d _ _ ltac:(lra) (FY j ltac:(lia)))]. intros t _. unfold dY_dt. destruct (Nat.eqb_spec j (nc - 1)) as [E|_]; [lia|].
    rewrite diffusion_drive. apply rsum_top. exact Hnc.
  - intros j J. apply HY. lia.
  - intros t T k Hk H. apply G_lip, H.
  - intros t T H. apply G_low, H.
  - intros j J. apply CY. lia.
  - intros E. rewrite E, Rmult_0_r in SIGN. lra.
  - exists d'. split; [lra|exact P].
Qed.
End Start.

(** *** Up to two points *)
Section Few.
Hypothesis Hq : 0 < q_n q.
Hypothesis N2 : (nc <= 2)%nat.
Variables (a b : R) (C : R -> R) (Y : nat -> R -> R).
Hypothesis HF : follows nc B W q a b C Y.
Hypothesis HC : forall t, a <= t <= b -> 0 <= C t.
Hypothesis HY : forall j, (j < nc)%nat -> 0 <= Y j a.
Let ng (x : R) : R := clip (- x).
Lemma ng_deriv x : derivable_pt_lim (fun y => prim 1 (- y)) x (- ng x).
Proof.
  unfold ng. replace (- clip (- x)) with (rpow (clip (- x)) 1 * (-1)) by (rewrite rpow_1 by apply clip_nonneg; ring).
  apply (derivable_pt_lim_comp (fun y => - y) (prim 1)); [|apply prim_deriv; lra].
  replace (-1) with (- (1)) by ring. apply (derivable_pt_lim_opp id), derivable_pt_lim_id.
Qed.
Lemma drive_mono x y : x <= y -> drive q x <= drive q y.
Proof.
  intros H. assert (KP : 0 < k0) by (apply Rmult_lt_0_compat; assumption). assert (DD : 0 <= dd) by (apply Rmult_le_pos; lra). unfold drive.
  assert (por q x <= por q y).
  { unfold por. apply rpow_le; [|lra]. split; [apply clip_nonneg|]. assert (E : x / k0 <= y / k0) by (apply Rmult_le_compat_r; [left; apply Rinv_0_lt_compat, KP|exact H]).
    unfold clip. destruct (rltb (x / k0) 0) eqn:A, (rltb (y / k0) 0) eqn:Z; try apply rltb_true in A; try apply rltb_true in Z; try apply rltb_false in A; try apply rltb_false in Z; lra. }
  assert (dd * por q x <= dd * por q y) by (apply Rmult_le_compat_l; lra). assert (q_Ds q * x <= q_Ds q * y) by (apply Rmult_le_compat_l; lra). lra.
Qed.
Lemma G_mono x y : x <= y -> G x <= G y.
Proof. intros H. unfold G. apply Rmult_le_compat_r; [left; apply Rinv_0_lt_compat, ra2|apply drive_mono, H]. Qed.
Lemma ng_mono x y : x <= y -> ng y <= ng x.
Proof. intros H. unfold ng, clip. destruct (rltb (- x) 0) eqn:A, (rltb (- y) 0) eqn:Z; try apply rltb_true in A; try apply rltb_true in Z; try apply rltb_false in A; try apply rltb_false in Z; lra. Qed.
Lemma ng_pos x : 0 <= ng x. Proof. apply clip_nonneg. Qed.
(** inward film transfer where the surface is below zero *)
Lemma film_sign t : a <= t <= b -> 0 <= ng (Y (nc - 1)%nat t) * - flux nc q (C t) (fun i => Y i t).
Proof.
  intros T. unfold flux. rewrite (pore_por q) by assumption. assert (KP : 0 < k0) by (apply Rmult_lt_0_compat; assumption). destruct (Rle_dec 0 (Y (nc - 1)%nat t)) as [P|P].
  - assert (E : ng (Y (nc - 1)%nat t) = 0) by (unfold ng; apply clip_neg; lra). rewrite E. lra.
  - unfold por. rewrite clip_neg, rpow_0; [|lra|].
    + apply Rmult_le_pos; [apply ng_pos|]. assert (0 <= q_kL q * C t) by (apply Rmult_le_pos; [lra|apply HC, T]). lra.
    + assert (0 <= - Y (nc - 1)%nat t * / k0) by (apply Rmult_le_pos; [lra|left; apply Rinv_0_lt_compat, KP]). unfold Rdiv. lra.
Qed.
Lemma few_nonneg j t : (j < nc)%nat -> a <= t <= b -> 0 <= Y j t.
Proof.
  intros J T. destruct HF as (FC & FY). destruct (code_weights jac nc 2 Hnc HJ) as (WP & _).
  set (V := fun t => rsum nc (fun i => W i * prim 1 (- Y i t))).
  set (V' := fun t => rsum nc (fun i => W i * (- ng (Y i t) * dY_dt nc B W q (C t) (fun i => Y i t) i))).
  assert (EV : evolves a b V V').
  { unfold V, V'. apply (evolves_rsum a b nc (fun i t => W i * prim 1 (- Y i t)) (fun i t => W i * (- ng (Y i t) * dY_dt nc B W q (C t) (fun i => Y i t) i))). intros i Hi.
    apply evolves_scal. apply (evolves_comp a b (Y i) _ (fun y => prim 1 (- y)) (fun y => - ng y) ng_deriv (FY i Hi)). }
  assert (DOWN : forall s, a < s < b -> V' s <= 0).
  { intros s S. assert (FS := film_sign s ltac:(lra)). unfold V'. assert (R2 := ra2). destruct (Nat.eq_dec nc 1) as [E|E].
    - rewrite E in *. cbn [rsum]. unfold dY_dt. cbn [Nat.sub Nat.eqb] in *. cbn [rsum]. assert (W0 := WP 0%nat ltac:(lia)).
      set (w := Wx 1 (rootsu jac 1 a3) a3 0%nat) in *. set (fl := flux 1 q (C s) (fun i => Y i s)) in *. set (g := ng (Y 0%nat s)) in *.
      replace (0 + w * (- g * (- (fl / q_ra q + 0) / w))) with (- ((g * - fl) / q_ra q)) by (field; lra).
      assert (0 <= g * - fl / q_ra q) by (apply Rmult_le_pos; [exact FS|left; apply Rinv_0_lt_compat, Hra]). lra.
    - assert (E2 : nc = 2%nat) by lia. assert (SIGN := last_column_sign jac nc 2 ltac:(lia) HJ 0%nat ltac:(lia)).
      assert (RS := Bx_constant nc u (u_distinct jac nc 2 Hnc HJ) a3 1 0%nat ltac:(lia)). unfold apply_row in RS.
      assert (DF := diffusion_drive (fun i => Y i s) 0).
      rewrite E2 in *. cbn [rsum Nat.sub pow] in *. unfold dY_dt. cbn [Nat.sub Nat.eqb rsum]. assert (W0 := WP 0%nat ltac:(lia)). assert (W1 := WP 1%nat ltac:(lia)).
      rewrite DF. set (B1 := Bx 2 (rootsu jac 2 a3) a3 0%nat 1%nat) in *. set (B0 := Bx 2 (rootsu jac 2 a3) a3 0%nat 0%nat) in *.
      set (w0 := Wx 2 (rootsu jac 2 a3) a3 0%nat) in *. set (w1 := Wx 2 (rootsu jac 2 a3) a3 1%nat) in *. set (fl := flux 2 q (C s) (fun i => Y i s)) in *.
      assert (B0 = - B1) as -> by lra. assert (BP : 0 < B1) by lra. set (g0 := ng (Y 0%nat s)) in *. set (g1 := ng (Y 1%nat s)) in *.
      set (G0 := G (Y 0%nat s)) in *. set (G1 := G (Y 1%nat s)) in *.
      replace (0 + w0 * (- g0 * (0 + - B1 * G0 + B1 * G1)) + w1 * (- g1 * (- (fl / q_ra q + (0 + w0 * (0 + - B1 * G0 + B1 * G1))) / w1)))
        with (- (w0 * B1 * ((g0 - g1) * (G1 - G0))) - (g1 * - fl) / q_ra q) by (field; lra).
      assert (0 <= g1 * - fl / q_ra q) by (apply Rmult_le_pos; [exact FS|left; apply Rinv_0_lt_compat, Hra]).
      assert (0 <= (g0 - g1) * (G1 - G0)).
      { destruct (Rle_dec (Y 0%nat s) (Y 1%nat s)) as [LE|LE].
        - assert (M1 := ng_mono _ _ LE). assert (M2 := G_mono _ _ LE). fold g0 g1 in M1. fold G0 G1 in M2. apply Rmult_le_pos; lra.
        - assert (LE' : Y 1%nat s <= Y 0%nat s) by lra. assert (M1 := ng_mono _ _ LE'). assert (M2 := G_mono _ _ LE'). fold g0 g1 in M1. fold G0 G1 in M2. replace ((g0 - g1) * (G1 - G0)) with ((g1 - g0) * (G0 - G1)) by ring. apply Rmult_le_pos; lra. }
      assert (0 <= w0 * B1 * ((g0 - g1) * (G1 - G0))) by (apply Rmult_le_pos; [apply Rmult_le_pos; lra|assumption]). lra. }
  assert (VA : V a = 0). { unfold V. apply rsum_zero. intros i Hi. rewrite prim_neg by (try lra; assert (Z := HY i Hi); lra). ring. }
  assert (VT := evolves_nonincreasing a b V V' EV DOWN t T). rewrite VA in VT.
  destruct (Rle_dec 0 (Y j t)) as [P|P]; [exact P|exfalso].
  assert (Q : 0 < W j * prim 1 (- Y j t)). { apply Rmult_lt_0_compat; [apply WP, J|]. assert (Z := prim_lt 1 0 (- Y j t) ltac:(lra) ltac:(lra)). rewrite prim_neg in Z by lra. exact Z. }
  assert (R : W j * prim 1 (- Y j t) <= V t).
  { unfold V. apply (rsum_member nc (fun i => W i * prim 1 (- Y i t)) j J). intros i Hi. apply Rmult_le_pos; [left; apply WP, Hi|apply prim_nonneg; lra]. }
  lra.
Qed.
End Few.
End Contactor.

(** ** The beads at the inlet of an ion-exchange column *)
From Verif Require Import M_IxEq S_IxEq M_IxColumn S_IxColumn P_IxColumn S_Unique Props_Rest.

(** The equilibrium concentration of an ion that is not on the resin, over its loading. *)
Section Factor.
Variables (n : nat) (K : nat -> R) (val : nat -> nat) (q : R -> nat -> R) (CT : R -> R) (a : R).
Hypothesis SEL : forall i, (i < n)%nat -> 0 < K i.
Hypothesis CQ : forall i, (i < n)%nat -> continuity_pt (fun t => q t i) a.
Hypothesis CC : continuity_pt CT a.
Hypothesis C0 : 0 <= CT a.
Hypothesis Q0 : 0 < q a 0%nat.
Hypothesis QI : forall i, (1 <= i < n)%nat -> q a i = 0.
Hypothesis N0 : (0 < n)%nat.
Lemma calc_factor i : (1 <= i < n)%nat -> val 0%nat = 1%nat ->
  exists phi, (forall t, calc_Ceq n K val (q t) (CT t) i = phi t * q t i) /\ continuity_pt phi a /\ 0 <= phi a.
Proof.
  intros I V. unfold calc_Ceq. destruct (has_divalent n val).
  - destruct (dv_zero n K val q a Q0 QI N0 V) as (A0 & B0).
    exists (fun t => / K i * (Cc_column n K val (q t) (CT t) / q t 0%nat) ^ val i). assert (KI := SEL i ltac:(lia)). split; [|split].
    + intros t. unfold Ceq_dv, mass_action. destruct (Nat.eqb_spec i 0) as [->|_]; [lia|]. unfold Rdiv. ring.
    + apply c_mult; [apply c_const|]. apply c_pow. apply c_div; [|apply CQ; lia|lra].
      assert (CA : continuity_pt (fun t => eq_aa n K val (q t)) a) by (unfold eq_aa; apply c_div; [apply (c_masked n K q a SEL CQ)|apply c_pow, CQ; lia|apply pow_nonzero; lra]).
      assert (CB : continuity_pt (fun t => eq_bb n K val (q t)) a) by (unfold eq_bb; apply c_plus; [apply c_div; [apply (c_masked n K q a SEL CQ)|apply CQ; lia|lra]|apply c_const]).
      unfold Cc_column. cbv zeta. apply c_div.
      * apply c_mult; [apply c_const|apply c_opp; exact CC].
      * apply c_minus; [apply c_opp; exact CB|]. apply c_sqrt.
        -- apply c_minus; [apply c_pow; exact CB|]. apply c_mult; [apply c_mult; [apply c_const|exact CA]|apply c_opp; exact CC].
        -- rewrite A0, B0. replace (1 ^ 2 - 4 * 0 * - CT a) with 1 by ring. lra.
      * rewrite A0, B0. replace (1 ^ 2 - 4 * 0 * - CT a) with 1 by ring. rewrite sqrt_1. lra.
    + apply Rmult_le_pos; [left; apply Rinv_0_lt_compat; exact KI|]. apply pow_le. apply Rmult_le_pos; [|left; apply Rinv_0_lt_compat; exact Q0].
      unfold Cc_column. cbv zeta. rewrite A0, B0. replace (1 ^ 2 - 4 * 0 * - CT a) with 1 by ring. rewrite sqrt_1. replace (2 * - CT a / (- (1) - 1)) with (CT a) by field. exact C0.
  - assert (D : rsum n (fun j => alpha K i j * q a j) = alpha K i 0 * q a 0%nat).
    { apply (rsum_only n (fun j => alpha K i j * q a j) 0%nat); [lia|]. intros j J NJ. rewrite QI by lia. ring. }
    assert (DP : 0 < rsum n (fun j => alpha K i j * q a j)).
    { rewrite D. unfold alpha. assert (0 < K i) by (apply SEL; lia). assert (0 < K 0%nat) by (apply SEL; lia). apply Rmult_lt_0_compat; [apply Rdiv_lt_0_compat; assumption|exact Q0]. }
    exists (fun t => CT t / rsum n (fun j => alpha K i j * q t j)). split; [|split].
    + intros t. unfold Ceq_mv, Rdiv. ring.
    + apply c_div; [exact CC| |lra]. apply c_rsum. intros j J. apply c_mult; [apply c_const|apply CQ, J].
    + apply Rmult_le_pos; [exact C0|left; apply Rinv_0_lt_compat; exact DP].
Qed.
End Factor.

Lemma near f : continuity_pt f 0 -> 0 < f 0 -> exists d, 0 < d /\ forall t, 0 < t < d -> f 0 / 2 <= f t <= 2 * f 0.
Proof.
  intros C P. destruct (C (f 0 / 2) ltac:(lra)) as (d & D & H). exists d. split; [exact D|]. intros t T.
  assert (Q : R_dist (f t) (f 0) < f 0 / 2). { apply H. split; [split; [exact I|lra]|]. cbn. unfold R_dist. rewrite Rminus_0_r, Rabs_right; lra. }
  unfold R_dist in Q. apply Rabs_def2 in Q. lra.
Qed.
Lemma near_all n (F Y : nat -> R -> R) : (forall m, (m < n)%nat -> exists f, (forall t, F m t = f t * Y m t) /\ continuity_pt f 0 /\ 0 < f 0) ->
  exists d k L, 0 < d /\ 0 < k /\ k <= L /\ forall t, 0 < t < d -> forall m, (m < n)%nat -> exists r, k <= r <= L /\ F m t = r * Y m t.
Proof.
  intros H. induction n as [|n IH]; [exists 1, 1, 1; repeat split; try lra; intros; lia|]. destruct IH as (d & k & L & D & K & KL & P); [intros; apply H; lia|].
  destruct (H n ltac:(lia)) as (f & E & C & F0). destruct (near f C F0) as (d2 & D2 & P2).
  exists (Rmin d d2), (Rmin k (f 0 / 2)), (Rmax L (2 * f 0)). assert (A := Rmin_l d d2). assert (A2 := Rmin_r d d2). assert (B := Rmin_l k (f 0 / 2)). assert (B2 := Rmin_r k (f 0 / 2)). assert (G := Rmax_l L (2 * f 0)). assert (G2 := Rmax_r L (2 * f 0)).
  repeat split; try (apply Rmin_glb_lt; lra); [lra|]. intros t T m M. destruct (Nat.eq_dec m n) as [->|NE].
  - exists (f t). split; [specialize (P2 t ltac:(lra)); lra|apply E].
  - destruct (P t ltac:(lra) m ltac:(lia)) as (r & R & ER). exists r. split; [lra|exact ER].
Qed.

Section Column.
Variables (legendre : nat -> nat -> R) (jacobi : nat -> R -> R -> nat -> R) (ocfe : bool) (op : operators).
Variables (psdm : bool) (c : column) (th : R) (Cin : R -> nat -> R) (Tf : R) (y : R -> nat -> nat -> nat -> R) (i k : nat).
Hypothesis HJ : jacobi_roots 2 (nr c - 1) (jacobi (nr c - 1)%nat (5 / 2) (3 / 2)).
Hypothesis BO : build_operators legendre jacobi (nr c) (nz c) ocfe = Ok op.
Hypothesis WC : working_column psdm c th.
Hypothesis V : val c 0%nat = 1%nat.
Hypothesis N : (1 <= i < NION c)%nat.
Hypothesis HQ : 0 < Qcap c.
Hypothesis TF : 0 < Tf.
Hypothesis CI : forall j, (j < NION c)%nat -> continuity_pt (fun T => Cin T j) 0.
Hypothesis CP : forall j, (j < NION c)%nat -> 0 <= Cin 0 j.
Hypothesis HC : 0 < Cin 0 i.
Hypothesis TR : is_trajectory (nr c) (NION c) (nz c) (fun T u => rhs psdm c op th (Cin T) u) Tf y.
Hypothesis Y0 : same_state (nr c) (NION c) (nz c) (y 0) (initial_state c (Cin 0) None).
Hypothesis Hk : (k < nr c - 1)%nat.
Let u := rootsu jacobi (nr c) (INR 3).
Lemma grid3 : jacobi_roots 2 (nr c - 1) (jacobi (nr c - 1)%nat (INR 3 / 2 + 1) (INR 3 / 2)).
Proof. rewrite Props_PacBound.INR3. replace (3 / 2 + 1) with (5 / 2) by field. exact HJ. Qed.
Lemma op_is : Br op = Bx (nr c) u (INR 3) /\ Wr op = Wx (nr c) u (INR 3).
Proof.
  unfold u. rewrite Props_PacBound.INR3. unfold build_operators in BO. destruct ocfe; [destruct (Nat.eqb _ _); [|discriminate BO]|]; apply Ok_inj in BO; subst op; split; reflexivity.
Qed.
Lemma rad0 r j : (r < nr c)%nat -> (j < NION c)%nat -> y 0 (S r) j 0%nat = if Nat.eqb j 0 then Qcap c else 0.
Proof. intros R J. destruct WC as (_ & _ & Z & _). rewrite Y0 by lia. reflexivity. Qed.
Lemma cont_y r j : (r <= nr c)%nat -> (j < NION c)%nat -> continuity_pt (fun T => y T r j 0%nat) 0.
Proof. intros R J. destruct WC as (_ & _ & Z & _). apply (TR r j 0%nat R J ltac:(lia)). lra. Qed.
Let q (r : nat) (T : R) (j : nat) : R := y T (S r) j 0%nat / theta psdm c.
Let CT (T : R) : R := rsum (NION c) (Cin T).
Lemma th_pos : 0 < theta psdm c.
Proof. destruct WC as (_ & _ & _ & _ & _ & _ & _ & _ & _ & _ & E & _). unfold theta. destruct psdm; [specialize (E eq_refl); lra|lra]. Qed.
Lemma factor r : (r < nr c)%nat -> exists phi, (forall t, calc_Ceq (NION c) (Kxc c) (val c) (q r t) (CT t) i = phi t * y t (S r) i 0%nat) /\ continuity_pt phi 0 /\ 0 <= phi 0.
Proof.
  intros R. assert (TP := th_pos). destruct (calc_factor (NION c) (Kxc c) (val c) (q r) CT 0) with (i := i) as (phi & E & C & P); try assumption; try lia.
  - apply WC.
  - intros j J. unfold q. apply c_div; [apply cont_y; [lia|exact J]|apply c_const|lra].
  - unfold CT. apply c_rsum. exact CI.
  - unfold CT. apply rsum_nonneg. exact CP.
  - unfold q. rewrite rad0 by lia. cbn. apply Rdiv_lt_0_compat; assumption.
  - intros j J. unfold q. rewrite rad0 by lia. destruct (Nat.eqb_spec j 0); [lia|]. unfold Rdiv. ring.
  - exists (fun t => phi t / theta psdm c). split; [|split].
    + intros t. rewrite E. unfold q, Rdiv. ring.
    + apply c_div; [exact C|apply c_const|lra].
    + apply Rmult_le_pos; [exact P|left; apply Rinv_0_lt_compat, TP].
Qed.
Let Y (r : nat) (T : R) : R := y T (S r) i 0%nat.
Let F (r : nat) (T : R) : R := th * (if psdm then EPOR c * (Dp c i - Ds c i) * calc_Ceq (NION c) (Kxc c) (val c) (q r T) (CT T) i + Ds c i * Y r T else Ds c i * Y r T) / rb c ^ 2.
Lemma F_ratio r : (r < nr c)%nat -> exists f, (forall t, F r t = f t * Y r t) /\ continuity_pt f 0 /\ 0 < f 0.
Proof.
  intros R. destruct (factor r R) as (phi & E & C & P). destruct WC as (_ & _ & _ & _ & _ & _ & HR & _ & _ & HT & HE & HI). destruct (HI i N) as (_ & D & DP).
  assert (R2 : 0 < rb c ^ 2) by (apply pow_lt, HR).
  exists (fun t => th * (if psdm then EPOR c * (Dp c i - Ds c i) * phi t + Ds c i else Ds c i) / rb c ^ 2). unfold F. split; [|split].
  - intros t. rewrite E. fold (Y r t). destruct psdm; field; lra.
  - apply c_div; [|apply c_const|lra]. apply c_mult; [apply c_const|]. destruct psdm; [|apply c_const]. apply c_plus; [|apply c_const]. apply c_mult; [apply c_const|exact C].
  - apply Rdiv_lt_0_compat; [|exact R2]. apply Rmult_lt_0_compat; [exact HT|]. destruct psdm; [|exact D]. specialize (HE eq_refl). specialize (DP eq_refl).
    assert (0 <= EPOR c * (Dp c i - Ds c i) * phi 0) by (apply Rmult_le_pos; [apply Rmult_le_pos; lra|exact P]). lra.
Qed.
Lemma F_cont r : (r < nr c)%nat -> continuity_pt (F r) 0.
Proof.
  intros R. destruct (F_ratio r R) as (f & E & C & _). apply (c_ext (fun t => f t * Y r t)); [intros t; symmetry; apply E|]. apply c_mult; [exact C|]. apply cont_y; lia.
Qed.
Lemma Y_zero r : (r < nr c)%nat -> Y r 0 = 0.
Proof. intros R. unfold Y. rewrite rad0 by lia. destruct (Nat.eqb_spec i 0); [lia|reflexivity]. Qed.
Lemma calc_at r T : calc_Ceq (NION c) (Kxc c) (val c) (fun j => y T (S r) j 0%nat) (CT T) i = calc_Ceq (NION c) (Kxc c) (val c) (fun j => y T (S r) j 0%nat / 1) (CT T) i.
Proof. apply calc_Ceq_ext; [lia| |reflexivity|lia]. intros j _. field. Qed.
Lemma CT_is T v : CTz c (Cin T) v 0 = CT T.
Proof. reflexivity. Qed.
(** inside *)
Lemma inner_rate r T : (r < nr c - 1)%nat -> rhs psdm c op th (Cin T) (y T) (S r) i 0%nat = rsum (nr c) (fun m => Br op r m * F m T).
Proof.
  intros R. assert (EI : Nat.eqb i 0 = false) by (apply Nat.eqb_neq; lia). assert (HR : 0 < rb c) by apply WC. assert (R2 : rb c ^ 2 <> 0) by (apply pow_nonzero; lra).
  unfold rhs, F. destruct psdm eqn:EP; unfold diffun_psdm, diffun_hsdm, assemble; destruct (Nat.eqb_spec r (nr c - 1)) as [X|_]; try lia.
  - unfold psdm_dY, implicit_presat. rewrite EI.
    rewrite (rsum_ext (nr c) (fun m => Br op r m * (th * (EPOR c * (Dp c i - Ds c i) * calc_Ceq (NION c) (Kxc c) (val c) (q m T) (CT T) i + Ds c i * Y m T) / rb c ^ 2))
       (fun m => th / rb c ^ 2 * (EPOR c * (Dp c i - Ds c i) * (Br op r m * calc_Ceq (NION c) (Kxc c) (val c) (q m T) (CT T) i) + Ds c i * (Br op r m * Y m T)))) by (intros m _; field; lra).
    rewrite rsum_scal, rsum_plus, !rsum_scal. unfold psdm_Cpore, psdm_q, q, Y. rewrite CT_is. unfold theta. field. lra.
  - unfold hsdm_dq, implicit_presat. rewrite EI.
    rewrite (rsum_ext (nr c) (fun m => Br op r m * (th * (Ds c i * Y m T) / rb c ^ 2)) (fun m => Ds c i * th / rb c ^ 2 * (Br op r m * Y m T))) by (intros m _; field; lra).
    rewrite rsum_scal. reflexivity.
Qed.
(** at the surface *)
Let S' (T : R) : R := (- th / rb c * (- kL c i * (Cin T i - calc_Ceq (NION c) (Kxc c) (val c) (q (nr c - 1) T) (CT T) i)) - rsum (nr c - 1) (fun m => Wr op m * rsum (nr c) (fun j => Br op m j * F j T))) / Wr op (nr c - 1)%nat.
Lemma surface_rate T : rhs psdm c op th (Cin T) (y T) (S (nr c - 1)) i 0%nat = S' T.
Proof.
  assert (EI : Nat.eqb i 0 = false) by (apply Nat.eqb_neq; lia). assert (NR : (1 <= nr c)%nat) by lia.
  assert (IN : rsum (nr c - 1) (fun m => Wr op m * rsum (nr c) (fun j => Br op m j * F j T)) = rsum (nr c - 1) (fun m => Wr op m * rhs psdm c op th (Cin T) (y T) (S m) i 0%nat)).
  { apply rsum_ext. intros m Hm. rewrite inner_rate by exact Hm. reflexivity. }
  unfold S'. rewrite IN. clear IN.
  assert (SR : (S (nr c - 1) = nr c)%nat) by lia.
  unfold rhs, q. destruct psdm eqn:EP; unfold theta, diffun_psdm, diffun_hsdm; (assert (AS : forall J dq, assemble c op th (Cin T) (y T) J dq (S (nr c - 1)) i 0%nat = (- th / rb c * J i 0%nat - rsum (nr c - 1) (fun m => Wr op m * dq m i 0%nat)) / Wr op (nr c - 1)%nat) by (intros J dq; unfold assemble; rewrite Nat.eqb_refl; reflexivity)); rewrite AS;
    (assert (AI : forall J dq, rsum (nr c - 1) (fun m => Wr op m * dq m i 0%nat) = rsum (nr c - 1) (fun m => Wr op m * assemble c op th (Cin T) (y T) J dq (S m) i 0%nat)) by (intros J dq; apply rsum_ext; intros m Hm; unfold assemble; destruct (Nat.eqb_spec m (nr c - 1)); [lia|reflexivity]));
    unfold psdm_J, hsdm_J, flux, implicit_presat; rewrite EI, SR, CT_is; f_equal; f_equal.
  - apply AI.
  - assert (X := calc_at (nr c - 1) T). rewrite SR in X. rewrite X. reflexivity.
  - apply AI.
Qed.
Lemma column_start : exists d, 0 < d <= Tf /\ forall T, 0 < T < d -> 0 < Bx (nr c) u (INR 3) k (nr c - 1)%nat * y T (S k) i 0%nat.
Proof.
  assert (NR : (1 <= nr c)%nat) by lia. destruct op_is as (EB & EW). destruct (code_weights jacobi (nr c) 2 NR grid3) as (WP & _). fold u in WP. rewrite <- EW in WP. assert (W0 := WP (nr c - 1)%nat ltac:(lia)).
  assert (WC' := WC). destruct WC' as (_ & _ & NZ & _ & _ & _ & HR & _ & _ & HT & _ & HI). destruct (HI i N) as (KL & _ & _).
  assert (SR : (S (nr c - 1) = nr c)%nat) by lia.
  assert (ES : evolves 0 Tf (Y (nr c - 1)) S').
  { eapply evolves_ext; [reflexivity| |apply (TR (S (nr c - 1)) i 0%nat ltac:(lia) ltac:(lia) ltac:(lia))]. intros t _. apply surface_rate. }
  destruct (factor (nr c - 1) ltac:(lia)) as (phi & E & C & P).
  assert (CE : continuity_pt (fun t => calc_Ceq (NION c) (Kxc c) (val c) (q (nr c - 1) t) (CT t) i) 0).
  { apply (c_ext (fun t => phi t * Y (nr c - 1) t)); [intros t; symmetry; apply E|]. apply c_mult; [exact C|apply cont_y; lia]. }
  assert (CS : continuity_pt S' 0).
  { unfold S'. apply c_div; [|apply c_const|lra]. apply c_minus.
    - apply c_mult; [apply c_const|]. apply c_mult; [apply c_const|]. apply c_minus; [apply CI; lia|exact CE].
    - apply c_rsum. intros m Hm. apply c_mult; [apply c_const|]. apply c_rsum. intros j Hj. apply c_mult; [apply c_const|apply F_cont, Hj]. }
  assert (FZ : forall m, (m < nr c)%nat -> F m 0 = 0) by (intros m Hm; destruct (F_ratio m Hm) as (f & EF & _); rewrite EF, Y_zero by exact Hm; ring).
  assert (S0 : 0 < S' 0).
  { unfold S'. rewrite (rsum_zero (nr c - 1)).
    - rewrite E. fold (Y (nr c - 1) 0). rewrite Y_zero by lia.
      replace ((- th / rb c * (- kL c i * (Cin 0 i - phi 0 * 0)) - 0) / Wr op (nr c - 1)%nat) with (th * kL c i * Cin 0 i / rb c / Wr op (nr c - 1)%nat) by (unfold Rdiv; ring).
      apply Rdiv_lt_0_compat; [|exact W0]. apply Rdiv_lt_0_compat; [|exact HR]. apply Rmult_lt_0_compat; [|exact HC]. apply Rmult_lt_0_compat; assumption.
    - intros m Hm. rewrite rsum_zero; [ring|]. intros j Hj. rewrite FZ by exact Hj. ring. }
  destruct (starts_linear Tf _ S' TF ES CS (Y_zero (nr c - 1)%nat ltac:(lia)) S0) as (d & D & SL).
  destruct (near_all (nr c) F Y F_ratio) as (d2 & kk & L & D2 & KK & KL2 & RT).
  assert (SIGN := last_column_sign jacobi (nr c) 2 ltac:(lia) grid3 k Hk). fold u in SIGN.
  assert (M1 := Rmin_l d d2). assert (M2 := Rmin_r d d2). assert (M0 : 0 < Rmin d d2) by (apply Rmin_glb_lt; lra).
  destruct (follows_surface (nr c - 1) (Br op) Y F (Rmin d d2) 1 L kk (S' 0 / 2) (2 * S' 0) k) as (d' & D' & PP); try lra; try assumption.
  - intros j J. eapply evolves_ext; [reflexivity| |apply (evolves_sub 0 Tf (Rmin d d2) _ _ ltac:(lra) (TR (S j) i 0%nat ltac:(lia) ltac:(lia) ltac:(lia)))].
    intros t _. cbv beta. rewrite inner_rate by exact J. apply rsum_top. exact NR.
  - intros j J. apply Y_zero. lia.
  - intros t T m Hm _. destruct (RT t ltac:(lra) m ltac:(lia)) as (r & R & ER). rewrite ER, Rabs_mult, (Rabs_right r) by lra. apply Rmult_le_compat_r; [apply Rabs_pos|lra].
  - intros t T YP. destruct (RT t ltac:(lra) (nr c - 1)%nat ltac:(lia)) as (r & R & ER). rewrite ER. apply Rmult_le_compat_r; lra.
  - intros t T. apply SL. lra.
  - intros j J. apply cont_y; lia.
  - rewrite EB. intros Z. rewrite Z, Rmult_0_r in SIGN. lra.
  - exists d'. split; [lra|]. rewrite <- EB. exact PP.
Qed.
End Column.

(** ** C196 *)
Lemma side n i Bv yv : (i < n - 1)%nat -> 0 < (-1) ^ (n - i) * Bv -> 0 < Bv * yv -> (Nat.Odd (n - 1 - i) -> 0 < yv) /\ (Nat.Even (n - 1 - i) -> yv < 0).
Proof.
  intros I SG P. assert (E : (n - i = S (n - 1 - i))%nat) by lia. rewrite E in SG. cbn [pow] in SG. split; intros (m & M).
  - rewrite (odd_sign (n - 1 - i)) in SG by (exists m; exact M). apply (Rmult_lt_reg_l Bv); [lra|]. rewrite Rmult_0_r. exact P.
  - rewrite (even_sign (n - 1 - i)) in SG by (exists m; exact M). apply (Rmult_lt_reg_l (- Bv)); [lra|]. rewrite Rmult_0_r. lra.
Qed.
(** Clean carbon put into water that has some of the compound: at once the loading is negative two
    points below the surface of the grains, four below, and so on, and positive at those between. *)
Theorem C196_contactor_start : forall jacobi nc f dosage c b C Y,
  contactor_grid jacobi nc -> sensible f dosage c -> 0 < M_Pac.Ds c -> xn c <= 1 -> 0 < b ->
  let '(_, _, B, W) := recur_colloc_symm jacobi nc 3 in
  let eps := 1 - dosage / (f_dw f * 10 ^ 6) in
  follows nc B W (eqn_of f eps c) 0 b C Y -> 0 < C 0 -> (forall i, (i < nc)%nat -> Y i 0 = 0) ->
  forall i, (i < nc - 1)%nat -> exists d, 0 < d <= b /\ forall t, 0 < t < d ->
    (Nat.Odd (nc - 1 - i) -> 0 < Y i t) /\ (Nat.Even (nc - 1 - i) -> Y i t < 0).
Proof.
  intros jacobi nc f dosage c b C Y HG HS HD Hx Hb. unfold recur_colloc_symm. cbv zeta. intros HF HC HY i Hi.
  assert (J := grid_INR jacobi nc HG). destruct HG as (Hnc & _). destruct HS as (H1 & H2 & H3 & H4 & H5 & H6 & H7 & H8 & H9 & _). rewrite <- Props_PacBound.INR3 in HF.
  set (q := eqn_of f (1 - dosage / (f_dw f * 10 ^ 6)) c) in *.
  assert (QN : 1 <= q_n q). { unfold q. cbn. apply (Rmult_le_reg_r (xn c)); [exact H7|]. unfold Rdiv. rewrite Rmult_assoc, Rinv_l by lra. lra. }
  destruct (contactor_start jacobi nc q Hnc J) with (b := b) (C := C) (Y := Y) (i := i) as (d & D & P); try assumption; try (unfold q; cbn; lra).
  exists d. split; [exact D|]. intros t T. apply (side nc i (Bx nc (rootsu jacobi nc (INR 3)) (INR 3) i (nc - 1)%nat)); [exact Hi| |apply P, T].
  apply last_column_sign; [lia|exact J|exact Hi].
Qed.
(** So no grid of three or more points keeps the loadings from going below zero. *)
Theorem C196_contactor_refuted : forall jacobi nc f dosage c b C Y,
  contactor_grid jacobi nc -> sensible f dosage c -> 0 < M_Pac.Ds c -> xn c <= 1 -> 0 < b -> (3 <= nc)%nat ->
  let '(_, _, B, W) := recur_colloc_symm jacobi nc 3 in
  let eps := 1 - dosage / (f_dw f * 10 ^ 6) in
  follows nc B W (eqn_of f eps c) 0 b C Y -> 0 < C 0 -> (forall i, (i < nc)%nat -> Y i 0 = 0) ->
  exists d, 0 < d <= b /\ forall t, 0 < t < d -> Y (nc - 3)%nat t < 0.
Proof.
  intros jacobi nc f dosage c b C Y HG HS HD Hx Hb N. assert (X := C196_contactor_start jacobi nc f dosage c b C Y HG HS HD Hx Hb). revert X. unfold recur_colloc_symm. cbv zeta. intros X HF HC HY.
  destruct (X HF HC HY (nc - 3)%nat ltac:(lia)) as (d & D & P). exists d. split; [exact D|]. intros t T. apply (P t T). exists 1%nat. lia.
Qed.
(** One or two points do: from loadings that are not negative they stay so to the end. *)
Theorem C196_two_points_partial : forall jacobi nc f dosage c a b C Y,
  contactor_grid jacobi nc -> sensible f dosage c -> (nc <= 2)%nat ->
  let '(_, _, B, W) := recur_colloc_symm jacobi nc 3 in
  let eps := 1 - dosage / (f_dw f * 10 ^ 6) in
  follows nc B W (eqn_of f eps c) a b C Y -> 0 <= C a -> (forall i, (i < nc)%nat -> 0 <= Y i a) ->
  forall t i, a <= t <= b -> (i < nc)%nat -> 0 <= Y i t.
Proof.
  intros jacobi nc f dosage c a b C Y HG HS N. unfold recur_colloc_symm. cbv zeta. intros HF HC HY t i T Hi.
  assert (LOW := fun t => contactor_lower jacobi nc f dosage c HS a b C Y HF t).
  assert (J := grid_INR jacobi nc HG). assert (Q := qn_pos f dosage c HS). destruct HG as (Hnc & _). destruct HS as (H1 & H2 & H3 & H4 & H5 & H6 & H7 & H8 & H9 & _). rewrite <- Props_PacBound.INR3 in HF.
  set (q := eqn_of f (1 - dosage / (f_dw f * 10 ^ 6)) c) in *.
  apply (few_nonneg jacobi nc q Hnc J) with (a := a) (b := b) (C := C); try assumption; try (unfold q; cbn; lra).
  intros s S. specialize (LOW s S). eapply Rle_trans; [|exact LOW]. apply Rmult_le_pos; [exact HC|left; apply exp_pos].
Qed.
(** Fresh resin at the inlet of a column, fed an ion that is not the presaturant: the same. *)
Theorem C196_column_start : forall legendre jacobi ocfe op (psdm : bool) c th Cin Tf y i,
  jacobi_roots 2 (nr c - 1) (jacobi (nr c - 1)%nat (5 / 2) (3 / 2)) -> build_operators legendre jacobi (nr c) (nz c) ocfe = Ok op ->
  working_column psdm c th -> val c 0%nat = 1%nat -> (1 <= i < NION c)%nat -> 0 < Qcap c -> 0 < Tf ->
  (forall j, (j < NION c)%nat -> continuity_pt (fun T => Cin T j) 0 /\ 0 <= Cin 0 j) -> 0 < Cin 0 i ->
  is_trajectory (nr c) (NION c) (nz c) (fun T u => rhs psdm c op th (Cin T) u) Tf y ->
  same_state (nr c) (NION c) (nz c) (y 0) (initial_state c (Cin 0) None) ->
  forall k, (k < nr c - 1)%nat -> exists d, 0 < d <= Tf /\ forall T, 0 < T < d ->
    (Nat.Odd (nr c - 1 - k) -> 0 < y T (S k) i 0%nat) /\ (Nat.Even (nr c - 1 - k) -> y T (S k) i 0%nat < 0).
Proof.
  intros legendre jacobi ocfe op psdm c th Cin Tf y i HJ BO WC V N HQ TF CI HC TR Y0 k Hk.
  destruct (column_start legendre jacobi ocfe op psdm c th Cin Tf y i k HJ BO WC V N HQ TF (fun j J => proj1 (CI j J)) (fun j J => proj2 (CI j J)) HC TR Y0 Hk) as (d & D & P).
  exists d. split; [exact D|]. intros T HT. apply (side (nr c) k (Bx (nr c) (rootsu jacobi (nr c) (INR 3)) (INR 3) k (nr c - 1)%nat)); [exact Hk| |apply P, HT].
  apply last_column_sign; [lia|apply grid3, HJ|exact Hk].
Qed.
Theorem C196_column_refuted : forall legendre jacobi ocfe op (psdm : bool) c th Cin Tf y i,
  jacobi_roots 2 (nr c - 1) (jacobi (nr c - 1)%nat (5 / 2) (3 / 2)) -> build_operators legendre jacobi (nr c) (nz c) ocfe = Ok op ->
  working_column psdm c th -> val c 0%nat = 1%nat -> (1 <= i < NION c)%nat -> 0 < Qcap c -> 0 < Tf ->
  (forall j, (j < NION c)%nat -> continuity_pt (fun T => Cin T j) 0 /\ 0 <= Cin 0 j) -> 0 < Cin 0 i ->
  is_trajectory (nr c) (NION c) (nz c) (fun T u => rhs psdm c op th (Cin T) u) Tf y ->
  same_state (nr c) (NION c) (nz c) (y 0) (initial_state c (Cin 0) None) ->
  (3 <= nr c)%nat -> exists d, 0 < d <= Tf /\ forall T, 0 < T < d -> y T (nr c - 2)%nat i 0%nat < 0.
Proof.
  intros legendre jacobi ocfe op psdm c th Cin Tf y i HJ BO WC V N HQ TF CI HC TR Y0 NR.
  destruct (C196_column_start legendre jacobi ocfe op psdm c th Cin Tf y i HJ BO WC V N HQ TF CI HC TR Y0 (nr c - 3)%nat ltac:(lia)) as (d & D & P).
  exists d. split; [exact D|]. intros T HT. replace (nr c - 2)%nat with (S (nr c - 3)) by lia. apply (P T HT). exists 1%nat. lia.
Qed.
Print Assumptions C196_contactor_start.
Print Assumptions C196_contactor_refuted.
Print Assumptions C196_two_points_partial.
Print Assumptions C196_column_start.
Print Assumptions C196_column_refuted.

(** The contactor of the other examples on three points, and on two. *)
From Verif Require Import P_JacobiRoots.
Example below_zero : exists jacobi, contactor_grid jacobi 3 /\
  let '(_, _, B, W) := recur_colloc_symm jacobi 3 3 in
  let eps := 1 - 10 / (f_dw demo_carbon * 10 ^ 6) in
  exists C Y d, follows 3 B W (eqn_of demo_carbon eps demo_comp) 0 36000 C Y /\ C 0 = 1 /\ (forall i, (i < 3)%nat -> Y i 0 = 0) /\ 0 < d <= 36000 /\ forall t, 0 < t < d -> Y 0%nat t < 0.
Proof.
  destruct (jacobi_exist 2 2) as (r & Hr). exists (fun _ _ _ => r).
  assert (HG : contactor_grid (fun _ _ _ => r) 3) by (split; [lia|exact Hr]). split; [exact HG|].
  assert (L := C188_lasts (fun _ _ _ => r) 3 demo_carbon 10 demo_comp 0 36000 1 (fun _ => 0) HG demo_sensible ltac:(cbn; lra) ltac:(cbn; lra) ltac:(lra) ltac:(lra)).
  assert (BD := fun C Y => C196_contactor_refuted (fun _ _ _ => r) 3 demo_carbon 10 demo_comp 36000 C Y HG demo_sensible ltac:(cbn; lra) ltac:(cbn; lra) ltac:(lra) ltac:(lia)).
  revert L BD. unfold recur_colloc_symm. cbv zeta. intros (C & Y & HF & HC & HY) BD.
  destruct (BD C Y HF ltac:(lra) HY) as (d & D & P). exists C, Y, d. split; [exact HF|]. split; [exact HC|]. split; [exact HY|]. split; [exact D|exact P].
Qed.
Example not_below_zero : exists jacobi, contactor_grid jacobi 2 /\
  let '(_, _, B, W) := recur_colloc_symm jacobi 2 3 in
  let eps := 1 - 10 / (f_dw demo_carbon * 10 ^ 6) in
  exists C Y, follows 2 B W (eqn_of demo_carbon eps demo_comp) 0 36000 C Y /\ C 0 = 1 /\ (forall i, (i < 2)%nat -> Y i 0 = 0).
Proof.
  destruct (jacobi_exist 2 1) as (r & Hr). exists (fun _ _ _ => r).
  assert (HG : contactor_grid (fun _ _ _ => r) 2) by (split; [lia|exact Hr]). split; [exact HG|].
  exact (C188_lasts (fun _ _ _ => r) 2 demo_carbon 10 demo_comp 0 36000 1 (fun _ => 0) HG demo_sensible ltac:(cbn; lra) ltac:(cbn; lra) ltac:(lra) ltac:(lra)).
Qed.
(** Chloride resin fed chloride, nitrate and sulphate, on four radial points. *)
From Verif Require Import Props_IxColumn Props_Exist.
Example nitrate_below_zero : forall psdm, exists jacobi op Tf y d,
  jacobi_roots 2 3 (jacobi 3%nat (5 / 2) (3 / 2)) /\ build_operators even_roots jacobi 4 5 false = Ok op /\ 0 < d <= Tf /\
  is_trajectory 4 3 5 (fun _ u => rhs psdm ex_col op 100 (fun _ => 1) u) Tf y /\
  same_state 4 3 5 (y 0) (initial_state ex_col (fun _ => 1) None) /\
  forall T, 0 < T < d -> y T 2%nat 1%nat 0%nat < 0.
Proof.
  intros psdm. destruct (jacobi_exist 2 3) as (r & Hr). exists (fun _ _ _ => r).
  destruct (build_operators even_roots (fun _ _ _ => r) 4 5 false) as [op|] eqn:B; [|discriminate B]. exists op.
  assert (TH : 0 < theta psdm ex_col) by (destruct psdm; cbn; lra).
  assert (SK : selectivities 3 (Kxc ex_col)) by (intros [|[|[|i]]] _; cbn; lra).
  assert (WC : working_column psdm ex_col 100).
  { repeat split; try (cbn; lia); try (cbn; lra); try exact SK.
    all: destruct i as [|[|[|i]]]; cbn; try lia; try lra; auto. }
  destruct (C168_fresh_bed_starts psdm ex_col op 100 (fun _ _ => 1) 5) as (Tf & y & HT & TR & Y0); try (cbn; lia); try (cbn; lra); try assumption.
  - intros i _ t _ e He. exists 1. split; [lra|]. intros. rewrite Rminus_diag_eq by reflexivity. rewrite Rabs_R0. exact He.
  - intros. lra.
  - destruct (C196_column_refuted even_roots (fun _ _ _ => r) false op psdm ex_col 100 (fun _ _ => 1) Tf y 1) as (d & D & P); try (cbn; lia); try (cbn; lra); try assumption.
    + intros j _. split; [apply c_const|lra].
    + exists Tf, y, d. split; [exact Hr|]. split; [reflexivity|]. split; [exact D|]. split; [exact TR|]. split; [exact Y0|exact P].
Qed.
