(** A contactor left alone comes to rest. *)
From Coq Require Import Reals Lra Lia Arith.
From Verif Require Import Lib_Py P_GacFun Lib_Pow Lib_PowLip Lib_Sum Lib_Traj Lib_Settle Lib_Poly S_Colloc M_Colloc S_Radial P_Radial P_RadialGap M_Pac P_Pac Props_Pac P_PacBound.
Open Scope R_scope.

(** Bounded, and moving at a bounded pace, after [t0]. *)
Section Pace.
Variable t0 : R.
Definition bdd (f : R -> R) : Prop := exists K, 0 <= K /\ forall t, t0 <= t -> Rabs (f t) <= K.
Definition paced (f : R -> R) : Prop := exists K, 0 <= K /\ forall s t, t0 <= s -> s <= t -> Rabs (f t - f s) <= K * (t - s).
Lemma bdd_plus f g : bdd f -> bdd g -> bdd (fun t => f t + g t).
Proof.
  intros (K & HK & F) (L & HL & G). exists (K + L). split; [lra|]. intros t Ht. eapply Rle_trans; [apply Rabs_triang|].
  specialize (F t Ht). specialize (G t Ht). lra.
Qed.
Lemma bdd_scal k f : bdd f -> bdd (fun t => k * f t).
Proof.
  intros (K & HK & F). exists (Rabs k * K). split; [apply Rmult_le_pos; [apply Rabs_pos|exact HK]|]. intros t Ht. rewrite Rabs_mult.
  apply Rmult_le_compat_l; [apply Rabs_pos|apply F, Ht].
Qed.
Lemma bdd_ext f g : (forall t, t0 <= t -> f t = g t) -> bdd f -> bdd g.
Proof. intros H (K & HK & F). exists K. split; [exact HK|]. intros t Ht. rewrite <- H by exact Ht. apply F, Ht. Qed.
Lemma bdd_rsum n (f : nat -> R -> R) : (forall i, (i < n)%nat -> bdd (f i)) -> bdd (fun t => rsum n (fun i => f i t)).
Proof.
  induction n as [|n IH]; intros H; [exists 0; split; [lra|]; intros; simpl; rewrite Rabs_R0; lra|].
  cbn [rsum]. apply (bdd_plus (fun t => rsum n (fun i => f i t)) (f n)); [apply IH; intros; apply H; lia|apply H; lia].
Qed.
Lemma paced_plus f g : paced f -> paced g -> paced (fun t => f t + g t).
Proof.
  intros (K & HK & F) (L & HL & G). exists (K + L). split; [lra|]. intros s t Hs Ht.
  replace (f t + g t - (f s + g s)) with ((f t - f s) + (g t - g s)) by ring. eapply Rle_trans; [apply Rabs_triang|].
  specialize (F s t Hs Ht). specialize (G s t Hs Ht). lra.
Qed.
Lemma paced_scal k f : paced f -> paced (fun t => k * f t).
Proof.
  intros (K & HK & F). exists (Rabs k * K). split; [apply Rmult_le_pos; [apply Rabs_pos|exact HK]|]. intros s t Hs Ht.
  replace (k * f t - k * f s) with (k * (f t - f s)) by ring. rewrite Rabs_mult, Rmult_assoc.
  apply Rmult_le_compat_l; [apply Rabs_pos|apply F; assumption].
Qed.
Lemma paced_rsum n (f : nat -> R -> R) : (forall i, (i < n)%nat -> paced (f i)) -> paced (fun t => rsum n (fun i => f i t)).
Proof.
  induction n as [|n IH]; intros H; [exists 0; split; [lra|]; intros; simpl; rewrite Rminus_eq_0, Rabs_R0; lra|].
  cbn [rsum]. apply (paced_plus (fun t => rsum n (fun i => f i t)) (f n)); [apply IH; intros; apply H; lia|apply H; lia].
Qed.
Lemma paced_comp M L g f : 0 <= L -> (forall x y, Rabs x <= M -> Rabs y <= M -> Rabs (g x - g y) <= L * Rabs (x - y)) ->
  (forall t, t0 <= t -> Rabs (f t) <= M) -> paced f -> paced (fun t => g (f t)).
Proof.
  intros HL G B (K & HK & F). exists (L * K). split; [apply Rmult_le_pos; assumption|]. intros s t Hs Ht.
  eapply Rle_trans; [apply G; apply B; lra|]. rewrite Rmult_assoc. apply Rmult_le_compat_l; [exact HL|apply F; assumption].
Qed.
Lemma paced_evolves f f' : (forall b, evolves t0 b f f') -> bdd f' -> paced f.
Proof.
  intros H (K & HK & B). exists K. split; [exact HK|]. intros s t Hs Ht. destruct (Req_dec s t) as [->|N].
  - rewrite !Rminus_eq_0, Rabs_R0. lra.
  - destruct (evolves_mvt s t f f' ltac:(lra) (evolves_from t0 t s f f' Hs (H t))) as (x & Hx & ->).
    rewrite Rabs_mult, (Rabs_pos_eq (t - s)) by lra. apply Rmult_le_compat_r; [lra|apply B; lra].
Qed.
End Pace.

Section Settle.
Variables (jac : nat -> R -> R -> nat -> R) (nc : nat) (q : eqn).
Notation a3 := (INR 3).
Notation u := (rootsu jac nc a3).
Notation B := (Bx nc u a3).
Notation W := (Wx nc u a3).
Hypothesis Hnc : (1 <= nc)%nat.
Hypothesis HJ : jacobi_roots 2 (nc - 1) (jac (nc - 1)%nat (a3 / 2 + 1) (a3 / 2)).
Hypothesis Hrho : 0 < q_rho q.
Hypothesis HK : 0 < q_K q.
Hypothesis Hq : 1 <= q_n q.
Hypothesis HkL : 0 < q_kL q.
Hypothesis HE : 0 < q_E q < 1.
Hypothesis HEp : 0 <= q_Ep q.
Hypothesis HDs : 0 < q_Ds q <= q_Dp q.
Hypothesis Hra : 0 < q_ra q.
Variables (t0 : R) (C : R -> R) (Y : nat -> R -> R).
Hypothesis HF : forall b, follows nc B W q t0 b C Y.
Hypothesis HC0 : 0 <= C t0.
Notation k0 := (q_rho q * q_K q).
Notation dd := (q_Ep q * (q_Dp q - q_Ds q)).
Notation last := (nc - 1)%nat.
Notation al := (q_E q / (3 * (1 - q_E q))).
Notation en := (energy jac nc q C Y).
Notation e1 := (/ q_n q).
Lemma q0 : 0 < q_n q. Proof. lra. Qed.
Lemma k0p : 0 < k0. Proof. apply Rmult_lt_0_compat; assumption. Qed.
Lemma Ds0 : 0 <= q_Ds q <= q_Dp q. Proof. lra. Qed.
Lemma ddp : 0 <= dd. Proof. apply Rmult_le_pos; lra. Qed.
Lemma wp i : (i < nc)%nat -> 0 < W i. Proof. apply (code_weights jac nc 2 Hnc HJ). Qed.
Lemma Cpos t : t0 <= t -> 0 <= C t.
Proof. intros Ht. apply (liquid_nonneg jac nc q Hrho HK HkL HE Hra t0 t C Y (HF t) HC0). lra. Qed.
Lemma endec t : t0 <= t -> en t <= en t0.
Proof. intros Ht. apply (energy_decays jac nc q Hnc HJ Hrho HK q0 HkL HE HEp Ds0 Hra t0 t C Y (HF t) HC0). lra. Qed.
Lemma enpos t : 0 <= en t.
Proof.
  unfold energy. apply Rplus_le_le_0_compat.
  - apply rsum_nonneg. intros i Hi. apply Rmult_le_pos; [left; apply wp, Hi|apply Phi_nonneg; first [assumption|apply q0|apply Ds0]].
  - apply Rmult_le_pos; [left; apply Rdiv_lt_0_compat; lra|apply Gl_nonneg; first [assumption|apply q0|apply Ds0]].
Qed.
Lemma Ybdd i : (i < nc)%nat -> forall t, t0 <= t -> Rabs (Y i t) <= 1 + 2 * en t0 / (W i * q_Ds q).
Proof.
  intros Hi t Ht. assert (X := bead_bound jac nc q Hnc HJ Hrho HK q0 HkL HE HEp Ds0 Hra t0 t C Y (HF t) HC0 t i ltac:(lra) Hi).
  assert (P := wp i Hi). assert (PW : 0 < W i * q_Ds q) by (apply Rmult_lt_0_compat; lra).
  assert (S : Y i t ^ 2 <= 2 * en t0 / (W i * q_Ds q)).
  { apply Rmult_le_reg_r with (W i * q_Ds q); [exact PW|]. unfold Rdiv. rewrite Rmult_assoc, Rinv_l by lra. lra. }
  unfold Rabs. destruct (Rcase_abs (Y i t)); nra.
Qed.
Lemma Cbdd : exists M, forall t, t0 <= t -> C t <= M.
Proof.
  set (k := al * (q_Ds q * k0)). assert (Pal : 0 < al) by (apply Rdiv_lt_0_compat; lra). assert (Z := k0p).
  assert (Pk : 0 < k) by (apply Rmult_lt_0_compat; [exact Pal|apply Rmult_lt_0_compat; lra]).
  assert (E1 : 0 < e1) by (apply Rinv_0_lt_compat, q0).
  exists (1 + en t0 * (e1 + 1) / k). intros t Ht. assert (D := endec t Ht). assert (P := Cpos t Ht).
  assert (EP := enpos t0). assert (NN : 0 <= en t0 * (e1 + 1) / k).
  { apply Rmult_le_pos; [apply Rmult_le_pos; lra|left; apply Rinv_0_lt_compat, Pk]. }
  destruct (Rle_dec (C t) 1) as [L|L]; [lra|].
  assert (G : al * Gl q (C t) <= en t0).
  { unfold energy at 1 in D. assert (0 <= rsum nc (fun i => W i * Phi q (Y i t))); [|lra].
    apply rsum_nonneg. intros i Hi. apply Rmult_le_pos; [left; apply wp, Hi|apply Phi_nonneg; first [assumption|apply q0|apply Ds0]]. }
  unfold Gl, prim in G. rewrite clip_pos in G by exact P. rewrite rpow_plus in G by lra. rewrite rpow_1 in G by lra.
  assert (R1 : 1 <= rpow (C t) e1). { rewrite <- (rpow_one_base e1). apply rpow_le; lra. }
  assert (X := ddp). assert (S := pow2_ge_0 (C t)).
  assert (G1 : 0 <= al * (dd * (C t ^ 2 / 2))) by (apply Rmult_le_pos; [lra|apply Rmult_le_pos; lra]).
  assert (G2 : k * (rpow (C t) e1 * C t / (e1 + 1)) <= en t0) by (unfold k; lra).
  assert (G3 : C t <= rpow (C t) e1 * C t) by nra.
  assert (C t <= en t0 * (e1 + 1) / k); [|lra].
  apply Rmult_le_reg_r with (k / (e1 + 1)); [apply Rdiv_lt_0_compat; lra|].
  replace (en t0 * (e1 + 1) / k * (k / (e1 + 1))) with (en t0) by (field; lra).
  eapply Rle_trans; [|exact G2]. replace (k * (rpow (C t) e1 * C t / (e1 + 1))) with (rpow (C t) e1 * C t * (k / (e1 + 1))) by (field; lra).
  apply Rmult_le_compat_r; [left; apply Rdiv_lt_0_compat; lra|exact G3].
Qed.
(** one bound for all *)
Lemma bound : exists M, 0 < M /\ (forall t, t0 <= t -> 0 <= C t <= M) /\ forall i t, (i < nc)%nat -> t0 <= t -> Rabs (Y i t) <= M.
Proof.
  destruct Cbdd as (MC & HM). set (My := fun i => Rabs (1 + 2 * en t0 / (W i * q_Ds q))).
  exists (1 + Rabs MC + rsum nc My).
  assert (S0 : 0 <= rsum nc My) by (apply rsum_nonneg; intros; apply Rabs_pos).
  assert (A := Rabs_pos MC). assert (A2 := Rle_abs MC).
  split; [lra|]. split.
  - intros t Ht. split; [apply Cpos, Ht|]. specialize (HM t Ht). lra.
  - intros i t Hi Ht. assert (X := Ybdd i Hi t Ht). assert (X2 := Rle_abs (1 + 2 * en t0 / (W i * q_Ds q))).
    assert (X3 := rsum_one nc My i Hi (fun j => Rabs_pos _)). unfold My at 1 in X3. lra.
Qed.
(** the isotherm is Lipschitz between bounds *)
Lemma clip_max x : clip x = Rmax 0 x.
Proof. unfold Rmax. destruct (Rle_dec 0 x); [apply clip_pos|apply clip_neg]; lra. Qed.
Lemma ramp_lip M x y : 0 < M -> Rabs x <= M -> Rabs y <= M ->
  Rabs (rpow (clip x) (q_n q) - rpow (clip y) (q_n q)) <= q_n q * rpow M (q_n q - 1) * Rabs (x - y).
Proof.
  intros HM Hx Hy. assert (X1 := Rle_abs x). assert (Y1 := Rle_abs y).
  eapply Rle_trans; [apply (rpow_lip (q_n q) M); [exact Hq|exact HM| |]|].
  - rewrite clip_max. split; [apply Rmax_l|apply Rmax_lub; lra].
  - rewrite clip_max. split; [apply Rmax_l|apply Rmax_lub; lra].
  - apply Rmult_le_compat_l; [apply Rmult_le_pos; [lra|left; apply rpow_pos, HM]|]. rewrite !clip_max. apply pospart_lip.
Qed.
Lemma por_lip M : 0 < M -> exists L, 0 <= L /\ forall x y, Rabs x <= M -> Rabs y <= M -> Rabs (por q x - por q y) <= L * Rabs (x - y).
Proof.
  intros HM. assert (Z := k0p). assert (MK : 0 < M / k0) by (apply Rdiv_lt_0_compat; assumption).
  exists (q_n q * rpow (M / k0) (q_n q - 1) / k0). split.
  - apply Rmult_le_pos; [apply Rmult_le_pos; [lra|left; apply rpow_pos, MK]|left; apply Rinv_0_lt_compat, Z].
  - assert (SC : forall x, Rabs x <= M -> Rabs (x / k0) <= M / k0).
    { intros x Hx. unfold Rdiv. rewrite Rabs_mult, (Rabs_pos_eq (/ k0)) by (left; apply Rinv_0_lt_compat, Z). apply Rmult_le_compat_r; [left; apply Rinv_0_lt_compat, Z|exact Hx]. }
    intros x y Hx Hy. unfold por. eapply Rle_trans; [apply (ramp_lip (M / k0)); [exact MK|apply SC, Hx|apply SC, Hy]|]. right.
    replace (x / k0 - y / k0) with (/ k0 * (x - y)) by (field; lra). rewrite Rabs_mult, (Rabs_pos_eq (/ k0)) by (left; apply Rinv_0_lt_compat, Z).
    unfold Rdiv. ring.
Qed.
Lemma drive_lip M : 0 < M -> exists L, 0 <= L /\ forall x y, Rabs x <= M -> Rabs y <= M -> Rabs (drive q x - drive q y) <= L * Rabs (x - y).
Proof.
  intros HM. destruct (por_lip M HM) as (L & HL & P). assert (X := ddp). exists (dd * L + q_Ds q). split.
  - apply Rplus_le_le_0_compat; [apply Rmult_le_pos; assumption|lra].
  - intros x y Hx Hy. unfold drive. replace (dd * por q x + q_Ds q * x - (dd * por q y + q_Ds q * y)) with (dd * (por q x - por q y) + q_Ds q * (x - y)) by ring.
    eapply Rle_trans; [apply Rabs_triang|]. rewrite (Rabs_mult dd), (Rabs_mult (q_Ds q)), (Rabs_pos_eq dd), (Rabs_pos_eq (q_Ds q)) by lra.
    specialize (P x y Hx Hy). assert (dd * Rabs (por q x - por q y) <= dd * (L * Rabs (x - y))) by (apply Rmult_le_compat_l; assumption). lra.
Qed.
Lemma lip_bdd L M (g f : R -> R) : (forall x y, Rabs x <= M -> Rabs y <= M -> Rabs (g x - g y) <= L * Rabs (x - y)) -> 0 < M -> 0 <= L ->
  (forall t, t0 <= t -> Rabs (f t) <= M) -> bdd t0 (fun t => g (f t)).
Proof.
  intros G HM HL Fb. exists (L * M + Rabs (g 0)). split; [assert (X := Rabs_pos (g 0)); assert (0 <= L * M) by (apply Rmult_le_pos; lra); lra|]. intros t Ht.
  assert (X := G (f t) 0 (Fb t Ht) ltac:(rewrite Rabs_R0; lra)). rewrite Rminus_0_r in X.
  assert (Y1 := Fb t Ht). assert (L * Rabs (f t) <= L * M) by (apply Rmult_le_compat_l; assumption).
  replace (g (f t)) with ((g (f t) - g 0) + g 0) by ring. eapply Rle_trans; [apply Rabs_triang|]. lra.
Qed.
Lemma por_bdd i : (i < nc)%nat -> bdd t0 (fun t => por q (Y i t)).
Proof.
  intros Hi. destruct bound as (M & HM & _ & HY). destruct (por_lip M HM) as (L & HL & P).
  apply (lip_bdd L M (por q) (Y i) P HM HL). intros t Ht. apply HY; assumption.
Qed.
Lemma drive_bdd i : (i < nc)%nat -> bdd t0 (fun t => drive q (Y i t)).
Proof.
  intros Hi. destruct bound as (M & HM & _ & HY). destruct (drive_lip M HM) as (L & HL & P).
  apply (lip_bdd L M (drive q) (Y i) P HM HL). intros t Ht. apply HY; assumption.
Qed.
Lemma C_bdd : bdd t0 C.
Proof. destruct bound as (M & HM & HC & _). exists M. split; [lra|]. intros t Ht. specialize (HC t Ht). rewrite Rabs_pos_eq; lra. Qed.
Lemma flux_bdd : bdd t0 (fun t => flux nc q (C t) (fun i => Y i t)).
Proof.
  apply (bdd_ext t0 (fun t => - q_kL q * (C t + -1 * por q (Y last t)))).
  - intros t _. unfold flux. rewrite (pore_por q Hrho HK). ring.
  - apply bdd_scal, bdd_plus; [apply C_bdd|apply bdd_scal, por_bdd; lia].
Qed.
Lemma diffusion_bdd i : bdd t0 (fun t => diffusion nc B q (fun j => Y j t) i).
Proof.
  apply (bdd_ext t0 (fun t => / q_ra q ^ 2 * rsum nc (fun j => B i j * drive q (Y j t)))).
  - intros t _. rewrite (diffusion_drive jac nc q Hrho HK). unfold apply_row, Rdiv. ring.
  - apply bdd_scal. apply (bdd_rsum t0 nc (fun j t => B i j * drive q (Y j t))). intros j Hj. apply bdd_scal, drive_bdd, Hj.
Qed.
Lemma C_paced : paced t0 C.
Proof.
  apply (paced_evolves t0 C (fun t => dC_dt nc q (C t) (fun i => Y i t))); [intros b; apply (HF b)|].
  apply (bdd_ext t0 (fun t => (1 - q_E q) / q_E q * (3 / q_ra q) * flux nc q (C t) (fun i => Y i t))).
  - intros t _. unfold dC_dt. ring.
  - apply bdd_scal, flux_bdd.
Qed.
Lemma Y_paced i : (i < nc)%nat -> paced t0 (Y i).
Proof.
  intros Hi. apply (paced_evolves t0 (Y i) (fun t => dY_dt nc B W q (C t) (fun i => Y i t) i)); [intros b; apply (HF b), Hi|].
  unfold dY_dt. destruct (Nat.eqb i last); [|apply diffusion_bdd].
  apply (bdd_ext t0 (fun t => - / W last * (/ q_ra q * flux nc q (C t) (fun i => Y i t) + rsum last (fun k => W k * diffusion nc B q (fun j => Y j t) k)))).
  - intros t _. unfold Rdiv. ring.
  - apply bdd_scal, bdd_plus; [apply bdd_scal, flux_bdd|].
    apply (bdd_rsum t0 last (fun k t => W k * diffusion nc B q (fun j => Y j t) k)). intros k Hk. apply bdd_scal, diffusion_bdd.
Qed.
Lemma por_paced i : (i < nc)%nat -> paced t0 (fun t => por q (Y i t)).
Proof.
  intros Hi. destruct bound as (M & HM & _ & HY). destruct (por_lip M HM) as (L & HL & P).
  apply (paced_comp t0 M L (por q) (Y i) HL P); [intros t Ht; apply HY; assumption|apply Y_paced, Hi].
Qed.
Lemma drive_paced i : (i < nc)%nat -> paced t0 (fun t => drive q (Y i t)).
Proof.
  intros Hi. destruct bound as (M & HM & _ & HY). destruct (drive_lip M HM) as (L & HL & P).
  apply (paced_comp t0 M L (drive q) (Y i) HL P); [intros t Ht; apply HY; assumption|apply Y_paced, Hi].
Qed.

(** What is drained. *)
Notation slope i t := (apply_row nc (Amat nc u) (fun j => drive q (Y j t)) i).
Definition film (t : R) : R := C t - por q (Y last t).
Definition power (t : R) : R := 4 / q_ra q ^ 2 * rsum nc (fun i => W i * (u i * slope i t ^ 2)) + q_kL q / q_ra q * (film t * (mu q (C t) - drive q (Y last t))).
Lemma en_evolves b : evolves t0 b en (fun t => - power t).
Proof.
  eapply evolves_ext; [intros; reflexivity| |apply (energy_evolves jac nc q Hnc HJ Hrho HK q0 HE Hra t0 b C Y (HF b))].
  intros t Ht. cbv beta. rewrite (code_power jac nc 2 Hnc HJ). unfold power, film. field. lra.
Qed.
Lemma film_power : exists k, 0 < k /\ forall t, t0 <= t -> k * film t ^ 2 <= film t * (mu q (C t) - drive q (Y last t)).
Proof.
  destruct bound as (M & HM & HC & HY). destruct (por_bdd last ltac:(lia)) as (Mp & HMp & HP).
  assert (E1 : 0 < e1) by (apply Rinv_0_lt_compat, q0). assert (Z := k0p). assert (X := ddp).
  set (N := rpow (M + Mp) e1). assert (HN : 0 < N) by (apply rpow_pos; lra).
  set (L := q_n q * rpow N (q_n q - 1)). assert (HL : 0 < L) by (apply Rmult_lt_0_compat; [lra|apply rpow_pos, HN]).
  (* between non-negative concentrations *)
  assert (G : forall c p, 0 <= p <= c -> c <= M + Mp -> (c - p) <= L * (rpow c e1 - rpow p e1)).
  { intros c p Hp Hc. assert (R1 : 0 <= rpow p e1) by (apply rpow_nonneg; lra). assert (R2 : rpow p e1 <= rpow c e1) by (apply rpow_le; lra).
    assert (R3 : rpow c e1 <= N) by (apply rpow_le; lra).
    assert (Q := rpow_lip (q_n q) N (rpow c e1) (rpow p e1) Hq HN ltac:(lra) ltac:(lra)).
    assert (INV : forall x, 0 <= x -> rpow (rpow x e1) (q_n q) = x).
    { intros x Hx. destruct (Req_dec x 0) as [->|Nx]; [rewrite !rpow_0; lra|]. rewrite rpow_rpow by lra. rewrite Rinv_l by lra. apply rpow_1. lra. }
    rewrite !INV in Q by lra. rewrite (Rabs_pos_eq (c - p)), (Rabs_pos_eq (rpow c e1 - rpow p e1)) in Q by lra. exact Q. }
  assert (G2 : forall c p, 0 <= c -> 0 <= p -> c <= M + Mp -> p <= M + Mp -> q_Ds q * k0 / L * (c - p) ^ 2 <= (c - p) * (mu q c - mu q p)).
  { intros c p Hc Hp Lc Lp. unfold mu. rewrite !clip_pos by assumption.
    assert (S : forall c p, 0 <= p <= c -> c <= M + Mp -> q_Ds q * k0 / L * (c - p) ^ 2 <= (c - p) * (dd * c + q_Ds q * (k0 * rpow c e1) - (dd * p + q_Ds q * (k0 * rpow p e1)))).
    { clear c p Hc Hp Lc Lp. intros c p Hp Hc. assert (Q := G c p Hp Hc).
      replace ((c - p) * (dd * c + q_Ds q * (k0 * rpow c e1) - (dd * p + q_Ds q * (k0 * rpow p e1))))
        with (dd * (c - p) ^ 2 + q_Ds q * k0 * ((c - p) * (rpow c e1 - rpow p e1))) by ring.
      assert (0 <= dd * (c - p) ^ 2) by (apply Rmult_le_pos; [exact X|apply pow2_ge_0]).
      assert (q_Ds q * k0 / L * (c - p) ^ 2 <= q_Ds q * k0 * ((c - p) * (rpow c e1 - rpow p e1))); [|lra].
      replace (q_Ds q * k0 / L * (c - p) ^ 2) with (q_Ds q * k0 * ((c - p) * ((c - p) / L))) by (field; lra).
      apply Rmult_le_compat_l; [left; apply Rmult_lt_0_compat; lra|]. apply Rmult_le_compat_l; [lra|].
      apply Rmult_le_reg_r with L; [exact HL|]. replace ((c - p) / L * L) with (c - p) by (field; lra). lra. }
    destruct (Rle_dec p c) as [O|O]; [apply S; lra|]. assert (T := S p c ltac:(lra) Lp). lra. }
  exists (q_Ds q * k0 / L). split; [apply Rdiv_lt_0_compat; [apply Rmult_lt_0_compat; lra|exact HL]|]. intros t Ht.
  destruct (HC t Ht) as (C1 & C2). assert (P2 := HP t Ht). assert (Pp : 0 <= por q (Y last t)) by (apply rpow_nonneg, clip_nonneg).
  rewrite Rabs_pos_eq in P2 by exact Pp. unfold film.
  destruct (Rle_dec 0 (Y last t)) as [O|O].
  - destruct (drive_mu q Hrho HK q0 (Y last t) O) as (-> & _). apply G2; lra.
  - assert (E : por q (Y last t) = 0). { unfold por. rewrite clip_neg, rpow_0; [reflexivity|lra|]. apply Rmult_le_reg_r with k0; [exact Z|]. unfold Rdiv. rewrite Rmult_assoc, Rinv_l by lra. lra. }
    rewrite E in *. eapply Rle_trans; [apply (G2 (C t) 0); lra|]. apply Rmult_le_compat_l; [lra|].
    assert (M0 : 0 <= mu q 0). { unfold mu. rewrite clip_pos, rpow_0 by lra. lra. }
    unfold drive. rewrite E. assert (0 <= q_Ds q * - Y last t) by (apply Rmult_le_pos; lra).
    assert (MU : mu q 0 = 0). { unfold mu. rewrite clip_pos, rpow_0 by lra. ring. } lra.
Qed.
Lemma power_parts : exists k, 0 < k /\ forall t, t0 <= t -> (k * film t ^ 2 <= power t) /\ forall i, (i < nc)%nat -> 4 / q_ra q ^ 2 * (W i * u i) * slope i t ^ 2 <= power t.
Proof.
  destruct film_power as (k & Hk & H). exists (q_kL q / q_ra q * k). assert (P1 : 0 < q_kL q / q_ra q) by (apply Rdiv_lt_0_compat; assumption).
  split; [apply Rmult_lt_0_compat; assumption|]. intros t Ht. specialize (H t Ht).
  assert (P2 : 0 < 4 / q_ra q ^ 2) by (apply Rdiv_lt_0_compat; [lra|apply pow_lt, Hra]).
  assert (T : forall j, (j < nc)%nat -> 0 <= W j * (u j * slope j t ^ 2)).
  { intros j Hj. apply Rmult_le_pos; [left; apply wp, Hj|]. apply Rmult_le_pos; [left; apply (u_pos jac nc 2 Hnc HJ), Hj|apply pow2_ge_0]. }
  assert (S0 : 0 <= rsum nc (fun j => W j * (u j * slope j t ^ 2))) by (apply rsum_nonneg; exact T).
  assert (F0 : 0 <= film t * (mu q (C t) - drive q (Y last t))). { eapply Rle_trans; [|exact H]. apply Rmult_le_pos; [lra|apply pow2_ge_0]. }
  unfold power. split.
  - assert (0 <= 4 / q_ra q ^ 2 * rsum nc (fun j => W j * (u j * slope j t ^ 2))) by (apply Rmult_le_pos; lra).
    assert (q_kL q / q_ra q * (k * film t ^ 2) <= q_kL q / q_ra q * (film t * (mu q (C t) - drive q (Y last t)))) by (apply Rmult_le_compat_l; lra). lra.
  - intros i Hi. assert (M := rsum_member nc (fun j => W j * (u j * slope j t ^ 2)) i Hi T). cbv beta in M.
    assert (0 <= q_kL q / q_ra q * (film t * (mu q (C t) - drive q (Y last t)))) by (apply Rmult_le_pos; lra).
    assert (4 / q_ra q ^ 2 * (W i * (u i * slope i t ^ 2)) <= 4 / q_ra q ^ 2 * rsum nc (fun j => W j * (u j * slope j t ^ 2))) by (apply Rmult_le_compat_l; lra).
    lra.
Qed.
Lemma drained k z : 0 < k -> (forall t, t0 <= t -> k * z t ^ 2 <= power t) -> paced t0 z -> vanishes z.
Proof.
  intros Hk H (K & HKK & P). apply (barbalat t0 k (K + 1) en (fun t => - power t) z); [exact Hk|lra|intros; apply en_evolves|intros; apply enpos| |].
  - intros t Ht. specialize (H t ltac:(lra)). lra.
  - intros s t Hs Ht. specialize (P s t Hs Ht). nra.
Qed.
Lemma film_vanishes : vanishes film.
Proof.
  destruct power_parts as (k & Hk & H). apply (drained k film Hk); [intros t Ht; apply (H t Ht)|].
  assert (X : paced t0 (fun t => C t + -1 * por q (Y last t))) by (apply paced_plus; [apply C_paced|apply paced_scal, por_paced; lia]).
  destruct X as (K & HKK & P). exists K. split; [exact HKK|]. intros s t Hs Ht. unfold film. specialize (P s t Hs Ht).
  replace (C t - por q (Y last t) - (C s - por q (Y last s))) with (C t + -1 * por q (Y last t) - (C s + -1 * por q (Y last s))) by ring. exact P.
Qed.
Lemma slope_vanishes i : (i < nc)%nat -> vanishes (fun t => slope i t).
Proof.
  intros Hi. destruct power_parts as (k & Hk & H). apply (drained (4 / q_ra q ^ 2 * (W i * u i))).
  - apply Rmult_lt_0_compat; [apply Rdiv_lt_0_compat; [lra|apply pow_lt, Hra]|]. apply Rmult_lt_0_compat; [apply wp, Hi|apply (u_pos jac nc 2 Hnc HJ), Hi].
  - intros t Ht. apply (H t Ht), Hi.
  - unfold apply_row. apply (paced_rsum t0 nc (fun j t => Amat nc u i j * drive q (Y j t))). intros j Hj. apply paced_scal, drive_paced, Hj.
Qed.
Lemma drive_strong x y : q_Ds q * Rabs (x - y) <= Rabs (drive q x - drive q y).
Proof.
  assert (X := ddp). assert (Z := k0p). assert (S : forall x y, x <= y -> por q x <= por q y).
  { clear x y. intros x y L. unfold por. apply rpow_le; [|lra]. split; [apply clip_nonneg|]. rewrite !clip_max.
    assert (D : x / k0 <= y / k0) by (apply Rmult_le_compat_r; [left; apply Rinv_0_lt_compat, Z|exact L]).
    apply Rmax_lub; [apply Rmax_l|]. eapply Rle_trans; [exact D|apply Rmax_r]. }
  assert (T : forall x y, x <= y -> q_Ds q * (y - x) <= drive q y - drive q x).
  { clear x y. intros x y L. unfold drive. assert (Q := Rmult_le_compat_l dd _ _ X (S x y L)). lra. }
  destruct (Rle_dec x y) as [O|O].
  - rewrite Rabs_minus_sym, (Rabs_minus_sym (drive q x)). rewrite (Rabs_pos_eq (y - x)) by lra. eapply Rle_trans; [apply T, O|apply Rle_abs].
  - rewrite (Rabs_pos_eq (x - y)) by lra. eapply Rle_trans; [apply T; lra|apply Rle_abs].
Qed.
Lemma flat i : (i < nc)%nat -> vanishes (fun t => Y i t - Y last t).
Proof.
  intros Hi. destruct (code_gap jac nc 2 Hnc HJ) as (K & HKK & G).
  assert (V : vanishes (fun t => rsum nc (fun j => Rabs (slope j t)))).
  { apply (vanishes_rsum nc (fun j t => Rabs (slope j t))). intros j Hj. apply vanishes_abs, slope_vanishes, Hj. }
  apply (vanishes_le (K / q_Ds q) t0 _ _ ltac:(apply Rmult_le_pos; [exact HKK|left; apply Rinv_0_lt_compat; lra])) with (2 := V).
  intros t Ht. assert (D := drive_strong (Y i t) (Y last t)). assert (Q := G (fun j => drive q (Y j t)) i Hi). cbv beta in Q.
  assert (A := Rle_abs (rsum nc (fun j => Rabs (slope j t)))).
  apply Rmult_le_reg_l with (q_Ds q); [lra|]. replace (q_Ds q * (K / q_Ds q * Rabs (rsum nc (fun j => Rabs (slope j t))))) with (K * Rabs (rsum nc (fun j => Rabs (slope j t)))) by (field; lra).
  eapply Rle_trans; [exact D|]. eapply Rle_trans; [exact Q|]. apply Rmult_le_compat_l; assumption.
Qed.

(** The state of rest with the same content. *)
Variable y : R.
Hypothesis Hy : q_E q * por q y + (1 - q_E q) * y = q_E q * C t0 + (1 - q_E q) * (3 * rsum nc (fun i => W i * Y i t0)).
Lemma por_mono x z : x <= z -> por q x <= por q z.
Proof.
  intros L. assert (Z := k0p). unfold por. apply rpow_le; [|lra]. split; [apply clip_nonneg|]. rewrite !clip_max.
  assert (D : x / k0 <= z / k0) by (apply Rmult_le_compat_r; [left; apply Rinv_0_lt_compat, Z|exact L]).
  apply Rmax_lub; [apply Rmax_l|]. eapply Rle_trans; [exact D|apply Rmax_r].
Qed.
Definition off (t : R) : R := q_E q * film t + (1 - q_E q) * (3 * rsum nc (fun i => W i * (Y i t - Y last t))).
Lemma off_content t : t0 <= t -> q_E q * (por q (Y last t) - por q y) + (1 - q_E q) * (Y last t - y) = - off t.
Proof.
  intros Ht. assert (CC := content_constant nc B W q t0 t C Y (HF t) Hnc ltac:(apply Rgt_not_eq, wp; lia) ltac:(lra) ltac:(lra) t ltac:(lra)).
  unfold content, bead_mean in CC. unfold off, film.
  assert (WS : rsum nc W = 1 / a3) by apply (code_weights jac nc 2 Hnc HJ).
  assert (S : rsum nc (fun i => W i * (Y i t - Y last t)) = rsum nc (fun i => W i * Y i t) - Y last t / 3).
  { rewrite (rsum_ext nc _ (fun i => W i * Y i t - W i * Y last t)) by (intros; ring). rewrite rsum_minus, rsum_scal_r, WS. f_equal. simpl. field. }
  rewrite S. revert CC. rewrite <- Hy. intros CC. lra.
Qed.
Lemma off_vanishes : vanishes off.
Proof.
  apply (vanishes_plus (fun t => q_E q * film t)); [apply vanishes_scal, film_vanishes|].
  apply vanishes_scal, vanishes_scal. apply (vanishes_rsum nc (fun i t => W i * (Y i t - Y last t))). intros i Hi. apply vanishes_scal, flat, Hi.
Qed.
Lemma surface_settles : vanishes (fun t => Y last t - y) /\ vanishes (fun t => por q (Y last t) - por q y).
Proof.
  assert (S : forall t, t0 <= t -> (1 - q_E q) * Rabs (Y last t - y) <= Rabs (off t) /\ q_E q * Rabs (por q (Y last t) - por q y) <= Rabs (off t)).
  { intros t Ht. assert (E := off_content t Ht). destruct (Rle_dec (Y last t) y) as [O|O].
    - assert (M := por_mono _ _ O). rewrite Rabs_minus_sym, (Rabs_minus_sym (por q _)). rewrite (Rabs_pos_eq (y - _)), (Rabs_pos_eq (por q y - _)) by lra.
      assert (A := Rle_abs (off t)). assert (0 <= q_E q * (por q y - por q (Y last t))) by (apply Rmult_le_pos; lra). assert (0 <= (1 - q_E q) * (y - Y last t)) by (apply Rmult_le_pos; lra). lra.
    - assert (M := por_mono y (Y last t) ltac:(lra)). rewrite (Rabs_pos_eq (_ - y)), (Rabs_pos_eq (_ - por q y)) by lra.
      assert (A := Rle_abs (- off t)). rewrite Rabs_Ropp in A. assert (0 <= q_E q * (por q (Y last t) - por q y)) by (apply Rmult_le_pos; lra). assert (0 <= (1 - q_E q) * (Y last t - y)) by (apply Rmult_le_pos; lra). lra. }
  split.
  - apply (vanishes_le (/ (1 - q_E q)) t0 off); [left; apply Rinv_0_lt_compat; lra| |apply off_vanishes]. intros t Ht. destruct (S t Ht) as (A & _).
    apply Rmult_le_reg_l with (1 - q_E q); [lra|]. rewrite <- Rmult_assoc, Rinv_r by lra. lra.
  - apply (vanishes_le (/ q_E q) t0 off); [left; apply Rinv_0_lt_compat; lra| |apply off_vanishes]. intros t Ht. destruct (S t Ht) as (_ & A).
    apply Rmult_le_reg_l with (q_E q); [lra|]. rewrite <- Rmult_assoc, Rinv_r by lra. lra.
Qed.
Lemma vanishes_ext f g : (forall t, f t = g t) -> vanishes f -> vanishes g.
Proof. intros H V eps He. destruct (V eps He) as (T & HT). exists T. intros t Ht. rewrite <- H. apply HT, Ht. Qed.
Theorem settles : vanishes (fun t => C t - por q y) /\ forall i, (i < nc)%nat -> vanishes (fun t => Y i t - y).
Proof.
  destruct surface_settles as (S1 & S2). split.
  - apply (vanishes_ext (fun t => film t + (por q (Y last t) - por q y))); [intros; unfold film; ring|]. apply vanishes_plus; [apply film_vanishes|exact S2].
  - intros i Hi. apply (vanishes_ext (fun t => (Y i t - Y last t) + (Y last t - y))); [intros; ring|].
    apply (vanishes_plus (fun t => Y i t - Y last t)); [apply flat, Hi|exact S1].
Qed.
End Settle.
