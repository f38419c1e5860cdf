(** Properties C171-C172: the same results at another scale. *)
From Coq Require Import Reals List Arith Bool String Lra Lia.
From Verif Require Import Lib_Py Lib_Sum Lib_Pow Lib_Traj S_IxColumn S_IxBatch S_GacColumn S_Similar M_Colloc M_IxEq M_IxColumn M_IxBatch M_GacFun M_GacColumn P_IxColumn P_Order Props_IxColumn Props_IxBatch Props_GacColumn Props_Order Props_Unique Props_Exist.
From Verif Require Import M_Extra Props_Extra.
From Verif Require M_Pac Props_Pac.
Import ListNotations.
Open Scope R_scope.

(** ** C171 — ion-exchange columns *)
Section Ix.
Variables (r : R) (c c' : column).
Hypothesis Hr : 0 < r.
Hypothesis HS : similar r c c'.
Hypothesis H1 : sized c.
Hypothesis H2 : sized c'.
Let s := rb c' / rb c.
Lemma s_pos : 0 < s.
Proof. destruct H1 as (_ & _ & A), H2 as (_ & _ & B). apply Rdiv_lt_0_compat; assumption. Qed.
Lemma rb_s : rb c' = s * rb c.
Proof. destruct H1 as (_ & _ & A). unfold s. field. lra. Qed.
Lemma kL_s i : (i < NION c)%nat -> kL c' i = s / r * kL c i.
Proof.
  intros Hi. assert (E := sm_film _ _ _ HS i Hi). destruct H1 as (_ & _ & A), H2 as (_ & _ & B).
  replace (kL c' i) with (r * (kL c' i / rb c') * (rb c' / r)) by (field; lra). rewrite E. unfold s. field. lra.
Qed.
Lemma Ds_s i : (i < NION c)%nat -> Ds c' i = s ^ 2 / r * Ds c i.
Proof.
  intros Hi. assert (E := sm_surface _ _ _ HS i Hi). destruct H1 as (_ & _ & A), H2 as (_ & _ & B).
  replace (Ds c' i) with (r * (Ds c' i / rb c' ^ 2) * (rb c' ^ 2 / r)) by (field; lra). rewrite E. unfold s. field. lra.
Qed.
Lemma Dp_s i : (i < NION c)%nat -> Dp c' i = s ^ 2 / r * Dp c i.
Proof.
  intros Hi. assert (E := sm_pore _ _ _ HS i Hi). destruct H1 as (_ & _ & A), H2 as (_ & _ & B).
  replace (Dp c' i) with (r * (Dp c' i / rb c' ^ 2) * (rb c' ^ 2 / r)) by (field; lra). rewrite E. unfold s. field. lra.
Qed.
Lemma speed_s : - vel c' / Lbed c' = / r * (- vel c / Lbed c).
Proof.
  assert (E := sm_ebct _ _ _ HS). unfold ebct in E. destruct H1 as (A & B & _), H2 as (A' & B' & _).
  replace (- vel c' / Lbed c') with (- / (Lbed c' / vel c')) by (field; lra). rewrite E. field. lra.
Qed.
Lemma presat_s k f g i : (forall j, (j < NION c)%nat -> f j = k * g j) -> (i < NION c)%nat ->
  implicit_presat c' f i = k * implicit_presat c g i.
Proof.
  intros E Hi. unfold implicit_presat. rewrite (sm_ions _ _ _ HS). destruct (Nat.eqb i 0); [|apply E, Hi].
  rewrite (rsum_ext _ _ (fun j => k * g (S j))) by (intros j Hj; apply E; lia). rewrite rsum_scal. ring.
Qed.
Lemma calc_Ceq_K n K K' v v' q CT i : (0 < n)%nat -> (forall i, K' i = K i) -> (forall i, v' i = v i) -> calc_Ceq n K' v' q CT i = calc_Ceq n K v q CT i.
Proof.
  intros Hn EK EV.
  assert (M : forall (m m' : nat -> bool) f f', (forall i, m' i = m i) -> (forall i, f' i = f i) -> masked_sum n m' f' = masked_sum n m f).
  { intros m m' f f' A B. apply rsum_ext. intros j _. rewrite A, B. reflexivity. }
  assert (D : forall i, dv_idx v' i = dv_idx v i) by (intros j; unfold dv_idx; rewrite EV; reflexivity).
  assert (MV : forall i, mv_idx v' i = mv_idx v i) by (intros j; unfold mv_idx; rewrite EV; reflexivity).
  assert (DV : has_divalent n v' = has_divalent n v).
  { unfold has_divalent. generalize (seq 0 n). intros l. induction l as [|a l IH]; [reflexivity|]. cbn [existsb]. rewrite D, IH. reflexivity. }
  assert (AA : eq_aa n K' v' q = eq_aa n K v q) by (unfold eq_aa; rewrite (M (dv_idx v) (dv_idx v') (fun i => q i / K i)); [reflexivity|exact D|intros; rewrite EK; reflexivity]).
  assert (BB : eq_bb n K' v' q = eq_bb n K v q) by (unfold eq_bb; rewrite (M (mv_idx v) (mv_idx v') (fun i => q i / K i)); [reflexivity|exact MV|intros; rewrite EK; reflexivity]).
  unfold calc_Ceq. rewrite DV. destruct (has_divalent n v).
  - unfold Ceq_dv, Cc_column, mass_action. rewrite AA, BB, EK, EV. reflexivity.
  - unfold Ceq_mv, alpha. rewrite (rsum_ext n _ (fun j => K i / K j * q j)) by (intros; rewrite !EK; reflexivity). reflexivity.
Qed.
Lemma flux_s Cin u qs i z : (i < NION c)%nat -> flux c' Cin u qs i z = s / r * flux c Cin u qs i z.
Proof.
  intros Hi. unfold flux. apply presat_s; [|exact Hi]. intros j Hj. unfold CTz. rewrite (sm_ions _ _ _ HS).
  rewrite (calc_Ceq_K (NION c) (Kxc c) (Kxc c') (val c) (val c')); [|lia|apply (sm_K _ _ _ HS)|apply (sm_val _ _ _ HS)].
  rewrite (kL_s j Hj). ring.
Qed.
Lemma rhs_s psdm op th Cin u k i z : (i < NION c)%nat ->
  rhs psdm c' op (r * th) Cin u k i z = rhs psdm c op th Cin u k i z.
Proof.
  intros Hi. assert (SP := s_pos). assert (RB : 0 < rb c) by apply H1.
  assert (G : forall J J' dq dq', (forall z, J' i z = s / r * J i z) -> (forall m, dq' m i z = dq m i z) ->
     assemble c' op (r * th) Cin u J' dq' k i z = assemble c op th Cin u J dq k i z).
  { intros J J' dq dq' EJ ED. unfold assemble. destruct k as [|k].
    - destruct (Nat.eqb z 0); [reflexivity|]. unfold dC. rewrite EJ, speed_s, rb_s, (sm_bed _ _ _ HS), (sm_nz _ _ _ HS).
      assert (LB : 0 < Lbed c) by apply H1. match goal with |- ?a / EBED c * _ = ?b / EBED c * _ => enough (E : r * a = b) by (rewrite <- E; unfold Rdiv; ring) end.
      field. lra.
    - rewrite (sm_nr _ _ _ HS). destruct (Nat.eqb k (nr c - 1)); [|apply ED].
      rewrite EJ, rb_s, (rsum_ext _ _ (fun m => Wr op m * dq m i z)) by (intros; rewrite ED; reflexivity).
      f_equal. f_equal. field. lra. }
  destruct psdm; cbn [rhs]; apply G; clear G.
  - intros z'. unfold psdm_J. rewrite flux_s by exact Hi. rewrite (sm_nr _ _ _ HS), (sm_pores _ _ _ HS). reflexivity.
  - intros m. unfold psdm_dY. rewrite (presat_s 1 _ (fun i => th *
    (EPOR c * (Dp c i - Ds c i) * rsum (nr c) (fun m0 => Br op m m0 * psdm_Cpore c Cin u m0 i z) +
     Ds c i * rsum (nr c) (fun m0 => Br op m m0 * u (S m0) i z)) / rb c ^ 2)); [ring| |exact Hi].
    intros j Hj. rewrite (sm_nr _ _ _ HS), (sm_pores _ _ _ HS), (Dp_s j Hj), (Ds_s j Hj), rb_s.
    rewrite (rsum_ext _ (fun m0 => Br op m m0 * psdm_Cpore c' Cin u m0 j z) (fun m0 => Br op m m0 * psdm_Cpore c Cin u m0 j z)).
    + field. lra.
    + intros m0 _. unfold psdm_Cpore, psdm_q, CTz. rewrite (sm_ions _ _ _ HS), (sm_pores _ _ _ HS).
      rewrite (calc_Ceq_K (NION c) (Kxc c) (Kxc c') (val c) (val c')); [reflexivity|lia|apply (sm_K _ _ _ HS)|apply (sm_val _ _ _ HS)].
  - intros z'. unfold hsdm_J. rewrite flux_s by exact Hi. rewrite (sm_nr _ _ _ HS). reflexivity.
  - intros m. unfold hsdm_dq. rewrite (presat_s 1 _ (fun i => Ds c i * th / rb c ^ 2 * rsum (nr c) (fun m0 => Br op m m0 * u (S m0) i z))); [ring| |exact Hi].
    intros j Hj. rewrite (sm_nr _ _ _ HS), (Ds_s j Hj), rb_s. field. lra.
Qed.
End Ix.

(** What a column shows at [t] seconds, its similar one shows at [r t] seconds, when it is fed
    at [r t] what the first is fed at [t]; [th] and [th']: whatever time units the solvers use. *)
Theorem C171_column : forall r psdm c c' op th th' Cin tf y, 0 < r -> similar r c c' -> sized c -> sized c' -> 0 < th -> 0 < th' ->
  is_trajectory (nr c) (NION c) (nz c) (fun T => rhs psdm c op th (Cin (T * th))) (tf / th) y ->
  is_trajectory (nr c') (NION c') (nz c') (fun T => rhs psdm c' op th' (Cin (T * th' / r))) (r * tf / th') (fun T => y (T * th' / r / th)).
Proof.
  intros r psdm c c' op th th' Cin tf y Hr HS H1 H2 Ht Ht' TR k i z Hk Hi Hz.
  rewrite (sm_nr _ _ _ HS) in Hk. rewrite (sm_ions _ _ _ HS) in Hi. rewrite (sm_nz _ _ _ HS) in Hz.
  assert (E := evolves_rescale (tf / th) _ _ (th' / r / th) 0 0 (r * tf / th') ltac:(apply Rdiv_lt_0_compat; [apply Rdiv_lt_0_compat|]; assumption)
     ltac:(lra) ltac:(right; field; lra) (TR k i z Hk Hi Hz)).
  eapply evolves_ext; [| |exact E].
  - intros T. cbv beta. replace (th' / r / th * T + 0) with (T * th' / r / th) by (field; lra). reflexivity.
  - intros T _. cbv beta. replace (th' / r / th * T + 0) with (T * th' / r / th) by (field; lra).
    replace (T * th' / r / th * th) with (T * th' / r) by (field; lra).
    rewrite (rhs_scale psdm c op th), (rhs_scale psdm c' op th').
    rewrite <- (rhs_s r c c' Hr HS H1 H2 psdm op 1) by exact Hi. rewrite (rhs_scale psdm c' op (r * 1)). field. lra.
Qed.
(** In its own time unit the solver of the similar column is given the same equations, the same
    start and, for a table with times [r] times as long, the same influent. *)
Theorem C171_column_solver : forall r psdm c c' op CT, 0 < r -> similar r c c' -> sized c -> sized c' ->
  t_half c' CT = r * t_half c CT /\
  (forall Cin u k i z, (i < NION c)%nat -> rhs psdm c' op (t_half c' CT) Cin u k i z = rhs psdm c op (t_half c CT) Cin u k i z) /\
  (forall Cin u_init k i z, initial_state c' Cin u_init k i z = initial_state c Cin u_init k i z) /\
  (forall const tm times col T, get_Cin const tm (t_half c' CT) (map (fun t => r * t) times) col T = get_Cin const tm (t_half c CT) times col T).
Proof.
  intros r psdm c c' op CT Hr HS H1 H2.
  assert (TH : t_half c' CT = r * t_half c CT).
  { unfold t_half, tau, DGT. rewrite (sm_bed _ _ _ HS), (sm_Q _ _ _ HS).
    assert (E := sm_ebct _ _ _ HS). unfold ebct in E.
    replace (Lbed c' * EBED c / vel c') with (Lbed c' / vel c' * EBED c) by (unfold Rdiv; ring). rewrite E. unfold Rdiv. ring. }
  split; [exact TH|]. split; [|split].
  - intros. rewrite TH. apply (rhs_s r c c' Hr HS H1 H2). assumption.
  - intros Cin u k i z. unfold initial_state. rewrite (sm_ions _ _ _ HS), (sm_nr _ _ _ HS), (sm_nz _ _ _ HS), (sm_Q _ _ _ HS). reflexivity.
  - intros const tm times col T. unfold get_Cin. destruct const; [reflexivity|]. rewrite TH. f_equal. f_equal.
    rewrite map_map. apply map_ext. intros t. unfold Rdiv. rewrite Rinv_mult. 
    replace (r * t * (tm * (/ r * / t_half c CT))) with (t * (tm * / t_half c CT) * (r * / r)) by ring. rewrite Rinv_r by lra. ring.
Qed.

(** ** Batches *)
Section Batch.
Variables (r : R) (b b' : batch) (psdm : bool) (op : radial).
Hypothesis Hr : 0 < r.
Hypothesis HS : similar_batch r b b'.
Hypothesis R1 : 0 < b_rb b.
Hypothesis R2 : 0 < b_rb b'.
Lemma assemble_s u Ceq dq dq' k i : (forall m, dq' m i = / r * dq m i) ->
  batch_assemble b' op u Ceq dq' k i = / r * batch_assemble b op u Ceq dq k i.
Proof.
  intros ED. unfold batch_assemble.
  assert (F : b_kL b' / b_rb b' = / r * (b_kL b / b_rb b)) by (rewrite <- (sb_film _ _ _ HS); field; lra).
  destruct k as [|k].
  - transitivity (3 * (b_VR b' / b_VL b') * - (b_kL b' / b_rb b') * (u 0%nat i - Ceq i)); [unfold Rdiv; ring|].
    rewrite F, (sb_dose _ _ _ HS). unfold Rdiv. ring.
  - rewrite (sb_nr _ _ _ HS). destruct (Nat.eqb k (b_nr b - 1)); [|apply ED].
    rewrite (rsum_ext _ (fun m => rWr op m * dq' m i) (fun m => / r * (rWr op m * dq m i))) by (intros; rewrite ED; ring).
    rewrite rsum_scal.
    replace (- (- b_kL b' * (u 0%nat i - Ceq i)) / b_rb b') with (b_kL b' / b_rb b' * (u 0%nat i - Ceq i)) by (unfold Rdiv; ring).
    rewrite F. unfold Rdiv. ring.
Qed.
Lemma pore_liquid_s u n : pore_liquid b' u n = pore_liquid b u n.
Proof.
  induction n as [|n IH]; [reflexivity|]. cbn [pore_liquid]. rewrite IH. unfold b_CT.
  rewrite (sb_ions _ _ _ HS), (sb_K _ _ _ HS), (sb_val _ _ _ HS), (sb_C0 _ _ _ HS), (sb_pores _ _ _ HS). reflexivity.
Qed.
Lemma batch_rhs_s u d : batch_rhs psdm b op u = Some d ->
  exists d', batch_rhs psdm b' op u = Some d' /\ forall k i, d' k i = / r * d k i.
Proof.
  assert (SF : forall X, b_Ds b' / b_rb b' ^ 2 * X = / r * (b_Ds b / b_rb b ^ 2 * X)).
  { intros X. rewrite <- (sb_surface _ _ _ HS). field. lra. }
  unfold batch_rhs. destruct psdm; intros H.
  - unfold diffun_psdm_batch in *. rewrite (sb_nr _ _ _ HS), pore_liquid_s. unfold b_CT in *.
    rewrite (sb_ions _ _ _ HS), (sb_K _ _ _ HS), (sb_val _ _ _ HS), (sb_C0 _ _ _ HS), (sb_pores _ _ _ HS).
    destruct (pore_liquid b u (b_nr b)) as [P|]; [|discriminate]. destruct (calc_Ceq_batch _ _ _ _ _) as [Ceq|]; [|discriminate].
    injection H as <-. eexists. split; [reflexivity|]. intros k i. apply assemble_s. intros m. cbv beta.
    set (A := rsum _ _). set (B := rsum _ _).
    transitivity (b_EPOR b * (b_Dp b' / b_rb b' ^ 2 - b_Ds b' / b_rb b' ^ 2) * A + b_Ds b' / b_rb b' ^ 2 * B); [field; lra|].
    transitivity (/ r * (b_EPOR b * (r * (b_Dp b' / b_rb b' ^ 2) - r * (b_Ds b' / b_rb b' ^ 2)) * A + r * (b_Ds b' / b_rb b' ^ 2) * B)); [field; lra|].
    rewrite (sb_surface _ _ _ HS), (sb_pore _ _ _ HS). field. lra.
  - unfold diffun_hsdm_batch in *. unfold b_CT in *.
    rewrite (sb_nr _ _ _ HS), (sb_ions _ _ _ HS), (sb_K _ _ _ HS), (sb_val _ _ _ HS), (sb_C0 _ _ _ HS).
    destruct (calc_Ceq_batch _ _ _ _ _) as [Ceq|]; [|discriminate].
    injection H as <-. eexists. split; [reflexivity|]. intros k i. apply assemble_s. intros m. cbv beta. apply SF.
Qed.
End Batch.
(** What a batch shows at [t] seconds, its similar one shows at [r t] seconds. *)
Theorem C171_batch : forall r psdm b b' op tf y, 0 < r -> similar_batch r b b' -> 0 < b_rb b -> 0 < b_rb b' ->
  is_batch_trajectory (b_nr b) (b_NION b) (batch_rhs psdm b op) tf y ->
  is_batch_trajectory (b_nr b') (b_NION b') (batch_rhs psdm b' op) (r * tf) (fun t => y (t / r)) /\
  forall k i, batch_initial b' k i = batch_initial b k i.
Proof.
  intros r psdm b b' op tf y Hr HS R1 R2 (d & D & TR). split.
  - exists (fun t => match batch_rhs psdm b' op (y (t / r)) with Some d => d | None => fun _ _ => 0 end). split.
    + intros t Ht. assert (IT : 0 < t / r < tf).
      { split; [apply Rdiv_lt_0_compat; lra|]. apply Rmult_lt_reg_r with r; [exact Hr|]. unfold Rdiv. rewrite Rmult_assoc, Rinv_l by lra. lra. }
      destruct (batch_rhs_s r b b' psdm op Hr HS R1 R2 _ _ (D _ IT)) as (d' & E & _). rewrite E. reflexivity.
    + rewrite (sb_nr _ _ _ HS), (sb_ions _ _ _ HS). intros k i Hk Hi.
      assert (E := evolves_rescale tf _ _ (/ r) 0 0 (r * tf) ltac:(apply Rinv_0_lt_compat; exact Hr) ltac:(lra) ltac:(right; field; lra) (TR k i Hk Hi)).
      eapply evolves_ext; [| |exact E].
      * intros t. cbv beta. replace (/ r * t + 0) with (t / r) by (unfold Rdiv; ring). reflexivity.
      * intros t Ht. cbv beta. replace (/ r * t + 0) with (t / r) by (unfold Rdiv; ring).
        assert (IT : 0 < t / r < tf).
        { split; [apply Rdiv_lt_0_compat; lra|]. apply Rmult_lt_reg_r with r; [exact Hr|]. unfold Rdiv. rewrite Rmult_assoc, Rinv_l by lra. lra. }
        destruct (batch_rhs_s r b b' psdm op Hr HS R1 R2 _ _ (D _ IT)) as (d' & E' & X). rewrite E', X. reflexivity.
  - intros k i. unfold batch_initial, ndv. rewrite (sb_ions _ _ _ HS), (sb_val _ _ _ HS), (sb_C0 _ _ _ HS), (sb_Q _ _ _ HS). reflexivity.
Qed.

(** ** Powdered carbon *)
Theorem C171_powdered : forall r nc B W q q' tf C Y, 0 < r -> similar_pac r q q' -> 0 < M_Pac.q_ra q -> 0 < M_Pac.q_ra q' ->
  Props_Pac.follows nc B W q 0 tf C Y -> Props_Pac.follows nc B W q' 0 (r * tf) (fun t => C (t / r)) (fun i t => Y i (t / r)).
Proof.
  intros r nc B W q q' tf C Y Hr HS R1 R2 (FC & FY).
  assert (F : forall c y, M_Pac.flux nc q' c y / M_Pac.q_ra q' = / r * (M_Pac.flux nc q c y / M_Pac.q_ra q)).
  { intros c y. unfold M_Pac.flux, M_Pac.pore. rewrite (sp_rho _ _ _ HS), (sp_K _ _ _ HS), (sp_n _ _ _ HS). set (X := c - _).
    transitivity (- (M_Pac.q_kL q' / M_Pac.q_ra q') * X); [field; lra|]. 
    transitivity (- (/ r * (M_Pac.q_kL q / M_Pac.q_ra q)) * X); [|field; lra]. rewrite <- (sp_film _ _ _ HS). field. lra. }
  assert (DF : forall y i, M_Pac.diffusion nc B q' y i = / r * M_Pac.diffusion nc B q y i).
  { intros y i. unfold M_Pac.diffusion.
    rewrite (rsum_ext _ (fun j => B i j * M_Pac.pore q' y j) (fun j => B i j * M_Pac.pore q y j)).
    2:{ intros j _. unfold M_Pac.pore. rewrite (sp_rho _ _ _ HS), (sp_K _ _ _ HS), (sp_n _ _ _ HS). reflexivity. }
    rewrite (sp_Ep _ _ _ HS). set (P := rsum _ _). set (S0 := rsum _ _).
    transitivity (/ r * (M_Pac.q_Ep q * (r * (M_Pac.q_Dp q' / M_Pac.q_ra q' ^ 2) - r * (M_Pac.q_Ds q' / M_Pac.q_ra q' ^ 2)) * P + r * (M_Pac.q_Ds q' / M_Pac.q_ra q' ^ 2) * S0)); [field; lra|].
    rewrite (sp_pore _ _ _ HS), (sp_surface _ _ _ HS). field. lra. }
  assert (IR : 0 < / r) by (apply Rinv_0_lt_compat; exact Hr).
  split.
  - assert (E := evolves_rescale tf _ _ (/ r) 0 0 (r * tf) IR ltac:(lra) ltac:(right; field; lra) FC).
    eapply evolves_ext; [| |exact E]; intros t; cbv beta; replace (/ r * t + 0) with (t / r) by (unfold Rdiv; ring); [reflexivity|]. intros _.
    unfold M_Pac.dC_dt. rewrite (sp_E _ _ _ HS). assert (G := F (C (t / r)) (fun i => Y i (t / r))). unfold Rdiv in *.
    set (X := M_Pac.flux nc q _ _) in *. set (X' := M_Pac.flux nc q' _ _) in *.
    transitivity (/ r * ((1 - M_Pac.q_E q) * / M_Pac.q_E q * 3 * (X * / M_Pac.q_ra q))); [ring|].
    rewrite (Rmult_comm (/ r)), Rmult_assoc, (Rmult_comm _ (/ r)), <- G. ring.
  - intros i Hi. assert (E := evolves_rescale tf _ _ (/ r) 0 0 (r * tf) IR ltac:(lra) ltac:(right; field; lra) (FY i Hi)).
    eapply evolves_ext; [| |exact E]; intros t; cbv beta; replace (/ r * t + 0) with (t / r) by (unfold Rdiv; ring); [reflexivity|]. intros _.
    unfold M_Pac.dY_dt. destruct (Nat.eqb i (nc - 1)); [|rewrite DF; reflexivity].
    rewrite F, (rsum_ext _ (fun k => W k * M_Pac.diffusion nc B q' (fun i0 => Y i0 (t / r)) k) (fun k => / r * (W k * M_Pac.diffusion nc B q (fun i0 => Y i0 (t / r)) k)))
      by (intros; rewrite DF; ring). rewrite rsum_scal. unfold Rdiv. ring.
Qed.

(** ** Granular carbon *)
Lemma rltb_true a b : a < b -> rltb a b = true.
Proof. intros H. unfold rltb. destruct (Rlt_dec a b); [reflexivity|contradiction]. Qed.
Section Gac.
Variables (r : R) (g g' : gac_in).
Hypothesis Hr : 0 < r.
Hypothesis HS : similar_gac r g g'.
Hypothesis S1 : supplied g.
Hypothesis S2 : supplied g'.
Hypothesis R1 : 0 < x_rad g.
Hypothesis R2 : 0 < x_rad g'.
Let s := x_rad g' / x_rad g.
Lemma gs_pos : 0 < s. Proof. apply Rdiv_lt_0_compat; assumption. Qed.
Lemma rad_s : x_rad g' = s * x_rad g. Proof. unfold s. field. lra. Qed.
Lemma g_cb0 i : cb0 g' i = cb0 g i.
Proof. unfold cb0. rewrite (sg_inf _ _ _ HS), (sg_mass _ _ _ HS), (sg_mw _ _ _ HS). reflexivity. Qed.
Lemma g_kf i : (i < x_n g)%nat -> kf_v g' i = s / r * kf_v g i.
Proof.
  intros Hi. assert (Hi' := Hi). rewrite <- (sg_n _ _ _ HS) in Hi'. unfold kf_v. rewrite !rltb_true by (apply S1 || apply S2; assumption).
  replace (x_kf g' i) with (r * (x_kf g' i / x_rad g') * (x_rad g' / r)) by (field; lra). rewrite (sg_film _ _ _ HS i Hi). unfold s. field. lra.
Qed.
Lemma g_dp i : (i < x_n g)%nat -> dp_v g' i = s ^ 2 / r * dp_v g i.
Proof.
  intros Hi. assert (Hi' := Hi). rewrite <- (sg_n _ _ _ HS) in Hi'. unfold dp_v. rewrite !rltb_true by (apply S1 || apply S2; assumption).
  replace (x_dp g' i) with (r * (x_dp g' i / x_rad g' ^ 2) * (x_rad g' ^ 2 / r)) by (field; lra). rewrite (sg_pore _ _ _ HS i Hi). unfold s. field. lra.
Qed.
Lemma g_ds i : (i < x_n g)%nat -> ds_v g' i = s ^ 2 / r * ds_v g i.
Proof.
  intros Hi. assert (Hi' := Hi). rewrite <- (sg_n _ _ _ HS) in Hi'. unfold ds_v. rewrite !rltb_true by (apply S1 || apply S2; assumption).
  assert (E : x_ds g' i = s ^ 2 / r * x_ds g i).
  { replace (x_ds g' i) with (r * (x_ds g' i / x_rad g' ^ 2) * (x_rad g' ^ 2 / r)) by (field; lra). rewrite (sg_surface _ _ _ HS i Hi). unfold s. field. lra. }
  rewrite (sg_free _ _ _ HS), E. destruct (x_organic_free g); [reflexivity|]. unfold Rdiv. ring.
Qed.
Lemma g_d i : (i < x_n g)%nat -> d_v g' i = d_v g i.
Proof.
  intros Hi. unfold d_v. rewrite g_ds, g_dp by exact Hi. assert (P := gs_pos).
  assert (0 < dp_v g i) by (unfold dp_v; rewrite rltb_true; apply S1; exact Hi). field. lra.
Qed.
Lemma g_molar i : molar_k g' i = molar_k g i.
Proof. unfold molar_k. rewrite (sg_K _ _ _ HS), (sg_mw _ _ _ HS), (sg_xn _ _ _ HS). reflexivity. Qed.
Lemma g_qe i : qe g' i = qe g i.
Proof. unfold qe. rewrite g_molar, g_cb0, (sg_xn _ _ _ HS). reflexivity. Qed.
Lemma g_ym i : ym g' i = ym g i.
Proof. unfold ym, qte. rewrite g_qe, (sg_n _ _ _ HS), (rsum_ext _ (qe g') (qe g)) by (intros; apply g_qe). reflexivity. Qed.
Lemma g_dgs i : dgs g' i = dgs g i.
Proof. unfold dgs. rewrite g_qe, g_cb0, (sg_rhop _ _ _ HS), (sg_ebed _ _ _ HS). reflexivity. Qed.
Lemma g_dgp : dgp g' = dgp g.
Proof. unfold dgp. rewrite (sg_epor _ _ _ HS), (sg_ebed _ _ _ HS). reflexivity. Qed.
Lemma g_dg i : dg g' i = dg g i.
Proof. unfold dg. rewrite g_dgs, g_dgp. reflexivity. Qed.
Lemma g_dgt : dgt g' = dgt g.
Proof. unfold dgt. rewrite (sg_n _ _ _ HS). apply rsum_ext. intros; apply g_dg. Qed.
Lemma g_edd i : edd g' i = edd g i.
Proof. unfold edd. rewrite g_dgt, g_dg. reflexivity. Qed.
Lemma g_tortu0 : tortu0 g' = tortu0 g.
Proof. unfold tortu0. rewrite (sg_free _ _ _ HS), (sg_tortu _ _ _ HS). reflexivity. Qed.
Lemma g_eds i : (i < x_n g)%nat -> eds g' i = eds g i.
Proof.
  intros Hi. unfold eds. replace (ds_v g' i * dgs g' i * x_tau g' / x_rad g' ^ 2) with (ds_v g i * dgs g i * x_tau g / x_rad g ^ 2); [reflexivity|].
  rewrite g_ds, g_dgs, rad_s, (sg_tau _ _ _ HS) by exact Hi. assert (P := gs_pos). field. lra.
Qed.
Lemma g_edp i : (i < x_n g)%nat -> edp g' i = edp g i.
Proof.
  intros Hi. unfold edp. rewrite g_dp, g_dgp, g_tortu0, rad_s, (sg_tau _ _ _ HS) by exact Hi. assert (P := gs_pos). field. lra.
Qed.
Lemma g_stdv i : (i < x_n g)%nat -> stdv g' i = stdv g i.
Proof.
  intros Hi. unfold stdv, st. rewrite g_kf, g_dgt, rad_s, (sg_tau _ _ _ HS), (sg_ebed _ _ _ HS) by exact Hi. f_equal. assert (P := gs_pos).
  unfold Rdiv. rewrite !Rinv_mult. 
  transitivity (kf_v g i * (1 - x_ebed g) * x_tau g * (/ x_ebed g * / x_rad g) * (s * / s) * (r * / r)); [ring|].
  rewrite !Rinv_r by lra. ring.
Qed.
Lemma g_tconv : tconv g' = tconv g / r.
Proof. unfold tconv, dg1. rewrite g_dgt, (sg_tau _ _ _ HS). unfold Rdiv. rewrite !Rinv_mult. ring. Qed.
Lemma g_rhs nc mc wr az br cinfl foul fac cinfl' foul' fac' y i k z : (i < x_n g)%nat ->
  (forall i, (i < x_n g)%nat -> cinfl' i = cinfl i /\ foul' i = foul i /\ fac' i = fac i) ->
  gac_rhs g' nc mc wr az br cinfl' foul' fac' y i k z = gac_rhs g nc mc wr az br cinfl foul fac y i k z.
Proof.
  intros Hi HT.
  assert (ZR : forall j k z, z_raw g' y j k z = z_raw g y j k z) by (intros; unfold z_raw; rewrite g_ym; reflexivity).
  assert (XN : forall j, xni g' j = xni g j) by (intros; unfold xni; rewrite (sg_xn _ _ _ HS); reflexivity).
  assert (Q2 : forall k z, qte2 g' y k z = qte2 g y k z).
  { intros. unfold qte2. rewrite (sg_n _ _ _ HS), (rsum_ext _ (fun j => z_raw g' y j k0 z0) (fun j => z_raw g y j k0 z0)) by (intros; apply ZR). reflexivity. }
  assert (YT : forall k z, yt0 g' y k z = yt0 g y k z).
  { intros. unfold yt0. rewrite (sg_n _ _ _ HS). apply rsum_ext. intros. rewrite XN, ZR. reflexivity. }
  assert (CR : forall k z, cpore_raw g' foul' y i k z = cpore_raw g foul y i k z).
  { intros. unfold cpore_raw, q0, z2. rewrite XN, YT, Q2, ZR, g_ym, (sg_xn _ _ _ HS). rewrite (proj1 (proj2 (HT i Hi))). reflexivity. }
  assert (CP : forall k z, cpore g' nc foul' y i k z = cpore g nc foul y i k z) by (intros; unfold cpore; rewrite CR; reflexivity).
  assert (CB : forall z, cbs g' nc foul' y i z = cbs g nc foul y i z).
  { intros. unfold cbs. rewrite CP, g_stdv by exact Hi. reflexivity. }
  assert (BB : forall k z, bb g' nc br foul' fac' y i k z = bb g nc br foul fac y i k z).
  { intros. unfold bb, bedp, beds. rewrite g_edp, g_d, g_edd, g_eds by exact Hi. rewrite (proj2 (proj2 (HT i Hi))).
    f_equal. f_equal. apply rsum_ext. intros. rewrite CP. reflexivity. }
  assert (WW : forall z, ww g' nc wr br foul' fac' y i z = ww g nc wr br foul fac y i z).
  { intros. unfold ww. apply rsum_ext. intros. rewrite BB. reflexivity. }
  unfold gac_rhs, dgI, dg1. rewrite !BB, !WW, !CP, !CB, g_dg, g_dgt, g_stdv by exact Hi. rewrite (proj1 (HT i Hi)). reflexivity.
Qed.
End Gac.
(** The same contact time: the same run at every minute, whatever the water does. *)
Theorem C171_granular : forall g g' m nr rows foul Tf y, similar_gac 1 g g' -> supplied g -> supplied g' -> 0 < x_rad g -> 0 < x_rad g' ->
  gac_trajectory (x_n g) nr (m_c m) (diffun g m nr rows foul) Tf y ->
  gac_trajectory (x_n g') nr (m_c m) (diffun g' m nr rows foul) Tf y /\
  (forall minute, INR minute * tconv g' = INR minute * tconv g) /\ forall i c, reported g' i c = reported g i c.
Proof.
  intros g g' m nr rows foul Tf y HS S1 S2 R1 R2 TR.
  assert (TC : tconv g' = tconv g) by (rewrite (g_tconv 1 g g' HS); field).
  split; [|split].
  - rewrite (sg_n _ _ _ HS). intros i k z Hi Hk Hz. eapply evolves_ext; [reflexivity| |apply (TR i k z Hi Hk Hz)].
    intros T _. symmetry. unfold diffun. apply (g_rhs 1 g g' ltac:(lra) HS S1 S2 R1 R2); [exact Hi|].
    intros j Hj. unfold at_time, cinfA, cin_table, foulFA, facA, xni, tortu_t.
    rewrite TC, (g_d 1 g g' ltac:(lra) HS S1 S2 R1 R2 j Hj), (g_cb0 1 g g' HS), (sg_xn _ _ _ HS), (sg_free _ _ _ HS), (sg_tortu _ _ _ HS), (sg_mass _ _ _ HS), (sg_mw _ _ _ HS).
    repeat split; reflexivity.
  - intros n. rewrite TC. reflexivity.
  - intros i cc. unfold reported. rewrite (g_cb0 1 g g' HS), (sg_mass _ _ _ HS), (sg_mw _ _ _ HS). reflexivity.
Qed.
Lemma interp_const v : forall l t, l <> [] -> (forall p, In p l -> snd p = v) -> interp_x l t = v.
Proof.
  induction l as [|(x0, y0) l IH]; intros t NE H; [congruence|]. destruct l as [|(x1, y1) l].
  - apply (H (x0, y0)). left; reflexivity.
  - assert (A := H (x0, y0) (or_introl eq_refl)). assert (B := H (x1, y1) (or_intror (or_introl eq_refl))). cbn [snd] in A, B.
    assert (L : line x0 y0 x1 y1 t = v) by (unfold line; subst; unfold Rdiv; ring).
    assert (I : interp_x ((x1, y1) :: l) t = v) by (apply IH; [congruence|intros p Hp; apply H; right; exact Hp]).
    cbn [interp_x] in *. destruct l; [exact L|]. destruct (rleb t x1); [exact L|exact I].
Qed.
(** Water that does not change and a carbon that does not foul. *)
Definition steady_water (g : gac_in) (rows : nat -> list (R * R)) (foul : nat -> R -> R) : Prop :=
  x_organic_free g = true /\
  (forall i, (i < x_n g)%nat -> rows i <> [] /\ forall p, In p (rows i) -> snd p = x_inf0 g i) /\
  (forall i t t', (i < x_n g)%nat -> foul i t = foul i t').
(** [r] times the contact time, in steady water: what the one shows at a minute the other shows
    [r] times later, that is after the same number of bed volumes. *)
Theorem C171_granular_steady : forall r g g' m nr rows foul Tf y, 0 < r -> similar_gac r g g' -> supplied g -> supplied g' -> 0 < x_rad g -> 0 < x_rad g' ->
  steady_water g rows foul ->
  gac_trajectory (x_n g) nr (m_c m) (diffun g m nr rows foul) Tf y ->
  gac_trajectory (x_n g') nr (m_c m) (diffun g' m nr rows foul) Tf y /\
  (forall t, r * t * tconv g' = t * tconv g) /\ forall i c, reported g' i c = reported g i c.
Proof.
  intros r g g' m nr rows foul Tf y Hr HS S1 S2 R1 R2 (FR & RW & FO) TR.
  split; [|split].
  - rewrite (sg_n _ _ _ HS). intros i k z Hi Hk Hz. eapply evolves_ext; [reflexivity| |apply (TR i k z Hi Hk Hz)].
    intros T _. symmetry. unfold diffun. apply (g_rhs r g g' Hr HS S1 S2 R1 R2); [exact Hi|].
    intros j Hj. destruct (RW j Hj) as (NE & RV).
    assert (C : forall G a n, cin_table G j (rows j) = map (fun p => (fst p, a)) (rows j) -> interp_x (cin_table G j (rows j)) (INR n) = a).
    { intros G a n E. rewrite E. apply interp_const; [destruct (rows j); [congruence|discriminate]|]. intros p Hp.
      apply in_map_iff in Hp. destruct Hp as (q & <- & _). reflexivity. }
    assert (T1 : forall G, cin_table G j (rows j) = map (fun p => (fst p, x_inf0 g j * x_mass_mul G / x_mw G j / cb0 G j)) (rows j)).
    { intros G. apply map_ext_in. intros p Hp. rewrite (RV p Hp). reflexivity. }
    unfold at_time, cinfA. rewrite !(C g _ _ (T1 g)), !(C g' _ _ (T1 g')).
    rewrite (g_cb0 r g g' HS), (sg_mass _ _ _ HS), (sg_mw _ _ _ HS).
    unfold foulFA, xni. rewrite (sg_xn _ _ _ HS). set (n1 := S _). set (n2 := S _). set (n3 := Z.to_nat _). set (n4 := Z.to_nat _).
    rewrite (FO j (INR n1) 0 Hj), (FO j (INR n2) 0 Hj), (FO j (INR n3) 0 Hj), (FO j (INR n4) 0 Hj).
    unfold facA, tortu_t. rewrite (g_d r g g' Hr HS S1 S2 R1 R2 j Hj), (sg_free _ _ _ HS), FR, (sg_tortu _ _ _ HS).
    repeat split; ring.
  - intros t. rewrite (g_tconv r g g' HS). field. lra.
  - intros i cc. unfold reported. rewrite (g_cb0 r g g' HS), (sg_mass _ _ _ HS), (sg_mw _ _ _ HS). reflexivity.
Qed.

(** ** Small columns: the design of a rapid small-scale column test gives a similar column *)
(** The designer (C51) takes the large column with contact time [E] minutes and grains of
    diameter [P]; the small one has grains of diameter [p].  If diffusivities change as the
    [x]-th power of the grain size ([x] = 0: not at all) and film coefficients as the power
    [x - 1], the small column built to the design breaks through after the same number of bed
    volumes. *)
Theorem C171_small_column : forall psdm lc E T V P rho cd particle mesh x d p, known_large lc E T V P rho ->
  let sc := calc_RSSCT_specs lc cd particle mesh x in
  s_diam sc = Some d -> s_part sc = Some p -> 0 < d -> 0 < p ->
  exists len v, s_length sc = Some len /\ s_loading sc = Some v /\
  forall c c', sized c -> sized c' -> ebct c = E * 60 ->
    Lbed c' = len -> vel c' = cm_per_min v / 60 -> rb c' = p / P * rb c ->
    (forall i, kL c' i = rpow (p / P) (x - 1) * kL c i) -> (forall i, Ds c' i = rpow (p / P) x * Ds c i) -> (forall i, Dp c' i = rpow (p / P) x * Dp c i) ->
    NION c' = NION c -> nr c' = nr c -> nz c' = nz c -> EBED c' = EBED c -> EPOR c' = EPOR c -> Qcap c' = Qcap c ->
    (forall i, Kxc c' i = Kxc c i) -> (forall i, val c' i = val c i) ->
    ebct c' = rpow (p / P) (2 - x) * ebct c /\
    forall op (Cin : R -> nat -> R) bv y, 
    (* read in bed volumes *)
    is_trajectory (nr c) (NION c) (nz c) (fun B => rhs psdm c op (ebct c) (Cin B)) bv y ->
    is_trajectory (nr c') (NION c') (nz c') (fun B => rhs psdm c' op (ebct c') (Cin B)) bv y.
Proof.
  intros psdm lc E T V P rho cd particle mesh x d p HL sc HD HP Hd Hp.
  destruct (C51_scaling lc E T V P rho cd particle mesh x d p HL HD HP Hd Hp) as (len & e & t & v & q & m & w & KS & L1 & L2 & L3 & G1 & _).
  exists len, v. split; [exact (kl _ _ _ _ _ _ _ _ _ _ KS)|]. split; [exact (kv _ _ _ _ _ _ _ _ _ _ KS)|].
  intros c c' H1 H2 HE HLb HV HR HK HDs HDp EN Enr Enz EB EP EQ EK EV.
  assert (PP := pP _ _ _ _ _ _ HL). assert (PE := pE _ _ _ _ _ _ HL). assert (PV := pV _ _ _ _ _ _ HL).
  set (s := p / P) in *. assert (Hs : 0 < s) by (apply Rdiv_lt_0_compat; assumption).
  set (r := rpow s (2 - x)) in *. assert (Hr : 0 < r) by (apply rpow_pos; exact Hs).
  assert (EB' : ebct c' = r * ebct c).
  { unfold ebct at 1. destruct H2 as (_ & HV' & _). rewrite HV in HV'. rewrite HLb, HV, G1, HE. rewrite <- L1. field. lra. }
  assert (P1 : r * rpow s (x - 1) = s) by (unfold r; rewrite <- rpow_plus by exact Hs; replace (2 - x + (x - 1)) with 1 by ring; apply rpow_1; lra).
  assert (P2 : r * rpow s x = s * s).
  { unfold r; rewrite <- rpow_plus by exact Hs; replace (2 - x + x) with (1 + 1) by ring. rewrite rpow_plus, rpow_1; lra. }
  assert (RB : 0 < rb c) by apply H1.
  assert (SI : similar r c c').
  { constructor; try assumption.
    - intros i _. rewrite HR, HK. transitivity (r * rpow s (x - 1) * (kL c i / (s * rb c))); [unfold Rdiv; ring|]. rewrite P1. field. lra.
    - intros i _. rewrite HR, HDs. transitivity (r * rpow s x * (Ds c i / (s * rb c) ^ 2)); [unfold Rdiv; ring|]. rewrite P2. field. lra.
    - intros i _. rewrite HR, HDp. transitivity (r * rpow s x * (Dp c i / (s * rb c) ^ 2)); [unfold Rdiv; ring|]. rewrite P2. field. lra. }
  split; [exact EB'|]. intros op Cin bv y TR k i z Hk Hi Hz. rewrite Enr in Hk. rewrite EN in Hi. rewrite Enz in Hz.
  eapply evolves_ext; [reflexivity| |apply (TR k i z Hk Hi Hz)]. intros B _. cbv beta. rewrite EB'.
  symmetry. apply (rhs_s r c c' Hr SI H1 H2). exact Hi.
Qed.

(** ** C172 — ion exchange: water and resin [k] times as concentrated *)
Definition concentrated (k : R) (c : column) : column :=
  {| NION := NION c; nr := nr c; nz := nz c; EBED := EBED c; EPOR := EPOR c; Lbed := Lbed c; vel := vel c; rb := rb c; Qcap := k * Qcap c;
     kL := kL c; Ds := Ds c; Dp := Dp c; Kxc := Kxc c; val := val c |}.
Definition times_state (k : R) (u : state) : state := fun r i z => k * u r i z.
Section Conc.
Variable k : R.
Hypothesis Hk : 0 < k.
Lemma masked_k n m f g : (forall i, g i = k * f i) -> masked_sum n m g = k * masked_sum n m f.
Proof.
  intros E. unfold masked_sum. rewrite <- rsum_scal. apply rsum_ext. intros i _. rewrite E. destruct (m i); ring.
Qed.
Lemma aa_k n K v q q' : (forall i, q' i = k * q i) -> eq_aa n K v q' = / k * eq_aa n K v q.
Proof.
  intros E. unfold eq_aa. rewrite (masked_k n _ (fun i => q i / K i)) by (intros; rewrite E; unfold Rdiv; ring).
  rewrite E. unfold Rdiv. rewrite !Rpow_mult_distr, Rinv_mult.
  replace (k * masked_sum n (dv_idx v) (fun i => q i * / K i) * (/ k ^ 2 * / q 0%nat ^ 2)) with (k * / k ^ 2 * (masked_sum n (dv_idx v) (fun i => q i * / K i) * / q 0%nat ^ 2)) by ring.
  f_equal. field. lra.
Qed.
Lemma bb_k n K v q q' : (forall i, q' i = k * q i) -> eq_bb n K v q' = eq_bb n K v q.
Proof.
  intros E. unfold eq_bb. rewrite (masked_k n _ (fun i => q i / K i)) by (intros; rewrite E; unfold Rdiv; ring).
  rewrite E. unfold Rdiv. rewrite Rinv_mult. f_equal.
  replace (k * masked_sum n (mv_idx v) (fun i => q i * / K i) * (/ k * / q 0%nat)) with (k * / k * (masked_sum n (mv_idx v) (fun i => q i * / K i) * / q 0%nat)) by ring.
  rewrite Rinv_r by lra. ring.
Qed.
Lemma mass_k K v q q' C i : (forall i, q' i = k * q i) -> mass_action K v q' (k * C) i = k * mass_action K v q C i.
Proof.
  intros E. unfold mass_action. rewrite !E. destruct (Nat.eqb i 0); [reflexivity|].
  replace (k * C / (k * q 0%nat)) with (C / q 0%nat); [unfold Rdiv; ring|].
  unfold Rdiv. rewrite Rinv_mult. replace (k * C * (/ k * / q 0%nat)) with (k * / k * (C * / q 0%nat)) by ring. rewrite Rinv_r by lra. ring.
Qed.
Lemma mv_k n K q q' CT i : (forall i, q' i = k * q i) -> Ceq_mv n K q' (k * CT) i = k * Ceq_mv n K q CT i.
Proof.
  intros E. unfold Ceq_mv. rewrite (rsum_ext _ (fun j => alpha K i j * q' j) (fun j => k * (alpha K i j * q j))) by (intros; rewrite E; ring).
  rewrite rsum_scal, E. unfold Rdiv. rewrite Rinv_mult. set (S0 := rsum _ _).
  replace (k * q i * (k * CT) * (/ k * / S0)) with (k * / k * (k * (q i * CT * / S0))) by ring. rewrite Rinv_r by lra. ring.
Qed.
Lemma Ceq_k n K v q q' CT i : (forall i, q' i = k * q i) -> calc_Ceq n K v q' (k * CT) i = k * calc_Ceq n K v q CT i.
Proof.
  intros E. unfold calc_Ceq. destruct (has_divalent n v); [|apply mv_k, E].
  unfold Ceq_dv. rewrite <- (mass_k K v q q') by exact E. f_equal. unfold Cc_column. rewrite (aa_k n K v q q' E), (bb_k n K v q q' E).
  replace (4 * (/ k * eq_aa n K v q) * - (k * CT)) with (4 * eq_aa n K v q * - CT) by (field; lra). unfold Rdiv. ring.
Qed.
Lemma rhs_k psdm c op th Cin u r i z : 
  rhs psdm (concentrated k c) op th (fun i => k * Cin i) (times_state k u) r i z = k * rhs psdm c op th Cin u r i z.
Proof.
  assert (LQ : forall i z, liq (fun i => k * Cin i) (times_state k u) i z = k * liq Cin u i z).
  { intros. unfold liq, times_state. destruct (Nat.eqb z0 0); reflexivity. }
  assert (CT : forall z, CTz (concentrated k c) (fun i => k * Cin i) (times_state k u) z = k * CTz c Cin u z).
  { intros. unfold CTz. cbn [NION concentrated]. rewrite <- rsum_scal. apply rsum_ext. intros. apply LQ. }
  assert (PS : forall f g i, (forall i, f i = k * g i) -> implicit_presat (concentrated k c) f i = k * implicit_presat c g i).
  { intros f g j E. unfold implicit_presat. cbn [NION concentrated]. destruct (Nat.eqb j 0); [|apply E].
    rewrite (rsum_ext _ _ (fun m => k * g (S m))) by (intros; apply E). rewrite rsum_scal. ring. }
  assert (FL : forall qs qs' i z, (forall i, qs' i = k * qs i) -> flux (concentrated k c) (fun i => k * Cin i) (times_state k u) qs' i z = k * flux c Cin u qs i z).
  { intros qs qs' j w E. unfold flux. apply PS. intros m. rewrite LQ, CT. cbn [NION Kxc val kL concentrated].
    rewrite (Ceq_k _ _ _ qs qs') by exact E. ring. }
  assert (G : forall J J' dq dq', (forall i z, J' i z = k * J i z) -> (forall m i z, dq' m i z = k * dq m i z) ->
     assemble (concentrated k c) op th (fun i => k * Cin i) (times_state k u) J' dq' r i z = k * assemble c op th Cin u J dq r i z).
  { intros J J' dq dq' EJ ED. unfold assemble. destruct r as [|r].
    - destruct (Nat.eqb z 0); [ring|]. unfold dC. cbn [vel Lbed nz EBED rb concentrated]. rewrite EJ.
      rewrite (rsum_ext _ (fun j => Az op z j * liq (fun i0 => k * Cin i0) (times_state k u) i j) (fun j => k * (Az op z j * liq Cin u i j))) by (intros; rewrite LQ; ring).
      rewrite rsum_scal. unfold Rdiv. ring.
    - cbn [nr rb concentrated]. destruct (Nat.eqb r (nr c - 1)); [|apply ED].
      rewrite EJ, (rsum_ext _ (fun m => Wr op m * dq' m i z) (fun m => k * (Wr op m * dq m i z))) by (intros; rewrite ED; ring).
      rewrite rsum_scal. unfold Rdiv. ring. }
  assert (SU : forall n (B : nat -> R) (f f' : nat -> R), (forall m, f' m = k * f m) -> rsum n (fun m => B m * f' m) = k * rsum n (fun m => B m * f m)).
  { intros n B f f' E. rewrite <- rsum_scal. apply rsum_ext. intros. rewrite E. ring. }
  destruct psdm; cbn [rhs]; apply G; clear G.
  - intros j w. unfold psdm_J. apply FL. intros. cbn [nr EPOR concentrated]. unfold times_state, Rdiv. ring.
  - intros m j w. unfold psdm_dY. apply PS. intros n. cbn [nr EPOR Dp Ds rb concentrated].
    rewrite (SU (nr c) (Br op m) (fun m0 => psdm_Cpore c Cin u m0 n w)
      (fun m0 => psdm_Cpore (concentrated k c) (fun i => k * Cin i) (times_state k u) m0 n w)).
    2:{ intros m0. unfold psdm_Cpore. rewrite CT. apply Ceq_k. intros. unfold psdm_q, times_state. cbn [EPOR concentrated]. unfold Rdiv. ring. }
    rewrite (SU (nr c) (Br op m) (fun m0 => u (S m0) n w) (fun m0 => times_state k u (S m0) n w)) by (intros; reflexivity). unfold Rdiv. ring.
  - intros j w. unfold hsdm_J. apply FL. intros. reflexivity.
  - intros m j w. unfold hsdm_dq. apply PS. intros n. cbn [nr Ds rb concentrated].
    rewrite (SU (nr c) (Br op m) (fun m0 => u (S m0) n w) (fun m0 => times_state k u (S m0) n w)) by (intros; reflexivity). unfold Rdiv. ring.
Qed.
End Conc.
(** All concentrations of the run are [k] times those of the other. *)
Theorem C172_column : forall k psdm c op th Cin Tf y, 0 < k ->
  is_trajectory (nr c) (NION c) (nz c) (fun T => rhs psdm c op th (Cin T)) Tf y ->
  is_trajectory (nr c) (NION c) (nz c) (fun T => rhs psdm (concentrated k c) op th (fun i => k * Cin T i)) Tf (fun T => times_state k (y T)).
Proof.
  intros k psdm c op th Cin Tf y Hk TR r i z Hr Hi Hz.
  eapply evolves_ext; [| |apply (evolves_scal 0 Tf k _ _ (TR r i z Hr Hi Hz))]; [reflexivity|].
  intros T _. cbv beta. symmetry. apply (rhs_k k Hk).
Qed.
(** It starts [k] times as concentrated, and the solver's time unit is the same. *)
Theorem C172_column_start : forall k c Cin u_init CT, 0 < k ->
  (forall r i z, initial_state (concentrated k c) (fun i => k * Cin i) (option_map (times_state k) u_init) r i z = k * initial_state c Cin u_init r i z) /\
  t_half (concentrated k c) (k * CT) = t_half c CT.
Proof.
  intros k c Cin u_init CT Hk. split.
  - intros r i z.
    assert (B : forall r, match r with O => if Nat.eqb z 0 then k * Cin i else if Nat.eqb i 0 then rsum (NION c) (fun i => k * Cin i) else 0 | S _ => if Nat.eqb i 0 then k * Qcap c else 0 end
      = k * match r with O => if Nat.eqb z 0 then Cin i else if Nat.eqb i 0 then rsum (NION c) Cin else 0 | S _ => if Nat.eqb i 0 then Qcap c else 0 end).
    { intros [|q]; [destruct (Nat.eqb z 0); [reflexivity|]|]; destruct (Nat.eqb i 0); try ring. apply rsum_scal. }
    unfold initial_state. cbn [NION nr nz Qcap concentrated]. destruct u_init as [a|]; cbn [option_map]; [|apply B].
    assert (A : np_any3 (nr c + 1) (NION c) (nz c) (times_state k a) = np_any3 (nr c + 1) (NION c) (nz c) a).
    { unfold np_any3. assert (X : forall (A : Type) (f g : A -> bool) l, (forall x, f x = g x) -> existsb f l = existsb g l).
      { intros T f g l E. induction l as [|x l IH]; [reflexivity|]. cbn [existsb]. rewrite E, IH. reflexivity. }
      apply X. intros r0. apply X. intros i0. apply X. intros z0. f_equal. unfold times_state, reqb.
      destruct (Req_EM_T (k * a r0 i0 z0) 0) as [E|E], (Req_EM_T (a r0 i0 z0) 0) as [E'|E']; try reflexivity; exfalso.
      - apply E'. apply Rmult_integral in E. destruct E; lra.
      - apply E. rewrite E'. ring. }
    rewrite A. destruct (np_any3 _ _ _ a); [|apply B]. destruct r as [|r]; [|reflexivity]. destruct (Nat.eqb z 0) eqn:Z; [|reflexivity]. reflexivity.
  - unfold t_half, tau, DGT. cbn [Lbed EBED vel Qcap concentrated]. f_equal. f_equal. unfold Rdiv. rewrite Rinv_mult.
    replace ((1 - EBED c) * / EBED c * (k * Qcap c) * (/ k * / CT)) with ((1 - EBED c) * / EBED c * Qcap c * / CT * (k * / k)) by ring. rewrite Rinv_r by lra. ring.
Qed.

(** *** Batches *)
Definition concentrated_batch (k : R) (b : batch) : batch :=
  {| b_NION := b_NION b; b_nr := b_nr b; b_Qm := k * b_Qm b; b_RHOP := b_RHOP b; b_EPOR := b_EPOR b; b_VR := b_VR b; b_VL := b_VL b;
     b_Ds := b_Ds b; b_Dp := b_Dp b; b_kL := b_kL b; b_rb := b_rb b; b_C0 := fun i => k * b_C0 b i; b_K := b_K b; b_val := b_val b |}.
Section ConcBatch.
Variables (k : R) (b : batch) (op : radial).
Hypothesis Hk : 0 < k.
Let b' := concentrated_batch k b.
Lemma CT_k : b_CT b' = k * b_CT b.
Proof. unfold b_CT. cbn [b' concentrated_batch b_NION b_C0]. apply rsum_scal. Qed.
Lemma Ceq_batch_k q q' C : (forall i, q' i = k * q i) -> calc_Ceq_batch (b_NION b) (b_K b) (b_val b) q (b_CT b) = Some C ->
  exists C', calc_Ceq_batch (b_NION b) (b_K b) (b_val b) q' (k * b_CT b) = Some C' /\ forall i, C' i = k * C i.
Proof.
  intros E. unfold calc_Ceq_batch. destruct (has_divalent _ _).
  - unfold Ceq_dv_batch. rewrite (aa_k k Hk _ _ _ q q' E), (bb_k k Hk _ _ _ q q' E). set (a := eq_aa _ _ _ _). set (v := eq_bb _ _ _ _).
    assert (IK : 0 < / k) by (apply Rinv_0_lt_compat; exact Hk).
    assert (Q : reqb (/ k * a) 0 = reqb a 0).
    { unfold reqb. destruct (Req_EM_T (/ k * a) 0) as [X|X], (Req_EM_T a 0) as [Y|Y]; try reflexivity; exfalso.
      - apply Rmult_integral in X. destruct X; lra.
      - apply X. rewrite Y. ring. }
    rewrite Q. destruct (reqb a 0) eqn:RA; [discriminate|]. intros H. injection H as <-. eexists. split; [reflexivity|].
    intros i. cbv beta. rewrite <- (mass_k k Hk _ _ q q') by exact E. f_equal.
    replace (4 * (/ k * a) * - (k * b_CT b)) with (4 * a * - b_CT b) by (field; lra).
    assert (a <> 0) by (unfold reqb in RA; destruct (Req_EM_T a 0); [discriminate|assumption]).
    change (v * (v * 1)) with (v ^ 2). match goal with |- context [sqrt ?x] => generalize (sqrt x) end. intros w. field. lra.
  - intros H. injection H as <-. eexists. split; [reflexivity|]. intros i. apply (mv_k k Hk). exact E.
Qed.
Definition times_beads (u : bstate) : bstate := fun r i => k * u r i.
Lemma pores_k u n P : pore_liquid b u n = Some P -> exists P', pore_liquid b' (times_beads u) n = Some P' /\ forall r i, P' r i = k * P r i.
Proof.
  revert P. induction n as [|n IH]; intros P; cbn [pore_liquid].
  - intros H. injection H as <-. eexists. split; [reflexivity|]. intros. cbv beta. ring.
  - destruct (pore_liquid b u n) as [Q|]; [|discriminate]. destruct (IH Q eq_refl) as (Q' & E & X). rewrite E.
    destruct (calc_Ceq_batch _ _ _ _ _) as [C|] eqn:EC; [|discriminate]. intros H. injection H as <-.
    destruct (Ceq_batch_k (fun i => u (S n) i / (1 - b_EPOR b)) (fun i => times_beads u (S n) i / (1 - b_EPOR b)) C ltac:(intros; unfold times_beads, Rdiv; ring) EC) as (C' & E' & X').
    rewrite CT_k. cbn [b' concentrated_batch b_NION b_K b_val b_EPOR]. rewrite E'. eexists. split; [reflexivity|].
    intros r i. cbv beta. destruct (Nat.eqb r n); [apply X'|apply X].
Qed.
Lemma batch_assemble_k u C C' dq dq' r i : (forall i, C' i = k * C i) -> (forall m i, dq' m i = k * dq m i) ->
  batch_assemble b' op (times_beads u) C' dq' r i = k * batch_assemble b op u C dq r i.
Proof.
  intros EC ED. unfold batch_assemble. cbn [b' concentrated_batch b_kL b_VR b_rb b_VL b_nr]. rewrite EC. unfold times_beads. destruct r as [|r].
  - unfold Rdiv. ring.
  - destruct (Nat.eqb r (b_nr b - 1)); [|apply ED].
    rewrite (rsum_ext _ (fun m => rWr op m * dq' m i) (fun m => k * (rWr op m * dq m i))) by (intros; rewrite ED; ring). rewrite rsum_scal. unfold Rdiv. ring.
Qed.
Lemma batch_rhs_k psdm u d : batch_rhs psdm b op u = Some d -> exists d', batch_rhs psdm b' op (times_beads u) = Some d' /\ forall r i, d' r i = k * d r i.
Proof.
  assert (SU : forall n (B : nat -> R) (f f' : nat -> R), (forall m, f' m = k * f m) -> rsum n (fun m => B m * f' m) = k * rsum n (fun m => B m * f m)).
  { intros n B f f' E. rewrite <- rsum_scal. apply rsum_ext. intros. rewrite E. ring. }
  unfold batch_rhs. destruct psdm; intros H.
  - unfold diffun_psdm_batch in *. change (b_nr b') with (b_nr b).
    destruct (pore_liquid b u (b_nr b)) as [P|] eqn:EP; [|discriminate].
    destruct (calc_Ceq_batch _ _ _ _ _) as [C|] eqn:EC; [|discriminate]. injection H as <-.
    destruct (pores_k u _ P EP) as (P' & E & X). rewrite E.
    destruct (Ceq_batch_k (fun i => u (b_nr b) i / (1 - b_EPOR b)) (fun i => times_beads u (b_nr b) i / (1 - b_EPOR b)) C ltac:(intros; unfold times_beads, Rdiv; ring) EC) as (C' & E' & X').
    rewrite CT_k. cbn [b' concentrated_batch b_NION b_K b_val b_EPOR b_Dp b_Ds b_rb]. rewrite E'. eexists. split; [reflexivity|].
    intros r i. apply batch_assemble_k; [exact X'|]. intros m j. cbv beta.
    rewrite (SU _ (rBr op m) (fun m0 => P m0 j) (fun m0 => P' m0 j)) by (intros; apply X).
    rewrite (SU _ (rBr op m) (fun m0 => u (S m0) j) (fun m0 => times_beads u (S m0) j)) by (intros; reflexivity). unfold Rdiv. unfold Rdiv, pow. ring.
  - unfold diffun_hsdm_batch in *. change (b_nr b') with (b_nr b).
    destruct (calc_Ceq_batch _ _ _ _ _) as [C|] eqn:EC; [|discriminate]. injection H as <-.
    destruct (Ceq_batch_k (u (b_nr b)) (times_beads u (b_nr b)) C ltac:(intros; reflexivity) EC) as (C' & E' & X').
    rewrite CT_k. cbn [b' concentrated_batch b_NION b_K b_val b_Ds b_rb]. rewrite E'. eexists. split; [reflexivity|].
    intros r i. apply batch_assemble_k; [exact X'|]. intros m j. cbv beta.
    rewrite (SU _ (rBr op m) (fun m0 => u (S m0) j) (fun m0 => times_beads u (S m0) j)) by (intros; reflexivity). unfold Rdiv, pow. ring.
Qed.
End ConcBatch.
Theorem C172_batch : forall k psdm b op Tf y, 0 < k ->
  is_batch_trajectory (b_nr b) (b_NION b) (batch_rhs psdm b op) Tf y ->
  is_batch_trajectory (b_nr b) (b_NION b) (batch_rhs psdm (concentrated_batch k b) op) Tf (fun T => times_beads k (y T)) /\
  forall r i, batch_initial (concentrated_batch k b) r i = k * batch_initial b r i.
Proof.
  intros k psdm b op Tf y Hk (d & D & TR). split.
  - exists (fun t => match batch_rhs psdm (concentrated_batch k b) op (times_beads k (y t)) with Some d => d | None => fun _ _ => 0 end). split.
    + intros T HT. destruct (batch_rhs_k k b op Hk psdm _ _ (D T HT)) as (d' & E & _). rewrite E. reflexivity.
    + intros r i Hr Hi. eapply evolves_ext; [| |apply (evolves_scal 0 Tf k _ _ (TR r i Hr Hi))]; [reflexivity|].
      intros T HT. cbv beta. destruct (batch_rhs_k k b op Hk psdm _ _ (D T HT)) as (d' & E & X). rewrite E, X. reflexivity.
  - intros [|r] i; [reflexivity|]. unfold batch_initial, ndv, b_Q. cbn [concentrated_batch b_NION b_val b_RHOP b_Qm].
    destruct (has_divalent _ _); destruct (Nat.eqb i 0); try destruct (dv_idx _ i); unfold Rdiv; ring.
Qed.

(** *** Granular carbon: every compound [k] times as concentrated, on carbon that holds [k]
    times as much at [k] times the concentration *)
Definition concentrated_gac (k : R) (g : gac_in) : gac_in :=
  {| x_n := x_n g; x_epor := x_epor g; x_rhop := x_rhop g; x_ebed := x_ebed g; x_tau := x_tau g; x_rad := x_rad g;
     x_tortu := x_tortu g; x_psdfr := x_psdfr g; x_vw := x_vw g; x_dw := x_dw g; x_re := x_re g; x_mass_mul := x_mass_mul g; x_organic_free := x_organic_free g;
     x_K := fun i => rpow k (1 - x_xn g i) * x_K g i; x_xn := x_xn g; x_mw := x_mw g; x_molvol := x_molvol g; x_kf := x_kf g; x_dp := x_dp g; x_ds := x_ds g;
     x_inf0 := fun i => k * x_inf0 g i |}.
Definition times_rows (k : R) (rows : nat -> list (R * R)) (i : nat) : list (R * R) := map (fun p => (fst p, k * snd p)) (rows i).

Section ConcGac.
Variables (k : R) (g : gac_in).
Hypothesis Hk : 0 < k.
Hypothesis HP : physical g.
Hypothesis HI : forall i, (i < x_n g)%nat -> 0 < x_inf0 g i.
Let g' := concentrated_gac k g.
Lemma cb0_conc i : (i < x_n g)%nat -> 0 < cb0 g i /\ cb0 g' i = k * cb0 g i.
Proof.
  intros Hi. assert (A := HI i Hi). assert (B := ph_mw g HP i Hi). assert (C := ph_mul g HP).
  assert (X : 0 < x_inf0 g i * x_mass_mul g / x_mw g i) by (apply Rdiv_lt_0_compat; [apply Rmult_lt_0_compat|]; assumption).
  assert (Y : k * x_inf0 g i * x_mass_mul g / x_mw g i = k * (x_inf0 g i * x_mass_mul g / x_mw g i)) by (unfold Rdiv; ring).
  assert (Z : 0 < k * (x_inf0 g i * x_mass_mul g / x_mw g i)) by (apply Rmult_lt_0_compat; assumption).
  unfold cb0. cbn [g' concentrated_gac x_inf0 x_mass_mul x_mw]. rewrite Y. unfold reqb.
  destruct (Req_EM_T (x_inf0 g i * x_mass_mul g / x_mw g i) 0); [lra|]. destruct (Req_EM_T (k * (x_inf0 g i * x_mass_mul g / x_mw g i)) 0); [lra|]. split; [exact X|reflexivity].
Qed.
Lemma k_split x : rpow k (1 - x) * rpow k x = k.
Proof. rewrite <- rpow_plus by exact Hk. replace (1 - x + x) with 1 by ring. apply rpow_1. lra. Qed.
Lemma molar_conc i : molar_k g' i = rpow k (1 - x_xn g i) * molar_k g i.
Proof. unfold molar_k. cbn [g' concentrated_gac x_K x_mw x_xn]. unfold Rdiv. ring. Qed.
Lemma qe_conc i : (i < x_n g)%nat -> qe g' i = k * qe g i.
Proof.
  intros Hi. destruct (cb0_conc i Hi) as (P & E). unfold qe. rewrite E, molar_conc. cbn [g' concentrated_gac x_xn]. rewrite rpow_mult by assumption.
  transitivity (rpow k (1 - x_xn g i) * rpow k (x_xn g i) * (molar_k g i * rpow (cb0 g i) (x_xn g i))); [ring|]. rewrite k_split. reflexivity.
Qed.
Lemma dgs_conc i : (i < x_n g)%nat -> dgs g' i = dgs g i.
Proof.
  intros Hi. destruct (cb0_conc i Hi) as (P & E). unfold dgs. rewrite E, qe_conc by exact Hi. cbn [g' concentrated_gac x_rhop x_ebed].
  unfold Rdiv. rewrite !Rinv_mult. 
  transitivity (x_rhop g * qe g i * (1 - x_ebed g) * 1000 * (/ x_ebed g * / cb0 g i) * (k * / k)); [ring|]. rewrite Rinv_r by lra. ring.
Qed.
Lemma dg_conc i : (i < x_n g)%nat -> dg g' i = dg g i.
Proof. intros Hi. unfold dg. rewrite dgs_conc by exact Hi. reflexivity. Qed.
Lemma dgt_conc : dgt g' = dgt g.
Proof. unfold dgt. cbn [g' concentrated_gac x_n]. apply rsum_ext. intros; apply dg_conc; assumption. Qed.
Lemma ym_conc i : (i < x_n g)%nat -> ym g' i = ym g i.
Proof.
  intros Hi. unfold ym, qte. change (x_n g') with (x_n g). rewrite (rsum_ext _ (qe g') (fun i => k * qe g i)) by (intros; apply qe_conc; assumption).
  rewrite rsum_scal, qe_conc by exact Hi. unfold Rdiv. rewrite Rinv_mult.
  transitivity (qe g i * / rsum (x_n g) (qe g) * (k * / k)); [ring|]. rewrite Rinv_r by lra. ring.
Qed.
Lemma ds_conc i : (i < x_n g)%nat -> ds_v g' i = ds_v g i.
Proof.
  intros Hi. destruct (cb0_conc i Hi) as (P & E). unfold ds_v. change (x_ds g' i) with (x_ds g i). change (x_organic_free g') with (x_organic_free g).
  replace (ds_corr g' i) with (ds_corr g i); [reflexivity|].
  assert (Q := qe_conc i Hi). unfold qe in Q. unfold ds_corr. 
  replace (tortu0 g' * 1000 * x_rhop g' * molar_k g' i * rpow (cb0 g' i) (x_xn g' i)) with (tortu0 g' * 1000 * x_rhop g' * (molar_k g' i * rpow (cb0 g' i) (x_xn g' i))) by ring.
  rewrite Q, E. change (tortu0 g') with (tortu0 g). change (difl_v g' i) with (difl_v g i). cbn [g' concentrated_gac x_epor x_psdfr x_rhop].
  set (M := molar_k g i * rpow (cb0 g i) (x_xn g i)).
  replace (tortu0 g * 1000 * x_rhop g * molar_k g i * rpow (cb0 g i) (x_xn g i)) with (tortu0 g * 1000 * x_rhop g * M) by (unfold M; ring).
  unfold Rdiv. rewrite !Rinv_mult. set (IM := / M).
  transitivity (x_epor g * difl_v g i * cb0 g i * x_psdfr g * (/ tortu0 g * / 1000 * / x_rhop g * IM) * (k * / k)); [rewrite Rinv_r by lra; ring|ring].
Qed.
Lemma rhs_conc nc mc wr az br cinfl foul fac cinfl' foul' fac' y i r z : (i < x_n g)%nat ->
  (forall i, (i < x_n g)%nat -> cinfl' i = cinfl i /\ foul' i = foul i /\ fac' i = fac i) ->
  gac_rhs g' nc mc wr az br cinfl' foul' fac' y i r z = gac_rhs g nc mc wr az br cinfl foul fac y i r z.
Proof.
  intros Hi HT.
  assert (ZR : forall j r z, (j < x_n g)%nat -> z_raw g' y j r z = z_raw g y j r z) by (intros; unfold z_raw; rewrite ym_conc by assumption; reflexivity).
  assert (Q2 : forall r z, qte2 g' y r z = qte2 g y r z).
  { intros. unfold qte2. change (x_n g') with (x_n g). rewrite (rsum_ext _ (fun j => z_raw g' y j r0 z0) (fun j => z_raw g y j r0 z0)) by (intros; apply ZR; assumption). reflexivity. }
  assert (YT : forall r z, yt0 g' y r z = yt0 g y r z).
  { intros. unfold yt0. change (x_n g') with (x_n g). apply rsum_ext. intros. rewrite ZR by assumption. reflexivity. }
  assert (CR : forall r z, cpore_raw g' foul' y i r z = cpore_raw g foul y i r z).
  { intros. unfold cpore_raw, q0, z2. change (xni g' i) with (xni g i). change (x_xn g' i) with (x_xn g i).
    rewrite YT, Q2, ZR, ym_conc by exact Hi. rewrite (proj1 (proj2 (HT i Hi))). reflexivity. }
  assert (CP : forall r z, cpore g' nc foul' y i r z = cpore g nc foul y i r z) by (intros; unfold cpore; rewrite CR; reflexivity).
  assert (SD : stdv g' i = stdv g i) by (unfold stdv; rewrite dgt_conc; reflexivity).
  assert (CB : forall z, cbs g' nc foul' y i z = cbs g nc foul y i z) by (intros; unfold cbs; rewrite CP, SD; reflexivity).
  assert (DV : d_v g' i = d_v g i) by (unfold d_v; rewrite ds_conc by exact Hi; reflexivity).
  assert (ED : edd g' i = edd g i) by (unfold edd; rewrite dgt_conc, dg_conc by exact Hi; reflexivity).
  assert (EP : edp g' i = edp g i) by reflexivity.
  assert (ES : eds g' i = eds g i) by (unfold eds; rewrite ds_conc, dgs_conc by exact Hi; reflexivity).
  assert (BB : forall r z, bb g' nc br foul' fac' y i r z = bb g nc br foul fac y i r z).
  { intros. unfold bb, bedp, beds. rewrite EP, DV, ED, ES. rewrite (proj2 (proj2 (HT i Hi))).
    f_equal. f_equal. apply rsum_ext. intros. rewrite CP. reflexivity. }
  assert (WW : forall z, ww g' nc wr br foul' fac' y i z = ww g nc wr br foul fac y i z).
  { intros. unfold ww. apply rsum_ext. intros. rewrite BB. reflexivity. }
  unfold gac_rhs, dgI, dg1. rewrite !BB, !WW, !CP, !CB, dg_conc, dgt_conc, SD by exact Hi. rewrite (proj1 (HT i Hi)). reflexivity.
Qed.
End ConcGac.
Theorem C172_granular_partial : forall k g m nr rows foul Tf y, 0 < k -> physical g -> (forall i, (i < x_n g)%nat -> 0 < x_inf0 g i) ->
  gac_trajectory (x_n g) nr (m_c m) (diffun g m nr rows foul) Tf y ->
  gac_trajectory (x_n g) nr (m_c m) (diffun (concentrated_gac k g) m nr (times_rows k rows) foul) Tf y /\
  tconv (concentrated_gac k g) = tconv g /\
  forall i c, (i < x_n g)%nat -> reported (concentrated_gac k g) i c = k * reported g i c.
Proof.
  intros k g m nr rows foul Tf y Hk HP HI TR.
  assert (TC : tconv (concentrated_gac k g) = tconv g) by (unfold tconv, dg1; rewrite (dgt_conc k g Hk HP HI); reflexivity).
  split; [|split; [exact TC|]].
  - intros i r z Hi Hr Hz. eapply evolves_ext; [reflexivity| |apply (TR i r z Hi Hr Hz)].
    intros T _. symmetry. unfold diffun. apply (rhs_conc k g Hk HP HI); [exact Hi|].
    intros j Hj. destruct (cb0_conc k g Hk HP HI j Hj) as (CP & CE).
    assert (CI : forall n, cinfA (concentrated_gac k g) (times_rows k rows) n j = cinfA g rows n j).
    { intros n. unfold cinfA. f_equal. unfold cin_table, times_rows. rewrite map_map. apply map_ext. intros p. cbn [fst snd concentrated_gac x_mass_mul x_mw].
      f_equal. rewrite CE. unfold Rdiv. rewrite Rinv_mult. transitivity (snd p * x_mass_mul g * / x_mw g j * / cb0 g j * (k * / k)); [ring|]. rewrite Rinv_r by lra. ring. }
    assert (DV : d_v (concentrated_gac k g) j = d_v g j) by (unfold d_v; rewrite (ds_conc k g Hk HP HI) by exact Hj; reflexivity).
    unfold at_time. rewrite TC, !CI. unfold facA. rewrite DV. repeat split; reflexivity.
  - intros i c Hi. unfold reported. destruct (cb0_conc k g Hk HP HI i Hi) as (CP & CE). rewrite CE. cbn [concentrated_gac x_mw x_mass_mul]. unfold Rdiv. ring.
Qed.
(** A compound that is not in the water at the start is the exception: the number 1 put in
    place of its concentration does not grow with the others, and the uptake of the others
    grows by more than the factor [k]. *)
Theorem C172_granular_refuted : forall inv legendre jroots nr nz ne m g N rows foul i k,
  good_library inv legendre jroots nr nz -> calc_solver_matrix inv legendre jroots nr nz ne = Ok m ->
  physical g -> x_n g = S N -> x_inf0 g N = 0 -> (forall j, (j < N)%nat -> 0 < x_inf0 g j) -> x_xn g N < 1 -> 1 < k -> (i < N)%nat ->
  0 < kf_v g i -> 0 < interp_x (cin_table g i (rows i)) 0 ->
  k * bead_uptake g nr m rows foul 0 (fun _ _ _ => 0) i 0
  < bead_uptake (concentrated_gac k g) nr m (times_rows k rows) foul 0 (fun _ _ _ => 0) i 0.
Proof.
  intros inv leg jr nr nz ne m g N rows foul i k HG Hm HP HX Z HI XN Hk Hi KF HC.
  set (g' := concentrated_gac k g).
  assert (K0 : 0 < k) by lra.
  assert (HP' : physical g').
  { constructor; cbn [g' x_n x_epor x_rhop x_ebed x_tau x_rad x_mass_mul x_K x_xn x_mw x_inf0 concentrated_gac]; try (apply HP); intros j Hj.
    - apply Rmult_lt_0_compat; [apply rpow_pos, K0|apply HP, Hj].
    - apply Rmult_le_pos; [lra|apply HP, Hj]. }
  assert (Hi1 : (i < x_n g)%nat) by lia. assert (Hi2 : (i < x_n g')%nat) by (cbn; lia).
  rewrite (C69_film_rate_partial inv leg jr nr nz ne m g rows foul 0 _ i 0 HG Hm HP Hi1).
  rewrite (C69_film_rate_partial inv leg jr nr nz ne m g' (times_rows k rows) foul 0 _ i 0 HG Hm HP' Hi2).
  set (h := gac_without_last g).
  assert (HPh : physical h).
  { constructor; cbn [h x_n x_epor x_rhop x_ebed x_tau x_rad x_mass_mul x_K x_xn x_mw x_inf0 gac_without_last];
      try (apply HP); try lia; intros j Hj; apply HP; lia. }
  assert (NH : x_n h = N) by (cbn [h gac_without_last x_n]; lia).
  assert (HIh : forall j, (j < x_n h)%nat -> 0 < x_inf0 h j) by (intros j Hj; apply HI; lia).
  assert (CE : cb0 g' i = k * cb0 g i) by (apply (cb0_conc k h K0 HPh HIh i); lia).
  assert (CP : 0 < cb0 g i) by (apply (Props_GacColumn.cb0_pos g HP i Hi1)).
  assert (CT : interp_x (cin_table g' i (times_rows k rows i)) 0 = interp_x (cin_table g i (rows i)) 0).
  { f_equal. unfold cin_table, times_rows. rewrite map_map. apply map_ext. intros p. cbn [fst snd g' concentrated_gac x_mass_mul x_mw].
    f_equal. fold g'. rewrite CE. unfold Rdiv. rewrite Rinv_mult. transitivity (snd p * x_mass_mul g * / x_mw g i * / cb0 g i * (k * / k)); [ring|]. rewrite Rinv_r by lra. ring. }
  set (F := kf_v g i * (3 * (1 - x_ebed g) / x_rad g) * (cb0 g i * interp_x (cin_table g i (rows i)) 0)).
  assert (E : film_transfer g nr rows foul 0 (fun _ _ _ => 0) i 0 = F).
  { unfold film_transfer, outside, surface_liquid. cbn [Nat.eqb]. rewrite inlet_zero, clean_surface. unfold F. ring. }
  assert (E' : film_transfer g' nr (times_rows k rows) foul 0 (fun _ _ _ => 0) i 0 = k * F).
  { unfold film_transfer, outside, surface_liquid. cbn [Nat.eqb]. rewrite inlet_zero, clean_surface, CT, CE. unfold F.
    change (kf_v g' i) with (kf_v g i). cbn [x_ebed x_rad g' concentrated_gac]. ring. }
  rewrite E, E'.
  assert (FP : 0 < F).
  { assert (B := ph_ebed g HP). assert (Q := ph_rad g HP).
    unfold F. apply Rmult_lt_0_compat; [apply Rmult_lt_0_compat; [exact KF|]|apply Rmult_lt_0_compat; assumption].
    apply Rdiv_lt_0_compat; lra. }
  assert (DT : dgt g' = dgt h + dg g' N).
  { unfold dgt. replace (x_n g') with (S N) by (symmetry; exact HX). cbn [rsum]. rewrite NH. f_equal. apply rsum_ext. intros j Hj. apply (dg_conc k h K0 HPh HIh). lia. }
  assert (DG : dgt g = dgt h + dg g N) by (unfold dgt; rewrite HX, NH; reflexivity).
  assert (PN : 0 < dgs g N).
  { unfold dgs, qe, molar_k. assert (B := ph_ebed g HP). assert (HN : (N < x_n g)%nat) by lia.
    assert (C := Props_GacColumn.cb0_pos g HP N HN). assert (MW := ph_mw g HP N HN). assert (KK := ph_K g HP N HN). assert (RR := ph_rhop g HP).
    apply Rdiv_lt_0_compat; [|apply Rmult_lt_0_compat; lra].
    repeat apply Rmult_lt_0_compat; try lra; try (apply rpow_pos; lra).
    - apply Rinv_0_lt_compat. lra.
    - apply Rinv_0_lt_compat, rpow_pos. apply Rdiv_lt_0_compat; lra. }
  assert (CN : cb0 g' N = 1 /\ cb0 g N = 1).
  { unfold cb0. cbn [g' concentrated_gac x_inf0 x_mass_mul x_mw]. rewrite Z, Rmult_0_r. 
    replace (0 * x_mass_mul g / x_mw g N) with 0 by (unfold Rdiv; ring). unfold reqb. destruct (Req_EM_T 0 0); [split; reflexivity|lra]. }
  destruct CN as (CN' & CN).
  assert (MORE : dgs g' N = rpow k (1 - x_xn g N) * dgs g N).
  { unfold dgs, qe. rewrite CN', CN. unfold g' at 2. rewrite (molar_conc k g N). cbn [g' concentrated_gac x_rhop x_ebed x_xn]. unfold Rdiv. ring. }
  assert (RK : 1 < rpow k (1 - x_xn g N)).
  { replace 1 with (rpow 1 (1 - x_xn g N)) at 1 by apply rpow_one_base. apply rpow_lt; lra. }
  assert (LT : dgt g < dgt g').
  { rewrite DT, DG. apply Rplus_lt_compat_l. unfold dg. change (dgp g') with (dgp g). apply Rplus_lt_compat_r. rewrite MORE. nra. }
  assert (D0 : 0 < dgt g) by (apply dgt_pos; exact HP).
  replace (k * (dgt g / (1 + dgt g) * F)) with (dgt g / (1 + dgt g) * (k * F)) by ring.
  apply Rmult_lt_compat_r; [apply Rmult_lt_0_compat; assumption|].
  set (a := dgt g) in *. set (d := dgt g') in *. clearbody a d.
  apply Rmult_lt_reg_r with ((1 + a) * (1 + d)); [apply Rmult_lt_0_compat; lra|].
  replace (a / (1 + a) * ((1 + a) * (1 + d))) with (a * (1 + d)) by (field; lra).
  replace (d / (1 + d) * ((1 + a) * (1 + d))) with (d * (1 + a)) by (field; lra). lra.
Qed.

(** ** The hypotheses are met *)
(** Beads twice as large and four times the contact time. *)
Definition ru_large : column :=
  {| NION := 2; nr := 1; nz := 2; EBED := 1 / 2; EPOR := 0; Lbed := 8; vel := 2; rb := 2; Qcap := 1;
     kL := fun _ => 1 / 2; Ds := fun _ => 1; Dp := fun _ => 1; Kxc := fun _ => 1; val := fun _ => 1%nat |}.
Example similar_met : similar 4 ru_col ru_large /\ sized ru_col /\ sized ru_large.
Proof.
  split; [|split; repeat split; cbn; lra]. constructor; try reflexivity; unfold ebct; cbn; intros; field.
Qed.
Example larger_run : forall psdm, is_trajectory 1 2 2 (fun _ u => rhs psdm ru_large ru_op 1 (fun _ => 1 / 2) u) 20 (fun T => ru_run (T / 4)) /\
  ru_run (20 / 4) 1%nat 1%nat 0%nat <> ru_run 0 1%nat 1%nat 0%nat.
Proof.
  intros psdm. destruct similar_met as (S & A & B). split.
  - assert (X := C171_column 4 psdm ru_col ru_large ru_op 1 1 (fun _ _ => 1 / 2) 5 (fun T => ru_run (0 + 1 * T)) ltac:(lra) S A B ltac:(lra) ltac:(lra)).
    replace (5 / 1) with 5 in X by field. specialize (X (ru_trajectory psdm 1 0 5)).
    replace (4 * 5 / 1) with 20 in X by field. intros r i z Hr Hi Hz. eapply evolves_ext; [| |exact (X r i z Hr Hi Hz)].
    + intros t. cbv beta. replace (0 + 1 * (t * 1 / 4 / 1)) with (t / 4) by field. reflexivity.
    + intros t _. cbv beta. replace (0 + 1 * (t * 1 / 4 / 1)) with (t / 4) by field. reflexivity.
  - cbn [ru_run]. unfold ru_v. cbn [ru_a ru_b ru_k]. rewrite Rmult_0_r. assert (E := exp_increasing (-1 * (20 / 4)) 0 ltac:(lra)). lra.
Qed.
Definition ex_batch_large : batch :=
  {| b_NION := 2; b_nr := 1; b_Qm := 2; b_RHOP := 1 / 2; b_EPOR := 1 / 5; b_VR := 10; b_VL := 10;
     b_Ds := 1; b_Dp := 1; b_kL := 1 / 2; b_rb := 6; b_C0 := b_C0 ex_batch; b_K := b_K ex_batch; b_val := b_val ex_batch |}.
Example larger_batch : forall psdm, is_batch_trajectory 1 2 (batch_rhs psdm ex_batch_large ex_op) 20 (fun t => ex_run (t / 4)).
Proof.
  intros psdm. replace 20 with (4 * 5) by ring.
  apply (C171_batch 4 psdm ex_batch ex_batch_large ex_op 5 ex_run); try (cbn; lra); [|apply ex_run_trajectory].
  constructor; try reflexivity; unfold b_Q; cbn; field.
Qed.
Example coarser_powder : exists q', similar_pac 4 Props_Pac.demo_eqn q' /\ 
  Props_Pac.follows 1 (fun _ _ => 0) (fun _ => 1 / 3) q' 0 (4 * 1) (fun t => Props_Pac.demo_C (t / 4)) (fun i t => Props_Pac.demo_Y i (t / 4)).
Proof.
  exists {| M_Pac.q_rho := 1; M_Pac.q_K := 1; M_Pac.q_n := 1; M_Pac.q_kL := 1 / 12; M_Pac.q_E := 1 / 2; M_Pac.q_Ep := 1 / 2; M_Pac.q_Dp := 1; M_Pac.q_Ds := 1; M_Pac.q_ra := 2 |}.
  assert (S : similar_pac 4 Props_Pac.demo_eqn {| M_Pac.q_rho := 1; M_Pac.q_K := 1; M_Pac.q_n := 1; M_Pac.q_kL := 1 / 12; M_Pac.q_E := 1 / 2; M_Pac.q_Ep := 1 / 2; M_Pac.q_Dp := 1; M_Pac.q_Ds := 1; M_Pac.q_ra := 2 |})
    by (constructor; try reflexivity; cbn; field).
  split; [exact S|]. apply (C171_powdered 4 _ _ _ _ _ 1 _ _ ltac:(lra) S); [cbn; lra|cbn; lra|apply Props_Pac.follows_met].
Qed.
Definition g_large (r : R) : gac_in :=
  {| x_n := 2; x_epor := 1 / 2; x_rhop := 1; x_ebed := 1 / 2; x_tau := r * 60; x_rad := 1 / 10;
     x_tortu := 1; x_psdfr := 3; x_vw := 1 / 90; x_dw := 1; x_re := 2; x_mass_mul := 1; x_organic_free := true;
     x_K := fun i => 10 + INR i; x_xn := fun i => 1 / 2; x_mw := fun i => 100; x_molvol := fun i => 200;
     x_kf := fun i => / r * (2 / 1000); x_dp := fun i => / r * (4 / 10 ^ 6); x_ds := fun i => / r * (4 / 10 ^ 9); x_inf0 := fun i => 100 |}.
Definition even_rows : nat -> list (R * R) := fun _ => [(0, 100); (1000, 100)].
Example larger_carbon : forall r m, 0 < r -> (3 <= m_c m)%nat -> exists T y, 0 < T <= 1 /\
  gac_trajectory 2 3 (m_c m) (diffun (g_large r) m 3 even_rows (fun _ _ => 1)) T y /\ y 0 0%nat 3%nat 1%nat = 1 / 2 /\
  forall t, r * t * tconv (g_large r) = t * tconv (g_ex 2 true 1).
Proof.
  intros r m Hr Hm. destruct (carbon_exists m (fun _ _ _ => 1 / 2)) as (T & y & HT & TR & Y0).
  assert (IR : 0 < / r) by (apply Rinv_0_lt_compat; exact Hr).
  assert (S : similar_gac r (g_ex 2 true 1) (g_large r)) by (constructor; try reflexivity; cbn; intros; field; lra).
  assert (S1 : supplied (g_ex 2 true 1)) by (intros i _; cbn; lra).
  assert (S2 : supplied (g_large r)) by (intros i _; cbn; repeat split; apply Rmult_lt_0_compat; lra).
  destruct (C171_granular_steady r (g_ex 2 true 1) (g_large r) m 3 even_rows (fun _ _ => 1) T y Hr S S1 S2 ltac:(cbn; lra) ltac:(cbn; lra)) as (A & B & _); [|exact TR|].
  - split; [reflexivity|]. split; [|reflexivity]. intros i _. split; [discriminate|]. intros p [<-|[<-|[]]]; reflexivity.
  - exists T, y. split; [exact HT|]. split; [exact A|]. split; [|exact B]. apply Y0; lia.
Qed.
(** The same with another weather: fouling and influent change (equal contact time). *)
Example same_contact_time : similar_gac 1 (g_ex 2 true 1) (g_large 1) /\ supplied (g_ex 2 true 1) /\ supplied (g_large 1) /\ x_rad (g_large 1) <> x_rad (g_ex 2 true 1).
Proof.
  split; [constructor; try reflexivity; cbn; intros; field|]. split; [intros i _; cbn; lra|]. split; [intros i _; cbn; lra|cbn; lra].
Qed.
(** The example of C51: grains of 0.21 mm instead of 1 mm. *)
Example small_column_met : exists E V c c' len v, let lc := build_large_scale_column ex in
  let sc := calc_RSSCT_specs lc (Some (InUnit (11 / 10) "cm"%string)) (Some (Plain (21 / 100))) None 0 in
  known_large lc E 100 V 1 (49 / 100) /\ s_length sc = Some len /\ s_loading sc = Some v /\
  sized c /\ sized c' /\ ebct c = E * 60 /\ Lbed c' = len /\ vel c' = cm_per_min v / 60 /\ rb c' = 21 / 100 * rb c /\
  kL c' 0%nat = rpow (21 / 100 / 1) (0 - 1) * kL c 0%nat /\ ebct c' = (21 / 100) ^ 2 * ebct c.
Proof.
  destruct C51_example as (E & V & HL & HD & HQ & KL & SD). cbv zeta in KL, SD.
  assert (PE := pE _ _ _ _ _ _ KL).
  set (sc := calc_RSSCT_specs (build_large_scale_column ex) (Some (InUnit (11 / 10) "cm"%string)) (Some (Plain (21 / 100))) None 0) in *.
  assert (SP : s_part sc = Some (21 / 100)) by reflexivity.
  destruct (C51_scaling _ E 100 V 1 (49 / 100) _ _ _ _ _ _ KL SD SP ltac:(lra) ltac:(lra)) as (len & e & t & v & q & mm & w & KS & L1 & L2 & L3 & G1 & _).
  assert (PV := pV _ _ _ _ _ _ KL). assert (V0 : 0 < v) by nra.
  assert (R2 : rpow (21 / 100 / 1) (2 - 0) = (21 / 100) ^ 2).
  { replace (2 - 0) with (1 + 1) by ring. rewrite rpow_plus, rpow_1 by lra. field. }
  assert (E0 : e = E * (21 / 100) ^ 2) by (rewrite <- R2, <- L1; field; lra).
  assert (CM : 0 < cm_per_min v) by (unfold cm_per_min; lra).
  assert (LEN : 0 < len) by (rewrite G1, E0; repeat apply Rmult_lt_0_compat; try assumption; lra).
  set (mk := fun L vv rr kk => {| NION := 2; nr := 1; nz := 2; EBED := 1 / 2; EPOR := 0; Lbed := L; vel := vv; rb := rr; Qcap := 1;
     kL := fun _ => kk; Ds := fun _ => 1; Dp := fun _ => 1; Kxc := fun _ => 1; val := fun _ => 1%nat |}).
  exists E, V, (mk (E * 60) 1 (1 / 20) 1), (mk len (cm_per_min v / 60) (21 / 100 * (1 / 20)) (rpow (21 / 100 / 1) (0 - 1) * 1)), len, v.
  cbv zeta. fold sc. split; [exact KL|]. split; [exact (kl _ _ _ _ _ _ _ _ _ _ KS)|]. split; [exact (kv _ _ _ _ _ _ _ _ _ _ KS)|].
  split; [repeat split; cbn; lra|]. split; [repeat split; cbn; lra|]. unfold ebct. cbn. repeat split; try field.
  rewrite G1, E0. field. lra.
Qed.
Example stronger_water : forall psdm, is_trajectory 1 2 2 (fun _ u => rhs psdm (concentrated 3 ru_col) ru_op 1 (fun _ => 3 * (1 / 2)) u) 5 (fun T => times_state 3 (ru_run (0 + 1 * T))).
Proof. intros psdm. apply (C172_column 3 psdm ru_col ru_op 1 (fun _ _ => 1 / 2) 5 (fun T => ru_run (0 + 1 * T))); [lra|]. apply ru_trajectory. Qed.
Example stronger_batch : forall psdm, is_batch_trajectory 1 2 (batch_rhs psdm (concentrated_batch 3 ex_batch) ex_op) 5 (fun T => times_beads 3 (ex_run T)).
Proof. intros psdm. apply (C172_batch 3 psdm ex_batch ex_op 5 ex_run); [lra|]. apply ex_run_trajectory. Qed.
Example stronger_carbon : forall m, exists T y, 0 < T <= 1 /\
  gac_trajectory 2 3 (m_c m) (diffun (concentrated_gac 4 (g_ex 2 true 1)) m 3 (times_rows 4 even_rows) (fun _ _ => 1)) T y /\
  reported (concentrated_gac 4 (g_ex 2 true 1)) 0 1 = 4 * reported (g_ex 2 true 1) 0 1.
Proof.
  intros m. destruct (carbon_exists m (fun _ _ _ => 1 / 2)) as (T & y & HT & TR & Y0).
  destruct (C172_granular_partial 4 (g_ex 2 true 1) m 3 even_rows (fun _ _ => 1) T y ltac:(lra) (physical_example 2 true 1 ltac:(lia)) ltac:(intros; cbn; lra) TR) as (A & _ & B).
  exists T, y. split; [exact HT|]. split; [exact A|]. apply B. cbn; lia.
Qed.
Example absent_compound_scaled : exists m, calc_solver_matrix inv23 leg_mid jac_one 2 3 1 = Ok m /\ forall foul,
  4 * bead_uptake g_absent 2 m rows_absent foul 0 (fun _ _ _ => 0) 0 0
  < bead_uptake (concentrated_gac 4 g_absent) 2 m (times_rows 4 rows_absent) foul 0 (fun _ _ _ => 0) 0 0.
Proof.
  destruct (matrices_example 1 ltac:(lia)) as (m & Hm & _). exists m. split; [exact Hm|]. intros foul.
  apply (C172_granular_refuted inv23 leg_mid jac_one 2 3 1 m g_absent 1); try reflexivity; try lia; try lra; try exact Hm.
  - exact library_example.
  - split; cbn; try lra; try lia; intros i Hi; try lra. destruct i; lra.
  - intros j Hj. assert (j = 0)%nat by lia. subst. cbn. lra.
  - cbn. lra.
  - unfold kf_v. cbn [x_kf g_absent]. rewrite rltb_true by lra. lra.
  - unfold cin_table, rows_absent. cbn [map fst snd].
    assert (C : cb0 g_absent 0 = 1).
    { unfold cb0. cbn [x_inf0 x_mass_mul x_mw g_absent]. replace (100 * 1 / 100) with 1 by field.
      destruct (reqb 1 0); reflexivity. }
    rewrite C. cbn [x_mass_mul x_mw g_absent]. replace (100 * 1 / 100 / 1) with 1 by field.
    rewrite (interp_const 1); [lra|discriminate|]. intros p [<-|[<-|[]]]; reflexivity.
Qed.

Print Assumptions C171_column.
Print Assumptions C171_column_solver.
Print Assumptions C171_batch.
Print Assumptions C171_powdered.
Print Assumptions C171_granular.
Print Assumptions C171_granular_steady.
Print Assumptions C171_small_column.
Print Assumptions C172_column.
Print Assumptions C172_column_start.
Print Assumptions C172_batch.
Print Assumptions C172_granular_partial.
Print Assumptions C172_granular_refuted.
