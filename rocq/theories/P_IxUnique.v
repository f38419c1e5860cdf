(** The right-hand sides of the ion-exchange columns are locally Lipschitz wherever the
    exchange equilibrium has a solution; hence uniqueness of runs. *)
From Coq Require Import Reals List Arith Bool Lra Lia Classical.
From Verif Require Import Lib_Py Lib_Sum Lib_Traj Lib_Tame M_Colloc M_IxEq M_IxColumn S_IxEq S_IxColumn S_Unique P_IxEq.
Import ListNotations.
Open Scope R_scope.

Lemma has_divalent_exists n val : has_divalent n val = true <-> exists i, (i < n)%nat /\ val i = 2%nat.
Proof.
  unfold has_divalent, dv_idx. split.
  - intros H. apply existsb_exists in H as (i & Hi & E). apply in_seq in Hi. apply Nat.eqb_eq in E. exists i. split; [lia|exact E].
  - intros (i & Hi & E). apply existsb_exists. exists i. split; [apply in_seq; lia|apply Nat.eqb_eq, E].
Qed.
(** A composition without negative loadings, with presaturant, in a liquid without negative charge. *)
Lemma composition_solvable n K val q CT : (0 < n)%nat -> selectivities n K -> resin_composition n q -> 0 <= CT ->
  forall k, (forall i, (i < n)%nat -> K i <= k) -> solvable (Rmin (q 0%nat / k) (Rmin (q 0%nat) (q 0%nat ^ 2))) n K val q CT.
Proof.
  intros Hn HK (Q0 & Qi) HC k Hk.
  assert (M1 := Rmin_l (q 0%nat / k) (Rmin (q 0%nat) (q 0%nat ^ 2))). assert (M2 := Rmin_r (q 0%nat / k) (Rmin (q 0%nat) (q 0%nat ^ 2))).
  assert (M3 := Rmin_l (q 0%nat) (q 0%nat ^ 2)). assert (M4 := Rmin_r (q 0%nat) (q 0%nat ^ 2)).
  assert (T : forall i, (i < n)%nat -> 0 <= q i / K i) by (intros i Hi; apply Rmult_le_pos; [apply Qi, Hi|left; apply Rinv_0_lt_compat, HK, Hi]).
  assert (MN : forall mask : nat -> bool, 0 <= rsum n (fun i => if mask i then q i / K i else 0)).
  { intros mask. apply rsum_nonneg. intros i Hi. destruct (mask i); [apply T, Hi|lra]. }
  split.
  - intros _. eapply Rle_trans; [exact M1|]. rewrite (rsum_split_at n _ 0 Hn).
    assert (q 0%nat / k <= q 0%nat / K 0%nat). { apply Rmult_le_compat_l; [lra|]. apply Rinv_le_contravar; [apply HK, Hn|apply Hk, Hn]. }
    match goal with |- _ <= _ + ?X => assert (0 <= X); [|lra] end.
    apply rsum_nonneg. intros i Hi. destruct (Nat.eq_dec i 0); [lra|apply T, Hi].
  - intros _. cbv zeta. assert (A := MN (fun i => Nat.eqb (val i) 2)). assert (B := MN (fun i => (Nat.eqb (val i) 1 && negb (Nat.eqb i 0))%bool)). cbv beta in A, B.
    split; [lra|]. split; [lra|]. eapply Rle_trans; [exact M2|]. eapply Rle_trans; [exact M4|].
    match goal with |- _ <= _ + 4 * ?a * CT => assert (0 <= a * CT) by (apply Rmult_le_pos; assumption) end. nra.
Qed.

Lemma solvable_mono m m' n K val q CT : m' <= m -> solvable m n K val q CT -> solvable m' n K val q CT.
Proof.
  intros H (A & B). split; [intros N; specialize (A N); lra|]. intros N. specialize (B N). cbv zeta in *. lra.
Qed.
(** Finitely many margins have a common one. *)
Lemma common_margin n (P : nat -> R -> Prop) : (forall i m m', m' <= m -> P i m -> P i m') ->
  (forall i, (i < n)%nat -> exists m, 0 < m /\ P i m) -> exists m, 0 < m /\ forall i, (i < n)%nat -> P i m.
Proof.
  intros Mo. induction n as [|n IH]; intros H; [exists 1; split; [lra|intros; lia]|].
  destruct IH as (m1 & P1 & Q1); [intros; apply H; lia|]. destruct (H n ltac:(lia)) as (m2 & P2 & Q2).
  exists (Rmin m1 m2). split; [apply Rmin_pos; assumption|]. intros i Hi. destruct (Nat.eq_dec i n) as [->|].
  - apply (Mo n m2); [apply Rmin_r|exact Q2].
  - apply (Mo i m1); [apply Rmin_l|apply Q1; lia].
Qed.
Lemma use_everywhere pores solid nr n nz K val Cin u :
  (forall r z, (1 <= r <= nr)%nat -> (pores = true \/ r = nr) -> (z < nz)%nat ->
     exists m, 0 < m /\ solvable m n K val (fun i => u r i z / solid) (rsum n (fun i => if Nat.eqb z 0 then Cin i else u 0%nat i z))) ->
  in_normal_use pores solid nr n nz K val Cin u.
Proof.
  intros H.
  destruct (common_margin (nr + 1) (fun r m => (1 <= r <= nr)%nat -> (pores = true \/ r = nr) -> forall z, (z < nz)%nat ->
     solvable m n K val (fun i => u r i z / solid) (rsum n (fun i => if Nat.eqb z 0 then Cin i else u 0%nat i z)))) as (m & P & Q).
  - intros r m m' L Q H1 H2 z H3. eapply solvable_mono; [exact L|]. apply Q; assumption.
  - intros r _. destruct (classic ((1 <= r <= nr)%nat /\ (pores = true \/ r = nr))) as [(H1 & H2)|N]; [|exists 1; split; [lra|intros H1 H2; contradiction N; split; assumption]].
    destruct (common_margin nz (fun z m => solvable m n K val (fun i => u r i z / solid) (rsum n (fun i => if Nat.eqb z 0 then Cin i else u 0%nat i z)))) as (m & P & Q).
    + intros z m m' L Q. eapply solvable_mono; eassumption.
    + intros z Hz. apply H; assumption.
    + exists m. split; [exact P|]. intros _ _. exact Q.
  - exists m. split; [exact P|]. intros r z H1 H2 H3. apply Q; try assumption. lia.
Qed.
Lemma composition_margin n K val q CT : (0 < n)%nat -> selectivities n K -> resin_composition n q -> 0 <= CT ->
  exists m, 0 < m /\ solvable m n K val q CT.
Proof.
  intros Hn HK HQ HC. assert (B : forall n', (n' <= n)%nat -> exists k, 0 < k /\ forall i, (i < n')%nat -> K i <= k).
  { induction n' as [|n' IH]; intros L; [exists 1; split; [lra|intros; lia]|]. destruct (IH ltac:(lia)) as (k & P & Q).
    exists (Rmax k (K n')). split; [apply Rlt_le_trans with k; [exact P|apply Rmax_l]|]. intros i Hi.
    destruct (Nat.eq_dec i n') as [->|]; [apply Rmax_r|]. eapply Rle_trans; [apply Q; lia|apply Rmax_l]. }
  destruct (B n (le_n n)) as (k & P & Q). eexists. split; [|apply (composition_solvable n K val q CT Hn HK HQ HC k Q)].
  destruct HQ as (Q0 & _). apply Rmin_pos; [apply Rdiv_lt_0_compat; assumption|]. apply Rmin_pos; [exact Q0|apply pow_lt, Q0].
Qed.
(** No negative loading, some presaturant, and no negative total charge, everywhere. *)
Lemma nonneg_use pores solid nr n nz K val Cin u : (0 < n)%nat -> selectivities n K -> 0 <= rsum n Cin ->
  (forall z, (1 <= z < nz)%nat -> 0 <= rsum n (fun i => u 0%nat i z)) ->
  (forall r z, (1 <= r <= nr)%nat -> (pores = true \/ r = nr) -> (z < nz)%nat -> resin_composition n (fun i => u r i z / solid)) ->
  in_normal_use pores solid nr n nz K val Cin u.
Proof.
  intros Hn HK H1 H2 H3. apply use_everywhere. intros r z A B C. apply composition_margin; try assumption; [apply H3; assumption|].
  destruct (Nat.eqb_spec z 0); [exact H1|apply H2; lia].
Qed.

(** The margins of one place as functions of the state. *)
Definition margins {X} (n : nat) (K : nat -> R) (val : nat -> nat) (q : nat -> R -> X -> R) (CT : R -> X -> R) : list (R -> X -> R) :=
  let A s y := rsum n (fun i => if Nat.eqb (val i) 2 then q i s y / K i else 0) in
  let B s y := q 0%nat s y + rsum n (fun i => if Nat.eqb (val i) 1 && negb (Nat.eqb i 0) then q i s y / K i else 0) in
  if has_divalent n val then [q 0%nat; B; fun s y => B s y ^ 2 + 4 * A s y * CT s y] else [fun s y => rsum n (fun i => q i s y / K i)].
Lemma margins_solvable {X} n K val (q : nat -> R -> X -> R) CT m s y :
  solvable m n K val (fun i => q i s y) (CT s y) <-> forall F, In F (margins n K val q CT) -> m <= F s y.
Proof.
  unfold margins. cbv zeta. destruct (has_divalent n val) eqn:HD.
  - apply has_divalent_exists in HD. split.
    + intros (_ & S) F HF. specialize (S HD). cbv zeta in S. destruct S as (S0 & S1 & S2). destruct HF as [<-|[<-|[<-|[]]]]; assumption.
    + intros H. split; [intros N; destruct HD as (i & Hi & E); destruct (N i Hi E)|]. intros _. cbv zeta.
      split; [apply (H (q 0%nat)); left; reflexivity|]. split.
      * apply (H (fun s y => q 0%nat s y + rsum n (fun i => if Nat.eqb (val i) 1 && negb (Nat.eqb i 0) then q i s y / K i else 0))). right; left; reflexivity.
      * apply (H (fun s y => (q 0%nat s y + rsum n (fun i => if Nat.eqb (val i) 1 && negb (Nat.eqb i 0) then q i s y / K i else 0)) ^ 2
          + 4 * rsum n (fun i => if Nat.eqb (val i) 2 then q i s y / K i else 0) * CT s y)). right; right; left; reflexivity.
  - assert (N : forall i, (i < n)%nat -> val i <> 2%nat).
    { intros i Hi E. enough (has_divalent n val = true) by congruence. apply has_divalent_exists. exists i. split; assumption. }
    split.
    + intros (S & _) F [<-|[]]. apply S, N.
    + intros H. split; [|intros (i & Hi & E); destruct (N i Hi E)]. intros _. apply (H (fun s y => rsum n (fun i => q i s y / K i))). left; reflexivity.
Qed.
Section Margins.
Context {X I : Type}.
Variables (idx : list I) (co : I -> X -> R) (D : R -> Prop) (t : R) (x : X).
Notation Tm F := (tame idx co D F t x).
Lemma margins_tame n K val (q : nat -> R -> X -> R) CT : (0 < n)%nat -> (forall i, (i < n)%nat -> Tm (q i)) -> Tm CT ->
  forall F, In F (margins n K val q CT) -> Tm F.
Proof.
  intros Hn Hq HC.
  assert (TM : forall mask : nat -> bool, Tm (fun s y => rsum n (fun i => if mask i then q i s y / K i else 0))).
  { intros mask. apply (tame_rsum idx co D n (fun i s y => if mask i then q i s y / K i else 0)). intros i Hi.
    destruct (mask i); [|apply tame_const]. apply (tame_div_const idx co D (K i) (q i)), Hq, Hi. }
  assert (TA := TM (fun i => Nat.eqb (val i) 2)). assert (TB0 := TM (fun i => Nat.eqb (val i) 1 && negb (Nat.eqb i 0))%bool). assert (TS := TM (fun _ => true)). cbv beta iota in TA, TB0, TS.
  assert (TB : Tm (fun s y => q 0%nat s y + rsum n (fun i => if Nat.eqb (val i) 1 && negb (Nat.eqb i 0) then q i s y / K i else 0))).
  { apply (tame_plus idx co D (q 0%nat)); [apply Hq, Hn|exact TB0]. }
  unfold margins. cbv zeta. destruct (has_divalent n val); intros F HF.
  - destruct HF as [<-|[<-|[<-|[]]]]; [apply Hq, Hn|exact TB|].
    apply (tame_plus idx co D (fun s y => (q 0%nat s y + rsum n (fun i => if Nat.eqb (val i) 1 && negb (Nat.eqb i 0) then q i s y / K i else 0)) ^ 2)).
    + apply (tame_pow idx co D _ 2%nat) in TB. exact TB.
    + apply (tame_mult idx co D (fun s y => 4 * rsum n (fun i => if Nat.eqb (val i) 2 then q i s y / K i else 0)) CT); [|exact HC].
      apply (tame_scal idx co D 4 (fun s y => rsum n (fun i => if Nat.eqb (val i) 2 then q i s y / K i else 0))), TA.
  - destruct HF as [<-|[]]. exact TS.
Qed.
(** Margins shrink at most by half nearby, and hold in the limit. *)
Lemma margins_near (l : list (R -> X -> R)) m : 0 < m -> (forall F, In F l -> Tm F) -> (forall F, In F l -> m <= F t x) ->
  exists near, 0 < near /\ forall s y, D s -> Rabs (s - t) < near -> dist idx co y x < near -> forall F, In F l -> m / 2 <= F s y.
Proof.
  intros Hm. induction l as [|F l IH]; intros HT HF; [exists 1; split; [lra|]; intros s y _ _ _ F []|].
  destruct IH as (e & He & Q); [intros; apply HT; right; assumption|intros; apply HF; right; assumption|].
  destruct (HT F (or_introl eq_refl)) as ((C & _) & _). destruct (C (m / 2) ltac:(lra)) as (d & Hd & W).
  exists (Rmin e d). assert (M1 := Rmin_l e d). assert (M2 := Rmin_r e d). split; [apply Rmin_pos; assumption|].
  intros s y Ds Hs Hy G [<-|HG]; [|apply (Q s y); try assumption; lra].
  specialize (W s y Ds ltac:(lra) ltac:(lra)). apply Rabs_def2 in W. specialize (HF F (or_introl eq_refl)). lra.
Qed.
Lemma margin_limit F m (S : R -> X -> Prop) : Tm F -> (forall e, 0 < e -> exists s y, D s /\ S s y /\ Rabs (s - t) < e /\ dist idx co y x < e) ->
  (forall s y, S s y -> m <= F s y) -> m <= F t x.
Proof.
  intros ((C & _) & _) Cl H. destruct (Rle_lt_dec m (F t x)) as [N|N]; [exact N|]. exfalso.
  destruct (C (m - F t x) ltac:(lra)) as (d & Hd & W). destruct (Cl d Hd) as (s & y & Ds & Sy & A & B).
  specialize (W s y Ds A B). apply Rabs_def2 in W. specialize (H s y Sy). lra.
Qed.
End Margins.
(** With a margin, equilibrium concentrations are at most proportional to the loadings. *)
Lemma Ceq_root n K val q CT m : 0 < m -> solvable m n K val q CT -> has_divalent n val = true ->
  exists w, Rabs w <= 2 * Rabs CT / m /\ Cc_column n K val q CT = q 0%nat * w /\ Cc_column n K val q CT / q 0%nat = w.
Proof.
  intros Hm (_ & S) HD. apply has_divalent_exists in HD. specialize (S HD). cbv zeta in S. destruct S as (Q0 & QB & QC).
  set (B := q 0%nat + masked_sum n (mv_idx val) (fun i => q i / K i)). set (A := masked_sum n (dv_idx val) (fun i => q i / K i)).
  change (m <= B) in QB. change (m <= B ^ 2 + 4 * A * CT) in QC.
  assert (P0 : 0 < q 0%nat) by lra. assert (SQ := sqrt_pos (B ^ 2 + 4 * A * CT)).
  exists (2 * CT / (B + sqrt (B ^ 2 + 4 * A * CT))). split.
  - unfold Rdiv. rewrite Rabs_mult, Rabs_mult, (Rabs_right 2) by lra. apply Rmult_le_compat_l; [assert (X := Rabs_pos CT); lra|].
    rewrite Rabs_inv, Rabs_right by lra. apply Rinv_le_contravar; lra.
  - assert (E : Cc_column n K val q CT = q 0%nat * (2 * CT / (B + sqrt (B ^ 2 + 4 * A * CT)))).
    { unfold Cc_column. cbv zeta.
      replace (eq_bb n K val q) with (B / q 0%nat) by (unfold eq_bb, B; field; lra). change (eq_aa n K val q) with (A / q 0%nat ^ 2).
      replace ((B / q 0%nat) ^ 2 - 4 * (A / q 0%nat ^ 2) * - CT) with ((B ^ 2 + 4 * A * CT) / (q 0%nat) ^ 2) by (field; lra).
      rewrite sqrt_div_alt by (apply pow_lt; lra). rewrite sqrt_pow2 by lra. field. split; lra. }
    split; [exact E|]. rewrite E. field. split; lra.
Qed.
Lemma Ceq_bound n K val q CT m M i : (i < n)%nat -> selectivities n K -> 0 < m -> solvable m n K val q CT -> Rabs CT <= M ->
  Rabs (calc_Ceq n K val q CT i) <= Rabs (q i) * (2 * M / m + / K i * (1 + M / m + (2 * M / m) ^ val i)).
Proof.
  intros Hi HK Hm SV HM. assert (KP := HK i Hi). assert (IK : 0 < / K i) by (apply Rinv_0_lt_compat, KP).
  assert (M0 : 0 <= M) by (eapply Rle_trans; [apply Rabs_pos|exact HM]). assert (IM : 0 < / m) by (apply Rinv_0_lt_compat, Hm).
  assert (MM : 0 <= M / m) by (apply Rmult_le_pos; lra). assert (QP := Rabs_pos (q i)).
  assert (PW : 0 <= (2 * M / m) ^ val i) by (apply pow_le; unfold Rdiv in *; lra).
  assert (XX : 0 <= 2 * M / m) by (unfold Rdiv in *; lra).
  unfold calc_Ceq. destruct (has_divalent n val) eqn:HD.
  - destruct (Ceq_root n K val q CT m Hm SV HD) as (w & W1 & W2 & W3).
    assert (W : Rabs w <= 2 * M / m).
    { eapply Rle_trans; [exact W1|]. unfold Rdiv. apply Rmult_le_compat_r; lra. }
    unfold Ceq_dv, mass_action. destruct (Nat.eqb_spec i 0) as [->|Ni].
    + rewrite W2, Rabs_mult. apply Rmult_le_compat_l; [exact QP|].
      assert (0 <= / K 0%nat * (1 + M / m + (2 * M / m) ^ val 0%nat)) by (apply Rmult_le_pos; lra). lra.
    + rewrite W3. unfold Rdiv at 1. rewrite Rabs_mult, Rabs_mult, <- RPow_abs, (Rabs_right (/ K i)) by lra. rewrite Rmult_assoc. apply Rmult_le_compat_l; [exact QP|].
      assert (PB : Rabs w ^ val i <= (2 * M / m) ^ val i) by (apply pow_incr; split; [apply Rabs_pos|exact W]).
      apply (Rmult_le_compat_l (/ K i)) in PB; [|lra]. assert (0 <= / K i * (1 + M / m)) by (apply Rmult_le_pos; lra). lra.
  - unfold Ceq_mv. rewrite (rsum_ext n _ (fun j => K i * (q j / K j))) by (intros j Hj; unfold alpha; assert (0 < K j) by (apply HK, Hj); field; lra).
    rewrite rsum_scal. set (S := rsum n (fun j => q j / K j)). assert (PS : m <= S).
    { apply SV. intros j Hj E. enough (has_divalent n val = true) by congruence. apply has_divalent_exists. exists j. split; assumption. }
    replace (q i * CT / (K i * S)) with (q i * (/ K i * (CT / S))) by (field; lra).
    rewrite !Rabs_mult, (Rabs_right (/ K i)) by lra. apply Rmult_le_compat_l; [exact QP|].
    assert (C1 : Rabs (CT / S) <= M / m).
    { unfold Rdiv. rewrite Rabs_mult, Rabs_inv, (Rabs_right S) by lra. apply Rmult_le_compat; [apply Rabs_pos|left; apply Rinv_0_lt_compat; lra|exact HM|]. apply Rinv_le_contravar; lra. }
    apply (Rmult_le_compat_l (/ K i)) in C1; [|lra]. assert (0 <= / K i * (1 + (2 * M / m) ^ val i)) by (apply Rmult_le_pos; lra). lra.
Qed.
(** The equilibrium computed is one. *)
Lemma solvable_equilibrium m n K z q CT : (0 < n)%nat -> selectivities n K -> mono_or_divalent n z -> 0 < m -> solvable m n K z q CT ->
  in_equilibrium n K z q (calc_Ceq n K z q CT) /\ rsum n (calc_Ceq n K z q CT) = CT.
Proof.
  intros Hn HK Hz Hm S. unfold calc_Ceq. destruct (has_divalent n z) eqn:HD.
  - destruct (Ceq_root n K z q CT m Hm S HD) as (w & _ & W2 & W3). apply has_divalent_exists in HD. destruct S as (_ & S). specialize (S HD). cbv zeta in S. destruct S as (Q0 & QB & QC).
    split.
    + left. split; [exact HD|]. intros i Hi1 Hi2. unfold Ceq_dv, mass_action. cbn [Nat.eqb]. rewrite (proj2 (Nat.eqb_neq i 0)) by lia.
      assert (KP := HK i Hi2). unfold Rdiv at 2. rewrite Rpow_mult_distr, pow_inv. field. split; [apply pow_nonzero|]; lra.
    + unfold Ceq_dv. rewrite (mass_action_total n K z q Hn HK ltac:(lra) Hz).
      set (A := masked_sum n (dv_idx z) (fun i => q i / K i)). set (B := q 0%nat + masked_sum n (mv_idx z) (fun i => q i / K i)).
      change (m <= B) in QB. change (m <= B ^ 2 + 4 * A * CT) in QC. assert (SQ := sqrt_pos (B ^ 2 + 4 * A * CT)).
      unfold Cc_column. cbv zeta.
      replace (eq_bb n K z q) with (B / q 0%nat) by (unfold eq_bb, B; field; lra). change (eq_aa n K z q) with (A / q 0%nat ^ 2).
      replace ((B / q 0%nat) ^ 2 - 4 * (A / q 0%nat ^ 2) * - CT) with ((B ^ 2 + 4 * A * CT) / (q 0%nat) ^ 2) by (field; lra).
      rewrite sqrt_div_alt by (apply pow_lt; lra). rewrite sqrt_pow2 by lra. set (s := sqrt (B ^ 2 + 4 * A * CT)) in *.
      assert (Es : s * s = B ^ 2 + 4 * A * CT) by (apply sqrt_sqrt; lra).
      transitivity (CT * (4 * A * CT + 2 * B * (B + s)) / (B + s) ^ 2); [field; split; lra|].
      replace (4 * A * CT) with (s * s - B ^ 2) by lra. field. lra.
  - assert (ND : forall i, (i < n)%nat -> z i <> 2%nat).
    { intros j Hj E. enough (has_divalent n z = true) by congruence. apply has_divalent_exists. exists j. split; assumption. }
    set (S0 := rsum n (fun j => q j / K j)). assert (PS : m <= S0) by apply S, ND.
    assert (F : forall i, (i < n)%nat -> Ceq_mv n K q CT i = CT / S0 * (q i / K i)).
    { intros i Hi. unfold Ceq_mv. assert (KP := HK i Hi). rewrite (rsum_ext n _ (fun j => K i * (q j / K j))) by (intros j Hj; unfold alpha; assert (0 < K j) by (apply HK, Hj); field; lra).
      rewrite rsum_scal. fold S0. field. lra. }
    split.
    + right. split; [exact ND|]. intros i j Hi Hj. rewrite !F by assumption. assert (KP := HK i Hi). assert (KQ := HK j Hj). field. lra.
    + rewrite (rsum_ext n _ _ F), rsum_scal. fold S0. field. lra.
Qed.
(** With a margin the batch formula gives what the column formula gives. *)
Lemma batch_Ceq_column m n K z CT (q : nat -> R) : 0 < m -> solvable m n K z q CT ->
  ((exists i, (i < n)%nat /\ z i = 2%nat) -> m <= rsum n (fun i => if Nat.eqb (z i) 2 then q i / K i else 0)) ->
  exists C, calc_Ceq_batch n K z q CT = Some C /\
    forall i, C i = calc_Ceq n K z q CT i.
Proof.
  intros Hm S Ca. unfold calc_Ceq_batch, calc_Ceq. destruct (has_divalent n z) eqn:HD; [|eexists; split; reflexivity].
  assert (HD' := HD). apply has_divalent_exists in HD'. specialize (Ca HD'). destruct S as (_ & S). specialize (S HD'). cbv zeta in S. destruct S as (Q0 & QB & QC).
  set (A := masked_sum n (dv_idx z) (fun i => q i / K i)).
  set (B := q 0%nat + masked_sum n (mv_idx z) (fun i => q i / K i)).
  change (m <= A) in Ca. change (m <= B) in QB. change (m <= B ^ 2 + 4 * A * CT) in QC.
  assert (P2 : 0 < q 0%nat ^ 2) by (apply pow_lt; lra).
  unfold Ceq_dv_batch, Ceq_dv, Cc_column. cbv zeta.
  replace (eq_bb n K z q) with (B / q 0%nat) by (unfold eq_bb, B; field; lra).
  change (eq_aa n K z q) with (A / q 0%nat ^ 2).
  assert (PA : 0 < A / q 0%nat ^ 2) by (apply Rdiv_lt_0_compat; lra). unfold reqb. destruct (Req_EM_T (A / q 0%nat ^ 2) 0); [lra|].
  eexists; split; [reflexivity|]. intros i. f_equal.
  replace ((B / q 0%nat) ^ 2 - 4 * (A / q 0%nat ^ 2) * - CT) with ((B ^ 2 + 4 * A * CT) / (q 0%nat) ^ 2) by (field; lra).
  rewrite sqrt_div_alt by exact P2. rewrite sqrt_pow2 by lra. set (s := sqrt (B ^ 2 + 4 * A * CT)).
  assert (Es : s * s = B ^ 2 + 4 * A * CT) by (apply sqrt_sqrt; lra). assert (Ps : 0 <= s) by apply sqrt_pos.
  replace CT with ((s * s - B ^ 2) / (4 * A)) by (rewrite Es; field; lra). field. repeat split; lra.
Qed.
Lemma solvable_equilibrium_batch m n K z q CT C : (0 < n)%nat -> selectivities n K -> mono_or_divalent n z -> 0 < m -> solvable m n K z q CT ->
  ((exists i, (i < n)%nat /\ z i = 2%nat) -> m <= rsum n (fun i => if Nat.eqb (z i) 2 then q i / K i else 0)) ->
  calc_Ceq_batch n K z q CT = Some C ->
  in_equilibrium n K z q C /\ rsum n C = CT /\ forall i, C i = calc_Ceq n K z q CT i.
Proof.
  intros Hn HK Hz Hm S Ca EC. destruct (batch_Ceq_column m n K z CT q Hm S Ca) as (C' & E' & EQ).
  assert (C' = C) by congruence. subst C'. destruct (solvable_equilibrium m n K z q CT Hn HK Hz Hm S) as (E & T).
  split; [|split; [rewrite (rsum_ext n C _ (fun i _ => EQ i)); exact T|exact EQ]].
  destruct E as [(H1 & H2)|(H1 & H2)]; [left|right]; (split; [exact H1|]).
  - intros i Hi1 Hi2. rewrite !EQ. apply H2; assumption.
  - intros i j Hi Hj. rewrite !EQ. apply H2; assumption.
Qed.

Section Eq.
Context {X I : Type}.
Variables (idx : list I) (co : I -> X -> R) (D : R -> Prop).
Variables (n : nat) (K : nat -> R) (val : nat -> nat) (q : nat -> R -> X -> R) (CT : R -> X -> R) (t : R) (x : X).
Hypothesis Hn : (0 < n)%nat.
Hypothesis HK : selectivities n K.
Hypothesis Hq : forall i, (i < n)%nat -> tame idx co D (q i) t x.
Hypothesis HCT : tame idx co D CT t x.
Variable m : R.
Hypothesis Hm : 0 < m.
Hypothesis Rq : solvable m n K val (fun i => q i t x) (CT t x).

Lemma tame_masked mask : tame idx co D (fun s y => masked_sum n mask (fun i => q i s y / K i)) t x.
Proof.
  unfold masked_sum. apply (tame_rsum idx co D n (fun i s y => if mask i then q i s y / K i else 0)).
  intros i Hi. destruct (mask i); [|apply tame_const].
  apply (tame_div_const idx co D (K i) (q i)). apply Hq, Hi.
Qed.
Lemma tame_Ceq i : (i < n)%nat ->
  tame idx co D (fun s y => calc_Ceq n K val (fun i => q i s y) (CT s y) i) t x.
Proof.
  intros Hi. destruct Rq as (QM & QD). assert (T0 := Hq 0 ltac:(lia)).
  unfold calc_Ceq. destruct (has_divalent n val) eqn:HD.
  - apply has_divalent_exists in HD. specialize (QD HD). clear QM. cbv zeta in QD. destruct QD as (Q0 & QB & QC).
    assert (P0 : 0 < q 0%nat t x) by lra. assert (P2 : 0 < q 0%nat t x ^ 2) by (apply pow_lt, P0).
    set (B := q 0%nat t x + masked_sum n (mv_idx val) (fun i => q i t x / K i)). set (A := masked_sum n (dv_idx val) (fun i => q i t x / K i)).
    change (m <= B) in QB. change (m <= B ^ 2 + 4 * A * CT t x) in QC.
    assert (Taa : tame idx co D (fun s y => eq_aa n K val (fun i => q i s y)) t x).
    { unfold eq_aa. apply (tame_div idx co D _ (fun s y => q 0%nat s y ^ 2)); [lra| |].
      - apply (tame_masked (dv_idx val)).
      - apply (tame_pow idx co D (q 0%nat)), T0. }
    assert (Tbb : tame idx co D (fun s y => eq_bb n K val (fun i => q i s y)) t x).
    { unfold eq_bb. apply (tame_plus idx co D _ (fun _ _ => 1)); [|apply tame_const].
      apply (tame_div idx co D _ (q 0%nat)); [lra| |exact T0]. apply (tame_masked (mv_idx val)). }
    assert (Bb : eq_bb n K val (fun i => q i t x) = B / q 0%nat t x) by (unfold eq_bb, B; field; lra).
    assert (Aa : eq_aa n K val (fun i => q i t x) = A / q 0%nat t x ^ 2) by reflexivity.
    assert (Tcc : tame idx co D (fun s y => Cc_column n K val (fun i => q i s y) (CT s y)) t x).
    { unfold Cc_column. cbv zeta.
      assert (DP : 0 < eq_bb n K val (fun i => q i t x) ^ 2 - 4 * eq_aa n K val (fun i => q i t x) * - CT t x).
      { rewrite Bb, Aa. replace ((B / q 0%nat t x) ^ 2 - 4 * (A / q 0%nat t x ^ 2) * - CT t x) with ((B ^ 2 + 4 * A * CT t x) / q 0%nat t x ^ 2) by (field; lra).
        apply Rdiv_lt_0_compat; lra. }
      assert (BP : 0 < eq_bb n K val (fun i => q i t x)) by (rewrite Bb; apply Rdiv_lt_0_compat; lra).
      apply (tame_div idx co D (fun s y => 2 * - CT s y)
        (fun s y => - eq_bb n K val (fun i => q i s y) -
           sqrt (eq_bb n K val (fun i => q i s y) ^ 2 - 4 * eq_aa n K val (fun i => q i s y) * - CT s y))).
      - assert (S0 := sqrt_pos (eq_bb n K val (fun i => q i t x) ^ 2 - 4 * eq_aa n K val (fun i => q i t x) * - CT t x)). lra.
      - apply (tame_scal idx co D 2 (fun s y => - CT s y)), (tame_opp idx co D CT), HCT.
      - apply (tame_minus idx co D (fun s y => - eq_bb n K val (fun i => q i s y))).
        + apply (tame_opp idx co D (fun s y => eq_bb n K val (fun i => q i s y))), Tbb.
        + apply (tame_sqrt idx co D (fun s y => eq_bb n K val (fun i => q i s y) ^ 2 - 4 * eq_aa n K val (fun i => q i s y) * - CT s y));
            [exact DP|].
          apply (tame_minus idx co D (fun s y => eq_bb n K val (fun i => q i s y) ^ 2)).
          * apply (tame_pow idx co D (fun s y => eq_bb n K val (fun i => q i s y))), Tbb.
          * apply (tame_mult idx co D (fun s y => 4 * eq_aa n K val (fun i => q i s y)) (fun s y => - CT s y)).
            -- apply (tame_scal idx co D 4 (fun s y => eq_aa n K val (fun i => q i s y))), Taa.
            -- apply (tame_opp idx co D CT), HCT. }
    unfold Ceq_dv, mass_action. destruct (Nat.eqb i 0); [exact Tcc|].
    apply (tame_mult idx co D (fun s y => q i s y / K i)).
    + apply (tame_div_const idx co D (K i) (q i)), Hq, Hi.
    + apply (tame_pow idx co D (fun s y => Cc_column n K val (fun i => q i s y) (CT s y) / q 0%nat s y)).
      apply (tame_div idx co D _ (q 0%nat)); [lra|exact Tcc|exact T0].
  - unfold Ceq_mv.
    apply (tame_div idx co D (fun s y => q i s y * CT s y) (fun s y => rsum n (fun j => alpha K i j * q j s y))).
    + rewrite (rsum_ext n _ (fun j => K i * (q j t x / K j))).
      * rewrite rsum_scal. assert (PS : 0 < rsum n (fun j => q j t x / K j)).
        { assert (m <= rsum n (fun j => q j t x / K j)); [|lra]. apply QM. intros j Hj E.
          enough (has_divalent n val = true) by congruence. apply has_divalent_exists. exists j. split; assumption. }
        assert (0 < K i * rsum n (fun j => q j t x / K j)) by (apply Rmult_lt_0_compat; [apply HK, Hi|exact PS]). lra.
      * intros j Hj. unfold alpha. assert (0 < K j) by (apply HK, Hj). field. lra.
    + apply (tame_mult idx co D (q i) CT); [apply Hq, Hi|exact HCT].
    + apply (tame_rsum idx co D n (fun j s y => alpha K i j * q j s y)). intros j Hj.
      apply (tame_scal idx co D _ (q j)), Hq, Hj.
Qed.
End Eq.

(** Entries of the state that matter: all but the liquid at the inlet. *)
Definition entries (nr n nz : nat) : list (nat * nat * nat) :=
  filter (fun p => negb (Nat.eqb (fst (fst p)) 0 && Nat.eqb (snd p) 0))
    (list_prod (list_prod (seq 0 (nr + 1)) (seq 0 n)) (seq 0 nz)).
Definition entry_at (p : nat * nat * nat) (u : nat -> nat -> nat -> R) : R := u (fst (fst p)) (snd (fst p)) (snd p).
Lemma in_entries nr n nz r i z : (r <= nr)%nat -> (i < n)%nat -> (z < nz)%nat -> (r = 0%nat -> z <> 0%nat) ->
  In (r, i, z) (entries nr n nz).
Proof.
  intros Hr Hi Hz N. unfold entries. apply filter_In. split.
  - repeat apply in_prod; apply in_seq; lia.
  - simpl. destruct (Nat.eqb_spec r 0) as [E|E]; [|reflexivity].
    destruct (Nat.eqb_spec z 0) as [E2|E2]; [exfalso; exact (N E E2)|reflexivity].
Qed.
Lemma entries_in nr n nz p : In p (entries nr n nz) ->
  (fst (fst p) <= nr)%nat /\ (snd (fst p) < n)%nat /\ (snd p < nz)%nat.
Proof.
  intros H. apply filter_In in H as (H & _). destruct p as ((r, i), z).
  apply in_prod_iff in H as (H & Hz). apply in_prod_iff in H as (Hr & Hi).
  apply in_seq in Hr. apply in_seq in Hi. apply in_seq in Hz. simpl. lia.
Qed.

Section Column.
Variables (psdm : bool) (c : column) (op : operators) (th : R) (D : R -> Prop) (Cin : R -> nat -> R) (t : R) (u : state).
Hypothesis Hn : (0 < NION c)%nat.
Hypothesis Hr : (1 <= nr c)%nat.
Hypothesis HK : selectivities (NION c) (Kxc c).
Hypothesis HC : forall i, (i < NION c)%nat ->
  forall t0, t0 = t \/ D t0 -> forall e, 0 < e -> exists d, 0 < d /\ forall s, D s -> Rabs (s - t0) < d -> Rabs (Cin s i - Cin t0 i) < e.
Variable mg : R.
Hypothesis Hmg : 0 < mg.
Hypothesis HQ : in_use_by mg psdm (theta psdm c) (nr c) (NION c) (nz c) (Kxc c) (val c) (Cin t) u.
Notation E := (entries (nr c) (NION c) (nz c)).
Notation Tm F := (tame E entry_at D F t u).

Lemma tame_entry r i z : (r <= nr c)%nat -> (i < NION c)%nat -> (z < nz c)%nat -> (r = 0%nat -> z <> 0%nat) ->
  Tm (fun _ v => v r i z).
Proof. intros. apply (tame_coord E entry_at D (r, i, z)). apply in_entries; assumption. Qed.
Lemma tame_liq i z : (i < NION c)%nat -> (z < nz c)%nat -> Tm (fun s v => liq (Cin s) v i z).
Proof.
  intros Hi Hz. unfold liq. destruct (Nat.eqb_spec z 0) as [E0|E0].
  - apply tame_time, HC, Hi.
  - apply tame_entry; try assumption; [lia|intros _; exact E0].
Qed.
Lemma tame_CTz z : (z < nz c)%nat -> Tm (fun s v => CTz c (Cin s) v z).
Proof.
  intros Hz. unfold CTz. apply (tame_rsum E entry_at D (NION c) (fun i s v => liq (Cin s) v i z)).
  intros i Hi. apply tame_liq; assumption.
Qed.
Lemma tame_presat (f : nat -> R -> state -> R) i : (i < NION c)%nat -> (forall i, (i < NION c)%nat -> Tm (f i)) ->
  Tm (fun s v => implicit_presat c (fun i => f i s v) i).
Proof.
  intros Hi Hf. unfold implicit_presat. destruct (Nat.eqb i 0); [|apply Hf, Hi].
  apply (tame_opp E entry_at D (fun s v => rsum (NION c - 1) (fun k => f (S k) s v))).
  apply (tame_rsum E entry_at D (NION c - 1) (fun k => f (S k))). intros k Hk. apply Hf. lia.
Qed.
Lemma tame_eq r i z : (1 <= r <= nr c)%nat -> (psdm = true \/ r = nr c) -> (i < NION c)%nat -> (z < nz c)%nat ->
  Tm (fun s v => calc_Ceq (NION c) (Kxc c) (val c) (fun i => v r i z / theta psdm c) (CTz c (Cin s) v z) i).
Proof.
  intros Hr1 Hp Hi Hz.
  apply (tame_Ceq E entry_at D (NION c) (Kxc c) (val c) (fun i _ v => v r i z / theta psdm c)
    (fun s v => CTz c (Cin s) v z) t u) with (m := mg); try assumption.
  - intros j Hj. apply (tame_div_const E entry_at D _ (fun _ v => v r j z)). apply tame_entry; try assumption; lia.
  - apply tame_CTz, Hz.
  - exact (HQ r z Hr1 Hp Hz).
Qed.
Lemma tame_flux i z : (i < NION c)%nat -> (z < nz c)%nat ->
  Tm (fun s v => flux c (Cin s) v (fun i => v (nr c) i z / theta psdm c) i z).
Proof.
  intros Hi Hz. unfold flux.
  apply (tame_presat (fun i s v => - kL c i * (liq (Cin s) v i z -
    calc_Ceq (NION c) (Kxc c) (val c) (fun i => v (nr c) i z / theta psdm c) (CTz c (Cin s) v z) i)) i Hi).
  intros j Hj. apply (tame_scal E entry_at D _ (fun s v => liq (Cin s) v j z -
    calc_Ceq (NION c) (Kxc c) (val c) (fun i => v (nr c) i z / theta psdm c) (CTz c (Cin s) v z) j)).
  apply (tame_minus E entry_at D (fun s v => liq (Cin s) v j z)); [apply tame_liq; assumption|].
  apply tame_eq; try assumption; [lia|right; reflexivity].
Qed.
Lemma tame_assemble (J : R -> state -> nat -> nat -> R) (dq : R -> state -> nat -> nat -> nat -> R) r i z :
  (r <= nr c)%nat -> (i < NION c)%nat -> (z < nz c)%nat ->
  Tm (fun s v => J s v i z) -> (forall m, (m < nr c)%nat -> Tm (fun s v => dq s v m i z)) ->
  Tm (fun s v => assemble c op th (Cin s) v (J s v) (dq s v) r i z).
Proof.
  intros Hr1 Hi Hz TJ Tq. unfold assemble. destruct r as [|k].
  - destruct (Nat.eqb z 0); [apply tame_const|]. unfold dC.
    apply (tame_ext E entry_at D (fun s v => (th / EBED c) *
      (- vel c / Lbed c * rsum (nz c) (fun j => Az op z j * liq (Cin s) v i j) + ((1 - EBED c) * 3 / rb c) * J s v i z))).
    { intros s v. unfold Rdiv. ring. }
    apply (tame_scal E entry_at D (th / EBED c) (fun s v => - vel c / Lbed c * rsum (nz c) (fun j => Az op z j * liq (Cin s) v i j) + ((1 - EBED c) * 3 / rb c) * J s v i z)).
    apply (tame_plus E entry_at D (fun s v => - vel c / Lbed c * rsum (nz c) (fun j => Az op z j * liq (Cin s) v i j))
       (fun s v => ((1 - EBED c) * 3 / rb c) * J s v i z)).
    + apply (tame_scal E entry_at D _ (fun s v => rsum (nz c) (fun j => Az op z j * liq (Cin s) v i j))).
      apply (tame_rsum E entry_at D (nz c) (fun j s v => Az op z j * liq (Cin s) v i j)). intros j Hj.
      apply (tame_scal E entry_at D _ (fun s v => liq (Cin s) v i j)). apply tame_liq; assumption.
    + apply (tame_scal E entry_at D _ (fun s v => J s v i z)), TJ.
  - destruct (Nat.eqb k (nr c - 1)).
    + apply (tame_div_const E entry_at D _ (fun s v => - th / rb c * J s v i z - rsum (nr c - 1) (fun m => Wr op m * dq s v m i z))).
      apply (tame_minus E entry_at D (fun s v => - th / rb c * J s v i z) (fun s v => rsum (nr c - 1) (fun m => Wr op m * dq s v m i z))).
      * apply (tame_scal E entry_at D _ (fun s v => J s v i z)), TJ.
      * apply (tame_rsum E entry_at D (nr c - 1) (fun m s v => Wr op m * dq s v m i z)). intros m Hm.
        apply (tame_scal E entry_at D _ (fun s v => dq s v m i z)). apply Tq. lia.
    + apply Tq. lia.
Qed.
Lemma tame_Br r i z : (i < NION c)%nat -> (z < nz c)%nat ->
  Tm (fun _ v => rsum (nr c) (fun m => Br op r m * v (S m) i z)).
Proof.
  intros Hi Hz. apply (tame_rsum E entry_at D (nr c) (fun m _ v => Br op r m * v (S m) i z)). intros m Hm.
  apply (tame_scal E entry_at D _ (fun _ v => v (S m) i z)). apply tame_entry; try assumption; lia.
Qed.
Lemma tame_rhs r i z : (r <= nr c)%nat -> (i < NION c)%nat -> (z < nz c)%nat ->
  Tm (fun s v => rhs psdm c op th (Cin s) v r i z).
Proof.
  intros Hr1 Hi Hz. assert (TF := tame_flux). assert (TE := tame_eq).
  unfold rhs. destruct psdm; unfold theta in TF, TE.
  - apply (tame_assemble (fun s v => psdm_J c (Cin s) v) (fun s v => psdm_dY c op th (Cin s) v)); try assumption.
    + unfold psdm_J. apply TF; assumption.
    + intros m Hm. unfold psdm_dY.
      apply (tame_presat (fun i s v => th *
        (EPOR c * (Dp c i - Ds c i) * rsum (nr c) (fun k => Br op m k * psdm_Cpore c (Cin s) v k i z)
         + Ds c i * rsum (nr c) (fun k => Br op m k * v (S k) i z)) / rb c ^ 2) i Hi).
      intros j Hj. apply (tame_div_const E entry_at D _ (fun s v => th *
        (EPOR c * (Dp c j - Ds c j) * rsum (nr c) (fun k => Br op m k * psdm_Cpore c (Cin s) v k j z)
         + Ds c j * rsum (nr c) (fun k => Br op m k * v (S k) j z)))).
      apply (tame_scal E entry_at D th (fun s v =>
        EPOR c * (Dp c j - Ds c j) * rsum (nr c) (fun k => Br op m k * psdm_Cpore c (Cin s) v k j z)
         + Ds c j * rsum (nr c) (fun k => Br op m k * v (S k) j z))).
      apply (tame_plus E entry_at D
        (fun s v => EPOR c * (Dp c j - Ds c j) * rsum (nr c) (fun k => Br op m k * psdm_Cpore c (Cin s) v k j z))
        (fun s v => Ds c j * rsum (nr c) (fun k => Br op m k * v (S k) j z))).
      * apply (tame_scal E entry_at D _ (fun s v => rsum (nr c) (fun k => Br op m k * psdm_Cpore c (Cin s) v k j z))).
        apply (tame_rsum E entry_at D (nr c) (fun k s v => Br op m k * psdm_Cpore c (Cin s) v k j z)). intros k Hk.
        apply (tame_scal E entry_at D _ (fun s v => psdm_Cpore c (Cin s) v k j z)).
        unfold psdm_Cpore, psdm_q. apply (TE (S k)); try assumption; [lia|left; reflexivity].
      * apply (tame_scal E entry_at D _ (fun _ v => rsum (nr c) (fun k => Br op m k * v (S k) j z))).
        apply tame_Br; assumption.
  - apply (tame_assemble (fun s v => hsdm_J c (Cin s) v) (fun s v => hsdm_dq c op th v)); try assumption.
    + unfold hsdm_J.
      apply (tame_ext E entry_at D (fun s v => flux c (Cin s) v (fun i => v (nr c) i z / 1) i z)); [|apply TF; assumption].
      intros s v. unfold flux, implicit_presat. 
      assert (Q : forall (f g : nat -> R) k CT, (forall i, f i = g i) ->
        calc_Ceq (NION c) (Kxc c) (val c) f CT k = calc_Ceq (NION c) (Kxc c) (val c) g CT k).
      { intros f g k CT Hfg. unfold calc_Ceq, Ceq_dv, Ceq_mv, mass_action, Cc_column, eq_aa, eq_bb, masked_sum.
        assert (R1 : forall m : nat -> bool, rsum (NION c) (fun i => if m i then f i / Kxc c i else 0) = rsum (NION c) (fun i => if m i then g i / Kxc c i else 0))
          by (intros m; apply rsum_ext; intros; rewrite Hfg; reflexivity).
        assert (R2 : rsum (NION c) (fun j => alpha (Kxc c) k j * f j) = rsum (NION c) (fun j => alpha (Kxc c) k j * g j))
          by (apply rsum_ext; intros; rewrite Hfg; reflexivity).
        destruct (has_divalent (NION c) (val c)); cbv beta; [rewrite !R1, !Hfg|rewrite R2, Hfg]; reflexivity. }
      assert (Q1 : forall k, v (nr c) k z / 1 = v (nr c) k z) by (intros; field).
      destruct (Nat.eqb i 0).
      * apply f_equal. apply rsum_ext. intros k _. rewrite (Q _ _ (S k) (CTz c (Cin s) v z) Q1). reflexivity.
      * rewrite (Q _ _ i (CTz c (Cin s) v z) Q1). reflexivity.
    + intros m Hm. unfold hsdm_dq.
      apply (tame_presat (fun i _ v => Ds c i * th / rb c ^ 2 * rsum (nr c) (fun k => Br op m k * v (S k) i z)) i Hi).
      intros j Hj. apply (tame_scal E entry_at D _ (fun _ v => rsum (nr c) (fun k => Br op m k * v (S k) j z))).
      apply tame_Br; assumption.
Qed.
End Column.
