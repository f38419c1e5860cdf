(** C158 — a run is determined by its inputs; C159 — a run continued from its saved state. *)
From Coq Require Import Reals List Arith Bool Lra Lia Classical.
From Verif Require Import Lib_Py Lib_Sum Lib_Traj Lib_Tame M_Colloc M_IxEq M_IxColumn S_Colloc S_IxEq S_IxColumn S_Unique P_IxUnique Props_IxColumn.
Import ListNotations.
Open Scope R_scope.

(** ** The ion-exchange columns *)
Lemma column_unique psdm c op th (a b : R) (Cin : R -> nat -> R) (y1 y2 : R -> state) :
  (0 < NION c)%nat -> (1 <= nr c)%nat -> selectivities (NION c) (Kxc c) ->
  (forall i, (i < NION c)%nat -> continuous_between a b (fun T => Cin T i)) ->
  (forall y, y = y1 \/ y = y2 -> forall r i z, (r <= nr c)%nat -> (i < NION c)%nat -> (z < nz c)%nat ->
     evolves a b (fun T => y T r i z) (fun T => rhs psdm c op th (Cin T) (y T) r i z)) ->
  same_but_inlet (nr c) (NION c) (nz c) (y1 a) (y2 a) ->
  (forall T, a <= T <= b -> in_normal_use psdm (theta psdm c) (nr c) (NION c) (nz c) (Kxc c) (val c) (Cin T) (y1 T)) ->
  forall T, a <= T <= b -> same_but_inlet (nr c) (NION c) (nz c) (y1 T) (y2 T).
Proof.
  intros Hn Hr HK HC HY H0 HP T HT.
  assert (U := unique (entries (nr c) (NION c) (nz c)) entry_at a b
    (fun p T u => rhs psdm c op th (Cin T) u (fst (fst p)) (snd (fst p)) (snd p)) y1 y2).
  assert (S0 : forall t, (forall p, In p (entries (nr c) (NION c) (nz c)) -> entry_at p (y1 t) = entry_at p (y2 t)) ->
    same_but_inlet (nr c) (NION c) (nz c) (y1 t) (y2 t)).
  { intros t H r i z H1 H2 H3 N. apply (H (r, i, z)). apply in_entries; try assumption.
    intros E E2. apply N. split; assumption. }
  apply S0. apply U; [| | | |exact HT].
  - intros p Hp. apply entries_in in Hp as (A1 & A2 & A3). apply (HY y1); try assumption. left; reflexivity.
  - intros p Hp. apply entries_in in Hp as (A1 & A2 & A3). apply (HY y2); try assumption. right; reflexivity.
  - intros t Ht _ p Hp. apply entries_in in Hp as (A1 & A2 & A3).
    destruct (HP t Ht) as (mg & P1 & P2).
    apply (tame_rhs psdm c op th (fun s => a <= s <= b) Cin t (y1 t)) with (mg := mg); try assumption.
    intros i Hi t0 [-> | Ht0]; [apply (HC i Hi t Ht)|apply (HC i Hi t0 Ht0)].
  - intros ((r, i), z) Hp. assert (Q := Hp). apply entries_in in Hp as (A1 & A2 & A3). simpl in A1, A2, A3.
    change (y1 a r i z = y2 a r i z). apply H0; try assumption. intros (-> & ->).
    apply filter_In in Q as (_ & Q). discriminate Q.
Qed.

(** The inlet entry of the state keeps its first value. *)
Lemma rhs_inlet psdm c op th Cin u i : rhs psdm c op th Cin u 0%nat i 0%nat = 0.
Proof. unfold rhs, diffun_psdm, diffun_hsdm, assemble. destruct psdm; reflexivity. Qed.

(** Two exact runs with the same sheet and influent that start alike are alike at all times,
    when in one of them the exchange equilibrium keeps a solution wherever it is computed. *)
Theorem C158_column_partial : forall (psdm : bool) c op th Cin Tf y1 y2,
  (0 < NION c)%nat -> (1 <= nr c)%nat -> selectivities (NION c) (Kxc c) ->
  (forall i, (i < NION c)%nat -> continuous_between 0 Tf (fun T => Cin T i)) ->
  is_trajectory (nr c) (NION c) (nz c) (fun T u => rhs psdm c op th (Cin T) u) Tf y1 ->
  is_trajectory (nr c) (NION c) (nz c) (fun T u => rhs psdm c op th (Cin T) u) Tf y2 ->
  same_state (nr c) (NION c) (nz c) (y1 0) (y2 0) ->
  (forall T, 0 <= T <= Tf -> in_normal_use psdm (if psdm then 1 - EPOR c else 1) (nr c) (NION c) (nz c) (Kxc c) (val c) (Cin T) (y1 T)) ->
  forall T, 0 <= T <= Tf -> same_state (nr c) (NION c) (nz c) (y1 T) (y2 T).
Proof.
  intros psdm c op th Cin Tf y1 y2 Hn Hr HK HC H1 H2 H0 HP T HT r i z Ar Ai Az0.
  destruct (Nat.eq_dec r 0) as [->|Nr]; [destruct (Nat.eq_dec z 0) as [->|Nz]|].
  - assert (A := evolves_zero 0 Tf _ _ (H1 0%nat i 0%nat Ar Ai Az0)). assert (B := evolves_zero 0 Tf _ _ (H2 0%nat i 0%nat Ar Ai Az0)).
    cbv beta in A, B. rewrite A, B; try assumption; [apply H0; assumption| |]; intros; apply rhs_inlet.
  - apply (column_unique psdm c op th 0 Tf Cin y1 y2); try assumption.
    + intros y [-> | ->]; assumption.
    + intros r' i' z' B1 B2 B3 _. apply H0; assumption.
    + lia.
  - apply (column_unique psdm c op th 0 Tf Cin y1 y2); try assumption.
    + intros y [-> | ->]; assumption.
    + intros r' i' z' B1 B2 B3 _. apply H0; assumption.
    + lia.
Qed.

(** The equilibrium stays solvable for some time. *)
Lemma stays_positive a b (F : R -> R) m : 0 < m -> m <= F a ->
  tame (@nil unit) (fun _ (_ : unit) => 0) (fun s => a <= s <= b) (fun s _ => F s) a tt ->
  exists d, 0 < d /\ forall T, a <= T <= b -> T - a < d -> m / 2 <= F T.
Proof.
  intros Hm HF ((C & _) & _). destruct (C (m / 2) ltac:(lra)) as (d & Hd & Q). exists d. split; [exact Hd|].
  intros T HT HD. specialize (Q T tt HT ltac:(rewrite Rabs_right; lra) ltac:(cbn; lra)). apply Rabs_def2 in Q. lra.
Qed.
Lemma stays_solvable a b n K val (q : R -> nat -> R) (CT : R -> R) m : (0 < n)%nat -> 0 < m ->
  (forall i, (i < n)%nat -> continuous_between a b (fun T => q T i)) -> continuous_between a b CT -> a <= b ->
  solvable m n K val (q a) (CT a) ->
  exists d, 0 < d /\ forall T, a <= T <= b -> T - a < d -> solvable (m / 2) n K val (q T) (CT T).
Proof.
  intros Hn Hm Hq HC Hab (S1 & S2). set (idx := @nil unit). set (co := fun (_ : unit) (_ : unit) => 0). set (D := fun s => a <= s <= b).
  assert (TT : forall f, continuous_between a b f -> tame idx co D (fun s _ => f s) a tt).
  { intros f Hf. apply tame_time. intros t0 [-> | Ht0]; apply Hf; [lra|exact Ht0]. }
  assert (Tq := fun i Hi => TT _ (Hq i Hi)). assert (TC := TT _ HC).
  assert (TM : forall mask : nat -> bool, tame idx co D (fun s _ => rsum n (fun i => if mask i then q s i / K i else 0)) a tt).
  { intros mask. apply (tame_rsum idx co D n (fun i s _ => if mask i then q s i / K i else 0)). intros i Hi.
    destruct (mask i); [|apply tame_const]. apply (tame_div_const idx co D (K i) (fun s _ => q s i)), Tq, Hi. }
  destruct (classic (exists i, (i < n)%nat /\ val i = 2%nat)) as [DV|DV].
  - specialize (S2 DV). cbv zeta in S2. destruct S2 as (A0 & A1 & A2).
    assert (TB : tame idx co D (fun s _ => q s 0%nat + rsum n (fun i => if Nat.eqb (val i) 1 && negb (Nat.eqb i 0) then q s i / K i else 0)) a tt).
    { apply (tame_plus idx co D (fun s _ => q s 0%nat)); [apply Tq, Hn|]. apply (TM (fun i => Nat.eqb (val i) 1 && negb (Nat.eqb i 0))%bool). }
    destruct (stays_positive a b (fun s => q s 0%nat) m Hm A0 (Tq 0%nat Hn)) as (d0 & P0 & Q0).
    destruct (stays_positive a b _ m Hm A1 TB) as (d1 & P1 & Q1).
    destruct (stays_positive a b (fun s => (q s 0%nat + rsum n (fun i => if Nat.eqb (val i) 1 && negb (Nat.eqb i 0) then q s i / K i else 0)) ^ 2
      + 4 * rsum n (fun i => if Nat.eqb (val i) 2 then q s i / K i else 0) * CT s) m Hm A2) as (d2 & P2 & Q2).
    { apply (tame_plus idx co D (fun s _ => (q s 0%nat + rsum n (fun i => if Nat.eqb (val i) 1 && negb (Nat.eqb i 0) then q s i / K i else 0)) ^ 2)).
      - apply (tame_pow idx co D _ 2%nat) in TB. exact TB.
      - apply (tame_mult idx co D (fun s _ => 4 * rsum n (fun i => if Nat.eqb (val i) 2 then q s i / K i else 0)) (fun s _ => CT s)); [|exact TC].
        apply (tame_scal idx co D 4 (fun s _ => rsum n (fun i => if Nat.eqb (val i) 2 then q s i / K i else 0))). apply (TM (fun i => Nat.eqb (val i) 2)). }
    exists (Rmin d0 (Rmin d1 d2)). assert (M1 := Rmin_l d0 (Rmin d1 d2)). assert (M2 := Rmin_r d0 (Rmin d1 d2)). assert (M3 := Rmin_l d1 d2). assert (M4 := Rmin_r d1 d2).
    split; [repeat apply Rmin_pos; assumption|]. intros T HT HD. split; [intros N; destruct DV as (i & Hi & E); destruct (N i Hi E)|].
    intros _. cbv zeta. split; [apply Q0; [exact HT|lra]|]. split; [apply Q1; [exact HT|lra]|apply Q2; [exact HT|lra]].
  - assert (NV : forall i, (i < n)%nat -> val i <> 2%nat) by (intros i Hi E; apply DV; exists i; split; assumption). specialize (S1 NV).
    assert (TS := TM (fun _ => true)). cbv beta iota in TS.
    destruct (stays_positive a b (fun s => rsum n (fun i => q s i / K i)) m Hm S1 TS) as (d & P & Q).
    exists d. split; [exact P|]. intros T HT HD. split; [intros _; apply Q; assumption|intros X; contradiction].
Qed.
Lemma evolves_between a b f f' : evolves a b f f' -> continuous_between a b f.
Proof.
  intros (C & _) t Ht e He. destruct (C t Ht e He) as (d & Hd & Q). exists d. split; [exact Hd|]. intros s Hs HD.
  destruct (Req_dec s t) as [->|N]; [rewrite Rminus_eq_0, Rabs_R0; exact He|].
  apply (Q s). split; [split; [exact I|intros E; apply N; symmetry; exact E]|exact HD].
Qed.
Lemma between_rsum a b n (f : R -> nat -> R) : a <= b -> (forall i, (i < n)%nat -> continuous_between a b (fun T => f T i)) -> continuous_between a b (fun T => rsum n (f T)).
Proof.
  intros Hab H t Ht. set (D := fun s => a <= s <= b).
  assert (T : tame (@nil unit) (fun _ (_ : unit) => 0) D (fun s _ => rsum n (f s)) t tt).
  { apply (tame_rsum (@nil unit) (fun _ (_ : unit) => 0) D n (fun i s _ => f s i)). intros i Hi. apply tame_time.
    intros t0 [-> | Ht0]; apply (H i Hi); assumption. }
  destruct T as ((C & _) & _). intros e He. destruct (C e He) as (d & Hd & Q). exists d. split; [exact Hd|].
  intros s Hs HD. apply (Q s tt Hs HD). cbn. lra.
Qed.
Lemma use_stays psdm c op th Cin Tf y m : (0 < NION c)%nat -> 0 < m -> 0 <= Tf ->
  (forall i, (i < NION c)%nat -> continuous_between 0 Tf (fun T => Cin T i)) ->
  is_trajectory (nr c) (NION c) (nz c) (fun T u => rhs psdm c op th (Cin T) u) Tf y ->
  in_use_by m psdm (theta psdm c) (nr c) (NION c) (nz c) (Kxc c) (val c) (Cin 0) (y 0) ->
  exists d, 0 < d /\ forall T, 0 <= T <= Tf -> T < d ->
    in_use_by (m / 2) psdm (theta psdm c) (nr c) (NION c) (nz c) (Kxc c) (val c) (Cin T) (y T).
Proof.
  intros Hn Hm HTf HC TR U.
  assert (W : forall r z, (1 <= r <= nr c)%nat -> (psdm = true \/ r = nr c) -> (z < nz c)%nat -> exists d, 0 < d /\ forall T, 0 <= T <= Tf -> T - 0 < d ->
    solvable (m / 2) (NION c) (Kxc c) (val c) (fun i => y T r i z / theta psdm c) (rsum (NION c) (fun i => if Nat.eqb z 0 then Cin T i else y T 0%nat i z))).
  { intros r z H1 H2 H3. apply (stays_solvable 0 Tf (NION c) (Kxc c) (val c) (fun T i => y T r i z / theta psdm c)
      (fun T => rsum (NION c) (fun i => if Nat.eqb z 0 then Cin T i else y T 0%nat i z)) m Hn Hm); [| |exact HTf|apply U; assumption].
    - intros i Hi t Ht e He. destruct (evolves_between _ _ _ _ (TR r i z ltac:(lia) Hi H3) t Ht (e / (Rabs (/ theta psdm c) + 1))) as (d & Hd & Q).
      + apply Rdiv_lt_0_compat; [exact He|]. assert (X := Rabs_pos (/ theta psdm c)). lra.
      + exists d. split; [exact Hd|]. intros s Hs HD. specialize (Q s Hs HD). unfold Rdiv at 1 2. rewrite <- Rmult_minus_distr_r, Rabs_mult.
        assert (X := Rabs_pos (/ theta psdm c)).
        apply Rle_lt_trans with (Rabs (y s r i z - y t r i z) * (Rabs (/ theta psdm c) + 1)).
        * apply Rmult_le_compat_l; [apply Rabs_pos|lra].
        * apply Rlt_le_trans with (e / (Rabs (/ theta psdm c) + 1) * (Rabs (/ theta psdm c) + 1)); [apply Rmult_lt_compat_r; [lra|exact Q]|]. right. field. lra.
    - apply between_rsum; [exact HTf|]. intros i Hi. destruct (Nat.eqb z 0); [apply HC, Hi|]. apply (evolves_between _ _ _ _ (TR 0%nat i z ltac:(lia) Hi H3)). }
  destruct (common_margin (nr c + 1) (fun r d => (1 <= r <= nr c)%nat -> (psdm = true \/ r = nr c) -> forall z, (z < nz c)%nat -> forall T, 0 <= T <= Tf -> T - 0 < d ->
    solvable (m / 2) (NION c) (Kxc c) (val c) (fun i => y T r i z / theta psdm c) (rsum (NION c) (fun i => if Nat.eqb z 0 then Cin T i else y T 0%nat i z)))) as (d & P & Q).
  - intros r d d' L Q H1 H2 z H3 T HT HD. apply Q; try assumption. lra.
  - intros r _. destruct (classic ((1 <= r <= nr c)%nat /\ (psdm = true \/ r = nr c))) as [(H1 & H2)|N]; [|exists 1; split; [lra|intros H1 H2; contradiction N; split; assumption]].
    destruct (common_margin (nz c) (fun z d => forall T, 0 <= T <= Tf -> T - 0 < d ->
      solvable (m / 2) (NION c) (Kxc c) (val c) (fun i => y T r i z / theta psdm c) (rsum (NION c) (fun i => if Nat.eqb z 0 then Cin T i else y T 0%nat i z)))) as (d & P & Q).
    + intros z d d' L Q T HT HD. apply Q; try assumption. lra.
    + intros z Hz. apply W; assumption.
    + exists d. split; [exact P|]. intros _ _. exact Q.
  - exists d. split; [exact P|]. intros T HT HD r z H1 H2 H3. apply Q; try assumption; [lia|lra].
Qed.
(** The state a fresh bed starts from is in normal use. *)
Lemma fresh_use psdm c Cin : (0 < NION c)%nat -> selectivities (NION c) (Kxc c) -> 0 < Qcap c -> 0 < theta psdm c -> (forall i, (i < NION c)%nat -> 0 <= Cin i) ->
  in_normal_use psdm (theta psdm c) (nr c) (NION c) (nz c) (Kxc c) (val c) Cin (initial_state c Cin None).
Proof.
  intros Hn HK HQ Ht HC. assert (S : 0 <= rsum (NION c) Cin) by (apply rsum_nonneg, HC). apply nonneg_use; try assumption.
  - intros z Hz. apply rsum_nonneg. intros i Hi. unfold initial_state. destruct (Nat.eqb_spec z 0); [lia|]. destruct (Nat.eqb i 0); [exact S|lra].
  - intros r z Hr _ Hz. destruct r as [|r]; [lia|]. split; [apply Rdiv_lt_0_compat; assumption|]. intros i Hi. unfold initial_state.
    destruct (Nat.eqb i 0); apply Rmult_le_pos; try lra; left; apply Rinv_0_lt_compat; exact Ht.
Qed.
Lemma solvable_ext m n K val q q' CT CT' : (0 < n)%nat -> (forall i, (i < n)%nat -> q i = q' i) -> CT = CT' -> solvable m n K val q CT -> solvable m n K val q' CT'.
Proof.
  intros Hn E <- (A & B). split.
  - intros N. rewrite (rsum_ext n _ (fun i => q i / K i)); [apply A, N|]. intros i Hi. rewrite E by exact Hi. reflexivity.
  - intros N. specialize (B N). cbv zeta in *. rewrite <- (E 0%nat Hn).
    rewrite (rsum_ext n (fun i => if Nat.eqb (val i) 2 then q' i / K i else 0) (fun i => if Nat.eqb (val i) 2 then q i / K i else 0)) by (intros i Hi; rewrite E by exact Hi; reflexivity).
    rewrite (rsum_ext n (fun i => if Nat.eqb (val i) 1 && negb (Nat.eqb i 0) then q' i / K i else 0) (fun i => if Nat.eqb (val i) 1 && negb (Nat.eqb i 0) then q i / K i else 0)) by (intros i Hi; rewrite E by exact Hi; reflexivity).
    exact B.
Qed.
Lemma use_ext m pores solid nr n nz K val Cin u v : (0 < n)%nat -> same_state nr n nz u v -> in_use_by m pores solid nr n nz K val Cin u -> in_use_by m pores solid nr n nz K val Cin v.
Proof.
  intros Hn E U r z H1 H2 H3. eapply solvable_ext; [exact Hn| | |apply U; eassumption].
  - intros i Hi. cbv beta. rewrite (E r i z) by (assumption || lia). reflexivity.
  - apply rsum_ext. intros i Hi. destruct (Nat.eqb z 0); [reflexivity|]. apply E; assumption || lia.
Qed.
Lemma trajectory_prefix nr n nz f Tf T y : T <= Tf -> is_trajectory nr n nz f Tf y -> is_trajectory nr n nz f T y.
Proof. intros H Y r i z A B C. destruct (Y r i z A B C) as (P & Q). split; intros t Ht; [apply P|apply Q]; lra. Qed.

(** So two runs of a fresh bed are alike for some time, whatever happens to signs. *)
Theorem C158_fresh_bed_partial : forall (psdm : bool) c op th Cin Tf y1 y2,
  (0 < NION c)%nat -> (1 <= nr c)%nat -> selectivities (NION c) (Kxc c) -> 0 < Qcap c -> 0 < (if psdm then 1 - EPOR c else 1) -> 0 < Tf ->
  (forall i, (i < NION c)%nat -> continuous_between 0 Tf (fun T => Cin T i)) -> (forall i, (i < NION c)%nat -> 0 <= Cin 0 i) ->
  is_trajectory (nr c) (NION c) (nz c) (fun T u => rhs psdm c op th (Cin T) u) Tf y1 ->
  is_trajectory (nr c) (NION c) (nz c) (fun T u => rhs psdm c op th (Cin T) u) Tf y2 ->
  same_state (nr c) (NION c) (nz c) (y1 0) (initial_state c (Cin 0) None) ->
  same_state (nr c) (NION c) (nz c) (y2 0) (initial_state c (Cin 0) None) ->
  exists d, 0 < d <= Tf /\ forall T, 0 <= T <= d ->
    in_normal_use psdm (if psdm then 1 - EPOR c else 1) (nr c) (NION c) (nz c) (Kxc c) (val c) (Cin T) (y1 T) /\
    same_state (nr c) (NION c) (nz c) (y1 T) (y2 T).
Proof.
  intros psdm c op th Cin Tf y1 y2 Hn Hr HK HQ Ht HT HC HI Y1 Y2 S1 S2.
  destruct (fresh_use psdm c (Cin 0) Hn HK HQ Ht HI) as (m & Hm & U).
  assert (U1 : in_use_by m psdm (theta psdm c) (nr c) (NION c) (nz c) (Kxc c) (val c) (Cin 0) (y1 0)).
  { eapply use_ext; [exact Hn| |exact U]. intros r i z A B C. symmetry. apply S1; assumption. }
  destruct (use_stays psdm c op th Cin Tf y1 m Hn Hm ltac:(lra) HC Y1 U1) as (d & Hd & Q).
  exists (Rmin (d / 2) Tf). assert (M1 := Rmin_l (d / 2) Tf). assert (M2 := Rmin_r (d / 2) Tf).
  split; [split; [apply Rmin_pos; lra|exact M2]|].
  assert (N : forall T, 0 <= T <= Rmin (d / 2) Tf -> in_normal_use psdm (theta psdm c) (nr c) (NION c) (nz c) (Kxc c) (val c) (Cin T) (y1 T)).
  { intros T HTT. exists (m / 2). split; [lra|]. apply Q; lra. }
  intros T HTT. split; [apply N, HTT|].
  apply (C158_column_partial psdm c op th Cin (Rmin (d / 2) Tf) y1 y2); try assumption.
  - intros i Hi t Htt e He. destruct (HC i Hi t ltac:(lra) e He) as (d1 & P & W). exists d1. split; [exact P|]. intros s Hs. apply W. lra.
  - eapply trajectory_prefix; eassumption.
  - eapply trajectory_prefix; eassumption.
  - intros r i z A B C. rewrite S1, S2 by assumption. reflexivity.
Qed.

(** C18 for every run: one that starts in equilibrium with its constant influent never changes. *)
Theorem C18_every_run_stays : forall legendre jacobi ocfe op (psdm : bool) c th Cin u (q : nat -> nat -> R) Tf y,
  good_roots legendre jacobi -> (0 < NION c)%nat -> (1 <= nr c)%nat -> (2 <= nz c)%nat ->
  build_operators legendre jacobi (nr c) (nz c) ocfe = Ok op ->
  selectivities (NION c) (Kxc c) -> mono_or_divalent (NION c) (val c) ->
  (forall i, (i < NION c)%nat -> 0 <= Cin i) ->
  (forall i z, (i < NION c)%nat -> (z < nz c)%nat -> u 0%nat i z = Cin i) ->
  (forall r i z, (r < nr c)%nat -> (i < NION c)%nat -> (z < nz c)%nat -> u (S r) i z = q i z) ->
  (forall z, (z < nz c)%nat ->
     resin_composition (NION c) (fun i => q i z / (if psdm then 1 - EPOR c else 1)) /\
     in_equilibrium (NION c) (Kxc c) (val c) (fun i => q i z / (if psdm then 1 - EPOR c else 1)) Cin) ->
  is_trajectory (nr c) (NION c) (nz c) (fun _ u => rhs psdm c op th Cin u) Tf y ->
  same_state (nr c) (NION c) (nz c) (y 0) u ->
  forall T, 0 <= T <= Tf -> same_state (nr c) (NION c) (nz c) (y T) u.
Proof.
  intros leg jac ocfe op psdm c th Cin u q Tf y HG HN Hr Hz Hb HK Hv HC HuL HuR Heq Hy H0 T HT.
  assert (ST : forall r i z, (r <= nr c)%nat -> (i < NION c)%nat -> (z < nz c)%nat -> rhs psdm c op th Cin u r i z = 0).
  { apply (C18_equilibrium_is_stationary leg jac ocfe op psdm c th Cin u q); try assumption.
    intros i z A B. apply HuL; [assumption|lia]. }
  assert (Hu := C18_equilibrium_history psdm c op th Cin u Tf ST).
  assert (Q := C158_column_partial psdm c op th (fun _ => Cin) Tf (fun _ => u) y HN Hr HK).
  assert (R : same_state (nr c) (NION c) (nz c) u (y T)).
  { apply (Q ltac:(intros i _ t _ e He; exists 1; split; [lra|intros; rewrite Rminus_eq_0, Rabs_R0; exact He]) Hu Hy); [| |exact HT].
    - intros r i z A B C0. symmetry. apply H0; assumption.
    - intros t _. apply nonneg_use; try assumption; [apply rsum_nonneg; assumption| |].
      + intros z Hz1. apply rsum_nonneg. intros i Hi. rewrite HuL by (assumption || lia). apply HC, Hi.
      + intros r z Hr1 _ Hz1. destruct r as [|r]; [lia|]. destruct (Heq z Hz1) as ((P1 & P2) & _).
        split; [rewrite HuR by lia; exact P1|]. intros i Hi. rewrite HuR by lia. apply P2, Hi. }
  intros r i z A B C0. symmetry. apply R; assumption.
Qed.

(** ** C159 — stopping and restarting *)
Lemma evolves_rescale Tf f f' k m a b : 0 < k -> 0 <= k * a + m -> k * b + m <= Tf ->
  evolves 0 Tf f f' -> evolves a b (fun t => f (k * t + m)) (fun t => k * f' (k * t + m)).
Proof.
  intros Hk Ha Hb (C & D).
  assert (DL : forall t, derivable_pt_lim (fun t => k * t + m) t k).
  { intros t. enough (W : derivable_pt_lim (fun t => k * t + m) t (k * 1 + 0)) by (rewrite Rmult_1_r, Rplus_0_r in W; exact W).
    apply (derivable_pt_lim_plus (fun t => k * t) (fun _ => m)); [|apply derivable_pt_lim_const].
    apply (derivable_pt_lim_scal (fun t => t)). apply derivable_pt_lim_id. }
  split; intros t Ht.
  - apply (continuity_pt_comp (fun t => k * t + m) f).
    + apply derivable_continuous_pt. exists k. apply DL.
    + apply C. nra.
  - rewrite Rmult_comm. apply (derivable_pt_lim_comp (fun t => k * t + m) f); [apply DL|]. apply D. nra.
Qed.
Lemma presat_scale c k (f g : nat -> R) i : (forall i, f i = k * g i) -> implicit_presat c f i = k * implicit_presat c g i.
Proof.
  intros H. unfold implicit_presat. destruct (Nat.eqb i 0); [|apply H].
  rewrite <- Ropp_mult_distr_r. apply f_equal. rewrite <- rsum_scal. apply rsum_ext. intros; apply H.
Qed.
(** The internal time scale multiplies every rate. *)
Lemma rhs_scale psdm c op th Cin u r i z : rhs psdm c op th Cin u r i z = th * rhs psdm c op 1 Cin u r i z.
Proof.
  assert (A : forall J dq dq1, (forall m, dq m i z = th * dq1 m i z) ->
    assemble c op th Cin u J dq r i z = th * assemble c op 1 Cin u J dq1 r i z).
  { intros J dq dq1 E. unfold assemble. destruct r as [|k].
    - destruct (Nat.eqb z 0); [ring|]. unfold dC. ring.
    - destruct (Nat.eqb k (nr c - 1)); [|apply E].
      rewrite (rsum_ext _ _ (fun m => th * (Wr op m * dq1 m i z))) by (intros; rewrite E; ring).
      rewrite rsum_scal. unfold Rdiv. ring. }
  unfold rhs, diffun_psdm, diffun_hsdm. destruct psdm; apply A; intros m.
  - unfold psdm_dY. apply presat_scale. intros j. unfold Rdiv. ring.
  - unfold hsdm_dq. apply presat_scale. intros j. unfold Rdiv. ring.
Qed.

(** A run over t1 + t2 seconds, and a run of t2 seconds of the same column given the first one's
    state at t1 as initial distribution and the influent from t1 on. Each has its own internal
    time unit (thA and thB, computed from its own first influent). *)
Theorem C159_column_restart_partial : forall (psdm : bool) c op thA thB Cin t1 t2 yA yB,
  (0 < NION c)%nat -> (1 <= nr c)%nat -> (1 <= nz c)%nat -> selectivities (NION c) (Kxc c) ->
  0 < thA -> 0 < thB -> 0 <= t1 -> 0 <= t2 ->
  (forall i, (i < NION c)%nat -> continuous_between 0 (t1 + t2) (fun t => Cin t i)) ->
  is_trajectory (nr c) (NION c) (nz c) (fun T u => rhs psdm c op thA (Cin (T * thA)) u) ((t1 + t2) / thA) yA ->
  (forall T, 0 <= T <= (t1 + t2) / thA ->
     in_normal_use psdm (if psdm then 1 - EPOR c else 1) (nr c) (NION c) (nz c) (Kxc c) (val c) (Cin (T * thA)) (yA T)) ->
  is_trajectory (nr c) (NION c) (nz c) (fun T u => rhs psdm c op thB (Cin (t1 + T * thB)) u) (t2 / thB) yB ->
  same_state (nr c) (NION c) (nz c) (yB 0) (initial_state c (Cin t1) (Some (yA (t1 / thA)))) ->
  forall t, 0 <= t <= t2 ->
    same_but_inlet (nr c) (NION c) (nz c) (yB (t / thB)) (yA ((t1 + t) / thA)).
Proof.
  intros psdm c op thA thB Cin t1 t2 yA yB Hn Hr Hz HK HA HB Ht1 Ht2 HC YA PA YB Y0 t Ht.
  assert (IA : 0 < / thA) by (apply Rinv_0_lt_compat, HA). assert (IB : 0 < / thB) by (apply Rinv_0_lt_compat, HB).
  set (Y1 := fun s => yA (/ thA * s + t1 / thA)). set (Y2 := fun s => yB (/ thB * s + 0)).
  assert (Q := column_unique psdm c op 1 0 t2 (fun s => Cin (t1 + s)) Y1 Y2 Hn Hr HK).
  assert (R : same_but_inlet (nr c) (NION c) (nz c) (Y1 t) (Y2 t)).
  { apply Q; [| | | |exact Ht].
    - intros i Hi s Hs e He. destruct (HC i Hi (t1 + s) ltac:(lra) e He) as (d & Hd & P).
      exists d. split; [exact Hd|]. intros s' Hs' Hd'. apply P; [lra|].
      replace (t1 + s' - (t1 + s)) with (s' - s) by ring. exact Hd'.
    - intros y [-> | ->] r i z A1 A2 A3.
      + assert (E := evolves_rescale ((t1 + t2) / thA) _ _ (/ thA) (t1 / thA) 0 t2 IA
          ltac:(unfold Rdiv; nra) ltac:(unfold Rdiv; nra) (YA r i z A1 A2 A3)).
        refine (evolves_ext 0 t2 _ _ _ _ _ _ E); [reflexivity|].
        intros s Hs. cbv beta. rewrite rhs_scale.
        replace ((/ thA * s + t1 / thA) * thA) with (t1 + s) by (field; lra).
        unfold Y1. field. lra.
      + assert (E := evolves_rescale (t2 / thB) _ _ (/ thB) 0 0 t2 IB
          ltac:(lra) ltac:(unfold Rdiv; nra) (YB r i z A1 A2 A3)).
        refine (evolves_ext 0 t2 _ _ _ _ _ _ E); [reflexivity|].
        intros s Hs. cbv beta. rewrite rhs_scale.
        replace ((/ thB * s + 0) * thB) with s by (field; lra).
        unfold Y2. field. lra.
    - unfold Y1, Y2. rewrite !Rmult_0_r, !Rplus_0_l.
      assert (NA : np_any3 (nr c + 1) (NION c) (nz c) (yA (t1 / thA)) = true).
      { destruct (PA (t1 / thA)) as (mg & Pm & P).
        { split; [unfold Rdiv; nra|]. unfold Rdiv. apply Rmult_le_compat_r; lra. }
        specialize (P (nr c) 0%nat ltac:(lia) ltac:(right; reflexivity) ltac:(lia)).
        destruct (np_any3 (nr c + 1) (NION c) (nz c) (yA (t1 / thA))) eqn:E; [reflexivity|]. exfalso.
        assert (Z : forall j, (j < NION c)%nat -> yA (t1 / thA) (nr c) j 0%nat = 0).
        { intros j Hj. apply NNPP. intros NZ. enough (np_any3 (nr c + 1) (NION c) (nz c) (yA (t1 / thA)) = true) by congruence.
          unfold np_any3. apply existsb_exists. exists (nr c). split; [apply in_seq; lia|].
          apply existsb_exists. exists j. split; [apply in_seq; lia|].
          apply existsb_exists. exists 0%nat. split; [apply in_seq; lia|].
          unfold reqb. destruct (Req_EM_T (yA (t1 / thA) (nr c) j 0%nat) 0) as [Z|Z]; [contradiction|reflexivity]. }
        assert (Z1 : rsum (NION c) (fun i => yA (t1 / thA) (nr c) i 0%nat / (if psdm then 1 - EPOR c else 1) / Kxc c i) = 0).
        { apply rsum_zero. intros j Hj. rewrite Z by exact Hj. unfold Rdiv. ring. }
        destruct P as (PM & PD). destruct (classic (exists i, (i < NION c)%nat /\ val c i = 2%nat)) as [D|D].
        - specialize (PD D). cbv zeta in PD. destruct PD as (P0 & _). rewrite Z in P0 by exact Hn. unfold Rdiv in P0. lra.
        - rewrite Z1 in PM. assert (mg <= 0); [|lra]. apply PM. intros i Hi E2. apply D. exists i. split; assumption. }
      intros r i z A1 A2 A3 N. rewrite (Y0 r i z A1 A2 A3).
      unfold initial_state. rewrite NA. destruct r as [|r]; [|reflexivity].
      destruct (Nat.eqb_spec z 0) as [->|Nz]; [|reflexivity]. exfalso. apply N. split; reflexivity.
    - intros s Hs. unfold Y1. replace (t1 + s) with ((/ thA * s + t1 / thA) * thA) by (field; lra).
      apply PA. unfold Rdiv. split; nra. }
  unfold Y1, Y2 in R. intros r i z A1 A2 A3 N. specialize (R r i z A1 A2 A3 N).
  replace (t / thB) with (/ thB * t + 0) by (unfold Rdiv; ring).
  replace ((t1 + t) / thA) with (/ thA * t + t1 / thA) by (unfold Rdiv; ring). symmetry. exact R.
Qed.

(** *** A run that moves: nitrate displaces half of the chloride, in two depths. *)
Definition ru_col : column :=
  {| NION := 2; nr := 1; nz := 2; EBED := 1 / 2; EPOR := 0; Lbed := 1; vel := 1; rb := 1; Qcap := 1;
     kL := fun _ => 1; Ds := fun _ => 1; Dp := fun _ => 1; Kxc := fun _ => 1; val := fun _ => 1%nat |}.
Definition ru_op : operators := {| Az := fun _ _ => 0; Br := fun _ _ => 0; Wr := fun _ => 1 |}.
Definition ru_a (r z : nat) : R := match r, z with O, O => 1 / 2 | S _, O => 1 / 2 | _, _ => 1 / 8 end.
Definition ru_b (r z : nat) : R := match r, z with O, O => 0 | S _, O => - (1 / 2) | O, _ => 3 / 8 | _, _ => - (1 / 8) end.
Definition ru_k (z : nat) : R := match z with O => -1 | _ => -4 end.
Definition ru_v (s : R) (r z : nat) : R := ru_a r z + ru_b r z * exp (ru_k z * s).
Definition ru_run (s : R) : state := fun r i z => match i with O => 1 - ru_v s r z | _ => ru_v s r z end.
Lemma ru_range s r z : 0 <= s -> 0 <= ru_v s r z < 1.
Proof.
  intros Hs. assert (E : forall k, k <= 0 -> 0 < exp (k * s) <= 1).
  { intros k Hk. split; [apply exp_pos|]. rewrite <- exp_0. destruct (Req_dec (k * s) 0) as [->|]; [lra|].
    left. apply exp_increasing. nra. }
  assert (E1 := E (-1) ltac:(lra)). assert (E4 := E (-4) ltac:(lra)).
  unfold ru_v. destruct r as [|r], z as [|z]; cbn [ru_a ru_b ru_k]; lra.
Qed.
Lemma ru_use psdm s : 0 <= s -> in_normal_use psdm (theta psdm ru_col) 1 2 2 (Kxc ru_col) (val ru_col) (fun _ => 1 / 2) (ru_run s).
Proof.
  intros Hs. apply nonneg_use; [lia|intros i _; cbn; lra|cbn [rsum]; lra| |].
  - intros z _. cbn [rsum ru_run]. lra.
  - intros r z _ _ _. assert (V := ru_range s r z Hs).
    assert (T : theta psdm ru_col = 1) by (destruct psdm; cbn; lra).
    rewrite T. split; [cbn [ru_run]; lra|]. intros [|i] _; cbn [ru_run]; lra.
Qed.
Lemma ru_rhs psdm s r i z : (r <= 1)%nat -> (i < 2)%nat -> (z < 2)%nat ->
  rhs psdm ru_col ru_op 1 (fun _ => 1 / 2) (ru_run s) r i z
  = match i with O => - (ru_b r z * ru_k z * exp (ru_k z * s)) | _ => ru_b r z * ru_k z * exp (ru_k z * s) end.
Proof.
  intros Hr Hi Hz.
  assert (CE : forall (k : R) z, (z < 2)%nat -> calc_Ceq 2 (fun _ => 1) (fun _ => 1%nat) (fun i => ru_run s 1%nat i z / (1 - k)) (CTz ru_col (fun _ => 1 / 2) (ru_run s) z) 1%nat
    = ru_v s 1%nat z * (1 - k) / (1 - k) \/ k = 1).
  { intros k w Hw. destruct (Req_dec k 1) as [|N]; [right; assumption|left].
    unfold calc_Ceq, CTz, liq. cbn [has_divalent existsb seq dv_idx Nat.eqb NION ru_col rsum orb].
    unfold Ceq_mv, alpha. destruct w as [|w]; cbn [rsum Nat.eqb ru_run]; field; lra. }
  assert (CE0 : forall z, (z < 2)%nat -> calc_Ceq 2 (fun _ => 1) (fun _ => 1%nat) (fun i => ru_run s 1%nat i z) (CTz ru_col (fun _ => 1 / 2) (ru_run s) z) 1%nat = ru_v s 1%nat z).
  { intros w Hw. unfold calc_Ceq, CTz, liq. cbn [has_divalent existsb seq dv_idx Nat.eqb NION ru_col rsum orb].
    unfold Ceq_mv, alpha. destruct w as [|w]; cbn [rsum Nat.eqb ru_run]; field; lra. }
  assert (J : forall qs, (forall w, (w < 2)%nat -> calc_Ceq 2 (fun _ => 1) (fun _ => 1%nat) (fun i => qs i w) (CTz ru_col (fun _ => 1 / 2) (ru_run s) w) 1%nat = ru_v s 1%nat w) ->
    forall w, (w < 2)%nat -> flux ru_col (fun _ => 1 / 2) (ru_run s) (fun i => qs i w) 1%nat w = - (ru_v s 0%nat w - ru_v s 1%nat w) /\
      flux ru_col (fun _ => 1 / 2) (ru_run s) (fun i => qs i w) 0%nat w = ru_v s 0%nat w - ru_v s 1%nat w).
  { intros qs HQ w Hw. unfold flux, implicit_presat. cbn [NION kL Kxc val ru_col Nat.eqb Nat.sub rsum].
    rewrite (HQ w Hw). unfold liq. destruct w as [|w]; cbn [Nat.eqb ru_run]; [|split; ring].
    assert (V0 : ru_v s 0%nat 0%nat = 1 / 2) by (unfold ru_v; cbn [ru_a ru_b]; ring). rewrite V0. split; field. }
  assert (D : forall (JJ : nat -> nat -> R) dq, (forall w, (w < 2)%nat -> JJ 1%nat w = - (ru_v s 0%nat w - ru_v s 1%nat w) /\ JJ 0%nat w = ru_v s 0%nat w - ru_v s 1%nat w) ->
    assemble ru_col ru_op 1 (fun _ => 1 / 2) (ru_run s) JJ dq r i z =
      match i with O => - (ru_b r z * ru_k z * exp (ru_k z * s)) | _ => ru_b r z * ru_k z * exp (ru_k z * s) end).
  { intros JJ dq HJ. destruct (HJ z Hz) as (J1 & J0). unfold assemble, dC.
    destruct r as [|[|r]]; [| |lia]; destruct i as [|[|i]]; try lia; destruct z as [|[|z]]; try lia;
      cbn [Nat.eqb Nat.sub nr nz vel Lbed EBED rb rsum ru_col ru_op Az Wr]; rewrite ?J1, ?J0;
      unfold ru_v; cbn [ru_a ru_b ru_k]; field. }
  unfold rhs, diffun_psdm, diffun_hsdm. destruct psdm; apply D; intros w Hw.
  - unfold psdm_J. apply (J (fun i w => ru_run s (nr ru_col) i w / (1 - EPOR ru_col))); [|exact Hw].
    intros v Hv. destruct (CE 0 v Hv) as [E|]; [|lra]. cbn [nr EPOR ru_col]. rewrite E. field.
  - unfold hsdm_J. apply (J (fun i w => ru_run s (nr ru_col) i w)); [exact CE0|exact Hw].
Qed.
(** From any moment on, and in any internal time unit. *)
Lemma ru_trajectory psdm th s0 Tf :
  is_trajectory 1 2 2 (fun _ u => rhs psdm ru_col ru_op th (fun _ => 1 / 2) u) Tf (fun T => ru_run (s0 + th * T)).
Proof.
  intros r i z Hr Hi Hz.
  assert (V : evolves 0 Tf (fun T => ru_v (s0 + th * T) r z)
                           (fun T => th * (ru_b r z * ru_k z * exp (ru_k z * (s0 + th * T))))).
  { assert (EE : forall T, exp (ru_k z * s0) * exp (ru_k z * th * T) = exp (ru_k z * (s0 + th * T)))
      by (intros T; rewrite <- exp_plus; f_equal; ring).
    apply (evolves_ext 0 Tf (fun T => ru_a r z + ru_b r z * exp (ru_k z * s0) * exp (ru_k z * th * T)) _
      (fun T => 0 + ru_b r z * exp (ru_k z * s0) * (ru_k z * th * exp (ru_k z * th * T)))).
    - intros T. unfold ru_v. rewrite <- EE. ring.
    - intros T _. rewrite <- EE. ring.
    - apply evolves_plus; [apply evolves_const|]. apply evolves_scal, evolves_exp. }
  destruct i as [|i].
  - apply (evolves_ext 0 Tf (fun T => 1 + (-1) * ru_v (s0 + th * T) r z) _
      (fun T => 0 + (-1) * (th * (ru_b r z * ru_k z * exp (ru_k z * (s0 + th * T)))))).
    + intros T. cbn [ru_run]. ring.
    + intros T _. rewrite rhs_scale, ru_rhs by assumption. ring.
    + apply evolves_plus; [apply evolves_const|]. apply evolves_scal, V.
  - refine (evolves_ext 0 Tf _ _ _ _ _ _ V); [reflexivity|].
    intros T _. rewrite rhs_scale, ru_rhs by assumption. destruct i; reflexivity.
Qed.
Example ru_column : forall psdm,
  (forall y2, is_trajectory 1 2 2 (fun T u => rhs psdm ru_col ru_op 1 (fun _ => 1 / 2) u) 5 y2 ->
     same_state 1 2 2 (ru_run 0) (y2 0) -> forall T, 0 <= T <= 5 -> y2 T 1%nat 1%nat 0%nat = 1 / 2 - 1 / 2 * exp (-1 * T)) /\
  (** three hours, and two hours restarted after the first one *)
  (forall t, 0 <= t <= 2 -> same_but_inlet 1 2 2 (ru_run (1 + 2 * (t / 2))) (ru_run (0 + 1 * ((1 + t) / 1)))).
Proof.
  intros psdm. assert (K : selectivities 2 (fun _ => 1)) by (intros i _; lra).
  assert (CC : forall a b (i : nat), continuous_between a b (fun _ => 1 / 2)).
  { intros a b i t _ e He. exists 1. split; [lra|]. intros. rewrite Rminus_eq_0, Rabs_R0. exact He. }
  split.
  - intros y2 Hy H0 T HT.
    assert (Y1 := ru_trajectory psdm 1 0 5).
    assert (SS : same_state 1 2 2 (ru_run (0 + 1 * T)) (y2 T)).
    { apply (C158_column_partial psdm ru_col ru_op 1 (fun _ _ => 1 / 2) 5 (fun T => ru_run (0 + 1 * T)) y2 ltac:(cbn; lia) (le_n 1) K
        (fun i _ => CC 0 5 i) Y1 Hy); [| |exact HT].
      - replace (0 + 1 * 0) with 0 by ring. exact H0.
      - intros s Hs. apply ru_use. lra. }
    rewrite <- (SS 1%nat 1%nat 0%nat) by lia.
    cbn [ru_run]. unfold ru_v. cbn [ru_a ru_b ru_k]. replace (0 + 1 * T) with T by ring. ring.
  - apply (C159_column_restart_partial psdm ru_col ru_op 1 2 (fun _ _ => 1 / 2) 1 2
      (fun T => ru_run (0 + 1 * T)) (fun T => ru_run (1 + 2 * T))); try (cbn; lia); try lra.
    + exact K.
    + intros i _. apply (CC _ _ i).
    + apply (ru_trajectory psdm 1 0).
    + intros T HT. apply ru_use. lra.
    + apply (ru_trajectory psdm 2 1).
    + intros r i z Hr Hi Hz. replace (1 + 2 * 0) with 1 by ring. replace (0 + 1 * (1 / 1)) with 1 by field.
      unfold initial_state.
      assert (NA : np_any3 (nr ru_col + 1) (NION ru_col) (nz ru_col) (ru_run 1) = true).
      { unfold np_any3. apply existsb_exists. exists 0%nat. split; [apply in_seq; cbn; lia|].
        apply existsb_exists. exists 0%nat. split; [apply in_seq; cbn; lia|].
        apply existsb_exists. exists 0%nat. split; [apply in_seq; cbn; lia|].
        unfold reqb. destruct (Req_EM_T (ru_run 1 0%nat 0%nat 0%nat) 0) as [Z|Z]; [|reflexivity].
        exfalso. cbn [ru_run] in Z. unfold ru_v in Z. cbn [ru_a ru_b] in Z. lra. }
      rewrite NA. destruct r as [|r]; [|reflexivity]. destruct z as [|z]; [|reflexivity].
      cbn [Nat.eqb]. destruct i as [|i]; cbn [ru_run]; unfold ru_v; cbn [ru_a ru_b]; field.
Qed.
Example ru_equilibrium : forall psdm op y, build_operators even_roots (fun m _ _ => even_roots m) 4 5 true = Ok op ->
  is_trajectory 4 3 5 (fun _ u => rhs psdm ex_col op 100 (fun _ => 1) u) 7 y ->
  same_state 4 3 5 (y 0) (ex_steady psdm) -> forall T, 0 <= T <= 7 -> same_state 4 3 5 (y T) (ex_steady psdm).
Proof.
  intros psdm op y Hop Hy H0.
  apply (C18_every_run_stays even_roots (fun m _ _ => even_roots m) true op psdm ex_col 100
    (fun _ => 1) (ex_steady psdm) (fun i _ => ex_steady psdm 1%nat i 0%nat)); try assumption; cbn; try lia.
  - exact even_roots_good.
  - intros [|[|j]] _; cbn; lra.
  - split; [reflexivity|]. intros [|[|[|j]]] Hj; cbn; auto.
  - intros; lra.
  - reflexivity.
  - intros; reflexivity.
  - intros w _. assert (T : theta psdm ex_col <> 0) by (destruct psdm; cbn; lra).
    assert (E : forall x, theta psdm ex_col * x / theta psdm ex_col = x) by (intros; field; exact T).
    split.
    + split; [rewrite E; lra|]. intros [|[|j]] _; rewrite E; lra.
    + left. split; [exists 2%nat; split; [lia|reflexivity]|].
      intros [|[|[|j]]] Hj1 Hj2; try lia; cbn; rewrite !E; lra.
Qed.

(** ** The granular-carbon column: no condition on the state *)
From Verif Require Import Lib_Pow Lib_PowLip M_GacFun M_GacColumn S_GacColumn P_GacFun P_GacColumn Props_GacColumn P_GacUnique.

(** With Freundlich exponents 1/n of at most one. *)
Theorem C158_carbon_column_partial : forall g m nr rows foul Tf y1 y2,
  physical g -> (forall i, (i < x_n g)%nat -> x_xn g i <= 1) -> (1 <= nr)%nat ->
  gac_trajectory (x_n g) nr (m_c m) (diffun g m nr rows foul) Tf y1 ->
  gac_trajectory (x_n g) nr (m_c m) (diffun g m nr rows foul) Tf y2 ->
  (forall i r z, (i < x_n g)%nat -> (r <= nr)%nat -> (z < m_c m)%nat -> y1 0 i r z = y2 0 i r z) ->
  forall T, 0 <= T <= Tf ->
  forall i r z, (i < x_n g)%nat -> (r <= nr)%nat -> (z < m_c m)%nat -> y1 T i r z = y2 T i r z.
Proof.
  intros g m nr rows foul Tf y1 y2 HP Hx Hr H1 H2 H0 T HT i r z Hi Hr1 Hz.
  apply (unique (g_entries g nr (m_c m)) g_at 0 Tf
    (fun p T u => diffun g m nr rows foul T u (fst (fst p)) (snd (fst p)) (snd p)) y1 y2) with (i := (i, r, z)) (t := T);
    [| | | |exact HT|apply in_g_entries; assumption].
  - intros p Hp. apply g_entries_in in Hp as (A1 & A2 & A3). apply H1; assumption.
  - intros p Hp. apply g_entries_in in Hp as (A1 & A2 & A3). apply H2; assumption.
  - intros t Ht _ p Hp. apply g_entries_in in Hp as (A1 & A2 & A3). apply tame_diffun; assumption.
  - intros p Hp. apply g_entries_in in Hp as (A1 & A2 & A3). apply H0; assumption.
Qed.

(** C72 for every run: one that starts in equilibrium with an influent that does not change never changes. *)
Theorem C72_every_run_stays : forall inv legendre jroots nr nz ne m g rows foul Tf u y,
  good_library inv legendre jroots nr nz ->
  calc_solver_matrix inv legendre jroots nr nz ne = Ok m ->
  physical g -> (forall i, (i < x_n g)%nat -> x_xn g i <= 1) ->
  (forall i r z, (i < x_n g)%nat -> (r < nr)%nat -> (z < m_c m)%nat -> u i r z = u i 0%nat z) ->
  (forall t i z, 0 <= t <= Tf -> (i < x_n g)%nat -> (z < m_c m)%nat ->
     surface_liquid g nr foul t u i z = at_time g (cinfA g rows) t i) ->
  (forall t i z, 0 <= t <= Tf -> (i < x_n g)%nat -> (1 <= z < m_c m)%nat ->
     u i nr z = at_time g (cinfA g rows) t i) ->
  gac_trajectory (x_n g) nr (m_c m) (diffun g m nr rows foul) Tf y ->
  (forall i r z, (i < x_n g)%nat -> (r <= nr)%nat -> (z < m_c m)%nat -> y 0 i r z = u i r z) ->
  forall T, 0 <= T <= Tf ->
  forall i r z, (i < x_n g)%nat -> (r <= nr)%nat -> (z < m_c m)%nat -> y T i r z = u i r z.
Proof.
  intros inv leg jr nr nz ne m g rows foul Tf u y HG Hm HP Hx Hu Hs Hl Hy H0 T HT.
  assert (Hnr : (1 <= nr)%nat) by (destruct (solver_matrix_inv _ _ _ _ _ _ _ Hm) as (H2 & _); lia).
  apply (C158_carbon_column_partial g m nr rows foul Tf y (fun _ => u)); try assumption.
  intros i r z Hi Hr Hz. eapply evolves_ext; [reflexivity| |apply evolves_const].
  intros t Ht. symmetry.
  apply (C72_equilibrium_is_steady inv leg jr nr nz ne m g rows foul t u); try assumption.
  - intros i' z' A B. apply Hs; [lra|assumption|assumption].
  - intros i' z' A B. apply Hl; [lra|assumption|assumption].
Qed.

(** ** The powdered-carbon contactor *)
From Verif Require Import M_Pac Props_Pac.

Definition pac_co (o : option nat) (x : R * (nat -> R)) : R := match o with None => fst x | Some i => snd x i end.
Definition pac_idx (nc : nat) : list (option nat) := None :: map Some (seq 0 nc).
Lemma pac_idx_some nc i : (i < nc)%nat -> In (Some i) (pac_idx nc).
Proof. intros. right. apply in_map, in_seq. lia. Qed.

Section PacTame.
Variables (nc : nat) (B : nat -> nat -> R) (W : nat -> R) (q : eqn) (D : R -> Prop) (t : R) (x : R * (nat -> R)).
Hypothesis Hn : 1 <= q_n q.
Hypothesis Hnc : (1 <= nc)%nat.
Notation Tm F := (tame (pac_idx nc) pac_co D F t x).
Lemma tame_C : Tm (fun _ v => fst v).
Proof. apply (tame_coord (pac_idx nc) pac_co D None). left; reflexivity. Qed.
Lemma tame_Y i : (i < nc)%nat -> Tm (fun _ v => snd v i).
Proof. intros. apply (tame_coord (pac_idx nc) pac_co D (Some i)). apply pac_idx_some; assumption. Qed.
Lemma tame_pore i : (i < nc)%nat -> Tm (fun _ v => pore q (snd v) i).
Proof.
  intros Hi. apply (tame_ext (pac_idx nc) pac_co D (fun _ v => rpow (Rmax 0 (snd v i / q_rho q / q_K q)) (q_n q))).
  { intros _ v. unfold pore. cbv zeta. f_equal. unfold Rmax. destruct (rltb (snd v i / q_rho q / q_K q) 0) eqn:E.
    - apply rltb_true in E. destruct (Rle_dec 0 _); lra.
    - apply rltb_false in E. destruct (Rle_dec 0 _); lra. }
  apply (tame_comp (pac_idx nc) pac_co D (fun a => rpow (Rmax 0 a) (q_n q)) (fun _ v => snd v i / q_rho q / q_K q)).
  - apply lip_at_ramp, Hn.
  - apply (tame_div_const (pac_idx nc) pac_co D _ (fun _ v => snd v i / q_rho q)).
    apply (tame_div_const (pac_idx nc) pac_co D _ (fun _ v => snd v i)). apply tame_Y, Hi.
Qed.
Lemma tame_pflux : Tm (fun _ v => M_Pac.flux nc q (fst v) (snd v)).
Proof.
  unfold M_Pac.flux. apply (tame_scal (pac_idx nc) pac_co D _ (fun _ v => fst v - pore q (snd v) (nc - 1))).
  apply (tame_minus (pac_idx nc) pac_co D (fun _ v => fst v)); [apply tame_C|apply tame_pore; lia].
Qed.
Lemma tame_diffusion i : Tm (fun _ v => diffusion nc B q (snd v) i).
Proof.
  unfold diffusion.
  apply (tame_div_const (pac_idx nc) pac_co D _ (fun _ v => q_Ep q * (q_Dp q - q_Ds q) * rsum nc (fun j => B i j * pore q (snd v) j)
    + q_Ds q * rsum nc (fun j => B i j * snd v j))).
  apply (tame_plus (pac_idx nc) pac_co D (fun _ v => q_Ep q * (q_Dp q - q_Ds q) * rsum nc (fun j => B i j * pore q (snd v) j))
    (fun _ v => q_Ds q * rsum nc (fun j => B i j * snd v j))).
  - apply (tame_scal (pac_idx nc) pac_co D _ (fun _ v => rsum nc (fun j => B i j * pore q (snd v) j))).
    apply (tame_rsum (pac_idx nc) pac_co D nc (fun j _ v => B i j * pore q (snd v) j)). intros j Hj.
    apply (tame_scal (pac_idx nc) pac_co D _ (fun _ v => pore q (snd v) j)). apply tame_pore, Hj.
  - apply (tame_scal (pac_idx nc) pac_co D _ (fun _ v => rsum nc (fun j => B i j * snd v j))).
    apply (tame_rsum (pac_idx nc) pac_co D nc (fun j _ v => B i j * snd v j)). intros j Hj.
    apply (tame_scal (pac_idx nc) pac_co D _ (fun _ v => snd v j)). apply tame_Y, Hj.
Qed.
Lemma tame_dC : Tm (fun _ v => dC_dt nc q (fst v) (snd v)).
Proof.
  unfold dC_dt. apply (tame_mult (pac_idx nc) pac_co D (fun _ v => (1 - q_E q) / q_E q * M_Pac.flux nc q (fst v) (snd v)) (fun _ _ => 3 / q_ra q));
    [|apply tame_const].
  apply (tame_scal (pac_idx nc) pac_co D _ (fun _ v => M_Pac.flux nc q (fst v) (snd v))). apply tame_pflux.
Qed.
Lemma tame_dY i : Tm (fun _ v => dY_dt nc B W q (fst v) (snd v) i).
Proof.
  unfold dY_dt. destruct (Nat.eqb i (nc - 1)); [|apply tame_diffusion].
  apply (tame_div_const (pac_idx nc) pac_co D _ (fun _ v => - (M_Pac.flux nc q (fst v) (snd v) / q_ra q + rsum (nc - 1) (fun k => W k * diffusion nc B q (snd v) k)))).
  apply (tame_opp (pac_idx nc) pac_co D (fun _ v => M_Pac.flux nc q (fst v) (snd v) / q_ra q + rsum (nc - 1) (fun k => W k * diffusion nc B q (snd v) k))).
  apply (tame_plus (pac_idx nc) pac_co D (fun _ v => M_Pac.flux nc q (fst v) (snd v) / q_ra q)).
  - apply (tame_div_const (pac_idx nc) pac_co D _ (fun _ v => M_Pac.flux nc q (fst v) (snd v))). apply tame_pflux.
  - apply (tame_rsum (pac_idx nc) pac_co D (nc - 1) (fun k _ v => W k * diffusion nc B q (snd v) k)). intros k Hk.
    apply (tame_scal (pac_idx nc) pac_co D _ (fun _ v => diffusion nc B q (snd v) k)). apply tame_diffusion.
Qed.
End PacTame.

(** Two exact histories of the contactor with the same start are the same, for 1/n of at most one. *)
Theorem C158_contactor_partial : forall nc B W q a b C1 Y1 C2 Y2,
  (1 <= nc)%nat -> 1 <= q_n q ->
  follows nc B W q a b C1 Y1 -> follows nc B W q a b C2 Y2 ->
  C1 a = C2 a -> (forall i, (i < nc)%nat -> Y1 i a = Y2 i a) ->
  forall t, a <= t <= b -> C1 t = C2 t /\ forall i, (i < nc)%nat -> Y1 i t = Y2 i t.
Proof.
  intros nc B W q a b C1 Y1 C2 Y2 Hnc Hn (F1 & G1) (F2 & G2) HC HY t Ht.
  assert (U := unique (pac_idx nc) pac_co a b
    (fun o _ x => match o with None => dC_dt nc q (fst x) (snd x) | Some i => dY_dt nc B W q (fst x) (snd x) i end)
    (fun t => (C1 t, fun i => Y1 i t)) (fun t => (C2 t, fun i => Y2 i t))).
  assert (S0 : forall i, In i (pac_idx nc) -> pac_co i (C1 t, fun i => Y1 i t) = pac_co i (C2 t, fun i => Y2 i t)).
  { apply U; [| | | |exact Ht]; clear U.
    - intros o [<-|Ho]; [exact F1|]. apply in_map_iff in Ho as (i & <- & Hi). apply in_seq in Hi. apply G1. lia.
    - intros o [<-|Ho]; [exact F2|]. apply in_map_iff in Ho as (i & <- & Hi). apply in_seq in Hi. apply G2. lia.
    - intros s Hs _ o Ho. destruct o as [i|]; [apply tame_dY|apply tame_dC]; assumption.
    - intros o [<-|Ho]; [exact HC|]. apply in_map_iff in Ho as (i & <- & Hi). apply in_seq in Hi. apply HY. lia. }
  split; [apply (S0 None); left; reflexivity|]. intros i Hi. apply (S0 (Some i)), pac_idx_some, Hi.
Qed.

(** C55 for every run: a bead in equilibrium with the liquid at the start stays as it is. *)
Theorem C55_every_run_stays : forall nc u W q y a b C Y, (1 <= nc)%nat -> distinct nc u -> 1 <= q_n q ->
  follows nc (Bx nc u 3) W q a b C Y ->
  (forall i, (i < nc)%nat -> Y i a = y) -> C a = pore q (fun _ => y) 0 ->
  forall t, a <= t <= b -> C t = C a /\ forall i, (i < nc)%nat -> Y i t = y.
Proof.
  intros nc u W q y a b C Y Hnc Hd Hn HF HY HC t Ht.
  destruct (C55_equilibrium nc u W q y Hnc Hd) as (E1 & E2).
  assert (F0 : follows nc (Bx nc u 3) W q a b (fun _ => pore q (fun _ => y) 0) (fun _ _ => y)).
  { split.
    - eapply evolves_ext; [reflexivity| |apply evolves_const]. intros s _. symmetry. exact E1.
    - intros i Hi. eapply evolves_ext; [reflexivity| |apply evolves_const]. intros s _. symmetry. apply E2, Hi. }
  destruct (C158_contactor_partial nc (Bx nc u 3) W q a b C Y _ _ Hnc Hn HF F0 HC HY t Ht) as (A & A2).
  split; [rewrite A; symmetry; exact HC|exact A2].
Qed.

(** ** The ion-exchange batch reactors *)
From Verif Require Import M_IxBatch S_IxBatch P_IxEq P_IxBatch Props_IxBatch.

(** The right-hand side where it is defined. *)
Definition tot_Ceq (n : nat) (K : nat -> R) (val : nat -> nat) (q : nat -> R) (CT : R) : nat -> R :=
  if has_divalent n val then
    mass_action K val q ((- eq_bb n K val q + sqrt (eq_bb n K val q ^ 2 - 4 * eq_aa n K val q * - CT)) / (2 * eq_aa n K val q))
  else Ceq_mv n K q CT.
Lemma tot_Ceq_ok n K val q CT C : calc_Ceq_batch n K val q CT = Some C -> C = tot_Ceq n K val q CT.
Proof.
  unfold calc_Ceq_batch, tot_Ceq, Ceq_dv_batch. destruct (has_divalent n val).
  - cbv zeta. destruct (reqb (eq_aa n K val q) 0); [discriminate|]. intros H. apply Some_inj in H. symmetry. exact H.
  - intros H. apply Some_inj in H. symmetry. exact H.
Qed.
Definition tot_rhs (psdm : bool) (b : batch) (op : radial) (u : bstate) : bstate :=
  let Cq r := tot_Ceq (b_NION b) (b_K b) (b_val b) (fun i => u r i / (if psdm then 1 - b_EPOR b else 1)) (b_CT b) in
  batch_assemble b op u (Cq (b_nr b)) (fun r i =>
    if psdm then (b_EPOR b * (b_Dp b - b_Ds b) * rsum (b_nr b) (fun m => rBr op r m * Cq (S m) i)
                  + b_Ds b * rsum (b_nr b) (fun m => rBr op r m * u (S m) i)) / b_rb b ^ 2
    else b_Ds b / b_rb b ^ 2 * rsum (b_nr b) (fun m => rBr op r m * u (S m) i)).
Lemma tot_Ceq_ext n K val q q' CT i : (forall i, q i = q' i) -> tot_Ceq n K val q CT i = tot_Ceq n K val q' CT i.
Proof.
  intros H. unfold tot_Ceq, mass_action, Ceq_mv, eq_aa, eq_bb, masked_sum.
  assert (R1 : forall m : nat -> bool, rsum n (fun i => if m i then q i / K i else 0) = rsum n (fun i => if m i then q' i / K i else 0))
    by (intros m; apply rsum_ext; intros; rewrite H; reflexivity).
  assert (R2 : rsum n (fun j => alpha K i j * q j) = rsum n (fun j => alpha K i j * q' j))
    by (apply rsum_ext; intros; rewrite H; reflexivity).
  destruct (has_divalent n val); cbv beta; [rewrite !R1, !H|rewrite R2, H]; reflexivity.
Qed.
Lemma assemble_eq b op u C C' dq dq' r i : C i = C' i -> (forall m, (m < b_nr b)%nat \/ S m = r -> dq m i = dq' m i) ->
  batch_assemble b op u C dq r i = batch_assemble b op u C' dq' r i.
Proof.
  intros H1 H2. unfold batch_assemble. rewrite H1. destruct r as [|k]; [reflexivity|].
  destruct (Nat.eqb k (b_nr b - 1)); [|apply H2; right; reflexivity].
  rewrite (rsum_ext _ (fun m => rWr op m * dq m i) (fun m => rWr op m * dq' m i)); [reflexivity|].
  intros m Hm. rewrite H2; [reflexivity|left; lia].
Qed.
Lemma tot_rhs_ok psdm b op u d : batch_rhs psdm b op u = Some d -> forall r i, d r i = tot_rhs psdm b op u r i.
Proof.
  unfold batch_rhs, tot_rhs, diffun_psdm_batch, diffun_hsdm_batch. intros H r i. destruct psdm.
  - destruct (pore_liquid b u (b_nr b)) as [P|] eqn:EP; [|discriminate].
    destruct (calc_Ceq_batch (b_NION b) (b_K b) (b_val b) (fun i => u (b_nr b) i / (1 - b_EPOR b)) (b_CT b)) as [C|] eqn:EC; [|discriminate].
    apply Some_inj in H. subst d. apply assemble_eq; [rewrite (tot_Ceq_ok _ _ _ _ _ _ EC); reflexivity|].
    intros m _. rewrite (rsum_ext _ (fun k => rBr op m k * P k i) (fun k => rBr op m k *
      tot_Ceq (b_NION b) (b_K b) (b_val b) (fun i => u (S k) i / (1 - b_EPOR b)) (b_CT b) i)); [reflexivity|].
    intros k Hk. rewrite (tot_Ceq_ok _ _ _ _ _ _ (pore_liquid_some b u _ P EP k Hk)). reflexivity.
  - destruct (calc_Ceq_batch (b_NION b) (b_K b) (b_val b) (u (b_nr b)) (b_CT b)) as [C|] eqn:EC; [|discriminate].
    apply Some_inj in H. subst d. apply assemble_eq; [|reflexivity].
    rewrite (tot_Ceq_ok _ _ _ _ _ _ EC). apply tot_Ceq_ext. intros j. field.
Qed.

Definition b_entries (nr n : nat) : list (nat * nat) := list_prod (seq 0 (nr + 1)) (seq 0 n).
Definition b_at (p : nat * nat) (u : nat -> nat -> R) : R := u (fst p) (snd p).
Lemma in_b_entries nr n r i : (r <= nr)%nat -> (i < n)%nat -> In (r, i) (b_entries nr n).
Proof. intros. apply in_prod; apply in_seq; lia. Qed.
Lemma b_entries_in nr n p : In p (b_entries nr n) -> (fst p <= nr)%nat /\ (snd p < n)%nat.
Proof. intros H. destruct p as (r, i). apply in_prod_iff in H as (Hr & Hi). apply in_seq in Hr. apply in_seq in Hi. simpl. lia. Qed.

Section BatchTame.
Variables (psdm : bool) (b : batch) (op : radial) (D : R -> Prop) (t : R) (u : bstate).
Hypothesis Hn : (0 < b_NION b)%nat.
Hypothesis Hr : (1 <= b_nr b)%nat.
Hypothesis HK : selectivities (b_NION b) (b_K b).
Notation solid := (if psdm then 1 - b_EPOR b else 1).
Variable mg : R.
Hypothesis Hmg : 0 < mg.
Hypothesis HQ : batch_in_use_by mg psdm solid (b_nr b) (b_NION b) (b_K b) (b_val b) (b_CT b) u.
Notation E := (b_entries (b_nr b) (b_NION b)).
Notation Tm F := (tame E b_at D F t u).
Lemma tame_b r i : (r <= b_nr b)%nat -> (i < b_NION b)%nat -> Tm (fun _ v => v r i).
Proof. intros. apply (tame_coord E b_at D (r, i)). apply in_b_entries; assumption. Qed.
Lemma tame_tot_Ceq r i : (1 <= r <= b_nr b)%nat -> (psdm = true \/ r = b_nr b) -> (i < b_NION b)%nat ->
  Tm (fun _ v => tot_Ceq (b_NION b) (b_K b) (b_val b) (fun i => v r i / solid) (b_CT b) i).
Proof.
  intros Hr1 Hp Hi. destruct (HQ r Hr1 Hp) as (SV & AV).
  assert (Tq : forall j, (j < b_NION b)%nat -> Tm (fun _ v => v r j / solid)).
  { intros j Hj. apply (tame_div_const E b_at D _ (fun _ v => v r j)). apply tame_b; lia. }
  assert (TC : Tm (fun _ _ => b_CT b)) by apply tame_const.
  unfold tot_Ceq. destruct (has_divalent (b_NION b) (b_val b)) eqn:HDv.
  - assert (TM : forall mask : nat -> bool, Tm (fun _ v => masked_sum (b_NION b) mask (fun i => v r i / solid / b_K b i))).
    { intros mask. apply (tame_masked E b_at D (b_NION b) (b_K b) (fun i _ v => v r i / solid) t u). exact Tq. }
    apply has_divalent_exists in HDv. specialize (AV HDv). destruct SV as (_ & SV). specialize (SV HDv). cbv zeta in SV. destruct SV as (Q0 & QB & QC).
    set (A := masked_sum (b_NION b) (dv_idx (b_val b)) (fun i => u r i / solid / b_K b i)).
    set (B := u r 0%nat / solid + masked_sum (b_NION b) (mv_idx (b_val b)) (fun i => u r i / solid / b_K b i)).
    change (mg <= A) in AV. change (mg <= B) in QB. change (mg <= B ^ 2 + 4 * A * b_CT b) in QC.
    assert (P0 : 0 < u r 0%nat / solid) by lra. assert (P2 : 0 < (u r 0%nat / solid) ^ 2) by (apply pow_lt, P0).
    set (aa := fun (_ : R) v => eq_aa (b_NION b) (b_K b) (b_val b) (fun i => v r i / solid)).
    set (bb := fun (_ : R) v => eq_bb (b_NION b) (b_K b) (b_val b) (fun i => v r i / solid)).
    assert (Taa : Tm aa).
    { unfold aa, eq_aa. apply (tame_div E b_at D _ (fun _ v => (v r 0%nat / solid) ^ 2)); [lra|apply TM|].
      apply (tame_pow E b_at D (fun _ v => v r 0%nat / solid)), Tq. lia. }
    assert (Tbb : Tm bb).
    { unfold bb, eq_bb. apply (tame_plus E b_at D _ (fun _ _ => 1)); [|apply tame_const].
      apply (tame_div E b_at D _ (fun _ v => v r 0%nat / solid)); [lra|apply TM|apply Tq; lia]. }
    assert (Ea : aa t u = A / (u r 0%nat / solid) ^ 2) by reflexivity.
    assert (Eb : bb t u = B / (u r 0%nat / solid)) by (unfold bb, B, eq_bb; set (x := u r 0%nat / solid) in *; field; lra).
    assert (Aa : 0 < aa t u) by (rewrite Ea; apply Rdiv_lt_0_compat; lra).
    assert (DP : 0 < bb t u ^ 2 - 4 * aa t u * - b_CT b).
    { rewrite Ea, Eb. set (x := u r 0%nat / solid) in *. replace ((B / x) ^ 2 - 4 * (A / x ^ 2) * - b_CT b) with ((B ^ 2 + 4 * A * b_CT b) / x ^ 2) by (field; lra).
      apply Rdiv_lt_0_compat; lra. }
    assert (Tcc : Tm (fun s v => (- bb s v + sqrt (bb s v ^ 2 - 4 * aa s v * - b_CT b)) / (2 * aa s v))).
    { apply (tame_div E b_at D (fun s v => - bb s v + sqrt (bb s v ^ 2 - 4 * aa s v * - b_CT b)) (fun s v => 2 * aa s v)); [lra| |].
      - apply (tame_plus E b_at D (fun s v => - bb s v)); [apply (tame_opp E b_at D bb), Tbb|].
        apply (tame_sqrt E b_at D (fun s v => bb s v ^ 2 - 4 * aa s v * - b_CT b)); [exact DP|].
        apply (tame_minus E b_at D (fun s v => bb s v ^ 2)); [apply (tame_pow E b_at D bb), Tbb|].
        apply (tame_mult E b_at D (fun s v => 4 * aa s v) (fun _ _ => - b_CT b)); [|apply tame_const].
        apply (tame_scal E b_at D 4 aa), Taa.
      - apply (tame_scal E b_at D 2 aa), Taa. }
    unfold mass_action. destruct (Nat.eqb i 0); [exact Tcc|].
    apply (tame_mult E b_at D (fun _ v => v r i / solid / b_K b i)).
    + apply (tame_div_const E b_at D _ (fun _ v => v r i / solid)), Tq, Hi.
    + apply (tame_pow E b_at D (fun s v => (- bb s v + sqrt (bb s v ^ 2 - 4 * aa s v * - b_CT b)) / (2 * aa s v) / (v r 0%nat / solid))).
      apply (tame_div E b_at D _ (fun _ v => v r 0%nat / solid)); [lra|exact Tcc|apply Tq; lia].
  - apply (tame_ext E b_at D (fun s v => calc_Ceq (b_NION b) (b_K b) (b_val b) (fun i => v r i / solid) (b_CT b) i)).
    { intros s v. unfold calc_Ceq. rewrite HDv. reflexivity. }
    apply (tame_Ceq E b_at D (b_NION b) (b_K b) (b_val b) (fun i _ v => v r i / solid) (fun _ _ => b_CT b) t u) with (m := mg); assumption.
Qed.
Lemma tame_tot_rhs r i : (r <= b_nr b)%nat -> (i < b_NION b)%nat -> Tm (fun _ v => tot_rhs psdm b op v r i).
Proof.
  intros Hr1 Hi. unfold tot_rhs, batch_assemble. cbv zeta.
  assert (TJ : Tm (fun _ v => - b_kL b * (v 0%nat i -
    tot_Ceq (b_NION b) (b_K b) (b_val b) (fun i => v (b_nr b) i / solid) (b_CT b) i))).
  { apply (tame_scal E b_at D _ (fun _ v => v 0%nat i - tot_Ceq (b_NION b) (b_K b) (b_val b) (fun i => v (b_nr b) i / solid) (b_CT b) i)).
    apply (tame_minus E b_at D (fun _ v => v 0%nat i)); [apply tame_b; lia|].
    apply tame_tot_Ceq; [lia|right; reflexivity|exact Hi]. }
  assert (TB : forall k, Tm (fun _ v => rsum (b_nr b) (fun m => rBr op k m * v (S m) i))).
  { intros k. apply (tame_rsum E b_at D (b_nr b) (fun m _ v => rBr op k m * v (S m) i)). intros m Hm.
    apply (tame_scal E b_at D _ (fun _ v => v (S m) i)). apply tame_b; lia. }
  assert (Tq : forall k, Tm (fun _ v => if psdm then (b_EPOR b * (b_Dp b - b_Ds b) * rsum (b_nr b) (fun m => rBr op k m *
       tot_Ceq (b_NION b) (b_K b) (b_val b) (fun i => v (S m) i / solid) (b_CT b) i)
       + b_Ds b * rsum (b_nr b) (fun m => rBr op k m * v (S m) i)) / b_rb b ^ 2
    else b_Ds b / b_rb b ^ 2 * rsum (b_nr b) (fun m => rBr op k m * v (S m) i))).
  { intros k. assert (TE := tame_tot_Ceq). destruct psdm.
    - apply (tame_div_const E b_at D _ (fun _ v => b_EPOR b * (b_Dp b - b_Ds b) * rsum (b_nr b) (fun m => rBr op k m *
       tot_Ceq (b_NION b) (b_K b) (b_val b) (fun i => v (S m) i / (1 - b_EPOR b)) (b_CT b) i)
       + b_Ds b * rsum (b_nr b) (fun m => rBr op k m * v (S m) i))).
      apply (tame_plus E b_at D (fun _ v => b_EPOR b * (b_Dp b - b_Ds b) * rsum (b_nr b) (fun m => rBr op k m *
       tot_Ceq (b_NION b) (b_K b) (b_val b) (fun i => v (S m) i / (1 - b_EPOR b)) (b_CT b) i))
       (fun _ v => b_Ds b * rsum (b_nr b) (fun m => rBr op k m * v (S m) i))).
      + apply (tame_scal E b_at D _ (fun _ v => rsum (b_nr b) (fun m => rBr op k m *
          tot_Ceq (b_NION b) (b_K b) (b_val b) (fun i => v (S m) i / (1 - b_EPOR b)) (b_CT b) i))).
        apply (tame_rsum E b_at D (b_nr b) (fun m _ v => rBr op k m *
          tot_Ceq (b_NION b) (b_K b) (b_val b) (fun i => v (S m) i / (1 - b_EPOR b)) (b_CT b) i)). intros m Hm.
        apply (tame_scal E b_at D _ (fun _ v => tot_Ceq (b_NION b) (b_K b) (b_val b) (fun i => v (S m) i / (1 - b_EPOR b)) (b_CT b) i)).
        apply TE; [lia|left; reflexivity|exact Hi].
      + apply (tame_scal E b_at D _ (fun _ v => rsum (b_nr b) (fun m => rBr op k m * v (S m) i))), TB.
    - apply (tame_scal E b_at D _ (fun _ v => rsum (b_nr b) (fun m => rBr op k m * v (S m) i))), TB. }
  destruct r as [|k].
  - apply (tame_div_const E b_at D _ (fun _ v => 3 * b_VR b / b_rb b * (- b_kL b * (v 0%nat i -
      tot_Ceq (b_NION b) (b_K b) (b_val b) (fun i => v (b_nr b) i / solid) (b_CT b) i)))).
    apply (tame_scal E b_at D _ (fun _ v => - b_kL b * (v 0%nat i -
      tot_Ceq (b_NION b) (b_K b) (b_val b) (fun i => v (b_nr b) i / solid) (b_CT b) i))), TJ.
  - destruct (Nat.eqb k (b_nr b - 1)); [|apply Tq].
    match goal with |- tame _ _ _ (fun s v => (@?A s v - @?B s v) / ?w) _ _ =>
      apply (tame_div_const E b_at D w (fun s v => A s v - B s v)); apply (tame_minus E b_at D A B) end.
    + match goal with |- tame _ _ _ (fun s v => - @?A s v / ?w) _ _ =>
        apply (tame_div_const E b_at D w (fun s v => - A s v)); apply (tame_opp E b_at D A) end. exact TJ.
    + match goal with |- tame _ _ _ (fun s v => rsum ?n (fun m => @?A m s v)) _ _ => apply (tame_rsum E b_at D n A) end.
      intros m Hm. match goal with |- tame _ _ _ (fun s v => ?w * @?A s v) _ _ => apply (tame_scal E b_at D w A) end. apply Tq.
Qed.
End BatchTame.

(** Two exact batch runs that start alike are alike at all times, when in one of them the
    exchange equilibrium has a solution wherever it is computed. *)
Theorem C158_batch_partial : forall (psdm : bool) b op Tf y1 y2,
  (0 < b_NION b)%nat -> (1 <= b_nr b)%nat -> selectivities (b_NION b) (b_K b) ->
  let solid := if psdm then 1 - b_EPOR b else 1 in
  is_batch_trajectory (b_nr b) (b_NION b) (batch_rhs psdm b op) Tf y1 ->
  is_batch_trajectory (b_nr b) (b_NION b) (batch_rhs psdm b op) Tf y2 ->
  (forall r i, (r <= b_nr b)%nat -> (i < b_NION b)%nat -> y1 0 r i = y2 0 r i) ->
  (forall T, 0 <= T <= Tf -> exists m, 0 < m /\
     batch_in_use_by m psdm solid (b_nr b) (b_NION b) (b_K b) (b_val b) (rsum (b_NION b) (b_C0 b)) (y1 T)) ->
  forall T, 0 <= T <= Tf ->
  forall r i, (r <= b_nr b)%nat -> (i < b_NION b)%nat -> y1 T r i = y2 T r i.
Proof.
  intros psdm b op Tf y1 y2 Hn Hr HK solid (d1 & D1 & E1) (d2 & D2 & E2) H0 HP T HT r i Hr1 Hi.
  apply (unique (b_entries (b_nr b) (b_NION b)) b_at 0 Tf (fun p _ u => tot_rhs psdm b op u (fst p) (snd p)) y1 y2)
    with (i := (r, i)) (t := T); [| | | |exact HT|apply in_b_entries; assumption].
  - intros p Hp. apply b_entries_in in Hp as (A1 & A2).
    refine (evolves_ext 0 Tf _ _ _ _ _ _ (E1 _ _ A1 A2)); [reflexivity|].
    intros t Ht. apply tot_rhs_ok, D1, Ht.
  - intros p Hp. apply b_entries_in in Hp as (A1 & A2).
    refine (evolves_ext 0 Tf _ _ _ _ _ _ (E2 _ _ A1 A2)); [reflexivity|].
    intros t Ht. apply tot_rhs_ok, D2, Ht.
  - intros t Ht _ p Hp. apply b_entries_in in Hp as (A1 & A2).
    destruct (HP t Ht) as (mg & Pm & Q). apply tame_tot_rhs with (mg := mg); assumption.
  - intros p Hp. apply b_entries_in in Hp as (A1 & A2). apply H0; assumption.
Qed.

(** C64 for every run: a batch that starts at equilibrium never changes. *)
Theorem C64_every_run_stays : forall legendre jacobi (psdm : bool) b u (q : nat -> R) Tf y,
  good_roots legendre jacobi -> (0 < b_NION b)%nat -> (1 <= b_nr b)%nat ->
  selectivities (b_NION b) (b_K b) -> mono_or_divalent (b_NION b) (b_val b) ->
  let op := build_radial legendre jacobi (b_nr b) in
  let solid := if psdm then 1 - b_EPOR b else 1 in
  (forall i, (i < b_NION b)%nat -> 0 <= u 0%nat i) ->
  rsum (b_NION b) (u 0%nat) = rsum (b_NION b) (b_C0 b) ->
  (forall r, (1 <= r <= b_nr b)%nat -> forall i, u r i = q i) ->
  resin_composition (b_NION b) (fun i => q i / solid) ->
  (forall i, (i < b_NION b)%nat -> b_val b i = 2%nat -> 0 < q i / solid) ->
  in_equilibrium (b_NION b) (b_K b) (b_val b) (fun i => q i / solid) (u 0%nat) ->
  is_batch_trajectory (b_nr b) (b_NION b) (batch_rhs psdm b op) Tf y ->
  (forall r i, (r <= b_nr b)%nat -> (i < b_NION b)%nat -> y 0 r i = u r i) ->
  forall T, 0 <= T <= Tf ->
  forall r i, (r <= b_nr b)%nat -> (i < b_NION b)%nat -> y T r i = u r i.
Proof.
  intros leg jac psdm b u q Tf y HG Hn Hr HK Hv op solid Hu Hs Hb Hq Hd He Hy H0 T HT r i Hr1 Hi.
  destruct (C64_batch_equilibrium_is_stationary leg jac psdm b u q HG Hn Hr HK Hv Hu Hs Hb Hq Hd He) as (d & Ed & Z).
  fold op in Ed. symmetry.
  apply (C158_batch_partial psdm b op Tf (fun _ : R => u) y); try assumption.
  - exists (fun _ => d). split; [intros; exact Ed|]. intros r' i' A B.
    eapply evolves_ext; [reflexivity| |apply evolves_const]. intros t _. symmetry. apply Z; assumption.
  - intros; symmetry; apply H0; assumption.
  - intros t _. apply (nonneg_batch psdm b u Hn HK); [unfold b_CT; rewrite <- Hs; apply rsum_nonneg, Hu|].
    intros r' Br _. destruct Hq as (Q0 & Qi). split.
    + split; [rewrite Hb by exact Br; exact Q0|]. intros j Hj. rewrite Hb by exact Br. apply Qi, Hj.
    + intros k Hk Ek. rewrite Hb by exact Br. apply Hd; assumption.
Qed.

(** *** Cases that meet the hypotheses *)
(** Clean water with a constant influent: the carbon column at equilibrium, for ten time units. *)
Example carbon_stays : forall ne m Tf y, (1 <= ne)%nat -> 
  calc_solver_matrix inv23 leg_mid jac_one 2 3 ne = Ok m ->
  let g := g_ex 1 true 1 in let rows := fun _ => [(0, 100); (1000, 100)] in
  gac_trajectory 1 2 (m_c m) (diffun g m 2 rows (fun _ _ => 1)) Tf y ->
  (forall i r z, (i < 1)%nat -> (r <= 2)%nat -> (z < m_c m)%nat -> y 0 i r z = 1) ->
  forall T, 0 <= T <= Tf ->
  forall i r z, (i < 1)%nat -> (r <= 2)%nat -> (z < m_c m)%nat -> y T i r z = 1.
Proof.
  intros ne m Tf y Hne Hm g rows Hy H0 T HT.
  assert (HP : physical g) by (apply physical_example; lia).
  assert (TC := tconv_pos _ HP).
  assert (CB : cb0 g 0 = 1).
  { unfold cb0. cbn. replace (100 * 1 / 100) with 1 by field. unfold reqb. destruct (Req_EM_T 1 0); lra. }
  assert (CI : forall t, at_time g (cinfA g rows) t 0 = 1).
  { assert (E : forall k, cinfA g rows k 0 = 1).
    { intros k. assert (E := C37_inlet_follows_influent g rows 0%nat k HP ltac:(cbn; lia)).
      rewrite at_time_minute in E by lra. rewrite CB in E. unfold rows in E at 2. cbn [interp_x x_mw x_mass_mul g g_ex] in E.
      unfold line in E. set (v := cinfA g rows k 0) in *. clearbody v. 
      assert (Z : (100 - 100) / (1000 - 0) * (INR k - 0) = 0) by field. rewrite Z in E. lra. }
    intros t. unfold at_time. rewrite !E. ring. }
  assert (FF : forall t, at_time g (foulFA g (fun _ _ => 1)) t 0 = 1).
  { intros t. unfold at_time, foulFA. replace (1 / 1) with 1 by field. rewrite rpow_one_base. ring. }
  assert (XN : forall i, (i < x_n g)%nat -> x_xn g i <= 1) by (intros i _; cbn; lra).
  assert (QE : 0 < qe g 0) by (apply qe_pos; [exact HP|cbn; lia]).
  assert (YM : ym g 0 = 1).
  { unfold ym, qte. cbn [x_n g g_ex rsum]. field. lra. }
  assert (SL : forall t z, surface_liquid g 2 (fun _ _ => 1) t (fun _ _ _ => 1) 0 z = 1).
  { intros t z. unfold surface_liquid. rewrite cpore_share by (try exact HP; try exact XN; try (cbn; lia); rewrite FF; lra).
    rewrite FF, YM. unfold share, wtotal, total, loads. cbn [x_n g g_ex rsum]. rewrite YM.
    unfold xni. cbn [x_xn g g_ex]. rewrite Rmult_1_r.
    unfold Rmax. destruct (Rle_dec 0 1); [|lra]. destruct (Rle_dec (0 + 1 / (1 / 2) * 1) 0); [lra|].
    replace (1 / 2 / 1 * (0 + 1 / (1 / 2) * 1)) with 1 by field. rewrite rpow_one_base. field. }
  apply (C72_every_run_stays inv23 leg_mid jac_one 2 3 ne m g rows (fun _ _ => 1) Tf (fun _ _ _ => 1) y library_example Hm HP XN);
    try assumption.
  - reflexivity.
  - intros t i z _ Hi _. cbn in Hi. replace i with 0%nat by lia. rewrite SL, CI. reflexivity.
  - intros t i z _ Hi _. cbn in Hi. replace i with 0%nat by lia. rewrite CI. reflexivity.
Qed.
(** The moving contactor, and the one at rest. *)
Example contactor_only : forall C Y, follows 1 (fun _ _ => 0) (fun _ => 1 / 3) demo_eqn 0 1 C Y ->
  C 0 = 1 -> Y 0%nat 0 = 0 -> C 1 = 1 / 2 + 1 / 2 * exp (- (1) * 1).
Proof.
  intros C Y HF HC HY. destruct follows_met as (D & _).
  destruct (C158_contactor_partial 1 (fun _ _ => 0) (fun _ => 1 / 3) demo_eqn 0 1 C Y demo_C demo_Y (le_n 1)
    ltac:(cbn; lra) HF D) with (t := 1) as (A & _); [| |lra|exact A].
  - rewrite HC. unfold demo_C. rewrite Rmult_0_r, exp_0. field.
  - intros i Hi. replace i with 0%nat by lia. rewrite HY. unfold demo_Y. rewrite Rmult_0_r, exp_0. field.
Qed.
Example contactor_rest : forall W C Y, follows 3 (Bx 3 (fun i => INR i) 3) W demo_eqn 0 9 C Y ->
  C 0 = 2 -> (forall i, (i < 3)%nat -> Y i 0 = 2) -> C 9 = 2.
Proof.
  intros W C Y HF HC HY. rewrite <- HC.
  apply (C55_every_run_stays 3 (fun i => INR i) W demo_eqn 2 0 9 C Y); try assumption; try lia; try lra.
  - intros i j Hi Hj E. apply INR_eq in E. exact E.
  - cbn; lra.
  - unfold pore. cbn [q_rho q_K q_n demo_eqn]. replace (2 / 1 / 1) with 2 by field. cbv zeta.
    rewrite (proj2 (rltb_false 2 0)) by lra. rewrite rpow_Rpower by lra. rewrite Rpower_1 by lra. exact HC.
Qed.
(** The moving batch run is the only one, and the even split stays. *)
Example batch_only : forall psdm y2, is_batch_trajectory 1 2 (batch_rhs psdm ex_batch ex_op) 5 y2 ->
  (forall r i, (r <= 1)%nat -> (i < 2)%nat -> batch_initial ex_batch r i = y2 0 r i) ->
  forall T, 0 <= T <= 5 -> y2 T 0%nat 1%nat = 1 / 2 + exp (-2 * T) / 2.
Proof.
  intros psdm y2 Hy H0 T HT.
  assert (SO : 0 < if psdm then 1 - b_EPOR ex_batch else 1) by (destruct psdm; cbn; lra).
  rewrite <- (C158_batch_partial psdm ex_batch ex_op 5 ex_run y2 ltac:(cbn; lia) (le_n 1)
    ltac:(intros i _; cbn; lra) (ex_run_trajectory psdm) Hy) with (T := T) (r := 0%nat) (i := 1%nat);
    [reflexivity| | |exact HT|cbn; lia|cbn; lia].
  - intros r i Hr Hi. rewrite ex_run_starts. apply H0; assumption.
  - intros s Hs. apply (nonneg_batch psdm ex_batch (ex_run s)); [cbn; lia|intros i _; cbn; lra|cbn; lra|]. intros r Hr _. assert (P := exp_pos (-2 * s)).
    assert (L : exp (-2 * s) <= 1).
    { rewrite <- exp_0. destruct (Req_dec s 0) as [->|]; [rewrite Rmult_0_r; lra|]. left. apply exp_increasing. lra. }
    assert (I : 0 < / (if psdm then 1 - b_EPOR ex_batch else 1)) by (apply Rinv_0_lt_compat, SO).
    cbn in Hr. destruct r as [|[|r]]; try lia. split; [split|].
    + cbn [ex_run]. apply Rmult_lt_0_compat; [lra|exact I].
    + intros [|[|i]] Hi; cbn [b_NION ex_batch] in Hi; [| |lia]; apply Rmult_le_pos; cbn [ex_run]; lra.
    + intros k _ E. discriminate E.
Qed.
Example batch_rest : forall (psdm : bool) y,
  let solid := if psdm then 1 - b_EPOR ex_batch else 1 in
  let u : bstate := fun r i => match r with O => 1 / 2 | S _ => solid / 2 end in
  is_batch_trajectory 1 2 (batch_rhs psdm ex_batch ex_op) 5 y ->
  (forall r i, (r <= 1)%nat -> (i < 2)%nat -> y 0 r i = u r i) ->
  y 5 0%nat 1%nat = 1 / 2.
Proof.
  intros psdm y solid u Hy H0.
  assert (SO : solid <> 0) by (unfold solid; destruct psdm; cbn; lra).
  assert (E : solid / 2 / solid = 1 / 2) by (field; exact SO).
  apply (C64_every_run_stays even_roots (fun m _ _ => even_roots m) psdm ex_batch u (fun _ => solid / 2) 5 y even_roots_good);
    try exact Hy; try exact H0; try lra; try (cbn; lia); cbn [ex_batch b_NION b_K b_val b_nr b_C0].
  - intros i _. lra.
  - split; [reflexivity|]. intros; left; reflexivity.
  - intros i _. cbn. lra.
  - cbn. lra.
  - intros [|r] Hr i; [lia|reflexivity].
  - fold solid. split; [|intros i _]; rewrite E; lra.
  - fold solid. right. split; [intros i _ X; discriminate X|]. intros i Hi j Hj. cbn [u]. rewrite E. field.
Qed.

Print Assumptions C158_column_partial.
Print Assumptions C158_fresh_bed_partial.
Print Assumptions C18_every_run_stays.
Print Assumptions C159_column_restart_partial.
Print Assumptions C158_carbon_column_partial.
Print Assumptions C72_every_run_stays.
Print Assumptions C158_contactor_partial.
Print Assumptions C55_every_run_stays.
Print Assumptions C158_batch_partial.
Print Assumptions C64_every_run_stays.
