(** C193 — a simulation that settles, settles at exhaustion. *)
From Coq Require Import Reals List Arith Bool Lra Lia.
From Verif Require Import Lib_Py Lib_Sum Lib_Pow Lib_Traj Lib_Settle Lib_Tame M_Colloc M_IxEq M_IxColumn M_IxBatch M_GacFun M_GacColumn S_Colloc S_IxEq S_IxColumn S_IxBatch S_GacColumn S_Unique
  P_Colloc P_IxEq P_IxColumn P_IxBatch P_GacFun P_GacColumn P_IxUnique P_GacUnique Props_IxColumn Props_IxBatch Props_GacColumn P_RestEq P_RestIx P_RestBatch P_RestGac
  Props_Rest Props_Unique Props_Exist P_Settle.
Import ListNotations.
Open Scope R_scope.

(** ** Ion-exchange columns *)
(** an influent without end that approaches [C] *)
Definition influent_approaches (n : nat) (Cin : R -> nat -> R) (C : nat -> R) : Prop :=
  forall i, (i < n)%nat -> (forall Tf, continuous_between 0 Tf (fun T => Cin T i)) /\ vanishes (fun T => Cin T i - C i).

(** the history read backwards: time 0 is the end of time *)
Definition from_the_end (Cin : R -> nat -> R) (C : nat -> R) (s : R) (i : nat) : R := if Rle_dec s 0 then C i else Cin (/ s) i.
Lemma from_the_end_cont n Cin C i : influent_approaches n Cin C -> (i < n)%nat ->
  forall t0, t0 = 0 \/ 0 <= t0 <= 1 -> forall e, 0 < e -> exists d, 0 < d /\ forall s, 0 <= s <= 1 -> Rabs (s - t0) < d ->
    Rabs (from_the_end Cin C s i - from_the_end Cin C t0 i) < e.
Proof.
  intros HA Hi t0 Ht e He. destruct (HA i Hi) as (HC & HV). unfold from_the_end. destruct (Rle_dec t0 0) as [L|L].
  - assert (Z : t0 = 0) by (destruct Ht; lra). subst t0. destruct (HV e He) as (T & HT).
    exists (/ (Rmax T 0 + 1)). assert (A := Rmax_l T 0). assert (B := Rmax_r T 0). split; [apply Rinv_0_lt_compat; lra|]. intros s Hs HD.
    destruct (Rle_dec s 0) as [L0|L0]; [rewrite Rminus_eq_0, Rabs_R0; exact He|]. apply HT. rewrite Rminus_0_r, Rabs_right in HD by lra.
    apply Rle_trans with (Rmax T 0 + 1); [lra|]. left. rewrite <- (Rinv_inv (Rmax T 0 + 1)). apply Rinv_lt_contravar; [|exact HD].
    apply Rmult_lt_0_compat; [lra|apply Rinv_0_lt_compat; lra].
  - assert (P : 0 < t0) by lra. assert (I := Rinv_0_lt_compat _ P).
    destruct (HC (/ t0 + 1) (/ t0) ltac:(lra) e He) as (d1 & H1 & Q).
    assert (CI : continuity_pt Rinv t0). { apply (continuity_pt_inv (fun x => x) t0); [apply derivable_continuous_pt, derivable_pt_id|lra]. }
    destruct (CI (Rmin d1 1)) as (d2 & H2 & Q2); [apply Rmin_pos; lra|]. assert (M1 := Rmin_l d1 1). assert (M2 := Rmin_r d1 1).
    exists (Rmin d2 t0). assert (M3 := Rmin_l d2 t0). assert (M4 := Rmin_r d2 t0). split; [apply Rmin_pos; lra|]. intros s Hs HD.
    assert (PS : 0 < s). { apply Rabs_def2 in HD. lra. }
    destruct (Rle_dec s 0) as [L0|L0]; [lra|].
    assert (X : Rabs (/ s - / t0) < Rmin d1 1).
    { destruct (Req_dec s t0) as [->|N]; [rewrite Rminus_eq_0, Rabs_R0; apply Rmin_pos; lra|].
      apply (Q2 s). split; [split; [exact Logic.I|intros E; apply N; symmetry; exact E]|]. cbn. unfold R_dist. lra. }
    assert (IS := Rinv_0_lt_compat _ PS). apply Q; [apply Rabs_def2 in X; lra|lra].
Qed.

Section Column.
Variables (legendre : nat -> nat -> R) (jacobi : nat -> R -> R -> nat -> R) (ocfe psdm : bool) (op : operators) (c : column)
  (th : R) (Cin : R -> nat -> R) (C : nat -> R) (y : R -> state) (L : state) (Q : R).
Hypothesis HG : good_roots legendre jacobi.
Hypothesis Hb : build_operators legendre jacobi (nr c) (nz c) ocfe = Ok op.
Hypothesis HW : working_column psdm c th.
Hypothesis HC : forall i, (i < NION c)%nat -> 0 <= C i.
Hypothesis HCT : 0 < rsum (NION c) C.
Hypothesis HCin : influent_approaches (NION c) Cin C.
Hypothesis HT : forall Tf, is_trajectory (nr c) (NION c) (nz c) (fun T u => rhs psdm c op th (Cin T) u) Tf y.
Hypothesis HL : forall r i z, (r <= nr c)%nat -> (i < NION c)%nat -> (z < nz c)%nat -> vanishes (fun T => y T r i z - L r i z).
Hypothesis H0 : forall r z, (r < nr c)%nat -> (z < nz c)%nat -> rsum (NION c) (fun i => y 0 (S r) i z) = Q.
Hypothesis HP : forall r z, (r < nr c)%nat -> (z < nz c)%nat -> 0 < L (S r) 0%nat z /\ forall i, (i < NION c)%nat -> 0 <= L (S r) i z.

Lemma limit_capacity : resin_of_capacity c L Q.
Proof.
  intros r z Hr Hz. destruct (HP r z Hr Hz) as (A & B). split; [exact A|split; [exact B|]].
  apply (vanishes_unique (fun T => rsum (NION c) (fun i => y T (S r) i z))).
  - apply (vanishes_ext (fun T => rsum (NION c) (fun i => y T (S r) i z - L (S r) i z))); [intros t; rewrite rsum_minus; reflexivity|].
    apply (vanishes_rsum (NION c) (fun i T => y T (S r) i z - L (S r) i z)). intros i Hi. apply HL; [lia|assumption|assumption].
  - apply (vanishes_late 0 (fun _ => 0)); [|apply vanishes_0]. intros t Ht. destruct HW as (HN & _).
    rewrite (resin_total_constant psdm c op th Cin t y HN (HT t) t ltac:(lra) r z Hr Hz), H0 by assumption. ring.
Qed.
Lemma limit_liq i z : (i < NION c)%nat -> (z < nz c)%nat -> vanishes (fun T => liq (Cin T) (y T) i z - liq C L i z).
Proof. intros Hi Hz. unfold liq. destruct (Nat.eqb z 0); [apply (HCin i Hi)|apply HL; [lia|assumption|assumption]]. Qed.
Lemma limit_total z : (z < nz c)%nat -> CTz c C L z = rsum (NION c) C.
Proof.
  destruct HW as (HN & Hr & Hz & HK & HV & HE & Hrb & Hv & HLb & Hth & Hp & HD). intros Hzz.
  destruct (operators_kernel legendre jacobi (nr c) (nz c) ocfe op HG Hr Hz Hb) as (KA & _).
  rewrite (KA (fun j => CTz c C L j)); [reflexivity| |exact Hzz]. intros w Hw.
  set (k := - (th * (vel c / Lbed c) / EBED c)).
  assert (K : k * rsum (nz c) (fun j => Az op w j * CTz c C L j) = 0).
  { apply (settled_pace (fun T => rsum (NION c) (fun i => y T 0%nat i w)) (fun T => rsum (NION c) (fun i => rhs psdm c op th (Cin T) (y T) 0%nat i w)) (rsum (NION c) (fun i => L 0%nat i w))).
    - intros b. apply (evolves_rsum 0 b (NION c) (fun i T => y T 0%nat i w) (fun i T => rhs psdm c op th (Cin T) (y T) 0%nat i w)). intros i Hi. apply (HT b); lia.
    - apply (vanishes_ext (fun T => rsum (NION c) (fun i => y T 0%nat i w - L 0%nat i w))); [intros t; rewrite rsum_minus; reflexivity|].
      apply (vanishes_rsum (NION c) (fun i T => y T 0%nat i w - L 0%nat i w)). intros i Hi. apply HL; lia.
    - apply (vanishes_ext (fun T => k * rsum (nz c) (fun j => Az op w j * (CTz c (Cin T) (y T) j - CTz c C L j)))).
      + intros t. rewrite (rhs_liquid_total psdm c op th (Cin t) (y t) w HN ltac:(lia)). fold k. rewrite <- Rmult_minus_distr_l, <- rsum_minus. f_equal. apply rsum_ext. intros; ring.
      + apply vanishes_scal. apply (vanishes_rsum (nz c) (fun j T => Az op w j * (CTz c (Cin T) (y T) j - CTz c C L j))). intros j Hj.
        apply vanishes_scal. unfold CTz. apply (vanishes_ext (fun T => rsum (NION c) (fun i => liq (Cin T) (y T) i j - liq C L i j))); [intros t; rewrite rsum_minus; reflexivity|].
        apply (vanishes_rsum (NION c) (fun i T => liq (Cin T) (y T) i j - liq C L i j)). intros i Hi. apply limit_liq; assumption. }
  apply Rmult_integral in K. destruct K as [K|K]; [|exact K]. exfalso. revert K. unfold k.
  assert (0 < th * (vel c / Lbed c) / EBED c); [|lra]. apply Rdiv_lt_0_compat; [|lra]. apply Rmult_lt_0_compat; [exact Hth|apply Rdiv_lt_0_compat; assumption].
Qed.
Lemma limit_in_use : in_normal_use psdm (theta psdm c) (nr c) (NION c) (nz c) (Kxc c) (val c) C L.
Proof.
  destruct HW as (HN & Hr & Hz & HK & HV & HE & Hrb & Hv & HLb & Hth & Hp & HD).
  apply nonneg_use; try assumption; [lra| |].
  - intros z Hzz. assert (E := limit_total z ltac:(lia)). unfold CTz, liq in E. rewrite (proj2 (Nat.eqb_neq z 0)) in E by lia. rewrite E. lra.
  - intros r z Hr1 _ Hzz. assert (TP := theta_pos psdm c Hp). assert (IT := Rinv_0_lt_compat _ TP). destruct r as [|r]; [lia|]. destruct (HP r z ltac:(lia) Hzz) as (A & B).
    split; [apply Rmult_lt_0_compat; assumption|]. intros i Hi. apply Rmult_le_pos; [apply B, Hi|lra].
Qed.
Lemma limit_at_rest : column_at_rest psdm c op th C L.
Proof.
  intros r i z Hr Hi Hz. destruct limit_in_use as (mg & Pm & U). destruct HW as (HN & Hr1 & _ & HK & _).
  apply (settled_pace (fun T => y T r i z) (fun T => rhs psdm c op th (Cin T) (y T) r i z) (L r i z)); [intros b; apply (HT b); assumption|apply HL; assumption|].
  assert (E0 : from_the_end Cin C 0 = fun i => C i) by (unfold from_the_end; destruct (Rle_dec 0 0); [reflexivity|lra]).
  assert (TM := tame_rhs psdm c op th (fun s => 0 <= s <= 1) (from_the_end Cin C) 0 L HN Hr1 HK (fun i Hi => from_the_end_cont (NION c) Cin C i HCin Hi) mg Pm).
  rewrite E0 in TM. specialize (TM U r i z Hr Hi Hz).
  assert (V := tame_limit _ entry_at (fun s => 0 <= s <= 1) _ 0 L (fun T => / T) y 1 TM).
  cbv beta in V. rewrite E0 in V. apply (vanishes_late 1 (fun T => rhs psdm c op th (from_the_end Cin C (/ T)) (y T) r i z - rhs psdm c op th (fun i => C i) L r i z)).
  - intros T HT1. assert (I := Rinv_0_lt_compat T ltac:(lra)). unfold from_the_end. destruct (Rle_dec (/ T) 0); [lra|]. rewrite Rinv_inv. reflexivity.
  - apply V.
    + intros T HT1. assert (I := Rinv_0_lt_compat T ltac:(lra)). split; [lra|]. rewrite <- Rinv_1. apply Rinv_le_contravar; lra.
    + intros eps He. exists (/ eps + 1). intros T HT1. assert (I := Rinv_0_lt_compat _ He). assert (J := Rinv_0_lt_compat T ltac:(lra)).
      rewrite Rminus_0_r, Rabs_right by lra. rewrite <- (Rinv_inv eps). apply Rinv_lt_contravar; [apply Rmult_lt_0_compat; lra|lra].
    + intros p Hp. apply entries_in in Hp as (A1 & A2 & A3). apply HL; assumption.
Qed.
End Column.

(** An endless run whose influent approaches a composition and every entry of whose state approaches a value: the effluent
    approaches the influent, and the beads one composition, the same everywhere, in equilibrium with it. *)
Theorem C193_ion_column : forall legendre jacobi ocfe op (psdm : bool) c th Cin C y L Q,
  good_roots legendre jacobi -> build_operators legendre jacobi (nr c) (nz c) ocfe = Ok op -> working_column psdm c th ->
  (forall i, (i < NION c)%nat -> 0 <= C i) -> 0 < rsum (NION c) C -> influent_approaches (NION c) Cin C ->
  (forall Tf, is_trajectory (nr c) (NION c) (nz c) (fun T u => rhs psdm c op th (Cin T) u) Tf y) ->
  (forall r z, (r < nr c)%nat -> (z < nz c)%nat -> rsum (NION c) (fun i => y 0 (S r) i z) = Q) ->
  (forall r i z, (r <= nr c)%nat -> (i < NION c)%nat -> (z < nz c)%nat -> vanishes (fun T => y T r i z - L r i z)) ->
  (forall r z, (r < nr c)%nat -> (z < nz c)%nat -> 0 < L (S r) 0%nat z /\ forall i, (i < NION c)%nat -> 0 <= L (S r) i z) ->
  (forall i z, (i < NION c)%nat -> (1 <= z < nz c)%nat -> vanishes (fun T => y T 0%nat i z - Cin T i)) /\
  (forall r r' i z z', (r < nr c)%nat -> (r' < nr c)%nat -> (i < NION c)%nat -> (z < nz c)%nat -> (z' < nz c)%nat ->
     vanishes (fun T => y T (S r) i z - y T (S r') i z')) /\
  (forall r z, (r < nr c)%nat -> (z < nz c)%nat ->
     in_equilibrium (NION c) (Kxc c) (val c) (fun i => L (S r) i z / (if psdm then 1 - EPOR c else 1)) C).
Proof.
  intros leg jac ocfe op psdm c th Cin C y L Q HG Hb HW HC HCT HCin HT H0 HL HP.
  destruct (C192_ion_column leg jac ocfe op psdm c th C L Q HG Hb HW HC HCT (limit_capacity psdm op c th Cin y L Q HW HT HL H0 HP)
    (limit_at_rest leg jac ocfe psdm op c th Cin C y L HG Hb HW HCT HCin HT HL HP)) as (E1 & E2 & E3).
  split; [|split; [|exact E3]].
  - intros i z Hi Hz. apply (vanishes_ext (fun T => (y T 0%nat i z - L 0%nat i z) + (-1) * (Cin T i - C i))).
    + intros t. rewrite (E1 i z Hi Hz). ring.
    + apply vanishes_plus; [apply HL; lia|apply vanishes_scal, HCin, Hi].
  - intros r r' i z z' H1 H2 H3 H4 H5. apply (vanishes_ext (fun T => (y T (S r) i z - L (S r) i z) + (-1) * (y T (S r') i z' - L (S r') i z'))).
    + intros t. rewrite (E2 r r' i z z') by assumption. ring.
    + apply vanishes_plus; [apply HL; lia|apply vanishes_scal, HL; lia].
Qed.
(** Two such runs on resins of the same capacity, whatever else they start from and whatever path their influents take
    to the same composition, end alike. *)
Theorem C193_ion_column_forgets : forall legendre jacobi ocfe op (psdm : bool) c th Cin Cin' C y y' L L' Q,
  good_roots legendre jacobi -> build_operators legendre jacobi (nr c) (nz c) ocfe = Ok op -> working_column psdm c th ->
  (forall i, (i < NION c)%nat -> 0 <= C i) -> 0 < rsum (NION c) C -> influent_approaches (NION c) Cin C -> influent_approaches (NION c) Cin' C ->
  (forall Tf, is_trajectory (nr c) (NION c) (nz c) (fun T u => rhs psdm c op th (Cin T) u) Tf y) ->
  (forall Tf, is_trajectory (nr c) (NION c) (nz c) (fun T u => rhs psdm c op th (Cin' T) u) Tf y') ->
  (forall r z, (r < nr c)%nat -> (z < nz c)%nat -> rsum (NION c) (fun i => y 0 (S r) i z) = Q /\ rsum (NION c) (fun i => y' 0 (S r) i z) = Q) ->
  (forall r i z, (r <= nr c)%nat -> (i < NION c)%nat -> (z < nz c)%nat -> vanishes (fun T => y T r i z - L r i z) /\ vanishes (fun T => y' T r i z - L' r i z)) ->
  (forall r z, (r < nr c)%nat -> (z < nz c)%nat -> (0 < L (S r) 0%nat z /\ forall i, (i < NION c)%nat -> 0 <= L (S r) i z) /\
     (0 < L' (S r) 0%nat z /\ forall i, (i < NION c)%nat -> 0 <= L' (S r) i z)) ->
  forall r i z, (r <= nr c)%nat -> (i < NION c)%nat -> (z < nz c)%nat -> (r = 0%nat -> z <> 0%nat) -> vanishes (fun T => y T r i z - y' T r i z).
Proof.
  intros leg jac ocfe op psdm c th Cin Cin' C y y' L L' Q HG Hb HW HC HCT HCin HCin' HT HT' H0 HL HP r i z Hr Hi Hz N.
  assert (HL1 := fun r i z A B D => proj1 (HL r i z A B D)). assert (HL2 := fun r i z A B D => proj2 (HL r i z A B D)).
  assert (HP1 := fun r z A B => proj1 (HP r z A B)). assert (HP2 := fun r z A B => proj2 (HP r z A B)).
  assert (H01 := fun r z A B => proj1 (H0 r z A B)). assert (H02 := fun r z A B => proj2 (H0 r z A B)).
  destruct (C192_ion_column_unique leg jac ocfe op psdm c th C L L' Q HG Hb HW HC HCT) as (E1 & E2).
  - apply (limit_capacity psdm op c th Cin y); assumption.
  - apply (limit_at_rest leg jac ocfe psdm op c th Cin C y); assumption.
  - apply (limit_capacity psdm op c th Cin' y'); assumption.
  - apply (limit_at_rest leg jac ocfe psdm op c th Cin' C y'); assumption.
  - assert (E : L r i z = L' r i z) by (destruct r as [|r]; [apply E1; [exact Hi|lia]|apply E2; (assumption || lia)]).
    apply (vanishes_ext (fun T => (y T r i z - L r i z) + (-1) * (y' T r i z - L' r i z))); [intros t; rewrite E; ring|].
    apply vanishes_plus; [apply HL1; assumption|apply vanishes_scal, HL2; assumption].
Qed.

(** ** Ion-exchange batch reactors *)
Section Batch.
Variables (legendre : nat -> nat -> R) (jacobi : nat -> R -> R -> nat -> R) (psdm : bool) (b : batch) (y : R -> bstate) (L : bstate).
Notation op := (build_radial legendre jacobi (b_nr b)).
Hypothesis HG : good_roots legendre jacobi.
Hypothesis HW : working_batch psdm b.
Hypothesis HT : forall Tf, is_batch_trajectory (b_nr b) (b_NION b) (batch_rhs psdm b op) Tf y.
Hypothesis HL : forall r i, (r <= b_nr b)%nat -> (i < b_NION b)%nat -> vanishes (fun T => y T r i - L r i).
Hypothesis HP : forall r, (1 <= r <= b_nr b)%nat -> 0 < L r 0%nat /\ (forall i, (i < b_NION b)%nat -> 0 <= L r i) /\
  (forall i, (i < b_NION b)%nat -> b_val b i = 2%nat -> 0 < L r i).
Lemma batch_limit_rests : batch_rests psdm b op L.
Proof.
  assert (HS : 0 < (if psdm then 1 - b_EPOR b else 1)).
  { destruct HW as (_ & _ & _ & _ & _ & _ & _ & _ & _ & Hp & _). generalize Hp. clear. destruct psdm; intros H; [destruct (H eq_refl)|]; lra. }
  destruct HW as (HN & Hr & HK & HV & Hrb & HVL & HVR & HkL & HD & Hp & HC). set (s := if psdm then 1 - b_EPOR b else 1) in *. assert (IS := Rinv_0_lt_compat _ HS).
  destruct (nonneg_batch psdm b L HN HK ltac:(unfold b_CT; lra)) as (mg & Pm & U).
  { intros r Hr1 _. fold s. destruct (HP r Hr1) as (A & B & D). split; [split|].
    - apply Rmult_lt_0_compat; assumption.
    - intros i Hi. apply Rmult_le_pos; [apply B, Hi|lra].
    - intros k Hk Ek. apply Rmult_lt_0_compat; [apply D; assumption|exact IS]. }
  destruct (fine_some psdm b op HN Hr L (ex_intro _ mg (conj Pm U))) as (d & Ed).
  exists d. split; [exact Ed|]. intros r i Hr1 Hi. rewrite (tot_rhs_ok psdm b op L d Ed).
  apply (settled_pace (fun T => y T r i) (fun T => tot_rhs psdm b op (y T) r i) (L r i)); [|apply HL; assumption|].
  - intros Tf. destruct (HT Tf) as (dd & D1 & E1). refine (evolves_ext 0 Tf _ _ _ _ _ _ (E1 r i Hr1 Hi)); [reflexivity|]. intros t Ht. apply tot_rhs_ok, D1, Ht.
  - assert (TM := tame_tot_rhs psdm b op (fun _ => True) 0 L HN Hr HK mg Pm U r i Hr1 Hi).
    apply (tame_limit _ b_at (fun _ => True) _ 0 L (fun _ => 0) y 0 TM); [intros; exact Logic.I| |].
    + apply (vanishes_ext (fun _ => 0)); [intros; ring|apply vanishes_0].
    + intros p Hpp. apply b_entries_in in Hpp as (A1 & A2). apply HL; assumption.
Qed.
End Batch.
Theorem C193_batch : forall legendre jacobi (psdm : bool) b y L,
  good_roots legendre jacobi -> working_batch psdm b ->
  let op := build_radial legendre jacobi (b_nr b) in
  (forall Tf, is_batch_trajectory (b_nr b) (b_NION b) (batch_rhs psdm b op) Tf y) ->
  (forall r i, (r <= b_nr b)%nat -> (i < b_NION b)%nat -> vanishes (fun T => y T r i - L r i)) ->
  (forall r, (1 <= r <= b_nr b)%nat -> 0 < L r 0%nat /\ (forall i, (i < b_NION b)%nat -> 0 <= L r i) /\
     (forall i, (i < b_NION b)%nat -> b_val b i = 2%nat -> 0 < L r i)) ->
  (* the beads become uniform *)
  (forall r i, (1 <= r <= b_nr b)%nat -> (i < b_NION b)%nat -> vanishes (fun T => y T r i - y T (b_nr b) i)) /\
  (* and the resin is in equilibrium with the liquid it ends in *)
  in_equilibrium (b_NION b) (b_K b) (b_val b) (fun i => L (b_nr b) i / (if psdm then 1 - b_EPOR b else 1)) (L 0%nat) /\
  (* whose total charge is that of the liquid given *)
  vanishes (fun T => rsum (b_NION b) (y T 0%nat) - rsum (b_NION b) (b_C0 b)).
Proof.
  intros leg jac psdm b y L HG HW op HT HL HP.
  destruct (C192_batch leg jac psdm b L HG HW) as (U & E & T).
  { intros r Hr. destruct (HP r Hr) as (A & B & _). split; assumption. }
  { apply (batch_limit_rests leg jac psdm b y); assumption. }
  assert (HR : (1 <= b_nr b)%nat) by apply HW.
  split; [|split; [exact E|]].
  - intros r i Hr Hi. apply (vanishes_ext (fun T => (y T r i - L r i) + (-1) * (y T (b_nr b) i - L (b_nr b) i))); [intros t; rewrite (U r i Hr Hi); ring|].
    apply vanishes_plus; [apply HL; (assumption || lia)|apply vanishes_scal, HL; (assumption || lia)].
  - rewrite <- T. apply (vanishes_ext (fun T => rsum (b_NION b) (fun i => y T 0%nat i - L 0%nat i))); [intros t; rewrite rsum_minus; reflexivity|].
    apply (vanishes_rsum (b_NION b) (fun i T => y T 0%nat i - L 0%nat i)). intros i Hi. apply HL; [lia|exact Hi].
Qed.
(** Two reactors that hold the same amount of every ion end alike, however it is shared at the start between liquid and beads. *)
Theorem C193_batch_forgets : forall legendre jacobi (psdm : bool) b y y' L L',
  good_roots legendre jacobi -> working_batch psdm b ->
  let op := build_radial legendre jacobi (b_nr b) in
  (forall Tf, is_batch_trajectory (b_nr b) (b_NION b) (batch_rhs psdm b op) Tf y /\ is_batch_trajectory (b_nr b) (b_NION b) (batch_rhs psdm b op) Tf y') ->
  (forall i, (i < b_NION b)%nat -> amount (b_nr b) (rWr op) (b_VL b) (b_VR b) (y 0) i = amount (b_nr b) (rWr op) (b_VL b) (b_VR b) (y' 0) i) ->
  (forall r i, (r <= b_nr b)%nat -> (i < b_NION b)%nat -> vanishes (fun T => y T r i - L r i) /\ vanishes (fun T => y' T r i - L' r i)) ->
  (forall r, (1 <= r <= b_nr b)%nat ->
     (0 < L r 0%nat /\ (forall i, (i < b_NION b)%nat -> 0 <= L r i) /\ (forall i, (i < b_NION b)%nat -> b_val b i = 2%nat -> 0 < L r i)) /\
     (0 < L' r 0%nat /\ (forall i, (i < b_NION b)%nat -> 0 <= L' r i) /\ (forall i, (i < b_NION b)%nat -> b_val b i = 2%nat -> 0 < L' r i))) ->
  forall r i, (r <= b_nr b)%nat -> (i < b_NION b)%nat -> vanishes (fun T => y T r i - y' T r i).
Proof.
  intros leg jac psdm b y y' L L' HG HW op HT H0 HL HP r i Hr Hi.
  assert (HL1 := fun r i A B => proj1 (HL r i A B)). assert (HL2 := fun r i A B => proj2 (HL r i A B)).
  assert (HP1 := fun r A => proj1 (HP r A)). assert (HP2 := fun r A => proj2 (HP r A)).
  assert (HT1 := fun Tf => proj1 (HT Tf)). assert (HT2 := fun Tf => proj2 (HT Tf)).
  assert (AM : forall v M, (forall Tf, is_batch_trajectory (b_nr b) (b_NION b) (batch_rhs psdm b op) Tf v) ->
    (forall r i, (r <= b_nr b)%nat -> (i < b_NION b)%nat -> vanishes (fun T => v T r i - M r i)) -> forall i, (i < b_NION b)%nat ->
    amount (b_nr b) (rWr op) (b_VL b) (b_VR b) M i = amount (b_nr b) (rWr op) (b_VL b) (b_VR b) (v 0) i).
  { intros v M V VM k Hk. destruct HW as (HN & Hr1 & HK & HV & Hrb & HVL & HVR & HkL & HD & Hp & HC).
    apply (vanishes_unique (fun T => amount (b_nr b) (rWr op) (b_VL b) (b_VR b) (v T) k)).
    - apply (vanishes_ext (fun T => b_VL b * (v T 0%nat k - M 0%nat k) + b_VR b * (3 * rsum (b_nr b) (fun m => rWr op m * (v T (S m) k - M (S m) k))))).
      + intros t. unfold amount, bead_average. rewrite (rsum_ext (b_nr b) (fun m => rWr op m * (v t (S m) k - M (S m) k)) (fun m => rWr op m * v t (S m) k - rWr op m * M (S m) k)) by (intros; ring).
        rewrite rsum_minus. ring.
      + apply vanishes_plus; [apply vanishes_scal, VM; [lia|exact Hk]|]. do 2 apply vanishes_scal.
        apply (vanishes_rsum (b_nr b) (fun m T => rWr op m * (v T (S m) k - M (S m) k))). intros m Hm. apply vanishes_scal, VM; [lia|exact Hk].
    - apply (vanishes_late 0 (fun _ => 0)); [|apply vanishes_0]. intros t Ht.
      assert (X := C17_batch_mass_conserved leg jac psdm b t v HG Hr1 ltac:(lra) ltac:(lra)). cbv zeta in X. fold op in X. rewrite (X (V t) k Hk t ltac:(lra)). ring. }
  assert (E : L r i = L' r i).
  { apply (C192_batch_unique leg jac psdm b L L' HG HW); try assumption.
    - intros k Hk. destruct (HP1 k Hk) as (A & B & _). split; assumption.
    - intros k Hk. destruct (HP2 k Hk) as (A & B & _). split; assumption.
    - apply (batch_limit_rests leg jac psdm b y); assumption.
    - apply (batch_limit_rests leg jac psdm b y'); assumption.
    - intros k Hk. assert (A1 := AM y L HT1 HL1 k Hk). assert (A2 := AM y' L' HT2 HL2 k Hk). rewrite (H0 k Hk) in A1. rewrite <- A2 in A1. exact A1. }
  apply (vanishes_ext (fun T => (y T r i - L r i) + (-1) * (y' T r i - L' r i))); [intros t; rewrite E; ring|].
  apply vanishes_plus; [apply HL1; assumption|apply vanishes_scal, HL2; assumption].
Qed.

(** ** Granular carbon *)
(** From minute [k] on the influent, the loss of capacity and the tortuosity no longer change. *)
Definition conditions_settle (g : gac_in) (rows : nat -> list (R * R)) (foul : nat -> R -> R) (k : nat) : Prop :=
  forall i j, (i < x_n g)%nat -> (k <= j)%nat ->
    cinfA g rows j i = cinfA g rows k i /\ foul i (INR j) = foul i (INR k) /\ tortu_t g j = tortu_t g k.
Lemma at_time_settled g A k t i : 0 < tconv g -> (forall j, (k <= j)%nat -> A j i = A k i) -> INR k * tconv g <= t -> at_time g A t i = A k i.
Proof.
  intros Hc HA Ht. unfold at_time. set (s := t / tconv g). assert (Hs : INR k <= s).
  { unfold s. apply (Rmult_le_reg_r (tconv g)); [exact Hc|]. replace (t / tconv g * tconv g) with t by (field; lra). exact Ht. }
  assert (K : (k <= Z.to_nat (Int_part s))%nat).
  { assert (B := base_Int_part s). rewrite INR_IZR_INZ in Hs. assert (X : (Z.of_nat k < Int_part s + 1)%Z) by (apply lt_IZR; rewrite plus_IZR; lra). lia. }
  rewrite (HA (S (Z.to_nat (Int_part s)))), (HA (Z.to_nat (Int_part s))) by lia. ring.
Qed.
Lemma settled_rhs g m nr rows foul k t y i r z : 0 < tconv g -> conditions_settle g rows foul k -> INR k * tconv g <= t -> (i < x_n g)%nat ->
  diffun g m nr rows foul t y i r z = diffun g m nr rows foul (INR k * tconv g) y i r z.
Proof.
  intros Hc HS Ht Hi.
  assert (E1 : at_time g (cinfA g rows) t i = at_time g (cinfA g rows) (INR k * tconv g) i).
  { rewrite !(at_time_settled g (cinfA g rows) k) by (assumption || lra || (intros j Hj; apply (HS i j Hi Hj))). reflexivity. }
  assert (E2 : at_time g (foulFA g foul) t i = at_time g (foulFA g foul) (INR k * tconv g) i).
  { assert (X : forall j, (k <= j)%nat -> foulFA g foul j i = foulFA g foul k i) by (intros j Hj; unfold foulFA; destruct (HS i j Hi Hj) as (_ & -> & _); reflexivity).
    rewrite !(at_time_settled g (foulFA g foul) k) by (assumption || lra). reflexivity. }
  assert (E3 : at_time g (facA g) t i = at_time g (facA g) (INR k * tconv g) i).
  { assert (X : forall j, (k <= j)%nat -> facA g j i = facA g k i) by (intros j Hj; unfold facA; destruct (HS i j Hi Hj) as (_ & _ & ->); reflexivity).
    rewrite !(at_time_settled g (facA g) k) by (assumption || lra). reflexivity. }
  unfold diffun, gac_rhs, ww, bb, cbs, cpore, cpore_raw. rewrite E1, E2, E3. reflexivity.
Qed.
Section Carbon.
Variables (g : gac_in) (m : gac_matrices) (nr : nat) (rows : nat -> list (R * R)) (foul : nat -> R -> R) (k : nat)
  (y : R -> nat -> nat -> nat -> R) (L : nat -> nat -> nat -> R).
Hypothesis HP : physical g.
Hypothesis Hx : forall i, (i < x_n g)%nat -> x_xn g i <= 1.
Hypothesis Hnr : (1 <= nr)%nat.
Hypothesis HS : conditions_settle g rows foul k.
Hypothesis HT : forall Tf, gac_trajectory (x_n g) nr (m_c m) (diffun g m nr rows foul) Tf y.
Hypothesis HL : forall i r z, (i < x_n g)%nat -> (r <= nr)%nat -> (z < m_c m)%nat -> vanishes (fun T => y T i r z - L i r z).
Hypothesis HN : forall i r z, (i < x_n g)%nat -> (r < nr)%nat -> (z < m_c m)%nat -> 0 <= L i r z.
Lemma carbon_limit_rests : carbon_at_rest g m nr rows foul (INR k * tconv g) L.
Proof.
  split; [exact HN|]. intros i r z Hi Hr Hz. assert (Hc := tconv_pos g HP). set (t0 := INR k * tconv g).
  assert (T0 : 0 <= t0) by (apply Rmult_le_pos; [apply pos_INR|lra]).
  apply (settled_pace (fun T => y T i r z) (fun T => diffun g m nr rows foul T (y T) i r z) (L i r z)); [intros b; apply (HT b); assumption|apply HL; assumption|].
  apply (vanishes_late t0 (fun T => diffun g m nr rows foul t0 (y T) i r z - diffun g m nr rows foul t0 L i r z)).
  - intros T HT0. unfold t0 in *. rewrite <- (settled_rhs g m nr rows foul k T (y T)) by assumption. reflexivity.
  - assert (TM := tame_diffun g HP Hx m nr rows foul t0 t0 L Hnr ltac:(lra) i r z Hi Hr Hz).
    apply (tame_limit _ g_at (fun s => 0 <= s <= t0) _ t0 L (fun _ => t0) y 0 TM); [intros; lra| |].
    + apply (vanishes_ext (fun _ => 0)); [intros; ring|apply vanishes_0].
    + intros p Hp. apply g_entries_in in Hp as (A1 & A2 & A3). apply HL; assumption.
Qed.
End Carbon.
Theorem C193_carbon : forall inv legendre jroots nr nz ne m g rows foul k y L,
  good_library inv legendre jroots nr nz -> calc_solver_matrix inv legendre jroots nr nz ne = Ok m -> physical g -> working_carbon g foul ->
  (forall i, (i < x_n g)%nat -> x_xn g i <= 1) -> conditions_settle g rows foul k ->
  (forall Tf, gac_trajectory (x_n g) nr (m_c m) (diffun g m nr rows foul) Tf y) ->
  (forall i r z, (i < x_n g)%nat -> (r <= nr)%nat -> (z < m_c m)%nat -> vanishes (fun T => y T i r z - L i r z)) ->
  (forall i r z, (i < x_n g)%nat -> (r < nr)%nat -> (z < m_c m)%nat -> 0 <= L i r z) ->
  (* the effluent approaches the influent *)
  (forall i z, (i < x_n g)%nat -> (1 <= z < m_c m)%nat -> vanishes (fun T => y T i nr z - cinfA g rows k i)) /\
  (* the beads become uniform throughout the bed *)
  (forall i r z r' z', (i < x_n g)%nat -> (r < nr)%nat -> (z < m_c m)%nat -> (r' < nr)%nat -> (z' < m_c m)%nat -> vanishes (fun T => y T i r z - y T i r' z')) /\
  (* and their surface is in equilibrium with the influent *)
  (forall i z, (i < x_n g)%nat -> (z < m_c m)%nat -> surface_liquid g nr foul (INR k * tconv g) L i z = cinfA g rows k i).
Proof.
  intros inv leg jr nr nz ne m g rows foul k y L HG Hm HP HW Hx HS HT HL HN.
  assert (N := nr_big inv leg jr nr nz ne m Hm). assert (Hc := tconv_pos g HP).
  destruct (C192_carbon inv leg jr nr nz ne m g rows foul (INR k * tconv g) L HG Hm HP HW) as (E1 & E2 & E3).
  { apply (carbon_limit_rests g m nr rows foul k y L); try assumption. lia. }
  assert (IN : forall i, (i < x_n g)%nat -> at_time g (cinfA g rows) (INR k * tconv g) i = cinfA g rows k i).
  { intros i Hi. apply at_time_settled; [exact Hc| |lra]. intros j Hj. apply (HS i j Hi Hj). }
  split; [|split].
  - intros i z Hi Hz. rewrite <- (IN i Hi), <- (E1 i z Hi Hz). apply HL; (assumption || lia).
  - intros i r z r' z' Hi Hr Hz Hr' Hz'.
    apply (vanishes_ext (fun T => (y T i r z - L i r z) + (-1) * (y T i r' z' - L i r' z'))); [intros t; rewrite (E2 i r z r' z') by assumption; ring|].
    apply vanishes_plus; [apply HL; (assumption || lia)|apply vanishes_scal, HL; (assumption || lia)].
  - intros i z Hi Hz. rewrite <- (IN i Hi). apply E3; assumption.
Qed.
(** Two such runs of the same bed, from any two starts, end alike. *)
Theorem C193_carbon_forgets : forall inv legendre jroots nr nz ne m g rows foul k y y' L L',
  good_library inv legendre jroots nr nz -> calc_solver_matrix inv legendre jroots nr nz ne = Ok m -> physical g -> working_carbon g foul ->
  (forall i, (i < x_n g)%nat -> x_xn g i <= 1) -> conditions_settle g rows foul k ->
  (forall Tf, gac_trajectory (x_n g) nr (m_c m) (diffun g m nr rows foul) Tf y /\ gac_trajectory (x_n g) nr (m_c m) (diffun g m nr rows foul) Tf y') ->
  (forall i r z, (i < x_n g)%nat -> (r <= nr)%nat -> (z < m_c m)%nat -> vanishes (fun T => y T i r z - L i r z) /\ vanishes (fun T => y' T i r z - L' i r z)) ->
  (forall i r z, (i < x_n g)%nat -> (r < nr)%nat -> (z < m_c m)%nat -> 0 <= L i r z /\ 0 <= L' i r z) ->
  forall i r z, (i < x_n g)%nat -> (r <= nr)%nat -> (z < m_c m)%nat -> (r = nr -> z <> 0%nat) -> vanishes (fun T => y T i r z - y' T i r z).
Proof.
  intros inv leg jr nr nz ne m g rows foul k y y' L L' HG Hm HP HW Hx HS HT HL HN i r z Hi Hr Hz NZ.
  assert (N := nr_big inv leg jr nr nz ne m Hm).
  destruct (C192_carbon_unique inv leg jr nr nz ne m g rows foul (INR k * tconv g) L L' HG Hm HP HW) as (E1 & E2).
  - apply (carbon_limit_rests g m nr rows foul k y L); try assumption; [lia|intros; apply HT|intros; apply HL; assumption|intros; apply HN; assumption].
  - apply (carbon_limit_rests g m nr rows foul k y' L'); try assumption; [lia|intros; apply HT|intros; apply HL; assumption|intros; apply HN; assumption].
  - assert (E : L i r z = L' i r z).
    { destruct (Nat.eq_dec r nr) as [->|Nr]; [apply E1; [exact Hi|]; specialize (NZ eq_refl); lia|apply E2; (assumption || lia)]. }
    apply (vanishes_ext (fun T => (y T i r z - L i r z) + (-1) * (y' T i r z - L' i r z))); [intros t; rewrite E; ring|].
    apply vanishes_plus; [apply HL; assumption|apply vanishes_scal, HL; assumption].
Qed.

(** ** Concrete cases *)
Lemma decays a k : 0 < k -> vanishes (fun T => a * exp (- k * T)).
Proof.
  intros Hk. apply vanishes_scal. intros eps He. exists (Rmax 0 (/ (k * eps))). intros t Ht.
  assert (A := Rmax_l 0 (/ (k * eps))). assert (B := Rmax_r 0 (/ (k * eps))). assert (KE : 0 < k * eps) by (apply Rmult_lt_0_compat; assumption).
  rewrite Rabs_right by (left; apply exp_pos). replace (- k * t) with (- (k * t)) by ring. rewrite exp_Ropp.
  assert (X : / eps <= k * t).
  { apply (Rmult_le_reg_l (/ k)); [apply Rinv_0_lt_compat, Hk|]. rewrite <- Rinv_mult. replace (/ k * (k * t)) with t by (field; lra). lra. }
  assert (Y : 1 + k * t <= exp (k * t)). { destruct (Req_dec (k * t) 0) as [->|N]; [rewrite exp_0; lra|]. left. apply exp_ineq1. exact N. }
  assert (IE := Rinv_0_lt_compat _ He). rewrite <- (Rinv_inv eps). apply Rinv_lt_contravar; [apply Rmult_lt_0_compat; lra|lra].
Qed.
(** A column in which nitrate leaves as the influent's half chloride, half nitrate comes through. *)
Definition set_col : column :=
  {| NION := 2; nr := 1; nz := 2; EBED := 1 / 2; EPOR := 1 / 5; Lbed := 1; vel := 3 / 2; rb := 1; Qcap := 1;
     kL := fun _ => 2 / 3; Ds := fun _ => 1; Dp := fun _ => 1; Kxc := fun _ => 1; val := fun _ => 1%nat |}.
Definition set_v (s : R) (r z : nat) : R := match r, z with O, O => 1 / 2 | S _, O => 1 / 2 + 1 / 4 * exp (- 2 * s) | O, _ => 1 / 2 + 1 / 8 * exp (- 1 * s) | S _, _ => 1 / 2 + 1 / 4 * exp (- 1 * s) end.
Definition set_run (s : R) : state := fun r i z => match i with O => 1 - set_v s r z | _ => set_v s r z end.
Definition set_rate (s : R) (r z : nat) : R := match r, z with O, O => 0 | S _, O => 1 / 4 * (- 2 * exp (- 2 * s)) | O, _ => 1 / 8 * (- 1 * exp (- 1 * s)) | S _, _ => 1 / 4 * (- 1 * exp (- 1 * s)) end.
Lemma set_moves Tf r z : evolves 0 Tf (fun s => set_v s r z) (fun s => set_rate s r z).
Proof.
  assert (A : forall a k, evolves 0 Tf (fun s => 1 / 2 + a * exp (k * s)) (fun s => a * (k * exp (k * s)))).
  { intros a k. apply (evolves_ext 0 Tf (fun s => 1 / 2 + a * exp (k * s)) _ (fun s => 0 + a * (k * exp (k * s)))); [reflexivity|intros; ring|].
    apply (evolves_plus 0 Tf (fun _ => 1 / 2) (fun s => a * exp (k * s))); [apply evolves_const|]. apply evolves_scal, evolves_exp. }
  destruct r as [|r], z as [|z]; cbn [set_v set_rate]; [apply evolves_const|apply A|apply A|apply A].
Qed.
Example ex_column_settles : forall psdm op, build_operators even_roots (fun m _ _ => even_roots m) 1 2 false = Ok op ->
  let L : state := fun _ _ _ => 1 / 2 in
  working_column psdm set_col 1 /\ influent_approaches 2 (fun _ _ => 1 / 2) (fun _ => 1 / 2) /\
  (forall Tf, is_trajectory 1 2 2 (fun T u => rhs psdm set_col op 1 (fun _ => 1 / 2) u) Tf set_run) /\
  (forall r z, rsum 2 (fun i => set_run 0 (S r) i z) = 1) /\
  (forall r i z, (r <= 1)%nat -> (i < 2)%nat -> (z < 2)%nat -> vanishes (fun T => set_run T r i z - L r i z)) /\
  set_run 0 0%nat 1%nat 1%nat <> 1 / 2.
Proof.
  intros psdm op Hop L. split; [|split; [|split; [|split; [|split]]]].
  - do 3 (split; [cbn; lia|]). split; [intros i _; cbn; lra|]. split; [split; [reflexivity|intros; left; reflexivity]|].
    do 5 (split; [cbn; lra|]). split; [cbn; intros; lra|]. intros i Hi. cbn. repeat split; intros; lra.
  - intros i _. split; [intros Tf t Ht e He; exists 1; split; [lra|]; intros s _ _; rewrite Rminus_eq_0, Rabs_R0; exact He|].
    apply (vanishes_ext (fun _ => 0)); [intros; ring|apply vanishes_0].
  - intros Tf r i z Hr Hi Hz.
    assert (O : Az op 1%nat 0%nat = -1 /\ Az op 1%nat 1%nat = 1 /\ Wr op 0%nat = 1 / 3).
    { destruct (operators_ok even_roots (fun m _ _ => even_roots m) 1 2 false op even_roots_good (le_n _) (le_n _) Hop) as (RZ & _ & _ & RW).
      assert (X := RZ 1%nat 1 ltac:(lia)). unfold apply_row in X. cbn [rsum] in X, RW.
      assert (Y : Az op 1%nat 1%nat = 1) by (unfold build_operators in Hop; apply Ok_inj in Hop; subst op; cbn; unfold px1, px2, rootsz; cbn; unfold reqb; destruct (Req_EM_T (1 - 1) 0); [|lra]; destruct (Req_EM_T (0 - 1) 0); [lra|]; cbn; field). lra. }
    destruct O as (A0 & A1 & W0).
    assert (RT : forall s, rhs psdm set_col op 1 (fun _ => 1 / 2) (set_run s) r i z = match i with O => - set_rate s r z | _ => set_rate s r z end).
    { intros s.
      assert (CE : forall (k : R) z, (z < 2)%nat -> k <> 0 -> calc_Ceq 2 (fun _ => 1) (fun _ => 1%nat) (fun i => set_run s 1%nat i z / k) (CTz set_col (fun _ => 1 / 2) (set_run s) z) 1%nat = set_v s 1%nat z).
      { intros k w Hw Nk. unfold calc_Ceq, CTz, liq. cbn [has_divalent existsb seq dv_idx Nat.eqb NION set_col rsum orb].
        unfold Ceq_mv, alpha. destruct w as [|w]; cbn [rsum Nat.eqb set_run]; field; lra. }
      assert (J : forall qs, (forall w, (w < 2)%nat -> calc_Ceq 2 (fun _ => 1) (fun _ => 1%nat) (fun i => qs i w) (CTz set_col (fun _ => 1 / 2) (set_run s) w) 1%nat = set_v s 1%nat w) ->
        forall w, (w < 2)%nat -> flux set_col (fun _ => 1 / 2) (set_run s) (fun i => qs i w) 1%nat w = - (2 / 3) * (set_v s 0%nat w - set_v s 1%nat w) /\
          flux set_col (fun _ => 1 / 2) (set_run s) (fun i => qs i w) 0%nat w = 2 / 3 * (set_v s 0%nat w - set_v s 1%nat w)).
      { intros qs HQ w Hw. unfold flux, implicit_presat. cbn [NION kL Kxc val set_col Nat.eqb Nat.sub rsum].
        rewrite (HQ w Hw). unfold liq. destruct w as [|w]; cbn [Nat.eqb set_run]; cbn [set_v]; split; field. }
      assert (D : forall (JJ : nat -> nat -> R) dq, (forall w, (w < 2)%nat -> JJ 1%nat w = - (2 / 3) * (set_v s 0%nat w - set_v s 1%nat w) /\ JJ 0%nat w = 2 / 3 * (set_v s 0%nat w - set_v s 1%nat w)) ->
        assemble set_col op 1 (fun _ => 1 / 2) (set_run s) JJ dq r i z = match i with O => - set_rate s r z | _ => set_rate s r z end).
      { intros JJ dq HJ. destruct (HJ z Hz) as (J1 & J0). unfold assemble, dC.
        destruct r as [|[|r]]; [| |lia]; destruct i as [|[|i]]; try lia; destruct z as [|[|z]]; try lia;
          cbn [Nat.eqb Nat.sub nr nz vel Lbed EBED rb rsum set_col]; rewrite ?A0, ?A1, ?W0, ?J1, ?J0; unfold liq; cbn [Nat.eqb set_run]; cbn [set_v set_rate]; field. }
      unfold rhs, diffun_psdm, diffun_hsdm. destruct psdm; apply D; intros w Hw.
      - unfold psdm_J. apply (J (fun i w => set_run s (nr set_col) i w / (1 - EPOR set_col))); [|exact Hw]. intros v Hv. apply CE; [exact Hv|cbn; lra].
      - unfold hsdm_J. apply (J (fun i w => set_run s (nr set_col) i w)); [|exact Hw]. intros v Hv. rewrite <- (CE 1 v Hv) by lra.
        unfold calc_Ceq, CTz, liq. cbn [has_divalent existsb seq dv_idx Nat.eqb NION set_col rsum orb].
        unfold Ceq_mv, alpha. destruct v as [|v]; cbn [rsum Nat.eqb set_run nr set_col]; field; lra. }
    assert (V := set_moves Tf r z). destruct i as [|i].
    + apply (evolves_ext 0 Tf (fun T => 1 + (-1) * set_v T r z) _ (fun T => 0 + (-1) * set_rate T r z)); [intros T; cbn [set_run]; ring|intros T _; rewrite RT; ring|].
      apply (evolves_plus 0 Tf (fun _ => 1) (fun T => -1 * set_v T r z)); [apply evolves_const|]. apply evolves_scal, V.
    + refine (evolves_ext 0 Tf _ _ _ _ _ _ V); [reflexivity|]. intros T _. rewrite RT. reflexivity.
  - intros r z. cbn [rsum set_run]. lra.
  - intros r i z Hr Hi Hz.
    assert (V : vanishes (fun T => set_v T r z - 1 / 2)).
    { assert (D1 := fun a => decays a 1 ltac:(lra)). assert (D2 := fun a => decays a 2 ltac:(lra)).
      destruct r as [|r], z as [|z]; cbn [set_v].
      - apply (vanishes_ext (fun _ => 0)); [intros; ring|apply vanishes_0].
      - apply (vanishes_ext (fun T => 1 / 8 * exp (- (1) * T))); [intros; replace (- (1)) with (-1) by lra; ring|apply D1].
      - apply (vanishes_ext (fun T => 1 / 4 * exp (- (2) * T))); [intros; replace (- (2)) with (-2) by lra; ring|apply D2].
      - apply (vanishes_ext (fun T => 1 / 4 * exp (- (1) * T))); [intros; replace (- (1)) with (-1) by lra; ring|apply D1]. }
    destruct i as [|i]; cbn [set_run]; unfold L; [|exact V].
    apply (vanishes_ext (fun T => (-1) * (set_v T r z - 1 / 2))); [intros; field|apply vanishes_scal, V].
  - cbn [set_run set_v]. rewrite Rmult_0_r, exp_0. lra.
Qed.
Example ex_batch_settles : forall psdm : bool, let L : bstate := fun _ _ => 1 / 2 in
  working_batch psdm ex_batch /\ (forall Tf, is_batch_trajectory 1 2 (batch_rhs psdm ex_batch ex_op) Tf ex_run) /\
  (forall r i, (r <= 1)%nat -> (i < 2)%nat -> vanishes (fun T => ex_run T r i - L r i)).
Proof.
  intros psdm L. split; [apply ex_batch_rests|]. split; [intros; apply ex_run_always|]. intros r i Hr Hi. unfold L.
  assert (D := fun a => decays a 2 ltac:(lra)).
  destruct i as [|[|i]]; [| |lia]; destruct r as [|r]; cbn [ex_run];
    [apply (vanishes_ext (fun T => - (1 / 2) * exp (- (2) * T)))|apply (vanishes_ext (fun T => 1 / 2 * exp (- (2) * T)))
    |apply (vanishes_ext (fun T => 1 / 2 * exp (- (2) * T)))|apply (vanishes_ext (fun T => - (1 / 2) * exp (- (2) * T)))]; try apply D; intros t; replace (- (2)) with (-2) by lra; field.
Qed.
Example ex_carbon_settles : forall ne m, (1 <= ne)%nat -> calc_solver_matrix inv23 leg_mid jac_one 2 3 ne = Ok m ->
  let g := g_ex 1 true 1 in let rows := fun _ : nat => [(0, 100); (1000, 100)] in let y := fun (_ : R) (_ _ _ : nat) => 1 in
  conditions_settle g rows (fun _ _ => 1) 0 /\ forall Tf, gac_trajectory (x_n g) 2 (m_c m) (diffun g m 2 rows (fun _ _ => 1)) Tf y.
Proof.
  intros ne m Hne Hm g rows y.
  assert (S : conditions_settle g rows (fun _ _ => 1) 0).
  { intros i j Hi Hj. split; [|split; reflexivity]. unfold cinfA, cin_table, rows. cbn [map fst snd interp_x]. unfold line. set (a := 100 * x_mass_mul g / x_mw g i / cb0 g i). field. }
  split; [exact S|]. intros Tf i r z Hi Hr Hz.
  assert (HP : physical g) by (apply physical_example; lia). assert (T := tconv_pos _ HP).
  apply (evolves_ext 0 Tf (fun _ => 1) _ (fun _ => 0)); [reflexivity| |apply evolves_const]. intros t Ht.
  rewrite (settled_rhs g m 2 rows (fun _ _ => 1) 0 t) by (try assumption; cbn [INR]; lra).
  replace (INR 0 * tconv g) with 0 by (cbn [INR]; ring). symmetry. apply (equilibrium_example ne m Hne Hm); assumption.
Qed.

Print Assumptions C193_ion_column.
Print Assumptions C193_ion_column_forgets.
Print Assumptions C193_batch.
Print Assumptions C193_batch_forgets.
Print Assumptions C193_carbon.
Print Assumptions C193_carbon_forgets.

