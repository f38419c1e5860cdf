(** Properties C12 and C13: local ion-exchange equilibrium. *)
From Coq Require Import Reals List Arith Bool Lra Lia.
From Verif Require Import Lib_Py Lib_Sum M_IxEq S_IxEq P_IxEq.
Import ListNotations.
Open Scope R_scope.

(** ** C12 *)

Theorem C12_separation_factor_law : forall n K q CT, (0 < n)%nat ->
  selectivities n K -> resin_composition n q ->
  electroneutral n (Ceq_mv n K q CT) CT /\
  separation_law n K q (Ceq_mv n K q CT) /\
  (0 <= CT -> forall i, (i < n)%nat -> 0 <= Ceq_mv n K q CT i).
Proof.
  intros n K q CT Hn HK Hq. split; [apply Ceq_mv_sum; assumption|].
  split; [apply Ceq_mv_law; assumption|]. intros HC i Hi. apply Ceq_mv_nonneg; assumption.
Qed.

(** It is the only composition obeying the two laws. *)
Theorem C12_unique : forall n K q CT, (0 < n)%nat ->
  selectivities n K -> resin_composition n q ->
  forall C, electroneutral n C CT -> separation_law n K q C ->
  forall i, (i < n)%nat -> C i = Ceq_mv n K q CT i.
Proof. exact Ceq_mv_unique. Qed.

(** Columns and batch reactors use it when the sheet lists no divalent ion. *)
Theorem C12_used_without_divalents : forall n K z q CT,
  (forall i, (i < n)%nat -> z i <> 2%nat) ->
  calc_Ceq n K z q CT = Ceq_mv n K q CT /\ calc_Ceq_batch n K z q CT = Some (Ceq_mv n K q CT).
Proof.
  intros n K z q CT H. unfold calc_Ceq, calc_Ceq_batch.
  assert (E : has_divalent n z = false); [|rewrite E; split; reflexivity].
  unfold has_divalent. destruct (existsb (dv_idx z) (seq 0 n)) eqn:E; [|reflexivity].
  apply existsb_exists in E. destruct E as (i & Hi & E). apply in_seq in Hi.
  unfold dv_idx in E. apply Nat.eqb_eq in E. exfalso. apply (H i); [lia|exact E].
Qed.

(** ** C13 *)

(** Columns, monovalent presaturant; the divalents may all be absent from the resin. *)
Theorem C13_mass_action_partial : forall n K z q CT, (0 < n)%nat ->
  selectivities n K -> resin_composition n q -> mono_or_divalent n z -> 0 < CT ->
  let C := Ceq_dv n K z q CT in
  electroneutral n C CT /\ mass_action_law n K z q C /\
  0 < C 0%nat /\ (forall i, (i < n)%nat -> 0 <= C i /\ (0 < q i -> 0 < C i)).
Proof.
  intros n K z q CT Hn HK Hq Hz HC C.
  split; [apply Ceq_dv_sum; try assumption; lra|].
  split; [apply Ceq_dv_law; assumption|].
  destruct (Cc_root n K z q CT HK Hq ltac:(lra)) as (_ & R2 & R3). specialize (R2 HC).
  split; [exact R2|]. intros i Hi. split.
  - apply (mass_action_nonneg n); assumption.
  - intros Hqi. apply (mass_action_pos n); assumption.
Qed.

Theorem C13_unique : forall n K z q CT, (0 < n)%nat ->
  selectivities n K -> resin_composition n q -> mono_or_divalent n z -> 0 <= CT ->
  forall C, electroneutral n C CT -> mass_action_law n K z q C -> 0 <= C 0%nat ->
  forall i, (i < n)%nat -> C i = Ceq_dv n K z q CT i.
Proof. intros n K z q CT Hn HK Hq Hz HC C HE HL H0. apply Ceq_dv_unique; assumption. Qed.

(** Batch reactors: the same composition as soon as one divalent is on the resin. *)
Theorem C13_batch_partial : forall n K z q CT, (0 < n)%nat ->
  selectivities n K -> resin_composition n q -> mono_or_divalent n z -> 0 < CT ->
  (exists i, (i < n)%nat /\ z i = 2%nat /\ 0 < q i) ->
  exists C, Ceq_dv_batch n K z q CT = Some C /\
  electroneutral n C CT /\ mass_action_law n K z q C /\ 0 < C 0%nat.
Proof.
  intros n K z q CT Hn HK Hq Hz HC Hd.
  destruct (batch_some n K z q CT HK Hq Hd) as (C & E). exists C. split; [exact E|].
  assert (S := batch_same n K z q CT HK Hq C E ltac:(lra)).
  destruct (C13_mass_action_partial n K z q CT Hn HK Hq Hz HC) as (A1 & A2 & A3 & _).
  split; [|split].
  - unfold electroneutral in *. rewrite <- A1. apply rsum_ext. intros; apply S.
  - intros i Hi1 Hi2. rewrite !S. apply A2; assumption.
  - rewrite S. exact A3.
Qed.

(** With a divalent in the sheet and none on the resin the batch formula divides
    zero by zero. *)
Theorem C13_batch_no_divalent_on_resin_refuted : forall n K z q CT,
  (forall i, (i < n)%nat -> z i = 2%nat -> q i = 0) -> Ceq_dv_batch n K z q CT = None.
Proof. exact batch_none. Qed.

(** With a divalent presaturant the total is not respected. *)
Definition one_K (i : nat) : R := 1.
Definition dv_presat (i : nat) : nat := match i with O => 2 | _ => 1 end.
Theorem C13_divalent_presaturant_refuted :
  exists n K z q CT, selectivities n K /\ resin_composition n q /\ 0 < CT /\
  (forall i, (i < n)%nat -> z i = 1%nat \/ z i = 2%nat) /\
  ~ electroneutral n (calc_Ceq n K z q CT) CT.
Proof.
  exists 2%nat, one_K, dv_presat, one_K, 1.
  split; [intros i _; unfold one_K; lra|].
  split; [split; [unfold one_K; lra|intros; unfold one_K; lra]|]. split; [lra|].
  split; [intros [|i] _; [right|left]; reflexivity|].
  unfold electroneutral, calc_Ceq. cbn [has_divalent seq existsb dv_idx dv_presat Nat.eqb orb].
  unfold Ceq_dv, mass_action, Cc_column, eq_aa, eq_bb, masked_sum, one_K.
  cbn [rsum dv_idx mv_idx dv_presat Nat.eqb andb negb pow].
  replace (((0 + 0 + 1 / 1) / 1 + 1) * (((0 + 0 + 1 / 1) / 1 + 1) * 1) -
           4 * ((0 + 1 / 1 + 0) / (1 * (1 * 1))) * -(1)) with 8 by field.
  intros H.
  assert (P : 0 < sqrt 8) by (apply sqrt_lt_R0; lra).
  assert (Q : sqrt 8 * sqrt 8 = 8) by (apply sqrt_sqrt; lra).
  apply (f_equal (fun x => x * (2 + sqrt 8))) in H. field_simplify in H; [|lra].
  replace ((-4 * sqrt 8 - 8) / (- sqrt 8 - 2)) with 4 in H by (field; lra).
  assert (E : sqrt 8 = 2) by lra. rewrite E in Q. lra.
Qed.

(** ** Concrete case: chloride presaturant, nitrate, sulphate. *)
Definition ex_K (i : nat) : R := match i with O => 1 | 1%nat => 3 | _ => 2 end.
Definition ex_z (i : nat) : nat := match i with 2%nat => 2%nat | _ => 1%nat end.
Definition ex_q (i : nat) : R := match i with O => 900 | 1%nat => 300 | _ => 200 end.
Example ex_eq_hyps : selectivities 3 ex_K /\ resin_composition 3 ex_q /\ mono_or_divalent 3 ex_z /\
  (exists i, (i < 3)%nat /\ ex_z i = 2%nat /\ 0 < ex_q i).
Proof.
  split; [|split; [|split]].
  - intros [|[|i]] _; cbn; lra.
  - split; [cbn; lra|]. intros [|[|i]] _; cbn; lra.
  - split; [reflexivity|]. intros [|[|[|i]]] H; cbn; auto.
  - exists 2%nat. cbn. repeat split; [lia|lra].
Qed.
(** No divalent on the resin but one in the sheet: the column formula still works. *)
Definition ex_q0 (i : nat) : R := match i with O => 1400 | _ => 0 end.
Example ex_eq_no_divalent_loaded : resin_composition 3 ex_q0 /\
  electroneutral 3 (Ceq_dv 3 ex_K ex_z ex_q0 5) 5 /\ Ceq_dv_batch 3 ex_K ex_z ex_q0 5 = None.
Proof.
  assert (H : resin_composition 3 ex_q0) by (split; [cbn; lra|intros [|i] _; cbn; lra]).
  split; [exact H|]. split.
  - apply (C13_mass_action_partial 3 ex_K ex_z ex_q0 5); [lia|apply ex_eq_hyps|exact H|apply ex_eq_hyps|lra].
  - apply C13_batch_no_divalent_on_resin_refuted. intros [|[|[|i]]] Hi Hz; try reflexivity; discriminate.
Qed.

Print Assumptions C12_separation_factor_law.
Print Assumptions C12_unique.
Print Assumptions C12_used_without_divalents.
Print Assumptions C13_mass_action_partial.
Print Assumptions C13_unique.
Print Assumptions C13_batch_partial.
Print Assumptions C13_batch_no_divalent_on_resin_refuted.
Print Assumptions C13_divalent_presaturant_refuted.
