(** Property C153: declaring the sparsity of the Jacobian does not change it. *)
From Coq Require Import Reals List Arith Lra Lia Bool.
From Verif Require Import Lib_Py Lib_Sum S_Solver S_Sparse P_Sparse M_Colloc S_Colloc M_IxEq M_IxColumn S_IxColumn P_IxColumn Props_IxColumn
  M_GacColumn S_GacColumn P_GacColumn Props_GacColumn Props_Solver.
Import ListNotations.
Open Scope R_scope.
Local Notation length := List.length.

Definition cell_dec : forall i j : cell, {i = j} + {i <> j}.
Proof. intros ((a, b), c) ((d, e), f). decide equality; [apply Nat.eq_dec|decide equality; apply Nat.eq_dec]. Defined.
(** [v] with [h] added to entry [j]. *)
Definition shift (v : cell -> R) (j : cell) (h : R) (m : cell) : R := if cell_dec m j then v m + h else v m.
Lemma shift_shifted v j h : shifted v j h (shift v j h).
Proof. unfold shifted, shift. split; [destruct (cell_dec j j); congruence|]. intros m N. destruct (cell_dec m j); congruence. Qed.

(** ** What is handed to the integrator *)
(** hsdmix.py 546, psdmix.py 362: the structure of the state u[phase, ion, depth], flattened *)
Definition column_structure (c : column) (k j : cell) : bool :=
  let '(r, i, z) := k in let '(r', i', z') := j in
  negb (Nat.eqb (Jac_struc (nr c) (NION c) (nz c) (flat (NION c) (nz c) r i z) (flat (NION c) (nz c) r' i' z')) 0).
Definition column_rates psdm c op th Cin (v : cell -> R) : cell -> R := pack (rhs psdm c op th Cin (unpack v)).
(** PSDM.py 1626: the same of y[compound, row, depth] *)
Definition bed_structure (nr nz ne mc : nat) (k j : cell) : bool :=
  let '(i, r, z) := k in let '(i', r', z') := j in
  negb (Nat.eqb (spar_Jac nr nz ne (gflat nr mc i r z) (gflat nr mc i' r' z')) 0).
Definition bed_rates g m nr rows foul t (v : cell -> R) : cell -> R := pack (diffun g m nr rows foul t (unpack v)).

(** ** Entries *)
Theorem C153_ion_exchange : forall psdm c op th Cin group v steps k j, (0 < NION c)%nat -> (1 <= nr c)%nat ->
  let cells := in_column (nr c) (NION c) (nz c) in
  compatible cells (column_structure c) group -> group_steps group j steps -> cells k -> cells j ->
  let F := column_rates psdm c op th Cin in
  sparse_entry (column_structure c) F v steps k j = quotient F v (shift v j (steps j)) (steps j) k.
Proof.
  intros psdm c op th Cin group v steps k j HN Hr cells HC HG Hk Hj F.
  set (all := list_prod (list_prod (seq 0 (S (nr c))) (seq 0 (NION c))) (seq 0 (nz c))).
  apply (grouped cell_dec cells (column_structure c) F all) with (group := group); try assumption.
  - intros ((r, i), z) (H1 & H2 & H3). unfold all. apply in_prod; [apply in_prod|]; apply in_seq; lia.
  - intros ((r, i), z) ((r', i'), z') u1 u2 (H1 & H2 & H3) (H4 & H5 & H6) HS HA. unfold F, column_rates. cbn [pack].
    apply C21_sparsity_sound with (r' := r') (i' := i') (z' := z'); try assumption.
    + unfold column_structure in HS. apply negb_false_iff, Nat.eqb_eq in HS. exact HS.
    + intros a b d Ha Hb Hd N. apply (HA (a, b, d)); [split; [|split]; assumption|exact N].
  - intros ((r, i), z) u1 u2 (H1 & H2 & H3) HA. unfold F, column_rates. cbn [pack].
    assert (E : forall a b d, (a <= nr c)%nat -> (b < NION c)%nat -> (d < nz c)%nat -> unpack u1 a b d = unpack u2 a b d)
      by (intros a b d Ha Hb Hd; apply (HA (a, b, d)); split; [|split]; assumption).
    destruct r as [|r].
    + apply liquid_dep; try assumption. intros a b d [-> | ->] Hb Hd; apply E; lia || assumption.
    + apply resin_dep; try assumption. intros a b Ha Hb. apply E; assumption.
  - intros ((r, i), z). unfold cells, in_column.
    destruct (le_dec r (nr c)); [|right; lia]. destruct (lt_dec i (NION c)); [|right; lia].
    destruct (lt_dec z (nz c)); [left; auto|right; lia].
  - apply shift_shifted.
Qed.

Theorem C153_granular : forall inv legendre jroots nr nz ne m g rows foul t group v steps k j,
  calc_solver_matrix inv legendre jroots nr nz ne = Ok m ->
  let cells := in_bed (x_n g) nr (m_c m) in
  let S := bed_structure nr nz ne (m_c m) in
  compatible cells S group -> group_steps group j steps -> cells k -> cells j ->
  let F := bed_rates g m nr rows foul t in
  sparse_entry S F v steps k j = quotient F v (shift v j (steps j)) (steps j) k.
Proof.
  intros inv leg jr nr nz ne m g rows foul t group v steps k j Hm cells S HC HG Hk Hj F.
  destruct (solver_matrix_inv _ _ _ _ _ _ _ Hm) as (H2 & _).
  set (all := list_prod (list_prod (seq 0 (x_n g)) (seq 0 (nr + 1))) (seq 0 (m_c m))).
  apply (grouped cell_dec cells S F all) with (group := group); try assumption.
  - intros ((i, r), z) (K1 & K2 & K3). unfold all. apply in_prod; [apply in_prod|]; apply in_seq; lia.
  - intros ((i, r), z) ((i', r'), z') u1 u2 (K1 & K2 & K3) (K4 & K5 & K6) HS HA. unfold F, bed_rates. cbn [pack].
    apply C22_sparsity_sound with (inv := inv) (legendre := leg) (jroots := jr) (nz := nz) (ne := ne) (i' := i') (r' := r') (z' := z'); try assumption.
    + unfold S, bed_structure in HS. apply negb_false_iff, Nat.eqb_eq in HS. exact HS.
    + intros a b d Ha Hb Hd N. apply (HA (a, b, d)); [split; [|split]; assumption|exact N].
  - intros ((i, r), z) u1 u2 (K1 & K2 & K3) HA. unfold F, bed_rates. cbn [pack]. unfold diffun.
    assert (E : forall a b d, (a < x_n g)%nat -> (b <= nr)%nat -> (d < m_c m)%nat -> unpack u1 a b d = unpack u2 a b d)
      by (intros a b d Ha Hb Hd; apply (HA (a, b, d)); split; [|split]; assumption).
    destruct (Nat.eq_dec r nr) as [->|Hne].
    + apply gac_liquid_dep; try assumption; try lia; intros; apply E; lia.
    + apply gac_bead_dep; try assumption; try lia; intros; apply E; lia.
  - intros ((i, r), z). unfold cells, in_bed.
    destruct (lt_dec i (x_n g)); [|right; lia]. destruct (le_dec r nr); [|right; lia].
    destruct (lt_dec z (m_c m)); [left; auto|right; lia].
  - apply shift_shifted.
Qed.

(** ** The whole Jacobian
    [columns]: the columns of the Jacobian with, for each, the steps made by its group.  Its
    product by any vector is the one of S_Solver's plain difference Jacobian; C148 and C149
    therefore hold of the integration with the declared sparsity. *)
Definition plain_columns (F : (cell -> R) -> cell -> R) (v : cell -> R) (columns : list (cell * (cell -> R))) :=
  map (fun p => (fst p, snd p (fst p), F (shift v (fst p) (snd p (fst p))))) columns.
Definition sparse_times (structure : cell -> cell -> bool) (F : (cell -> R) -> cell -> R) v columns (x : cell -> R) (k : cell) : R :=
  fold_right (fun p s => x (fst p) * sparse_entry structure F v (snd p) k (fst p) + s) 0 columns.
Lemma product structure F v columns x k :
  (forall p, In p columns -> sparse_entry structure F v (snd p) k (fst p) = quotient F v (shift v (fst p) (snd p (fst p))) (snd p (fst p)) k) ->
  sparse_times structure F v columns x k = jacobian_times (F v) (plain_columns F v columns) x k.
Proof.
  induction columns as [|p l IH]; intros H; [reflexivity|].
  unfold sparse_times, jacobian_times, plain_columns in *. cbn [fold_right map fst snd].
  rewrite (H p) by (left; reflexivity). rewrite IH by (intros q Hq; apply H; right; exact Hq). reflexivity.
Qed.
Theorem C153_ion_exchange_jacobian : forall psdm c op th Cin Tf t group v columns, (0 < NION c)%nat -> (1 <= nr c)%nat -> 0 <= t <= Tf ->
  let cells := in_column (nr c) (NION c) (nz c) in let F := column_rates psdm c op th (Cin t) in
  compatible cells (column_structure c) group ->
  (forall j steps, In (j, steps) columns -> cells j /\ group_steps group j steps) ->
  difference_jacobian cells (column_calls psdm c op th Cin Tf) (F v) (plain_columns F v columns) /\
  forall x k, cells k -> sparse_times (column_structure c) F v columns x k = jacobian_times (F v) (plain_columns F v columns) x k.
Proof.
  intros psdm c op th Cin Tf t group v columns HN Hr Ht cells F HC HG. split.
  - split; [exists t, v; split; [exact Ht|reflexivity]|].
    intros q Hq. unfold plain_columns in Hq. apply in_map_iff in Hq. destruct Hq as ((j, s) & <- & Hp).
    cbn [fst snd]. split; [apply (HG j s Hp)|]. eexists t, _. split; [exact Ht|reflexivity].
  - intros x k Hk. apply product. intros (j, s) Hp. cbn [fst snd]. destruct (HG j s Hp) as (A & B).
    apply (C153_ion_exchange psdm c op th (Cin t) group); assumption.
Qed.
Theorem C153_granular_jacobian : forall inv legendre jroots nr nz ne m g rows foul Tf t group v columns,
  calc_solver_matrix inv legendre jroots nr nz ne = Ok m -> 0 <= t <= Tf ->
  let cells := in_bed (x_n g) nr (m_c m) in let S := bed_structure nr nz ne (m_c m) in let F := bed_rates g m nr rows foul t in
  compatible cells S group ->
  (forall j steps, In (j, steps) columns -> cells j /\ group_steps group j steps) ->
  difference_jacobian cells (gac_calls g m nr rows foul Tf) (F v) (plain_columns F v columns) /\
  forall x k, cells k -> sparse_times S F v columns x k = jacobian_times (F v) (plain_columns F v columns) x k.
Proof.
  intros inv leg jr nr nz ne m g rows foul Tf t group v columns Hm Ht cells S F HC HG. split.
  - split; [exists t, v; split; [exact Ht|reflexivity]|].
    intros q Hq. unfold plain_columns in Hq. apply in_map_iff in Hq. destruct Hq as ((j, s) & <- & Hp).
    cbn [fst snd]. split; [apply (HG j s Hp)|]. eexists t, _. split; [exact Ht|reflexivity].
  - intros x k Hk. apply product. intros (j, s) Hp. cbn [fst snd]. destruct (HG j s Hp) as (A & B).
    apply (C153_granular inv leg jr nr nz ne m g rows foul t group); assumption.
Qed.

(** ** The hypotheses are met
    Two ions, two radii, two depths: the inner radii of the two depths share no row and are
    stepped together. *)
Definition c_ex : column :=
  {| NION := 2; nr := 2; nz := 2; EBED := 1 / 2; EPOR := 1 / 2; Lbed := 1; vel := 1; rb := 1; Qcap := 1;
     kL := fun _ => 1; Ds := fun _ => 1; Dp := fun _ => 1; Kxc := fun i => 1 + INR i; val := fun _ => 1%nat |}.
Definition group_ex (k : cell) : nat :=
  let '(r, i, z) := k in if Nat.eqb r 1 then (4 + i)%nat else (10 + (r * 4 + i * 2 + z))%nat.
Example grouping_example : compatible (in_column 2 2 2) (column_structure c_ex) group_ex /\
  group_ex (1, 0, 0)%nat = group_ex (1, 0, 1)%nat /\
  group_steps group_ex (1, 0, 0)%nat (fun k => if Nat.eqb (group_ex k) 4 then 1 / 1000 else 0).
Proof.
  split; [|split; [reflexivity|]].
  - set (all := list_prod (list_prod (seq 0 3) (seq 0 2)) (seq 0 2)).
    assert (IN : forall k, in_column 2 2 2 k -> In k all).
    { intros ((r, i), z) (H1 & H2 & H3). unfold all. apply in_prod; [apply in_prod|]; apply in_seq; lia. }
    assert (Q : forallb (fun k => forallb (fun j => forallb (fun j' =>
        (negb (column_structure c_ex k j) || negb (column_structure c_ex k j') || negb (Nat.eqb (group_ex j) (group_ex j'))
         || (if cell_dec j j' then true else false))%bool) all) all) all = true).
    { unfold column_structure. cbn [nr nz NION c_ex]. vm_compute. reflexivity. }
    intros k j j' Hk Hj Hj' S1 S2 E.
    rewrite forallb_forall in Q. specialize (Q k (IN k Hk)). rewrite forallb_forall in Q. specialize (Q j (IN j Hj)).
    rewrite forallb_forall in Q. specialize (Q j' (IN j' Hj')). rewrite S1, S2, (proj2 (Nat.eqb_eq _ _) E) in Q. cbn [negb orb] in Q.
    destruct (cell_dec j j'); [assumption|discriminate].
  - intros m N. cbv beta. replace (group_ex (1, 0, 0)%nat) with 4%nat in N by reflexivity.
    rewrite (proj2 (Nat.eqb_neq _ _) N). reflexivity.
Qed.
(** Every column by itself is a grouping, of the granular-carbon column too. *)
Example own_group : forall nr nz ne mc, compatible (in_bed 2 nr mc) (bed_structure nr nz ne mc) (fun k => let '(i, r, z) := k in gflat nr mc i r z).
Proof.
  intros nr nz ne mc ((i, r), z) ((i1, r1), z1) ((i2, r2), z2) _ (A1 & A2 & A3) (B1 & B2 & B3) _ _ E.
  destruct (C22_indexing nr mc i1 r1 z1 i2 r2 z2) as (-> & -> & ->); try assumption. reflexivity.
Qed.

Print Assumptions C153_ion_exchange.
Print Assumptions C153_granular.
Print Assumptions C153_ion_exchange_jacobian.
Print Assumptions C153_granular_jacobian.
