(** Property C38: the best-fit lookup. *)
From Coq Require Import Reals List Arith Bool Lra Lia ZArith FunctionalExtensionality.
From Verif Require Import Lib_Py P_GacFun M_GacMin P_GacMin.
Import ListNotations.
Open Scope R_scope.

(** ** Vocabulary *)

(** The entry at row [i], column [j] of an [nx] by [ny] table is beaten by no other. *)
Definition least_entry (nx ny : nat) (t : nat -> nat -> R) (i j : nat) : Prop :=
  (i < nx)%nat /\ (j < ny)%nat /\
  forall i' j', (i' < nx)%nat -> (j' < ny)%nat -> t i j <= t i' j'.
(** ... and by no other equalled. *)
Definition only_least_entry (nx ny : nat) (t : nat -> nat -> R) (i j : nat) : Prop :=
  (i < nx)%nat /\ (j < ny)%nat /\
  forall i' j', (i' < nx)%nat -> (j' < ny)%nat -> (i', j') <> (i, j) -> t i j < t i' j'.

(** ** What holds for every table *)

(** Whatever is returned is an entry of the table, with the labels of its own row and
    column. *)
Theorem C38_entry_with_labels : forall nx ny index columns t k x v,
  find_minimum_df nx ny index columns t = Ok (k, x, v) ->
  exists i j, (i < nx)%nat /\ (j < ny)%nat /\ k = index i /\ x = columns j /\ v = t i j.
Proof.
  intros. destruct (find_inv _ _ _ _ _ _ _ _ H) as (_ & _ & i & j & Hi & Hj & E1 & E2 & E3 & _).
  exists i, j. repeat split; assumption.
Qed.
Print Assumptions C38_entry_with_labels.

(** Tables of positive errors with one smallest entry always give a result. *)
Theorem C38_succeeds : forall nx ny index columns t i0 j0,
  (forall i j, (i < nx)%nat -> (j < ny)%nat -> 0 < t i j) ->
  only_least_entry nx ny t i0 j0 ->
  exists k x v, find_minimum_df nx ny index columns t = Ok (k, x, v).
Proof.
  intros nx ny idx col t i j Hpos (Hi & Hj & Hmin).
  destruct (find_total nx ny idx col t) as (((k & x) & v) & E); [lia|lia|exact Hpos|exists i, j; auto|].
  exists k, x, v. exact E.
Qed.
Print Assumptions C38_succeeds.

(** ** What holds up to a size *)

(** On a table of at most 41 entries (every table of the refining search: five by five)
    the result is a least entry: the full claim, restricted in size. *)
Theorem C38_minimum_partial : forall nx ny index columns t k x v,
  (nx * ny <= 41)%nat ->
  find_minimum_df nx ny index columns t = Ok (k, x, v) ->
  exists i j, least_entry nx ny t i j /\ k = index i /\ x = columns j /\ v = t i j.
Proof.
  intros nx ny idx col t k x v Hs H.
  destruct (find_inv _ _ _ _ _ _ _ _ H) as (Hx & Hy & i & j & Hi & Hj & E1 & E2 & E3 & E4).
  exists i, j. repeat split; try assumption.
  intros i' j' Hi' Hj'. rewrite <- E3, E4.
  - apply (min_le nx ny Hx Hy t (i', j')). split; assumption.
  - unfold cells. rewrite prod_length, !seq_length. exact Hs.
Qed.
Print Assumptions C38_minimum_partial.

(** On such a table with positive errors and one smallest entry, that entry is what the
    lookup returns. *)
Theorem C38_small_tables : forall nx ny index columns t i0 j0,
  (nx * ny <= 41)%nat ->
  (forall i j, (i < nx)%nat -> (j < ny)%nat -> 0 < t i j) ->
  only_least_entry nx ny t i0 j0 ->
  find_minimum_df nx ny index columns t = Ok (index i0, columns j0, t i0 j0).
Proof.
  intros nx ny idx col t i0 j0 Hs Hpos H.
  destruct (C38_succeeds nx ny idx col t i0 j0 Hpos H) as (k & x & v & E).
  destruct (C38_minimum_partial _ _ _ _ _ _ _ _ Hs E) as (i & j & (Hi & Hj & L) & -> & -> & ->).
  destruct H as (Hi0 & Hj0 & U).
  destruct (Nat.eq_dec i i0) as [->|Ni]; [destruct (Nat.eq_dec j j0) as [->|Nj]|].
  - exact E.
  - specialize (U i0 j Hi Hj ltac:(congruence)). specialize (L i0 j0 Hi0 Hj0). lra.
  - specialize (U i j Hi Hj ltac:(congruence)). specialize (L i0 j0 Hi0 Hj0). lra.
Qed.
Print Assumptions C38_small_tables.

(** Non-vacuity: a five by five bowl with its bottom at row 2, column 3. *)
Definition bowl : nat -> nat -> R := fun i j =>
  1 + (INR i - 2) * (INR i - 2) + (INR j - 3) * (INR j - 3).
Example bowl_only_least : only_least_entry 5 5 bowl 2 3.
Proof.
  split; [lia|]. split; [lia|]. intros i j Hi Hj N.
  destruct i as [|[|[|[|[|i]]]]]; [| | | | |lia];
    (destruct j as [|[|[|[|[|j]]]]]; [| | | | |lia]); unfold bowl; simpl; try lra.
  exfalso. apply N. reflexivity.
Qed.
Example bowl_found : find_minimum_df 5 5 (fun i => 100 + INR i) (fun j => 40 + INR j) bowl
  = Ok (102, 43, 1).
Proof.
  rewrite (C38_small_tables 5 5 _ _ bowl 2 3); [|lia| |exact bowl_only_least].
  - unfold bowl. simpl. f_equal. f_equal; [f_equal|]; lra.
  - intros i j _ _. unfold bowl.
    assert (H1 := Rle_0_sqr (INR i - 2)). assert (H2 := Rle_0_sqr (INR j - 3)). unfold Rsqr in *. lra.
Qed.

(** ** What fails *)

(** A table whose smallest value occurs twice gives no result at all. *)
Theorem C38_ties_refuted : forall nx ny index columns t i j i' j',
  least_entry nx ny t i j -> least_entry nx ny t i' j' -> (i, j) <> (i', j') ->
  find_minimum_df nx ny index columns t = Err TypeError.
Proof.
  intros nx ny idx col t i j i' j' (Hi & Hj & L) (Hi' & Hj' & L') N.
  assert (Hx : (0 < nx)%nat) by lia. assert (Hy : (0 < ny)%nat) by lia.
  assert (M : forall a b, least_entry nx ny t a b -> In (a, b) (where_eq nx ny t (lmin (vals nx ny t)))).
  { intros a b (Ha & Hb & Lab). apply where_in. split; [split; assumption|].
    destruct (min_attained nx ny Hx Hy t) as ((a', b') & (Va & Vb) & E). rewrite <- E.
    assert (Q := min_le nx ny Hx Hy t (a, b) (conj Ha Hb)). rewrite <- E in Q.
    specialize (Lab a' b' Va Vb). unfold at_cell in *. cbn [fst snd] in *. lra. }
  assert (M1 := M i j (conj Hi (conj Hj L))). assert (M2 := M i' j' (conj Hi' (conj Hj' L'))).
  unfold find_minimum_df. fold (vals nx ny t).
  assert (NE := vals_ne nx ny Hx Hy t). destruct (vals nx ny t) as [|a l] eqn:E; [congruence|].
  rewrite <- E in *. clear E a l. cbv zeta.
  destruct (where_eq nx ny t (lmin (vals nx ny t))) as [|(a, b) [|d l]]; [reflexivity| |reflexivity].
  exfalso. destruct M1 as [M1|[]], M2 as [M2|[]]. congruence.
Qed.
Print Assumptions C38_ties_refuted.

(** A table of one entry, zero (a perfect fit), is rejected as well; a positive entry is
    accepted. *)
Theorem C38_perfect_fit_refuted : forall index columns,
  find_minimum_df 1 1 index columns (fun _ _ => 0) = Err IndexError.
Proof.
  intros idx col. unfold find_minimum_df, cells, at_cell. cbn [seq list_prod map app fst snd].
  cbn [lmin lmax]. unfold where_eq, cells, at_cell. cbn [seq list_prod map app filter fst snd].
  rewrite reqb_refl. cbn [candidates].
  assert (C : is_nan (candidate_of 1 1 (percentile10 [0]) (fun _ _ => 0)) = true).
  { unfold candidate_of, where_eq, cells, at_cell. cbn [seq list_prod map app filter fst snd lmin].
    rewrite reqb_refl. cbn [hd]. unfold is_nan. cbn [c_score].
    match goal with |- context [reqb ?m 0] => replace m with 0 by (cbn; lra) end. rewrite reqb_refl. reflexivity. }
  cbn [existsb]. rewrite C. reflexivity.
Qed.
Print Assumptions C38_perfect_fit_refuted.

(** On larger tables the result need not be the least entry, even with positive errors
    and a single smallest entry: a sharp minimum of 1 is passed over for a 10 with a
    flatter surrounding. *)
Definition spiked_z : ztable := fun i j =>
  match i, j with
  | 0%nat, 0%nat => 10 | 0%nat, 1%nat => 11 | 1%nat, 0%nat => 12 | 1%nat, 1%nat => 13
  | 1%nat, 4%nat => 1
  | 0%nat, 6%nat => 100 | 2%nat, 8%nat => 101 | 0%nat, 10%nat => 102 | 2%nat, 12%nat => 103
  | 0%nat, 14%nat => 104
  | _, _ => 1000
  end%Z.
Definition spiked : nat -> nat -> R := fun i j => IZR (spiked_z i j).
Theorem C38_minimum_refuted :
  only_least_entry 3 17 spiked 1 4 /\ spiked 1 4 = 1 /\
  (forall i j, 0 < spiked i j) /\
  forall index columns, find_minimum_df 3 17 index columns spiked = Ok (index 0%nat, columns 0%nat, 10).
Proof.
  split; [|split; [reflexivity|split]].
  - split; [lia|]. split; [lia|]. intros i j Hi Hj N. apply IZR_lt.
    destruct i as [|[|[|i]]]; [| | |lia];
      (do 17 (destruct j as [|j]; [first [solve [cbn; lia] | exfalso; apply N; reflexivity]|])); lia.
  - intros i j. apply IZR_lt.
    destruct i as [|[|[|i]]]; (do 17 (destruct j as [|j]; [cbn; lia|])); cbn; lia.
  - intros idx col. change spiked with (embed spiked_z).
    rewrite (find_embed 3 17 idx col spiked_z) with (i := 1%nat) (j := 4%nat).
    + vm_compute zcandidates. reflexivity.
    + vm_compute. discriminate.
    + vm_compute. reflexivity.
    + vm_compute. reflexivity.
    + vm_compute. reflexivity.
Qed.
Print Assumptions C38_minimum_refuted.
