(** Proofs about the best-fit lookup. *)
From Coq Require Import Reals List Arith Bool Lra Lia Permutation Sorted ZArith FunctionalExtensionality.
From Verif Require Import Lib_Py M_GacMin P_GacFun.
Import ListNotations.
Open Scope R_scope.

Lemma reqb_true x y : reqb x y = true -> x = y.
Proof. unfold reqb. destruct (Req_EM_T x y); [trivial|discriminate]. Qed.
Lemma reqb_false x y : reqb x y = false -> x <> y.
Proof. unfold reqb. destruct (Req_EM_T x y); [discriminate|trivial]. Qed.
Lemma reqb_refl x : reqb x x = true.
Proof. unfold reqb. destruct (Req_EM_T x x); [reflexivity|congruence]. Qed.

Lemma lmin_spec l : l <> [] -> In (lmin l) l /\ forall x, In x l -> lmin l <= x.
Proof.
  induction l as [|a l IH]; [congruence|]. intros _. destruct l as [|b l].
  - cbn. split; [left; reflexivity|]. intros x [->|[]]. lra.
  - destruct IH as (I1 & I2); [discriminate|]. change (lmin (a :: b :: l)) with (if rleb a (lmin (b :: l)) then a else lmin (b :: l)).
    destruct (rleb a (lmin (b :: l))) eqn:E.
    + apply rleb_true in E. split; [left; reflexivity|]. intros x [->|Hx]; [lra|]. specialize (I2 x Hx). lra.
    + apply rleb_false in E. split; [right; exact I1|]. intros x [->|Hx]; [lra|]. apply I2, Hx.
Qed.
Lemma lmax_spec l : l <> [] -> In (lmax l) l /\ forall x, In x l -> x <= lmax l.
Proof.
  induction l as [|a l IH]; [congruence|]. intros _. destruct l as [|b l].
  - cbn. split; [left; reflexivity|]. intros x [->|[]]. lra.
  - destruct IH as (I1 & I2); [discriminate|]. change (lmax (a :: b :: l)) with (if rleb (lmax (b :: l)) a then a else lmax (b :: l)).
    destruct (rleb (lmax (b :: l)) a) eqn:E.
    + apply rleb_true in E. split; [left; reflexivity|]. intros x [->|Hx]; [lra|]. specialize (I2 x Hx). lra.
    + apply rleb_false in E. split; [right; exact I1|]. intros x [->|Hx]; [lra|]. apply I2, Hx.
Qed.

Lemma cells_in nx ny i j : In (i, j) (cells nx ny) <-> (i < nx)%nat /\ (j < ny)%nat.
Proof. unfold cells. rewrite in_prod_iff, !in_seq. lia. Qed.
Lemma nodup_app {A} (l l' : list A) : NoDup l -> NoDup l' -> (forall x, In x l -> In x l' -> False) -> NoDup (l ++ l').
Proof.
  induction l as [|a l IH]; intros H1 H2 H3; [exact H2|]. inversion H1; subst. cbn. constructor.
  - rewrite in_app_iff. intros [H|H]; [contradiction|]. apply (H3 a); [left; reflexivity|exact H].
  - apply IH; try assumption. intros x Hx Hx'. apply (H3 x); [right; exact Hx|exact Hx'].
Qed.
Lemma cells_nodup nx ny : NoDup (cells nx ny).
Proof.
  unfold cells. assert (H := seq_NoDup nx 0). induction (seq 0 nx) as [|a l IH]; [constructor|].
  inversion H; subst. cbn. apply nodup_app.
  - apply FinFun.Injective_map_NoDup; [intros x y E; congruence|apply seq_NoDup].
  - apply IH. assumption.
  - intros (x, y) H1 H4. apply in_map_iff in H1. destruct H1 as (z & E & _). injection E as -> ->.
    apply in_prod_iff in H4. tauto.
Qed.

(** ** Order statistics *)

Lemma insert_perm x l : Permutation (x :: l) (insert x l).
Proof.
  induction l as [|y l IH]; cbn; [apply Permutation_refl|].
  destruct (rleb x y); [apply Permutation_refl|].
  apply perm_trans with (y :: x :: l); [constructor|]. constructor. exact IH.
Qed.
Lemma sort_perm l : Permutation l (sort l).
Proof.
  induction l as [|x l IH]; cbn; [constructor|].
  apply perm_trans with (x :: sort l); [constructor; exact IH|apply insert_perm].
Qed.
Lemma insert_sorted x l : StronglySorted Rle l -> StronglySorted Rle (insert x l).
Proof.
  induction l as [|y l IH]; intros H; cbn; [repeat constructor|].
  inversion H as [|? ? H1 H2]; subst. destruct (rleb x y) eqn:E.
  - apply rleb_true in E. constructor; [exact H|]. constructor; [exact E|].
    rewrite Forall_forall in *. intros z Hz. specialize (H2 z Hz). lra.
  - apply rleb_false in E. constructor; [apply IH, H1|].
    rewrite Forall_forall in *. intros z Hz.
    apply (Permutation_in _ (Permutation_sym (insert_perm x l))) in Hz. destruct Hz as [<-|Hz]; [lra|apply H2, Hz].
Qed.
Lemma sort_sorted l : StronglySorted Rle (sort l).
Proof. induction l as [|x l IH]; cbn; [constructor|apply insert_sorted, IH]. Qed.
Lemma sort_length l : length (sort l) = length l.
Proof. symmetry. apply Permutation_length, sort_perm. Qed.
Lemma sorted_nth l d : StronglySorted Rle l -> forall i j, (i <= j)%nat -> (j < length l)%nat -> nth i l d <= nth j l d.
Proof.
  induction 1 as [|x l H IH F]; intros i j Hij Hj; cbn in Hj; [lia|].
  destruct i as [|i], j as [|j]; cbn; [lra| |lia|apply IH; lia].
  rewrite Forall_forall in F. apply F. apply nth_In. lia.
Qed.
(** In a sorted list at most k entries lie strictly below the k-th. *)
Lemma sorted_count l d k x : StronglySorted Rle l -> (k < length l)%nat -> x <= nth k l d ->
  (length (filter (fun v => rltb v x) l) <= k)%nat.
Proof.
  intros H. revert k. induction H as [|y l H IH F]; intros k Hk Hx; cbn in Hk; [lia|].
  cbn. destruct k as [|k].
  - cbn in Hx. assert (E : filter (fun v => rltb v x) l = []).
    { rewrite Forall_forall in F. clear -F Hx. induction l as [|z l IH]; [reflexivity|]. cbn.
      destruct (rltb z x) eqn:E.
      - apply rltb_true in E. specialize (F z (or_introl eq_refl)). lra.
      - apply IH. intros w Hw. apply F. right. exact Hw. }
    rewrite E. destruct (rltb y x) eqn:E2; [apply rltb_true in E2; lra|cbn; lia].
  - cbn in Hx. specialize (IH k ltac:(lia) Hx). destruct (rltb y x); cbn; lia.
Qed.
Lemma filter_perm {A} (f : A -> bool) l l' : Permutation l l' -> length (filter f l) = length (filter f l').
Proof.
  induction 1 as [|x l l' H IH|x y l|l l' l'' H1 IH1 H2 IH2]; cbn; [reflexivity| | |congruence].
  - destruct (f x); cbn; congruence.
  - destruct (f x), (f y); reflexivity.
Qed.

Lemma percentile_le_max l : l <> [] -> percentile10 l <= lmax l.
Proof.
  intros H. destruct (lmax_spec l H) as (_ & HM). unfold percentile10.
  assert (L : (0 < length l)%nat) by (destruct l; [congruence|cbn; lia]).
  set (n := (length l - 1)%nat). set (lo := (n / 10)%nat).
  assert (Hlo : (lo <= n)%nat) by (unfold lo; apply Nat.div_le_upper_bound; lia).
  assert (IN : forall k, (k < length l)%nat -> forall d, nth k (sort l) d <= lmax l).
  { intros k Hk d. apply HM. apply (Permutation_in _ (Permutation_sym (sort_perm l))).
    apply nth_In. rewrite sort_length. exact Hk. }
  assert (A := IN lo ltac:(unfold n in *; lia) 0).
  assert (B : nth (S lo) (sort l) (nth lo (sort l) 0) <= lmax l).
  { destruct (le_lt_dec (length l) (S lo)).
    - rewrite nth_overflow by (rewrite sort_length; lia). exact A.
    - apply IN. lia. }
  assert (F : 0 <= INR (n mod 10) / 10 <= 1).
  { assert (Hm : (n mod 10 < 10)%nat) by (apply Nat.mod_upper_bound; lia).
    assert (0 <= INR (n mod 10)) by apply pos_INR. apply lt_INR in Hm. simpl (INR 10) in Hm. lra. }
  set (a := nth lo (sort l) 0) in *. set (b := nth (S lo) (sort l) a) in *. set (f := INR (n mod 10) / 10) in *.
  clearbody a b f. replace (a + f * (b - a)) with ((1 - f) * a + f * b) by ring.
  assert ((1 - f) * a <= (1 - f) * lmax l) by (apply Rmult_le_compat_l; lra).
  assert (f * b <= f * lmax l) by (apply Rmult_le_compat_l; lra). lra.
Qed.
(** With at most 41 values, at most four lie strictly below the 10th percentile. *)
Lemma percentile_count l : (length l <= 41)%nat ->
  (length (filter (fun v => rltb v (percentile10 l)) l) <= 4)%nat.
Proof.
  intros Hn. destruct (le_lt_dec (length l) 4) as [H4|H4].
  { assert (length (filter (fun v => rltb v (percentile10 l)) l) <= length l)%nat; [|lia].
    generalize (fun v => rltb v (percentile10 l)). intros f. clear. induction l as [|x l IH]; cbn; [lia|].
    destruct (f x); cbn; lia. }
  rewrite (filter_perm _ _ _ (sort_perm l)).
  apply (sorted_count (sort l) 0 4); [apply sort_sorted|rewrite sort_length; lia|].
  unfold percentile10. set (n := (length l - 1)%nat). set (lo := (n / 10)%nat).
  assert (Hn' : n = (10 * lo + n mod 10)%nat) by (apply Nat.div_mod; lia).
  assert (Hm : (n mod 10 < 10)%nat) by (apply Nat.mod_upper_bound; lia).
  assert (Hlo : (lo <= 4)%nat) by (unfold n in *; lia).
  assert (A : nth lo (sort l) 0 <= nth 4 (sort l) 0)
    by (apply sorted_nth; [apply sort_sorted|exact Hlo|rewrite sort_length; lia]).
  destruct (Nat.eq_dec lo 4) as [E|E].
  - assert (Z : (n mod 10 = 0)%nat) by (unfold n in *; lia). rewrite Z. simpl INR. rewrite E in *. lra.
  - assert (B : nth (S lo) (sort l) (nth lo (sort l) 0) <= nth 4 (sort l) 0).
    { rewrite (nth_indep _ _ 0) by (rewrite sort_length; lia).
      apply sorted_nth; [apply sort_sorted|lia|rewrite sort_length; lia]. }
    assert (F : 0 <= INR (n mod 10) / 10 <= 1).
    { assert (0 <= INR (n mod 10)) by apply pos_INR. apply lt_INR in Hm. simpl (INR 10) in Hm. lra. }
    set (a := nth lo (sort l) 0) in *. set (b := nth (S lo) (sort l) a) in *. set (f := INR (n mod 10) / 10) in *.
    set (M := nth 4 (sort l) 0) in *.
    clearbody a b f M. replace (a + f * (b - a)) with ((1 - f) * a + f * b) by ring.
    assert ((1 - f) * a <= (1 - f) * M) by (apply Rmult_le_compat_l; lra).
    assert (f * b <= f * M) by (apply Rmult_le_compat_l; lra). lra.
Qed.

(** ** The candidates *)

Section Find.
Variables (nx ny : nat) (t0 : table) (maxv thresh : R).
Hypothesis Hx : (0 < nx)%nat.
Hypothesis Hy : (0 < ny)%nat.
Definition valid (c : nat * nat) : Prop := (fst c < nx)%nat /\ (snd c < ny)%nat.
Definition vals (t : table) := map (at_cell t) (cells nx ny).
Hypothesis Hmax : forall c, valid c -> at_cell t0 c <= maxv.
Hypothesis Hth : thresh <= maxv.

Lemma vals_ne t : vals t <> [].
Proof.
  intros E. assert (H : In (0, 0)%nat (cells nx ny)) by (apply cells_in; lia).
  apply (in_map (at_cell t)) in H. unfold vals in E. rewrite E in H. destruct H.
Qed.
Lemma min_le t c : valid c -> lmin (vals t) <= at_cell t c.
Proof.
  intros H. apply (lmin_spec _ (vals_ne t)). apply in_map. destruct c. apply cells_in. exact H.
Qed.
Lemma min_attained t : exists c, valid c /\ at_cell t c = lmin (vals t).
Proof.
  destruct (lmin_spec _ (vals_ne t)) as (H & _). apply in_map_iff in H. destruct H as ((i, j) & E & H).
  exists (i, j). split; [apply cells_in in H; exact H|exact E].
Qed.
Lemma where_in t v c : In c (where_eq nx ny t v) <-> valid c /\ at_cell t c = v.
Proof.
  unfold where_eq. rewrite filter_In. destruct c as (i, j). rewrite cells_in. unfold valid. cbn [fst snd]. split.
  - intros (H & E). apply reqb_true in E. tauto.
  - intros (H & E). split; [exact H|]. rewrite E. apply reqb_refl.
Qed.
Lemma hd_where t : let c := hd (0%nat, 0%nat) (where_eq nx ny t (lmin (vals t))) in
  valid c /\ at_cell t c = lmin (vals t).
Proof.
  destruct (min_attained t) as (c & H). apply where_in in H.
  destruct (where_eq nx ny t (lmin (vals t))) as [|d l] eqn:E; [destruct H|].
  cbn. apply where_in. rewrite E. left. reflexivity.
Qed.

(** The data at any pass: original or overwritten by the maximum. *)
Definition stage (t : table) : Prop :=
  forall c, valid c -> at_cell t c = at_cell t0 c \/ at_cell t c = maxv.
Lemma stage_0 : stage t0.
Proof. intros c _. left. reflexivity. Qed.
Lemma stage_next t : stage t -> stage (knock_out nx ny maxv t).
Proof.
  intros H c Hc. unfold knock_out, at_cell. cbv zeta. destruct (reqb (t (fst c) (snd c)) _); [right; reflexivity|].
  apply H, Hc.
Qed.
Definition proper (c : candidate) : Prop := exists t, stage t /\ c = candidate_of nx ny thresh t.
Lemma candidates_proper k t : stage t -> forall c, In c (candidates nx ny maxv thresh k t) -> proper c.
Proof.
  revert t. induction k as [|k IH]; intros t Ht c Hc; cbn in Hc; [destruct Hc|].
  destruct Hc as [<-|Hc]; [exists t; split; [exact Ht|reflexivity]|].
  apply (IH _ (stage_next t Ht) c Hc).
Qed.
Lemma best_in c l : In (best c l) (c :: l).
Proof.
  revert c. induction l as [|d l IH]; intros c; cbn [best]; [left; reflexivity|].
  destruct (score_ltb (c_score d) (c_score c)).
  - destruct (IH d) as [E|E]; [right; left; exact E|right; right; exact E].
  - destruct (IH c) as [E|E]; [left; exact E|right; right; exact E].
Qed.

Lemma neighbours_valid x y c : (x < nx)%nat -> (y < ny)%nat -> In c (neighbours nx ny x y) -> valid c.
Proof.
  intros Ha Hb H. unfold neighbours in H. destruct c as (i, j). rewrite in_prod_iff, !in_seq in H.
  unfold valid. cbn [fst snd].
  destruct (Nat.ltb_spec 0 x), (Nat.ltb_spec x (nx - 1)), (Nat.ltb_spec 0 y), (Nat.ltb_spec y (ny - 1)); lia.
Qed.
Lemma neighbours_self x y : (x < nx)%nat -> (y < ny)%nat -> In (x, y) (neighbours nx ny x y).
Proof.
  intros Ha Hb. unfold neighbours. rewrite in_prod_iff, !in_seq.
  destruct (Nat.ltb_spec 0 x), (Nat.ltb_spec x (nx - 1)), (Nat.ltb_spec 0 y), (Nat.ltb_spec y (ny - 1)); lia.
Qed.
Lemma list_prod_nodup {A B} (l : list A) (l' : list B) : NoDup l -> NoDup l' -> NoDup (list_prod l l').
Proof.
  intros H H'. induction H as [|a l Ha H IH]; cbn; [constructor|]. apply nodup_app; [|exact IH|].
  - apply FinFun.Injective_map_NoDup; [intros x y E; congruence|exact H'].
  - intros (x, y) H1 H2. apply in_map_iff in H1. destruct H1 as (z & E & _). injection E as -> ->.
    apply in_prod_iff in H2. tauto.
Qed.
Lemma neighbours_nodup x y : NoDup (neighbours nx ny x y).
Proof. apply list_prod_nodup; apply seq_NoDup. Qed.
Lemma steps_ge n x : (2 <= steps n x)%nat.
Proof. unfold steps. destruct (Nat.eqb x 0 || Nat.eqb x (n - 1))%bool; lia. Qed.

(** What a candidate whose whole neighbourhood is below the threshold is. *)
Lemma candidate_facts t : stage t ->
  let c := candidate_of nx ny thresh t in
  (c_x c < nx)%nat /\ (c_y c < ny)%nat /\ c_val c = t (c_x c) (c_y c) /\ c_val c = lmin (vals t) /\
  c_below c = length (filter (fun d => rltb (at_cell t d) thresh) (neighbours nx ny (c_x c) (c_y c))) /\
  (4 <= c_tol c)%nat.
Proof.
  intros Ht. unfold candidate_of. fold (vals t). assert (H := hd_where t). cbv zeta in H |- *.
  destruct (hd (0%nat, 0%nat) (where_eq nx ny t (lmin (vals t)))) as (x, y). cbn [c_x c_y c_val c_below c_tol].
  destruct H as (V & E). unfold valid, at_cell in *. cbn [fst snd] in *.
  repeat split; try tauto; try (symmetry; tauto). assert (A := steps_ge nx x). assert (B := steps_ge ny y). nia.
Qed.
Lemma chosen_is_entry c : proper c -> c_below c = c_tol c ->
  (c_x c < nx)%nat /\ (c_y c < ny)%nat /\ c_val c = t0 (c_x c) (c_y c).
Proof.
  intros (t & Ht & ->) Hb. destruct (candidate_facts t Ht) as (A & B & D & E & F & G). cbv zeta in *.
  set (c := candidate_of nx ny thresh t) in *. split; [exact A|]. split; [exact B|].
  destruct (Ht (c_x c, c_y c)) as [Q|Q]; [split; assumption|unfold at_cell in Q; cbn in Q; congruence|].
  exfalso. unfold at_cell in Q. cbn [fst snd] in Q.
  (* everything is at the maximum, so nothing is below the threshold *)
  assert (Z : filter (fun d => rltb (at_cell t d) thresh) (neighbours nx ny (c_x c) (c_y c)) = []).
  { assert (V := fun d => neighbours_valid (c_x c) (c_y c) d A B). clear F.
    induction (neighbours nx ny (c_x c) (c_y c)) as [|d l IH]; [reflexivity|]. cbn.
    destruct (rltb (at_cell t d) thresh) eqn:L.
    - apply rltb_true in L. assert (M := min_le t d (V d (or_introl eq_refl))). lra.
    - apply IH. intros e He. apply V. right. exact He. }
  rewrite Z in F. cbn in F. lia.
Qed.
Lemma chosen_is_min c : proper c -> c_below c = c_tol c ->
  (length (filter (fun d => rltb (at_cell t0 d) thresh) (cells nx ny)) <= 4)%nat ->
  c_val c = lmin (vals t0).
Proof.
  intros (t & Ht & ->) Hb Hcnt. destruct (candidate_facts t Ht) as (A & B & D & E & F & G). cbv zeta in *.
  set (c := candidate_of nx ny thresh t) in *.
  set (S := filter (fun d => rltb (at_cell t d) thresh) (neighbours nx ny (c_x c) (c_y c))) in *.
  set (S0 := filter (fun d => rltb (at_cell t0 d) thresh) (cells nx ny)) in *.
  assert (SS : forall d, In d S -> valid d /\ at_cell t d = at_cell t0 d /\ In d S0).
  { intros d Hd. unfold S in Hd. apply filter_In in Hd. destruct Hd as (H1 & H2).
    assert (V := neighbours_valid _ _ d A B H1). apply rltb_true in H2.
    destruct (Ht d V) as [Q|Q]; [|lra]. split; [exact V|]. split; [exact Q|].
    unfold S0. apply filter_In. split; [destruct d; apply cells_in; exact V|].
    unfold rltb. destruct (Rlt_dec (at_cell t0 d) thresh); [reflexivity|]. lra. }
  assert (INC : incl S0 S).
  { apply NoDup_length_incl; [apply NoDup_filter, neighbours_nodup|lia|]. intros d Hd. apply SS, Hd. }
  destruct (min_attained t0) as (m & Vm & Em).
  assert (Hm : In m S0).
  { destruct S as [|d l] eqn:ES; [cbn in F; lia|].
    assert (Hd := proj2 (proj2 (SS d (or_introl eq_refl)))). unfold S0 in Hd |- *.
    apply filter_In in Hd. destruct Hd as (Hd1 & Hd2). apply rltb_true in Hd2.
    apply filter_In. split; [destruct m; apply cells_in; exact Vm|].
    unfold rltb. destruct (Rlt_dec (at_cell t0 m) thresh); [reflexivity|].
    assert (M := min_le t0 d). destruct d as (i, j). apply cells_in in Hd1. specialize (M Hd1). lra. }
  apply INC in Hm. destruct (SS m Hm) as (_ & Q & _).
  assert (M1 := min_le t m Vm). rewrite E in *. rewrite Q, Em in M1.
  destruct (min_attained t) as (u & Vu & Eu). assert (M2 := min_le t0 u Vu).
  destruct (Ht u Vu) as [Q2|Q2]; [lra|]. assert (M3 := Hmax m Vm). lra.
Qed.
End Find.

(** ** The result *)

Lemma find_inv nx ny idx col t r c v : find_minimum_df nx ny idx col t = Ok (r, c, v) ->
  (0 < nx)%nat /\ (0 < ny)%nat /\
  exists i j, (i < nx)%nat /\ (j < ny)%nat /\ r = idx i /\ c = col j /\ v = t i j /\
    ((length (cells nx ny) <= 41)%nat -> v = lmin (vals nx ny t)).
Proof.
  unfold find_minimum_df. fold (vals nx ny t). intros H.
  assert (D : (0 < nx)%nat /\ (0 < ny)%nat).
  { destruct nx as [|nx]; [discriminate|]. destruct ny as [|ny]; [|lia].
    exfalso. assert (E : vals (S nx) 0 t = []).
    { unfold vals, cells. change (seq 0 0) with (@nil nat). generalize (seq 0 (S nx)). intros l.
      induction l as [|a l IHl]; [reflexivity|]. exact IHl. }
    rewrite E in H. discriminate. }
  destruct D as (Hx & Hy). split; [exact Hx|]. split; [exact Hy|].
  assert (NE := vals_ne nx ny Hx Hy t).
  destruct (vals nx ny t) as [|a l] eqn:EV; [congruence|]. rewrite <- EV in *. clear EV a l.
  assert (HM : forall d, valid nx ny d -> at_cell t d <= lmax (vals nx ny t)).
  { intros d Hd. apply (lmax_spec _ NE). apply in_map. destruct d. apply cells_in. exact Hd. }
  assert (HT := percentile_le_max _ NE).
  destruct (where_eq nx ny t (lmin (vals nx ny t))) as [|(i, j) [|? ?]] eqn:EW; try discriminate.
  assert (IJ : In (i, j) (where_eq nx ny t (lmin (vals nx ny t)))) by (rewrite EW; left; reflexivity).
  apply (where_in nx ny) in IJ. destruct IJ as (V & E).
  assert (PR := candidates_proper nx ny t (lmax (vals nx ny t)) (percentile10 (vals nx ny t)) 10 t
                  (stage_0 nx ny t (lmax (vals nx ny t)))).
  destruct (candidates nx ny _ _ 10 t) as [|c0 cs]; [discriminate|].
  destruct (existsb is_nan (c0 :: cs)); [discriminate|]. cbv zeta in H.
  assert (PB := PR _ (best_in c0 cs)). set (b := best c0 cs) in *.
  destruct (Nat.eqb_spec (c_below b) (c_tol b)) as [Hb|Hb].
  - injection H as <- <- <-. destruct (chosen_is_entry _ _ _ _ _ Hx Hy HT b PB Hb) as (A & B & F).
    exists (c_x b), (c_y b). repeat (split; [assumption || reflexivity|]). intros Hn.
    apply (chosen_is_min nx ny t _ _ Hx Hy HM HT b PB Hb).
    assert (PC := percentile_count (vals nx ny t)). unfold vals in PC at 1. rewrite map_length in PC. specialize (PC Hn).
    revert PC. unfold vals at 2. generalize (percentile10 (vals nx ny t)). intros p. clear.
    generalize (cells nx ny). intros l. induction l as [|d l IH]; cbn; [lia|].
    destruct (rltb (at_cell t d) p); cbn; intros; [|apply IH; exact PC].
    assert (length (filter (fun v => rltb v p) (map (at_cell t) l)) = length (filter (fun d => rltb (at_cell t d) p) l)).
    { clear. induction l as [|d l IH]; cbn; [reflexivity|]. destruct (rltb (at_cell t d) p); cbn; congruence. }
    lia.
  - injection H as <- <- <-. exists i, j. destruct V as (V1 & V2). cbn [fst snd] in *.
    repeat (split; [assumption || reflexivity|]). split; [symmetry; exact E|]. reflexivity.
Qed.

(** ** Evaluation on integer tables *)

Lemma rleb_IZR a b : rleb (IZR a) (IZR b) = Z.leb a b.
Proof.
  unfold rleb. destruct (Rle_dec (IZR a) (IZR b)) as [H|H].
  - apply le_IZR in H. symmetry. apply Z.leb_le, H.
  - symmetry. apply Z.leb_gt. destruct (Z_le_gt_dec a b) as [L|L]; [|lia]. exfalso. apply H, IZR_le, L.
Qed.
Lemma reqb_IZR a b : reqb (IZR a) (IZR b) = Z.eqb a b.
Proof.
  unfold reqb. destruct (Req_EM_T (IZR a) (IZR b)) as [H|H].
  - apply eq_IZR in H. subst. symmetry. apply Z.eqb_refl.
  - symmetry. apply Z.eqb_neq. intros ->. apply H. reflexivity.
Qed.
Lemma rltb_IZR a b : rltb (IZR a) (IZR b) = Z.ltb a b.
Proof.
  unfold rltb. destruct (Rlt_dec (IZR a) (IZR b)) as [H|H].
  - apply lt_IZR in H. symmetry. apply Z.ltb_lt, H.
  - symmetry. apply Z.ltb_ge. destruct (Z_le_gt_dec b a) as [L|L]; [exact L|]. exfalso. apply H, IZR_lt. lia.
Qed.
Fixpoint zmin (l : list Z) : Z :=
  match l with [] => 0%Z | [x] => x | x :: r => let m := zmin r in if Z.leb x m then x else m end.
Fixpoint zmax (l : list Z) : Z :=
  match l with [] => 0%Z | [x] => x | x :: r => let m := zmax r in if Z.leb m x then x else m end.
Fixpoint zinsert (x : Z) (l : list Z) : list Z :=
  match l with [] => [x] | y :: r => if Z.leb x y then x :: l else y :: zinsert x r end.
Fixpoint zsort (l : list Z) : list Z := match l with [] => [] | x :: r => zinsert x (zsort r) end.
Fixpoint zsum (l : list Z) : Z := match l with [] => 0%Z | x :: r => (x + zsum r)%Z end.
Lemma lmin_IZR l : lmin (map IZR l) = IZR (zmin l).
Proof.
  induction l as [|a [|b l] IH]; [reflexivity|reflexivity|].
  change (map IZR (a :: b :: l)) with (IZR a :: map IZR (b :: l)).
  change (lmin (IZR a :: map IZR (b :: l))) with
    (if rleb (IZR a) (lmin (map IZR (b :: l))) then IZR a else lmin (map IZR (b :: l))).
  rewrite IH, rleb_IZR. change (zmin (a :: b :: l)) with (if Z.leb a (zmin (b :: l)) then a else zmin (b :: l)).
  destruct (Z.leb a (zmin (b :: l))); reflexivity.
Qed.
Lemma lmax_IZR l : lmax (map IZR l) = IZR (zmax l).
Proof.
  induction l as [|a [|b l] IH]; [reflexivity|reflexivity|].
  change (map IZR (a :: b :: l)) with (IZR a :: map IZR (b :: l)).
  change (lmax (IZR a :: map IZR (b :: l))) with
    (if rleb (lmax (map IZR (b :: l))) (IZR a) then IZR a else lmax (map IZR (b :: l))).
  rewrite IH, rleb_IZR. change (zmax (a :: b :: l)) with (if Z.leb (zmax (b :: l)) a then a else zmax (b :: l)).
  destruct (Z.leb (zmax (b :: l)) a); reflexivity.
Qed.
Lemma sort_IZR l : sort (map IZR l) = map IZR (zsort l).
Proof.
  induction l as [|a l IH]; [reflexivity|]. cbn [map sort zsort]. rewrite IH.
  generalize (zsort l). intros s. clear. induction s as [|b s IH]; [reflexivity|].
  cbn [map insert zinsert]. rewrite rleb_IZR, IH. destruct (Z.leb a b); reflexivity.
Qed.
Lemma lsum_IZR l : lsum (map IZR l) = IZR (zsum l).
Proof. induction l as [|a l IH]; [reflexivity|]. cbn [map lsum zsum]. rewrite IH, plus_IZR. reflexivity. Qed.

Definition ztable := nat -> nat -> Z.
Definition embed (z : ztable) : table := fun i j => IZR (z i j).
Definition zat (z : ztable) (c : nat * nat) : Z := z (fst c) (snd c).
Lemma map_at_embed z l : map (at_cell (embed z)) l = map IZR (map (zat z) l).
Proof. rewrite map_map. reflexivity. Qed.
Record zcand := { z_num : Z; z_den : Z; z_val : Z; z_x : nat; z_y : nat; z_below : nat; z_tol : nat }.
Definition zcandidate (nx ny : nat) (th : Z) (z : ztable) : zcand :=
  let cur := zmin (map (zat z) (cells nx ny)) in
  let (x, y) := hd (0%nat, 0%nat) (filter (fun c => Z.eqb (zat z c) cur) (cells nx ny)) in
  let sub := neighbours nx ny x y in
  {| z_num := zsum (map (fun c => zat z c - cur)%Z sub); z_den := (Z.of_nat (length sub) * cur)%Z;
     z_val := cur; z_x := x; z_y := y;
     z_below := length (filter (fun c => Z.ltb (zat z c) th) sub);
     z_tol := (steps nx x * steps ny y)%nat |}.
Definition unz (c : zcand) : candidate :=
  {| c_score := Fin (IZR (z_num c) / IZR (z_den c)); c_val := IZR (z_val c); c_x := z_x c; c_y := z_y c;
     c_below := z_below c; c_tol := z_tol c |}.
Definition zknock (nx ny : nat) (mx : Z) (z : ztable) : ztable :=
  let cur := zmin (map (zat z) (cells nx ny)) in fun i j => if Z.eqb (z i j) cur then mx else z i j.
Fixpoint zcandidates (nx ny : nat) (mx th : Z) (k : nat) (z : ztable) : list zcand :=
  match k with O => [] | S k => zcandidate nx ny th z :: zcandidates nx ny mx th k (zknock nx ny mx z) end.
Lemma filter_ext_in' {A} (f g : A -> bool) l : (forall x, f x = g x) -> filter f l = filter g l.
Proof. intros H. induction l as [|x l IH]; [reflexivity|]. cbn. rewrite H, IH. reflexivity. Qed.
Lemma candidate_embed nx ny th z : (0 < z_den (zcandidate nx ny th z))%Z ->
  candidate_of nx ny (IZR th) (embed z) = unz (zcandidate nx ny th z).
Proof.
  unfold candidate_of, zcandidate, unz. rewrite map_at_embed, lmin_IZR.
  set (cur := zmin (map (zat z) (cells nx ny))).
  assert (W : where_eq nx ny (embed z) (IZR cur) = filter (fun c => Z.eqb (zat z c) cur) (cells nx ny)).
  { unfold where_eq. apply filter_ext_in'. intros c. apply reqb_IZR. }
  cbv zeta. rewrite W.
  destruct (hd (0%nat, 0%nat) (filter (fun c => Z.eqb (zat z c) cur) (cells nx ny))) as (x, y).
  cbn [z_num z_den z_val z_x z_y z_below z_tol]. intros HD.
  set (sub := neighbours nx ny x y) in *.
  assert (C0 : cur <> 0%Z) by lia.
  assert (L0 : (0 < Z.of_nat (length sub))%Z) by nia.
  f_equal.
  - change 0 with (IZR 0) at 1. rewrite reqb_IZR, (proj2 (Z.eqb_neq _ _) C0). f_equal.
    replace (map (fun c => at_cell (embed z) c - IZR cur) sub) with (map IZR (map (fun c => zat z c - cur)%Z sub)).
    + rewrite lsum_IZR, mult_IZR, <- INR_IZR_INZ. assert (N1 : IZR cur <> 0) by (apply not_0_IZR; exact C0).
      assert (N2 : INR (length sub) <> 0) by (apply not_0_INR; lia). field. split; assumption.
    + rewrite map_map. apply map_ext. intros c. rewrite minus_IZR. reflexivity.
  - f_equal. apply filter_ext_in'. intros c. apply rltb_IZR.
Qed.
Lemma knock_embed nx ny mx z : knock_out nx ny (IZR mx) (embed z) = embed (zknock nx ny mx z).
Proof.
  unfold knock_out, zknock, embed at 1. rewrite map_at_embed, lmin_IZR. cbv zeta.
  apply functional_extensionality. intros i. apply functional_extensionality. intros j.
  unfold embed. rewrite reqb_IZR. destruct (Z.eqb _ _); reflexivity.
Qed.
Lemma candidates_embed nx ny mx th k z :
  forallb (fun c => Z.ltb 0 (z_den c)) (zcandidates nx ny mx th k z) = true ->
  candidates nx ny (IZR mx) (IZR th) k (embed z) = map unz (zcandidates nx ny mx th k z).
Proof.
  revert z. induction k as [|k IH]; intros z H; [reflexivity|]. cbn [zcandidates forallb] in H.
  apply andb_prop in H. destruct H as (H1 & H2). cbn [candidates zcandidates map].
  rewrite candidate_embed by (apply Z.ltb_lt, H1). rewrite knock_embed, IH by exact H2. reflexivity.
Qed.
Fixpoint zbest (c : zcand) (l : list zcand) : zcand :=
  match l with
  | [] => c
  | d :: r => if Z.ltb (z_num d * z_den c) (z_num c * z_den d) then zbest d r else zbest c r
  end.
Lemma frac_lt a b c d : (0 < b)%Z -> (0 < d)%Z ->
  rltb (IZR a / IZR b) (IZR c / IZR d) = Z.ltb (a * d) (c * b).
Proof.
  intros Hb Hd. apply IZR_lt in Hb, Hd. rewrite <- rltb_IZR, !mult_IZR.
  assert (P : 0 < IZR b * IZR d) by (apply Rmult_lt_0_compat; assumption).
  assert (E1 : IZR a * IZR d = IZR a / IZR b * (IZR b * IZR d)) by (field; lra).
  assert (E2 : IZR c * IZR b = IZR c / IZR d * (IZR b * IZR d)) by (field; lra).
  rewrite E1, E2. set (u := IZR a / IZR b). set (v := IZR c / IZR d). set (p := IZR b * IZR d) in *. clearbody u v p.
  unfold rltb. destruct (Rlt_dec u v), (Rlt_dec (u * p) (v * p)); try reflexivity; exfalso.
  - apply n. apply Rmult_lt_compat_r; assumption.
  - apply n. apply Rmult_lt_reg_r with p; assumption.
Qed.
Lemma best_unz c l : forallb (fun c => Z.ltb 0 (z_den c)) (c :: l) = true ->
  best (unz c) (map unz l) = unz (zbest c l).
Proof.
  revert c. induction l as [|d l IH]; intros c H; [reflexivity|].
  cbn [forallb] in H. apply andb_prop in H. destruct H as (H1 & H). apply andb_prop in H. destruct H as (H2 & H3).
  cbn [map best zbest]. unfold unz at 1 2. cbn [c_score score_ltb].
  apply Z.ltb_lt in H1, H2. rewrite frac_lt by assumption. apply Z.ltb_lt in H1, H2.
  destruct (z_num d * z_den c <? z_num c * z_den d)%Z; apply IH; cbn [forallb]; rewrite ?H1, ?H2, H3; reflexivity.
Qed.
Lemma no_nan l : existsb is_nan (map unz l) = false.
Proof. induction l; [reflexivity|]. exact IHl. Qed.

(** Everything the lookup computes on an integer table whose size is one more than a
    multiple of ten. *)
Lemma find_embed nx ny idx col z : let zv := map (zat z) (cells nx ny) in
  let n := (length zv - 1)%nat in
  zv <> [] -> (n mod 10 = 0)%nat ->
  let mn := zmin zv in let th := nth (n / 10) (zsort zv) 0%Z in
  let cs := zcandidates nx ny (zmax zv) th 10 z in
  forallb (fun c => Z.ltb 0 (z_den c)) cs = true ->
  forall i j, filter (fun c => Z.eqb (zat z c) mn) (cells nx ny) = [(i, j)] ->
  find_minimum_df nx ny idx col (embed z)
  = match cs with
    | [] => Err IndexError
    | c :: r => let b := zbest c r in
                if Nat.eqb (z_below b) (z_tol b)
                then Ok (idx (z_x b), col (z_y b), IZR (z_val b))
                else Ok (idx i, col j, IZR mn)
    end.
Proof.
  intros zv n NE Hn mn th cs Hcs i j Hij. unfold find_minimum_df.
  rewrite map_at_embed. fold zv.
  assert (PC : percentile10 (map IZR zv) = IZR th).
  { unfold percentile10. rewrite map_length, sort_IZR. fold n. rewrite Hn. simpl INR.
    change 0 with (IZR 0) at 1. rewrite map_nth. fold th. lra. }
  rewrite PC, lmin_IZR, lmax_IZR. fold mn. cbv zeta.
  assert (W : where_eq nx ny (embed z) (IZR mn) = [(i, j)]).
  { rewrite <- Hij. unfold where_eq. apply filter_ext_in'. intros c. apply reqb_IZR. }
  rewrite W, candidates_embed by exact Hcs. fold cs.
  destruct zv as [|a l]; [congruence|]. cbn [map].
  destruct cs as [|c r] eqn:E; [reflexivity|]. cbn [map].
  rewrite best_unz by exact Hcs. change (unz c :: map unz r) with (map unz (c :: r)). rewrite no_nan.
  reflexivity.
Qed.

(** A lookup on positive data with a single minimum never fails. *)
Lemma find_total nx ny idx col t : (0 < nx)%nat -> (0 < ny)%nat ->
  (forall i j, (i < nx)%nat -> (j < ny)%nat -> 0 < t i j) ->
  (exists i j, (i < nx)%nat /\ (j < ny)%nat /\
     forall i' j', (i' < nx)%nat -> (j' < ny)%nat -> (i', j') <> (i, j) -> t i j < t i' j') ->
  exists r, find_minimum_df nx ny idx col t = Ok r.
Proof.
  intros Hx Hy Hpos (i & j & Hi & Hj & Hmin).
  assert (NE := vals_ne nx ny Hx Hy t).
  assert (MN : lmin (vals nx ny t) = t i j).
  { destruct (min_attained nx ny Hx Hy t) as ((a, b) & (Va & Vb) & E). cbn [fst snd] in *.
    assert (M := min_le nx ny Hx Hy t (i, j) (conj Hi Hj)). unfold at_cell in *. cbn [fst snd] in *.
    destruct (Nat.eq_dec a i) as [->|Ha]; [destruct (Nat.eq_dec b j) as [->|Hb]|].
    - symmetry. exact E.
    - assert (L := Hmin i b Va Vb ltac:(congruence)). lra.
    - assert (L := Hmin a b Va Vb ltac:(congruence)). lra. }
  assert (HM : forall d, valid nx ny d -> 0 < at_cell t d <= lmax (vals nx ny t)).
  { intros d Hd. split; [apply Hpos; apply Hd|]. apply (lmax_spec _ NE). apply in_map. destruct d. apply cells_in. exact Hd. }
  unfold find_minimum_df. fold (vals nx ny t).
  assert (W : where_eq nx ny t (lmin (vals nx ny t)) = [(i, j)]).
  { assert (IN : forall c, In c (where_eq nx ny t (lmin (vals nx ny t))) <-> c = (i, j)).
    { intros (a, b). rewrite where_in. unfold valid, at_cell. cbn [fst snd]. split.
      - intros ((Va & Vb) & E). destruct (Nat.eq_dec a i) as [->|Ha]; [destruct (Nat.eq_dec b j) as [->|Hb]|].
        + reflexivity.
        + assert (L := Hmin i b Va Vb ltac:(congruence)). lra.
        + assert (L := Hmin a b Va Vb ltac:(congruence)). lra.
      - intros E. injection E as -> ->. auto. }
    assert (ND : NoDup (where_eq nx ny t (lmin (vals nx ny t)))) by (apply NoDup_filter, cells_nodup).
    destruct (where_eq nx ny t (lmin (vals nx ny t))) as [|c [|d l]] eqn:EW.
    - exfalso. apply (proj2 (IN (i, j))); reflexivity.
    - f_equal. apply IN. left. reflexivity.
    - exfalso. assert (c = (i, j)) by (apply IN; left; reflexivity).
      assert (d = (i, j)) by (apply IN; right; left; reflexivity). subst. inversion ND; subst. apply H1. left. reflexivity. }
  destruct (vals nx ny t) as [|a l] eqn:EV; [congruence|]. rewrite <- EV in *. clear EV a l. cbv zeta. rewrite W.
  set (mx := lmax (vals nx ny t)) in *. set (th := percentile10 (vals nx ny t)).
  assert (NN : forall k t', stage nx ny t mx t' -> existsb is_nan (candidates nx ny mx th k t') = false).
  { induction k as [|k IH]; intros t' Ht'; [reflexivity|]. cbn [candidates existsb].
    rewrite IH by (apply stage_next; exact Ht'). rewrite orb_false_r.
    unfold candidate_of, is_nan. fold (vals nx ny t').
    destruct (min_attained nx ny Hx Hy t') as (c & Vc & Ec).
    assert (P : lmin (vals nx ny t') <> 0).
    { rewrite <- Ec. destruct (HM c Vc) as (H1 & H2). destruct (Ht' c Vc) as [-> | ->]; lra. }
    destruct (hd (0%nat, 0%nat) _) as (x, y). cbn [c_score].
    destruct (reqb (lmin (vals nx ny t')) 0) eqn:E; [apply reqb_true in E; contradiction|]; reflexivity. }
  specialize (NN 10%nat t (stage_0 nx ny t mx)).
  destruct (candidates nx ny mx th 10 t) as [|c r] eqn:EC; [discriminate|].
  rewrite NN. destruct (Nat.eqb _ _); eexists; reflexivity.
Qed.
