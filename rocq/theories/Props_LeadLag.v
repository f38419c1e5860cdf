(** Properties C53, C54, C80-C83: vessels in series. *)
From Coq Require Import FunctionalExtensionality Reals List Arith Bool String Ascii Lra Lia ZArith.
From Verif Require Import Lib_Py M_GacSheet M_GacFun P_GacFun M_GacSmart P_GacSmart M_GacMin M_IxUnc P_IxUnc M_Units M_Tools M_LeadLag P_LeadLag.
Import ListNotations.
Open Scope R_scope.
Open Scope string_scope.
Local Notation length := List.length.

(** ** Vocabulary *)
(** [v] is the value of the broken line through the points at [t], inside their range. *)
Definition on_curve (tbl : series) (t v : R) : Prop :=
  v = interp_x tbl t /\ exists first, hd_error tbl = Some first /\ fst first <= t <= fst (last tbl (0, 0)).
(** [x] holds a value every quarter day from day 0 on: [v] at day [t]. *)
Definition at_day (x : list R) (t v : R) : Prop := exists k, t = INR k / 4 /\ nth_error x k = Some v.

(** ** C53, carbon *)
(** What the vessel is fed: before the swap the earlier effluent, [shift] days later in
    that vessel's life; from the swap on the raw water. *)
Definition fed (raw s shift : R) (earlier feed : series) : Prop :=
  map fst feed = quarters 0 (run_duration s) /\
  forall t v, In (t, v) feed -> (t < s -> on_curve earlier (t + shift) v) /\ (s <= t -> v = raw).

Lemma curve_on tbl t y : curve tbl t = Ok y -> on_curve tbl t y.
Proof. intros H. destruct (curve_ok _ _ _ H) as (E & x0 & y0 & r & -> & B). split; [exact E|]. exists (x0, y0). split; [reflexivity|exact B]. Qed.
Lemma combine_fst {A B} : forall (l : list A) (r : list B), (length l <= length r)%nat -> map fst (combine l r) = l.
Proof. induction l as [|a l IH]; intros [|b r] H; cbn in *; try lia; [reflexivity|reflexivity|]. f_equal. apply IH. lia. Qed.
Lemma filter_len {A} (p : A -> bool) l : (length (filter p l) <= length l)%nat.
Proof. induction l as [|a l IH]; [auto|]. cbn. destruct (p a); cbn; lia. Qed.
Lemma before_swap s N k : (k < N)%nat ->
  (INR k / 4 < s <-> (k < length (filter (fun t => rltb t s) (map (fun k => (INR k / 4)%R) (seq 0 N))))%nat).
Proof.
  intros H. rewrite filter_map_len. rewrite <- (prefix_count (fun k => rltb (INR k / 4) s)); [rewrite rltb_true; reflexivity| |exact H].
  intros j Q. apply rltb_true in Q. apply rltb_true. rewrite S_INR in Q. lra.
Qed.
Lemma upto_swap s N k : (k < N)%nat ->
  (INR k / 4 <= s <-> (k < length (filter (fun t => rleb t s) (map (fun k => (INR k / 4)%R) (seq 0 N))))%nat).
Proof.
  intros H. rewrite filter_map_len. rewrite <- (prefix_count (fun k => rleb (INR k / 4) s)); [rewrite rleb_true; reflexivity| |exact H].
  intros j Q. apply rleb_true in Q. apply rleb_true. rewrite S_INR in Q. lra.
Qed.

Section Carbon.
Variables (gac : series -> res series) (raw s : R).
Let shift (i : nat) : R := match i with O => 0 | _ => s end.
Lemma step_fed i r r' : ll_step gac raw s i r = Ok r' -> exists feed, gac feed = Ok r' /\ fed raw s (shift i) r feed.
Proof.
  unfold ll_step. intros H. destruct (bind_inv _ _ _ H) as (vals & H1 & H2). destruct (bind_inv _ _ _ H2) as (feed & H3 & H4).
  destruct (put_inv _ _ _ _ H3) as (L & E). set (tv := quarters 0 (run_duration s)) in *.
  exists (combine tv feed). split; [exact H4|].
  assert (TV : tv = map (fun k => INR k / 4) (seq 0 (length tv))) by apply quarters0.
  set (m := length (filter (fun t => rltb t s) tv)) in *.
  assert (ML : (m <= length tv)%nat) by (apply filter_len).
  split.
  - apply combine_fst. rewrite E, app_length, skipn_length, map_length. fold tv. lia.
  - intros t v I. apply In_nth_error in I as (k & I). apply nth_error_combine in I as (I1 & I2).
    destruct (nth_error_quarters _ _ _ _ I1) as (T & K). fold tv in K.
    assert (Q : INR k / 4 < s <-> (k < m)%nat).
    { unfold m. rewrite TV. apply before_swap. exact K. }
    assert (T' : t = INR k / 4) by lra. clear T. rewrite T'. split.
    + intros B. apply Q in B. rewrite E in I2. rewrite nth_error_app1 in I2 by lia.
      assert (X : exists x, nth_error (if Nat.eqb i 0 then quarters 0 s else quarters s (2 * s)) k = Some x).
      { destruct (nth_error (if Nat.eqb i 0 then quarters 0 s else quarters s (2 * s)) k) eqn:X; [eauto|].
        apply nth_error_None in X. rewrite <- (mapM_length _ _ _ H1) in X. lia. }
      destruct X as (x & X). destruct (mapM_nth_error _ _ _ H1 k x X) as (b & X1 & X2).
      assert (b = v) by congruence. subst b.
      replace (INR k / 4 + shift i) with x; [apply curve_on; exact X2|].
      destruct i as [|i]; cbn [Nat.eqb] in X; destruct (nth_error_quarters _ _ _ _ X) as (-> & _); cbn [shift]; ring.
    + intros B. assert (~ (k < m)%nat) by (intro C; apply Q in C; lra). rewrite E in I2. rewrite nth_error_app2 in I2 by lia.
      rewrite nth_error_skipn in I2. apply nth_error_In in I2. apply in_map_iff in I2 as (x & I2 & _). congruence.
Qed.
Lemma steps_inv : forall more i r rf, ll_steps gac raw s more i r = Ok rf ->
  exists resp, resp 0%nat = r /\ resp more = rf /\ forall j, (j < more)%nat -> ll_step gac raw s (i + j) (resp j) = Ok (resp (S j)).
Proof.
  induction more as [|more IH]; intros i r rf H; cbn [ll_steps] in H.
  - exists (fun _ => r). split; [reflexivity|]. split; [congruence|]. intros; lia.
  - destruct (bind_inv _ _ _ H) as (r1 & H1 & H2). destruct (IH (S i) r1 rf H2) as (resp & R0 & RM & RS).
    exists (fun j => match j with O => r | S j => resp j end). split; [reflexivity|]. split; [exact RM|].
    intros [|j] Hj; [rewrite Nat.add_0_r, R0; exact H1|]. rewrite <- RS by lia. f_equal. lia.
Qed.
(** The vessels of successive cycles: the first is fed raw water; every later one is fed,
    until the swap, with what left the vessel before it when that was in the lead (for the
    second vessel: from its start, afterwards from its own swap on), and then with raw
    water.  Reported: the effluent of the last one before the swap, and its effluent while
    it leads. *)
Theorem C53_carbon : forall loops o, run_LL_gac gac raw s loops = Ok o ->
  exists feed resp, (forall i, (i <= loops + 1)%nat -> gac (feed i) = Ok (resp i)) /\
    map fst (feed 0%nat) = quarters 0 (run_duration s) /\ (forall t v, In (t, v) (feed 0%nat) -> v = raw) /\
    (forall i, (i <= loops)%nat -> fed raw s (match i with O => 0 | _ => s end) (resp i) (feed (S i))) /\
    let final := resp (loops + 1)%nat in
    on_curve final s (effluent o) /\ on_curve final (2 * s) (mid o) /\
    map fst (effluent_results o) = quarters 0 s /\ (forall t v, In (t, v) (effluent_results o) -> on_curve final t v) /\
    map fst (mid_results o) = quarters 0 s /\ (forall t v, In (t, v) (mid_results o) -> on_curve final (t + s) v).
Proof.
  intros loops o H. unfold run_LL_gac in H. destruct (bind_inv _ _ _ H) as (r0 & G0 & H1). destruct (bind_inv _ _ _ H1) as (r & G1 & H2).
  destruct (bind_inv _ _ _ H2) as (md & G2 & H3). destruct (bind_inv _ _ _ H3) as (er & G3 & H4). destruct (bind_inv _ _ _ H4) as (ef & G4 & H5).
  destruct (bind_inv _ _ _ H5) as (mr & G5 & H6). clear H H1 H2 H3 H4 H5.
  destruct (steps_inv _ _ _ _ G1) as (resp & R0 & RM & RS).
  assert (F : forall j, exists f, (j < loops + 1)%nat -> gac f = Ok (resp (S j)) /\ fed raw s (shift j) (resp j) f).
  { intros j. destruct (lt_dec j (loops + 1)) as [L|L]; [|exists []; intros; lia].
    destruct (step_fed _ _ _ (RS j L)) as (f & F1 & F2). exists f. intros _. split; assumption. }
  set (tv := quarters 0 (run_duration s)) in *.
  assert (CH : exists fs : nat -> series, forall j, (j < loops + 1)%nat -> gac (fs j) = Ok (resp (S j)) /\ fed raw s (shift j) (resp j) (fs j)).
  { assert (Z : forall n, exists fs : nat -> series, forall j, (j < n)%nat -> (j < loops + 1)%nat -> gac (fs j) = Ok (resp (S j)) /\ fed raw s (shift j) (resp j) (fs j)).
    { induction n as [|n (fs & IH)]; [exists (fun _ => []); intros; lia|]. destruct (F n) as (f & Hf).
      exists (fun j => if Nat.eqb j n then f else fs j). intros j J1 J2. destruct (Nat.eqb_spec j n) as [-> |NE]; [apply Hf; exact J2|apply IH; lia]. }
    destruct (Z (loops + 1)%nat) as (fs & Hf). exists fs. intros j J. apply Hf; exact J. }
  destruct CH as (fs & CH).
  exists (fun i => match i with O => combine tv (map (fun _ => raw) tv) | S j => fs j end), resp.
  split; [|split; [|split; [|split]]].
  - intros [|i] Hi; [rewrite R0; exact G0|]. apply CH. lia.
  - apply combine_fst. rewrite map_length. lia.
  - intros t v I. apply in_combine_r in I. apply in_map_iff in I as (x & I & _). congruence.
  - intros i Hi. apply (CH i). lia.
  - rewrite RM. assert (EO : o = {| mid := md; mid_results := combine (quarters 0 s) mr; effluent := ef; effluent_results := combine (quarters 0 s) er |}) by congruence.
    rewrite EO. cbn [mid mid_results effluent effluent_results].
    assert (LQ : length (quarters s (2 * s)) = length (quarters 0 s)).
    { unfold quarters. rewrite !map_length, !seq_length. unfold arange_len. f_equal. f_equal. lra. }
    split; [apply curve_on; exact G4|]. split; [apply curve_on; exact G2|].
    split; [apply combine_fst; rewrite (mapM_length _ _ _ G3); lia|]. split.
    { intros t v I. apply In_nth_error in I as (k & I). apply nth_error_combine in I as (I1 & I2).
      destruct (mapM_nth_error _ _ _ G3 k t I1) as (b & B1 & B2). assert (b = v) by congruence. subst b. apply curve_on. exact B2. }
    split; [apply combine_fst; rewrite (mapM_length _ _ _ G5); lia|].
    intros t v I. apply In_nth_error in I as (k & I). apply nth_error_combine in I as (I1 & I2).
    destruct (nth_error_quarters _ _ _ _ I1) as (T & K). rewrite <- LQ in K.
    assert (X : exists x, nth_error (quarters s (2 * s)) k = Some x).
    { destruct (nth_error (quarters s (2 * s)) k) eqn:X; [eauto|]. apply nth_error_None in X. lia. }
    destruct X as (x & X). destruct (mapM_nth_error _ _ _ G5 k x X) as (b & B1 & B2). assert (b = v) by congruence. subst b.
    destruct (nth_error_quarters _ _ _ _ X) as (TX & _). replace (t + s) with x by lra. apply curve_on. exact B2.
Qed.
End Carbon.

(** Whole days from ten on give a result whenever every response covers the two periods... *)
Definition covers (tbl : series) (lo hi : R) : Prop := exists first, hd_error tbl = Some first /\ fst first <= lo /\ hi <= fst (last tbl (0, 0)).
Lemma curve_covers tbl lo hi t : covers tbl lo hi -> lo <= t <= hi -> exists y, curve tbl t = Ok y.
Proof.
  intros ([x0 y0] & H & B1 & B2) T. unfold curve. destruct tbl as [|p r]; [discriminate H|]. cbn in H. assert (p = (x0, y0)) by congruence. subst p.
  cbn [fst] in B1. rewrite (proj2 (rltb_false t x0)) by lra. rewrite (proj2 (rltb_false _ t)) by lra. eexists. reflexivity.
Qed.
Lemma mapM_total {A B} (f : A -> res B) l : (forall a, In a l -> exists b, f a = Ok b) -> exists r, mapM f l = Ok r.
Proof.
  induction l as [|a l IH]; intros H; [exists []; reflexivity|]. destruct (H a (or_introl eq_refl)) as (b & E).
  destruct IH as (r & R); [intros x I; apply H; right; exact I|]. exists (b :: r). cbn. rewrite E. cbn. rewrite R. reflexivity.
Qed.
Lemma arange_quarters lo k : arange_len lo (lo + INR k / 4) (1 / 4) = k.
Proof.
  unfold arange_len. replace ((lo + INR k / 4 - lo) / (1 / 4)) with (INR k) by field.
  assert (L := ceil_le (INR k) (Z.of_nat k) ltac:(rewrite <- INR_IZR_INZ; lra)).
  assert (G := ceil_gt (INR k) (Z.of_nat k - 1) ltac:(rewrite minus_IZR, <- INR_IZR_INZ; lra)). lia.
Qed.
Lemma days_quarters n : INR n = 0 + INR (4 * n) / 4. Proof. rewrite mult_INR. cbn [INR]. field. Qed.
Lemma duration_ge n : (10 <= n)%nat -> exists D, run_duration (INR n) = INR D /\ (2 * n + 1 <= D)%nat.
Proof.
  intros H. unfold run_duration, dec. destruct (base_Int_part (INR n * (21 / 10 ^ 1))) as (A & B).
  set (z := Int_part (INR n * (21 / 10 ^ 1))) in *. apply le_INR in H. replace (INR 10) with 10 in H by (cbn; ring).
  assert (C : IZR (2 * Z.of_nat n) < IZR z) by (rewrite mult_IZR, <- INR_IZR_INZ; replace (10 ^ 1) with 10 in * by ring; lra).
  apply lt_IZR in C. exists (Z.to_nat z). split; [rewrite INR_IZR_INZ, Z2Nat.id by lia; reflexivity|lia].
Qed.
Lemma quarters_in lo k t : In t (quarters lo (lo + INR k / 4)) -> lo <= t <= lo + INR k / 4.
Proof.
  intros I. unfold quarters in I. rewrite arange_quarters in I. apply in_map_iff in I as (j & <- & J). apply in_seq in J.
  assert (INR j <= INR k) by (apply le_INR; lia). pose proof (pos_INR j). lra.
Qed.
Theorem C53_carbon_succeeds : forall gac raw n loops, (10 <= n)%nat ->
  (forall feed, exists r, gac feed = Ok r /\ covers r 0 (2 * INR n)) ->
  exists o, run_LL_gac gac raw (INR n) loops = Ok o.
Proof.
  intros gac raw n loops Hn HG. destruct (duration_ge n Hn) as (D & ED & LD).
  set (s := INR n) in *. pose proof (pos_INR n) as Sp. fold s in Sp.
  assert (Q0 : forall r, covers r 0 (2 * s) -> exists v, mapM (curve r) (quarters 0 s) = Ok v).
  { intros r C. apply mapM_total. intros t I. rewrite (days_quarters n : s = _) in I. apply quarters_in in I. rewrite <- days_quarters in I. fold s in I.
    apply (curve_covers r 0 (2 * s)); [exact C|lra]. }
  assert (E2 : 2 * s = s + INR (4 * n) / 4) by (rewrite mult_INR; unfold s; cbn [INR]; field).
  assert (Q1 : forall r, covers r 0 (2 * s) -> exists v, mapM (curve r) (quarters s (2 * s)) = Ok v).
  { intros r C. apply mapM_total. intros t I. rewrite E2 in I. apply quarters_in in I. rewrite <- E2 in I. apply (curve_covers r 0 (2 * s)); [exact C|lra]. }
  assert (LQ0 : length (quarters 0 s) = (4 * n)%nat) by (unfold quarters; rewrite map_length, seq_length, (days_quarters n : s = _); apply arange_quarters).
  assert (LQ1 : length (quarters s (2 * s)) = (4 * n)%nat) by (unfold quarters; rewrite map_length, seq_length, E2; apply arange_quarters).
  assert (LT : length (quarters 0 (run_duration s)) = (4 * D)%nat) by (rewrite ED; unfold quarters; rewrite map_length, seq_length, (days_quarters D); apply arange_quarters).
  assert (LM : length (filter (fun t => rltb t s) (quarters 0 (run_duration s))) = (4 * n)%nat).
  { rewrite quarters0, LT. set (L := length _).
    assert (P : forall k, (k < 4 * D)%nat -> ((k < 4 * n)%nat <-> (k < L)%nat)).
    { intros k Hk. unfold L. rewrite <- before_swap by exact Hk. rewrite (days_quarters n : s = _). split; intros H; [apply lt_INR in H; lra|apply INR_lt; lra]. }
    assert (L <= 4 * D)%nat by (unfold L; rewrite filter_len, map_length, seq_length; lia).
    destruct (lt_eq_lt_dec L (4 * n)) as [[C|C]|C]; [|exact C|].
    - pose proof (proj1 (P L ltac:(lia)) C). lia.
    - pose proof (proj2 (P (4 * n)%nat ltac:(lia)) C). lia. }
  assert (ST : forall i r, covers r 0 (2 * s) -> exists r', ll_step gac raw s i r = Ok r' /\ covers r' 0 (2 * s)).
  { intros i r C. unfold ll_step. assert (V : exists v, mapM (curve r) (if Nat.eqb i 0 then quarters 0 s else quarters s (2 * s)) = Ok v) by (destruct i; [apply Q0|apply Q1]; exact C).
    destruct V as (v & V). rewrite V. cbn [bind]. unfold put. rewrite (mapM_length _ _ _ V), LM.
    replace (Nat.eqb _ _) with true by (symmetry; apply Nat.eqb_eq; destruct i; cbn [Nat.eqb]; assumption). cbn [bind].
    destruct (HG (combine (quarters 0 (run_duration s)) (v ++ skipn (4 * n) (map (fun _ => raw) (quarters 0 (run_duration s)))))) as (r' & R1 & R2).
    exists r'. split; assumption. }
  assert (SS : forall more i r, covers r 0 (2 * s) -> exists r', ll_steps gac raw s more i r = Ok r' /\ covers r' 0 (2 * s)).
  { induction more as [|more IH]; intros i r C; [exists r; split; [reflexivity|exact C]|]. cbn [ll_steps].
    destruct (ST i r C) as (r1 & R1 & C1). rewrite R1. cbn [bind]. apply IH. exact C1. }
  unfold run_LL_gac. destruct (HG (combine (quarters 0 (run_duration s)) (map (fun _ => raw) (quarters 0 (run_duration s))))) as (r0 & R0 & C0).
  rewrite R0. cbn [bind]. destruct (SS (loops + 1)%nat 0%nat r0 C0) as (r & R1 & C). rewrite R1. cbn [bind].
  destruct (curve_covers r 0 (2 * s) (2 * s) C ltac:(lra)) as (md & M). rewrite M. cbn [bind].
  destruct (Q0 r C) as (er & E). rewrite E. cbn [bind]. destruct (curve_covers r 0 (2 * s) s C ltac:(lra)) as (ef & EF). rewrite EF. cbn [bind].
  destruct (Q1 r C) as (mr & EM). rewrite EM. cbn [bind]. eexists. reflexivity.
Qed.
(** ... but shorter intervals fail, as the run is too short to hold the second period. *)
Theorem C53_short_interval_refuted : forall gac raw n loops, (1 <= n <= 9)%nat ->
  (forall feed r, gac feed = Ok r -> fst (last r (0, 0)) <= fst (last feed (0, 0))) ->
  forall o, run_LL_gac gac raw (INR n) loops <> Ok o.
Proof.
  intros gac raw n loops Hn HG o H. destruct (C53_carbon gac raw (INR n) loops o H) as (feed & resp & G & _ & _ & F & _ & M & _).
  destruct M as (_ & first & _ & B). specialize (G (loops + 1)%nat ltac:(lia)). apply HG in G.
  specialize (F loops ltac:(lia)) as (F & _). replace (S loops) with (loops + 1)%nat in F by lia.
  assert (D : run_duration (INR n) = INR (2 * n)).
  { unfold run_duration, dec. destruct (base_Int_part (INR n * (21 / 10 ^ 1))) as (A1 & A2). set (z := Int_part (INR n * (21 / 10 ^ 1))) in *.
    destruct Hn as (H1 & H2). apply le_INR in H1, H2. replace (INR 1) with 1 in H1 by (cbn; ring). replace (INR 9) with 9 in H2 by (cbn; ring).
    replace (10 ^ 1) with 10 in * by ring.
    assert (C1 : IZR z < IZR (2 * Z.of_nat n + 1)) by (rewrite plus_IZR, mult_IZR, <- INR_IZR_INZ; lra).
    assert (C2 : IZR (2 * Z.of_nat n) < IZR (z + 1)) by (rewrite plus_IZR, mult_IZR, <- INR_IZR_INZ; lra).
    apply lt_IZR in C1. apply lt_IZR in C2. replace z with (Z.of_nat (2 * n)) by lia. rewrite <- INR_IZR_INZ. reflexivity. }
  rewrite D in F. rewrite (days_quarters (2 * n)) in F.
  assert (L : fst (last (feed (loops + 1)%nat) (0, 0)) < 2 * INR n).
  { set (l := feed (loops + 1)%nat) in *. assert (IN : l <> []).
    { intro E. rewrite E in F. apply (f_equal (@List.length R)) in F. unfold quarters in F. cbn [map length] in F.
      rewrite map_length, seq_length, arange_quarters in F. lia. }
    assert (I : In (fst (last l (0, 0))) (map fst l)).
    { apply in_map. rewrite (app_removelast_last (0, 0) IN) at 2. apply in_or_app. right. left. reflexivity. }
    rewrite F in I. unfold quarters in I. rewrite arange_quarters in I. apply in_map_iff in I as (j & E & J). apply in_seq in J.
    rewrite <- E. assert (J' : (j < 4 * (2 * n))%nat) by lia. apply lt_INR in J'. rewrite !mult_INR in J'. cbn [INR] in J'. lra. }
  lra.
Qed.

(** ** C53, resin *)
(** How resin effluents are reported: milliequivalents in the unit of the ion, and a tiny positive
    number in place of zero or less. *)
Definition per_meq (i : ion) : R :=
  if String.eqb (i_unit i) "ng" then 1000000 * i_mw i else if String.eqb (i_unit i) "ug" then 1000 * i_mw i else if String.eqb (i_unit i) "mg" then i_mw i else 1.
Definition floored (x : R) : R := if Rle_dec x 0 then 1 / 10000000000000000 else x.
Lemma lift_is : lift = floored.
Proof. extensionality x. unfold lift, floored, rleb, tiny. destruct (Rle_dec x 0); [field|reflexivity]. Qed.
Lemma factor_is : ion_factor = per_meq.
Proof.
  extensionality i. unfold ion_factor, per_meq. destruct (String.eqb_spec (i_unit i) "ug") as [->|]; [cbn; ring|].
  destruct (String.eqb (i_unit i) "ng"); [ring|]. destruct (String.eqb (i_unit i) "mg"); ring.
Qed.
Section Resin.
Variables (ions : list (string * ion)) (ix : frame -> res (string -> list R)) (raw : frame) (s : R).
(** The effluent column of an ion in the ion's own unit. *)
Definition effluent_of (f : frame) (c : string) (v : list R) : Prop :=
  exists u i, ix f = Ok u /\ lookup c ions = Some i /\ v = map (fun x => floored (x * per_meq i)) (u c).
Definition ix_fed (shift : R) (c : string) (earlier feed : list R) : Prop :=
  forall t v, at_day feed t v -> (t <= s -> at_day earlier (t + shift) v) /\ (s < t -> v = mean (fr_val raw c)).
Let shift (i : nat) : R := match i with O => 0 | _ => s end.

Lemma lookup_conv u c : lookup c (conv_iex_u ions u) = match lookup c ions with Some i => Some (map (fun x => lift (x * ion_factor i)) (u c)) | None => None end.
Proof.
  unfold conv_iex_u. induction ions as [|[n i] l IH]; [reflexivity|]. cbn [map lookup fst snd]. destruct (String.eqb_spec c n) as [-> |N]; [reflexivity|exact IH].
Qed.
Lemma converted_inv f conv : converted ions ix f = Ok conv -> exists u, ix f = Ok u /\ conv = conv_iex_u ions u.
Proof. intros H. destruct (bind_inv _ _ _ H) as (u & H1 & H2). exists u. split; [exact H1|congruence]. Qed.
Lemma converted_col f conv c v : converted ions ix f = Ok conv -> lookup c conv = Some v -> effluent_of f c v.
Proof.
  intros H L. destruct (converted_inv _ _ H) as (u & U & E). rewrite E, lookup_conv in L. destruct (lookup c ions) as [i|] eqn:I; [|discriminate L].
  exists u, i. split; [exact U|]. split; [exact I|]. rewrite <- lift_is, <- factor_is. congruence.
Qed.
Lemma feed_inv m i conv f c v : s = INR m / 4 -> ix_feed raw s i conv = Ok f -> lookup c conv = Some v -> ix_fed (shift i) c v (fr_val f c).
Proof.
  intros SM H L. unfold ix_feed in H. destruct (bind_inv _ _ _ H) as (cols & H1 & H2). clear H.
  pose proof (lookup_mapM _ (fun cv => put (length (filter (fun t => rleb t s) (quarters 0 (run_duration s))))
       (map snd (slice (if Nat.eqb i 0 then 0 else s) (if Nat.eqb i 0 then s else 2 * s) (combine (quarters 0 (run_duration s)) (snd cv)))) (fr_val (ix_base raw s) (fst cv)))
       ltac:(intros; reflexivity) _ _ H1 c) as Q. rewrite L in Q. destruct Q as (b & Q1 & Q2). cbn [fst snd] in Q2.
  assert (EF : fr_val f c = b) by (assert (E : f = {| fr_time := quarters 0 (run_duration s); fr_cols := fr_cols raw; fr_val := fun c => match lookup c cols with Some v => v | None => fr_val (ix_base raw s) c end |}) by congruence;
    rewrite E; cbn [fr_val]; rewrite Q1; reflexivity).
  rewrite EF. destruct (put_inv _ _ _ _ Q2) as (LV & EB). set (N := length (quarters 0 (run_duration s))).
  assert (TV : quarters 0 (run_duration s) = map (fun k => INR k / 4) (seq 0 N)) by apply quarters0.
  set (q := length (filter (fun t => rleb t s) (quarters 0 (run_duration s)))) in *.
  assert (QN : (q <= N)%nat) by apply filter_len.
  set (vals := map snd (slice (if Nat.eqb i 0 then 0 else s) (if Nat.eqb i 0 then s else 2 * s) (combine (quarters 0 (run_duration s)) v))) in *.
  intros t x (k & T & K).
  assert (KN : (k < N)%nat).
  { assert (KB : (k < length b)%nat) by (apply nth_error_Some; congruence). rewrite EB, app_length, skipn_length in KB. cbn [ix_base fr_val] in KB. rewrite map_length in KB. fold N in KB. lia. }
  assert (U : INR k / 4 <= s <-> (k < q)%nat) by (unfold q; rewrite TV; apply upto_swap; exact KN).
  rewrite EB in K. split.
  - intros C. rewrite T in C. apply U in C. rewrite nth_error_app1 in K by lia. unfold vals in K. rewrite TV in K.
    destruct i as [|i]; cbn [Nat.eqb] in K; cbn [shift].
    + exists k. split; [lra|]. replace 0 with (INR 0 / 4) in K at 1 by (cbn; field). rewrite SM in K. apply slice_nth in K; [exact K|lia].
    + exists (m + k)%nat. split; [rewrite plus_INR; lra|]. replace (2 * s) with (INR (2 * m) / 4) in K by (rewrite mult_INR; cbn [INR]; lra). rewrite SM in K.
      apply slice_nth in K; [exact K|lia].
  - intros C. rewrite nth_error_app2 in K by (rewrite LV; destruct (le_lt_dec q k) as [Z|Z]; [exact Z|]; apply U in Z; lra).
    rewrite nth_error_skipn in K. apply nth_error_In in K. cbn [ix_base fr_val] in K. apply in_map_iff in K as (y & K & _). congruence.
Qed.
Lemma ix_steps_inv : forall more i f c rf, ix_steps ions ix raw s more i f c = Ok rf -> converted ions ix f = Ok c ->
  exists (fs : nat -> frame) (cs : nat -> list (string * list R)), fs 0%nat = f /\ cs 0%nat = c /\ rf = (fs more, cs more) /\
    (forall j, (j <= more)%nat -> converted ions ix (fs j) = Ok (cs j)) /\
    (forall j, (j < more)%nat -> ix_feed raw s (i + j) (cs j) = Ok (fs (S j))).
Proof.
  induction more as [|more IH]; intros i f c rf H C; cbn [ix_steps] in H.
  - exists (fun _ => f), (fun _ => c). repeat split; try congruence; intros; try assumption; lia.
  - destruct (bind_inv _ _ _ H) as (f1 & H1 & H2). destruct (bind_inv _ _ _ H2) as (c1 & H3 & H4).
    destruct (IH (S i) f1 c1 rf H4 H3) as (fs & cs & F0 & C0 & E & A & B).
    exists (fun j => match j with O => f | S j => fs j end), (fun j => match j with O => c | S j => cs j end).
    split; [reflexivity|]. split; [reflexivity|]. split; [exact E|]. split.
    + intros [|j] J; [exact C|]. apply A. lia.
    + intros [|j] J; [rewrite Nat.add_0_r, F0; exact H1|]. rewrite <- B by lia. f_equal. lia.
Qed.
Lemma label_in x t v : label x t = Ok v -> In (t, v) x.
Proof.
  unfold label. destruct (find (fun p => reqb (fst p) t) x) as [[a b]|] eqn:E; [|discriminate]. intros H. apply find_some in E as (I & E).
  cbn [fst] in E. unfold reqb in E. destruct (Req_EM_T a t) as [-> |]; [|discriminate E]. cbn in H. assert (b = v) by congruence. subst b. exact I.
Qed.
Lemma in_days (N : nat) (l : list R) t v : In (t, v) (combine (map (fun k => INR k / 4) (seq 0 N)) l) -> at_day l t v.
Proof.
  intros I. apply In_nth_error in I as (k & I). apply nth_error_combine in I as (I1 & I2). exists k. split; [|exact I2].
  rewrite nth_error_map in I1. destruct (nth_error (seq 0 N) k) as [j|] eqn:E; [|discriminate I1]. cbn in I1.
  assert (K : (k < N)%nat) by (rewrite <- (seq_length N 0); apply nth_error_Some; congruence).
  apply nth_error_nth with (d := 0%nat) in E. rewrite seq_nth in E by exact K. cbn in E. subst j. congruence.
Qed.
(** The same of the resin vessels; here the swap day itself belongs to the first period. *)
Theorem C53_resin : forall loops cin outs c o, run_LL_ix ions ix raw s loops = Ok (cin, outs) -> lookup c outs = Some o ->
  exists feed eff, (forall i, (i <= loops + 1)%nat -> effluent_of (feed i) c (eff i)) /\
    (forall i, (i <= loops + 1)%nat -> fr_time (feed i) = quarters 0 (run_duration s)) /\ cin = feed (loops + 1)%nat /\
    (forall t v, at_day (fr_val (feed 0%nat) c) t v -> v = mean (fr_val raw c)) /\
    (forall i, (i <= loops)%nat -> ix_fed (match i with O => 0 | _ => s end) c (eff i) (fr_val (feed (S i)) c)) /\
    let final := eff (loops + 1)%nat in
    at_day final s (effluent o) /\ at_day final (2 * s) (mid o) /\
    (forall t v, In (t, v) (effluent_results o) -> 0 <= t <= s /\ at_day final t v) /\
    (forall t v, In (t, v) (mid_results o) -> 0 <= t <= s /\ at_day final (t + s) v).
Proof.
  intros loops cin outs c o H L. unfold run_LL_ix in H. destruct (bind_inv _ _ _ H) as (c0 & G0 & H1). destruct (bind_inv _ _ _ H1) as (r & G1 & H2).
  destruct (bind_inv _ _ _ H2) as (os & G2 & H3). assert (os = outs /\ cin = fst r) as (-> & ->) by (split; congruence). clear H H1 H2 H3.
  destruct (ix_steps_inv _ _ _ _ _ G1 G0) as (fs & cs & F0 & C0 & E & A & B). rewrite E in G2 |- *. cbn [fst snd] in G2 |- *.
  pose proof (lookup_mapM _ (fun cv => ix_out s (snd cv)) ltac:(intros; reflexivity) _ _ G2 c) as Q.
  destruct (lookup c (cs (loops + 1)%nat)) as [fin|] eqn:LF; [|congruence].
  destruct Q as (b & Q1 & Q2). assert (b = o) by congruence. subst b. unfold ix_out in Q2. cbv zeta in Q2. cbn [snd] in Q2.
  destruct (bind_inv _ _ _ Q2) as (md & M1 & Q3). destruct (bind_inv _ _ _ Q3) as (ef & M2 & Q4).
  apply label_in in M1. apply label_in in M2. rewrite quarters0 in M1, M2. set (N := length (quarters 0 (run_duration s))) in *.
  pose proof (in_days _ _ _ _ M1) as D1. pose proof (in_days _ _ _ _ M2) as D2.
  destruct (D2) as (m & SM & _).
  assert (IO : forall j, (j <= loops + 1)%nat -> exists v, lookup c (cs j) = Some v /\ effluent_of (fs j) c v).
  { intros j J. destruct (converted_inv _ _ (A j J)) as (u & U & EU). destruct (converted_inv _ _ (A (loops + 1)%nat ltac:(lia))) as (u' & U' & EU').
    rewrite EU', lookup_conv in LF. destruct (lookup c ions) as [i|] eqn:I; [|discriminate LF].
    exists (map (fun x => lift (x * ion_factor i)) (u c)). rewrite EU, lookup_conv, I. split; [reflexivity|]. exists u, i. rewrite <- lift_is, <- factor_is. auto. }
  set (eff := fun j => match lookup c (cs j) with Some v => v | None => [] end).
  exists fs, eff. split; [|split; [|split; [|split; [|split]]]].
  - intros i Hi. destruct (IO i Hi) as (v & V1 & V2). unfold eff. rewrite V1. exact V2.
  - intros [|i] Hi; [rewrite F0; reflexivity|]. specialize (B i ltac:(lia)). unfold ix_feed in B. destruct (bind_inv _ _ _ B) as (cols & _ & B').
    assert (X : fs (S i) = {| fr_time := quarters 0 (run_duration s); fr_cols := fr_cols raw; fr_val := fun c => match lookup c cols with Some v => v | None => fr_val (ix_base raw s) c end |}) by congruence.
    rewrite X. reflexivity.
  - reflexivity.
  - intros t v (k & _ & K). rewrite F0 in K. apply nth_error_In in K. cbn [ix_base fr_val] in K. apply in_map_iff in K as (y & K & _). congruence.
  - intros i Hi. destruct (IO i ltac:(lia)) as (v & V1 & V2). unfold eff. rewrite V1. specialize (B i ltac:(lia)).
    exact (feed_inv m i (cs i) (fs (S i)) c v SM B V1).
  - cbv zeta. unfold eff. rewrite LF.
    assert (EO : o = {| mid := md; mid_results := slice 0 s (map (fun p => (fst p - s, snd p)) (combine (quarters 0 (run_duration s)) fin)); effluent := ef; effluent_results := slice 0 s (combine (quarters 0 (run_duration s)) fin) |}) by congruence.
    rewrite EO. cbn [mid mid_results effluent effluent_results].
    split; [exact D2|]. split; [replace (2 * s) with (s * 2) by ring; exact D1|]. unfold slice. split; intros t v I; apply filter_In in I as (I & J); cbn [fst] in J;
      apply andb_prop in J as (J1 & J2); apply rleb_true in J1; apply rleb_true in J2; (split; [split; assumption|]).
    + rewrite quarters0 in I. fold N in I. apply (in_days _ _ _ _ I).
    + apply in_map_iff in I as ([t' v'] & I1 & I2). cbn [fst snd] in I1. rewrite quarters0 in I2. fold N in I2.
      assert (t = t' - s /\ v = v') as (-> & ->) by (split; congruence). replace (t' - s + s) with t' by ring. apply (in_days _ _ _ _ I2).
Qed.
End Resin.

(** ** C54: names of configurations *)
Inductive vessel := Carbon_ | Resin_.
Definition spelled (w : string) : option vessel :=
  if String.eqb w "gac" then Some Carbon_ else if (String.eqb w "ix" || String.eqb w "iex")%bool then Some Resin_ else None.
(** lead and lag named by a configuration: two words joined by a dash, or one for both *)
Definition named (ty : string) : option (vessel * vessel) :=
  match split_on "-"%char (lower ty) with
  | [w] => match spelled w with Some v => Some (v, v) | None => None end
  | [w1; w2] => match spelled w1, spelled w2 with Some v1, Some v2 => Some (v1, v2) | _, _ => None end
  | _ => None
  end.
Section Object.
Variables (ions : list (string * ion)) (counterions compounds0 : list string) (raw ixraw : frame).
Variables (gac : R -> string -> series -> res series) (ix : R * string -> frame -> res (string -> list R)).
Notation run := (run_LL ions counterions compounds0 raw ixraw gac ix).
Definition in_order (p : option (vessel * vessel)) (o : obj) (s : R) (loops : nat) (flow : option flowarg) : res (obj * answer) :=
  match p with
  | None => Ok (o, Refused)
  | Some (Carbon_, Carbon_) =>
      do l <- mapM (fun c => do _ <- known raw [c]; do x <- run_LL_gac (gac (o_gac_flow o) c) (mean (fr_val raw c)) s loops; Ok (c, x)) compounds0;
      Ok (o, Done (store_of l))
  | Some (Resin_, Resin_) => do r <- run_LL_ix ions (ix (o_ix_flow o)) ixraw s loops; Ok (set_cin o (fst r), Done (store_of (snd r)))
  | Some (Resin_, Carbon_) => do r <- run_LL_ix_gac ions counterions raw gac ix o s compounds0 (match flow with Some f => f | None => FlowStr "use ix" end); Ok (fst r, Done (snd r))
  | Some (Carbon_, Resin_) => do r <- run_LL_gac_ix ions counterions raw gac ix o s compounds0 (match flow with Some f => f | None => FlowStr "use gac" end); Ok (fst r, Done (snd r))
  end.
Lemma split_words : forall a s, split_on a s = [s] \/ exists w r, (s = w ++ String a r)%string /\ split_on a s = w :: split_on a r.
Proof.
  intros a. induction s as [|b s IH]; [left; reflexivity|]. cbn [split_on].
  destruct (Ascii.eqb_spec b a) as [-> |N]; [right; exists "", s; split; reflexivity|].
  destruct IH as [-> |(w & r & E & ->)]; [left; reflexivity|]. right. exists (String b w), r. split; [cbn; rewrite E; reflexivity|reflexivity].
Qed.
Lemma named_inv ty p : named ty = Some p -> In (lower ty, p)
  [("gac", (Carbon_, Carbon_)); ("ix", (Resin_, Resin_)); ("iex", (Resin_, Resin_));
   ("gac-gac", (Carbon_, Carbon_)); ("gac-ix", (Carbon_, Resin_)); ("gac-iex", (Carbon_, Resin_));
   ("ix-gac", (Resin_, Carbon_)); ("ix-ix", (Resin_, Resin_)); ("ix-iex", (Resin_, Resin_));
   ("iex-gac", (Resin_, Carbon_)); ("iex-ix", (Resin_, Resin_)); ("iex-iex", (Resin_, Resin_))].
Proof.
  assert (S : forall w v, spelled w = Some v -> (w = "gac" /\ v = Carbon_) \/ (w = "ix" /\ v = Resin_) \/ (w = "iex" /\ v = Resin_)).
  { intros w v. unfold spelled. destruct (String.eqb_spec w "gac"); [intros [= <-]; auto|]. destruct (String.eqb_spec w "ix"); [intros [= <-]; auto|].
    destruct (String.eqb_spec w "iex"); [intros [= <-]; auto|discriminate]. }
  unfold named. generalize (lower ty). intros t. destruct (split_words "-"%char t) as [-> |(w & r & Et & ->)].
  - destruct (spelled t) as [v|] eqn:E; [|discriminate]. intros [= <-]. destruct (S _ _ E) as [(-> & ->)|[(-> & ->)|(-> & ->)]]; cbn; auto 20.
  - destruct (split_words "-"%char r) as [-> |(w2 & r2 & Er & ->)].
    + destruct (spelled w) as [v|] eqn:E; [|discriminate]. destruct (spelled r) as [v2|] eqn:E2; [|discriminate]. intros [= <-].
      rewrite Et. destruct (S _ _ E) as [(-> & ->)|[(-> & ->)|(-> & ->)]]; destruct (S _ _ E2) as [(-> & ->)|[(-> & ->)|(-> & ->)]]; cbn; auto 20.
    + destruct (split_on "-"%char r2) eqn:Z; [|discriminate]. destruct (split_words "-"%char r2) as [Q|(? & ? & _ & Q)]; rewrite Q in Z; discriminate Z.
Qed.
(** Every name made of the words gac, ix and iex, in any case, runs the vessels in that
    order, except gac-iex, ix-iex and iex-ix; every other name is refused. *)
Theorem C54_names_partial : forall o s ty loops flow, ~ In (lower ty) ["gac-iex"; "ix-iex"; "iex-ix"] ->
  run o s ty loops None flow = in_order (named ty) o s loops flow.
Proof.
  intros o s ty loops flow N. pose proof (named_inv ty) as NI. unfold run_LL.
  assert (M : forall t, named ty = match split_on "-"%char t with
    | [w] => match spelled w with Some v => Some (v, v) | None => None end
    | [w1; w2] => match spelled w1, spelled w2 with Some v1, Some v2 => Some (v1, v2) | _, _ => None end
    | _ => None end \/ t <> lower ty).
  { intros t. destruct (string_dec t (lower ty)) as [-> |NE]; [left; reflexivity|right; exact NE]. }
  destruct (named ty) as [p|] eqn:E.
  - specialize (NI p eq_refl). cbn [In] in NI, N.
    repeat (destruct NI as [NI|NI]; [injection NI as L <-; rewrite <- L in *; try reflexivity; exfalso; apply N; auto|]). destruct NI.
  - cbn [in_order]. specialize (M (lower ty)). destruct M as [M|M]; [|congruence].
    repeat match goal with |- context [String.eqb (lower ty) ?y] => destruct (String.eqb_spec (lower ty) y) as [T|?];
      [exfalso; rewrite T in M; cbn in M; discriminate M|] end. reflexivity.
Qed.
(** gac-iex is refused (line 383 repeats iex-gac). *)
Theorem C54_alias_refuted : forall o s loops cs flow,
  named "gac-iex" = Some (Carbon_, Resin_) /\ run o s "gac-iex" loops cs flow = Ok (o, Refused).
Proof. intros. split; reflexivity. Qed.
(** A list of compounds given by the caller makes every mixed configuration fail. *)
Theorem C54_compounds_refuted : forall o s ty loops cs flow, lower ty = "gac-ix" \/ lower ty = "ix-gac" ->
  run o s ty loops (Some cs) flow = Err TypeError.
Proof. intros o s ty loops cs flow [H|H]; unfold run_LL; rewrite H; reflexivity. Qed.
End Object.

Lemma length_cases L a N : (a < N)%nat -> (L <= N)%nat -> (forall k, (k < N)%nat -> ((k < a)%nat <-> (k < L)%nat)) -> L = a.
Proof.
  intros H1 H2 H. destruct (lt_eq_lt_dec L a) as [[C|C]|C]; [|exact C|].
  - pose proof (proj1 (H L ltac:(lia)) C). lia.
  - pose proof (proj2 (H a ltac:(lia)) C). lia.
Qed.
(** Whole days from ten on give a result with resin too. *)
Theorem C53_resin_succeeds : forall ions ix raw n loops, (10 <= n)%nat ->
  (forall f, exists u, ix f = Ok u /\ forall c, length (u c) = length (fr_time f)) ->
  exists cin outs, run_LL_ix ions ix raw (INR n) loops = Ok (cin, outs) /\ map fst outs = map fst ions.
Proof.
  intros ions ix raw n loops Hn HI. destruct (duration_ge n Hn) as (D & ED & LD). set (s := INR n) in *.
  assert (S4 : s = INR (4 * n) / 4) by (rewrite mult_INR; unfold s; cbn [INR]; field).
  assert (S8 : 2 * s = INR (8 * n) / 4) by (rewrite mult_INR; unfold s; cbn [INR]; field).
  set (tv := quarters 0 (run_duration s)).
  assert (LT : length tv = (4 * D)%nat) by (unfold tv; rewrite ED; unfold quarters; rewrite map_length, seq_length, (days_quarters D); apply arange_quarters).
  assert (TV : tv = map (fun k => INR k / 4) (seq 0 (4 * D))) by (unfold tv; rewrite quarters0; fold tv; rewrite LT; reflexivity).
  assert (LM : length (filter (fun t => rleb t s) tv) = (4 * n + 1)%nat).
  { apply (length_cases _ _ (4 * D)); [lia|rewrite <- LT; apply filter_len|]. intros k Hk. rewrite TV. rewrite <- upto_swap by exact Hk. rewrite S4.
    split; intros H; [assert (H' : (k <= 4 * n)%nat) by lia; apply le_INR in H'; lra|assert (INR k <= INR (4 * n)) by lra; apply INR_le in H0; lia]. }
  assert (LS : forall i l, length l = length tv -> length (map snd (slice (if Nat.eqb i 0 then 0 else s) (if Nat.eqb i 0 then s else 2 * s) (combine tv l))) = (4 * n + 1)%nat).
  { intros i l Hl. rewrite LT in Hl. destruct i as [|i]; cbn [Nat.eqb].
    - replace 0 with (INR 0 / 4) by (cbn; field). rewrite S4, TV. rewrite slice_grid by lia. rewrite firstn_length, skipn_length, firstn_length, Hl. lia.
    - rewrite S8, S4, TV. rewrite slice_grid by lia. rewrite firstn_length, skipn_length, firstn_length, Hl. lia. }
  set (good := fun conv : list (string * list R) => map fst conv = map fst ions /\ forall cv, In cv conv -> length (snd cv) = length tv).
  assert (GC : forall f, fr_time f = tv -> exists conv, converted ions ix f = Ok conv /\ good conv).
  { intros f Hf. destruct (HI f) as (u & U & L). exists (conv_iex_u ions u). unfold converted. rewrite U. split; [reflexivity|]. split.
    - unfold conv_iex_u. rewrite map_map. reflexivity.
    - intros cv I. apply in_map_iff in I as (ni & <- & _). cbn [snd]. rewrite map_length, L, Hf. reflexivity. }
  assert (GF : forall i conv, good conv -> exists f, ix_feed raw s i conv = Ok f /\ fr_time f = tv).
  { intros i conv (_ & G). unfold ix_feed. fold tv.
    match goal with |- context [mapM ?F conv] => destruct (mapM_total F conv) as (cols & EC) end.
    - intros cv I. unfold put. fold tv in LM. rewrite (LS i (snd cv) (G cv I)), LM, Nat.eqb_refl. cbn [bind]. eexists. reflexivity.
    - rewrite EC. cbn [bind]. eexists. split; reflexivity. }
  assert (GS : forall more i f c, good c -> exists rf, ix_steps ions ix raw s more i f c = Ok rf /\ good (snd rf)).
  { induction more as [|more IH]; intros i f c G; [exists (f, c); split; [reflexivity|exact G]|]. cbn [ix_steps].
    destruct (GF i c G) as (f1 & F1 & T1). rewrite F1. cbn [bind]. destruct (GC f1 T1) as (c1 & C1 & G1). rewrite C1. cbn [bind]. apply IH. exact G1. }
  unfold run_LL_ix. destruct (GC (ix_base raw s) eq_refl) as (c0 & C0 & G0). rewrite C0. cbn [bind].
  destruct (GS (loops + 1)%nat 0%nat (ix_base raw s) c0 G0) as (rf & R & GR). rewrite R. cbn [bind].
  assert (LB : forall l k, length l = length tv -> (k < 4 * D)%nat -> exists v, label (combine tv l) (INR k / 4) = Ok v).
  { intros l k Hl Hk. unfold label. destruct (find (fun p => reqb (fst p) (INR k / 4)) (combine tv l)) as [p|] eqn:E; [exists (snd p); reflexivity|]. exfalso.
    destruct (nth_error l k) as [v|] eqn:EV; [|apply nth_error_None in EV; lia].
    assert (I : In (INR k / 4, v) (combine tv l)).
    { apply (nth_error_In _ k). apply nth_error_combine. split; [|exact EV]. rewrite TV, nth_error_map.
      rewrite (nth_error_nth' (seq 0 (4 * D)) 0%nat) by (rewrite seq_length; exact Hk). rewrite seq_nth by exact Hk. reflexivity. }
    pose proof (find_none _ _ E _ I) as F. cbn [fst] in F. unfold reqb in F. destruct (Req_EM_T (INR k / 4) (INR k / 4)); congruence. }
  match goal with |- context [mapM ?F (snd rf)] => destruct (mapM_total F (snd rf)) as (outs & EO) end.
  - intros cv I. unfold ix_out. fold tv. destruct GR as (_ & GR). replace (s * 2) with (INR (8 * n) / 4) by lra.
    destruct (LB (snd cv) (8 * n)%nat (GR cv I) ltac:(lia)) as (a & ->). cbn [bind].
    replace (label (combine tv (snd cv)) s) with (label (combine tv (snd cv)) (INR (4 * n) / 4)) by (rewrite <- S4; reflexivity).
    destruct (LB (snd cv) (4 * n)%nat (GR cv I) ltac:(lia)) as (b & ->). cbn [bind]. eexists. reflexivity.
  - rewrite EO. cbn [bind]. exists (fst rf), outs. split; [reflexivity|]. destruct GR as (<- & _).
    clear - EO. revert outs EO. induction (snd rf) as [|cv l IH]; intros outs EO; cbn in EO; [assert (outs = []) by congruence; subst; reflexivity|].
    destruct (bind_inv _ _ _ EO) as (x & E1 & E2). destruct (bind_inv _ _ _ E2) as (xs & E3 & E4). destruct (bind_inv _ _ _ E1) as (y & _ & E5).
    assert (outs = x :: xs) by congruence. subst outs. assert (x = (fst cv, y)) by congruence. subst x. cbn. f_equal. apply IH. exact E3.
Qed.

(** ** C80: mixed systems *)
Lemma filter_seq_prefix (p : nat -> bool) : (forall k, p (S k) = true -> p k = true) -> forall N, filter p (seq 0 N) = seq 0 (length (filter p (seq 0 N))).
Proof.
  intros H N. assert (P := prefix_count p H). induction N as [|N IH]; [reflexivity|].
  specialize (P (S N)). rewrite seq_S, filter_app in *. cbn [Nat.add filter] in *. destruct (p N) eqn:E.
  - rewrite app_length in *. cbn [length] in *. assert (L : length (filter p (seq 0 N)) = N).
    { pose proof (proj1 (P N ltac:(lia)) E). pose proof (filter_len p (seq 0 N)) as Q. rewrite seq_length in Q. lia. }
    rewrite IH, L. rewrite Nat.add_1_r, seq_S, seq_length. reflexivity.
  - rewrite app_nil_r. exact IH.
Qed.
Lemma firstn_seq n : forall k i, (k <= n)%nat -> firstn k (seq i n) = seq i k.
Proof. induction n as [|n IH]; intros [|k] i H; try reflexivity; try lia. cbn. f_equal. apply IH. lia. Qed.
Lemma upto_all s : length (upto s) = length (tvals2 s) -> upto s = tvals2 s.
Proof.
  unfold upto, tvals2, tvals. rewrite quarters0. set (N := length (quarters 0 (s + 1 / 4))). intros L.
  assert (F : forall l, filter (fun t => rleb t (s - 1 / 4)) (map (fun k => INR k / 4) l) = map (fun k => INR k / 4) (filter (fun k => rleb (INR k / 4) (s - 1 / 4)) l)).
  { induction l as [|a l IH]; [reflexivity|]. cbn. destruct (rleb (INR a / 4) (s - 1 / 4)); cbn; rewrite IH; reflexivity. }
  rewrite F in L |- *. set (p := fun k : nat => rleb (INR k / 4) (s - 1 / 4)) in *.
  assert (A : filter p (seq 0 N) = seq 0 (length (filter p (seq 0 N)))) by (apply filter_seq_prefix; unfold p; intros k Q; apply rleb_true in Q; apply rleb_true; rewrite S_INR in Q; lra).
  rewrite map_length in L. rewrite removelast_firstn_len, firstn_length, map_length, seq_length in L.
  rewrite removelast_firstn_len, map_length, seq_length, firstn_map, firstn_seq by lia. rewrite A. f_equal. f_equal. lia.
Qed.
Section Mixed.
Variables (ions : list (string * ion)) (counterions : list string) (raw : frame).
Variables (gac : R -> string -> series -> res series) (ix : R * string -> frame -> res (string -> list R)).
(** Carbon first: the carbon vessel gets the raw water and the resin vessel its effluent,
    zeros and negative values lifted to 1e-16, with the counterions at their means; the reported series are the two effluents. *)
Theorem C80_carbon_resin : forall o s compounds flow o' st, run_LL_gac_ix ions counterions raw gac ix o s compounds flow = Ok (o', st) ->
  NoDup compounds ->
  exists lead u, ix (o_ix_flow o') (o_cin o') = Ok u /\ fr_time (o_cin o') = tvals2 s /\
    (forall c, In c compounds -> gac (o_gac_flow o') c (combine (tvals s) (on_times raw s c (tvals s))) = Ok (lead c)) /\
    (forall c, In c compounds -> ~ In c counterions ->
       fr_val (o_cin o') c = map (fun t => floored (np_interp (lead c) t)) (tvals2 s) /\
       lookup c (s_mid_results st) = Some (map (fun t => (t, np_interp (lead c) t)) (tvals2 s))) /\
    (forall c, In c counterions -> fr_val (o_cin o') c = map (fun _ => floored (mean (fr_val (o_cin o) c))) (tvals2 s)) /\
    (forall c i, lookup c ions = Some i -> lookup c (s_eff_results st) = Some (combine (tvals2 s) (map (fun x => floored (x * per_meq i)) (u c)))).
Proof.
  rewrite <- lift_is, <- factor_is.
  intros o s compounds flow o' st H ND. unfold run_LL_gac_ix in H.
  destruct (bind_inv _ _ _ H) as (o1 & SF & H1). cbv zeta in H1. destruct (bind_inv _ _ _ H1) as ([] & K1 & H2). destruct (bind_inv _ _ _ H2) as (leads & LD & H3).
  destruct (bind_inv _ _ _ H3) as ([] & LE & H4). destruct (bind_inv _ _ _ H4) as ([] & K2 & H5). destruct (bind_inv _ _ _ H5) as (conv & CV & H6).
  destruct (bind_inv _ _ _ H6) as (effs & EF & H7). clear H H1 H2 H3 H4 H5 H6.
  destruct (Nat.eqb_spec (length (upto s)) (length (tvals2 s))) as [LL|]; [|discriminate LE]. pose proof (upto_all s LL) as UA. clear LE LL.
  destruct (converted_inv _ _ _ _ CV) as (u & U & EC).
  assert (LK : forall c, In c compounds -> exists r, lookup c leads = Some r /\ gac (o_gac_flow o1) c (combine (tvals s) (on_times raw s c (tvals s))) = Ok r).
  { clear - LD ND. revert leads LD ND. induction compounds as [|a l IH]; intros leads LD ND c I; [destruct I|]. cbn in LD.
    destruct (bind_inv _ _ _ LD) as (x & E1 & E2). destruct (bind_inv _ _ _ E2) as (xs & E3 & E4). destruct (bind_inv _ _ _ E1) as (r & G & E5).
    assert (leads = x :: xs) by congruence. subst leads. assert (x = (a, r)) by (destruct r; [discriminate E5|congruence]). subst x. cbn [lookup].
    destruct (String.eqb_spec c a) as [-> |N]; [exists r; split; [reflexivity|exact G]|]. destruct I as [-> |I]; [congruence|]. inversion ND. apply (IH xs E3); assumption. }
  set (lead := fun c => match lookup c leads with Some r => r | None => [] end).
  assert (OC : o_cin o1 = o_cin o).
  { unfold share_flow in SF. destruct flow as [f| | |]; try congruence. destruct (String.eqb f "use gac"); [congruence|]. destruct (String.eqb f "use ix"); [|congruence].
    destruct (lookup (snd (o_ix_flow o)) flow_converter); [|discriminate SF]. assert (E : o1 = set_gac_flow o (fst (o_ix_flow o) * r)) by congruence. rewrite E. reflexivity. }
  match type of H7 with Ok (?A, ?B) = _ => assert (EO : o' = A) by congruence; assert (EST : st = B) by congruence end.
  match type of EO with o' = set_cin o1 ?X => set (cin := X) in * end.
  exists lead, u. rewrite EO. cbn [set_cin o_ix_flow o_cin o_gac_flow]. split; [exact U|]. split; [reflexivity|]. split; [|split; [|split]].
  - intros c I. destruct (LK c I) as (r & R1 & R2). unfold lead. rewrite R1. exact R2.
  - intros c I NC. destruct (LK c I) as (r & R1 & R2). unfold lead. rewrite R1. 
    assert (MC : mem c counterions = false).
    { unfold mem. destruct (existsb (String.eqb c) counterions) eqn:E; [|reflexivity]. exfalso. apply existsb_exists in E as (y & Y1 & Y2). apply String.eqb_eq in Y2. subst y. apply NC, Y1. }
    split.
    + unfold cin. cbn [fr_val]. rewrite MC, R1, UA, map_map. reflexivity.
    + rewrite EST. cbn [s_mid_results]. rewrite UA.
      assert (IU : In c (use_compounds raw o1 compounds)) by (unfold use_compounds; apply nodup_In, in_or_app; left; exact I).
      clear - IU R1. induction (use_compounds raw o1 compounds) as [|a l IH]; [destruct IU|]. cbn [map lookup]. destruct (String.eqb_spec c a) as [-> |N].
      * rewrite R1. f_equal. clear. induction (tvals2 s) as [|t l IH]; [reflexivity|]. cbn. f_equal. exact IH.
      * destruct IU as [-> |IU]; [congruence|]. apply IH, IU.
  - intros c I. assert (MC : mem c counterions = true) by (apply existsb_exists; exists c; split; [exact I|apply String.eqb_refl]).
    unfold cin. cbn [fr_val]. rewrite MC, OC. reflexivity.
  - intros c i I. rewrite EST. cbn [s_eff_results].
    assert (LC := lookup_conv ions u c). rewrite <- EC, I in LC. set (w := map (fun x => lift (x * ion_factor i)) (u c)) in *. clearbody w. clear - LC. induction conv as [|[n v] l IH]; [discriminate LC|]. cbn [map lookup fst snd] in *. revert LC.
    destruct (String.eqb_spec c n) as [-> |N]; intros LC; [inversion LC; reflexivity|]. apply IH, LC.
Qed.
(** Resin first: the resin vessel gets the influent frame and the carbon vessel its
    effluent, with nothing below 1e-8. *)
Theorem C80_resin_carbon : forall o s compounds flow o' st, run_LL_ix_gac ions counterions raw gac ix o s compounds flow = Ok (o', st) ->
  exists u lag, ix (o_ix_flow o') (o_cin o') = Ok u /\ fr_time (o_cin o') = tvals s /\
    (forall c, fr_val (o_cin o') c = map floored (on_times (o_cin o) s c (tvals s))) /\
    (forall c, In c compounds -> exists i, lookup c ions = Some i /\
       let eff := map (fun x => floored (x * per_meq i)) (u c) in
       lookup c (s_mid_results st) = Some (combine (tvals s) eff) /\
       gac (o_gac_flow o') c (combine (tvals s) (map (Rmax (1 / 100000000)) eff)) = Ok (lag c) /\
       lookup c (s_eff_results st) = Some (map (fun t => (t, np_interp (lag c) t)) (upto s))).
Proof.
  rewrite <- lift_is, <- factor_is. replace (1 / 100000000) with thresh by (unfold thresh; field).
  intros o s compounds flow o' st H. unfold run_LL_ix_gac in H.
  destruct (bind_inv _ _ _ H) as (o1 & SF & H1). cbv zeta in H1. destruct (bind_inv _ _ _ H1) as ([] & K1 & H2). destruct (bind_inv _ _ _ H2) as (conv & CV & H3).
  destruct (bind_inv _ _ _ H3) as (mids & MD & H4). destruct (bind_inv _ _ _ H4) as (lags & LG & H5). clear H H1 H2 H3 H4.
  destruct (converted_inv _ _ _ _ CV) as (u & U & EC).
  assert (OC : o_cin o1 = o_cin o).
  { unfold share_flow in SF. destruct flow as [f| | |]; try congruence. destruct (String.eqb f "use gac"); [congruence|]. destruct (String.eqb f "use ix"); [|congruence].
    destruct (lookup (snd (o_ix_flow o)) flow_converter); [|discriminate SF]. assert (E : o1 = set_gac_flow o (fst (o_ix_flow o) * r)) by congruence. rewrite E. reflexivity. }
  match type of H5 with Ok (?A, ?B) = _ => assert (EO : o' = A) by congruence; assert (EST : st = B) by congruence end.
  match type of EO with o' = set_cin o1 ?X => set (cin := X) in * end.
  exists u, (fun c => match lookup c lags with Some r => r | None => [] end). rewrite EO. cbn [set_cin o_ix_flow o_cin o_gac_flow].
  split; [exact U|]. split; [reflexivity|]. split; [intros c; unfold cin; cbn [fr_val]; rewrite OC; reflexivity|].
  intros c I. assert (IU : In c (use_compounds raw o1 compounds)) by (unfold use_compounds; apply nodup_In, in_or_app; left; exact I).
  assert (ND : NoDup (use_compounds raw o1 compounds)) by apply NoDup_nodup.
  assert (LK : exists col r, lookup c conv = Some col /\ lookup c lags = Some r /\ gac (o_gac_flow o1) c (combine (tvals s) (map (fun x => if rleb x thresh then thresh else x) col)) = Ok r).
  { clear - LG ND IU. revert lags LG ND IU. induction (use_compounds raw o1 compounds) as [|a l IH]; intros lags LG ND I; [destruct I|]. cbn [mapM] in LG.
    destruct (bind_inv _ _ _ LG) as (x & E1 & E2). destruct (bind_inv _ _ _ E2) as (xs & E3 & E4). destruct (bind_inv _ _ _ E1) as (col & C1 & E5).
    destruct (bind_inv _ _ _ E5) as (r & G & E6). assert (lags = x :: xs) by congruence. subst lags. assert (x = (a, r)) by (destruct r; [discriminate E6|congruence]). subst x. cbn [lookup].
    destruct (String.eqb_spec c a) as [-> |N].
    - exists col, r. destruct (lookup a conv) as [cc|] eqn:EE; [|discriminate C1]. cbn in C1. split; [congruence|]. split; [reflexivity|]. cbn [set_cin o_gac_flow] in G. exact G.
    - destruct I as [-> |I]; [congruence|]. inversion ND. destruct (IH xs E3) as (col' & r' & Q); try assumption. exists col', r'. exact Q. }
  destruct LK as (col & r & L1 & L2 & G). assert (LC := lookup_conv ions u c). rewrite <- EC, L1 in LC. destruct (lookup c ions) as [i|] eqn:EI; [|discriminate LC].
  exists i. split; [reflexivity|]. cbv zeta. assert (EL : col = map (fun x => lift (x * ion_factor i)) (u c)) by congruence. rewrite <- EL. split; [|split].
  - rewrite EST. cbn [s_mid_results]. clear - L1. induction conv as [|[n v] l IH]; [discriminate L1|]. cbn [map lookup fst snd] in *. revert L1. destruct (String.eqb_spec c n) as [-> |N]; intros L1; [inversion L1; reflexivity|]. apply IH, L1.
  - rewrite L2. rewrite <- G. f_equal. f_equal. apply map_ext. intros x. unfold Rmax. destruct (Rle_dec thresh x) as [A|A]; destruct (rleb x thresh) eqn:B; try reflexivity;
      [apply rleb_true in B; lra|apply rleb_false in B; lra].
  - rewrite L2, EST. cbn [s_eff_results]. clear - L2. induction lags as [|[n v] l IH]; [discriminate L2|]. cbn [map lookup fst snd] in *. revert L2. destruct (String.eqb_spec c n) as [-> |N]; intros L2.
    + f_equal. assert (v = r) by congruence. subst v. clear. induction (upto s) as [|t l IH]; [reflexivity|]. cbn. f_equal. exact IH.
    + apply IH, L2.
Qed.
End Mixed.

(** ** C81: what earlier runs change *)
Section History.
Variables (ions : list (string * ion)) (counterions compounds0 : list string) (raw ixraw : frame).
Variables (gac : R -> string -> series -> res series) (ix : R * string -> frame -> res (string -> list R)).
Notation run := (run_LL ions counterions compounds0 raw ixraw gac ix).
(** [later o o']: o' is o after any number of completed runs *)
Inductive later (o : obj) : obj -> Prop :=
| later_none : later o o
| later_run : forall o1 s ty loops cs flow o2 a, later o o1 -> run o1 s ty loops cs flow = Ok (o2, a) -> later o o2.
Definition answer_of (r : res (obj * answer)) : res answer := do x <- r; Ok (snd x).
(** the flow of the resin vessel in the unit of the carbon vessel *)
Definition resin_flow (o : obj) : option R := option_map (Rmult (fst (o_ix_flow o))) (lookup (snd (o_ix_flow o)) flow_converter).

Lemma share_inv o f o1 : share_flow o f = Ok o1 ->
  o_ix_flow o1 = o_ix_flow o /\ o_cin o1 = o_cin o /\ (o_gac_flow o1 = o_gac_flow o \/ Some (o_gac_flow o1) = resin_flow o).
Proof.
  unfold share_flow, resin_flow. intros H. destruct f as [f| | |]; [|discriminate H|assert (o1 = o) by congruence; subst; auto|assert (o1 = o) by congruence; subst; auto].
  destruct (String.eqb f "use gac"); [assert (o1 = o) by congruence; subst; auto|]. destruct (String.eqb f "use ix"); [|assert (o1 = o) by congruence; subst; auto].
  destruct (lookup (snd (o_ix_flow o)) flow_converter) as [k|]; [|discriminate H]. assert (E : o1 = set_gac_flow o (fst (o_ix_flow o) * k)) by congruence. rewrite E. cbn. auto.
Qed.
Lemma gac_ix_flow o s cs f o' st : run_LL_gac_ix ions counterions raw gac ix o s cs f = Ok (o', st) ->
  o_ix_flow o' = o_ix_flow o /\ (o_gac_flow o' = o_gac_flow o \/ Some (o_gac_flow o') = resin_flow o).
Proof.
  intros H. unfold run_LL_gac_ix in H. destruct (bind_inv _ _ _ H) as (o1 & SF & H1). destruct (share_inv _ _ _ SF) as (E1 & _ & E3). cbv zeta in H1.
  repeat match type of H1 with bind _ _ = _ => let x := fresh in let E := fresh in let K := fresh in destruct (bind_inv _ _ _ H1) as (x & E & K); clear H1; rename K into H1 end.
  match type of H1 with Ok (?A, ?B) = _ => assert (EO : o' = A) by congruence end. rewrite EO. cbn. rewrite E1. auto.
Qed.
Lemma ix_gac_flow o s cs f o' st : run_LL_ix_gac ions counterions raw gac ix o s cs f = Ok (o', st) ->
  o_ix_flow o' = o_ix_flow o /\ (o_gac_flow o' = o_gac_flow o \/ Some (o_gac_flow o') = resin_flow o).
Proof.
  intros H. unfold run_LL_ix_gac in H. destruct (bind_inv _ _ _ H) as (o1 & SF & H1). destruct (share_inv _ _ _ SF) as (E1 & _ & E3). cbv zeta in H1.
  repeat match type of H1 with bind _ _ = _ => let x := fresh in let E := fresh in let K := fresh in destruct (bind_inv _ _ _ H1) as (x & E & K); clear H1; rename K into H1 end.
  match type of H1 with Ok (?A, ?B) = _ => assert (EO : o' = A) by congruence end. rewrite EO. cbn. rewrite E1. auto.
Qed.
Lemma run_flow o s ty loops cs f o' a : run o s ty loops cs f = Ok (o', a) ->
  o_ix_flow o' = o_ix_flow o /\ (o_gac_flow o' = o_gac_flow o \/ Some (o_gac_flow o') = resin_flow o).
Proof.
  unfold run_LL. intros H.
  repeat match type of H with (if ?b then _ else _) = _ => destruct b; try discriminate H end.
  - destruct (bind_inv _ _ _ H) as (l & _ & H1). assert (o' = o) by congruence. subst. auto.
  - destruct (bind_inv _ _ _ H) as (l & _ & H1). assert (E : o' = set_cin o (fst l)) by congruence. rewrite E. cbn. auto.
  - destruct (bind_inv _ _ _ H) as ([o2 st] & R & H1). assert (o2 = o') by (cbn in H1; congruence). subst o2. apply (ix_gac_flow _ _ _ _ _ _ R).
  - destruct (bind_inv _ _ _ H) as ([o2 st] & R & H1). assert (o2 = o') by (cbn in H1; congruence). subst o2. apply (gac_ix_flow _ _ _ _ _ _ R).
  - assert (o' = o) by congruence. subst. auto.
Qed.
Lemma later_flow o o' : later o o' -> o_ix_flow o' = o_ix_flow o /\ (o_gac_flow o' = o_gac_flow o \/ Some (o_gac_flow o') = resin_flow o).
Proof.
  induction 1 as [|o1 s ty loops cs flow o2 a L (I1 & I2) R]; [auto|]. destruct (run_flow _ _ _ _ _ _ _ _ R) as (R1 & R2).
  split; [congruence|]. unfold resin_flow in *. rewrite I1 in R2. destruct R2 as [R2|R2]; [|auto]. rewrite R2. exact I2.
Qed.
(** Two resin vessels: the same answer whatever was run before. *)
Theorem C81_resin_partial : forall o o' s ty loops cs flow, later o o' -> In (lower ty) ["ix"; "ix-ix"; "iex"; "iex-iex"] ->
  answer_of (run o' s ty loops cs flow) = answer_of (run o s ty loops cs flow).
Proof.
  intros o o' s ty loops cs flow L T. destruct (later_flow _ _ L) as (F & _). unfold run_LL, answer_of.
  destruct T as [<-|[<-|[<-|[<-|[]]]]]; cbn [String.eqb Ascii.eqb Bool.eqb orb]; rewrite F; destruct (run_LL_ix ions (ix (o_ix_flow o)) ixraw s loops); reflexivity.
Qed.
(** Two carbon vessels: the same answer as long as the flow is the one it was; and it is
    that or, after a mixed run, the resin vessel's. *)
Theorem C81_carbon_partial : forall o o' s ty loops cs flow, later o o' -> In (lower ty) ["gac"; "gac-gac"] ->
  answer_of (run o' s ty loops cs flow) = answer_of (run o s ty loops cs flow) \/
  exists q, resin_flow o = Some q /\ answer_of (run o' s ty loops cs flow) = answer_of (run (set_gac_flow o q) s ty loops cs flow).
Proof.
  intros o o' s ty loops cs flow L T. destruct (later_flow _ _ L) as (_ & F). unfold run_LL, answer_of.
  assert (T' : (String.eqb (lower ty) "gac" || String.eqb (lower ty) "gac-gac")%bool = true) by (destruct T as [<-|[<-|[]]]; reflexivity). rewrite T'.
  destruct F as [F|F].
  - left. rewrite F. match goal with |- context [mapM ?G ?l] => destruct (mapM G l) end; reflexivity.
  - right. exists (o_gac_flow o'). split; [congruence|]. cbn [set_gac_flow o_gac_flow]. match goal with |- context [mapM ?G ?l] => destruct (mapM G l) end; reflexivity.
Qed.
End History.

(** The full statement fails: resin then carbon, for one day, fresh and after carbon then
    resin: raw water 5 throughout, carbon effluent 1 throughout, resin that does nothing. *)
Definition demo_raw : frame := {| fr_time := [0; 100]; fr_cols := ["A"]; fr_val := fun _ => [5; 5] |}.
Definition demo_ions : list (string * ion) := [("A", {| i_unit := "meq"; i_mw := 1 |})].
Definition demo_gac : R -> string -> series -> res series := fun _ _ _ => Ok [(0, 1); (100, 1)].
Definition demo_ix : R * string -> frame -> res (string -> list R) := fun _ f => Ok (fr_val f).
Definition demo_obj : obj := {| o_gac_flow := 7; o_ix_flow := (1, "gpm"); o_cin := demo_raw |}.
Lemma tvals_1 : tvals 1 = [INR 0 / 4; INR 1 / 4; INR 2 / 4; INR 3 / 4; INR 4 / 4].
Proof.
  unfold tvals. rewrite quarters0. unfold quarters. rewrite map_length, seq_length.
  replace (1 + 1 / 4) with (0 + INR 5 / 4) by (cbn; field). rewrite arange_quarters. reflexivity.
Qed.
Lemma interp_const v : forall ts t, ts <> [] -> interp_x (combine ts (map (fun _ => v) ts)) t = v.
Proof.
  induction ts as [|a ts IH]; intros t N; [congruence|]. destruct ts as [|b ts]; [reflexivity|]. cbn [map combine interp_x] in *.
  assert (L : line a v b v t = v) by (unfold line, Rdiv; ring). destruct ts as [|d ts]; [exact L|]. cbn [map combine] in *.
  destruct (rleb t b); [exact L|]. apply IH. congruence.
Qed.
Lemma mean_const v : forall ts : list R, ts <> [] -> mean (map (fun _ => v) ts) = v.
Proof.
  intros ts N. unfold mean. rewrite map_length. assert (S : lsum (map (fun _ => v) ts) = INR (length ts) * v).
  { clear N. induction ts as [|a ts IH]; [cbn; ring|]. cbn [map length]. rewrite S_INR. unfold lsum in *. cbn [fold_right] in *. rewrite IH. ring. }
  rewrite S. field. apply not_0_INR. destruct ts; [congruence|discriminate].
Qed.
Lemma on_times_steady src s c times v : fr_time src <> [] -> fr_val src c = map (fun _ => v) (fr_time src) -> on_times src s c times = map (fun _ => v) times.
Proof.
  intros N E. unfold on_times. destruct (rleb s (lmax (fr_time src))); apply map_ext; intros t; rewrite E; [apply interp_const|apply mean_const]; exact N.
Qed.
Lemma lift_pos x : 0 < x -> lift x = x.
Proof. intros H. unfold lift. destruct (rleb x 0) eqn:E; [apply rleb_true in E; lra|reflexivity]. Qed.
Definition demo := run_LL demo_ions [] ["A"] demo_raw demo_raw demo_gac demo_ix.
Lemma demo_ix_gac o v : 0 < v -> fr_time (o_cin o) <> [] -> fr_val (o_cin o) "A" = map (fun _ => v) (fr_time (o_cin o)) ->
  o_ix_flow o = (1, "gpm") -> mem "A" (fr_cols (o_cin o)) = true ->
  exists o' st, demo o 1 "ix-gac" 0%nat None None = Ok (o', Done st) /\ s_mid st = [("A", v)].
Proof.
  intros Hv Ht Hf Hq Hm. unfold demo, run_LL. change (lower "ix-gac") with "ix-gac". cbn [String.eqb Ascii.eqb Bool.eqb orb].
  unfold run_LL_ix_gac, share_flow. cbn [String.eqb Ascii.eqb Bool.eqb]. rewrite Hq. cbn [snd fst].
  change (lookup "gpm" flow_converter) with (Some ml_per_gal). cbn [bind].
  assert (U : use_compounds demo_raw (set_gac_flow o (1 * ml_per_gal)) ["A"] = ["A"]).
  { unfold use_compounds. cbn [set_gac_flow o_cin demo_raw fr_cols filter]. rewrite Hm. cbn. reflexivity. }
  rewrite U. unfold known. cbn [set_gac_flow o_cin app forallb]. rewrite Hm. cbn [andb bind]. unfold converted, demo_ix. cbn [bind].
  unfold conv_iex_u. cbn [demo_ions map fst snd fr_val]. rewrite (on_times_steady (o_cin o) 1 "A" (tvals 1) v Ht Hf). rewrite tvals_1.
  cbn [map mapM bind snd fst ion_factor i_unit String.eqb Ascii.eqb Bool.eqb lookup of_option demo_gac]. unfold ion_factor. cbn [i_unit String.eqb Ascii.eqb Bool.eqb].
  rewrite (lift_pos v) by exact Hv. rewrite Rmult_1_r, (lift_pos v) by exact Hv. cbn [last].
  eexists. eexists. split; [reflexivity|]. reflexivity.
Qed.
Lemma demo_gac_ix : exists o' a, demo demo_obj 1 "gac-ix" 0%nat None None = Ok (o', a) /\ o_ix_flow o' = (1, "gpm") /\
  fr_time (o_cin o') = tvals2 1 /\ fr_val (o_cin o') "A" = map (fun _ => 1) (tvals2 1) /\ mem "A" (fr_cols (o_cin o')) = true.
Proof.
  assert (LU : upto 1 = tvals2 1).
  { unfold upto, tvals2. rewrite tvals_1. cbn [removelast filter]. cbn [INR].
    assert (T : forall x, x <= 1 - 1 / 4 -> rleb x (1 - 1 / 4) = true) by (intros; apply rleb_true; assumption).
    assert (F : forall x, 1 - 1 / 4 < x -> rleb x (1 - 1 / 4) = false) by (intros; apply rleb_false; assumption).
    rewrite (T (0 / 4)), (T (1 / 4)), (T ((1 + 1) / 4)), (T ((1 + 1 + 1) / 4)), (F ((1 + 1 + 1 + 1) / 4)) by lra. reflexivity. }
  unfold demo, run_LL. change (lower "gac-ix") with "gac-ix". cbn [String.eqb Ascii.eqb Bool.eqb orb].
  unfold run_LL_gac_ix, share_flow. cbn [String.eqb Ascii.eqb Bool.eqb bind].
  assert (U : use_compounds demo_raw demo_obj ["A"] = ["A"]) by reflexivity. rewrite U. rewrite LU. rewrite Nat.eqb_refl.
  unfold known. cbn [demo_raw fr_cols forallb mem existsb String.eqb Ascii.eqb Bool.eqb orb andb bind mapM demo_gac lookup demo_obj o_cin]. unfold converted, demo_ix. cbn [bind].
  unfold conv_iex_u. cbn [demo_ions map fst snd fr_val mem existsb].
  assert (NP : forall t, np_interp [(0, 1); (100, 1)] t = 1).
  { intros t. cbn. destruct (rleb t 0); [reflexivity|]. destruct (rltb t 100); [unfold line, Rdiv; ring|reflexivity]. }
  assert (EM : map lift (map (np_interp [(0, 1); (100, 1)]) (tvals2 1)) = map (fun _ => 1) (tvals2 1)).
  { rewrite map_map. apply map_ext. intros t. rewrite NP. apply lift_pos. lra. }
  assert (NE : exists x l, tvals2 1 = x :: l) by (unfold tvals2; rewrite tvals_1; cbn [removelast]; eexists; eexists; reflexivity).
  rewrite String.eqb_refl. rewrite EM.
  destruct NE as (x & l & NE). cbn [mapM fst snd]. 
  match goal with |- context [match ?m with [] => Err IndexError | _ :: _ => _ end] => assert (NM : exists y k, m = y :: k) by (rewrite NE; eexists; eexists; reflexivity); destruct NM as (y & k & NM); rewrite NM end.
  cbn [bind]. eexists. eexists. split; [reflexivity|]. cbn [fst set_cin o_ix_flow o_cin fr_time fr_val fr_cols]. split; [reflexivity|]. split; [reflexivity|].
  split; [exact EM|reflexivity].
Qed.
Theorem C81_history_refuted :
  exists o', later demo_ions [] ["A"] demo_raw demo_raw demo_gac demo_ix demo_obj o' /\
    answer_of (demo o' 1 "ix-gac" 0%nat None None) <> answer_of (demo demo_obj 1 "ix-gac" 0%nat None None).
Proof.
  destruct demo_gac_ix as (o' & a & R & Q & T & V & M). exists o'. split; [eapply later_run; [apply later_none|exact R]|].
  assert (NT : tvals2 1 <> []) by (unfold tvals2; rewrite tvals_1; cbn; discriminate).
  destruct (demo_ix_gac o' 1) as (o1 & s1 & E1 & M1); [lra|rewrite T; exact NT|rewrite V, T; reflexivity|exact Q|exact M|].
  destruct (demo_ix_gac demo_obj 5) as (o2 & s2 & E2 & M2); [lra|cbn; discriminate|reflexivity|reflexivity|reflexivity|].
  rewrite E1, E2. cbn [answer_of bind snd]. intros E. assert (X : s_mid s1 = s_mid s2) by congruence. rewrite M1, M2 in X.
  assert (Y : 1 = 5) by congruence. lra.
Qed.

(** ** C82: the flow of mixed systems *)
(** millilitres a minute in one unit of each name *)
Definition gallon_ml : R := 231 * (254 / 100) ^ 3.
Definition true_flow (u : string) : option R :=
  lookup u [("ml/min", 1); ("l/min", 1000); ("lps", 1000 * 60); ("l/s", 1000 * 60); ("m3ps", 10 ^ 6 * 60); ("m3/s", 10 ^ 6 * 60);
            ("gpm", gallon_ml); ("gal/min", gallon_ml); ("mgd", 10 ^ 6 * gallon_ml / (24 * 60))].
Lemma flow_table : forall u, lookup u flow_converter = true_flow u.
Proof.
  assert (G : ml_per_gal = gallon_ml) by (unfold ml_per_gal, gallon_ml, dec; cbn -[IZR]; field).
  intros u. unfold true_flow, flow_converter. rewrite <- G. cbn [lookup].
  repeat match goal with |- context [String.eqb u ?y] => destruct (String.eqb_spec u y) as [-> |?]; [cbn -[pow]; f_equal; field|] end. reflexivity.
Qed.
Section Flow.
Variables (ions : list (string * ion)) (counterions compounds0 : list string) (raw ixraw : frame).
Variables (gac : R -> string -> series -> res series) (ix : R * string -> frame -> res (string -> list R)).
Notation run := (run_LL ions counterions compounds0 raw ixraw gac ix).
(** 'use ix', the default with resin first: both vessels see the resin vessel's flow. *)
Theorem C82_use_ix_partial : forall o s cs o' st, run_LL_ix_gac ions counterions raw gac ix o s cs (FlowStr "use ix") = Ok (o', st) ->
  o_ix_flow o' = o_ix_flow o /\ exists k, true_flow (snd (o_ix_flow o)) = Some k /\ o_gac_flow o' = fst (o_ix_flow o) * k.
Proof.
  intros o s cs o' st H. unfold run_LL_ix_gac in H. destruct (bind_inv _ _ _ H) as (o1 & SF & H1). unfold share_flow in SF. cbn [String.eqb Ascii.eqb Bool.eqb] in SF.
  rewrite flow_table in SF. destruct (true_flow (snd (o_ix_flow o))) as [k|]; [|discriminate SF].
  assert (E : o1 = set_gac_flow o (fst (o_ix_flow o) * k)) by congruence. cbv zeta in H1.
  repeat match type of H1 with bind _ _ = _ => let x := fresh in let E := fresh in let K := fresh in destruct (bind_inv _ _ _ H1) as (x & E & K); clear H1; rename K into H1 end.
  match type of H1 with Ok (?A, ?B) = _ => assert (EO : o' = A) by congruence end. rewrite EO, E. cbn. split; [reflexivity|]. exists k. split; reflexivity.
Qed.
(** 'use gac', the default with carbon first, changes neither flow: the vessels run at
    different flows whenever they were given different flows. *)
Theorem C82_use_gac_refuted : forall o s cs o' st, run_LL_gac_ix ions counterions raw gac ix o s cs (FlowStr "use gac") = Ok (o', st) ->
  o_ix_flow o' = o_ix_flow o /\ o_gac_flow o' = o_gac_flow o.
Proof.
  intros o s cs o' st H. unfold run_LL_gac_ix in H. destruct (bind_inv _ _ _ H) as (o1 & SF & H1). unfold share_flow in SF. cbn [String.eqb Ascii.eqb Bool.eqb] in SF.
  assert (o1 = o) by congruence. subst o1. cbv zeta in H1.
  repeat match type of H1 with bind _ _ = _ => let x := fresh in let E := fresh in let K := fresh in destruct (bind_inv _ _ _ H1) as (x & E & K); clear H1; rename K into H1 end.
  match type of H1 with Ok (?A, ?B) = _ => assert (EO : o' = A) by congruence end. rewrite EO. split; reflexivity.
Qed.
(** A number for the flow makes both mixed configurations fail. *)
Theorem C82_number_refuted : forall o s ty loops f, lower ty = "gac-ix" \/ lower ty = "ix-gac" -> run o s ty loops None (Some (FlowNum f)) = Err TypeError.
Proof. intros o s ty loops f [H|H]; unfold run_LL; rewrite H; reflexivity. Qed.
End Flow.
(** and the default does complete, with a carbon flow of 7 ml/min and a resin flow of 1 gpm *)
Theorem C82_differ_refuted : exists o' a, demo demo_obj 1 "gac-ix" 0%nat None None = Ok (o', a) /\ o_gac_flow o' = 7 /\ o_ix_flow o' = (1, "gpm") /\ true_flow "gpm" <> Some 7.
Proof.
  destruct demo_gac_ix as (o' & a & R & Q & _). exists o', a. split; [exact R|]. split; [|split; [exact Q|]].
  - unfold demo, run_LL in R. change (lower "gac-ix") with "gac-ix" in R. cbn [String.eqb Ascii.eqb Bool.eqb orb] in R.
    destruct (bind_inv _ _ _ R) as ([o2 st] & R1 & R2). assert (o2 = o') by (cbn in R2; congruence). subst o2.
    destruct (C82_use_gac_refuted _ _ _ _ _ _ _ _ _ _ R1) as (_ & ->). reflexivity.
  - cbn. unfold gallon_ml. intros E. assert (X : 231 * (254 / 100) ^ 3 = 7) by congruence. cbn in X. lra.
Qed.

(** ** C83: units of ions *)
(** The concentration that leaves a resin vessel is the one that went in: what HSDMIX makes
    of a concentration in the ion's unit is turned back into that unit. *)
Definition round_trip (mw val : R) (unit_ : string) (c : R) (back : R) : Prop :=
  exists f, conv_conc mw val unit_ "meq" [] = Ok (f, unit_, "meq", []) /\ back = c * f * ion_factor {| i_unit := unit_; i_mw := mw |}.
Theorem C83_monovalent_partial : forall mw unit_ c, 0 < mw -> In unit_ ["meq"; "mg"; "ug"; "ng"] -> round_trip mw 1 unit_ c c.
Proof.
  intros mw unit_ c M [<-|[<-|[<-|[<-|[]]]]]; eexists; (split; [reflexivity|]); unfold ion_factor; cbn -[IZR]; field; lra.
Qed.
(** An ion of charge [val] given in mg, ug or ng leaves an inert vessel [val] times as
    concentrated; one given in mg of carbon or nitrogen is not converted back at all. *)
Theorem C83_charge_refuted : forall mw val unit_ c, 0 < mw -> 0 < val -> In unit_ ["mg"; "ug"; "ng"] -> round_trip mw val unit_ c (val * c).
Proof.
  intros mw val unit_ c M V [<-|[<-|[<-|[]]]]; eexists; (split; [reflexivity|]); unfold ion_factor; cbn -[IZR]; field; lra.
Qed.
Theorem C83_carbon_nitrogen_refuted : forall mw val c, 0 < mw -> 0 < val ->
  round_trip mw val "mgC" c (c * val / (12011 / 1000)) /\ round_trip mw val "mgN" c (c * val / (14001 / 1000)).
Proof.
  intros mw val c M V. split; eexists; (split; [reflexivity|]); unfold ion_factor, dec; cbn -[IZR]; field; lra.
Qed.

(** ** Cases that meet the hypotheses *)
Example C80_example : exists o1 st1 o2 st2,
  run_LL_gac_ix demo_ions [] demo_raw demo_gac demo_ix demo_obj 1 ["A"] (FlowStr "use gac") = Ok (o1, st1) /\
  run_LL_ix_gac demo_ions [] demo_raw demo_gac demo_ix demo_obj 1 ["A"] (FlowStr "use ix") = Ok (o2, st2) /\ s_mid st2 = [("A", 5)].
Proof.
  destruct demo_gac_ix as (o' & a & R & _). destruct (demo_ix_gac demo_obj 5) as (o2 & s2 & E2 & M2); [lra|cbn; discriminate|reflexivity|reflexivity|reflexivity|].
  unfold demo, run_LL in R, E2. change (lower "gac-ix") with "gac-ix" in R. change (lower "ix-gac") with "ix-gac" in E2. cbn [String.eqb Ascii.eqb Bool.eqb orb] in R, E2.
  destruct (bind_inv _ _ _ R) as ([o1 st1] & R1 & _). destruct (bind_inv _ _ _ E2) as ([o3 st3] & R2 & R3). assert (st3 = s2) by (cbn in R3; congruence). subst st3.
  exists o1, st1, o3, s2. auto.
Qed.
(** a carbon whose effluent stays at 1 for 40 days, swapped every 12 days *)
Example C53_example : exists out, run_LL_gac (fun _ => Ok [(0, 1); (1000, 1)]) 5 (INR 12) 3%nat = Ok out.
Proof.
  apply (C53_carbon_succeeds (fun _ => Ok [(0, 1); (1000, 1)]) 5 12 3%nat); [lia|]. intros f.
  eexists. split; [reflexivity|]. unfold covers. exists (0, 1). split; [reflexivity|]. cbn [fst last]. split; [lra|]. cbn [INR]. lra.
Qed.
Example C54_example : named "GAC-Ix" = Some (Carbon_, Resin_) /\ named "iex" = Some (Resin_, Resin_) /\ named "gac-sand" = None.
Proof. repeat split; reflexivity. Qed.

Print Assumptions C53_carbon.
Print Assumptions C53_carbon_succeeds.
Print Assumptions C53_short_interval_refuted.
Print Assumptions C53_resin.
Print Assumptions C54_names_partial.
Print Assumptions C54_alias_refuted.
Print Assumptions C54_compounds_refuted.
Print Assumptions C53_resin_succeeds.
Print Assumptions C80_carbon_resin.
Print Assumptions C80_resin_carbon.
Print Assumptions C81_resin_partial.
Print Assumptions C81_carbon_partial.
Print Assumptions C81_history_refuted.
Print Assumptions C82_use_ix_partial.
Print Assumptions C82_use_gac_refuted.
Print Assumptions C82_number_refuted.
Print Assumptions C82_differ_refuted.
Print Assumptions C83_monovalent_partial.
Print Assumptions C83_charge_refuted.
Print Assumptions C83_carbon_nitrogen_refuted.
Print Assumptions C80_example.
Print Assumptions C53_example.
Print Assumptions C54_example.
