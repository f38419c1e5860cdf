(** Lemmas on the capacity estimate. *)
From Coq Require Import Reals List Arith Bool String Lra Lia.
From Verif Require Import Lib_Py Lib_Pow M_GacFun P_GacFun M_GacMin P_GacMin M_GacSmart P_GacSmart M_GacCapacity P_Colloc.
Import ListNotations.
Open Scope R_scope.
Local Notation length := List.length.

Lemma arange_len_spec x n : (n < arange_len 0 x 1)%nat <-> INR n < x.
Proof.
  unfold arange_len. replace ((x - 0) / 1) with x by field. split; intros H.
  - destruct (Rlt_le_dec (INR n) x) as [L|L]; [exact L|]. rewrite INR_IZR_INZ in L. apply ceil_le in L. lia.
  - rewrite INR_IZR_INZ in H. apply ceil_gt in H. lia.
Qed.
Lemma arange_in x t : In t (arange x) <-> exists n, t = INR n /\ INR n < x.
Proof.
  unfold arange. rewrite in_map_iff. split.
  - intros (n & <- & I). apply in_seq in I. exists n. split; [reflexivity|]. apply arange_len_spec. lia.
  - intros (n & -> & L). exists n. split; [reflexivity|]. apply in_seq. apply arange_len_spec in L. lia.
Qed.
(** the first day with a property *)
Lemma find_seq (p : R -> bool) n : forall s len, (s <= n < s + len)%nat -> p (INR n) = true -> (forall m, (s <= m < n)%nat -> p (INR m) = false) -> find p (map INR (seq s len)) = Some (INR n).
Proof.
  intros s len. revert s. induction len as [|len IH]; intros s L P Q; [lia|]. cbn [seq map find]. destruct (Nat.eq_dec s n) as [-> |N]; [rewrite P; reflexivity|].
  rewrite Q by lia. apply IH; [lia|exact P|]. intros m M. apply Q. lia.
Qed.
Lemma find_arange p n x : INR n < x -> p (INR n) = true -> (forall m, (m < n)%nat -> p (INR m) = false) -> find p (arange x) = Some (INR n).
Proof. intros L P Q. unfold arange. apply find_seq; [apply arange_len_spec in L; lia|exact P|]. intros m M. apply Q. lia. Qed.
Lemma lsum_pos l : l <> [] -> (forall x, In x l -> 0 < x) -> 0 < lsum l.
Proof.
  induction l as [|x l IH]; intros N P; [congruence|]. cbn. specialize (P x (or_introl eq_refl)) as PX. destruct l as [|y l]; [cbn; lra|]. assert (0 < lsum (y :: l)); [|lra].
  apply IH; [discriminate|]. intros z I. apply P. right. exact I.
Qed.
Lemma lsum_bounds m M l : (forall x, In x l -> m <= x <= M) -> m * INR (length l) <= lsum l <= M * INR (length l).
Proof.
  induction l as [|x l IH]; intros H; [cbn; lra|]. cbn [length lsum]. rewrite S_INR. specialize (H x (or_introl eq_refl)) as HX. specialize (IH (fun y I => H y (or_intror I))). lra.
Qed.
Lemma mean_bounds m M l : l <> [] -> (forall x, In x l -> m <= x <= M) -> m <= mean l <= M.
Proof.
  intros N H. apply lsum_bounds in H. unfold mean. assert (P : 0 < INR (length l)) by (apply lt_0_INR; destruct l; [congruence|cbn; lia]).
  split; apply Rmult_le_reg_r with (INR (length l)); try exact P; replace (lsum l / INR (length l) * INR (length l)) with (lsum l) by (field; lra); lra.
Qed.
Lemma infl_in raw t c : In (t, c) (infl raw) <-> exists c0, In (t, c0) raw /\ c = (if reqb c0 0 then dec 1 3 else c0).
Proof.
  unfold infl, nonzero. rewrite in_map_iff. split.
  - intros ((t0 & c0) & E & I). cbn in E. inversion E; subst. exists c0. split; [exact I|reflexivity].
  - intros (c0 & I & ->). exists (t, c0). split; [reflexivity|exact I].
Qed.
Lemma dec13 : 0 < dec 1 3. Proof. unfold dec. cbn. lra. Qed.
Lemma infl_pos raw : (forall t c, In (t, c) raw -> 0 <= c) -> forall t c, In (t, c) (infl raw) -> 0 < c.
Proof.
  intros H t c I. apply infl_in in I as (c0 & I & ->). specialize (H _ _ I). destruct (reqb c0 0) eqn:E; [apply dec13|]. apply reqb_false in E. lra.
Qed.
Lemma infl_sum raw : raw <> [] -> (forall t c, In (t, c) raw -> 0 <= c) -> reqb (lsum (values (infl raw))) 0 = false.
Proof.
  intros N H. apply reqb_false. assert (0 < lsum (values (infl raw))); [|lra]. apply lsum_pos.
  - destruct raw; [congruence|discriminate].
  - intros x I. unfold values in I. apply in_map_iff in I as ((t & c) & <- & I). apply (infl_pos raw H t c I).
Qed.
Lemma tab_inc_map g s : tab_inc s -> tab_inc (map (fun p : R * R => (fst p, g p)) s).
Proof. induction s as [|(x, y) [|(x1, y1) s] IH]; intros H; [exact I|exact I|]. destruct H as (A & B). split; [exact A|apply IH, B]. Qed.
Lemma infl_inc raw : tab_inc raw -> tab_inc (infl raw).
Proof. apply (tab_inc_map (fun p => if reqb (snd p) 0 then dec 1 3 else snd p)). Qed.
(** putting a point in a table *)
Lemma put_in t v s p : tab_inc s -> (In p (put t v s) <-> p = (t, v) \/ (In p s /\ fst p <> t)).
Proof.
  induction s as [|(x, y) s IH]; intros H; [cbn; intuition|]. cbn [put fst].
  assert (HS : tab_inc s) by (destruct s as [|(x1, y1) s]; [exact I|apply H]).
  assert (LT : forall q, In q s -> x < fst q) by (intros (q1 & q2) Q; apply (tab_inc_lt x y s q1 q2 H Q)).
  destruct (reqb x t) eqn:E.
  - apply reqb_true in E. subst x. cbn. split.
    + intros [<- |Q]; [left; reflexivity|right]. split; [right; exact Q|]. specialize (LT _ Q). lra.
    + intros [-> |([<- |Q] & N)]; [left; reflexivity|cbn in N; lra|right; exact Q].
  - apply reqb_false in E. destruct (rltb t x) eqn:L.
    + apply rltb_true in L. cbn. split.
      * intros [<- |[<- |Q]]; [left; reflexivity|right; split; [left; reflexivity|cbn; lra]|right; split; [right; exact Q|specialize (LT _ Q); lra]].
      * intros [-> |([<- |Q] & N)]; auto.
    + cbn. rewrite (IH HS). split.
      * intros [<- |[-> |(Q & N)]]; [right; split; [left; reflexivity|cbn; exact E]|left; reflexivity|right; split; [right; exact Q|exact N]].
      * intros [-> |([<- |Q] & N)]; auto.
Qed.
Lemma put_inc t v s : tab_inc s -> tab_inc (put t v s).
Proof.
  induction s as [|(x, y) s IH]; intros H; [exact I|]. cbn [put fst]. destruct (reqb x t) eqn:E.
  - apply reqb_true in E. subst x. destruct s as [|(x1, y1) s]; [exact I|exact H].
  - apply reqb_false in E. destruct (rltb t x) eqn:L; [apply rltb_true in L; split; assumption|]. apply rltb_false in L.
    destruct s as [|(x1, y1) s]; [cbn; split; [lra|exact I]|]. destruct H as (A & B). specialize (IH B). cbn [put fst] in IH |- *.
    destruct (reqb x1 t) eqn:E1; [split; [lra|exact IH]|]. destruct (rltb t x1); [split; [lra|exact IH]|]. split; [exact A|exact IH].
Qed.
(** interpolation stays between the values inside the table *)
Lemma interp_range lo hi : forall s, s <> [] -> tab_inc s -> (forall t c, In (t, c) s -> lo <= c <= hi) -> forall t, (exists a c, In (a, c) s /\ a <= t) -> (exists b c, In (b, c) s /\ t <= b) -> lo <= interp_x s t <= hi.
Proof.
  assert (LB : forall x0 y0 x1 y1 t, x0 < x1 -> x0 <= t <= x1 -> lo <= y0 <= hi -> lo <= y1 <= hi -> lo <= line x0 y0 x1 y1 t <= hi).
  { intros x0 y0 x1 y1 t L T A B. unfold line. set (u := (t - x0) / (x1 - x0)). replace ((y1 - y0) / (x1 - x0) * (t - x0)) with ((y1 - y0) * u) by (unfold u; field; lra).
    assert (U : 0 <= u <= 1). { unfold u. split; [apply Rmult_le_pos; [lra|left; apply Rinv_0_lt_compat; lra]|]. apply Rmult_le_reg_r with (x1 - x0); [lra|]. replace ((t - x0) / (x1 - x0) * (x1 - x0)) with (t - x0) by (field; lra). lra. }
    nra. }
  induction s as [|(x0, y0) s IH]; intros N H B t TA TB; [congruence|]. destruct s as [|(x1, y1) s]; [cbn; apply (B x0); left; reflexivity|].
  destruct H as (A & H). assert (T0 : x0 <= t). { destruct TA as (a & c & [E|I] & L); [inversion E; subst; exact L|]. assert (x0 < a) by (apply (tab_inc_lt x0 y0 ((x1, y1) :: s) a c); [split; assumption|exact I]). lra. }
  pose proof (B x0 y0 (or_introl eq_refl)) as B0. pose proof (B x1 y1 (or_intror (or_introl eq_refl))) as B1.
  cbn [interp_x]. destruct s as [|p s].
  - apply LB; try assumption. split; [exact T0|]. destruct TB as (b & c & [E|[E|[]]] & L); inversion E; subst; lra.
  - destruct (rleb t x1) eqn:E; [apply rleb_true in E; apply LB; try assumption; lra|]. apply rleb_false in E. apply IH; [discriminate|exact H|intros a c I; apply (B a); right; exact I| |].
    + exists x1, y1. split; [left; reflexivity|lra].
    + destruct TB as (b & c & [Q|I] & L); [inversion Q; subst; lra|]. exists b, c. split; [exact I|exact L].
Qed.
(** scaling the times *)
Definition stretch (s : R) (tab : series) : series := map (fun p => (s * fst p, snd p)) tab.
Lemma interp_stretch s tab t : 0 < s -> interp_x (stretch s tab) (s * t) = interp_x tab t.
Proof.
  intros S. assert (LL : forall x0 y0 x1 y1, line (s * x0) y0 (s * x1) y1 (s * t) = line x0 y0 x1 y1 t).
  { intros. unfold line. destruct (Req_dec x1 x0) as [-> |N].
    - replace (s * x0 - s * x0) with 0 by ring. replace (x0 - x0) with 0 by ring. unfold Rdiv. rewrite Rinv_0. ring.
    - field. split; [lra|]. intros Q. apply N. apply Rmult_eq_reg_l with s; lra. }
  induction tab as [|(x0, y0) r IH]; [reflexivity|]. destruct r as [|(x1, y1) r]; [reflexivity|]. unfold stretch in *. cbn [map fst snd interp_x] in *. rewrite LL.
  destruct r as [|p r]; [reflexivity|]. cbn [map]. replace (rleb (s * t) (s * x1)) with (rleb t x1); [destruct (rleb t x1); [reflexivity|exact IH]|].
  destruct (rleb t x1) eqn:E.
  - apply rleb_true in E. symmetry. apply rleb_true. nra.
  - apply rleb_false in E. symmetry. apply rleb_false. nra.
Qed.
Lemma stretch_values s tab : values (stretch s tab) = values tab.
Proof. unfold values, stretch. rewrite map_map. reflexivity. Qed.
Lemma infl_stretch s raw : infl (stretch s raw) = stretch s (infl raw).
Proof. unfold infl, nonzero, stretch. rewrite !map_map. reflexivity. Qed.
(** counting *)
Lemma count_two l i j : (i < j < length l)%nat -> nth i l 0 <> 0 -> nth j l 0 <> 0 -> (2 <= count_nonzero l)%nat.
Proof.
  assert (ONE : forall l j, (j < length l)%nat -> nth j l 0 <> 0 -> (1 <= count_nonzero l)%nat).
  { induction l0 as [|x r IH]; intros k L N; [cbn in L; lia|]. unfold count_nonzero in *. cbn [filter]. destruct k as [|k].
    - cbn in N. rewrite (proj2 (reqb_false x 0)) by exact N. cbn. lia.
    - specialize (IH k ltac:(cbn in L; lia) N). destruct (reqb x 0); cbn [negb]; cbn [length]; lia. }
  revert i j. induction l as [|x r IH]; intros i j L NI NJ; [cbn in L; lia|]. unfold count_nonzero in *. cbn [filter]. destruct j as [|j]; [lia|]. destruct i as [|i].
  - cbn in NI. rewrite (proj2 (reqb_false x 0)) by exact NI. cbn [negb length]. specialize (ONE r j ltac:(cbn in L; lia) NJ). lia.
  - specialize (IH i j ltac:(cbn in L; lia) NI NJ). destruct (reqb x 0); cbn [negb]; cbn [length]; lia.
Qed.
Lemma lsum_nonneg l : (forall x, In x l -> 0 <= x) -> 0 <= lsum l /\ (lsum l = 0 -> forall x, In x l -> x = 0).
Proof.
  induction l as [|x l IH]; intros H; [cbn; split; [lra|intros _ y []]|]. cbn. specialize (H x (or_introl eq_refl)) as HX. destruct (IH (fun y I => H y (or_intror I))) as (A & B). split; [lra|].
  intros E y [<- |I]; [lra|]. apply B; [lra|exact I].
Qed.
