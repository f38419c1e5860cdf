(** Proofs for the analysis tools. *)
From Coq Require Import Reals List Arith Bool String ZArith Lra Lia.
From Verif Require Import Lib_Py Lib_Pow M_GacSheet M_GacFun P_GacFun M_GacMin P_GacMin M_GacSmart Lib_Sum M_Tools S_Tools.
Import ListNotations.
Open Scope R_scope.
Local Notation length := List.length.

(** ** Rotation *)
Lemma line_left x0 y0 x1 y1 : line x0 y0 x1 y1 x0 = y0. Proof. unfold line. lra. Qed.
Lemma interp_days s : forall n a k, (a <= k)%nat ->
  interp_x (map (fun k => (INR k, s k)) (seq a (S (S n)))) (INR k) =
  if Nat.leb k (a + S n) then s k else s (a + S n)%nat + INR (k - (a + S n)) * (s (a + S n)%nat - s (a + n)%nat).
Proof.
  induction n as [|n IH]; intros a k Hk.
  - cbn [seq map interp_x]. unfold line. rewrite S_INR. replace (a + 1)%nat with (S a) by lia. replace (a + 0)%nat with a by lia.
    destruct (Nat.leb_spec k (S a)).
    + assert (k = a \/ k = S a) as [-> | ->] by lia; [|rewrite S_INR]; field; lra.
    + replace (INR (k - S a)) with (INR k - INR (S a)) by (symmetry; apply minus_INR; lia). rewrite S_INR. field; lra.
  - change (seq a (S (S (S n)))) with (a :: S a :: S (S a) :: seq (S (S (S a))) n). cbn [map].
    cbn [interp_x]. destruct (rleb (INR k) (INR (S a))) eqn:E.
    + apply rleb_true in E. apply INR_le in E.
      assert (Q : (k <=? a + S (S n))%nat = true) by (apply Nat.leb_le; lia). rewrite Q.
      unfold line. rewrite S_INR. assert (k = a \/ k = S a) as [-> | ->] by lia; [|rewrite S_INR]; field; lra.
    + apply rleb_false in E. apply INR_lt in E. specialize (IH (S a) k ltac:(lia)).
      change (map (fun k0 : nat => (INR k0, s k0)) (seq (S a) (S (S n)))) with
        ((INR (S a), s (S a)) :: (INR (S (S a)), s (S (S a))) :: map (fun k0 : nat => (INR k0, s k0)) (seq (S (S (S a))) n)) in IH.
      cbn [interp_x] in IH. rewrite IH.
      replace (S a + S n)%nat with (a + S (S n))%nat by lia. replace (S a + n)%nat with (a + S n)%nat by lia. reflexivity.
Qed.
Lemma lmax_le_iff f n x : (1 <= n)%nat -> lmax (map f (seq 0 n)) <= x <-> forall k, (k < n)%nat -> f k <= x.
Proof.
  intros Hn. destruct (lmax_spec (map f (seq 0 n))) as (A & B); [destruct n; [lia|discriminate]|]. split.
  - intros H k Hk. apply Rle_trans with (lmax (map f (seq 0 n))); [|exact H]. apply B. apply in_map. apply in_seq. lia.
  - intros H. apply in_map_iff in A as (k & <- & K). apply H. apply in_seq in K. lia.
Qed.
Lemma bed_max per : (1 <= per)%nat -> forall beds count c acc, (count < per)%nat -> (acc <= c)%nat ->
  fold_left Nat.max (bed_info beds per count c) acc =
  match beds with O => acc | S b => (c + (count + b) / per)%nat end.
Proof.
  intros HP. induction beds as [|b IH]; intros count c acc Hc Ha; [reflexivity|].
  cbn [bed_info]. assert (Q : (count <=? per)%nat = true) by (apply Nat.leb_le; lia). rewrite Q.
  cbn [app fold_left]. replace (Nat.max acc c) with c by lia.
  destruct (Nat.eqb_spec (S count) per) as [E|E].
  - rewrite IH by lia. destruct b as [|b]; [rewrite Nat.div_small by lia; lia|].
    replace (count + S b)%nat with (0 + b + 1 * per)%nat by lia. rewrite Nat.div_add by lia. lia.
  - rewrite IH by lia. destruct b as [|b]; [rewrite Nat.div_small by lia; lia|].
    replace (count + S b)%nat with (S count + b)%nat by lia. reflexivity.
Qed.
Definition groups (total per : nat) : nat := S ((total - 1) / per).
Lemma max_group_ok total per : (1 <= total)%nat -> (1 <= per)%nat -> max_group (bed_info total per 0 1) = Some (groups total per).
Proof.
  intros H1 H2. unfold max_group. pose proof (bed_max per H2 total 0 1 0 ltac:(lia) ltac:(lia)) as B.
  destruct (bed_info total per 0 1) eqn:E.
  - destruct total as [|b]; [lia|]. cbn [bed_info] in E. destruct (0 <=? per)%nat eqn:Q; [discriminate E|]. apply Nat.leb_gt in Q. lia.
  - rewrite B. destruct total as [|b]; [lia|]. unfold groups. replace (S b - 1)%nat with b by lia. f_equal. 
Qed.
Lemma groups_len total per : (1 <= total)%nat -> (1 <= per)%nat -> length (weights total per) = groups total per.
Proof.
  intros H1 H2. unfold weights, groups. pose proof (Nat.div_mod total per ltac:(lia)) as D.
  pose proof (Nat.mod_upper_bound total per ltac:(lia)) as U.
  destruct (Nat.eqb_spec (total mod per) 0) as [E|E].
  - rewrite repeat_length. rewrite E in D. set (q := (total / per)%nat) in *.
    assert (1 <= q)%nat by (destruct q; lia).
    assert ((total - 1) / per = q - 1)%nat.
    { symmetry. apply Nat.div_unique with (r := (per - 1)%nat); [lia|]. nia. }
    lia.
  - cbn [length]. rewrite repeat_length. f_equal.
    apply Nat.div_unique with (r := (total mod per - 1)%nat); [lia|]. nia.
Qed.
Lemma weights_shares total per : (1 <= total)%nat -> (1 <= per)%nat -> weights total per = shares total per.
Proof.
  intros H1 H2. pose proof (Nat.div_mod total per ltac:(lia)) as D. pose proof (Nat.mod_upper_bound total per ltac:(lia)) as U.
  assert (Q : forall x n a, (1 <= a)%nat -> map (fun j => INR (if Nat.eqb j 0 then x else per) / INR total) (seq a n) = repeat (INR per / INR total) n).
  { intros x n. induction n as [|n IH]; intros a Ha; [reflexivity|]. cbn [seq map repeat]. rewrite (proj2 (Nat.eqb_neq a 0)) by lia. rewrite IH by lia. reflexivity. }
  unfold weights, shares. cbn [seq map Nat.eqb]. rewrite Q by lia.
  destruct (Nat.eqb_spec (total mod per) 0) as [E|E].
  - rewrite E in D. destruct (total / per)%nat as [|q] eqn:Eq; [lia|].
    assert (D1 : ((total - 1) / per = q)%nat) by (symmetry; apply Nat.div_unique with (r := (per - 1)%nat); [lia|nia]).
    assert (D2 : ((total - 1) mod per = per - 1)%nat) by (symmetry; apply Nat.mod_unique with (q := q); [lia|nia]).
    rewrite D1, D2. replace (S (per - 1)) with per by lia. reflexivity.
  - assert (D1 : ((total - 1) / per = total / per)%nat) by (symmetry; apply Nat.div_unique with (r := (total mod per - 1)%nat); [lia|nia]).
    assert (D2 : ((total - 1) mod per = total mod per - 1)%nat) by (symmetry; apply Nat.mod_unique with (q := (total / per)%nat); [lia|nia]).
    rewrite D1, D2. replace (S (total mod per - 1)) with (total mod per)%nat by lia. reflexivity.
Qed.
Lemma lsum_repeat x n : lsum (repeat x n) = INR n * x.
Proof. induction n as [|n IH]; [cbn; lra|]. cbn [repeat lsum]. rewrite IH, S_INR. lra. Qed.
Lemma weights_ok total per : (1 <= total)%nat -> (1 <= per)%nat ->
  (forall w, In w (weights total per) -> 0 < w) /\ lsum (weights total per) = 1.
Proof.
  intros H1 H2. pose proof (Nat.div_mod total per ltac:(lia)) as D.
  assert (P : 0 < INR total) by (apply lt_0_INR; lia). assert (P' : 0 < INR per) by (apply lt_0_INR; lia).
  apply (f_equal INR) in D. rewrite plus_INR, mult_INR in D. split.
  - intros w. unfold weights. destruct (Nat.eqb_spec (total mod per) 0) as [E|E].
    + intros H. apply repeat_spec in H as ->. apply Rdiv_lt_0_compat; assumption.
    + intros [<- |H]; [apply Rdiv_lt_0_compat; [apply lt_0_INR; lia|assumption]|].
      apply repeat_spec in H as ->. apply Rdiv_lt_0_compat; assumption.
  - unfold weights. destruct (Nat.eqb_spec (total mod per) 0) as [E|E].
    + rewrite lsum_repeat. rewrite E in D. cbn [INR] in D. apply Rmult_eq_reg_r with (INR total); [|lra].
      replace (INR (total / per) * (INR per / INR total) * INR total) with (INR per * INR (total / per)) by (field; lra). lra.
    + cbn [lsum]. rewrite lsum_repeat. apply Rmult_eq_reg_r with (INR total); [|lra].
      replace ((INR (total mod per) / INR total + INR (total / per) * (INR per / INR total)) * INR total)
        with (INR per * INR (total / per) + INR (total mod per)) by (field; lra). lra.
Qed.

Section Rot.
Variable M : nat.
Hypothesis HM : (1 <= M)%nat.
Lemma extended_ok s d : extended M s d = continued M s d.
Proof.
  unfold extended, continued. destruct M as [|m]; [exfalso; lia|]. clear HM.
  rewrite interp_days by lia. replace (0 + S m)%nat with (S m) by lia. replace (0 + m)%nat with m by lia.
  replace (S m - 1)%nat with m by lia. reflexivity.
Qed.

Lemma slice_full s i j w tmp : (1 <= i)%nat -> ((j + 1) * i <= 5 * M)%nat ->
  add_slice M s i j w tmp = Some (fun k => tmp k + w * s (j * i + k)%nat).
Proof.
  intros Hi H. unfold add_slice. rewrite (Nat.min_r (5 * M) ((j + 1) * i)) by lia. rewrite (Nat.min_r (5 * M) (j * i)) by nia.
  replace ((j + 1) * i - j * i)%nat with i by nia. rewrite Nat.eqb_refl. reflexivity.
Qed.
Lemma add_all_ok s ws i : (1 <= i)%nat -> forall n a tmp, (a + n <= length ws)%nat -> ((a + n) * i <= 5 * M)%nat ->
  exists t, add_all M s ws i (seq a n) tmp = Some t /\
    forall k, t k = tmp k + lsum (map (fun j => nth j ws 0 * s (k + j * i)%nat) (seq a n)).
Proof.
  intros Hi. induction n as [|n IH]; intros a tmp H1 H2.
  - exists tmp. split; [reflexivity|]. intros k. cbn. lra.
  - cbn [seq add_all]. destruct (nth_error ws a) as [w|] eqn:E.
    2:{ apply nth_error_None in E. lia. }
    assert (Q : ((a + 1) * i <= (a + S n) * i)%nat) by (apply Nat.mul_le_mono_r; lia).
    rewrite slice_full by lia.
    destruct (IH (S a) (fun k => tmp k + w * s (a * i + k)%nat)) as (t & -> & T);
      [lia|replace (S a + n)%nat with (a + S n)%nat by lia; exact H2|].
    exists t. split; [reflexivity|]. intros k. rewrite T. cbn [map lsum].
    rewrite (nth_error_nth _ _ 0 E). rewrite (Nat.add_comm (a * i) k). lra.
Qed.

Section Run.
Variables (s : nat -> R) (ws : list R) (info : list nat) (target : R).
Hypothesis HG : max_group info = Some (length ws).
Lemma cycle_ok i : (1 <= i)%nat -> (length ws * i <= 5 * M)%nat ->
  exists t, cycle M s ws info i = Some t /\ forall k, t k = blended ws s i k.
Proof.
  intros Hi H. unfold cycle. rewrite HG. destruct (add_all_ok s ws i Hi (length ws) 0 (fun _ => 0)) as (t & A & B); [lia|lia|].
  exists t. split; [exact A|]. intros k. rewrite B. cbv beta. unfold blended. apply Rplus_0_l.
Qed.
Definition sound (b : nat * (nat -> R)) : Prop :=
  complies ws s target (fst b) /\ forall k, (k < fst b)%nat -> snd b k = blended ws s (fst b) k.
(** While all intervals tried fit into the extended series. *)
Lemma search_ok : forall more i best, (1 <= i)%nat -> (length ws * (i + more - 1) <= 5 * M)%nat -> (fst best < i)%nat ->
  (sound best \/ (more <> 0%nat /\ complies ws s target i)) ->
  let r := search M target s ws info more i best in
  sound r /\ (fst r = fst best \/ (i <= fst r < i + more)%nat) /\
  ((Nat.max i (S (fst r)) < i + more)%nat -> ~ complies ws s target (Nat.max i (S (fst r)))).
Proof.
  induction more as [|m IH]; intros i best Hi HL Hb HS; cbn [search].
  - destruct HS as [HS|(F & _)]; [|contradiction]. cbv zeta. split; [exact HS|]. split; [left; reflexivity|]. intros; lia.
  - destruct (cycle_ok i Hi) as (t & -> & T).
    { apply Nat.le_trans with (2 := HL). apply Nat.mul_le_mono_l. lia. }
    destruct (rleb (lmax (map t (seq 0 i))) target) eqn:E.
    + apply rleb_true in E. rewrite lmax_le_iff in E by exact Hi.
      assert (Z : sound (i, t)).
      { split; cbn [fst snd]; [intros k Hk; rewrite <- T; apply E; exact Hk|intros k _; apply T]. }
      destruct (IH (S i) (i, t) ltac:(lia)) as (A & B & C);
        [replace (S i + m - 1)%nat with (i + S m - 1)%nat by lia; exact HL|cbn; lia|left; exact Z|].
      cbv zeta in *. set (r := search M target s ws info m (S i) (i, t)) in *. cbn [fst] in B.
      split; [exact A|]. split; [lia|].
      intros H. replace (Nat.max i (S (fst r))) with (Nat.max (S i) (S (fst r))) in * by lia. apply C. lia.
    + apply rleb_false in E. assert (N : ~ complies ws s target i).
      { intros C. apply Rlt_not_le in E. apply E. rewrite lmax_le_iff by exact Hi. intros k Hk. rewrite T. apply C. exact Hk. }
      destruct HS as [HS|(_ & C)]; [|contradiction]. cbv zeta. split; [exact HS|]. split; [left; reflexivity|].
      intros _. replace (Nat.max i (S (fst best))) with i by lia. exact N.
Qed.
Hypothesis HW : forall w, In w ws -> 0 < w.
Hypothesis mono : forall a b, (a <= b)%nat -> s a <= s b.
Lemma blended_le i i' t t' : (t <= t')%nat -> (i <= i')%nat -> blended ws s i t <= blended ws s i' t'.
Proof.
  intros H1 H2. unfold blended. rewrite !lsum_map_seq. apply rsum_le. intros j Hj.
  apply Rmult_le_compat_l; [left; apply HW, nth_In; exact Hj|]. apply mono. nia.
Qed.
Lemma longer_fails i i' : (1 <= i)%nat -> (i <= i')%nat -> ~ complies ws s target i -> exists t, (t < i')%nat /\ target < blended ws s i' t.
Proof.
  intros Hi H N. exists (i' - 1)%nat. split; [lia|]. apply Rnot_le_lt. intros L. apply N. intros t Ht.
  apply Rle_trans with (blended ws s i' (i' - 1)); [|exact L]. apply blended_le; lia.
Qed.
End Run.
Lemma continued_mono s : nondecreasing M s -> forall a b, (a <= b)%nat -> continued M s a <= continued M s b.
Proof.
  intros N. assert (B : forall a, continued M s a <= continued M s (S a)).
  { intros a. unfold continued. destruct (Nat.leb_spec a M), (Nat.leb_spec (S a) M); try lia.
    - apply N. lia.
    - assert (a = M) by lia. subst a. replace (S M - M)%nat with 1%nat by lia. cbn [INR].
      pose proof (N (M - 1)%nat ltac:(lia)) as Q. replace (S (M - 1)) with M in Q by lia. lra.
    - pose proof (N (M - 1)%nat ltac:(lia)) as Q. replace (S (M - 1)) with M in Q by lia.
      replace (S a - M)%nat with (S (a - M)) by lia. rewrite S_INR. lra. }
  intros a b H. induction H as [|b H IH]; [lra|]. apply Rle_trans with (1 := IH). apply B.
Qed.
End Rot.

(** ** Replacement intervals *)
Lemma np_interp_le tbl t m : tbl <> [] -> (forall p, In p tbl -> snd p <= m) -> np_interp tbl t <= m.
Proof.
  induction tbl as [|[x0 y0] rest IH]; intros H B; [contradiction|]. cbn [np_interp].
  pose proof (B (x0, y0) (or_introl eq_refl)) as B0. cbn in B0.
  destruct rest as [|[x1 y1] more]; [exact B0|].
  pose proof (B (x1, y1) (or_intror (or_introl eq_refl))) as B1. cbn in B1.
  destruct (rleb t x0) eqn:E0; [exact B0|]. apply rleb_false in E0. destruct (rltb t x1) eqn:E1.
  - apply rltb_true in E1. unfold line. set (q := (t - x0) / (x1 - x0)).
    assert (Q : 0 <= q <= 1).
    { unfold q. split; [left; apply Rdiv_lt_0_compat; lra|]. apply Rmult_le_reg_r with (x1 - x0); [lra|].
      replace ((t - x0) / (x1 - x0) * (x1 - x0)) with (t - x0) by (field; lra). lra. }
    replace (y0 + (y1 - y0) / (x1 - x0) * (t - x0)) with (y0 * (1 - q) + y1 * q) by (unfold q; field; lra).
    assert (y0 * (1 - q) <= m * (1 - q)) by (apply Rmult_le_compat_r; lra).
    assert (y1 * q <= m * q) by (apply Rmult_le_compat_r; lra). lra.
  - apply IH; [discriminate|]. intros p Hp. apply B. right. exact Hp.
Qed.
Lemma np_interp_mono xs : forall ys zs t, length ys = length xs -> length zs = length xs ->
  Forall2 Rle ys zs -> np_interp (combine xs ys) t <= np_interp (combine xs zs) t.
Proof.
  induction xs as [|x0 xs IH]; intros ys zs t L1 L2 F; [cbn; lra|].
  destruct F as [|y0 z0 ys zs H0 F]; [discriminate|]. cbn [combine np_interp].
  injection L1 as L1. injection L2 as L2. specialize (IH ys zs t L1 L2 F).
  destruct xs as [|x1 xs]; [exact H0|]. destruct F as [|y1 z1 ys zs H1 F]; [discriminate|].
  cbn [combine] in *. destruct (rleb t x0) eqn:E0; [exact H0|]. apply rleb_false in E0.
  destruct (rltb t x1) eqn:E1; [|exact IH]. apply rltb_true in E1. unfold line. set (q := (t - x0) / (x1 - x0)).
  assert (Q : 0 <= q <= 1).
  { unfold q. split; [left; apply Rdiv_lt_0_compat; lra|]. apply Rmult_le_reg_r with (x1 - x0); [lra|].
    replace ((t - x0) / (x1 - x0) * (x1 - x0)) with (t - x0) by (field; lra). lra. }
  replace (y0 + (y1 - y0) / (x1 - x0) * (t - x0)) with (y0 * (1 - q) + y1 * q) by (unfold q; field; lra).
  replace (z0 + (z1 - z0) / (x1 - x0) * (t - x0)) with (z0 * (1 - q) + z1 * q) by (unfold q; field; lra).
  assert (y0 * (1 - q) <= z0 * (1 - q)) by (apply Rmult_le_compat_r; lra).
  assert (y1 * q <= z1 * q) by (apply Rmult_le_compat_r; lra). lra.
Qed.
Lemma first_above_ok f m : forall more day, (forall d, (d < day)%nat -> f d <= m) ->
  reported (day + more) f m (first_above f m more day).
Proof.
  induction more as [|k IH]; intros day H; cbn [first_above].
  - cbn. intros d Hd. apply H. lia.
  - destruct (rltb m (f day)) eqn:E.
    + apply rltb_true in E. cbn. exists day. split; [|reflexivity]. split; [lia|]. split; [exact E|]. exact H.
    + apply rltb_false in E. replace (day + S k)%nat with (S day + k)%nat by lia. apply IH.
      intros d Hd. destruct (Nat.eq_dec d day) as [-> |]; [exact E|]. apply H. lia.
Qed.
Lemma reported_order n f g m p q : (forall d, (d < n)%nat -> f d <= g d) -> reported n f m p -> reported n g m q -> no_longer q p.
Proof.
  intros H Hp Hq. destruct p as [z|], q as [y|]; cbn in *; auto.
  - destruct Hp as (d & (D1 & D2 & D3) & ->), Hq as (e & (E1 & E2 & E3) & ->).
    destruct (le_lt_dec e d) as [L|L]; [lia|]. specialize (E3 d L). specialize (H d D1). lra.
  - destruct Hp as (d & (D1 & D2 & D3) & _). specialize (H d D1). specialize (Hq d D1). lra.
Qed.

Lemma lookup_up {A} c (x : A) f d : lookup d (update c x f) = if String.eqb d c then Some x else lookup d f.
Proof.
  induction f as [|[k v] f IH]; cbn [update lookup].
  - reflexivity.
  - destruct (String.eqb_spec c k) as [-> |N]; cbn [lookup].
    + destruct (String.eqb d k); reflexivity.
    + rewrite IH. destruct (String.eqb_spec d k) as [-> |]; [|reflexivity].
      destruct (String.eqb_spec k c) as [-> |]; [contradiction|reflexivity].
Qed.
Lemma lookup_fmap {A B} (g : string -> A -> B) c l : lookup c (map (fun p => (fst p, g (fst p) (snd p))) l) = option_map (g c) (lookup c l).
Proof.
  induction l as [|[k v] l IH]; [reflexivity|]. cbn [map lookup fst snd]. rewrite IH.
  destruct (String.eqb_spec c k) as [-> |]; reflexivity.
Qed.
Lemma put_note_ok c n t t' : put_note c n t = Ok t' ->
  exists r, lookup c t = Some r /\ forall d, lookup d t' = if String.eqb d c then Some (set_note n r) else lookup d t.
Proof.
  unfold put_note. destruct (lookup c t) as [r|]; [|discriminate]. intros H. injection H as <-.
  exists r. split; [reflexivity|]. intros d. apply lookup_up.
Qed.
Lemma bind_ok {A B} (m : res A) (f : A -> res B) y : bind m f = Ok y -> exists x, m = Ok x /\ f x = Ok y.
Proof. destruct m; [eauto|discriminate]. Qed.

Definition row0 : rrow := {| predicted := None; r_lower := None; r_upper := None; r_note := None |}.
(** What the first loop may have done to the row of [c]. *)
Definition quiet (cols : list (string * list R)) (c : string) (r : rrow) : Prop :=
  r = row0 \/ (r = set_note Below row0 /\ exists vals m, In (c, vals) cols /\ lookup c mcls = Some m /\ lmax vals < m).
Lemma quiet_ok : forall cols t t' c, quiet_notes cols t = Ok t' ->
  (lookup c t = None -> lookup c t' = None) /\
  forall all r, incl cols all -> lookup c t = Some r -> quiet all c r -> exists r', lookup c t' = Some r' /\ quiet all c r'.
Proof.
  induction cols as [|[k vals] cols IH]; intros t t' c H; cbn [quiet_notes] in H.
  - injection H as <-. split; [auto|]. intros all r _ L Q. eauto.
  - apply bind_ok in H as (t1 & E & H). destruct (IH _ _ c H) as (I1 & I2). clear IH H.
    destruct (lookup k mcls) as [m|] eqn:LM.
    2:{ injection E as <-. split; [exact I1|]. intros all r HI. apply I2. intros p Hp. apply HI. right. exact Hp. }
    destruct (rltb (lmax vals) m) eqn:C.
    2:{ injection E as <-. split; [exact I1|]. intros all r HI. apply I2. intros p Hp. apply HI. right. exact Hp. }
    apply rltb_true in C. apply put_note_ok in E as (r0 & L0 & P). split.
    + intros L. apply I1. rewrite P. destruct (String.eqb_spec c k) as [-> |]; [congruence|exact L].
    + intros all r HI L Q. assert (HI' : incl cols all) by (intros p Hp; apply HI; right; exact Hp).
      destruct (String.eqb_spec c k) as [-> |N].
      * apply (I2 all (set_note Below r0) HI'); [rewrite P, String.eqb_refl; reflexivity|].
        assert (r0 = r) by congruence. subst r0. right. split.
        -- destruct Q as [-> |(-> & _)]; reflexivity.
        -- exists vals, m. split; [apply HI; left; reflexivity|]. auto.
      * apply (I2 all r HI'); [|exact Q]. rewrite P. destruct (String.eqb_spec c k); [contradiction|exact L].
Qed.

Definition share (new : list (string * (nat -> R))) (d : nat) (c : string) : R :=
  if String.eqb c "PFBS" then 0
  else match lookup c new, lookup c mcls with Some f, Some m => f d / m | _, _ => 0 end.
Lemma hazard_ok : forall cs new hi t hi' new' t', hazard cs new hi t = Ok (hi', new', t') ->
  (forall c, c <> "PFBS"%string -> lookup c new' = lookup c new) /\
  (forall c, (In c cs -> lookup c new <> None) -> lookup c t' = lookup c t) /\
  (forall c, In c cs -> lookup c new = None -> lookup c t <> None) /\
  (forall d, hi' d = hi d + lsum (map (share new d) cs)).
Proof.
  induction cs as [|k cs IH]; intros new hi t hi' new' t' H; cbn [hazard] in H.
  - injection H as <- <- <-. repeat split; try reflexivity; [intros c []|]. intros d. cbn. lra.
  - destruct (lookup k new) as [f|] eqn:L.
    + destruct (String.eqb_spec k "PFBS") as [-> |N].
      * destruct (IH _ _ _ _ _ _ H) as (I1 & I2 & I3 & I4). split; [|split; [|split]].
        -- intros c Hc. rewrite I1 by exact Hc. rewrite lookup_up. destruct (String.eqb_spec c "PFBS"); [contradiction|reflexivity].
        -- intros c Hc. apply I2. intros Hi. rewrite lookup_up. destruct (String.eqb c "PFBS"); [discriminate|]. apply Hc. right. exact Hi.
        -- intros c [<- |Hc] Z; [congruence|]. apply I3; [exact Hc|]. rewrite lookup_up.
           destruct (String.eqb_spec c "PFBS") as [-> |]; [congruence|exact Z].
        -- intros d. rewrite I4. cbn [map lsum]. assert (S0 : share new d "PFBS" = 0) by reflexivity. rewrite S0.
           rewrite (lsum_map_ext (share (update "PFBS" (fun d0 => f d0 + f d0 / 2000) new) d) (share new d)).
           2:{ intros c _. unfold share. destruct (String.eqb_spec c "PFBS") as [|Hc]; [reflexivity|].
               rewrite lookup_up. destruct (String.eqb_spec c "PFBS"); [contradiction|reflexivity]. }
           lra.
      * destruct (lookup k mcls) as [m|] eqn:LM; [|discriminate].
        destruct (IH _ _ _ _ _ _ H) as (I1 & I2 & I3 & I4). split; [exact I1|]. split; [|split].
        -- intros c Hc. apply I2. intros Hi. apply Hc. right. exact Hi.
        -- intros c [<- |Hc] Z; [congruence|]. apply I3; assumption.
        -- intros d. rewrite I4. cbn [map lsum].
           assert (S0 : share new d k = f d / m).
           { unfold share. destruct (String.eqb_spec k "PFBS"); [contradiction|]. rewrite L, LM. reflexivity. }
           rewrite S0. lra.
    + apply bind_ok in H as (t1 & P & H). apply put_note_ok in P as (r & Lr & P).
      destruct (IH _ _ _ _ _ _ H) as (I1 & I2 & I3 & I4). split; [exact I1|]. split; [|split].
      * intros c Hc. rewrite I2 by (intros Hi; apply Hc; right; exact Hi). rewrite P.
        destruct (String.eqb_spec c k) as [-> |]; [|reflexivity]. exfalso. apply (Hc (or_introl eq_refl)). exact L.
      * intros c [<- |Hc] Z; [congruence|]. pose proof (I3 c Hc Z) as Q. rewrite P in Q.
        destruct (String.eqb_spec c k) as [-> |]; [congruence|exact Q].
      * intros d. rewrite I4. cbn [map lsum].
        assert (S0 : share new d k = 0) by (unfold share; rewrite L; destruct (String.eqb k "PFBS"); reflexivity). rewrite S0. lra.
Qed.
Lemma fill_ok n new : (1 <= n)%nat -> forall t t', fill n new t = Ok t' -> forall c r, lookup c t = Some r ->
  exists r', lookup c t' = Some r' /\ (r_note r <> None -> r' = r) /\
    (r_note r = None -> exists f m, lookup c new = Some f /\ lookup c mcls = Some m /\ predicted r' = first_above f m n 0).
Proof.
  intros Hn. induction t as [|[k r0] t IH]; intros t' H c r L; [discriminate|]. cbn [fill] in H.
  apply bind_ok in H as (r1 & E & H). apply bind_ok in H as (t1 & F & H). injection H as <-.
  cbn [lookup] in *. destruct (String.eqb_spec c k) as [-> |N]; [|apply (IH _ F _ _ L)].
  injection L as ->. exists r1. split; [reflexivity|]. destruct (r_note r) as [a|] eqn:A.
  - injection E as ->. split; [reflexivity|discriminate].
  - split; [intros Q; contradiction|]. intros _. destruct n as [|n]; [lia|].
    destruct (lookup k new) as [f|]; [|discriminate]. destruct (lookup k mcls) as [m|]; [|discriminate].
    exists f, m. injection E as <-. auto.
Qed.

Lemma nodup_in {A} (l : list (string * A)) c v w : NoDup (keys l) -> lookup c l = Some v -> In (c, w) l -> w = v.
Proof.
  induction l as [|[k u] l IH]; intros ND L I; [discriminate|]. cbn [keys map fst] in ND. inversion ND as [|? ? NI ND']; subst.
  cbn [lookup] in L. destruct (String.eqb_spec c k) as [-> |N].
  - injection L as ->. destruct I as [E|I]; [injection E as ->; reflexivity|]. exfalso. apply NI. apply (in_map fst) in I. exact I.
  - destruct I as [E|I]; [injection E as -> _; contradiction|]. apply (IH ND' L I).
Qed.
Lemma lookup_in {A} (l : list (string * A)) c v : lookup c l = Some v -> In (c, v) l.
Proof.
  induction l as [|[k u] l IH]; intros L; [discriminate|]. cbn [lookup] in L. destruct (String.eqb_spec c k) as [-> |N].
  - injection L as ->. left. reflexivity.
  - right. apply IH. exact L.
Qed.
Lemma per_day_le d vals m day : index d <> [] -> length vals = length (index d) -> lmax vals <= m -> per_day d vals day <= m.
Proof.
  intros H L Q. unfold per_day. apply np_interp_le.
  - destruct (index d); [contradiction|]. destruct vals; discriminate.
  - intros [x y] Hp. apply in_combine_r in Hp. cbn [snd]. apply Rle_trans with (lmax vals); [|exact Q].
    apply (proj2 (lmax_spec vals ltac:(intros ->; contradiction))). exact Hp.
Qed.
Lemma intervals_ok d t : tidy d -> intervals d = Ok t ->
  (forall c m vals, c <> "HI"%string -> lookup c mcls = Some m -> lookup c (columns d) = Some vals ->
     exists r, lookup c t = Some r /\ reported (n_days d) (per_day d vals) m (predicted r)) /\
  (exists r, lookup "HI" t = Some r /\
     reported (n_days d)
       (fun day => lsum (map (fun c => match lookup c (columns d) with Some v => per_day d v day / 10 | None => 0 end) ["PFHxS"; "PFNA"; "GenX"]%string))
       1 (predicted r)) /\
  (forall c, In c ["PFOA"; "PFOS"; "PFBS"]%string -> lookup c (columns d) <> None).
Proof.
  intros (ND & NE & LEN & LAST & NHI) H. unfold intervals in H.
  apply bind_ok in H as (t1 & E1 & H). apply bind_ok in H as ([[hi new1] t2] & E2 & H).
  set (n := n_days d) in *. destruct n as [|n'] eqn:En; [discriminate|]. rewrite <- En in *. assert (Hn : (1 <= n)%nat) by lia. clear n' En.
  apply bind_ok in H as (t3 & E3 & E4).
  set (new := map (fun p => (fst p, per_day d (snd p))) (columns d)) in *.
  assert (LN : forall c, lookup c new = option_map (per_day d) (lookup c (columns d))).
  { intros c. apply (lookup_fmap (fun _ => per_day d)). }
  destruct (hazard_ok _ _ _ _ _ _ _ E2) as (Z1 & Z2 & Z3 & Z4).
  assert (F0 : forall c, lookup c frame0 = option_map (fun _ => row0) (lookup c mcls)).
  { intros c. apply (lookup_fmap (fun _ _ => row0)). }
  assert (T1 : forall c, (lookup c mcls = None -> lookup c t1 = None) /\
                 (forall m, lookup c mcls = Some m -> exists r, lookup c t1 = Some r /\ quiet (columns d) c r)).
  { intros c. destruct (quiet_ok _ _ _ c E1) as (Q1 & Q2). split.
    - intros L. apply Q1. rewrite F0, L. reflexivity.
    - intros m L. apply (Q2 _ row0 (incl_refl _)); [rewrite F0, L; reflexivity|left; reflexivity]. }
  assert (HI3 : exists r, lookup "HI" t3 = Some r /\ ((r = row0) \/ (r = set_note Below row0 /\ lmax (map hi (seq 0 n)) < 1))).
  { destruct (proj2 (T1 "HI"%string) 1 eq_refl) as (r & L & Q).
    assert (r = row0).
    { destruct Q as [Q|(_ & vals & m & I & _)]; [exact Q|]. exfalso. apply NHI. apply (in_map fst) in I. exact I. }
    subst r. assert (L2 : lookup "HI" t2 = Some row0) by (rewrite Z2; [exact L|intros F; cbn in F; destruct F as [F|[F|[F|[F|[]]]]]; discriminate F]).
    destruct (rltb (lmax (map hi (seq 0 n))) 1) eqn:C.
    - apply rltb_true in C. apply put_note_ok in E3 as (r & Lr & P). rewrite L2 in Lr. injection Lr as <-.
      exists (set_note Below row0). split; [rewrite P; reflexivity|]. right. auto.
    - injection E3 as <-. exists row0. auto. }
  assert (T3 : forall c, c <> "HI"%string -> lookup c t3 = lookup c t2).
  { intros c N. destruct (rltb (lmax (map hi (seq 0 n))) 1); [|injection E3 as <-; reflexivity].
    apply put_note_ok in E3 as (r & _ & P). rewrite P. destruct (String.eqb_spec c "HI"); [contradiction|reflexivity]. }
  assert (N2 : forall c, c <> "HI"%string -> lookup c (update "HI" hi new1) = lookup c new1).
  { intros c N. rewrite lookup_up. destruct (String.eqb_spec c "HI"); [contradiction|reflexivity]. }
  split; [|split].
  - intros c m vals NH LM LC. destruct (proj2 (T1 c) m LM) as (r & L & Q).
    assert (NB : c <> "PFBS"%string) by (intros ->; discriminate LM).
    assert (L3 : lookup c t3 = Some r).
    { rewrite T3 by exact NH. rewrite Z2; [exact L|]. intros _. rewrite LN, LC. discriminate. }
    destruct (fill_ok n _ Hn _ _ E4 _ _ L3) as (r' & L4 & A & B). exists r'. split; [exact L4|].
    destruct Q as [-> |(-> & vals' & m' & I & LM' & C)].
    + destruct (B eq_refl) as (f & m' & Lf & Lm & ->). rewrite N2, Z1, LN, LC in Lf by assumption. cbn in Lf. injection Lf as <-.
      rewrite LM in Lm. injection Lm as <-. apply (first_above_ok _ _ n 0). intros; lia.
    + rewrite A by discriminate. cbn. intros day _. pose proof (nodup_in _ _ _ _ ND LC I) as ->.
      rewrite LM in LM'. injection LM' as <-. apply per_day_le; [exact NE|apply (LEN (c, vals)), lookup_in; exact LC|lra].
  - destruct HI3 as (r & L3 & Q). destruct (fill_ok n _ Hn _ _ E4 _ _ L3) as (r' & L4 & A & B). exists r'. split; [exact L4|].
    assert (HID : forall day, hi day = lsum (map (fun c => match lookup c (columns d) with Some v => per_day d v day / 10 | None => 0 end) ["PFHxS"; "PFNA"; "GenX"]%string)).
    { intros day. rewrite Z4. cbn [map lsum]. unfold share. rewrite !LN. cbn [String.eqb Ascii.eqb Bool.eqb mcls lookup].
      destruct (lookup "PFHxS" (columns d)), (lookup "PFNA" (columns d)), (lookup "GenX" (columns d)); cbn [option_map]; lra. }
    assert (G : reported n hi 1 (predicted r')).
    { destruct Q as [-> |(-> & C)].
      - destruct (B eq_refl) as (f & m' & Lf & Lm & ->). rewrite lookup_up in Lf. cbn in Lf. injection Lf as <-.
        cbn in Lm. injection Lm as <-. apply (first_above_ok _ _ n 0). intros; lia.
      - rewrite A by discriminate. cbn. apply (lmax_le_iff hi n 1); [exact Hn|lra]. }
    destruct (predicted r') as [z|]; cbn in *.
    + destruct G as (day & (G1 & G2 & G3) & ->). exists day. split; [|reflexivity]. split; [exact G1|]. rewrite <- HID.
      split; [exact G2|]. intros d' Hd'. rewrite <- HID. apply G3. exact Hd'.
    + intros day Hd. rewrite <- HID. apply G. exact Hd.
  - intros c Hc LC. assert (LNc : lookup c new = None) by (rewrite LN, LC; reflexivity).
    destruct Hc as [<- |[<- |[<- |[]]]].
    + destruct (proj2 (T1 "PFOA"%string) 4 eq_refl) as (r & L & Q).
      assert (L3 : lookup "PFOA" t3 = Some r).
      { rewrite T3 by discriminate. rewrite Z2; [exact L|]. intros F. cbn in F. destruct F as [F|[F|[F|[F|[]]]]]; discriminate F. }
      assert (r = row0).
      { destruct Q as [Q|(_ & vals & m & I & _)]; [exact Q|]. exfalso. clear -I LC. induction (columns d) as [|[k v] l IH]; [exact I|].
        cbn [lookup] in LC. destruct I as [E|I]; [injection E as -> _; rewrite String.eqb_refl in LC; discriminate|].
        destruct (String.eqb "PFOA" k); [discriminate|]. apply (IH LC I). }
      subst r. destruct (fill_ok n _ Hn _ _ E4 _ _ L3) as (r' & L4 & A & B). destruct (B eq_refl) as (f & m & Lf & _).
      rewrite N2, Z1 in Lf by discriminate. congruence.
    + destruct (proj2 (T1 "PFOS"%string) 4 eq_refl) as (r & L & Q).
      assert (L3 : lookup "PFOS" t3 = Some r).
      { rewrite T3 by discriminate. rewrite Z2; [exact L|]. intros F. cbn in F. destruct F as [F|[F|[F|[F|[]]]]]; discriminate F. }
      assert (r = row0).
      { destruct Q as [Q|(_ & vals & m & I & _)]; [exact Q|]. exfalso. clear -I LC. induction (columns d) as [|[k v] l IH]; [exact I|].
        cbn [lookup] in LC. destruct I as [E|I]; [injection E as -> _; rewrite String.eqb_refl in LC; discriminate|].
        destruct (String.eqb "PFOS" k); [discriminate|]. apply (IH LC I). }
      subst r. destruct (fill_ok n _ Hn _ _ E4 _ _ L3) as (r' & L4 & A & B). destruct (B eq_refl) as (f & m & Lf & _).
      rewrite N2, Z1 in Lf by discriminate. congruence.
    + apply (Z3 "PFBS"%string); [cbn; auto|exact LNc|]. apply (proj1 (T1 "PFBS"%string)). reflexivity.
Qed.
