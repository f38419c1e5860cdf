(** Proofs about the grid fits. *)
From Coq Require Import Reals List Arith Bool String ZArith Lra Lia.
From Verif Require Import Lib_Py P_GacFun M_GacFun M_GacMin P_GacMin M_GacSmart P_GacSmart M_GacFit Props_GacMin.
Import ListNotations.
Open Scope R_scope.
Local Notation length := List.length.

(** ** Sorted labels *)
Lemma uinsert_in x l y : In y (uinsert x l) <-> y = x \/ In y l.
Proof.
  induction l as [|z r IH]; cbn [uinsert].
  - cbn. intuition.
  - destruct (rltb x z); [cbn; intuition|]. destruct (reqb x z) eqn:E.
    + apply reqb_true in E. subst. cbn. intuition.
    + cbn [In]. rewrite IH. intuition.
Qed.
Lemma usort_in l y : In y (usort l) <-> In y l.
Proof. induction l as [|x r IH]; cbn [usort]; [reflexivity|]. rewrite uinsert_in, IH. cbn. intuition. Qed.

Definition incr (l : list R) : Prop := forall i j, (i < j < length l)%nat -> nth i l 0 < nth j l 0.
Lemma incr_cons x l : incr l -> (forall y, In y l -> x < y) -> incr (x :: l).
Proof.
  intros H B i j [Hij Hj]. cbn [length] in Hj. destruct i as [|i], j as [|j]; try lia.
  - cbn [nth]. apply B, nth_In. lia.
  - cbn [nth]. apply H. lia.
Qed.
Lemma incr_tl x l : incr (x :: l) -> incr l /\ (forall y, In y l -> x < y).
Proof.
  intros H. split.
  - intros i j Hij. apply (H (S i) (S j)). cbn [length]. lia.
  - intros y Hy. destruct (In_nth _ _ 0 Hy) as (i & Hi & <-). apply (H 0%nat (S i)). cbn [length]. lia.
Qed.
Lemma uinsert_incr x l : incr l -> incr (uinsert x l).
Proof.
  induction l as [|z r IH]; intros H; cbn [uinsert].
  - intros i j Hij. cbn [length] in Hij. lia.
  - destruct (incr_tl _ _ H) as (H1 & H2). destruct (rltb x z) eqn:E.
    + apply rltb_true in E. apply incr_cons; [exact H|]. intros y [<- |Hy]; [exact E|]. specialize (H2 y Hy). lra.
    + apply rltb_false in E. destruct (reqb x z) eqn:E2; [exact H|]. apply reqb_false in E2.
      apply incr_cons; [apply IH; exact H1|]. intros y Hy. apply uinsert_in in Hy. destruct Hy as [-> |Hy]; [lra|auto].
Qed.
Lemma usort_incr l : incr (usort l).
Proof. induction l as [|x r IH]; cbn [usort]; [intros i j Hij; cbn in Hij; lia|apply uinsert_incr, IH]. Qed.
Lemma incr_inj l i j : incr l -> (i < length l)%nat -> (j < length l)%nat -> nth i l 0 = nth j l 0 -> i = j.
Proof.
  intros H Hi Hj E. destruct (lt_eq_lt_dec i j) as [[L|L]|L]; [|exact L|].
  - specialize (H i j ltac:(lia)). lra.
  - specialize (H j i ltac:(lia)). lra.
Qed.
Lemma usort_len l : (length (usort l) <= length l)%nat.
Proof.
  induction l as [|x r IH]; cbn [usort length]; [lia|].
  assert (U : forall k, (length (uinsert x k) <= S (length k))%nat).
  { induction k as [|z k IHk]; cbn [uinsert length]; [lia|].
    destruct (rltb x z); [cbn [length]; lia|]. destruct (reqb x z); cbn [length]; lia. }
  specialize (U (usort r)). lia.
Qed.

Lemma rindex_in v l : In v l -> exists i, rindex v l = Ok i /\ (i < length l)%nat /\ nth i l 0 = v.
Proof.
  induction l as [|x r IH]; intros H; [destruct H|]. cbn [rindex]. destruct (reqb x v) eqn:E.
  - apply reqb_true in E. exists 0%nat. cbn. split; [reflexivity|]. split; [lia|exact E].
  - apply reqb_false in E. destruct H as [-> |H]; [congruence|]. destruct (IH H) as (i & E1 & E2 & E3).
    rewrite E1. cbn. exists (S i). split; [reflexivity|]. split; [lia|exact E3].
Qed.
Lemma rindex_ok v l i : rindex v l = Ok i -> In v l.
Proof.
  revert i; induction l as [|x r IH]; intros i H; cbn [rindex] in H; [discriminate|].
  destruct (reqb x v) eqn:E; [apply reqb_true in E; left; exact E|].
  destruct (rindex v r) as [k|e] eqn:F; cbn in H; [|discriminate]. right. apply (IH k). reflexivity.
Qed.

(** ** Tables made from a grid *)
Lemma lmax_const v l : l <> [] -> (forall x, In x l -> x = v) -> lmax l = v.
Proof.
  induction l as [|x r IH]; intros NE H; [congruence|]. destruct r as [|y r].
  - cbn. apply H. left. reflexivity.
  - cbn [lmax]. assert (E : lmax (y :: r) = v) by (apply IH; [discriminate|intros z Hz; apply H; right; exact Hz]).
    cbn [lmax] in E. rewrite E. rewrite (H x (or_introl eq_refl)). destruct (rleb v v); reflexivity.
Qed.

Section Grid.
Variable g : R -> R -> R.
Variable ks xs : list R.
Definition grid_rows : list (R * R * R) := map (fun p => (fst p, snd p, g (fst p) (snd p))) (list_prod ks xs).

Lemma idx_in k : In k (usort (map (fun r => fst (fst r)) grid_rows)) -> In k ks.
Proof.
  rewrite usort_in. unfold grid_rows. rewrite map_map. cbn [fst]. rewrite in_map_iff.
  intros ([k' x'] & <- & H). apply in_prod_iff in H. apply H.
Qed.
Lemma col_in x : In x (usort (map (fun r => snd (fst r)) grid_rows)) -> In x xs.
Proof.
  rewrite usort_in. unfold grid_rows. rewrite map_map. cbn [fst snd]. rewrite in_map_iff.
  intros ([k' x'] & <- & H). apply in_prod_iff in H. apply H.
Qed.
Lemma idx_of k x : In k ks -> In x xs -> In k (usort (map (fun r => fst (fst r)) grid_rows)).
Proof.
  intros Hk Hx. rewrite usort_in. unfold grid_rows. rewrite map_map. cbn [fst]. rewrite in_map_iff.
  exists (k, x). split; [reflexivity|]. apply in_prod; assumption.
Qed.
Lemma col_of k x : In k ks -> In x xs -> In x (usort (map (fun r => snd (fst r)) grid_rows)).
Proof.
  intros Hk Hx. rewrite usort_in. unfold grid_rows. rewrite map_map. cbn [fst snd]. rewrite in_map_iff.
  exists (k, x). split; [reflexivity|]. apply in_prod; assumption.
Qed.
Lemma cell_val k x :
  In k ks -> In x xs ->
  lmax (map snd (filter (fun r => (reqb (fst (fst r)) k && reqb (snd (fst r)) x)%bool) grid_rows)) = g k x.
Proof.
  intros Hk Hx. apply lmax_const.
  - assert (Q : In (k, x, g k x) (filter (fun r => (reqb (fst (fst r)) k && reqb (snd (fst r)) x)%bool) grid_rows)).
    { apply filter_In. split; [|cbn [fst snd]; rewrite !reqb_refl; reflexivity].
      unfold grid_rows. rewrite in_map_iff. exists (k, x). split; [reflexivity|]. apply in_prod; assumption. }
    intros E. apply (in_map snd) in Q. rewrite E in Q. destruct Q.
  - intros v Hv. rewrite in_map_iff in Hv. destruct Hv as (((k', x'), w) & <- & H). apply filter_In in H.
    destruct H as (H & B). cbn [fst snd] in B |- *. apply andb_true_iff in B. destruct B as (B1 & B2).
    apply reqb_true in B1, B2. subst. unfold grid_rows in H. rewrite in_map_iff in H.
    destruct H as ([k'' x''] & E & _). cbn [fst snd] in E. congruence.
Qed.

Lemma find_min_grid mk mx v : find_min (pivot grid_rows) = Ok (mk, mx, v) -> In mk ks /\ In mx xs.
Proof.
  unfold find_min, pivot. intros H.
  destruct (C38_entry_with_labels _ _ _ _ _ _ _ _ H) as (i & j & Hi & Hj & -> & -> & _).
  split; [apply idx_in, nth_In, Hi|apply col_in, nth_In, Hj].
Qed.
Lemma size_le : (length (usort (map (fun r => fst (fst r)) grid_rows)) <= length ks)%nat /\
                (length (usort (map (fun r => snd (fst r)) grid_rows)) <= length xs)%nat.
Proof.
  assert (N : forall l m : list R, incr l -> incl l m -> (length l <= length m)%nat).
  { intros l m I S. apply NoDup_incl_length; [|exact S]. apply (NoDup_nth l 0). intros i j Hi Hj. apply incr_inj; assumption. }
  split; apply N; try apply usort_incr; intros y Hy; [apply idx_in|apply col_in]; exact Hy.
Qed.
Lemma find_min_least mk mx v : (length ks * length xs <= 41)%nat ->
  find_min (pivot grid_rows) = Ok (mk, mx, v) ->
  forall k x, In k ks -> In x xs -> g mk mx <= g k x.
Proof.
  intros Hs H k x Hk Hx. assert (H' := find_min_grid _ _ _ H). unfold find_min, pivot in H.
  destruct size_le as (SZ1 & SZ2).
  assert (SZ := Nat.le_trans _ _ _ (Nat.mul_le_mono _ _ _ _ SZ1 SZ2) Hs).
  destruct (C38_minimum_partial _ _ _ _ _ _ _ _ SZ H) as (i & j & (Hi & Hj & L) & E1 & E2 & _).
  destruct (In_nth _ _ 0 (idx_of k x Hk Hx)) as (i' & Hi' & Ei).
  destruct (In_nth _ _ 0 (col_of k x Hk Hx)) as (j' & Hj' & Ej).
  specialize (L i' j' Hi' Hj'). cbn beta in L. rewrite Ei, Ej, <- E1, <- E2 in L.
  rewrite !cell_val in L by (try apply H'; assumption). exact L.
Qed.
Lemma find_min_total k0 x0 :
  (forall k x, In k ks -> In x xs -> 0 < g k x) -> In k0 ks -> In x0 xs ->
  (forall k x, In k ks -> In x xs -> (k, x) <> (k0, x0) -> g k0 x0 < g k x) ->
  exists mk mx v, find_min (pivot grid_rows) = Ok (mk, mx, v).
Proof.
  intros Hpos Hk Hx U. unfold find_min, pivot.
  destruct (In_nth _ _ 0 (idx_of k0 x0 Hk Hx)) as (i0 & Hi & Ei).
  destruct (In_nth _ _ 0 (col_of k0 x0 Hk Hx)) as (j0 & Hj & Ej).
  apply (C38_succeeds _ _ _ _ _ i0 j0).
  - intros i j Hi' Hj'. rewrite cell_val; [apply Hpos| |]; try (apply idx_in, nth_In; assumption); try (apply col_in, nth_In; assumption).
  - split; [exact Hi|]. split; [exact Hj|]. intros i j Hi' Hj' N. rewrite !cell_val;
      try (apply idx_in, nth_In; assumption); try (apply col_in, nth_In; assumption).
    rewrite Ei, Ej. apply U; try (apply idx_in, nth_In; assumption); try (apply col_in, nth_In; assumption).
    intros E. injection E as E1 E2. apply N. f_equal.
    + apply (incr_inj (usort (map (fun r => fst (fst r)) grid_rows))); [apply usort_incr|assumption|assumption|congruence].
    + apply (incr_inj (usort (map (fun r => snd (fst r)) grid_rows))); [apply usort_incr|assumption|assumption|congruence].
Qed.
End Grid.

(** ** The simulations of a round *)
Section F.
Variable sim : string -> R -> R -> option R.
Variable no_table : bool.
Variable self_xn : R.

(** Sum of squares of a simulation that did not fail. *)
Definition val (c : string) (K N : R) : R := match sim c K N with Some v => v | None => 0 end.
Definition pt (c : string) (km : R -> R) (p : R * R) : fpoint :=
  {| f_comp := c; f_K := fst p * km (snd p); f_N := snd p; f_err := val c (fst p * km (snd p)) (snd p) |}.
Definition lab (x : R) : R := if no_table then 1 else x.
Definition row (c : string) (km : R -> R) (p : R * R) : R * R * R :=
  (fst p, lab (snd p), val c (fst p * km (snd p)) (snd p)).

Lemma kfit_trial c km k x s : kfit sim no_table c [k * km x] [x] (set_ft (trial c (k * km x) x (ft s)) s) =
  match sim c (k * km x) x with
  | None => Err ValueError
  | Some v => Ok (lab x, v, {| ft := fb s; fb := fb s; flog := pt c km (k, x) :: flog s; xtmp := xtmp s; ktmp := ktmp s |})
  end.
Proof.
  unfold kfit, lab, pt, val, trial. cbn [length Nat.eqb hd set_ft ft fb flog xtmp ktmp fst snd]. rewrite put_same. cbn [eK eN].
  destruct no_table; cbn [andb]; destruct (sim c (k * km x) x); reflexivity.
Qed.

Definition ran c km (L : list (R * R)) (s s' : fstate) : Prop :=
  (forall p, In p L -> sim c (fst p * km (snd p)) (snd p) <> None) /\
  flog s' = (rev (map (pt c km) L) ++ flog s)%list /\ fb s' = fb s /\ xtmp s' = xtmp s /\ ktmp s' = ktmp s /\
  ft s' = match L with [] => ft s | _ => fb s end.
Lemma ran_app c km L L' s1 s2 s3 : ran c km L s1 s2 -> ran c km L' s2 s3 -> ran c km (L ++ L') s1 s3.
Proof.
  intros (A1 & A2 & A3 & A4 & A5 & A6) (B1 & B2 & B3 & B4 & B5 & B6). unfold ran.
  split; [intros p Hp; apply in_app_iff in Hp; destruct Hp; auto|].
  split; [rewrite B2, A2, map_app, rev_app_distr, app_assoc; reflexivity|].
  split; [congruence|]. split; [congruence|]. split; [congruence|].
  rewrite B6. destruct L; cbn [app]; [rewrite A6, A3; reflexivity|]. destruct L'; congruence.
Qed.

Lemma eval_row_ok c km k xs s l s' : eval_row sim no_table c km k xs s = Ok (l, s') ->
  l = map (row c km) (map (pair k) xs) /\ ran c km (map (pair k) xs) s s'.
Proof.
  revert s l s'; induction xs as [|x r IH]; intros s l s' H; cbn [eval_row] in H.
  - injection H as <- <-. split; [reflexivity|]. unfold ran. cbn. intuition.
  - rewrite kfit_trial in H. destruct (sim c (k * km x) x) as [v|] eqn:E; cbn [bind] in H; [|discriminate].
    destruct (eval_row sim no_table c km k r _) as [[l' s3]|] eqn:E2; cbn [bind] in H; [|discriminate].
    injection H as <- <-. destruct (IH _ _ _ E2) as (-> & R). split.
    + cbn [map]. f_equal. unfold row, val. cbn [fst snd]. rewrite E. reflexivity.
    + cbn [map]. change ((k, x) :: map (pair k) r) with ([(k, x)] ++ map (pair k) r)%list.
      eapply ran_app; [|exact R]. unfold ran. cbn [In map rev app flog fb xtmp ktmp ft fst snd].
      split; [intros p [<- |[]]; cbn [fst snd]; congruence|]. repeat (split; [reflexivity|]). reflexivity.
Qed.
Lemma eval_row_total c km k xs s : (forall x, In x xs -> sim c (k * km x) x <> None) ->
  exists w, eval_row sim no_table c km k xs s = Ok w.
Proof.
  revert s; induction xs as [|x r IH]; intros s H; cbn [eval_row]; [eexists; reflexivity|].
  rewrite kfit_trial. assert (Q := H x (or_introl eq_refl)). destruct (sim c (k * km x) x) as [v|]; [|congruence]. cbn [bind].
  destruct (IH {| ft := fb s; fb := fb s; flog := pt c km (k, x) :: flog s; xtmp := xtmp s; ktmp := ktmp s |}
              (fun y Hy => H y (or_intror Hy))) as ([l s3] & E).
  rewrite E. cbn [bind]. eexists. reflexivity.
Qed.
Lemma list_prod_cons {A B} (a : A) l (m : list B) : list_prod (a :: l) m = (map (pair a) m ++ list_prod l m)%list.
Proof. reflexivity. Qed.
Lemma eval_grid_ok c km ks xs s l s' : eval_grid sim no_table c km ks xs s = Ok (l, s') ->
  l = map (row c km) (list_prod ks xs) /\ ran c km (list_prod ks xs) s s'.
Proof.
  revert s l s'; induction ks as [|k r IH]; intros s l s' H; cbn [eval_grid] in H.
  - injection H as <- <-. split; [reflexivity|]. unfold ran. cbn. intuition.
  - destruct (eval_row _ _ _ _ _ _ _) as [[l1 s1]|] eqn:E1; cbn [bind] in H; [|discriminate].
    destruct (eval_grid _ _ _ _ _ _ _) as [[l2 s2]|] eqn:E2; cbn [bind] in H; [|discriminate].
    injection H as <- <-. destruct (eval_row_ok _ _ _ _ _ _ _ E1) as (-> & R1). destruct (IH _ _ _ E2) as (-> & R2).
    rewrite list_prod_cons. split; [symmetry; apply map_app|]. eapply ran_app; eassumption.
Qed.
Lemma eval_grid_total c km ks xs s : (forall k x, In k ks -> In x xs -> sim c (k * km x) x <> None) ->
  exists w, eval_grid sim no_table c km ks xs s = Ok w.
Proof.
  revert s; induction ks as [|k r IH]; intros s H; cbn [eval_grid]; [eexists; reflexivity|].
  destruct (eval_row_total c km k xs s (fun x Hx => H k x (or_introl eq_refl) Hx)) as ([l s1] & E). rewrite E. cbn [bind].
  destruct (IH s1 (fun k' x Hk Hx => H k' x (or_intror Hk) Hx)) as ([l' s2] & E'). rewrite E'. cbn [bind]. eexists. reflexivity.
Qed.

(** One successful round. *)
Lemma find_min_nonempty L mk mx v c km : find_min (pivot (map (row c km) L)) = Ok (mk, mx, v) ->
  exists x, In (mk, x) L /\ exists x', mx = lab x' /\ (exists k, In (k, x') L).
Proof.
  unfold find_min, pivot. intros H.
  destruct (C38_entry_with_labels _ _ _ _ _ _ _ _ H) as (i & j & Hi & Hj & E1 & E2 & _).
  assert (A := nth_In _ 0 Hi). assert (B := nth_In _ 0 Hj). rewrite <- E1 in A. rewrite <- E2 in B.
  rewrite usort_in, map_map, in_map_iff in A, B. destruct A as ([k x] & A1 & A2), B as ([k' x'] & B1 & B2).
  unfold row in A1, B1. cbn [fst snd] in A1, B1.
  exists x. rewrite <- A1. split; [exact A2|]. exists x'. rewrite <- B1. split; [reflexivity|]. exists k'. exact B2.
Qed.

Definition grew c (s s' : fstate) : Prop := exists l, flog s' = (l ++ flog s)%list /\ Forall (fun p => f_comp p = c) l.
Lemma grew_refl c s : grew c s s. Proof. exists []. split; [reflexivity|constructor]. Qed.
Lemma ran_grew c km L s s' : ran c km L s s' -> grew c s s'.
Proof.
  intros (_ & E & _). eexists. split; [exact E|]. apply Forall_rev, Forall_map, Forall_forall. intros p _. reflexivity.
Qed.
Lemma grew_trans c s1 s2 s3 : grew c s1 s2 -> grew c s2 s3 -> grew c s1 s3.
Proof.
  intros (l & E & F) (l' & E' & F'). exists (l' ++ l)%list. split; [rewrite E', E, app_assoc; reflexivity|apply Forall_app; auto].
Qed.

(** What a successful sequence of rounds leaves behind. *)
Lemma rounds_ok more staged il ox ok c km x1 k1 nx nk s mk mx s' :
  rounds sim no_table more staged il ox ok c km x1 k1 nx nk s = Ok (mk, mx, s') ->
  fb s' = fb s /\ ft s' = fb s /\ grew c s s' /\
  exists l xs ks, flog s' = (rev (map (pt c km) (list_prod ks xs)) ++ l)%list /\ In mk ks /\
    In mx xs /\ (exists v, find_min (pivot (map (row c km) (list_prod ks xs))) = Ok (mk, mx, v)) /\
    (staged = false -> xs = ox /\ ks = ok) /\
    (forall k x, In k ks -> In x xs -> sim c (k * km x) x <> None) /\
    (exists l0, l = (l0 ++ flog s)%list /\ (more = 0%nat -> l0 = [])).
Proof.
  revert x1 k1 nx nk s; induction more as [|more IH]; intros x1 k1 nx nk s H; cbn [rounds] in H;
    destruct (round_grid staged _ il ox ok x1 k1 nx nk s) as [[xs ks]|] eqn:G; cbn [bind] in H; try discriminate;
    (destruct (eval_grid _ _ _ _ _ _ _) as [[rows s1]|] eqn:EG; cbn [bind] in H; [|discriminate]);
    (destruct (find_min _) as [[[a b] v]|] eqn:FM; cbn [bind] in H; [|discriminate]);
    (destruct (_ || _)%bool; [discriminate|]);
    (destruct (rindex b xs) as [ix|] eqn:RX; cbn [bind] in H; [|discriminate]);
    (destruct (rindex a ks) as [ik|] eqn:RK; cbn [bind] in H; [|discriminate]);
    destruct (refine des_xn xs ix nx) as [xt nx']; destruct (refine des_k ks ik nk) as [kt nk'];
    destruct (eval_grid_ok _ _ _ _ _ _ _ EG) as (-> & R); assert (GR := ran_grew _ _ _ _ _ R);
    destruct R as (R1 & R2 & R3 & R4 & R5 & R6).
  - injection H as <- <- <-. cbn [fb ft flog set_tmp].
    destruct (find_min_nonempty _ _ _ _ _ _ FM) as (x & HI & _).
    split; [exact R3|]. split; [rewrite R6; destruct (list_prod ks xs); [destruct HI|reflexivity]|].
    split; [exact GR|].
    exists (flog s), xs, ks. split; [exact R2|]. split; [eapply rindex_ok; exact RK|]. split; [eapply rindex_ok; exact RX|].
    split; [exists v; exact FM|]. split.
    { intros ->. cbn in G. injection G as <- <-. split; reflexivity. }
    split; [intros k y Hk Hy; apply (R1 (k, y)), in_prod; assumption|]. exists []. split; reflexivity.
  - destruct (IH _ _ _ _ _ H) as (I1 & I2 & I3 & l & xs' & ks' & I4 & I5 & I6 & I7 & I8 & I9 & l0 & I10 & _).
    cbn [fb ft flog set_tmp] in *. split; [congruence|]. split; [congruence|]. split.
    { eapply grew_trans; [exact GR|]. destruct I3 as (l3 & E3 & F3). exists l3. split; assumption. }
    exists l, xs', ks'. repeat (split; [assumption|]).
    exists (l0 ++ rev (map (pt c km) (list_prod ks xs)))%list. split; [rewrite <- app_assoc, <- R2; exact I10|discriminate].
Qed.

Lemma fit_one_ok staged ig il ox ok c s s' :
  fit_one sim no_table self_xn staged ig il ox ok c s = Ok s' ->
  exists mk mx, fb s' = fb s /\
    ft s' = trial c (mk * recalc_k (eK (ft s c)) (eQ (ft s c)) self_xn mx) mx (fb s) /\ grew c s s' /\
    exists l xs ks, let km := recalc_k (eK (ft s c)) (eQ (ft s c)) self_xn in
    flog s' = (rev (map (pt c km) (list_prod ks xs)) ++ l)%list /\ In mk ks /\ In mx xs /\
    (exists v, find_min (pivot (map (row c km) (list_prod ks xs))) = Ok (mk, mx, v)) /\
    (staged = false -> xs = ox /\ ks = ok) /\
    (forall k x, In k ks -> In x xs -> sim c (k * km x) x <> None) /\
    (exists l0, l = (l0 ++ flog s)%list /\ (staged = false -> l0 = [])).
Proof.
  unfold fit_one. intros H.
  destruct (rounds _ _ _ _ _ _ _ _ _ _ _ _ _ _) as [[[mk mx] s1]|] eqn:E; cbn [bind] in H; [|discriminate].
  injection H as <-. exists mk, mx. destruct (rounds_ok _ _ _ _ _ _ _ _ _ _ _ _ _ _ _ E) as (I1 & I2 & I3 & l & xs & ks & I4 & I5 & I6 & I7 & I8 & I9 & l0 & I10 & I11).
  cbn [fb ft flog set_ft]. split; [exact I1|]. split; [rewrite I2; reflexivity|]. split; [exact I3|].
  exists l, xs, ks. cbv zeta. repeat (split; [assumption|]). exists l0. split; [exact I10|]. intros ->. apply I11. reflexivity.
Qed.

(** After a series of fits only the last compound differs from the backup. *)
Lemma run_all_table staged ig il ox ok cs d s s' :
  run_all sim no_table self_xn staged ig il ox ok (cs ++ [d]) s = Ok s' ->
  fb s' = fb s /\ exists K N, ft s' = trial d K N (fb s).
Proof.
  revert s; induction cs as [|c r IH]; intros s H; cbn [app run_all] in H;
    (destruct (fit_one _ _ _ _ _ _ _ _ _ _) as [s1|] eqn:E; cbn [bind] in H; [|discriminate]);
    destruct (fit_one_ok _ _ _ _ _ _ _ _ E) as (mk & mx & E1 & E2 & _).
  - injection H as <-. split; [exact E1|]. eexists _, _. exact E2.
  - destruct (IH _ H) as (I1 & K & N & I2). rewrite E1 in I1, I2. split; [exact I1|]. exists K, N. exact I2.
Qed.

(** A fit succeeds in the exhaustive mode. *)
Lemma rows_grid c km ks xs : no_table = false -> map (row c km) (list_prod ks xs) = grid_rows (fun k x => val c (k * km x) x) ks xs.
Proof. intros N. unfold grid_rows. apply map_ext. intros [k x]. unfold row, lab. rewrite N. reflexivity. Qed.

(** One more round that succeeds. *)
Lemma round_step more staged il ox ok c km x1 k1 nx nk s xs ks k0 x0 :
  no_table = false -> round_grid staged (il - more) il ox ok x1 k1 nx nk s = Ok (xs, ks) ->
  (2 <= length xs)%nat -> (2 <= length ks)%nat ->
  (forall k x, In k ks -> In x xs -> exists v, sim c (k * km x) x = Some v /\ 0 < v) ->
  In k0 ks -> In x0 xs ->
  (forall k x, In k ks -> In x xs -> (k, x) <> (k0, x0) -> val c (k0 * km x0) x0 < val c (k * km x) x) ->
  exists mk mx v ix ik s1,
    find_min (pivot (map (row c km) (list_prod ks xs))) = Ok (mk, mx, v) /\
    rindex mx xs = Ok ix /\ rindex mk ks = Ok ik /\ ran c km (list_prod ks xs) s s1 /\
    rounds sim no_table more staged il ox ok c km x1 k1 nx nk s =
    (let '(xt, nx') := refine des_xn xs ix nx in
     let '(kt, nk') := refine des_k ks ik nk in
     match more with
     | O => Ok (mk, mx, set_tmp xt kt s1)
     | S more => rounds sim no_table more staged il ox ok c km [fst xt; snd xt] [fst kt; snd kt] nx' nk' (set_tmp xt kt s1)
     end).
Proof.
  intros NT G Lx Lk Hs Hk Hx U.
  destruct (eval_grid_total c km ks xs s) as ([rows s1] & EG).
  { intros k x Hk' Hx'. destruct (Hs k x Hk' Hx') as (v & E & _). congruence. }
  destruct (eval_grid_ok _ _ _ _ _ _ _ EG) as (ER & RN).
  destruct (find_min_total (fun k x => val c (k * km x) x) ks xs k0 x0) as (mk & mx & v & FM); try assumption.
  { intros k x Hk' Hx'. destruct (Hs k x Hk' Hx') as (w & E & P). unfold val. rewrite E. exact P. }
  destruct (find_min_grid _ _ _ _ _ _ FM) as (I1 & I2).
  destruct (rindex_in _ _ I1) as (ik & RK & _). destruct (rindex_in _ _ I2) as (ix & RX & _).
  exists mk, mx, v, ix, ik, s1. rewrite (rows_grid c km ks xs NT). split; [exact FM|]. split; [exact RX|]. split; [exact RK|].
  split; [exact RN|].
  assert (LB : (Nat.leb (length xs) 1 || Nat.leb (length ks) 1)%bool = false).
  { apply orb_false_iff. split; apply Nat.leb_gt; lia. }
  destruct more; cbn [rounds]; rewrite G; cbn [bind]; rewrite EG; cbn [bind]; rewrite ER, (rows_grid c km ks xs NT), FM; cbn [bind];
    rewrite LB, RX; cbn [bind]; rewrite RK; cbn [bind]; reflexivity.
Qed.

Lemma brute_total ig il ox ok c s k0 x0 :
  no_table = false ->
  let km := recalc_k (eK (ft s c)) (eQ (ft s c)) self_xn in
  (2 <= length ox)%nat -> (2 <= length ok)%nat ->
  (forall k x, In k ok -> In x ox -> exists v, sim c (k * km x) x = Some v /\ 0 < v) ->
  In k0 ok -> In x0 ox ->
  (forall k x, In k ok -> In x ox -> (k, x) <> (k0, x0) -> val c (k0 * km x0) x0 < val c (k * km x) x) ->
  exists s', fit_one sim no_table self_xn false ig il ox ok c s = Ok s'.
Proof.
  intros NT km Lx Lk Hs Hk Hx U. unfold fit_one. fold km.
  destruct (round_step 0 false 0 ox ok c km ox ok ig ig s ox ok k0 x0 NT eq_refl Lx Lk Hs Hk Hx U)
    as (mk & mx & v & ix & ik & s1 & _ & _ & _ & _ & E).
  match goal with |- context[rounds _ _ _ _ _ _ _ _ ?k _ _ _ _ _] => change k with km end.
  rewrite E. destruct (refine des_xn ox ix ig), (refine des_k ok ik ig). cbn [bind]. eexists. reflexivity.
Qed.

(** ** The parallel fit *)
Definition mp_val (c : string) (K N : R) : R := match sim c K N with Some v => v | None => IZR (10 ^ 9) end.
Lemma flat_prod {C} (f : R -> R -> C) ks xs :
  flat_map (fun k => map (fun x => f k x) xs) ks = map (fun p => f (fst p) (snd p)) (list_prod ks xs).
Proof.
  induction ks as [|k r IH]; [reflexivity|]. cbn [flat_map]. rewrite list_prod_cons, map_app, map_map, IH. reflexivity.
Qed.
Lemma mp_error_list c K N s : no_table = true -> mp_error sim no_table c K N s = mp_val c K N.
Proof. intros E. unfold mp_error, kfit, mp_val. rewrite E. cbn [length Nat.eqb andb hd]. destruct (sim c K N); reflexivity. Qed.
Lemma mp_error_table c K N s : no_table = false -> mp_error sim no_table c K N s = mp_val c (eK (ft s c)) (eN (ft s c)).
Proof. intros E. unfold mp_error, kfit, mp_val. rewrite E. cbn [andb]. destruct (sim c _ _); reflexivity. Qed.

Lemma mp_one_table xs ks c s s' : mp_one sim no_table self_xn xs ks c s = Ok s' ->
  s' = s \/ (fb s' = fb s /\ exists K N, ft s' = trial c K N (fb s)).
Proof.
  unfold mp_one. intros H. set (rows := flat_map _ ks) in H. clearbody rows.
  destruct (map snd rows) eqn:E; [discriminate|]. rewrite <- E in H. destruct (isclose _ _); [injection H as <-; left; reflexivity|].
  destruct (find_min (pivot rows)) as [[[a b] v]|]; cbn [bind] in H; [|discriminate].
  unfold kfit in H. destruct (sim c _ _) in H; cbn [bind] in H; [|discriminate]. injection H as <-. right.
  cbn [fb ft set_ft]. split; [reflexivity|]. eexists _, _. reflexivity.
Qed.
Lemma run_MP_table xs ks cs s s' : (exists d, forall c, c <> d -> ft s c = fb s c) ->
  run_all_MP sim no_table self_xn xs ks cs s = Ok s' ->
  fb s' = fb s /\ exists d, forall c, c <> d -> ft s' c = fb s c.
Proof.
  revert s; induction cs as [|c r IH]; intros s I H; cbn [run_all_MP] in H; [injection H as <-; split; [reflexivity|exact I]|].
  destruct (mp_one _ _ _ _ _ _ _) as [s1|] eqn:E; cbn [bind] in H; [|discriminate].
  destruct (mp_one_table _ _ _ _ _ E) as [-> |(E1 & K & N & E2)]; [apply IH; assumption|].
  destruct (IH s1) as (J1 & J2); [|exact H|].
  - exists c. intros d Hd. rewrite E2, E1. unfold trial. apply put_other. congruence.
  - rewrite E1 in J1, J2. split; assumption.
Qed.
End F.
