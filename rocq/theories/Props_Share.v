(** Property C198: the isotherm table handed to a column. *)
From Coq Require Import Reals List Arith Bool Lra Lia String.
From Verif Require Import Lib_Py Lib_Pow M_GacFun M_GacSmart M_GacShare.
Import ListNotations.
Open Scope R_scope.

Lemma eqb_ne a b : a <> b -> Nat.eqb a b = false. Proof. apply Nat.eqb_neq. Qed.
Lemma store_same r t w : at_ (M_GacShare.store r t w) r = t.
Proof. cbn. rewrite Nat.eqb_refl. reflexivity. Qed.
Lemma store_other r q t w : q <> r -> at_ (M_GacShare.store r t w) q = at_ w q.
Proof. intros H. cbn. rewrite eqb_ne by exact H. reflexivity. Qed.
Lemma try_pairs_other i c r q l : q <> r -> forall w, at_ (fold_left (fun w p => try_pair i c r p w) l w) q = at_ w q.
Proof.
  intros H. induction l as [|p l IH]; intros w; [reflexivity|]. cbn [fold_left]. rewrite IH. unfold try_pair, run.
  change (at_ (M_GacShare.store r (trial c (fst p) (snd p) (at_ w r)) w) q = at_ w q). apply store_other. exact H.
Qed.
Lemma try_pairs_next i c r l : forall w, next (fold_left (fun w p => try_pair i c r p w) l w) = next w.
Proof. induction l as [|p l IH]; intros w; [reflexivity|]. cbn [fold_left]. rewrite IH. reflexivity. Qed.
Lemma try_pairs_col i c r l : forall w, col (fold_left (fun w p => try_pair i c r p w) l w) = col w.
Proof. induction l as [|p l IH]; intros w; [reflexivity|]. cbn [fold_left]. rewrite IH. reflexivity. Qed.
Lemma trial_trial c k x k' x' t : forall d, trial c k x (trial c k' x' t) d = trial c k x t d.
Proof. intros d. unfold trial, put. rewrite String.eqb_refl. destruct (String.eqb c d); reflexivity. Qed.
(** After the trials of a grid the table holds the last of them. *)
Lemma try_pairs_last i c r p l : forall w d, at_ (fold_left (fun w p => try_pair i c r p w) (l ++ [p]) w) r d = trial c (fst p) (snd p) (at_ w r) d.
Proof.
  induction l as [|q l IH]; intros w d.
  - cbn [app fold_left]. unfold try_pair, run.
    change (at_ (M_GacShare.store r (trial c (fst p) (snd p) (at_ w r)) w) r d = trial c (fst p) (snd p) (at_ w r) d).
    rewrite store_same. reflexivity.
  - cbn [app fold_left]. rewrite IH.
    change (at_ (try_pair i c r q w) r) with (at_ (M_GacShare.store r (trial c (fst q) (snd q) (at_ w r)) w) r).
    rewrite store_same.
    unfold trial at 1. unfold put. destruct (String.eqb c d) eqn:E.
    + unfold trial, put. rewrite String.eqb_refl, E. reflexivity.
    + unfold trial, put. rewrite E. reflexivity.
Qed.
Lemma grid_last o c e : o_ks o <> [] -> o_xs o <> [] ->
  exists l, grid o c e = (l ++ [(k_mult o c e (last (o_xs o) 0) * last (o_ks o) 0, last (o_xs o) 0)])%list.
Proof.
  intros HK HX. unfold grid. destruct (exists_last HK) as (ks & k & EK). destruct (exists_last HX) as (xs & x & EX).
  rewrite EK, EX, flat_map_app, !last_last. cbn [flat_map]. rewrite app_nil_r, map_app. cbn [map]. rewrite app_assoc. eexists. reflexivity.
Qed.

(** A fit leaves every table but the column's own as it was. *)
Lemma fit_other i c w o q : col w i = Some o -> q <> o_ref o -> (q < next w)%nat -> at_ (fit i c w) q = at_ w q.
Proof.
  intros E H L. unfold fit. rewrite E. cbn zeta.
  assert (A : forall W, (q < next W)%nat -> at_ (own i (refer (next W) (o_opt o && negb (single o)) o) (alloc (o_bup o) W)) q = at_ W q)
    by (intros W HW; cbn; rewrite eqb_ne by lia; reflexivity).
  destruct (o_opt o && negb (single o))%bool.
  - rewrite A by (rewrite try_pairs_next; exact L). apply try_pairs_other. exact H.
  - destruct (o_list o && single o)%bool; rewrite A; cbn; try lia; try reflexivity. rewrite eqb_ne by exact H. reflexivity.
Qed.
Lemma fit_plain i c w o q : col w i = Some o -> o_opt o = false -> o_list o = false -> (q < next w)%nat -> at_ (fit i c w) q = at_ w q.
Proof. intros E F G L. unfold fit. rewrite E, F, G. cbn. rewrite eqb_ne by lia. reflexivity. Qed.
Lemma fit_col i c w o : col w i = Some o -> exists b, col (fit i c w) i = Some (refer (next w) b o).
Proof.
  intros E. unfold fit. rewrite E. cbn zeta. eexists. cbn [own col]. rewrite Nat.eqb_refl. do 2 f_equal.
  destruct (o_opt o && negb (single o))%bool; [apply try_pairs_next|]. destruct (o_list o && single o)%bool; reflexivity.
Qed.
Lemma fit_next i c w o : col w i = Some o -> next (fit i c w) = S (next w).
Proof.
  intros E. unfold fit. rewrite E. cbn. f_equal.
  destruct (o_opt o && negb (single o))%bool; [apply try_pairs_next|]. destruct (o_list o && single o)%bool; reflexivity.
Qed.
Lemma fit_col_other i j c w : j <> i -> col (fit i c w) j = col w j.
Proof.
  intros H. unfold fit. destruct (col w i) as [o|]; [|reflexivity]. cbn. rewrite eqb_ne by exact H.
  destruct (o_opt o && negb (single o))%bool; [rewrite try_pairs_col; reflexivity|]. destruct (o_list o && single o)%bool; reflexivity.
Qed.

(** ** What keeps the tables of the caller *)

(** The column holds a table of its own, or it reads and never writes. *)
Definition harmless (n : nat) (w : world) : Prop :=
  (n <= next w)%nat /\ forall i o, col w i = Some o -> (n <= o_ref o)%nat \/ (o_opt o = false /\ o_list o = false).
Lemma own_harmless n i o w : harmless n w -> (n <= o_ref o)%nat \/ (o_opt o = false /\ o_list o = false) -> harmless n (own i o w).
Proof.
  intros (L & H) HO. split; [exact L|]. intros j p. cbn. destruct (Nat.eqb j i); [intros E; injection E as <-; exact HO|apply H].
Qed.
Lemma fit_harmless n i c w : harmless n w -> harmless n (fit i c w).
Proof.
  intros (L & H). destruct (col w i) as [o|] eqn:E.
  - split; [rewrite (fit_next _ _ _ _ E); lia|]. intros j p Hp. destruct (Nat.eq_dec j i) as [-> |N].
    + destruct (fit_col i c w o E) as (b & Eb). rewrite Hp in Eb. injection Eb as ->. left. exact L.
    + rewrite fit_col_other in Hp by exact N. exact (H j p Hp).
  - unfold fit. rewrite E. split; assumption.
Qed.
Lemma fit_keeps n i c w q : harmless n w -> (q < n)%nat -> at_ (fit i c w) q = at_ w q.
Proof.
  intros (L & H) Q. destruct (col w i) as [o|] eqn:E; [|unfold fit; rewrite E; reflexivity].
  destruct (H i o E) as [R|(F & G)]; [apply (fit_other i c w o); [exact E|lia|lia]|apply (fit_plain i c w o); try assumption; lia].
Qed.
(** A step that hands over no forced days and does not switch the optimizer on; the trials of the
    grid only where assignments to a row do not reach the table. *)
Definition plain (cow : bool) (a : act) : Prop :=
  match a with
  | New _ _ forced opt _ _ _ => forced = [] /\ opt = false
  | Bare _ _ _ _ _ _ => True
  | Settings _ opt _ _ => opt = false
  | Fit _ _ => True
  | Trial _ _ _ _ => cow = true
  end.
Lemma plain_step cow n w a q : harmless n w -> plain cow a -> (q < n)%nat ->
  harmless n (step cow w a) /\ at_ (step cow w a) q = at_ w q.
Proof.
  intros HW HP Q. destruct HW as (L & H). destruct a as [i r forced opt ks xs f|i t opt ks xs f|i opt ks xs|i c|i c k x]; cbn [plain] in HP.
  - destruct HP as (-> & ->). cbn [step]. unfold construct. split.
    + apply own_harmless; [split; [exact L|exact H]|right; split; reflexivity].
    + cbn. destruct (Nat.eqb_spec q r) as [-> |]; reflexivity.
  - cbn [step]. unfold construct_bare. split.
    + apply own_harmless; [split; [cbn; lia|exact H]|left; exact L].
    + cbn. rewrite eqb_ne by lia. reflexivity.
  - subst opt. cbn [step]. destruct (col w i) as [o|] eqn:E; [|split; [split; assumption|reflexivity]]. split; [|reflexivity].
    apply own_harmless; [split; assumption|]. destruct (H i o E) as [R|(F & G)]; [left; exact R|right; split; [reflexivity|exact G]].
  - cbn [step]. split; [apply fit_harmless|apply (fit_keeps n)]; try assumption; split; assumption.
  - subst cow. cbn [step]. unfold grid_trial. destruct (col w i) as [o|] eqn:E; [|split; [split; assumption|reflexivity]].
    assert (HN : harmless n (own i (narrow k x o) w)).
    { apply own_harmless; [split; assumption|]. destruct (H i o E) as [R|(F & G)]; [left; exact R|right; split; [reflexivity|exact G]]. }
    split; [apply fit_harmless; exact HN|]. rewrite (fit_keeps n) by assumption. reflexivity.
Qed.
Lemma plain_history cow n q acts : (q < n)%nat -> forall w, harmless n w -> Forall (plain cow) acts -> at_ (history cow acts w) q = at_ w q.
Proof.
  intros Q. induction acts as [|a acts IH]; intros w HW HF; [reflexivity|]. inversion_clear HF as [|? ? HA HR]. cbn [history fold_left].
  destruct (plain_step cow n w a q HW HA Q) as (H1 & H2). unfold history in IH. rewrite IH by assumption. exact H2.
Qed.

(** A column on a table of its own never touches another one, whatever is done with it. *)
Definition on (i : nat) (a : act) : Prop :=
  match a with Settings j _ _ _ | Fit j _ | Trial j _ _ _ => j = i | New _ _ _ _ _ _ _ | Bare _ _ _ _ _ _ => False end.
Definition private (n i : nat) (w : world) : Prop := (n <= next w)%nat /\ exists o, col w i = Some o /\ (n <= o_ref o)%nat.
Lemma own_private n i o w : (n <= next w)%nat -> (n <= o_ref o)%nat -> private n i (own i o w).
Proof. intros L R. split; [exact L|]. exists o. cbn. rewrite Nat.eqb_refl. split; [reflexivity|exact R]. Qed.
Lemma fit_private n i c w q : private n i w -> (q < n)%nat -> private n i (fit i c w) /\ at_ (fit i c w) q = at_ w q.
Proof.
  intros (L & o & E & R) Q. split.
  - destruct (fit_col i c w o E) as (b & Eb). split; [rewrite (fit_next _ _ _ _ E); lia|]. exists (refer (next w) b o). split; [exact Eb|exact L].
  - apply (fit_other i c w o); [exact E|lia|lia].
Qed.
Lemma on_step cow n i w a q : private n i w -> on i a -> (q < n)%nat -> private n i (step cow w a) /\ at_ (step cow w a) q = at_ w q.
Proof.
  intros HP HA Q. destruct a as [j r forced opt ks xs f|j t opt ks xs f|j opt ks xs|j c|j c k x]; cbn [on] in HA; try contradiction; subst j; cbn [step].
  - destruct HP as (L & o & E & R). rewrite E. split; [apply own_private; assumption|reflexivity].
  - apply fit_private; assumption.
  - destruct HP as (L & o & E & R). unfold grid_trial. rewrite E. cbn zeta.
    destruct (fit_private n i c (own i (narrow k x o) (if cow then w else M_GacShare.store (o_ref o) (trial c k x (at_ w (o_ref o))) w)) q) as (F1 & F2).
    + apply own_private; [destruct cow; exact L|exact R].
    + exact Q.
    + split; [exact F1|]. rewrite F2. destruct cow; [reflexivity|]. cbn. rewrite eqb_ne by lia. reflexivity.
Qed.
Lemma on_history cow n i q acts : (q < n)%nat -> forall w, private n i w -> Forall (on i) acts -> at_ (history cow acts w) q = at_ w q.
Proof.
  intros Q. induction acts as [|a acts IH]; intros w HW HF; [reflexivity|]. inversion_clear HF as [|? ? HA HR]. cbn [history fold_left].
  destruct (on_step cow n i w a q HW HA Q) as (H1 & H2). unfold history in IH. rewrite IH by assumption. exact H2.
Qed.

(** ** C198 *)

(** A program that constructs columns from the caller's tables without forced days and leaves the
    optimizer off changes none of those tables, however many columns and fits there are; the
    trials of the grid search are covered where pandas copies on write. *)
Theorem C198_plain_partial : forall cow acts w r, (forall i, col w i = None) -> (r < next w)%nat ->
  Forall (fun a => match a with
                   | New _ _ forced opt _ _ _ => forced = [] /\ opt = false
                   | Bare _ _ _ _ _ _ => True
                   | Settings _ opt _ _ => opt = false
                   | Fit _ _ => True
                   | Trial _ _ _ _ => cow = true
                   end) acts ->
  at_ (history cow acts w) r = at_ w r.
Proof.
  intros cow acts w r HN Hr HA. apply (plain_history cow (next w)); [exact Hr| |exact HA].
  split; [lia|]. intros i o E. rewrite HN in E. discriminate.
Qed.

(** Once a column has been fitted, nothing done with it afterwards changes a table of the
    caller's, whatever its settings. *)
Theorem C198_fitted_partial : forall cow w i c r acts, (exists o, col w i = Some o) -> (r < next w)%nat ->
  Forall (fun a => match a with Settings j _ _ _ | Fit j _ | Trial j _ _ _ => j = i | _ => False end) acts ->
  at_ (history cow (Fit i c :: acts) w) r = at_ (history cow [Fit i c] w) r.
Proof.
  intros cow w i c r acts (o & E) Hr HA. cbn [history fold_left step]. apply (on_history cow (next w) i); [exact Hr| |].
  - destruct (fit_col i c w o E) as (b & Eb). split; [rewrite (fit_next _ _ _ _ E); lia|]. eexists. split; [exact Eb|]. cbn. lia.
  - eapply Forall_impl; [|exact HA]. intros [] H; exact H.
Qed.

(** A column that has its table to itself and does not optimize runs every compound, in any order
    and however often, with the values the table had when the column was built, forced days
    included. *)
Theorem C198_repeat_partial : forall cow w i r forced ks xs factor cs, (r < next w)%nat ->
  let t := at_ (history cow [New i r forced false ks xs factor] w) r in
  runs (history cow (New i r forced false ks xs factor :: map (fun c => Fit i c) cs) w)
  = (rev (map (fun c => (i, c, eK (t c), eN (t c))) cs) ++ runs w)%list.
Proof.
  intros cow w i r forced ks xs factor cs Hr t.
  assert (G : forall cs v o, col v i = Some o -> at_ v (o_ref o) = t -> o_bup o = t -> o_opt o = false -> o_list o = false ->
    runs (history cow (map (fun c => Fit i c) cs) v) = (rev (map (fun c => (i, c, eK (t c), eN (t c))) cs) ++ runs v)%list).
  { clear cs. intros cs. induction cs as [|c cs IH]; intros v o E A B F L; [reflexivity|]. cbn [map history fold_left step]. unfold history in IH.
    rewrite (IH (fit i c v) (refer (next v) false o)).
    - cbn [rev]. rewrite <- app_assoc. f_equal. unfold fit. rewrite E, F, L. cbn. rewrite A. reflexivity.
    - unfold fit. rewrite E, F, L. cbn. rewrite Nat.eqb_refl. reflexivity.
    - unfold fit. rewrite E, F, L. cbn. rewrite Nat.eqb_refl. exact B.
    - exact B.
    - reflexivity.
    - exact L. }
  cbn [history fold_left]. unfold history in G.
  change (runs w) with (runs (step cow w (New i r forced false ks xs factor))). eapply G.
  - cbn. rewrite Nat.eqb_refl. reflexivity.
  - reflexivity.
  - unfold t. cbn. rewrite Nat.eqb_refl. reflexivity.
  - reflexivity.
  - reflexivity.
Qed.

(** The value the first fit leaves for K: the last multiplier tried times the base K at the last
    1/n tried. *)
Definition base_K (factor : string -> option (R -> R)) (c : string) (K q n x : R) : R :=
  match factor c with Some f => f x | None => rpow q (1 - x / n) * rpow K (x / n) end.

Lemma first_fit i c w o t : col w i = Some o -> at_ w (o_ref o) = t -> (o_ref o < next w)%nat ->
  o_opt o = true -> single o = false -> o_ks o <> [] -> o_xs o <> [] ->
  forall d, at_ (fit i c w) (o_ref o) d = trial c (k_mult o c (t c) (last (o_xs o) 0) * last (o_ks o) 0) (last (o_xs o) 0) t d.
Proof.
  intros E T L F S HK HX d. unfold fit. rewrite E, F, S. cbn [andb negb]. cbn zeta. rewrite T.
  destruct (grid_last o c (t c) HK HX) as (l & ->). cbn [own alloc at_]. rewrite eqb_ne by (rewrite try_pairs_next; lia).
  rewrite try_pairs_last, T. reflexivity.
Qed.
Lemma not_single (ks xs : list R) : List.length ks <> 1%nat \/ List.length xs <> 1%nat -> (Nat.eqb (List.length ks) 1 && Nat.eqb (List.length xs) 1)%bool = false.
Proof. intros [H|H]; rewrite (eqb_ne _ _ H); [reflexivity|apply andb_false_r]. Qed.

(** With the optimizer on, the first fit of a column leaves in the table that was handed in the
    last pair it tried for the compound, whichever pair fits best; the other compounds and q are
    left alone. *)
Theorem C198_fit_refuted : forall cow w i r ks xs factor c, (r < next w)%nat -> ks <> [] -> xs <> [] ->
  List.length ks <> 1%nat \/ List.length xs <> 1%nat ->
  let before := at_ w r in
  let after := at_ (history cow [New i r [] true ks xs factor; Fit i c] w) r in
  eN (after c) = last xs 0 /\
  eK (after c) = base_K factor c (eK (before c)) (eQ (before c)) (eN (before c)) (last xs 0) * last ks 0 /\
  eQ (after c) = eQ (before c) /\
  forall d, d <> c -> after d = before d.
Proof.
  intros cow w i r ks xs factor c Hr HK HX HS before after.
  assert (A : forall d, after d = trial c (base_K factor c (eK (before c)) (eQ (before c)) (eN (before c)) (last xs 0) * last ks 0) (last xs 0) before d).
  { intros d. unfold after. cbn [history fold_left step]. unfold construct. cbn [force fold_left]. cbn zeta.
    set (w1 := M_GacShare.store r (at_ w r) w). set (o := {| o_ref := r; o_bup := at_ w1 r; o_opt := true; o_ks := ks; o_xs := xs; o_factor := factor; o_list := false |}).
    rewrite (first_fit i c (own i o w1) o before).
    - reflexivity.
    - cbn. rewrite Nat.eqb_refl. reflexivity.
    - cbn. rewrite Nat.eqb_refl. reflexivity.
    - exact Hr.
    - reflexivity.
    - apply not_single. exact HS.
    - exact HK.
    - exact HX. }
  assert (C : after c = trial c (base_K factor c (eK (before c)) (eQ (before c)) (eN (before c)) (last xs 0) * last ks 0) (last xs 0) before c) by apply A.
  unfold trial, put in C. rewrite String.eqb_refl in C. rewrite C. cbn [eK eN eQ]. repeat split.
  intros d Hd. rewrite A. unfold trial, put. destruct (String.eqb_spec c d) as [E|_]; [congruence|reflexivity].
Qed.

(** Two columns on one table: after the first has been fitted the second runs once with the pair
    the first tried last, and from then on with the table it was built with, so that the same
    call on the same column simulates two isotherms. *)
Theorem C198_two_columns_refuted : forall cow w r ks xs factor ks' xs' factor' c, (r < next w)%nat -> ks <> [] -> xs <> [] ->
  List.length ks <> 1%nat \/ List.length xs <> 1%nat ->
  let e := at_ w r c in
  exists earlier, runs (history cow [New 0 r [] true ks xs factor; New 1 r [] false ks' xs' factor'; Fit 0 c; Fit 1 c; Fit 1 c] w)
  = (1%nat, c, eK e, eN e)
    :: (1%nat, c, base_K factor c (eK e) (eQ e) (eN e) (last xs 0) * last ks 0, last xs 0) :: earlier.
Proof.
  intros cow w r ks xs factor ks' xs' factor' c Hr HK HX HS e. cbn [history fold_left].
  set (w2 := step cow (step cow w (New 0 r [] true ks xs factor)) (New 1 r [] false ks' xs' factor')).
  assert (T : at_ w2 r = at_ w r) by (cbn; rewrite !Nat.eqb_refl; reflexivity).
  destruct (col w2 0) as [o0|] eqn:E0; [|discriminate]. destruct (col w2 1) as [o1|] eqn:E1; [|discriminate].
  cbn in E0, E1. injection E0 as E0. injection E1 as E1. rewrite Nat.eqb_refl in E0, E1.
  cbn [step]. set (w3 := fit 0 c w2).
  assert (A : at_ w3 r c = trial c (base_K factor c (eK e) (eQ e) (eN e) (last xs 0) * last ks 0) (last xs 0) (at_ w r) c).
  { unfold w3. assert (F := first_fit 0 c w2 o0 (at_ w r)). rewrite <- E0 in F. cbn [o_ref o_opt o_ks o_xs] in F.
    rewrite F; [reflexivity| |exact T|exact Hr|reflexivity|apply not_single; exact HS|exact HK|exact HX].
    cbn. rewrite Nat.eqb_refl. reflexivity. }
  assert (C3 : col w3 1 = Some o1).
  { unfold w3. rewrite fit_col_other by lia. cbn. rewrite Nat.eqb_refl. f_equal. exact E1. }
  assert (P : forall v o, col v 1 = Some o -> o_opt o = false -> o_list o = false ->
    runs (fit 1 c v) = (1%nat, c, eK (at_ v (o_ref o) c), eN (at_ v (o_ref o) c)) :: runs v /\
    exists o', col (fit 1 c v) 1 = Some o' /\ o_opt o' = false /\ o_list o' = false /\ at_ (fit 1 c v) (o_ref o') = o_bup o).
  { intros v o Ev Fv Gv. unfold fit. rewrite Ev, Fv, Gv. cbn. split; [reflexivity|]. eexists. split; [reflexivity|]. cbn. rewrite Nat.eqb_refl. auto. }
  destruct (P w3 o1 C3) as (R1 & o' & C4 & F4 & G4 & T4); [rewrite <- E1; reflexivity|rewrite <- E1; reflexivity|].
  destruct (P (fit 1 c w3) o' C4 F4 G4) as (R2 & _). exists (runs w3). rewrite R2, R1, T4.
  rewrite <- E1. cbn [o_ref o_bup]. rewrite A. unfold trial, put. rewrite String.eqb_refl. reflexivity.
Qed.

(** Forced breakthrough days: the constructor itself replaces the compound's column in the table
    that was handed in, and a column without forced days built on it afterwards runs with the
    replaced values. *)
Theorem C198_force_refuted : forall cow w r c e ks xs factor, (r < next w)%nat ->
  at_ (history cow [New 0 r [(c, e)] false ks xs factor] w) r c = e /\
  runs (history cow [New 0 r [(c, e)] false ks xs factor; New 1 r [] false ks xs factor; Fit 1 c] w) = (1%nat, c, eK e, eN e) :: runs w.
Proof.
  intros cow w r c e ks xs factor Hr. split.
  - cbn. rewrite Nat.eqb_refl. unfold put. rewrite String.eqb_refl. reflexivity.
  - cbn. rewrite !Nat.eqb_refl. unfold put. rewrite String.eqb_refl. reflexivity.
Qed.

(** Where assignments to a row reach the table, a grid search leaves in the table that was handed
    in the first pair it tried, however many follow. *)
Theorem C198_grid_refuted : forall w i r opt ks xs factor c k x more, (r < next w)%nat ->
  let after := at_ (history false (New i r [] opt ks xs factor :: Trial i c k x :: map (fun p => Trial i c (fst p) (snd p)) more) w) r in
  eK (after c) = k /\ eN (after c) = x /\ forall d, d <> c -> after d = at_ w r d.
Proof.
  intros w i r opt ks xs factor c k x more Hr after.
  assert (A : forall d, after d = trial c k x (at_ w r) d).
  { intros d. unfold after. cbn [history fold_left]. set (w1 := step false w (New i r [] opt ks xs factor)).
    assert (C : exists o, col w1 i = Some o /\ o_ref o = r /\ o_list o = false).
    { cbn. rewrite Nat.eqb_refl. eexists. split; [reflexivity|split; reflexivity]. }
    destruct C as (o & E & Er & El). cbn [step]. unfold grid_trial. rewrite E. cbn zeta. rewrite Er.
    set (w2 := own i (narrow k x o) (M_GacShare.store r (trial c k x (at_ w1 r)) w1)).
    assert (E2 : col w2 i = Some (narrow k x o)) by (cbn; rewrite Nat.eqb_refl; reflexivity).
    assert (L2 : (r < next w2)%nat) by exact Hr.
    change (at_ (history false (map (fun p => Trial i c (fst p) (snd p)) more) (fit i c w2)) r d = trial c k x (at_ w r) d).
    rewrite (on_history false (next w2) i r).
    - rewrite (fit_plain i c w2 _ r E2) by (try reflexivity; try exact El; exact L2). cbn. rewrite Nat.eqb_refl.
      unfold trial, put. reflexivity.
    - exact L2.
    - destruct (fit_col i c w2 _ E2) as (b & Eb). split; [rewrite (fit_next _ _ _ _ E2); lia|]. eexists. split; [exact Eb|]. cbn. lia.
    - apply Forall_forall. intros a Ha. apply in_map_iff in Ha. destruct Ha as (p & <- & _). reflexivity. }
  rewrite (A c). unfold trial at 1 2, put at 1 2. rewrite String.eqb_refl. repeat split.
  intros d Hd. rewrite A. unfold trial, put. destruct (String.eqb_spec c d) as [E|_]; [congruence|reflexivity].
Qed.

(** ** The hypotheses are met *)

(** One table at address 0, no columns yet. *)
Definition table0 : ktab := fun _ => {| eK := 10; eN := 1 / 2; eQ := 3 |}.
Definition start : world := {| at_ := fun _ => table0; next := 1; col := fun _ => None; runs := [] |}.
Example plain_program : at_ (history false
  [New 0 0 [] false [1; 2] [1 / 2] (fun _ => None); New 1 0 [] false [1] [1 / 2] (fun _ => None);
   Fit 0 "TCE"; Bare 2 table0 true [1; 2] [1 / 2] (fun _ => None); Fit 2 "TCE"; Settings 1 false [3] [1]; Fit 1 "PFOA"; Fit 0 "TCE"] start) 0%nat = table0.
Proof.
  rewrite C198_plain_partial; [reflexivity|reflexivity|cbn; lia|]. repeat constructor.
Qed.
Example fitted_program : at_ (history false
  (Fit 0 "TCE" :: [Settings 0 true [1; 2] [1 / 2; 1]; Fit 0 "TCE"; Trial 0 "TCE" 4 1]) (history false [New 0 0 [] false [1] [1] (fun _ => None)] start)) 0%nat
  = table0.
Proof.
  rewrite C198_fitted_partial; [reflexivity| |cbn; lia|repeat constructor]. cbn. eexists. reflexivity.
Qed.
Example repeated_fits : runs (history true
  [New 0 0 [("TCE"%string, {| eK := 20; eN := 1; eQ := 5 |})] false [1; 2] [1 / 2] (fun _ => None); Fit 0 "TCE"; Fit 0 "PFOA"; Fit 0 "TCE"] start)
  = [(0%nat, "TCE"%string, 20, 1); (0%nat, "PFOA"%string, 10, 1 / 2); (0%nat, "TCE"%string, 20, 1)].
Proof.
  rewrite (C198_repeat_partial true start 0 0 _ _ _ _ ["TCE"; "PFOA"; "TCE"]%string) by (cbn; lia). reflexivity.
Qed.
(** A table with K = 10 comes back with K = 14. *)
Example fit_changes_the_table :
  let after := at_ (history true [New 0 0 [] true [1; 2] [1 / 4; 1] (fun _ => Some (fun _ => 7)); Fit 0 "TCE"] start) 0%nat in
  eK (after "TCE"%string) = 14 /\ eN (after "TCE"%string) = 1 /\ eK (table0 "TCE"%string) = 10 /\ eK (after "PFOA"%string) = 10.
Proof.
  destruct (C198_fit_refuted true start 0 0 [1; 2] [1 / 4; 1] (fun _ => Some (fun _ => 7)) "TCE") as (A & B & _ & D);
    [cbn; lia|discriminate|discriminate|left; discriminate|].
  intros after. split; [unfold after; rewrite B; cbn; lra|]. split; [unfold after; rewrite A; reflexivity|]. split; [reflexivity|].
  unfold after. rewrite D by discriminate. reflexivity.
Qed.
Example second_column_runs_twice : exists earlier,
  runs (history true [New 0 0 [] true [1; 2] [1 / 4; 1] (fun _ => Some (fun _ => 7)); New 1 0 [] false [1] [1] (fun _ => None);
    Fit 0 "TCE"; Fit 1 "TCE"; Fit 1 "TCE"] start) = (1%nat, "TCE"%string, 10, 1 / 2) :: (1%nat, "TCE"%string, 7 * 2, 1) :: earlier.
Proof.
  exact (C198_two_columns_refuted true start 0 [1; 2] [1 / 4; 1] (fun _ => Some (fun _ => 7)) [1] [1] (fun _ => None) "TCE"
    ltac:(cbn; lia) ltac:(discriminate) ltac:(discriminate) (or_introl (not_eq_sym (n_Sn 1)))).
Qed.

Print Assumptions C198_plain_partial.
Print Assumptions C198_fitted_partial.
Print Assumptions C198_repeat_partial.
Print Assumptions C198_fit_refuted.
Print Assumptions C198_two_columns_refuted.
Print Assumptions C198_force_refuted.
Print Assumptions C198_grid_refuted.
