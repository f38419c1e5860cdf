(** Properties C75 and C41 (grid fits). *)
From Coq Require Import Reals List Arith Bool String ZArith Lra Lia.
From Verif Require Import Lib_Py Lib_Pow P_GacFun M_GacFun M_GacMin P_GacMin M_GacSmart P_GacSmart M_GacFit P_GacFit Props_GacMin.
Import ListNotations.
Open Scope R_scope.
Local Notation length := List.length.

(** ** Vocabulary *)

(** The K that a multiplier [k] and an exponent [x] stand for: [k] times the K that gives
    compound [c] its tabulated loading q at exponent [x] (C36). *)
Definition K_of (self_xn : R) (t : string -> entry) (c : string) (k x : R) : R :=
  k * recalc_k (eK (t c)) (eQ (t c)) self_xn x.
(** The simulations of [s'] that [s] had not run. *)
Definition new_runs (s s' : fstate) (l : list fpoint) : Prop := flog s' = (l ++ flog s)%list.
(** A failing simulation of the parallel fit counts 1e9. *)
Definition mp_err (sim : string -> R -> R -> option R) (c : string) (K N : R) : R :=
  match sim c K N with Some v => v | None => 10 ^ 9 end.

(** ** C75: the fit of one compound *)

(** With an isotherm table: in either mode, with any number of rounds and any grid, what
    is stored is a pair that this fit simulated. *)
Theorem C75_stores_simulated_pair : forall sim self_xn staged grid loop xn_range k_range c s s',
  fit_one sim false self_xn staged grid loop xn_range k_range c s = Ok s' ->
  exists l p, new_runs s s' l /\ In p l /\ f_comp p = c /\
    sim c (f_K p) (f_N p) = Some (f_err p) /\
    eK (ft s' c) = f_K p /\ eN (ft s' c) = f_N p.
Proof.
  intros sim xn st ig il ox ok c s s' H.
  destruct (fit_one_ok _ _ _ _ _ _ _ _ _ _ _ H) as (mk & mx & E1 & E2 & _ & l & xs & ks & E3 & E4 & E5 & _ & _ & E6 & l0 & E7 & _).
  exists (rev (map (pt sim c (recalc_k (eK (ft s c)) (eQ (ft s c)) xn)) (list_prod ks xs)) ++ l0)%list,
    (pt sim c (recalc_k (eK (ft s c)) (eQ (ft s c)) xn) (mk, mx)).
  split; [unfold new_runs; rewrite <- app_assoc, <- E7; exact E3|].
  split; [apply in_app_iff; left; rewrite <- in_rev; apply in_map, in_prod; assumption|].
  split; [reflexivity|]. unfold pt. cbn [f_K f_N f_err fst snd]. split.
  - unfold val. specialize (E6 _ _ E4 E5). destruct (sim c _ mx) eqn:Q; [reflexivity|congruence].
  - rewrite E2. unfold trial. rewrite put_same. split; reflexivity.
Qed.
Print Assumptions C75_stores_simulated_pair.

(** Exhaustive mode, grids of at most 41 pairs: every pair of the grid was simulated,
    once, nothing else was, and no pair has a smaller error than the one stored. *)
Theorem C75_exhaustive_minimum_partial : forall sim self_xn grid loop xn_range k_range c s s',
  (length k_range * length xn_range <= 41)%nat ->
  fit_one sim false self_xn false grid loop xn_range k_range c s = Ok s' ->
  (exists l, new_runs s s' (rev l) /\
     map (fun p => (f_K p, f_N p)) l =
     map (fun q => (K_of self_xn (ft s) c (fst q) (snd q), snd q)) (list_prod k_range xn_range)) /\
  exists v, sim c (eK (ft s' c)) (eN (ft s' c)) = Some v /\
    forall k x, In k k_range -> In x xn_range ->
      exists w, sim c (K_of self_xn (ft s) c k x) x = Some w /\ v <= w.
Proof.
  intros sim xn ig il ox ok c s s' Hs H.
  destruct (fit_one_ok _ _ _ _ _ _ _ _ _ _ _ H) as (mk & mx & E1 & E2 & _ & l & xs & ks & E3 & E4 & E5 & (v & E6) & E7 & E8 & l0 & E9 & E10).
  destruct (E7 eq_refl) as (-> & ->). rewrite (E10 eq_refl) in E9. cbn [app] in E9. subst l.
  rewrite rows_grid in E6 by reflexivity. split.
  - eexists. split; [unfold new_runs; exact E3|]. rewrite map_map. reflexivity.
  - rewrite E2. unfold trial. rewrite put_same. cbn [eK eN].
    destruct (sim c _ mx) as [w0|] eqn:Q; [|exfalso; exact (E8 _ _ E4 E5 Q)].
    exists w0. split; [reflexivity|]. intros k x Hk Hx. unfold K_of.
    assert (L := find_min_least _ _ _ _ _ _ Hs E6 k x Hk Hx). unfold val in L. rewrite Q in L.
    specialize (E8 _ _ Hk Hx). destruct (sim c _ x) as [w|] eqn:Q2 in L |- *; [|congruence]. exists w. split; [reflexivity|exact L].
Qed.
Print Assumptions C75_exhaustive_minimum_partial.

(** ... and such a fit goes through whenever all simulations succeed with positive errors
    and one smallest, for grids of any size with at least two values on each axis. *)
Theorem C75_exhaustive_succeeds : forall sim self_xn grid loop xn_range k_range c s k0 x0,
  (2 <= length xn_range)%nat -> (2 <= length k_range)%nat ->
  (forall k x, In k k_range -> In x xn_range ->
     exists v, sim c (K_of self_xn (ft s) c k x) x = Some v /\ 0 < v) ->
  In k0 k_range -> In x0 xn_range ->
  (forall k x v v0, In k k_range -> In x xn_range -> (k, x) <> (k0, x0) ->
     sim c (K_of self_xn (ft s) c k0 x0) x0 = Some v0 ->
     sim c (K_of self_xn (ft s) c k x) x = Some v -> v0 < v) ->
  exists s', fit_one sim false self_xn false grid loop xn_range k_range c s = Ok s'.
Proof.
  intros sim xn ig il ox ok c s k0 x0 Lx Lk Hp Hk Hx U.
  apply (brute_total sim false xn ig il ox ok c s k0 x0 eq_refl Lx Lk Hp Hk Hx).
  intros k x Hk' Hx' N. destruct (Hp k x Hk' Hx') as (v & E & _). destruct (Hp k0 x0 Hk Hx) as (v0 & E0 & _).
  unfold K_of in *. unfold val. rewrite E, E0. exact (U _ _ _ _ Hk' Hx' N E0 E).
Qed.
Print Assumptions C75_exhaustive_succeeds.

(** ** Where it fails *)

(** Without an isotherm table the stored 1/n is 1, whatever was found, and if 1 is not on
    the grid the fit fails. *)
Theorem C75_no_table_stores_one : forall sim self_xn staged grid loop xn_range k_range c s s',
  fit_one sim true self_xn staged grid loop xn_range k_range c s = Ok s' ->
  eN (ft s' c) = 1 /\ (staged = false -> In 1 xn_range).
Proof.
  intros sim xn st ig il ox ok c s s' H.
  destruct (fit_one_ok _ _ _ _ _ _ _ _ _ _ _ H) as (mk & mx & E1 & E2 & _ & l & xs & ks & E3 & E4 & E5 & (v & E6) & E7 & _).
  destruct (find_min_nonempty _ _ _ _ _ _ _ _ E6) as (_ & _ & x' & EQ & _). cbn in EQ.
  rewrite E2. unfold trial. rewrite put_same. cbn [eN]. split; [exact EQ|].
  intros F. destruct (E7 F) as (-> & _). rewrite <- EQ. exact E5.
Qed.
Print Assumptions C75_no_table_stores_one.

(** With an isotherm table the parallel fit changes nothing, whatever the errors. *)
Theorem C75_parallel_with_table_refuted : forall sim self_xn xn_range k_range cs s,
  xn_range <> [] -> k_range <> [] ->
  run_all_MP sim false self_xn xn_range k_range cs s = Ok s.
Proof.
  intros sim xn xs ks cs s Hx Hk. induction cs as [|c r IH]; [reflexivity|]. cbn [run_all_MP].
  enough (E : mp_one sim false xn xs ks c s = Ok s) by (rewrite E; exact IH).
  unfold mp_one. rewrite (flat_prod (fun k x => (k, x, mp_error sim false c (k * recalc_k (eK (ft s c)) (eQ (ft s c)) xn x) x s))).
  match goal with |- context[map snd ?r] => set (rows := r) end.
  assert (C : forall z, In z (map snd rows) -> z = mp_val sim c (eK (ft s c)) (eN (ft s c))).
  { intros z Hz. unfold rows in Hz. rewrite map_map, in_map_iff in Hz. destruct Hz as (p & <- & _). cbn [snd]. apply mp_error_table. reflexivity. }
  assert (NE : map snd rows <> []).
  { unfold rows. destruct ks, xs; try congruence. discriminate. }
  clearbody rows. destruct (map snd rows) as [|z r'] eqn:E; [congruence|].
  assert (MN : lmin (z :: r') = mp_val sim c (eK (ft s c)) (eN (ft s c))) by (apply C, lmin_spec; discriminate).
  assert (MX : lmax (z :: r') = mp_val sim c (eK (ft s c)) (eN (ft s c))) by (apply C, lmax_spec; discriminate).
  rewrite MN, MX. unfold isclose. rewrite rleb_yes; [reflexivity|].
  rewrite Rminus_diag_eq, Rabs_R0 by reflexivity. assert (A := Rabs_pos (mp_val sim c (eK (ft s c)) (eN (ft s c)))).
  unfold dec. simpl pow. lra.
Qed.
Print Assumptions C75_parallel_with_table_refuted.

(** Without one the parallel fit of a compound, on grids of at most 41 pairs, stores a
    pair with the least error, or nothing if all errors are within numpy's tolerance of
    the greatest one. *)
Theorem C75_parallel_partial : forall sim self_xn xn_range k_range c s s',
  (length k_range * length xn_range <= 41)%nat ->
  mp_one sim true self_xn xn_range k_range c s = Ok s' ->
  (s' = s /\ exists top, forall k x, In k k_range -> In x xn_range ->
     top - (1 / 10 ^ 8 + 1 / 10 ^ 5 * Rabs top) <= mp_err sim c (K_of self_xn (ft s) c k x) x <= top)
  \/ forall k x, In k k_range -> In x xn_range ->
     mp_err sim c (eK (ft s' c)) (eN (ft s' c)) <= mp_err sim c (K_of self_xn (ft s) c k x) x.
Proof.
  intros sim xn xs ks c s s' Hs H.
  assert (EV : forall K N, mp_val sim c K N = mp_err sim c K N).
  { intros K N. unfold mp_val, mp_err. destruct (sim c K N); [reflexivity|].
    change (10 ^ 9)%Z with (10 ^ Z.of_nat 9)%Z. rewrite <- pow_IZR. reflexivity. }
  unfold mp_one in H.
  rewrite (flat_prod (fun k x => (k, x, mp_error sim true c (k * recalc_k (eK (ft s c)) (eQ (ft s c)) xn x) x s))) in H.
  replace (map _ (list_prod ks xs)) with (grid_rows (fun k x => mp_err sim c (K_of xn (ft s) c k x) x) ks xs) in H
    by (unfold grid_rows; apply map_ext; intros [k x]; cbn [fst snd]; rewrite mp_error_list by reflexivity; rewrite EV; reflexivity).
  assert (IN : forall k x, In k ks -> In x xs -> In (mp_err sim c (K_of xn (ft s) c k x) x) (map snd (grid_rows (fun k x => mp_err sim c (K_of xn (ft s) c k x) x) ks xs))).
  { intros k x Hk Hx. unfold grid_rows. rewrite map_map. cbn [snd]. rewrite in_map_iff. exists (k, x). split; [reflexivity|apply in_prod; assumption]. }
  destruct (map snd _) as [|z r] eqn:E in H; [discriminate|]. rewrite <- E in H.
  destruct (isclose _ _) eqn:C in H.
  - injection H as <-. left. split; [reflexivity|].
    exists (lmax (map snd (grid_rows (fun k x => mp_err sim c (K_of xn (ft s) c k x) x) ks xs))). intros k x Hk Hx.
    specialize (IN k x Hk Hx). assert (NE : z :: r <> []) by discriminate. rewrite E in *.
    apply (proj2 (lmin_spec _ NE)) in IN as L1. apply (proj2 (lmax_spec _ NE)) in IN as L2.
    unfold isclose in C. apply rleb_true in C. unfold dec in C.
    assert (A := Rle_abs (- (lmin (z :: r) - lmax (z :: r)))). rewrite Rabs_Ropp in A. lra.
  - right. destruct (find_min _) as [[[a b] v]|] eqn:F in H; cbn [bind] in H; [|discriminate].
    unfold kfit in H. cbn [length Nat.eqb andb hd] in H.
    destruct (sim c _ b) eqn:Q in H; cbn [bind] in H; [|discriminate]. injection H as <-.
    intros k x Hk Hx. cbn [ft set_ft]. unfold trial. rewrite put_same. cbn [eK eN].
    exact (find_min_least _ _ _ _ _ _ Hs F k x Hk Hx).
Qed.
Print Assumptions C75_parallel_partial.

(** ** Concrete runs *)
Module Runs.
Definition A : string := "A". Definition B : string := "B".
(** K = 1, 1/n = 0.45, q = 1 for every compound. *)
Definition tab : string -> entry := fun _ => {| eK := 1; eN := dec 45 2; eQ := 1 |}.
Definition s0 : fstate := {| ft := tab; fb := tab; flog := []; xtmp := (0, 0); ktmp := (0, 0) |}.
Lemma km_one t c xn x : t c = tab c -> recalc_k (eK (t c)) (eQ (t c)) xn x = 1.
Proof. intros ->. unfold recalc_k, tab. cbn [eK eQ]. rewrite !rpow_one_base. lra. Qed.
(** Errors with their minimum 1 at K = 2, 1/n = 0.5. *)
Definition bowl (c : string) (K N : R) : option R := Some (1 + (K - 2) * (K - 2) + (N - 1 / 2) * (N - 1 / 2)).
Definition gx : list R := [dec 4 1; 1 / 2].
Definition gk : list R := [1; 2].

Lemma bowl_fit c s : ft s c = tab c -> exists s', fit_one bowl false 1 false 5 3 gx gk c s = Ok s'.
Proof.
  intros Ht. assert (KO : forall k x, K_of 1 (ft s) c k x = k) by (intros; unfold K_of; rewrite (km_one (ft s) c 1 x Ht); lra).
  apply (C75_exhaustive_succeeds bowl 1 5 3 gx gk c s 2 (1 / 2)).
  - cbn. lia.
  - cbn. lia.
  - intros k x _ _. eexists. split; [reflexivity|]. assert (Q1 := Rle_0_sqr (K_of 1 (ft s) c k x - 2)). assert (Q2 := Rle_0_sqr (x - 1 / 2)). unfold Rsqr in *. lra.
  - cbn. auto.
  - cbn. auto.
  - intros k x v v0 Hk Hx N E0 E1. unfold bowl in E0, E1. rewrite KO in *. injection E0 as <-. injection E1 as <-.
    destruct Hk as [<- |[<- |[]]], Hx as [<- |[<- |[]]]; try congruence; unfold dec; simpl pow; lra.
Qed.
End Runs.
Import Runs.

(** C75 is not vacuous. *)
Example one_fit : exists s', fit_one bowl false 1 false 5 3 gx gk A s0 = Ok s' /\
  eK (ft s' A) = 2 /\ eN (ft s' A) = 1 / 2.
Proof.
  destruct (bowl_fit A s0 eq_refl) as (s' & E). exists s'. split; [exact E|].
  destruct (C75_exhaustive_minimum_partial _ _ _ _ _ _ _ _ _ (ltac:(cbn; lia) : (length gk * length gx <= 41)%nat) E) as (_ & v & EV & L).
  destruct (L 2 (1 / 2)) as (w & EW & LE); [cbn; auto|cbn; auto|].
  unfold K_of in EW. rewrite (km_one (ft s0) A 1 (1 / 2) eq_refl) in EW.
  unfold bowl in EV, EW. injection EV as <-. injection EW as <-.
  set (K := eK (ft s' A)) in *. set (N := eN (ft s' A)) in *. clearbody K N.
  assert (Q1 := Rle_0_sqr (K - 2)). assert (Q2 := Rle_0_sqr (N - 1 / 2)). unfold Rsqr in *.
  assert (Z1 : (K - 2) * (K - 2) = 0) by lra. assert (Z2 : (N - 1 / 2) * (N - 1 / 2) = 0) by lra.
  apply Rmult_integral in Z1, Z2. destruct Z1, Z2; split; lra.
Qed.


Module Staged.
(** A narrow minimum at 1/n = 0.31, off the 0.025 grid of the last round. *)
Definition sim (c : string) (K N : R) : option R :=
  Some (if reqb N (dec 31 2) then 1 + (K - 1) * (K - 1)
        else 2 + (K - 1) * (K - 1) + (N - dec 3 1) * (N - dec 3 1)).
Definition gx : list R := [dec 31 2; dec 91 2].
Definition gk : list R := [1; 2].
Definition one (x : R) : R := recalc_k (eK (tab A)) (eQ (tab A)) 1 x.
Lemma one_1 x : one x = 1. Proof. apply (km_one tab A 1 x eq_refl). Qed.

Lemma Int_part_spec r z : r - 1 < IZR z <= r -> z = Int_part r.
Proof.
  intros (H1 & H2). destruct (base_Int_part r) as (H3 & H4).
  assert (A : (z < Int_part r + 1)%Z) by (apply lt_IZR; rewrite plus_IZR; lra).
  assert (B' : (Int_part r < z + 1)%Z) by (apply lt_IZR; rewrite plus_IZR; lra). lia.
Qed.
Lemma grid0 s : round_grid true (1 - 1) 1 gx gk gx gk 2 2 s = Ok (gx, gk).
Proof.
  unfold round_grid. cbn [Nat.sub Nat.eqb]. unfold generate_grid, grid_axis, gx, gk.
  cbn [Nat.eqb length andb np_max np_min fold_left bind]. unfold linspace. cbn [seq map].
  rewrite !Rmax_right, !Rmin_left by (unfold dec; simpl pow; lra).
  do 2 f_equal; (f_equal; [simpl INR; unfold dec; simpl pow; lra|f_equal; simpl INR; unfold dec; simpl pow; lra]).
Qed.
Lemma grid1 s : xtmp s = (dec 31 2, dec 91 2) -> ktmp s = (1, 2) ->
  round_grid true (1 - 0) 1 gx gk [dec 31 2; dec 91 2] [1; 2] 2 2 s
  = Ok (linspace (dec 3 1) (dec 91 2) 25, linspace 1 2 11).
Proof.
  intros E1 E2. unfold round_grid. cbn [Nat.sub Nat.eqb]. rewrite E1, E2. cbn [fst snd].
  assert (F1 : floor (dec 31 2 / des_xn) = 12%Z) by (unfold floor; symmetry; apply Int_part_spec; unfold des_xn, dec; simpl pow; lra).
  assert (F2 : ceil (dec 91 2 / des_xn) = 37%Z).
  { unfold ceil. replace (Int_part (- (dec 91 2 / des_xn))) with (-37)%Z; [reflexivity|]. apply Int_part_spec; unfold des_xn, dec; simpl pow; lra. }
  assert (F3 : floor (1 / des_k) = 10%Z) by (unfold floor; symmetry; apply Int_part_spec; unfold des_k, dec; simpl pow; lra).
  assert (F4 : ceil (2 / des_k) = 20%Z).
  { unfold ceil. replace (Int_part (- (2 / des_k))) with (-20)%Z; [reflexivity|]. apply Int_part_spec; unfold des_k, dec; simpl pow; lra. }
  rewrite F1, F2, F3, F4.
  replace (rltb (last gx 0) (37 * des_xn)) with true
    by (symmetry; apply rltb_yes; unfold gx, des_xn, dec; cbn [last]; simpl pow; lra).
  change (Z.to_nat (Z.abs (37 - 12) + 1) - 1)%nat with 25%nat. change (Z.to_nat (Z.abs (20 - 10) + 1)) with 11%nat.
  unfold generate_grid, grid_axis. cbn [Nat.eqb length andb np_max np_min fold_left bind gx last].
  rewrite !Rmax_right, !Rmin_left by (unfold des_xn, des_k, dec; simpl pow; lra).
  replace (12 * des_xn) with (dec 3 1) by (unfold des_xn, dec; simpl pow; lra).
  replace (10 * des_k) with 1 by (unfold des_k, dec; simpl pow; lra).
  replace (20 * des_k) with 2 by (unfold des_k, dec; simpl pow; lra). reflexivity.
Qed.
Lemma linspace_in a b n v : In v (linspace a b (S (S n))) -> exists i, v = a + INR i * ((b - a) / INR (S n)).
Proof. unfold linspace. rewrite in_map_iff. intros (i & <- & _). exists i. reflexivity. Qed.
Lemma off v : In v (linspace (dec 3 1) (dec 91 2) 25) -> reqb v (dec 31 2) = false /\ dec 3 1 <= v.
Proof.
  intros H. destruct (linspace_in _ _ 23 _ H) as (i & ->). replace (INR 24) with 24 by (simpl; lra).
  assert (P := pos_INR i). split.
  - destruct (reqb _ _) eqn:E; [|reflexivity]. apply reqb_true in E. exfalso.
    destruct i as [|i]; [simpl INR in E; unfold dec in E; simpl pow in E; lra|].
    rewrite S_INR in E. assert (P' := pos_INR i). unfold dec in E. simpl pow in E. lra.
  - unfold dec. simpl pow. lra.
Qed.
Lemma val_off c K N : reqb N (dec 31 2) = false -> val sim c K N = 2 + (K - 1) * (K - 1) + (N - dec 3 1) * (N - dec 3 1).
Proof. intros E. unfold val, sim. rewrite E. reflexivity. Qed.
Lemma sim_pos c K N : exists v, sim c K N = Some v /\ 0 < v.
Proof.
  unfold sim. eexists. split; [reflexivity|].
  assert (Q1 := Rle_0_sqr (K - 1)). assert (Q2 := Rle_0_sqr (N - dec 3 1)). unfold Rsqr in *. destruct (reqb _ _); lra.
Qed.
Lemma first_round k x : In k gk -> In x gx -> (k, x) <> (1, dec 31 2) -> val sim A (1 * one (dec 31 2)) (dec 31 2) < val sim A (k * one x) x.
Proof.
  intros Hk Hx N. unfold val, sim. rewrite !one_1, reqb_refl.
  destruct Hx as [<- |[<- |[]]].
  - rewrite reqb_refl. destruct Hk as [<- |[<- |[]]]; [congruence|lra].
  - replace (reqb (dec 91 2) (dec 31 2)) with false by (symmetry; destruct (reqb _ _) eqn:E; [apply reqb_true in E; unfold dec in E; simpl pow in E; lra|reflexivity]).
    destruct Hk as [<- |[<- |[]]]; unfold dec; simpl pow; lra.
Qed.
Lemma in_lin a b n : In a (linspace a b (S (S n))).
Proof. unfold linspace. rewrite in_map_iff. exists 0%nat. split; [simpl INR; lra|apply in_seq; lia]. Qed.
Lemma lin_len a b n : length (linspace a b (S (S n))) = S (S n).
Proof. unfold linspace. rewrite map_length, seq_length. reflexivity. Qed.
End Staged.

(** The staged mode can store a pair worse than one it simulated itself. *)
Theorem C75_staged_refuted :
  exists sim grid loop xn_range k_range s s' v p,
    fit_one sim false 1 true grid loop xn_range k_range A s = Ok s' /\
    In p (flog s') /\ ~ In p (flog s) /\ f_comp p = A /\ sim A (f_K p) (f_N p) = Some (f_err p) /\
    sim A (eK (ft s' A)) (eN (ft s' A)) = Some v /\ f_err p < v.
Proof.
  exists Staged.sim, 2%nat, 1%nat, Staged.gx, Staged.gk, s0.
  destruct (round_step Staged.sim false 1 1 true 1 Staged.gx Staged.gk A Staged.one Staged.gx Staged.gk 2 2 s0
    Staged.gx Staged.gk 1 (dec 31 2) eq_refl (Staged.grid0 s0) ltac:(cbn; lia) ltac:(cbn; lia)
    (fun k x _ _ => Staged.sim_pos A _ x) ltac:(cbn; auto) ltac:(cbn; auto) Staged.first_round)
    as (mk & mx & v1 & ix & ik & s1 & FM & RX & RK & RN & ER).
  assert (M : mk = 1 /\ mx = dec 31 2).
  { rewrite rows_grid in FM by reflexivity. destruct (find_min_grid _ _ _ _ _ _ FM) as (I1 & I2).
    assert (L := find_min_least _ _ _ _ _ _ (ltac:(cbn; lia) : (length Staged.gk * length Staged.gx <= 41)%nat) FM 1 (dec 31 2) ltac:(cbn; auto) ltac:(cbn; auto)).
    cbn beta in L.
    destruct (Req_dec mk 1) as [-> |N1]; [destruct (Req_dec mx (dec 31 2)) as [-> |N2]|]; [split; reflexivity| |];
      assert (Q := Staged.first_round _ _ I1 I2 ltac:(congruence)); lra. }
  destruct M as (-> & ->).
  cbn [rindex Staged.gx Staged.gk] in RX, RK. rewrite reqb_refl in RX, RK. injection RX as <-. injection RK as <-.
  assert (RF1 : refine des_xn Staged.gx 0 2 = ((dec 31 2, dec 91 2), 2%nat)).
  { unfold refine. cbn [Nat.eqb nth Staged.gx]. rewrite rltb_no; [reflexivity|]. unfold des_xn, dec. simpl pow. lra. }
  assert (RF2 : refine des_k Staged.gk 0 2 = ((1, 2), 2%nat)).
  { unfold refine. cbn [Nat.eqb nth Staged.gk]. rewrite rltb_no; [reflexivity|]. unfold des_k, dec. simpl pow. lra. }
  rewrite RF1, RF2 in ER. cbn [fst snd] in ER.
  set (s2 := set_tmp (dec 31 2, dec 91 2) (1, 2) s1) in ER.
  destruct (round_step Staged.sim false 1 0 true 1 Staged.gx Staged.gk A Staged.one [dec 31 2; dec 91 2] [1; 2] 2 2 s2
    (linspace (dec 3 1) (dec 91 2) 25) (linspace 1 2 11) 1 (dec 3 1) eq_refl (Staged.grid1 s2 eq_refl eq_refl)
    ltac:(rewrite Staged.lin_len; lia) ltac:(rewrite Staged.lin_len; lia)
    (fun k x _ _ => Staged.sim_pos A _ x) (Staged.in_lin 1 2 9) (Staged.in_lin (dec 3 1) (dec 91 2) 23))
    as (mk & mx & v2 & ix & ik & s3 & FM2 & RX2 & RK2 & RN2 & ER2).
  { intros k x Hk Hx N. rewrite !Staged.one_1.
    rewrite (Staged.val_off A (k * 1) x) by (apply Staged.off; exact Hx).
    rewrite (Staged.val_off A (1 * 1) (dec 3 1)) by (apply Staged.off, Staged.in_lin).
    assert (Q1 := Rle_0_sqr (k - 1)). assert (Q2 := Rle_0_sqr (x - dec 3 1)). unfold Rsqr in *.
    destruct (Req_dec k 1) as [-> |N1].
    - assert (N2 : x - dec 3 1 <> 0) by (intros E; apply N; f_equal; lra).
      assert (P := Rlt_0_sqr _ N2). unfold Rsqr in P. lra.
    - assert (N2 : k - 1 <> 0) by lra. assert (P := Rlt_0_sqr _ N2). unfold Rsqr in P. lra. }
  destruct (refine des_xn (linspace (dec 3 1) (dec 91 2) 25) ix 2) as [xt n1] in ER2.
  destruct (refine des_k (linspace 1 2 11) ik 2) as [kt n2] in ER2. rewrite ER2 in ER.
  exists (set_ft (trial A (mk * Staged.one mx) mx (ft s3)) (set_tmp xt kt s3)),
    (val Staged.sim A (mk * Staged.one mx) mx), (pt Staged.sim A Staged.one (1, dec 31 2)).
  split.
  { unfold fit_one. match goal with |- context[rounds _ _ _ _ _ _ _ _ ?k _ _ _ _ _] => change k with Staged.one end.
    rewrite ER. reflexivity. }
  destruct RN as (_ & L1 & _). destruct RN2 as (_ & L2 & _).
  split.
  { cbn [flog set_ft set_tmp]. rewrite L2. apply in_app_iff. right. unfold s2. cbn [flog set_tmp]. rewrite L1.
    apply in_app_iff. left. rewrite <- in_rev. apply in_map, in_prod; cbn; auto. }
  split; [intros []|]. split; [reflexivity|]. split; [reflexivity|].
  cbn [ft set_ft]. unfold trial. rewrite put_same. cbn [eK eN]. split; [reflexivity|].
  rewrite rows_grid in FM2 by reflexivity. destruct (find_min_grid _ _ _ _ _ _ FM2) as (_ & I2).
  unfold pt. cbn [f_err fst snd]. rewrite (Staged.val_off A _ mx) by (apply Staged.off; exact I2).
  unfold val, Staged.sim. rewrite reqb_refl, !Staged.one_1.
  assert (Q1 := Rle_0_sqr (mk * 1 - 1)). assert (Q2 := Rle_0_sqr (mx - dec 3 1)). unfold Rsqr in *. lra.
Qed.
Print Assumptions C75_staged_refuted.

(** Without a table the exhaustive fit can store a pair that was not the best. *)
Theorem C75_no_table_refuted :
  exists sim xn_range k_range s s' v p,
    fit_one sim true 1 false 5 3 xn_range k_range A s = Ok s' /\
    In p (flog s') /\ ~ In p (flog s) /\ f_comp p = A /\ sim A (f_K p) (f_N p) = Some (f_err p) /\
    sim A (eK (ft s' A)) (eN (ft s' A)) = Some v /\ f_err p < v.
Proof.
  set (sim := fun (_ : string) K N => Some (1 + (K - 1) * (K - 1) + (N - 1 / 2) * (N - 1 / 2))).
  set (xs := [1 / 2; 1]). set (ks := [1; 2]).
  exists sim, xs, ks, s0.
  destruct (eval_grid_total sim true A Staged.one ks xs s0) as ([rows s1] & EG); [intros; discriminate|].
  destruct (eval_grid_ok _ _ 1 _ _ _ _ _ _ _ EG) as (ER & RN).
  assert (D1 : rltb 1 2 = true) by (apply rltb_yes; lra). assert (D2 : rltb 2 1 = false) by (apply rltb_no; lra).
  assert (D3 : reqb 1 2 = false) by (destruct (reqb 1 2) eqn:Q; [apply reqb_true in Q; lra|reflexivity]).
  assert (D4 : reqb 2 1 = false) by (destruct (reqb 2 1) eqn:Q; [apply reqb_true in Q; lra|reflexivity]).
  assert (D5 : rltb 1 1 = false) by (apply rltb_no; lra). assert (D6 : rltb 2 2 = false) by (apply rltb_no; lra).
  assert (PV : exists t, pivot rows = ([1; 2], [1], t) /\ t 0%nat 0%nat = 5 / 4 /\ t 1%nat 0%nat = 9 / 4).
  { unfold pivot. rewrite ER. unfold xs, ks. cbn [list_prod map app]. unfold row, lab. cbn [fst snd map].
    cbn [usort uinsert]. rewrite ?D5, ?D6, ?reqb_refl. cbn [usort uinsert].
    rewrite ?D6, ?reqb_refl. cbn [uinsert]. rewrite ?D1, ?D5, ?D6, ?reqb_refl. cbn [uinsert]. rewrite ?D5, ?reqb_refl.
    eexists. split; [reflexivity|]. cbn [nth filter fst snd]. rewrite ?reqb_refl, ?D3, ?D4. cbn [andb map snd lmax].
    unfold val, sim. rewrite !Staged.one_1. split.
    - rewrite rleb_no; lra.
    - rewrite rleb_no; lra. }
  destruct PV as (t & PV & T0 & T1).
  assert (FM : find_min (pivot rows) = Ok (1, 1, 5 / 4)).
  { rewrite PV. unfold find_min. cbn [length]. rewrite <- T0.
    apply (C38_small_tables 2 1 (fun i => nth i [1; 2] 0) (fun j => nth j [1] 0) t 0 0).
    - lia.
    - intros i j Hi Hj. assert (j = 0%nat) by lia. subst j. destruct i as [|[|i]]; [lra|lra|lia].
    - split; [lia|]. split; [lia|]. intros i j Hi Hj N. assert (j = 0%nat) by lia. subst j. destruct i as [|[|i]]; [congruence|lra|lia]. }
  assert (RX : rindex 1 xs = Ok 1%nat).
  { unfold xs. cbn [rindex]. destruct (reqb (1 / 2) 1) eqn:Q; [apply reqb_true in Q; lra|]. rewrite reqb_refl. reflexivity. }
  assert (RK : rindex 1 ks = Ok 0%nat) by (unfold ks; cbn [rindex]; rewrite reqb_refl; reflexivity).
  exists (set_ft (trial A (1 * Staged.one 1) 1 (ft s1))
           (set_tmp (fst (refine des_xn xs 1 5)) (fst (refine des_k ks 0 5)) s1)), (5 / 4), (pt sim A Staged.one (1, 1 / 2)).
  split.
  { unfold fit_one. match goal with |- context[rounds _ _ _ _ _ _ _ _ ?k _ _ _ _ _] => change k with Staged.one end.
    cbn [rounds round_grid bind]. rewrite EG. cbn [bind]. rewrite FM. cbn [bind].
    change (Nat.leb (length xs) 1 || Nat.leb (length ks) 1)%bool with false. cbn iota. rewrite RX. cbn [bind]. rewrite RK. cbn [bind].
    destruct (refine des_xn xs 1 5), (refine des_k ks 0 5). reflexivity. }
  destruct RN as (_ & L1 & _ & _).
  split.
  { cbn [flog set_ft set_tmp]. rewrite L1. apply in_app_iff. left. rewrite <- in_rev. apply in_map, in_prod; cbn; auto. }
  split; [intros []|]. split; [reflexivity|]. split; [reflexivity|].
  cbn [ft set_ft]. unfold trial. rewrite put_same. cbn [eK eN]. rewrite Staged.one_1. split; [unfold sim; f_equal; lra|].
  unfold pt, val, sim. cbn [f_err fst snd]. rewrite Staged.one_1. lra.
Qed.
Print Assumptions C75_no_table_refuted.

(** ** C41: several compounds *)

(** Both grid fits leave at most one compound of the table changed; every other one has
    the entry it had at construction. *)
Theorem C41_grid_fit_keeps_last_only : forall sim no_table self_xn staged grid loop xn_range k_range cs d s s',
  run_all sim no_table self_xn staged grid loop xn_range k_range (cs ++ [d]) s = Ok s' ->
  forall c, c <> d -> ft s' c = fb s c.
Proof.
  intros until 1. intros c Hc. destruct (run_all_table _ _ _ _ _ _ _ _ _ _ _ _ H) as (_ & K & N & ->).
  unfold trial. apply put_other. congruence.
Qed.
Print Assumptions C41_grid_fit_keeps_last_only.
Theorem C41_parallel_fit_keeps_one_only : forall sim no_table self_xn xn_range k_range cs s s',
  ft s = fb s -> run_all_MP sim no_table self_xn xn_range k_range cs s = Ok s' ->
  exists d, forall c, c <> d -> ft s' c = fb s c.
Proof.
  intros until 2. apply (run_MP_table sim no_table self_xn xn_range k_range cs s s'); [|exact H0].
  exists A. intros c _. rewrite H. reflexivity.
Qed.
Print Assumptions C41_parallel_fit_keeps_one_only.

(** So fitting two compounds loses the first one's fit. *)
Theorem C41_grid_fit_refuted :
  exists sim xn_range k_range s s' v p,
    run_all sim false 1 false 5 3 xn_range k_range [A; B] s = Ok s' /\
    In p (flog s') /\ f_comp p = A /\ sim A (f_K p) (f_N p) = Some (f_err p) /\
    sim A (eK (ft s' A)) (eN (ft s' A)) = Some v /\ f_err p < v.
Proof.
  exists bowl, gx, gk, s0.
  destruct (bowl_fit A s0 eq_refl) as (s1 & E1).
  destruct (fit_one_ok _ _ _ _ _ _ _ _ _ _ _ E1) as (mk & mx & F1 & F2 & _).
  assert (TB : ft s1 B = tab B) by (rewrite F2; unfold trial; rewrite put_other; [reflexivity|discriminate]).
  destruct (bowl_fit B s1 TB) as (s2 & E2).
  assert (R : run_all bowl false 1 false 5 3 gx gk [A; B] s0 = Ok s2).
  { cbn [run_all]. rewrite E1. cbn [bind]. rewrite E2. reflexivity. }
  exists s2, (1 + (1 - 2) * (1 - 2) + (dec 45 2 - 1 / 2) * (dec 45 2 - 1 / 2)), (pt bowl A (recalc_k 1 1 1) (2, 1 / 2)).
  split; [exact R|].
  destruct (fit_one_ok _ _ _ _ _ _ _ _ _ _ _ E1) as (_ & _ & _ & _ & _ & l & xs & ks & G1 & _ & _ & _ & G2 & _).
  destruct (G2 eq_refl) as (-> & ->).
  destruct (fit_one_ok _ _ _ _ _ _ _ _ _ _ _ E2) as (_ & _ & _ & _ & (l2 & G3 & _) & _).
  split.
  { rewrite G3, G1. apply in_app_iff. right. apply in_app_iff. left. rewrite <- in_rev.
    apply (in_map (pt bowl A (recalc_k 1 1 1)) _ (2, 1 / 2)), in_prod; cbn; auto. }
  split; [reflexivity|]. split; [reflexivity|].
  assert (AT := C41_grid_fit_keeps_last_only _ _ _ _ _ _ _ _ [A] B _ _ R A ltac:(discriminate)).
  rewrite AT. split; [reflexivity|].
  unfold pt, val, bowl. cbn [f_err fst snd]. unfold recalc_k. rewrite !rpow_one_base. unfold dec. simpl pow. lra.
Qed.
Print Assumptions C41_grid_fit_refuted.
