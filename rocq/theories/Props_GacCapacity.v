(** Properties C94-C99: the capacity estimated from influent and effluent data. *)
From Coq Require Import Reals List Arith Bool String Lra Lia.
From Verif Require Import Lib_Py Lib_Pow M_GacFun P_GacFun M_GacMin P_GacMin M_GacSmart P_GacSmart M_GacCapacity P_GacCapacity P_Colloc.
Import ListNotations.
Open Scope R_scope.
Open Scope string_scope.
Local Notation length := List.length.

(** ** Specification *)
(** Freundlich: loading at a concentration. *)
Definition freundlich (K x C : R) : R := K * Rpower C x.
(** The numerical integration is exact for [f] from 0 to [b]. *)
Definition exact (quad : (R -> R) -> R -> R -> R) (f : R -> R) (b : R) : Prop :=
  forall F, (forall t, 0 <= t <= b -> derivable_pt_lim F t (f t)) -> quad f 0 b = F b - F 0.
(** A table of readings with increasing times and no negative concentration. *)
Definition readable (s : series) : Prop := tab_inc s /\ forall t c, In (t, c) s -> 0 <= c.
(** [s'] is [s], or [s] with value [v] at time [t]. *)
Definition completes (t v : R) (s s' : series) : Prop := s' = s \/ forall p, In p s' <-> p = (t, v) \/ (In p s /\ fst p <> t).
Definition average (l : list R) : R := fold_right Rplus 0 l / INR (length l).
(** Influent readings of zero count as 0.001. *)
Definition floored (s : series) : series := map (fun p => (fst p, if reqb (snd p) 0 then 1 / 1000 else snd p)) s.

Lemma floored_infl raw : infl raw = floored raw.
Proof. unfold infl, nonzero, floored. apply map_ext. intros (t & c). cbn [fst snd]. destruct (reqb c 0); [unfold dec; f_equal; cbn; field|reflexivity]. Qed.
Lemma calculate_inv quad cf lr rnd raw e d fl mm w xn tm fo c : calculate quad cf lr rnd raw e d fl mm w xn tm fo = Ok c ->
  (2 <= length raw)%nat /\ (2 <= length e)%nat /\
  ((lsum (values (infl raw)) = 0 /\ c_k c = 0 /\ c_q c = 0 /\ c_brk c = d) \/
   (lsum (values (infl raw)) <> 0 /\ exists f, search cf lr rnd raw e d = Ok f /\ c = estimate quad d fl mm w xn tm fo f)).
Proof.
  unfold calculate. destruct (Nat.ltb _ _ || Nat.ltb _ _)%bool eqn:L; [discriminate|]. apply orb_false_elim in L as (L1 & L2). apply Nat.ltb_ge in L1, L2. unfold infl, nonzero in L1. rewrite map_length in L1.
  intros H. split; [exact L1|]. split; [exact L2|]. destruct (reqb (lsum (values (infl raw))) 0) eqn:Z.
  - left. apply reqb_true in Z. split; [exact Z|]. match type of H with Ok ?A = _ => assert (E : c = A) by congruence end. subst c. cbn. auto.
  - right. apply reqb_false in Z. split; [exact Z|]. destruct (search cf lr rnd raw e d) as [f|] eqn:S; [|discriminate]. exists f. split; [reflexivity|]. cbn [bind] in H. congruence.
Qed.

(** ** C94: the Freundlich K gives the measured loading *)
Theorem C94_K : forall quad cf lr rnd raw e d fl mm w xn tm fo c, 
  calculate quad cf lr rnd raw e d fl mm w xn tm fo = Ok c \/ (exists day, forced quad raw e d fl mm w xn tm fo day = Ok c) -> 0 < c_ave c * mm ->
  freundlich (c_k c) xn (c_ave c * mm) = c_q c.
Proof.
  intros quad cf lr rnd raw e d fl mm w xn tm fo c H P. assert (D : forall q, q / rpow (c_ave c * mm) xn * Rpower (c_ave c * mm) xn = q).
  { intros q. rewrite rpow_Rpower by exact P. field. apply Rgt_not_eq, exp_pos. }
  unfold freundlich. destruct H as [H|(day & H)].
  - destruct (calculate_inv _ _ _ _ _ _ _ _ _ _ _ _ _ _ H) as (_ & _ & [(_ & -> & -> & _)|(_ & f & _ & E)]); [ring|]. subst c. apply D.
  - revert H. unfold forced. destruct (rltb day 2000); [|destruct (reqb day 2000); [discriminate|]]; intros H; match type of H with Ok ?A = _ => assert (E : c = A) by congruence end; subst c; [apply D|cbn; ring].
Qed.
(** ** C95: K for other exponents *)
Lemma grid_length : arange_len (dec 15 2) (dec 1001 3) (dec 1 2) = 86%nat.
Proof.
  unfold arange_len. assert (E : (dec 1001 3 - dec 15 2) / dec 1 2 = 851 / 10) by (unfold dec; cbn; field). rewrite E.
  assert (A := ceil_gt (851 / 10) 85 ltac:(lra)). assert (B := ceil_le (851 / 10) 86 ltac:(lra)). assert (ceil (851 / 10) = 86%Z) as -> by lia. reflexivity.
Qed.
Lemma grid_eq : xn_grid = map (fun i => 15 / 100 + INR i / 100) (seq 0 86).
Proof. unfold xn_grid. rewrite grid_length. apply map_ext. intros i. unfold dec. cbn [pow]. field. Qed.
Lemma grid_inc (g : R -> R) s n : tab_inc (map (fun x => (x, g x)) (map (fun i => 15 / 100 + INR i / 100) (seq s n))).
Proof. revert s. induction n as [|n IH]; intros s; [exact I|]. specialize (IH (S s)). destruct n as [|n]; [exact I|]. cbn [seq map] in *. split; [rewrite S_INR; lra|exact IH]. Qed.
(** For exponents from 0.15 to 1 in steps of 0.01. *)
Theorem C95_other_exponents_partial : forall quad cf lr rnd raw e d fl mm w xn tm fo c i, readable raw ->
  calculate quad cf lr rnd raw e d fl mm w xn tm fo = Ok c -> 0 < c_ave c * mm -> (i <= 85)%nat ->
  freundlich (c_kfun c (15 / 100 + INR i / 100)) (15 / 100 + INR i / 100) (c_ave c * mm) = c_q c.
Proof.
  intros quad cf lr rnd raw e d fl mm w xn tm fo c i (_ & NN) H P L. destruct (calculate_inv _ _ _ _ _ _ _ _ _ _ _ _ _ _ H) as (L1 & _ & [(Z & _)|(_ & f & _ & E)]).
  - exfalso. assert (Q := infl_sum raw ltac:(intros ->; cbn in L1; lia) NN). apply reqb_false in Q. contradiction.
  - unfold freundlich. assert (K : c_kfun c (15 / 100 + INR i / 100) = c_q c / rpow (c_ave c * mm) (15 / 100 + INR i / 100)).
    { subst c. cbn [c_kfun c_q c_ave estimate]. rewrite grid_eq. apply interp_at; [apply (grid_inc (fun x => _ / rpow _ x))|].
      apply in_map_iff. eexists. split; [reflexivity|]. apply in_map_iff. exists i. split; [reflexivity|]. apply in_seq. lia. }
    rewrite K, rpow_Rpower by exact P. field. apply Rgt_not_eq, exp_pos.
Qed.
(** The full statement is false with prescribed breakthrough days: the function is one
    everywhere. *)
Theorem C95_forced_refuted : exists quad raw e d fl mm w xn tm fo day c, readable raw /\ forced quad raw e d fl mm w xn tm fo day = Ok c /\ 0 < c_ave c * mm /\
  freundlich (c_kfun c 1) 1 (c_ave c * mm) <> c_q c.
Proof.
  exists (fun f a b => (f a + f b) / 2 * (b - a)), [(0, 10); (10, 10)], [(0, 0); (10, 10)], 10, 1, 1, 1, 1, 1, (fun _ => 1), 10. eexists.
  split; [split; [split; [lra|exact I]|intros t c [E|[E|[]]]; inversion E; lra]|]. unfold forced. rewrite (proj2 (rltb_true 10 2000)) by lra. split; [reflexivity|].
  cbn [c_ave c_kfun c_q]. rewrite (proj2 (reqb_false 10 1000)) by lra. unfold infl, nonzero. cbn [map fst snd]. rewrite (proj2 (reqb_false 10 0)) by lra. cbn [interp_x]. unfold line. unfold freundlich.
  replace ((10 + (10 - 10) / (10 - 0) * (0 - 0) + (10 + (10 - 10) / (10 - 0) * (10 - 0))) / 2 * (10 - 0) / 10 * 1) with 10 by field.
  split; [lra|]. rewrite Rpower_1 by lra. replace (_ / 1) with 50 by field. lra.
Qed.

(** ** C96: the loading is the mass taken up per gram of carbon *)
Definition completed (cf : series -> option (R * R * R)) (raw e : series) (f : found) : Prop :=
  exists t v, completes t (aveC raw) (infl raw) (f_inf f) /\ completes t v e (f_eff f) /\ (f_code f <> "logistic" -> v = aveC raw) /\
  (In (f_code f) ["minimum"; "breakthrough"; "exceed_aveC, implied"] -> f_inf f = infl raw /\ f_eff f = e) /\ (f_code f <> "none" -> f_ok f = true) /\
  (f_code f = "logistic" -> f_eff f = e \/ exists c0 a b, cf e = Some (c0, a, b) /\ v = c0 / (1 + exp (a - b * t))).
Ltac no_code := intros Q; exfalso; cbn in Q; repeat destruct Q as [Q|Q]; try discriminate; destruct Q.
Ltac fin := first [discriminate | intros _; left; reflexivity | intros _; right; eexists _, _, _; split; [eassumption|reflexivity]].
Ltac take H f := match type of H with Ok ?A = _ => assert (E : f = A) by congruence end; subst f; cbn [f_inf f_eff f_code f_ok].
Lemma linear_completes cf lr rnd raw brk e f : tab_inc raw -> tab_inc e -> linear lr rnd raw brk (infl raw) e = Ok f -> completed cf raw e f.
Proof.
  intros HR HE. unfold linear, completed.
  destruct (_ && _)%bool.
  - destruct (rev (map fst e)) as [|t1 [|t2 l]]; intros H; try (take H f; exists 0, (aveC raw); split; [left; reflexivity|]; split; [left; reflexivity|]; split; [reflexivity|]; split; [no_code|]; split; [cbn; congruence|cbn; fin]).
    revert H. destruct (reqb _ 0); [discriminate|]. intros H. take H f. eexists. exists (aveC raw). split; [right; intros p; apply put_in, infl_inc, HR|]. split; [right; intros p; apply put_in, HE|]. split; [reflexivity|]; split; [no_code|]; split; [cbn; congruence|cbn; fin].
  - destruct (lr _) as [(sl & ic)|]; intros H.
    + revert H. destruct (reqb sl 0); [discriminate|]. intros H. take H f. eexists. exists (aveC raw). split; [right; intros p; apply put_in, infl_inc, HR|]. split; [right; intros p; apply put_in, HE|]. split; [reflexivity|]; split; [no_code|]; split; [cbn; congruence|cbn; fin].
    + take H f; exists 0, (aveC raw); split; [left; reflexivity|]; split; [left; reflexivity|]; split; [reflexivity|]; split; [no_code|]; split; [cbn; congruence|cbn; fin].
Qed.
Lemma fitted_completes cf lr rnd raw e d f : tab_inc raw -> tab_inc e -> fitted cf lr rnd raw e d = Ok f -> completed cf raw e f.
Proof.
  intros HR HE. unfold fitted. destruct (cf e) as [((c0 & a) & b)|] eqn:CF; [|apply (linear_completes _ _ _ _ _ _ _ HR HE)].
  destruct (reqb b 0); [discriminate|]. destruct (rleb d _).
  - intros H. unfold completed. take H f. eexists. eexists. split; [right; intros p; apply put_in, infl_inc, HR|]. split; [right; intros p; apply put_in, HE|]. split; [congruence|]; split; [no_code|]; split; [cbn; congruence|cbn; fin].
  - destruct (rltb _ _); [|apply (linear_completes _ _ _ _ _ _ _ HR HE)]. intros H. unfold completed. take H f. exists 0, (aveC raw). split; [left; reflexivity|]. split; [left; reflexivity|]. split; [reflexivity|]; split; [no_code|]; split; [cbn; congruence|cbn; fin].
Qed.
Lemma search_completes cf lr rnd raw e d f : tab_inc raw -> tab_inc e -> search cf lr rnd raw e d = Ok f -> completed cf raw e f.
Proof.
  intros HR HE. assert (HERE : forall code b, Ok {| f_ok := true; f_code := code; f_brk := b; f_inf := infl raw; f_eff := e |} = Ok f -> completed cf raw e f).
  { intros code b H. unfold completed. take H f. exists 0, (aveC raw). split; [left; reflexivity|]. split; [left; reflexivity|]. repeat split; auto. }
  unfold search. destruct (_ || _)%bool; [apply HERE|]. destruct (rleb (lmin _) _); [|apply fitted_completes; assumption]. destruct (find _ _); [apply HERE|]. destruct (find _ _); [apply HERE|apply fitted_completes; assumption].
Qed.
(** The loading is the mass that stayed in the column until the breakthrough time, per gram:
    flow times influent less effluent, integrated; at least 1e-6 unless no breakthrough could
    be worked out at all.  The streams join the readings by straight lines; fits may have
    added one point, at which the influent is the average one, and so is the effluent unless
    it is a logistic curve, which then gives it; the three other verdicts use the readings only. *)
Theorem C96_loading : forall quad cf lr rnd raw e d fl mm w xn tm fo c A B, readable raw -> readable e ->
  calculate quad cf lr rnd raw e d fl mm w xn tm fo = Ok c ->
  exists i o t v, completes t (average (values (floored raw))) (floored raw) i /\ completes t v e o /\ (c_code c <> "logistic" -> v = average (values (floored raw))) /\
    (c_code c = "logistic" -> o = e \/ exists c0 a b, cf e = Some (c0, a, b) /\ v = c0 / (1 + exp (a - b * t))) /\
    (In (c_code c) ["minimum"; "breakthrough"; "exceed_aveC, implied"] -> i = floored raw /\ o = e) /\
    (exact quad (interp_x i) (c_brk c) -> exact quad (interp_x o) (c_brk c) ->
     (forall t, 0 <= t <= c_brk c -> derivable_pt_lim A t (interp_x i t)) -> (forall t, 0 <= t <= c_brk c -> derivable_pt_lim B t (interp_x o t)) ->
     let taken := fl * mm * ((A (c_brk c) - A 0) - (B (c_brk c) - B 0)) in
     c_q c = Rmax (1 / 10 ^ 6) (taken / w) \/ (c_code c = "none" /\ c_q c = taken / w)).
Proof.
  intros quad cf lr rnd raw e d fl mm w xn tm fo c A B (RI & RN) (EI & EN) H. destruct (calculate_inv _ _ _ _ _ _ _ _ _ _ _ _ _ _ H) as (L1 & _ & [(Z & _)|(_ & f & S & E)]).
  { exfalso. assert (Q := infl_sum raw ltac:(intros ->; cbn in L1; lia) RN). apply reqb_false in Q. contradiction. }
  destruct (search_completes _ _ _ _ _ _ _ RI EI S) as (t0 & v0 & CI & CE & CV & CC & CO & CL). assert (AV : aveC raw = average (values (floored raw))) by (unfold aveC; rewrite floored_infl; reflexivity).
  rewrite AV in CI, CV. rewrite floored_infl in CI, CC. exists (f_inf f), (f_eff f), t0, v0. split; [exact CI|]. split; [exact CE|].
  assert (CODE : c_code c = f_code f) by (subst c; reflexivity). rewrite CODE. split; [exact CV|]. split; [exact CL|]. split; [exact CC|].
  intros XI XE DA DB taken. assert (QA := XI A DA). assert (QB := XE B DB).
  assert (QQ : c_q c = if (f_ok f && rleb (taken / w) (dec 1 6))%bool then dec 1 6 else taken / w).
  { subst taken. subst c. cbn [c_q c_brk estimate] in *. rewrite QA, QB. generalize (clean (f_brk f) (f_eff f)). intros b.
    replace ((A b - A 0 - (B b - B 0)) * fl * mm / w) with (fl * mm * (A b - A 0 - (B b - B 0)) / w) by (unfold Rdiv; ring). reflexivity. }
  rewrite QQ. assert (D : dec 1 6 = 1 / 10 ^ 6) by (unfold dec; field; apply pow_nonzero; lra). rewrite D. destruct (f_ok f) eqn:OK; cbn [andb].
  - left. destruct (rleb (taken / w) (1 / 10 ^ 6)) eqn:R; [apply rleb_true in R; rewrite Rmax_left by exact R; reflexivity|apply rleb_false in R; rewrite Rmax_right by lra; reflexivity].
  - right. split; [|reflexivity]. destruct (string_dec (f_code f) "none") as [Q|Q]; [exact Q|]. specialize (CO Q). congruence.
Qed.

(** ** C97: the breakthrough time *)
(** Day [n] is the first on which the effluent, readings joined by straight lines, is at least
    the influent. *)
Definition first_crossing (i o : series) (n : nat) : Prop := interp_x i (INR n) <= interp_x o (INR n) /\ forall m, (m < n)%nat -> interp_x o (INR m) < interp_x i (INR m).
Definition covers (s : series) (t : R) : Prop := (exists a c, In (a, c) s /\ a <= t) /\ exists b c, In (b, c) s /\ t <= b.
Definition two_positive (s : series) : Prop := exists i j, (i < j < length s)%nat /\ 0 < snd (nth i s (0, 0)) /\ 0 < snd (nth j s (0, 0)).
Lemma nth_values s i : nth i (values s) 0 = snd (nth i s (0, 0)).
Proof. unfold values. change 0 with (snd (0, 0)) at 1. apply map_nth. Qed.
Lemma crossing_found cf lr rnd raw e d n : readable raw -> readable e -> (2 <= length raw)%nat -> two_positive e -> first_crossing (infl raw) e n -> INR n <= d -> covers raw (INR n) -> covers e (INR n) ->
  search cf lr rnd raw e d = Ok {| f_ok := true; f_code := "breakthrough"; f_brk := INR n - 1; f_inf := infl raw; f_eff := e |}.
Proof.
  intros (RI & RN) (EI & EN) L (i & j & IJ & PI & PJ) (X1 & X2) D C1 C2. unfold search.
  assert (LV : length (values e) = length e) by (unfold values; apply map_length).
  assert (NE : values e <> []) by (intros Q; rewrite Q in LV; cbn in LV; lia).
  replace (reqb (lsum (values e)) 0) with false.
  2: { symmetry. apply reqb_false. intros Q. destruct (lsum_nonneg (values e)) as (_ & W). { intros x I. unfold values in I. apply in_map_iff in I as ((t & c) & <- & I). apply (EN t c I). }
       specialize (W Q (nth i (values e) 0) ltac:(apply nth_In; lia)). rewrite nth_values in W. lra. }
  replace (Nat.eqb (count_nonzero (values e)) 1) with false.
  2: { symmetry. apply Nat.eqb_neq. assert (2 <= count_nonzero (values e))%nat; [|lia]. apply (count_two _ i j); [lia| |]; rewrite nth_values; lra. }
  cbn [orb]. assert (NI : values (infl raw) <> []) by (destruct raw; [cbn in L; lia|discriminate]).
  destruct (lmin_spec _ NI) as (_ & M1). destruct (lmax_spec _ NE) as (_ & M2). destruct (lmax_spec _ NI) as (_ & M3). destruct (lmin_spec _ NE) as (_ & M4).
  assert (BI : lmin (values (infl raw)) <= interp_x (infl raw) (INR n) <= lmax (values (infl raw))).
  { destruct C1 as (C1 & C1'). apply interp_range; [destruct raw; [cbn in L; lia|discriminate]|apply infl_inc, RI| | |].
    - intros t c I. assert (In c (values (infl raw))) by (apply (in_map snd _ (t, c)), I). split; [apply M1|apply M3]; assumption.
    - destruct C1 as (a & c & I & LE). eexists. eexists. split; [apply infl_in; exists c; split; [exact I|reflexivity]|exact LE].
    - destruct C1' as (a & c & I & LE). eexists. eexists. split; [apply infl_in; exists c; split; [exact I|reflexivity]|exact LE]. }
  assert (BE : lmin (values e) <= interp_x e (INR n) <= lmax (values e)).
  { destruct C2 as (C2 & C2'). apply interp_range; [intros ->; cbn in IJ; lia|exact EI| |exact C2|exact C2']. intros t c I. assert (In c (values e)) by (apply (in_map snd _ (t, c)), I). split; [apply M4|apply M2]; assumption. }
  rewrite (proj2 (rleb_true _ _)) by lra. unfold days. rewrite (find_arange _ n); [reflexivity|lra|apply rleb_true; exact X1|]. intros m M. apply rleb_false, X2, M.
Qed.
Lemma calculate_search quad cf lr rnd raw e d fl mm w xn tm fo c f : readable raw -> calculate quad cf lr rnd raw e d fl mm w xn tm fo = Ok c -> search cf lr rnd raw e d = Ok f -> c = estimate quad d fl mm w xn tm fo f.
Proof.
  intros (_ & RN) H S. destruct (calculate_inv _ _ _ _ _ _ _ _ _ _ _ _ _ _ H) as (L1 & _ & [(Z & _)|(_ & g & S' & E)]); [|congruence].
  exfalso. assert (Q := infl_sum raw ltac:(intros ->; cbn in L1; lia) RN). apply reqb_false in Q. contradiction.
Qed.
(** When the effluent reaches the influent on a later day than the first, with at least two
    positive effluent readings, the breakthrough time is the day before, at least one. *)
Theorem C97_crossing_partial : forall quad cf lr rnd raw e d fl mm w xn tm fo c n, readable raw -> readable e -> two_positive e ->
  calculate quad cf lr rnd raw e d fl mm w xn tm fo = Ok c -> first_crossing (floored raw) e n -> (1 <= n <= 2001)%nat -> INR n <= d -> covers raw (INR n) -> covers e (INR n) ->
  c_code c = "breakthrough" /\ c_brk c = Rmax 1 (INR n - 1).
Proof.
  intros quad cf lr rnd raw e d fl mm w xn tm fo c n RR RE TP H X N D C1 C2. rewrite <- floored_infl in X. assert (L : (2 <= length raw)%nat) by apply (calculate_inv _ _ _ _ _ _ _ _ _ _ _ _ _ _ H).
  rewrite (calculate_search _ _ _ _ _ _ _ _ _ _ _ _ _ _ _ RR H (crossing_found cf lr rnd raw e d n RR RE L TP X D C1 C2)). cbn [c_code c_brk estimate f_code f_brk f_eff]. split; [reflexivity|].
  destruct N as (N1 & N2). apply le_INR in N1, N2. change (INR 1) with 1 in N1. replace (INR 2001) with 2001 in N2 by (rewrite INR_IZR_INZ; reflexivity).
  unfold clean. rewrite (proj2 (rltb_false (INR n - 1) 0)), (proj2 (rltb_false 2000 (INR n - 1))) by lra. destruct (reqb (INR n - 1) 0) eqn:E.
  - apply reqb_true in E. rewrite E, Rmax_left by lra. reflexivity.
  - apply reqb_false in E. symmetry. apply Rmax_right. destruct n as [|[|n]]; [cbn in N1; lra|cbn in E; lra|]. rewrite !S_INR in *. pose proof (pos_INR n). lra.
Qed.
(** An effluent that stays below the influent of every day but reaches the average one counts as
    broken through on the day before the first on which it does. *)
Definition first_reaching (v : R) (o : series) (n : nat) : Prop := v <= interp_x o (INR n) /\ forall m, (m < n)%nat -> interp_x o (INR m) < v.
Lemma average_found cf lr rnd raw e d n : readable raw -> readable e -> (2 <= length raw)%nat -> two_positive e ->
  (forall m, INR m < d + 1 -> interp_x e (INR m) < interp_x (infl raw) (INR m)) -> first_reaching (aveC raw) e n -> INR n <= d -> covers e (INR n) ->
  search cf lr rnd raw e d = Ok {| f_ok := true; f_code := "exceed_aveC, implied"; f_brk := INR n - 1; f_inf := infl raw; f_eff := e |}.
Proof.
  intros (RI & RN) (EI & EN) L (i & j & IJ & PI & PJ) NX (X1 & X2) D C2. unfold search.
  assert (LV : length (values e) = length e) by (unfold values; apply map_length).
  assert (NE : values e <> []) by (intros Q; rewrite Q in LV; cbn in LV; lia).
  replace (reqb (lsum (values e)) 0) with false.
  2: { symmetry. apply reqb_false. intros Q. destruct (lsum_nonneg (values e)) as (_ & W). { intros x I. unfold values in I. apply in_map_iff in I as ((t & c) & <- & I). apply (EN t c I). }
       specialize (W Q (nth i (values e) 0) ltac:(apply nth_In; lia)). rewrite nth_values in W. lra. }
  replace (Nat.eqb (count_nonzero (values e)) 1) with false.
  2: { symmetry. apply Nat.eqb_neq. assert (2 <= count_nonzero (values e))%nat; [|lia]. apply (count_two _ i j); [lia| |]; rewrite nth_values; lra. }
  cbn [orb]. assert (NI : values (infl raw) <> []) by (destruct raw; [cbn in L; lia|discriminate]).
  destruct (lmin_spec _ NI) as (_ & M1). destruct (lmax_spec _ NE) as (_ & M2). destruct (lmax_spec _ NI) as (_ & M3). destruct (lmin_spec _ NE) as (_ & M4).
  assert (BI : lmin (values (infl raw)) <= aveC raw) by (apply (mean_bounds _ (lmax (values (infl raw)))); [exact NI|intros x I; split; [apply M1|apply M3]; exact I]).
  assert (BE : lmin (values e) <= interp_x e (INR n) <= lmax (values e)).
  { destruct C2 as (C2 & C2'). apply interp_range; [intros ->; cbn in IJ; lia|exact EI| |exact C2|exact C2']. intros t c I. assert (In c (values e)) by (apply (in_map snd _ (t, c)), I). split; [apply M4|apply M2]; assumption. }
  rewrite (proj2 (rleb_true _ _)) by lra. unfold days.
  destruct (find (fun t => rleb (interp_x (infl raw) t) (interp_x e t)) (arange (d + 1))) as [t|] eqn:F.
  { exfalso. apply find_some in F as (I & F). apply rleb_true in F. unfold arange in I. apply in_map_iff in I as (m & <- & I). apply in_seq in I.
    specialize (NX m ltac:(apply arange_len_spec; lia)). lra. }
  rewrite (find_arange _ n); [reflexivity|lra|apply rleb_true; exact X1|]. intros m M. apply rleb_false, X2, M.
Qed.
Theorem C97_average_partial : forall quad cf lr rnd raw e d fl mm w xn tm fo c n, readable raw -> readable e -> two_positive e ->
  calculate quad cf lr rnd raw e d fl mm w xn tm fo = Ok c -> (forall m, INR m < d + 1 -> interp_x e (INR m) < interp_x (floored raw) (INR m)) ->
  first_reaching (average (values (floored raw))) e n -> (1 <= n <= 2001)%nat -> INR n <= d -> covers e (INR n) ->
  c_code c = "exceed_aveC, implied" /\ c_brk c = Rmax 1 (INR n - 1).
Proof.
  intros quad cf lr rnd raw e d fl mm w xn tm fo c n RR RE TP H NX X N D C2. assert (AV : aveC raw = average (values (floored raw))) by (unfold aveC; rewrite floored_infl; reflexivity).
  rewrite <- AV in X. assert (NX' : forall m, INR m < d + 1 -> interp_x e (INR m) < interp_x (infl raw) (INR m)) by (rewrite floored_infl; exact NX).
  assert (L : (2 <= length raw)%nat) by apply (calculate_inv _ _ _ _ _ _ _ _ _ _ _ _ _ _ H).
  rewrite (calculate_search _ _ _ _ _ _ _ _ _ _ _ _ _ _ _ RR H (average_found cf lr rnd raw e d n RR RE L TP NX' X D C2)). cbn [c_code c_brk estimate f_code f_brk f_eff]. split; [reflexivity|].
  destruct N as (N1 & N2). apply le_INR in N1, N2. change (INR 1) with 1 in N1. replace (INR 2001) with 2001 in N2 by (rewrite INR_IZR_INZ; reflexivity).
  unfold clean. rewrite (proj2 (rltb_false (INR n - 1) 0)), (proj2 (rltb_false 2000 (INR n - 1))) by lra. destruct (reqb (INR n - 1) 0) eqn:E.
  - apply reqb_true in E. rewrite E, Rmax_left by lra. reflexivity.
  - apply reqb_false in E. symmetry. apply Rmax_right. destruct n as [|[|n]]; [cbn in N1; lra|cbn in E; lra|]. rewrite !S_INR in *. pose proof (pos_INR n). lra.
Qed.
(** The full statement is false.  An effluent at the level of the influent from the start
    counts as breakthrough at the last time of the record, ... *)
Theorem C97_immediate_refuted : forall quad cf lr rnd raw e d fl mm w xn tm fo c, readable raw -> readable e -> two_positive e ->
  calculate quad cf lr rnd raw e d fl mm w xn tm fo = Ok c -> interp_x (floored raw) 0 <= interp_x e 0 -> 0 <= d -> covers raw 0 -> covers e 0 ->
  c_code c = "breakthrough" /\ forall t, 0 < t -> In t (map fst e) -> t <= c_brk c.
Proof.
  intros quad cf lr rnd raw e d fl mm w xn tm fo c RR RE TP H X D C1 C2. assert (L : (2 <= length raw)%nat) by apply (calculate_inv _ _ _ _ _ _ _ _ _ _ _ _ _ _ H).
  assert (X0 : first_crossing (infl raw) e 0) by (split; [rewrite floored_infl; exact X|intros m M; lia]).
  rewrite (calculate_search _ _ _ _ _ _ _ _ _ _ _ _ _ _ _ RR H (crossing_found cf lr rnd raw e d 0 RR RE L TP X0 D C1 C2)). cbn [c_code c_brk estimate f_code f_brk f_eff]. split; [reflexivity|].
  intros t T I. unfold clean. rewrite (proj2 (rltb_true (INR 0 - 1) 0)) by (cbn; lra). unfold last_good. destruct RE as (EI & _).
  assert (IF : In t (filter (rltb 0) (map fst e))) by (apply filter_In; split; [exact I|apply rltb_true, T]).
  assert (LAST : forall s, tab_inc s -> forall t, In t (filter (rltb 0) (map fst s)) -> t <= last (filter (rltb 0) (map fst s)) 0).
  { clear. induction s as [|(x, y) s IH]; intros H t I; [destruct I|]. assert (HS : tab_inc s) by (destruct s as [|(x1, y1) s]; [exact Logic.I|apply H]). cbn [map fst filter] in *. destruct (rltb 0 x); [|apply (IH HS t I)].
    assert (LT : forall z, In z (filter (rltb 0) (map fst s)) -> x < z). { intros z Z. apply filter_In in Z as (Z & _). apply in_map_iff in Z as ((z1 & z2) & <- & Z). apply (tab_inc_lt x y s z1 z2 H Z). }
    destruct (filter (rltb 0) (map fst s)) as [|z l] eqn:E; [destruct I as [<- |[]]; cbn; lra|]. change (last (x :: z :: l) 0) with (last (z :: l) 0). destruct I as [<- |I]; [|apply (IH HS t I)].
    specialize (IH HS z (or_introl eq_refl)). specialize (LT z (or_introl eq_refl)). lra. }
  apply LAST; assumption.
Qed.
(** ... and with a single positive reading, however high, the breakthrough time is the end of
    the data. *)
Theorem C97_single_reading_refuted : forall quad cf lr rnd raw e d fl mm w xn tm fo c, readable raw ->
  calculate quad cf lr rnd raw e d fl mm w xn tm fo = Ok c -> length (filter (fun x => negb (reqb x 0)) (map snd e)) = 1%nat -> 0 < d <= 2000 ->
  c_code c = "minimum" /\ c_brk c = d.
Proof.
  intros quad cf lr rnd raw e d fl mm w xn tm fo c RR H N D. assert (S : search cf lr rnd raw e d = Ok {| f_ok := true; f_code := "minimum"; f_brk := d; f_inf := infl raw; f_eff := e |}).
  { unfold search. replace (count_nonzero (values e)) with 1%nat by (symmetry; exact N). rewrite orb_true_r. reflexivity. }
  rewrite (calculate_search _ _ _ _ _ _ _ _ _ _ _ _ _ _ _ RR H S). cbn [c_code c_brk estimate f_code f_brk f_eff]. split; [reflexivity|].
  unfold clean. rewrite (proj2 (rltb_false d 0)), (proj2 (rltb_false 2000 d)), (proj2 (reqb_false d 0)) by lra. reflexivity.
Qed.

(** ** C98: the unit of time *)
(** The same record with times in a unit [s] times smaller: times and duration are [s] times
    larger, the flow per unit is [s] times smaller. *)
Definition in_unit (s : R) (x : series) : series := map (fun p => (s * fst p, snd p)) x.
Lemma no_effluent cf lr rnd raw e d : (forall t c, In (t, c) e -> c = 0) -> search cf lr rnd raw e d = Ok {| f_ok := true; f_code := "minimum"; f_brk := d; f_inf := infl raw; f_eff := e |}.
Proof.
  intros Z. unfold search. replace (reqb (lsum (values e)) 0) with true; [reflexivity|]. symmetry. apply reqb_true. unfold values. induction e as [|(t, c) e IH]; [reflexivity|]. cbn. rewrite (Z t c) by (left; reflexivity). rewrite IH; [ring|]. intros u v I. apply (Z u v). right. exact I.
Qed.
Lemma in_unit_readable s x : 0 < s -> readable x -> readable (in_unit s x).
Proof.
  intros S (A & B). split.
  - clear B. induction x as [|(x0, y0) [|(x1, y1) x] IH]; [exact I|exact I|]. destruct A as (A1 & A2). split; [cbn; nra|apply IH, A2].
  - intros t c I. unfold in_unit in I. apply in_map_iff in I as ((t0 & c0) & E & I). inversion E; subst. apply (B _ _ I).
Qed.
(** Without effluent the loading is the same in both units, up to 2000 of them. *)
Theorem C98_no_breakthrough_partial : forall quad cf lr rnd raw e d fl mm w xn tm fo s tm' fo' c c' A, readable raw -> readable e -> (forall t c, In (t, c) e -> c = 0) -> 0 < s -> 0 < d <= 2000 -> s * d <= 2000 ->
  calculate quad cf lr rnd raw e d fl mm w xn tm fo = Ok c -> calculate quad cf lr rnd (in_unit s raw) (in_unit s e) (s * d) (fl / s) mm w xn tm' fo' = Ok c' ->
  (forall t, 0 <= t <= d -> derivable_pt_lim A t (interp_x (floored raw) t)) ->
  exact quad (interp_x (floored raw)) d -> exact quad (interp_x e) d -> exact quad (interp_x (floored (in_unit s raw))) (s * d) -> exact quad (interp_x (in_unit s e)) (s * d) ->
  c_brk c' = s * c_brk c /\ c_q c' = c_q c.
Proof.
  intros quad cf lr rnd raw e d fl mm w xn tm fo s tm' fo' c c' A RR RE Z S D D2 H H' DA X1 X2 X3 X4.
  assert (Z' : forall t c, In (t, c) (in_unit s e) -> c = 0) by (intros t0 c0 I; unfold in_unit in I; apply in_map_iff in I as ((t1 & c1) & E & I); inversion E; subst; apply (Z _ _ I)).
  rewrite (calculate_search _ _ _ _ _ _ _ _ _ _ _ _ _ _ _ RR H (no_effluent cf lr rnd raw e d Z)), (calculate_search _ _ _ _ _ _ _ _ _ _ _ _ _ _ _ (in_unit_readable s raw S RR) H' (no_effluent cf lr rnd _ _ (s * d) Z')).
  cbn [c_brk c_q estimate f_brk f_eff f_inf f_ok].
  assert (C1 : clean d e = d) by (unfold clean; rewrite (proj2 (rltb_false d 0)), (proj2 (rltb_false 2000 d)), (proj2 (reqb_false d 0)) by lra; reflexivity).
  assert (P : 0 < s * d) by nra. assert (C2 : clean (s * d) (in_unit s e) = s * d) by (unfold clean; rewrite (proj2 (rltb_false (s * d) 0)), (proj2 (rltb_false 2000 (s * d))), (proj2 (reqb_false (s * d) 0)) by lra; reflexivity).
  rewrite C1, C2. split; [reflexivity|]. rewrite !floored_infl.
  assert (SC : forall f t, interp_x (in_unit s f) t = interp_x f (t / s)).
  { intros f t. rewrite <- (interp_stretch s f (t / s) S). unfold stretch, in_unit. f_equal. field. lra. }
  assert (FU : floored (in_unit s raw) = in_unit s (floored raw)) by (unfold floored, in_unit; rewrite !map_map; reflexivity).
  assert (E0 : forall f, (forall t c, In (t, c) f -> c = 0) -> forall t, interp_x f t = 0).
  { clear. induction f as [|(x0, y0) f IH]; intros Z t; [reflexivity|]. assert (Z0 := Z x0 y0 (or_introl eq_refl)). destruct f as [|(x1, y1) f]; [cbn; exact Z0|]. assert (Z1 := Z x1 y1 (or_intror (or_introl eq_refl))).
    assert (LZ : line x0 y0 x1 y1 t = 0) by (unfold line; rewrite Z0, Z1; unfold Rdiv; ring). cbn [interp_x]. rewrite LZ. specialize (IH (fun u v I => Z u v (or_intror I)) t). destruct f as [|p f]; [reflexivity|]. destruct (rleb t x1); [reflexivity|exact IH]. }
  assert (Q1 : quad (interp_x (floored raw)) 0 d = A d - A 0) by (apply X1, DA).
  assert (DC : forall f t, (forall t, interp_x f t = 0) -> derivable_pt_lim (fun _ => 0) t (interp_x f t)) by (intros f t F; rewrite F; apply derivable_pt_lim_const).
  assert (Q2 : quad (interp_x e) 0 d = 0) by (rewrite (X2 (fun _ => 0)); [ring|intros t _; apply DC, E0, Z]).
  assert (Q4 : quad (interp_x (in_unit s e)) 0 (s * d) = 0) by (rewrite (X4 (fun _ => 0)); [ring|intros t _; apply DC, E0, Z']).
  assert (Q3 : quad (interp_x (floored (in_unit s raw))) 0 (s * d) = s * (A d - A 0)).
  { rewrite (X3 (fun t => s * A (t / s))).
    - replace (s * d / s) with d by (field; lra). replace (0 / s) with 0 by (field; lra). ring.
    - intros t T. rewrite FU, SC. assert (TS : 0 <= t / s <= d). { split; [apply Rmult_le_pos; [lra|left; apply Rinv_0_lt_compat, S]|]. apply Rmult_le_reg_l with s; [exact S|]. replace (s * (t / s)) with t by (field; lra). lra. }
      replace (interp_x (floored raw) (t / s)) with (s * (interp_x (floored raw) (t / s) * / s)) by (field; lra).
      apply (derivable_pt_lim_scal (fun t => A (t / s))). apply (derivable_pt_lim_comp (fun t => t / s) A); [|apply DA, TS].
      replace (/ s) with (1 * / s + t * 0) by ring. unfold Rdiv. apply (derivable_pt_lim_mult id (fun _ => / s)); [apply derivable_pt_lim_id|apply derivable_pt_lim_const]. }
  rewrite Q1, Q2, Q3, Q4. replace ((s * (A d - A 0) - 0) * (fl / s) * mm / w) with ((A d - A 0 - 0) * fl * mm / w); [reflexivity|]. unfold Rdiv. transitivity ((s * / s) * ((A d - A 0 - 0) * fl * mm * / w)); [rewrite Rinv_r by lra; ring|ring].
Qed.
(** The full statement is false: times above 2000 are taken for mistakes in whatever unit.  In
    minutes a column with weekly samples and no breakthrough at all is given a breakthrough
    time of zero and the smallest loading. *)
Theorem C98_small_unit_refuted : forall quad cf lr rnd raw e d fl mm w xn tm fo s tm' fo' c c', readable raw -> readable e -> (forall t c, In (t, c) e -> c = 0 /\ (t = 0 \/ 2000 <= s * t)) -> 0 < s -> 0 < d <= 2000 -> 2000 < s * d ->
  calculate quad cf lr rnd raw e d fl mm w xn tm fo = Ok c -> calculate quad cf lr rnd (in_unit s raw) (in_unit s e) (s * d) (fl / s) mm w xn tm' fo' = Ok c' ->
  exact quad (interp_x (floored (in_unit s raw))) 0 -> exact quad (interp_x (in_unit s e)) 0 ->
  c_brk c = d /\ c_brk c' = 0 /\ c_q c' = 1 / 10 ^ 6.
Proof.
  intros quad cf lr rnd raw e d fl mm w xn tm fo s tm' fo' c c' RR RE ZT S D D2 H H' X3 X4.
  assert (Z : forall t c, In (t, c) e -> c = 0) by (intros t0 c0 I; apply (ZT t0 c0 I)).
  assert (Z' : forall t c, In (t, c) (in_unit s e) -> c = 0) by (intros t0 c0 I; unfold in_unit in I; apply in_map_iff in I as ((t1 & c1) & E & I); inversion E; subst; apply (Z _ _ I)).
  rewrite (calculate_search _ _ _ _ _ _ _ _ _ _ _ _ _ _ _ RR H (no_effluent cf lr rnd raw e d Z)), (calculate_search _ _ _ _ _ _ _ _ _ _ _ _ _ _ _ (in_unit_readable s raw S RR) H' (no_effluent cf lr rnd _ _ (s * d) Z')).
  cbn [c_brk c_q estimate f_brk f_eff f_inf f_ok].
  assert (C2 : clean (s * d) (in_unit s e) = 0).
  { unfold clean. rewrite (proj2 (rltb_false (s * d) 0)), (proj2 (rltb_true 2000 (s * d))) by lra. unfold last_good.
    assert (N : forall x, In x (filter (fun t => rltb t 2000) (map fst (in_unit s e))) -> x = 0).
    { intros x I. apply filter_In in I as (I & L). apply rltb_true in L. apply in_map_iff in I as ((t & v) & <- & I). unfold in_unit in I. apply in_map_iff in I as ((t1 & c1) & E & I). inversion E; subst. cbn [fst] in *. destruct (ZT _ _ I) as (_ & [-> |Q]); [ring|lra]. }
    destruct (filter _ _) as [|x l] eqn:E; [reflexivity|]. apply N. destruct (exists_last (l := x :: l)) as (l' & z & EQ); [discriminate|]. rewrite EQ, last_last. apply in_or_app. right. left. reflexivity. }
  split; [unfold clean; rewrite (proj2 (rltb_false d 0)), (proj2 (rltb_false 2000 d)), (proj2 (reqb_false d 0)) by lra; reflexivity|]. rewrite C2. split; [reflexivity|].
  assert (NIL : forall f, exact quad f 0 -> quad f 0 0 = 0).
  { intros f X. rewrite (X (fun t => f 0 * t)); [ring|]. intros t T. replace t with 0 by lra. assert (DL : derivable_pt_lim (mult_real_fct (f 0) id) 0 (f 0 * 1)) by (apply derivable_pt_lim_scal, derivable_pt_lim_id). rewrite Rmult_1_r in DL. exact DL. }
  rewrite floored_infl, (NIL _ X3), (NIL _ X4). replace ((0 - 0) * (fl / s) * mm / w) with 0 by (unfold Rdiv; ring). rewrite (proj2 (rleb_true 0 (dec 1 6))); [cbn [andb]; unfold dec; field; apply pow_nonzero; lra|].
  unfold dec. apply Rmult_le_pos; [lra|]. left. apply Rinv_0_lt_compat. apply pow_lt. lra.
Qed.

(** ** C99: the estimate of fouling *)
(** It is the reciprocal of the average fouling factor over the days before breakthrough, so
    between the reciprocals of any bounds on the factor, and 1.25 when there is no day. *)
Theorem C99_fouling : forall quad cf lr rnd raw e d fl mm w xn tm fo c m M, 
  calculate quad cf lr rnd raw e d fl mm w xn tm fo = Ok c -> 0 <= tm -> 0 < m -> (forall t, 0 <= t <= c_brk c * tm -> m <= fo t <= M) ->
  (0 < c_brk c -> 1 / M <= stored_foul c <= 1 / m) /\ (c_brk c <= 0 -> stored_foul c = 125 / 100).
Proof.
  intros quad cf lr rnd raw e d fl mm w xn tm fo c m M H T P B.
  assert (F : c_foul c = foul_est tm fo (c_brk c)).
  { revert H. unfold calculate. destruct (_ || _)%bool; [discriminate|]. destruct (reqb _ 0); [intros H; take H c; reflexivity|]. destruct (search _ _ _ _ _ _); [|discriminate]. intros H. cbn [bind] in H. take H c. reflexivity. }
  unfold stored_foul. rewrite F. unfold foul_est. split; intros BP.
  - assert (I0 : In (INR 0) (arange (c_brk c))) by (apply arange_in; exists 0%nat; split; [reflexivity|exact BP]).
    destruct (arange (c_brk c)) as [|x l] eqn:EA; [destruct I0|]. rewrite <- EA.
    assert (MB : m <= mean (map (fun t => fo (t * tm)) (arange (c_brk c))) <= M).
    { apply mean_bounds; [rewrite EA; discriminate|]. intros y I. apply in_map_iff in I as (t & <- & I). apply arange_in in I as (n & -> & L). apply B. pose proof (pos_INR n). split; [nra|]. nra. }
    assert (MP : 0 < M) by lra. unfold Rdiv. rewrite !Rmult_1_l. split; apply Rinv_le_contravar; lra.
  - destruct (arange (c_brk c)) as [|x l] eqn:EA; [unfold dec; cbn; field|]. assert (I0 : In x (arange (c_brk c))) by (rewrite EA; left; reflexivity). apply arange_in in I0 as (n & -> & L). pose proof (pos_INR n). lra.
Qed.

(** ** The hypotheses are met *)
Definition trapezoid (f : R -> R) (a b : R) : R := (f a + f b) / 2 * (b - a).
Lemma trapezoid_exact f u v b : 0 <= b -> (forall t, f t = u + v * t) -> exact trapezoid f b.
Proof.
  intros B L F D. destruct (Req_dec b 0) as [-> |N]; [unfold trapezoid; lra|].
  destruct (MVT_cor2 (fun t => F t - (u * t + v / 2 * (t * t))) (fun t => f t - (u * 1 + v / 2 * (1 * t + t * 1))) 0 b) as (c & E & _).
  - lra.
  - intros c C. apply derivable_pt_lim_minus; [apply D, C|]. apply derivable_pt_lim_plus; [apply derivable_pt_lim_scal, derivable_pt_lim_id|]. apply derivable_pt_lim_scal. apply (derivable_pt_lim_mult id id); apply derivable_pt_lim_id.
  - rewrite L in E. replace (u + v * c - (u * 1 + v / 2 * (1 * c + c * 1))) with 0 in E by field. unfold trapezoid. rewrite !L. lra.
Qed.
Definition no_fit : series -> option (R * R * R) := fun _ => None.
Definition no_line : series -> option (R * R) := fun _ => None.
Definition steady (c d : R) : series := [(0, c); (d, c)].
Lemma steady_readable c d : 0 < d -> 0 <= c -> readable (steady c d).
Proof. intros D C. split; [split; [exact D|exact I]|]. intros t x [E|[E|[]]]; inversion E; lra. Qed.
Lemma steady_at c d t : 0 < d -> interp_x (steady c d) t = c.
Proof. intros D. cbn. unfold line. field. lra. Qed.
Lemma steady_floored c d : 0 < c -> floored (steady c d) = steady c d.
Proof. intros C. unfold floored, steady. cbn [map fst snd]. rewrite (proj2 (reqb_false c 0)) by lra. reflexivity. Qed.
Lemma calculates quad cf lr rnd raw e d fl mm w xn tm fo f : (2 <= length raw)%nat -> (2 <= length e)%nat -> readable raw -> search cf lr rnd raw e d = Ok f -> calculate quad cf lr rnd raw e d fl mm w xn tm fo = Ok (estimate quad d fl mm w xn tm fo f).
Proof.
  intros L1 L2 (_ & RN) S. unfold calculate. replace (length (infl raw)) with (length raw) by (symmetry; unfold infl, nonzero; apply map_length).
  rewrite (proj2 (Nat.ltb_ge (length raw) 2) L1), (proj2 (Nat.ltb_ge (length e) 2) L2). rewrite infl_sum by (try exact RN; intros ->; cbn in L1; lia). rewrite S. reflexivity.
Qed.
Lemma steady_covers c d t : 0 <= t <= d -> covers (steady c d) t.
Proof. intros T. split; [exists 0, c; split; [left; reflexivity|lra]|exists d, c; split; [right; left; reflexivity|lra]]. Qed.
Example crossing_met : exists c, calculate trapezoid no_fit no_line (fun x => x) (steady 10 20) [(0, 2); (20, 22)] 20 1 1 1 1 1 (fun _ => 1) = Ok c /\
  two_positive [(0, 2); (20, 22)] /\ first_crossing (floored (steady 10 20)) [(0, 2); (20, 22)] 8 /\ c_brk c = 7 /\ c_ave c = 10 /\ c_q c = 9 / 2 * 7.
Proof.
  assert (RR := steady_readable 10 20 ltac:(lra) ltac:(lra)).
  assert (RE : readable [(0, 2); (20, 22)]) by (split; [split; [lra|exact I]|intros t x [E|[E|[]]]; inversion E; lra]).
  assert (TP : two_positive [(0, 2); (20, 22)]) by (exists 0%nat, 1%nat; cbn; repeat split; try lia; lra).
  assert (EF : forall t, interp_x [(0, 2); (20, 22)] t = 2 + t) by (intros t; cbn; unfold line; field).
  assert (FC : first_crossing (floored (steady 10 20)) [(0, 2); (20, 22)] 8).
  { rewrite steady_floored by lra. split; [rewrite steady_at, EF by lra; cbn; lra|]. intros m M. rewrite steady_at, EF by lra. apply lt_INR in M. cbn in M. lra. }
  assert (S := crossing_found no_fit no_line (fun x => x) (steady 10 20) [(0, 2); (20, 22)] 20 8 RR RE ltac:(cbn; lia) TP ltac:(rewrite floored_infl; exact FC) ltac:(cbn; lra) ltac:(apply steady_covers; cbn; lra)
    ltac:(split; [exists 0, 2; split; [left; reflexivity|cbn; lra]|exists 20, 22; split; [right; left; reflexivity|cbn; lra]])).
  eexists. split; [apply calculates; [cbn; lia|cbn; lia|exact RR|exact S]|]. split; [exact TP|]. split; [exact FC|].
  assert (B : clean (INR 8 - 1) [(0, 2); (20, 22)] = 7).
  { replace (INR 8 - 1) with 7 by (cbn; lra). unfold clean. rewrite (proj2 (rltb_false 7 0)), (proj2 (rltb_false 2000 7)), (proj2 (reqb_false 7 0)) by lra. reflexivity. }
  cbn [c_brk c_ave c_q estimate f_brk f_eff f_inf f_ok]. rewrite B, floored_infl, steady_floored by lra. split; [reflexivity|]. split.
  - apply Rle_antisym; apply (mean_bounds 10 10).
    1, 3: intros Q; apply map_eq_nil in Q; assert (I0 : In (INR 0) (filter (fun t => rleb t 7) (days 20))) by (apply filter_In; split; [apply arange_in; exists 0%nat; split; [reflexivity|cbn; lra]|apply rleb_true; cbn; lra]); rewrite Q in I0; destruct I0.
    1, 2: intros x I; apply in_map_iff in I as (t & <- & _); rewrite steady_at by lra; lra.
  - unfold trapezoid. rewrite !steady_at, !EF by lra. rewrite (proj2 (rleb_false _ _)); [cbn [andb]; field|]. unfold dec. cbn [pow]. lra.
Qed.
(** A rising influent, and an effluent that follows it 4 below: the average influent is 15. *)
Example average_met : exists c, calculate trapezoid no_fit no_line (fun x => x) [(0, 5); (20, 25)] [(0, 1); (20, 21)] 20 1 1 1 1 1 (fun _ => 1) = Ok c /\
  c_code c = "exceed_aveC, implied" /\ c_brk c = 13.
Proof.
  set (raw := [(0, 5); (20, 25)]). set (e := [(0, 1); (20, 21)]).
  assert (RR : readable raw) by (split; [split; [lra|exact I]|intros t c [E|[E|[]]]; inversion E; lra]).
  assert (RE : readable e) by (split; [split; [lra|exact I]|intros t c [E|[E|[]]]; inversion E; lra]).
  assert (TP : two_positive e) by (exists 0%nat, 1%nat; cbn; split; [lia|lra]).
  assert (FL : floored raw = raw) by (unfold floored, raw; cbn [map fst snd]; rewrite !(proj2 (reqb_false _ 0)) by lra; reflexivity).
  assert (NX : forall m, INR m < 20 + 1 -> interp_x e (INR m) < interp_x (floored raw) (INR m)).
  { intros m _. rewrite FL. unfold e, raw. cbn [interp_x]. unfold line. lra. }
  assert (AV : average (values (floored raw)) = 15) by (rewrite FL; unfold average, raw, values; cbn; lra).
  assert (I14 : INR 14 = 14) by (rewrite INR_IZR_INZ; reflexivity).
  assert (FR : first_reaching (average (values (floored raw))) e 14).
  { rewrite AV. unfold first_reaching, e. cbn [interp_x]. unfold line. rewrite I14. split; [lra|]. intros m M. assert (INR m <= 13) by (apply le_INR in M; rewrite S_INR, I14 in M; lra). lra. }
  assert (CO : covers e (INR 14)) by (rewrite I14; split; [exists 0, 1; split; [left; reflexivity|lra]|exists 20, 21; split; [right; left; reflexivity|lra]]).
  match goal with |- exists c, ?A = Ok c /\ _ => assert (H : exists c0, A = Ok c0) end.
  { eexists. apply calculates; [cbn; lia|cbn; lia|exact RR|]. apply (average_found no_fit no_line (fun x => x) raw e 20 14 RR RE ltac:(cbn; lia) TP); [|unfold aveC; rewrite floored_infl; exact FR|lra|exact CO].
    rewrite floored_infl. exact NX. }
  destruct H as (c0 & H). exists c0. split; [exact H|].
  destruct (C97_average_partial _ _ _ _ _ _ _ _ _ _ _ _ _ _ 14%nat RR RE TP H NX FR ltac:(lia) ltac:(lra) CO) as (A & B).
  split; [exact A|]. rewrite B, I14. rewrite Rmax_right; lra.
Qed.
Example immediate_met : exists c, calculate trapezoid no_fit no_line (fun x => x) (steady 10 20) (steady 30 20) 20 1 1 1 1 1 (fun _ => 1) = Ok c /\ 20 <= c_brk c.
Proof.
  assert (RR := steady_readable 10 20 ltac:(lra) ltac:(lra)). assert (RE := steady_readable 30 20 ltac:(lra) ltac:(lra)).
  assert (TP : two_positive (steady 30 20)) by (exists 0%nat, 1%nat; cbn; repeat split; try lia; lra).
  assert (X : interp_x (floored (steady 10 20)) 0 <= interp_x (steady 30 20) 0) by (rewrite steady_floored, !steady_at by lra; lra).
  assert (S := crossing_found no_fit no_line (fun x => x) (steady 10 20) (steady 30 20) 20 0 RR RE ltac:(cbn; lia) TP ltac:(rewrite floored_infl; split; [exact X|intros m M; lia]) ltac:(cbn; lra) ltac:(apply steady_covers; cbn; lra) ltac:(apply steady_covers; cbn; lra)).
  eexists. split; [apply calculates; [cbn; lia|cbn; lia|exact RR|exact S]|].
  eapply (C97_immediate_refuted trapezoid no_fit no_line (fun x => x) (steady 10 20) (steady 30 20) 20 1 1 1 1 1 (fun _ => 1)); [exact RR|exact RE|exact TP|apply calculates; [cbn; lia|cbn; lia|exact RR|exact S]|exact X|lra|apply steady_covers; lra|apply steady_covers; lra|lra|right; left; reflexivity].
Qed.
(** A week without breakthrough: the same loading in hours, but not in minutes. *)
Lemma week_unit s : 0 < s -> in_unit s (steady 100 7) = steady 100 (s * 7) /\ in_unit s (steady 0 7) = steady 0 (s * 7).
Proof. intros S. unfold in_unit, steady. cbn [map fst snd]. rewrite Rmult_0_r. split; reflexivity. Qed.
Example week_met : exists c h m, let run s := calculate trapezoid no_fit no_line (fun x => x) (in_unit s (steady 100 7)) (in_unit s (steady 0 7)) (s * 7) (1440 / s) 1 1 1 1 (fun _ => 1) in
  calculate trapezoid no_fit no_line (fun x => x) (steady 100 7) (steady 0 7) 7 1440 1 1 1 1 (fun _ => 1) = Ok c /\ run 24 = Ok h /\ run 1440 = Ok m /\
  c_q h = c_q c /\ c_brk m = 0 /\ c_q m = 1 / 10 ^ 6.
Proof.
  assert (ZE : forall d t c, In (t, c) (steady 0 d) -> c = 0) by (intros d t c [E|[E|[]]]; inversion E; reflexivity).
  assert (RR := steady_readable 100 7 ltac:(lra) ltac:(lra)). assert (RE := steady_readable 0 7 ltac:(lra) ltac:(lra)).
  assert (RUN : forall s fl, 0 < s -> exists c, calculate trapezoid no_fit no_line (fun x => x) (in_unit s (steady 100 7)) (in_unit s (steady 0 7)) (s * 7) fl 1 1 1 1 (fun _ => 1) = Ok c).
  { intros s fl S. destruct (week_unit s S) as (-> & ->). eexists. apply calculates; [cbn; lia|cbn; lia|apply steady_readable; lra|apply no_effluent, ZE]. }
  destruct (RUN 24 (1440 / 24) ltac:(lra)) as (h & Hh). destruct (RUN 1440 (1440 / 1440) ltac:(lra)) as (m & Hm).
  eexists. exists h, m. cbv zeta. split; [apply calculates; [cbn; lia|cbn; lia|exact RR|apply no_effluent, ZE]|]. split; [exact Hh|]. split; [exact Hm|].
  assert (EX : forall s b c, 0 < s -> 0 <= b -> exact trapezoid (interp_x (steady c (s * 7))) b) by (intros s b c S B; apply (trapezoid_exact _ c 0 b B); intros t; rewrite steady_at by lra; ring).
  destruct (week_unit 24 ltac:(lra)) as (U1 & U2). destruct (week_unit 1440 ltac:(lra)) as (U3 & U4). split.
  - eapply (C98_no_breakthrough_partial trapezoid no_fit no_line (fun x => x) (steady 100 7) (steady 0 7) 7 1440 1 1 1 1 (fun _ => 1) 24 1 (fun _ => 1) _ h (fun t => 100 * t)); [exact RR|exact RE|apply ZE|lra|lra|lra|apply calculates; [cbn; lia|cbn; lia|exact RR|apply no_effluent, ZE]|exact Hh| | | | |].
    + intros t T. rewrite steady_floored, steady_at by lra. assert (DL : derivable_pt_lim (mult_real_fct 100 id) t (100 * 1)) by (apply derivable_pt_lim_scal, derivable_pt_lim_id). rewrite Rmult_1_r in DL. exact DL.
    + rewrite steady_floored by lra. replace 7 with (1 * 7) at 1 by ring. apply EX; lra.
    + replace 7 with (1 * 7) at 1 by ring. apply EX; lra.
    + rewrite U1, steady_floored by lra. apply EX; lra.
    + rewrite U2. apply EX; lra.
  - eapply (C98_small_unit_refuted trapezoid no_fit no_line (fun x => x) (steady 100 7) (steady 0 7) 7 1440 1 1 1 1 (fun _ => 1) 1440 1 (fun _ => 1) _ m); [exact RR|exact RE| |lra|lra|lra|apply calculates; [cbn; lia|cbn; lia|exact RR|apply no_effluent, ZE]|exact Hm| |].
    + intros t c [E|[E|[]]]; inversion E; split; try reflexivity; [left; reflexivity|right; lra].
    + rewrite U3, steady_floored by lra. apply EX; lra.
    + rewrite U4. apply EX; lra.
Qed.
Print Assumptions C94_K.
Print Assumptions C95_other_exponents_partial.
Print Assumptions C95_forced_refuted.
Print Assumptions C96_loading.
Print Assumptions C97_crossing_partial.
Print Assumptions C97_average_partial.
Print Assumptions C97_immediate_refuted.
Print Assumptions C97_single_reading_refuted.
Print Assumptions C98_no_breakthrough_partial.
Print Assumptions C98_small_unit_refuted.
Print Assumptions C99_fouling.
