(** Property C184: breakthrough later than the record. *)
From Coq Require Import Reals List Arith Bool String Lra Lia.
From Verif Require Import Lib_Py Lib_Pow M_GacFun P_GacFun M_GacMin P_GacMin M_GacSmart P_GacSmart M_GacCapacity P_GacCapacity P_Colloc Props_GacCapacity.
Import ListNotations.
Open Scope R_scope.
Open Scope string_scope.
Local Notation length := List.length.

(** ** Specification *)
(** The readings with effluent, and the last one without if there is any. *)
Definition rising (e l : series) : Prop :=
  ((forall p, In p e -> 0 < snd p) /\ l = e) \/
  exists z x p, e = (z ++ x :: p)%list /\ (forall a, In a z -> snd a = 0) /\ snd x = 0 /\ (forall a, In a p -> 0 < snd a) /\ l = x :: p.
(** The straight line through two readings, at [T]. *)
Definition through (t2 y2 t1 y1 T : R) : R := y2 + (y1 - y2) / (t1 - t2) * (T - t2).

Lemma count_zero l : (forall p : R * R, In p l -> snd p = 0) -> count_nonzero (map snd l) = 0%nat.
Proof. induction l as [|p l IH]; intros H; [reflexivity|]. unfold count_nonzero in *. cbn [map filter]. rewrite (proj2 (reqb_true (snd p) 0)) by (apply H; left; reflexivity). cbn [negb]. apply IH. intros q I. apply H. right. exact I. Qed.
Lemma count_pos l : (forall p : R * R, In p l -> 0 < snd p) -> count_nonzero (map snd l) = length l.
Proof. induction l as [|p l IH]; intros H; [reflexivity|]. unfold count_nonzero in *. cbn [map filter]. rewrite (proj2 (reqb_false (snd p) 0)) by (specialize (H p (or_introl eq_refl)); lra). cbn [negb List.length]. f_equal. apply IH. intros q I. apply H. right. exact I. Qed.
Lemma count_app a b : count_nonzero (a ++ b) = (count_nonzero a + count_nonzero b)%nat.
Proof. unfold count_nonzero. induction a as [|x a IH]; [reflexivity|]. cbn [app filter]. destruct (negb _); cbn [List.length]; rewrite IH; reflexivity. Qed.
Definition regressed (e : series) : series :=
  let y := values e in let n := count_nonzero y in
  let n := if (Nat.ltb n (length y) && negb (reqb (nth (length y - (n + 1)) y 0) 0))%bool then (n + 1)%nat else n in
  skipn (length e - (n + 1)) e.
Lemma regressed_rising e l : rising e l -> regressed e = l.
Proof.
  unfold regressed, values. rewrite map_length. intros [(P & ->)|(z & x & p & -> & Z & X & P & ->)].
  - rewrite count_pos by exact P. rewrite Nat.ltb_irrefl. cbn [andb]. replace (length e - (length e + 1))%nat with 0%nat by lia. reflexivity.
  - rewrite map_app, count_app, (count_zero z) by exact Z. cbn [map].
    assert (C : count_nonzero (snd x :: map snd p) = length p).
    { change (snd x :: map snd p) with ([snd x] ++ map snd p)%list. rewrite count_app, (count_pos p) by exact P. unfold count_nonzero. cbn [filter]. rewrite (proj2 (reqb_true _ _)) by exact X. reflexivity. }
    rewrite C, app_length. cbn [List.length]. replace (0 + length p)%nat with (length p) by lia.
    replace (length z + S (length p) - (length p + 1))%nat with (length z) by lia.
    rewrite app_nth2 by (rewrite map_length; lia). rewrite map_length, Nat.sub_diag. cbn [nth]. rewrite (proj2 (reqb_true _ _)) by exact X. rewrite andb_false_r.
    replace (length z + S (length p) - (length p + 1))%nat with (length z) by lia.
    rewrite skipn_app, skipn_all, Nat.sub_diag. reflexivity.
Qed.

(** What each verdict says of the time found. *)
Definition told (cf : series -> option (R * R * R)) (lr : series -> option (R * R)) (rnd : R -> R) (raw e : series) (d : R) (f : found) : Prop :=
  (f_code f = "logistic" -> exists c0 a b, cf e = Some (c0, a, b) /\ b <> 0 /\ let T := (a + ln 99) / b in
     (d <= rnd T \/ 25 / 100 * d < rnd T) /\ f_brk f = (if rltb 2000 (rnd T) then d else rnd T)) /\
  (f_code f = "linear regression" -> exists s i, lr (regressed e) = Some (s, i) /\ s <> 0 /\ let T := (aveC raw - i) / s in
     f_brk f = (if rleb (rnd T) 0 then last_good (rltb 0) e else rnd T)) /\
  (f_code f = "linear, single point" -> forall l t2 y2 t1 y1, e = (l ++ [(t2, y2); (t1, y1)])%list ->
     25 / 100 <= y1 / aveC raw /\ 0 < y1 /\ y1 / (t1 - t2) <> 0 /\ let T := (aveC raw - - y1 * t2 / (t1 - t2)) / (y1 / (t1 - t2)) in
     f_brk f = (if rleb (rnd T) 0 then last_good (rltb 0) e else rnd T)).

Lemma dec25 : dec 25 2 = 25 / 100.
Proof. unfold dec. cbn [pow]. field. Qed.
Lemma linear_told cf lr rnd raw e d brk f : linear lr rnd raw brk (infl raw) e = Ok f -> told cf lr rnd raw e d f.
Proof.
  unfold linear, told. fold (regressed e). destruct (_ && _)%bool eqn:C.
  - apply andb_prop in C as (C1 & C2). apply rltb_true in C1. apply rleb_true in C2. rewrite dec25 in C2.
    destruct (rev (map fst e)) as [|t1' [|t2' r]] eqn:RV.
    1, 2: intros H; assert (f = {| f_ok := true; f_code := "linear, single point"; f_brk := brk; f_inf := infl raw; f_eff := e |}) as -> by congruence; cbn [f_code]; split; [discriminate|]; split; [discriminate|]; intros _ l t2 y2 t1 y1 ->; exfalso; rewrite map_app, rev_app_distr in RV; discriminate.
    destruct (reqb _ 0) eqn:Z; [discriminate|]. intros H.
    match type of H with Ok ?A = _ => assert (E : f = A) by congruence end. subst f. cbn [f_code f_brk]. split; [discriminate|]. split; [discriminate|].
    intros _ l t2 y2 t1 y1 ->. rewrite map_app, rev_app_distr in RV. cbn in RV. assert (t1' = t1) as -> by congruence. assert (t2' = t2) as -> by congruence.
    apply reqb_false in Z.
    assert (L : last (values (l ++ [(t2, y2); (t1, y1)])%list) 0 = y1) by (unfold values; rewrite map_app; cbn [map snd]; change [y2; y1] with ([y2] ++ [y1])%list; rewrite app_assoc; apply last_last).
    rewrite L in *. split; [exact C2|]. split; [exact C1|]. split; [exact Z|]. reflexivity.
  - destruct (lr (regressed e)) as [(s & i)|] eqn:LR.
    + 
      destruct (reqb s 0) eqn:Z; [discriminate|]. intros H. match type of H with Ok ?A = _ => assert (E : f = A) by congruence end. subst f. cbn [f_code f_brk].
      split; [discriminate|]. split; [|discriminate]. intros _. exists s, i. split; [reflexivity|]. split; [apply reqb_false; exact Z|reflexivity].
    + 
      intros H. match type of H with Ok ?A = _ => assert (E : f = A) by congruence end. subst f. cbn [f_code]. repeat split; discriminate.
Qed.
Lemma search_told cf lr rnd raw e d f : search cf lr rnd raw e d = Ok f -> told cf lr rnd raw e d f.
Proof.
  assert (HERE : forall code b, In code ["minimum"; "breakthrough"; "exceed_aveC, implied"] -> Ok {| f_ok := true; f_code := code; f_brk := b; f_inf := infl raw; f_eff := e |} = Ok f -> told cf lr rnd raw e d f).
  { intros code b I H. match type of H with Ok ?A = _ => assert (E : f = A) by congruence end. subst f. unfold told. cbn [f_code].
    repeat destruct I as [<-|I]; try (repeat split; discriminate). destruct I. }
  assert (FIT : fitted cf lr rnd raw e d = Ok f -> told cf lr rnd raw e d f).
  { unfold fitted. destruct (cf e) as [((c0 & a) & b)|] eqn:CF; [|apply linear_told]. destruct (reqb b 0) eqn:Z; [discriminate|]. apply reqb_false in Z. cbv zeta.
    destruct (rleb d _) eqn:D.
    - intros H. match type of H with Ok ?A = _ => assert (E : f = A) by congruence end. subst f. unfold told. cbn [f_code f_brk]. split; [|split; discriminate].
      intros _. exists c0, a, b. split; [exact CF|]. split; [exact Z|]. split; [left; apply rleb_true; exact D|reflexivity].
    - destruct (rltb (dec 25 2 * d) _) eqn:Q; [|apply linear_told].
      intros H. match type of H with Ok ?A = _ => assert (E : f = A) by congruence end. subst f. unfold told. cbn [f_code f_brk]. split; [|split; discriminate].
      intros _. exists c0, a, b. split; [exact CF|]. split; [exact Z|]. split; [right; rewrite <- dec25; apply rltb_true; exact Q|reflexivity]. }
  unfold search. destruct (_ || _)%bool; [apply HERE; cbn; auto|]. destruct (rleb (lmin _) _); [|exact FIT].
  destruct (find _ _); [apply HERE; cbn; auto|]. destruct (find _ _); [apply HERE; cbn; auto|exact FIT].
Qed.
Lemma clean_range b e : 0 < b <= 2000 -> clean b e = b.
Proof. intros H. unfold clean. rewrite (proj2 (rltb_false b 0)) by lra. rewrite (proj2 (rltb_false 2000 b)) by lra. rewrite (proj2 (reqb_false b 0)) by lra. reflexivity. Qed.
Lemma calculate_told quad cf lr rnd raw e d fl mm w xn tm fo c : readable raw -> calculate quad cf lr rnd raw e d fl mm w xn tm fo = Ok c ->
  exists f, told cf lr rnd raw e d f /\ c_code c = f_code f /\ c_brk c = clean (f_brk f) (f_eff f).
Proof.
  intros (_ & RN) H. destruct (calculate_inv _ _ _ _ _ _ _ _ _ _ _ _ _ _ H) as (L1 & _ & [(Z & _)|(_ & f & S & E)]).
  { exfalso. assert (Q := infl_sum raw ltac:(intros ->; cbn in L1; lia) RN). apply reqb_false in Q. contradiction. }
  exists f. split; [apply search_told; exact S|]. subst c. split; reflexivity.
Qed.
Lemma average_aveC raw : aveC raw = average (values (floored raw)).
Proof. unfold aveC. rewrite floored_infl. reflexivity. Qed.

(** ** C184 *)
(** A fitted logistic curve: the day on which it reaches 99 % of its plateau, and the end of the record when that is beyond day 2000. *)
Theorem C184_logistic : forall quad cf lr rnd raw e d fl mm w xn tm fo c, readable raw ->
  calculate quad cf lr rnd raw e d fl mm w xn tm fo = Ok c -> c_code c = "logistic" ->
  exists c0 a b T, cf e = Some (c0, a, b) /\ b <> 0 /\ c0 / (1 + exp (a - b * T)) = 99 / 100 * c0 /\
    (d <= rnd T \/ d / 4 < rnd T) /\
    (0 < rnd T <= 2000 -> c_brk c = rnd T) /\ (2000 < rnd T -> 0 < d <= 2000 -> c_brk c = d).
Proof.
  intros quad cf lr rnd raw e d fl mm w xn tm fo c RR H K. destruct (calculate_told _ _ _ _ _ _ _ _ _ _ _ _ _ _ RR H) as (f & (TL & _) & CO & BR).
  rewrite CO in K. destruct (TL K) as (c0 & a & b & CF & NZ & R & B). exists c0, a, b, ((a + ln 99) / b). split; [exact CF|]. split; [exact NZ|]. split.
  { replace (a - b * ((a + ln 99) / b)) with (- ln 99) by (field; exact NZ). rewrite exp_Ropp, exp_ln by lra. field. }
  split; [destruct R; [left; assumption|right; lra]|]. rewrite BR, B. split.
  - intros Q. rewrite (proj2 (rltb_false _ _)) by lra. apply clean_range. exact Q.
  - intros Q D. rewrite (proj2 (rltb_true _ _)) by lra. apply clean_range. exact D.
Qed.
(** A regression: the day on which the line through the readings with effluent, and the one before
    them, reaches the average influent. *)
Theorem C184_regression : forall quad cf lr rnd raw e d fl mm w xn tm fo c l, readable raw ->
  calculate quad cf lr rnd raw e d fl mm w xn tm fo = Ok c -> c_code c = "linear regression" -> rising e l ->
  exists s i T, lr l = Some (s, i) /\ s <> 0 /\ s * T + i = average (values (floored raw)) /\
    (0 < rnd T <= 2000 -> c_brk c = rnd T).
Proof.
  intros quad cf lr rnd raw e d fl mm w xn tm fo c l RR H K RI. destruct (calculate_told _ _ _ _ _ _ _ _ _ _ _ _ _ _ RR H) as (f & (_ & TL & _) & CO & BR).
  rewrite CO in K. destruct (TL K) as (s & i & LR & NZ & B). rewrite (regressed_rising _ _ RI) in LR. exists s, i, ((aveC raw - i) / s). split; [exact LR|]. split; [exact NZ|].
  split; [rewrite <- average_aveC; field; exact NZ|]. intros Q. rewrite BR, B, (proj2 (rleb_false _ _)) by lra. apply clean_range. exact Q.
Qed.
(** The verdict from one reading, which is at least a quarter of the average influent: the line through
    it from zero at the time of the reading before it.  That is the line through the last two readings
    when the last but one is zero. *)
Theorem C184_single_point_partial : forall quad cf lr rnd raw l t2 y2 t1 y1 d fl mm w xn tm fo c, readable raw -> readable (l ++ [(t2, y2); (t1, y1)])%list ->
  calculate quad cf lr rnd raw (l ++ [(t2, y2); (t1, y1)])%list d fl mm w xn tm fo = Ok c -> c_code c = "linear, single point" ->
  let A := average (values (floored raw)) in
  A / 4 <= y1 /\ exists T, through t2 0 t1 y1 T = A /\ (y2 = 0 -> through t2 y2 t1 y1 T = A) /\ (0 < rnd T <= 2000 -> c_brk c = rnd T).
Proof.
  intros quad cf lr rnd raw l t2 y2 t1 y1 d fl mm w xn tm fo c RR RE H K A. destruct (calculate_inv _ _ _ _ _ _ _ _ _ _ _ _ _ _ H) as (L1 & _).
  destruct (calculate_told _ _ _ _ _ _ _ _ _ _ _ _ _ _ RR H) as (f & (_ & _ & TL) & CO & BR).
  rewrite CO in K. destruct (TL K _ _ _ _ _ eq_refl) as (Q & P & NZ & B). rewrite average_aveC in *. fold A in Q, B.
  assert (PA : 0 < A).
  { unfold A. rewrite <- average_aveC. unfold aveC, mean. apply Rdiv_lt_0_compat; [|apply lt_0_INR; unfold values, infl, nonzero; rewrite !map_length; lia].
    destruct RR as (_ & RN). assert (Z := infl_sum raw ltac:(intros ->; cbn in L1; lia) RN). apply reqb_false in Z.
    assert (G : forall r, (forall t c, In (t, c) r -> 0 <= c) -> 0 <= lsum (values (infl r))).
    { clear. intros r. induction r as [|(t & v) r IH]; intros N; [cbn; lra|]. unfold infl, nonzero, values, lsum in *. cbn [map fold_right fst snd]. assert (0 <= v) by (apply (N t v); left; reflexivity).
      assert (0 <= if reqb v 0 then dec 1 3 else v) by (destruct (reqb v 0); [unfold dec; cbn; lra|assumption]).
      assert (I := IH ltac:(intros t' c' I'; apply (N t' c'); right; exact I')). lra. }
    specialize (G raw RN). lra. }
  assert (NT : t1 - t2 <> 0) by (intros Z; apply NZ; rewrite Z; unfold Rdiv; rewrite Rinv_0; ring).
  split; [apply (Rmult_le_compat_r A) in Q; [|lra]; replace (y1 / A * A) with y1 in Q by (field; lra); lra|].
  eexists. split; [|split; [|intros G; rewrite BR, B, (proj2 (rleb_false _ _)) by apply G; apply clean_range; exact G]].
  - unfold through. field. split; [exact NT|lra].
  - intros ->. unfold through. field. split; [exact NT|lra].
Qed.
(** The full statement is false: with effluent already in the last reading but one, breakthrough is put
    before the day on which the line through the last two readings reaches the average influent. *)
Theorem C184_single_point_refuted : forall quad cf lr raw l t2 y2 t1 y1 d fl mm w xn tm fo c, readable raw -> readable (l ++ [(t2, y2); (t1, y1)])%list ->
  calculate quad cf lr (fun x => x) raw (l ++ [(t2, y2); (t1, y1)])%list d fl mm w xn tm fo = Ok c -> c_code c = "linear, single point" ->
  let A := average (values (floored raw)) in
  0 < y2 < y1 -> y1 < A -> t2 < t1 -> 0 <= t2 -> forall T, through t2 y2 t1 y1 T = A -> T <= 2000 -> c_brk c < T.
Proof.
  intros quad cf lr raw l t2 y2 t1 y1 d fl mm w xn tm fo c RR RE H K A Y Y1 TT T2 T ET TM.
  destruct (C184_single_point_partial _ _ _ _ _ _ _ _ _ _ _ _ _ _ _ _ _ _ RR RE H K) as (_ & T' & E' & _ & B). fold A in E'.
  unfold through in ET, E'. assert (S1 : 0 < (y1 - y2) / (t1 - t2)) by (apply Rdiv_lt_0_compat; lra). assert (S2 : 0 < (y1 - 0) / (t1 - t2)) by (apply Rdiv_lt_0_compat; lra).
  assert (X : T = t2 + (A - y2) * (t1 - t2) / (y1 - y2)) by (rewrite <- ET; field; lra).
  assert (X' : T' = t2 + A * (t1 - t2) / y1) by (rewrite <- E'; field; lra).
  assert (LT : A * (t1 - t2) / y1 < (A - y2) * (t1 - t2) / (y1 - y2)).
  { assert (D : (A - y2) * (t1 - t2) / (y1 - y2) - A * (t1 - t2) / y1 = y2 * (A - y1) * (t1 - t2) / (y1 * (y1 - y2))) by (field; lra).
    assert (0 < y2 * (A - y1) * (t1 - t2) / (y1 * (y1 - y2))) by (apply Rdiv_lt_0_compat; repeat apply Rmult_lt_0_compat; lra). lra. }
  assert (P : 0 < A * (t1 - t2) / y1) by (apply Rdiv_lt_0_compat; [apply Rmult_lt_0_compat|]; lra).
  rewrite B by lra. lra.
Qed.
(** ** Cases *)
Lemma three_search cf lr rnd y2 y1 d : 0 < y2 <= y1 -> y1 < 10 -> search cf lr rnd (steady 10 20) [(0, 0); (10, y2); (20, y1)] d = fitted cf lr rnd (steady 10 20) [(0, 0); (10, y2); (20, y1)] d.
Proof.
  intros H Y. unfold search. cbn [values map snd]. replace (reqb (lsum [0; y2; y1]) 0) with false by (symmetry; apply reqb_false; cbn; lra).
  unfold count_nonzero. cbn [filter]. rewrite (proj2 (reqb_true 0 0)) by reflexivity. rewrite (proj2 (reqb_false y2 0)), (proj2 (reqb_false y1 0)) by lra. cbn [negb List.length Nat.eqb orb].
  rewrite floored_infl, steady_floored by lra. unfold steady, values. cbn [map snd]. rewrite (proj2 (rleb_false _ _)); [reflexivity|].
  cbn. repeat destruct (rleb _ _); lra.
Qed.
Lemma average_steady : average (values (floored (steady 10 20))) = 10.
Proof. rewrite steady_floored by lra. unfold average, steady, values. cbn. lra. Qed.
Lemma three_readable y2 y1 : 0 < y2 -> 0 < y1 -> readable [(0, 0); (10, y2); (20, y1)].
Proof. intros A B. split; [cbn; repeat split; lra|intros t c [E|[E|[E|[]]]]; inversion E; lra]. Qed.
(** Readings of 0, 4 and 5 behind an influent of 10: breakthrough is put on day 30, the line through the last two readings reaches 10 on day 70. *)
Example C184_single_point_met : exists c, let e := [(0, 0); (10, 4); (20, 5)] in
  calculate trapezoid no_fit no_line (fun x => x) (steady 10 20) e 20 1 1 1 1 1 (fun _ => 1) = Ok c /\ readable (steady 10 20) /\ readable e /\
  c_code c = "linear, single point" /\ c_brk c = 30 /\ through 10 4 20 5 70 = average (values (floored (steady 10 20))).
Proof.
  assert (RR := steady_readable 10 20 ltac:(lra) ltac:(lra)). assert (RE := three_readable 4 5 ltac:(lra) ltac:(lra)).
  assert (AV : aveC (steady 10 20) = 10) by (rewrite average_aveC; apply average_steady).
  eexists. cbv zeta. split.
  { apply calculates; [cbn; lia|cbn; lia|exact RR|]. rewrite three_search by lra. unfold fitted, no_fit, linear. cbn [values map snd last fst rev app]. rewrite AV.
    rewrite (proj2 (rltb_true 0 5)) by lra. rewrite (proj2 (rleb_true (dec 25 2) (5 / 10))) by (rewrite dec25; lra). cbn [andb]. rewrite (proj2 (reqb_false _ 0)) by lra.
    replace ((10 - - (5) * 10 / (20 - 10)) / (5 / (20 - 10))) with 30 by field. rewrite (proj2 (rleb_false 30 0)) by lra. reflexivity. }
  split; [exact RR|]. split; [exact RE|]. cbn [c_code c_brk estimate f_code f_brk f_eff]. split; [reflexivity|]. split; [apply clean_range; lra|]. rewrite average_steady. unfold through. field.
Qed.
Definition a_line (_ : series) : option (R * R) := Some (1 / 10, 0).
Example C184_regression_met : exists c, let e := [(0, 0); (10, 1); (20, 2)] in
  calculate trapezoid no_fit a_line (fun x => x) (steady 10 20) e 20 1 1 1 1 1 (fun _ => 1) = Ok c /\ readable (steady 10 20) /\ rising e e /\
  c_code c = "linear regression" /\ c_brk c = 100.
Proof.
  assert (RR := steady_readable 10 20 ltac:(lra) ltac:(lra)).
  assert (AV : aveC (steady 10 20) = 10) by (rewrite average_aveC; apply average_steady).
  eexists. cbv zeta. split.
  { apply calculates; [cbn; lia|cbn; lia|exact RR|]. rewrite three_search by lra. unfold fitted, no_fit, linear. cbn [values map snd last]. rewrite AV.
    rewrite (proj2 (rleb_false (dec 25 2) (2 / 10))) by (rewrite dec25; lra). rewrite andb_false_r. unfold a_line. rewrite (proj2 (reqb_false (1 / 10) 0)) by lra.
    replace ((10 - 0) / (1 / 10)) with 100 by field. rewrite (proj2 (rleb_false 100 0)) by lra. reflexivity. }
  split; [exact RR|]. split.
  { right. exists [], (0, 0), [(10, 1); (20, 2)]. split; [reflexivity|]. split; [intros a []|]. split; [reflexivity|]. split; [|reflexivity]. intros a [<-|[<-|[]]]; cbn; lra. }
  cbn [c_code c_brk estimate f_code f_brk f_eff]. split; [reflexivity|]. apply clean_range; lra.
Qed.
Definition a_curve (_ : series) : option (R * R * R) := Some (10, 5, 1 / 10).
Definition to_50 (_ : R) : R := 50.
Example C184_logistic_met : exists c, let e := [(0, 0); (10, 1); (20, 2)] in
  calculate trapezoid a_curve no_line to_50 (steady 10 20) e 20 1 1 1 1 1 (fun _ => 1) = Ok c /\ readable (steady 10 20) /\ c_code c = "logistic" /\ c_brk c = 50.
Proof.
  assert (RR := steady_readable 10 20 ltac:(lra) ltac:(lra)).
  eexists. cbv zeta. split.
  { apply calculates; [cbn; lia|cbn; lia|exact RR|]. rewrite three_search by lra. unfold fitted, a_curve, to_50. rewrite (proj2 (reqb_false (1 / 10) 0)) by lra.
    rewrite (proj2 (rltb_false 2000 50)) by lra. rewrite (proj2 (rleb_true 20 50)) by lra. reflexivity. }
  split; [exact RR|]. cbn [c_code c_brk estimate f_code f_brk f_eff]. split; [reflexivity|]. apply clean_range; lra.
Qed.

Print Assumptions C184_logistic.
Print Assumptions C184_regression.
Print Assumptions C184_single_point_partial.
Print Assumptions C184_single_point_refuted.
