(** Properties C40 and C41 (stepwise fit) and C74. *)
From Coq Require Import Reals List Arith Bool Lra Lia ZArith String.
From Verif Require Import Lib_Py P_GacFun M_GacSmart P_GacMin P_GacSmart.
Import ListNotations.
Open Scope R_scope.
Local Notation length := List.length.

(** ** Vocabulary *)

(** What a simulation of compound, K and 1/n counts for: its sum of squares, 1e20 if it
    fails. *)
Definition sim_error (sim : string -> R -> R -> option R) (p : point) : R :=
  match sim (p_comp p) (p_K p) (p_N p) with Some v => v | None => 10 ^ 20 end.
(** Rounding to [d] decimals. *)
Definition rounds (rnd : nat -> R -> R) : Prop := forall d x, Rabs (rnd d x - x) <= 5 / 10 ^ (S d).
(** Search settings the documentation allows: positive spread, at least one step, and a
    1/n step that meets the starting point 0.45. *)
Record sensible (bf pm : R) (num : nat) (des : R) : Prop := {
  se_bf : 0 < bf; se_pm : 0 < pm; se_num : (0 < num)%nat; se_des : 0 < des;
  se_start : exists j, dec 2 1 + INR j * des = dec 45 2 }.

Lemma sim_error_err sim p : sim_error sim p = err sim p.
Proof. unfold sim_error, err, huge. destruct (sim _ _ _); [reflexivity|]. change (10 ^ 20)%Z with (10 ^ Z.of_nat 20)%Z. rewrite <- pow_IZR. reflexivity. Qed.

Lemma rabs_iff x e : Rabs x <= e <-> - e <= x <= e.
Proof. unfold Rabs. destruct (Rcase_abs x); lra. Qed.

Section S.
Variable sim : string -> R -> R -> option R.
Variable base : string -> option (R -> R).
Variable foul : string -> R.
Variable rnd : nat -> R -> R.

Lemma done_inv pm num des limit fuel c t b s :
  search sim base foul rnd pm num des limit fuel c t b = Done (Ok s) ->
  exists a k0 x0 s' m, make_axes rnd (foul c) pm num des = Ok a /\
    (k0 <= KM a)%nat /\ kf a k0 = rnd 6%nat (foul c) /\ (x0 <= XM a)%nat /\ xs a x0 = rnd 3%nat start_xn /\
    (s = save_best c s' \/ s = save_best_alt c s') /\ inv sim base c a (foul c) k0 x0 t b s' /\
    (1 <= m <= fuel)%nat /\ (m = 1%nat \/ INR (m - 1) < limit) /\
    (length (log s') <= 6 + 5 * m)%nat /\ (local_min sim a s' \/ limit <= INR m).
Proof.
  intros H.
  destruct (search_inv sim base foul rnd pm num des limit fuel c t b)
    as [(e & E & _)|(a & k0 & x0 & EA & H1 & H2 & H3 & H4 & [(E & _)|(s' & m & O & R)])].
  - rewrite H in E. discriminate.
  - rewrite H in E. discriminate.
  - exists a, k0, x0, s', m. repeat (split; [assumption|]). split; [|exact R].
    rewrite H in O. destruct O as [O|O]; injection O as ->; [left|right]; reflexivity.
Qed.

(** ** C40: the stepwise search *)

(** It stops: within as many passes as the limit says (at least one). *)
Theorem C40_stops : forall pm num des limit fuel c t b,
  sensible (foul c) pm num des -> (1 <= fuel)%nat -> limit <= INR fuel ->
  exists s, search sim base foul rnd pm num des limit fuel c t b = Done (Ok s).
Proof.
  intros pm num des limit fuel c t b [H1 H2 H3 H4 (j & H5)] Hf HL.
  assert (NE := start_ok sim base foul rnd pm num des limit fuel c t b j H1 H2 H3 H4 H5).
  destruct (search sim base foul rnd pm num des limit fuel c t b) as [|[s|e]] eqn:E.
  - exfalso.
    destruct (search_inv sim base foul rnd pm num des limit fuel c t b)
      as [(e & E' & _)|(a & k0 & x0 & _ & _ & _ & _ & _ & [(_ & [F|F])|(s' & m & [O|O] & R)])];
      try (rewrite E in *; discriminate); [lia|lra].
  - exists s. reflexivity.
  - exfalso. exact (NE e eq_refl).
Qed.

(** Number of simulations: six to start with and five for each pass, with no more
    passes than the limit rounded up. *)
Theorem C40_bounded : forall pm num des limit fuel c t b s,
  search sim base foul rnd pm num des limit fuel c t b = Done (Ok s) ->
  exists passes, (1 <= passes)%nat /\ (passes = 1%nat \/ INR passes < limit + 1) /\
    (length (log s) <= 6 + 5 * passes)%nat.
Proof.
  intros pm num des limit fuel c t b s H.
  destruct (done_inv _ _ _ _ _ _ _ _ _ H) as (a & k0 & x0 & s' & m & _ & _ & _ & _ & _ & O & _ & Hm & Lm & L & _).
  exists m. split; [lia|]. split.
  - destruct Lm as [-> | Lm]; [left; reflexivity|right]. rewrite minus_INR in Lm by lia. simpl INR in Lm. lra.
  - destruct (saved c s s' O) as (-> & _). exact L.
Qed.

(** It never leaves its grid, for compounds whose K as a function [f] of 1/n was worked
    out at construction: 1/n on 0.2, 0.2 + des, ..., not beyond 1 + des / 2, and K a
    multiple of [f] at that 1/n within the spread of the fouling estimate, up to the
    rounding of the labels. *)
Theorem C40_on_grid_partial : forall pm num des limit fuel c t b s f,
  rounds rnd -> sensible (foul c) pm num des ->
  base c = Some f ->
  search sim base foul rnd pm num des limit fuel c t b = Done (Ok s) ->
  forall p, In p (log s) -> p_comp p = c /\
    exists i j factor, (i <= 2 * num)%nat /\ dec 2 1 + INR j * des < 1 + des / 2 /\
      Rabs (p_N p - (dec 2 1 + INR j * des)) <= dec 1 3 /\
      p_K p = f (p_N p) * factor /\
      Rabs (factor - foul c * (1 + pm / 100 * (INR i / INR num - 1))) <= dec 1 6.
Proof.
  intros pm num des limit fuel c t b s f HR [B1 B2 B3 B4 _] Hf H p Hp.
  destruct (done_inv _ _ _ _ _ _ _ _ _ H) as (a & k0 & x0 & s' & m & EA & Hk0 & Ek0 & Hx0 & Ex0 & O & I & _).
  destruct (saved c s s' O) as (EL & _). rewrite EL in Hp.
  destruct (i_pts _ _ _ _ _ _ _ _ _ _ I p Hp) as (_ & PC & PR & PX & CASES). split; [exact PC|].
  destruct (axes_labels rnd _ _ _ _ _ EA) as (LK & LX & _ & EX & _).
  assert (KMa := axes_rows rnd _ _ _ _ _ B1 B2 B3 EA). rewrite KMa in PR, Hk0.
  assert (HN : 0 < INR num) by (apply lt_0_INR; lia).
  assert (XB : forall j, (j <= XM a)%nat -> dec 2 1 + INR j * des < 1 + des / 2).
  { intros j Hj. rewrite EX in Hj.
    assert (J : (j < arange_len (dec 2 1) (1 + des / 2) des)%nat \/ (arange_len (dec 2 1) (1 + des / 2) des = 0)%nat) by lia.
    destruct J as [J|J].
    - unfold arange_len in J.
      assert (Q : (Z.of_nat j < ceil ((1 + des / 2 - dec 2 1) / des))%Z) by lia.
      destruct (Rlt_le_dec (INR j) ((1 + des / 2 - dec 2 1) / des)) as [L|L].
      + apply (Rmult_lt_compat_r des) in L; [|exact B4].
        replace ((1 + des / 2 - dec 2 1) / des * des) with (1 + des / 2 - dec 2 1) in L by (field; lra). lra.
      + rewrite INR_IZR_INZ in L. apply ceil_le in L. lia.
    - exfalso. unfold make_axes in EA. rewrite J in EA. cbn in EA.
      destruct (_ || _ || _)%bool in EA; [discriminate|]. rewrite orb_true_r in EA. discriminate. }
  assert (FA : forall i, foul c * (1 + pm / 100 * (INR i / INR num - 1))
                       = foul c * (1 - pm / 100) + INR i * (foul c * pm / 100 / INR num)) by (intros i; field; lra).
  destruct CASES as [(EN & EKp)|(ER & EN & EKp)].
  - exists (p_row p), (p_col p), (kf a (p_row p)). split; [exact PR|]. split; [apply XB; exact PX|].
    split; [|split; [apply EKp; exact Hf|]].
    + rewrite EN, LX. apply Rle_trans with (5 / 10 ^ 4); [apply HR|]. unfold dec. simpl pow. lra.
    + rewrite FA, LK. apply Rle_trans with (5 / 10 ^ 7); [apply HR|]. unfold dec. simpl pow. lra.
  - exists k0, x0, (foul c). split; [exact Hk0|]. split; [apply XB; exact Hx0|].
    split; [|split; [rewrite EN; apply EKp; exact Hf|]].
    + rewrite EN. rewrite LX in Ex0.
      assert (Q1 := HR 3%nat (dec 2 1 + INR x0 * des)). assert (Q2 := HR 3%nat start_xn). rewrite Ex0 in Q1.
      apply rabs_iff in Q1, Q2. apply rabs_iff. unfold dec in *. simpl pow in *. lra.
    + rewrite FA. rewrite LK in Ek0.
      assert (Q1 := HR 6%nat (foul c * (1 - pm / 100) + INR k0 * (foul c * pm / 100 / INR num))).
      assert (Q2 := HR 6%nat (foul c)). rewrite Ek0 in Q1.
      apply rabs_iff in Q1, Q2. apply rabs_iff. unfold dec in *. simpl pow in *. lra.
Qed.

(** No grid position is simulated twice. *)
Theorem C40_no_repeat : forall pm num des limit fuel c t b s,
  search sim base foul rnd pm num des limit fuel c t b = Done (Ok s) ->
  NoDup (map (fun p => (p_row p, p_col p)) (log s)).
Proof.
  intros pm num des limit fuel c t b s H.
  destruct (done_inv _ _ _ _ _ _ _ _ _ H) as (a & k0 & x0 & s' & m & _ & _ & _ & _ & _ & O & I & _).
  destruct (saved c s s' O) as (-> & _). apply I.
Qed.

(** ... and so, for those compounds, no pair of K and 1/n either, if the labels of each
    axis differ, the start needs no rounding and [f] does not vanish. *)
Theorem C40_no_repeat_values : forall pm num des limit fuel c t b s f,
  base c = Some f -> (forall x, 0 < f x) ->
  rnd 6%nat (foul c) = foul c -> rnd 3%nat (dec 45 2) = dec 45 2 ->
  (forall i i', rnd 6%nat (foul c * (1 - pm / 100) + INR i * (foul c * pm / 100 / INR num))
              = rnd 6%nat (foul c * (1 - pm / 100) + INR i' * (foul c * pm / 100 / INR num)) -> i = i') ->
  (forall j j', rnd 3%nat (dec 2 1 + INR j * des) = rnd 3%nat (dec 2 1 + INR j' * des) -> j = j') ->
  search sim base foul rnd pm num des limit fuel c t b = Done (Ok s) ->
  NoDup (map (fun p => (p_K p, p_N p)) (log s)).
Proof.
  intros pm num des limit fuel c t b s f Hf Fpos Rb Rx IK IX H.
  destruct (done_inv _ _ _ _ _ _ _ _ _ H) as (a & k0 & x0 & s' & m & EA & _ & Ek0 & _ & Ex0 & O & I & _).
  destruct (saved c s s' O) as (-> & _).
  destruct (axes_labels rnd _ _ _ _ _ EA) as (LK & LX & _).
  assert (LAB : forall p, In p (log s') -> p_N p = xs a (p_col p) /\ p_K p = f (p_N p) * kf a (p_row p)).
  { intros p Hp. destruct (i_pts _ _ _ _ _ _ _ _ _ _ I p Hp) as (_ & _ & _ & _ & [(E1 & E2)|(E0 & E1 & E2)]).
    - split; [exact E1|apply E2; exact Hf].
    - unfold rc in E0. injection E0 as -> ->. rewrite Ex0, Ek0, E1, Rb. unfold start_xn. rewrite Rx.
      split; [reflexivity|]. apply E2. exact Hf. }
  assert (ND := i_nodup _ _ _ _ _ _ _ _ _ _ I). revert ND LAB. generalize (log s'). clear -Fpos IK IX LK LX.
  induction l as [|p l IH]; intros ND LAB; cbn [map]; constructor.
  - intros HI. apply in_map_iff in HI. destruct HI as (q & E & Hq).
    apply (f_equal fst) in E as EK'. apply (f_equal snd) in E as EN'. cbn [fst snd] in EK', EN'.
    destruct (LAB p (or_introl eq_refl)) as (N1 & K1). destruct (LAB q (or_intror Hq)) as (N2 & K2).
    cbn [map] in ND. inversion ND as [|? ? NI _]. apply NI. apply in_map_iff. exists q. split; [|exact Hq].
    unfold rc. f_equal.
    + apply IK. rewrite <- !LK. rewrite K1, K2, EN' in EK'.
      apply Rmult_eq_reg_l in EK'; [exact EK'|]. specialize (Fpos (p_N p)). lra.
    + apply IX. rewrite <- !LX. congruence.
  - apply IH; [cbn [map] in ND; inversion ND; assumption|]. intros q Hq. apply LAB. right. exact Hq.
Qed.

(** The values stored for the compound are those of a simulated point whose error no
    other simulated point beats; only a K that is not positive is replaced, by 1e-6. *)
Theorem C40_keeps_best : forall pm num des limit fuel c t b s,
  search sim base foul rnd pm num des limit fuel c t b = Done (Ok s) ->
  exists p, In p (log s) /\ (forall q, In q (log s) -> sim_error sim p <= sim_error sim q) /\
    eN (kt s c) = p_N p /\ (eK (kt s c) = p_K p \/ (p_K p <= 0 /\ eK (kt s c) = dec 1 6)).
Proof.
  intros pm num des limit fuel c t b s H.
  destruct (done_inv _ _ _ _ _ _ _ _ _ H) as (a & k0 & x0 & s' & m & _ & _ & _ & _ & _ & O & I & _).
  destruct (saved c s s' O) as (-> & _ & _ & EN & EKs & _).
  destruct (i_best _ _ _ _ _ _ _ _ _ _ I) as (p & Hp & E1 & E2 & E3).
  exists p. split; [exact Hp|]. split.
  - intros q Hq. rewrite !sim_error_err, E3. apply (i_least _ _ _ _ _ _ _ _ _ _ I q Hq).
  - rewrite E1, E2. split; [exact EN|]. exact EKs.
Qed.

(** ** C74: where the search stops *)

(** If it stops before the limit, it stops at a simulated point all of whose grid
    neighbours were simulated and none is better by more than 1e-7. *)
Theorem C74_stops_at_local_minimum : forall pm num des limit fuel c t b s,
  search sim base foul rnd pm num des limit fuel c t b = Done (Ok s) -> INR fuel < limit ->
  exists a p, make_axes rnd (foul c) pm num des = Ok a /\ In p (log s) /\
    forall i j, ((i = p_row p /\ (j = S (p_col p) \/ p_col p = S j)) \/
                 (j = p_col p /\ (i = S (p_row p) \/ p_row p = S i))) ->
      (i <= KM a)%nat -> (j <= XM a)%nat ->
      exists q, In q (log s) /\ p_row q = i /\ p_col q = j /\ sim_error sim p <= sim_error sim q + 1 / 10 ^ 7.
Proof.
  intros pm num des limit fuel c t b s H HL.
  destruct (done_inv _ _ _ _ _ _ _ _ _ H) as (a & k0 & x0 & s' & m & EA & _ & _ & _ & _ & O & I & Hm & _ & _ & [LM|LM]).
  - destruct (saved c s s' O) as (-> & _). destruct LM as (p & Hp & LM). exists a, p. split; [exact EA|]. split; [exact Hp|].
    intros i j N Hi Hj. destruct (LM i j N Hi Hj) as (q & Hq & E & LE). exists q. split; [exact Hq|].
    unfold rc in E. injection E as E1 E2. split; [exact E1|]. split; [exact E2|]. rewrite !sim_error_err.
    unfold dec in LE. exact LE.
  - exfalso. assert (INR m <= INR fuel) by (apply le_INR; lia). lra.
Qed.

(** ** C41: fitting all compounds stepwise *)

(** The table left behind holds, for every compound, the best point simulated for that
    compound. *)
Theorem C41_stepwise : forall pm num des limit fuel cs t b t' b' l,
  NoDup cs ->
  search_all sim base foul rnd pm num des limit fuel cs t b = Some (Ok (t', b', l)) ->
  map fst l = cs /\
  forall c, In c cs -> exists s p, In (c, s) l /\ In p (log s) /\
    (forall q, In q (log s) -> p_comp q = c /\ sim_error sim p <= sim_error sim q) /\
    eN (t' c) = p_N p /\ (eK (t' c) = p_K p \/ (p_K p <= 0 /\ eK (t' c) = dec 1 6)).
Proof.
  intros pm num des limit fuel cs. induction cs as [|c cs IH]; intros t b t' b' l ND H; cbn [search_all] in H.
  - injection H as <- <- <-. split; [reflexivity|]. intros d [].
  - destruct (search sim base foul rnd pm num des limit fuel c t b) as [|[s|e]] eqn:ES; [discriminate| |discriminate].
    destruct (search_all sim base foul rnd pm num des limit fuel cs (kt s) (bt s)) as [[[[t1 b1] l1]|e]|] eqn:EA;
      [|discriminate|discriminate].
    injection H as <- <- <-. inversion ND as [|? ? NI ND']; subst.
    destruct (IH _ _ _ _ _ ND' EA) as (M & P). split; [cbn [map fst]; rewrite M; reflexivity|].
    (* later searches leave this compound's entry alone *)
    assert (KEEP : forall cs' t0 b0 t2 b2 l2, (t0 c = b0 c) -> ~ In c cs' ->
      search_all sim base foul rnd pm num des limit fuel cs' t0 b0 = Some (Ok (t2, b2, l2)) -> t2 c = b0 c).
    { clear. induction cs' as [|d cs' IH]; intros t0 b0 t2 b2 l2 E0 NI H; cbn [search_all] in H.
      - injection H as <- <- <-. reflexivity.
      - destruct (search sim base foul rnd pm num des limit fuel d t0 b0) as [|[s|e]] eqn:ES; [discriminate| |discriminate].
        destruct (search_all sim base foul rnd pm num des limit fuel cs' (kt s) (bt s)) as [[[[t1 b1] l1]|e]|] eqn:EA;
          [|discriminate|discriminate].
        injection H as <- <- <-.
        destruct (done_inv _ _ _ _ _ _ _ _ _ ES) as (a & k0 & x0 & s' & m & _ & _ & _ & _ & _ & O & I & _).
        destruct (saved d s s' O) as (_ & EB & EO & _).
        assert (ND : c <> d) by (intros ->; apply NI; left; reflexivity).
        rewrite (IH (kt s) (bt s) t1 b1 l1); [|rewrite EB; reflexivity|intros HI; apply NI; right; exact HI|exact EA].
        rewrite EB, (EO c ND). destruct (i_kt _ _ _ _ _ _ _ _ _ _ I c ND) as [E|E]; congruence. }
    intros d [<-|Hd].
    + destruct (done_inv _ _ _ _ _ _ _ _ _ ES) as (a & k0 & x0 & s' & m & _ & _ & _ & _ & _ & O & I & _).
      destruct (saved c s s' O) as (EL & EB & _).
      destruct (C40_keeps_best _ _ _ _ _ _ _ _ _ ES) as (p & Hp & B1 & B2 & B3).
      assert (E : t1 c = kt s c) by (rewrite (KEEP cs (kt s) (bt s) t1 b1 l1); [rewrite EB; reflexivity|rewrite EB; reflexivity|exact NI|exact EA]).
      exists s, p. split; [left; reflexivity|]. split; [exact Hp|]. split.
      * intros q Hq. split; [|apply B1; exact Hq]. rewrite EL in Hq. apply (i_pts _ _ _ _ _ _ _ _ _ _ I q Hq).
      * rewrite E. split; assumption.
    + destruct (P d Hd) as (s1 & p & Q1 & Q2). exists s1, p. split; [right; exact Q1|exact Q2].
Qed.
End S.
Print Assumptions C40_stops.
Print Assumptions C40_bounded.
Print Assumptions C40_on_grid_partial.
Print Assumptions C40_no_repeat.
Print Assumptions C40_no_repeat_values.
Print Assumptions C40_keeps_best.
Print Assumptions C74_stops_at_local_minimum.
Print Assumptions C41_stepwise.

(** Non-vacuity: the default settings are sensible, and two compounds are fitted. *)
Example default_sensible : sensible 1 10 11 (dec 25 3).
Proof. split; try lra; try lia; [unfold dec; simpl pow; lra|]. exists 10%nat. unfold dec. simpl pow. simpl INR. lra. Qed.
Example no_rounding : rounds (fun _ x => x).
Proof.
  intros d x. replace (x - x) with 0 by lra. rewrite Rabs_R0.
  apply Rlt_le, Rdiv_lt_0_compat; [lra|]. apply pow_lt. lra.
Qed.
Example two_compounds_fitted : forall sim base rnd t b, exists t' b' l,
  search_all sim base (fun _ => 1) rnd 10 11 (dec 25 3) 50 50 ["PFOA"%string; "PFOS"%string] t b
  = Some (Ok (t', b', l)).
Proof.
  intros. cbn [search_all].
  destruct (C40_stops sim base (fun _ => 1) rnd 10 11 (dec 25 3) 50 50 "PFOA" t b default_sensible ltac:(lia) ltac:(simpl INR; lra)) as (s & ->).
  destruct (C40_stops sim base (fun _ => 1) rnd 10 11 (dec 25 3) 50 50 "PFOS" (kt s) (bt s) default_sensible ltac:(lia) ltac:(simpl INR; lra)) as (s' & ->).
  eexists. eexists. eexists. reflexivity.
Qed.

(** ** What fails: tables supplied by the user *)

(** When the isotherm table was supplied, the base K is read back from the table under
    trial, so a factor is applied twice: with a spread of 10 percent around K = 10 the
    search ends with K = 12.1, outside its grid. *)
Theorem C40_on_grid_refuted : forall rnd, (forall d z, (2 <= d)%nat -> rnd d (dec z 2) = dec z 2) ->
  exists sim t s, let c := "A"%string in
    t c = {| eK := 10; eN := dec 45 2; eQ := 1 |} /\ sensible 1 10 1 (dec 25 2) /\
    search sim (fun _ => None) (fun _ => 1) rnd 10 1 (dec 25 2) 50 50 c t t = Done (Ok s) /\
    eK (kt s c) = dec 121 1 /\ 10 * (1 + 10 / 100) < eK (kt s c).
Proof.
  intros rnd HR. exists Drift.sim, Drift.tab.
  assert (AX : exists a, make_axes rnd 1 10 1 (dec 25 2) = Ok a).
  { unfold make_axes. cbn [Nat.eqb orb].
    destruct (reqb (1 * 10 / 100 / INR 1) 0) eqn:B1; [apply reqb_true in B1; simpl INR in B1; lra|].
    destruct (reqb (dec 25 2) 0) eqn:B2; [apply reqb_true in B2; unfold dec in B2; simpl pow in B2; lra|]. cbn [orb].
    unfold arange_len.
    assert (G1 := ceil_gt ((1 * (1 + 10 / 100) + 1 * 10 / 100 / INR 1 / 2 - 1 * (1 - 10 / 100)) / (1 * 10 / 100 / INR 1)) 0 ltac:(simpl INR; lra)).
    assert (G2 := ceil_gt ((1 + dec 25 2 / 2 - dec 2 1) / dec 25 2) 0 ltac:(unfold dec; simpl pow; lra)).
    destruct (Nat.eqb_spec (Z.to_nat (ceil ((1 * (1 + 10 / 100) + 1 * 10 / 100 / INR 1 / 2 - 1 * (1 - 10 / 100)) / (1 * 10 / 100 / INR 1)))) 0); [lia|].
    destruct (Nat.eqb_spec (Z.to_nat (ceil ((1 + dec 25 2 / 2 - dec 2 1) / dec 25 2))) 0); [lia|].
    eexists. reflexivity. }
  destruct AX as (a & EA).
  assert (KMa : KM a = (2 * 1)%nat) by (apply (axes_rows rnd 1 10 1 (dec 25 2) a); [lra|lra|lia|exact EA]).
  destruct (axes_labels rnd _ _ _ _ _ EA) as (LK & LX & _ & EX & _).
  assert (XMa : XM a = 3%nat).
  { rewrite EX. unfold arange_len.
    assert (G1 := ceil_gt ((1 + dec 25 2 / 2 - dec 2 1) / dec 25 2) 3 ltac:(unfold dec; simpl pow; lra)).
    assert (G2 := ceil_le ((1 + dec 25 2 / 2 - dec 2 1) / dec 25 2) 4 ltac:(unfold dec; simpl pow; lra)). lia. }
  assert (K6 : forall z x, x = dec z 2 -> rnd 6%nat x = dec z 2) by (intros z x ->; apply HR; lia).
  assert (K3 : forall z x, x = dec z 2 -> rnd 3%nat x = dec z 2) by (intros z x ->; apply HR; lia).
  assert (k0 : kf a 0%nat = dec 9 1) by (rewrite LK, (K6 90%Z); unfold dec; simpl pow; simpl INR; lra).
  assert (k1 : kf a 1%nat = 1) by (rewrite LK, (K6 100%Z); unfold dec; simpl pow; simpl INR; lra).
  assert (k2 : kf a 2%nat = dec 11 1) by (rewrite LK, (K6 110%Z); unfold dec; simpl pow; simpl INR; lra).
  assert (x0 : xs a 0%nat = dec 20 2) by (rewrite LX; apply K3; unfold dec; simpl pow; simpl INR; lra).
  assert (x1 : xs a 1%nat = dec 45 2) by (rewrite LX; apply K3; unfold dec; simpl pow; simpl INR; lra).
  assert (x2 : xs a 2%nat = dec 70 2) by (rewrite LX; apply K3; unfold dec; simpl pow; simpl INR; lra).
  assert (x3 : xs a 3%nat = dec 95 2) by (rewrite LX; apply K3; unfold dec; simpl pow; simpl INR; lra).
  assert (R1 : rnd 6%nat 1 = 1) by (rewrite (K6 100%Z); unfold dec; simpl pow; lra).
  assert (R2 : rnd 3%nat start_xn = dec 45 2) by (apply K3; reflexivity).
  assert (F1 : find_label (kf a) (rnd 6%nat 1) (S (KM a)) 0 = Some 1%nat).
  { rewrite R1, KMa. cbn [find_label Nat.mul Nat.add]. rewrite k0, k1.
    destruct (reqb (dec 9 1) 1) eqn:B; [apply reqb_true in B; unfold dec in B; simpl pow in B; lra|]. rewrite reqb_refl. reflexivity. }
  assert (F2 : find_label (xs a) (rnd 3%nat start_xn) (S (XM a)) 0 = Some 1%nat).
  { rewrite R2, XMa. cbn [find_label]. rewrite x0, x1.
    destruct (reqb (dec 20 2) (dec 45 2)) eqn:B; [apply reqb_true in B; unfold dec in B; simpl pow in B; lra|]. rewrite reqb_refl. reflexivity. }
  assert (GO : exists s, search Drift.sim Drift.base (fun _ => 1) rnd 10 1 (dec 25 2) 50 50 Drift.A Drift.tab Drift.tab = Done (Ok s)
    /\ eK (kt s Drift.A) = dec 121 1).
  { unfold search. rewrite EA, F1, F2.
    unfold get_ssq at 1. cbn [store]. unfold Drift.sim at 1.
    apply (Drift.drift_search a KMa XMa k0 k1 k2 x0 x1 x2 x3); [lia|lra|].
    unfold Drift.Sum. cbn [set_best set_store set_kt add_log kt bt store best_ssq best_k].
    unfold get_base_k. cbn [Drift.base kt Drift.tab eK]. unfold start_xn.
    replace (100 - 10 * 1 + 10 * ((dec 45 2 - dec 45 2) * (dec 45 2 - dec 45 2))) with 90 by lra.
    split; [reflexivity|]. split; [reflexivity|]. split; [reflexivity|]. split; [reflexivity|]. lra. }
  destruct GO as (s & E & EKs). exists s. cbv zeta. split; [reflexivity|]. split.
  { split; try lra; try lia; [unfold dec; simpl pow; lra|]. exists 1%nat. unfold dec. simpl pow. simpl INR. lra. }
  split; [exact E|]. change "A"%string with Drift.A. rewrite EKs. split; [reflexivity|]. unfold dec. simpl pow. lra.
Qed.
Print Assumptions C40_on_grid_refuted.

(** The documented default spread, zero, stops the fit with an error before any
    simulation. *)
Theorem C40_zero_spread_refuted : forall sim base foul rnd num des limit fuel c t b,
  search sim base foul rnd 0 num des limit fuel c t b = Done (Err ValueError).
Proof.
  intros. unfold search, make_axes.
  replace (foul c * 0 / 100 / INR num) with 0 by (unfold Rdiv; ring). rewrite reqb_refl, orb_true_r. reflexivity.
Qed.
Print Assumptions C40_zero_spread_refuted.
