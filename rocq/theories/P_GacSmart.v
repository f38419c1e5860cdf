(** Lemmas about the stepwise fit. *)
From Coq Require Import Reals List Arith Bool Lra Lia ZArith String.
From Verif Require Import Lib_Py P_GacFun M_GacSmart P_GacMin.
Import ListNotations.
Open Scope R_scope.
Local Notation length := List.length.

Lemma pos_in m z : (0 <= z <= Z.of_nat m)%Z -> pos m z = Ok (Z.to_nat z).
Proof.
  intros H. unfold pos. replace (0 <=? z)%Z with true by (symmetry; apply Z.leb_le; lia).
  replace (z <=? Z.of_nat m)%Z with true by (symmetry; apply Z.leb_le; lia). reflexivity.
Qed.

Lemma put_same c e t : put c e t c = e.
Proof. unfold put. rewrite String.eqb_refl. reflexivity. Qed.
Lemma put_other c e t d : d <> c -> put c e t d = t d.
Proof. intros H. unfold put. destruct (String.eqb_spec c d); congruence. Qed.

Lemma fifth_le m i : (i <= 4)%nat -> (fifth m i <= m)%nat.
Proof.
  intros H. unfold fifth.
  assert (D := Nat.div_mod (i * m) 4 ltac:(lia)).
  assert (L : (i * m <= 4 * m)%nat) by nia.
  assert (U := Nat.mod_upper_bound (i * m) 4 ltac:(lia)).
  destruct ((i * m) mod 4)%nat as [|[|[|r]]]; [lia|lia| |lia].
  destruct (Nat.even _); lia.
Qed.

Section Search.
Variable sim : string -> R -> R -> option R.
Variable base : string -> option (R -> R).
Variables (c : string) (a : axes) (bf : R) (k0 x0 : nat) (t0 b0 : ktab).

Definition err (p : point) : R := match sim (p_comp p) (p_K p) (p_N p) with Some v => v | None => huge end.
Definition rc (p : point) : nat * nat := (p_row p, p_col p).

(** Where the values of a simulation come from. *)
Definition placed (p : point) : Prop :=
  p_comp p = c /\ (p_row p <= KM a)%nat /\ (p_col p <= XM a)%nat /\
  ((p_N p = xs a (p_col p) /\ forall f, base c = Some f -> p_K p = f (p_N p) * kf a (p_row p)) \/
   (rc p = (k0, x0) /\ p_N p = start_xn /\ forall f, base c = Some f -> p_K p = f start_xn * bf)).

Record inv (s : sstate) : Prop := {
  i_pts : forall p, In p (log s) -> store s (p_row p) (p_col p) = Some (err p) /\ placed p;
  i_nodup : NoDup (map rc (log s));
  i_store : forall i j v, store s i j = Some v -> exists p, In p (log s) /\ rc p = (i, j);
  i_best : exists p, In p (log s) /\ p_K p = best_k s /\ p_N p = best_xn s /\ err p = best_ssq s;
  i_least : forall p, In p (log s) -> best_ssq s <= err p;
  i_bt : bt s = b0;
  i_kt : forall d, d <> c -> kt s d = t0 d \/ kt s d = b0 d }.

Lemma store_err s i j v : inv s -> store s i j = Some v ->
  exists p, In p (log s) /\ rc p = (i, j) /\ v = err p.
Proof.
  intros I H. destruct (i_store s I i j v H) as (p & Hp & E). exists p. split; [exact Hp|]. split; [exact E|].
  unfold rc in E. injection E as E1 E2. destruct (i_pts s I p Hp) as (Q & _). rewrite E1, E2, H in Q.
  injection Q. auto.
Qed.

Lemma visit_inv al k kfv xn row col s v s' :
  inv s -> (row <= KM a)%nat -> (col <= XM a)%nat -> xn = xs a col -> kfv = kf a row ->
  (forall f, base c = Some f -> k = f xn) ->
  visit sim al c k kfv xn row col s = (v, s') ->
  inv s' /\ store s' row col = Some v /\ best_ssq s' <= v /\ best_ssq s' <= best_ssq s /\
  (length (log s') <= S (length (log s)))%nat /\
  (forall i j w, store s i j = Some w -> store s' i j = Some w).
Proof.
  intros I Hr Hc Hx Hk Hb. unfold visit, get_ssq.
  destruct (store s row col) as [w|] eqn:ST.
  - cbn [set_kt store]. rewrite ST. intros H. injection H as <- <-.
    destruct (store_err s row col w I ST) as (q & Hq & Eq & Ew).
    assert (L := i_least s I q Hq).
    assert (BS : rltb w (best_ssq s) = false).
    { destruct (rltb w (best_ssq s)) eqn:E; [|reflexivity]. apply rltb_true in E. lra. }
    set (s1 := set_kt (trial c (k * kfv) xn (kt s)) s).
    assert (I1 : inv s1).
    { split; cbn [s1 set_kt kt bt store log best_xn best_k best_ssq]; try apply I.
      intros d Hd. unfold trial. rewrite put_other by exact Hd. apply (i_kt s I d Hd). }
    assert (SS : forall i j u, store s i j = Some u -> store (set_store row col w s1) i j = Some u).
    { intros i j u Hu. cbn [set_store store s1 set_kt].
      destruct (Nat.eqb_spec i row) as [->|]; [|exact Hu]. destruct (Nat.eqb_spec j col) as [->|]; [|exact Hu].
      cbn. congruence. }
    assert (I2 : inv (if al then set_store row col w s1 else s1)).
    { destruct al; [|exact I1]. split; try apply I1.
      - intros p Hp. destruct (i_pts s1 I1 p Hp) as (Q & P). split; [|exact P]. apply SS. exact Q.
      - intros i j u. cbn [set_store store]. destruct ((i =? row)%nat && (j =? col)%nat)%bool eqn:E; [|apply I1].
        intros _. apply andb_prop in E. destruct E as (E1 & E2).
        apply Nat.eqb_eq in E1, E2. subst i j. exists q. split; [exact Hq|exact Eq]. }
    replace (best_ssq (if al then set_store row col w s1 else s1)) with (best_ssq s) by (destruct al; reflexivity).
    rewrite BS. split; [exact I2|]. split.
    { destruct al; [apply SS; exact ST|exact ST]. }
    split; [destruct al; cbn; lra|]. split; [destruct al; cbn; lra|].
    split; [destruct al; cbn; lia|]. intros i j u Hu. destruct al; [apply SS; exact Hu|exact Hu].
  - set (p := {| p_comp := c; p_row := row; p_col := col; p_K := k * kfv; p_N := xn |}).
    set (t1 := trial c (k * kfv) xn (kt s)).
    assert (PP : placed p).
    { unfold placed. cbn [p p_comp p_row p_col p_K p_N]. repeat split; try assumption. left. split; [exact Hx|].
      intros f Hf. rewrite (Hb f Hf), Hk. reflexivity. }
    assert (KT : forall d, d <> c -> t1 d = t0 d \/ t1 d = b0 d).
    { intros d Hd. unfold t1, trial. rewrite put_other by exact Hd. apply (i_kt s I d Hd). }
    assert (NR : ~ In (row, col) (map rc (log s))).
    { intros H. apply in_map_iff in H. destruct H as (q & E & Hq). destruct (i_pts s I q Hq) as (Q & _).
      unfold rc in E. injection E as E1 E2. rewrite E1, E2, ST in Q. discriminate. }
    (* both ways out give the same shape of state, up to the table *)
    assert (MAIN : forall tb, (forall d, d <> c -> tb d = t0 d \/ tb d = b0 d) ->
      let s1 := set_kt tb (add_log p s) in
      let s2 := set_store row col (err p) s1 in
      let s3 := if rltb (err p) (best_ssq s2) then set_best xn (kfv * k) (err p) s2 else s2 in
      inv s3 /\ store s3 row col = Some (err p) /\ best_ssq s3 <= err p /\ best_ssq s3 <= best_ssq s /\
      (length (log s3) <= S (length (log s)))%nat /\
      (forall i j w, store s i j = Some w -> store s3 i j = Some w)).
    { intros tb Htb s1 s2 s3.
      assert (LOG : log s3 = p :: log s) by (unfold s3; destruct (rltb _ _); reflexivity).
      assert (ST3 : store s3 = fun i j => if ((i =? row)%nat && (j =? col)%nat)%bool then Some (err p) else store s i j)
        by (unfold s3; destruct (rltb _ _); reflexivity).
      assert (BT3 : bt s3 = bt s) by (unfold s3; destruct (rltb _ _); reflexivity).
      assert (KT3 : kt s3 = tb) by (unfold s3; destruct (rltb _ _); reflexivity).
      assert (BB : (rltb (err p) (best_ssq s) = true /\ err p < best_ssq s /\
                    best_ssq s3 = err p /\ best_k s3 = kfv * k /\ best_xn s3 = xn) \/
                   (best_ssq s <= err p /\ best_ssq s3 = best_ssq s /\ best_k s3 = best_k s /\ best_xn s3 = best_xn s)).
      { unfold s3. change (best_ssq s2) with (best_ssq s). destruct (rltb (err p) (best_ssq s)) eqn:E.
        - left. apply rltb_true in E. repeat split; assumption.
        - right. apply rltb_false in E. repeat split; assumption. }
      clearbody s3.
      assert (LB : best_ssq s3 <= err p /\ best_ssq s3 <= best_ssq s) by (destruct BB as [(_ & ? & -> & _)|(? & -> & _)]; lra).
      split; [split|].
      - intros q Hq. rewrite LOG in Hq. rewrite ST3. destruct Hq as [<-|Hq].
        + cbn [p p_row p_col]. rewrite !Nat.eqb_refl. split; [reflexivity|exact PP].
        + destruct (i_pts s I q Hq) as (Q & P). split; [|exact P].
          destruct (Nat.eqb_spec (p_row q) row) as [E1|]; [|exact Q].
          destruct (Nat.eqb_spec (p_col q) col) as [E2|]; [|exact Q].
          rewrite E1, E2, ST in Q. discriminate.
      - rewrite LOG. cbn [map]. constructor; [exact NR|apply I].
      - intros i j v0. rewrite ST3, LOG. destruct ((i =? row)%nat && (j =? col)%nat)%bool eqn:E.
        + intros _. exists p. split; [left; reflexivity|]. apply andb_prop in E. destruct E as (E1 & E2).
          apply Nat.eqb_eq in E1, E2. subst. reflexivity.
        + intros H. destruct (i_store s I i j v0 H) as (q & Hq & Eq). exists q. split; [right; exact Hq|exact Eq].
      - rewrite LOG. destruct BB as [(_ & _ & -> & -> & ->)|(_ & -> & -> & ->)].
        + exists p. split; [left; reflexivity|]. cbn [p p_K p_N]. repeat split. ring.
        + destruct (i_best s I) as (q & Hq & Q). exists q. split; [right; exact Hq|exact Q].
      - intros q Hq. rewrite LOG in Hq. destruct Hq as [<-|Hq]; [apply LB|].
        apply Rle_trans with (best_ssq s); [apply LB|apply (i_least s I q Hq)].
      - rewrite BT3. apply I.
      - rewrite KT3. exact Htb.
      - split; [rewrite ST3, !Nat.eqb_refl; reflexivity|]. split; [apply LB|]. split; [apply LB|].
        split; [rewrite LOG; cbn; lia|]. intros i j w H. rewrite ST3.
        destruct (Nat.eqb_spec i row) as [->|]; [|exact H]. destruct (Nat.eqb_spec j col) as [->|]; [|exact H]. congruence. }
    destruct (sim c (k * kfv) xn) as [w|] eqn:SIM.
    + cbn [set_kt add_log store]. rewrite ST. intros H. injection H as <- <-.
      assert (E : w = err p) by (unfold err; cbn [p p_comp p_K p_N]; rewrite SIM; reflexivity). rewrite E.
      apply (MAIN (bt s)). intros d Hd. right. rewrite (i_bt s I). reflexivity.
    + cbn [set_kt add_log store]. rewrite ST. intros H. injection H as <- <-.
      assert (E : huge = err p) by (unfold err; cbn [p p_comp p_K p_N]; rewrite SIM; reflexivity). rewrite E.
      apply (MAIN t1). exact KT.
Qed.

Lemma base_k_ok s xn f : base c = Some f -> get_base_k base c xn s = f xn.
Proof. intros H. unfold get_base_k. rewrite H. reflexivity. Qed.

Lemma rough_inv row js : (row <= KM a)%nat -> Forall (fun j => (j <= XM a)%nat) js ->
  forall xi s xi' s', inv s -> (xi <= XM a)%nat ->
  rough sim base c a row js xi s = (xi', s') ->
  inv s' /\ (xi' <= XM a)%nat /\ (length (log s') <= length (log s) + length js)%nat.
Proof.
  intros Hr HF. induction HF as [|j js Hj HF IH]; intros xi s xi' s' I Hxi H.
  - cbn in H. injection H as <- <-. split; [exact I|]; split; [exact Hxi|cbn; lia].
  - cbn [rough] in H.
    destruct (visit sim true c (get_base_k base c (xs a j) s) (kf a row) (xs a j) row j s) as (v, s1) eqn:EV.
    assert (V := visit_inv true _ _ _ _ _ _ _ _ I Hr Hj eq_refl eq_refl (fun f Hf => base_k_ok s (xs a j) f Hf) EV).
    destruct V as (I1 & _ & _ & _ & L1 & _).
    destruct (IH (if rltb v (best_ssq s) then j else xi) s1 xi' s' I1) as (I2 & X2 & L2).
    + destruct (rltb _ _); assumption.
    + exact H.
    + split; [exact I2|]. split; [exact X2|]. cbn [List.length]. lia.
Qed.

(** What one pass establishes about its centre. *)
Definition neighbour_of (ki xi i j : nat) : Prop :=
  (i = ki /\ (j = S xi \/ xi = S j)) \/ (j = xi /\ (i = S ki \/ ki = S i)).
Lemma pass_inv xi ki s : inv s -> (0 <= xi <= Z.of_nat (XM a))%Z -> (0 <= ki <= Z.of_nat (KM a))%Z ->
  exists bs dx dk s', pass sim base c a xi ki s = Ok (bs, dx, dk, s') /\
    inv s' /\ (0 <= xi + dx <= Z.of_nat (XM a))%Z /\ (0 <= ki + dk <= Z.of_nat (KM a))%Z /\
    (length (log s') <= length (log s) + 5)%nat /\
    store s' (Z.to_nat ki) (Z.to_nat xi) = Some bs /\
    (forall i j, neighbour_of (Z.to_nat ki) (Z.to_nat xi) i j -> (i <= KM a)%nat -> (j <= XM a)%nat ->
       exists v, store s' i j = Some v /\ (dx = 0%Z -> dk = 0%Z -> bs < v)).
Proof.
  intros I Hx Hk. unfold pass. rewrite (pos_in _ _ Hx), (pos_in _ _ Hk). cbn [bind].
  assert (Cx : (Z.to_nat xi <= XM a)%nat) by lia. assert (Ck : (Z.to_nat ki <= KM a)%nat) by lia.
  set (col := Z.to_nat xi) in *. set (row := Z.to_nat ki) in *.
  set (cb := get_base_k base c (xs a col) s).
  assert (Hcb : forall f, base c = Some f -> cb = f (xs a col)) by (intros f Hf; apply base_k_ok; exact Hf).
  clearbody cb.
  destruct (visit sim false c cb (kf a row) (xs a col) row col s) as (bs, s1) eqn:E1.
  destruct (visit_inv _ _ _ _ _ _ _ _ _ I Ck Cx eq_refl eq_refl Hcb E1) as (I1 & S1 & _ & _ & L1 & _).
  (* right *)
  assert (RR : exists rs s2,
    (if (xi <? Z.of_nat (XM a))%Z
     then do rc <- pos (XM a) (xi + 1);
          Ok (visit sim false c (get_base_k base c (xs a rc) s1) (kf a row) (xs a rc) row rc s1)
     else Ok (huge, s1)) = Ok (rs, s2) /\ inv s2 /\ (length (log s2) <= S (length (log s1)))%nat /\
    (forall i j w, store s1 i j = Some w -> store s2 i j = Some w) /\
    ((xi < Z.of_nat (XM a))%Z -> store s2 row (S col) = Some rs)).
  { destruct (Z.ltb_spec xi (Z.of_nat (XM a))) as [H|H].
    - rewrite pos_in by lia. cbn [bind]. replace (Z.to_nat (xi + 1)) with (S col) by (unfold col; lia).
      destruct (visit sim false c (get_base_k base c (xs a (S col)) s1) (kf a row) (xs a (S col)) row (S col) s1) as (rs, s2) eqn:E.
      assert (Sx : (S col <= XM a)%nat) by (unfold col; lia).
      destruct (visit_inv _ _ _ _ _ _ _ _ _ I1 Ck Sx eq_refl eq_refl (fun f Hf => base_k_ok s1 _ f Hf) E) as (I2 & S2 & _ & _ & L2 & M2).
      exists rs, s2. split; [reflexivity|]. split; [exact I2|]. split; [exact L2|]. split; [exact M2|]. intros _. exact S2.
    - exists huge, s1. split; [reflexivity|]. split; [exact I1|]. split; [lia|]. split; [auto|]. intros; lia. }
  destruct RR as (rs & s2 & -> & I2 & L2 & M2 & S2). cbn [bind].
  (* left *)
  assert (LL : exists ls s3,
    (if (1 <=? xi)%Z
     then do lc <- pos (XM a) (xi - 1);
          Ok (visit sim false c (get_base_k base c (xs a lc) s2) (kf a row) (xs a lc) row lc s2)
     else Ok (huge, s2)) = Ok (ls, s3) /\ inv s3 /\ (length (log s3) <= S (length (log s2)))%nat /\
    (forall i j w, store s2 i j = Some w -> store s3 i j = Some w) /\
    ((1 <= xi)%Z -> store s3 row (Nat.pred col) = Some ls)).
  { destruct (Z.leb_spec 1 xi) as [H|H].
    - rewrite pos_in by lia. cbn [bind]. replace (Z.to_nat (xi - 1)) with (Nat.pred col) by (unfold col; lia).
      destruct (visit sim false c (get_base_k base c (xs a (Nat.pred col)) s2) (kf a row) (xs a (Nat.pred col)) row (Nat.pred col) s2) as (ls, s3) eqn:E.
      assert (Sx : (Nat.pred col <= XM a)%nat) by (unfold col; lia).
      destruct (visit_inv _ _ _ _ _ _ _ _ _ I2 Ck Sx eq_refl eq_refl (fun f Hf => base_k_ok s2 _ f Hf) E) as (I3 & S3 & _ & _ & L3 & M3).
      exists ls, s3. split; [reflexivity|]. split; [exact I3|]. split; [exact L3|]. split; [exact M3|]. intros _. exact S3.
    - exists huge, s2. split; [reflexivity|]. split; [exact I2|]. split; [lia|]. split; [auto|]. intros; lia. }
  destruct LL as (ls & s3 & -> & I3 & L3 & M3 & S3). cbn [bind].
  (* upper *)
  assert (UU : exists us s4,
    (if (ki <? Z.of_nat (KM a))%Z
     then do ur <- pos (KM a) (ki + 1);
          Ok (visit sim false c cb (kf a ur) (xs a col) ur col s3)
     else Ok (huge, s3)) = Ok (us, s4) /\ inv s4 /\ (length (log s4) <= S (length (log s3)))%nat /\
    (forall i j w, store s3 i j = Some w -> store s4 i j = Some w) /\
    ((ki < Z.of_nat (KM a))%Z -> store s4 (S row) col = Some us)).
  { destruct (Z.ltb_spec ki (Z.of_nat (KM a))) as [H|H].
    - rewrite pos_in by lia. cbn [bind]. replace (Z.to_nat (ki + 1)) with (S row) by (unfold row; lia).
      destruct (visit sim false c cb (kf a (S row)) (xs a col) (S row) col s3) as (us, s4) eqn:E.
      assert (Sx : (S row <= KM a)%nat) by (unfold row; lia).
      destruct (visit_inv _ _ _ _ _ _ _ _ _ I3 Sx Cx eq_refl eq_refl Hcb E) as (I4 & S4 & _ & _ & L4 & M4).
      exists us, s4. split; [reflexivity|]. split; [exact I4|]. split; [exact L4|]. split; [exact M4|]. intros _. exact S4.
    - exists huge, s3. split; [reflexivity|]. split; [exact I3|]. split; [lia|]. split; [auto|]. intros; lia. }
  destruct UU as (us & s4 & -> & I4 & L4 & M4 & S4). cbn [bind].
  (* lower *)
  assert (WW : exists ws s5,
    (if (1 <=? ki)%Z
     then do lr <- pos (KM a) (ki - 1);
          Ok (visit sim false c cb (kf a lr) (xs a col) lr col s4)
     else Ok (huge, s4)) = Ok (ws, s5) /\ inv s5 /\ (length (log s5) <= S (length (log s4)))%nat /\
    (forall i j w, store s4 i j = Some w -> store s5 i j = Some w) /\
    ((1 <= ki)%Z -> store s5 (Nat.pred row) col = Some ws)).
  { destruct (Z.leb_spec 1 ki) as [H|H].
    - rewrite pos_in by lia. cbn [bind]. replace (Z.to_nat (ki - 1)) with (Nat.pred row) by (unfold row; lia).
      destruct (visit sim false c cb (kf a (Nat.pred row)) (xs a col) (Nat.pred row) col s4) as (ws, s5) eqn:E.
      assert (Sx : (Nat.pred row <= KM a)%nat) by (unfold row; lia).
      destruct (visit_inv _ _ _ _ _ _ _ _ _ I4 Sx Cx eq_refl eq_refl Hcb E) as (I5 & S5 & _ & _ & L5 & M5).
      exists ws, s5. split; [reflexivity|]. split; [exact I5|]. split; [exact L5|]. split; [exact M5|]. intros _. exact S5.
    - exists huge, s4. split; [reflexivity|]. split; [exact I4|]. split; [lia|]. split; [auto|]. intros; lia. }
  destruct WW as (ws & s5 & -> & I5 & L5 & M5 & S5). cbn [bind].
  set (dx := if (rleb rs bs && (xi + 1 <=? Z.of_nat (XM a))%Z)%bool then 1%Z
             else if (rleb ls bs && (0 <=? xi - 1)%Z)%bool then (-1)%Z else 0%Z).
  set (dk := if (rleb us bs && (ki + 1 <=? Z.of_nat (KM a))%Z)%bool then 1%Z
             else if (rleb ws bs && (0 <=? ki - 1)%Z)%bool then (-1)%Z else 0%Z).
  assert (DX : (0 <= xi + dx <= Z.of_nat (XM a))%Z /\
    (dx = 0%Z -> ((xi < Z.of_nat (XM a))%Z -> bs < rs) /\ ((1 <= xi)%Z -> bs < ls))).
  { unfold dx. destruct (rleb rs bs) eqn:B1; destruct (Z.leb_spec (xi + 1) (Z.of_nat (XM a))); cbn [andb].
    - split; [lia|]. intros; lia.
    - destruct (rleb ls bs) eqn:B2; destruct (Z.leb_spec 0 (xi - 1)); cbn [andb]; (split; [lia|]); intros Q; try lia;
        split; intros; try lia. apply rleb_false in B2. lra.
    - apply rleb_false in B1. destruct (rleb ls bs) eqn:B2; destruct (Z.leb_spec 0 (xi - 1)); cbn [andb]; (split; [lia|]); intros Q; try lia;
        split; intros; try lia; try lra. apply rleb_false in B2. lra.
    - apply rleb_false in B1. destruct (rleb ls bs) eqn:B2; destruct (Z.leb_spec 0 (xi - 1)); cbn [andb]; (split; [lia|]); intros Q; try lia;
        split; intros; try lia; try lra. apply rleb_false in B2. lra. }
  assert (DK : (0 <= ki + dk <= Z.of_nat (KM a))%Z /\
    (dk = 0%Z -> ((ki < Z.of_nat (KM a))%Z -> bs < us) /\ ((1 <= ki)%Z -> bs < ws))).
  { unfold dk. destruct (rleb us bs) eqn:B1; destruct (Z.leb_spec (ki + 1) (Z.of_nat (KM a))); cbn [andb].
    - split; [lia|]. intros; lia.
    - destruct (rleb ws bs) eqn:B2; destruct (Z.leb_spec 0 (ki - 1)); cbn [andb]; (split; [lia|]); intros Q; try lia;
        split; intros; try lia. apply rleb_false in B2. lra.
    - apply rleb_false in B1. destruct (rleb ws bs) eqn:B2; destruct (Z.leb_spec 0 (ki - 1)); cbn [andb]; (split; [lia|]); intros Q; try lia;
        split; intros; try lia; try lra. apply rleb_false in B2. lra.
    - apply rleb_false in B1. destruct (rleb ws bs) eqn:B2; destruct (Z.leb_spec 0 (ki - 1)); cbn [andb]; (split; [lia|]); intros Q; try lia;
        split; intros; try lia; try lra. apply rleb_false in B2. lra. }
  clearbody dx dk. exists bs, dx, dk, s5.
  split; [reflexivity|]. split; [exact I5|]. split; [apply DX|]. split; [apply DK|]. split; [lia|].
  split; [apply M5, M4, M3, M2, S1|].
  intros i j [(-> & [-> | E])|(-> & [-> | E])] Hi Hj.
  - exists rs. split; [apply M5, M4, M3, S2; unfold col in Hj; lia|]. intros Z1 Z2. apply DX; [exact Z1|unfold col in Hj; lia].
  - exists ls. replace j with (Nat.pred col) by lia.
    split; [apply M5, M4, S3; unfold col in E; lia|]. intros Z1 Z2. apply DX; [exact Z1|unfold col in E; lia].
  - exists us. split; [apply M5, S4; unfold row in Hi; lia|]. intros Z1 Z2. apply DK; [exact Z2|unfold row in Hi; lia].
  - exists ws. replace i with (Nat.pred row) by lia.
    split; [apply S5; unfold row in E; lia|]. intros Z1 Z2. apply DK; [exact Z2|unfold row in E; lia].
Qed.

(** The state just before the best values are stored. *)
Definition local_min (s : sstate) : Prop :=
  exists p, In p (log s) /\
    forall i j, neighbour_of (p_row p) (p_col p) i j -> (i <= KM a)%nat -> (j <= XM a)%nat ->
      exists q, In q (log s) /\ rc q = (i, j) /\ err p <= err q + dec 1 7.
Lemma climb_inv limit fuel : forall loops xi ki dx dk s,
  inv s -> (0 <= xi + dx <= Z.of_nat (XM a))%Z -> (0 <= ki + dk <= Z.of_nat (KM a))%Z ->
  (climb sim base c a limit fuel loops xi ki dx dk s = Running /\ (fuel = 0%nat \/ INR (loops + fuel) < limit)) \/
  exists s' m, (climb sim base c a limit fuel loops xi ki dx dk s = Done (Ok (save_best c s')) \/
                climb sim base c a limit fuel loops xi ki dx dk s = Done (Ok (save_best_alt c s'))) /\
    inv s' /\ (1 <= m <= fuel)%nat /\ (m = 1%nat \/ INR (loops + (m - 1)) < limit) /\
    (length (log s') <= length (log s) + 5 * m)%nat /\
    (local_min s' \/ limit <= INR (loops + m)).
Proof.
  induction fuel as [|fuel IH]; intros loops xi ki dx dk s I Hx Hk.
  - left. split; [reflexivity|left; reflexivity].
  - cbn [climb].
    destruct (pass_inv _ _ s I Hx Hk) as (bs & dx' & dk' & s1 & -> & I1 & X1 & K1 & L1 & ST & NB).
    assert (CEN := store_err s1 _ _ _ I1 ST). destruct CEN as (p & Hp & Ep & Ebs).
    assert (BB := i_least s1 I1 p Hp). rewrite <- Ebs in BB.
    unfold rc in Ep. injection Ep as Er Ec.
    destruct (rleb (Rabs (bs - best_ssq s1)) (dec 1 7)) eqn:B1; cbn [orb].
    { right. exists s1, 1%nat. split; [left; reflexivity|]. split; [exact I1|]. split; [lia|]. split; [left; reflexivity|].
      split; [lia|]. left. exists p. split; [exact Hp|]. intros i j N Hi Hj. rewrite Er, Ec in N.
      destruct (NB i j N Hi Hj) as (v & Hv & _). destruct (store_err s1 i j v I1 Hv) as (q & Hq & Eq & Ev).
      exists q. split; [exact Hq|]. split; [exact Eq|]. rewrite <- Ebs.
      apply rleb_true in B1. assert (Q := i_least s1 I1 q Hq).
      rewrite Rabs_right in B1 by lra. lra. }
    destruct (rleb limit (INR (S loops))) eqn:B2.
    { right. exists s1, 1%nat. split; [left; reflexivity|]. split; [exact I1|]. split; [lia|]. split; [left; reflexivity|].
      split; [lia|]. right. apply rleb_true in B2. replace (loops + 1)%nat with (S loops) by lia. exact B2. }
    apply rleb_false in B2.
    destruct ((dk' =? 0)%Z && (dx' =? 0)%Z)%bool eqn:B3.
    { apply andb_prop in B3. destruct B3 as (Z1 & Z2). apply Z.eqb_eq in Z1, Z2.
      right. exists s1, 1%nat. split; [right; reflexivity|]. split; [exact I1|]. split; [lia|]. split; [left; reflexivity|].
      split; [lia|]. left. exists p. split; [exact Hp|]. intros i j N Hi Hj. rewrite Er, Ec in N.
      destruct (NB i j N Hi Hj) as (v & Hv & LT). destruct (store_err s1 i j v I1 Hv) as (q & Hq & Eq & Ev).
      exists q. split; [exact Hq|]. split; [exact Eq|]. rewrite <- Ebs, <- Ev.
      specialize (LT Z2 Z1). unfold dec. lra. }
    destruct (IH (S loops) (xi + dx)%Z (ki + dk)%Z dx' dk' s1 I1 X1 K1) as [(R1 & R2)|(s' & m & O & I' & Hm & Lm & LL & LO)].
    + left. split; [exact R1|]. right. destruct R2 as [-> | R2].
      * replace (loops + 1)%nat with (S loops) by lia. exact B2.
      * replace (loops + S fuel)%nat with (S loops + fuel)%nat by lia. exact R2.
    + right. exists s', (S m). split; [exact O|]. split; [exact I'|]. split; [lia|]. split.
      { right. destruct Lm as [-> | Lm].
        - replace (loops + (2 - 1))%nat with (S loops) by lia. exact B2.
        - replace (loops + (S m - 1))%nat with (S loops + (m - 1))%nat by lia. exact Lm. }
      split; [lia|]. destruct LO as [LO|LO]; [left; exact LO|right].
      replace (loops + S m)%nat with (S loops + m)%nat by lia. exact LO.
Qed.
End Search.

Lemma find_label_some lbl v n : forall i k, find_label lbl v n i = Some k -> (i <= k < i + n)%nat /\ lbl k = v.
Proof.
  induction n as [|n IH]; intros i k H; [discriminate|]. cbn [find_label] in H.
  destruct (reqb (lbl i) v) eqn:E.
  - injection H as <-. apply reqb_true in E. split; [lia|exact E].
  - apply IH in H. split; [lia|apply H].
Qed.
Lemma find_label_ex lbl v n : forall i k, (i <= k < i + n)%nat -> lbl k = v -> exists k', find_label lbl v n i = Some k'.
Proof.
  induction n as [|n IH]; intros i k H E; [lia|]. cbn [find_label].
  destruct (reqb (lbl i) v) eqn:B; [eexists; reflexivity|].
  apply (IH (S i) k); [|exact E]. destruct (Nat.eq_dec i k) as [->|]; [|lia].
  rewrite E, reqb_refl in B. discriminate.
Qed.

Section Whole.
Variable sim : string -> R -> R -> option R.
Variable base : string -> option (R -> R).
Variable foul : string -> R.
Variable rnd : nat -> R -> R.

Lemma search_inv pm num des limit fuel c t b :
  (exists e, search sim base foul rnd pm num des limit fuel c t b = Done (Err e) /\
     (make_axes rnd (foul c) pm num des = Err e \/
      exists a, make_axes rnd (foul c) pm num des = Ok a /\
        (find_label (kf a) (rnd 6%nat (foul c)) (S (KM a)) 0 = None \/
         find_label (xs a) (rnd 3%nat start_xn) (S (XM a)) 0 = None))) \/
  exists a k0 x0, make_axes rnd (foul c) pm num des = Ok a /\
    (k0 <= KM a)%nat /\ kf a k0 = rnd 6%nat (foul c) /\ (x0 <= XM a)%nat /\ xs a x0 = rnd 3%nat start_xn /\
    ((search sim base foul rnd pm num des limit fuel c t b = Running /\ (fuel = 0%nat \/ INR fuel < limit)) \/
     exists s m, (search sim base foul rnd pm num des limit fuel c t b = Done (Ok (save_best c s)) \/
                  search sim base foul rnd pm num des limit fuel c t b = Done (Ok (save_best_alt c s))) /\
       inv sim base c a (foul c) k0 x0 t b s /\ (1 <= m <= fuel)%nat /\ (m = 1%nat \/ INR (m - 1) < limit) /\
       (length (log s) <= 6 + 5 * m)%nat /\ (local_min sim a s \/ limit <= INR m)).
Proof.
  unfold search. destruct (make_axes rnd (foul c) pm num des) as [a|e]; [|left; exists e; split; [reflexivity|left; reflexivity]].
  destruct (find_label (kf a) (rnd 6%nat (foul c)) (S (KM a)) 0) as [k0|] eqn:F1;
    [|left; eexists; split; [reflexivity|]; right; exists a; split; [reflexivity|left; exact F1]].
  destruct (find_label (xs a) (rnd 3%nat start_xn) (S (XM a)) 0) as [x0|] eqn:F2;
    [|left; eexists; split; [reflexivity|]; right; exists a; split; [reflexivity|right; exact F2]].
  apply find_label_some in F1, F2. destruct F1 as (R1 & E1), F2 as (R2 & E2).
  right. exists a, k0, x0. split; [reflexivity|]. split; [lia|]. split; [exact E1|]. split; [lia|]. split; [exact E2|].
  set (s0 := {| kt := t; bt := b; store := fun _ _ => None; log := []; best_xn := start_xn; best_k := 0; best_ssq := 0 |}).
  set (bk := get_base_k base c start_xn s0).
  assert (Hbk : forall f, base c = Some f -> bk = f start_xn) by (intros f Hf; unfold bk, get_base_k; rewrite Hf; reflexivity).
  clearbody bk.
  destruct (get_ssq sim c bk (foul c) start_xn k0 x0 s0) as (v, s1) eqn:EG.
  set (p := {| p_comp := c; p_row := k0; p_col := x0; p_K := bk * foul c; p_N := start_xn |}).
  assert (FIRST : v = err sim p /\ log s1 = [p] /\ bt s1 = b /\ store s1 = (fun _ _ => None) /\
                  forall d, d <> c -> kt s1 d = t d \/ kt s1 d = b d).
  { unfold get_ssq in EG. cbn [store s0] in EG. unfold err. cbn [p p_comp p_K p_N].
    destruct (sim c (bk * foul c) start_xn) as [w|] eqn:SIM; injection EG as <- <-; cbn.
    - repeat split. intros d Hd. right. reflexivity.
    - repeat split. intros d Hd. left. unfold trial. rewrite put_other by exact Hd. reflexivity. }
  destruct FIRST as (Ev & EL & EB & ES & EK').
  set (s2 := set_best start_xn (bk * foul c) v (set_store k0 x0 v s1)).
  assert (I2 : inv sim base c a (foul c) k0 x0 t b s2).
  { split; unfold s2, set_best, set_store; cbn [kt bt store log best_xn best_k best_ssq].
    - intros q Hq. rewrite EL in Hq. destruct Hq as [<-|[]]. cbn [p p_row p_col]. rewrite !Nat.eqb_refl.
      split; [rewrite Ev; reflexivity|]. unfold placed. cbn [p p_comp p_row p_col p_K p_N].
      split; [reflexivity|]. split; [lia|]. split; [lia|]. right. split; [reflexivity|]. split; [reflexivity|].
      intros f Hf. rewrite (Hbk f Hf). reflexivity.
    - rewrite EL. cbn. constructor; [intros []|constructor].
    - intros i j w. rewrite EL, ES. destruct ((i =? k0)%nat && (j =? x0)%nat)%bool eqn:E; [|discriminate].
      intros _. apply andb_prop in E. destruct E as (Q1 & Q2). apply Nat.eqb_eq in Q1, Q2. subst i j.
      exists p. split; [left; reflexivity|reflexivity].
    - exists p. rewrite EL. split; [left; reflexivity|]. repeat split. symmetry. exact Ev.
    - intros q Hq. rewrite EL in Hq. destruct Hq as [<-|[]]. rewrite Ev. lra.
    - exact EB.
    - exact EK'. }
  assert (L2 : length (log s2) = 1%nat) by (unfold s2, set_best, set_store; cbn [log]; rewrite EL; reflexivity).
  clearbody s2.
  destruct (rough sim base c a k0 (map (fifth (XM a)) (seq 0 5)) x0 s2) as (xi, s3) eqn:ER.
  destruct (rough_inv sim base c a (foul c) k0 x0 t b k0 (map (fifth (XM a)) (seq 0 5)) ltac:(lia)
    ltac:(repeat constructor; apply fifth_le; lia) x0 s2 xi s3 I2 ltac:(lia) ER) as (I3 & X3 & L3).
  cbn [map seq List.length] in L3.
  destruct (climb_inv sim base c a (foul c) k0 x0 t b limit fuel 0 (Z.of_nat xi) (Z.of_nat k0) 0 0 s3 I3 ltac:(lia) ltac:(lia))
    as [(Q1 & Q2)|(s & m & O & I' & Hm & Lm & LL & LO)].
  - left. split; [exact Q1|]. exact Q2.
  - right. exists s, m. split; [exact O|]. split; [exact I'|]. split; [exact Hm|]. split; [exact Lm|].
    split; [lia|]. exact LO.
Qed.

(** What the two exits leave behind. *)
Lemma saved c s0 s : s0 = save_best c s \/ s0 = save_best_alt c s ->
  log s0 = log s /\ bt s0 = kt s0 /\ (forall d, d <> c -> kt s0 d = kt s d) /\
  eN (kt s0 c) = best_xn s /\
  (eK (kt s0 c) = best_k s \/ (best_k s <= 0 /\ eK (kt s0 c) = dec 1 6)) /\
  (eQ (kt s0 c) = eQ (kt s c) \/ (best_k s <= 0 /\ eQ (kt s c) <= dec 1 6 /\ eQ (kt s0 c) = dec 1 6)).
Proof.
  intros [-> | ->]; unfold save_best, save_best_alt; cbn [log bt kt]; rewrite put_same; cbn [eK eN eQ];
    (split; [reflexivity|]); (split; [reflexivity|]); (split; [intros d Hd; apply put_other; exact Hd|]);
    (split; [reflexivity|]).
  - destruct (rleb (best_k s) 0) eqn:E; cbn [andb].
    + apply rleb_true in E. split; [right; split; [exact E|reflexivity]|].
      destruct (rleb (eQ (kt s c)) (dec 1 6)) eqn:E2; [right|left; reflexivity].
      apply rleb_true in E2. repeat split; assumption.
    + split; left; reflexivity.
  - split; left; reflexivity.
Qed.

(** Settings for which the axes exist and hold the starting point. *)
Lemma ceil_gt x z : IZR z < x -> (z < ceil x)%Z.
Proof.
  intros H. unfold ceil. assert (B := base_Int_part (- x)). destruct B as (B & _).
  assert (IZR (Int_part (- x)) < IZR (- z)) by (rewrite opp_IZR; lra).
  apply lt_IZR in H0. lia.
Qed.
Lemma ceil_le x z : x <= IZR z -> (ceil x <= z)%Z.
Proof.
  intros H. unfold ceil. assert (B := base_Int_part (- x)). destruct B as (_ & B).
  assert (IZR (- z - 1) < IZR (Int_part (- x))) by (rewrite minus_IZR, opp_IZR; lra).
  apply lt_IZR in H0. lia.
Qed.
Lemma axes_rows bf pm num des a : 0 < bf -> 0 < pm -> (0 < num)%nat ->
  make_axes rnd bf pm num des = Ok a -> KM a = (2 * num)%nat.
Proof.
  intros Hb Hp Hn. unfold make_axes.
  destruct (Nat.eqb num 0 || reqb (bf * pm / 100 / INR num) 0 || reqb des 0)%bool; [discriminate|].
  set (sc := bf * pm / 100 / INR num).
  destruct (Nat.eqb _ 0 || Nat.eqb _ 0)%bool; [discriminate|]. intros H. injection H as <-. cbn [KM].
  assert (HN : 0 < INR num) by (apply lt_0_INR; lia).
  assert (SC : 0 < sc).
  { unfold sc. apply Rdiv_lt_0_compat; [|exact HN]. apply Rdiv_lt_0_compat; [|lra]. apply Rmult_lt_0_compat; assumption. }
  assert (E : (bf * (1 + pm / 100) + sc / 2 - bf * (1 - pm / 100)) / sc = 2 * INR num + / 2).
  { unfold sc. field. repeat split; lra. }
  unfold arange_len. rewrite E.
  assert (E2 : 2 * INR num = IZR (2 * Z.of_nat num)) by (rewrite mult_IZR, <- INR_IZR_INZ; lra).
  assert (G := ceil_gt (2 * INR num + / 2) (2 * Z.of_nat num) ltac:(lra)).
  assert (L := ceil_le (2 * INR num + / 2) (2 * Z.of_nat num + 1) ltac:(rewrite plus_IZR; lra)).
  lia.
Qed.
Lemma axes_labels bf pm num des a : make_axes rnd bf pm num des = Ok a ->
  (forall i, kf a i = rnd 6%nat (bf * (1 - pm / 100) + INR i * (bf * pm / 100 / INR num))) /\
  (forall j, xs a j = rnd 3%nat (dec 2 1 + INR j * des)) /\
  (num <> 0)%nat /\ (XM a = arange_len (dec 2 1) (1 + des / 2) des - 1)%nat /\ des <> 0.
Proof.
  unfold make_axes. intros H.
  destruct (Nat.eqb num 0) eqn:E1; [discriminate|]. cbn [orb] in H.
  destruct (reqb (bf * pm / 100 / INR num) 0); [discriminate|]. cbn [orb] in H.
  destruct (reqb des 0) eqn:E2; [discriminate|]. cbn [orb] in H.
  destruct (Nat.eqb _ 0 || Nat.eqb _ 0)%bool; [discriminate|].
  injection H as <-. cbn. split; [reflexivity|]. split; [reflexivity|].
  split; [apply Nat.eqb_neq; exact E1|]. split; [reflexivity|]. apply reqb_false. exact E2.
Qed.
Lemma start_ok pm num des limit fuel c t b j : 0 < foul c -> 0 < pm -> (0 < num)%nat -> 0 < des ->
  dec 2 1 + INR j * des = start_xn ->
  forall e, search sim base foul rnd pm num des limit fuel c t b <> Done (Err e).
Proof.
  intros Hb Hp Hn Hd Hj e.
  assert (HN : 0 < INR num) by (apply lt_0_INR; lia).
  assert (SC : 0 < foul c * pm / 100 / INR num).
  { apply Rdiv_lt_0_compat; [|exact HN]. apply Rdiv_lt_0_compat; [|lra]. apply Rmult_lt_0_compat; assumption. }
  assert (NK : (0 < arange_len (foul c * (1 - pm / 100)) (foul c * (1 + pm / 100) + foul c * pm / 100 / INR num / 2) (foul c * pm / 100 / INR num))%nat).
  { unfold arange_len. set (sc := foul c * pm / 100 / INR num) in *.
    assert (E : (foul c * (1 + pm / 100) + sc / 2 - foul c * (1 - pm / 100)) / sc = 2 * INR num + / 2).
    { unfold sc. field. repeat split; lra. }
    rewrite E. assert (G := ceil_gt (2 * INR num + / 2) 0 ltac:(lra)). lia. }
  assert (NX : (S j <= arange_len (dec 2 1) (1 + des / 2) des)%nat).
  { unfold arange_len. assert (E : (1 + des / 2 - dec 2 1) / des = (1 - dec 2 1) / des + / 2) by (field; lra).
    rewrite E. assert (JD : INR j * des = dec 25 2) by (unfold start_xn, dec in *; lra).
    assert (J : INR j = dec 25 2 / des) by (rewrite <- JD; field; lra).
    assert (G := ceil_gt ((1 - dec 2 1) / des + / 2) (Z.of_nat j)). rewrite <- INR_IZR_INZ in G.
    assert (Z.of_nat j < ceil ((1 - dec 2 1) / des + / 2))%Z; [|lia]. apply G. rewrite J.
    assert (0 < / des) by (apply Rinv_0_lt_compat; lra). unfold dec, Rdiv in *. simpl pow. nra. }
  assert (AX : exists a, make_axes rnd (foul c) pm num des = Ok a).
  { unfold make_axes. replace (Nat.eqb num 0) with false by (symmetry; apply Nat.eqb_neq; lia). cbn [orb].
    destruct (reqb (foul c * pm / 100 / INR num) 0) eqn:B1; [apply reqb_true in B1; lra|].
    destruct (reqb des 0) eqn:B2; [apply reqb_true in B2; lra|]. cbn [orb].
    replace (Nat.eqb (arange_len (foul c * (1 - pm / 100)) (foul c * (1 + pm / 100) + foul c * pm / 100 / INR num / 2) (foul c * pm / 100 / INR num)) 0) with false
      by (symmetry; apply Nat.eqb_neq; lia).
    replace (Nat.eqb (arange_len (dec 2 1) (1 + des / 2) des) 0) with false by (symmetry; apply Nat.eqb_neq; lia).
    cbn [orb]. eexists. reflexivity. }
  destruct AX as (a & EA).
  destruct (axes_labels _ _ _ _ _ EA) as (LK & LX & _ & EX & _).
  assert (KMa := axes_rows _ _ _ _ _ Hb Hp Hn EA).
  destruct (find_label_ex (kf a) (rnd 6%nat (foul c)) (S (KM a)) 0 num) as (k0 & F1); [lia| |].
  { rewrite LK. f_equal. field. lra. }
  destruct (find_label_ex (xs a) (rnd 3%nat start_xn) (S (XM a)) 0 j) as (x0 & F2); [lia| |].
  { rewrite LX, Hj. reflexivity. }
  destruct (search_inv pm num des limit fuel c t b)
    as [(e' & H & [W|(a' & W & [N|N])])|(a' & k0' & x0' & EA' & _ & _ & _ & _ & [(H & _)|(s & m & [H|H] & _)])].
  - congruence.
  - assert (E' : a' = a) by congruence. subst a'. congruence.
  - assert (E' : a' = a) by congruence. subst a'. congruence.
  - rewrite H. discriminate.
  - rewrite H. discriminate.
  - rewrite H. discriminate.
Qed.
End Whole.

(** ** A run on a user-supplied table *)

Lemma rltb_yes x y : x < y -> rltb x y = true.
Proof. intros H. unfold rltb. destruct (Rlt_dec x y); [reflexivity|lra]. Qed.
Lemma rltb_no x y : y <= x -> rltb x y = false.
Proof. intros H. unfold rltb. destruct (Rlt_dec x y); [lra|reflexivity]. Qed.
Lemma rleb_yes x y : x <= y -> rleb x y = true.
Proof. intros H. unfold rleb. destruct (Rle_dec x y); [reflexivity|lra]. Qed.
Lemma rleb_no x y : y < x -> rleb x y = false.
Proof. intros H. unfold rleb. destruct (Rle_dec x y); [lra|reflexivity]. Qed.

Module Drift.
Section D.
Definition sim (c : string) (K n : R) : option R := Some (100 - K + 10 * ((n - dec 45 2) * (n - dec 45 2))).
Definition base (c : string) : option (R -> R) := None.
Definition tab : ktab := fun _ => {| eK := 10; eN := dec 45 2; eQ := 1 |}.
Definition A : string := "A"%string.
Variable a : axes.
Hypothesis HK : KM a = 2%nat.
Hypothesis HX : XM a = 3%nat.
Hypothesis k_0 : kf a 0%nat = dec 9 1.
Hypothesis k_1 : kf a 1%nat = 1.
Hypothesis k_2 : kf a 2%nat = dec 11 1.
Hypothesis x_0 : xs a 0%nat = dec 20 2.
Hypothesis x_1 : xs a 1%nat = dec 45 2.
Hypothesis x_2 : xs a 2%nat = dec 70 2.
Hypothesis x_3 : xs a 3%nat = dec 95 2.

Definition upd (row col : nat) (v : R) (f : nat -> nat -> option R) (i j : nat) : option R :=
  if (Nat.eqb i row && Nat.eqb j col)%bool then Some v else f i j.
Definition Sum (s : sstate) (kK : R) (f : nat -> nat -> option R) (bs bk : R) : Prop :=
  eK (kt s A) = kK /\ bt s = tab /\ (forall i j, store s i j = f i j) /\ best_ssq s = bs /\ best_k s = bk.
Lemma gbk s kK f bs bk xn : Sum s kK f bs bk -> get_base_k base A xn s = kK.
Proof. intros (H & _). exact H. Qed.
Lemma vnew al k kfv xn row col s kK f bs bk Kv v : Sum s kK f bs bk -> f row col = None ->
  k * kfv = Kv -> 100 - Kv + 10 * ((xn - dec 45 2) * (xn - dec 45 2)) = v ->
  exists s', visit sim al A k kfv xn row col s = (v, s') /\
    Sum s' 10 (upd row col v f) (if rltb v bs then v else bs) (if rltb v bs then Kv else bk).
Proof.
  intros (H1 & H2 & H3 & H4 & H5) HN HKv HV. unfold visit, get_ssq. rewrite H3, HN. unfold sim. rewrite HKv, HV.
  cbn [set_kt add_log store log bt kt best_ssq]. rewrite H3, HN. cbn [set_store set_kt add_log best_ssq]. rewrite H4.
  eexists. split; [reflexivity|].
  destruct (rltb v bs); unfold Sum; cbn [set_best set_store set_kt add_log kt bt store best_ssq best_k]; rewrite H2;
    (split; [reflexivity|]); (split; [reflexivity|]);
    (split; [intros i j; unfold upd; rewrite H3; reflexivity|]).
  - split; [reflexivity|]. rewrite <- HKv. ring.
  - split; [first [exact H4|reflexivity]|exact H5].
Qed.
Lemma vold al k kfv xn row col s kK f bs bk Kv v : Sum s kK f bs bk -> f row col = Some v ->
  k * kfv = Kv -> bs <= v ->
  exists s', visit sim al A k kfv xn row col s = (v, s') /\ Sum s' Kv f bs bk.
Proof.
  intros (H1 & H2 & H3 & H4 & H5) HN HKv HV. unfold visit, get_ssq. rewrite H3, HN.
  cbn [set_kt store]. rewrite H3, HN. cbn [set_store best_ssq].
  assert (E : best_ssq (if al then set_store row col v (set_kt (trial A (k * kfv) xn (kt s)) s)
                        else set_kt (trial A (k * kfv) xn (kt s)) s) = bs) by (destruct al; exact H4).
  rewrite E, (rltb_no v bs HV). eexists. split; [reflexivity|].
  unfold Sum. split; [|split; [|split; [|split]]].
  - destruct al; cbn [set_store set_kt kt]; unfold trial; rewrite put_same; exact HKv.
  - destruct al; exact H2.
  - intros i j. destruct al; cbn [set_store set_kt store]; [|apply H3].
    destruct (Nat.eqb_spec i row) as [->|]; [|apply H3]. destruct (Nat.eqb_spec j col) as [->|]; [|apply H3].
    cbn [andb]. symmetry. exact HN.
  - exact E.
  - destruct al; exact H5.
Qed.

Ltac bases := repeat match goal with
  | H : Sum ?s _ _ _ _ |- context [get_base_k base A ?x ?s] => rewrite (gbk _ _ _ _ _ x H)
  end.
Ltac num := bases; rewrite ?k_0, ?k_1, ?k_2, ?x_0, ?x_1, ?x_2, ?x_3; unfold dec, huge; simpl pow; lra.
Ltac new HS Kv v :=
  match goal with
  | |- context [visit sim ?al A ?k ?kfv ?xn ?row ?col ?s] =>
    let s' := fresh "s" in let E := fresh in let HS' := fresh "HS" in
    destruct (vnew al k kfv xn row col s _ _ _ _ Kv v HS eq_refl) as (s' & E & HS');
      [num | num | rewrite E; clear E];
    first [rewrite !(rltb_no v) in HS' by num | rewrite !(rltb_yes v) in HS' by num]
  end.
Ltac old HS Kv :=
  match goal with
  | |- context [visit sim ?al A ?k ?kfv ?xn ?row ?col ?s] =>
    let s' := fresh "s" in let E := fresh in let HS' := fresh "HS" in
    destruct (vold al k kfv xn row col s _ _ _ _ Kv _ HS eq_refl) as (s' & E & HS');
      [num | num | rewrite E; clear E]
  end.
Ltac go := cbv iota; rewrite ?pos_in by lia; cbn [bind].

Definition F0 := upd 1 3 (92 + dec 5 1) (upd 1 2 (90 + dec 625 3) (upd 1 0 (90 + dec 625 3) (upd 1 1 90 (fun _ _ => None)))).
Definition F1 := upd 0 1 91 (upd 2 1 89 F0).
Definition F2 := upd 2 0 (89 + dec 625 3) (upd 2 2 (88 + dec 525 3) F1).

Lemma pass_1 s : Sum s 10 F0 90 10 -> exists s', pass sim base A a 1 1 s = Ok (90, 0%Z, 1%Z, s') /\ Sum s' 10 F1 89 11.
Proof.
  intros HS. unfold pass. rewrite HX, HK, !pos_in by lia. cbn [bind].
  change (Z.to_nat 1) with 1%nat. old HS 10.
  change (1 <? Z.of_nat 3)%Z with true. go. change (Z.to_nat (1 + 1)) with 2%nat. old HS0 10.
  change (1 <=? 1)%Z with true. go. change (Z.to_nat (1 - 1)) with 0%nat. old HS1 10.
  change (1 <? Z.of_nat 2)%Z with true. go. change (Z.to_nat (1 + 1)) with 2%nat. new HS2 11 89.
  go. change (Z.to_nat (1 - 1)) with 0%nat. new HS3 9 91.
  rewrite (rleb_no (90 + dec 625 3) 90) by num. rewrite (rleb_yes 89 90) by num.
  eexists. split; [reflexivity|exact HS4].
Qed.
Lemma pass_2 s : Sum s 10 F1 89 11 -> exists s', pass sim base A a 1 2 s = Ok (89, 1%Z, 0%Z, s') /\
  Sum s' 10 F2 (88 + dec 525 3) (dec 121 1).
Proof.
  intros HS. unfold pass. rewrite HX, HK, !pos_in by lia. cbn [bind].
  change (Z.to_nat 1) with 1%nat. change (Z.to_nat 2) with 2%nat. old HS 11.
  change (1 <? Z.of_nat 3)%Z with true. go. change (Z.to_nat (1 + 1)) with 2%nat. new HS0 (dec 121 1) (88 + dec 525 3).
  change (1 <=? 1)%Z with true. go. change (Z.to_nat (1 - 1)) with 0%nat. new HS1 11 (89 + dec 625 3).
  change (2 <? Z.of_nat 2)%Z with false. go. change (1 <=? 2)%Z with true. go.
  change (Z.to_nat (2 - 1)) with 1%nat. old HS2 10.
  rewrite (rleb_yes (88 + dec 525 3) 89) by num. rewrite (rleb_no huge 89) by num. rewrite (rleb_no 90 89) by num.
  eexists. split; [reflexivity|exact HS3].
Qed.
Lemma pass_3 s : Sum s 10 F2 (88 + dec 525 3) (dec 121 1) ->
  exists s', pass sim base A a 2 2 s = Ok (88 + dec 525 3, 0%Z, 0%Z, s') /\
  best_ssq s' = 88 + dec 525 3 /\ best_k s' = dec 121 1.
Proof.
  intros HS. unfold pass. rewrite HX, HK, !pos_in by lia. cbn [bind].
  change (Z.to_nat 2) with 2%nat. old HS 11.
  change (2 <? Z.of_nat 3)%Z with true. go. change (Z.to_nat (2 + 1)) with 3%nat. new HS0 (dec 121 1) (90 + dec 4 1).
  change (1 <=? 2)%Z with true. go. change (Z.to_nat (2 - 1)) with 1%nat. old HS1 11.
  change (2 <? Z.of_nat 2)%Z with false. go.
  change (Z.to_nat (2 - 1)) with 1%nat. old HS2 10.
  rewrite (rleb_no (90 + dec 4 1) (88 + dec 525 3)) by num. rewrite (rleb_no 89 (88 + dec 525 3)) by num.
  rewrite (rleb_no huge (88 + dec 525 3)) by num. rewrite (rleb_no (90 + dec 625 3) (88 + dec 525 3)) by num.
  eexists. split; [reflexivity|]. destruct HS3 as (_ & _ & _ & H1 & H2). split; assumption.
Qed.

Lemma drift_search s0 limit fuel : (3 <= fuel)%nat -> 3 < limit ->
  Sum s0 10 (upd 1 1 90 (fun _ _ => None)) 90 10 ->
  exists s, (let (xi, s3) := rough sim base A a 1 (map (fifth (XM a)) (seq 0 5)) 1 s0 in
    climb sim base A a limit fuel 0 (Z.of_nat xi) (Z.of_nat 1) 0 0 s3) = Done (Ok s) /\
    eK (kt s A) = dec 121 1.
Proof.
  intros HF HL HS. rewrite HX. change (map (fifth 3) (seq 0 5)) with [0; 1; 2; 2; 3]%nat.
  unfold rough.
  new HS 10 (90 + dec 625 3). rewrite rltb_no by (destruct HS as (_ & _ & _ & -> & _); num).
  old HS0 10. rewrite rltb_no by (destruct HS0 as (_ & _ & _ & -> & _); num).
  new HS1 10 (90 + dec 625 3). rewrite rltb_no by (destruct HS1 as (_ & _ & _ & -> & _); num).
  old HS2 10. rewrite rltb_no by (destruct HS2 as (_ & _ & _ & -> & _); num).
  new HS3 10 (92 + dec 5 1). rewrite rltb_no by (destruct HS3 as (_ & _ & _ & -> & _); num).
  clear HS HS0 HS1 HS2 HS3.
  destruct fuel as [|[|[|fuel]]]; [lia|lia|lia|]. cbn [climb].
  change (Z.of_nat 1 + 0)%Z with 1%Z.
  destruct (pass_1 s4 HS4) as (s5 & -> & H5). cbn iota beta.
  destruct H5 as (A1 & A2 & A3 & A4 & A5). rewrite A4.
  rewrite (Rabs_right (90 - 89)), (rleb_no (90 - 89)), (rleb_no limit (INR 1)) by (try simpl INR; num).
  cbn [orb andb Z.eqb]. change (1 + 0)%Z with 1%Z. change (1 + 1)%Z with 2%Z.
  destruct (pass_2 s5 (conj A1 (conj A2 (conj A3 (conj A4 A5))))) as (s6 & -> & B1 & B2 & B3 & B4 & B5).
  rewrite B4, (Rabs_right (89 - _)), (rleb_no (89 - _)), (rleb_no limit (INR 2)) by (try simpl INR; num).
  cbn [orb andb Z.eqb]. change (1 + 1)%Z with 2%Z. change (2 + 0)%Z with 2%Z.
  destruct (pass_3 s6 (conj B1 (conj B2 (conj B3 (conj B4 B5))))) as (s7 & -> & C1 & C2).
  rewrite C1. replace (88 + dec 525 3 - (88 + dec 525 3)) with 0 by lra. rewrite Rabs_R0, (rleb_yes 0) by num.
  cbn [orb]. eexists. split; [reflexivity|].
  unfold save_best. cbn [kt]. rewrite put_same. cbn [eK]. rewrite C2, rleb_no by num. reflexivity.
Qed.
End D.
End Drift.
