(** Property C177: the grid fits and the ranges of the user. *)
From Coq Require Import Reals List Arith Bool String ZArith Lra Lia.
From Verif Require Import Lib_Py Lib_Pow P_GacFun M_GacFun M_GacMin P_GacMin M_GacSmart P_GacSmart M_GacFit P_GacFit Props_GacMin Props_GacFit.
Import ListNotations.
Open Scope R_scope.
Local Notation length := List.length.

(** ** One axis *)
Lemma bind_inv {A B} (r : res A) (f : A -> res B) y : bind r f = Ok y -> exists x, r = Ok x /\ f x = Ok y.
Proof. destruct r as [x|e]; cbn; intros H; [exists x; split; [reflexivity|exact H]|discriminate H]. Qed.
Lemma fold_max_in l : forall x mn mx, mn <= x <= mx -> (forall y, In y l -> mn <= y <= mx) -> mn <= fold_left Rmax l x <= mx.
Proof.
  induction l as [|a l IH]; intros x mn mx H A; cbn; [exact H|]. apply IH; [|intros y I; apply A; right; exact I].
  pose proof (A a (or_introl eq_refl)). unfold Rmax. destruct (Rle_dec x a); lra.
Qed.
Lemma fold_min_in l : forall x mn mx, mn <= x <= mx -> (forall y, In y l -> mn <= y <= mx) -> mn <= fold_left Rmin l x <= mx.
Proof.
  induction l as [|a l IH]; intros x mn mx H A; cbn; [exact H|]. apply IH; [|intros y I; apply A; right; exact I].
  pose proof (A a (or_introl eq_refl)). unfold Rmin. destruct (Rle_dec x a); lra.
Qed.
Lemma fold_max_ge l : forall x, x <= fold_left Rmax l x.
Proof. induction l as [|a l IH]; intros x; cbn; [lra|]. eapply Rle_trans; [apply Rmax_l|apply IH]. Qed.
Lemma fold_min_le l : forall x, fold_left Rmin l x <= x.
Proof. induction l as [|a l IH]; intros x; cbn; [lra|]. eapply Rle_trans; [apply IH|apply Rmin_l]. Qed.
Lemma lin_nth lo hi n i : (i < S (S n))%nat -> nth i (linspace lo hi (S (S n))) 0 = lo + INR i * ((hi - lo) / INR (S n)).
Proof.
  intros H. unfold linspace. set (f := fun i => lo + INR i * ((hi - lo) / INR (S n))).
  rewrite (nth_indep _ 0 (f 0%nat)) by (rewrite map_length, seq_length; exact H). rewrite (map_nth f), seq_nth by exact H. reflexivity.
Qed.
Lemma lin_bounds lo hi n v : lo <= hi -> In v (linspace lo hi n) -> lo <= v <= hi.
Proof.
  intros L I. destruct n as [|[|n]]; [destruct I|destruct I as [<-|[]]; lra|].
  apply (In_nth _ _ 0) in I as (i & Hi & <-). rewrite Staged.lin_len in Hi. rewrite lin_nth by exact Hi.
  assert (P : 0 < INR (S n)) by (apply lt_0_INR; lia). assert (Q : 0 <= (hi - lo) / INR (S n)) by (unfold Rdiv; apply Rmult_le_pos; [lra|apply Rlt_le, Rinv_0_lt_compat, P]).
  assert (I0 : 0 <= INR i) by apply pos_INR. assert (I1 : INR i <= INR (S n)) by (apply le_INR; lia).
  assert (E : INR (S n) * ((hi - lo) / INR (S n)) = hi - lo) by (field; lra). nra.
Qed.

Definition axis_ok (mn mx des lo hi : R) (n : nat) : Prop :=
  lo <= hi /\ ((mn <= lo /\ hi <= mx) \/ (n = 2%nat /\ hi = lo + des /\ mn - des <= lo /\ hi <= mx + des)).
Lemma refine_ok mn mx des lo hi n i xt n' : 0 < des -> axis_ok mn mx des lo hi n -> (2 <= n)%nat -> (i < n)%nat ->
  refine des (linspace lo hi n) i n = (xt, n') -> axis_ok mn mx des (fst xt) (snd xt) n'.
Proof.
  intros D (L & A) N I E. destruct n as [|[|n]]; [lia|lia|]. unfold refine in E. rewrite Staged.lin_len in E.
  assert (P : 0 < INR (S n)) by (apply lt_0_INR; lia). set (g := (hi - lo) / INR (S n)) in *.
  assert (G0 : 0 <= g) by (unfold g, Rdiv; apply Rmult_le_pos; [lra|apply Rlt_le, Rinv_0_lt_compat, P]).
  assert (GE : INR (S n) * g = hi - lo) by (unfold g; field; lra).
  assert (NT : forall j, (j < S (S n))%nat -> nth j (linspace lo hi (S (S n))) 0 = lo + INR j * g) by (intros j Hj; apply lin_nth; exact Hj).
  assert (BD : forall j, (j < S (S n))%nat -> lo <= nth j (linspace lo hi (S (S n))) 0 <= hi).
  { intros j Hj. apply lin_bounds with (n := S (S n)); [exact L|apply nth_In; rewrite Staged.lin_len; exact Hj]. }
  assert (MO : forall j k, (j <= k < S (S n))%nat -> nth j (linspace lo hi (S (S n))) 0 <= nth k (linspace lo hi (S (S n))) 0).
  { intros j k Hj. rewrite !NT by lia. assert (INR j <= INR k) by (apply le_INR; lia). nra. }
  replace (S (S n) - 1)%nat with (S n) in E by lia. replace (S (S n) - 2)%nat with n in E by lia.
  assert (FIRST : nth 0 (linspace lo hi (S (S n))) 0 = lo) by (rewrite NT by lia; cbn; lra).
  assert (LAST : nth (S n) (linspace lo hi (S (S n))) 0 = hi) by (rewrite NT by lia; lra).
  destruct A as [A|(A1 & A2 & A3 & A4)].
  2: { assert (n = 0%nat) by lia. subst n. assert (GD : g = des) by (cbn [INR] in GE; lra).
    assert (S1 : rltb (nth 1 (linspace lo hi 2) 0 - nth 0 (linspace lo hi 2) 0) des = false) by (apply rltb_no; rewrite LAST, FIRST; lra).
    rewrite S1 in E. unfold axis_ok. destruct i as [|[|i]]; [| |lia]; cbn [Nat.eqb] in E; rewrite FIRST, LAST in E;
    assert (xt = (lo, hi)) as -> by congruence; assert (n' = 2%nat) as -> by congruence; cbn [fst snd]; split; try lra; right; repeat split; lra. }
  unfold axis_ok.
  assert (TMP : forall lo' hi' : R, mn <= lo' -> lo' <= hi' -> hi' <= mx -> lo' <= hi' /\ ((mn <= lo' /\ hi' <= mx) \/ (n' = 2%nat /\ hi' = lo' + des /\ mn - des <= lo' /\ hi' <= mx + des))) by (intros; split; [assumption|left; split; assumption]).
  pose proof (BD 1%nat ltac:(lia)) as B1. pose proof (BD n ltac:(lia)) as BN.
  destruct (rltb _ des).
  - destruct (Nat.eqb_spec i (S n)) as [Q|Q].
    + assert (i <> 0)%nat as Z by lia. apply Nat.eqb_neq in Z. rewrite Z in E. cbn [snd fst] in E. rewrite LAST in E.
      assert (xt = (hi - des, hi)) as -> by congruence. assert (n' = 2%nat) as -> by congruence. cbn [fst snd]. split; [lra|]. right. repeat split; lra.
    + destruct (Nat.eqb_spec i 0) as [Z|Z].
      * cbn [fst snd] in E. rewrite FIRST in E. assert (xt = (lo, lo + des)) as -> by congruence. assert (n' = 2%nat) as -> by congruence. cbn [fst snd]. split; [lra|]. right. repeat split; lra.
      * assert (xt = (nth (i - 1) (linspace lo hi (S (S n))) 0, nth (i + 1) (linspace lo hi (S (S n))) 0)) as -> by congruence. cbn [fst snd].
        pose proof (BD (i - 1)%nat ltac:(lia)). pose proof (BD (i + 1)%nat ltac:(lia)). pose proof (MO (i - 1)%nat (i + 1)%nat ltac:(lia)). apply TMP; lra.
  - destruct (Nat.eqb_spec i 0) as [Z|Z].
    + assert (xt = (nth 0 (linspace lo hi (S (S n))) 0, nth 1 (linspace lo hi (S (S n))) 0)) as -> by congruence. cbn [fst snd]. rewrite FIRST. apply TMP; lra.
    + destruct (Nat.eqb_spec i (S n)) as [Q|Q].
      * assert (xt = (nth n (linspace lo hi (S (S n))) 0, nth (S n) (linspace lo hi (S (S n))) 0)) as -> by congruence. cbn [fst snd]. rewrite LAST. apply TMP; lra.
      * assert (xt = (nth (i - 1) (linspace lo hi (S (S n))) 0, nth (i + 1) (linspace lo hi (S (S n))) 0)) as -> by congruence. cbn [fst snd].
        pose proof (BD (i - 1)%nat ltac:(lia)). pose proof (BD (i + 1)%nat ltac:(lia)). pose proof (MO (i - 1)%nat (i + 1)%nat ltac:(lia)). apply TMP; lra.
Qed.
Lemma rindex_lt v l : forall i, rindex v l = Ok i -> (i < length l)%nat.
Proof.
  induction l as [|a l IH]; intros i E; cbn in E; [discriminate|]. destruct (reqb a v); [assert (i = 0%nat) by congruence; subst; cbn; lia|].
  destruct (rindex v l) as [j|] eqn:R; [|discriminate E]. cbn in E. assert (i = S j) by congruence. subst. cbn. specialize (IH j eq_refl). lia.
Qed.
Lemma floor_down x d : 0 < d -> x - d < IZR (floor (x / d)) * d <= x.
Proof.
  intros D. unfold floor. destruct (base_Int_part (x / d)) as (A & B).
  assert (E : x / d * d = x) by (field; lra). split; [|nra]. assert (x / d < IZR (Int_part (x / d)) + 1) by lra. nra.
Qed.
Lemma ceil_up x d : 0 < d -> x <= IZR (ceil (x / d)) * d < x + d.
Proof.
  intros D. unfold ceil. rewrite opp_IZR. destruct (base_Int_part (- (x / d))) as (A & B).
  assert (E : x / d * d = x) by (field; lra). split; [|assert (- (x / d) < IZR (Int_part (- (x / d))) + 1) by lra]; nra.
Qed.

(** ** Rounds *)
Section Rounds.
Variables (sim : string -> R -> R -> option R) (no_table : bool) (self_xn : R).
Variables (ox ok : list R) (xmin xmax kmin kmax : R).
Hypothesis OX : forall x, In x ox -> xmin <= x <= xmax.
Hypothesis NX : ox <> [].

Definition ready (des mn mx : R) (more il : nat) (l : list R) (n : nat) (tmp : R * R) : Prop :=
  (2 <= length l)%nat /\ exists lo hi, np_min l = Ok lo /\ np_max l = Ok hi /\ axis_ok mn mx des lo hi n /\ ((more < il)%nat -> tmp = (lo, hi)).
Lemma ready_pair des mn mx more il lo hi n : axis_ok mn mx des lo hi n -> ready des mn mx more il [lo; hi] n (lo, hi).
Proof.
  intros A. split; [cbn; lia|]. exists lo, hi. cbn. assert (L := proj1 A). rewrite Rmax_right, Rmin_left by exact L. split; [reflexivity|]. split; [reflexivity|]. split; [exact A|reflexivity].
Qed.
Lemma axis_grid d1 d2 n loop l lo hi g : (2 <= length l)%nat -> np_min l = Ok lo -> np_max l = Ok hi -> grid_axis d1 d2 n loop l = Ok g -> g = linspace lo hi n.
Proof.
  intros L E1 E2 G. unfold grid_axis in G. assert (Q : Nat.eqb (length l) 1 = false) by (apply Nat.eqb_neq; lia). rewrite Q, andb_false_r, E1, E2 in G. cbn in G. congruence.
Qed.
Lemma two_axis d1 d2 n loop a b g v mn mx : grid_axis d1 d2 n loop [a; b] = Ok g -> mn <= a <= mx -> mn <= b <= mx -> In v g -> mn <= v <= mx.
Proof.
  intros G A B I. unfold grid_axis in G. cbn [length Nat.eqb] in G. rewrite andb_false_r in G. cbn in G.
  assert (g = linspace (Rmin a b) (Rmax a b) n) as -> by congruence.
  apply lin_bounds in I; [|apply Rle_trans with a; [apply Rmin_l|apply Rmax_l]].
  revert I. unfold Rmin, Rmax. destruct (Rle_dec a b); lra.
Qed.
Lemma two_axis_strict d1 d2 n loop a b g v mn mx : grid_axis d1 d2 n loop [a; b] = Ok g -> mn < a < mx -> mn < b < mx -> In v g -> mn < v < mx.
Proof.
  intros G A B I. unfold grid_axis in G. cbn [length Nat.eqb] in G. rewrite andb_false_r in G. cbn in G.
  assert (g = linspace (Rmin a b) (Rmax a b) n) as -> by congruence.
  apply lin_bounds in I; [|apply Rle_trans with a; [apply Rmin_l|apply Rmax_l]].
  revert I. unfold Rmin, Rmax. destruct (Rle_dec a b); lra.
Qed.
Lemma last_in (l : list R) : l <> [] -> In (last l 0) l.
Proof. induction l as [|a [|b l] IH]; intros N; [congruence|left; reflexivity|right; apply IH; discriminate]. Qed.

Definition inside (c : string) (km : R -> R) (p : fpoint) : Prop :=
  exists k x, p = pt sim c km (k, x) /\ xmin - 2 * des_xn < x < xmax + 2 * des_xn /\ kmin - 2 * des_k < k < kmax + 2 * des_k.
Lemma des_pos : 0 < des_xn /\ 0 < des_k.
Proof. unfold des_xn, des_k, dec. simpl pow. lra. Qed.

Lemma rounds_range c km more il : (1 <= il)%nat -> forall x1 k1 nx nk s mk mx s', (more <= il)%nat ->
  ready des_xn xmin xmax more il x1 nx (xtmp s) -> ready des_k kmin kmax more il k1 nk (ktmp s) ->
  rounds sim no_table more true il ox ok c km x1 k1 nx nk s = Ok (mk, mx, s') ->
  (exists l, flog s' = (l ++ flog s)%list /\ Forall (inside c km) l) /\
  xmin - 2 * des_xn < mx <= xmax /\ kmin - 2 * des_k < mk < kmax + 2 * des_k.
Proof.
  intros IL. destruct des_pos as (DX & DK).
  assert (PTS : forall xs ks, (forall x, In x xs -> xmin - 2 * des_xn < x < xmax + 2 * des_xn) -> (forall k, In k ks -> kmin - 2 * des_k < k < kmax + 2 * des_k) ->
    Forall (inside c km) (rev (map (pt sim c km) (list_prod ks xs)))).
  { intros xs ks HX HK. apply Forall_forall. intros p I. apply in_rev in I. apply in_map_iff in I as ((k & x) & <- & I). apply in_prod_iff in I as (I1 & I2). exists k, x. split; [reflexivity|]. split; auto. }
  induction more as [|more IH]; intros x1 k1 nx nk s mk mx s' ML (LX & xlo & xhi & X1 & X2 & XA & XT) (LK & klo & khi & K1 & K2 & KA & KT) H; cbn [rounds] in H;
    (destruct (round_grid true _ il ox ok x1 k1 nx nk s) as [[xs ks]|] eqn:G; cbn [bind] in H; [|discriminate]);
    (destruct (eval_grid _ _ _ _ _ _ _) as [[rows s1]|] eqn:EG; cbn [bind] in H; [|discriminate]);
    (destruct (find_min _) as [[[a b] v]|] eqn:FM; cbn [bind] in H; [|discriminate]);
    (destruct (_ || _)%bool eqn:LB; [discriminate|]);
    (destruct (rindex b xs) as [ix|] eqn:RX; cbn [bind] in H; [|discriminate]);
    (destruct (rindex a ks) as [ik|] eqn:RK; cbn [bind] in H; [|discriminate]);
    destruct (refine des_xn xs ix nx) as [xt nx'] eqn:FX; destruct (refine des_k ks ik nk) as [kt nk'] eqn:FK;
    destruct (eval_grid_ok _ _ self_xn _ _ _ _ _ _ _ EG) as (_ & R); destruct R as (_ & R2 & _);
    apply orb_false_iff in LB as (LB1 & LB2); apply Nat.leb_gt in LB1, LB2.
  - assert (H1 : mk = a) by congruence. assert (H2 : mx = b) by congruence. assert (H3 : s' = set_tmp xt kt s1) by congruence. subst mk mx s'. clear H.
    rewrite Nat.sub_0_r in G. unfold round_grid in G. rewrite Nat.eqb_refl, (XT ltac:(lia)), (KT ltac:(lia)) in G. cbn [fst snd] in G.
    unfold generate_grid in G. destruct (bind_inv _ _ _ G) as (gx & GX & G1). destruct (bind_inv _ _ _ G1) as (gk & GK & G2).
    assert (gx = xs) by congruence. assert (gk = ks) by congruence. subst gx gk.
    pose proof (floor_down xlo _ DX) as FL. pose proof (ceil_up xhi _ DX) as CE. pose proof (floor_down klo _ DK) as FLK. pose proof (ceil_up khi _ DK) as CEK.
    pose proof (OX _ (last_in _ NX)) as LO.
    assert (XL : xmin - des_xn <= xlo <= xmax /\ xmin <= xhi <= xmax + des_xn) by (destruct XA as (? & [?|(? & ? & ? & ?)]); lra).
    assert (KL : kmin - des_k <= klo <= kmax /\ kmin <= khi <= kmax + des_k) by (destruct KA as (? & [?|(? & ? & ? & ?)]); lra).
    assert (XB : forall x, In x xs -> xmin - 2 * des_xn < x <= xmax).
    { intros x I. split.
      - apply (two_axis_strict _ _ _ _ _ _ _ _ (xmin - 2 * des_xn) (xmax + 2 * des_xn) GX); [lra| |exact I].
        destruct (rltb _ _) eqn:Q; [lra|apply rltb_false in Q; lra].
      - apply (two_axis _ _ _ _ _ _ _ _ (xmin - 2 * des_xn) xmax GX); [lra| |exact I]. destruct (rltb _ _) eqn:Q; [lra|apply rltb_false in Q; lra]. }
    assert (KB : forall k, In k ks -> kmin - 2 * des_k < k < kmax + 2 * des_k) by (intros k I; apply (two_axis_strict _ _ _ _ _ _ _ _ _ _ GK); [lra|lra|exact I]).
    split; [|split; [apply XB; eapply rindex_ok; exact RX|apply KB; eapply rindex_ok; exact RK]].
    eexists. split; [exact R2|]. apply PTS; [intros x I; pose proof (XB x I); lra|exact KB].
  - unfold round_grid in G. assert (Q : Nat.eqb (il - S more) il = false) by (apply Nat.eqb_neq; lia). rewrite Q in G.
    unfold generate_grid in G. destruct (bind_inv _ _ _ G) as (gx & GX & G1). destruct (bind_inv _ _ _ G1) as (gk & GK & G2).
    assert (gx = xs) by congruence. assert (gk = ks) by congruence. subst gx gk.
    apply (axis_grid _ _ _ _ _ _ _ _ LX X1 X2) in GX. apply (axis_grid _ _ _ _ _ _ _ _ LK K1 K2) in GK. subst xs ks.
    pose proof (rindex_lt _ _ _ RX) as IX. pose proof (rindex_lt _ _ _ RK) as IK.
    assert (LEN : forall lo hi n, length (linspace lo hi n) = n) by (intros lo hi [|[|n]]; [reflexivity|reflexivity|apply Staged.lin_len]).
    rewrite LEN in IX, IK, LB1, LB2.
    pose proof (refine_ok _ _ _ _ _ _ _ _ _ DX XA ltac:(lia) IX FX) as XA'. pose proof (refine_ok _ _ _ _ _ _ _ _ _ DK KA ltac:(lia) IK FK) as KA'.
    destruct xt as [xlo' xhi'], kt as [klo' khi']. cbn [fst snd] in *.
    assert (M2 : (more <= il)%nat) by lia.
    destruct (IH [xlo'; xhi'] [klo'; khi'] nx' nk' (set_tmp (xlo', xhi') (klo', khi') s1) _ _ _ M2 (ready_pair _ _ _ _ _ _ _ _ XA') (ready_pair _ _ _ _ _ _ _ _ KA') H) as ((l & E & F) & B). split; [|exact B].
    cbn [flog set_tmp] in E. rewrite R2 in E. exists (l ++ rev (map (pt sim c km) (list_prod (linspace klo khi nk) (linspace xlo xhi nx))))%list.
    split; [rewrite <- app_assoc; exact E|]. apply Forall_app. split; [exact F|].
    apply PTS; intros y I; apply lin_bounds in I; [|exact (proj1 XA)| |exact (proj1 KA)];
      [destruct XA as (? & [?|(? & ? & ? & ?)]); lra|destruct KA as (? & [?|(? & ? & ? & ?)]); lra].
Qed.
End Rounds.

Lemma first_axis l mn mx : (2 <= length l)%nat -> (forall x, In x l -> mn <= x <= mx) -> forall des il n tmp, ready des mn mx il il l n tmp.
Proof.
  intros L B des il n tmp. split; [exact L|]. destruct l as [|a l]; [cbn in L; lia|]. exists (fold_left Rmin l a), (fold_left Rmax l a).
  split; [reflexivity|]. split; [reflexivity|]. split; [|intros; lia].
  pose proof (B a (or_introl eq_refl)) as A. assert (B' : forall y, In y l -> mn <= y <= mx) by (intros y I; apply B; right; exact I).
  pose proof (fold_max_in l a mn mx A B'). pose proof (fold_min_in l a mn mx A B').
  split; [eapply Rle_trans; [apply fold_min_le|apply fold_max_ge]|left; lra].
Qed.
Lemma des_xn_is : des_xn = 1 / 40. Proof. unfold des_xn, dec. simpl pow. field. Qed.
Lemma des_k_is : des_k = 1 / 10. Proof. unfold des_k, dec. simpl pow. field. Qed.

(** ** C177 *)
(** The staged fit, with any number of rounds from one on, any grid and any two or more
    values on each axis, never tries a 1/n more than 0.05 or a multiplier of K more than
    0.2 outside the values given, and the 1/n it stores is at most the greatest one given. *)
Theorem C177_near_the_ranges_partial : forall sim no_table self_xn grid loop xn_range k_range c s s' xmin xmax kmin kmax,
  (1 <= loop)%nat -> (2 <= length xn_range)%nat -> (2 <= length k_range)%nat ->
  (forall x, In x xn_range -> xmin <= x <= xmax) -> (forall k, In k k_range -> kmin <= k <= kmax) ->
  fit_one sim no_table self_xn true grid loop xn_range k_range c s = Ok s' ->
  (exists l, new_runs s s' l /\ forall p, In p l -> f_comp p = c /\ exists k, f_K p = K_of self_xn (ft s) c k (f_N p) /\
     xmin - 1 / 20 < f_N p < xmax + 1 / 20 /\ kmin - 1 / 5 < k < kmax + 1 / 5) /\
  (exists k, eK (ft s' c) = K_of self_xn (ft s) c k (eN (ft s' c)) /\ kmin - 1 / 5 < k < kmax + 1 / 5) /\
  xmin - 1 / 20 < eN (ft s' c) <= xmax.
Proof.
  intros sim nt xn ig il ox ok c s s' xmin xmax kmin kmax IL LX LK BX BK H. unfold fit_one in H.
  destruct (rounds _ _ _ _ _ _ _ _ _ _ _ _ _ _) as [[[mk mx] s1]|] eqn:E; cbn [bind] in H; [|discriminate].
  assert (NX : ox <> []) by (destruct ox; [cbn in LX; lia|discriminate]).
  destruct (rounds_range sim nt xn ox ok xmin xmax kmin kmax BX NX c _ il il IL ox ok ig ig s mk mx s1 (Nat.le_refl _)
    (first_axis ox xmin xmax LX BX _ _ _ _) (first_axis ok kmin kmax LK BK _ _ _ _) E) as ((l & L1 & L2) & M1 & M2).
  rewrite des_xn_is in *. rewrite des_k_is in *.
  match type of H with Ok ?x = _ => assert (s' = x) as -> by congruence end. cbn [ft flog set_ft]. unfold trial. rewrite put_same. cbn [eK eN].
  split; [|split].
  - exists l. split; [exact L1|]. intros p I. rewrite Forall_forall in L2. destruct (L2 p I) as (k & x & -> & B1 & B2). rewrite des_xn_is in B1. rewrite des_k_is in B2. split; [reflexivity|].
    exists k. unfold pt. cbn [f_K f_N fst snd]. split; [reflexivity|]. lra.
  - exists mk. split; [reflexivity|lra].
  - lra.
Qed.
(** The exhaustive fit tries the given values and no others. *)
Theorem C177_exhaustive_partial : forall sim no_table self_xn grid loop xn_range k_range c s s',
  fit_one sim no_table self_xn false grid loop xn_range k_range c s = Ok s' ->
  (exists l, new_runs s s' l /\ forall p, In p l -> f_comp p = c /\ In (f_N p) xn_range /\ exists k, In k k_range /\ f_K p = K_of self_xn (ft s) c k (f_N p)) /\
  In (eN (ft s' c)) xn_range /\ exists k, In k k_range /\ eK (ft s' c) = K_of self_xn (ft s) c k (eN (ft s' c)).
Proof.
  intros sim nt xn ig il ox ok c s s' H.
  destruct (fit_one_ok _ _ _ _ _ _ _ _ _ _ _ H) as (mk & mx & E1 & E2 & _ & l & xs & ks & E3 & E4 & E5 & _ & E7 & _ & l0 & E9 & E10).
  destruct (E7 eq_refl) as (-> & ->). rewrite (E10 eq_refl) in E9. cbn [app] in E9. subst l. split; [|split].
  - eexists. split; [exact E3|]. intros p I. apply in_rev in I. apply in_map_iff in I as ((k & x) & <- & I). apply in_prod_iff in I as (I1 & I2).
    cbn. split; [reflexivity|]. split; [exact I2|]. exists k. split; [exact I1|reflexivity].
  - rewrite E2. unfold trial. rewrite put_same. exact E5.
  - exists mk. rewrite E2. unfold trial. rewrite put_same. split; [exact E4|reflexivity].
Qed.
(** The interval searched next always holds the best value found, which is inside it unless
    it was the first or the last of its axis; its ends are neighbours of that value on the
    axis or lie one search step from it. *)
Theorem C177_next_interval : forall step range idx num lo hi n, 0 < step -> (idx < length range)%nat -> (2 <= length range)%nat ->
  (forall i j, (i < j < length range)%nat -> nth i range 0 < nth j range 0) ->
  refine step range idx num = (lo, hi, n) ->
  let best := nth idx range 0 in
  lo <= best <= hi /\ lo < hi /\
  (lo = best -> idx = 0%nat) /\ (hi = best -> idx = (length range - 1)%nat) /\
  (lo = best \/ lo = nth (idx - 1) range 0 \/ lo = best - step) /\ (hi = best \/ hi = nth (idx + 1) range 0 \/ hi = best + step).
Proof.
  intros des range idx num lo hi n D I L S E best. unfold refine in E.
  destruct (Nat.eqb_spec idx 0) as [Z|Z].
  - subst idx. assert (0 <> length range - 1)%nat as N by lia. apply Nat.eqb_neq in N.
    pose proof (S 0%nat 1%nat ltac:(lia)) as A. unfold best.
    rewrite N in E. destruct (rltb _ _); inversion E; subst; cbn; repeat split; try lra; try (intros; lia); tauto.
  - destruct (Nat.eqb_spec idx (length range - 1)) as [Y|Y].
    + assert (length range - 2 = idx - 1)%nat as Q by lia. rewrite Q, <- Y in E. pose proof (S (idx - 1)%nat idx ltac:(lia)) as A. unfold best.
      destruct (rltb _ _); cbn [fst snd] in E; inversion E; subst lo hi; repeat split; try lra; try (intros; lia); tauto.
    + pose proof (S (idx - 1)%nat idx ltac:(lia)) as A. pose proof (S idx (idx + 1)%nat ltac:(lia)) as B. unfold best.
      destruct (rltb _ _); inversion E; subst lo hi; repeat split; try lra; try (intros; lra); tauto.
Qed.

(** The full statement, "a fit tries and stores only values within the given ranges", fails
    in the staged mode: multipliers of K from 0.05 to 0.15 and exponents from 0.31 to 0.34,
    with the error falling towards smaller values: the fit stores K = 0 and 1/n = 0.3. *)
Module Below.
Definition sim (c : string) (K N : R) : option R := Some (1 + K * K + (N - 3 / 10) * (N - 3 / 10)).
Definition gx : list R := [31 / 100; 34 / 100].
Definition gk : list R := [5 / 100; 15 / 100].
Definition lx : list R := linspace (3 / 10) (34 / 100) 2.
Definition lk : list R := linspace 0 (2 / 10) 3.
Lemma grid0 s : round_grid true (1 - 1) 1 gx gk gx gk 2 2 s = Ok (gx, gk).
Proof.
  unfold round_grid. cbn [Nat.sub Nat.eqb]. unfold generate_grid, grid_axis, gx, gk.
  cbn [Nat.eqb length andb np_max np_min fold_left bind]. unfold linspace. cbn [seq map].
  rewrite !Rmax_right, !Rmin_left by lra.
  do 2 f_equal; (f_equal; [simpl INR; lra|f_equal; simpl INR; lra]).
Qed.
Lemma grid1 s : xtmp s = (31 / 100, 34 / 100) -> ktmp s = (5 / 100, 15 / 100) ->
  round_grid true (1 - 0) 1 gx gk gx gk 2 2 s = Ok (lx, lk).
Proof.
  intros E1 E2. unfold round_grid. cbn [Nat.sub Nat.eqb]. rewrite E1, E2. cbn [fst snd]. rewrite des_xn_is, des_k_is.
  assert (F1 : floor (31 / 100 / (1 / 40)) = 12%Z) by (unfold floor; symmetry; apply Staged.Int_part_spec; lra).
  assert (F2 : ceil (34 / 100 / (1 / 40)) = 14%Z).
  { unfold ceil. replace (Int_part (- (34 / 100 / (1 / 40)))) with (-14)%Z; [reflexivity|]. apply Staged.Int_part_spec; lra. }
  assert (F3 : floor (5 / 100 / (1 / 10)) = 0%Z) by (unfold floor; symmetry; apply Staged.Int_part_spec; lra).
  assert (F4 : ceil (15 / 100 / (1 / 10)) = 2%Z).
  { unfold ceil. replace (Int_part (- (15 / 100 / (1 / 10)))) with (-2)%Z; [reflexivity|]. apply Staged.Int_part_spec; lra. }
  rewrite F1, F2, F3, F4. replace (rltb (last gx 0) (14 * (1 / 40))) with true by (symmetry; apply rltb_yes; cbn [gx last]; lra).
  change (Z.to_nat (Z.abs (14 - 12) + 1) - 1)%nat with 2%nat. change (Z.to_nat (Z.abs (2 - 0) + 1)) with 3%nat.
  unfold generate_grid, grid_axis. cbn [Nat.eqb length andb np_max np_min fold_left bind gx last].
  rewrite !Rmax_right, !Rmin_left by lra. unfold lx, lk. do 2 f_equal; f_equal; lra.
Qed.
Lemma sim_pos c K N : exists v, sim c K N = Some v /\ 0 < v.
Proof. unfold sim. eexists. split; [reflexivity|]. nra. Qed.
Lemma in_lk k : In k lk -> k = 0 \/ 1 / 10 <= k.
Proof. unfold lk, linspace. cbn [seq map In]. intros [<-|[<-|[<-|[]]]]; simpl INR; lra. Qed.
Lemma in_lx x : In x lx -> x = 3 / 10 \/ 34 / 100 <= x.
Proof. unfold lx, linspace. cbn [seq map In]. intros [<-|[<-|[]]]; simpl INR; lra. Qed.
Lemma first_round k x : In k gk -> In x gx -> (k, x) <> (5 / 100, 31 / 100) -> val sim Runs.A (5 / 100 * Staged.one (31 / 100)) (31 / 100) < val sim Runs.A (k * Staged.one x) x.
Proof.
  intros Hk Hx N. unfold val, sim. rewrite !Staged.one_1. destruct Hk as [<- |[<- |[]]], Hx as [<- |[<- |[]]]; try congruence; lra.
Qed.
Lemma second_round k x : In k lk -> In x lx -> (k, x) <> (0, 3 / 10) -> val sim Runs.A (0 * Staged.one (3 / 10)) (3 / 10) < val sim Runs.A (k * Staged.one x) x.
Proof.
  intros Hk Hx N. unfold val, sim. rewrite !Staged.one_1. destruct (in_lk k Hk) as [-> |Q1], (in_lx x Hx) as [-> |Q2]; try congruence; nra.
Qed.
End Below.
Theorem C177_outside_refuted :
  exists sim s s', fit_one sim false 1 true 2 1 [31 / 100; 34 / 100] [5 / 100; 15 / 100] "A" s = Ok s' /\
    (forall k x, K_of 1 (ft s) "A" k x = k) /\ eK (ft s' "A") = 0 /\ eN (ft s' "A") = 3 / 10.
Proof.
  exists Below.sim, Runs.s0.
  assert (UNIQ : forall ks xs mk mx v k0 x0, (length ks * length xs <= 41)%nat ->
    find_min (pivot (map (row Below.sim false Runs.A Staged.one) (list_prod ks xs))) = Ok (mk, mx, v) -> In k0 ks -> In x0 xs ->
    (forall k x, In k ks -> In x xs -> (k, x) <> (k0, x0) -> val Below.sim Runs.A (k0 * Staged.one x0) x0 < val Below.sim Runs.A (k * Staged.one x) x) -> mk = k0 /\ mx = x0).
  { intros ks xs mk mx v k0 x0 SZ FM I1 I2 F. rewrite rows_grid in FM by reflexivity. destruct (find_min_grid _ _ _ _ _ _ FM) as (J1 & J2).
    assert (L := find_min_least _ _ _ _ _ _ SZ FM k0 x0 I1 I2). cbn beta in L.
    destruct (Req_dec mk k0) as [-> |N1]; [destruct (Req_dec mx x0) as [-> |N2]|]; [split; reflexivity| |];
      assert (Q := F _ _ J1 J2 ltac:(congruence)); lra. }
  destruct (round_step Below.sim false 1 1 true 1 Below.gx Below.gk Runs.A Staged.one Below.gx Below.gk 2 2 Runs.s0
    Below.gx Below.gk (5 / 100) (31 / 100) eq_refl (Below.grid0 Runs.s0) ltac:(cbn; lia) ltac:(cbn; lia)
    (fun k x _ _ => Below.sim_pos Runs.A _ x) ltac:(cbn; auto) ltac:(cbn; auto) Below.first_round)
    as (mk & mx & v1 & ix & ik & s1 & FM & RX & RK & RN & ER).
  destruct (UNIQ Below.gk Below.gx mk mx v1 (5 / 100) (31 / 100) ltac:(cbn; lia) FM ltac:(cbn; auto) ltac:(cbn; auto) Below.first_round) as (-> & ->).
  cbn [rindex Below.gx Below.gk] in RX, RK. rewrite reqb_refl in RX, RK. assert (ix = 0%nat) as -> by congruence. assert (ik = 0%nat) as -> by congruence.
  assert (RF1 : refine des_xn Below.gx 0 2 = ((31 / 100, 34 / 100), 2%nat)).
  { unfold refine. cbn [Nat.eqb nth Below.gx]. rewrite rltb_no; [reflexivity|]. rewrite des_xn_is. lra. }
  assert (RF2 : refine des_k Below.gk 0 2 = ((5 / 100, 15 / 100), 2%nat)).
  { unfold refine. cbn [Nat.eqb nth Below.gk]. rewrite rltb_no; [reflexivity|]. rewrite des_k_is. lra. }
  rewrite RF1, RF2 in ER. cbn [fst snd] in ER. fold Below.gx Below.gk in ER.
  set (s2 := set_tmp (31 / 100, 34 / 100) (5 / 100, 15 / 100) s1) in ER.
  assert (IL : In 0 Below.lk) by (left; unfold Below.lk; simpl INR; lra). assert (IX : In (3 / 10) Below.lx) by (left; simpl INR; lra).
  destruct (round_step Below.sim false 1 0 true 1 Below.gx Below.gk Runs.A Staged.one Below.gx Below.gk 2 2 s2
    Below.lx Below.lk 0 (3 / 10) eq_refl (Below.grid1 s2 eq_refl eq_refl) ltac:(cbn; lia) ltac:(cbn; lia)
    (fun k x _ _ => Below.sim_pos Runs.A _ x) IL IX Below.second_round)
    as (mk & mx & v2 & ix & ik & s3 & FM2 & RX2 & RK2 & RN2 & ER2).
  destruct (UNIQ Below.lk Below.lx mk mx v2 0 (3 / 10) ltac:(cbn; lia) FM2 IL IX Below.second_round) as (-> & ->).
  destruct (refine des_xn Below.lx ix 2) as [xt n1] in ER2. destruct (refine des_k Below.lk ik 2) as [kt n2] in ER2. rewrite ER2 in ER.
  exists (set_ft (trial Runs.A (0 * Staged.one (3 / 10)) (3 / 10) (ft s3)) (set_tmp xt kt s3)). split; [|split].
  - unfold fit_one. match goal with |- context[rounds _ _ _ _ _ _ _ _ ?k _ _ _ _ _] => change k with Staged.one end.
    change [31 / 100; 34 / 100] with Below.gx. change [5 / 100; 15 / 100] with Below.gk. change "A"%string with Runs.A. rewrite ER. reflexivity.
  - intros k x. unfold K_of. change (recalc_k (eK (ft Runs.s0 "A")) (eQ (ft Runs.s0 "A")) 1 x) with (Staged.one x). rewrite Staged.one_1. lra.
  - cbn [ft set_ft]. change "A"%string with Runs.A. unfold trial. rewrite put_same. cbn [eK eN]. split; [lra|reflexivity].
Qed.
Print Assumptions C177_near_the_ranges_partial.
Print Assumptions C177_exhaustive_partial.
Print Assumptions C177_next_interval.
Print Assumptions C177_outside_refuted.
(** The fit of C177_outside_refuted meets the hypotheses of C177_near_the_ranges_partial, the
    one of C75 (one_fit) those of C177_exhaustive_partial. *)
Example C177_met : exists sim s s', fit_one sim false 1 true 2 1 [31 / 100; 34 / 100] [5 / 100; 15 / 100] "A" s = Ok s' /\
  (forall x, In x [31 / 100; 34 / 100] -> 31 / 100 <= x <= 34 / 100) /\ (forall k, In k [5 / 100; 15 / 100] -> 5 / 100 <= k <= 15 / 100).
Proof.
  destruct C177_outside_refuted as (sim & s & s' & E & _). exists sim, s, s'. split; [exact E|]. split; intros y [<-|[<-|[]]]; lra.
Qed.
Example C177_next_met : refine (1 / 40) [3 / 10; 31 / 100; 32 / 100] 0 5 = (3 / 10, 3 / 10 + 1 / 40, 2%nat) /\
  (forall i j, (i < j < 3)%nat -> nth i [3 / 10; 31 / 100; 32 / 100] 0 < nth j [3 / 10; 31 / 100; 32 / 100] 0).
Proof.
  split.
  - unfold refine. cbn [nth length Nat.eqb Nat.sub fst snd]. rewrite rltb_yes by lra. reflexivity.
  - intros [|[|[|i]]] [|[|[|j]]] H; try lia; cbn; lra.
Qed.
