(** Proofs about the granular-carbon correlations. *)
From Coq Require Import List String Reals Bool Arith Lra Lia Sorted.
From Verif Require Import Lib_Py Lib_Pow M_GacSheet M_GacFun S_GacFun.
Import ListNotations.
Open Scope R_scope.
Local Notation length := List.length.

Lemma rltb_true x y : rltb x y = true <-> x < y.
Proof. unfold rltb. destruct (Rlt_dec x y); split; intros; auto; discriminate. Qed.
Lemma rltb_false x y : rltb x y = false <-> y <= x.
Proof. unfold rltb. destruct (Rlt_dec x y); split; intros; try discriminate; lra. Qed.

(** ** Interpolation tables *)
Fixpoint tab_ok (l : list (R * R)) : Prop :=
  match l with
  | (x0, y0) :: (((x1, y1) :: _) as r) => x0 < x1 /\ y1 <= y0 /\ tab_ok r
  | _ => True
  end.
Fixpoint tab_inc (l : list (R * R)) : Prop :=
  match l with
  | (x0, y0) :: (((x1, y1) :: _) as r) => x0 < x1 /\ tab_inc r
  | _ => True
  end.
Lemma tab_ok_inc l : tab_ok l -> tab_inc l.
Proof.
  induction l as [|(x0, y0) [|(x1, y1) r] IH]; simpl; auto. intros (A & _ & B). split; [exact A|]. apply IH. exact B.
Qed.

Lemma line_at0 x0 y0 x1 y1 : line x0 y0 x1 y1 x0 = y0.
Proof. unfold line. ring. Qed.
Lemma line_at1 x0 y0 x1 y1 : x0 < x1 -> line x0 y0 x1 y1 x1 = y1.
Proof. intros H. unfold line. field. lra. Qed.
Lemma line_anti x0 y0 x1 y1 t1 t2 : x0 < x1 -> y1 <= y0 -> t1 <= t2 ->
  line x0 y0 x1 y1 t2 <= line x0 y0 x1 y1 t1.
Proof.
  intros Hx Hy Ht. unfold line.
  assert (S : (y1 - y0) / (x1 - x0) <= 0).
  { apply Ropp_le_cancel. rewrite Ropp_0, <- Ropp_div. apply Rmult_le_pos; [lra|].
    apply Rlt_le, Rinv_0_lt_compat. lra. }
  nra.
Qed.

Lemma rleb_true x y : rleb x y = true <-> x <= y.
Proof. unfold rleb. destruct (Rle_dec x y); split; intros; auto; discriminate. Qed.
Lemma rleb_false x y : rleb x y = false <-> y < x.
Proof. unfold rleb. destruct (Rle_dec x y); split; intros; try discriminate; lra. Qed.

Lemma interp_head x0 y0 l : tab_inc ((x0, y0) :: l) -> interp_x ((x0, y0) :: l) x0 = y0.
Proof.
  intros H. destruct l as [|(x1, y1) l]; [reflexivity|]. destruct H as (A & _). simpl.
  destruct l as [|p l]; [apply line_at0|].
  destruct (rleb x0 x1) eqn:E; [apply line_at0|]. apply rleb_false in E. lra.
Qed.
Lemma tab_inc_lt x0 y0 l x y : tab_inc ((x0, y0) :: l) -> In (x, y) l -> x0 < x.
Proof.
  revert x0 y0. induction l as [|(x1, y1) l IH]; intros x0 y0 H Hin; [contradiction|].
  destruct H as (A & B). destruct Hin as [E|Hin]; [injection E as <- _; exact A|].
  specialize (IH x1 y1 B Hin). lra.
Qed.
Lemma interp_at l x y : tab_inc l -> In (x, y) l -> interp_x l x = y.
Proof.
  induction l as [|(x0, y0) l IH]; intros H Hin; [contradiction|].
  destruct Hin as [E|Hin].
  { injection E as -> ->. apply interp_head. exact H. }
  destruct l as [|(x1, y1) l]; [contradiction|].
  destruct H as (A & B). specialize (IH B Hin).
  simpl in *. destruct l as [|p l].
  - destruct Hin as [E|[]]. injection E as <- <-. apply line_at1. exact A.
  - destruct (rleb x x1) eqn:E; [|exact IH].
    destruct Hin as [E2|Hin].
    + injection E2 as <- <-. apply line_at1. exact A.
    + apply rleb_true in E. assert (L := tab_inc_lt x1 y1 (p :: l) x y B Hin). lra.
Qed.
Lemma interp_anti l t1 t2 : tab_ok l -> t1 <= t2 -> interp_x l t2 <= interp_x l t1.
Proof.
  induction l as [|(x0, y0) l IH]; intros H Ht; [simpl; lra|].
  destruct l as [|(x1, y1) l]; [simpl; lra|].
  destruct H as (A & B & C). specialize (IH C Ht).
  destruct l as [|p l]; [simpl; apply line_anti; assumption|].
  assert (Hh := interp_head x1 y1 (p :: l) (tab_ok_inc _ C)).
  change (interp_x ((x0, y0) :: (x1, y1) :: p :: l) t2) with
    (if rleb t2 x1 then line x0 y0 x1 y1 t2 else interp_x ((x1, y1) :: p :: l) t2).
  change (interp_x ((x0, y0) :: (x1, y1) :: p :: l) t1) with
    (if rleb t1 x1 then line x0 y0 x1 y1 t1 else interp_x ((x1, y1) :: p :: l) t1).
  destruct (rleb t2 x1) eqn:E2; destruct (rleb t1 x1) eqn:E1.
  - apply line_anti; assumption.
  - apply rleb_true in E2. apply rleb_false in E1. lra.
  - apply rleb_true in E1. apply rleb_false in E2.
    apply Rle_trans with y1.
    + rewrite <- Hh. clear IH Hh. revert C. revert E2.
      (* beyond the first abscissa the table is below its first value *)
      intros E2 C. 
      assert (G : forall l' a b s, tab_ok ((a, b) :: l') -> a <= s -> interp_x ((a, b) :: l') s <= b).
      { clear. induction l' as [|(a1, b1) l' IH]; intros a b s H Hs; [simpl; lra|].
        destruct H as (A & B & C). destruct l' as [|p l'].
        - simpl. rewrite <- (line_at0 a b a1 b1) at 2. apply line_anti; assumption.
        - change (interp_x ((a, b) :: (a1, b1) :: p :: l') s) with
            (if rleb s a1 then line a b a1 b1 s else interp_x ((a1, b1) :: p :: l') s).
          destruct (rleb s a1) eqn:E.
          + rewrite <- (line_at0 a b a1 b1) at 2. apply line_anti; assumption.
          + apply rleb_false in E. apply Rle_trans with b1; [|exact B]. apply IH; [exact C|lra]. }
      rewrite (interp_head x1 y1 (p :: l) (tab_ok_inc _ C)).
      apply G; [exact C|lra].
    + rewrite <- (line_at1 x0 y0 x1 y1 A) at 1. apply line_anti; assumption.
  - exact IH.
Qed.

(** ** linspace *)
Definition lin_i (a b : R) (m i : nat) : R := a + INR i * ((b - a) / INR m).
Lemma linspace_eq a b m : linspace a b (S (S m)) = map (lin_i a b (S m)) (seq 0 (S (S m))).
Proof. reflexivity. Qed.
Lemma lin_0 a b m : lin_i a b m 0 = a.
Proof. unfold lin_i. simpl. ring. Qed.
Lemma lin_m a b m : lin_i a b (S m) (S m) = b.
Proof. unfold lin_i. field. apply not_0_INR. lia. Qed.
Lemma lin_lt a b m i j : a < b -> (i < j)%nat -> lin_i a b (S m) i < lin_i a b (S m) j.
Proof.
  intros H Hij. unfold lin_i. apply Rplus_lt_compat_l. apply Rmult_lt_compat_r.
  - apply Rdiv_lt_0_compat; [lra|]. apply lt_0_INR. lia.
  - apply lt_INR. exact Hij.
Qed.
Lemma linspace_length a b n : length (linspace a b n) = n.
Proof. destruct n as [|[|m]]; [reflexivity|reflexivity|]. rewrite linspace_eq, map_length, seq_length. reflexivity. Qed.
Lemma linspace_nth a b m i : (i <= S m)%nat -> nth i (linspace a b (S (S m))) 0 = lin_i a b (S m) i.
Proof.
  intros H. rewrite linspace_eq.
  rewrite (nth_indep _ 0 (lin_i a b (S m) 0%nat)) by (rewrite map_length, seq_length; lia).
  rewrite map_nth, seq_nth by lia. f_equal.
Qed.
Lemma sorted_map_seq f s n : (forall i j, (i < j)%nat -> f i < f j) ->
  StronglySorted Rlt (map f (seq s n)).
Proof.
  intros H. revert s. induction n as [|n IH]; intros s; [constructor|].
  cbn. constructor; [apply IH|]. apply Forall_forall. intros x Hx.
  apply in_map_iff in Hx. destruct Hx as (j & <- & Hj). apply in_seq in Hj. apply H. lia.
Qed.
Lemma linspace_spans lo hi m : lo < hi -> spans (linspace lo hi (S (S m))) (S (S m)) lo hi.
Proof.
  intros H. unfold spans.
  split; [apply linspace_length|].
  split; [rewrite linspace_eq; apply sorted_map_seq; intros; apply lin_lt; assumption|].
  split; [rewrite linspace_nth by lia; apply lin_0|].
  split; [rewrite linspace_nth by lia; replace (S (S m) - 1)%nat with (S m) by lia; apply lin_m|].
  split.
  - intros x Hx. rewrite linspace_eq in Hx. apply in_map_iff in Hx. destruct Hx as (i & <- & Hi).
    apply in_seq in Hi. split.
    + destruct i; [rewrite lin_0; lra|]. rewrite <- (lin_0 lo hi (S m)) at 1. left. apply lin_lt; [exact H|lia].
    + destruct (Nat.eq_dec i (S m)) as [->|Hn]; [rewrite lin_m; lra|].
      rewrite <- (lin_m lo hi m). left.
      replace (lin_i lo (lin_i lo hi (S m) (S m)) (S m) i) with (lin_i lo hi (S m) i) by (rewrite lin_m; reflexivity).
      apply lin_lt; [exact H|lia].
  - intros i Hi. rewrite !linspace_nth by lia. unfold lin_i. rewrite plus_INR.
    replace (S (S m) - 1)%nat with (S m) by lia. simpl (INR 1). field. apply not_0_INR. lia.
Qed.
Lemma linspace_mid lo hi k : In ((lo + hi) / 2) (linspace lo hi (2 * S k + 1)).
Proof.
  replace (2 * S k + 1)%nat with (S (S (S (2 * k)))) by lia.
  rewrite linspace_eq. apply in_map_iff. exists (S k). split; [|apply in_seq; lia].
  unfold lin_i. replace (S (S (2 * k))) with (2 * S k)%nat by lia.
  rewrite mult_INR. simpl (INR 2). field. apply not_0_INR. lia.
Qed.

Lemma np_max_ok l m : np_max l = Ok m -> largest l m.
Proof.
  destruct l as [|x t]; [discriminate|]. simpl. intros E. injection E as <-.
  assert (G : forall l a, (fold_left Rmax l a = a \/ In (fold_left Rmax l a) l) /\
    a <= fold_left Rmax l a /\ forall y, In y l -> y <= fold_left Rmax l a).
  { clear. induction l as [|b l IH]; intros a; simpl.
    - split; [left; reflexivity|]. split; [lra|contradiction].
    - destruct (IH (Rmax a b)) as (A & B & C). assert (M1 := Rmax_l a b). assert (M2 := Rmax_r a b).
      split; [|split].
      + destruct A as [A|A]; [|right; right; exact A].
        rewrite A. unfold Rmax. destruct (Rle_dec a b); [right; left; reflexivity|left; reflexivity].
      + lra.
      + intros y [<-|Hy]; [lra|apply C; exact Hy]. }
  destruct (G t x) as (A & B & C). split.
  - destruct A as [->|A]; [left; reflexivity|right; exact A].
  - intros y [<-|Hy]; [exact B|apply C; exact Hy].
Qed.
Lemma np_min_ok l m : np_min l = Ok m -> smallest l m.
Proof.
  destruct l as [|x t]; [discriminate|]. simpl. intros E. injection E as <-.
  assert (G : forall l a, (fold_left Rmin l a = a \/ In (fold_left Rmin l a) l) /\
    fold_left Rmin l a <= a /\ forall y, In y l -> fold_left Rmin l a <= y).
  { clear. induction l as [|b l IH]; intros a; simpl.
    - split; [left; reflexivity|]. split; [lra|contradiction].
    - destruct (IH (Rmin a b)) as (A & B & C). assert (M1 := Rmin_l a b). assert (M2 := Rmin_r a b).
      split; [|split].
      + destruct A as [A|A]; [|right; right; exact A].
        rewrite A. unfold Rmin. destruct (Rle_dec a b); [left; reflexivity|right; left; reflexivity].
      + lra.
      + intros y [<-|Hy]; [lra|apply C; exact Hy]. }
  destruct (G t x) as (A & B & C). split.
  - destruct A as [->|A]; [left; reflexivity|right; exact A].
  - intros y [<-|Hy]; [exact B|apply C; exact Hy].
Qed.

(** ** Fouling *)
Definition rk_ok (rk : R * R * R * R) : Prop :=
  let '(rk1, rk2, rk3, rk4) := rk in rk2 <= 0 /\ 0 <= rk3 /\ rk4 <= 0.

Lemma foul_raw_anti rk1 rk2 rk3 rk4 t1 t2 : rk2 <= 0 -> 0 <= rk3 -> rk4 <= 0 -> t1 <= t2 ->
  rk1 + rk2 * t2 + rk3 * exp (rk4 * t2) <= rk1 + rk2 * t1 + rk3 * exp (rk4 * t1).
Proof.
  intros H2 H3 H4 Ht.
  assert (E : exp (rk4 * t2) <= exp (rk4 * t1)).
  { destruct (Req_dec (rk4 * t2) (rk4 * t1)) as [->|N]; [lra|]. left. apply exp_increasing. nra. }
  nra.
Qed.
Lemma foul_mult_anti rk t1 t2 : rk_ok rk -> t1 <= t2 -> foul_mult rk t2 <= foul_mult rk t1.
Proof.
  destruct rk as (((rk1, rk2), rk3), rk4). intros (H2 & H3 & H4) Ht.
  assert (A := foul_raw_anti rk1 rk2 rk3 rk4 t1 t2 H2 H3 H4 Ht). unfold foul_mult.
  set (r2 := rk1 + rk2 * t2 + _) in *. set (r1 := rk1 + rk2 * t1 + _) in *.
  destruct (rltb r2 (dec 1 3)) eqn:E2; destruct (rltb r1 (dec 1 3)) eqn:E1;
    rewrite ?rltb_true, ?rltb_false in E1; rewrite ?rltb_true, ?rltb_false in E2; lra.
Qed.
Lemma foul_mult_floor rk t : dec 1 3 <= foul_mult rk t.
Proof.
  destruct rk as (((rk1, rk2), rk3), rk4). unfold foul_mult.
  destruct (rltb _ _) eqn:E; [lra|]. apply rltb_false in E. exact E.
Qed.
Lemma tab_ok_seq f g s n : (forall i j, (i < j)%nat -> g i < g j) ->
  (forall x y, x <= y -> f y <= f x) -> tab_ok (map (fun x => (x, f x)) (map g (seq s n))).
Proof.
  intros Hg Hf. revert s. induction n as [|n IH]; intros s; [exact I|].
  destruct n as [|n]; [exact I|]. specialize (IH (S s)).
  change (tab_ok ((g s, f (g s)) :: (g (S s), f (g (S s))) :: map (fun x => (x, f x)) (map g (seq (S (S s)) n)))).
  split; [apply Hg; lia|]. split; [apply Hf; left; apply Hg; lia|]. exact IH.
Qed.
Lemma fouling_table_ok rk tmax m : rk_ok rk -> 0 < tmax ->
  tab_ok (map (fun x => (x, foul_mult rk x)) (linspace 0 tmax (S (S m)))).
Proof.
  intros H Ht. rewrite linspace_eq. apply tab_ok_seq.
  - intros i j Hij. apply lin_lt; assumption.
  - intros x y Hxy. apply foul_mult_anti; assumption.
Qed.
Lemma fouling_fun_eq rk tmax : fouling_fun rk tmax =
  interp_x (map (fun x => (x, foul_mult rk x)) (linspace 0 tmax (S (S 498)))).
Proof. reflexivity. Qed.
Lemma fouling_fun_anti rk tmax t1 t2 : rk_ok rk -> 0 < tmax -> t1 <= t2 ->
  fouling_fun rk tmax t2 <= fouling_fun rk tmax t1.
Proof. intros H Ht. rewrite fouling_fun_eq. apply interp_anti. apply fouling_table_ok; assumption. Qed.
Lemma fouling_fun_at rk tmax i : rk_ok rk -> 0 < tmax -> (i <= 499)%nat ->
  fouling_fun rk tmax (INR i * (tmax / 499)) = foul_mult rk (INR i * (tmax / 499)).
Proof.
  intros H Ht Hi. rewrite fouling_fun_eq.
  apply interp_at; [apply tab_ok_inc, fouling_table_ok; assumption|].
  apply in_map_iff. exists (INR i * (tmax / 499)). split; [reflexivity|].
  rewrite linspace_eq. apply in_map_iff. exists i. split; [|apply in_seq; split; [apply Nat.le_0_l|apply Nat.lt_succ_r; exact Hi]].
  unfold lin_i. replace (INR 499) with 499 by (rewrite INR_IZR_INZ; reflexivity).
  rewrite Rminus_0_r, Rplus_0_l. reflexivity.
Qed.
Lemma foul_b_range chem comp b1 b2 : foul_b chem comp = Ok (b1, b2) -> 0 <= b1.
Proof.
  unfold foul_b. intros H.
  assert (G1 : forall k b, lookup k foul_chem = Some b -> 0 <= fst b).
  { intros k b. unfold foul_chem. cbn [lookup].
    repeat (destruct (String.eqb k _); [intros E; injection E as <-; cbn [fst]; unfold dec; cbn [pow]; lra|]).
    discriminate. }
  assert (G2 : forall k b, lookup k foul_pfas = Some b -> 0 <= fst b).
  { intros k b. unfold foul_pfas. cbn [lookup].
    repeat (destruct (String.eqb k _); [intros E; injection E as <-; cbn [fst]; unfold dec; cbn [pow]; lra|]).
    discriminate. }
  destruct (String.eqb chem "PFAS").
  - destruct (lookup comp foul_pfas) as [b|] eqn:E.
    + injection H as ->. apply (G2 _ _ E).
    + destruct (lookup "Ave" foul_pfas) as [b|] eqn:E2; [|discriminate]. cbn in H. injection H as ->. apply (G2 _ _ E2).
  - destruct (lookup chem foul_chem) as [b|] eqn:E; [|discriminate]. cbn in H. injection H as ->. apply (G1 _ _ E).
Qed.
Lemma foul_water_range w a1 a2 a3 a4 : lookup w foul_water = Some (a1, a2, a3, a4) ->
  a1 + a3 = 1 /\ a2 <= 0 /\ 0 <= a3 /\ a4 <= 0.
Proof.
  unfold foul_water. cbn [lookup].
  repeat (destruct (String.eqb w _); [intros E; injection E as <- <- <- <-; unfold dec; cbn [pow]; lra|]).
  discriminate.
Qed.
Lemma get_fouling_inv w chem comp rk : get_fouling_params w chem comp = Ok rk ->
  exists a1 a2 a3 a4 b1 b2, lookup w foul_water = Some (a1, a2, a3, a4) /\
    foul_b chem comp = Ok (b1, b2) /\ rk = (b1 * a1 + b2, b1 * a2, b1 * a3, b1 * a4) /\
    a1 + a3 = 1 /\ rk_ok rk.
Proof.
  unfold get_fouling_params. intros H.
  destruct (lookup w foul_water) as [(((a1, a2), a3), a4)|] eqn:Ew; [|discriminate]. cbn [of_option bind] in H.
  destruct (foul_b chem comp) as [(b1, b2)|] eqn:Eb; [|discriminate]. cbn [bind foul_rk] in H.
  injection H as <-.
  destruct (foul_water_range _ _ _ _ _ Ew) as (A & B & C & D). assert (Hb := foul_b_range _ _ _ _ Eb).
  exists a1, a2, a3, a4, b1, b2. repeat (split; [reflexivity || assumption|]).
  unfold rk_ok. repeat split; nra.
Qed.
Lemma foul_mult_0 w chem comp rk : get_fouling_params w chem comp = Ok rk ->
  exists b1 b2, foul_b chem comp = Ok (b1, b2) /\ (dec 1 3 <= b1 + b2 -> foul_mult rk 0 = b1 + b2).
Proof.
  intros H. destruct (get_fouling_inv _ _ _ _ H) as (a1 & a2 & a3 & a4 & b1 & b2 & _ & Eb & -> & S & _).
  exists b1, b2. split; [exact Eb|]. intros Hf. unfold foul_mult.
  replace (b1 * a1 + b2 + b1 * a2 * 0 + b1 * a3 * exp (b1 * a4 * 0)) with (b1 + b2).
  - destruct (rltb _ _) eqn:E; [apply rltb_true in E; lra|reflexivity].
  - rewrite !Rmult_0_r, exp_0. replace a1 with (1 - a3) by lra. ring.
Qed.

(** ** recalc_k *)
Lemma recalc_loading K C q x0 x1 : 0 < K -> 0 < C -> x0 <> 0 -> q = K * rpow C x0 ->
  recalc_k K q x0 x1 * rpow C x1 = q.
Proof.
  intros HK HC Hx ->. unfold recalc_k.
  assert (P0 := rpow_pos C x0 HC).
  assert (Hq : 0 < K * rpow C x0) by (apply Rmult_lt_0_compat; assumption).
  replace (rpow C x1) with (rpow (rpow C x0) (x1 / x0)) by (rewrite rpow_rpow by exact HC; f_equal; field; exact Hx).
  rewrite Rmult_assoc, <- rpow_mult by assumption. rewrite <- rpow_plus by exact Hq.
  replace (1 - x1 / x0 + x1 / x0) with 1 by ring. apply rpow_1. lra.
Qed.
Lemma recalc_pos K q x0 x1 : 0 < K -> 0 < q -> 0 < recalc_k K q x0 x1.
Proof. intros. unfold recalc_k. apply Rmult_lt_0_compat; apply rpow_pos; assumption. Qed.
Lemma recalc_compose K q x0 x1 x2 : 0 < K -> 0 < q -> x0 <> 0 -> x1 <> 0 ->
  recalc_k (recalc_k K q x0 x1) q x1 x2 = recalc_k K q x0 x2.
Proof.
  intros HK Hq H0 H1. unfold recalc_k.
  rewrite rpow_mult by (apply rpow_pos; assumption).
  rewrite !rpow_rpow by assumption. rewrite <- Rmult_assoc, <- rpow_plus by exact Hq.
  f_equal; f_equal; field; auto.
Qed.

(** ** Film transfer *)
Lemma gnielinski_mono re1 re2 sc ebed : 0 < re1 <= re2 -> 1 <= sc -> 0 < ebed < 1 ->
  0 < gnielinski re1 sc ebed <= gnielinski re2 sc ebed.
Proof.
  intros Hre Hsc He. unfold gnielinski.
  assert (Hs1 : 1 <= rpow sc (2 / 3)).
  { rewrite <- (rpow_one_base (2 / 3)) at 1. apply rpow_le; lra. }
  assert (Hs3 : 0 < rpow sc (1 / 3)) by (apply rpow_pos; lra).
  assert (D : forall r, 0 < r -> 0 < 1 + dec 2443 3 * rpow r (dec (-1) 1) * (rpow sc (2 / 3) - 1)).
  { intros r Hr. assert (P := rpow_pos r (dec (-1) 1) Hr).
    assert (0 <= dec 2443 3 * rpow r (dec (-1) 1) * (rpow sc (2 / 3) - 1)); [|lra].
    apply Rmult_le_pos; [|lra]. apply Rmult_le_pos; [unfold dec; simpl; lra|lra]. }
  assert (Hn : rpow re2 (dec (-1) 1) <= rpow re1 (dec (-1) 1)).
  { replace (dec (-1) 1) with (- dec 1 1) by (unfold dec; simpl; lra).
    rewrite !rpow_opp by lra. apply Rinv_le_contravar; [apply rpow_pos; lra|].
    apply rpow_le; [lra|unfold dec; simpl; lra]. }
  assert (Hl : rpow re1 (dec 5 1) <= rpow re2 (dec 5 1)) by (apply rpow_le; [lra|unfold dec; simpl; lra]).
  assert (Ht : rpow re1 (dec 8 1) <= rpow re2 (dec 8 1)) by (apply rpow_le; [lra|unfold dec; simpl; lra]).
  assert (P5 := rpow_pos re1 (dec 5 1) (proj1 Hre)). assert (P8 := rpow_pos re1 (dec 8 1) (proj1 Hre)).
  set (l1 := dec 644 3 * rpow re1 (dec 5 1) * rpow sc (1 / 3)).
  set (l2 := dec 644 3 * rpow re2 (dec 5 1) * rpow sc (1 / 3)).
  assert (L : 0 < l1 <= l2).
  { unfold l1, l2. assert (0 < dec 644 3) by (unfold dec; simpl; lra). split.
    - apply Rmult_lt_0_compat; [|exact Hs3]. apply Rmult_lt_0_compat; lra.
    - apply Rmult_le_compat_r; [lra|]. apply Rmult_le_compat_l; lra. }
  set (t1 := dec 37 3 * rpow re1 (dec 8 1) * sc / _).
  set (t2 := dec 37 3 * rpow re2 (dec 8 1) * sc / _).
  assert (T : 0 < t1 <= t2).
  { assert (0 < dec 37 3) by (unfold dec; simpl; lra).
    assert (D1 := D re1 (proj1 Hre)). assert (D2 : 0 < 1 + dec 2443 3 * rpow re2 (dec (-1) 1) * (rpow sc (2 / 3) - 1)) by (apply D; lra).
    unfold t1, t2. split.
    - apply Rdiv_lt_0_compat; [|exact D1]. apply Rmult_lt_0_compat; [apply Rmult_lt_0_compat|]; lra.
    - unfold Rdiv. apply Rmult_le_compat.
      + apply Rmult_le_pos; [apply Rmult_le_pos|]; lra.
      + left. apply Rinv_0_lt_compat. exact D1.
      + apply Rmult_le_compat_r; [lra|]. apply Rmult_le_compat_l; lra.
      + apply Rinv_le_contravar; [exact D2|]. apply Rplus_le_compat_l. apply Rmult_le_compat_r; [lra|].
        apply Rmult_le_compat_l; [unfold dec; simpl; lra|exact Hn]. }
  assert (Sq : l1 ^ 2 + t1 ^ 2 <= l2 ^ 2 + t2 ^ 2) by nra.
  assert (Sp : 0 < l1 ^ 2 + t1 ^ 2) by nra.
  assert (Hf : 0 < 1 + dec 15 1 * (1 - ebed)) by (unfold dec; simpl; lra).
  assert (P := rpow_pos _ (dec 5 1) Sp).
  split.
  - apply Rmult_lt_0_compat; lra.
  - apply Rmult_le_compat_r; [lra|]. apply Rplus_le_compat_l. apply rpow_le; [lra|unfold dec; simpl; lra].
Qed.

Lemma kf_mono corr mp re1 re2 sc ebed : corr <> "Ohashi et al"%string -> corr <> "Ko et al"%string ->
  0 < mp -> 0 < re1 <= re2 -> 1 <= sc -> 0 < ebed < 1 ->
  exists k1 k2, kf_calc mp re1 sc ebed corr = Num k1 /\ kf_calc mp re2 sc ebed corr = Num k2 /\ 0 < k1 <= k2.
Proof.
  intros N1 N2 Hm Hre Hsc He. unfold kf_calc.
  assert (Hs3 : 0 < rpow sc (1 / 3)) by (apply rpow_pos; lra).
  assert (Hs4 : 0 < rpow sc (dec 42 2)) by (apply rpow_pos; lra).
  assert (M : forall e, 0 <= e -> 0 < rpow re1 e <= rpow re2 e).
  { intros e H. split; [apply rpow_pos; lra|apply rpow_le; lra]. }
  assert (M5 := M (dec 5 1) ltac:(unfold dec; simpl; lra)).
  assert (M3 := M (dec 3 1) ltac:(unfold dec; simpl; lra)).
  assert (M6 := M (dec 6 1) ltac:(unfold dec; simpl; lra)).
  assert (M13 := M (1 / 3) ltac:(lra)).
  assert (Mrs : 0 < rpow (re1 * sc) (1 / 3) <= rpow (re2 * sc) (1 / 3)).
  { split; [apply rpow_pos; nra|]. apply rpow_le; [|lra]. split; nra. }
  assert (Hf : 0 < 1 + dec 15 1 * (1 - ebed)) by (unfold dec; simpl; lra).
  assert (G : forall a r1 r2 c, 0 < a -> 0 < c -> 0 < r1 <= r2 -> 0 < a * r1 * c <= a * r2 * c).
  { intros a r1 r2 c Ha Hc Hr. split.
    - apply Rmult_lt_0_compat; [apply Rmult_lt_0_compat|]; lra.
    - apply Rmult_le_compat_r; [lra|]. apply Rmult_le_compat_l; lra. }
  assert (Hi : 0 < / ebed) by (apply Rinv_0_lt_compat; lra).
  destruct (String.eqb corr "Chern and Chien").
  { do 2 eexists. split; [reflexivity|]. split; [reflexivity|].
    assert (g := G (dec 644 3) _ _ _ ltac:(unfold dec; simpl; lra) Hs3 M5).
    assert (Ha : 0 < mp * (1 + dec 15 1 * (1 - ebed))) by (apply Rmult_lt_0_compat; lra).
    split; [apply Rmult_lt_0_compat; lra|apply Rmult_le_compat_l; lra]. }
  destruct (String.eqb corr "Tan et al").
  { do 2 eexists. split; [reflexivity|]. split; [reflexivity|].
    assert (Ha : 0 < mp * dec 11 1 / ebed) by (unfold Rdiv; apply Rmult_lt_0_compat; [apply Rmult_lt_0_compat; [lra|unfold dec; simpl; lra]|exact Hi]).
    split; [apply Rmult_lt_0_compat; lra|apply Rmult_le_compat_l; lra]. }
  destruct (String.eqb corr "Wilson and Geankoplis").
  { do 2 eexists. split; [reflexivity|]. split; [reflexivity|].
    assert (Ha : 0 < mp * dec 109 2 / ebed) by (unfold Rdiv; apply Rmult_lt_0_compat; [apply Rmult_lt_0_compat; [lra|unfold dec; simpl; lra]|exact Hi]).
    split; [apply Rmult_lt_0_compat; lra|apply Rmult_le_compat_l; lra]. }
  destruct (String.eqb_spec corr "Ohashi et al"); [contradiction|].
  destruct (String.eqb corr "Williamson et al").
  { do 2 eexists. split; [reflexivity|]. split; [reflexivity|].
    apply G; [|exact Hs4|exact M3]. apply Rmult_lt_0_compat; [apply Rmult_lt_0_compat; [lra|unfold dec; simpl; lra]|lra]. }
  destruct (String.eqb_spec corr "Ko et al"); [contradiction|].
  destruct (String.eqb corr "Wakau and Funazkri").
  { do 2 eexists. split; [reflexivity|]. split; [reflexivity|].
    assert (g := G (dec 11 1) _ _ _ ltac:(unfold dec; simpl; lra) Hs3 M6).
    split; [apply Rmult_lt_0_compat; lra|apply Rmult_le_compat_l; lra]. }
  destruct (String.eqb corr "Kakaoka et al").
  { do 2 eexists. split; [reflexivity|]. split; [reflexivity|].
    assert (Hb : 0 < dec 185 2 * rpow ((1 - ebed) / ebed) (1 / 3)).
    { apply Rmult_lt_0_compat; [unfold dec; simpl; lra|]. apply rpow_pos. apply Rdiv_lt_0_compat; lra. }
    assert (g := G _ _ _ _ Hb Hs3 M13).
    split; [apply Rmult_lt_0_compat; lra|apply Rmult_le_compat_l; lra]. }
  do 2 eexists. split; [reflexivity|]. split; [reflexivity|].
  assert (g := gnielinski_mono re1 re2 sc ebed Hre Hsc He).
  split; [apply Rmult_lt_0_compat; lra|apply Rmult_le_compat_l; lra].
Qed.

(** ** Water *)
Lemma viscosity_pos T : 0 < viscosity T.
Proof. unfold viscosity. apply Rdiv_lt_0_compat; [apply exp_pos|lra]. Qed.
Lemma viscosity_decr T1 T2 : 0 <= T1 < T2 -> T2 <= 100 -> viscosity T2 < viscosity T1.
Proof.
  intros H1 H2. unfold viscosity. unfold Rdiv at 1 4. apply Rmult_lt_compat_r; [lra|].
  apply exp_increasing. set (t1 := T1 + dec 27315 2). set (t2 := T2 + dec 27315 2).
  assert (B1 : 27315 / 100 <= t1 < t2) by (unfold t1, t2, dec; simpl; lra).
  assert (B2 : t2 <= 37315 / 100) by (unfold t2, dec; simpl; lra).
  assert (P : t1 * t2 <= 139241) by nra.
  assert (Q : 3 / 100 <= 4209 / (t1 * t2)).
  { apply (Rmult_le_reg_r (t1 * t2)); [nra|]. unfold Rdiv at 2. rewrite Rmult_assoc, Rinv_l by nra. nra. }
  assert (E : 4209 / t1 - 4209 / t2 = 4209 / (t1 * t2) * (t2 - t1)) by (field; lra).
  assert (F : dec 4527 5 * t2 - dec 3376 8 * t2 ^ 2 - (dec 4527 5 * t1 - dec 3376 8 * t1 ^ 2)
              = (dec 4527 5 - dec 3376 8 * (t1 + t2)) * (t2 - t1)) by ring.
  assert (G : dec 4527 5 - dec 3376 8 * (t1 + t2) < 3 / 100) by (unfold dec; simpl; lra).
  assert (Hm : (dec 4527 5 - dec 3376 8 * (t1 + t2)) * (t2 - t1) < 4209 / (t1 * t2) * (t2 - t1))
    by (apply Rmult_lt_compat_r; lra).
  lra.
Qed.
Lemma density_range T : 0 <= T <= 100 -> 9 / 10 < density T < 11 / 10.
Proof.
  intros H. unfold density. set (t := (T + dec 27315 2) / dec 32465 2).
  assert (B : 84 / 100 <= t <= 115 / 100).
  { unfold t, dec. simpl. lra. }
  clearbody t. unfold dec. cbn [pow].
  set (s := t - 1). replace t with (1 + s) by (unfold s; ring).
  assert (Bs : - (16 / 100) <= s <= 15 / 100) by (unfold s; lra). clearbody s.
  assert (S2 : 0 <= s * s <= 256 / 10000) by nra.
  assert (S3 : - (5 / 1000) <= s * s * s <= 5 / 1000) by nra.
  assert (S4 : 0 <= s * s * s * s <= 1 / 1000) by nra.
  split; nra.
Qed.
