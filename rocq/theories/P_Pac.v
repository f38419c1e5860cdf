(** Facts about the model of the powdered-carbon contactor. *)
From Coq Require Import Reals List Arith Bool String Lra Lia ZArith.
From Verif Require Import Lib_Py Lib_Pow Lib_Sum Lib_Traj S_Colloc M_Colloc P_Colloc M_GacSheet M_Extra M_GacFun P_GacFun M_Tools M_Pac Lib_Sum.
Import ListNotations.
Open Scope R_scope.
Open Scope string_scope.
Local Notation length := List.length.

(** ** Equations *)
Lemma weighted_rate nc B W q C Y : (1 <= nc)%nat -> W (nc - 1)%nat <> 0 ->
  rsum nc (fun i => W i * dY_dt nc B W q C Y i) = - (flux nc q C Y / q_ra q).
Proof.
  intros H HW. destruct nc as [|m]; [lia|]. cbn [rsum]. replace (S m - 1)%nat with m in * by lia.
  unfold dY_dt at 2. replace (S m - 1)%nat with m by lia. rewrite Nat.eqb_refl.
  rewrite (rsum_ext m (fun i => W i * dY_dt (S m) B W q C Y i) (fun k => W k * diffusion (S m) B q Y k)).
  - generalize (flux (S m) q C Y / q_ra q). intros z. field. exact HW.
  - intros i Hi. unfold dY_dt. replace (S m - 1)%nat with m by lia. destruct (Nat.eqb_spec i m); [lia|reflexivity].
Qed.
Lemma pore_scale q Y k i : q_n q = 1 -> 0 < k -> pore q (fun j => k * Y j) i = k * pore q Y i.
Proof.
  intros N Hk. unfold pore. rewrite N. replace (k * Y i / q_rho q / q_K q) with (k * (Y i / q_rho q / q_K q)) by (unfold Rdiv; ring).
  set (x := Y i / q_rho q / q_K q). destruct (rltb x 0) eqn:E.
  - apply rltb_true in E. rewrite (proj2 (rltb_true (k * x) 0)) by nra. rewrite !rpow_0 by lra. ring.
  - apply rltb_false in E. rewrite (proj2 (rltb_false (k * x) 0)) by nra. rewrite !rpow_1 by nra. reflexivity.
Qed.

(** ** Broken lines and their inverses *)
(** [v] is the height at [t] of the segment between two neighbours of the table *)
Definition on_segment (tbl : list (R * R)) (t v : R) : Prop :=
  exists l1 p q l2, tbl = (l1 ++ p :: q :: l2)%list /\ fst p <= t <= fst q /\ v = line (fst p) (snd p) (fst q) (snd q) t.
(** neighbours: the first coordinate grows *)
Definition growing (tbl : list (R * R)) : Prop := forall l1 p q l2, tbl = (l1 ++ p :: q :: l2)%list -> fst p < fst q.
(** ... and the second falls *)
Definition falling (tbl : list (R * R)) : Prop := forall l1 p q l2, tbl = (l1 ++ p :: q :: l2)%list -> fst p < fst q /\ snd q < snd p.
Lemma segment_cons p tbl t v : on_segment (p :: tbl) t v ->
  (exists q l2, tbl = q :: l2 /\ fst p <= t <= fst q /\ v = line (fst p) (snd p) (fst q) (snd q) t) \/ on_segment tbl t v.
Proof.
  intros (l1 & a & b & l2 & E & T & V). destruct l1 as [|c l1]; cbn in E.
  - left. assert (p = a /\ tbl = b :: l2) as (-> & ->) by (split; congruence). exists b, l2. auto.
  - right. exists l1, a, b, l2. split; [congruence|auto].
Qed.
Lemma segment_later p tbl t v : on_segment tbl t v -> on_segment (p :: tbl) t v.
Proof. intros (l1 & a & b & l2 & E & T & V). exists (p :: l1), a, b, l2. split; [rewrite E; reflexivity|auto]. Qed.
Lemma growing_tail p r : growing (p :: r) -> growing r.
Proof. intros G l1 a b l2 E. apply (G (p :: l1) a b l2). rewrite E. reflexivity. Qed.
Lemma growing_head p q r : growing (p :: q :: r) -> fst p < fst q.
Proof. intros G. apply (G [] p q r eq_refl). Qed.
Lemma falling_growing l : falling l -> growing l.
Proof. intros F l1 p q l2 E. apply (F l1 p q l2 E). Qed.
Lemma line_at_left x0 y0 x1 y1 : line x0 y0 x1 y1 x0 = y0.
Proof. unfold line, Rdiv. ring. Qed.
Lemma line_at_right x0 y0 x1 y1 : x0 < x1 -> line x0 y0 x1 y1 x1 = y1.
Proof. intros. unfold line. field. lra. Qed.
Lemma segment_range : forall r p t v, growing (p :: r) -> on_segment (p :: r) t v -> fst p <= t.
Proof.
  induction r as [|q r IH]; intros p t v G H; destruct (segment_cons _ _ _ _ H) as [(a & l2 & E & T & _)|L].
  - discriminate E.
  - destruct L as (l1 & a & b & l2 & E & _). destruct l1; discriminate E.
  - lra.
  - pose proof (IH q t v (growing_tail _ _ G) L). pose proof (growing_head _ _ _ G). lra.
Qed.
(** np.interp inside the table is a point of the broken line, and the only one. *)
Lemma np_interp_on : forall r p t, growing (p :: r) -> r <> [] -> fst p <= t <= fst (last (p :: r) (0, 0)) -> on_segment (p :: r) t (np_interp (p :: r) t).
Proof.
  induction r as [|[x1 y1] r IH]; intros [x0 y0] t G N T; [congruence|]. pose proof (growing_head _ _ _ G) as GH. cbn [fst] in T, GH.
  assert (Here : forall v, x0 <= t <= x1 -> v = line x0 y0 x1 y1 t -> on_segment ((x0, y0) :: (x1, y1) :: r) t v).
  { intros v A B. exists [], (x0, y0), (x1, y1), r. split; [reflexivity|]. split; [exact A|exact B]. }
  change (np_interp ((x0, y0) :: (x1, y1) :: r) t) with (if rleb t x0 then y0 else if rltb t x1 then line x0 y0 x1 y1 t else np_interp ((x1, y1) :: r) t).
  destruct (rleb t x0) eqn:E0.
  - apply rleb_true in E0. apply Here; [lra|]. replace t with x0 by lra. symmetry. apply line_at_left.
  - apply rleb_false in E0. destruct (rltb t x1) eqn:E1; [apply rltb_true in E1; apply Here; [lra|reflexivity]|]. apply rltb_false in E1.
    destruct r as [|p r].
    + cbn in T. apply Here; [lra|]. cbn. replace t with x1 by lra. symmetry. apply line_at_right. exact GH.
    + apply segment_later. apply IH; [apply (growing_tail _ _ G)|discriminate|]. split; [cbn; lra|]. exact (proj2 T).
Qed.
Lemma np_interp_only : forall r p t v, growing (p :: r) -> on_segment (p :: r) t v -> np_interp (p :: r) t = v.
Proof.
  induction r as [|[x1 y1] r IH]; intros [x0 y0] t v G H; destruct (segment_cons _ _ _ _ H) as [(a & l2 & E & T & V)|L].
  - discriminate E.
  - destruct L as (l1 & a & b & l2 & E & _). destruct l1; discriminate E.
  - assert (a = (x1, y1)) by congruence. subst a. cbn [fst snd] in T, V. pose proof (growing_head _ _ _ G) as GH. cbn [fst] in GH.
    change (np_interp ((x0, y0) :: (x1, y1) :: r) t) with (if rleb t x0 then y0 else if rltb t x1 then line x0 y0 x1 y1 t else np_interp ((x1, y1) :: r) t).
    destruct (rleb t x0) eqn:E0; [apply rleb_true in E0; replace t with x0 in V by lra; rewrite line_at_left in V; congruence|].
    destruct (rltb t x1) eqn:E1; [congruence|]. apply rltb_false in E1. assert (t = x1) by lra. subst t. rewrite line_at_right in V by exact GH. subst v.
    destruct r as [|[x2 y2] r]; [reflexivity|]. cbn [np_interp]. rewrite (proj2 (rleb_true x1 x1)) by lra. reflexivity.
  - pose proof (segment_range _ _ _ _ (growing_tail _ _ G) L) as R1. cbn [fst] in R1. pose proof (growing_head _ _ _ G) as GH. cbn [fst] in GH.
    change (np_interp ((x0, y0) :: (x1, y1) :: r) t) with (if rleb t x0 then y0 else if rltb t x1 then line x0 y0 x1 y1 t else np_interp ((x1, y1) :: r) t).
    rewrite (proj2 (rleb_false t x0)) by lra. rewrite (proj2 (rltb_false t x1)) by lra. apply IH; [apply (growing_tail _ _ G)|exact L].
Qed.
Definition swap (p : R * R) : R * R := (snd p, fst p).
Definition mirror (tbl : list (R * R)) : list (R * R) := rev (map swap tbl).
Lemma mirror_app l1 p q l2 : mirror (l1 ++ p :: q :: l2) = (mirror l2 ++ swap q :: swap p :: mirror l1)%list.
Proof. unfold mirror. rewrite map_app, rev_app_distr. cbn [map rev]. rewrite <- !app_assoc. reflexivity. Qed.
Lemma mirror_mirror l : mirror (mirror l) = l.
Proof.
  unfold mirror. rewrite map_rev, rev_involutive, map_map. rewrite <- (map_id l) at 2. apply map_ext. intros [a b]. reflexivity.
Qed.
Lemma mirror_falling l : falling l -> falling (mirror l).
Proof.
  intros F l1 p q l2 E. assert (E2 : l = mirror (l1 ++ p :: q :: l2)) by (rewrite <- E; symmetry; apply mirror_mirror). rewrite mirror_app in E2.
  destruct (F _ _ _ _ E2) as (A & B). unfold swap in *. cbn [fst snd] in *. lra.
Qed.
Lemma mirror_segment tbl t v : falling tbl -> on_segment tbl t v -> on_segment (mirror tbl) v t.
Proof.
  intros F (l1 & p & q & l2 & E & T & V). destruct (F _ _ _ _ E) as (A & B). exists (mirror l2), (swap q), (swap p), (mirror l1).
  split; [rewrite E; apply mirror_app|]. unfold swap. cbn [fst snd]. destruct p as [x0 y0], q as [x1 y1]. cbn [fst snd] in *.
  assert (V2 : (v - y0) * (x1 - x0) = (y1 - y0) * (t - x0)) by (rewrite V; unfold line; field; lra).
  split; [split; nra|]. unfold line. apply (Rmult_eq_reg_r (y0 - y1)); [|lra].
  replace ((x1 + (x0 - x1) / (y0 - y1) * (v - y1)) * (y0 - y1)) with (x1 * (y0 - y1) + (x0 - x1) * (v - y1)) by (field; lra). nra.
Qed.
(** Reading the broken line backwards. *)
Lemma mirror_length l : length (mirror l) = length l.
Proof. unfold mirror. rewrite rev_length, map_length. reflexivity. Qed.
Lemma mirror_hd l : l <> [] -> hd (0, 0) (mirror l) = swap (last l (0, 0)).
Proof.
  intros N. destruct (exists_last N) as (l' & a & ->). rewrite last_last. unfold mirror. rewrite map_app, rev_app_distr. reflexivity.
Qed.
Lemma mirror_last l : l <> [] -> last (mirror l) (0, 0) = swap (hd (0, 0) l).
Proof. intros N. destruct l as [|a l]; [congruence|]. unfold mirror. cbn [map rev hd]. apply last_last. Qed.
Lemma inverse_interp tbl target : falling tbl -> (2 <= length tbl)%nat ->
  snd (last tbl (0, 0)) <= target <= snd (hd (0, 0) tbl) ->
  np_interp tbl (np_interp (mirror tbl) target) = target.
Proof.
  intros F L T. pose proof (mirror_falling _ F) as FM. assert (N : tbl <> []) by (destruct tbl; [cbn in L; lia|discriminate]).
  assert (S : on_segment (mirror tbl) target (np_interp (mirror tbl) target)).
  { pose proof (mirror_hd tbl N) as MH. pose proof (mirror_last tbl N) as ML. pose proof (mirror_length tbl) as MM.
    destruct (mirror tbl) as [|p r]; [cbn in MM; lia|]. apply np_interp_on; [apply falling_growing, FM|destruct r; [cbn in MM; lia|discriminate]|].
    cbn [hd] in MH. rewrite ML, MH. unfold swap. cbn [fst]. exact T. }
  apply (mirror_segment _ _ _ FM) in S. rewrite mirror_mirror in S. destruct tbl as [|p r]; [congruence|]. apply np_interp_only; [apply falling_growing, F|exact S].
Qed.
Lemma np_interp_right : forall r p t, growing (p :: r) -> fst (last (p :: r) (0, 0)) <= t -> np_interp (p :: r) t = snd (last (p :: r) (0, 0)).
Proof.
  induction r as [|[x1 y1] r IH]; intros [x0 y0] t G T; [reflexivity|]. pose proof (growing_head _ _ _ G) as GH. cbn [fst] in GH.
  assert (T1 : x1 <= t).
  { clear - G T. apply (Rle_trans _ (fst (last ((x1, y1) :: r) (0, 0)))); [|exact T]. apply growing_tail in G. clear T. revert x1 y1 G.
    induction r as [|[x2 y2] r IH]; intros x1 y1 G; [cbn; lra|]. pose proof (growing_head _ _ _ G) as GH. cbn [fst] in GH.
    pose proof (IH x2 y2 (growing_tail _ _ G)) as Q. change (last ((x1, y1) :: (x2, y2) :: r) (0, 0)) with (last ((x2, y2) :: r) (0, 0)). lra. }
  change (np_interp ((x0, y0) :: (x1, y1) :: r) t) with (if rleb t x0 then y0 else if rltb t x1 then line x0 y0 x1 y1 t else np_interp ((x1, y1) :: r) t).
  rewrite (proj2 (rleb_false t x0)) by lra. rewrite (proj2 (rltb_false t x1)) by lra. apply (IH (x1, y1)); [apply (growing_tail _ _ G)|exact T].
Qed.
Lemma combine_mirror : forall (xs ys : list R), length xs = length ys -> combine (rev ys) (rev xs) = mirror (combine xs ys).
Proof.
  intros xs ys E. unfold mirror. revert ys E. induction xs as [|x xs IH]; intros [|y ys] E; try discriminate E; [reflexivity|].
  cbn [rev combine map]. rewrite <- IH by (cbn in E; congruence). assert (L : length (rev ys) = length (rev xs)) by (rewrite !rev_length; cbn in E; congruence).
  clear IH E. revert L. generalize (rev xs). induction (rev ys) as [|b l IH]; intros [|a l'] L; try discriminate L; [reflexivity|]. cbn. f_equal. apply IH. cbn in L. congruence.
Qed.
