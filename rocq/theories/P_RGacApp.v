From Coq Require Import Reals List Arith Bool String Lra Lia.
From Verif Require Import Lib_Py M_GacFun M_GacShiny M_RIexApp S_RIexApp P_RIexApp M_RGacApp S_RGacApp.
Import ListNotations.
Open Scope R_scope.
Open Scope string_scope.
Local Notation length := List.length.

Lemma reqb_refl x : reqb x x = true.
Proof. unfold reqb. destruct (Req_EM_T x x); congruence. Qed.
Lemma reqb_neq x y : x <> y -> reqb x y = false.
Proof. unfold reqb. destruct (Req_EM_T x y); congruence. Qed.
Lemma reqb_eq x y : reqb x y = true -> x = y.
Proof. unfold reqb. destruct (Req_EM_T x y); congruence. Qed.

(** ** Units *)
Lemma g_flow_ok u k : lookup u g_volumetric_conv = Some k -> u = "mgd" \/ exists m, cubic_metres_per_second u m /\ k = 60 * 100 ^ 3 * m.
Proof.
  intros H. unfold g_volumetric_conv in H. case_lookup H; unit_case H; try (left; reflexivity); right; subst k; eexists; (split; [constructor|]);
  unfold m2cm, cm2cm, l2ml, gal2ml, ft2cm, in2cm, min2sec, gallon, foot, inch, minute, dec; lra.
Qed.
Lemma g_mgd : lookup "mgd" g_volumetric_conv = Some (1440 * (60 * 100 ^ 3 * (10 ^ 6 * gallon / day))).
Proof. cbn. f_equal. unfold gal2ml, gallon, inch, day, hour, minute, dec. lra. Qed.
Lemma g_time_ok u k : lookup u g_time_conv = Some k -> exists d, days u d /\ k = 1 / d.
Proof.
  intros H. unfold g_time_conv in H. case_lookup H; unit_case H; subst k; eexists; (split; [constructor|]);
  unfold year2day, month2day, hour2day, day2day; lra.
Qed.
Lemma g_mass_ok u k : lookup u g_mass_conv = Some k -> (u = "meq" \/ u = "meq/L") \/ exists m, mass_unit u m /\ k = 1000 * m.
Proof.
  intros H. unfold g_mass_conv in H. case_lookup H; unit_case H; auto; right; subst k; eexists; (split; [constructor|]); unfold dec; lra.
Qed.
Lemma weight_ok u k : lookup u weight_conv = Some k -> exists w, grams u w /\ (u <> "lb" -> k = w) /\ Rabs (k - w) <= dec 2 6 * w.
Proof.
  intros H. unfold weight_conv in H. case_lookup H; unit_case H; subst k; eexists; (split; [constructor|]); unfold pound, dec.
  - split; [reflexivity|]. apply Rabs_le. lra.
  - split; [reflexivity|]. apply Rabs_le. lra.
  - split; [contradiction|]. apply Rabs_le. lra.
Qed.
Lemma weight_pos u k : lookup u weight_conv = Some k -> 0 < k.
Proof. intros H. unfold weight_conv in H. case_lookup H; unit_case H; subst k; unfold dec; lra. Qed.
Lemma density_ok u k : lookup u density_conv = Some k -> u = "g/ml" /\ k = 1.
Proof. intros H. unfold density_conv in H. case_lookup H; unit_case H. subst. auto. Qed.
Lemma metres_fun u a b : metres u a -> metres u b -> a = b.
Proof. intros A B. destruct A; inversion B; reflexivity. Qed.
Lemma velocity_fun u a b : metres_per_second u a -> metres_per_second u b -> a = b.
Proof. intros A B. destruct A; inversion B; reflexivity. Qed.
Lemma flow_fun u a b : cubic_metres_per_second u a -> cubic_metres_per_second u b -> a = b.
Proof. intros A B. destruct A; inversion B; reflexivity. Qed.
Lemma mass_fun u a b : mass_unit u a -> mass_unit u b -> a = b.
Proof. intros A B. destruct A; inversion B; reflexivity. Qed.
Lemma days_fun u a b : days u a -> days u b -> a = b.
Proof. intros A B. destruct A; inversion B; reflexivity. Qed.
Lemma grams_fun u a b : grams u a -> grams u b -> a = b.
Proof. intros A B. destruct A; inversion B; reflexivity. Qed.
Lemma days_pos u a : days u a -> 0 < a.
Proof. intros A. destruct A; lra. Qed.
Lemma metres_pos u a : metres u a -> 0 < a.
Proof. intros A. destruct A; unfold foot, inch; lra. Qed.

(** the values of [column_data] *)
Definition factors (b : gboxes) (r pd ad l w d : R) : Prop :=
  lookup (g_prunits b) length_conv = Some r /\ lookup (g_pdunits b) density_conv = Some pd /\ lookup (g_adunits b) density_conv = Some ad /\
  lookup (g_LengthUnits b) length_conv = Some l /\ lookup (g_wunits b) weight_conv = Some w /\ lookup (g_DiameterUnits b) length_conv = Some d.
Lemma column_data_inv b t : column_data b = Ok t -> exists fl r pd ad l w d, flow_ml_min b = Ok fl /\ factors b r pd ad l w d /\
  t = [("rad", g_prv b * r); ("epor", g_EPORv b); ("psdfr", g_psdfrv b); ("rhop", g_pdv b * pd); ("rhof", g_adv b * ad);
      ("L", g_Lv b * l); ("wt", g_wv b * w); ("flrt", fl); ("diam", g_Dv b * d); ("tortu", g_tortuv b);
      ("mass_mul", mass_mult (g_conc_units b)); ("flow_mult", dec 1 3); ("t_mult", t_mult (g_tunits2 b))].
Proof.
  unfold column_data, factors, factor_of. intros H. destruct (flow_ml_min b) as [fl|]; [|discriminate H]. cbn [bind of_option] in H.
  destruct (lookup (g_prunits b) length_conv) as [r|]; [|discriminate H]. cbn [bind of_option] in H.
  destruct (lookup (g_pdunits b) density_conv) as [pd|]; [|discriminate H]. cbn [bind of_option] in H.
  destruct (lookup (g_adunits b) density_conv) as [ad|]; [|discriminate H]. cbn [bind of_option] in H.
  destruct (lookup (g_LengthUnits b) length_conv) as [l|]; [|discriminate H]. cbn [bind of_option] in H.
  destruct (lookup (g_wunits b) weight_conv) as [w|]; [|discriminate H]. cbn [bind of_option] in H.
  destruct (lookup (g_DiameterUnits b) length_conv) as [d|]; [|discriminate H]. cbn [bind of_option] in H.
  exists fl, r, pd, ad, l, w, d. split; [reflexivity|]. split; [repeat split; reflexivity|]. congruence.
Qed.

(** ** Long tables *)
Lemma nth_error_combine {A B} (l : list A) (m : list B) k a b :
  nth_error (combine l m) k = Some (a, b) <-> nth_error l k = Some a /\ nth_error m k = Some b.
Proof.
  revert m k. induction l as [|x l IH]; intros [|y m] [|k]; cbn; try (split; [discriminate|intros (? & ?); discriminate]).
  - split; [intros E; split; congruence|intros (? & ?); congruence].
  - apply IH.
Qed.
Lemma in_by_column w t n v : In (t, n, v) (by_column w) <-> says w t n v.
Proof.
  unfold by_column, says. rewrite in_flat_map. split.
  - intros ((m & col) & I & J). apply in_map_iff in J. destruct J as ((a & b) & E & K). cbn [fst snd] in *.
    assert (a = t) by congruence. assert (m = n) by congruence. assert (b = v) by congruence. subst.
    apply In_nth_error in K. destruct K as (k & K). apply nth_error_combine in K. exists col, k. tauto.
  - intros (col & k & I & A & B). exists (n, col). split; [exact I|]. apply in_map_iff. exists (t, v). split; [reflexivity|].
    apply (nth_error_In _ k). apply nth_error_combine. tauto.
Qed.
Lemma nth_nth_error {A} (l : list A) k d x : nth_error l k = Some x -> nth k l d = x.
Proof. intros H. apply nth_error_nth, H. Qed.
Lemma in_by_row w t n v : table_ok w -> In (t, n, v) (by_row w) <-> says w t n v.
Proof.
  intros (_ & HF). rewrite Forall_forall in HF. unfold by_row, says. rewrite in_flat_map. split.
  - intros (k & I & J). apply in_seq in I. apply in_map_iff in J. destruct J as ((m & col) & E & K). cbn [fst snd] in *.
    assert (L := HF _ K). cbn in L.
    assert (E1 : nth k (f_time w) 0 = t) by congruence. assert (m = n) by congruence. assert (E3 : nth k col 0 = v) by congruence. subst m.
    exists col, k. split; [exact K|]. split; [rewrite <- E1|rewrite <- E3]; apply nth_error_nth'; lia.
  - intros (col & k & I & A & B). exists k. assert (Hk : (k < length (f_time w))%nat) by (apply nth_error_Some; congruence).
    split; [apply in_seq; lia|]. apply in_map_iff. exists (n, col). cbn [fst snd]. rewrite (nth_nth_error _ _ _ _ A), (nth_nth_error _ _ _ _ B).
    split; [reflexivity|exact I].
Qed.

Lemma combine_fst_snd {A B} (l : list (A * B)) : combine (map fst l) (map snd l) = l.
Proof. induction l as [|[a b] l IH]; cbn; congruence. Qed.
Lemma by_row_fst w w' : f_time w = f_time w' -> map fst (f_cols w) = map fst (f_cols w') -> map fst (by_row w) = map fst (by_row w').
Proof.
  intros E1 E2. unfold by_row. rewrite E1. generalize (seq 0 (length (f_time w'))). intros ks. induction ks as [|k ks IH]; [reflexivity|].
  cbn [flat_map]. rewrite !map_app, IH. f_equal. rewrite !map_map. cbn [fst].
  transitivity (map (fun n => (nth k (f_time w') 0, n)) (map fst (f_cols w))); [rewrite map_map; reflexivity|]. rewrite E2, map_map. reflexivity.
Qed.
Lemma with_concs_by_row w w' : f_time w = f_time w' -> map fst (f_cols w) = map fst (f_cols w') -> with_concs (by_row w) (map snd (by_row w')) = by_row w'.
Proof. intros E1 E2. unfold with_concs. rewrite (by_row_fst w w') by assumption. apply combine_fst_snd. Qed.

(** ** Wide again *)
Definition ustep {A} (eqd : A -> A -> bool) (acc : list A) (x : A) : list A := if existsb (eqd x) acc then acc else (acc ++ [x])%list.
Lemma ustep_in {A} (eqd : A -> A -> bool) : (forall x, eqd x x = true) -> forall l acc, (forall x, In x l -> In x acc) -> fold_left (ustep eqd) l acc = acc.
Proof.
  intros RE l. induction l as [|x l IH]; intros acc H; [reflexivity|]. cbn [fold_left]. unfold ustep at 2.
  replace (existsb (eqd x) acc) with true; [apply IH; intros y I; apply H; right; exact I|].
  symmetry. apply existsb_exists. exists x. split; [apply H; left; reflexivity|apply RE].
Qed.
Lemma ustep_new {A} (eqd : A -> A -> bool) : (forall x, eqd x x = true) -> (forall x y, eqd x y = true -> x = y) ->
  forall l acc, NoDup l -> (forall x, In x l -> ~ In x acc) -> fold_left (ustep eqd) l acc = (acc ++ l)%list.
Proof.
  intros RE EQ l. induction l as [|x l IH]; intros acc ND H; [symmetry; apply app_nil_r|]. inversion ND as [|a b N1 N2]; subst.
  cbn [fold_left]. unfold ustep at 2. destruct (existsb (eqd x) acc) eqn:E.
  - exfalso. apply existsb_exists in E. destruct E as (y & I & Q). apply EQ in Q. subst y. apply (H x); [left; reflexivity|exact I].
  - rewrite IH; [rewrite <- app_assoc; reflexivity|exact N2|]. intros y I J. apply in_app_iff in J. destruct J as [J|[->|[]]].
    + apply (H y); [right; exact I|exact J].
    + apply N1, I.
Qed.
(** every time is repeated once per column *)
Lemma ustep_repeat {A B} (eqd : A -> A -> bool) (m : list B) : (forall x, eqd x x = true) -> (forall x y, eqd x y = true -> x = y) -> m <> [] ->
  forall l acc, NoDup l -> (forall x, In x l -> ~ In x acc) -> fold_left (ustep eqd) (flat_map (fun x => map (fun _ => x) m) l) acc = (acc ++ l)%list.
Proof.
  intros RE EQ HM l. induction l as [|x l IH]; intros acc ND H; [symmetry; apply app_nil_r|]. inversion ND as [|a b N1 N2]; subst.
  cbn [flat_map]. rewrite fold_left_app. destruct m as [|y m]; [contradiction|]. cbn [map fold_left].
  assert (E : ustep eqd acc x = (acc ++ [x])%list).
  { unfold ustep. destruct (existsb (eqd x) acc) eqn:E; [|reflexivity]. exfalso. apply existsb_exists in E.
    destruct E as (z & I & Q). apply EQ in Q. subst z. apply (H x); [left; reflexivity|exact I]. }
  rewrite E, (ustep_in eqd RE (map (fun _ => x) m)).
  - rewrite IH; [rewrite <- app_assoc; reflexivity|exact N2|]. intros z I J. apply in_app_iff in J. destruct J as [J|[->|[]]].
    + apply (H z); [right; exact I|exact J].
    + apply N1, I.
  - intros z I. apply in_map_iff in I. destruct I as (_ & <- & _). apply in_or_app. right. left. reflexivity.
Qed.

Lemma flat_map_seq {A B} (f : A -> list B) (d : A) l : flat_map (fun k => f (nth k l d)) (seq 0 (length l)) = flat_map f l.
Proof.
  induction l as [|x l IH]; [reflexivity|]. cbn [length seq flat_map nth]. f_equal. rewrite <- seq_shift, flat_map_concat_map, map_map.
  rewrite flat_map_concat_map in IH. exact IH.
Qed.

Lemma uniq_times w : NoDup (f_time w) -> f_cols w <> [] -> uniq reqb (map (fun p => fst (fst p)) (by_row w)) = f_time w.
Proof.
  intros ND NE. unfold uniq, by_row. change (fun acc x => if existsb (reqb x) acc then acc else (acc ++ [x])%list) with (ustep reqb).
  assert (E : map (fun p : point => fst (fst p)) (flat_map (fun k => map (fun p => (nth k (f_time w) 0, fst p, nth k (snd p) 0)) (f_cols w)) (seq 0 (length (f_time w))))
    = flat_map (fun t => map (fun _ => t) (f_cols w)) (f_time w)).
  { rewrite <- (flat_map_seq (fun t => map (fun _ => t) (f_cols w)) 0). generalize (seq 0 (length (f_time w))). intros ks.
    induction ks as [|k ks IH]; [reflexivity|]. cbn [flat_map]. rewrite map_app. f_equal; [rewrite map_map; reflexivity|exact IH]. }
  refine (eq_trans (f_equal (fun l => fold_left (ustep reqb) l []) E) _).
  rewrite (ustep_repeat reqb (f_cols w) reqb_refl reqb_eq NE) by (try assumption; intros x _ []). reflexivity.
Qed.
Lemma uniq_names w : NoDup (map fst (f_cols w)) -> f_time w <> [] -> uniq String.eqb (map (fun p => snd (fst p)) (by_row w)) = map fst (f_cols w).
Proof.
  intros ND NE. unfold uniq, by_row. change (fun acc x => if existsb (String.eqb x) acc then acc else (acc ++ [x])%list) with (ustep String.eqb).
  destruct (f_time w) as [|t ts] eqn:Et; [contradiction|]. cbn [length seq flat_map]. rewrite map_app, fold_left_app, map_map.
  cbn [fst snd]. change (map (fun x : string * list R => fst x) (f_cols w)) with (map fst (f_cols w)).
  rewrite (ustep_new String.eqb String.eqb_refl (fun x y => proj1 (String.eqb_eq x y)) _ [] ND) by (intros x _ []). cbn [app].
  apply ustep_in; [apply String.eqb_refl|]. intros x I. apply in_map_iff in I. destruct I as (p & <- & I). apply in_flat_map in I.
  destruct I as (k & _ & J). apply in_map_iff in J. destruct J as (q & <- & K). cbn [fst snd]. apply in_map, K.
Qed.

Lemma point_at_app a b t n : point_at (a ++ b) t n = (point_at a t n ++ point_at b t n)%list.
Proof. unfold point_at. rewrite filter_app, map_app. reflexivity. Qed.
Lemma point_at_row cols t n k : NoDup (map fst cols) -> forall col, In (n, col) cols ->
  point_at (map (fun p : string * list R => (t, fst p, nth k (snd p) 0)) cols) t n = [nth k col 0].
Proof.
  induction cols as [|[m c] cols IH]; intros ND col I; [destruct I|]. cbn [map fst snd] in *. inversion ND as [|a b N1 N2]; subst.
  assert (Z : ~ In n (map fst cols) -> point_at (map (fun p : string * list R => (t, fst p, nth k (snd p) 0)) cols) t n = []).
  { clear. intros H. induction cols as [|[m c] cols IH]; [reflexivity|]. cbn [map fst snd]. unfold point_at in *. cbn [filter fst snd].
    rewrite (proj2 (String.eqb_neq m n)), andb_false_r; [apply IH; intros J; apply H; right; exact J|]. intros ->. apply H. left. reflexivity. }
  unfold point_at in *. cbn [filter fst snd]. rewrite reqb_refl. destruct I as [E|I].
  - assert (m = n) by congruence. assert (c = col) by congruence. subst. rewrite String.eqb_refl. cbn [andb map snd]. f_equal. apply Z, N1.
  - destruct (String.eqb_spec m n) as [->|Q]; [exfalso; apply N1; apply (in_map fst _ _ I)|]. cbn [andb]. apply IH; assumption.
Qed.
Lemma point_at_other cols t t' n k : t' <> t -> point_at (map (fun p : string * list R => (t', fst p, nth k (snd p) 0)) cols) t n = [].
Proof.
  intros H. induction cols as [|p cols IH]; [reflexivity|]. cbn [map]. unfold point_at in *. cbn [filter fst snd]. rewrite reqb_neq by exact H.
  cbn [andb]. exact IH.
Qed.
Lemma point_at_by_row w k n col : NoDup (f_time w) -> NoDup (map fst (f_cols w)) -> (k < length (f_time w))%nat -> In (n, col) (f_cols w) ->
  point_at (by_row w) (nth k (f_time w) 0) n = [nth k col 0].
Proof.
  intros NT NN Hk HI. unfold by_row.
  assert (G : forall ks, NoDup ks -> (forall j, In j ks -> (j < length (f_time w))%nat) ->
    point_at (flat_map (fun j => map (fun p => (nth j (f_time w) 0, fst p, nth j (snd p) 0)) (f_cols w)) ks) (nth k (f_time w) 0) n
    = if existsb (Nat.eqb k) ks then [nth k col 0] else []).
  { induction ks as [|j ks IH]; intros ND HB; [reflexivity|]. inversion ND as [|a b N1 N2]; subst. cbn [flat_map existsb]. rewrite point_at_app.
    rewrite IH by (try assumption; intros i I; apply HB; right; exact I). destruct (Nat.eqb_spec k j) as [<-|Q].
    - rewrite (point_at_row _ _ _ _ NN col HI). cbn [orb]. replace (existsb (Nat.eqb k) ks) with false; [reflexivity|].
      symmetry. apply not_true_iff_false. intros E. apply existsb_exists in E. destruct E as (x & I & E). apply Nat.eqb_eq in E. subst x. apply N1, I.
    - rewrite point_at_other; [reflexivity|]. intros E. apply Q. symmetry. apply (proj1 (NoDup_nth (f_time w) 0) NT); [apply HB; left; reflexivity|exact Hk|exact E]. }
  rewrite G; [|apply seq_NoDup|intros j I; apply in_seq in I; lia].
  replace (existsb (Nat.eqb k) (seq 0 (length (f_time w)))) with true; [reflexivity|]. symmetry. apply existsb_exists. exists k. split; [apply in_seq; lia|apply Nat.eqb_refl].
Qed.

Lemma pivot_back w : NoDup (f_time w) -> table_ok w -> f_time w <> [] -> f_cols w <> [] ->
  pivot_wider (by_row w) = Some (f_time w, map (fun p => (fst p, map Some (snd p))) (f_cols w)).
Proof.
  intros NT (NN & HF) HT HC. unfold pivot_wider. rewrite uniq_times, uniq_names by assumption.
  assert (V : forall t n, In t (f_time w) -> In n (map fst (f_cols w)) -> length (point_at (by_row w) t n) = 1%nat).
  { intros t n It In'. apply (In_nth _ _ 0) in It. destruct It as (k & Hk & <-). apply in_map_iff in In'. destruct In' as ((m & col) & <- & I).
    cbn [fst]. rewrite (point_at_by_row w k m col) by assumption. reflexivity. }
  match goal with |- (if ?c then _ else _) = _ => replace c with true end.
  - do 2 f_equal. rewrite map_map. apply map_ext_in. intros (n & col) I. cbn [fst snd]. f_equal. rewrite Forall_forall in HF. assert (L := HF _ I). cbn in L.
    apply (nth_ext _ _ None None); [rewrite !map_length; lia|]. rewrite map_length. intros k Hk.
    rewrite (nth_indep _ None (nth_error (point_at (by_row w) (nth (length (f_time w)) (f_time w) 0) n) 0)) by (rewrite map_length; exact Hk).
    rewrite (map_nth (fun t => nth_error (point_at (by_row w) t n) 0) (f_time w)).
    rewrite (nth_indep (f_time w) _ 0) by exact Hk. rewrite (point_at_by_row w k n col) by assumption. cbn [nth_error].
    rewrite (nth_indep _ None (Some 0)) by (rewrite map_length; lia). rewrite map_nth. reflexivity.
  - symmetry. apply forallb_forall. intros t It. apply forallb_forall. intros n I. rewrite V by assumption. reflexivity.
Qed.
