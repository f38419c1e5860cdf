(** Properties C91-C93: loading influent and effluent measurements. *)
From Coq Require Import Reals List Arith Bool String Lra Lia.
From Verif Require Import Lib_Py M_GacFun P_GacFun M_GacMin P_GacMin M_GacFit P_GacFit M_Extra P_Colloc M_GacData.
Import ListNotations.
Open Scope R_scope.
Open Scope string_scope.
Local Notation length := List.length.

(** ** Specification *)
(** The concentrations recorded for a compound of a stream at a time, and the value they stand
    for: their mean, zero below the reporting limit. *)
Definition readings (data : list measurement) (ty c : string) (t : R) : list R :=
  map m_conc (filter (fun r => (String.eqb (m_type r) ty && String.eqb (m_comp r) c && reqb (m_time r) t)%bool) data).
Definition average (l : list R) : R := fold_right Rplus 0 l / INR (length l).
Definition value_of (limit : R) (l : list R) : R := if rltb (average l) limit then 0 else average l.
(** Every compound of the sheet was measured in the stream at that time. *)
Definition all_measured (data : list measurement) (ty : string) (t : R) : Prop := forall r, In r data -> readings data ty (m_comp r) t <> [].
(** Influent values in the loaded frame: a zero may be lifted to 0.001. *)
Definition shown (chained : bool) (x : R) : R := if (chained && reqb x 0)%bool then 1 / 1000 else x.

(** ** Lemmas *)
Lemma filter_filter {A} (f g : A -> bool) l : filter f (filter g l) = filter (fun x => (g x && f x)%bool) l.
Proof. induction l as [|x l IH]; [reflexivity|]. cbn. destruct (g x); cbn; [destruct (f x); cbn; rewrite IH; reflexivity|exact IH]. Qed.
Lemma lsum_fold l : lsum l = fold_right Rplus 0 l.
Proof. induction l as [|x l IH]; [reflexivity|]. cbn. rewrite IH. reflexivity. Qed.
Lemma cell_spec data limit ty c t : cell data limit ty c t = match readings data ty c t with [] => None | l => Some (value_of limit l) end.
Proof.
  unfold cell, of_col, readings. rewrite filter_filter. destruct (map m_conc _) as [|x l]; [reflexivity|]. unfold value_of, average. rewrite lsum_fold. reflexivity.
Qed.
Lemma complete_spec data limit ty t : complete data limit ty t = true <-> all_measured data ty t.
Proof.
  unfold complete. rewrite forallb_forall. split.
  - intros H r I E. specialize (H (m_comp r)). rewrite cell_spec, E in H. assert (false = true); [|discriminate]. apply H. unfold compounds. apply nodup_In, in_map, I.
  - intros H c I. unfold compounds in I. apply nodup_In, in_map_iff in I as (r & <- & I). rewrite cell_spec. specialize (H r I). destruct (readings data ty (m_comp r) t); [congruence|reflexivity].
Qed.
Lemma has_spec t l : has t l = true <-> In t l.
Proof. unfold has. rewrite existsb_exists. split; [intros (x & I & E); apply reqb_true in E; subst; exact I|intros I; exists t; split; [exact I|apply reqb_true; reflexivity]]. Qed.
Lemma has_false t l : has t l = false <-> ~ In t l.
Proof. rewrite <- has_spec. destruct (has t l); split; congruence. Qed.
Lemma times_spec data t : In t (times data) <-> exists r, In r data /\ m_time r = t.
Proof. unfold times. rewrite usort_in, in_map_iff. split; intros (r & A & B); exists r; tauto. Qed.
Lemma measured_time data ty c t : readings data ty c t <> [] -> In t (times data).
Proof.
  unfold readings. intros H. apply times_spec. destruct (filter _ data) as [|r l] eqn:E; [cbn in H; congruence|]. assert (I : In r (filter (fun r => (String.eqb (m_type r) ty && String.eqb (m_comp r) c && reqb (m_time r) t)%bool) data)) by (rewrite E; left; reflexivity).
  apply filter_In in I as (I & Q). apply andb_prop in Q as (_ & Q). apply reqb_true in Q. exists r. split; assumption.
Qed.
Lemma known_spec data limit ty t : In t (known data limit ty) <-> In t (times data) /\ all_measured data ty t.
Proof. unfold known. rewrite filter_In, complete_spec. reflexivity. Qed.
Lemma load_inv data infl effl limit chained f : load data infl effl limit chained = Ok f ->
  l_index f = index0 data /\ (forall c t, l_infl f c t = lifted chained (filled data infl limit infl c t)) /\ (forall c t, l_effl f c t = filled data infl limit effl c t) /\
  (2 <= length (known data limit infl))%nat /\ (2 <= length (known data limit effl))%nat.
Proof.
  unfold load. destruct (negb _); [discriminate|]. destruct (Nat.ltb (length (known data limit infl)) 2 || Nat.ltb (length (known data limit effl)) 2)%bool eqn:L; [discriminate|].
  destruct (negb (has 0 (times data)) && _)%bool; [discriminate|]. intros H. match type of H with Ok ?A = _ => assert (E : f = A) by congruence end. subst f. cbn.
  apply orb_false_elim in L as (L1 & L2). apply Nat.ltb_ge in L1, L2. repeat split; assumption.
Qed.
Lemma filled_measured data infl limit ty c t r : In r data -> all_measured data ty t -> m_comp r = c -> filled data infl limit ty c t = Some (value_of limit (readings data ty c t)).
Proof.
  intros I A <-. pose proof (A r I) as N. assert (T : In t (times data)) by (apply (measured_time _ _ _ _ N)).
  assert (K : In t (known data limit ty)) by (apply known_spec; split; assumption). unfold filled.
  replace (has t (0 :: known data limit ty)) with true by (symmetry; apply has_spec; right; exact K). rewrite andb_false_r. unfold base.
  replace (reqb t 0 && negb (has 0 (times data)))%bool with false.
  - rewrite cell_spec. destruct (readings data ty (m_comp r) t); [congruence|reflexivity].
  - symmetry. destruct (reqb t 0) eqn:Z; [|reflexivity]. apply reqb_true in Z. subst t. rewrite (proj2 (has_spec 0 (times data)) T). reflexivity.
Qed.

(** ** C91: measurements are kept *)
(** The frame has one row for each recorded time and one for time zero, in increasing order. *)
Theorem C91_rows_partial : forall data infl effl limit chained f, load data infl effl limit chained = Ok f ->
  (forall t, In t (l_index f) <-> t = 0 \/ exists r, In r data /\ m_time r = t) /\ forall i j, (i < j < length (l_index f))%nat -> nth i (l_index f) 0 < nth j (l_index f) 0.
Proof.
  intros data infl effl limit chained f H. destruct (load_inv _ _ _ _ _ _ H) as (-> & _). unfold index0. destruct (has 0 (times data)) eqn:E.
  - apply has_spec in E. split; [|intros i j L; apply usort_incr; exact L]. intros t. rewrite times_spec. split; [tauto|]. intros [-> |Q]; [apply times_spec, E|exact Q].
  - split; [|intros i j L; apply (uinsert_incr 0 (times data) (usort_incr _)); exact L]. intros t. rewrite uinsert_in, times_spec. tauto.
Qed.
(** Where every compound was measured the loaded value is the measured one. *)
Theorem C91_complete_rows_partial : forall data infl effl limit chained f c t, load data infl effl limit chained = Ok f -> (exists r, In r data /\ m_comp r = c) ->
  (all_measured data infl t -> l_infl f c t = Some (shown chained (value_of limit (readings data infl c t)))) /\
  (all_measured data effl t -> l_effl f c t = Some (value_of limit (readings data effl c t))).
Proof.
  intros data infl effl limit chained f c t H (r & I & E). destruct (load_inv _ _ _ _ _ _ H) as (_ & HI & HE & _). split; intros A.
  - rewrite HI, (filled_measured _ _ _ _ _ _ r I A E). unfold lifted, shown, dec. cbn -[pow]. f_equal. destruct (chained && reqb _ 0)%bool; [cbn; field|reflexivity].
  - rewrite HE. apply (filled_measured _ _ _ _ _ _ r I A E).
Qed.
(** The full statement, without the condition on the other compounds, is false: A is 40 on
    day 5, when B was not measured, and is loaded as 10. *)
Definition reading (t : R) (ty c : string) (x : R) : measurement := {| m_time := t; m_type := ty; m_comp := c; m_conc := x |}.
Definition gappy : list measurement :=
  [reading 0 "in" "A" 10; reading 0 "in" "B" 10; reading 0 "out" "A" 0; reading 0 "out" "B" 0; reading 5 "in" "A" 40;
   reading 10 "in" "A" 10; reading 10 "in" "B" 10; reading 10 "out" "A" 5; reading 10 "out" "B" 5].
Ltac rcase := repeat match goal with
  | |- context [reqb ?a ?b] => first [rewrite (proj2 (reqb_true a b)) by lra | rewrite (proj2 (reqb_false a b)) by lra]
  | |- context [rltb ?a ?b] => first [rewrite (proj2 (rltb_true a b)) by lra | rewrite (proj2 (rltb_false a b)) by lra]
  | |- context [rleb ?a ?b] => first [rewrite (proj2 (rleb_true a b)) by lra | rewrite (proj2 (rleb_false a b)) by lra]
  end.
Ltac sort_times := unfold times; cbn [map m_time reading usort uinsert]; do 12 (rcase; cbn [uinsert]); reflexivity.
Ltac find_cell := unfold cell, of_col; cbn [filter m_type m_comp m_time m_conc reading String.eqb Ascii.eqb Bool.eqb andb map]; rcase; cbn [filter map m_conc reading lsum length INR]; rcase;
  cbn [filter map m_conc reading lsum length INR]; cbv zeta; rcase; try reflexivity; f_equal; field.
Lemma gappy_compounds : compounds gappy = ["A"; "B"].
Proof. reflexivity. Qed.
Lemma gappy_times : times gappy = [0; 5; 10].
Proof. unfold gappy. sort_times. Qed.
Lemma gappy_cells :
  cell gappy 0 "in" "A" 0 = Some 10 /\ cell gappy 0 "in" "A" 5 = Some 40 /\ cell gappy 0 "in" "A" 10 = Some 10 /\
  cell gappy 0 "in" "B" 0 = Some 10 /\ cell gappy 0 "in" "B" 5 = None /\ cell gappy 0 "in" "B" 10 = Some 10 /\
  cell gappy 0 "out" "A" 0 = Some 0 /\ cell gappy 0 "out" "A" 5 = None /\ cell gappy 0 "out" "A" 10 = Some 5 /\
  cell gappy 0 "out" "B" 0 = Some 0 /\ cell gappy 0 "out" "B" 5 = None /\ cell gappy 0 "out" "B" 10 = Some 5.
Proof. unfold gappy. repeat split; find_cell. Qed.
Lemma gappy_known : known gappy 0 "in" = [0; 10] /\ known gappy 0 "out" = [0; 10].
Proof.
  destruct gappy_cells as (A1 & A2 & A3 & A4 & A5 & A6 & A7 & A8 & A9 & A10 & A11 & A12).
  unfold known, complete. rewrite gappy_times, gappy_compounds. cbn [filter forallb]. rewrite A1, A2, A3, A4, A5, A6, A7, A8, A9, A10, A11, A12. split; reflexivity.
Qed.
Lemma gappy_loads chained : exists f, load gappy "in" "out" 0 chained = Ok f.
Proof.
  unfold load. rewrite gappy_compounds. cbn -[rltb has known times]. destruct gappy_known as (-> & ->). cbn -[rltb has times]. rewrite gappy_times.
  replace (has 0 [0; 5; 10]) with true by (symmetry; apply has_spec; left; reflexivity). cbn -[rltb]. eexists. reflexivity.
Qed.
Theorem C91_other_compound_refuted : forall chained, exists f, load gappy "in" "out" 0 chained = Ok f /\
  readings gappy "in" "A" 5 = [40] /\ l_infl f "A" 5 = Some 10.
Proof.
  intros chained. destruct (gappy_loads chained) as (f & H). exists f. split; [exact H|]. split.
  - unfold readings, gappy. cbn [filter m_type m_comp m_time m_conc reading String.eqb Ascii.eqb Bool.eqb andb map]. rcase. reflexivity.
  - destruct (load_inv _ _ _ _ _ _ H) as (_ & HI & _). rewrite HI. unfold filled. destruct gappy_known as (K & _). rewrite K. rcase.
    replace (has 5 (0 :: [0; 10])) with false by (symmetry; apply has_false; cbn; lra). cbn [andb negb]. unfold line_of. rewrite K.
    destruct gappy_cells as (A1 & _ & A3 & _). cbn [map]. rewrite A1, A3. unfold lifted. cbn [interp_x]. replace (line 0 10 10 10 5) with 10 by (unfold line; field).
    rewrite (proj2 (reqb_false 10 0)) by lra. rewrite andb_false_r. reflexivity.
Qed.

(** ** C92: gaps are filled with straight lines *)
Lemma tab_of_times (g : R -> R) : forall l, incr l -> tab_inc (map (fun u => (u, g u)) l).
Proof.
  induction l as [|x l IH]; intros H; [exact I|]. destruct (incr_tl _ _ H) as (H1 & H2). destruct l as [|y l]; [exact I|]. cbn [map]. split; [apply H2; left; reflexivity|]. apply (IH H1).
Qed.
Lemma known_incr data limit ty : incr (known data limit ty).
Proof.
  unfold known, times. generalize (usort_incr (map m_time data)). generalize (usort (map m_time data)). induction l as [|x l IH]; intros H; [intros i j Hij; cbn in Hij; lia|].
  destruct (incr_tl _ _ H) as (H1 & H2). cbn [filter]. destruct (complete data limit ty x); [|apply IH, H1]. apply incr_cons; [apply IH, H1|]. intros y I. apply filter_In in I as (I & _). apply H2, I.
Qed.
Lemma interp_between (g : R -> R) l1 u v l2 t : incr (l1 ++ u :: v :: l2) -> (l1 = [] \/ u <= t) -> (l2 = [] \/ t <= v) ->
  interp_x (map (fun x => (x, g x)) (l1 ++ u :: v :: l2)) t = line u (g u) v (g v) t.
Proof.
  induction l1 as [|x l1 IH]; intros H T1 T2.
  - cbn [app map interp_x]. destruct l2 as [|w l2]; [reflexivity|]. cbn [map]. destruct T2 as [T2|T2]; [discriminate|]. rewrite (proj2 (rleb_true t v)) by lra. reflexivity.
  - destruct T1 as [T1|T1]; [discriminate|]. destruct (incr_tl _ _ H) as (H1 & H2). cbn [app] in *. cbn [map].
    assert (Q : interp_x (map (fun x0 => (x0, g x0)) (l1 ++ u :: v :: l2)) t = line u (g u) v (g v) t) by (apply IH; [exact H1|right; exact T1|exact T2]).
    destruct l1 as [|y l1].
    + cbn [app map interp_x] in *. destruct (rleb t u) eqn:E; [|exact Q]. apply rleb_true in E. assert (t = u) by lra. subst t. rewrite line_at1 by (apply H2; left; reflexivity). rewrite line_at0. reflexivity.
    + cbn [app map] in *. assert (YU : y < u). { destruct (incr_tl _ _ H1) as (_ & H3). apply H3. apply in_or_app. right. left. reflexivity. }
      change (interp_x ((x, g x) :: (y, g y) :: map (fun x0 => (x0, g x0)) (l1 ++ u :: v :: l2)) t) with
        (match map (fun x0 => (x0, g x0)) (l1 ++ u :: v :: l2) with [] => line x (g x) y (g y) t | _ => if rleb t y then line x (g x) y (g y) t else interp_x ((y, g y) :: map (fun x0 => (x0, g x0)) (l1 ++ u :: v :: l2)) t end).
      destruct (map (fun x0 => (x0, g x0)) (l1 ++ u :: v :: l2)) as [|p l] eqn:E; [destruct l1; discriminate E|]. rewrite <- E in *. rewrite (proj2 (rleb_false t y)) by lra. exact Q.
Qed.
(** [neighbours]: u and v are consecutive among the times at which every compound of the stream
    was measured. *)
Definition neighbours (data : list measurement) (ty : string) (u v : R) : Prop :=
  u < v /\ all_measured data ty u /\ all_measured data ty v /\ forall w, u < w < v -> ~ all_measured data ty w.
Definition first_pair data ty u := forall w, all_measured data ty w -> u <= w.
Definition last_pair data ty v := forall w, all_measured data ty w -> w <= v.
Lemma measured_in data ty t : data <> [] -> all_measured data ty t -> In t (times data).
Proof. intros N A. destruct data as [|r data]; [congruence|]. apply (measured_time _ _ _ _ (A r (or_introl eq_refl))). Qed.
Lemma adjacent l u v : incr l -> In u l -> In v l -> u < v -> (forall w, In w l -> ~ u < w < v) -> exists l1 l2, l = (l1 ++ u :: v :: l2)%list.
Proof.
  intros H IU IV L N. destruct (in_split _ _ IU) as (l1 & l2 & E). subst l. exists l1. assert (IV2 : In v l2).
  { apply in_app_or in IV as [IV|[IV|IV]]; [|lra|exact IV]. exfalso. clear - H IV L. induction l1 as [|x l1 IH]; [destruct IV|]. destruct (incr_tl _ _ H) as (H1 & H2). destruct IV as [-> |IV]; [|apply (IH IV H1)].
    specialize (H2 u ltac:(apply in_or_app; right; left; reflexivity)). lra. }
  assert (H2 : incr (u :: l2)) by (clear - H; induction l1 as [|x l1 IH]; [exact H|apply IH; apply (incr_tl _ _ H)]). destruct (incr_tl _ _ H2) as (H3 & H4).
  destruct l2 as [|y l2]; [destruct IV2|]. exists l2. f_equal. f_equal. f_equal. destruct IV2 as [IV2|IV2]; [exact IV2|]. exfalso. destruct (incr_tl _ _ H3) as (_ & H5). apply (N y); [apply in_or_app; right; right; left; reflexivity|].
  split; [apply H4; left; reflexivity|apply H5, IV2].
Qed.
Lemma incr_before l1 u l2 x : incr (l1 ++ u :: l2) -> In x l1 -> x < u.
Proof.
  induction l1 as [|y l1 IH]; intros H I; [destruct I|]. destruct (incr_tl _ _ H) as (H1 & H2). destruct I as [-> |I]; [|apply (IH H1 I)]. apply H2. apply in_or_app. right. left. reflexivity.
Qed.
Lemma incr_after l1 u l2 x : incr (l1 ++ u :: l2) -> In x l2 -> u < x.
Proof. induction l1 as [|y l1 IH]; intros H I; destruct (incr_tl _ _ H) as (H1 & H2); [apply H2, I|apply (IH H1 I)]. Qed.
Lemma filled_gap data infl limit ty c t u v : data <> [] -> 0 < t -> ~ all_measured data ty t -> neighbours data ty u v ->
  (u <= t \/ first_pair data ty u) -> (t <= v \/ last_pair data ty v) ->
  filled data infl limit ty c t = Some (line u (match cell data limit ty c u with Some x => x | None => 0 end) v (match cell data limit ty c v with Some x => x | None => 0 end) t).
Proof.
  intros ND T NM (L & MU & MV & N) B1 B2. unfold filled. rewrite (proj2 (rleb_true 0 t)) by lra.
  replace (has t (0 :: known data limit ty)) with false.
  2: { symmetry. apply has_false. intros [E|I]; [lra|]. apply known_spec in I as (_ & I). exact (NM I). }
  cbn [andb negb]. f_equal. unfold line_of.
  assert (IU : In u (known data limit ty)) by (apply known_spec; split; [apply (measured_in _ _ _ ND MU)|exact MU]).
  assert (IV : In v (known data limit ty)) by (apply known_spec; split; [apply (measured_in _ _ _ ND MV)|exact MV]).
  pose proof (known_incr data limit ty) as KI.
  destruct (adjacent _ u v KI IU IV L) as (l1 & l2 & E). { intros w IW Q. apply known_spec in IW as (_ & IW). exact (N w Q IW). }
  assert (KM : forall w, In w (known data limit ty) -> all_measured data ty w) by (intros w IW; apply known_spec in IW; tauto).
  rewrite E in KI, KM |- *. apply (interp_between (fun x => match cell data limit ty c x with Some y => y | None => 0 end)); [exact KI| |].
  - destruct B1 as [B1|B1]; [right; exact B1|left]. destruct l1 as [|x l1]; [reflexivity|]. exfalso. specialize (B1 x (KM x (or_introl eq_refl))). pose proof (incr_before (x :: l1) u (v :: l2) x KI (or_introl eq_refl)). lra.
  - destruct B2 as [B2|B2]; [right; exact B2|left]. destruct l2 as [|x l2]; [reflexivity|]. exfalso. specialize (B2 x (KM x ltac:(apply in_or_app; right; right; right; left; reflexivity))).
    replace (l1 ++ u :: v :: x :: l2)%list with ((l1 ++ [u]) ++ v :: x :: l2)%list in KI by (rewrite <- app_assoc; reflexivity). pose proof (incr_after _ _ _ x KI (or_introl eq_refl)). lra.
Qed.
(** At a positive time at which some compound of a stream was not measured, the stream is on
    the straight line through the two neighbouring complete measurements, the first two before
    the first and the last two after the last. *)
Theorem C92_gaps : forall data infl effl limit chained f c t u v, load data infl effl limit chained = Ok f -> (exists r, In r data /\ m_comp r = c) -> 0 < t ->
  (~ all_measured data infl t -> neighbours data infl u v -> (u <= t \/ first_pair data infl u) -> (t <= v \/ last_pair data infl v) ->
   l_infl f c t = Some (shown chained (line u (value_of limit (readings data infl c u)) v (value_of limit (readings data infl c v)) t))) /\
  (~ all_measured data effl t -> neighbours data effl u v -> (u <= t \/ first_pair data effl u) -> (t <= v \/ last_pair data effl v) ->
   l_effl f c t = Some (line u (value_of limit (readings data effl c u)) v (value_of limit (readings data effl c v)) t)).
Proof.
  intros data infl effl limit chained f c t u v H (r & I & E) T. destruct (load_inv _ _ _ _ _ _ H) as (_ & HI & HE & _).
  assert (ND : data <> []) by (intros Q; rewrite Q in I; destruct I).
  assert (CV : forall ty w, all_measured data ty w -> match cell data limit ty c w with Some x => x | None => 0 end = value_of limit (readings data ty c w)).
  { intros ty w A. rewrite cell_spec. specialize (A r I). rewrite E in A. destruct (readings data ty c w); [congruence|reflexivity]. }
  split; intros NM NB B1 B2; pose proof NB as (_ & MU & MV & _).
  - rewrite HI, (filled_gap _ _ _ _ _ _ _ _ ND T NM NB B1 B2), (CV _ _ MU), (CV _ _ MV). unfold lifted, shown, dec. f_equal. destruct (chained && reqb _ 0)%bool; [cbn; field|reflexivity].
  - rewrite HE, (filled_gap _ _ _ _ _ _ _ _ ND T NM NB B1 B2), (CV _ _ MU), (CV _ _ MV). reflexivity.
Qed.

(** ** C93: the loaded frame has no holes and invents nothing *)
(** From the first positive time on nothing is missing; nor at time zero when every compound
    was measured in both streams then. *)
Theorem C93_positive_times_partial : forall data infl effl limit chained f c t, load data infl effl limit chained = Ok f -> (exists r, In r data /\ m_comp r = c) ->
  0 < t \/ (t = 0 /\ all_measured data infl 0 /\ all_measured data effl 0) -> l_infl f c t <> None /\ l_effl f c t <> None.
Proof.
  intros data infl effl limit chained f c t H (r & I & E) T. destruct (load_inv _ _ _ _ _ _ H) as (_ & HI & HE & _).
  assert (Q : forall ty, (0 < t \/ (t = 0 /\ all_measured data ty 0)) -> filled data infl limit ty c t <> None).
  { intros ty TT. destruct (complete data limit ty t) eqn:C.
    - apply complete_spec in C. rewrite (filled_measured _ _ _ _ _ _ r I C E). discriminate.
    - assert (NC : ~ all_measured data ty t) by (rewrite <- complete_spec; rewrite C; discriminate). destruct TT as [TT|(-> & TT)]; [|contradiction].
      unfold filled. rewrite (proj2 (rleb_true 0 t)) by lra. replace (has t (0 :: known data limit ty)) with false; [discriminate|].
      symmetry. apply has_false. intros [Z|K]; [lra|]. apply known_spec in K as (_ & K). exact (NC K). }
  rewrite HI, HE. split; [|apply Q; tauto]. assert (F : filled data infl limit infl c t <> None) by (apply Q; tauto). destruct (filled data infl limit infl c t); [discriminate|congruence].
Qed.
(** The full statement is false at time zero.  Records that start later get an influent of zero
    (or 0.001), whatever was measured, ... *)
Theorem C93_late_start_refuted : forall data infl effl limit chained f c, load data infl effl limit chained = Ok f -> (exists r, In r data /\ m_comp r = c) ->
  (forall r, In r data -> m_time r <> 0) -> l_infl f c 0 = Some (shown chained 0).
Proof.
  intros data infl effl limit chained f c H (r & I & E) NZ. destruct (load_inv _ _ _ _ _ _ H) as (_ & HI & _ & L & _). rewrite HI. unfold filled.
  rewrite (proj2 (has_spec 0 (0 :: known data limit infl))) by (left; reflexivity). rewrite andb_false_r. unfold base.
  assert (H0 : has 0 (times data) = false) by (apply has_false; intros Q; apply times_spec in Q as (x & X & Y); exact (NZ x X Y)). rewrite H0, reqb_refl. cbn [andb negb].
  assert (K : In (last (known data limit infl) 0) (known data limit infl)).
  { destruct (exists_last (l := known data limit infl)) as (l & z & EQ); [intros Q; rewrite Q in L; cbn in L; lia|]. rewrite EQ, last_last. apply in_or_app. right. left. reflexivity. }
  apply known_spec in K as (_ & K). set (w := last (known data limit infl) 0) in *. clearbody w. rewrite cell_spec. specialize (K r I). rewrite E in K. destruct (readings data infl c w) as [|y l]; [congruence|].
  cbn [map1 lifted]. rewrite Rmult_0_r. unfold shown, dec. f_equal. destruct (chained && reqb 0 0)%bool; [cbn; field|reflexivity].
Qed.
(** ... and an influent first measured after the first effluent is missing at time zero. *)
Theorem C93_missing_start_refuted : forall data infl effl limit chained f c, load data infl effl limit chained = Ok f ->
  (exists r, In r data /\ m_time r = 0) -> readings data infl c 0 = [] -> l_infl f c 0 = None.
Proof.
  intros data infl effl limit chained f c H Z N. destruct (load_inv _ _ _ _ _ _ H) as (_ & HI & _). rewrite HI. unfold filled.
  rewrite (proj2 (has_spec 0 (0 :: known data limit infl))) by (left; reflexivity). rewrite andb_false_r. unfold base.
  rewrite (proj2 (has_spec 0 (times data))) by (apply times_spec, Z). rewrite andb_false_r, cell_spec, N. reflexivity.
Qed.
(** ** The hypotheses are met *)
Definition late : list measurement := [reading 7 "in" "A" 20; reading 14 "in" "A" 20; reading 7 "out" "A" 0; reading 14 "out" "A" 3].
Definition early_effluent : list measurement := reading 0 "out" "A" 0 :: late.
Lemma late_loads d : (d = late \/ d = early_effluent) -> exists f, load d "in" "out" 0 true = Ok f.
Proof.
  intros D. assert (C : compounds d = ["A"]) by (destruct D; subst; reflexivity).
  assert (T : times d = [7; 14] \/ times d = [0; 7; 14]) by (destruct D; subst; unfold early_effluent, late; [left|right]; sort_times).
  assert (X : cell d 0 "in" "A" 7 = Some 20 /\ cell d 0 "in" "A" 14 = Some 20 /\ cell d 0 "in" "A" 0 = None /\ cell d 0 "out" "A" 7 = Some 0 /\ cell d 0 "out" "A" 14 = Some 3).
  { destruct D; subst; unfold early_effluent, late; repeat split; find_cell. }
  destruct X as (X1 & X2 & X3 & X4 & X5).
  assert (K1 : known d 0 "in" = [7; 14]). { unfold known, complete. rewrite C. destruct T as [-> | ->]; cbn [filter forallb]; rewrite X1, X2; try rewrite X3; reflexivity. }
  assert (K2 : exists l, known d 0 "out" = (l ++ [7; 14])%list).
  { unfold known, complete. rewrite C. destruct T as [-> | ->]; cbn [filter forallb]; rewrite X4, X5; [exists []; reflexivity|]. destruct (cell d 0 "out" "A" 0); [exists [0]|exists []]; reflexivity. }
  destruct K2 as (l & K2). unfold load. rewrite C, K1, K2. rewrite app_length. cbn [length forallb].
  replace (Nat.ltb (length l + 2) 2) with false by (symmetry; apply Nat.ltb_ge; lia). cbn [Nat.ltb Nat.leb orb last].
  replace (rltb 14 0) with false by (symmetry; apply rltb_false; lra). rewrite andb_false_r. destruct D; subst; cbn; eexists; reflexivity.
Qed.
Example late_met : (exists f, load late "in" "out" 0 true = Ok f /\ l_infl f "A" 0 = Some (1 / 1000)) /\ exists f, load early_effluent "in" "out" 0 true = Ok f /\ l_infl f "A" 0 = None.
Proof.
  split; [destruct (late_loads late (or_introl eq_refl)) as (f & H)|destruct (late_loads early_effluent (or_intror eq_refl)) as (f & H)]; exists f; (split; [exact H|]).
  - rewrite (C93_late_start_refuted _ _ _ _ _ _ "A" H); [unfold shown; rewrite reqb_refl; reflexivity|eexists; split; [left; reflexivity|reflexivity]|].
    intros r I. unfold late in I. cbn in I. destruct I as [<- |[<- |[<- |[<- |[]]]]]; cbn; lra.
  - apply (C93_missing_start_refuted _ _ _ _ _ _ "A" H); [eexists; split; [left; reflexivity|reflexivity]|].
    unfold readings, early_effluent, late. cbn [filter m_type m_comp m_time m_conc reading String.eqb Ascii.eqb Bool.eqb andb map]. rcase. reflexivity.
Qed.
Example gap_met : neighbours gappy "in" 0 10 /\ ~ all_measured gappy "in" 5.
Proof.
  destruct gappy_known as (K & _). assert (M : forall t, all_measured gappy "in" t <-> t = 0 \/ t = 10).
  { intros t. split; intros H.
    - assert (I : In t (known gappy 0 "in")) by (apply known_spec; split; [apply (measured_in gappy "in"); [discriminate|exact H]|exact H]). rewrite K in I. cbn in I. intuition.
    - assert (I : In t (known gappy 0 "in")) by (rewrite K; cbn; intuition). apply known_spec in I. tauto. }
  split; [split; [lra|]; split; [apply M; lra|]; split; [apply M; lra|]; intros w Q X; apply M in X; lra|]. intros X. apply M in X. lra.
Qed.
Print Assumptions C91_complete_rows_partial.
Print Assumptions C91_other_compound_refuted.
Print Assumptions C92_gaps.
Print Assumptions C93_positive_times_partial.
Print Assumptions C93_late_start_refuted.
Print Assumptions C93_missing_start_refuted.
Print Assumptions C91_rows_partial.
