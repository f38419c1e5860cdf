(** C165-C167: how a lead-lag system is set up. *)
From Coq Require Import Reals List Arith Bool String Lra Lia.
From Verif Require Import Lib_Py M_GacFun P_GacFun M_LeadLag M_LeadLagInit Props_RUpload.
Import ListNotations.
Open Scope R_scope.
Open Scope string_scope.
Local Notation length := List.length.

(** * C165: a system with a faulty input refuses to run *)
(** The complaints are about these inputs. *)
Definition fault (a : llargs) : Prop :=
  a_properties a = None \/ a_raw a = None \/ (a_compounds a = None /\ forall r, a_raw a = Some r -> lookup "influent" r = None) \/ (str_in "gac" (lower (a_config a)) = true /\ a_k a = false).
Lemma fault_said a : fault a <-> said_first a <> [].
Proof.
  unfold fault. change (str_in "gac" (lower (a_config a))) with (is_gac a). unfold fault, said_first, said_compounds, said_props, said_raw, said_k, raw_compounds. destruct (a_properties a) as [pr|]; destruct (a_raw a) as [r|]; cbn.
  - destruct (a_compounds a) as [l|]; [|destruct (lookup "influent" r) as [f|] eqn:E]; cbn; destruct (is_gac a), (a_k a); cbn; split;
      try (intros [H|[H|[[H1 H2]|[H1 H2]]]]; try discriminate; try (specialize (H2 r eq_refl); congruence); fail);
      try (intros _; right; right; right; split; reflexivity);
      try (intros _; right; right; left; split; [reflexivity|intros x X; congruence]);
      try (intros H; exfalso; apply H; reflexivity).
  - split; [discriminate|]. intros _. tauto.
  - split; [discriminate|]. intros _. tauto.
  - split; [discriminate|]. intros _. tauto.
Qed.

(** Everything that could be read: the workbook makes the object forget the faults. *)
Theorem C165_workbook_refuted a b p c ions tu :
  a_file a = Some b -> b_params b = Some p -> lookup "time" p = Some tu -> b_cin b = Some c -> b_ions b = Some ions -> fault a ->
  exists o, LLobj a = Ok o /\ l_said o <> [] /\ refuses o = false.
Proof.
  intros F P T C I Ft. apply fault_said in Ft. unfold LLobj, raw_influent. destruct (said_first a) as [|m ms] eqn:E; [exfalso; apply Ft; reflexivity|]. cbn [bind].
  rewrite F.
  assert (L : forall q : psheet, lookup "time" q = Some tu -> exists x y z, file_cin (Some q) b = (x, y, z, false)).
  { intros q Q. unfold file_cin. rewrite C, Q. destruct tu as [v u]. destruct (String.eqb u "hr"); do 3 eexists; reflexivity. }
  assert (U : forall n (x : R * string) q, n <> "time" -> lookup "time" (update n x q) = lookup "time" q).
  { intros n x q N. rewrite lookup_update. destruct (String.eqb "time" n) eqn:B; [apply String.eqb_eq in B; congruence|reflexivity]. }
  assert (G : exists q m0, file_params a b = (Some q, m0) /\ lookup "time" q = Some tu).
  { unfold file_params. rewrite P. destruct (lookup "nr" p) as [[? ?]|]; [destruct (lookup "nz" p) as [[? ?]|]|]; do 2 eexists; (split; [reflexivity|]); rewrite ?U by discriminate; exact T. }
  destruct G as (q & m' & -> & Q). cbv beta iota. destruct (L q Q) as (x & y & z & ->). rewrite I. cbn [of_option bind]. eexists. split; [reflexivity|]. cbn. split; [discriminate|reflexivity].
Qed.

(** Without a workbook nothing that is faulty gets as far as a run, and a system that was set up
    had nothing wrong. *)
Theorem C165_arguments_partial a : a_file a = None ->
  (fault a -> exists e, LLobj a = Err e) /\ (forall o, LLobj a = Ok o -> ~ fault a /\ l_said o = [] /\ refuses o = false).
Proof.
  intros F. split.
  - intros Ft. apply fault_said in Ft. unfold LLobj, raw_influent. destruct (said_first a) as [|m ms] eqn:E; [exfalso; apply Ft; reflexivity|]. cbn [bind].
    rewrite F. destruct (add_all _ _ _ _ _) as [t|e]; [|exists e; reflexivity]. exists AttributeError. reflexivity.
  - intros o H. unfold LLobj in H. rewrite F in H. destruct (raw_influent a) as [i|] eqn:Ri; [|discriminate]. cbn [bind] in H.
    destruct (add_all _ _ _ _ _) as [t|]; [|discriminate]. cbn [bind] in H. destruct i as [i|]; [|discriminate]. cbn [of_option bind] in H.
    assert (S : said_first a = []) by (unfold raw_influent in Ri; destruct (said_first a); [reflexivity|discriminate]).
    assert (E : l_said o = said_first a /\ l_error o = negb (Nat.eqb (length (said_first a)) 0)) by (injection H as <-; split; reflexivity).
    destruct E as [E1 E2]. rewrite S in E1, E2. split; [|split; [exact E1|exact E2]]. intros X. apply fault_said in X. exact (X S).
Qed.
(** With a workbook a run is refused exactly if the influents could not be read. *)
Theorem C165_workbook_partial a b o : a_file a = Some b -> LLobj a = Ok o ->
  (refuses o = true <-> b_cin b = None \/ (forall p, b_params b = Some p -> lookup "time" p = None)).
Proof.
  intros F H. unfold LLobj in H. rewrite F in H. destruct (raw_influent a) as [i|]; [|discriminate]. cbn [bind] in H.
  destruct (file_params a b) as [p m1] eqn:P. destruct (file_cin p b) as [[[p' cin] m2] err] eqn:C. destruct (b_ions b) as [ions|]; [|discriminate]. cbn [of_option bind] in H.
  assert (E : refuses o = err) by (injection H as <-; reflexivity). rewrite E. clear H E.
  assert (T : match p with Some q => lookup "time" q | None => None end = match b_params b with Some q => lookup "time" q | None => None end).
  { unfold file_params in P. destruct (b_params b) as [q|]; [|injection P as <- _; reflexivity].
    destruct (lookup "nr" q) as [[x u]|]; [destruct (lookup "nz" q) as [[y w]|]|]; injection P as <- _; rewrite ?lookup_update; reflexivity. }
  unfold file_cin in C. rewrite T in C. destruct (b_cin b) as [c|].
  - destruct (b_params b) as [q|].
    + destruct (lookup "time" q) as [[v u]|] eqn:Q.
      * assert (X : err = false) by (destruct (String.eqb u "hr"); congruence). rewrite X. split; [discriminate|]. intros [Y|Y]; [discriminate|]. specialize (Y q eq_refl). congruence.
      * assert (X : err = true) by congruence. rewrite X. split; [|reflexivity]. intros _. right. intros p0 E. congruence.
    + assert (X : err = true) by congruence. rewrite X. split; [|reflexivity]. intros _. right. discriminate.
  - assert (X : err = true) by (destruct (match b_params b with Some q => lookup "time" q | None => None end); congruence). rewrite X. tauto.
Qed.

(** * C166: a system runs resin vessels with what it was given *)
Theorem C166_arguments_refuted a o : a_file a = None -> LLobj a = Ok o -> io_data o = Err AttributeError.
Proof.
  intros F H. unfold LLobj in H. rewrite F in H. destruct (raw_influent a) as [i|]; [|discriminate]. cbn [bind] in H.
  destruct (add_all _ _ _ _ _) as [t|]; [|discriminate]. cbn [bind] in H. destruct i as [i|]; [|discriminate]. cbn [of_option bind] in H. injection H as <-. reflexivity.
Qed.
(** Days in a time of the workbook. *)
Definition in_days (u : string) (t : R) : R := if String.eqb u "hr" then t / 24 else t.
Theorem C166_workbook_partial a b p c ions v u x w y z o :
  a_file a = Some b -> b_params b = Some p -> b_cin b = Some c -> b_ions b = Some ions ->
  lookup "nr" p = Some (x, w) -> lookup "nz" p = Some (y, z) -> lookup "time" p = Some (v, u) -> LLobj a = Ok o ->
  exists p' c', io_data o = Ok (p', c', ions) /\
    lookup "nr" p' = Some (INR (a_nr a), w) /\ lookup "nz" p' = Some (INR (a_nz a), z) /\ lookup "time" p' = Some (v, if String.eqb u "hr" then "day" else u) /\
    (forall n, n <> "nr" -> n <> "nz" -> n <> "time" -> lookup n p' = lookup n p) /\
    fr_time c' = map (in_days u) (fr_time c) /\ fr_cols c' = fr_cols c /\ forall n, fr_val c' n = fr_val c n.
Proof.
  intros F P C I Nr Nz T H. unfold LLobj in H. rewrite F in H. destruct (raw_influent a) as [i|]; [|discriminate]. cbn [bind] in H.
  unfold file_params in H. rewrite P, Nr, Nz in H. set (q := update "nz" (INR (a_nz a), z) (update "nr" (INR (a_nr a), w) p)) in *.
  assert (Tq : lookup "time" q = Some (v, u)) by (unfold q; rewrite !lookup_update; exact T).
  unfold file_cin in H. rewrite C, Tq in H.
  assert (Q : forall n, lookup n q = if String.eqb n "nz" then Some (INR (a_nz a), z) else if String.eqb n "nr" then Some (INR (a_nr a), w) else lookup n p) by (intros n; unfold q; rewrite !lookup_update; reflexivity).
  destruct (String.eqb u "hr") eqn:U; rewrite I in H; cbn [of_option bind] in H; injection H as <-; do 2 eexists; (split; [reflexivity|]); cbn [l_params l_cin].
  - rewrite !lookup_update, !Q. repeat split.
    + intros n N1 N2 N3. rewrite lookup_update, Q. apply String.eqb_neq in N1, N2, N3. rewrite N1, N2, N3. reflexivity.
    + cbn [over_24 fr_time]. apply map_ext. intros t. unfold in_days. rewrite U. reflexivity.
  - rewrite !Q. repeat split; [exact T| |].
    + intros n N1 N2 N3. rewrite Q. apply String.eqb_neq in N1, N2, N3. rewrite N1, N2. reflexivity.
    + rewrite <- (map_id (fr_time c)) at 1. apply map_ext. intros t. unfold in_days. rewrite U. reflexivity.
Qed.

(** * C167: selectivities of the resin *)
(** The factors of the documentation: lower bound, upper bound, factor below the upper, above. *)
Definition factored (f : R * R * R * R) (k K : R) : Prop :=
  let '(lo, up, f1, f2) := f in (k < lo -> k <= up -> K = k) /\ (lo <= k < up -> K = k * f1) /\ (up < k -> K = k * f2).
Lemma adjust_factored f k : factored f k (adjust f k).
Proof.
  destruct f as [[[lo up] f1] f2]. unfold factored, adjust. split; [|split]; intros.
  - replace (rleb lo k) with false by (symmetry; apply rleb_false; lra). cbn [andb]. replace (rltb up k) with false by (symmetry; apply rltb_false; lra). reflexivity.
  - replace (rleb lo k) with true by (symmetry; apply rleb_true; lra). replace (rltb k up) with true by (symmetry; apply rltb_true; lra). reflexivity.
  - replace (rltb k up) with false by (symmetry; apply rltb_false; lra). rewrite andb_false_r. replace (rltb up k) with true by (symmetry; apply rltb_true; lra). reflexivity.
Qed.
Lemma mem_in n l : mem_str n l = true <-> In n l.
Proof. unfold mem_str. rewrite existsb_exists. split; [intros (x & I & E); apply String.eqb_eq in E; subst; exact I|intros I; exists n; split; [exact I|apply String.eqb_refl]]. Qed.
Lemma set_K_name c k r : r_name (set_K c k r) = r_name r.
Proof. unfold set_K. destruct (String.eqb (r_name r) c); reflexivity. Qed.
Lemma set_K_names c k l : map r_name (map (set_K c k) l) = map r_name l.
Proof. rewrite map_map. apply map_ext. intros r. apply set_K_name. Qed.

(** Selected: a compound of the run with a selectivity. *)
Definition selected (compounds : list string) (sels : list (string * R)) (n : string) (k : R) : Prop := In n compounds /\ lookup n sels = Some k.
(** The rows after the compounds [ps] were added to [rows0]. *)
Definition made (f : R * R * R * R) (compounds : list string) (ps : list (string * R)) (rows0 rows : list lrow) : Prop :=
  map r_name rows = (map r_name rows0 ++ filter (fun n => (mem_str n compounds && negb (mem_str n (map r_name rows0)))%bool) (map fst ps))%list /\
  forall r, In r rows -> (exists k, selected compounds ps (r_name r) k /\ r_Kxc r = adjust f k) \/ ((forall k, ~ selected compounds ps (r_name r) k) /\ In r rows0).
Definition touched (f : R * R * R * R) (compounds : list string) (ps : list (string * R)) (r : lrow) : lrow :=
  match lookup (r_name r) ps with Some k => if mem_str (r_name r) compounds then set_K (r_name r) (adjust f k) r else r | None => r end.

Lemma lookup_none_keys {A} n (ps : list (string * A)) : ~ In n (map fst ps) -> lookup n ps = None.
Proof. induction ps as [|[k v] ps IH]; cbn; [reflexivity|]. intros H. destruct (String.eqb n k) eqn:E; [apply String.eqb_eq in E; subst; exfalso; apply H; left; reflexivity|]. apply IH. tauto. Qed.
Lemma lookup_some_keys {A} n (ps : list (string * A)) v : lookup n ps = Some v -> In n (map fst ps).
Proof. induction ps as [|[k w] ps IH]; cbn; [discriminate|]. destruct (String.eqb n k) eqn:E; [apply String.eqb_eq in E; subst; tauto|]. intros H. right. apply IH, H. Qed.

Lemma fold_err {A B} (g : A -> B -> res A) ps e : fold_left (fun acc p => do t <- acc; g t p) ps (Err e) = Err e.
Proof. induction ps as [|p ps IH]; [reflexivity|]. cbn [fold_left bind]. exact IH. Qed.

Lemma add_all_made sels props f compounds : forall ps rows0 caller0 t,
  NoDup (map fst ps) -> (forall p, In p ps -> lookup (fst p) sels = Some (snd p)) -> (forall r, In r caller0 -> In (r_name r) (map r_name rows0)) ->
  fold_left (fun acc p => do t <- acc; if mem_str (fst p) compounds then add_selectivity sels props f t (fst p) (snd p) else Ok t) ps (Ok (rows0, map r_name rows0, caller0)) = Ok t ->
  exists rows, t = (rows, map r_name rows, map (touched f compounds ps) caller0) /\ made f compounds ps rows0 rows.
Proof.
  induction ps as [|[n k] ps IH]; intros rows0 caller0 t ND Lk Cl H.
  - cbn in H. injection H as <-. exists rows0. split.
    + f_equal. symmetry. rewrite <- (map_id caller0) at 2. apply map_ext. intros r. reflexivity.
    + split; [cbn; rewrite app_nil_r; reflexivity|]. intros r I. right. split; [|exact I]. intros k (_ & X). discriminate.
  - cbn [map fst] in ND. inversion ND as [|? ? Nn ND']; subst. cbn [fold_left bind fst snd] in H.
    assert (Lk' : forall p, In p ps -> lookup (fst p) sels = Some (snd p)) by (intros p I; apply Lk; right; exact I).
    pose proof (Lk (n, k) (or_introl eq_refl)) as Ln. cbn [fst snd] in Ln.
    assert (Nps : lookup n ps = None) by (apply lookup_none_keys, Nn).
    assert (Fil : forall rows1, (forall x, x <> n -> mem_str x (map r_name rows1) = mem_str x (map r_name rows0)) ->
      filter (fun x => (mem_str x compounds && negb (mem_str x (map r_name rows1)))%bool) (map fst ps) = filter (fun x => (mem_str x compounds && negb (mem_str x (map r_name rows0)))%bool) (map fst ps)).
    { intros rows1 E. apply filter_ext_in. intros x I. rewrite E; [reflexivity|]. intros ->. exact (Nn I). }
    destruct (mem_str n compounds) eqn:Mc.
    + unfold add_selectivity in H. cbn beta iota zeta in H. destruct (mem_str n (map r_name rows0)) eqn:Mr.
      * rewrite Ln in H. cbn [of_option bind] in H. rewrite <- (set_K_names n (adjust f k) rows0) in H.
        destruct (IH (map (set_K n (adjust f k)) rows0) (map (set_K n (adjust f k)) caller0) t ND' Lk') as (rows & -> & (Nm & Mk)); [|exact H|].
        { intros r I. apply in_map_iff in I. destruct I as (r0 & <- & I). rewrite set_K_name, set_K_names. apply Cl, I. }
        exists rows. split; [|split].
        -- f_equal. rewrite map_map. apply map_ext. intros r. unfold touched. rewrite set_K_name. cbn [lookup]. unfold set_K at 1.
           destruct (String.eqb (r_name r) n) eqn:E; [apply String.eqb_eq in E; rewrite E, Nps, Mc; unfold set_K; rewrite E, String.eqb_refl; reflexivity|].
           unfold set_K. rewrite E. reflexivity.
        -- rewrite Nm, set_K_names. cbn [map fst filter]. rewrite Mc, Mr. cbn [andb negb]. reflexivity.
        -- intros r I. destruct (Mk r I) as [(k' & (S1 & S2) & K)|(NS & I0)].
           ++ left. exists k'. split; [|exact K]. split; [exact S1|]. cbn [lookup]. destruct (String.eqb (r_name r) n) eqn:E; [apply String.eqb_eq in E; congruence|exact S2].
           ++ apply in_map_iff in I0. destruct I0 as (r0 & <- & I0). rewrite set_K_name. unfold set_K. destruct (String.eqb (r_name r0) n) eqn:E.
              ** left. exists k. cbn [r_Kxc]. split; [|ring]. split; [apply String.eqb_eq in E; rewrite E; apply mem_in, Mc|]. cbn [lookup]. rewrite E. reflexivity.
              ** right. split; [|exact I0]. intros k' (S1 & S2). apply (NS k'). rewrite set_K_name. split; [exact S1|]. cbn [lookup] in S2. rewrite E in S2. exact S2.
      * rewrite Ln in H. cbn [of_option bind] in H. destruct (lookup n props) as [mw|]; [|cbn [of_option bind] in H; rewrite fold_err in H; discriminate]. cbn [of_option bind] in H.
        set (row := {| r_name := n; r_mw := mw; r_Kxc := adjust f k; r_val := 1; r_unit := "ng" |}) in *.
        replace (map r_name rows0 ++ [n])%list with (map r_name (rows0 ++ [row])) in H by (rewrite map_app; reflexivity).
        destruct (IH (rows0 ++ [row])%list caller0 t ND' Lk') as (rows & -> & (Nm & Mk)); [|exact H|].
        { intros r I. rewrite map_app. apply in_or_app. left. apply Cl, I. }
        assert (Nr : ~ In n (map r_name rows0)) by (intros I; apply mem_in in I; congruence).
        exists rows. split; [|split].
        -- f_equal. apply map_ext_in. intros r I. unfold touched. cbn [lookup]. destruct (String.eqb (r_name r) n) eqn:E; [|reflexivity].
           apply String.eqb_eq in E. exfalso. apply Nr. rewrite <- E. apply Cl, I.
        -- rewrite Nm, (Fil (rows0 ++ [row])%list).
           ++ rewrite map_app, <- app_assoc. cbn [map fst filter app]. rewrite Mc, Mr. reflexivity.
           ++ intros x X. rewrite map_app. unfold mem_str. rewrite existsb_app. cbn. apply String.eqb_neq in X. rewrite X. cbn. apply orb_false_r.
        -- intros r I. destruct (Mk r I) as [(k' & (S1 & S2) & K)|(NS & I0)].
           ++ left. exists k'. split; [|exact K]. split; [exact S1|]. cbn [lookup]. destruct (String.eqb (r_name r) n) eqn:E; [apply String.eqb_eq in E; congruence|exact S2].
           ++ apply in_app_or in I0. destruct I0 as [I0|[<- | []]].
              ** right. split; [|exact I0]. intros k' (S1 & S2). cbn [lookup] in S2. destruct (String.eqb (r_name r) n) eqn:E.
                 { apply String.eqb_eq in E. apply Nr. rewrite <- E. apply in_map, I0. }
                 apply (NS k'). split; assumption.
              ** left. exists k. split; [|reflexivity]. split; [apply mem_in, Mc|]. cbn. rewrite String.eqb_refl. reflexivity.
    + destruct (IH rows0 caller0 t ND' Lk' Cl H) as (rows & -> & (Nm & Mk)). exists rows. split; [|split].
      * f_equal. apply map_ext. intros r. unfold touched. cbn [lookup]. destruct (String.eqb (r_name r) n) eqn:E; [|reflexivity].
        apply String.eqb_eq in E. rewrite E, Nps, Mc. reflexivity.
      * rewrite Nm. cbn [map fst filter]. rewrite Mc. reflexivity.
      * intros r I. assert (Q : forall k', selected compounds ((n, k) :: ps) (r_name r) k' <-> selected compounds ps (r_name r) k').
        { intros k'. unfold selected. cbn [lookup]. destruct (String.eqb (r_name r) n) eqn:E; [|reflexivity]. apply String.eqb_eq in E.
          split; intros (X & Y); exfalso; rewrite E in X; apply mem_in in X; congruence. }
        destruct (Mk r I) as [(k' & S & K)|(NS & I0)]; [left; exists k'; split; [apply Q, S|exact K]|right; split; [intros k'; rewrite Q; apply NS|exact I0]].
Qed.
(** The other columns: those of the counter ion, or the compound's molecular weight, valence 1, ng. *)
Definition described (props : list (string * R)) (rows0 : list lrow) (r : lrow) : Prop :=
  (exists r0, In r0 rows0 /\ r_name r = r_name r0 /\ r_mw r = r_mw r0 /\ r_val r = r_val r0 /\ r_unit r = r_unit r0) \/
  (~ In (r_name r) (map r_name rows0) /\ lookup (r_name r) props = Some (r_mw r) /\ r_val r = 1%nat /\ r_unit r = "ng").
Lemma add_all_described sels props f compounds rows0 : forall ps rows avail caller t,
  (forall n, In n (map r_name rows0) -> In n avail) -> Forall (described props rows0) rows ->
  fold_left (fun acc p => do t <- acc; if mem_str (fst p) compounds then add_selectivity sels props f t (fst p) (snd p) else Ok t) ps (Ok (rows, avail, caller)) = Ok t ->
  Forall (described props rows0) (fst (fst t)).
Proof.
  induction ps as [|[n k] ps IH]; intros rows avail caller t Av D H; [cbn in H; injection H as <-; exact D|]. cbn [fold_left bind fst snd] in H.
  destruct (mem_str n compounds); [|exact (IH _ _ _ _ Av D H)]. unfold add_selectivity in H. cbn beta iota zeta in H. destruct (mem_str n avail) eqn:Mr.
  - destruct (mem_str n (map r_name rows)); [|exact (IH _ _ _ _ Av D H)]. destruct (lookup n sels) as [k'|]; [|cbn [of_option bind] in H; rewrite fold_err in H; discriminate].
    cbn [of_option bind] in H. refine (IH _ _ _ _ Av _ H). clear - D. induction D as [|r l Dr _ IH]; constructor; [|exact IH]. unfold set_K. destruct (String.eqb (r_name r) n); exact Dr.
  - destruct (lookup n sels) as [k'|]; [|cbn [of_option bind] in H; rewrite fold_err in H; discriminate]. destruct (lookup n props) as [mw|] eqn:Ep; [|cbn [of_option bind] in H; rewrite fold_err in H; discriminate].
    cbn [of_option bind] in H. refine (IH _ _ _ _ _ _ H); [intros x X; apply in_or_app; left; apply Av, X|]. apply Forall_app. split; [exact D|]. constructor; [|constructor].
    right. cbn. split; [|split; [exact Ep|split; reflexivity]]. intros I. apply Av, mem_in in I. congruence.
Qed.
Lemma lookup_In {A} (ps : list (string * A)) : NoDup (map fst ps) -> forall p, In p ps -> lookup (fst p) ps = Some (snd p).
Proof.
  induction ps as [|[n v] ps IH]; intros ND p I; [destruct I|]. cbn [map fst] in ND. inversion ND as [|? ? N ND']; subst. cbn [lookup]. destruct I as [<- | I].
  - cbn. rewrite String.eqb_refl. reflexivity.
  - destruct (String.eqb (fst p) n) eqn:E; [|apply IH; assumption]. apply String.eqb_eq in E. exfalso. apply N. rewrite <- E. apply in_map, I.
Qed.

(** The table of ions of a system set up by arguments: the counter ions and the selected
    compounds after them, each name once, selectivities with their factor. *)
Theorem C167_table_partial a o : a_file a = None -> NoDup (map fst (a_selectivity a)) -> NoDup (map r_name (a_counterions a)) -> LLobj a = Ok o ->
  exists rows, l_ions o = PlainList rows /\ NoDup (map r_name rows) /\ firstn (length (a_counterions a)) (map r_name rows) = map r_name (a_counterions a) /\
  (forall n, In n (map r_name rows) <-> In n (map r_name (a_counterions a)) \/ exists k, selected (compounds_of a) (a_selectivity a) n k) /\
  (forall r k, In r rows -> selected (compounds_of a) (a_selectivity a) (r_name r) k -> factored (a_adjust a) k (r_Kxc r)) /\
  (forall r, In r rows -> (forall k, ~ selected (compounds_of a) (a_selectivity a) (r_name r) k) -> In r (a_counterions a)) /\
  (forall r, In r rows -> described (props_of a) (a_counterions a) r) /\
  ((forall r k, In r (a_counterions a) -> ~ selected (compounds_of a) (a_selectivity a) (r_name r) k) -> l_caller o = a_counterions a).
Proof.
  intros F ND NC H. unfold LLobj in H. rewrite F in H. destruct (raw_influent a) as [i|]; [|discriminate]. cbn [bind] in H.
  destruct (add_all _ _ _ _ _) as [t|] eqn:A; [|discriminate]. cbn [bind] in H. destruct i as [i|]; [|discriminate]. cbn [of_option bind] in H. injection H as <-.
  unfold add_all in A.
  assert (Ds := fun D => add_all_described _ _ _ _ (a_counterions a) _ _ _ _ _ (fun n I => I) D A).
  destruct (add_all_made _ _ _ _ _ _ _ _ ND (lookup_In _ ND) (fun r I => in_map r_name _ _ I) A) as (rows & -> & (Nm & Mk)).
  exists rows. cbn [l_ions l_caller fst snd]. split; [reflexivity|]. split; [|split; [|split; [|split; [|split; [|split]]]]].
  - rewrite Nm. clear - ND NC. set (g := fun n => _). assert (D : forall n, In n (map r_name (a_counterions a)) -> ~ In n (filter g (map fst (a_selectivity a)))).
    { intros n I J. apply filter_In in J. destruct J as [_ J]. unfold g in J. apply andb_true_iff in J. destruct J as [_ J]. apply mem_in in I. rewrite I in J. discriminate. }
    clearbody g. revert NC D. induction (map r_name (a_counterions a)) as [|x l IH]; intros NC D; [cbn; apply NoDup_filter, ND|].
    inversion NC as [|? ? N1 N2]; subst. cbn. constructor; [|apply IH; [exact N2|intros n I; apply D; right; exact I]].
    intros I. apply in_app_or in I. destruct I as [I|I]; [exact (N1 I)|exact (D x (or_introl eq_refl) I)].
  - rewrite Nm. rewrite <- (map_length r_name (a_counterions a)) at 1. apply firstn_app_2 with (n := 0%nat) (l1 := map r_name (a_counterions a)) || idtac.
    all: rewrite ?firstn_app, ?firstn_all, ?Nat.sub_diag, ?firstn_O, ?app_nil_r; reflexivity.
  - intros n. rewrite Nm. rewrite in_app_iff, filter_In, andb_true_iff, negb_true_iff. split.
    + intros [I|(I & J & _)]; [left; exact I|right]. apply in_map_iff in I. destruct I as (p & <- & I). exists (snd p). split; [apply mem_in, J|apply lookup_In; assumption].
    + intros [I|(k & I & J)]; [left; exact I|]. destruct (mem_str n (map r_name (a_counterions a))) eqn:E; [left; apply mem_in, E|right].
      split; [exact (lookup_some_keys _ _ _ J)|]. split; [apply mem_in, I|reflexivity].
  - intros r k I S. destruct (Mk r I) as [(k' & S' & ->)|(NS & _)]; [|exfalso; exact (NS k S)]. replace k with k'; [apply adjust_factored|]. destruct S as [_ S], S' as [_ S']. congruence.
  - intros r I NS. destruct (Mk r I) as [(k' & S' & _)|(_ & X)]; [exfalso; exact (NS k' S')|exact X].
  - apply Forall_forall, Ds, Forall_forall. intros r I. left. exists r. repeat split. exact I.
  - intros NS. rewrite <- (map_id (a_counterions a)) at 2. apply map_ext_in. intros r I. unfold touched. destruct (lookup (r_name r) (a_selectivity a)) as [k|] eqn:E; [|reflexivity].
    destruct (mem_str (r_name r) (compounds_of a)) eqn:M; [|reflexivity]. exfalso. apply (NS r k I). split; [apply mem_in, M|exact E].
Qed.

(** A selectivity at the upper bound gets no factor. *)
Theorem C167_bound_refuted a o r lo up f1 f2 : a_file a = None -> NoDup (map fst (a_selectivity a)) -> NoDup (map r_name (a_counterions a)) -> LLobj a = Ok o ->
  a_adjust a = (lo, up, f1, f2) -> lo <= up -> selected (compounds_of a) (a_selectivity a) (r_name r) up -> (exists rows, l_ions o = PlainList rows /\ In r rows) ->
  r_Kxc r = up /\ (up <> 0 -> f1 <> 1 -> r_Kxc r <> up * f1) /\ (up <> 0 -> f2 <> 1 -> r_Kxc r <> up * f2).
Proof.
  intros F ND NC H A Lu S (rows & E & I'). assert (K : r_Kxc r = up).
  { unfold LLobj in H. rewrite F in H. destruct (raw_influent a) as [i|]; [|discriminate]. cbn [bind] in H.
    destruct (add_all _ _ _ _ _) as [t|] eqn:AA; [|discriminate]. cbn [bind] in H. destruct i as [i|]; [|discriminate]. cbn [of_option bind] in H. injection H as <-.
    unfold add_all in AA. destruct (add_all_made _ _ _ _ _ _ _ _ ND (lookup_In _ ND) (fun r I => in_map r_name _ _ I) AA) as (rows' & -> & (Nm & Mk)).
    cbn [l_ions fst] in E. assert (rows' = rows) by congruence. subst. destruct (Mk r I') as [(k' & S' & ->)|(NS & _)]; [|exfalso; exact (NS up S)].
    replace k' with up by (destruct S as [_ S], S' as [_ S']; congruence). rewrite A. unfold adjust.
    replace (rltb up up) with false by (symmetry; apply rltb_false; lra). rewrite andb_false_r. reflexivity. }
  rewrite K. split; [reflexivity|]. split; intros Z N X; apply N; apply (Rmult_eq_reg_l up); lra.
Qed.
(** The rows that the caller handed over are changed when one of them is a selected compound. *)
Theorem C167_caller_refuted a o r k : a_file a = None -> NoDup (map fst (a_selectivity a)) -> LLobj a = Ok o ->
  In r (a_counterions a) -> selected (compounds_of a) (a_selectivity a) (r_name r) k -> r_Kxc r <> adjust (a_adjust a) k ->
  l_caller o <> a_counterions a.
Proof.
  intros F ND H I S N E. unfold LLobj in H. rewrite F in H. destruct (raw_influent a) as [i|]; [|discriminate]. cbn [bind] in H.
  destruct (add_all _ _ _ _ _) as [t|] eqn:AA; [|discriminate]. cbn [bind] in H. destruct i as [i|]; [|discriminate]. cbn [of_option bind] in H. injection H as <-.
  unfold add_all in AA. destruct (add_all_made _ _ _ _ _ _ _ _ ND (lookup_In _ ND) (fun r I => in_map r_name _ _ I) AA) as (rows' & -> & _).
  cbn [l_caller snd] in E. assert (T : touched (a_adjust a) (compounds_of a) (a_selectivity a) r = r).
  { clear AA. revert I E. induction (a_counterions a) as [|x l IH]; intros I E; [destruct I|]. cbn [map] in E. assert (E1 : touched (a_adjust a) (compounds_of a) (a_selectivity a) x = x) by congruence.
    assert (E2 : map (touched (a_adjust a) (compounds_of a) (a_selectivity a)) l = l) by congruence. destruct I as [<- | I]; [exact E1|exact (IH I E2)]. }
  unfold touched in T. destruct S as [S1 S2]. rewrite S2 in T. apply mem_in in S1. rewrite S1 in T. unfold set_K in T. rewrite String.eqb_refl in T.
  apply N. apply (f_equal r_Kxc) in T. cbn in T. rewrite <- T. ring.
Qed.
(** The selectivity handed to add_resin_selectivity is not used: the row gets the constructor's. *)
Theorem C167_argument_refuted o o' comp sel rows k : add_resin_selectivity o comp sel = Ok o' -> l_ions o' = PlainList rows ->
  lookup comp (l_selectivities o) = Some k -> (forall rows0, l_ions o = PlainList rows0 -> map r_name rows0 = l_avail o) ->
  forall r, In r rows -> r_name r = comp -> r_Kxc r = adjust (l_adjust o) k /\
  (adjust (l_adjust o) sel <> adjust (l_adjust o) k -> r_Kxc r <> adjust (l_adjust o) sel).
Proof.
  enough (W : add_resin_selectivity o comp sel = Ok o' -> l_ions o' = PlainList rows ->
    lookup comp (l_selectivities o) = Some k -> (forall rows0, l_ions o = PlainList rows0 -> map r_name rows0 = l_avail o) ->
    forall r, In r rows -> r_name r = comp -> r_Kxc r = adjust (l_adjust o) k).
  { intros H E L Av r I N. specialize (W H E L Av r I N). split; [exact W|]. rewrite W. intros X Y. apply X. symmetry. exact Y. }
  intros H E L Av r I N. unfold add_resin_selectivity in H. destruct (l_ions o) as [fr|rows0]; [discriminate|]. specialize (Av rows0 eq_refl).
  unfold add_selectivity in H. rewrite <- Av, L in H. destruct (mem_str comp (map r_name rows0)) eqn:M.
  - cbn [of_option bind] in H. injection H as <-. cbn [l_ions fst] in E. assert (rows = map (set_K comp (adjust (l_adjust o) k)) rows0) by congruence. subst rows.
    apply in_map_iff in I. destruct I as (r0 & <- & I). rewrite set_K_name in N. unfold set_K. rewrite N, String.eqb_refl. cbn. ring.
  - cbn [of_option bind] in H. destruct (lookup comp (l_properties o)) as [mw|]; [|discriminate]. cbn [of_option bind] in H. injection H as <-. cbn [l_ions fst] in E.
    match type of E with PlainList ?x = _ => assert (rows = x) by congruence end. subst rows. apply in_app_or in I. destruct I as [I|[<- | []]]; [|reflexivity].
    exfalso. assert (X : In comp (map r_name rows0)) by (rewrite <- N; apply in_map, I). apply mem_in in X. congruence.
Qed.
(** Adding a compound again changes nothing. *)
Theorem C167_again_partial o o' comp x y : (forall rows0, l_ions o = PlainList rows0 -> map r_name rows0 = l_avail o) -> (forall r, In r (l_caller o) -> In (r_name r) (l_avail o)) ->
  add_resin_selectivity o comp x = Ok o' -> add_resin_selectivity o' comp y = Ok o'.
Proof.
  intros Av Cl H. unfold add_resin_selectivity in H. destruct (l_ions o) as [fr|rows0] eqn:E0; [discriminate|]. specialize (Av rows0 eq_refl).
  unfold add_selectivity in H. rewrite <- Av in H. destruct (mem_str comp (map r_name rows0)) eqn:M.
  - destruct (lookup comp (l_selectivities o)) as [k|] eqn:L; [|discriminate]. cbn [of_option bind] in H. injection H as <-.
    unfold add_resin_selectivity, add_selectivity. cbn [l_ions l_avail l_caller l_selectivities l_properties l_adjust fst snd]. rewrite set_K_names, M, L. cbn [of_option bind fst snd].
    assert (Id : forall l, map (set_K comp (adjust (l_adjust o) k)) (map (set_K comp (adjust (l_adjust o) k)) l) = map (set_K comp (adjust (l_adjust o) k)) l).
    { intros l. rewrite map_map. apply map_ext. intros r. unfold set_K. destruct (String.eqb (r_name r) comp) eqn:B; cbn; rewrite B; reflexivity. }
    rewrite !Id. reflexivity.
  - destruct (lookup comp (l_selectivities o)) as [k|] eqn:L; [|discriminate]. cbn [of_option bind] in H. destruct (lookup comp (l_properties o)) as [mw|]; [|discriminate]. cbn [of_option bind] in H. injection H as <-.
    unfold add_resin_selectivity, add_selectivity. cbn [l_ions l_avail l_caller l_selectivities l_properties l_adjust fst snd].
    assert (M1 : mem_str comp (map r_name rows0 ++ [comp]) = true) by (apply mem_in, in_or_app; right; left; reflexivity).
    rewrite M1, map_app. cbn [map r_name]. rewrite M1, L. cbn [of_option bind fst snd].
    assert (Nn : ~ In comp (map r_name rows0)) by (intros X; apply mem_in in X; congruence).
    assert (Same : forall l, (forall r, In r l -> In (r_name r) (map r_name rows0)) -> map (set_K comp (adjust (l_adjust o) k)) l = l).
    { intros l Hl. rewrite <- (map_id l) at 2. apply map_ext_in. intros r I. unfold set_K. destruct (String.eqb (r_name r) comp) eqn:B; [|reflexivity]. apply String.eqb_eq in B. exfalso. apply Nn. rewrite <- B. apply Hl, I. }
    rewrite map_app, (Same rows0) by (intros r I; apply in_map, I). rewrite (Same (l_caller o)) by (rewrite Av; exact Cl).
    cbn [map]. unfold set_K at 1. cbn [r_name]. rewrite String.eqb_refl. cbn [r_mw r_val r_unit]. rewrite Rmult_1_r. reflexivity.
Qed.
(** The two conditions hold of a system that was just set up. *)
Lemma setup_consistent a o : a_file a = None -> NoDup (map fst (a_selectivity a)) -> LLobj a = Ok o ->
  (forall rows0, l_ions o = PlainList rows0 -> map r_name rows0 = l_avail o) /\ (forall r, In r (l_caller o) -> In (r_name r) (l_avail o)).
Proof.
  intros F ND H. unfold LLobj in H. rewrite F in H. destruct (raw_influent a) as [i|]; [|discriminate]. cbn [bind] in H.
  destruct (add_all _ _ _ _ _) as [t|] eqn:AA; [|discriminate]. cbn [bind] in H. destruct i as [i|]; [|discriminate]. cbn [of_option bind] in H. injection H as <-.
  unfold add_all in AA. destruct (add_all_made _ _ _ _ _ _ _ _ ND (lookup_In _ ND) (fun r I => in_map r_name _ _ I) AA) as (rows & -> & (Nm & _)).
  cbn [l_ions l_avail l_caller fst snd]. split; [intros rows0 E; congruence|]. intros r I. apply in_map_iff in I. destruct I as (r0 & <- & I).
  rewrite Nm. apply in_or_app. left. replace (r_name (touched (a_adjust a) (compounds_of a) (a_selectivity a) r0)) with (r_name r0); [apply in_map, I|].
  unfold touched. destruct (lookup (r_name r0) (a_selectivity a)); [|reflexivity]. destruct (mem_str _ _); [symmetry; apply set_K_name|reflexivity].
Qed.

(** ** The hypotheses are met *)
Definition cl_row : lrow := {| r_name := "CHLORIDE"; r_mw := 35; r_Kxc := 1; r_val := 1; r_unit := "meq" |}.
Definition pfoa_row : lrow := {| r_name := "PFOA"; r_mw := 414; r_Kxc := 5; r_val := 1; r_unit := "ng" |}.
Definition daily : frame := {| fr_time := [0; 24]; fr_cols := ["CHLORIDE"; "PFOA"]; fr_val := fun _ => [1; 2] |}.
Definition plain (file : option ixbook) (k : bool) (ci : list lrow) (comps : list string) (pf : R) : llargs :=
  {| a_config := "GAC"; a_properties := Some [("PFOA", 414); ("PFBS", 300)]; a_raw := Some [("influent", daily)]; a_compounds := Some comps; a_k := k; a_influentID := "influent";
     a_file := file; a_nr := 7; a_nz := 13; a_counterions := ci; a_ix_params := [("Qf", (1000, "meq/L"))]; a_selectivity := [("PFBS", 20000); ("PFOA", pf)]; a_adjust := (100, 3500, 2, 3) |}.
Definition the_book : ixbook := {| b_params := Some [("nr", (5, "")); ("nz", (9, "")); ("time", (1, "hr"))]; b_cin := Some daily; b_ions := Some [cl_row; pfoa_row] |}.
Example C165_met : fault (plain (Some the_book) false [cl_row] ["PFOA"] 12702) /\ fault (plain None false [cl_row] ["PFOA"] 12702) /\
  (exists o, LLobj (plain (Some the_book) true [cl_row] ["PFOA"] 12702) = Ok o) /\ ~ fault (plain None true [cl_row] ["PFOA"] 12702).
Proof.
  split; [unfold fault; cbn; tauto|]. split; [unfold fault; cbn; tauto|]. split; [eexists; reflexivity|].
  intros [H|[H|[[H _]|[_ H]]]]; discriminate.
Qed.
Example C167_met : exists o rows, LLobj (plain None true [cl_row] ["PFOA"] 3500) = Ok o /\ l_ions o = PlainList rows /\ map r_name rows = ["CHLORIDE"; "PFOA"] /\
  NoDup (map fst (a_selectivity (plain None true [cl_row] ["PFOA"] 3500))) /\ NoDup (map r_name (a_counterions (plain None true [cl_row] ["PFOA"] 3500))) /\
  selected (compounds_of (plain None true [cl_row] ["PFOA"] 3500)) (a_selectivity (plain None true [cl_row] ["PFOA"] 3500)) "PFOA" 3500.
Proof.
  do 2 eexists. split; [reflexivity|]. split; [reflexivity|]. split; [reflexivity|]. split; [|split; [|split; [left; reflexivity|reflexivity]]].
  - cbn. constructor; [intros [X|[]]; discriminate|]. constructor; [intros []|constructor].
  - cbn. constructor; [intros []|constructor].
Qed.
Example C167_caller_met : exists o, LLobj (plain None true [cl_row; pfoa_row] ["PFOA"] 12702) = Ok o /\ In pfoa_row (a_counterions (plain None true [cl_row; pfoa_row] ["PFOA"] 12702)) /\
  r_Kxc pfoa_row <> adjust (100, 3500, 2, 3) 12702.
Proof.
  eexists. split; [reflexivity|]. split; [right; left; reflexivity|]. pose proof (adjust_factored (100, 3500, 2, 3) 12702) as (_ & _ & H). rewrite H by lra. cbn. lra.
Qed.
Example C167_again_met : exists o o', LLobj (plain None true [cl_row] ["PFOA"] 12702) = Ok o /\ add_resin_selectivity o "PFBS" 7 = Ok o'.
Proof. do 2 eexists. split; reflexivity. Qed.

Print Assumptions C165_workbook_refuted.
Print Assumptions C165_arguments_partial.
Print Assumptions C165_workbook_partial.
Print Assumptions C166_arguments_refuted.
Print Assumptions C166_workbook_partial.
Print Assumptions C167_table_partial.
Print Assumptions C167_bound_refuted.
Print Assumptions C167_caller_refuted.
Print Assumptions C167_argument_refuted.
Print Assumptions C167_again_partial.
