(** C160 and C161: workbooks uploaded to the web pages. *)
From Coq Require Import List String Arith Lia Bool.
From Verif Require Import Lib_Py M_RUpload S_RUpload.
Import ListNotations.
Open Scope string_scope.
Local Notation length := List.length.

Lemma lookup_update {A} k k' (v : A) d : lookup k (update k' v d) = if String.eqb k k' then Some v else lookup k d.
Proof.
  induction d as [|[k0 v0] t IH]; cbn.
  - reflexivity.
  - destruct (String.eqb k' k0) eqn:E; cbn.
    + apply String.eqb_eq in E. subst. destruct (String.eqb k k0); reflexivity.
    + rewrite IH. destruct (String.eqb k k') eqn:F; [|reflexivity].
      apply String.eqb_eq in F. subst. rewrite E. reflexivity.
Qed.
Lemma lookup_copy k s f w d : lookup k (copy s f w d) = if String.eqb k f then match lookup s w with Some t => Some t | None => lookup k d end else lookup k d.
Proof. unfold copy. destruct (lookup s w); [rewrite lookup_update|]; destruct (String.eqb k f); reflexivity. Qed.
Lemma page_set u v d ps : page_of u (set_page v d ps) = if Nat.eqb v u then Some d else page_of u ps.
Proof.
  induction ps as [|[k e] r IH]; cbn.
  - destruct (Nat.eqb v u); reflexivity.
  - destruct (Nat.eqb k v) eqn:E; cbn.
    + apply Nat.eqb_eq in E. subst. destruct (Nat.eqb v u); reflexivity.
    + rewrite IH. destruct (Nat.eqb k u) eqn:F; [|reflexivity].
      apply Nat.eqb_eq in F. subst. rewrite Nat.eqb_sym, E. reflexivity.
Qed.

(** Files after a history: the uploads one after the other. *)
Definition after_uploads (up : string -> workbook -> dir -> dir) (fws : list (string * workbook)) : dir :=
  fold_left (fun d p => up (fst p) (snd p) d) fws [].
Definition named (es : list event) : list (string * workbook) :=
  flat_map (fun e => match e with Upload _ f w => [(f, w)] | Open _ => [] end) es.
Lemma named_uploaded es : map snd (named es) = uploaded es.
Proof. induction es as [|[u|u f w] es IH]; cbn; [reflexivity|exact IH|f_equal; exact IH]. Qed.
Lemma files_fold up es : forall s, files (fold_left (step up) es s) = fold_left (fun d p => up (fst p) (snd p) d) (named es) (files s).
Proof. induction es as [|[u|u f w] es IH]; intros s; cbn [fold_left named flat_map]; [reflexivity| |]; rewrite IH; reflexivity. Qed.
Lemma files_history up cf config es : files (history up cf config es) = after_uploads up ((cf, config) :: named es).
Proof. unfold history. rewrite files_fold. reflexivity. Qed.

(** A file that follows a sheet. *)
Lemma follows_fold (up : string -> workbook -> dir -> dir) (f s : string) (g : sheet -> option sheet) :
  (forall n w d, lookup f (up n w d) = match lookup s w with Some t => match g t with Some t' => Some t' | None => lookup f d end | None => lookup f d end) ->
  forall fws t t', latest s (map snd fws) t -> g t = Some t' -> lookup f (after_uploads up fws) = Some t'.
Proof.
  intros U fws t t' (bef & w & aft & E & L & N) G. unfold after_uploads. generalize (@nil (string * sheet)).
  revert fws E. induction bef as [|x bef IH]; intros fws E d.
  - destruct fws as [|[n y] fws]; [discriminate|]. cbn in E. injection E as -> E. cbn [fold_left fst snd].
    assert (H : lookup f (up n w d) = Some t') by (rewrite U, L, G; reflexivity).
    revert H. generalize (up n w d). clear L. revert fws E. induction aft as [|a aft IA]; intros fws E d' H.
    + destruct fws; [exact H|discriminate].
    + destruct fws as [|[n' y'] fws]; [discriminate|]. cbn in E. injection E as -> E. cbn [fold_left fst snd].
      apply (IA (fun w' I => N w' (or_intror I)) fws E). rewrite U, (N a (or_introl eq_refl)). exact H.
  - destruct fws as [|[n y] fws]; [discriminate|]. cbn in E. injection E as -> E. cbn [fold_left]. exact (IH fws E _).
Qed.
Lemma history_follows up cf config (f s : string) (g : sheet -> option sheet) :
  (forall n w d, lookup f (up n w d) = match lookup s w with Some t => match g t with Some t' => Some t' | None => lookup f d end | None => lookup f d end) ->
  forall es t t', latest s (config :: uploaded es) t -> g t = Some t' -> lookup f (files (history up cf config es)) = Some t'.
Proof. intros U es t t' L G. rewrite files_history. apply (follows_fold up f s g U) with (t := t); [|exact G]. cbn. rewrite named_uploaded. exact L. Qed.

Ltac files_of := let n := fresh in let w := fresh in let d := fresh in intros n w d; unfold iex_upload, process_files, iex_name, gac_upload, pac_upload, page_name, copy_cin, copy_data, copy_or, copy;
  repeat match goal with |- context [lookup ?s w] => destruct (lookup s w) as [?t|] end;
  rewrite ?lookup_update; cbn [String.eqb Ascii.eqb Bool.eqb]; try reflexivity;
  repeat match goal with sp : sheet -> option (sheet * sheet) |- context [?f ?x] => constr_eq f sp; destruct (f x) as [[? ?]|] end;
  rewrite ?lookup_update; cbn; reflexivity.


Lemma history_last up cf config es e : history up cf config (es ++ [e]) = step up (history up cf config es) e.
Proof. unfold history. rewrite fold_left_app. reflexivity. Qed.
Lemma own_page up cf config es e : let s := history up cf config (es ++ [e]) in page_of (owner e) (pages s) = Some (files s).
Proof. rewrite history_last. destruct e; cbn; rewrite page_set, Nat.eqb_refl; reflexivity. Qed.
Lemma page_follows up cf config (f s : string) (g : sheet -> option sheet) :
  (forall n w d, lookup f (up n w d) = match lookup s w with Some t => match g t with Some t' => Some t' | None => lookup f d end | None => lookup f d end) ->
  forall es e t t', latest s (config :: uploaded (es ++ [e])) t -> g t = Some t' -> shows (owner e) f t' (history up cf config (es ++ [e])).
Proof. intros U es e t t' L G. eexists. split; [apply own_page|]. exact (history_follows up cf config f s g U _ t t' L G). Qed.

Section Pages.
Variables (cf : string) (config : workbook) (es : list event) (e : event).
Local Notation all := (config :: uploaded (es ++ [e])).

(** What a page shows that was opened, or reloaded by an upload, after any history. *)
Theorem C160_ion_exchange_partial t :
  let after := history iex_upload cf config (es ++ [e]) in
  (latest "params" all t -> shows (owner e) "paramsheet.csv" t after) /\
  (latest "ions" all t -> shows (owner e) "ionsheet.csv" t after) /\
  (latest "Cin" all t ->
     shows (owner e) "cinsheet.csv"
       (match t with
        | [] => []
        | header :: rows => map (fun n => if String.eqb (lower n) "time" then "time" else n) header :: rows
        end) after).
Proof.
  cbv zeta. repeat split; intros L.
  - apply (page_follows iex_upload cf config _ "params" Some) with (t := t); [files_of|exact L|reflexivity].
  - apply (page_follows iex_upload cf config _ "ions" Some) with (t := t); [files_of|exact L|reflexivity].
  - apply (page_follows iex_upload cf config _ "Cin" (fun x => Some (fix_time x))) with (t := t); [files_of|exact L|reflexivity].
Qed.
Theorem C160_carbon_partial spread t :
  let after := history (gac_upload spread) cf config (es ++ [e]) in
  (latest "Properties" all t -> shows (owner e) "Properties.csv" t after) /\
  (latest "Kdata" all t -> shows (owner e) "Kdata.csv" t after /\ shows (owner e) "Kdata2.csv" t after) /\
  (latest "columnSpecs" all t -> shows (owner e) "columnSpecs.csv" t after) /\
  (forall i o, latest "data" all t -> spread t = Some (i, o) -> shows (owner e) "dat_influent.csv" i after /\ shows (owner e) "dat_effluent.csv" o after).
Proof.
  cbv zeta. split; [|split; [|split]]; [intros L|intros L|intros L|intros i o L Sp].
  - apply (page_follows (gac_upload spread) cf config _ "Properties" Some) with (t := t); [files_of|exact L|reflexivity].
  - split; apply (page_follows (gac_upload spread) cf config _ "Kdata" Some) with (t := t); try exact L; try reflexivity; files_of.
  - apply (page_follows (gac_upload spread) cf config _ "columnSpecs" Some) with (t := t); [files_of|exact L|reflexivity].
  - split; [apply (page_follows (gac_upload spread) cf config _ "data" (fun x => option_map fst (spread x))) with (t := t)
           |apply (page_follows (gac_upload spread) cf config _ "data" (fun x => option_map snd (spread x))) with (t := t)];
      try exact L; try (rewrite Sp; reflexivity); files_of.
Qed.
Theorem C160_powder_partial t :
  let after := history pac_upload cf config (es ++ [e]) in
  (latest "Contactor" all t -> shows (owner e) "Contactor.csv" t after) /\
  (latest "PAC Characteristics" all t -> shows (owner e) "PAC.csv" t after) /\
  (latest "Compounds" all t -> shows (owner e) "Compounds.csv" t after).
Proof.
  cbv zeta. repeat split; intros L.
  - apply (page_follows pac_upload cf config _ "Contactor" Some) with (t := t); [files_of|exact L|reflexivity].
  - apply (page_follows pac_upload cf config _ "PAC Characteristics" Some) with (t := t); [files_of|exact L|reflexivity].
  - apply (page_follows pac_upload cf config _ "Compounds" Some) with (t := t); [files_of|exact L|reflexivity].
Qed.

(** The two optional sheets, which do fall back, and the name of the file. *)
Theorem C160_optional_partial spread u file w :
  shows u "effluent.csv" (match lookup "effluent" w with Some t => t | None => [["time"; "CHLORIDE"]; ["0"; "0"]] end)
        (history iex_upload cf config (es ++ [Upload u file w])) /\
  shows u "filename.csv" [["name"]; [file]] (history iex_upload cf config (es ++ [Upload u file w])) /\
  shows u "Foulingdata.csv" (match lookup "Fouling Data" w with Some t => t | None => [["WaterFouling"; "ChemicalFouling"]; ["Organic Free"; "halogenated alkenes"]] end)
        (history (gac_upload spread) cf config (es ++ [Upload u file w])) /\
  (lookup "name" w = None -> shows u "filename.csv" [["name"]; [file]] (history (gac_upload spread) cf config (es ++ [Upload u file w])) /\
                             shows u "filename.csv" [["name"]; [file]] (history pac_upload cf config (es ++ [Upload u file w]))).
Proof.
  repeat split; intros; (eexists; split; [apply (own_page _ cf config es (Upload u file w))|]); rewrite history_last; cbn [step files];
    unfold iex_upload, process_files, iex_name, gac_upload, pac_upload, page_name, copy_or; rewrite ?lookup_update; cbn [String.eqb Ascii.eqb Bool.eqb]; rewrite ?lookup_update; try rewrite H; reflexivity.
Qed.

(** Every workbook that leaves out a sheet which an earlier one had: the page announces the
    defaults and shows the earlier sheet. *)
Theorem C160_missing_sheet_refuted u v f1 f2 w1 w2 t default :
  lookup "params" config = Some default -> lookup "params" w1 = Some t -> lookup "params" w2 = None -> t <> default ->
  let after := history iex_upload cf config (es ++ [Upload v f1 w1; Upload u f2 w2]) in
  shows u "paramsheet.csv" t after /\ ~ shows u "paramsheet.csv" default after.
Proof.
  intros D T N X. cbv zeta. replace (es ++ [Upload v f1 w1; Upload u f2 w2])%list with ((es ++ [Upload v f1 w1]) ++ [Upload u f2 w2])%list by (rewrite <- app_assoc; reflexivity).
  assert (H : shows u "paramsheet.csv" t (history iex_upload cf config ((es ++ [Upload v f1 w1]) ++ [Upload u f2 w2]))).
  { apply (page_follows iex_upload cf config _ "params" Some) with (t := t) (e := Upload u f2 w2); [files_of| |reflexivity].
    exists (config :: uploaded es), w1, [w2]. split; [|split; [exact T|]].
    - unfold uploaded. rewrite !flat_map_app. cbn. rewrite <- app_assoc. reflexivity.
    - intros w' [<- | []]. exact N. }
  split; [exact H|]. intros (d & P & L). destruct H as (d' & P' & L'). rewrite P in P'. injection P' as <-. rewrite L in L'. injection L' as <-. apply X; reflexivity.
Qed.

(** C161: another session's uploads are in a page opened afterwards, *)
Theorem C161_other_session_refuted u v file w t default :
  u <> v -> lookup "params" config = Some default -> lookup "params" w = Some t -> t <> default ->
  let after := history iex_upload cf config [Upload v file w; Open u] in
  shows u "paramsheet.csv" t after /\ ~ shows u "paramsheet.csv" default after.
Proof.
  intros NE D T X. cbv zeta.
  assert (H : shows u "paramsheet.csv" t (history iex_upload cf config ([Upload v file w] ++ [Open u]))).
  { apply (page_follows iex_upload cf config _ "params" Some) with (t := t) (e := Open u); [files_of| |reflexivity].
    exists [config], w, []. split; [reflexivity|]. split; [exact T|intros w' []]. }
  split; [exact H|]. intros (d & P & L). destruct H as (d' & P' & L'). change ([Upload v file w; Open u]) with ([Upload v file w] ++ [Open u])%list in P.
  rewrite P in P'. injection P' as <-. rewrite L in L'. injection L' as <-. apply X; reflexivity.
Qed.
End Pages.

(** and a page that is open is left alone by the others, whatever they do. *)
Theorem C161_open_page_partial up cf config es more u f t :
  (forall e, In e more -> owner e <> u) ->
  shows u f t (history up cf config es) <-> shows u f t (history up cf config (es ++ more)).
Proof.
  intros O. unfold history. rewrite fold_left_app. generalize (fold_left (step up) es (start up cf config)).
  induction more as [|e more IH]; intros s; [reflexivity|]. cbn [fold_left].
  rewrite <- (IH (fun x I => O x (or_intror I)) (step up s e)). unfold shows.
  assert (P : page_of u (pages (step up s e)) = page_of u (pages s)).
  { specialize (O e (or_introl eq_refl)). destruct e as [v|v n w]; cbn in *; rewrite page_set; apply Nat.eqb_neq in O; rewrite O; reflexivity. }
  rewrite P. reflexivity.
Qed.

(** ** The hypotheses are met *)
Definition par (q : string) : sheet := [["name"; "value"; "units"]; ["Q"; q; "meq/L"]].
Definition conf : workbook := [("params", par "1400"); ("ions", [["name"]; ["CHLORIDE"]]); ("Cin", [["Time"; "CHLORIDE"]; ["0"; "1"]])].
Definition first_w : workbook := [("params", par "900"); ("ions", [["name"]; ["CHLORIDE"]])].
Definition second_w : workbook := [("ions", [["name"]; ["SULFATE"]])].
Definition past : list event := [Upload 1 "a.xlsx" first_w; Open 2].
Example C160_met : latest "params" (conf :: uploaded (past ++ [Upload 1 "b.xlsx" second_w])) (par "900") /\
  latest "Cin" (conf :: uploaded (past ++ [Upload 1 "b.xlsx" second_w])) [["Time"; "CHLORIDE"]; ["0"; "1"]] /\
  fix_time [["Time"; "CHLORIDE"]; ["0"; "1"]] = [["time"; "CHLORIDE"]; ["0"; "1"]].
Proof.
  split; [|split; [|reflexivity]].
  - exists [conf], first_w, [second_w]. split; [reflexivity|split; [reflexivity|]]. intros w' [<- | []]. reflexivity.
  - exists [], conf, [first_w; second_w]. split; [reflexivity|split; [reflexivity|]]. intros w' [<- | [<- | []]]; reflexivity.
Qed.
Example C160_powder_met : latest "PAC Characteristics" ([("PAC Characteristics", par "1"); ("Contactor", par "2")] :: uploaded (past ++ [Open 3])) (par "1").
Proof. exists [], [("PAC Characteristics", par "1"); ("Contactor", par "2")], [first_w]. split; [reflexivity|split; [reflexivity|]]. intros w' [<- | []]. reflexivity. Qed.
Example C160_carbon_met : latest "Kdata" ([("Kdata", par "1")] :: uploaded (past ++ [Open 3])) (par "1") /\
  latest "data" ([("data", par "7")] :: uploaded (past ++ [Open 3])) (par "7").
Proof.
  split; [exists [], [("Kdata", par "1")], [first_w]|exists [], [("data", par "7")], [first_w]];
    (split; [reflexivity|split; [reflexivity|]]; intros w' [<- | []]; reflexivity).
Qed.
Example C160_refuted_met : lookup "params" conf = Some (par "1400") /\ lookup "params" first_w = Some (par "900") /\ lookup "params" second_w = None /\ par "900" <> par "1400".
Proof. repeat split; discriminate. Qed.
Example C161_met : (forall e, In e [Open 2; Upload 2 "b.xlsx" second_w] -> owner e <> 1) /\
  shows 1 "paramsheet.csv" (par "900") (history iex_upload "IEX_config.xlsx" conf [Open 1; Upload 1 "a.xlsx" first_w]).
Proof. split; [intros e [<- | [<- | []]]; discriminate|]. eexists. split; reflexivity. Qed.

Print Assumptions C160_ion_exchange_partial.
Print Assumptions C160_carbon_partial.
Print Assumptions C160_powder_partial.
Print Assumptions C160_optional_partial.
Print Assumptions C160_missing_sheet_refuted.
Print Assumptions C161_other_session_refuted.
Print Assumptions C161_open_page_partial.
