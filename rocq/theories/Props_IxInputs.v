(** C182: what a column run is made of. *)
From Coq Require Import Reals ZArith List Arith Bool String Lra Lia.
From Verif Require Import Lib_Py M_Units M_Params M_IxData M_IxColumn M_IxUnc S_Units S_Params S_IxData P_IxData P_IxUnc Props_IxData.
Import ListNotations.
Open Scope string_scope.
Local Notation length := List.length.

(** The rows a parameter sheet needs: all models, and the ones of the pore and surface model. *)
Definition rows_needed (psdm : bool) : list string :=
  (["EBED"; "L"; "v"; "nz"; "nr"; "rb"; "Q"] ++ if psdm then ["EPOR"; "Ds"; "Dp"; "kL"] else [])%list.

Lemma value_some k s x : value_of k s = Ok x <-> exists u, lookup k s = Some (x, u).
Proof.
  unfold value_of. destruct (lookup k s) as [(y & u)|]; cbn; split.
  - intros H. apply Ok_inj in H. subst. exists u. reflexivity.
  - intros (u' & E). congruence.
  - discriminate.
  - intros (u & E). discriminate.
Qed.
Lemma value_none k s : lookup k s = None -> value_of k s = Err KeyError.
Proof. unfold value_of. intros ->. reflexivity. Qed.
Lemma to_int_spec x : (0 <= x)%R -> (INR (to_int x) <= x < INR (to_int x) + 1)%R.
Proof.
  intros H. unfold to_int. destruct (base_Int_part x) as (A & B). assert (P : (0 <= Int_part x)%Z).
  { apply le_IZR. apply Rnot_lt_le. intros C. assert (Z : (Int_part x <= -1)%Z) by (apply lt_IZR in C; lia). apply IZR_le in Z. lra. }
  rewrite INR_IZR_INZ, Z2Nat.id by exact P. lra.
Qed.
Lemma load_names params ions cin typed l rest : load_data params ions cin typed = Ok (l, rest) -> l_names l = keys (ion_rows (l_ions l)).
Proof.
  intros H. destruct (load_data_inv _ _ _ _ _ _ H) as (ions1 & p & t1 & tm & rows & data & t2 & data' & uin & E1 & E2 & E3 & E4 & E5 & ->). reflexivity.
Qed.
Lemma mapM_nth_ok {A B} (f : A -> res B) l r : mapM f l = Ok r -> forall k a, nth_error l k = Some a -> exists b, f a = Ok b /\ nth_error r k = Some b.
Proof.
  revert r. induction l as [|x l IH]; intros r H k a E; [destruct k; discriminate E|]. cbn [mapM] in H. binv H y E1. binv H ys E2. apply Ok_inj in H. subst r.
  destruct k as [|k]; cbn [nth_error] in *; [|apply (IH _ E2 _ _ E)]. exists y. split; [congruence|reflexivity].
Qed.
Lemma mapM_either {A B} (f : A -> res B) e l : (forall a, (exists b, f a = Ok b) \/ f a = Err e) -> (exists r, mapM f l = Ok r) \/ mapM f l = Err e.
Proof.
  intros H. induction l as [|x l IH]; cbn [mapM]; [left; eexists; reflexivity|]. destruct (H x) as [(b & ->)| ->]; cbn [bind]; [|right; reflexivity].
  destruct IH as [(r & ->)| ->]; cbn [bind]; [left; eexists; reflexivity|right; reflexivity].
Qed.

(** * C182: a column run uses the loaded values, each ion by its name, and needs them all *)
Theorem C182_values : forall params ions cin typed l rest psdm tv r,
  load_data params ions cin typed = Ok (l, rest) -> prepare psdm l tv = Ok r -> let c := r_col r in
  (forall k x, In (k, x) [("EBED", EBED c); ("L", Lbed c); ("v", vel c); ("rb", rb c); ("Q", Qcap c)] -> exists u, lookup k (l_params l) = Some (x, u)) /\
  (psdm = true -> exists u, lookup "EPOR" (l_params l) = Some (EPOR c, u)) /\
  (forall k n, In (k, n) [("nr", nr c); ("nz", nz c)] -> exists x u, lookup k (l_params l) = Some (x, u) /\ (0 <= x -> INR n <= x < INR n + 1)%R) /\
  NION c = length (ion_rows (l_ions l)) /\ length (r_cin r) = NION c /\
  (forall k n i, nth_error (ion_rows (l_ions l)) k = Some (n, i) ->
    kL c k = i_kL i /\ Ds c k = i_Ds i /\ (psdm = true -> Dp c k = i_Dp i) /\ Kxc c k = i_Kxc i /\
    exists x, lookup n (c_cols (l_Cin l)) = Some x /\ nth_error (r_cin r) k = Some x) /\
  r_secs r = map (fun t => (t * l_time_mult l)%R) (c_times (l_Cin l)).
Proof.
  intros params ions cin typed l rest psdm tv r HL H c. assert (HN := load_names _ _ _ _ _ _ HL).
  unfold prepare in H. binv H ci E1. binv H c0 E2. binv H la E3. destruct (_ && _)%bool eqn:EG; [discriminate H|]. apply Ok_inj in H.
  assert (EC : c = c0) by (unfold c; rewrite <- H; reflexivity). assert (ER : r_cin r = ci) by (rewrite <- H; reflexivity). rewrite EC, ER.
  assert (ES : r_secs r = map (fun t => (t * l_time_mult l)%R) (c_times (l_Cin l))) by (rewrite <- H; reflexivity).
  clear c EC. unfold read_column in E2.
  binv E2 a1 F1. binv E2 a2 F2. binv E2 a3 F3. binv E2 a4 F4. binv E2 a5 F5. binv E2 a6 F6. binv E2 a7 F7. binv E2 a8 F8. binv E2 a9 F9. binv E2 a10 F10. binv E2 a11 F11.
  destruct (negb _) eqn:EN in E2; [discriminate E2|]. apply Ok_inj in E2. subst c0. cbn [EBED EPOR Lbed vel rb Qcap nr nz NION kL Ds Dp Kxc].
  split.
  { intros k x I. cbn [In] in I. apply value_some. repeat destruct I as [I|I]; try contradiction; assert (k = fst (k, x)) as -> by reflexivity; injection I as <- <-; cbn [fst]; assumption. }
  split; [intros ->; apply value_some; exact F2|].
  split.
  { intros k n I. cbn [In] in I. destruct I as [I|[I|[]]]; injection I as <- <-.
    - apply value_some in F6. destruct F6 as (u & F6). exists a6, u. split; [exact F6|apply to_int_spec].
    - apply value_some in F5. destruct F5 as (u & F5). exists a5, u. split; [exact F5|apply to_int_spec]. }
  split; [rewrite HN; unfold keys; apply map_length|].
  split; [rewrite (mapM_length _ _ _ E1); reflexivity|].
  split; [|exact ES].
  intros k n i Q. unfold row_fun. rewrite Q. cbn [snd]. split; [reflexivity|]. split; [reflexivity|]. split; [intros ->; rewrite Q; reflexivity|]. split; [reflexivity|].
  assert (QN : nth_error (l_names l) k = Some n) by (rewrite HN; unfold keys; rewrite nth_error_map, Q; reflexivity).
  destruct (mapM_nth_ok _ _ _ E1 k n QN) as (x & X1 & X2). exists x. split; [|exact X2]. destruct (lookup n (c_cols (l_Cin l))); cbn in X1; [congruence|discriminate X1].
Qed.
(** from the sheets: coefficients, selectivity, valence and influent in meq/L are those of the ion's own row and column *)
Theorem C182_ions_partial : forall params ions cin typed l rest psdm tv r,
  load_data params ions cin typed = Ok (l, rest) -> prepare psdm l tv = Ok r -> no_alkalinity cin -> NoDup (keys (ion_rows ions)) ->
  (forall n i, In (n, i) (ion_rows ions) -> convertible i) -> has_kL ions = true -> has_Ds ions = true -> has_Dp ions = true ->
  forall k n i, nth_error (ion_rows ions) k = Some (n, i) -> let c := r_col r in
    kL c k = i_kL i /\ Ds c k = i_Ds i /\ (psdm = true -> Dp c k = i_Dp i) /\ Kxc c k = i_Kxc i /\ val c k = i_val i /\
    exists x f, lookup n (c_cols cin) = Some x /\ conc_conv i (i_units i) "meq" f /\ nth_error (r_cin r) k = Some (map (fun v => (f * v)%R) x).
Proof.
  intros params ions cin typed l rest psdm tv r HL H NA ND HC H1 H2 H3 k n i Q c.
  assert (ER : ion_rows (l_ions l) = ion_rows ions).
  { destruct (load_data_inv _ _ _ _ _ _ HL) as (ions1 & p & t1 & tm & rows & data & t2 & data' & uin & E1 & E2 & E3 & E4 & E5 & ->). cbn [l_ions ion_rows].
    unfold fill_cols, fill_col in E1. rewrite H1, H2, H3 in E1. cbn [bind] in E1. apply Ok_inj in E1. subst ions1. cbn [ion_rows] in E4.
    rewrite speciate_none in E4 by exact NA. congruence. }
  destruct (C182_values _ _ _ _ _ _ _ _ _ HL H) as (_ & _ & _ & _ & _ & V & _). rewrite ER in V. destruct (V k n i Q) as (V1 & V2 & V3 & V4 & x & V5 & V6).
  destruct (load_meq _ _ _ _ _ _ HL NA) as (_ & M); [rewrite ER; exact ND|rewrite ER; exact HC|]. rewrite ER in M. destruct (M n i (nth_error_In _ _ Q)) as (y & f & M1 & M2 & M3).
  unfold c. repeat (split; [assumption|]). split.
  - assert (VC : val (r_col r) k = nth k (l_valences l) 0%nat).
    { assert (P := prepare_col _ _ _ _ H). unfold read_column in P.
      binv P a1 F1. binv P a2 F2. binv P a3 F3. binv P a4 F4. binv P a5 F5. binv P a6 F6. binv P a7 F7. binv P a8 F8. binv P a9 F9. binv P a10 F10. binv P a11 F11.
      destruct (negb _) in P; [discriminate P|]. apply Ok_inj in P. rewrite <- P. reflexivity. }
    rewrite VC, (valences_ok _ _ _ _ _ _ HL NA), ER. apply nth_error_nth. rewrite nth_error_map, Q. reflexivity.
  - exists y, f. split; [exact M1|]. split; [exact M2|]. rewrite V6. congruence.
Qed.
(** a parameter, an ion column or an influent that is missing stops the run: no value is made up *)
Theorem C182_missing : forall psdm l tv,
  (exists k, In k (rows_needed psdm) /\ lookup k (l_params l) = None) \/ has_kL (l_ions l) = false \/ has_Ds (l_ions l) = false \/ (psdm = true /\ has_Dp (l_ions l) = false) \/
  (exists n, In n (l_names l) /\ lookup n (c_cols (l_Cin l)) = None) ->
  prepare psdm l tv = Err KeyError.
Proof.
  intros psdm l tv H.
  assert (MM : (exists ci, mapM (fun n => of_option KeyError (lookup n (c_cols (l_Cin l)))) (l_names l) = Ok ci) \/ mapM (fun n => of_option KeyError (lookup n (c_cols (l_Cin l)))) (l_names l) = Err KeyError).
  { apply mapM_either. intros n. destruct (lookup n (c_cols (l_Cin l))) as [x|]; [left; exists x|right]; reflexivity. }
  unfold prepare. destruct MM as [(ci & MM)|MM]; rewrite MM; cbn [bind]; [|reflexivity].
  assert (R : read_column psdm l = Err KeyError \/ exists n, In n (l_names l) /\ lookup n (c_cols (l_Cin l)) = None).
  { assert (V : forall k, (exists x, value_of k (l_params l) = Ok x) \/ value_of k (l_params l) = Err KeyError /\ lookup k (l_params l) = None).
    { intros k. unfold value_of. destruct (lookup k (l_params l)) as [(x & u)|]; cbn; [left; exists x; reflexivity|right; split; reflexivity]. }
    destruct H as [(k & I & E)|[E|[E|[(E0 & E)|E]]]]; [left|left|left|left|right; exact E].
    - apply value_none in E. unfold read_column, rows_needed in *.
      destruct psdm; cbn [app In] in I;
      repeat (match goal with |- bind (value_of ?j _) _ = _ => let EV := fresh in destruct (V j) as [(? & EV)|(EV & _)]; rewrite EV; cbn [bind]; [|reflexivity] end);
      cbn [bind]; repeat (match goal with |- bind (value_of ?j _) _ = _ => let EV := fresh in destruct (V j) as [(? & EV)|(EV & _)]; rewrite EV; cbn [bind]; [|reflexivity] end);
      exfalso; repeat destruct I as [<-|I]; congruence || contradiction.
    - unfold read_column. destruct psdm;
      repeat (cbn [bind]; match goal with |- bind (value_of ?j _) _ = _ => let EV := fresh in destruct (V j) as [(? & EV)|(EV & _)]; rewrite EV; cbn [bind]; [|reflexivity] end); cbn [bind]; rewrite E; reflexivity.
    - unfold read_column. destruct psdm;
      repeat (cbn [bind]; match goal with |- bind (value_of ?j _) _ = _ => let EV := fresh in destruct (V j) as [(? & EV)|(EV & _)]; rewrite EV; cbn [bind]; [|reflexivity] end); cbn [bind]; rewrite E; rewrite andb_false_r; reflexivity.
    - subst psdm. unfold read_column.
      repeat (cbn [bind]; match goal with |- bind (value_of ?j _) _ = _ => let EV := fresh in destruct (V j) as [(? & EV)|(EV & _)]; rewrite EV; cbn [bind]; [|reflexivity] end); cbn [bind]; rewrite E; rewrite andb_false_r; reflexivity. }
  destruct R as [R|(n & I & E)]; [rewrite R; reflexivity|]. exfalso.
  apply In_nth_error in I. destruct I as (j & J). destruct (mapM_nth_ok _ _ _ MM j n J) as (x & X & _). rewrite E in X. discriminate X.
Qed.
(** and with everything there, and the reporting times within the influents, there is a run *)
Theorem C182_runs : forall psdm l tv last, (forall k, In k (rows_needed psdm) -> mem_key k (l_params l) = true) ->
  has_kL (l_ions l) = true -> has_Ds (l_ions l) = true -> (psdm = true -> has_Dp (l_ions l) = true) -> (forall n, In n (l_names l) -> mem_key n (c_cols (l_Cin l)) = true) ->
  nth_error (c_times (l_Cin l)) (length (c_times (l_Cin l)) - 1) = Some last -> (forall t, In t tv -> 0 <= t <= last)%R ->
  exists r, prepare psdm l tv = Ok r.
Proof.
  intros psdm l tv last HK H1 H2 H3 HN HT HV.
  assert (MM : exists ci, mapM (fun n => of_option KeyError (lookup n (c_cols (l_Cin l)))) (l_names l) = Ok ci).
  { revert HN. induction (l_names l) as [|n ns IH]; intros HN; [eexists; reflexivity|]. cbn [mapM]. assert (E := HN n (or_introl eq_refl)). unfold mem_key in E.
    destruct (lookup n (c_cols (l_Cin l))); [|discriminate E]. cbn [of_option bind]. destruct IH as (ci & ->); [intros m I; apply HN; right; exact I|]. cbn [bind]. eexists. reflexivity. }
  destruct MM as (ci & MM). unfold prepare. rewrite MM. cbn [bind].
  assert (RC : exists c, read_column psdm l = Ok c).
  { assert (V : forall k, In k (rows_needed psdm) -> exists x, value_of k (l_params l) = Ok x).
    { intros k I. assert (E := HK k I). unfold mem_key in E. unfold value_of. destruct (lookup k (l_params l)) as [(x & u)|]; [exists x; reflexivity|discriminate E]. }
    unfold read_column, rows_needed in *. destruct psdm;
    repeat (cbn [bind]; match goal with |- context [bind (value_of ?j _) _] => let X := fresh in destruct (V j) as (? & X); [cbn; tauto|]; rewrite X; cbn [bind] end);
    rewrite H1, H2; cbn [andb negb orb]; [rewrite (H3 eq_refl)|rewrite orb_true_r]; cbn [andb negb orb]; eexists; reflexivity. }
  destruct RC as (c & RC). rewrite RC. cbn [bind].
  assert (EL : match rev (c_times (l_Cin l)) with t :: _ => Ok t | [] => Err IndexError end = Ok last).
  { destruct (c_times (l_Cin l)) as [|t0 ts] eqn:ET; [discriminate HT|]. destruct (exists_last (l := t0 :: ts)) as (front & z & EZ); [discriminate|].
    rewrite EZ in HT |- *. rewrite rev_app_distr. cbn. rewrite app_length in HT. cbn [length] in HT. rewrite nth_error_app2 in HT by lia.
    replace (length front + 1 - 1 - length front)%nat with 0%nat in HT by lia. cbn in HT. congruence. }
  rewrite EL. cbn [bind]. assert (EX : existsb (fun t => rltb last t || rltb t 0)%bool tv = false).
  { apply not_true_iff_false. intros X. apply existsb_exists in X. destruct X as (t & I & X). specialize (HV t I). apply orb_prop in X.
    unfold rltb in X. destruct X as [X|X]; destruct (Rlt_dec _ _) in X; discriminate X || lra. }
  rewrite EX, andb_false_r. eexists. reflexivity.
Qed.
(** An ion column is there after reading exactly when the sheet has it or the parameters fill it in. *)
Theorem C182_columns : forall params ions cin typed l rest, load_data params ions cin typed = Ok (l, rest) ->
  (has_kL (l_ions l) = true <-> has_kL ions = true \/ mem_key "kL" params = true) /\
  (has_Ds (l_ions l) = true <-> has_Ds ions = true \/ mem_key "Ds" params = true) /\
  (has_Dp (l_ions l) = true <-> has_Dp ions = true \/ mem_key "Dp" params = true).
Proof.
  intros params ions cin typed l rest H. apply load_data_inv in H. destruct H as (ions1 & p & t1 & tm & rows & data & t2 & data' & uin & F & _ & _ & _ & _ & ->).
  cbn [l_ions has_kL has_Ds has_Dp].
  assert (X : forall n h set rs h' rs', fill_col n h set params rs = Ok (h', rs') -> (h' = true <-> h = true \/ mem_key n params = true)).
  { intros n h set rs h' rs' E. unfold fill_col in E. unfold mem_key. destruct h; [inversion E; subst; tauto|].
    destruct (lookup n params) as [r|]; [destruct (p_value r); [|discriminate]|]; inversion E; subst; intuition congruence. }
  unfold fill_cols in F.
  destruct (fill_col "kL" (has_kL ions) set_kL params (ion_rows ions)) as [[hk r1]|] eqn:E1; [|discriminate]. cbn [bind] in F.
  destruct (fill_col "Ds" (has_Ds ions) set_Ds params r1) as [[hs r2]|] eqn:E2; [|discriminate]. cbn [bind] in F.
  destruct (fill_col "Dp" (has_Dp ions) set_Dp params r2) as [[hp r3]|] eqn:E3; [|discriminate]. cbn [bind] in F.
  assert (Q : ions1 = {| has_kL := hk; has_Ds := hs; has_Dp := hp; ion_rows := r3 |}) by congruence. subst ions1. cbn [has_kL has_Ds has_Dp].
  split; [|split]; eapply X; eassumption.
Qed.
Print Assumptions C182_columns.
Print Assumptions C182_values.
Print Assumptions C182_ions_partial.
Print Assumptions C182_missing.
Print Assumptions C182_runs.

(** A sheet with every row, read and run. *)
Definition full_params : sheet :=
  (ex_params ++ [("rb", quantity (dec 3 2) "cm"); ("nr", {| p_value := PNum 7; p_units := None |}); ("nz", {| p_value := PNum 13; p_units := None |})])%list.
Definition full_ions : ions_sheet :=
  {| has_kL := true; has_Ds := true; has_Dp := true; ion_rows := [("CHLORIDE", ex_ion 35 1 "mg"); ("SULFATE", ex_ion 96 2 "meq")] |}.
Example C182_met : exists l r, load_data full_params full_ions ex_cin_plain [] = Ok (l, []) /\ prepare false l [0; 5]%R = Ok r /\ no_alkalinity ex_cin_plain /\
  NoDup (keys (ion_rows full_ions)) /\ (forall n i, In (n, i) (ion_rows full_ions) -> convertible i).
Proof.
  assert (L : exists l, load_data full_params full_ions ex_cin_plain [] = Ok (l, []) /\ (forall k, In k (rows_needed false) -> mem_key k (l_params l) = true) /\
    has_kL (l_ions l) = true /\ has_Ds (l_ions l) = true /\ (forall n, In n (l_names l) -> mem_key n (c_cols (l_Cin l)) = true) /\ c_times (l_Cin l) = [0; 10]%R).
  { eexists. split; [run|]. split; [|split; [reflexivity|split; [reflexivity|split; [|reflexivity]]]]; intros k I; cbn in I; repeat destruct I as [<-|I]; try contradiction; reflexivity. }
  destruct L as (l & L1 & L2 & L3 & L4 & L5 & L6).
  destruct (C182_runs false l [0; 5]%R 10%R L2 L3 L4) as (r & R); [discriminate|exact L5|rewrite L6; reflexivity| |].
  { intros t [<-|[<-|[]]]; lra. }
  exists l, r. split; [exact L1|]. split; [exact R|]. split; [right; left; reflexivity|]. split.
  - repeat constructor; simpl; intuition discriminate.
  - intros n i I. simpl in I. destruct I as [E|[E|[]]]; injection E as <- <-; (split; [simpl; tauto|split; [simpl; lra|discriminate]]).
Qed.
