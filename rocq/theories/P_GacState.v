(** Proofs about the column object. *)
From Coq Require Import Reals List Arith Bool String Lra Lia.
From Verif Require Import Lib_Py P_GacFun M_GacState S_GacState.
Import ListNotations.
Open Scope R_scope.

(** ** Frames *)
Lemma lookup_map {A} (g : A -> A) c f : lookup c (col_map g f) = option_map g (lookup c f).
Proof. induction f as [|(d, x) r IH]; [reflexivity|]. cbn. destruct (String.eqb c d); [reflexivity|exact IH]. Qed.
Lemma lookup_update {A} c (x : A) f d : lookup d (update c x f) = if String.eqb d c then Some x else lookup d f.
Proof.
  induction f as [|(e, y) r IH]; cbn [update lookup].
  - destruct (String.eqb d c); reflexivity.
  - destruct (String.eqb_spec c e) as [<- |N]; cbn [lookup].
    + destruct (String.eqb d c); reflexivity.
    + destruct (String.eqb_spec d e) as [-> |N2]; [destruct (String.eqb_spec e c); [congruence|reflexivity]|exact IH].
Qed.
Lemma update_update {A} c (x y : A) f : update c x (update c y f) = update c x f.
Proof.
  induction f as [|(e, z) r IH]; cbn [update].
  - rewrite String.eqb_refl. reflexivity.
  - destruct (String.eqb c e) eqn:E; cbn [update]; rewrite E; [reflexivity|]. rewrite IH. reflexivity.
Qed.
Lemma col_map_map {A} (g h : A -> A) f : col_map g (col_map h f) = col_map (fun x => g (h x)) f.
Proof. unfold col_map. rewrite map_map. reflexivity. Qed.
Lemma fput_same {A} c (x : A) f : fput c x f c = x. Proof. unfold fput. rewrite String.eqb_refl. reflexivity. Qed.
Lemma fput_other {A} c (x : A) f d : d <> c -> fput c x f d = f d.
Proof. intros N. unfold fput. destruct (String.eqb_spec c d); congruence. Qed.

(** ** Methods *)
Lemma then_ok {A B} (m : method A) (f : A -> method B) c r c' :
  andthen m f c = (Ok r, c') -> exists x c1, m c = (Ok x, c1) /\ f x c1 = (Ok r, c').
Proof. unfold andthen. destruct (m c) as [[x|e] c1]; intros H; [exists x, c1; auto|discriminate]. Qed.
Lemma need_ok {A} e (o : option A) c x c' : need e o c = (Ok x, c') -> o = Some x /\ c' = c.
Proof. destruct o; cbn; unfold ret, raise; intros H; [injection H as <- <-; auto|discriminate]. Qed.
Lemma pick_ok {A} n (f : frame A) c x c' : pick n f c = (Ok x, c') -> c' = c /\ exists y, lookup n f = Some y /\ x = [(n, y)].
Proof.
  intros H. apply then_ok in H as (y & c1 & H1 & H2). apply need_ok in H1 as (E & ->). unfold ret in H2. injection H2 as <- <-.
  split; [reflexivity|]. exists y. auto.
Qed.

(** Nothing but set_backups changes the backups. *)
Definition keeps {A} (m : method A) : Prop := forall c, bup (snd (m c)) = bup c.
Lemma keeps_then {A B} (m : method A) (f : A -> method B) : keeps m -> (forall x, keeps (f x)) -> keeps (andthen m f).
Proof.
  intros H1 H2 c. unfold andthen. specialize (H1 c). destruct (m c) as [[x|e] c1]; cbn [snd] in *; [rewrite H2; exact H1|exact H1].
Qed.
Lemma keeps_ret {A} (x : A) : keeps (ret x). Proof. intros c. reflexivity. Qed.
Lemma keeps_get {A} (f : gcol -> A) : keeps (get f). Proof. intros c. reflexivity. Qed.
Lemma keeps_need {A} e (o : option A) : keeps (need e o). Proof. intros c. destruct o; reflexivity. Qed.
Lemma keeps_modify f : (forall c, bup (f c) = bup c) -> keeps (modify f). Proof. intros H c. apply H. Qed.
Lemma keeps_pick {A} n (f : frame A) : keeps (pick n f).
Proof. apply keeps_then; [apply keeps_need|intros; apply keeps_ret]. Qed.

Ltac step H := let x := fresh "x" in let c := fresh "c" in let E := fresh "E" in
  apply then_ok in H as (x & c & E & H).

Section P.
Variables vw dw mass_mul duration : R.
Variable sim : seen -> option (string -> R -> R).
Variable used : seen -> frame mtr.
Variable ssq : dcol -> R -> (R -> R) -> R.
Variable difl : R -> R.
Variable powr : R -> R -> R.
Variable chained : bool.
Notation derive := (derive vw dw).
Notation run := (run_psdm sim used).
Notation reset := (reset_values vw dw).

Lemma keeps_reset : keeps reset. Proof. apply keeps_modify. reflexivity. Qed.
Lemma keeps_run : keeps run.
Proof. intros c. unfold run_psdm. destruct (sim _); reflexivity. Qed.

Ltac kp := repeat first
  [ apply keeps_ret | apply keeps_get | apply keeps_need | apply keeps_pick | apply keeps_reset | apply keeps_run
  | (apply keeps_modify; intros; first [reflexivity | destruct chained; reflexivity])
  | (apply keeps_then; [|intros]) ].

Lemma keeps_try n d b ts : keeps (try_all sim used ssq n d b ts).
Proof. induction ts as [|t r IH]; cbn [try_all]; kp; [|exact IH]. destruct t as [[K N]|]; cbn [trial_k]; kp. Qed.
Lemma keeps_single n : keeps (single_view n). Proof. unfold single_view. kp. Qed.
Lemma keeps_ds n d b base ts best : keeps (ds_all sim used ssq n d b base ts best).
Proof. revert best; induction ts as [|t r IH]; intros best; cbn [ds_all]; kp. apply IH. Qed.
Lemma keeps_base cs cm : keeps (base_single duration sim used cs cm).
Proof. revert cm; induction cs as [|n r IH]; intros cm; cbn [base_single]; kp. apply IH. Qed.
Lemma keeps_case cs d k : keeps (case_single duration sim used cs d k).
Proof. induction cs as [|n r IH]; cbn [case_single]; kp. apply IH. Qed.
Lemma keeps_multi cs f : keeps (case_multi duration chained cs f).
Proof. induction cs as [|n r IH]; cbn [case_multi]; kp. apply IH. Qed.
Lemma keeps_one s cm t : keeps (one_case vw dw mass_mul duration sim used chained s cm t).
Proof.
  unfold one_case. kp. destruct (fold_left _ _ _) as [i' kl]. kp.
  destruct s; [apply keeps_case|]. kp. apply keeps_multi.
Qed.
Lemma keeps_all s cm ts : keeps (all_cases vw dw mass_mul duration sim used chained s cm ts).
Proof. induction ts as [|t r IH]; cbn [all_cases]; [apply keeps_ret|apply keeps_then; [apply keeps_one|intros; apply IH]]. Qed.
Lemma keeps_store cs f : keeps (store_all duration cs f).
Proof. induction cs as [|n r IH]; cbn [store_all]; kp. apply IH. Qed.

(** ** Successful methods end in a reset *)
Lemma reset_ok c c' r : reset c = (Ok r, c') -> now c' = bup c /\ bup c' = bup c /\ der c' = derive (bup c).
Proof. intros H. injection H as _ <-. auto. Qed.
Lemma kfit_ok n ts c l c' : run_psdm_kfit vw dw sim used ssq n ts c = (Ok l, c') ->
  now c' = bup c /\ bup c' = bup c /\ der c' = derive (bup c).
Proof.
  unfold run_psdm_kfit. intros H. step H. step H. step H. step H. step H.
  assert (K1 := keeps_single n c). rewrite E in K1. cbn [snd] in K1.
  injection E0 as <- <-. apply need_ok in E1 as (_ & ->).
  assert (K2 := keeps_try n x (kBrk x1) ts c0). rewrite E2 in K2. cbn [snd] in K2.
  injection H as <- <-. destruct (reset_ok _ _ _ E3) as (A & B & D). rewrite K2, K1 in A, B, D. auto.
Qed.
Lemma dsfit_ok n ts c l c' : run_psdm_dsfit vw dw mass_mul sim used ssq difl powr n ts c = (Ok l, c') ->
  now c' = bup c /\ bup c' = bup c /\ der c' = derive (bup c).
Proof.
  unfold run_psdm_dsfit. intros H. step H. step H. step H. step H. step H. step H. step H. step H.
  assert (K1 := keeps_single n c). rewrite E in K1. cbn [snd] in K1.
  injection E0 as <- <-. apply need_ok in E1 as (_ & ->). apply need_ok in E2 as (_ & ->). apply need_ok in E3 as (_ & ->).
  injection E4 as <- <-.
  assert (K2 := keeps_ds n x (kBrk x1) (ds_base_of mass_mul difl powr (now c0) x x2 x3 (kN x1)) ts (10 ^ 20, None) c0). rewrite E5 in K2. cbn [snd] in K2.
  apply need_ok in H as (_ & ->). destruct (reset_ok _ _ _ E6) as (A & B & D). rewrite K2, K1 in A, B, D. auto.
Qed.
Lemma uncertainty_ok s q c l c' : model_uncertainty vw dw mass_mul duration sim used chained s q c = (Ok l, c') ->
  now c' = now c /\ bup c' = now c /\ der c' = derive (now c).
Proof.
  unfold model_uncertainty. intros H. step H. step H. step H. step H. step H. step H.
  injection E as _ <-. injection E0 as _ <-. injection E1 as <- <-. cbn [bup now set_results] in *.
  match type of E2 with ?m ?c0 = _ => assert (K1 : keeps m) by (destruct s; [apply keeps_base|kp; apply keeps_store]);
    specialize (K1 c0); rewrite E2 in K1; cbn [snd bup set_results] in K1 end.
  injection E3 as _ <-.
  match type of E4 with ?m ?c0 = _ => assert (K2 : keeps m) by apply keeps_all;
    specialize (K2 c0); rewrite E4 in K2; cbn [snd bup set_bands] in K2 end.
  destruct (reset_ok _ _ _ H) as (A & B & D). rewrite K2, K1 in A, B, D. auto.
Qed.

(** ** The single-compound mode *)
Definition view (n : string) (k : krow) (d : dcol) (i : inp) : inp := with_frames [(n, k)] [(n, d)] [n] 1 (i_mt i) i.
Lemma derive_frames k d cs n m i : derive (with_frames k d cs n m i) = derive i. Proof. reflexivity. Qed.

(** Same inputs except for the frames a run of one compound replaces. *)
Definition same_rest (i i' : inp) : Prop := i_mt i' = i_mt i /\
  forall k d cs n m, with_frames k d cs n m i' = with_frames k d cs n m i.
Lemma same_rest_refl i : same_rest i i. Proof. split; reflexivity. Qed.
Lemma same_rest_trans a b c : same_rest a b -> same_rest b c -> same_rest a c.
Proof. intros (A & B) (C & D). split; [congruence|]. intros. rewrite D. apply B. Qed.
Lemma same_frames i k d cs n : same_rest i (with_frames k d cs n (i_mt i) i).
Proof. split; [reflexivity|]. intros. reflexivity. Qed.

Lemma case_single_ok cs data kl c c' : NoDup cs ->
  case_single duration sim used cs data kl c = (Ok tt, c') ->
  bup c' = bup c /\ results c' = results c /\
  (forall n, In n cs -> exists k d f, lookup n kl = Some k /\ lookup n data = Some d /\
     sim (view n k d (now c), der c) = Some f /\
     upper c' n = widen Rmax (upper c n) (sampled duration (f n)) /\
     lower c' n = widen Rmin (lower c n) (sampled duration (f n))) /\
  (forall n, ~ In n cs -> upper c' n = upper c n /\ lower c' n = lower c n).
Proof.
  revert c; induction cs as [|n r IH]; intros c ND H; cbn [case_single] in H.
  - injection H as <-. split; [reflexivity|]. split; [reflexivity|]. split; [intros n []|]. auto.
  - step H. step H. step H. step H. step H. step H.
    apply pick_ok in E as (-> & d & Ed & ->). injection E0 as _ <-.
    apply pick_ok in E1 as (-> & k & Ek & ->). injection E2 as _ <-.
    unfold run_psdm in E3. cbn [now set_now der] in E3.
    match type of E3 with match sim ?v with _ => _ end = _ => set (V := v) in E3 end.
    assert (EV : V = (view n k d (now c), der c)) by reflexivity. clearbody V. subst V.
    destruct (sim (view n k d (now c), der c)) as [f|] eqn:ES; [|discriminate]. injection E3 as <- <-.
    injection E4 as _ <-. inversion ND as [|? ? NI ND']; subst.
    destruct (IH _ ND' H) as (I1 & I2 & I3 & I4). cbn [bup results set_bands set_mtd set_now upper lower der] in *.
    split; [exact I1|]. split; [exact I2|]. split.
    + intros m [<- |Hm].
      * exists k, d, f. repeat (split; [assumption|]). destruct (I4 n NI) as (-> & ->). rewrite !fput_same. auto.
      * destruct (I3 m Hm) as (k' & d' & f' & A1 & A2 & A3 & A4 & A5). exists k', d', f'.
        split; [exact A1|]. split; [exact A2|]. split; [exact A3|].
        rewrite fput_other in A4, A5 by (intros ->; contradiction). auto.
    + intros m Hm. destruct (I4 m) as (-> & ->); [intros F; apply Hm; right; exact F|].
      rewrite !fput_other by (intros ->; apply Hm; left; reflexivity). auto.
Qed.

Definition used_mt (n : string) (k : krow) (d : dcol) (i : inp) (dr : derived) : option mtr := lookup n (used (view n k d i, dr)).
Lemma base_single_ok cs cm c cm' c' : NoDup cs ->
  base_single duration sim used cs cm c = (Ok cm', c') ->
  bup c' = bup c /\ der c' = der c /\ same_rest (now c) (now c') /\
  (forall n, In n cs -> exists k d f, lookup n (i_kd (bup c)) = Some k /\ lookup n (i_data (bup c)) = Some d /\
     sim (view n k d (now c), der c) = Some f /\ results c' n = Some (sampled duration (f n)) /\
     lookup n cm' = used_mt n k d (now c) (der c)) /\
  (forall n, ~ In n cs -> results c' n = results c n /\ lookup n cm' = lookup n cm).
Proof.
  revert c cm; induction cs as [|n r IH]; intros c cm ND H; cbn [base_single] in H.
  - injection H as <- <-. split; [reflexivity|]. split; [reflexivity|]. split; [apply same_rest_refl|]. split; [intros n []|]. auto.
  - step H. step H. step H. step H. step H. step H. step H. step H. step H. step H.
    injection E as <- <-. injection E0 as _ <-.
    apply pick_ok in E1 as (-> & d & Ed & ->). injection E2 as _ <-.
    apply pick_ok in E3 as (-> & k & Ek & ->). injection E4 as _ <-.
    unfold run_psdm in E5. cbn [now set_now der] in E5.
    match type of E5 with match sim ?v with _ => _ end = _ => set (V := v) in E5 end.
    assert (EV : V = (view n k d (now c), der c)) by reflexivity. clearbody V. subst V.
    destruct (sim (view n k d (now c), der c)) as [f|] eqn:ES; [|discriminate]. injection E5 as <- <-.
    injection E6 as _ <-. injection E7 as <- <-. apply need_ok in E8 as (Em & ->). cbn [mtd set_mtd set_results] in Em.
    inversion ND as [|? ? NI ND']; subst.
    destruct (IH _ _ ND' H) as (I1 & I2 & I3 & I4 & I5). cbn [bup results set_results set_mtd set_now der now] in *.
    match type of I3 with same_rest ?i _ => assert (SR : same_rest (now c) i) by (split; reflexivity) end.
    split; [exact I1|]. split; [exact I2|]. split; [exact (same_rest_trans _ _ _ SR I3)|]. split.
    + intros m [<- |Hm].
      * exists k, d, f. split; [exact Ek|]. split; [exact Ed|]. split; [exact ES|].
        destruct (I5 n NI) as (-> & ->). rewrite fput_same, lookup_update, String.eqb_refl. split; [reflexivity|symmetry; exact Em].
      * destruct (I4 m Hm) as (k' & d' & f' & A1 & A2 & A3 & A4 & A5). exists k', d', f'.
        split; [exact A1|]. split; [exact A2|]. split; [exact A3|]. split; [exact A4|]. exact A5.
    + intros m Hm. destruct (I5 m) as (-> & ->); [intros F; apply Hm; right; exact F|].
      rewrite fput_other by (intros ->; apply Hm; left; reflexivity). split; [reflexivity|].
      rewrite lookup_update. destruct (String.eqb_spec m n) as [-> |]; [exfalso; apply Hm; left; reflexivity|reflexivity].
Qed.

Lemma case_multi_ok cs f c c' : NoDup cs -> case_multi duration chained cs f c = (Ok tt, c') ->
  bup c' = bup c /\
  (forall n, In n cs -> results c' n = Some (sampled duration (f n)) /\
     (chained = true -> upper c' n = widen Rmax (upper c n) (sampled duration (f n)) /\
                        lower c' n = widen Rmin (lower c n) (sampled duration (f n)))) /\
  (forall n, ~ In n cs -> results c' n = results c n /\ upper c' n = upper c n /\ lower c' n = lower c n) /\
  (chained = false -> upper c' = upper c /\ lower c' = lower c).
Proof.
  revert c; induction cs as [|n r IH]; intros c ND H; cbn [case_multi] in H.
  - injection H as <-. split; [reflexivity|]. split; [intros n []|]. auto.
  - step H. step H. injection E as _ <-. injection E0 as _ <-. inversion ND as [|? ? NI ND']; subst.
    destruct (IH _ ND' H) as (I1 & I2 & I3 & I4). clear IH H.
    split; [rewrite I1; destruct chained; reflexivity|]. split; [|split].
    + intros m [<- |Hm].
      * destruct (I3 n NI) as (-> & U & L). split; [destruct chained; cbn; apply fput_same|].
        intros CH. rewrite U, L. rewrite CH. cbn [upper lower set_bands set_results]. rewrite !fput_same. auto.
      * assert (N : m <> n) by (intros ->; contradiction). destruct (I2 m Hm) as (A & B). split; [exact A|]. intros CH. destruct (B CH) as (U & L).
        rewrite U, L, CH. cbn [upper lower set_bands set_results]. rewrite !fput_other by exact N. auto.
    + intros m Hm. assert (N : m <> n) by (intros ->; apply Hm; left; reflexivity).
      destruct (I3 m) as (A & U & L); [intros F; apply Hm; right; exact F|]. rewrite A, U, L.
      destruct chained; cbn [upper lower results set_bands set_results]; rewrite !fput_other by exact N; auto.
    + intros CH. destruct (I4 CH) as (-> & ->). rewrite CH. auto.
Qed.

(** ** Cases *)
Definition test_of (wf : what * R) : list (key * R) :=
  let '(w, f) := wf in
  match w with
  | Capacity => [(Kk, f); (Kxn, 2 - f)]
  | FreundlichK => [(Kk, f)] | Loading => [(Kqn, f)] | Mass => [(Kmass, f)] | SurfaceDiffusion => [(Kds, f)]
  | PoreDiffusion => [(Kdp, f)] | FilmTransfer => [(Kkf, f)] | Flow => [(Kflrt, f)] | Influent => [(Kc, f)]
  end.
Lemma two_pair w k v : (forall f, test_of (w, f) = [(k, f)]) -> two k v = map test_of (pair_of w v).
Proof. intros H. destruct v as [p|]; [|reflexivity]. unfold two, pair_of. cbn [map]. rewrite !H. reflexivity. Qed.
Lemma tests_requested q : tests_of q = map test_of (requested q).
Proof.
  unfold tests_of, requested. rewrite !map_app.
  rewrite <- (two_pair FreundlichK Kk), <- (two_pair Loading Kqn), <- (two_pair Mass Kmass), <- (two_pair SurfaceDiffusion Kds),
    <- (two_pair PoreDiffusion Kdp), <- (two_pair FilmTransfer Kkf), <- (two_pair Flow Kflrt), <- (two_pair Influent Kc) by reflexivity.
  f_equal. destruct (r_capacity q) as [p|]; [|reflexivity]. cbn [pair_of map test_of].
  replace (2 - (1 + p / 100)) with (1 - p / 100) by lra. replace (2 - (1 - p / 100)) with (1 + p / 100) by lra. reflexivity.
Qed.

Definition case_pair (i : inp) (w : what) (f : R) : inp * frame krow :=
  fold_left (fun x kv => apply_key mass_mul kv x) (test_of (w, f)) (i, i_kd i).
Lemma case_kl i w f : snd (case_pair i w f) = i_kd (case_inputs i w f).
Proof.
  destruct w; try reflexivity. unfold case_pair. cbn [test_of fold_left apply_key snd case_inputs i_kd]. rewrite col_map_map.
  unfold col_map. apply map_ext. intros (n, r). cbn [fst snd]. f_equal. unfold k_scale, scale_k. cbn [kK kN kQ kBrk kAve kVol kMW].
  f_equal; lra.
Qed.
Lemma case_inp i w f : case_inputs i w f =
  with_frames (snd (case_pair i w f)) (i_data (fst (case_pair i w f))) (i_comps (fst (case_pair i w f)))
    (i_num (fst (case_pair i w f))) (i_mt (fst (case_pair i w f))) (fst (case_pair i w f)).
Proof. rewrite case_kl. destruct w; reflexivity. Qed.
Lemma case_derive i w f : derive (fst (case_pair i w f)) = derive (case_inputs i w f).
Proof. rewrite case_inp. reflexivity. Qed.
Lemma case_comps i w f : i_comps (fst (case_pair i w f)) = i_comps i. Proof. destruct w; reflexivity. Qed.

(** What is seen of compound [n] in row [j] when a column with inputs [i] is run, compound
    by compound ([s]) or competitively. *)
Definition obs (s : bool) (i : inp) (n : string) (j : nat) (v : R) : Prop :=
  exists f, sim ((if s then only n i else i), derive i) = Some f /\ v = f n (row_time duration j).

Lemma one_case_ok s cm w f c c' n : (s = false -> chained = true) -> NoDup (i_comps (bup c)) -> In n (i_comps (bup c)) ->
  one_case vw dw mass_mul duration sim used chained s cm (test_of (w, f)) c = (Ok tt, c') ->
  bup c' = bup c /\ (s = true -> results c' = results c) /\
  exists g, (forall j, obs s (case_inputs (with_mt cm (bup c)) w f) n j (g j)) /\
    upper c' n = widen Rmax (upper c n) g /\ lower c' n = widen Rmin (lower c n) g.
Proof.
  intros CH ND Hn H. unfold one_case in H. step H. step H. step H. injection E as _ <-. injection E0 as _ <-. injection E1 as <- <-.
  cbn [now set_now bup set_der] in H. change (with_frames _ _ _ _ cm (bup c)) with (with_mt cm (bup c)) in H.
  change (i_kd (bup c)) with (i_kd (with_mt cm (bup c))) in H. fold (case_pair (with_mt cm (bup c)) w f) in H.
  set (i0 := with_mt cm (bup c)) in *.
  assert (CI := case_inp i0 w f). assert (CD := case_derive i0 w f). assert (CC := case_comps i0 w f).
  destruct (case_pair i0 w f) as [i' kl]. cbn [fst snd] in *.
  step H. step H. injection E as _ <-. injection E0 as <- <-. cbn [bup set_der set_now] in H.
  destruct s.
  - destruct (case_single_ok _ _ _ _ _ ND H) as (A1 & A2 & A3 & _). cbn [bup results set_der set_now now der upper lower] in *.
    split; [exact A1|]. split; [intros _; exact A2|].
    destruct (A3 n Hn) as (k & d & g & L1 & L2 & S & U & L). exists (sampled duration (g n)). split; [|split; assumption].
    intros j. exists g. split; [|reflexivity]. rewrite <- CD.
    assert (ON : only n (case_inputs i0 w f) = view n k d i').
    { rewrite CI. unfold only. cbn [i_kd i_data with_frames]. rewrite L1, L2. reflexivity. }
    rewrite ON. exact S.
  - step H. step H. injection E as _ <-. cbn [now set_now set_der] in *.
    unfold run_psdm in E0. cbn [now set_now der set_der] in E0.
    match type of E0 with match sim ?v with _ => _ end = _ => set (V := v) in E0 end.
    assert (EV : V = (case_inputs i0 w f, derive (case_inputs i0 w f))) by (rewrite CI; reflexivity). clearbody V. subst V.
    destruct (sim _) as [g|] eqn:ES in E0; [|discriminate]. injection E0 as <- <-. rewrite CC in H.
    destruct (case_multi_ok _ _ _ _ ND H) as (A1 & A2 & _). cbn [bup upper lower set_mtd set_now set_der] in *.
    split; [exact A1|]. split; [discriminate|]. destruct (A2 n Hn) as (_ & A3). destruct (A3 (CH eq_refl)) as (U & L).
    exists (sampled duration (g n)). split; [|split; assumption]. intros j. exists g. split; [exact ES|reflexivity].
Qed.

Definition band_up (s : bool) (i : inp) (ws : list (what * R)) (n : string) (j : nat) (v : R) : Prop :=
  exists w f, In (w, f) ws /\ obs s (case_inputs i w f) n j v.
Lemma obs_fun s i n j v v' : obs s i n j v -> obs s i n j v' -> v = v'.
Proof. intros (f & E & ->) (f' & E' & ->). rewrite E in E'. injection E' as ->. reflexivity. Qed.

Lemma all_cases_ok s cm ws c c' n u l : (s = false -> chained = true) -> NoDup (i_comps (bup c)) -> In n (i_comps (bup c)) ->
  upper c n = Some u -> lower c n = Some l ->
  all_cases vw dw mass_mul duration sim used chained s cm (map test_of ws) c = (Ok tt, c') ->
  bup c' = bup c /\ (s = true -> results c' = results c) /\
  exists u' l', upper c' n = Some u' /\ lower c' n = Some l' /\ forall j,
    greatest (u j) (band_up s (with_mt cm (bup c)) ws n j) (u' j) /\
    least (l j) (band_up s (with_mt cm (bup c)) ws n j) (l' j).
Proof.
  intros CH. revert c u l; induction ws as [|(w, f) r IH]; intros c u l ND Hn U L H; cbn [map all_cases] in H.
  - injection H as <-. split; [reflexivity|]. split; [reflexivity|]. exists u, l. split; [exact U|]. split; [exact L|].
    intros j. split; (split; [lra|]; split; [intros x (w & f & [] & _)|left; reflexivity]).
  - step H. destruct x. destruct (one_case_ok s cm w f c c0 n CH ND Hn E) as (B1 & R1 & g & G & U1 & L1).
    rewrite U in U1. rewrite L in L1. cbn [widen] in U1, L1.
    destruct (IH _ _ _ ltac:(rewrite B1; exact ND) ltac:(rewrite B1; exact Hn) U1 L1 H) as (B2 & R2 & u' & l' & U2 & L2 & J).
    rewrite B1 in B2, J. split; [exact B2|]. split; [intros Hs; rewrite (R2 Hs), (R1 Hs); reflexivity|].
    exists u', l'. split; [exact U2|]. split; [exact L2|]. intros j. specialize (G j).
    destruct (J j) as ((J1 & J2 & J3) & (J4 & J5 & J6)). cbn beta in J1, J3, J4, J6.
    assert (M1 := Rmax_l (u j) (g j)). assert (M2 := Rmax_r (u j) (g j)).
    assert (M3 := Rmin_l (l j) (g j)). assert (M4 := Rmin_r (l j) (g j)).
    assert (IN : band_up s (with_mt cm (bup c)) ((w, f) :: r) n j (g j)) by (exists w, f; split; [left; reflexivity|exact G]).
    assert (TL : forall v, band_up s (with_mt cm (bup c)) r n j v -> band_up s (with_mt cm (bup c)) ((w, f) :: r) n j v)
      by (intros v (w' & f' & I & O); exists w', f'; split; [right; exact I|exact O]).
    assert (HD : forall v, band_up s (with_mt cm (bup c)) ((w, f) :: r) n j v -> v = g j \/ band_up s (with_mt cm (bup c)) r n j v).
    { intros v (w' & f' & [I|I] & O); [injection I as <- <-; left; exact (obs_fun _ _ _ _ _ _ O G)|right; exists w', f'; auto]. }
    split.
    + split; [lra|]. split; [intros v Hv; destruct (HD v Hv) as [-> |Hv']; [lra|apply J2; exact Hv']|].
      destruct J3 as [E3|E3]; [|right; apply TL; exact E3].
      destruct (Rle_lt_dec (u j) (g j)) as [Q|Q]; [rewrite Rmax_right in E3 by exact Q; right; rewrite E3; exact IN|].
      rewrite Rmax_left in E3 by lra. left; exact E3.
    + split; [lra|]. split; [intros v Hv; destruct (HD v Hv) as [-> |Hv']; [lra|apply J5; exact Hv']|].
      destruct J6 as [E3|E3]; [|right; apply TL; exact E3].
      destruct (Rle_lt_dec (l j) (g j)) as [Q|Q]; [rewrite Rmin_left in E3 by exact Q; left; exact E3|].
      rewrite Rmin_right in E3 by lra. right; rewrite E3; exact IN.
Qed.

Lemma store_ok cs f c c' : NoDup cs -> store_all duration cs f c = (Ok tt, c') ->
  now c' = now c /\ der c' = der c /\ bup c' = bup c /\ mtd c' = mtd c /\
  (forall n, In n cs -> results c' n = Some (sampled duration (f n))).
Proof.
  enough (K : forall c, store_all duration cs f c = (Ok tt, c') -> NoDup cs ->
    now c' = now c /\ der c' = der c /\ bup c' = bup c /\ mtd c' = mtd c /\
    (forall n, In n cs -> results c' n = Some (sampled duration (f n))) /\ (forall n, ~ In n cs -> results c' n = results c n)).
  { intros ND H. destruct (K c H ND) as (A & B & C & D & E & _). auto. }
  clear c. induction cs as [|n r IH]; intros c H ND; cbn [store_all] in H.
  - injection H as <-. repeat (split; [reflexivity|]). split; [intros n []|reflexivity].
  - step H. injection E as _ <-. inversion ND as [|? ? NI ND']; subst. destruct (IH _ H ND') as (A & B & C & D & E & F).
    cbn [now der bup mtd results set_results] in *. repeat (split; [assumption|]). split.
    + intros m [<- |Hm]; [rewrite F by exact NI; apply fput_same|apply E; exact Hm].
    + intros m Hm. rewrite F by (intros Q; apply Hm; right; exact Q). apply fput_other. intros ->. apply Hm. left. reflexivity.
Qed.

Lemma uncertainty_bands s q c c' n : (s = false -> chained = true) -> der c = derive (now c) ->
  NoDup (i_comps (now c)) -> In n (i_comps (now c)) ->
  model_uncertainty vw dw mass_mul duration sim used chained s q c = (Ok tt, c') ->
  exists cm base u l,
    (forall m, In m (i_comps (now c)) -> lookup m cm = lookup m (used ((if s then only m (now c) else now c), derive (now c)))) /\
    (s = true -> results c' n = Some base) /\ upper c' n = Some u /\ lower c' n = Some l /\
    forall j, obs s (now c) n j (base j) /\
      greatest (base j) (band_up s (with_mt cm (now c)) (requested q) n j) (u j) /\
      least (base j) (band_up s (with_mt cm (now c)) (requested q) n j) (l j).
Proof.
  intros CH CO ND Hn H. unfold model_uncertainty in H. step H. step H. step H. step H. step H. step H.
  injection E as _ <-. injection E0 as _ <-. injection E1 as <- <-. cbn [bup now set_results] in *.
  injection E3 as _ <-. rewrite tests_requested in E4. destruct x4.
  assert (BB : exists base, results c3 n = Some base /\ (forall j, obs s (now c) n j (base j)) /\ bup c3 = now c /\
    (forall m, In m (i_comps (now c)) -> lookup m x2 = lookup m (used ((if s then only m (now c) else now c), derive (now c))))).
  { destruct s.
    - destruct (base_single_ok _ _ _ _ _ ND E2) as (A1 & A2 & A3 & A4 & _). cbn [bup now der set_results] in *.
      destruct (A4 n Hn) as (k & d & f & L1 & L2 & S & RS & _).
      assert (ON : forall m k d, lookup m (i_kd (now c)) = Some k -> lookup m (i_data (now c)) = Some d -> only m (now c) = view m k d (now c)).
      { intros m k' d' Q1 Q2. unfold only. rewrite Q1, Q2. reflexivity. }
      exists (sampled duration (f n)). split; [exact RS|]. split.
      { intros j. exists f. split; [|reflexivity]. rewrite (ON _ _ _ L1 L2), <- CO. exact S. }
      split; [exact A1|]. intros m Hm. destruct (A4 m Hm) as (k' & d' & f' & L1' & L2' & _ & _ & LU).
      rewrite LU. unfold used_mt. rewrite CO, (ON _ _ _ L1' L2'). reflexivity.
    - step E2. step E2. match type of E0 with _ = (Ok ?y, _) => destruct y end. injection E2 as <- <-. unfold run_psdm in E. cbn [now der set_results] in E.
      destruct (sim (now c, der c)) as [f|] eqn:S; [|discriminate]. injection E as <- <-.
      destruct (store_ok _ _ _ _ ND E0) as (A1 & A2 & A3 & A4 & A5). cbn [now der bup mtd set_mtd set_results] in *.
      exists (sampled duration (f n)). split; [apply A5; exact Hn|]. split.
      { intros j. exists f. split; [rewrite <- CO; exact S|reflexivity]. }
      split; [exact A3|]. intros m Hm. rewrite A4, CO. reflexivity. }
  destruct BB as (base & RB & OB & EB & CM).
  assert (EX : existsb (String.eqb n) (i_comps (now c)) = true) by (apply existsb_exists; exists n; split; [exact Hn|apply String.eqb_refl]).
  match type of E4 with all_cases _ _ _ _ _ _ _ _ _ _ ?c1 = _ =>
    destruct (all_cases_ok s x2 (requested q) c1 c5 n base base CH) as (B & RR & u & l & U & L & J) end;
    try exact E4; cbn [bup set_bands upper lower]; try (rewrite EB; assumption); try (rewrite EX; exact RB).
  cbn [bup set_bands results] in *. rewrite EB in J.
  injection H as <-. exists x2, base, u, l. split; [exact CM|]. cbn [results upper lower set_der set_now].
  split; [intros Hs; rewrite (RR Hs); exact RB|]. split; [exact U|]. split; [exact L|].
  intros j. split; [apply OB|]. exact (J j).
Qed.

(** ** The surface-diffusion fit *)
Definition ds_view (i : inp) (n : string) (m : mtr) (v : R) : inp :=
  with_frames (i_kd i) (i_data i) (i_comps i) (i_num i) (update n {| m_kf := m_kf m; m_dp := m_dp m; m_ds := v |} (i_mt i)) i.
Lemma ds_all_ok n d brk base tests best c r c' m :
  lookup n (i_mt (now c)) = Some m ->
  ds_all sim used ssq n d brk base tests best c = (Ok r, c') ->
  let E := fun f x => exists g, sim (ds_view (now c) n m (f * base), der c) = Some g /\ x = ssq d brk (g n) in
  (forall f, In f tests -> exists x, E f x) /\
  ((r = snd best /\ forall f x, In f tests -> E f x -> fst best <= x) \/
   exists f x, In f tests /\ r = Some (base * f) /\ E f x /\ x < fst best /\ forall f' x', In f' tests -> E f' x' -> x <= x').
Proof.
  revert best c m; induction tests as [|f t IH]; intros best c m Hm H E; cbn [ds_all] in H.
  - injection H as <- <-. split; [intros f []|]. left. split; [reflexivity|]. intros f x [].
  - step H. step H. step H. step H. injection E0 as <- <-. apply need_ok in E1 as (Em & ->). rewrite Hm in Em. injection Em as <-.
    injection E2 as _ <-. unfold run_psdm in E3. cbn [now set_now der] in E3.
    match type of E3 with match sim ?v with _ => _ end = _ => set (V := v) in E3 end.
    assert (EV : V = (ds_view (now c) n m (f * base), der c)) by reflexivity. clearbody V. subst V.
    destruct (sim (ds_view (now c) n m (f * base), der c)) as [g|] eqn:S; [|discriminate]. injection E3 as <- <-.
    set (e := ssq d brk (g n)) in *.
    match type of H with ds_all _ _ _ _ _ _ _ _ ?b ?cc = _ =>
      destruct (IH b cc {| m_kf := m_kf m; m_dp := m_dp m; m_ds := f * base |}) as (I1 & I2); [|exact H|] end.
    { cbn [now set_mtd set_now with_frames i_mt]. rewrite lookup_update, String.eqb_refl. reflexivity. }
    cbn [now der set_mtd set_now] in I1, I2.
    assert (VW : forall f', ds_view (with_frames (i_kd (now c)) (i_data (now c)) (i_comps (now c)) (i_num (now c))
        (update n {| m_kf := m_kf m; m_dp := m_dp m; m_ds := f * base |} (i_mt (now c))) (now c)) n
        {| m_kf := m_kf m; m_dp := m_dp m; m_ds := f * base |} (f' * base) = ds_view (now c) n m (f' * base)).
    { intros f'. unfold ds_view. cbn [i_mt with_frames m_kf m_dp]. rewrite update_update. reflexivity. }
    assert (Ef : E f e) by (exists g; split; [exact S|reflexivity]).
    assert (Euniq : forall x, E f x -> x = e).
    { intros x (g' & S' & ->). rewrite S in S'. injection S' as <-. reflexivity. }
    assert (I1' : forall f0, In f0 t -> exists x, E f0 x).
    { intros f0 Hf. destruct (I1 f0 Hf) as (x & g' & S' & Ex). rewrite VW in S'. exists x, g'. auto. }
    assert (TR : forall f0 x, E f0 x -> exists g0, sim (ds_view (with_frames (i_kd (now c)) (i_data (now c)) (i_comps (now c)) (i_num (now c))
        (update n {| m_kf := m_kf m; m_dp := m_dp m; m_ds := f * base |} (i_mt (now c))) (now c)) n
        {| m_kf := m_kf m; m_dp := m_dp m; m_ds := f * base |} (f0 * base), der c) = Some g0 /\ x = ssq d brk (g0 n)).
    { intros f0 x (g0 & S' & Ex). exists g0. rewrite VW. auto. }
    split. { intros f0 [<- |Hf]; [exists e; exact Ef|apply I1'; exact Hf]. }
    destruct (rltb e (fst best)) eqn:B.
    + apply P_GacFun.rltb_true in B. right. cbn [fst snd] in I2. destruct I2 as [(-> & I2)|(f0 & x & J1 & J2 & (g0 & J3 & J3') & J4 & J5)].
      * exists f, e. split; [left; reflexivity|]. split; [reflexivity|]. split; [exact Ef|]. split; [exact B|].
        intros f' x' [<- |Hf] Ex; [rewrite (Euniq _ Ex); lra|]. apply (I2 f' x' Hf). apply TR. exact Ex.
      * exists f0, x. split; [right; exact J1|]. split; [exact J2|]. split; [exists g0; rewrite VW in J3; auto|].
        split; [lra|]. intros f' x' [<- |Hf] Ex; [rewrite (Euniq _ Ex); lra|]. apply (J5 f' x' Hf). apply TR. exact Ex.
    + apply P_GacFun.rltb_false in B. destruct I2 as [(-> & I2)|(f0 & x & J1 & J2 & (g0 & J3 & J3') & J4 & J5)].
      * left. split; [reflexivity|]. intros f' x' [<- |Hf] Ex; [rewrite (Euniq _ Ex); lra|]. apply (I2 f' x' Hf). apply TR. exact Ex.
      * right. exists f0, x. split; [right; exact J1|]. split; [exact J2|]. split; [exists g0; rewrite VW in J3; auto|].
        split; [exact J4|]. intros f' x' [<- |Hf] Ex; [rewrite (Euniq _ Ex); lra|]. apply (J5 f' x' Hf). apply TR. exact Ex.
Qed.

Lemma single_view_ok n c d c' : single_view n c = (Ok d, c') ->
  lookup n (i_data (bup c)) = Some d /\ now c' = with_frames (i_kd (now c)) [(n, d)] [n] 1 (i_mt (now c)) (now c) /\ der c' = der c.
Proof.
  unfold single_view. intros H. step H. step H. step H. step H. injection E as <- <-. injection E0 as _ <-.
  apply pick_ok in E1 as (-> & y & L & ->). injection E2 as _ <-. apply need_ok in H as (E & ->). cbn in E. rewrite String.eqb_refl in E.
  injection E as <-. split; [exact L|]. split; reflexivity.
Qed.

Lemma dsfit_best n tests c v c' :
  run_psdm_dsfit vw dw mass_mul sim used ssq difl powr n tests c = (Ok v, c') ->
  exists d r vol mw, lookup n (i_data (bup c)) = Some d /\ lookup n (i_kd (now c)) = Some r /\ kVol r = Some vol /\ kMW r = Some mw /\
  let base := ds_base_of mass_mul difl powr (now c) d vol mw (kN r) in
  let i := with_frames (i_kd (now c)) [(n, d)] [n] 1 (i_mt (now c)) (now c) in
  exists m, lookup n (i_mt (now c)) = Some m /\
  let E := fun f x => exists g, sim (ds_view i n m (f * base), der c) = Some g /\ x = ssq d (kBrk r) (g n) in
  exists f x, In f tests /\ v = base * f /\ E f x /\ x < 10 ^ 20 /\ forall f', In f' tests -> exists x', E f' x' /\ x <= x'.
Proof.
  unfold run_psdm_dsfit. intros H. step H. step H. step H. step H. step H. step H. step H. step H.
  destruct (single_view_ok _ _ _ _ E) as (L & EN & ED).
  injection E0 as <- <-. apply need_ok in E1 as (E1 & ->). apply need_ok in E2 as (E2 & ->). apply need_ok in E3 as (E3 & ->).
  injection E4 as <- <-. apply need_ok in H as (EB & _). rewrite EN in E1. cbn [i_kd with_frames] in E1.
  exists x, x1, x2, x3. repeat (split; [assumption|]). cbv zeta.
  destruct tests as [|f0 t0].
  { cbn in E5. injection E5 as <- <-. discriminate. }
  assert (HM : exists m, lookup n (i_mt (now c0)) = Some m).
  { cbn [ds_all] in E5. step E5. step E5. injection E0 as <- <-. apply need_ok in E4 as (Q & _). eexists. exact Q. }
  destruct HM as (m & HM).
  destruct (ds_all_ok _ _ _ _ _ _ _ _ _ _ HM E5) as (A1 & A2). rewrite ED, EN in A1, A2. rewrite EN in HM. cbn [i_mt with_frames] in HM.
  replace (ds_base_of mass_mul difl powr (with_frames (i_kd (now c)) [(n, x)] [n] 1 (i_mt (now c)) (now c)) x x2 x3 (kN x1))
    with (ds_base_of mass_mul difl powr (now c) x x2 x3 (kN x1)) in * by reflexivity.
  exists m. split; [exact HM|]. cbn [fst snd] in A2. rewrite EB in A2. destruct A2 as [(A2 & _)|(f & y & B1 & B2 & B3 & B4 & B5)]; [discriminate|].
  exists f, y. split; [exact B1|]. split; [injection B2; auto|]. split; [exact B3|]. split; [exact B4|].
  intros f' Hf. destruct (A1 f' Hf) as (x' & Ex). exists x'. split; [exact Ex|]. exact (B5 f' x' Hf Ex).
Qed.
End P.
