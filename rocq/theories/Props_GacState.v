(** Properties C42, C43 and C76: what runs do to a column object, and its uncertainty
    bands. *)
From Coq Require Import Reals List Arith Bool String Lra Lia.
From Verif Require Import Lib_Py P_GacFun M_GacColumn M_GacState S_GacState P_GacState.
Import ListNotations.
Open Scope R_scope.

(** ** Vocabulary *)
Section Col.
Variables vw dw mass_mul duration : R.
Variable sim : seen -> option (string -> R -> R).
Variable used : seen -> frame mtr.
Variable ssq : dcol -> R -> (R -> R) -> R.
Variable difl : R -> R.
Variable powr : R -> R -> R.
Variable chained : bool.

(** A history of calls on one column object. *)
Inductive call :=
| Run                                          (* run_psdm *)
| Fit (n : string) (ts : list (option (R * R)))     (* run_psdm_kfit *)
| FitDs (n : string) (ts : list R)             (* run_psdm_dsfit *)
| Uncertainty (single : bool) (q : request).   (* model_uncertainty *)
Definition exec (k : call) : method unit :=
  match k with
  | Run => andthen (run_psdm sim used) (fun _ => ret tt)
  | Fit n ts => andthen (run_psdm_kfit vw dw sim used ssq n ts) (fun _ => ret tt)
  | FitDs n ts => andthen (run_psdm_dsfit vw dw mass_mul sim used ssq difl powr n ts) (fun _ => ret tt)
  | Uncertainty s q => model_uncertainty vw dw mass_mul duration sim used chained s q
  end.
Fixpoint exec_all (ks : list call) : method unit :=
  match ks with [] => ret tt | k :: r => andthen (exec k) (fun _ => exec_all r) end.

(** A column as constructed: backups taken, derived values up to date. *)
Definition fresh (c : gcol) : Prop := bup c = now c /\ der c = derive vw dw (now c).

(** ** C33: the values derived anew after every change of the column *)
Theorem C33_recomputed : forall i, 0 < i_diam i -> 0 < i_L i -> 0 < i_flrt i -> 0 < i_rhop i -> 0 < vw ->
  let d := derive vw dw i in
  d_bedvol d = PI * (i_diam i / 2) ^ 2 * i_L i /\
  i_wt i / i_rhop i + d_ebed d * d_bedvol d = d_bedvol d /\
  d_vs d * d_area d * 60 = i_flrt i /\ d_area d * i_L i = d_bedvol d /\
  d_ebct d * i_flrt i = d_bedvol d /\ d_tau d = 60 * d_ebct d * d_ebed d /\
  Rabs (d_sf d * (3785411784 / 1000000) / (254 / 100 * 12) ^ 2 * d_area d / i_flrt i - 1) <= 1 / 10 ^ 9 /\
  (d_ebed d <> 0 -> d_re d * vw = dw * (2 * i_rad i) * (d_vs d / d_ebed d)).
Proof.
  intros i Hd HL Hf Hp Hv d. assert (HPI := PI_RGT_0). unfold d, derive. cbn [d_area d_bedvol d_ebed d_tau d_sf d_vs d_re d_ebct].
  assert (Ha : 0 < PI * i_diam i ^ 2 / 4) by (apply Rmult_lt_0_compat; [|lra]; apply Rmult_lt_0_compat; [exact HPI|apply pow_lt, Hd]).
  set (a := PI * i_diam i ^ 2 / 4) in *. assert (Hb : 0 < a * i_L i) by (apply Rmult_lt_0_compat; assumption).
  split; [unfold a; field|]. split; [field; lra|]. split; [field; lra|]. split; [reflexivity|]. split; [field; lra|]. split; [field; lra|]. split.
  - replace (dec 245423867471 12 * i_flrt i / a * (3785411784 / 1000000) / (254 / 100 * 12) ^ 2 * a / i_flrt i)
      with (dec 245423867471 12 * (3785411784 / 1000000) / (254 / 100 * 12) ^ 2) by (field; lra).
    unfold dec. cbn [pow]. apply Rabs_le. lra.
  - intros He. set (e := 1 - i_wt i / (a * i_L i * i_rhop i)) in *. field. repeat split; lra.
Qed.

(** ** C42: runs leave the inputs as they were *)

(** Any history of successful calls on a column nobody has modified since construction,
    of any length: same geometry, flow, influent, isotherm table, mass transfer, compounds
    and derived values. *)
Theorem C42_histories_partial : forall ks c c',
  fresh c -> exec_all ks c = (Ok tt, c') -> now c' = now c /\ der c' = der c /\ fresh c'.
Proof.
  induction ks as [|k r IH]; intros c c' F H; cbn [exec_all] in H; [injection H as <-; auto|].
  apply then_ok in H as (x & c1 & E & H).
  assert (S : now c1 = now c /\ der c1 = der c /\ fresh c1).
  { destruct F as (F1 & F2). destruct k as [|n ts|n ts|s q]; cbn [exec] in E.
    - apply then_ok in E as (f & c2 & E1 & E2). injection E2 as <- <-. unfold run_psdm in E1.
      destruct (sim _) in E1; [|discriminate]. injection E1 as <- <-. repeat split; assumption.
    - apply then_ok in E as (f & c2 & E1 & E2). injection E2 as <- <-.
      destruct (kfit_ok _ _ _ _ _ _ _ _ _ _ E1) as (A & B & D). unfold fresh. rewrite A, B, D, F1, F2. auto.
    - apply then_ok in E as (f & c2 & E1 & E2). injection E2 as <- <-.
      destruct (dsfit_ok _ _ _ _ _ _ _ _ _ _ _ _ _ E1) as (A & B & D). unfold fresh. rewrite A, B, D, F1, F2. auto.
    - destruct (uncertainty_ok _ _ _ _ _ _ _ _ _ _ _ _ E) as (A & B & D). unfold fresh. rewrite A, B, D, F2. auto. }
  destruct S as (S1 & S2 & S3). destruct (IH c1 c' S3 H) as (T1 & T2 & T3). rewrite T1, T2, S1, S2. auto.
Qed.

(** An uncertainty run restores every input of any column, modified or not. *)
Theorem C42_uncertainty : forall single q c c',
  model_uncertainty vw dw mass_mul duration sim used chained single q c = (Ok tt, c') ->
  now c' = now c /\ der c' = derive vw dw (now c).
Proof.
  intros s q c c' H. destruct (uncertainty_ok _ _ _ _ _ _ _ _ _ _ _ _ H) as (A & _ & D). auto.
Qed.

(** A plain run touches no input, also when it fails. *)
Theorem C42_run : forall c, let c' := snd (run_psdm sim used c) in
  now c' = now c /\ bup c' = bup c /\ der c' = der c.
Proof. intros c. unfold run_psdm. destruct (sim _); cbn; auto. Qed.

(** A fit sets the inputs to what they were at construction (or the last uncertainty
    run), whatever they were when it was called. *)
Theorem C42_fit_restores_backup : forall n ts c l c',
  run_psdm_kfit vw dw sim used ssq n ts c = (Ok l, c') -> now c' = bup c.
Proof. intros n ts c l c' H. exact (proj1 (kfit_ok _ _ _ _ _ _ _ _ _ _ H)). Qed.

(** ** C76: the surface-diffusion fit *)

(** A fit that returns gives, of the factors tried, one whose run has the least error,
    times the correlation value. *)
Theorem C76_best_factor_partial : forall n tests c v c',
  run_psdm_dsfit vw dw mass_mul sim used ssq difl powr n tests c = (Ok v, c') ->
  exists d r vol mw m,
    lookup n (i_data (bup c)) = Some d /\ lookup n (i_kd (now c)) = Some r /\
    kVol r = Some vol /\ kMW r = Some mw /\ lookup n (i_mt (now c)) = Some m /\
    let cb0 := d_inf d 0 * mass_mul / mw in
    let base := i_epor (now c) * difl vol * cb0 * i_psdfr (now c) / (1000 * i_rhop (now c) * powr cb0 (kN r)) in
    let inputs := fun ds => with_frames (i_kd (now c)) [(n, d)] [n] 1
                    (update n {| m_kf := m_kf m; m_dp := m_dp m; m_ds := ds |} (i_mt (now c))) (now c) in
    let error := fun f e => exists g, sim (inputs (f * base), der c) = Some g /\ e = ssq d (kBrk r) (g n) in
    exists f e, In f tests /\ v = base * f /\ error f e /\ e < 10 ^ 20 /\
      forall f', In f' tests -> exists e', error f' e' /\ e <= e'.
Proof.
  intros n tests c v c' H. destruct (dsfit_best _ _ _ _ _ _ _ _ _ _ _ _ _ H) as (d & r & vol & mw & L1 & L2 & L3 & L4 & m & L5 & f & e & Q).
  exists d, r, vol, mw, m. repeat (split; [assumption|]). cbv zeta. exists f, e.
  unfold ds_base_of in Q. replace (10 ^ 3) with 1000 in Q by lra. exact Q.
Qed.

(** With an isotherm table worked out by the program, which has no MolarVol row, the fit
    always fails, and leaves the column reduced to one compound. *)
Theorem C76_computed_table_refuted : forall n tests c d r,
  lookup n (i_data (bup c)) = Some d -> lookup n (i_kd (now c)) = Some r -> kVol r = None ->
  let w := run_psdm_dsfit vw dw mass_mul sim used ssq difl powr n tests c in
  fst w = Err KeyError /\ i_comps (now (snd w)) = [n].
Proof.
  intros n tests c d r H1 H2 H3. unfold run_psdm_dsfit, single_view, andthen, get, pick, need, modify, ret, raise, andthen. rewrite H1.
  cbn [fst snd lookup]. rewrite String.eqb_refl. cbn [now set_now with_frames i_kd]. rewrite H2, H3. split; reflexivity.
Qed.

(** ** C43: uncertainty bands *)

(** What is seen of compound [n] in result row [j] (of 2000 spread over the duration)
    when a column with inputs [i] is run: alone or in competition. *)
Definition observed (single : bool) (i : inp) (n : string) (j : nat) (v : R) : Prop :=
  exists f, sim ((if single then only n i else i), derive vw dw i) = Some f /\ v = f n (INR j * (duration / 1999)).
(** A value of one of the requested cases.  Every case uses the mass-transfer values
    recorded in the base runs. *)
Definition requested_value (single : bool) (i : inp) (cm : frame mtr) (q : request) (n : string) (j : nat) (v : R) : Prop :=
  exists w f, In (w, f) (requested q) /\ observed single (case_inputs (with_mt cm i) w f) n j v.
Definition recorded (single : bool) (i : inp) (cm : frame mtr) : Prop :=
  forall m, In m (i_comps i) -> lookup m cm = lookup m (used ((if single then only m i else i), derive vw dw i)).

(** Compound by compound (the default): the stored results are the base case, and the
    bands are the extremes of base case and all requested cases, each with the quantity
    it names scaled and no other. *)
Theorem C43_bands_partial : forall q c c' n,
  fresh c -> NoDup (i_comps (now c)) -> In n (i_comps (now c)) ->
  model_uncertainty vw dw mass_mul duration sim used chained true q c = (Ok tt, c') ->
  exists cm base up lo, recorded true (now c) cm /\
    results c' n = Some base /\ upper c' n = Some up /\ lower c' n = Some lo /\
    forall j, observed true (now c) n j (base j) /\
      greatest (base j) (requested_value true (now c) cm q n j) (up j) /\
      least (base j) (requested_value true (now c) cm q n j) (lo j).
Proof.
  intros q c c' n (_ & F) ND Hn H.
  destruct (uncertainty_bands _ _ _ _ _ _ _ _ _ _ _ _ (fun e : true = false => match Bool.diff_true_false e with end) F ND Hn H)
    as (cm & base & u & l & A & B & C & D & E).
  exists cm, base, u, l. split; [exact A|]. split; [apply B; reflexivity|]. split; [exact C|]. split; [exact D|]. exact E.
Qed.

(** In competition the bands are right where pandas lets chained assignments through. *)
Theorem C43_competitive_bands_partial : forall q c c' n,
  chained = true -> fresh c -> NoDup (i_comps (now c)) -> In n (i_comps (now c)) ->
  model_uncertainty vw dw mass_mul duration sim used chained false q c = (Ok tt, c') ->
  exists cm base up lo, recorded false (now c) cm /\
    upper c' n = Some up /\ lower c' n = Some lo /\
    forall j, observed false (now c) n j (base j) /\
      greatest (base j) (requested_value false (now c) cm q n j) (up j) /\
      least (base j) (requested_value false (now c) cm q n j) (lo j).
Proof.
  intros q c c' n CH (_ & F) ND Hn H.
  destruct (uncertainty_bands _ _ _ _ _ _ _ _ _ _ _ _ (fun _ => CH) F ND Hn H) as (cm & base & u & l & A & _ & C & D & E).
  exists cm, base, u, l. split; [exact A|]. split; [exact C|]. split; [exact D|]. exact E.
Qed.

(** A request on the loading behind 1/n does nothing of its own: whatever percentage is
    asked for, the outcome is the same. *)
Lemma case_single_kd : forall n r data kl x x',
  x' = set_now (with_frames (i_kd (now x')) (i_data (now x)) (i_comps (now x)) (i_num (now x)) (i_mt (now x)) (now x)) x ->
  fst (case_single duration sim used (n :: r) data kl x) = Ok tt ->
  case_single duration sim used (n :: r) data kl x' = case_single duration sim used (n :: r) data kl x.
Proof.
  intros n r data kl x x' -> H. cbn [case_single] in *. unfold pick, need, ret, raise, modify, andthen in *.
  destruct (lookup n data); [|discriminate H]. destruct (lookup n kl); [|discriminate H]. reflexivity.
Qed.
Lemma one_case_qn : forall s cm v v' c, i_comps (bup c) <> [] ->
  fst (one_case vw dw mass_mul duration sim used chained s cm [(Kqn, v)] c) = Ok tt ->
  one_case vw dw mass_mul duration sim used chained s cm [(Kqn, v')] c =
  one_case vw dw mass_mul duration sim used chained s cm [(Kqn, v)] c.
Proof.
  intros s cm v v' c NE H. unfold one_case, andthen, get, modify, reset_values, modify in *. cbn [fold_left apply_key] in *.
  destruct s; [|reflexivity].
  change (i_comps (bup (set_der ?a (set_now ?b ?x)))) with (i_comps (bup x)) in *.
  cbn [bup set_now set_der] in *.
  destruct (i_comps (bup c)) as [|n r]; [contradiction|].
  apply case_single_kd; [reflexivity|exact H].
Qed.
Lemma one_case_bup : forall s cm t c c', one_case vw dw mass_mul duration sim used chained s cm t c = (Ok tt, c') -> bup c' = bup c.
Proof.
  intros s cm t c c' H. pose proof (keeps_one vw dw mass_mul duration sim used chained s cm t c) as K. rewrite H in K. exact K.
Qed.
Lemma all_cases_qn : forall s cm ts ts', Forall2 (fun t t' => t = t' \/ exists v v', t = [(Kqn, v)] /\ t' = [(Kqn, v')]) ts ts' ->
  forall c c', i_comps (bup c) <> [] ->
  all_cases vw dw mass_mul duration sim used chained s cm ts c = (Ok tt, c') ->
  all_cases vw dw mass_mul duration sim used chained s cm ts' c = (Ok tt, c').
Proof.
  intros s cm ts ts' F. induction F as [|t t' r r' E F IH]; intros c c' NE H; [exact H|].
  cbn [all_cases] in *. apply then_ok in H as ([] & c1 & E1 & H). unfold andthen.
  replace (one_case vw dw mass_mul duration sim used chained s cm t' c) with (@Ok unit tt, c1).
  2:{ destruct E as [<- |(v & v' & -> & ->)]; [symmetry; exact E1|]. rewrite one_case_qn with (v := v); [symmetry; exact E1|exact NE|]. rewrite E1. reflexivity. }
  apply IH; [|exact H]. rewrite (one_case_bup _ _ _ _ _ E1). exact NE.
Qed.
Theorem C43_loading_refuted : forall s q p p' c c',
  i_comps (now c) <> [] ->
  let ask := fun v => {| r_capacity := r_capacity q; r_k := r_k q; r_qn := Some v; r_mass := r_mass q; r_ds := r_ds q;
                         r_dp := r_dp q; r_kf := r_kf q; r_flrt := r_flrt q; r_c0 := r_c0 q |} in
  model_uncertainty vw dw mass_mul duration sim used chained s (ask p) c = (Ok tt, c') ->
  model_uncertainty vw dw mass_mul duration sim used chained s (ask p') c = (Ok tt, c').
Proof.
  intros s q p p' c c' NE ask H. unfold model_uncertainty in *.
  apply then_ok in H as (u1 & c1 & E1 & H). apply then_ok in H as (u2 & c2 & E2 & H). apply then_ok in H as (b & c3 & E3 & H).
  apply then_ok in H as (cm & c4 & E4 & H). apply then_ok in H as (u5 & c5 & E5 & H). apply then_ok in H as ([] & c6 & E6 & H).
  unfold andthen at 1. rewrite E1. unfold andthen at 1. rewrite E2. unfold andthen at 1. rewrite E3. unfold andthen at 1. rewrite E4.
  unfold andthen at 1. rewrite E5. unfold andthen at 1.
  assert (N5 : i_comps (bup c5) <> []).
  { injection E1 as _ <-. injection E2 as _ <-. injection E3 as <- <-.
    injection E5 as _ <-. cbn [bup set_bands set_results] in *.
    match type of E4 with ?f ?x = _ => assert (K : keeps f) end.
    { destruct s; [exact (keeps_base vw dw duration sim used _ _)|]. apply keeps_then; [apply keeps_run|]. intros f. apply keeps_then; [exact (keeps_store vw dw duration _ _)|intros; apply keeps_get]. }
    match type of E4 with ?f ?x = _ => specialize (K x) end. rewrite E4 in K. cbn [snd] in K. rewrite K. exact NE. }
  rewrite (all_cases_qn s cm (tests_of (ask p)) (tests_of (ask p'))) with (c' := c6); [exact H| |exact N5|exact E6].
  unfold tests_of. cbn [r_capacity r_k r_qn r_mass r_ds r_dp r_kf r_flrt r_c0 ask].
  assert (Z : forall l, Forall2 (fun t t' : list (key * R) => t = t' \/ exists v v', t = [(Kqn, v)] /\ t' = [(Kqn, v')]) l l)
    by (induction l; constructor; auto).
  apply Forall2_app; [apply Z|]. apply Forall2_app; [apply Z|]. apply Forall2_app; [|apply Z].
  cbn [two]. constructor; [right; eauto|]. constructor; [right; eauto|]. constructor.
Qed.

(** Where chained assignments do not get through (pandas copy-on-write), the bands of a
    competitive run stay at the base case. *)
Theorem C43_competitive_bands_refuted : forall q c c' n,
  chained = false -> NoDup (i_comps (now c)) -> In n (i_comps (now c)) ->
  model_uncertainty vw dw mass_mul duration sim used chained false q c = (Ok tt, c') ->
  exists f, sim (now c, der c) = Some f /\
    upper c' n = Some (fun j => f n (INR j * (duration / 1999))) /\
    lower c' n = Some (fun j => f n (INR j * (duration / 1999))).
Proof.
  intros q c c' n CH ND Hn H. unfold model_uncertainty in H.
  apply then_ok in H as (u1 & c1 & E1 & H). injection E1 as _ <-.
  apply then_ok in H as (u2 & c2 & E2 & H). injection E2 as _ <-.
  apply then_ok in H as (b & c3 & E3 & H). injection E3 as <- <-. cbn [bup set_results] in H.
  apply then_ok in H as (cm & c4 & E4 & H). apply then_ok in H as (u5 & c5 & E5 & H). apply then_ok in H as ([] & c6 & E6 & H).
  apply then_ok in E4 as (f & d1 & F1 & E4). unfold run_psdm in F1. cbn [now set_results der] in F1.
  destruct (sim (now c, der c)) as [f'|] eqn:S; [|discriminate F1]. injection F1 as <- <-.
  apply then_ok in E4 as ([] & d2 & F2 & F3). injection F3 as _ <-.
  destruct (store_ok _ _ _ _ _ ND F2) as (_ & _ & _ & _ & R).
  exists f'. split; [reflexivity|].
  injection E5 as _ <-. injection H as <-. cbn [upper lower set_der set_now].
  assert (G : forall ts x y, all_cases vw dw mass_mul duration sim used chained false cm ts x = (Ok tt, y) -> upper y = upper x /\ lower y = lower x).
  { clear -CH. induction ts as [|t r IH]; intros x y H; cbn [all_cases] in H; [injection H as <-; auto|].
    apply then_ok in H as ([] & z & E & H). destruct (IH _ _ H) as (-> & ->). clear IH H.
    unfold one_case in E. unfold andthen at 1, reset_values, modify in E. unfold andthen at 1 in E. unfold andthen at 1, get in E.
    cbn [now set_now] in E. destruct (fold_left _ _ _) as [i' kl]. unfold andthen in E. unfold run_psdm in E.
    destruct (sim _); [|discriminate E].
    assert (G : forall cs s a b', case_multi duration chained cs s a = (Ok tt, b') -> upper b' = upper a /\ lower b' = lower a).
    { clear -CH. induction cs as [|k r IH]; intros s a b' H; cbn [case_multi] in H; [injection H as <-; auto|].
      unfold andthen, modify in H. rewrite CH in H. rewrite CH in IH. destruct (IH _ _ _ H) as (-> & ->). split; reflexivity. }
    destruct (G _ _ _ _ E) as (-> & ->). split; reflexivity. }
  destruct (G _ _ _ E6) as (-> & ->). cbn [upper lower set_bands].
  assert (B : existsb (String.eqb n) (i_comps (now c)) = true) by (apply existsb_exists; exists n; split; [exact Hn|apply String.eqb_refl]).
  rewrite B. 
  split; apply R; exact Hn.
Qed.
End Col.

(** ** Concrete columns *)
Definition row0 : krow := {| kK := 2; kN := 1 / 2; kQ := 1; kBrk := 10; kAve := 1; kVol := None; kMW := None |}.
Definition mt0 : mtr := {| m_kf := 0; m_dp := 0; m_ds := 0 |}.
Definition dat0 : dcol := {| d_inf := fun _ => 5; d_eff := fun _ => 1 |}.
Definition inp0 : inp :=
  {| i_L := 1; i_diam := 1; i_wt := 1; i_flrt := 1; i_rhop := 1; i_rhof := 10; i_rad := 1; i_tortu := 1;
     i_psdfr := 1; i_epor := 1;
     i_kd := [("A", row0); ("B", row0)]; i_data := [("A", dat0); ("B", dat0)]; i_comps := ["A"; "B"]; i_num := 2;
     i_mt := [("A", mt0); ("B", mt0)] |}%string.
Definition built (i : inp) : gcol :=
  {| now := i; bup := i; der := derive 1 1 i; mtd := []; results := fun _ => None; upper := fun _ => None; lower := fun _ => None |}.
Definition used0 : seen -> frame mtr := fun s => map (fun c => (c, {| m_kf := 1; m_dp := 1; m_ds := 1 |})) (i_comps (fst s)).
Definition ssq0 : dcol -> R -> (R -> R) -> R := fun _ _ f => f 0.
Definition nothing : request := {| r_capacity := None; r_k := None; r_qn := None; r_mass := None; r_ds := None;
  r_dp := None; r_kf := None; r_flrt := None; r_c0 := None |}.
Definition ask_flow (p : R) : request := {| r_capacity := None; r_k := None; r_qn := None; r_mass := None; r_ds := None;
  r_dp := None; r_kf := None; r_flrt := Some p; r_c0 := None |}.
(** A simulator whose answer is the flow rate. *)
Definition by_flow : seen -> option (string -> R -> R) := fun s => Some (fun _ _ => i_flrt (fst s)).

(** The columns of the theorems above exist, and a history with all four calls succeeds. *)
Example C42_example : fresh 1 1 (built inp0) /\
  fst (exec_all 1 1 1 100 by_flow used0 ssq0 (fun _ => 1) (fun _ _ => 1) true
        [Run; Fit "A" [None; Some (3, 1)]; Uncertainty true (ask_flow 10); Uncertainty false nothing; Run] (built inp0)) = Ok tt.
Proof. split; [split; reflexivity|reflexivity]. Qed.
Definition row1 : krow := {| kK := 2; kN := 1 / 2; kQ := 1; kBrk := 10; kAve := 1; kVol := Some 100; kMW := Some 200 |}.
Definition inp1 : inp := with_frames [("A", row1)]%string [("A", dat0)]%string ["A"]%string 1 [("A", mt0)]%string inp0.
Example C76_example : exists v,
  fst (run_psdm_dsfit 1 1 1 by_flow used0 ssq0 (fun _ => 1) (fun _ _ => 1) "A"%string [1; 2] (built inp1)) = Ok v.
Proof.
  unfold run_psdm_dsfit. cbn -[pow]. unfold ssq0. rewrite (proj2 (rltb_true 1 (10 ^ 20))) by lra.
  cbn. rewrite (proj2 (rltb_false 1 1)) by lra. cbn. eexists. reflexivity.
Qed.
Lemma outcome : forall A (w : res A * gcol) x, fst w = Ok x -> w = (Ok x, snd w).
Proof. intros A [a b] x H. cbn in *. rewrite H. reflexivity. Qed.
Example C43_example : exists c',
  model_uncertainty 1 1 1 100 by_flow used0 true true (ask_flow 10) (built inp0) = (Ok tt, c') /\
  NoDup (i_comps (now (built inp0))) /\ In "B"%string (i_comps (now (built inp0))).
Proof.
  exists (snd (model_uncertainty 1 1 1 100 by_flow used0 true true (ask_flow 10) (built inp0))).
  split; [apply outcome; reflexivity|]. cbn. split; [|auto].
  constructor; [intros [H|[]]; discriminate|]. constructor; [intros []|constructor].
Qed.

(** ** Refutations *)

(** The user changes the flow and then fits: the flow is back at its construction value. *)
Theorem C42_fit_after_change_refuted : exists c l c',
  i_flrt (now c) = 2 /\ run_psdm_kfit 1 1 by_flow used0 ssq0 "A" [None] c = (Ok l, c') /\ i_flrt (now c') = 1.
Proof.
  set (c := set_now (with_geo 1 1 2 inp0) (built inp0)).
  exists c, [2], (snd (run_psdm_kfit 1 1 by_flow used0 ssq0 "A" [None] c)).
  split; [reflexivity|]. split; [apply outcome|]; reflexivity.
Qed.
(** A run that fails inside a fit leaves the column reduced to the fitted compound. *)
Theorem C42_failed_fit_refuted : forall sim, (forall s, sim s = None) ->
  let w := run_psdm_kfit 1 1 sim used0 ssq0 "A" [None] (built inp0) in
  fst w = Err ValueError /\ i_comps (now (snd w)) = ["A"]%string.
Proof.
  intros sim S. unfold run_psdm_kfit, try_all, run_psdm, andthen. cbn. rewrite S. cbn. split; reflexivity.
Qed.
(** A run that fails inside an uncertainty analysis leaves the perturbed flow behind. *)
Theorem C42_failed_uncertainty_refuted : exists sim,
  let w := model_uncertainty 1 1 1 100 sim used0 true true (ask_flow 10) (built inp0) in
  i_flrt (now (built inp0)) = 1 /\ fst w = Err ValueError /\ i_flrt (now (snd w)) = 11 / 10.
Proof.
  exists (fun s => if rltb 1 (i_flrt (fst s)) then None else Some (fun _ _ => 0)). cbv zeta.
  unfold model_uncertainty, one_case, all_cases, case_single, base_single, run_psdm, andthen. cbn.
  rewrite (proj2 (rltb_false 1 1)) by lra. cbn. rewrite (proj2 (rltb_false 1 1)) by lra. cbn.
  unfold andthen, run_psdm. cbn. rewrite (proj2 (rltb_true 1 (1 * (1 + 10 / 100)))) by lra. cbn.
  split; [reflexivity|]. split; [reflexivity|lra].
Qed.
(** A competitive analysis stores the last case, not the base case, as the results. *)
Theorem C43_competitive_results_refuted : exists c' f,
  model_uncertainty 1 1 1 100 by_flow used0 true false (ask_flow 10) (built inp0) = (Ok tt, c') /\
  results c' "A"%string = Some f /\ f 5%nat = 9 / 10 /\
  (forall i d, i_flrt i = 1 -> by_flow (i, d) = Some (fun _ _ => 1)).
Proof.
  exists (snd (model_uncertainty 1 1 1 100 by_flow used0 true false (ask_flow 10) (built inp0))), (fun _ => 1 * (1 - 10 / 100)).
  split; [apply outcome; reflexivity|]. split; [reflexivity|]. split; [lra|].
  intros i d H. unfold by_flow. cbn [fst]. rewrite H. reflexivity.
Qed.

(** ** Pinned mass-transfer values
    Every case uses the values recorded in the base run.  In organic-free water that
    changes nothing; in fouled water the surface diffusivity shrinks once more by a
    factor of 10^10, so the cases differ from the base case by more than they name. *)
Definition pinned (g : gac_in) : gac_in :=
  {| x_n := x_n g; x_epor := x_epor g; x_rhop := x_rhop g; x_ebed := x_ebed g; x_tau := x_tau g; x_rad := x_rad g;
     x_tortu := x_tortu g; x_psdfr := x_psdfr g; x_vw := x_vw g; x_dw := x_dw g; x_re := x_re g;
     x_mass_mul := x_mass_mul g; x_organic_free := x_organic_free g; x_K := x_K g; x_xn := x_xn g; x_mw := x_mw g;
     x_molvol := x_molvol g; x_kf := kf_v g; x_dp := dp_v g; x_ds := ds_v g; x_inf0 := x_inf0 g |}.
Theorem C43_pinning_neutral_partial : forall g i,
  0 < kf_v g i -> 0 < dp_v g i -> 0 < ds_v g i ->
  kf_v (pinned g) i = kf_v g i /\ dp_v (pinned g) i = dp_v g i /\
  (x_organic_free g = true -> ds_v (pinned g) i = ds_v g i).
Proof.
  intros g i H1 H2 H3. unfold kf_v at 1, dp_v at 1, ds_v at 1. cbn [x_kf x_dp x_ds pinned x_organic_free].
  rewrite (proj2 (rltb_true 0 (kf_v g i)) H1), (proj2 (rltb_true 0 (dp_v g i)) H2), (proj2 (rltb_true 0 (ds_v g i)) H3).
  split; [reflexivity|]. split; [reflexivity|]. intros ->. reflexivity.
Qed.
Theorem C43_fouled_refuted : forall g i, x_organic_free g = false -> 0 < ds_v g i ->
  ds_v (pinned g) i = ds_v g i / 10 ^ 10 /\ ds_v (pinned g) i <> ds_v g i.
Proof.
  intros g i F H.
  assert (E : ds_v (pinned g) i = ds_v g i / 10 ^ 10).
  { unfold ds_v at 1. cbn [x_ds pinned x_organic_free]. rewrite (proj2 (rltb_true 0 (ds_v g i)) H), F. reflexivity. }
  split; [exact E|]. rewrite E. intros Q.
  assert (ds_v g i / 10 ^ 10 * 10 ^ 10 = ds_v g i) by (field; lra). lra.
Qed.

Print Assumptions C33_recomputed.
Print Assumptions C42_histories_partial.
Print Assumptions C42_uncertainty.
Print Assumptions C42_run.
Print Assumptions C42_fit_restores_backup.
Print Assumptions C42_fit_after_change_refuted.
Print Assumptions C42_failed_fit_refuted.
Print Assumptions C42_failed_uncertainty_refuted.
Print Assumptions C43_bands_partial.
Print Assumptions C43_competitive_bands_partial.
Print Assumptions C43_competitive_bands_refuted.
Print Assumptions C43_competitive_results_refuted.
Print Assumptions C43_loading_refuted.
Print Assumptions C43_pinning_neutral_partial.
Print Assumptions C43_fouled_refuted.
Print Assumptions C76_best_factor_partial.
Print Assumptions C76_computed_table_refuted.
