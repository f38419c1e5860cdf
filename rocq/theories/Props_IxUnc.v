(** Properties C27-C29, C65: ion-exchange uncertainty estimates. *)
From Coq Require Import List String Reals Bool Arith ZArith Lra Lia Permutation FunctionalExtensionality.
From Verif Require Import Lib_Py M_Params M_IxData M_IxColumn M_IxUnc S_IxUnc P_IxData P_IxUnc.
Import ListNotations.
Open Scope string_scope.
Local Notation length := List.length.

Lemma last_rev {A} (l : list A) a t d : rev l = a :: t -> last l d = a.
Proof.
  intros H. apply (f_equal (@rev A)) in H. rewrite rev_involutive in H. cbn in H. subst.
  apply last_last.
Qed.

(** ** C27 — bands *)

Theorem C27_bands_are_extremes : forall integrate psdm l inputs est l',
  reports integrate -> length (ion_rows (l_ions l)) = length (l_names l) ->
  (12 <= duration_hours (c_times (l_Cin l)) (l_time_mult l))%R ->
  model_uncertainty integrate psdm l inputs = Ok (est, l') -> tests inputs <> [] ->
  exists tv cases up lo,
    (* one simulation per requested case *)
    Forall2 (fun t df => exists lt, perturb (fst t) (snd t) l = Ok lt /\
                                    simulate integrate psdm lt tv = Ok df) (tests inputs) cases /\
    e_bands est = Some (up, lo) /\
    forall i t, (i < length (l_names l))%nat -> (t < length tv)%nat ->
      largest (entry i t up) (entry i t (e_base est) :: map (entry i t) cases) /\
      smallest (entry i t lo) (entry i t (e_base est) :: map (entry i t) cases).
Proof.
  intros integrate psdm l inputs est l' HR Hlen Hdur H Hne. unfold model_uncertainty in H.
  binv H lt E. destruct lt as (l1 & tv). binv H base Eb. binv H ul Eu. destruct ul as (up & lo).
  apply Ok_inj in H. inversion H. subst est l'. clear H. cbn [e_bands e_base].
  assert (Hl1 : l_names l1 = l_names l /\ l_ions l1 = l_ions l /\ In 12%R tv).
  { unfold to_hours in E. binv E d Ed. destruct (rev (c_times (l_Cin l))) as [|t0 tr] eqn:Er; [discriminate|].
    apply Ok_inj in Ed. subst t0. unfold duration_hours in Hdur. rewrite (last_rev _ _ _ _ Er) in Hdur.
    unfold reqb in E. destruct (Req_EM_T (l_time_mult l) 3600); apply Ok_inj in E; inversion E; subst;
      (split; [reflexivity|]); (split; [reflexivity|]); apply arange12_in; exists 1%nat;
      split; try (cbn; ring); lra. }
  destruct Hl1 as (N1 & I1 & T1).
  assert (Hnz : exists t, In t tv /\ t <> 0%R) by (exists 12%R; split; [exact T1|lra]).
  assert (Hb : shape (length (l_names l)) (length tv) base).
  { rewrite <- N1. apply (simulate_shape integrate psdm l1 tv base HR Hnz); [|exact Eb].
    rewrite N1, I1, Hlen. reflexivity. }
  destruct (bands_extremes integrate psdm l tv _ _ _ _ _ _ _ Eu Hb Hb) as (cases & HF & HX).
  { intros t df _ Hc. unfold case in Hc. binv Hc lt El. destruct (perturb_keeps _ _ _ _ El) as (N2 & L2).
    rewrite <- N2. apply (simulate_shape integrate psdm lt tv df HR Hnz); [|exact Hc]. rewrite N2. lia. }
  exists tv, cases, up, lo. split; [|split; [|exact HX]].
  - clear -HF. induction HF as [|t df ts dfs Hc HF IH]; constructor; [|exact IH].
    unfold case in Hc. binv Hc lt El. eauto.
  - destruct (tests inputs); [congruence|reflexivity].
Qed.

Theorem C27_order_irrelevant : forall integrate psdm l inputs1 inputs2 r,
  Permutation (tests inputs1) (tests inputs2) ->
  model_uncertainty integrate psdm l inputs1 = Ok r -> model_uncertainty integrate psdm l inputs2 = Ok r.
Proof.
  intros integrate psdm l i1 i2 r HP H. unfold model_uncertainty in *.
  binv H lt E. destruct lt as (l1 & tv). rewrite E. cbn [bind]. binv H base Eb. rewrite Eb. cbn [bind].
  binv H ul Eu. rewrite (bands_perm _ _ _ _ _ _ HP _ _ _ Eu). cbn [bind].
  rewrite <- H. do 3 f_equal. destruct (tests i1) eqn:E1, (tests i2) eqn:E2; try reflexivity.
  - apply Permutation_nil in HP. discriminate.
  - apply Permutation_sym, Permutation_nil in HP. discriminate.
Qed.

(** The base case is the user's column, unperturbed. *)
Theorem C27_base_is_unperturbed : forall integrate psdm l inputs est l',
  l_time_mult l = 3600%R -> model_uncertainty integrate psdm l inputs = Ok (est, l') ->
  exists tv, simulate integrate psdm l tv = Ok (e_base est).
Proof.
  intros integrate psdm l inputs est l' Ht H. unfold model_uncertainty in H.
  binv H lt E. destruct lt as (l1 & tv). binv H base Eb. binv H ul Eu.
  apply Ok_inj in H. inversion H. subst. cbn [e_base]. exists tv.
  unfold to_hours in E. binv E d Ed. rewrite Ht in E. unfold reqb in E.
  destruct (Req_EM_T 3600 3600); [|congruence]. apply Ok_inj in E. inversion E. subst. exact Eb.
Qed.

(** ** C28 — requested perturbations *)

Theorem C28_both_directions : forall inputs k f,
  In (k, f) (tests inputs) <->
  exists p, In (k, Some p) inputs /\ (f = 1 + p / 100 \/ f = 1 - p / 100)%R.
Proof.
  intros inputs k f. unfold tests. rewrite in_flat_map. split.
  - intros ((k' & [p|]) & Hin & H); cbn in H; [|contradiction].
    destruct H as [H|[H|[]]]; inversion H; subst; exists p; auto.
  - intros (p & Hin & H). exists (k, Some p). split; [exact Hin|]. cbn.
    destruct H as [->| ->]; auto.
Qed.

(** In each case the rest of the simulation is unchanged. *)
Theorem C28_capacity_partial : forall psdm l tv r x, prepare psdm l tv = Ok r ->
  mem_key "Qf" (l_params l) = true ->
  exists l' r', perturb "capacity" x l = Ok l' /\ prepare psdm l' tv = Ok r' /\
    r_col r' = with_capacity (Qcap (r_col r) * x) (r_col r) /\ same_schedule r r'.
Proof.
  intros psdm l tv r x H HQ. unfold perturb. cbn [String.eqb Ascii.eqb Bool.eqb].
  unfold mem_key in HQ. destruct (lookup "Qf" (l_params l)) as [(v & u)|] eqn:EQ; [|discriminate].
  assert (HV : value_of "Qf" (l_params l) = Ok v) by (unfold value_of; rewrite EQ; reflexivity).
  destruct (perturb_one psdm l tv r "Qf" v x) as (l1 & r1 & E1 & P1 & C1 & S1);
    [unfold tame; tauto|exact H|exact HV|].
  rewrite E1. cbn [bind]. destruct (read_inv _ _ _ (prepare_col _ _ _ _ P1)) as (_ & _ & _ & V1).
  destruct (perturb_one psdm l1 tv r1 "Q" (Qcap (r_col r1)) x) as (l2 & r2 & E2 & P2 & C2 & S2);
    [unfold tame; tauto|exact P1|exact V1|].
  exists l2, r2. split; [exact E2|]. split; [exact P2|]. rewrite C2, C1.
  split; [reflexivity|]. destruct S1 as (A1 & A2 & A3), S2 as (B1 & B2 & B3).
  repeat split; congruence.
Qed.
Theorem C28_bed_porosity_partial : forall psdm l tv r x, prepare psdm l tv = Ok r ->
  exists l' r', perturb "ebed" x l = Ok l' /\ prepare psdm l' tv = Ok r' /\
    r_col r' = with_EBED (EBED (r_col r) * x) (r_col r) /\ same_schedule r r'.
Proof.
  intros psdm l tv r x H. destruct (read_inv _ _ _ (prepare_col _ _ _ _ H)) as (V & _).
  apply (perturb_one psdm l tv r "EBED"); [unfold tame; tauto|exact H|exact V].
Qed.
Theorem C28_flow_partial : forall psdm l tv r x, prepare psdm l tv = Ok r ->
  exists l' r', perturb "flrt" x l = Ok l' /\ prepare psdm l' tv = Ok r' /\
    r_col r' = with_velocity (vel (r_col r) * x) (r_col r) /\ same_schedule r r'.
Proof.
  intros psdm l tv r x H. destruct (read_inv _ _ _ (prepare_col _ _ _ _ H)) as (_ & _ & V & _).
  apply (perturb_one psdm l tv r "v"); [unfold tame; tauto|exact H|exact V].
Qed.
Theorem C28_bed_length_partial : forall psdm l tv r x, prepare psdm l tv = Ok r ->
  exists l' r', perturb "L" x l = Ok l' /\ prepare psdm l' tv = Ok r' /\
    r_col r' = with_length (Lbed (r_col r) * x) (r_col r) /\ same_schedule r r'.
Proof.
  intros psdm l tv r x H. destruct (read_inv _ _ _ (prepare_col _ _ _ _ H)) as (_ & V & _).
  apply (perturb_one psdm l tv r "L"); [unfold tame; tauto|exact H|exact V].
Qed.
Theorem C28_influent_partial : forall psdm l tv r x, prepare psdm l tv = Ok r ->
  exists l' r', perturb "c0" x l = Ok l' /\ prepare psdm l' tv = Ok r' /\
    r_col r' = r_col r /\ r_secs r' = r_secs r /\ r_report r' = r_report r /\
    r_cin r' = map (map (fun y => (y * x)%R)) (r_cin r).
Proof.
  intros psdm l tv r x H. exists (scale_Cin x l). unfold prepare in *.
  binv H cin E1. binv H c E2. binv H lst E3. destruct (_ && _)%bool eqn:Eg; [discriminate|].
  apply Ok_inj in H. cbn [scale_Cin l_Cin l_names l_time_mult c_cols c_times].
  assert (EM : mapM (fun n => of_option KeyError (lookup n (map (fun kc : string * list R =>
                 (fst kc, map (fun y => (y * x)%R) (snd kc))) (c_cols (l_Cin l))))) (l_names l)
               = Ok (map (map (fun y => (y * x)%R)) cin)).
  { clear -E1. revert cin E1. induction (l_names l) as [|n ns IH]; intros cin E1; cbn in *.
    - apply Ok_inj in E1. subst. reflexivity.
    - binv E1 y Ey. binv E1 ys Eys. apply Ok_inj in E1. subst.
      assert (EL : lookup n (map (fun kc : string * list R => (fst kc, map (fun y => (y * x)%R) (snd kc)))
                     (c_cols (l_Cin l))) = option_map (map (fun y => (y * x)%R)) (lookup n (c_cols (l_Cin l)))).
      { generalize (c_cols (l_Cin l)). induction c as [|(k & v) d IHd]; cbn; [reflexivity|].
        destruct (String.eqb n k); [reflexivity|exact IHd]. }
      rewrite EL. destruct (lookup n (c_cols (l_Cin l))); cbn in *; [|discriminate].
      apply Ok_inj in Ey. subst. rewrite (IH _ Eys). reflexivity. }
  rewrite EM. cbn [bind]. assert (E2' : read_column psdm (scale_Cin x l) = Ok c) by exact E2.
  rewrite E2'. cbn [bind]. rewrite E3. cbn [bind]. rewrite Eg.
  eexists. split; [reflexivity|]. split; [reflexivity|]. subst r. cbn. auto.
Qed.
(** Every selectivity but chloride's is scaled; chloride stays the reference at 1. *)
Theorem C28_selectivity_partial : forall psdm l tv r x, prepare psdm l tv = Ok r ->
  let rows := ion_rows (l_ions l) in
  NoDup (keys rows) -> In "CHLORIDE" (keys rows) ->
  exists l' r', perturb "Kxc" x l = Ok l' /\ prepare psdm l' tv = Ok r' /\ same_schedule r r' /\
    keys (ion_rows (l_ions l')) = keys rows /\
    exists K, r_col r' = with_selectivity K (r_col r) /\
    forall i name, nth_error (keys rows) i = Some name ->
      K i = if String.eqb name "CHLORIDE" then 1%R else (Kxc (r_col r) i * x)%R.
Proof.
  intros psdm l tv r x H rows HN HI. exists (with_ions (scale_Kxc x) l).
  assert (HR : forall f i, (forall y v, f (set_Kxc y v) = f v) ->
    row_fun (scale_Kxc x rows) f i = row_fun rows f i).
  { intros f i Hf. unfold row_fun. rewrite scale_Kxc_nth by assumption.
    destruct (nth_error rows i) as [(k & v)|]; cbn; [apply Hf|reflexivity]. }
  assert (HC := prepare_col _ _ _ _ H).
  destruct (read_rows psdm l (r_col r) (scale_Kxc x) HC) as (c' & Ec & F);
    try (intros i; apply HR; reflexivity).
  destruct F as (F1 & F2 & F3 & F4 & F5 & F6 & F7 & F8 & F9 & F10 & F11 & F12 & F13 & F14).
  unfold prepare in *. binv H cin E1. binv H c E2. binv H lst E3.
  destruct (_ && _)%bool eqn:Eg; [discriminate|]. apply Ok_inj in H.
  cbn [with_ions l_Cin l_names l_time_mult]. rewrite E1. cbn [bind].
  change {| l_params := l_params l;
            l_ions := {| has_kL := has_kL (l_ions l); has_Ds := has_Ds (l_ions l);
                         has_Dp := has_Dp (l_ions l); ion_rows := scale_Kxc x (ion_rows (l_ions l)) |};
            l_valences := l_valences l; l_names := l_names l; l_time_mult := l_time_mult l;
            l_Cin := l_Cin l; l_units := l_units l |} with (with_ions (scale_Kxc x) l).
  rewrite Ec. cbn [bind]. rewrite E3. cbn [bind]. rewrite Eg. eexists. split; [reflexivity|].
  split; [reflexivity|]. split; [subst r; repeat split|]. split.
  { apply scale_Kxc_keys. exact HI. }
  exists (row_fun (scale_Kxc x rows) i_Kxc). split.
  - cbn [r_col]. subst r. cbn [r_col] in *. unfold with_selectivity.
    assert (X : c' = {| NION := NION c'; nr := nr c'; nz := nz c'; EBED := EBED c'; EPOR := EPOR c';
      Lbed := Lbed c'; vel := vel c'; rb := rb c'; Qcap := Qcap c'; kL := kL c'; Ds := Ds c'; Dp := Dp c';
      Kxc := Kxc c'; val := val c' |}) by (destruct c'; reflexivity).
    rewrite X, F1, F2, F3, F4, F5, F6, F7, F8, F9, F10.
    apply functional_extensionality in F11, F12, F13, F14. rewrite F11, F12, F13, F14. reflexivity.
  - intros i name Hn. unfold row_fun. rewrite scale_Kxc_nth by assumption.
    unfold keys in Hn. rewrite nth_error_map in Hn.
    destruct (nth_error rows i) as [(k & v)|] eqn:Ei; [|discriminate]. cbn in Hn.
    apply (f_equal (fun o => match o with Some s => s | None => "" end)) in Hn. cbn in Hn. subst name.
    cbn [option_map fst snd i_Kxc set_Kxc]. rewrite String.eqb_sym.
    destruct (String.eqb k "CHLORIDE"); [reflexivity|].
    assert (EK : Kxc (r_col r) i = i_Kxc v).
    { clear -HC Ei. unfold read_column in HC.
      binv HC a1 E1. binv HC a2 E2. binv HC a3 E3. binv HC a4 E4. binv HC a5 E5. binv HC a6 E6.
      binv HC a7 E7. binv HC a8 E8. binv HC a9 E9. binv HC a10 E10. binv HC a11 E11.
      destruct (negb _); [discriminate|]. apply Ok_inj in HC. rewrite <- HC. cbn.
      unfold row_fun. fold rows. rewrite Ei. reflexivity. }
    rewrite EK. reflexivity.
Qed.

(** Fails: kL, Ds and Dp change nothing, since the solver takes them from the ion
    table and not from the parameters that are scaled. *)
Theorem C28_transport_has_no_effect_refuted : forall psdm l tv r x key,
  In (key, match key with "ds" => "Ds" | "dp" => "Dp" | _ => "kL" end) [("ds", "Ds"); ("dp", "Dp"); ("kL", "kL")] ->
  mem_key (match key with "ds" => "Ds" | "dp" => "Dp" | _ => "kL" end) (l_params l) = true ->
  prepare psdm l tv = Ok r ->
  exists l', perturb key x l = Ok l' /\ prepare psdm l' tv = Ok r.
Proof.
  intros psdm l tv r x key Hin Hm H.
  assert (G : forall k, tame k -> set_field k = set_field "Ds" -> mem_key k (l_params l) = true ->
    exists l', scale_param k x l = Ok l' /\ prepare psdm l' tv = Ok r).
  { intros k Hk Hs Hmk. unfold mem_key in Hmk.
    destruct (lookup k (l_params l)) as [(v & u)|] eqn:E; [|discriminate].
    destruct (perturb_one psdm l tv r k v x Hk H) as (l' & r' & P & Q & C & (S1 & S2 & S3)).
    { unfold value_of. rewrite E. reflexivity. }
    exists l'. split; [exact P|]. rewrite Q. f_equal. rewrite Hs in C. cbn in C.
    destruct r, r'. cbn in *. congruence. }
  destruct Hin as [E|[E|[E|[]]]]; inversion E; subst key; cbn in Hm;
    apply G; try exact Hm; try reflexivity; unfold tame; tauto.
Qed.
(** What the arguments of an estimate ask for. *)
Theorem C28_requests : forall cap kxc ds kl dp flrt c0 len ebed epor k x,
  (In (k, x) (tests (inputs_hsdm cap kxc ds kl flrt c0 len ebed)) <-> exists p, (x = 1 + p / 100 \/ x = 1 - p / 100)%R /\
     In (k, Some p) [("capacity", cap); ("Kxc", kxc); ("ds", ds); ("kL", kl); ("flrt", flrt); ("c0", c0); ("L", len); ("ebed", ebed)]) /\
  (In (k, x) (tests (inputs_psdm cap kxc ds kl dp flrt c0 len ebed epor)) <-> exists p, (x = 1 + p / 100 \/ x = 1 - p / 100)%R /\
     In (k, Some p) [("capacity", cap); ("Kxc", kxc); ("ds", ds); ("kL", kl); ("dp", dp); ("flrt", flrt); ("c0", c0); ("L", len); ("ebed", ebed); ("epor", epor)]).
Proof.
  intros. split; rewrite C28_both_directions; split; intros (p & A & B); exists p; split; assumption.
Qed.
(** Fails: a transport coefficient that only the ion table has. *)
Theorem C28_transport_missing_refuted : forall integrate psdm l inputs key p,
  In (key, match key with "ds" => "Ds" | "dp" => "Dp" | _ => "kL" end) [("ds", "Ds"); ("dp", "Dp"); ("kL", "kL")] ->
  mem_key (match key with "ds" => "Ds" | "dp" => "Dp" | _ => "kL" end) (l_params l) = false ->
  In (key, Some p) inputs -> exists e, model_uncertainty integrate psdm l inputs = Err e.
Proof.
  intros integrate psdm l inputs key p Hin Hm Hp.
  destruct (model_uncertainty integrate psdm l inputs) as [(est & l')|e] eqn:E; [exfalso|exists e; reflexivity].
  assert (P : exists e, perturb key (1 + p / 100)%R l = Err e).
  { assert (G : forall k x, mem_key k (l_params l) = false -> scale_param k x l = Err KeyError).
    { intros k x H. unfold scale_param. unfold mem_key in H. destruct (lookup k (l_params l)); [discriminate|reflexivity]. }
    destruct Hin as [H|[H|[H|[]]]]; inversion H; subst key; cbn in Hm; exists KeyError; unfold perturb; cbn [String.eqb Ascii.eqb Bool.eqb]; apply G, Hm. }
  destruct P as (e & P).
  assert (T : In (key, (1 + p / 100)%R) (tests inputs)) by (apply C28_both_directions; exists p; split; [exact Hp|left; reflexivity]).
  unfold model_uncertainty in E. destruct (to_hours l) as [(l1 & tv)|]; [|discriminate]. cbn [bind] in E.
  destruct (simulate _ _ l1 tv) as [base|]; [|discriminate]. cbn [bind] in E.
  assert (B : forall ts up lo, In (key, (1 + p / 100)%R) ts -> exists e, bands integrate psdm l tv ts up lo = Err e).
  { induction ts as [|t ts IH]; intros up lo HT; [destruct HT|]. cbn [bands]. unfold case. destruct HT as [->|HT].
    - cbn [fst snd]. rewrite P. exists e. reflexivity.
    - destruct (perturb (fst t) (snd t) l) as [l2|e2]; cbn [bind]; [|exists e2; reflexivity].
      destruct (simulate integrate psdm l2 tv) as [df|e2]; cbn [bind]; [|exists e2; reflexivity]. apply IH, HT. }
  destruct (B (tests inputs) base base T) as (e' & B'). rewrite B' in E. discriminate.
Qed.
(** Fails: bead porosity perturbs the bed porosity and leaves the bead porosity alone. *)
Theorem C28_bead_porosity_refuted : forall psdm l tv r x, prepare psdm l tv = Ok r ->
  exists l' r', perturb "epor" x l = Ok l' /\ prepare psdm l' tv = Ok r' /\
    EPOR (r_col r') = EPOR (r_col r) /\ EBED (r_col r') = (EBED (r_col r) * x)%R.
Proof.
  intros psdm l tv r x H.
  destruct (C28_bed_porosity_partial psdm l tv r x H) as (l' & r' & P & Q & C & _).
  exists l', r'. split; [exact P|]. split; [exact Q|]. rewrite C. split; reflexivity.
Qed.
(** Fails: capacity given per resin mass (no filter capacity in the sheet) cannot be perturbed,
    although it is perturbed by default. *)
Theorem C28_capacity_by_mass_refuted : forall l x, mem_key "Qf" (l_params l) = false ->
  perturb "capacity" x l = Err KeyError.
Proof.
  intros l x H. unfold perturb. cbn [String.eqb Ascii.eqb Bool.eqb]. rewrite scale_param_none; [reflexivity|].
  unfold mem_key in H. destruct (lookup "Qf" (l_params l)); [discriminate|reflexivity].
Qed.
(** Fails: selectivities cannot be perturbed unless one ion is called CHLORIDE. *)
Theorem C28_other_presaturant_refuted : forall integrate psdm l tv x, reports integrate ->
  length (ion_rows (l_ions l)) = length (l_names l) ->
  ~ In "CHLORIDE" (keys (ion_rows (l_ions l))) ->
  exists e, case integrate psdm l tv ("Kxc", x) = Err e.
Proof.
  intros integrate psdm l tv x HR Hlen HI.
  destruct (case integrate psdm l tv ("Kxc", x)) as [df|e] eqn:E; [exfalso|eauto].
  unfold case in E. binv E l' El. cbn in El. apply Ok_inj in El. subst l'.
  unfold simulate in E. binv E r Er.
  destruct (HR r) as (R1 & _). assert (EN := read_NION _ _ _ (prepare_col _ _ _ _ Er)).
  destruct (convert_shape _ _ _ _ E R1) as (_ & C2 & _).
  cbn [with_ions l_ions ion_rows l_names] in *. unfold scale_Kxc in C2.
  set (rows' := map _ (ion_rows (l_ions l))) in *.
  assert (HK : keys rows' = keys (ion_rows (l_ions l))) by apply keys_scaled.
  destruct (lookup "CHLORIDE" rows') eqn:EL.
  - apply HI. rewrite <- HK. eapply lookup_in, EL.
  - assert (EL' : length rows' = length (ion_rows (l_ions l))) by apply map_length.
    rewrite app_length in C2. cbn [length] in C2. lia.
Qed.

(** ** C29 — the caller's object *)

Theorem C29_hours_unchanged_partial : forall integrate psdm l inputs est l',
  l_time_mult l = 3600%R -> model_uncertainty integrate psdm l inputs = Ok (est, l') -> l' = l.
Proof.
  intros integrate psdm l inputs est l' Ht H. unfold model_uncertainty in H.
  binv H lt E. destruct lt as (l1 & tv). binv H base Eb. binv H ul Eu. apply Ok_inj in H. inversion H. subst.
  unfold to_hours in E. binv E d Ed. rewrite Ht in E. unfold reqb in E.
  destruct (Req_EM_T 3600 3600); [|congruence]. apply Ok_inj in E. inversion E. reflexivity.
Qed.
(** In days the table is rewritten in hours; it describes the same influent. *)
Theorem C29_days_same_influent_partial : forall integrate psdm l inputs est l',
  l_time_mult l = 86400%R -> model_uncertainty integrate psdm l inputs = Ok (est, l') ->
  map (fun t => (t * l_time_mult l')%R) (c_times (l_Cin l'))
    = map (fun t => (t * l_time_mult l)%R) (c_times (l_Cin l)) /\
  c_cols (l_Cin l') = c_cols (l_Cin l) /\ l_ions l' = l_ions l /\ l_names l' = l_names l /\
  l_valences l' = l_valences l /\ lookup "time" (l_params l') = Some (l_time_mult l', None) /\
  forall k, k <> "time" -> lookup k (l_params l') = lookup k (l_params l).
Proof.
  intros integrate psdm l inputs est l' Ht H. unfold model_uncertainty in H.
  binv H lt E. destruct lt as (l1 & tv). binv H base Eb. binv H ul Eu. apply Ok_inj in H. inversion H. subst.
  unfold to_hours in E. binv E d Ed. unfold reqb in E. rewrite Ht in E.
  destruct (Req_EM_T 86400 3600); [lra|]. apply Ok_inj in E. inversion E. subst. cbn.
  repeat split.
  - rewrite map_map. apply map_ext. intros t. rewrite Ht. ring.
  - apply lookup_update_eq.
  - intros k Hk. apply lookup_update_neq. exact Hk.
Qed.
(** Fails: any other unit is taken to be days and the influent is stretched. *)
Theorem C29_minutes_refuted : forall integrate psdm l inputs est l',
  l_time_mult l = 60%R -> (exists t, In t (c_times (l_Cin l)) /\ t <> 0%R) ->
  model_uncertainty integrate psdm l inputs = Ok (est, l') ->
  map (fun t => (t * l_time_mult l')%R) (c_times (l_Cin l'))
    <> map (fun t => (t * l_time_mult l)%R) (c_times (l_Cin l)).
Proof.
  intros integrate psdm l inputs est l' Ht (t & Hin & Hne) H. unfold model_uncertainty in H.
  binv H lt E. destruct lt as (l1 & tv). binv H base Eb. binv H ul Eu. apply Ok_inj in H. inversion H. subst.
  unfold to_hours in E. binv E d Ed. unfold reqb in E. rewrite Ht in E.
  destruct (Req_EM_T 60 3600); [lra|]. apply Ok_inj in E. inversion E. subst. cbn. rewrite Ht, map_map.
  clear -Hin Hne. induction (c_times (l_Cin l)) as [|s ts IH]; [contradiction|]. cbn. intros X. inversion X.
  destruct Hin as [->|Hin]; [lra|]. apply IH; assumption.
Qed.

(** ** C65 — time unit of the influent *)

(** In hours, for whole hours, every reporting time lies inside the run. *)
Theorem C65_hours_reported_inside_partial : forall l l1 tv (d : nat),
  l_time_mult l = 3600%R -> last (c_times (l_Cin l)) 0%R = INR d ->
  to_hours l = Ok (l1, tv) ->
  l1 = l /\ forall t, In t tv <-> exists k : nat, t = (12 * INR k)%R /\ (t <= INR d)%R.
Proof.
  intros l l1 tv d Ht Hl E. unfold to_hours in E. binv E du Ed.
  destruct (rev (c_times (l_Cin l))) as [|t0 tr] eqn:Er; [discriminate|]. apply Ok_inj in Ed. subst t0.
  rewrite (last_rev _ _ _ _ Er) in Hl. subst du.
  unfold reqb in E. destruct (Req_EM_T (l_time_mult l) 3600); [|congruence].
  apply Ok_inj in E. inversion E. subst. split; [reflexivity|]. intros t. rewrite arange12_in.
  split; intros (k & -> & Hk); exists k; (split; [reflexivity|]); [|lra].
  replace 12%R with (INR 12) in * by (cbn; ring). rewrite <- mult_INR in *.
  rewrite <- S_INR in Hk. apply INR_lt in Hk. apply le_INR. lia.
Qed.

(** Fails: with the influent in days every request makes the estimate fail, because
    the perturbed cases are given reporting times in hours but a table in days. *)
Theorem C65_days_refuted : forall integrate psdm l inputs,
  l_time_mult l <> 3600%R -> (1 / 2 <= last (c_times (l_Cin l)) 0)%R -> tests inputs <> [] ->
  exists e, model_uncertainty integrate psdm l inputs = Err e.
Proof.
  intros integrate psdm l inputs Ht Hd Hne.
  destruct (model_uncertainty integrate psdm l inputs) as [(est & l')|e] eqn:H; [exfalso|eauto].
  unfold model_uncertainty in H. binv H lt E. destruct lt as (l1 & tv). binv H base Eb. binv H ul Eu. clear H.
  unfold to_hours in E. binv E d Ed.
  destruct (rev (c_times (l_Cin l))) as [|t0 tr] eqn:Er; [discriminate|]. apply Ok_inj in Ed. subst t0.
  rewrite (last_rev _ _ _ _ Er) in Hd.
  unfold reqb in E. destruct (Req_EM_T (l_time_mult l) 3600); [congruence|].
  apply Ok_inj in E. inversion E. subst l1 tv. clear E.
  assert (HX : exists t, In t (arange12 (d * 24 + 1)) /\ (d < t)%R).
  { set (k := Z.to_nat (up (d / 12))). destruct (archimed (d / 12)) as (A1 & A2).
    assert (U : (0 <= up (d / 12))%Z).
    { apply le_IZR. lra. }
    assert (EK : INR k = IZR (up (d / 12))) by (unfold k; rewrite INR_IZR_INZ, Z2Nat.id; [reflexivity|exact U]).
    exists (12 * INR k)%R. split; [|lra]. apply arange12_in. exists k. split; [reflexivity|].
    destruct (Rlt_dec d 12) as [Hs|Hs]; [|lra].
    assert (K1 : (k <= 1)%nat).
    { assert (HK : (INR k < INR 2)%R) by (cbn; lra). apply INR_lt in HK. lia. }
    apply le_INR in K1. cbn in K1. lra. }
  destruct HX as (t & Hin & Hgt).
  assert (HF : forall lt, c_times (l_Cin lt) = c_times (l_Cin l) ->
    exists e, prepare psdm lt (arange12 (d * 24 + 1)) = Err e).
  { intros lt Hc. unfold prepare. rewrite Hc, Er.
    destruct (mapM _ _); cbn [bind]; [|eauto]. destruct (read_column psdm lt); cbn [bind]; [|eauto].
    assert (E1 : existsb (fun t => negb (reqb t 0)) (arange12 (d * 24 + 1)) = true).
    { apply existsb_exists. exists t. split; [exact Hin|]. unfold reqb. destruct (Req_EM_T t 0); [lra|reflexivity]. }
    assert (E2 : existsb (fun t => rltb d t || rltb t 0) (arange12 (d * 24 + 1)) = true).
    { apply existsb_exists. exists t. split; [exact Hin|]. unfold rltb.
      destruct (Rlt_dec d t); [reflexivity|contradiction]. }
    rewrite E1, E2. cbn. eauto. }
  assert (HP : forall key x lt, perturb key x l = Ok lt -> c_times (l_Cin lt) = c_times (l_Cin l)).
  { clear. intros key x lt. unfold perturb.
    assert (S0 : forall k m m', scale_param k x m = Ok m' -> l_Cin m' = l_Cin m).
    { intros k m m'. unfold scale_param. destruct (lookup k (l_params m)) as [(v & u)|]; [|discriminate].
      intros H. apply Ok_inj in H. subst. reflexivity. }
    destruct (String.eqb key "capacity").
    { intros H. binv H m E. rewrite (S0 _ _ _ H), (S0 _ _ _ E). reflexivity. }
    repeat (destruct (String.eqb key _); [solve [intros H; rewrite (S0 _ _ _ H); reflexivity
      | intros H; apply Ok_inj in H; subst; reflexivity]|]).
    intros H. apply Ok_inj in H. subst. reflexivity. }
  destruct (tests inputs) as [|(key & x) ts]; [congruence|]. cbn [bands] in Eu. binv Eu df Ec.
  unfold case in Ec. cbn [fst snd] in Ec. binv Ec lt El. unfold simulate in Ec. binv Ec r Epr.
  destruct (HF lt (HP _ _ _ El)) as (e & X). congruence.
Qed.
(** Fails: a run in hours that ends less than an hour before a multiple of 12 h is rejected. *)
Theorem C65_fractional_hours_refuted : forall integrate psdm l inputs (k : nat),
  l_time_mult l = 3600%R -> (1 <= k)%nat ->
  (12 * INR k - 1 < last (c_times (l_Cin l)) 0 < 12 * INR k)%R ->
  exists e, model_uncertainty integrate psdm l inputs = Err e.
Proof.
  intros integrate psdm l inputs k Ht Hk1 Hd.
  destruct (model_uncertainty integrate psdm l inputs) as [(est & l')|e] eqn:H; [exfalso|eauto].
  unfold model_uncertainty in H. binv H lt E. destruct lt as (l1 & tv). binv H base Eb. clear H.
  unfold to_hours in E. binv E d Ed.
  destruct (rev (c_times (l_Cin l))) as [|t0 tr] eqn:Er; [discriminate|]. apply Ok_inj in Ed. subst t0.
  rewrite (last_rev _ _ _ _ Er) in Hd.
  unfold reqb in E. destruct (Req_EM_T (l_time_mult l) 3600); [|congruence].
  apply Ok_inj in E. inversion E. subst l1 tv. clear E.
  unfold simulate in Eb. binv Eb r Epr. unfold prepare in Epr. binv Epr cin E1. binv Epr c E2.
  rewrite Er in Epr. cbn [bind] in Epr.
  assert (Hin : In (12 * INR k)%R (arange12 (d + 1))).
  { apply arange12_in. exists k. split; [reflexivity|lra]. }
  apply le_INR in Hk1. cbn in Hk1.
  assert (X1 : existsb (fun t => negb (reqb t 0)) (arange12 (d + 1)) = true).
  { apply existsb_exists. exists (12 * INR k)%R. split; [exact Hin|]. unfold reqb.
    destruct (Req_EM_T (12 * INR k) 0); [lra|reflexivity]. }
  assert (X2 : existsb (fun t => rltb d t || rltb t 0) (arange12 (d + 1)) = true).
  { apply existsb_exists. exists (12 * INR k)%R. split; [exact Hin|]. unfold rltb.
    destruct (Rlt_dec d (12 * INR k)); [reflexivity|lra]. }
  rewrite X1, X2 in Epr. discriminate.
Qed.

(** ** A concrete estimate: two ions, influent in hours over one day, capacity and
    influent requested; the integrator returns the first influent value scaled by
    the velocity at every reporting time. *)

Definition ex_ion (u : string) (K : R) : ion :=
  {| i_mw := 50%R; i_val := 1; i_units := u; i_Kxc := K; i_kL := 1%R; i_Ds := 1%R; i_Dp := 1%R |}.
Definition ex_loaded (time_mult t_end : R) : loaded :=
  {| l_params := [("EBED", (dec 4 1, None)); ("EPOR", (dec 2 1, None)); ("L", (50%R, None)); ("v", (2%R, None));
                  ("nz", (5%R, None)); ("nr", (4%R, None)); ("Ds", (1%R, None)); ("Dp", (1%R, None));
                  ("kL", (1%R, None)); ("rb", (1%R, None)); ("Qf", (600%R, None)); ("Q", (1000%R, None));
                  ("time", (time_mult, None))];
     l_ions := {| has_kL := true; has_Ds := true; has_Dp := true;
                  ion_rows := [("CHLORIDE", ex_ion "mg" 1%R); ("NITRATE", ex_ion "mg" 3%R)] |};
     l_valences := [1%nat; 1%nat]; l_names := ["CHLORIDE"; "NITRATE"]; l_time_mult := time_mult;
     l_Cin := {| c_times := [0%R; t_end]; c_cols := [("CHLORIDE", [1%R; 1%R]); ("NITRATE", [2%R; 2%R])] |};
     l_units := [] |}.
Definition ex_integrate (r : run) : list (list R) :=
  map (fun i => map (fun _ => (vel (r_col r) * nth 0 (nth i (r_cin r) []) 0)%R)
                    (match r_report r with Some ts => ts | None => [0%R] end))
      (seq 0 (NION (r_col r))).
Example ex_reports : reports ex_integrate.
Proof.
  intros r. unfold ex_integrate. split; [rewrite map_length, seq_length; reflexivity|].
  intros ts -> i Hi.
  rewrite (nth_indep _ [] ((fun i => map (fun _ : R => (vel (r_col r) * nth 0 (nth i (r_cin r) []) 0)%R) ts) 0%nat))
    by (rewrite map_length, seq_length; exact Hi).
  rewrite (map_nth (fun i => map (fun _ : R => (vel (r_col r) * nth 0 (nth i (r_cin r) []) 0)%R) ts)).
  apply map_length.
Qed.
Definition ex_inputs := inputs_hsdm (Some 10%R) None None None (Some 20%R) (Some 5%R) None None.
Example ex_tvals : to_hours (ex_loaded 3600 24) = Ok (ex_loaded 3600 24, [0%R; 12%R; 24%R]).
Proof.
  unfold to_hours, ex_loaded. cbn [c_times l_Cin rev app bind l_time_mult].
  unfold reqb. destruct (Req_EM_T 3600 3600); [|congruence]. do 2 f_equal.
  unfold arange12. replace (- Int_part (- ((24 + 1) / 12)))%Z with 3%Z.
  - change (Z.to_nat 3) with 3%nat. cbn. repeat (apply f_equal2; [ring|]). reflexivity.
  - destruct (base_Int_part (- ((24 + 1) / 12))) as (A & B).
    assert (L1 : (IZR (Int_part (- ((24 + 1) / 12))) < IZR (-2))%R) by (simpl IZR in *; lra).
    assert (L2 : (IZR (-4) < IZR (Int_part (- ((24 + 1) / 12))))%R) by (simpl IZR in *; lra).
    apply lt_IZR in L1, L2. lia.
Qed.
Lemma convert_ok rows outlet : (length rows <= length outlet)%nat ->
  exists df, convert_all rows outlet = Ok df.
Proof.
  unfold convert_all. intros H.
  assert (HA : forall ir, In ir (combine (seq 0 (length rows)) rows) -> (fst ir < length outlet)%nat).
  { intros (i & kr) Hin. apply in_combine_l in Hin. apply in_seq in Hin. cbn. lia. }
  revert HA. generalize (combine (seq 0 (length rows)) rows). clear.
  induction l as [|x l IH]; intros HA; cbn; [eauto|].
  destruct (nth_error outlet (fst x)) eqn:E.
  - destruct IH as (df & ->); [intros; apply HA; right; assumption|]. cbn. eauto.
  - apply nth_error_None in E. specialize (HA x (or_introl eq_refl)). lia.
Qed.
Lemma bands_ok integrate psdm l tv : forall ts up lo,
  (forall t, In t ts -> exists df, case integrate psdm l tv t = Ok df) ->
  exists ul, bands integrate psdm l tv ts up lo = Ok ul.
Proof.
  induction ts as [|t ts IH]; intros up lo H; cbn; [eauto|].
  destruct (H t (or_introl eq_refl)) as (df & ->). cbn. apply IH. intros; apply H; right; assumption.
Qed.
Lemma simulate_ok psdm l tv r : prepare psdm l tv = Ok r ->
  length (ion_rows (l_ions l)) = length (l_names l) -> exists df, simulate ex_integrate psdm l tv = Ok df.
Proof.
  intros H HL. unfold simulate. rewrite H. cbn [bind]. apply convert_ok.
  rewrite (proj1 (ex_reports r)), (read_NION _ _ _ (prepare_col _ _ _ _ H)), HL. reflexivity.
Qed.
Example ex_prepare : forall psdm, exists r, prepare psdm (ex_loaded 3600 24) [0%R; 12%R; 24%R] = Ok r.
Proof.
  intros psdm. unfold prepare. destruct psdm; cbn [mapM bind of_option lookup String.eqb Ascii.eqb Bool.eqb
    ex_loaded l_names l_Cin c_cols c_times rev app].
  all: match goal with |- context [read_column ?p ?l] =>
         assert (E : exists c, read_column p l = Ok c) by (eexists; reflexivity); destruct E as (c & ->) end.
  all: cbn [bind existsb]; unfold rltb.
  all: repeat match goal with |- context [Rlt_dec ?x ?y] => destruct (Rlt_dec x y); [lra|] end.
  all: cbn; rewrite Bool.andb_false_r; eauto.
Qed.
(** HSDMIX runs a sheet whose transport coefficients are those of the ions. *)
Definition ex_bare : loaded :=
  {| l_params := filter (fun kv => negb (existsb (String.eqb (fst kv)) ["Ds"; "Dp"; "kL"])) (l_params (ex_loaded 3600 24)); l_ions := l_ions (ex_loaded 3600 24);
     l_valences := [1%nat; 1%nat]; l_names := ["CHLORIDE"; "NITRATE"]; l_time_mult := 3600%R; l_Cin := l_Cin (ex_loaded 3600 24); l_units := [] |}.
Example ex_missing : mem_key "Ds" (l_params ex_bare) = false /\ exists r, prepare false ex_bare [0%R; 12%R; 24%R] = Ok r.
Proof.
  split; [reflexivity|]. unfold prepare. cbn [mapM bind of_option lookup String.eqb Ascii.eqb Bool.eqb ex_bare ex_loaded l_names l_Cin c_cols c_times rev app].
  match goal with |- context [read_column ?p ?l] => assert (E : exists c, read_column p l = Ok c) by (eexists; reflexivity); destruct E as (c & ->) end.
  cbn [bind existsb]; unfold rltb.
  repeat match goal with |- context [Rlt_dec ?x ?y] => destruct (Rlt_dec x y); [lra|] end.
  cbn; rewrite Bool.andb_false_r; eauto.
Qed.
Example ex_estimate : forall psdm, exists est,
  model_uncertainty ex_integrate psdm (ex_loaded 3600 24) ex_inputs = Ok (est, ex_loaded 3600 24).
Proof.
  intros psdm. unfold model_uncertainty. rewrite ex_tvals. cbn [bind].
  destruct (ex_prepare psdm) as (r & Er).
  destruct (simulate_ok psdm _ _ _ Er eq_refl) as (df & Ed). rewrite Ed. cbn [bind].
  destruct (bands_ok ex_integrate psdm (ex_loaded 3600 24) [0%R; 12%R; 24%R] (tests ex_inputs) df df) as (ul & Eu).
  - intros (key & x) Hin. unfold case. cbn [fst snd].
    assert (K : key = "capacity" \/ key = "flrt" \/ key = "c0").
    { cbn in Hin. repeat destruct Hin as [Hin|Hin]; try contradiction; inversion Hin; auto. }
    assert (X : exists l' r', perturb key x (ex_loaded 3600 24) = Ok l' /\
      prepare psdm l' [0%R; 12%R; 24%R] = Ok r').
    { destruct K as [->|[->| ->]].
      - destruct (C28_capacity_partial psdm _ _ _ x Er eq_refl) as (l' & r' & P & Q & _). eauto.
      - destruct (C28_flow_partial psdm _ _ _ x Er) as (l' & r' & P & Q & _). eauto.
      - destruct (C28_influent_partial psdm _ _ _ x Er) as (l' & r' & P & Q & _). eauto. }
    destruct X as (l' & r' & P & Q). rewrite P. cbn [bind]. apply (simulate_ok psdm l' _ r' Q).
    destruct K as [->|[->| ->]]; cbn in P; apply Ok_inj in P; subst l'; reflexivity.
  - rewrite Eu. cbn [bind]. eauto.
Qed.
(** The hypotheses of the band theorem hold for it. *)
Example ex_bands : forall psdm, exists est (tv : list R) (cases : list (list (list R))) up lo,
  model_uncertainty ex_integrate psdm (ex_loaded 3600 24) ex_inputs = Ok (est, ex_loaded 3600 24) /\
  length cases = 6%nat /\ e_bands est = Some (up, lo) /\
  forall i t, (i < 2)%nat -> (t < length tv)%nat ->
    largest (entry i t up) (entry i t (e_base est) :: map (entry i t) cases).
Proof.
  intros psdm. destruct (ex_estimate psdm) as (est & E).
  destruct (C27_bands_are_extremes ex_integrate psdm (ex_loaded 3600 24) ex_inputs est (ex_loaded 3600 24) ex_reports)
    as (tv & cases & up & lo & HF & HB & HX); try exact E; try reflexivity; try discriminate.
  - unfold duration_hours. cbn. destruct (Req_EM_T 3600 3600); lra.
  - exists est, tv, cases, up, lo. split; [exact E|]. split; [|split; [exact HB|]].
    + clear -HF. remember (tests ex_inputs) as ts eqn:Et.
      assert (L : length cases = length ts) by (clear Et; induction HF; cbn; congruence).
      rewrite L, Et. reflexivity.
    + intros i t Hi Ht. apply HX; assumption.
Qed.

Print Assumptions C27_bands_are_extremes.
Print Assumptions C27_order_irrelevant.
Print Assumptions C27_base_is_unperturbed.
Print Assumptions C28_both_directions.
Print Assumptions C28_capacity_partial.
Print Assumptions C28_bed_porosity_partial.
Print Assumptions C28_flow_partial.
Print Assumptions C28_bed_length_partial.
Print Assumptions C28_influent_partial.
Print Assumptions C28_selectivity_partial.
Print Assumptions C28_transport_has_no_effect_refuted.
Print Assumptions C28_requests.
Print Assumptions C28_transport_missing_refuted.
Print Assumptions C28_bead_porosity_refuted.
Print Assumptions C28_capacity_by_mass_refuted.
Print Assumptions C28_other_presaturant_refuted.
Print Assumptions C29_hours_unchanged_partial.
Print Assumptions C29_days_same_influent_partial.
Print Assumptions C29_minutes_refuted.
Print Assumptions C65_hours_reported_inside_partial.
Print Assumptions C65_days_refuted.
Print Assumptions C65_fractional_hours_refuted.
