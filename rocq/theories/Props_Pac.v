(** Properties C55-C58 and C84-C89: powdered carbon in a contactor. *)
From Coq Require Import Reals List Arith Bool String Ascii Lra Lia ZArith.
From Verif Require Import Lib_Py Lib_Pow Lib_Traj S_Colloc M_Colloc P_Colloc M_GacSheet M_Extra M_GacFun P_GacFun M_Tools M_LeadLag P_LeadLag M_Pac P_Pac Lib_Sum.
Import ListNotations.
Open Scope R_scope.
Open Scope string_scope.
Local Notation length := List.length.

(** ** C55: conservation *)
Section Trajectory.
Variables (nc : nat) (B : nat -> nat -> R) (W : nat -> R) (q : eqn) (a b : R) (C : R -> R) (Y : nat -> R -> R).
(** The liquid and the bead follow the equations of the model on [a, b]. *)
Definition follows : Prop :=
  evolves a b C (fun t => dC_dt nc q (C t) (fun i => Y i t)) /\
  forall i, (i < nc)%nat -> evolves a b (Y i) (fun t => dY_dt nc B W q (C t) (fun i => Y i t) i).
(** adsorbate in a unit volume of the mixture: liquid and beads (3 x the integral of r^2 Y
    over the radius is the mean of Y over a bead) *)
Definition bead_mean (t : R) : R := 3 * rsum nc (fun i => W i * Y i t).
Definition content (t : R) : R := q_E q * C t + (1 - q_E q) * bead_mean t.
Lemma content_constant : follows -> (1 <= nc)%nat -> W (nc - 1)%nat <> 0 -> q_E q <> 0 -> q_ra q <> 0 ->
  forall t, a <= t <= b -> content t = content a.
Proof.
  intros (HC & HY) N HW HE HR t T.
  assert (EV : evolves a b content (fun t => q_E q * dC_dt nc q (C t) (fun i => Y i t) +
     (1 - q_E q) * (3 * rsum nc (fun i => W i * dY_dt nc B W q (C t) (fun i => Y i t) i)))).
  { unfold content, bead_mean. apply evolves_plus; [apply evolves_scal, HC|]. apply evolves_scal, evolves_scal.
    apply (evolves_rsum a b nc (fun i t => W i * Y i t) (fun i t => W i * dY_dt nc B W q (C t) (fun i => Y i t) i)). intros i Hi. apply evolves_scal, HY, Hi. }
  assert (Z := evolves_zero a b _ _ EV). destruct (Req_dec t a) as [-> |NE]; [reflexivity|].
  apply Z; [|exact T]. intros u _. rewrite weighted_rate by assumption. unfold dC_dt. field. split; assumption.
Qed.
End Trajectory.
Theorem C55_conservation : forall nc B W q a b C Y, follows nc B W q a b C Y ->
  (1 <= nc)%nat -> W (nc - 1)%nat <> 0 -> q_E q <> 0 -> q_ra q <> 0 ->
  forall t, a <= t <= b -> content nc W q C Y t = content nc W q C Y a.
Proof. intros. eapply content_constant; eassumption. Qed.
(** With the operators of the radial grid, a bead in equilibrium with the liquid stays as it is. *)
Theorem C55_equilibrium : forall nc u W q y, (1 <= nc)%nat -> distinct nc u ->
  let Y := fun _ : nat => y in let C := pore q Y 0 in
  dC_dt nc q C Y = 0 /\ forall i, (i < nc)%nat -> dY_dt nc (Bx nc u 3) W q C Y i = 0.
Proof.
  intros nc u W q y N D. cbv zeta. assert (F : flux nc q (pore q (fun _ => y) 0) (fun _ => y) = 0) by (unfold flux, pore; ring).
  assert (DZ : forall i, (i < nc)%nat -> diffusion nc (Bx nc u 3) q (fun _ => y) i = 0).
  { intros i Hi. unfold diffusion. assert (Z : forall k, rsum nc (fun j => Bx nc u 3 i j * k) = 0) by (intros k; apply (Bx_constant nc u D 3 k i Hi)).
    unfold pore. rewrite !Z. unfold Rdiv. ring. }
  split; [unfold dC_dt; rewrite F; unfold Rdiv; ring|]. intros i Hi. unfold dY_dt. destruct (Nat.eqb i (nc - 1)); [|apply DZ, Hi].
  rewrite F. rewrite (rsum_zero (nc - 1)) by (intros k Hk; rewrite DZ by lia; ring). unfold Rdiv. ring.
Qed.

(** ** C85: the dose *)
(** The carbon takes up what the liquid loses: the volume of liquid in a unit volume times
    the fall in concentration is the mass of carbon in it times the rise in its mean
    loading.  [grams]: the carbon, g/L, that this balance holds with. *)
Definition balances (nc : nat) (W : nat -> R) (q : eqn) (a b : R) (C : R -> R) (Y : nat -> R -> R) (grams : R) : Prop :=
  forall t, a <= t <= b -> q_E q * (C a - C t) = grams * (bead_mean nc W Y t / q_rho q - bead_mean nc W Y a / q_rho q).
(** With a dose in mg/L the balance holds with dose/1000 g/L times the ratio of the density
    of the carbon to that of the water. *)
Theorem C85_water_density_partial : forall nc B W f dosage c a b C Y, let q := eqn_of f (eps_of f dosage) c in
  follows nc B W q a b C Y -> (1 <= nc)%nat -> W (nc - 1)%nat <> 0 -> q_E q <> 0 -> q_ra q <> 0 -> f_density f <> 0 -> f_dw f <> 0 ->
  balances nc W q a b C Y (dosage / 1000 * (f_density f / f_dw f)).
Proof.
  intros nc B W f dosage c a b C Y q F N HW HE HR HD HQ t T. pose proof (content_constant nc B W q a b C Y F N HW HE HR t T) as K. unfold content in K.
  assert (RG : (1 - q_E q) = dosage / 1000 * (f_density f / f_dw f) / q_rho q) by (unfold q, eqn_of, eps_of, q_E, q_rho; cbn; field; auto).
  assert (R0 : q_rho q <> 0) by (unfold q; cbn; lra).
  replace (q_E q * (C a - C t)) with ((1 - q_E q) * (bead_mean nc W Y t - bead_mean nc W Y a)) by lra. rewrite RG. field. split; assumption.
Qed.
(** So the full statement, the balance with dose/1000, holds only of carbon as dense as water. *)
Theorem C85_dose_refuted : forall nc B W f dosage c a b C Y, let q := eqn_of f (eps_of f dosage) c in
  follows nc B W q a b C Y -> (1 <= nc)%nat -> W (nc - 1)%nat <> 0 -> q_E q <> 0 -> q_ra q <> 0 -> f_density f <> 0 -> f_dw f <> 0 ->
  f_density f <> f_dw f -> 0 < dosage -> forall t, a <= t <= b -> C t <> C a -> ~ balances nc W q a b C Y (dosage / 1000).
Proof.
  intros nc B W f dosage c a b C Y q F N HW HE HR HD HQ NE Hd t T NC H.
  pose proof (C85_water_density_partial nc B W f dosage c a b C Y F N HW HE HR HD HQ t T) as H1. fold q in H1. specialize (H t T). rewrite H in H1.
  set (z := bead_mean nc W Y t / q_rho q - bead_mean nc W Y a / q_rho q) in *.
  assert (Z : z <> 0). { intros Z. rewrite Z, Rmult_0_r in H. apply Rmult_integral in H as [H|H]; [exact (HE H)|]. apply NC. lra. }
  assert (Q : f_density f / f_dw f = 1).
  { apply (Rmult_eq_reg_l (dosage / 1000)); [|lra]. apply (Rmult_eq_reg_r z); [|exact Z]. lra. }
  apply NE. apply (Rmult_eq_reg_r (/ f_dw f)); [|apply Rinv_neq_0_compat, HQ]. unfold Rdiv in Q. rewrite Q. field. exact HQ.
Qed.

(** ** C84: the influent concentration *)
(** The model solves the equations from a liquid concentration of 1 and multiplies the
    answer by the influent concentration.  [k] times a state changes at [k] times the rate: *)
Definition scales (nc : nat) (B : nat -> nat -> R) (W : nat -> R) (q : eqn) (k C : R) (Y : nat -> R) : Prop :=
  dC_dt nc q (k * C) (fun i => k * Y i) = k * dC_dt nc q C Y /\
  forall i, (i < nc)%nat -> dY_dt nc B W q (k * C) (fun i => k * Y i) i = k * dY_dt nc B W q C Y i.
(** true with a linear isotherm (1/n = 1), ... *)
Theorem C84_linear_partial : forall nc B W q k C Y, q_n q = 1 -> 0 < k -> scales nc B W q k C Y.
Proof.
  intros nc B W q k C Y N Hk. assert (F : flux nc q (k * C) (fun i => k * Y i) = k * flux nc q C Y) by (unfold flux; rewrite pore_scale by assumption; ring).
  assert (D : forall i, diffusion nc B q (fun i => k * Y i) i = k * diffusion nc B q Y i).
  { intros i. unfold diffusion. rewrite (rsum_ext nc (fun j => B i j * pore q (fun i0 => k * Y i0) j) (fun j => k * (B i j * pore q Y j))) by (intros; rewrite pore_scale by assumption; ring).
    rewrite (rsum_ext nc (fun j => B i j * (k * Y j)) (fun j => k * (B i j * Y j))) by (intros; ring). rewrite !rsum_scal. unfold Rdiv. ring. }
  split; [unfold dC_dt; rewrite F; unfold Rdiv; ring|]. intros i Hi. unfold dY_dt. destruct (Nat.eqb i (nc - 1)); [|apply D].
  rewrite F. rewrite (rsum_ext (nc - 1) (fun k0 => W k0 * diffusion nc B q (fun i0 => k * Y i0) k0) (fun k0 => k * (W k0 * diffusion nc B q Y k0))) by (intros; rewrite D; ring).
  rewrite rsum_scal. unfold Rdiv. ring.
Qed.
(** ... and false with any other as soon as the surface of the bead is loaded, whatever the
    concentration, unless it is 1 ug/L. *)
Theorem C84_concentration_refuted : forall nc B W q k C Y, q_n q <> 1 -> 0 < k -> k <> 1 ->
  0 < q_kL q -> 0 < q_E q < 1 -> 0 < q_ra q -> 0 < Y (nc - 1)%nat / q_rho q / q_K q -> ~ scales nc B W q k C Y.
Proof.
  intros nc B W q k C Y N Hk K1 HL HE HR HY (H & _). set (x := Y (nc - 1)%nat / q_rho q / q_K q) in *.
  assert (P1 : pore q Y (nc - 1) = rpow x (q_n q)) by (unfold pore; fold x; rewrite (proj2 (rltb_false x 0)) by lra; reflexivity).
  assert (P2 : pore q (fun i => k * Y i) (nc - 1) = rpow k (q_n q) * rpow x (q_n q)).
  { unfold pore. replace (k * Y (nc - 1)%nat / q_rho q / q_K q) with (k * x) by (unfold x, Rdiv; ring). rewrite (proj2 (rltb_false (k * x) 0)) by nra. apply rpow_mult; assumption. }
  unfold dC_dt, flux in H. rewrite P1, P2 in H. pose proof (rpow_pos x (q_n q) HY) as XP. set (z := rpow x (q_n q)) in *.
  assert (EQ : rpow k (q_n q) * z = k * z).
  { assert (A : (1 - q_E q) / q_E q * (3 / q_ra q) * q_kL q * (rpow k (q_n q) * z - k * z) = 0) by lra.
    apply Rmult_integral in A as [A|A]; [|lra]. exfalso.
    assert (0 < (1 - q_E q) / q_E q * (3 / q_ra q) * q_kL q); [|lra].
    apply Rmult_lt_0_compat; [apply Rmult_lt_0_compat|exact HL]; apply Rdiv_lt_0_compat; lra. }
  assert (E2 : rpow k (q_n q) = k) by (apply (Rmult_eq_reg_r z); lra).
  rewrite (rpow_Rpower k _ Hk) in E2. unfold Rpower in E2.
  assert (L : q_n q * ln k = ln k) by (rewrite <- E2 at 2; rewrite ln_exp; reflexivity).
  assert (LN : ln k <> 0) by (intros L0; apply K1; apply ln_inv; [exact Hk|lra|rewrite ln_1; exact L0]).
  apply N. apply (Rmult_eq_reg_r (ln k)); [lra|exact LN].
Qed.

(** ** C57: geometry *)
(** No number in the sheet is zero or negative (NaN is allowed). *)
Definition positive_rows (t : sheet) : Prop := forall k r x, lookup k t = Some r -> r_value r = VNum (Some x) -> 0 < x.
Definition volume_relation (g : shape) : Prop :=
  if String.eqb (g_format g) "circular"
  then forall d h, g_length g = Some d -> g_height g = Some h -> g_volume g = Some (PI * (d / 2) ^ 2 * h)
  else forall l w h, g_length g = Some l -> g_width g = Some w -> g_height g = Some h -> g_volume g = Some (l * w * h).
Lemma table_pos tbl k u : forallb (fun kv => rltb 0 (snd kv)) tbl = true -> lookup u tbl = Some k -> 0 < k.
Proof.
  induction tbl as [|[a x] tbl IH]; intros H E; [discriminate E|]. cbn in H, E. apply andb_prop in H as (H1 & H2).
  destruct (String.eqb u a); [|apply IH; assumption]. assert (x = k) by congruence. subst. apply rltb_true in H1. exact H1.
Qed.
Ltac tblpos := cbn -[pow rltb]; repeat (apply andb_true_intro; split); try reflexivity; apply rltb_true; cbn -[IZR]; unfold cm_per_ft, lpg, min_per_day, dec; cbn -[IZR]; try lra.
Lemma length_pos : forallb (fun kv => rltb 0 (snd kv)) length_convert = true.
Proof. unfold length_convert. tblpos. Qed.
Lemma volume_pos : forallb (fun kv => rltb 0 (snd kv)) volume_convert = true.
Proof. unfold volume_convert. tblpos. Qed.
Lemma entry_pos t tbl key v : positive_rows t -> forallb (fun kv => rltb 0 (snd kv)) tbl = true -> entry t tbl key = Ok (Some (Some v)) -> 0 < v.
Proof.
  intros P Q E. unfold entry in E. destruct (lookup key t) as [r|] eqn:L; [|discriminate E]. destruct (lookup (lower (r_units r)) tbl) as [k|] eqn:K; [|discriminate E].
  cbn in E. pose proof (table_pos _ _ _ Q K). unfold number in E. destruct (r_value r) as [s|[x|]] eqn:V; try discriminate E.
  pose proof (P _ _ _ L V). assert (v = x * k) by (cbn in E; congruence). subst. apply Rmult_lt_0_compat; assumption.
Qed.
Lemma width_pos t len w : positive_rows t -> (forall l, len = Some l -> 0 < l) -> width_of t len = Some w -> 0 < w.
Proof.
  intros P HL E. unfold width_of in E. destruct (String.eqb (format_of t) "square"); [apply HL, E|]. destruct (String.eqb (format_of t) "rectangular"); [|discriminate E].
  destruct (lookup "aspect ratio" t) as [r|] eqn:L.
  - unfold number in E. destruct len as [l|]; [|discriminate E]. destruct (r_value r) as [s|[x|]] eqn:V; try discriminate E. cbn in E. assert (w = l / x) by congruence. subst.
    apply Rdiv_lt_0_compat; [apply HL; reflexivity|apply (P _ _ _ L V)].
  - destruct len as [l|]; [|discriminate E]. cbn in E. assert (w = l / 1) by congruence. subst. apply Rdiv_lt_0_compat; [apply HL; reflexivity|lra].
Qed.
Lemma volume_entry_pos t v : positive_rows t -> entry t volume_convert "volume" = Ok (Some (Some v)) -> 0 < v.
Proof. intros P E. apply (entry_pos _ _ _ _ P volume_pos E). Qed.
Lemma square_root_times x h : 0 < x -> 0 < h -> sqrt (x / h) * (sqrt (x / h) * 1) * h = x.
Proof. intros Hx Hh. rewrite Rmult_1_r, sqrt_sqrt by (apply Rlt_le, Rdiv_lt_0_compat; assumption). field. lra. Qed.
Lemma diameter_of v h : 0 < v -> 0 < h -> PI * (sqrt (v * 4 / (PI * h)) / 2) ^ 2 * h = v.
Proof.
  intros Hv Hh. pose proof PI_RGT_0. replace ((sqrt (v * 4 / (PI * h)) / 2) ^ 2) with (sqrt (v * 4 / (PI * h)) * sqrt (v * 4 / (PI * h)) / 4) by field.
  rewrite sqrt_sqrt by (apply Rlt_le, Rdiv_lt_0_compat; nra). field. lra.
Qed.
Theorem C57_volume : forall t g e, positive_rows t -> geometry t = Ok (g, e) -> volume_relation g.
Proof.
  intros t g e P H. unfold geometry in H. destruct (bind_inv _ _ _ H) as (len0 & EL & H1). clear H. destruct len0 as [len|]; [|discriminate H1].
  destruct (bind_inv _ _ _ H1) as (h0 & EH & H2). clear H1. cbv zeta in H2. destruct (bind_inv _ _ _ H2) as ([[[[l w] h] v] e'] & EV & H3). clear H2.
  assert (PL : forall x, len = Some x -> 0 < x) by (intros x ->; apply (entry_pos _ _ _ _ P length_pos EL)).
  set (h1 := match h0 with Some h => h | None => None end) in *.
  assert (PH : forall x, h1 = Some x -> 0 < x) by (unfold h1; intros x Q; destruct h0 as [h0|]; [subst h0; apply (entry_pos _ _ _ _ P length_pos EH)|discriminate Q]).
  pose proof (fun w => width_pos t len w P PL) as PW. set (fmt := format_of t) in *.
  assert (CW : String.eqb fmt "circular" = true -> width_of t len = None) by (intros Q; apply String.eqb_eq in Q; unfold width_of; fold fmt; rewrite Q; reflexivity).
  set (w1 := width_of t len) in *. clearbody w1 h1. pose proof PI_RGT_0 as PI0.
  match type of H3 with Ok (?G, _) = _ => assert (EG : g = G) by congruence end. rewrite EG. clear EG H3. unfold volume_relation. cbn [g_format g_length g_width g_height g_volume].
  assert (CC : forall d x, mulN (mulN (Some x) (Some (PI / 4))) (map1 (fun y => y ^ 2) (Some d)) = Some (PI * (d / 2) ^ 2 * x)) by (intros; cbn; f_equal; field).
  destruct (mem_key "volume" t && undetermined fmt len w1 h1)%bool eqn:EU.
  - destruct (bind_inv _ _ _ EV) as (v0 & E0 & E1). apply andb_prop in EU as (_ & EU). cbn [fst snd] in E1.
    set (vv := match v0 with Some v => v | None => None end) in *.
    assert (PV : forall x, vv = Some x -> 0 < x) by (unfold vv; intros x Q; destruct v0 as [v0|]; [subst v0; apply (volume_entry_pos _ _ P E0)|discriminate Q]).
    match type of E1 with Ok (?l', ?w', ?h', ?v', _) = _ => assert (l = l' /\ w = w' /\ h = h' /\ v = v') as (-> & -> & -> & ->) by (repeat split; congruence) end.
    clearbody vv. clear E1 E0 EV e'. unfold undetermined in EU. unfold solve_height, solve_length.
    destruct vv as [V|].
    2: { cbn [isnan]. destruct (String.eqb fmt "circular"); [intros d x -> ->; apply CC|intros a b x -> -> ->; reflexivity]. }
    pose proof (PV V eq_refl) as VP. cbn [isnan]. destruct (String.eqb fmt "circular") eqn:EF.
    + rewrite (CW eq_refl). destruct len as [d|]; destruct h1 as [x|]; cbn in EU |- *; try discriminate EU.
      * intros d' x' Ed Ex. assert (d' = d) by congruence. subst d'. assert (Ex' : x' = V / (PI / 4 * (d * (d * 1)))) by congruence. subst x'.
        pose proof (PL d eq_refl). f_equal. field. lra.
      * intros d' x' Ed Ex. assert (Ed' : d' = sqrt (V * 4 / (PI * x))) by congruence. subst d'. assert (x' = x) by congruence. subst x'. f_equal. symmetry. apply (diameter_of V x VP (PH x eq_refl)).
      * intros d' x' Ed Ex. discriminate Ed.
    + destruct len as [a|]; destruct w1 as [b|]; destruct h1 as [x|]; cbn in EU |- *; try discriminate EU; intros a' b' x' E1 E2 E3; try discriminate.
      * assert (a' = a) by congruence. assert (b' = b) by congruence. assert (E3' : x' = V / (a * b)) by congruence. subst.
        pose proof (PL a eq_refl). pose proof (PW b eq_refl). f_equal. field. lra.
      * assert (E1' : a' = sqrt (V / x)) by congruence. assert (E2' : b' = sqrt (V / x) * 1) by congruence. assert (x' = x) by congruence. subst. f_equal. symmetry. apply square_root_times; [exact VP|apply (PH x eq_refl)].
      * assert (E1' : a' = sqrt (V / x)) by congruence. assert (E2' : b' = sqrt (V / x) * 1) by congruence. assert (x' = x) by congruence. subst. f_equal. symmetry. apply square_root_times; [exact VP|apply (PH x eq_refl)].
  - assert (l = len /\ w = w1 /\ h = h1 /\ v = None) as (-> & -> & -> & ->) by (repeat split; congruence). cbn [isnan].
    destruct (String.eqb fmt "circular"); [intros d x -> ->; apply CC|intros a b x -> -> ->; reflexivity].
Qed.
(** A length and a height given are kept; the one missing is found from the volume. *)
Lemma geometry_inv t g e : geometry t = Ok (g, e) -> exists len h0, entry t length_convert "length/diameter" = Ok (Some len) /\ entry t length_convert "height" = Ok h0 /\
  let h1 := match h0 with Some h => h | None => None end in let w1 := width_of t len in let fmt := format_of t in
  g_format g = fmt /\
  if (mem_key "volume" t && undetermined fmt len w1 h1)%bool then
    exists v0, entry t volume_convert "volume" = Ok v0 /\ let v := match v0 with Some v => v | None => None end in
      let h2 := solve_height fmt v len w1 h1 in
      g_height g = h2 /\ g_length g = fst (solve_length fmt v len w1 h2) /\ g_width g = snd (solve_length fmt v len w1 h2)
  else g_length g = len /\ g_width g = w1 /\ g_height g = h1.
Proof.
  intros H. unfold geometry in H. destruct (bind_inv _ _ _ H) as (len0 & EL & H1). clear H. destruct len0 as [len|]; [|discriminate H1].
  destruct (bind_inv _ _ _ H1) as (h0 & EH & H2). clear H1. cbv zeta in H2. destruct (bind_inv _ _ _ H2) as ([[[[l w] h] v] e'] & EV & H3). clear H2.
  match type of H3 with Ok (?G, _) = _ => assert (EG : g = G) by congruence end. exists len, h0. split; [exact EL|]. split; [exact EH|]. cbv zeta. rewrite EG.
  cbn [g_format g_length g_width g_height]. split; [reflexivity|].
  destruct (mem_key "volume" t && undetermined (format_of t) len (width_of t len) match h0 with Some h => h | None => None end)%bool.
  - destruct (bind_inv _ _ _ EV) as (v0 & E0 & E1). exists v0. split; [exact E0|]. cbn [fst snd] in E1. repeat split; congruence.
  - repeat split; congruence.
Qed.
Theorem C57_given : forall t g e, geometry t = Ok (g, e) ->
  (forall x, entry t length_convert "length/diameter" = Ok (Some (Some x)) -> g_length g = Some x) /\
  (forall x, entry t length_convert "height" = Ok (Some (Some x)) -> g_height g = Some x).
Proof.
  intros t g e H. destruct (geometry_inv _ _ _ H) as (len & h0 & EL & EH & Q). cbv zeta in Q. destruct Q as (_ & Q).
  destruct (mem_key "volume" t && _)%bool.
  - destruct Q as (v0 & _ & Q1 & Q2 & _). split; intros x E.
    + rewrite EL in E. assert (len = Some x) by congruence. subst len. rewrite Q2. reflexivity.
    + rewrite EH in E. assert (h0 = Some (Some x)) by congruence. subst h0. rewrite Q1. reflexivity.
  - destruct Q as (Q1 & _ & Q3). split; intros x E; [rewrite EL in E; congruence|rewrite EH in E; rewrite Q3; assert (h0 = Some (Some x)) by congruence; subst; reflexivity].
Qed.
(** The shape a sheet asks for: that of its format row, square without one. *)
Definition of_shape (t : sheet) (f : string) : Prop :=
  match lookup "format" t with Some r => r_value r = VText f | None => f = "square" end.
Lemma of_shape_is t f : of_shape t f -> format_of t = f.
Proof. unfold of_shape, format_of. destruct (lookup "format" t) as [r|]; intros E; [rewrite E; reflexivity|congruence]. Qed.
Theorem C57_format : forall t g e f, of_shape t f -> geometry t = Ok (g, e) ->
  g_format g = f /\ (f = "square" -> g_width g = g_length g).
Proof.
  intros t g e f F H. apply of_shape_is in F. destruct (geometry_inv _ _ _ H) as (len & h0 & EL & EH & Q). cbv zeta in Q. destruct Q as (QF & Q). rewrite F in *.
  split; [exact QF|]. intros ->. assert (W : width_of t len = len) by (unfold width_of; rewrite F; reflexivity). rewrite W in Q.
  destruct (mem_key "volume" t && _)%bool; [|destruct Q as (Q1 & Q2 & _); congruence]. destruct Q as (v0 & _ & _ & Q1 & Q2). rewrite Q1, Q2. unfold solve_length. cbn [String.eqb Ascii.eqb Bool.eqb].
  match goal with |- context [if ?b then _ else _] => destruct b end; cbn [fst snd]; [|reflexivity]. destruct (map1 sqrt _); cbn; [f_equal; lra|reflexivity].
Qed.
Definition known_shape (t : sheet) : Prop :=
  of_shape t "square" \/ of_shape t "circular" \/
  of_shape t "rectangular" /\ (forall r, lookup "aspect ratio" t = Some r -> number r <> None).
Theorem C57_volume_suffices : forall t g e v, known_shape t -> geometry t = Ok (g, e) -> entry t volume_convert "volume" = Ok (Some (Some v)) ->
  (exists x, entry t length_convert "length/diameter" = Ok (Some (Some x))) \/ (exists x, entry t length_convert "height" = Ok (Some (Some x))) ->
  g_volume g <> None /\ g_length g <> None /\ g_height g <> None /\ (~ of_shape t "circular" -> g_width g <> None).
Proof.
  intros t g e v KS0 H EV D.
  assert (KS : format_of t = "square" \/ format_of t = "circular" \/ format_of t = "rectangular" /\ (forall r, lookup "aspect ratio" t = Some r -> number r <> None)).
  { destruct KS0 as [K|[K|(K & K')]]; apply of_shape_is in K; [left; exact K|right; left; exact K|right; right; split; assumption]. }
  enough (W : g_volume g <> None /\ g_length g <> None /\ g_height g <> None /\ (format_of t <> "circular" -> g_width g <> None)).
  { destruct W as (W1 & W2 & W3 & W4). repeat split; try assumption. intros NC. apply W4. intros Q. apply NC. unfold of_shape. unfold format_of in Q.
    destruct (lookup "format" t) as [r|]; [|discriminate Q]. destruct (r_value r); [congruence|discriminate Q]. } pose proof H as H0. unfold geometry in H. destruct (bind_inv _ _ _ H) as (len0 & EL & H1). clear H. destruct len0 as [len|]; [|discriminate H1].
  destruct (bind_inv _ _ _ H1) as (h0 & EH & H2). clear H1. cbv zeta in H2. destruct (bind_inv _ _ _ H2) as ([[[[l w] h] v'] e'] & EE & H3). clear H2.
  match type of H3 with Ok (?G, _) = _ => assert (EG : g = G) by congruence end. rewrite EG. clear EG H3 H0. cbn [g_format g_length g_width g_height g_volume].
  assert (MV : mem_key "volume" t = true).
  { unfold mem_key. unfold entry in EV. destruct (lookup "volume" t); [reflexivity|discriminate EV]. }
  rewrite MV in EE. cbn [andb] in EE. rewrite EV in EE. cbn [bind fst snd] in EE.
  set (h1 := match h0 with Some h => h | None => None end) in *.
  assert (D' : len <> None \/ h1 <> None).
  { destruct D as [(x & E)|(x & E)]; [left; rewrite EL in E; congruence|right; unfold h1; rewrite EH in E; assert (h0 = Some (Some x)) by congruence; subst; discriminate]. }
  clearbody h1. clear D EL EH EV.
  assert (WS : forall x, len = Some x -> format_of t <> "circular" -> width_of t len <> None).
  { intros x -> NC. unfold width_of. destruct KS as [-> |[K|(-> & KA)]]; [discriminate|congruence|]. cbn [String.eqb Ascii.eqb Bool.eqb].
    destruct (lookup "aspect ratio" t) as [r|] eqn:LA; [|discriminate]. specialize (KA r eq_refl). destruct (number r); [discriminate|congruence]. }
  assert (WC : format_of t = "circular" -> width_of t len = None) by (intros Q; unfold width_of; rewrite Q; reflexivity).
  set (w1 := width_of t len) in *. clearbody w1.
  destruct (String.eqb_spec (format_of t) "circular") as [F|F].
  - rewrite F in *. rewrite (WC eq_refl) in *. unfold undetermined, solve_height, solve_length in EE. cbn [String.eqb Ascii.eqb Bool.eqb] in EE |- *.
    destruct len as [a|], h1 as [x|]; cbn in EE; try (destruct D'; congruence);
      match type of EE with Ok (?l', ?w', ?h', ?v'', _) = _ => assert (l = l' /\ w = w' /\ h = h' /\ v' = v'') as (-> & -> & -> & ->) by (repeat split; congruence) end;
      cbn; repeat split; try discriminate; congruence.
  - assert (FE : String.eqb (format_of t) "circular" = false) by (apply String.eqb_neq; exact F). unfold undetermined, solve_height, solve_length in EE. rewrite FE in EE.
    destruct len as [a|]; [destruct w1 as [b|]; [|exfalso; apply (WS a eq_refl F eq_refl)]|]; destruct h1 as [x|]; try (destruct w1 as [b'|]); cbn in EE; try (destruct D'; congruence);
      match type of EE with Ok (?l', ?w', ?h', ?v'', _) = _ => assert (l = l' /\ w = w' /\ h = h' /\ v' = v'') as (-> & -> & -> & ->) by (repeat split; congruence) end;
      cbn; repeat split; try discriminate; congruence.
Qed.

(** ** C90: aspect ratio *)
Theorem C90_length_given_partial : forall t g e l r, of_shape t "rectangular" -> geometry t = Ok (g, e) ->
  entry t length_convert "length/diameter" = Ok (Some (Some l)) ->
  match lookup "aspect ratio" t with Some row => number row = Some r | None => r = 1 end -> g_length g = Some l /\ g_width g = Some (l / r).
Proof.
  intros t g e l r F H EL A. apply of_shape_is in F. split; [apply (proj1 (C57_given _ _ _ H) l EL)|]. destruct (geometry_inv _ _ _ H) as (len & h0 & EL' & EH & Q). cbv zeta in Q. destruct Q as (_ & Q).
  rewrite EL in EL'. assert (len = Some l) by congruence. subst len.
  assert (W : width_of t (Some l) = Some (l / r)).
  { unfold width_of. rewrite F. cbn [String.eqb Ascii.eqb Bool.eqb]. destruct (lookup "aspect ratio" t) as [row|]; [rewrite A; reflexivity|subst r; reflexivity]. }
  rewrite W in Q. destruct (mem_key "volume" t && _)%bool; [|destruct Q as (_ & Q & _); exact Q]. destruct Q as (v0 & _ & _ & _ & Q). rewrite Q. reflexivity.
Qed.
(** With the length left to the volume the aspect ratio is dropped: a tank of aspect ratio 2,
    100 cm high and holding 40 l is made 20 cm by 20 cm. *)
Definition num_row (x : num) (u : string) : row := {| r_value := VNum x; r_units := u |}.
Definition tank : sheet :=
  [("format", {| r_value := VText "rectangular"; r_units := "" |}); ("length/diameter", num_row None "cm"); ("aspect ratio", num_row (Some 2) "");
   ("height", num_row (Some 100) "cm"); ("volume", num_row (Some 40) "l"); ("flow", num_row (Some 1) "mgd"); ("hrt", num_row (Some 10) "min"); ("crt", num_row (Some 20) "min")].
Lemma sqrt_400 : sqrt (40 * 1000 / (100 * 1)) = 20.
Proof. replace (40 * 1000 / (100 * 1)) with (20 * 20) by field. apply sqrt_square. lra. Qed.
Theorem C90_volume_refuted : exists g e, geometry tank = Ok (g, e) /\ g_length g = Some 20 /\ g_width g = Some 20 /\ g_height g = Some 100.
Proof.
  unfold geometry, entry, tank. cbn -[sqrt length_convert volume_convert]. unfold length_convert, volume_convert. cbn -[sqrt]. eexists. eexists. split; [reflexivity|]. cbn -[sqrt].
  rewrite sqrt_400. repeat split; f_equal; ring.
Qed.

(** ** C86: missing entries *)
(** Rows a model needs, by sheet; their absence is reported, and counted in errors. *)
Definition absent (t : sheet) (key : string) : Z := match lookup key (lower_index t) with None => 1%Z | Some _ => 0%Z end.
Definition absent_rows (contactor pac : sheet) : Z :=
  (absent pac "density" + absent pac "porosity" + absent pac "radius" + absent contactor "length/diameter" + absent contactor "height"
   + absent contactor "flow" + absent contactor "hrt" + absent contactor "crt" + absent contactor "pac dosage")%Z.
Lemma entry_missing t tbl key x : entry t tbl key = Ok x -> missing x = match lookup key t with None => 1%Z | Some _ => 0%Z end.
Proof. unfold entry. destruct (lookup key t) as [r|]; [|intros [= <-]; reflexivity]. destruct (lookup (lower (r_units r)) tbl); [|discriminate]. intros [= <-]. reflexivity. Qed.
Lemma plain_missing t key : missing (plain t key) = match lookup key t with None => 1%Z | Some _ => 0%Z end.
Proof. unfold plain. destruct (lookup key t); reflexivity. Qed.
Theorem C86_without_volume_partial : forall contactor pac b, construct contactor pac = Ok b -> lookup "volume" (lower_index contactor) = None ->
  b_errors b = absent_rows contactor pac.
Proof.
  intros contactor pac b H NV. unfold construct in H. destruct (bind_inv _ _ _ H) as ([] & _ & H1). clear H. destruct (bind_inv _ _ _ H1) as ([] & _ & H2). clear H1. cbv zeta in H2.
  destruct (bind_inv _ _ _ H2) as (radius & ER & H3). clear H2. destruct (bind_inv _ _ _ H3) as ([sh e] & EG & H4). clear H3. destruct (bind_inv _ _ _ H4) as (flow & EF & H5). clear H4.
  destruct flow as [q|]; [|discriminate H5]. destruct (bind_inv _ _ _ H5) as (hrt & EH & H6). clear H5. destruct (bind_inv _ _ _ H6) as (crt & EC & H7). clear H6.
  match type of H7 with Ok ?B = _ => assert (EB : b = B) by congruence end. rewrite EB. cbn [b_errors]. unfold absent_rows, absent.
  rewrite !plain_missing, (entry_missing _ _ _ _ ER), (entry_missing _ _ _ _ EH), (entry_missing _ _ _ _ EC).
  assert (F : lookup "flow" (lower_index contactor) <> None) by (intros Q; unfold entry in EF; rewrite Q in EF; discriminate EF).
  assert (L : lookup "length/diameter" (lower_index contactor) <> None /\ e = match lookup "height" (lower_index contactor) with None => 1%Z | Some _ => 0%Z end).
  { unfold geometry in EG. destruct (bind_inv _ _ _ EG) as (len0 & EL & G1). destruct len0 as [len|]; [|discriminate G1]. split.
    - intros Q. unfold entry in EL. rewrite Q in EL. discriminate EL.
    - destruct (bind_inv _ _ _ G1) as (h0 & EHt & G2). cbv zeta in G2. unfold mem_key in G2. rewrite NV in G2. cbn [andb bind] in G2.
      pose proof (entry_missing _ _ _ _ EHt) as M. unfold missing in M. rewrite <- M. congruence. }
  destruct L as (L & ->). destruct (lookup "flow" (lower_index contactor)); [|congruence]. destruct (lookup "length/diameter" (lower_index contactor)); [|congruence]. lia.
Qed.
(** Without a flow or length row there is no object at all. *)
Theorem C86_exception_refuted : forall contactor pac b,
  lookup "flow" (lower_index contactor) = None \/ lookup "length/diameter" (lower_index contactor) = None -> construct contactor pac <> Ok b.
Proof.
  intros contactor pac b D H. unfold construct in H. destruct (bind_inv _ _ _ H) as ([] & _ & H1). clear H. destruct (bind_inv _ _ _ H1) as ([] & _ & H2). clear H1. cbv zeta in H2.
  destruct (bind_inv _ _ _ H2) as (radius & ER & H3). clear H2. destruct (bind_inv _ _ _ H3) as ([sh e] & EG & H4). clear H3. destruct (bind_inv _ _ _ H4) as (flow & EF & H5).
  destruct D as [D|D].
  - unfold entry in EF. rewrite D in EF. assert (flow = None) by congruence. subst. discriminate H5.
  - unfold geometry, entry in EG. rewrite D in EG. discriminate EG.
Qed.
(** A length found from the volume is subtracted though it was never counted: the tank has no
    dose, and no error is counted. *)
Definition powder : sheet := [("density", num_row (Some (5 / 10)) ""); ("porosity", num_row (Some (5 / 10)) ""); ("radius", num_row (Some (1 / 1000)) "cm")].
Theorem C86_count_refuted : exists b, construct tank powder = Ok b /\ absent_rows tank powder = 1%Z /\ b_errors b = 0%Z.
Proof.
  unfold construct. cbn -[sqrt dec density pow]. eexists. split; [reflexivity|]. split; reflexivity.
Qed.

(** ** C56: dose studies *)
(** the compounds of the table, without the derived rows *)
Definition compounds_of (o : pac) : list (string * comp) := map (fun x => (fst x, fst (snd x))) (p_table o).
(** An object as it is made: derived values are those of its dose. *)
Definition fresh_pac (f : carbon) (o : pac) : Prop := o = update_values f o /\ length (p_conv o) = length (p_table o).
Lemma update_compounds f o : length (p_conv o) = length (p_table o) -> compounds_of (update_values f o) = compounds_of o /\ length (p_table (update_values f o)) = length (p_table o).
Proof.
  intros L. unfold compounds_of, update_values. cbn [p_table]. rewrite map_length, combine_length, L, Nat.min_id. split; [|reflexivity].
  revert L. generalize (p_conv o). induction (p_table o) as [|[n [c d]] t IH]; intros [|k ks] L; try discriminate L; [reflexivity|]. cbn. f_equal. apply IH. cbn in L. congruence.
Qed.
Lemma update_twice f o d d' : length (p_conv o) = length (p_table o) ->
  update_values f (set_dosage (update_values f (set_dosage o d)) d') = update_values f (set_dosage o d').
Proof.
  intros L. unfold update_values, set_dosage. cbn [p_dosage p_duration p_eps p_table p_conv]. f_equal.
  revert L. generalize (p_conv o). induction (p_table o) as [|[n [c dd]] t IH]; intros [|k ks] L; try discriminate L; [reflexivity|]. cbn. f_equal. apply IH. cbn in L. congruence.
Qed.
Section Studies.
Variables (f : carbon) (solve : list eqn -> R -> list (R * list R)).
Lemma each_dose_last o doses d : length (p_conv o) = length (p_table o) -> fst (each_dose f solve o (doses ++ [d])) = update_values f (set_dosage o d).
Proof.
  revert o. induction doses as [|a doses IH]; intros o L; [reflexivity|]. cbn [app each_dose fst]. rewrite IH.
  - apply update_twice, L.
  - rewrite (proj2 (update_compounds f (set_dosage o a) L)). exact L.
Qed.
Lemma each_dose_nil o : fst (each_dose f solve o []) = o.
Proof. reflexivity. Qed.
(** A multi-dose study puts back the dose and the duration and keeps the compounds. *)
Theorem C56_multi_dose_partial : forall o doses, length (p_conv o) = length (p_table o) ->
  let o' := fst (run_multi_dosage f solve o doses) in
  p_dosage o' = p_dosage o /\ p_duration o' = p_duration o /\ p_conv o' = p_conv o /\ compounds_of o' = compounds_of o.
Proof.
  intros o doses L. cbv zeta. unfold run_multi_dosage. cbn [fst set_duration set_dosage p_dosage p_duration p_conv compounds_of p_table]. split; [reflexivity|]. split; [reflexivity|].
  destruct doses as [|x doses]; [split; reflexivity|]. destruct (exists_last (l := x :: doses) ltac:(discriminate)) as (l & d & ->).
  rewrite each_dose_last by exact L. split; [reflexivity|]. apply (proj1 (update_compounds f (set_dosage (set_duration o (1000 * 60)) d) L)).
Qed.
(** but every value derived from the dose stays at the last dose of the study, and the next
    run is a run at that dose. *)
Theorem C56_next_run_refuted : forall o doses d, length (p_conv o) = length (p_table o) ->
  let o' := fst (run_multi_dosage f solve o (doses ++ [d])) in
  p_eps o' = eps_of f d /\ run f solve o' = run f solve (update_values f (set_dosage o d)).
Proof.
  intros o doses d L. cbv zeta. unfold run_multi_dosage. cbn [fst]. rewrite each_dose_last by exact L. split; [reflexivity|]. reflexivity.
Qed.
Lemma each_trial_last target o doses d : length (p_conv o) = length (p_table o) -> fst (each_trial f solve target o (doses ++ [d])) = update_values f (set_dosage o d).
Proof.
  revert o. induction doses as [|a doses IH]; intros o L; [reflexivity|]. cbn [app each_trial fst]. rewrite IH.
  - apply update_twice, L.
  - rewrite (proj2 (update_compounds f (set_dosage o a) L)). exact L.
Qed.
(** Studies of the waiting time that complete put back the duration and the table. *)
Theorem C56_waiting_time_partial : forall o target units doses c0s cu o' r,
  HRT_calculator f solve o target units doses c0s cu = (o', Ok r) \/ (exists r', R_HRT_calculator f solve o target units doses cu = (o', Ok r')) ->
  p_duration o' = p_duration o /\ p_table o' = p_table o /\ p_conv o' = p_conv o.
Proof.
  intros o target units doses c0s cu o' r [H|(r' & H)].
  - unfold HRT_calculator in H. destruct (unit_factor units) as [k|]; [|congruence].
    match type of H with match ?l with _ => _ end = _ => destruct l as [m|]; [|congruence] end.
    match type of H with (?A, _) = _ => assert (E : o' = A) by congruence end. rewrite E. repeat split; reflexivity.
  - unfold R_HRT_calculator in H. destruct (unit_factor units) as [k|]; [|congruence]. cbv zeta in H. destruct (String.eqb (lower cu) "same").
    + match type of H with (?A, _) = _ => assert (E : o' = A) by congruence end. rewrite E. repeat split; reflexivity.
    + destruct (lookup (lower cu) conc_convert) as [m|]; [|congruence].
      match type of H with (?A, _) = _ => assert (E : o' = A) by congruence end. rewrite E. repeat split; reflexivity.
Qed.
(** but leave the dose of the last trial behind. *)
Theorem C56_waiting_time_dose_refuted : forall o target units doses d cu o' r, length (p_conv o) = length (p_table o) ->
  R_HRT_calculator f solve o target units (doses ++ [d]) cu = (o', Ok r) -> p_dosage o' = d /\ p_eps o' = eps_of f d.
Proof.
  intros o target units doses d cu o' r L H. unfold R_HRT_calculator in H. destruct (unit_factor units) as [k|]; [|congruence]. cbv zeta in H.
  assert (LU : forall u, length (set_units u (p_table o)) = length (p_table o)) by (intros; unfold set_units; apply map_length).
  destruct (String.eqb (lower cu) "same").
  - match type of H with (?A, _) = _ => assert (E : o' = A) by congruence end. rewrite E. rewrite each_trial_last by (cbn; rewrite LU; exact L). split; reflexivity.
  - destruct (lookup (lower cu) conc_convert) as [m|]; [|congruence].
    match type of H with (?A, _) = _ => assert (E : o' = A) by congruence end. rewrite E. rewrite each_trial_last by (cbn; rewrite LU; apply map_length). split; reflexivity.
Qed.
(** A study refused for its unit leaves its duration of 3000 minutes behind; the unit may be
    one the compounds are given in. *)
Theorem C56_refused_refuted : forall o target doses cu, lookup "ug/L" conc_convert = Some 1 /\
  R_HRT_calculator f solve o target "ug/L" doses cu = (set_duration o (3000 * 60), Err KeyError).
Proof. intros. split; reflexivity. Qed.
End Studies.
(** The next run does differ: a compound, and a solver whose answer is 1 - the share of liquid. *)
Definition demo_carbon : carbon := {| f_density := 1 / 2; f_porosity := 1 / 2; f_radius := 1 / 1000; f_dw := 1; f_hrt := 600 |}.
Definition demo_comp : comp := {| K := 100; xn := 1 / 2; kf := 1 / 100; Dp := 1 / 10 ^ 6; Ds := 1 / 10 ^ 9; C0 := 50; C0_units := "ng" |}.
Definition demo_solve (l : list eqn) (T : R) : list (R * list R) := [(0, map (fun _ => 1) l); (T, map (fun q => q_E q) l)].
Definition demo_pac : pac := update_values demo_carbon {| p_dosage := 10; p_duration := 1200; p_eps := 0; p_table := [("A", (demo_comp, no_derived))]; p_conv := [dec 1 3] |}.
Example demo_created : create demo_carbon 10 1200 [("A", demo_comp)] = Ok demo_pac.
Proof. reflexivity. Qed.
Theorem C56_differs_refuted : exists o', o' = fst (run_multi_dosage demo_carbon demo_solve demo_pac [5; 20]) /\ p_dosage o' = p_dosage demo_pac /\
  run demo_carbon demo_solve o' <> run demo_carbon demo_solve demo_pac.
Proof.
  eexists. split; [reflexivity|]. split; [reflexivity|]. intros E.
  assert (X : nth 1 (match t_cols (run demo_carbon demo_solve (fst (run_multi_dosage demo_carbon demo_solve demo_pac [5; 20]))) with (_, l) :: _ => l | [] => [] end) 0 =
              nth 1 (match t_cols (run demo_carbon demo_solve demo_pac) with (_, l) :: _ => l | [] => [] end) 0) by (rewrite E; reflexivity).
  cbn -[pow] in X. unfold eps_of in X. cbn in X. lra.
Qed.

(** ** C58: units of concentrations *)
(** micrograms in a litre of water with concentration [C0] in its own unit *)
Definition ug_per_l (c : comp) : option R := option_map (Rmult (C0 c))
  (lookup (C0_units c) [("ug/L", 1); ("ug", 1); ("ng/L", 1 / 1000); ("ng", 1 / 1000); ("mg/L", 1000); ("mg", 1000)]).
(** the same water and carbon, the concentrations in any units *)
Definition same_water (a b : string * comp) : Prop :=
  fst a = fst b /\ K (snd a) = K (snd b) /\ xn (snd a) = xn (snd b) /\ kf (snd a) = kf (snd b) /\ Dp (snd a) = Dp (snd b) /\ Ds (snd a) = Ds (snd b) /\
  ug_per_l (snd a) = ug_per_l (snd b).
Definition derived_of (o : pac) : list (string * derived) := map (fun x => (fst x, snd (snd x))) (p_table o).
Inductive alike : list (string * (comp * derived)) -> list R -> list (string * (comp * derived)) -> list R -> Prop :=
| alike_nil : alike [] [] [] []
| alike_cons : forall n c c' d k k' t ks t' ks', K c = K c' -> xn c = xn c' -> kf c = kf c' -> Dp c = Dp c' -> Ds c = Ds c' -> C0 c * k = C0 c' * k' ->
    alike t ks t' ks' -> alike ((n, (c, d)) :: t) (k :: ks) ((n, (c', d)) :: t') (k' :: ks').
Lemma create_alike f dosage T l l' o o' : Forall2 same_water l l' -> create f dosage T l = Ok o -> create f dosage T l' = Ok o' ->
  alike (p_table o) (p_conv o) (p_table o') (p_conv o') /\ p_eps o = p_eps o' /\ p_dosage o = p_dosage o' /\ p_duration o = p_duration o'.
Proof.
  intros F H H'. unfold create in H, H'. destruct (bind_inv _ _ _ H) as (cv & E & H1). destruct (bind_inv _ _ _ H') as (cv' & E' & H1').
  match type of H1 with Ok ?A = _ => assert (EO : o = A) by congruence end. match type of H1' with Ok ?A = _ => assert (EO' : o' = A) by congruence end. rewrite EO, EO'. clear EO EO' H H' H1 H1'.
  cbn [update_values p_table p_conv p_eps p_dosage p_duration]. split; [|repeat split; reflexivity].
  revert cv cv' E E'. induction F as [|[n c] [n' c'] l l' S F IH]; intros cv cv' E E'; cbn in E, E'.
  - assert (cv = []) by congruence. assert (cv' = []) by congruence. subst. constructor.
  - destruct (bind_inv _ _ _ E) as (k & K1 & E1). destruct (bind_inv _ _ _ E1) as (ks & E2 & E3). destruct (bind_inv _ _ _ E') as (k' & K1' & E1'). destruct (bind_inv _ _ _ E1') as (ks' & E2' & E3').
    assert (cv = k :: ks) by congruence. assert (cv' = k' :: ks') by congruence. subst. cbn [map combine fst snd]. destruct S as (S1 & S2 & S3 & S4 & S5 & S6 & S7). cbn [fst snd] in *. subst n'.
    assert (UG : forall c k, of_option KeyError (lookup (C0_units c) conc_convert) = Ok k -> ug_per_l c = Some (C0 c * k)).
    { intros x y Q. unfold ug_per_l. unfold conc_convert, dec in Q. cbn [lookup] in Q |- *.
      repeat match type of Q with context [String.eqb ?a ?b] => destruct (String.eqb a b); [cbn in Q |- *; match type of Q with Ok ?z = _ => assert (YZ : y = z) by congruence; rewrite YZ end; f_equal; try reflexivity; field|] end. discriminate Q. }
    rewrite (UG _ _ K1), (UG _ _ K1') in S7. assert (CK : C0 c * k = C0 c' * k') by congruence.
    assert (DD : derive f (eps_of f dosage) k c = derive f (eps_of f dosage) k' c').
    { unfold derive. rewrite CK, S2, S3, S4, S5, S6. f_equal. rewrite !Rmult_assoc. rewrite CK. reflexivity. }
    rewrite DD. constructor; try assumption. apply IH; assumption.
Qed.
Lemma alike_eqns f eps t ks t' ks' : alike t ks t' ks' -> map (fun nx => eqn_of f eps (fst (snd nx))) t = map (fun nx => eqn_of f eps (fst (snd nx))) t' /\ length t = length t' /\ length ks = length t /\ length ks' = length t'.
Proof.
  induction 1 as [|n c c' d k k' t ks t' ks' H1 H2 H3 H4 H5 H6 H IH]; [repeat split; reflexivity|]. destruct IH as (I1 & I2 & I3 & I4). cbn. repeat split; [|congruence|congruence|congruence].
  f_equal; [|exact I1]. unfold eqn_of. rewrite H1, H2, H3, H4, H5. reflexivity.
Qed.
Lemma alike_cols t ks t' ks' (sol : list (R * list R)) : alike t ks t' ks' -> forall s,
  map (fun cx : string * list R * R => (fst (fst cx), map (fun x => x * snd cx) (snd (fst cx))))
    (combine (map (fun inx : nat * (string * (comp * derived)) => (fst (snd inx), map (fun s => C0 (fst (snd (snd inx))) * nth (fst inx) (snd s) 0) sol)) (combine (seq s (length t)) t)) ks) =
  map (fun cx : string * list R * R => (fst (fst cx), map (fun x => x * snd cx) (snd (fst cx))))
    (combine (map (fun inx : nat * (string * (comp * derived)) => (fst (snd inx), map (fun s => C0 (fst (snd (snd inx))) * nth (fst inx) (snd s) 0) sol)) (combine (seq s (length t')) t')) ks').
Proof.
  induction 1 as [|n c c' d k k' t ks t' ks' H1 H2 H3 H4 H5 H6 H IH]; intros s; [reflexivity|]. cbn [length seq combine map fst snd]. f_equal; [|apply IH].
  f_equal. rewrite !map_map. apply map_ext. intros p. transitivity (C0 c * k * nth s (snd p) 0); [ring|]. rewrite H6. ring.
Qed.
(** The concentrations reported in ug/L and every derived value are the same. *)
Theorem C58_reported : forall f solve dosage T l l' o o', Forall2 same_water l l' -> create f dosage T l = Ok o -> create f dosage T l' = Ok o' ->
  r_run f solve o = r_run f solve o' /\ derived_of o = derived_of o'.
Proof.
  intros f solve dosage T l l' o o' F H H'. destruct (create_alike _ _ _ _ _ _ _ F H H') as (A & E1 & _ & E3). destruct (alike_eqns f (p_eps o) _ _ _ _ A) as (Q & _). split.
  - unfold r_run, run, scale. cbn [t_min t_cols]. rewrite <- E1, <- E3, <- Q. f_equal. apply (alike_cols _ _ _ _ _ A).
  - unfold derived_of. clear - A. induction A as [|n c c' d k k' t ks t' ks' H1 H2 H3 H4 H5 H6 H IH]; [reflexivity|]. cbn. f_equal. exact IH.
Qed.
(** Reported concentrations start at the influent concentration in ug/L when the solver starts at 1. *)
Theorem C58_starts : forall f solve dosage T n c o rest u, create f dosage T [(n, c)] = Ok o -> ug_per_l c = Some u ->
  (forall qs d, exists more, solve qs d = (0, map (fun _ => 1) qs) :: more) -> t_cols (r_run f solve o) = [(n, rest)] -> hd_error rest = Some u.
Proof.
  intros f solve dosage T n c o rest u H U S E. unfold create in H. destruct (bind_inv _ _ _ H) as (cv & EC & H1). cbn in EC.
  destruct (bind_inv _ _ _ EC) as (k & EK & EC1). cbn in EC1. assert (cv = [k]) by congruence. subst cv. match type of H1 with Ok ?A = _ => assert (EO : o = A) by congruence end. subst o. clear H H1.
  unfold r_run, run, scale in E. cbn [t_cols update_values p_table p_conv p_eps p_duration p_dosage map combine fst snd length seq] in E.
  destruct (S [eqn_of f (eps_of f dosage) c] T) as (more & SE). rewrite SE in E. cbn [map fst snd nth combine] in E.
  assert (ER : rest = C0 c * 1 * k :: map (fun x => x * k) (map (fun s => C0 c * nth 0 (snd s) 0) more)) by congruence. rewrite ER. cbn [hd_error].
  assert (UG : ug_per_l c = Some (C0 c * k)).
  { unfold ug_per_l. unfold conc_convert, dec in EK. cbn [lookup] in EK |- *.
    repeat match type of EK with context [String.eqb ?a ?b] => destruct (String.eqb a b); [cbn in EK |- *; match type of EK with Ok ?z = _ => assert (YZ : k = z) by congruence; rewrite YZ end; f_equal; try reflexivity; field|] end. discriminate EK. }
  rewrite U in UG. assert (EU : u = C0 c * k) by congruence. rewrite EU. f_equal. ring.
Qed.

(** ** C87: waiting times *)
(** [col]: concentrations, in ug/L after multiplication by [cv], at increasing times. *)
Theorem C87_reached : forall target cv minutes col h, length minutes = length col -> (2 <= length col)%nat ->
  let sub := map (fun x => x * cv) col in
  falling (combine minutes sub) -> hrt_for target cv minutes col = Some h ->
  (target <= hd 0 sub -> np_interp (combine minutes sub) h = target) /\ (hd 0 sub <= target -> h = hd 0 minutes).
Proof.
  intros target cv minutes col h L L2 sub F H. unfold hrt_for in H. fold sub in H. destruct (existsb (fun x => rleb x target) sub) eqn:EX; [|discriminate H].
  assert (LS : length minutes = length sub) by (unfold sub; rewrite map_length; exact L). rewrite combine_mirror in H by exact LS.
  assert (EH : h = np_interp (mirror (combine minutes sub)) target) by congruence. clear H.
  assert (LC : length (combine minutes sub) = length sub) by (rewrite combine_length, LS; apply Nat.min_id).
  assert (L3 : (2 <= length sub)%nat) by (unfold sub; rewrite map_length; exact L2).
  assert (HD : hd (0, 0) (combine minutes sub) = (hd 0 minutes, hd 0 sub)) by (destruct minutes, sub; cbn in *; try lia; reflexivity).
  assert (N : combine minutes sub <> []) by (intros Q; rewrite Q in LC; cbn in LC; lia).
  split; intros T.
  - rewrite EH. apply inverse_interp; [exact F|lia|]. rewrite HD. cbn [snd]. split; [|exact T].
    apply existsb_exists in EX as (x & I & X). apply rleb_true in X. apply (Rle_trans _ x); [|exact X].
    assert (IP : exists m, In (m, x) (combine minutes sub)).
    { clear - I LS. revert minutes LS. induction sub as [|y s IH]; intros [|m ms] LS; try discriminate LS; [destruct I|]. destruct I as [-> |I]; [exists m; left; reflexivity|].
      destruct (IH I ms ltac:(cbn in LS; congruence)) as (m' & Q). exists m'. right. exact Q. }
    destruct IP as (m & IP). clear - IP F. revert m x IP. induction (combine minutes sub) as [|p r IH]; intros m x IP; [destruct IP|].
    assert (FR : falling r) by (intros l1 a b l2 E; apply (F (p :: l1) a b l2); rewrite E; reflexivity).
    destruct r as [|q r]; [destruct IP as [-> |[]]; cbn; lra|]. destruct (F [] p q r eq_refl) as (_ & Q).
    change (last (p :: q :: r) (0, 0)) with (last (q :: r) (0, 0)). destruct IP as [-> |IP]; [|apply (IH FR m x IP)].
    apply (Rle_trans _ (snd q)); [|cbn [snd] in Q; lra]. destruct q as [qa qb]. apply (IH FR qa qb). left. reflexivity.
  - rewrite EH. pose proof (mirror_last _ N) as ML. pose proof (mirror_falling _ F) as MF. pose proof (mirror_length (combine minutes sub)) as MM.
    destruct (mirror (combine minutes sub)) as [|p r]; [cbn in MM; lia|]. rewrite np_interp_right; [rewrite ML, HD; reflexivity|apply falling_growing, MF|]. rewrite ML, HD. cbn. exact T.
Qed.
(** A blank is left exactly when no computed concentration is at or below the target. *)
Theorem C87_blank : forall target cv minutes col, hrt_for target cv minutes col = None <-> forall x, In x col -> target < x * cv.
Proof.
  intros target cv minutes col. unfold hrt_for. destruct (existsb (fun x => rleb x target) (map (fun x => x * cv) col)) eqn:E; split; intros H; try discriminate; try reflexivity.
  - exfalso. apply existsb_exists in E as (y & I & Y). apply in_map_iff in I as (x & <- & I). apply rleb_true in Y. specialize (H x I). lra.
  - intros x I. destruct (Rlt_dec target (x * cv)) as [Q|Q]; [exact Q|]. exfalso.
    assert (X : existsb (fun x => rleb x target) (map (fun x => x * cv) col) = true) by (apply existsb_exists; exists (x * cv); split; [apply in_map_iff; exists x; split; [reflexivity|exact I]|apply rleb_true; lra]). congruence.
Qed.

(** ** C88: reference curves *)
(** Film transfer only, in a flow-through tank without adsorbed back pressure. *)
Theorem C88_flow_through : forall f eps c T, 0 < eps < 1 -> 0 < f_hrt f -> 0 < f_radius f -> 0 < kf c ->
  analytical f eps c 0 = C0 c /\
  evolves 0 T (analytical f eps c) (fun t => (C0 c - analytical f eps c t) / (eps * f_hrt f) - 3 / f_radius f * kf c * ((1 - eps) / eps) * analytical f eps c t).
Proof.
  intros f eps c T HE HH HR HK. set (a := 1 / (eps * f_hrt f) + 3 * kf c * (1 - eps) / (f_radius f * eps)).
  assert (EH : 0 < eps * f_hrt f) by nra. assert (ER : 0 < f_radius f * eps) by nra.
  assert (A : 0 < a).
  { unfold a. apply Rplus_lt_0_compat; apply Rdiv_lt_0_compat; try lra; nra. }
  set (b := C0 c / (eps * f_hrt f)).
  assert (FE : forall t, analytical f eps c t = (a * C0 c - b) / a * exp (- a * t) + b / a).
  { intros t. unfold analytical. fold a. fold b. replace (- a * t) with (- (a * t)) by ring. rewrite exp_Ropp. pose proof (exp_pos (a * t)). field. split; lra. }
  split; [rewrite FE, Rmult_0_r, exp_0; field; lra|].
  eapply evolves_ext; [intros t; symmetry; apply FE| |].
  2: { apply evolves_plus; [apply evolves_scal, (evolves_exp 0 T (- a))|apply evolves_const]. }
  intros t _. cbv beta. rewrite FE. set (e := exp (- a * t)). unfold b, a. field. repeat split; try lra; try nra.
  - intros Q. assert (a = 0); [|lra]. unfold a.
    replace (1 / (eps * f_hrt f) + 3 * kf c * (1 - eps) / (f_radius f * eps)) with ((f_radius f + 3 * kf c * (1 - eps) * f_hrt f) / (eps * f_hrt f * f_radius f)) by (field; lra).
    replace (f_radius f + 3 * kf c * (1 - eps) * f_hrt f) with 0 by lra. unfold Rdiv. ring.
Qed.
(** Film transfer in a closed vessel with a linear isotherm: carbon of volume [Vp] per volume
    of water takes up exactly what the water loses, and is at equilibrium when Y = Kd C. *)
Theorem C88_closed_vessel : forall f dosage kL Kd T, 0 < f_density f -> 0 < f_radius f -> 0 < dosage -> 0 < kL -> 0 < Kd ->
  let Vp := dosage / 1000 / 1000 / f_density f in
  let C := F_h f dosage kL Kd in
  exists Y, C 0 = 1 /\ Y 0 = 0 /\ (forall t, C t + Vp * Y t = 1) /\
    evolves 0 T C (fun t => - (3 / f_radius f * kL * Vp * (C t - Y t / Kd))) /\
    evolves 0 T Y (fun t => 3 / f_radius f * kL * (C t - Y t / Kd)).
Proof.
  intros f dosage kL Kd T HD HR HO HL HK Vp C. assert (HV : 0 < Vp) by (unfold Vp; repeat apply Rdiv_lt_0_compat; lra).
  set (r := (Kd * Vp + 1) * (3 * kL / (f_radius f * Kd))).
  assert (VE : dosage / (f_density f * 10 ^ 6) = Vp) by (unfold Vp; field; lra).
  assert (KV : 0 < Kd * Vp) by nra.
  assert (FE : forall t, C t = 1 - (1 - exp (- r * t)) * (Kd * Vp / (1 + Kd * Vp))).
  { intros t. unfold C, F_h, helfferich_film. cbv zeta. rewrite VE. f_equal. replace (1 / (1 + 1 / Vp / Kd)) with (Kd * Vp / (1 + Kd * Vp)) by (field; repeat split; nra).
    f_equal. f_equal. f_equal. unfold r. field. split; lra. }
  clearbody C Vp. exists (fun t => (1 - C t) / Vp).
  assert (E1 : evolves 0 T C (fun t => - (3 / f_radius f * kL * Vp * (C t - (1 - C t) / Vp / Kd)))).
  { eapply evolves_ext; [intros t; symmetry; apply FE| |].
    2: { eapply evolves_ext with (f := fun t => (1 - Kd * Vp / (1 + Kd * Vp)) + Kd * Vp / (1 + Kd * Vp) * exp (- r * t)); [intros t; ring| |apply evolves_plus; [apply evolves_const|apply evolves_scal, (evolves_exp 0 T (- r))]]. intros t _. reflexivity. }
    intros t _. cbv beta. rewrite FE. set (e := exp (- r * t)). unfold r. field. repeat split; lra. }
  split; [rewrite FE, Rmult_0_r, exp_0; ring|]. split; [rewrite FE, Rmult_0_r, exp_0; field; lra|]. split; [intros t; field; lra|]. split; [exact E1|].
  eapply evolves_ext with (f := fun t => 1 / Vp + (- (1 / Vp)) * C t); [intros t; field; lra| |apply evolves_plus; [apply evolves_const|apply evolves_scal, E1]].
  intros t _. cbv beta. field. lra.
Qed.

(** ** C89: unit names *)
(** sizes in metres, cubic metres, seconds, cubic metres per second and kilograms per cubic metre *)
Definition true_lengths : list (string * R) := [("cm", 1 / 100); ("m", 1); ("mm", 1 / 1000); ("in", 254 / 10000); ("ft", 3048 / 10000)].
Definition true_volumes : list (string * R) :=
  [("ml", 1 / 1000000); ("cm3", (1 / 100) ^ 3); ("l", 1 / 1000); ("gal", 3785411784 / 10 ^ 12); ("ft3", (3048 / 10000) ^ 3); ("m3", 1)].
Definition true_times : list (string * R) :=
  [("min", 60); ("mins", 60); ("hr", 3600); ("hrs", 3600); ("day", 86400); ("days", 86400); ("s", 1); ("sec", 1); ("secs", 1)].
Definition gallon : R := 3785411784 / 10 ^ 12.
Definition true_flows : list (string * R) :=
  [("ml/min", 1 / 1000000 / 60); ("ml/s", 1 / 1000000); ("gpm", gallon / 60); ("gal/min", gallon / 60); ("lpm", 1 / 1000 / 60); ("l/min", 1 / 1000 / 60);
   ("mgd", 1000000 * gallon / 86400); ("ft3/s", (3048 / 10000) ^ 3); ("cfs", (3048 / 10000) ^ 3); ("m3/s", 1)].
Definition true_concentrations : list (string * R) :=
  [("ug/L", 1 / 1000000); ("ug", 1 / 1000000); ("ng/L", 1 / 1000000000); ("ng", 1 / 1000000000); ("mg/L", 1 / 1000); ("mg", 1 / 1000)].
(** A table is right for a base unit of size [u] when it knows exactly these names and gives
    each its size in units of [u]. *)
Definition right_table (tbl true : list (string * R)) (u : R) : Prop :=
  forall n, match lookup n tbl, lookup n true with Some k, Some s => k * u = s | None, None => True | _, _ => False end.
Lemma right_by_rows u : forall tbl true, Forall2 (fun a b => fst a = fst b /\ snd a * u = snd b) tbl true -> right_table tbl true u.
Proof.
  intros tbl true F n. induction F as [|[a x] [b y] l l' [E V] F IH]; [exact I|]. cbn [fst snd] in *. subst b. cbn [lookup]. destruct (String.eqb n a); [exact V|exact IH].
Qed.
Theorem C89_units : right_table length_convert true_lengths (1 / 100) /\ right_table volume_convert true_volumes (1 / 1000000) /\
  right_table time_convert true_times 1 /\ right_table flow_convert true_flows (1 / 1000000) /\ right_table conc_convert true_concentrations (1 / 1000000).
Proof.
  repeat split; apply right_by_rows; repeat constructor; cbn [fst snd]; unfold gallon, lpg, cm_per_ft, min_per_day, dec; field.
Qed.

(** ** The hypotheses are met *)
(** One radial point, half liquid and half beads, a linear isotherm with unit slope: the
    liquid goes from 1 to 1/2 and the bead from 0 to 1/2. *)
Definition demo_eqn : eqn := {| q_rho := 1; q_K := 1; q_n := 1; q_kL := 1 / 6; q_E := 1 / 2; q_Ep := 1 / 2; q_Dp := 1; q_Ds := 1; q_ra := 1 |}.
Definition demo_C (t : R) : R := 1 / 2 + 1 / 2 * exp (- (1) * t).
Definition demo_Y (i : nat) (t : R) : R := 1 / 2 - 1 / 2 * exp (- (1) * t).
Example follows_met : follows 1 (fun _ _ => 0) (fun _ => 1 / 3) demo_eqn 0 1 demo_C demo_Y /\ demo_C 1 <> demo_C 0.
Proof.
  assert (EC : evolves 0 1 demo_C (fun t => 0 + 1 / 2 * (- (1) * exp (- (1) * t)))) by (apply evolves_plus; [apply evolves_const|apply evolves_scal, evolves_exp]).
  assert (EY : forall i, evolves 0 1 (demo_Y i) (fun t => 0 + (- (1 / 2)) * (- (1) * exp (- (1) * t)))).
  { intros i. eapply evolves_ext with (f := fun t => 1 / 2 + (- (1 / 2)) * exp (- (1) * t)); [intros t; unfold demo_Y; ring|intros; reflexivity|]. apply evolves_plus; [apply evolves_const|apply evolves_scal, evolves_exp]. }
  assert (PO : forall t, 0 < t -> pore demo_eqn (fun i => demo_Y i t) 0 = 1 / 2 - 1 / 2 * exp (- (1) * t)).
  { intros t T. unfold pore, demo_eqn. cbn [q_rho q_K q_n]. pose proof (exp_increasing (- (1) * t) 0 ltac:(lra)) as XI. rewrite exp_0 in XI.
    unfold demo_Y. replace ((1 / 2 - 1 / 2 * exp (- (1) * t)) / 1 / 1) with (1 / 2 - 1 / 2 * exp (- (1) * t)) by field. set (x := 1 / 2 - 1 / 2 * exp (- (1) * t)) in *. assert (XP : 0 < x) by (unfold x; lra). cbv zeta. rewrite (proj2 (rltb_false x 0)) by lra.
    rewrite rpow_Rpower by lra. apply Rpower_1. lra. }
  split; [split|].
  - eapply evolves_ext; [reflexivity| |exact EC]. intros t (T & _). unfold dC_dt, flux. cbn [Nat.sub]. rewrite (PO t T). unfold demo_C, demo_eqn. cbn. field.
  - intros i Hi. eapply evolves_ext; [reflexivity| |exact (EY i)]. intros t (T & _). unfold dY_dt. assert (i = 0)%nat by lia. subst i. cbn [Nat.sub Nat.eqb]. unfold flux. cbn [Nat.sub]. rewrite (PO t T).
    unfold demo_C, demo_eqn. cbn. field.
  - unfold demo_C. rewrite Rmult_0_r, exp_0. pose proof (exp_increasing (- (1) * 1) 0 ltac:(lra)) as XI. rewrite exp_0 in XI. lra.
Qed.
Example water_met : Forall2 same_water [("A", demo_comp)] [("A", {| K := 100; xn := 1 / 2; kf := 1 / 100; Dp := 1 / 10 ^ 6; Ds := 1 / 10 ^ 9; C0 := 5 / 100; C0_units := "ug/L" |})].
Proof. repeat constructor. unfold ug_per_l, demo_comp. cbn. f_equal. field. Qed.
Example study_met : exists o' r, R_HRT_calculator demo_carbon demo_solve demo_pac 10 "ng" [5; 20] "same" = (o', Ok r) /\ p_dosage o' = 20 /\ p_dosage demo_pac = 10.
Proof. eexists. eexists. split; [reflexivity|]. split; reflexivity. Qed.
Example falling_met : falling (combine [0; 10; 20] (map (fun x => x * 1) [8; 4; 2])) /\ exists h, hrt_for 3 1 [0; 10; 20] [8; 4; 2] = Some h /\ np_interp (combine [0; 10; 20] (map (fun x => x * 1) [8; 4; 2])) h = 3.
Proof.
  assert (F : falling (combine [0; 10; 20] (map (fun x => x * 1) [8; 4; 2]))).
  { intros l1 a b l2 E. destruct l1 as [|x [|y [|z l1]]]; cbn in E; inversion E; subst; cbn; try lra. destruct l1; discriminate. }
  split; [exact F|]. unfold hrt_for at 1. replace (existsb (fun x => rleb x 3) (map (fun x => x * 1) [8; 4; 2])) with true.
  2: { symmetry. apply existsb_exists. exists (2 * 1). split; [right; right; left; reflexivity|apply rleb_true; lra]. }
  eexists. split; [reflexivity|]. refine (proj1 (C87_reached 3 1 [0; 10; 20] [8; 4; 2] _ eq_refl _ F _) _); [cbn; lia| |cbn; lra].
  unfold hrt_for. replace (existsb (fun x => rleb x 3) (map (fun x => x * 1) [8; 4; 2])) with true; [reflexivity|].
  symmetry. apply existsb_exists. exists (2 * 1). split; [right; right; left; reflexivity|apply rleb_true; lra].
Qed.
Example tank_met : known_shape tank /\ positive_rows tank.
Proof.
  split.
  - right. right. split; [reflexivity|]. intros r E. cbn in E. inversion E. discriminate.
  - intros k r x E V. unfold tank in E. cbn [lookup] in E. repeat match type of E with context [String.eqb k ?b] => destruct (String.eqb k b); [inversion E; subst r; cbn in V; inversion V; lra|] end. discriminate E.
Qed.
Print Assumptions C55_conservation.
Print Assumptions C55_equilibrium.
Print Assumptions C85_water_density_partial.
Print Assumptions C85_dose_refuted.
Print Assumptions C84_linear_partial.
Print Assumptions C84_concentration_refuted.
Print Assumptions C57_volume.
Print Assumptions C57_given.
Print Assumptions C57_format.
Print Assumptions C57_volume_suffices.
Print Assumptions C90_length_given_partial.
Print Assumptions C90_volume_refuted.
Print Assumptions C86_without_volume_partial.
Print Assumptions C86_exception_refuted.
Print Assumptions C86_count_refuted.
Print Assumptions C56_multi_dose_partial.
Print Assumptions C56_next_run_refuted.
Print Assumptions C56_waiting_time_partial.
Print Assumptions C56_waiting_time_dose_refuted.
Print Assumptions C56_refused_refuted.
Print Assumptions C56_differs_refuted.
Print Assumptions C58_reported.
Print Assumptions C58_starts.
Print Assumptions C87_reached.
Print Assumptions C87_blank.
Print Assumptions C88_flow_through.
Print Assumptions C88_closed_vessel.
Print Assumptions C89_units.
