(** Properties C49, C50 and C78: the equilibrium column model. *)
From Coq Require Import Reals List Arith Bool String Lra Lia.
From Verif Require Import Lib_Py Lib_Pow M_GacSheet M_GacFun P_GacFun Lib_Sum M_Ecm.
Import ListNotations.
Open Scope R_scope.
Local Notation length := List.length.

(** ** Vocabulary
    Zone [k] lies between the waves [k-1] and [k], which move away from the inlet at the
    velocities [v (k-1)] and [v k]; wave [i] is the front of compound [i].  Per unit of
    cross-section and time a zone of loading q and concentration c grows by
    (q rhob + c eps)(v k - v (k-1)). *)
Definition holdup (e : ecm_in) (st : est) (k i : nat) : R := qs st k i * e_rhob e + cs st k i * e_eps e.
Definition before (v : nat -> R) (k : nat) : R := match k with O => 0 | S p => v p end.
(** Everything of compound [i] that enters is in the zones up to its front. *)
Definition balanced (e : ecm_in) (st : est) (i : nat) : Prop :=
  rsum (S i) (fun k => holdup e st k i * (vw st k - before (vw st) k)) = e_vf e * e_Co e i.
(** Across wave [k] compound [i] is neither created nor lost. *)
Definition jump (e : ecm_in) (st : est) (k i : nat) : Prop :=
  vw st k * (holdup e st k i - holdup e st (S k) i) = e_vf e * (cs st k i - cs st (S k) i).

Section Run.
Variables (mass : bool) (c : sheet) (b : bedsheet).
Let e := process_input mass c b.
Variables (root0 : nat -> R) (root : nat -> est -> nat -> R).
Hypothesis MWpos : forall i, 0 < sh_MW c i.

Lemma stage_keep i st r : r <> i -> vw (stage e root i st) r = vw st r /\ (forall k, qs (stage e root i st) r k = qs st r k) /\
  (forall k, cs (stage e root i st) r k = cs st r k).
Proof.
  intros H. unfold stage. cbn [vw qs cs]. rewrite (proj2 (Nat.eqb_neq r i)) by exact H. repeat split.
Qed.
Lemma stages_keep : forall more i st r, (r < i)%nat -> vw (stages e root more i st) r = vw st r /\
  (forall k, qs (stages e root more i st) r k = qs st r k) /\ (forall k, cs (stages e root more i st) r k = cs st r k).
Proof.
  induction more as [|m IH]; intros i st r H; [repeat split|]. cbn [stages].
  destruct (IH (S i) (stage e root i st) r ltac:(lia)) as (A & B & C). destruct (stage_keep i st r ltac:(lia)) as (A' & B' & C').
  rewrite A, A'. split; [reflexivity|]. split; intros k; [rewrite B, B'|rewrite C, C']; reflexivity.
Qed.
Lemma stage_vw i s : vw (stage e root i s) i =
  (e_vf e * cs (stage e root i s) 0 i - rsum i (fun k => (qs (stage e root i s) k i * e_rhob e + cs (stage e root i s) k i * e_eps e) *
                                   (vw s k - (if Nat.eqb k 0 then 0 else vw s (k - 1)%nat)))
   + holdup e (stage e root i s) i i * vw s (i - 1)%nat) / holdup e (stage e root i s) i i.
Proof. unfold holdup, stage. cbn [vw qs cs]. rewrite Nat.eqb_refl. reflexivity. Qed.
Definition agree (m : nat) (s t : est) : Prop :=
  forall r, (r < m)%nat -> vw s r = vw t r /\ (forall k, qs s r k = qs t r k) /\ (forall k, cs s r k = cs t r k).
Lemma stages_at : forall more i0 st i, (i0 <= i < i0 + more)%nat ->
  exists s, agree i s (stages e root more i0 st) /\ agree (S i) (stage e root i s) (stages e root more i0 st).
Proof.
  induction more as [|m IH]; intros i0 st i H; [lia|]. cbn [stages]. destruct (Nat.eq_dec i i0) as [-> |N].
  - exists st. split; intros r Hr.
    + destruct (stages_keep m (S i0) (stage e root i0 st) r ltac:(lia)) as (A & B & C). destruct (stage_keep i0 st r ltac:(lia)) as (A' & B' & C').
      rewrite A, A'. split; [reflexivity|]. split; intros k; [rewrite B, B'|rewrite C, C']; reflexivity.
    + destruct (stages_keep m (S i0) (stage e root i0 st) r ltac:(lia)) as (A & B & C). rewrite A. split; [reflexivity|]. split; intros k; [rewrite B|rewrite C]; reflexivity.
  - apply IH. lia.
Qed.
Lemma start_row : forall n, (forall k, qs (stages e root n 1 (start_state e root0)) 0 k = root0 k) /\
  (forall k, cs (stages e root n 1 (start_state e root0)) 0 k = e_Co e k) /\
  vw (stages e root n 1 (start_state e root0)) 0 = e_vf e * e_C0 e 0%nat / (root0 0%nat * e_MW e 0%nat * e_rhob e + e_C0 e 0%nat * e_eps e).
Proof.
  intros n. destruct (stages_keep n 1 (start_state e root0) 0 ltac:(lia)) as (A & B & C). split; [|split].
  - intros k. rewrite B. reflexivity.
  - intros k. rewrite C. reflexivity.
  - rewrite A. reflexivity.
Qed.

Notation st := (run_ecm e root0 root).
(** The integral balance holds for every compound, whatever the root finders return. *)
Theorem C49_mass_balance : (forall i, (i < e_n e)%nat -> holdup e st i i <> 0) ->
  forall i, (i < e_n e)%nat -> balanced e st i.
Proof.
  intros HD i Hi. specialize (HD i Hi). unfold balanced, run_ecm in *. destruct (start_row (e_n e - 1)) as (SQ & SC & SV).
  destruct i as [|i].
  - cbn [rsum before]. unfold holdup in *. rewrite SQ, SC in *. rewrite SV. specialize (MWpos 0%nat).
    assert (E : e_C0 e 0%nat = e_Co e 0%nat * e_MW e 0%nat) by (unfold e, process_input; cbn; field; lra).
    assert (MW0 : e_MW e 0%nat <> 0) by (unfold e, process_input; cbn; lra).
    rewrite E. replace (root0 0%nat * e_MW e 0%nat * e_rhob e + e_Co e 0%nat * e_MW e 0%nat * e_eps e) with
      (e_MW e 0%nat * (root0 0%nat * e_rhob e + e_Co e 0%nat * e_eps e)) by ring. field. split; assumption.
  - destruct (stages_at (e_n e - 1) 1 (start_state e root0) (S i) ltac:(lia)) as (s & G1 & G2).
    set (f := stages e root (e_n e - 1) 1 (start_state e root0)) in *.
    destruct (G2 (S i) ltac:(lia)) as (V & Q & C).
    change (rsum (S i) (fun k => holdup e f k (S i) * (vw f k - before (vw f) k)) + holdup e f (S i) (S i) * (vw f (S i) - vw f i) = e_vf e * e_Co e (S i)).
    assert (HF : forall r, (r < S (S i))%nat -> holdup e (stage e root (S i) s) r (S i) = holdup e f r (S i)).
    { intros r Hr. destruct (G2 r Hr) as (_ & Q' & C'). unfold holdup. rewrite Q', C'. reflexivity. }
    assert (D : holdup e (stage e root (S i) s) (S i) (S i) <> 0) by (rewrite HF by lia; exact HD).
    rewrite <- HF by lia. rewrite <- V.
    assert (M : rsum (S i) (fun k => holdup e f k (S i) * (vw f k - before (vw f) k)) =
      rsum (S i) (fun k => (qs (stage e root (S i) s) k (S i) * e_rhob e + cs (stage e root (S i) s) k (S i) * e_eps e) *
                                   (vw s k - (if Nat.eqb k 0 then 0 else vw s (k - 1)%nat)))).
    { apply rsum_ext. intros k Hk. rewrite <- HF by lia. unfold holdup. f_equal. destruct (G1 k Hk) as (-> & _).
      destruct k as [|k]; [reflexivity|]. cbn [before Nat.eqb Nat.sub]. rewrite Nat.sub_0_r. destruct (G1 k ltac:(lia)) as (-> & _). reflexivity. }
    rewrite M.
    assert (VI : vw f i = vw s i) by (symmetry; apply (G1 i ltac:(lia))). rewrite VI.
    assert (C0 : cs (stage e root (S i) s) 0 (S i) = e_Co e (S i)) by (rewrite (proj2 (proj2 (G2 0%nat ltac:(lia)))); apply SC).
    set (mid := rsum (S i) _).
    assert (VS : vw (stage e root (S i) s) (S i) = (e_vf e * cs (stage e root (S i) s) 0 (S i) - mid + holdup e (stage e root (S i) s) (S i) (S i) * vw s i) / holdup e (stage e root (S i) s) (S i) (S i)).
    { rewrite stage_vw. replace (S i - 1)%nat with i by lia. reflexivity. }
    rewrite VS, C0. field. exact D.
Qed.

(** Where the root finders succeed exactly, every wave satisfies the jump condition for
    every compound ahead of it, and every front moves with the holdup of its own zone. *)
Definition exact_roots : Prop :=
  (forall j, (j < e_n e)%nat -> fcn e (fun j => qs st 0 j) j = 0) /\
  forall i, (1 <= i < e_n e)%nat -> forall j, (j < e_n e - i)%nat -> fcn_extra e st i (fun j => qs st i (i + j)%nat) j = 0.
Lemma row_eq i j : (1 <= i < e_n e)%nat -> (j < e_n e - i)%nat -> cs st i (i + j)%nat = fcn2 e i (fun j => qs st i (i + j)%nat) j.
Proof.
  intros Hi Hj. destruct (stages_at (e_n e - 1) 1 (start_state e root0) i ltac:(lia)) as (s & G1 & G2). fold st in G1, G2.
  destruct (G2 i ltac:(lia)) as (_ & Q & C). rewrite <- C. unfold stage at 1. cbn [cs]. rewrite Nat.eqb_refl.
  rewrite (proj2 (Nat.leb_le i (i + j))) by lia. cbn [andb]. replace (i + j - i)%nat with j by lia.
  assert (X : forall k, root i s k = qs st i (i + k)%nat).
  { intros k. rewrite <- Q. unfold stage. cbn [qs]. rewrite Nat.eqb_refl, (proj2 (Nat.leb_le i (i + k))) by lia. cbn [andb].
    replace (i + k - i)%nat with k by lia. reflexivity. }
  unfold fcn2. rewrite X. rewrite (rsum_ext (e_n e - i) (root i s) (fun k => qs st i (i + k)%nat)) by (intros; apply X).
  rewrite (rsum_ext (e_n e - i) (fun j0 => e_xn e (i + j0)%nat * root i s j0) (fun j0 => e_xn e (i + j0)%nat * qs st i (i + j0)%nat)) by (intros; rewrite X; reflexivity).
  reflexivity.
Qed.
Theorem C49_waves : exact_roots -> (forall i, (i < e_n e)%nat -> holdup e st i i <> 0) ->
  (forall i, (i < e_n e)%nat -> e_vf e - vw st i * e_eps e <> 0) ->
  (forall k i, (k < i < e_n e)%nat -> jump e st k i) /\
  (forall i, (i < e_n e)%nat -> vw st i * holdup e st i i = e_vf e * cs st i i).
Proof.
  intros (X0 & X) HD HV.
  assert (J : forall k i, (k < i < e_n e)%nat -> jump e st k i).
  { intros k i H. specialize (X (S k) ltac:(lia) (i - S k)%nat ltac:(lia)). unfold fcn_extra in X.
    rewrite <- row_eq in X by lia. replace (S k + (i - S k))%nat with i in X by lia. replace (S k - 1)%nat with k in X by lia.
    specialize (HV k ltac:(lia)). unfold jump, holdup. set (v := vw st k) in *. set (D := e_vf e - v * e_eps e) in *.
    assert (Y : (qs st (S k) i - qs st k i) * e_rhob e * v = (cs st (S k) i - cs st k i) * D).
    { replace ((qs st (S k) i - qs st k i) * e_rhob e * v) with ((qs st (S k) i - qs st k i) * e_rhob e * v / D * D) by (field; exact HV).
      f_equal. lra. }
    unfold D in Y. lra. }
  split; [exact J|]. intros i Hi. pose proof (C49_mass_balance HD i Hi) as B. unfold balanced in B.
  assert (S0 : forall m, (m <= i)%nat -> rsum m (fun k => holdup e st k i * (vw st k - before (vw st) k)) =
    before (vw st) m * holdup e st m i + e_vf e * (e_Co e i - cs st m i)).
  { induction m as [|m IH]; intros Hm.
    - cbn [rsum before]. destruct (start_row (e_n e - 1)) as (_ & SC & _). unfold run_ecm. rewrite SC. lra.
    - cbn [rsum]. rewrite IH by lia. cbn [before]. pose proof (J m i ltac:(lia)) as Q. unfold jump in Q. lra. }
  cbn [rsum] in B. rewrite S0 in B by lia. lra.
Qed.

(** In every zone the water is in equilibrium with the loadings there, by the competitive
    isotherm over the compounds that are present: behind the first front if its roots are
    exact, in the other zones always. *)
Theorem C49_equilibrium : exact_roots -> forall i j, (i <= j < e_n e)%nat ->
  let present f := rsum (e_n e - i) (fun k => f (i + k)%nat) in
  let n k := 1 / sh_xni c k in
  cs st i j = qs st i j / present (qs st i) * rpow (present (fun k => n k * qs st i k) / (n j * e_K e j)) (n j).
Proof.
  intros (X0 & _) i j H. cbv zeta. destruct i as [|i].
  - specialize (X0 j ltac:(lia)). unfold fcn in X0. unfold run_ecm at 1. rewrite (proj1 (proj2 (start_row (e_n e - 1)))).
    specialize (MWpos j). change (e_C0 e j) with (sh_C0 c j) in X0. change (e_MW e j) with (sh_MW c j) in X0.
    change (e_Co e j) with (sh_C0 c j / sh_MW c j).
    apply (Rmult_eq_reg_r (sh_MW c j)); [|lra]. replace (sh_C0 c j / sh_MW c j * sh_MW c j) with (sh_C0 c j) by (field; lra).
    apply Rminus_diag_uniq_sym. exact X0.
  - replace j with (S i + (j - S i))%nat at 1 by lia. rewrite row_eq by lia. unfold fcn2.
    replace (S i + (j - S i))%nat with j by lia. reflexivity.
Qed.

(** The bed of the input sheet: the flow in gallons (3785.411784 mL) a minute on a square foot
    (30.48 cm) as a velocity in cm/s, the density in g/mL as g/L, 2.765 m when no length is given. *)
Definition applied : R := bs_flrt b * (3785411784 / 1000000) / (3048 / 100 * (3048 / 100)) / 60.
Definition length_cm : R := 100 * match bs_L b with Some l => l | None => 2765 / 1000 end.
Theorem C49_units : e_vf e = applied /\ e_rhob e = 1000 * bs_density b /\ e_eps e = bs_void b /\
  forall i, e_Co e i = sh_C0 c i / sh_MW c i.
Proof.
  unfold e, process_input, applied. cbn [e_vf e_rhob e_eps e_Co]. split; [unfold ml_pergal, cm_perft, dec; field|]. split; [ring|]. split; reflexivity.
Qed.
(** Bed volumes, specific throughput and time follow from the wave velocity: the time for
    the front to cross the bed, the water applied until then per bed volume and per mass
    of carbon. *)
Theorem C49_times : forall i, (i < sh_n c)%nat -> vw st i <> 0 -> bs_density b <> 0 -> bs_flrt b <> 0 -> length_cm <> 0 ->
  let seconds := days_to_breakthrough e root0 root i * 86400 in
  vw st i * seconds = length_cm /\
  bvf e root0 root i = applied * seconds / length_cm /\
  usage_rate e root0 root i = applied * seconds / (length_cm * (1000 * bs_density b)).
Proof.
  intros i Hi HV HR HF HL. destruct C49_units as (EV & ER & _). rewrite <- EV, <- ER.
  assert (HV' : e_vf e <> 0) by (rewrite EV; unfold applied; intros Z; apply HF; lra).
  assert (HR' : e_rhob e <> 0) by (rewrite ER; lra).
  assert (EL : length_cm = bed_length e * 100).
  { unfold length_cm, bed_length, e. cbn [process_input e_L]. destruct (bs_L b); [ring|unfold dec; field]. }
  rewrite EL in *. assert (HL' : bed_length e <> 0) by (intros Z; apply HL; rewrite Z; ring).
  unfold usage_rate, bvf, days_to_breakthrough.
  set (v := vw st i) in *. cbv zeta. split; [field; exact HV|]. split; field; repeat split; assumption.
Qed.

(** ** C50 *)
(** A constant given in mass units: the same mass loading at every concentration. *)
Theorem C50_mass_units : mass = true -> forall i C, 0 <= C ->
  sh_xni c i <> 0 ->
  e_K e i * rpow (C / e_MW e i) (e_xni e i) * e_MW e i = sh_K c i * rpow C (sh_xni c i).
Proof.
  intros HM i C HC HX. unfold e, process_input. rewrite HM. cbn [e_K e_MW e_xni]. specialize (MWpos i). set (m := sh_MW c i) in *.
  assert (P : rpow (1 / m) (sh_xni c i) <> 0) by (apply Rgt_not_eq, rpow_pos; apply Rdiv_lt_0_compat; lra).
  destruct HC as [HC|<-].
  - replace (C / m) with (C * (1 / m)) by (field; lra). rewrite rpow_mult by (try exact HC; apply Rdiv_lt_0_compat; lra). field. split; [lra|exact P].
  - replace (0 / m) with 0 by (field; lra). rewrite rpow_0 by exact HX. ring.
Qed.
(** One compound: the competitive isotherm is the Freundlich isotherm. *)
Theorem C50_one_compound : e_n e = 1%nat -> forall x, 0 < x 0%nat -> 0 < e_K e 0%nat -> 0 < e_xni e 0%nat ->
  x 0%nat = e_K e 0%nat * rpow (fcn2 e 0 x 0) (e_xni e 0%nat).
Proof.
  intros Hn x Hx HK HP. unfold fcn2. rewrite Hn. cbn [Nat.sub rsum Nat.add].
  assert (EX : e_xn e 0%nat = 1 / e_xni e 0%nat) by reflexivity. rewrite EX. set (p := e_xni e 0%nat) in *.
  replace ((0 + 1 / p * x 0%nat) / (1 / p * e_K e 0%nat)) with (x 0%nat / e_K e 0%nat) by (field; split; lra).
  replace (x 0%nat / (0 + x 0%nat)) with 1 by (field; lra). rewrite Rmult_1_l.
  rewrite rpow_rpow by (apply Rdiv_lt_0_compat; assumption). replace (1 / p * p) with 1 by (field; lra).
  rewrite rpow_1 by (left; apply Rdiv_lt_0_compat; assumption). field. lra.
Qed.
(** Compounds that are alike share the loading of one compound at the total
    concentration, in proportion. *)
Theorem C50_alike : forall x start K p, (start < e_n e)%nat ->
  (forall i, (i < e_n e)%nat -> e_K e i = K /\ e_xn e i = p) -> 0 < p -> 0 < K ->
  0 < rsum (e_n e - start) x ->
  forall j, (j < e_n e - start)%nat ->
    fcn2 e start x j = x j / rsum (e_n e - start) x * rpow (rsum (e_n e - start) x / K) p.
Proof.
  intros x start K p Hs H Hp HK HQ j Hj. unfold fcn2. set (m := (e_n e - start)%nat) in *.
  destruct (H (start + j)%nat ltac:(lia)) as (-> & ->).
  rewrite (rsum_ext m (fun j0 => e_xn e (start + j0)%nat * x j0) (fun j0 => p * x j0)).
  2:{ intros i Hi. destruct (H (start + i)%nat ltac:(lia)) as (_ & ->). reflexivity. }
  rewrite rsum_scal. f_equal. f_equal. field. lra.
Qed.
(** The reported single-solute capacity is the carbon that holds the compound of one litre
    (in mg per litre when loadings are per g). *)
Theorem C50_capacity : forall i, 0 < e_Co e i -> e_K e i <> 0 ->
  sstc e i * (e_K e i * rpow (e_Co e i) (e_xni e i)) = 1000 * e_Co e i.
Proof.
  intros i HC HK. unfold sstc. replace (1000 * rpow (e_Co e i) (1 - e_xni e i) / e_K e i * (e_K e i * rpow (e_Co e i) (e_xni e i)))
    with (1000 * (rpow (e_Co e i) (1 - e_xni e i) * rpow (e_Co e i) (e_xni e i))) by (field; exact HK).
  rewrite <- rpow_plus by exact HC. replace (1 - e_xni e i + e_xni e i) with 1 by ring. rewrite rpow_1 by lra. reflexivity.
Qed.

(** ** C78: the plotted breakthrough curve *)
(** A staircase: value [y] from each time of [steps] on, [y0] before. *)
Fixpoint stairs (y0 : R) (steps : list (R * R)) (endt : R) : list (R * R) :=
  match steps with [] => [(endt, y0)] | (d, y) :: r => (d, y0) :: (d, y) :: stairs y r endt end.
Fixpoint ascending (l : list (R * R)) (endt : R) : Prop :=
  match l with [] => True | (d, _) :: r => (match r with [] => d < endt | (d', _) :: _ => d < d' end) /\ ascending r endt end.
Fixpoint stair_value (y0 : R) (steps : list (R * R)) (t : R) : R :=
  match steps with [] => y0 | (d, y) :: r => if Rlt_dec d t then stair_value y r t else y0 end.
Lemma line_flat x0 x1 y t : line x0 y x1 y t = y. Proof. unfold line. unfold Rdiv. ring. Qed.
Lemma stairs_ok : forall steps x0 y0 endt t, (match steps with [] => x0 < endt | (d, _) :: _ => x0 < d end) -> ascending steps endt -> x0 < t ->
  (forall d y, In (d, y) steps -> t <> d) ->
  interp_x ((x0, y0) :: stairs y0 steps endt) t = stair_value y0 steps t.
Proof.
  induction steps as [|[d y] r IH]; intros x0 y0 endt t H0 HA Ht HN.
  - cbn. apply line_flat.
  - cbn [stairs stair_value]. destruct HA as (H1 & HA).
    assert (NE : exists a rest, stairs y r endt = a :: rest) by (destruct r as [|[? ?] ?]; cbn; eauto).
    destruct NE as (a & rest & NE).
    assert (Nd : t <> d) by (apply (HN d y); left; reflexivity).
    cbn [interp_x]. destruct (Rlt_dec d t) as [L|L].
    + specialize (IH d y endt t). rewrite <- IH; [|destruct r as [|[d' y'] r']; exact H1|exact HA|exact L|intros d' y' Hd; apply (HN d' y'); right; exact Hd].
      rewrite NE. destruct a as [xa ya]. cbn [interp_x]. rewrite (proj2 (rleb_false t d)) by lra. reflexivity.
    + rewrite (proj2 (rleb_true t d)) by lra. apply line_flat.
Qed.
Lemma points_stairs : forall (ds ys : list R) (y0 endt : R), length ds = length ys ->
  combine (twice ds ++ [endt])%list (y0 :: twice ys)%list = stairs y0 (combine ds ys) endt.
Proof.
  induction ds as [|d ds IH]; intros [|y ys] y0 endt L; try discriminate L; [reflexivity|].
  cbn [twice flat_map app combine stairs]. f_equal. f_equal. apply IH. injection L as L. exact L.
Qed.
Notation days := (days_to_breakthrough e root0 root).
Lemma map_combine {A} (f g : A -> R) l : combine (map f l) (map g l) = map (fun k => (f k, g k)) l.
Proof. induction l as [|a l IH]; [reflexivity|]. cbn. rewrite IH. reflexivity. Qed.
Lemma rev_seq_S n : rev (seq 0 (S n)) = n :: rev (seq 0 n).
Proof. rewrite seq_S, rev_app_distr. reflexivity. Qed.
Theorem C78_plotted_curve : forall j t, (1 <= e_n e)%nat ->
  (forall k, (S k < e_n e)%nat -> days (S k) < days k) -> 0 < days (e_n e - 1)%nat -> 0 < t ->
  (t < days (e_n e - 1)%nat -> plot_obj e root0 root j t = 0) /\
  (forall k, (k < e_n e)%nat -> days k < t -> (k = 0%nat \/ t < days (k - 1)%nat) -> plot_obj e root0 root j t = cs st k j * e_MW e j).
Proof.
  intros j t Hn Hd H0 Ht.
  set (g := fun k => cs st k j * e_MW e j).
  assert (P : plot_points e root0 root j = (0, 0) :: stairs 0 (map (fun k => (days k, g k)) (rev (seq 0 (e_n e)))) (days 0%nat + 1)).
  { unfold plot_points. cbv zeta. cbn [app combine]. f_equal. rewrite points_stairs by (rewrite !map_length; reflexivity).
    rewrite map_combine. reflexivity. }
  unfold plot_obj. rewrite P. clear P.
  assert (A : forall m, (m <= e_n e)%nat -> ascending (map (fun k => (days k, g k)) (rev (seq 0 m))) (days 0%nat + 1)).
  { induction m as [|m IH]; intros Hm; [exact I|]. rewrite rev_seq_S. cbn [map ascending]. split; [|apply IH; lia].
    destruct m as [|m]; [cbn; lra|]. rewrite rev_seq_S. cbn [map]. apply Hd. lia. }
  assert (LE : forall a b0, (a <= b0 < e_n e)%nat -> days b0 <= days a).
  { intros a b0 (H1 & H2). induction H1 as [|b0 H1 IH]; [lra|]. specialize (Hd b0 H2). specialize (IH ltac:(lia)). lra. }
  assert (ST : forall m y0 k, (m <= e_n e)%nat -> (k < m)%nat -> days k < t -> (k = 0%nat \/ t < days (k - 1)%nat) ->
             stair_value y0 (map (fun k => (days k, g k)) (rev (seq 0 m))) t = g k).
  { induction m as [|m IH]; intros y0 k Hm Hk Hdk Ht'; [lia|]. rewrite rev_seq_S. cbn [map stair_value].
    destruct (Rlt_dec (days m) t) as [L|L].
    - destruct (Nat.eq_dec k m) as [-> |N]; [|apply IH; try assumption; lia].
      destruct m as [|m]; [reflexivity|]. rewrite rev_seq_S. cbn [map stair_value]. destruct Ht' as [F|F]; [discriminate F|].
      replace (S m - 1)%nat with m in F by lia. destruct (Rlt_dec (days m) t); [lra|reflexivity].
    - exfalso. pose proof (LE k m ltac:(lia)). lra. }
  assert (HEAD : match map (fun k => (days k, g k)) (rev (seq 0 (e_n e))) with [] => 0 < days 0%nat + 1 | (d, _) :: _ => 0 < d end).
  { destruct (e_n e) as [|m]; [lia|]. rewrite rev_seq_S. cbn [map]. replace (S m - 1)%nat with m in H0 by lia. exact H0. }
  split.
  - intros Hlt. rewrite stairs_ok; [|exact HEAD|apply A; lia|exact Ht|].
    + destruct (e_n e) as [|m]; [lia|]. rewrite rev_seq_S. cbn [map stair_value]. replace (S m - 1)%nat with m in Hlt by lia.
      destruct (Rlt_dec (days m) t); [lra|reflexivity].
    + intros d y I E. subst d. apply in_map_iff in I as (k & I & K). injection I as I _. apply in_rev, in_seq in K.
      pose proof (LE k (e_n e - 1)%nat ltac:(lia)). lra.
  - intros k Hk Hdk Hup. rewrite stairs_ok; [apply ST; try assumption; lia|exact HEAD|apply A; lia|exact Ht|].
    intros d y I E. subst d. apply in_map_iff in I as (k' & I & K). injection I as I _. apply in_rev, in_seq in K.
    destruct (le_lt_dec k k') as [L|L]; [pose proof (LE k k' ltac:(lia)); lra|].
    destruct Hup as [-> |Hup]; [lia|]. pose proof (LE k' (k - 1)%nat ltac:(lia)). lra.
Qed.
End Run.

(** ** A two-compound column meeting all hypotheses *)
Definition sheet2 : sheet := {| sh_n := 2; sh_K := fun i => match i with O => 2 | _ => 1 end; sh_xni := fun _ => 1; sh_C0 := fun _ => 1; sh_MW := fun _ => 1 |}.
Definition bed2 : bedsheet := {| bs_flrt := 4 / (ml_pergal / cm_perft ^ 2 / 60); bs_density := 1 / 1000; bs_void := 1; bs_L := None |}.
Definition r0 (i : nat) : R := match i with O => 2 | _ => 1 end.
Definition r1 (i : nat) (s : est) (j : nat) : R := 1.
Lemma vf2 : e_vf (process_input false sheet2 bed2) = 4.
Proof. cbn. unfold ml_pergal, cm_perft, dec. field. Qed.
Lemma run2 : let e := process_input false sheet2 bed2 in let st := run_ecm e r0 r1 in
  vw st 0 = 4 / 3 /\ vw st 1 = 2 /\ (forall k, qs st 0 k = r0 k) /\ (forall k, cs st 0 k = 1) /\ qs st 1 1 = 1 /\ cs st 1 1 = 1.
Proof.
  cbv zeta. set (e := process_input false sheet2 bed2).
  assert (F : e_vf e = 4) by exact vf2.
  unfold run_ecm. change (e_n e - 1)%nat with 1%nat. cbn [stages]. unfold stage, start_state. cbn [vw qs cs Nat.eqb Nat.leb Nat.sub andb rsum].
  assert (C1 : fcn2 e 1 (r1 1 (start_state e r0)) 0 = 1).
  { unfold fcn2. change (e_n e - 1)%nat with 1%nat. cbn [rsum Nat.add]. unfold r1. cbn [e process_input e_xn e_K sh_xni sh_K sheet2].
    replace ((0 + 1 / 1 * 1) / (1 / 1 * 1)) with 1 by field. replace (1 / 1) with 1 by field. rewrite rpow_1 by lra. field. }
  unfold start_state in C1. rewrite C1. rewrite F. unfold r1, r0. cbn [e process_input e_C0 e_MW e_rhob e_eps e_Co sh_C0 sh_MW sheet2 bed2 bs_density bs_void].
  repeat split; try (intros; reflexivity); try (intros; field); field.
Qed.
Example C49_example : let e := process_input false sheet2 bed2 in let st := run_ecm e r0 r1 in
  (forall i, 0 < sh_MW sheet2 i) /\ exact_roots false sheet2 bed2 r0 r1 /\ (forall i, (i < e_n e)%nat -> holdup e st i i <> 0) /\
  (forall i, (i < e_n e)%nat -> e_vf e - vw st i * e_eps e <> 0) /\
  (forall k, (S k < e_n e)%nat -> days_to_breakthrough e r0 r1 (S k) < days_to_breakthrough e r0 r1 k).
Proof.
  cbv zeta. destruct run2 as (V0 & V1 & Q0 & C0 & Q1 & C1). cbv zeta in *. pose proof vf2 as F.
  set (e := process_input false sheet2 bed2) in *. set (st := run_ecm e r0 r1) in *.
  assert (TWO : forall i, (i < e_n e)%nat -> i = 0%nat \/ i = 1%nat) by (change (e_n e) with 2%nat; lia).
  split; [intros; cbn; lra|]. split; [|split; [|split]].
  - split.
    + intros j Hj. unfold fcn, fcn2. fold e. fold st. change (e_n e - 0)%nat with 2%nat. cbn [rsum Nat.add]. rewrite !Q0.
      cbn [e process_input e_xn e_K e_MW e_C0 sh_xni sh_K sheet2 sh_MW sh_C0]. unfold r0.
      replace (1 / 1) with 1 by field. destruct (TWO j Hj) as [-> | ->]; cbv beta iota; fold st; rewrite (Q0 0%nat), (Q0 1%nat); cbn [r0]; (rewrite rpow_1; [field|apply Rlt_le, Rdiv_lt_0_compat; lra]).
    + intros i Hi j Hj. assert (i = 1%nat) by (change (e_n (process_input false sheet2 bed2)) with 2%nat in *; lia). subst i.
      change (e_n (process_input false sheet2 bed2) - 1)%nat with 1%nat in Hj. assert (j = 0%nat) by lia. subst j.
      unfold fcn_extra. fold e. fold st. cbn [Nat.sub Nat.add]. rewrite F, V0, Q0, C0, Q1.
      unfold fcn2. change (e_n e - 1)%nat with 1%nat. cbn [rsum Nat.add]. rewrite Q1.
      cbn [e process_input e_xn e_K e_rhob e_eps sh_xni sh_K sheet2 bed2 bs_density bs_void]. unfold r0.
      replace ((0 + 1 / 1 * 1) / (1 / 1 * 1)) with 1 by field. replace (1 / 1) with 1 by field. rewrite rpow_1 by lra. field.
  - intros i Hi. unfold holdup. destruct (TWO i Hi) as [-> | ->]; rewrite ?Q0, ?C0, ?Q1, ?C1; cbn; lra.
  - intros i Hi. rewrite F. cbn [e process_input e_eps bed2 bs_void]. destruct (TWO i Hi) as [-> | ->]; rewrite ?V0, ?V1; lra.
  - intros k Hk. assert (k = 0%nat) by (change (e_n e) with 2%nat in Hk; lia). subst k. unfold days_to_breakthrough. fold st. rewrite V0, V1.
    unfold bed_length. cbn [e process_input e_L bed2 bs_L]. unfold dec. lra.
Qed.

Print Assumptions C49_mass_balance.
Print Assumptions C49_waves.
Print Assumptions C49_equilibrium.
Print Assumptions C49_units.
Print Assumptions C49_times.
Print Assumptions C50_mass_units.
Print Assumptions C50_one_compound.
Print Assumptions C50_alike.
Print Assumptions C50_capacity.
Print Assumptions C78_plotted_curve.
