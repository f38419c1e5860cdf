(** Properties C100-C104: the bridge from the web application to the column model. *)
From Coq Require Import Reals List Arith Bool String Lra Lia ZArith.
From Verif Require Import Lib_Py M_GacFun P_GacFun M_GacMin M_GacSmart P_GacSmart M_IxUnc M_Tools P_Tools M_Pac P_Pac M_GacCapacity P_GacCapacity M_GacShiny P_Colloc.
Import ListNotations.
Open Scope R_scope.
Open Scope string_scope.
Local Notation length := List.length.

(** ** C100: mass-transfer coefficients *)
Lemma mt_row_other kind cells : forall comps m k c, kind <> k -> mt_row kind cells comps m k c = m k c.
Proof.
  induction comps as [|a r IH]; intros m k c N; [reflexivity|]. cbn. destruct (cells a); [|reflexivity]. rewrite IH by exact N. unfold mt_set. destruct (String.eqb_spec kind k); [congruence|reflexivity].
Qed.
Lemma mt_row_at kind cells v : forall comps m c, (forall a, In a comps -> cells a <> None) -> cells c = Some v -> In c comps \/ m kind c = v -> mt_row kind cells comps m kind c = v.
Proof.
  induction comps as [|a r IH]; intros m c F V I; cbn; [destruct I as [[]|I]; exact I|]. pose proof (F a (or_introl eq_refl)) as FA. destruct (cells a) as [w|] eqn:W; [|congruence].
  apply IH; [intros b B; apply F; right; exact B|exact V|]. unfold mt_set. rewrite String.eqb_refl. destruct (String.eqb_spec a c) as [->|N]; cbn [andb].
  - right. assert (w = v) by congruence. subst w. ring.
  - destruct I as [[E|I]|I]; [congruence|left; exact I|right; exact I].
Qed.
Lemma fold_other comps kind c : forall chem m, (forall n cells, In (n, cells) chem -> lower n <> kind) ->
  fold_left (fun m row => if mem_str (lower (fst row)) kinds then mt_row (lower (fst row)) (snd row) comps m else m) chem m kind c = m kind c.
Proof.
  induction chem as [|(n & cells) r IH]; intros m N; [reflexivity|]. cbn [fold_left fst snd]. rewrite IH by (intros n' c' I; apply (N n' c'); right; exact I).
  destruct (mem_str (lower n) kinds); [|reflexivity]. apply mt_row_other. apply (N n cells). left. reflexivity.
Qed.
(** The coefficient of a compound is that of the last row with that name in any case, and zero
    (meaning: use the correlation) without such a row.  Proved when that row has numbers only. *)
Theorem C100_mass_transfer_partial : forall comps chem kind c, In kind ["kf"; "dp"; "ds"] -> In c comps ->
  (forall before after n cells v, chem = (before ++ (n, cells) :: after)%list -> lower n = kind -> (forall n' cells', In (n', cells') after -> lower n' <> kind) ->
     (forall c', In c' comps -> cells c' <> None) -> cells c = Some v -> mass_transfer comps chem kind c = v) /\
  ((forall n cells, In (n, cells) chem -> lower n <> kind) -> mass_transfer comps chem kind c = 0).
Proof.
  intros comps chem kind c K C. split.
  - intros before after n cells v -> L A F V. unfold mass_transfer. rewrite fold_left_app. cbn [fold_left fst snd]. rewrite fold_other by exact A. rewrite L.
    assert (M : mem_str kind kinds = true). { unfold mem_str. apply existsb_exists. exists kind. split; [exact K|apply String.eqb_refl]. }
    rewrite M. apply mt_row_at; [exact F|exact V|left; exact C].
  - intros N. unfold mass_transfer. apply (fold_other comps kind c chem (fun _ _ => 0) N).
Qed.
(** A text under one compound loses the numbers of the compounds after it. *)
Theorem C100_text_refuted : exists comps chem n cells c v,
  chem = [(n, cells)] /\ lower n = "kf" /\ In c comps /\ cells c = Some v /\ v <> mass_transfer comps chem "kf" c.
Proof.
  exists ["A"; "B"], [("kf", fun c => if String.eqb c "B" then Some 1 else None)], "kf", (fun c => if String.eqb c "B" then Some 1 else None), "B", 1.
  split; [reflexivity|]. split; [reflexivity|]. split; [cbn; auto|]. split; [reflexivity|]. match goal with |- _ <> ?m => assert (E : m = 0) by reflexivity; rewrite E end. lra.
Qed.
Example mass_met : mass_transfer ["A"; "B"] [("MW", fun _ => Some 100); ("Kf", fun c => if String.eqb c "A" then Some 3 else Some 4)] "kf" "B" = 4.
Proof.
  apply (proj1 (C100_mass_transfer_partial ["A"; "B"] _ "kf" "B" (or_introl eq_refl) (or_intror (or_introl eq_refl))) [("MW", fun _ => Some 100)] [] "Kf" (fun c => if String.eqb c "A" then Some 3 else Some 4)); try reflexivity.
  - intros n' cells' [].
  - intros c' _. destruct (String.eqb c' "A"); discriminate.
Qed.

(** ** C101: the readings handed to the column model *)
Lemma line_same k (g : R -> R) a b t : (forall x, k <= x <= k + 1 -> g x = a + b * x) -> k <= t <= k + 1 -> line k (g k) (k + 1) (g (k + 1)) t = g t.
Proof. intros H T. rewrite (H t T), (H k), (H (k + 1)) by lra. unfold line. field. lra. Qed.
(** Over a unit interval without a reading inside, numpy.interp is a straight line. *)
Definition whole (tbl : series) : Prop := forall t c, In (t, c) tbl -> exists n, t = INR n.
Lemma np_interp_affine k : forall tbl, growing tbl -> whole tbl -> exists a b, forall x, INR k <= x <= INR k + 1 -> np_interp tbl x = a + b * x.
Proof.
  induction tbl as [|(x0 & y0) r IH]; intros G W; [exists 0, 0; intros; cbn; ring|].
  destruct r as [|(x1 & y1) r]; [exists y0, 0; intros; cbn; ring|]. pose proof (growing_head _ _ _ G) as L. cbn [fst] in L.
  destruct (W x0 y0 (or_introl eq_refl)) as (n0 & E0). destruct (W x1 y1 (or_intror (or_introl eq_refl))) as (n1 & E1).
  change (np_interp ((x0, y0) :: (x1, y1) :: r)) with (fun t => if rleb t x0 then y0 else if rltb t x1 then line x0 y0 x1 y1 t else np_interp ((x1, y1) :: r) t). cbv beta.
  assert (N01 : (n0 < n1)%nat) by (apply INR_lt; lra).
  assert (HEAD : np_interp ((x1, y1) :: r) x1 = y1). { destruct r as [|(x2 & y2) r]; [reflexivity|]. cbn [np_interp]. rewrite (proj2 (rleb_true x1 x1)) by lra. reflexivity. }
  destruct (Nat.lt_ge_cases k n0) as [A|A].
  - apply le_INR in A. rewrite S_INR in A. exists y0, 0. intros x X. rewrite (proj2 (rleb_true x x0)) by lra. ring.
  - destruct (Nat.lt_ge_cases k n1) as [B|B].
    + apply le_INR in A, B. rewrite S_INR in B. exists (line x0 y0 x1 y1 0), ((y1 - y0) / (x1 - x0)). intros x X.
      assert (LN : line x0 y0 x1 y1 x = line x0 y0 x1 y1 0 + (y1 - y0) / (x1 - x0) * x) by (unfold line; ring). rewrite <- LN.
      destruct (rleb x x0) eqn:C0; [apply rleb_true in C0; replace x with x0 by lra; symmetry; apply line_at_left|].
      destruct (rltb x x1) eqn:C1; [reflexivity|]. apply rltb_false in C1. assert (x = x1) as -> by lra. rewrite HEAD. symmetry. apply line_at_right. exact L.
    + apply le_INR in B. destruct (IH (growing_tail _ _ G)) as (a & b & H). { intros t c I. apply (W t c). right. exact I. }
      exists a, b. intros x X. rewrite (proj2 (rleb_false x x0)) by lra. rewrite (proj2 (rltb_false x x1)) by lra. apply H. exact X.
Qed.
Lemma interp_units (g : R -> R) : forall n s k t, (s <= k)%nat -> (k < s + n)%nat -> INR k <= t <= INR k + 1 ->
  (forall j, (s <= j < s + n)%nat -> exists a b, forall x, INR j <= x <= INR j + 1 -> g x = a + b * x) ->
  interp_x (map (fun x => (x, g x)) (map INR (seq s (S n)))) t = g t.
Proof.
  induction n as [|n IH]; intros s k t A B T F; [lia|].
  assert (HERE : k = s -> line (INR s) (g (INR s)) (INR (S s)) (g (INR (S s))) t = g t).
  { intros ->. destruct (F s) as (a & b & H); [lia|]. rewrite S_INR. apply (line_same _ g a b); [exact H|exact T]. }
  destruct n as [|n].
  - cbn [seq map interp_x]. apply HERE. lia.
  - cbn [seq map interp_x]. destruct (rleb t (INR (S s))) eqn:E.
    + apply rleb_true in E. destruct (Nat.eq_dec k s) as [K|K]; [apply HERE; exact K|]. assert (INR (S s) <= INR k) by (apply le_INR; lia).
      assert (t = INR (S s)) as -> by lra. apply line_at_right. apply lt_INR. lia.
    + apply rleb_false in E. destruct (Nat.eq_dec k s) as [K|K]; [subst k; rewrite S_INR in E; lra|].
      exact (IH (S s) k t ltac:(lia) ltac:(lia) T ltac:(intros j J; apply F; lia)).
Qed.
Lemma arange_S x : 0 <= x -> exists n, arange (x + 1) = map INR (seq 0 (S n)) /\ x <= INR n < x + 1.
Proof.
  intros P. unfold arange. set (l := arange_len 0 (x + 1) 1). assert (A : forall i, (i < l)%nat <-> INR i < x + 1) by (intros i; apply arange_len_spec).
  destruct l as [|n]. { specialize (proj2 (A 0%nat)). cbn. intros Q. exfalso. apply Nat.nlt_0_r with 0%nat. apply Q. lra. }
  exists n. split; [reflexivity|]. split; [|apply A; lia]. destruct (Rle_or_lt x (INR n)) as [L|L]; [exact L|]. assert (S n < S n)%nat; [|lia]. apply A. rewrite S_INR. lra.
Qed.
(** Up to the last whole unit the column model sees the concentrations between the user's readings, when
    all readings are at whole units of time. *)
Theorem C101_readings_partial : forall m (tbl : series) t, growing tbl -> whole tbl -> 0 <= t <= m -> interp_x (resampled m tbl) t = np_interp tbl t.
Proof.
  intros m tbl t G W T. unfold resampled. destruct (arange_S m) as (n & -> & N); [lra|].
  destruct n as [|n]. { assert (t = 0) as -> by (cbn in N; lra). reflexivity. }
  assert (Z : exists k, (k < S n)%nat /\ INR k <= t <= INR k + 1).
  { assert (TN : t <= INR (S n)) by lra. clear - T TN. induction n as [|n IH]. { exists 0%nat. cbn in *. split; [lia|lra]. }
    destruct (Rle_or_lt t (INR (S n))) as [L|L]; [destruct (IH L) as (k & K & B); exists k; split; [lia|exact B]|]. exists (S n). split; [lia|]. rewrite <- S_INR. lra. }
  destruct Z as (k & K & B). apply (interp_units (np_interp tbl) (S n) 0 k t); [lia|lia|exact B|]. intros j _. apply np_interp_affine; assumption.
Qed.
(** The tables handed to the column model hold these values under the user's names. *)
Lemma mapM_in {A B} (f : A -> res B) : forall l r, mapM f l = Ok r -> forall a, In a l -> exists b, f a = Ok b /\ In b r.
Proof.
  induction l as [|x l IH]; intros r H a I; [contradiction|]. cbn in H. destruct (f x) as [y|] eqn:F; [|discriminate]. cbn in H. destruct (mapM f l) as [ys|] eqn:M; [|discriminate]. cbn in H.
  assert (r = y :: ys) by congruence. subst r. destruct I as [<-|I]; [exists y; split; [exact F|left; reflexivity]|]. destruct (IH ys eq_refl a I) as (b & B1 & B2). exists b. split; [exact B1|right; exact B2].
Qed.
Theorem C101_tables_partial : forall x m infl effl r c, raw x m infl effl = Ok r -> In c (i_comps x) ->
  forall f ty, (f = i_inf x /\ ty = infl) \/ (f = i_eff x /\ ty = effl) ->
  exists l s, lookup c (f_cols f) = Some l /\ In (ty, c, s) r /\
    (growing (combine (f_time f) l) -> whole (combine (f_time f) l) -> forall t, 0 <= t <= m -> interp_x s t = np_interp (combine (f_time f) l) t).
Proof.
  intros x m infl effl r c H I f ty FT. unfold raw in H.
  destruct (mapM_in _ _ _ H (f, ty, c)) as (b & B1 & B2). { apply in_flat_map. exists c. split; [exact I|]. destruct FT as [(-> & ->)|(-> & ->)]; cbn; auto. }
  unfold reading in B1. destruct (lookup c (f_cols f)) as [l|]; [|discriminate]. cbn in B1. exists l, (resampled m (combine (f_time f) l)). split; [reflexivity|]. split; [congruence|].
  intros G W t T. apply C101_readings_partial; assumption.
Qed.
(** A reading between whole units is lost: a pulse at noon is never seen. *)
Theorem C101_between_refuted : exists m (tbl : series) t, growing tbl /\ (0, 0) = hd (0, 0) tbl /\ (m, 0) = last tbl (0, 0) /\ 0 <= t <= m /\
  np_interp tbl t = 10 /\ forall u, 0 <= u <= m -> interp_x (resampled m tbl) u = 0.
Proof.
  exists 1, [(0, 0); (1 / 2, 10); (1, 0)], (1 / 2). split.
  { intros l1 p q l2 E. destruct l1 as [|a [|b [|? l1]]]; cbn in E; try (inversion E; subst; cbn; lra). destruct l1; discriminate. }
  split; [reflexivity|]. split; [reflexivity|]. split; [lra|]. split.
  { cbn [np_interp]. rewrite (proj2 (rleb_false (1 / 2) 0)) by lra. rewrite (proj2 (rltb_false (1 / 2) (1 / 2))) by lra. rewrite (proj2 (rleb_true (1 / 2) (1 / 2))) by lra. reflexivity. }
  intros u U. unfold resampled. destruct (arange_S 1) as (n & -> & N); [lra|]. assert (n = 1%nat) as ->.
  { assert (INR n < INR 2) by (cbn; lra). assert (INR 0 < INR n) by (cbn; lra). apply INR_lt in H, H0. lia. }
  set (g := np_interp _). assert (G0 : g (INR 0) = 0) by (unfold g; cbn; rewrite (proj2 (rleb_true 0 0)) by lra; reflexivity).
  assert (G1 : g (INR 1) = 0). { unfold g. cbn. rewrite (proj2 (rleb_false 1 0)), (proj2 (rltb_false 1 (1 / 2))), (proj2 (rleb_false 1 (1 / 2))), (proj2 (rltb_false 1 1)) by lra. reflexivity. }
  cbn [seq map interp_x]. rewrite G0, G1. unfold line. unfold Rdiv. ring.
Qed.
Example readings_met : growing [(0, 3); (2, 5); (7, 1)] /\ whole [(0, 3); (2, 5); (7, 1)] /\ interp_x (resampled 7 [(0, 3); (2, 5); (7, 1)]) (1 / 2) = 7 / 2.
Proof.
  assert (G : growing [(0, 3); (2, 5); (7, 1)]). { intros l1 p q l2 E. destruct l1 as [|a [|b [|? l1]]]; cbn in E; try (inversion E; subst; cbn; lra). destruct l1; discriminate. }
  assert (W : whole [(0, 3); (2, 5); (7, 1)]). { intros t c [E|[E|[E|[]]]]; [exists 0%nat|exists 2%nat|exists 7%nat]; cbn; inversion E; lra. }
  split; [exact G|]. split; [exact W|]. rewrite C101_readings_partial by (assumption || lra). cbn [np_interp]. rewrite (proj2 (rleb_false (1 / 2) 0)) by lra. rewrite (proj2 (rltb_true (1 / 2) 2)) by lra. unfold line. field.
Qed.

(** ** C102: the rows of the result *)
Lemma arange_quarter x i : (i < arange_len 0 x (dec 25 2))%nat <-> INR i / 4 < x.
Proof.
  assert (E : arange_len 0 x (dec 25 2) = arange_len 0 (4 * x) 1). { unfold arange_len. do 2 f_equal. unfold dec. cbn [pow]. field. }
  rewrite E, arange_len_spec. split; lra.
Qed.
Lemma out_nth m i u : nth_error (out_times m) i = Some u <-> u = INR i / 4 /\ u < m + 1 / 5.
Proof.
  unfold out_times. assert (T : m + dec 2 1 = m + 1 / 5) by (unfold dec; cbn [pow]; field). rewrite T. pose proof (arange_quarter (m + 1 / 5) i) as A.
  set (n := arange_len 0 (m + 1 / 5) (dec 25 2)) in *. assert (Q : INR i * dec 25 2 = INR i / 4) by (unfold dec; cbn [pow]; field). destruct (Nat.lt_ge_cases i n) as [L|L].
  - rewrite (map_nth_error (fun i => INR i * dec 25 2) i (seq 0 n) (d := i)).
    + rewrite Q. apply A in L. split; [intros E; assert (u = INR i / 4) by congruence; subst u; auto|intros (-> & _); reflexivity].
    + rewrite (nth_error_nth' _ 0%nat) by (rewrite seq_length; exact L). rewrite seq_nth by exact L. reflexivity.
  - assert (N : nth_error (map (fun i => INR i * dec 25 2) (seq 0 n)) i = None) by (apply nth_error_None; rewrite map_length, seq_length; exact L). rewrite N.
    split; [discriminate|]. intros (-> & B). apply A in B. lia.
Qed.
Lemma growing_combine : forall xs l, (forall i, (S i < length xs)%nat -> nth i xs 0 < nth (S i) xs 0) -> growing (combine xs l).
Proof.
  induction xs as [|x xs IH]; intros l H l1 p q l2 E; [destruct l1; discriminate|]. destruct l as [|y l]; [destruct l1; discriminate|]. cbn in E. destruct l1 as [|a l1].
  - cbn in E. destruct xs as [|x' xs]; [discriminate|]. destruct l as [|y' l]; [discriminate|]. cbn in E. assert (p = (x, y) /\ q = (x', y')) as (-> & ->) by (split; congruence). exact (H 0%nat ltac:(cbn; lia)).
  - cbn in E. assert (C : combine xs l = (l1 ++ p :: q :: l2)%list) by congruence. apply (IH l) with l1 l2; [|exact C]. intros i I. exact (H (S i) ltac:(cbn; lia)).
Qed.
Lemma combine_last : forall (xs l : list R), length xs = length l -> last (combine xs l) (0, 0) = (last xs 0, last l 0).
Proof.
  induction xs as [|x xs IH]; intros [|y l] E; try discriminate E; [reflexivity|]. destruct xs as [|x' xs]; destruct l as [|y' l]; try discriminate E; [reflexivity|].
  change (last (combine (x' :: xs) (y' :: l)) (0, 0) = (last (x' :: xs) 0, last (y' :: l) 0)). apply IH. cbn in *. congruence.
Qed.
Lemma last_nth (l : list R) : last l 0 = nth (length l - 1) l 0.
Proof. induction l as [|x [|y l] IH]; [reflexivity|reflexivity|]. change (last (y :: l) 0 = nth (length (x :: y :: l) - 1) (x :: y :: l) 0). rewrite IH. cbn. rewrite Nat.sub_0_r. reflexivity. Qed.
Lemma linspace_table D k l : 0 < D -> length l = S (S k) -> exists p r, combine (linspace 0 D (S (S k))) l = p :: r /\ r <> [] /\ growing (p :: r) /\ fst p = 0 /\ last (p :: r) (0, 0) = (D, last l 0).
Proof.
  intros P L. assert (LL : length (linspace 0 D (S (S k))) = length l) by (rewrite linspace_length; congruence). pose proof (combine_last _ _ LL) as CL.
  assert (G : growing (combine (linspace 0 D (S (S k))) l)).
  { apply growing_combine. intros i I. rewrite linspace_length in I. rewrite !linspace_nth by lia. apply lin_lt; [exact P|lia]. }
  assert (E : last (linspace 0 D (S (S k))) 0 = D). { rewrite last_nth, linspace_length, linspace_nth by lia. replace (S (S k) - 1)%nat with (S k) by lia. apply lin_m. }
  rewrite E in CL. pose proof (linspace_nth 0 D k 0 ltac:(lia)) as H0. rewrite lin_0 in H0.
  destruct (linspace 0 D (S (S k))) as [|x [|x' xs]] eqn:LS; [cbn in LL; lia|cbn in LL; lia|]. destruct l as [|y [|y' l]]; [discriminate|discriminate|].
  cbn [nth] in H0. exists (x, y), ((x', y') :: combine xs l). split; [reflexivity|]. split; [discriminate|]. split; [exact G|]. split; [exact H0|exact CL].
Qed.
Lemma mapM_inv {A B} (f : A -> res B) : forall l r, mapM f l = Ok r -> forall b, In b r -> exists a, In a l /\ f a = Ok b.
Proof.
  induction l as [|x l IH]; intros r H b I; cbn in H; [assert (r = []) by congruence; subst r; contradiction|]. destruct (f x) as [y|] eqn:F; [|discriminate]. cbn in H. destruct (mapM f l) as [ys|] eqn:M; [|discriminate]. cbn in H.
  assert (r = y :: ys) by congruence. subst r. destruct I as [<-|I]; [exists x; split; [left; reflexivity|exact F]|]. destruct (IH ys eq_refl b I) as (a & A1 & A2). exists a. split; [right; exact A1|exact A2].
Qed.
Lemma mapM_keys {B} (f : string -> res (string * B)) : forall l r, mapM f l = Ok r -> (forall c p, f c = Ok p -> fst p = c) -> map fst r = l.
Proof.
  induction l as [|x l IH]; intros r H K; cbn in H; [assert (r = []) by congruence; subst r; reflexivity|]. destruct (f x) as [y|] eqn:F; [|discriminate]. cbn in H. destruct (mapM f l) as [ys|] eqn:M; [|discriminate]. cbn in H.
  assert (r = y :: ys) by congruence. subst r. cbn. rewrite (K x y F), (IH ys eq_refl K). reflexivity.
Qed.
Section Rows.
Variable float : string -> option R.
Variable capacity : column -> string -> series -> series -> res (list R).
Variable smart : column -> ktable -> res ktable.
Variable simulate : column -> ktable -> string -> res (list R).
(** [t] is the frame of results of the user's call, with or without fit *)
Definition answers (x : inputs) (t : list (string * series)) : Prop :=
  run_PSDM float simulate x = Ok (Table t) \/ exists k, run_PSDM_fitter float capacity smart simulate x = Ok (Fitted t k).
Lemma answers_inv x t : answers x t -> exists m col k, last_time x = Ok m /\ c_duration col = last (arange (m + 1)) 0 /\ table simulate x m col k = Ok t.
Proof.
  intros [H|(k0 & H)].
  - unfold run_PSDM in H. destruct (numbers float x floats_list) as [[num|n]|]; [|discriminate|discriminate]. cbn [bind] in H. destruct (kdata x) as [k|]; [|discriminate].
    cbn [bind] in H. destruct (info x "influentID") as [infl|]; [|discriminate]. cbn [bind] in H. destruct (info x "effluentID") as [effl|]; [|discriminate]. cbn [bind] in H.
    destruct (last_time x) as [m|] eqn:M; [|discriminate]. cbn [bind] in H. destruct (raw x m infl effl) as [r|]; [|discriminate].
    destruct (build x num m r) as [col|] eqn:B; [|discriminate]. cbn [bind] in H. destruct (table simulate x m col k) as [t'|] eqn:T; [|discriminate]. cbn [bind caught] in H.
    exists m, col, k. split; [reflexivity|]. split; [|congruence]. unfold build in B. destruct (info x "influentID"); [|discriminate]. cbn [bind] in B. destruct (info x "carbonID"); [|discriminate]. cbn [bind] in B.
    match type of B with Ok ?A = _ => assert (E : col = A) by congruence end. subst col. reflexivity.
  - unfold run_PSDM_fitter in H. destruct (numbers float x floats_list) as [[num|n]|]; [|discriminate|discriminate]. cbn [bind] in H.
    destruct (info x "influentID") as [infl|]; [|discriminate]. cbn [bind] in H. destruct (info x "effluentID") as [effl|]; [|discriminate]. cbn [bind] in H.
    destruct (last_time x) as [m|] eqn:M; [|discriminate]. cbn [bind] in H. destruct (raw x m infl effl) as [r|]; [|discriminate]. cbn [bind] in H.
    destruct (build x num m r) as [col|] eqn:B; [|discriminate]. cbn [bind] in H. destruct (estimated capacity x col) as [k|]; [|discriminate]. cbn [bind] in H.
    destruct (smart col k) as [k'|]; [|discriminate]. destruct (table simulate x m col k') as [t'|] eqn:T; [|discriminate].
    exists m, col, k'. split; [reflexivity|]. split; [|congruence]. unfold build in B. destruct (info x "influentID"); [|discriminate]. cbn [bind] in B. destruct (info x "carbonID"); [|discriminate]. cbn [bind] in B.
    match type of B with Ok ?A = _ => assert (E : col = A) by congruence end. subst col. reflexivity.
Qed.
Lemma table_names x m col k t : table simulate x m col k = Ok t -> map fst t = i_comps x.
Proof.
  unfold table. revert t. induction (i_comps x) as [|c cs IH]; intros t H; cbn in H; [assert (t = []) by congruence; subst t; reflexivity|].
  destruct (simulate col k c) as [l|]; [|discriminate]. cbn in H. destruct (mapM _ cs) as [ys|] eqn:M; [|discriminate]. cbn in H. match type of H with Ok ?A = _ => assert (E : t = A) by congruence end. subst t.
  cbn. f_equal. apply IH. reflexivity.
Qed.
(** A frame of results has the compounds asked for, in their order.  Each has a row for every
    quarter of a unit of time up to a fifth past the last influent time, and its values are those
    of the simulation: points of the broken line through its 2000 results, which end at the first
    whole unit not before that time. *)
Theorem C102_rows : forall x t, answers x t -> exists m col k, last_time x = Ok m /\ map fst t = i_comps x /\
  forall c rows, In (c, rows) t ->
    (forall i u, (exists v, nth_error rows i = Some (u, v)) <-> u = INR i / 4 /\ u < m + 1 / 5) /\
    exists results, simulate col k c = Ok results /\
      (0 < m -> length results = 2000%nat -> exists n, m <= INR n < m + 1 /\ (forall u v, In (u, v) rows -> on_segment (combine (linspace 0 (INR n) 2000) results) u v) /\
        (m = INR n -> nth_error rows (4 * n) = Some (m, last results 0) /\ length rows = (4 * n + 1)%nat)).
Proof.
  intros x t H. destruct (answers_inv x t H) as (m & col & k & M & D & T). exists m, col, k. split; [exact M|]. split; [apply (table_names _ _ _ _ _ T)|].
  intros c rows I. unfold table in T. destruct (mapM_inv _ _ _ T _ I) as (c' & _ & E). destruct (simulate col k c') as [results|] eqn:SI; [|discriminate]. cbn [bind] in E.
  assert (C : c' = c) by congruence. assert (E' : rows = out_rows m (c_duration col) results) by congruence. clear E. subst c'.
  assert (NT : forall i u, (exists v, nth_error rows i = Some (u, v)) <-> u = INR i / 4 /\ u < m + 1 / 5).
  { intros i u. rewrite <- out_nth. subst rows. unfold out_rows. rewrite nth_error_map. split.
    - intros (v & V). destruct (nth_error (out_times m) i) as [w|]; [|discriminate]. cbn [option_map] in V. match type of V with Some (?a, _) = _ => assert (a = u) by congruence end. congruence.
    - intros ->. eexists. reflexivity. }
  split; [exact NT|]. exists results. split; [exact SI|]. intros P L. destruct (arange_S m) as (n & A & B); [lra|]. exists n. split; [exact B|].
  assert (Dn : c_duration col = INR n). { rewrite D, A. rewrite seq_S, map_app. cbn [map]. apply last_last. }
  assert (N0 : 0 < INR n) by lra. destruct (linspace_table (INR n) 1998 results N0 L) as (p & r & Tb & NE & G & F & La).
  assert (V : forall u, np_interp (combine (result_times (c_duration col)) results) u = np_interp (p :: r) u). { intros u. unfold result_times. rewrite Dn. change (2000%nat) with (S (S 1998)). rewrite Tb. reflexivity. }
  split.
  - intros u v J. apply (In_nth_error) in J as (i & J). assert (JI := proj1 (NT i u) (ex_intro _ v J)). destruct JI as (U & UM).
    assert (UL : u <= INR n). { destruct (Rle_or_lt u (INR n)) as [Q|Q]; [exact Q|]. assert (INR (4 * n) < INR i) by (rewrite mult_INR; cbn [INR]; lra). apply INR_lt in H0. assert (INR (4 * n + 1) <= INR i) by (apply le_INR; lia). rewrite plus_INR, mult_INR in H1. cbn [INR] in H1. lra. }
    assert (VV : v = np_interp (p :: r) u). { subst rows. unfold out_rows in J. rewrite nth_error_map in J. destruct (nth_error (out_times m) i) as [w|]; [|discriminate]. cbn [option_map] in J. assert (w = u) by congruence. subst w. rewrite <- V. congruence. }
    change (2000%nat) with (S (S 1998)). rewrite Tb, VV. apply np_interp_on; [exact G|exact NE|]. rewrite F, La. cbn [fst]. split; [rewrite U; apply Rmult_le_pos; [apply pos_INR|lra]|exact UL].
  - intros MN. assert (Q : nth_error (out_times m) (4 * n) = Some m). { apply out_nth. rewrite mult_INR. cbn [INR]. lra. }
    split.
    + subst rows. unfold out_rows. rewrite nth_error_map, Q. cbn [option_map]. rewrite V. do 2 f_equal. rewrite np_interp_right; [rewrite La; reflexivity|exact G|]. rewrite La. cbn [fst]. lra.
    + assert (LR : length rows = length (out_times m)) by (subst rows; apply map_length). rewrite LR. apply Nat.le_antisymm.
      * apply Nat.nlt_ge. intros X. destruct (nth_error (out_times m) (4 * n + 1)) as [w|] eqn:W; [|apply nth_error_None in W; lia]. apply out_nth in W as (W1 & W2). rewrite plus_INR, mult_INR in W1. cbn [INR] in W1. lra.
      * assert (4 * n < length (out_times m))%nat by (apply nth_error_Some; rewrite Q; discriminate). lia.
Qed.
(** ** C103: the effluent used in fitting *)
(** the estimate of capacity of compound [c] used these two tables *)
Definition names_ok (x : inputs) (infl effl carbon : string) : Prop := lookup "influentID" (i_info x) = Some infl /\ lookup "effluentID" (i_info x) = Some effl /\ lookup "carbonID" (i_info x) = Some carbon.
Lemma find_raw x m infl effl : forall comps r, mapM (fun p => let '(f, ty, c) := p in reading f m ty c) (flat_map (fun c => [(i_inf x, infl, c); (i_eff x, effl, c)]) comps) = Ok r ->
  forall ty c, (ty <> infl -> ty <> effl -> find (column_key ty c) r = None) /\
    (ty = effl -> infl <> effl -> In c comps -> exists l, lookup c (f_cols (i_eff x)) = Some l /\ find (column_key ty c) r = Some (effl, c, resampled m (combine (f_time (i_eff x)) l))) /\
    (ty = infl -> In c comps -> exists l, lookup c (f_cols (i_inf x)) = Some l /\ find (column_key ty c) r = Some (infl, c, resampled m (combine (f_time (i_inf x)) l))).
Proof.
  induction comps as [|a comps IH]; intros r H ty c. { cbn in H. assert (r = []) by congruence. subst r. split; [reflexivity|]. split; [intros _ _ []|intros _ []]. }
  cbn [flat_map app mapM] in H. unfold reading at 1 in H. destruct (lookup a (f_cols (i_inf x))) as [li|] eqn:LI; [|discriminate]. cbn [of_option bind] in H.
  unfold reading at 1 in H. destruct (lookup a (f_cols (i_eff x))) as [le|] eqn:LE; [|discriminate]. cbn [of_option bind] in H.
  destruct (mapM _ (flat_map _ comps)) as [ys|] eqn:MM; [|discriminate]. cbn [bind] in H. specialize (IH ys eq_refl ty c). destruct IH as (I1 & I2 & I3).
  match type of H with Ok ?A = _ => assert (E : r = A) by congruence end. subst r. cbn [find].
  assert (CK : forall a b s, column_key ty c (a, b, s) = (String.eqb a ty && String.eqb b c)%bool) by reflexivity. rewrite !CK.
  split; [|split].
  - intros N1 N2. destruct (String.eqb_spec infl ty); [congruence|]. destruct (String.eqb_spec effl ty); [congruence|]. cbn [andb]. apply I1; assumption.
  - intros -> N J. destruct (String.eqb_spec infl effl); [congruence|]. cbn [andb]. rewrite String.eqb_refl. destruct (String.eqb_spec a c) as [->|D]; cbn [andb].
    + exists le. split; [exact LE|reflexivity].
    + destruct J as [J|J]; [congruence|]. apply I2; auto.
  - intros -> J. rewrite String.eqb_refl. destruct (String.eqb_spec a c) as [->|D]; cbn [andb].
    + exists li. split; [exact LI|reflexivity].
    + destruct J as [J|J]; [congruence|]. rewrite andb_false_r. apply I3; auto.
Qed.
(** The names whose values must be numbers, and a name whose value is one. *)
Definition column_entries : list string :=
  ["rad"; "epor"; "psdfr"; "rhop"; "rhof"; "L"; "wt"; "flrt"; "diam"; "tortu"; "mass_mul"; "flow_mult"; "t_mult"].
Definition is_number (x : inputs) (n : string) : Prop := exists s v, lookup n (i_info x) = Some s /\ float s = Some v.
Lemma numbers_read x l : (forall n, In n l -> is_number x n) -> exists num, numbers float x l = Ok (inl num).
Proof.
  induction l as [|n l IH]; intros F; [eexists; reflexivity|]. cbn. destruct (F n (or_introl eq_refl)) as (s & v & S & V). unfold info. rewrite S. cbn. rewrite V.
  destruct IH as (num & ->); [intros k I; apply F; right; exact I|]. eexists. reflexivity.
Qed.
Lemma numbers_stop x n s : lookup n (i_info x) = Some s -> float s = None -> forall pre post, (forall k, In k pre -> is_number x k) -> numbers float x (pre ++ n :: post)%list = Ok (inr n).
Proof.
  intros S V. induction pre as [|a l IH]; intros post F; cbn; [unfold info; rewrite S; cbn; rewrite V; reflexivity|].
  destruct (F a (or_introl eq_refl)) as (s' & v & S' & V'). unfold info. rewrite S'. cbn. rewrite V', IH by (intros k I; apply F; right; exact I). reflexivity.
Qed.
(** What a fit needs before the column exists: numbers, the two names, one influent time and
    the readings of every compound. *)
Definition starts (x : inputs) : Prop := (forall n, In n column_entries -> is_number x n) /\
  (exists infl effl, lookup "influentID" (i_info x) = Some infl /\ lookup "effluentID" (i_info x) = Some effl) /\ f_time (i_inf x) <> [] /\
  (forall c, In c (i_comps x) -> lookup c (f_cols (i_inf x)) <> None /\ lookup c (f_cols (i_eff x)) <> None).
Lemma starts_run x : starts x -> exists num infl effl m r, numbers float x floats_list = Ok (inl num) /\ info x "influentID" = Ok infl /\ info x "effluentID" = Ok effl /\ last_time x = Ok m /\ raw x m infl effl = Ok r.
Proof.
  intros (N & (infl & effl & E1 & E2) & T & C). destruct (numbers_read x floats_list N) as (num & NU). unfold last_time, np_max, info. destruct (f_time (i_inf x)) as [|t0 ts] eqn:FT; [congruence|].
  set (m := fold_left Rmax ts t0). assert (R : exists r, raw x m infl effl = Ok r).
  { unfold raw. clear - C. induction (i_comps x) as [|c cs IH]; [eexists; reflexivity|]. destruct (C c (or_introl eq_refl)) as (C1 & C2). destruct IH as (r & R); [intros k I; apply C; right; exact I|].
    cbn [flat_map app mapM]. unfold reading at 1 2. destruct (lookup c (f_cols (i_inf x))) as [l1|]; [|congruence]. destruct (lookup c (f_cols (i_eff x))) as [l2|]; [|congruence]. cbn [of_option bind]. rewrite R. eexists. reflexivity. }
  destruct R as (r & R). exists num, infl, effl, m, r. rewrite E1, E2. repeat split; assumption || reflexivity.
Qed.
(** When the carbon is named like the effluent, and unlike the influent, a successful fit starts
    from the capacities estimated from the user's influent and effluent readings. *)
Theorem C103_effluent_partial : forall x infl effl t k m, names_ok x infl effl effl -> infl <> effl -> last_time x = Ok m ->
  run_PSDM_fitter float capacity smart simulate x = Ok (Fitted t k) ->
  exists col k0, smart col k0 = Ok k /\ map fst k0 = i_comps x /\ forall c e, In (c, e) k0 ->
    exists li le, lookup c (f_cols (i_inf x)) = Some li /\ lookup c (f_cols (i_eff x)) = Some le /\
      capacity col c (resampled m (combine (f_time (i_inf x)) li)) (resampled m (combine (f_time (i_eff x)) le)) = Ok e.
Proof.
  intros x infl effl t k m (N1 & N2 & N3) NE M H. unfold run_PSDM_fitter in H. destruct (numbers float x floats_list) as [[num|n]|]; [|discriminate|discriminate]. cbn [bind] in H.
  unfold info at 1 2 in H. rewrite N1, N2 in H. cbn [of_option bind] in H. rewrite M in H. cbn [bind] in H. destruct (raw x m infl effl) as [r|] eqn:RW; [|discriminate]. cbn [bind] in H.
  unfold build, info in H. rewrite N1, N3 in H. cbn [of_option bind] in H. set (col := Build_column _ _ _ _ _ _) in H.
  destruct (estimated capacity x col) as [k0|] eqn:ES; [|discriminate]. cbn [bind] in H. destruct (smart col k0) as [k'|] eqn:SM; [|discriminate].
  destruct (table simulate x m col k') as [t'|]; [|discriminate]. assert (k' = k) by congruence. subst k'. exists col, k0. split; [exact SM|]. unfold raw in RW.
  pose proof (find_raw x m infl effl _ _ RW) as FR. unfold estimated in ES. split.
  - apply (mapM_keys _ _ _ ES). intros c p E. cbn [bind] in E. destruct (read col (c_influent col) c) as [a|]; [|discriminate]. cbn [bind] in E. destruct (read col (c_carbon col) c) as [b|]; [|discriminate]. cbn [bind] in E.
    destruct (capacity col c a b) as [l|]; [|discriminate]. cbn [bind] in E. destruct p as (p1 & p2). cbn. congruence.
  - intros c e I. destruct (mapM_inv _ _ _ ES _ I) as (c' & J & E). cbn [c_influent c_carbon col] in E.
    destruct (FR infl c') as (_ & _ & F1). destruct (FR effl c') as (_ & F2 & _). destruct (F1 eq_refl J) as (li & L1 & Q1). destruct (F2 eq_refl NE J) as (le & L2 & Q2).
    unfold read in E. cbn [c_raw col] in E. rewrite Q1, Q2 in E. cbn [of_option bind snd] in E. destruct (capacity col c' _ _) as [l|] eqn:CP; [|discriminate]. cbn [bind] in E.
    assert (c' = c /\ l = e) as (-> & ->) by (split; congruence). exists li, le. auto.
Qed.
(** With any other name no fit is ever made, whatever the data: the answer is a KeyError and a
    frame of twos. *)
Theorem C103_names_refuted : forall x infl effl carbon, names_ok x infl effl carbon -> carbon <> infl -> carbon <> effl -> i_comps x <> [] -> starts x ->
  run_PSDM_fitter float capacity smart simulate x = Ok (FailedFit KeyError 2).
Proof.
  intros x infl effl carbon (N1 & N2 & N3) C1 C2 NE ST. destruct (starts_run x ST) as (num & infl' & effl' & m & r & NU & I1 & I2 & M & RW). unfold run_PSDM_fitter. rewrite NU. cbn [bind]. rewrite I1, I2, M. cbn [bind]. rewrite RW. cbn [bind].
  unfold build. rewrite I1. unfold info in *. rewrite N3. cbn [of_option bind]. rewrite N1 in I1. rewrite N2 in I2. cbn in I1, I2. assert (infl' = infl) by congruence. assert (effl' = effl) by congruence. subst infl' effl'.
  pose proof (find_raw x m infl effl _ _ RW carbon) as FR. unfold estimated. destruct (i_comps x) as [|c cs] eqn:CS; [congruence|]. cbn [mapM]. cbn [c_influent c_carbon]. unfold read. cbn [c_raw].
  unfold raw in RW. rewrite CS in RW. pose proof (find_raw x m infl effl (c :: cs) r RW infl c) as FI. destruct FI as (_ & _ & FI). destruct (FI eq_refl (or_introl eq_refl)) as (li & _ & Q). rewrite Q. cbn [of_option bind].
  destruct (FR c) as (F1 & _). rewrite (F1 C1 C2). reflexivity.
Qed.
(** ** C104: problems are reported *)
(** With readable numbers, the three names, parameters for each compound and at least one
    influent time, the call returns: a frame, or the problem. *)
Theorem C104_reported_partial : forall x infl effl carbon, names_ok x infl effl carbon -> f_time (i_inf x) <> [] ->
  (forall n, In n column_entries -> exists s, lookup n (i_info x) = Some s) ->
  (forall c, In c (i_comps x) -> exists l, lookup c (i_kdata x) = Some l /\ ~ In None l) ->
  exists o, run_PSDM float simulate x = Ok o /\
    ((exists n s, o = BadNumber n /\ In n column_entries /\ lookup n (i_info x) = Some s /\ float s = None) \/ (exists t, o = Table t) \/ (exists e, o = Failed e)).
Proof.
  intros x infl effl carbon (N1 & N2 & N3) T F K. change column_entries with floats_list in *.
  assert (NU : exists o, numbers float x floats_list = Ok o /\ forall n, o = inr n -> In n floats_list /\ exists s, lookup n (i_info x) = Some s /\ float s = None).
  { revert F. generalize floats_list. induction l as [|n l IH]; intros F; [exists (inl []); split; [reflexivity|discriminate]|]. cbn. destruct (F n (or_introl eq_refl)) as (s & S). unfold info. rewrite S. cbn.
    destruct (float s) eqn:FS; [|exists (inr n); split; [reflexivity|]; intros n' E; assert (n' = n) by congruence; subst n'; split; [left; reflexivity|exists s; auto]].
    destruct IH as (o & -> & O); [intros n' I; apply F; right; exact I|]. destruct o as [l0|b]; cbn; [exists (inl ((n, r) :: l0)); split; [reflexivity|discriminate]|].
    exists (inr b). split; [reflexivity|]. intros n' E. destruct (O n') as (O1 & O2); [congruence|]. split; [right; exact O1|exact O2]. }
  destruct NU as (o & NU & BAD). unfold run_PSDM. rewrite NU. cbn [bind]. destruct o as [num|n].
  - assert (KD : exists k, kdata x = Ok k).
    { unfold kdata. assert (A : exists cols, mapM (fun c => do col <- of_option KeyError (lookup c (i_kdata x)); Ok (c, col)) (i_comps x) = Ok cols /\ forall p, In p cols -> ~ In None (snd p)).
      { revert K. induction (i_comps x) as [|c cs IH]; intros K; [exists []; split; [reflexivity|intros p []]|]. cbn. destruct (K c (or_introl eq_refl)) as (l & L & NN). rewrite L. cbn.
        destruct IH as (cols & -> & P); [intros c' I; apply K; right; exact I|]. exists ((c, l) :: cols). split; [reflexivity|]. intros p [<-|I]; [exact NN|apply P; exact I]. }
      destruct A as (cols & -> & P). cbn [bind]. clear - P. induction cols as [|(c & l) cols IH]; [exists []; reflexivity|]. cbn. destruct IH as (k & IH); [intros p I; apply P; right; exact I|].
      assert (Q : exists v, mapM (of_option ValueError) l = Ok v). { specialize (P (c, l) (or_introl eq_refl)). cbn in P. clear - P. induction l as [|[a|] l IH]; [exists []; reflexivity| |exfalso; apply P; left; reflexivity]. cbn. destruct IH as (v & ->); [intros I; apply P; right; exact I|]. exists (a :: v). reflexivity. }
      destruct Q as (v & ->). cbn. rewrite IH. exists ((c, v) :: k). reflexivity. }
    destruct KD as (k & ->). cbn [bind]. unfold info. rewrite N1, N2. cbn [of_option bind]. unfold last_time, np_max. destruct (f_time (i_inf x)); [congruence|]. cbn [bind].
    destruct (raw x _ infl effl) as [rr|e]; [|exists (Failed e); split; [reflexivity|right; right; exists e; reflexivity]].
    match goal with |- context [caught ?b] => destruct b as [o|e] eqn:B end; [|exists (Failed e); split; [reflexivity|right; right; exists e; reflexivity]].
    cbn [caught]. exists o. split; [reflexivity|]. right. left. destruct (build x num _ rr); [|discriminate]. cbn [bind] in B. destruct (table simulate x _ _ k) as [t|]; [|discriminate]. exists t. cbn in B. congruence.
  - exists (BadNumber n). split; [reflexivity|]. left. destruct (BAD n eq_refl) as (B1 & s & B2). exists n, s. auto.
Qed.
(** A fit that starts returns too: the table and the parameters, a frame of ones with the problem that
    the search for parameters met, or a frame of twos with any other problem. *)
Theorem C104_fit_reported_partial : forall x, starts x -> exists o, run_PSDM_fitter float capacity smart simulate x = Ok o /\
    ((exists t k col k0, o = Fitted t k /\ smart col k0 = Ok k) \/ (exists e col k0, o = FailedFit e 1 /\ smart col k0 = Err e) \/ (exists e, o = FailedFit e 2)).
Proof.
  intros x ST. destruct (starts_run x ST) as (num & infl & effl & m & r & NU & I1 & I2 & M & RW). unfold run_PSDM_fitter. rewrite NU. cbn [bind]. rewrite I1, I2, M. cbn [bind]. rewrite RW. cbn [bind].
  eexists. split; [reflexivity|]. destruct (build x num m r) as [col|e]; [|right; right; eexists; reflexivity]. cbn [bind].
  destruct (estimated capacity x col) as [k|e]; [|right; right; eexists; reflexivity]. cbn [bind].
  destruct (smart col k) as [k'|e] eqn:S; [|right; left; exists e, col, k; split; [reflexivity|exact S]].
  destruct (table simulate x m col k') as [t|e]; [left; exists t, k', col, k; split; [reflexivity|exact S]|right; right; eexists; reflexivity].
Qed.
(** Otherwise the exception reaches the user: a compound without isotherm parameters; or, in a
    fit, a number that cannot be read. *)
Theorem C104_raised_refuted : forall x c, (forall n, In n column_entries -> is_number x n) -> In c (i_comps x) -> lookup c (i_kdata x) = None -> run_PSDM float simulate x = Err KeyError.
Proof.
  intros x c F I L. destruct (numbers_read x floats_list F) as (num & NU). unfold run_PSDM. rewrite NU. cbn [bind]. unfold kdata.
  assert (E : mapM (fun c => do col <- of_option KeyError (lookup c (i_kdata x)); Ok (c, col)) (i_comps x) = Err KeyError); [|rewrite E; reflexivity].
  induction (i_comps x) as [|a cs IH]; [contradiction|]. cbn. destruct I as [->|I]; [rewrite L; reflexivity|]. destruct (lookup a (i_kdata x)); [|reflexivity]. cbn. rewrite (IH I). reflexivity.
Qed.
Theorem C104_fit_raised_refuted : forall x pre n post s, column_entries = (pre ++ n :: post)%list -> (forall k, In k pre -> is_number x k) -> lookup n (i_info x) = Some s -> float s = None ->
  run_PSDM float simulate x = Ok (BadNumber n) /\ run_PSDM_fitter float capacity smart simulate x = Err ValueError.
Proof. intros x pre n post s E F S V. pose proof (numbers_stop x n s S V pre post F) as NU. rewrite <- E in NU. change column_entries with floats_list in NU. unfold run_PSDM, run_PSDM_fitter. rewrite NU. split; reflexivity. Qed.
End Rows.
(** Calls that meet the hypotheses: ten days of data for one compound. *)
Definition demo (carbon : string) : inputs := {|
  i_info := (map (fun n => (n, "1.0")) floats_list ++ [("influentID", "influent"); ("effluentID", "Carbon"); ("carbonID", carbon)])%list;
  i_comps := ["PFOA"]; i_chem := [("MW", fun _ => Some 414); ("kf", fun _ => Some 2)]; i_kdata := [("PFOA", [Some 50; Some (1 / 2)])];
  i_inf := {| f_time := [0; 10]; f_cols := [("PFOA", [100; 100])] |}; i_eff := {| f_time := [0; 10]; f_cols := [("PFOA", [0; 50])] |} |}.
Definition demo_float (s : string) : option R := if String.eqb s "1.0" then Some 1 else None.
Definition demo_capacity (_ : column) (_ : string) (_ _ : series) : res (list R) := Ok [1].
Definition demo_smart (_ : column) (k : ktable) : res ktable := Ok k.
Definition demo_results : list R := repeat 1 2000.
Definition demo_simulate (_ : column) (_ : ktable) (_ : string) : res (list R) := Ok demo_results.
Lemma demo_last carbon : last_time (demo carbon) = Ok 10.
Proof. unfold last_time. cbn. f_equal. unfold Rmax. destruct (Rle_dec 0 10); lra. Qed.
Example rows_met : exists t, answers demo_float demo_capacity demo_smart demo_simulate (demo "Carbon") t /\ last_time (demo "Carbon") = Ok 10 /\ length demo_results = 2000%nat.
Proof.
  eexists. split; [|split; [apply demo_last|apply repeat_length]]. left. unfold run_PSDM. rewrite demo_last. cbn -[out_rows resampled arange demo_results]. reflexivity.
Qed.
Example fit_met : names_ok (demo "Carbon") "influent" "Carbon" "Carbon" /\ exists t k, run_PSDM_fitter demo_float demo_capacity demo_smart demo_simulate (demo "Carbon") = Ok (Fitted t k).
Proof. split; [repeat split|]. do 2 eexists. unfold run_PSDM_fitter. rewrite demo_last. cbn -[out_rows resampled arange demo_results]. reflexivity. Qed.
Lemma demo_numbers carbon n : In n column_entries -> is_number demo_float (demo carbon) n.
Proof. intros I. exists "1.0", 1. split; [|reflexivity]. cbn in I. repeat (destruct I as [<-|I]; [reflexivity|]). contradiction. Qed.
Example names_met : names_ok (demo "F400") "influent" "Carbon" "F400" /\ starts demo_float (demo "F400").
Proof. split; [repeat split|]. split; [apply demo_numbers|]. split; [exists "influent", "Carbon"; split; reflexivity|]. split; [discriminate|]. intros c [<-|[]]. split; discriminate. Qed.
Example reported_met : f_time (i_inf (demo "Carbon")) <> [] /\ (forall n, In n column_entries -> exists s, lookup n (i_info (demo "Carbon")) = Some s) /\ (forall c, In c (i_comps (demo "Carbon")) -> exists l, lookup c (i_kdata (demo "Carbon")) = Some l /\ ~ In None l).
Proof.
  split; [discriminate|]. split.
  - intros n I. exists "1.0". cbn in I. repeat (destruct I as [<-|I]; [reflexivity|]). contradiction.
  - intros c [<-|[]]. exists [Some 50; Some (1 / 2)]. split; [reflexivity|]. intros [E|[E|[]]]; discriminate.
Qed.
Example raised_met : let x := {| i_info := i_info (demo "Carbon"); i_comps := ["PFOS"]; i_chem := []; i_kdata := []; i_inf := i_inf (demo "Carbon"); i_eff := i_eff (demo "Carbon") |} in
  (forall n, In n column_entries -> is_number demo_float x n) /\ In "PFOS" (i_comps x) /\ lookup "PFOS" (i_kdata x) = None.
Proof. split; [exact (demo_numbers "Carbon")|]. split; [left; reflexivity|reflexivity]. Qed.
Example unread_met : let x := {| i_info := [("rad", "1.0"); ("epor", "?")]; i_comps := []; i_chem := []; i_kdata := []; i_inf := i_inf (demo "Carbon"); i_eff := i_eff (demo "Carbon") |} in
  column_entries = (["rad"] ++ "epor" :: skipn 2 column_entries)%list /\ (forall k, In k ["rad"] -> is_number demo_float x k) /\ lookup "epor" (i_info x) = Some "?" /\ demo_float "?" = None.
Proof. split; [reflexivity|]. split; [|split; reflexivity]. intros k [<-|[]]. exists "1.0", 1. split; reflexivity. Qed.
Print Assumptions C100_mass_transfer_partial.
Print Assumptions C100_text_refuted.
Print Assumptions C101_readings_partial.
Print Assumptions C101_tables_partial.
Print Assumptions C101_between_refuted.
Print Assumptions C102_rows.
Print Assumptions C103_effluent_partial.
Print Assumptions C103_names_refuted.
Print Assumptions C104_reported_partial.
Print Assumptions C104_fit_reported_partial.
Print Assumptions C104_raised_refuted.
Print Assumptions C104_fit_raised_refuted.
