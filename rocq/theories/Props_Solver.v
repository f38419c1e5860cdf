(** Properties C148 and C149: what the numerical integrators compute.

    The other theorems about runs speak of exact solutions of the programs' equations.  The
    programs return what a library integrator computes from them.  These theorems hold of
    every result of such an integrator in exact arithmetic (S_Solver.v), whatever steps,
    orders, tolerances and Jacobians it uses. *)
From Coq Require Import Reals List Arith Lra Lia Bool String.
From Verif Require Import Lib_Py Lib_Sum Lib_Pow Lib_Traj S_Solver P_Solver S_Colloc M_Colloc P_Colloc S_IxEq S_IxColumn S_IxBatch
  M_IxEq M_IxColumn P_IxColumn Props_IxColumn M_IxBatch P_IxBatch Props_IxBatch M_Pac P_Pac Props_Pac M_RIexSolve Props_RIexSolve
  M_GacColumn Props_GacColumn.
Import ListNotations.
Open Scope R_scope.
Local Notation length := List.length.

(** ** Integrators work step by step *)
Theorem C148_bdf : forall (I : Type) (dom : I -> Prop) f y0 y, bdf_output dom f y0 y -> computed dom f y0 y.
Proof. intros. apply bdf_computed. assumption. Qed.
Theorem C148_runge_kutta : forall (I : Type) (dom : I -> Prop) f y0 y, runge_kutta f y0 y -> computed dom f y0 y.
Proof. intros. apply runge_kutta_computed. assumption. Qed.
(** A quantity that is linear in the state and that the equations leave alone is left alone. *)
Theorem C148_linear : forall (I : Type) (dom : I -> Prop) (f : R -> (I -> R) -> (I -> R) -> Prop) y0 l, linear dom l -> (forall t z d, f t z d -> l d = 0) ->
  forall y, computed dom f y0 y -> l y = l y0.
Proof. intros I dom f y0 l L Z. exact (proj1 (linear_kept dom f y0 l L Z)). Qed.

(** ** Ion-exchange columns *)
(** entries of the arrays u[phase, ion, depth] *)
Definition cell := (nat * nat * nat)%type.
Definition in_column (nr NION nz : nat) (k : cell) : Prop := let '(r, i, z) := k in (r <= nr)%nat /\ (i < NION)%nat /\ (z < nz)%nat.
Definition pack (u : nat -> nat -> nat -> R) (k : cell) : R := let '(r, i, z) := k in u r i z.
Definition unpack (v : cell -> R) (r i z : nat) : R := v (r, i, z).
(** the calls that the integrator makes: influent [Cin], times up to [Tf] *)
Definition column_calls psdm c op th (Cin : R -> nat -> R) Tf (T : R) (v d : cell -> R) : Prop :=
  0 <= T <= Tf /\ d = pack (rhs psdm c op th (Cin T) (unpack v)).

Lemma linear_rsum (I : Type) (dom : I -> Prop) n (w : nat -> R) (k : nat -> I) : (forall i, (i < n)%nat -> dom (k i)) ->
  linear dom (fun v => rsum n (fun i => w i * v (k i))).
Proof.
  intros D. split.
  - intros x y E. apply rsum_ext. intros i Hi. rewrite E by (apply D, Hi). reflexivity.
  - intros a x b y. rewrite <- !rsum_scal, <- rsum_plus. apply rsum_ext. intros; ring.
Qed.
Lemma linear_combination (I : Type) (dom : I -> Prop) a l b m : linear dom l -> linear dom m -> linear dom (fun v => a * l v + b * m v).
Proof. intros (E1 & L1) (E2 & L2). split; [intros x y E; rewrite (E1 x y E), (E2 x y E); reflexivity|]. intros. rewrite L1, L2. ring. Qed.

(** Every computed state has, at every depth and radius, the capacity of the resin. *)
Theorem C148_column_capacity : forall psdm c op th Cin Tf v, (0 < NION c)%nat ->
  computed (in_column (nr c) (NION c) (nz c)) (column_calls psdm c op th Cin Tf) (pack (initial_state c (Cin 0) None)) v ->
  forall r z, (r < nr c)%nat -> (z < nz c)%nat -> rsum (NION c) (fun i => unpack v (S r) i z) = Qcap c.
Proof.
  intros psdm c op th Cin Tf v HN H r z Hr Hz. set (l := fun v : cell -> R => rsum (NION c) (fun i => 1 * v (S r, i, z))).
  assert (L : linear (in_column (nr c) (NION c) (nz c)) l) by (apply (linear_rsum _ _ _ (fun _ => 1) (fun i => (S r, i, z))); intros i Hi; cbn; lia).
  assert (E := C148_linear _ _ (column_calls psdm c op th Cin Tf) _ l L ltac:(intros t w d (_ & ->); unfold l, pack;
    rewrite <- (C14_resin_rates_sum_to_zero psdm c op th (Cin t) (unpack w) r z HN); apply rsum_ext; intros; ring) v H).
  assert (E0 : l (pack (initial_state c (Cin 0) None)) = Qcap c).
  { unfold l, pack, initial_state. rewrite (rsum_single _ _ 0%nat HN); [cbn; ring|]. intros i Hi Hn. rewrite (proj2 (Nat.eqb_neq i 0) Hn). ring. }
  rewrite <- E0, <- E. unfold l, unpack. apply rsum_ext. intros; ring.
Qed.
(** Restarted from a given state, it keeps that state's totals. *)
Theorem C148_column_totals : forall psdm c op th Cin Tf u0 v, (0 < NION c)%nat ->
  computed (in_column (nr c) (NION c) (nz c)) (column_calls psdm c op th Cin Tf) (pack u0) v ->
  forall r z, (r < nr c)%nat -> (z < nz c)%nat -> rsum (NION c) (fun i => unpack v (S r) i z) = rsum (NION c) (fun i => u0 (S r) i z).
Proof.
  intros psdm c op th Cin Tf u0 v HN H r z Hr Hz. set (l := fun v : cell -> R => rsum (NION c) (fun i => 1 * v (S r, i, z))).
  assert (L : linear (in_column (nr c) (NION c) (nz c)) l) by (apply (linear_rsum _ _ _ (fun _ => 1) (fun i => (S r, i, z))); intros i Hi; cbn; lia).
  assert (E := C148_linear _ _ (column_calls psdm c op th Cin Tf) _ l L ltac:(intros t w d (_ & ->); unfold l, pack;
    rewrite <- (C14_resin_rates_sum_to_zero psdm c op th (Cin t) (unpack w) r z HN); apply rsum_ext; intros; ring) v H).
  unfold l, pack in E. rewrite (rsum_ext _ (fun i => unpack v (S r) i z) (fun i => 1 * v (S r, i, z))) by (intros; unfold unpack; ring).
  rewrite E. apply rsum_ext. intros; ring.
Qed.

(** ** The ion-exchange web application *)
Definition web_calls psdm c op (Cin : R -> nat -> R) Tf (T : R) (v d : cell -> R) : Prop :=
  0 <= T <= Tf /\ exists dx, r_diffun psdm c op (Cin T) (unpack v) = Ok dx /\ d = pack dx.
Theorem C148_web_capacity : forall psdm c op Cin Tf v, (0 < NION c)%nat ->
  computed (in_column (nr c) (NION c) (nz c)) (web_calls psdm c op Cin Tf) (pack (r_initial c (Cin 0))) v ->
  forall r z, (r < nr c)%nat -> (z < nz c)%nat -> rsum (NION c) (fun i => unpack v r i z) = Qcap c.
Proof.
  intros psdm c op Cin Tf v HN H r z Hr Hz. set (l := fun v : cell -> R => rsum (NION c) (fun i => 1 * v (r, i, z))).
  assert (L : linear (in_column (nr c) (NION c) (nz c)) l) by (apply (linear_rsum _ _ _ (fun _ => 1) (fun i => (r, i, z))); intros i Hi; cbn; lia).
  assert (E := C148_linear _ _ (web_calls psdm c op Cin Tf) _ l L ltac:(intros t w d (_ & dx & Hd & ->); unfold l, pack;
    rewrite <- (C124_resin_rates_sum_to_zero psdm c op (Cin t) (unpack w) dx Hd r z Hr); apply rsum_ext; intros; ring) v H).
  assert (E0 : l (pack (r_initial c (Cin 0))) = Qcap c).
  { unfold l, pack, r_initial. destruct (Nat.eqb_spec r (nr c)); [lia|]. rewrite (rsum_single _ _ 0%nat HN); [cbn; ring|]. intros i Hi Hn. rewrite (proj2 (Nat.eqb_neq i 0) Hn). ring. }
  rewrite <- E0, <- E. unfold l, unpack. apply rsum_ext. intros; ring.
Qed.
(** So its closing check never rejects a run. *)
Theorem C148_web_check_accepts : forall psdm c op Cin Tf (x : R -> cell -> R), (0 < NION c)%nat -> (2 <= nr c)%nat -> (1 <= nz c)%nat ->
  (forall T, 0 <= T <= Tf -> computed (in_column (nr c) (NION c) (nz c)) (web_calls psdm c op Cin Tf) (pack (r_initial c (Cin 0))) (x T)) ->
  0 <= Tf -> r_result c (unpack (x Tf)) (fun T => unpack (x T)) = fun T => unpack (x T).
Proof.
  intros psdm c op Cin Tf x HN Hr Hz H Hf. assert (X := C148_web_capacity psdm c op Cin Tf (x Tf) HN (H Tf ltac:(lra))).
  unfold r_result. rewrite !X by lia. rewrite (proj2 (reqb_true (Qcap c) (Qcap c)) eq_refl). reflexivity.
Qed.

(** ** Batch reactors *)
Definition in_batch (nr NION : nat) (k : nat * nat) : Prop := (fst k <= nr)%nat /\ (snd k < NION)%nat.
Definition pack2 (u : nat -> nat -> R) (k : nat * nat) : R := u (fst k) (snd k).
(** arrays have no entries beyond the last ion *)
Definition unpack2 (NION : nat) (v : nat * nat -> R) (r i : nat) : R := if Nat.ltb i NION then v (r, i) else 0.
Definition batch_calls psdm b op (_ : R) (v d : nat * nat -> R) : Prop :=
  exists dx, batch_rhs psdm b op (unpack2 (b_NION b) v) = Some dx /\ d = pack2 dx.
Theorem C148_batch_amount : forall legendre jacobi psdm b u0 v,
  good_roots legendre jacobi -> (1 <= b_nr b)%nat -> b_VL b <> 0 -> b_rb b <> 0 ->
  let op := build_radial legendre jacobi (b_nr b) in
  computed (in_batch (b_nr b) (b_NION b)) (batch_calls psdm b op) (pack2 u0) v ->
  forall i, (i < b_NION b)%nat ->
  amount (b_nr b) (rWr op) (b_VL b) (b_VR b) (unpack2 (b_NION b) v) i = amount (b_nr b) (rWr op) (b_VL b) (b_VR b) u0 i.
Proof.
  intros leg jac psdm b u0 v HG Hr HV Hb op H i Hi. destruct (radial_ok leg jac (b_nr b) Hr HG) as (_ & HW & _). fold op in HW.
  assert (W := HW (b_nr b - 1)%nat ltac:(lia)).
  set (l := fun v : nat * nat -> R => b_VL b * rsum 1 (fun _ => 1 * v (0%nat, i)) + b_VR b * 3 * rsum (b_nr b) (fun m => rWr op m * v (S m, i))).
  assert (L : linear (in_batch (b_nr b) (b_NION b)) l).
  { apply (linear_combination _ _ (b_VL b) (fun v => rsum 1 (fun _ => 1 * v (0%nat, i))) (b_VR b * 3) (fun v => rsum (b_nr b) (fun m => rWr op m * v (S m, i)))).
    - apply (linear_rsum _ _ 1 (fun _ => 1) (fun _ => (0%nat, i))). intros j Hj. split; cbn; lia.
    - apply (linear_rsum _ _ (b_nr b) (rWr op) (fun m => (S m, i))). intros j Hj. split; cbn; lia. }
  assert (A : forall u, l (pack2 u) = amount (b_nr b) (rWr op) (b_VL b) (b_VR b) u i) by (intros u; unfold l, pack2, amount; cbn [rsum fst snd]; ring).
  assert (AV : amount (b_nr b) (rWr op) (b_VL b) (b_VR b) (unpack2 (b_NION b) v) i = l v).
  { rewrite <- A. apply (proj1 L). intros (r, j) (K1 & K2). unfold pack2, unpack2. cbn [fst snd] in *. rewrite (proj2 (Nat.ltb_lt j (b_NION b)) K2). reflexivity. }
  rewrite AV, <- A. refine (C148_linear _ _ _ _ l L _ v H).
  intros t w d (dx & Hd & ->). rewrite A. destruct (rhs_shape _ _ _ _ _ Hd) as (Ceq & dq & E). rewrite E.
  apply assemble_balance; try assumption. lra.
Qed.

(** ** Powdered carbon *)
(** entry 0: the liquid; entry i+1: the bead at the i-th radius *)
Definition pac_calls nc B W q (_ : R) (v d : nat -> R) : Prop :=
  d 0%nat = dC_dt nc q (v 0%nat) (fun i => v (S i)) /\ forall i, (i < nc)%nat -> d (S i) = dY_dt nc B W q (v 0%nat) (fun i => v (S i)) i.
(** adsorbate in a unit volume of the mixture *)
Definition held nc (W : nat -> R) q (v : nat -> R) : R := q_E q * v 0%nat + (1 - q_E q) * (3 * rsum nc (fun i => W i * v (S i))).
Theorem C148_pac_content : forall nc B W q v0 v, (1 <= nc)%nat -> W (nc - 1)%nat <> 0 -> q_E q <> 0 -> q_ra q <> 0 ->
  computed (fun k => (k <= nc)%nat) (pac_calls nc B W q) v0 v -> held nc W q v = held nc W q v0.
Proof.
  intros nc B W q v0 v N HW HE HR H. refine (C148_linear _ _ _ _ (held nc W q) _ _ v H).
  - split.
    + intros x y E. unfold held. rewrite (E 0%nat) by lia. rewrite (rsum_ext nc _ (fun i => W i * y (S i))) by (intros i Hi; rewrite E by lia; reflexivity). reflexivity.
    + intros a x b y. unfold held. rewrite (rsum_ext nc _ (fun i => a * (W i * x (S i)) + b * (W i * y (S i)))) by (intros; ring). rewrite rsum_plus, !rsum_scal. ring.
  - intros t z d (E0 & ES). unfold held. rewrite E0. rewrite (rsum_ext nc _ (fun i => W i * dY_dt nc B W q (z 0%nat) (fun i => z (S i)) i)) by (intros i Hi; rewrite ES by exact Hi; reflexivity).
    rewrite weighted_rate by assumption. unfold dC_dt. field. split; assumption.
Qed.

(** ** C149: equilibrium *)
Theorem C149_bdf : forall (I : Type) (dom : I -> Prop) (f : R -> (I -> R) -> (I -> R) -> Prop) y0,
  (forall t z d, (forall k, dom k -> z k = y0 k) -> f t z d -> forall k, dom k -> d k = 0) ->
  forall y, bdf_output dom f y0 y -> forall k, dom k -> y k = y0 k.
Proof. intros I dom f y0 S y H. exact (bdf_output_steady dom f y0 y S H). Qed.
Theorem C149_runge_kutta : forall (I : Type) (dom : I -> Prop) (f : R -> (I -> R) -> (I -> R) -> Prop) y0,
  (forall t z d, (forall k, dom k -> z k = y0 k) -> f t z d -> forall k, dom k -> d k = 0) ->
  forall y, runge_kutta f y0 y -> forall k, dom k -> y k = y0 k.
Proof. intros I dom f y0 S y H. exact (runge_kutta_steady dom f y0 y S H). Qed.

(** A column that starts in equilibrium with a constant influent: every computed state is the start. *)
Theorem C149_column : forall legendre jacobi ocfe op (psdm : bool) c th Cin Tf u (q : nat -> nat -> R) v,
  good_roots legendre jacobi -> (0 < NION c)%nat -> (1 <= nr c)%nat -> (2 <= nz c)%nat ->
  build_operators legendre jacobi (nr c) (nz c) ocfe = Ok op ->
  selectivities (NION c) (Kxc c) -> mono_or_divalent (NION c) (val c) ->
  (forall i, (i < NION c)%nat -> 0 <= Cin i) ->
  (forall i z, (i < NION c)%nat -> (1 <= z < nz c)%nat -> u 0%nat i z = Cin i) ->
  (forall r i z, (r < nr c)%nat -> (i < NION c)%nat -> (z < nz c)%nat -> u (S r) i z = q i z) ->
  (forall z, (z < nz c)%nat ->
     resin_composition (NION c) (fun i => q i z / (if psdm then 1 - EPOR c else 1)) /\
     in_equilibrium (NION c) (Kxc c) (val c) (fun i => q i z / (if psdm then 1 - EPOR c else 1)) Cin) ->
  bdf_output (in_column (nr c) (NION c) (nz c)) (column_calls psdm c op th (fun _ => Cin) Tf) (pack u) v ->
  forall r i z, (r <= nr c)%nat -> (i < NION c)%nat -> (z < nz c)%nat -> unpack v r i z = u r i z.
Proof.
  intros leg jac ocfe op psdm c th Cin Tf u q v HG HN Hr Hz Hb HK Hv HC HuL HuR Heq H r i z Hr' Hi Hz'.
  refine (C149_bdf _ _ _ _ _ v H (r, i, z) _); [|cbn; lia].
  intros t w d E (_ & ->) ((r', i'), z') (K1 & K2 & K3). cbn [pack].
  apply (C18_equilibrium_is_stationary leg jac ocfe op psdm c th Cin (unpack w) q); try assumption.
  - intros j y Hj Hy. unfold unpack. rewrite (E (0%nat, j, y)) by (cbn; lia). apply HuL; assumption.
  - intros s j y Hs Hj Hy. unfold unpack. rewrite (E (S s, j, y)) by (cbn; lia). apply HuR; assumption.
Qed.

Theorem C149_batch : forall legendre jacobi (psdm : bool) b u (q : nat -> R) v,
  good_roots legendre jacobi -> (0 < b_NION b)%nat -> (1 <= b_nr b)%nat ->
  selectivities (b_NION b) (b_K b) -> mono_or_divalent (b_NION b) (b_val b) ->
  let op := build_radial legendre jacobi (b_nr b) in
  let solid := if psdm then 1 - b_EPOR b else 1 in
  (forall i, (i < b_NION b)%nat -> 0 <= u 0%nat i) ->
  rsum (b_NION b) (u 0%nat) = rsum (b_NION b) (b_C0 b) ->
  (forall r i, (1 <= r <= b_nr b)%nat -> (i < b_NION b)%nat -> u r i = q i) ->
  resin_composition (b_NION b) (fun i => q i / solid) ->
  (forall i, (i < b_NION b)%nat -> b_val b i = 2%nat -> 0 < q i / solid) ->
  in_equilibrium (b_NION b) (b_K b) (b_val b) (fun i => q i / solid) (u 0%nat) ->
  bdf_output (in_batch (b_nr b) (b_NION b)) (batch_calls psdm b op) (pack2 u) v ->
  forall r i, (r <= b_nr b)%nat -> (i < b_NION b)%nat -> unpack2 (b_NION b) v r i = u r i.
Proof.
  intros leg jac psdm b u q v HG HN Hr HK Hz op solid HC HT Hu Hq Hd HE H r i Hr' Hi.
  assert (A : forall j, (j < b_NION b)%nat -> Nat.ltb j (b_NION b) = true) by (intros j Hj; apply Nat.ltb_lt, Hj).
  unfold unpack2. rewrite A by exact Hi. refine (C149_bdf _ _ _ _ _ v H (r, i) _); [|split; cbn; lia].
  intros t w d E (dx & Hdx & ->) (r', i') (K1 & K2). cbn [fst snd] in K1, K2. unfold pack2. cbn [fst snd].
  assert (EW : forall s j, (s <= b_nr b)%nat -> (j < b_NION b)%nat -> unpack2 (b_NION b) w s j = u s j).
  { intros s j Hs Hj. unfold unpack2. rewrite A by exact Hj. apply (E (s, j)). split; cbn; lia. }
  set (q' := fun j => if Nat.ltb j (b_NION b) then q j else 0).
  assert (EQ : forall j, (j < b_NION b)%nat -> q' j = q j) by (intros j Hj; unfold q'; rewrite A by exact Hj; reflexivity).
  destruct (C64_batch_equilibrium_is_stationary leg jac psdm b (unpack2 (b_NION b) w) q' HG HN Hr HK Hz) as (d' & Ed & Z).
  - intros j Hj. rewrite EW by lia. apply HC, Hj.
  - rewrite <- HT. apply rsum_ext. intros j Hj. apply EW; lia.
  - intros s Hs j. destruct (Nat.ltb j (b_NION b)) eqn:L.
    + apply Nat.ltb_lt in L. rewrite EW, EQ by lia. apply Hu; assumption.
    + unfold unpack2, q'. rewrite L. reflexivity.
  - destruct Hq as (Q0 & Q). split; [rewrite EQ by exact HN; exact Q0|]. intros j Hj. rewrite EQ by exact Hj. apply Q, Hj.
  - intros j Hj. rewrite EQ by exact Hj. apply Hd, Hj.
  - destruct HE as [(X & HE)|(X & HE)]; [left|right]; (split; [exact X|]).
    + intros j J1 J2. fold solid. rewrite !EQ, !EW by lia. apply HE; assumption.
    + intros j k J1 J2. fold solid. rewrite !EQ, !EW by lia. apply HE; assumption.
  - fold op in Ed. assert (ED : dx = d') by congruence. rewrite ED. apply Z; assumption.
Qed.

(** A column of granular carbon; [solver] is the user's choice among the library's methods. *)
Definition in_bed (n nr mc : nat) (k : cell) : Prop := let '(i, r, z) := k in (i < n)%nat /\ (r <= nr)%nat /\ (z < mc)%nat.
Definition gac_calls g m nr rows foul Tf (t : R) (v d : cell -> R) : Prop :=
  0 <= t <= Tf /\ d = pack (diffun g m nr rows foul t (unpack v)).
Lemma surface_ext g nr foul t y y' i z : (forall j, (j < x_n g)%nat -> y j (nr - 1)%nat z = y' j (nr - 1)%nat z) -> (i < x_n g)%nat ->
  surface_liquid g nr foul t y i z = surface_liquid g nr foul t y' i z.
Proof.
  intros E Hi. unfold surface_liquid, cpore.
  assert (ZR : forall j, (j < x_n g)%nat -> z_raw g y j (nr - 1) z = z_raw g y' j (nr - 1) z) by (intros j Hj; unfold z_raw; rewrite E by exact Hj; reflexivity).
  assert (Q2 : qte2 g y (nr - 1) z = qte2 g y' (nr - 1) z) by (unfold qte2; rewrite (rsum_ext (x_n g) _ _ ZR); reflexivity).
  assert (Y0 : yt0 g y (nr - 1) z = yt0 g y' (nr - 1) z) by (unfold yt0; apply rsum_ext; intros j Hj; rewrite ZR by exact Hj; reflexivity).
  unfold cpore_raw, q0, z2. rewrite Q2, Y0, ZR by exact Hi. reflexivity.
Qed.
Theorem C149_gac : forall inv legendre jroots nr nz ne m g rows foul Tf u (C : nat -> R) v,
  good_library inv legendre jroots nr nz -> (1 <= nr)%nat ->
  calc_solver_matrix inv legendre jroots nr nz ne = Ok m ->
  (* constant influent, of which the bed is full *)
  (forall t i, 0 <= t <= Tf -> (i < x_n g)%nat -> at_time g (cinfA g rows) t i = C i) ->
  (forall i r z, (i < x_n g)%nat -> (r < nr)%nat -> (z < m_c m)%nat -> u i r z = u i 0%nat z) ->
  (forall t i z, 0 <= t <= Tf -> (i < x_n g)%nat -> (z < m_c m)%nat -> surface_liquid g nr foul t u i z = C i) ->
  (forall i z, (i < x_n g)%nat -> (1 <= z < m_c m)%nat -> u i nr z = C i) ->
  let calls := gac_calls g m nr rows foul Tf in
  bdf_output (in_bed (x_n g) nr (m_c m)) calls (pack u) v \/ runge_kutta calls (pack u) v ->
  forall i r z, (i < x_n g)%nat -> (r <= nr)%nat -> (z < m_c m)%nat -> unpack v i r z = u i r z.
Proof.
  intros inv leg jr nr nz ne m g rows foul Tf u C v HG HN Hm HC HU HS HL calls H i r z Hi Hr Hz.
  assert (ST : forall t w d, (forall k, in_bed (x_n g) nr (m_c m) k -> w k = pack u k) -> calls t w d -> forall k, in_bed (x_n g) nr (m_c m) k -> d k = 0).
  { intros t w d E (Ht & ->) ((i', r'), z') (K1 & K2 & K3). cbn [pack].
    assert (EW : forall j s y, (j < x_n g)%nat -> (s <= nr)%nat -> (y < m_c m)%nat -> unpack w j s y = u j s y) by (intros j s y H1 H2 H3; apply (E (j, s, y)); cbn; lia).
    apply (C72_equilibrium_is_steady inv leg jr nr nz ne m g rows foul t (unpack w) HG Hm); try assumption.
    - intros j s y H1 H2 H3. rewrite !EW by lia. apply HU; assumption.
    - intros j y H1 H2. rewrite HC by assumption. rewrite (surface_ext g nr foul t (unpack w) u) by (try assumption; intros k Hk; apply EW; lia). apply HS; assumption.
    - intros j y H1 H2. rewrite EW, HC by (try assumption; lia). apply HL; assumption. }
  assert (K : in_bed (x_n g) nr (m_c m) (i, r, z)) by (cbn; lia).
  destruct H as [H|H]; [exact (C149_bdf _ _ _ _ ST v H _ K)|exact (C149_runge_kutta _ _ _ _ ST v H _ K)].
Qed.

(** Powdered carbon whose beads are uniform and whose liquid is their pore liquid. *)
Theorem C149_pac : forall nc x W q y v0 v, (1 <= nc)%nat -> distinct nc x ->
  (forall i, (i < nc)%nat -> v0 (S i) = y) -> v0 0%nat = pore q (fun _ => y) 0 ->
  runge_kutta (pac_calls nc (Bx nc x 3) W q) v0 v -> forall k, (k <= nc)%nat -> v k = v0 k.
Proof.
  intros nc x W q y v0 v N D HY HC H. refine (C149_runge_kutta _ (fun k => (k <= nc)%nat) _ _ _ v H).
  intros t z d E (E0 & ES) k Hk. destruct (C55_equilibrium nc x W q y N D) as (Z0 & ZS).
  assert (EZ : forall i, (i < nc)%nat -> z (S i) = y) by (intros i Hi; rewrite E by lia; apply HY, Hi).
  assert (EC : z 0%nat = pore q (fun _ => y) 0) by (rewrite E by lia; exact HC).
  assert (EP : forall i, (i < nc)%nat -> pore q (fun i => z (S i)) i = pore q (fun _ => y) i) by (intros i Hi; unfold pore; rewrite EZ by exact Hi; reflexivity).
  assert (EF : flux nc q (z 0%nat) (fun i => z (S i)) = flux nc q (pore q (fun _ => y) 0) (fun _ => y)) by (unfold flux; rewrite EP, EC by lia; reflexivity).
  assert (ED : forall i, diffusion nc (Bx nc x 3) q (fun i => z (S i)) i = diffusion nc (Bx nc x 3) q (fun _ => y) i).
  { intros i. unfold diffusion. rewrite (rsum_ext nc (fun j => Bx nc x 3 i j * pore q (fun i => z (S i)) j) (fun j => Bx nc x 3 i j * pore q (fun _ => y) j)) by (intros j Hj; rewrite EP by exact Hj; reflexivity).
    rewrite (rsum_ext nc (fun j => Bx nc x 3 i j * z (S j)) (fun j => Bx nc x 3 i j * y)) by (intros j Hj; rewrite EZ by exact Hj; reflexivity). reflexivity. }
  destruct k as [|k].
  - rewrite E0. unfold dC_dt in Z0 |- *. rewrite EF. exact Z0.
  - rewrite ES by lia. rewrite <- (ZS k) by lia. unfold dY_dt. rewrite EF, ED. destruct (Nat.eqb k (nc - 1)); [|reflexivity].
    rewrite (rsum_ext (nc - 1) _ (fun k => W k * diffusion nc (Bx nc x 3) q (fun _ => y) k)) by (intros j Hj; rewrite ED; reflexivity). reflexivity.
Qed.

(** ** The hypotheses are met *)
(** scipy's BDF on y' = -y: one step of size 1 from 1 gives 1/2, with one Newton iteration. *)
Example bdf_decay : bdf_output (fun _ : unit => True) (fun _ z d => forall k, d k = - z k) (fun _ => 1) (fun _ => 1 / 2).
Proof.
  set (f := fun (_ : R) (z d : unit -> R) => forall k, d k = - z k).
  assert (B := bdf_start (fun _ => True) f (fun _ => 1) 0 1 (fun _ => - (1)) ltac:(intros k; ring)).
  set (D := fun j : nat => match j with O => fun _ : unit => 1 | 1%nat => fun _ : unit => 1 * - (1) | _ => fun _ : unit => 0 end) in B.
  set (cols := [(tt, 1, fun _ : unit => - (2))]).
  assert (J : difference_jacobian (fun _ : unit => True) f (fun _ => - (1)) cols).
  { split; [exists 0, (fun _ => 1); intros k; ring|]. intros c [<- |[]]. split; [exact Logic.I|]. exists 0, (fun _ => 2). intros k. cbn. ring. }
  set (psi := fun k : unit => rsum 1 (fun i => (fun _ : nat => 1) (S i) * D (S i) k) / 1).
  set (yp := fun k : unit => rsum 2 (fun i => D i k)).
  assert (N := newton_more (fun _ : unit => True) f (fun _ => - (1)) cols 1 1 psi yp _ _ (fun _ => 0) (fun _ => 1 / 2) (newton_start _ _ _ _ _ _ _ _)).
  assert (N' : newton (fun _ : unit => True) f (fun _ => - (1)) cols 1 1 psi yp (fun k => yp k + 1 / 2) (fun k => 0 + 1 / 2)).
  { apply N.
    - intros k. unfold yp, D. cbn. ring.
    - unfold solves, jacobian_times, cols, psi, D. cbn. split; [intros k _; field|]. intros x' S [] _. specialize (S tt Logic.I). lra. }
  exists 1%nat, (update_D 1 D (fun k => 0 + 1 / 2)), (fun _ => 0). split.
  - exact (bdf_step _ _ _ 1 D (fun _ => 1) 1 1 1 _ cols _ _ B J N').
  - intros k _. unfold update_D, D. cbn. field.
Qed.
(** A column after any step of Euler's method is a computed state. *)
Example column_step : forall psdm c op th Cin h,
  computed (in_column (nr c) (NION c) (nz c)) (column_calls psdm c op th Cin 1) (pack (initial_state c (Cin 0) None))
    (fun k => pack (initial_state c (Cin 0) None) k + h * pack (rhs psdm c op th (Cin 0) (initial_state c (Cin 0) None)) k).
Proof.
  intros. set (y0 := pack (initial_state c (Cin 0) None)). set (d := pack (rhs psdm c op th (Cin 0) (initial_state c (Cin 0) None))).
  apply (computed_add _ _ _ y0 (fun k => h * d k)); [apply computed_start; reflexivity| |reflexivity].
  apply increment_scal, (increment_rate _ _ _ 0 y0). split; [lra|reflexivity].
Qed.
(** Powdered carbon: after such a step the liquid has lost half, the content is the same. *)
Example pac_step : exists v, runge_kutta (pac_calls 1 (fun _ _ => 0) (fun _ => 1 / 3) demo_eqn) (fun k => match k with O => 1 | _ => 0 end) v /\
  v 0%nat = 1 / 2 /\ held 1 (fun _ => 1 / 3) demo_eqn v = 1 / 2.
Proof.
  set (v0 := fun k : nat => match k with O => 1 | _ => 0 end).
  set (d := fun k : nat => match k with O => dC_dt 1 demo_eqn (v0 0%nat) (fun i => v0 (S i)) | S i => dY_dt 1 (fun _ _ => 0) (fun _ => 1 / 3) demo_eqn (v0 0%nat) (fun i => v0 (S i)) i end).
  assert (P : pore demo_eqn (fun i => v0 (S i)) 0 = 0).
  { unfold pore, demo_eqn, v0. cbn. replace (0 / 1 / 1) with 0 by field. unfold rltb. destruct (Rlt_dec 0 0); apply rpow_0; lra. }
  exists (fun k => v0 k + S_Solver.combine (fun _ => 1) [d] k). split; [|split].
  - apply rk_step; [apply rk_start|]. apply (stages_more _ _ (fun _ => 0) 0 [] d); [apply stages_none|].
    split; [unfold d, S_Solver.combine; cbn [rsum length]; unfold dC_dt, flux, pore; rewrite !Rplus_0_r; reflexivity|].
    intros i Hi. unfold d. unfold dY_dt, flux, diffusion, pore. unfold S_Solver.combine; cbn [rsum length]. rewrite !Rplus_0_r. reflexivity.
  - unfold S_Solver.combine, d. cbn [rsum length nth]. unfold dC_dt, flux. cbn [Nat.sub]. rewrite P. unfold v0, demo_eqn. cbn. field.
  - unfold held, S_Solver.combine, d. cbn [rsum length nth]. unfold dC_dt, dY_dt, flux. cbn [Nat.sub Nat.eqb rsum]. rewrite P. unfold v0, demo_eqn. cbn. field.
Qed.
Print Assumptions C148_bdf.
Print Assumptions C148_runge_kutta.
Print Assumptions C148_linear.
Print Assumptions C148_column_capacity.
Print Assumptions C148_column_totals.
Print Assumptions C148_web_capacity.
Print Assumptions C148_web_check_accepts.
Print Assumptions C148_batch_amount.
Print Assumptions C148_pac_content.
Print Assumptions C149_bdf.
Print Assumptions C149_runge_kutta.
Print Assumptions C149_column.
Print Assumptions C149_batch.
Print Assumptions C149_gac.
Print Assumptions C149_pac.
