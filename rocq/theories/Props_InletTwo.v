(** C196 — beads at the inlet of an ion-exchange column on two radial points. *)
From Coq Require Import Reals List Arith Bool Lra Lia.
From Verif Require Import Lib_Py Lib_Sum Lib_Traj S_Colloc M_Colloc P_Colloc S_Radial P_Radial P_RadialSign P_JacobiRoots.
From Verif Require Import M_IxEq S_IxEq M_IxColumn S_IxColumn P_IxColumn P_IxUnique S_Unique Props_Rest Props_IxColumn Props_Inside P_EntropyDv P_InletTwo.
Import ListNotations.
Open Scope R_scope.

Definition cK (psdm : bool) (c : column) (i : nat) : R :=
  if has_divalent (NION c) (val c) then (if Nat.eqb i 0 then theta psdm c else theta psdm c * Kxc c i) else theta psdm c * Kxc c i.
Lemma theta_pos (psdm : bool) c th : working_column psdm c th -> 0 < theta psdm c.
Proof. intros (_ & _ & _ & _ & _ & _ & _ & _ & _ & _ & E & _). unfold theta. destruct psdm; [specialize (E eq_refl); lra|lra]. Qed.
Lemma cK_pos (psdm : bool) c th i : working_column psdm c th -> (i < NION c)%nat -> 0 < cK psdm c i.
Proof.
  intros WC I. assert (T := theta_pos psdm c th WC). assert (K : 0 < Kxc c i) by (apply WC; exact I). assert (0 < theta psdm c * Kxc c i) by (apply Rmult_lt_0_compat; assumption).
  unfold cK. destruct (has_divalent (NION c) (val c)); [destruct (Nat.eqb i 0)|]; assumption.
Qed.
(** the equilibrium of the code, ion by ion *)
Lemma col_eq (psdm : bool) c th v CT i : working_column psdm c th -> 0 <= CT -> sound (NION c) (val c) (cK psdm c) CT v -> (i < NION c)%nat ->
  calc_Ceq (NION c) (Kxc c) (val c) (fun j => v j / theta psdm c) CT i = shr (NION c) (val c) (cK psdm c) CT v i * v i.
Proof.
  intros WC C (V0 & D & DI) I. assert (TP := theta_pos psdm c th WC). assert (HK : forall j, (j < NION c)%nat -> 0 < Kxc c j) by apply WC.
  assert (N0 : (0 < NION c)%nat) by apply WC. assert (Z0 : val c 0%nat = 1%nat) by apply WC. assert (Hz : forall i, (i < NION c)%nat -> val c i = 1%nat \/ val c i = 2%nat) by apply WC.
  destruct (ratio_ok CT _ _ C D DI) as (_ & ROOT). unfold shr. unfold rat. set (n := NION c) in *. set (th0 := theta psdm c) in *.
  unfold calc_Ceq. destruct (has_divalent n (val c)) eqn:HD.
  - assert (CK : forall j, cK psdm c j = if Nat.eqb j 0 then th0 else th0 * Kxc c j) by (intros j; unfold cK; fold n; rewrite HD; reflexivity).
    set (q := fun j => v j / th0). set (a := ea n (val c) (cK psdm c) v) in *. set (d := ed n (val c) (cK psdm c) v) in *.
    assert (SA : masked_sum n (dv_idx (val c)) (fun i => q i / Kxc c i) = a).
    { unfold masked_sum, a, ea, dv_idx. apply rsum_ext. intros j J. destruct (Nat.eqb_spec (val c j) 2) as [V|V]; [|reflexivity]. assert (j <> 0%nat) by (intros ->; rewrite Z0 in V; discriminate V).
      rewrite CK. destruct (Nat.eqb_spec j 0); [contradiction|]. assert (KJ := HK j J). unfold q. field. lra. }
    assert (SD : q 0%nat + masked_sum n (mv_idx (val c)) (fun i => q i / Kxc c i) = d).
    { unfold masked_sum, d, ed, mv_idx. rewrite (rsum_split_at n (fun j => if Nat.eqb (val c j) 2 then 0 else v j / cK psdm c j) 0 N0). rewrite Z0, CK. cbn [Nat.eqb].
      f_equal. apply rsum_ext. intros j J. destruct (Nat.eq_dec j 0) as [->|NE]; [rewrite Z0; reflexivity|].
      destruct (Hz j J) as [V|V]; rewrite V; cbn [Nat.eqb andb]; [|reflexivity]. rewrite CK. destruct (Nat.eqb_spec j 0); [contradiction|]. cbn [negb]. assert (KJ := HK j J). unfold q. field. lra. }
    assert (Q0 : 0 < q 0%nat) by (apply Rdiv_lt_0_compat; assumption). set (x := q 0%nat) in *. set (s := sqrt (d ^ 2 + 4 * a * CT)).
    assert (S0 : 0 <= s) by apply sqrt_pos. assert (S2 : s * s = d ^ 2 + 4 * a * CT) by (apply sqrt_sqrt; exact DI).
    assert (AA : eq_aa n (Kxc c) (val c) q = a / x ^ 2) by (unfold eq_aa; rewrite SA; reflexivity).
    assert (BB : eq_bb n (Kxc c) (val c) q = d / x) by (unfold eq_bb; rewrite <- SD; fold x; field; lra).
    assert (CC : Cc_column n (Kxc c) (val c) q CT = x * ratio CT a d).
    { unfold Cc_column. cbv zeta. rewrite AA, BB. replace ((d / x) ^ 2 - 4 * (a / x ^ 2) * - CT) with ((s / x) ^ 2).
      - rewrite sqrt_pow2 by (apply Rmult_le_pos; [exact S0|left; apply Rinv_0_lt_compat, Q0]). unfold ratio. fold s. field. split; [lra|split; lra].
      - replace ((s / x) ^ 2) with (s * s / x ^ 2) by (field; lra). rewrite S2. field. lra. }
    unfold Ceq_dv. rewrite CC. unfold mass_action. rewrite CK. destruct (Nat.eqb_spec i 0) as [->|NE].
    + rewrite Z0. unfold x, q. field. lra.
    + fold x. replace (x * ratio CT a d / x) with (ratio CT a d) by (field; lra). assert (KI := HK i I). unfold q. field. lra.
  - assert (CK : forall j, cK psdm c j = th0 * Kxc c j) by (intros j; unfold cK; fold n; rewrite HD; reflexivity).
    assert (ONE : forall j, (j < n)%nat -> val c j = 1%nat).
    { intros j J. destruct (Hz j J) as [V|V]; [exact V|]. exfalso. assert (has_divalent n (val c) = true) by (apply has_divalent_exists; exists j; split; assumption). congruence. }
    assert (A0 : ea n (val c) (cK psdm c) v = 0) by (unfold ea; apply rsum_zero; intros j J; rewrite ONE by exact J; reflexivity).
    rewrite A0 in ROOT |- *. set (d := ed n (val c) (cK psdm c) v) in *. set (p := ratio CT 0 d) in *. rewrite (ONE i I), pow_1, CK. assert (KI := HK i I).
    unfold Ceq_mv. replace (rsum n (fun j => alpha (Kxc c) i j * (v j / th0))) with (Kxc c i * d).
    + replace CT with (d * p) by lra. field. lra.
    + unfold d, ed. rewrite <- rsum_scal. apply rsum_ext. intros j J. rewrite ONE by exact J. cbn [Nat.eqb]. rewrite CK. unfold alpha. assert (KJ := HK j J). field. lra.
Qed.
(** it has the charge of the liquid *)
Lemma shr_sum n z K CT v : 0 <= CT -> (forall i, (i < n)%nat -> z i = 1%nat \/ z i = 2%nat) -> sound n z K CT v -> rsum n (fun i => shr n z K CT v i * v i) = CT.
Proof.
  intros C Hz (_ & D & DI). destruct (ratio_ok CT _ _ C D DI) as (_ & ROOT). unfold shr, rat. set (p := ratio CT (ea n z K v) (ed n z K v)) in *. rewrite <- ROOT at 1. unfold ea, ed.
  rewrite (Rmult_comm _ (p ^ 2)), (Rmult_comm _ p), <- !rsum_scal, <- rsum_plus. apply rsum_ext. intros i I. destruct (Hz i I) as [V|V]; rewrite V; cbn [Nat.eqb]; unfold Rdiv; ring.
Qed.

(** ** The law of the bead at the inlet *)
Definition film_rate (op : operators) (c : column) (th : R) : R := th / rb c * kL c 1%nat / Wr op 1%nat.
Definition core_rate (op : operators) (c : column) (th : R) : R := Br op 0%nat 1%nat * th / rb c ^ 2.
Definition give_rate (op : operators) (c : column) (th : R) : R := Wr op 0%nat / Wr op 1%nat * core_rate op c th.
Definition pore_share (psdm : bool) (c : column) : R := if psdm then EPOR c * (Dp c 1%nat - Ds c 1%nat) else 0.
Lemma inlet_operators legendre jacobi ocfe op c : jacobi_roots 2 1 (jacobi 1%nat (5 / 2) (3 / 2)) -> build_operators legendre jacobi (nr c) (nz c) ocfe = Ok op -> nr c = 2%nat ->
  0 < Br op 0%nat 1%nat /\ Br op 0%nat 0%nat = - Br op 0%nat 1%nat /\ 0 < Wr op 0%nat /\ 0 < Wr op 1%nat.
Proof.
  intros HJ BO N2.
  assert (HJ' : jacobi_roots 2 (nr c - 1) (jacobi (nr c - 1)%nat (INR 3 / 2 + 1) (INR 3 / 2))) by (rewrite Props_PacBound.INR3, N2; replace (3 / 2 + 1) with (5 / 2) by field; exact HJ).
  assert (OI : Br op = Bx (nr c) (rootsu jacobi (nr c) (INR 3)) (INR 3) /\ Wr op = Wx (nr c) (rootsu jacobi (nr c) (INR 3)) (INR 3)).
  { rewrite Props_PacBound.INR3. unfold build_operators in BO. destruct ocfe; [destruct (Nat.eqb _ _); [|discriminate BO]|]; apply Ok_inj in BO; subst op; split; reflexivity. }
  destruct OI as (EB & EW).
  assert (SG := last_column_sign jacobi (nr c) 2 ltac:(lia) HJ' 0%nat ltac:(lia)). rewrite <- EB in SG. destruct (code_weights jacobi (nr c) 2 ltac:(lia) HJ') as (WP & _). rewrite <- EW in WP.
  assert (ZZ := Bx_constant (nr c) _ (u_distinct jacobi (nr c) 2 ltac:(lia) HJ') (INR 3) 1 0%nat ltac:(lia)). rewrite <- EB in ZZ. unfold apply_row in ZZ.
  rewrite N2 in SG, WP, ZZ. change (2 - 0)%nat with 2%nat in SG. change (2 - 1)%nat with 1%nat in SG. cbn [rsum] in ZZ. assert (W0 := WP 0%nat ltac:(lia)). assert (W1 := WP 1%nat ltac:(lia)).
  split; [lra|]. split; [lra|]. split; assumption.
Qed.
Section Inlet.
Variables (legendre : nat -> nat -> R) (jacobi : nat -> R -> R -> nat -> R) (ocfe : bool) (op : operators) (psdm : bool) (c : column) (th : R).
Hypothesis HJ : jacobi_roots 2 1 (jacobi 1%nat (5 / 2) (3 / 2)).
Hypothesis BO : build_operators legendre jacobi (nr c) (nz c) ocfe = Ok op.
Hypothesis WC : working_column psdm c th.
Hypothesis N2 : nr c = 2%nat.
Hypothesis NI : (1 < NION c)%nat.
Lemma inlet_positive : 0 < film_rate op c th /\ 0 < core_rate op c th /\ 0 < give_rate op c th /\ 0 <= pore_share psdm c /\ 0 < Ds c 1%nat.
Proof.
  destruct (inlet_operators legendre jacobi ocfe op c HJ BO N2) as (BP & _ & W0 & W1). assert (HR : 0 < rb c) by apply WC. assert (HT0 : 0 < th) by apply WC.
  destruct WC as (_ & _ & _ & _ & _ & _ & _ & _ & _ & _ & EP & CF). destruct (CF 1%nat ltac:(lia)) as (K1 & D1 & DP1).
  assert (BE : 0 < core_rate op c th) by (apply Rdiv_lt_0_compat; [apply Rmult_lt_0_compat; assumption|apply pow_lt, HR]).
  split; [apply Rdiv_lt_0_compat; [apply Rmult_lt_0_compat; [apply Rdiv_lt_0_compat; assumption|exact K1]|exact W1]|]. split; [exact BE|].
  split; [apply Rmult_lt_0_compat; [apply Rdiv_lt_0_compat; assumption|exact BE]|]. split; [|exact D1].
  unfold pore_share. revert EP DP1. generalize psdm. intros [|] EP DP1; [specialize (EP eq_refl); specialize (DP1 eq_refl); apply Rmult_le_pos; lra|lra].
Qed.
Hypothesis SAME : forall i, (1 <= i < NION c)%nat -> kL c i = kL c 1%nat /\ Ds c i = Ds c 1%nat /\ (psdm = true -> Dp c i = Dp c 1%nat).
Variables (Cin : R -> nat -> R) (Tf : R) (y : R -> state).
Hypothesis HC : forall T i, 0 < T < Tf -> (i < NION c)%nat -> 0 <= Cin T i.
Hypothesis TR : is_trajectory (nr c) (NION c) (nz c) (fun T u => rhs psdm c op th (Cin T) u) Tf y.
Hypothesis Q0 : forall r, (1 <= r <= 2)%nat -> rsum (NION c) (fun i => y 0 r i 0%nat) = Qcap c.
Definition surface_of (v : R -> state) (i : nat) (t : R) : R := v t 2%nat i 0%nat.
Definition core_of (v : R -> state) (i : nat) (t : R) : R := v t 1%nat i 0%nat.
Let Y := surface_of y.
Let Z := core_of y.
Lemma inlet_total k t : (1 <= k <= 2)%nat -> 0 <= t <= Tf -> rsum (NION c) (fun i => y t k i 0%nat) = Qcap c.
Proof.
  intros K Ht. destruct k as [|k]; [lia|]. rewrite (C14_resin_total_constant psdm c op th Cin Tf y ltac:(lia) TR t Ht k 0%nat ltac:(lia)) by (destruct WC as (_ & _ & X & _); lia). apply Q0. lia.
Qed.
Lemma inlet_rates t i : 0 < t < Tf -> (i < NION c)%nat -> sound (NION c) (val c) (cK psdm c) (rsum (NION c) (Cin t)) (rowx Y t) -> sound (NION c) (val c) (cK psdm c) (rsum (NION c) (Cin t)) (rowx Z t) ->
  let g := spd (NION c) (val c) (cK psdm c) (pore_share psdm c) (Ds c 1%nat) (rsum (NION c) (Cin t)) (rowx Y t) i * Y i t - spd (NION c) (val c) (cK psdm c) (pore_share psdm c) (Ds c 1%nat) (rsum (NION c) (Cin t)) (rowx Z t) i * Z i t in
  rhs psdm c op th (Cin t) (y t) 2%nat i 0%nat = film_rate op c th * (Cin t i - shr (NION c) (val c) (cK psdm c) (rsum (NION c) (Cin t)) (rowx Y t) i * Y i t) - give_rate op c th * g /\
  rhs psdm c op th (Cin t) (y t) 1%nat i 0%nat = core_rate op c th * g.
Proof.
  intros Ht I SY SZ g. set (CT := rsum (NION c) (Cin t)) in *. assert (CP : 0 <= CT) by (apply rsum_nonneg; intros j J; apply HC; assumption).
  assert (N0 : (0 < NION c)%nat) by lia. assert (Z0 : val c 0%nat = 1%nat) by apply WC. assert (Hz : forall i, (i < NION c)%nat -> val c i = 1%nat \/ val c i = 2%nat) by apply WC. assert (HR : 0 < rb c) by apply WC.
  destruct (inlet_operators legendre jacobi ocfe op c HJ BO N2) as (BP & B0 & W0 & W1). set (b0 := Br op 0%nat 1%nat) in *.
  set (al := pore_share psdm c) in *. set (h := film_rate op c th). set (be := core_rate op c th). set (w := give_rate op c th).
  set (G := fun j => spd (NION c) (val c) (cK psdm c) al (Ds c 1%nat) CT (rowx Y t) j * Y j t - spd (NION c) (val c) (cK psdm c) al (Ds c 1%nat) CT (rowx Z t) j * Z j t).
  set (FY := fun j => h * (Cin t j - shr (NION c) (val c) (cK psdm c) CT (rowx Y t) j * Y j t) - w * G j). set (FZ := fun j => be * G j).
  assert (LATER : forall j, (1 <= j < NION c)%nat -> rhs psdm c op th (Cin t) (y t) 2%nat j 0%nat = FY j /\ rhs psdm c op th (Cin t) (y t) 1%nat j 0%nat = FZ j).
  { intros j J. destruct (SAME j J) as (S1 & S2 & S3).
    assert (RI := inner_rate op psdm c th Cin Tf y j 0%nat WC Z0 J TR ltac:(lia) 0%nat t ltac:(lia)). assert (RS := surface_rate op psdm c th Cin Tf y j 0%nat WC Z0 J TR ltac:(lia) t). fold CT in RI, RS.
    rewrite N2 in RI, RS. change (2 - 1)%nat with 1%nat in RS. cbn [rsum] in RI, RS. fold b0 in RI, RS. rewrite B0 in RI, RS.
    assert (E2 := col_eq psdm c th (rowx Y t) CT j WC CP SY ltac:(lia)). assert (E1 := col_eq psdm c th (rowx Z t) CT j WC CP SZ ltac:(lia)). change (fun j : nat => rowx Y t j / theta psdm c) with (fun j : nat => y t 2%nat j 0%nat / theta psdm c) in E2. change (fun j : nat => rowx Z t j / theta psdm c) with (fun j : nat => y t 1%nat j 0%nat / theta psdm c) in E1. change (rsum (NION c) (Cin t)) with CT in RI, RS. rewrite E2, E1 in RI. rewrite E2, E1 in RS.
    assert (FM : forall s x, (if psdm then EPOR c * (Dp c j - Ds c j) * s + Ds c j * x else Ds c j * x) = al * s + Ds c 1%nat * x) by (intros s x; rewrite S2; unfold al, pore_share; destruct psdm; [rewrite S3 by reflexivity; reflexivity|ring]).
    rewrite !FM in RI, RS. rewrite S1 in RS. unfold FY, FZ, G, spd. change (y t 2%nat j 0%nat) with (Y j t) in RI, RS. change (y t 1%nat j 0%nat) with (Z j t) in RI, RS. change (rowx Y t j) with (Y j t) in RI, RS. change (rowx Z t j) with (Z j t) in RI, RS.
    revert RI RS. generalize (shr (NION c) (val c) (cK psdm c) CT (rowx Y t) j) (shr (NION c) (val c) (cK psdm c) CT (rowx Z t) j). intros s2 s1 RI RS.
    split; [etransitivity; [exact RS|]; unfold h, w, give_rate, be, core_rate, film_rate; fold b0; field; split; lra|etransitivity; [exact RI|]; unfold be, core_rate; fold b0; field; lra]. }
  assert (GS : rsum (NION c) G = 0).
  { unfold G. rewrite (rsum_ext _ _ (fun j => al * (shr (NION c) (val c) (cK psdm c) CT (rowx Y t) j * rowx Y t j) + (Ds c 1%nat * rowx Y t j + ((- al) * (shr (NION c) (val c) (cK psdm c) CT (rowx Z t) j * rowx Z t j) + (- Ds c 1%nat) * rowx Z t j)))) by (intros j _; unfold spd, rowx; ring).
    rewrite !rsum_plus, !rsum_scal, !shr_sum by assumption. assert (A1 := inlet_total 2%nat t ltac:(lia) ltac:(lra)). assert (A2 := inlet_total 1%nat t ltac:(lia) ltac:(lra)). change (rsum (NION c) (rowx Y t) = Qcap c) in A1. change (rsum (NION c) (rowx Z t) = Qcap c) in A2.
    rewrite A1, A2. ring. }
  assert (FYS : rsum (NION c) FY = 0).
  { unfold FY. rewrite (rsum_ext _ _ (fun j => h * Cin t j + ((- h) * (shr (NION c) (val c) (cK psdm c) CT (rowx Y t) j * rowx Y t j) + (- w) * G j))) by (intros j _; unfold rowx; ring).
    rewrite !rsum_plus, !rsum_scal, GS, shr_sum by assumption. fold CT. ring. }
  assert (FZS : rsum (NION c) FZ = 0) by (unfold FZ; rewrite rsum_scal, GS; ring).
  assert (FIRST : forall f f', rsum (NION c) f = 0 -> rsum (NION c) f' = 0 -> (forall j, (1 <= j < NION c)%nat -> f j = f' j) -> f 0%nat = f' 0%nat).
  { intros f f' A1 A2 E. destruct (NION c) as [|n] eqn:EN; [lia|]. rewrite rsum_S_first in A1, A2. rewrite (rsum_ext n (fun k => f (S k)) (fun k => f' (S k))) in A1 by (intros k K; apply E; lia). lra. }
  change (rhs psdm c op th (Cin t) (y t) 2%nat i 0%nat = FY i /\ rhs psdm c op th (Cin t) (y t) 1%nat i 0%nat = FZ i).
  destruct i as [|i]; [|apply LATER; lia]. split.
  + apply (FIRST (fun j => rhs psdm c op th (Cin t) (y t) 2%nat j 0%nat) FY); [apply C14_resin_rates_sum_to_zero, N0|exact FYS|]. intros j J. apply LATER, J.
  + apply (FIRST (fun j => rhs psdm c op th (Cin t) (y t) 1%nat j 0%nat) FZ); [apply C14_resin_rates_sum_to_zero, N0|exact FZS|]. intros j J. apply LATER, J.
Qed.
End Inlet.

(** ** C196 *)
Theorem C196_column_two_points_partial : forall legendre jacobi ocfe op (psdm : bool) c th Cin Tf y M,
  jacobi_roots 2 1 (jacobi 1%nat (5 / 2) (3 / 2)) -> build_operators legendre jacobi (nr c) (nz c) ocfe = Ok op ->
  working_column psdm c th -> nr c = 2%nat -> (1 < NION c)%nat ->
  (* all ions have the same film and diffusion coefficients *)
  (forall i, (1 <= i < NION c)%nat -> kL c i = kL c 1%nat /\ Ds c i = Ds c 1%nat /\ (psdm = true -> Dp c i = Dp c 1%nat)) ->
  (* an influent without negative concentrations *)
  (forall T i, 0 < T < Tf -> (i < NION c)%nat -> 0 <= Cin T i) -> (forall T, 0 < T < Tf -> rsum (NION c) (Cin T) <= M) ->
  is_trajectory (nr c) (NION c) (nz c) (fun T u => rhs psdm c op th (Cin T) u) Tf y ->
  (* a resin at capacity that holds presaturant *)
  (forall r i, (1 <= r <= 2)%nat -> (i < NION c)%nat -> 0 <= y 0 r i 0%nat) -> (forall r, (1 <= r <= 2)%nat -> 0 < y 0 r 0%nat 0%nat /\ rsum (NION c) (fun i => y 0 r i 0%nat) = Qcap c) ->
  forall T r, 0 <= T <= Tf -> (1 <= r <= 2)%nat ->
  (forall i, (i < NION c)%nat -> 0 <= y T r i 0%nat <= Qcap c) /\ 0 < y T r 0%nat 0%nat /\ rsum (NION c) (fun i => y T r i 0%nat) = Qcap c.
Proof.
  intros legendre jacobi ocfe op psdm c th Cin Tf y M HJ BO WC N2 NI SAME HC HM TR P0 Q0 T r HT R.
  assert (N0 : (0 < NION c)%nat) by lia. assert (NZ : (0 < nz c)%nat) by (destruct WC as (_ & _ & X & _); lia). assert (TF : 0 <= Tf) by lra.
  destruct (inlet_positive legendre jacobi ocfe op psdm c th HJ BO WC N2 NI) as (HH & BE & HW & AL & D1).
  assert (TOT := inlet_total op psdm c th WC N2 NI Cin Tf y TR (fun r R => proj2 (Q0 r R))).
  assert (QP : 0 < Qcap c).
  { destruct (Q0 1%nat ltac:(lia)) as (A1 & A2). rewrite <- A2. apply (rsum_pos_one _ _ 0%nat N0); [intros i I; apply P0; [lia|exact I]|exact A1]. }
  assert (KEPT : kept (NION c) (surface_of y) (core_of y) T).
  { apply (bead_keeps (NION c) (val c) (cK psdm c) (Qcap c) (Rmax M 0) (film_rate op c th) (give_rate op c th) (core_rate op c th) (pore_share psdm c) (Ds c 1%nat) Tf (surface_of y) (core_of y)
      (fun i t => rhs psdm c op th (Cin t) (y t) 2%nat i 0%nat) (fun i t => rhs psdm c op th (Cin t) (y t) 1%nat i 0%nat) Cin); try assumption; try lra; try apply WC.
    - intros i I. apply (cK_pos psdm c th); assumption.
    - apply Rmax_r.
    - intros t Ht. eapply Rle_trans; [apply HM, Ht|apply Rmax_l].
    - intros i I. apply (TR 2%nat i 0%nat); [lia|exact I|exact NZ].
    - intros i I. apply (TR 1%nat i 0%nat); [lia|exact I|exact NZ].
    - intros t i Ht I SY SZ. apply (inlet_rates legendre jacobi ocfe op psdm c th HJ BO WC N2 NI SAME Cin Tf y HC TR (fun r R => proj2 (Q0 r R)) t i Ht I SY SZ).
    - intros t Ht. apply (TOT 2%nat t); [lia|exact Ht].
    - intros t Ht. apply (TOT 1%nat t); [lia|exact Ht].
    - intros i I. apply (P0 2%nat i); [lia|exact I].
    - intros i I. apply (P0 1%nat i); [lia|exact I].
    - apply (Q0 2%nat). lia.
    - apply (Q0 1%nat). lia. }
  destruct KEPT as (NN & NY & NZ'). assert (CR : r = 2%nat \/ r = 1%nat) by lia.
  assert (NNR : forall i, (i < NION c)%nat -> 0 <= y T r i 0%nat) by (intros i I; destruct (NN i I); destruct CR as [->| ->]; assumption).
  split; [|split; [destruct CR as [->| ->]; assumption|apply TOT; assumption]].
  intros i I. split; [apply NNR, I|]. rewrite <- (TOT r T R HT). apply (P_EntropyDv.one_le (NION c) (fun i => y T r i 0%nat) i I). exact NNR.
Qed.
Print Assumptions C196_column_two_points_partial.

(** A fresh bed, as the code loads it, is such a start. *)
Theorem C196_column_two_points_fresh_partial : forall legendre jacobi ocfe op (psdm : bool) c th Cin Tf y M,
  jacobi_roots 2 1 (jacobi 1%nat (5 / 2) (3 / 2)) -> build_operators legendre jacobi (nr c) (nz c) ocfe = Ok op ->
  working_column psdm c th -> nr c = 2%nat -> (1 < NION c)%nat -> 0 < Qcap c ->
  (forall i, (1 <= i < NION c)%nat -> kL c i = kL c 1%nat /\ Ds c i = Ds c 1%nat /\ (psdm = true -> Dp c i = Dp c 1%nat)) ->
  (forall T i, 0 < T < Tf -> (i < NION c)%nat -> 0 <= Cin T i) -> (forall T, 0 < T < Tf -> rsum (NION c) (Cin T) <= M) ->
  is_trajectory (nr c) (NION c) (nz c) (fun T u => rhs psdm c op th (Cin T) u) Tf y ->
  same_state (nr c) (NION c) (nz c) (y 0) (initial_state c (Cin 0) None) ->
  forall T r, 0 <= T <= Tf -> (1 <= r <= 2)%nat ->
  (forall i, (i < NION c)%nat -> 0 <= y T r i 0%nat <= Qcap c) /\ 0 < y T r 0%nat 0%nat /\ rsum (NION c) (fun i => y T r i 0%nat) = Qcap c.
Proof.
  intros legendre jacobi ocfe op psdm c th Cin Tf y M HJ BO WC N2 NI HQ SAME HC HM TR Y0.
  assert (NZ : (0 < nz c)%nat) by (destruct WC as (_ & _ & X & _); lia).
  assert (AT : forall r i, (1 <= r <= 2)%nat -> (i < NION c)%nat -> y 0 r i 0%nat = if Nat.eqb i 0 then Qcap c else 0).
  { intros [|r] i R I; [lia|]. rewrite Y0 by (try exact I; try exact NZ; lia). reflexivity. }
  apply (C196_column_two_points_partial legendre jacobi ocfe op psdm c th Cin Tf y M HJ BO WC N2 NI SAME HC HM TR).
  - intros r i R I. rewrite AT by assumption. destruct (Nat.eqb i 0); lra.
  - intros r R. split; [rewrite AT by lia; exact HQ|].
    rewrite (rsum_ext (NION c) _ (fun i => if Nat.eqb i 0 then Qcap c else 0)) by (intros i I; apply AT; assumption).
    destruct (NION c) as [|n]; [lia|]. rewrite rsum_S_first. cbn [Nat.eqb]. rewrite rsum_zero by (intros; reflexivity). lra.
Qed.
Print Assumptions C196_column_two_points_fresh_partial.

(** Chloride resin fed chloride, nitrate and sulphate, on two radial points. *)
From Verif Require Import Props_Exist Props_Negative.
Definition col_two : column :=
  {| NION := 3; nr := 2; nz := 5; EBED := 2 / 5; EPOR := 1 / 5; Lbed := 50; vel := 1 / 10;
     rb := 1 / 30; Qcap := 1400; kL := fun _ => 1 / 400; Ds := fun _ => 1 / 10000000; Dp := fun _ => 1 / 1000000;
     Kxc := fun i => match i with O => 1 | 1%nat => 3 | _ => 2 end; val := fun i => match i with 2%nat => 2%nat | _ => 1%nat end |}.
Example nitrate_not_below_zero : forall psdm, exists jacobi op Tf y,
  jacobi_roots 2 1 (jacobi 1%nat (5 / 2) (3 / 2)) /\ build_operators even_roots jacobi 2 5 false = Ok op /\ 0 < Tf /\
  is_trajectory 2 3 5 (fun _ u => rhs psdm col_two op 100 (fun _ => 1) u) Tf y /\
  same_state 2 3 5 (y 0) (initial_state col_two (fun _ => 1) None) /\
  forall T r i, 0 <= T <= Tf -> (1 <= r <= 2)%nat -> (i < 3)%nat -> 0 <= y T r i 0%nat <= 1400.
Proof.
  intros psdm. destruct (jacobi_exist 2 1) as (r & Hr). exists (fun _ _ _ => r).
  destruct (build_operators even_roots (fun _ _ _ => r) 2 5 false) as [op|] eqn:B; [|discriminate B]. exists op.
  assert (TH : 0 < theta psdm col_two) by (destruct psdm; cbn; lra).
  assert (SK : selectivities 3 (Kxc col_two)) by (intros [|[|[|i]]] _; cbn; lra).
  assert (WC : working_column psdm col_two 100).
  { repeat split; try (cbn; lia); try (cbn; lra); try exact SK.
    all: destruct i as [|[|[|i]]]; cbn; try lia; try lra; auto. }
  destruct (C168_fresh_bed_starts psdm col_two op 100 (fun _ _ => 1) 5) as (Tf & y & HT & TR & Y0); try (cbn; lia); try (cbn; lra); try assumption.
  - intros i _ t _ e He. exists 1. split; [lra|]. intros. rewrite Rminus_diag_eq by reflexivity. rewrite Rabs_R0. exact He.
  - intros. lra.
  - exists Tf, y. split; [exact Hr|]. split; [reflexivity|]. split; [lra|]. split; [exact TR|]. split; [exact Y0|]. intros T k i HTT K I.
    apply (C196_column_two_points_fresh_partial even_roots (fun _ _ _ => r) false op psdm col_two 100 (fun _ _ => 1) Tf y 3 Hr B WC eq_refl ltac:(cbn; lia) ltac:(cbn; lra)); try assumption.
    + intros j _. repeat split; reflexivity.
    + intros. lra.
    + intros. cbn. lra.
Qed.
