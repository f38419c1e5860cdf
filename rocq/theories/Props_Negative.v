(** Property C185: signs of simulated concentrations. *)
From Coq Require Import Reals List Arith Bool Lra Lia.
From Verif Require Import Lib_Py Lib_Sum Lib_Traj M_Colloc S_Colloc P_Colloc P_Ocfe M_IxEq S_IxEq M_IxColumn S_IxColumn P_IxColumn S_Unique.
Import ListNotations.
Open Scope R_scope.

(** ** The first column of the axial derivative alternates in sign *)
Section Sign.
Variables (n : nat) (x : nat -> R).
Hypothesis HX : forall i j, (i < j)%nat -> (j < n)%nat -> x i < x j.
Let step (r : R) := fun (p : R * R * R) j => if reqb (x j - r) 0 then p else recur p (r - x j).
Lemma fold_above r l p : (forall j, In j l -> x j < r) -> 0 < fst (fst p) -> 0 < fst (fst (fold_left (step r) l p)).
Proof.
  revert p. induction l as [|j l IH]; intros p H P; [exact P|]. cbn [fold_left]. apply IH; [intros k K; apply H; right; exact K|].
  assert (B := H j (or_introl eq_refl)). unfold step. rewrite (proj2 (reqb_false _ _)) by lra. destruct p as ((p1 & p2) & p3). cbn [recur fst] in *. apply Rmult_lt_0_compat; lra.
Qed.
Lemma fold_below r l p : (forall j, In j l -> r < x j) -> 0 < fst (fst p) -> 0 < (-1) ^ length l * fst (fst (fold_left (step r) l p)).
Proof.
  intros H P. assert (G : forall s l p, (forall j, In j l -> r < x j) -> 0 < s * fst (fst p) -> 0 < s * (-1) ^ length l * fst (fst (fold_left (step r) l p))).
  { clear l p H P. intros s l. revert s. induction l as [|j l IH]; intros s p H P; [cbn; lra|]. cbn [fold_left List.length pow].
    assert (B := H j (or_introl eq_refl)). replace (s * (-1 * (-1) ^ length l)) with (- s * (-1) ^ length l) by ring. apply IH; [intros k K; apply H; right; exact K|].
    unfold step. rewrite (proj2 (reqb_false _ _)) by lra. destruct p as ((p1 & p2) & p3). cbn [recur fst] in *. replace (- s * ((r - x j) * p1)) with ((x j - r) * (s * p1)) by ring. apply Rmult_lt_0_compat; lra. }
  replace ((-1) ^ length l) with (1 * (-1) ^ length l) by ring. apply G; [exact H|lra].
Qed.
Lemma px1_sign i : (i < n)%nat -> 0 < (-1) ^ (n - 1 - i) * px1 n x i.
Proof.
  intros I. unfold px1, calc_px_column. fold (step (x i)).
  replace (seq 0 n) with (seq 0 i ++ i :: seq (S i) (n - 1 - i))%list.
  2:{ replace n with (i + (1 + (n - 1 - i)))%nat at 2 by lia. rewrite seq_app. reflexivity. }
  rewrite fold_left_app. cbn [fold_left]. unfold step at 2. rewrite (proj2 (reqb_true (x i - x i) 0)) by lra.
  replace (n - 1 - i)%nat with (length (seq (S i) (n - 1 - i))) at 1 by apply seq_length.
  apply fold_below.
  - intros j J. apply in_seq in J. apply HX; lia.
  - apply fold_above; [|cbn; lra]. intros j J. apply in_seq in J. apply HX; lia.
Qed.
Lemma first_column_sign z : (1 <= z < n)%nat -> 0 < (-1) ^ z * Amat n x z 0.
Proof.
  intros Z. unfold Amat. destruct (Nat.eqb_spec z 0) as [->|_]; [lia|].
  assert (P := px1_sign z ltac:(lia)). assert (P0 := px1_sign 0 ltac:(lia)). rewrite Nat.sub_0_r in P0.
  assert (E : (-1) ^ (n - 1) = (-1) ^ z * (-1) ^ (n - 1 - z)) by (rewrite <- pow_add; f_equal; lia).
  assert (X : x 0%nat < x z) by (apply HX; lia). rewrite E in P0.
  assert (S2 : forall k, (-1) ^ k * (-1) ^ k = 1) by (intros k; rewrite <- Rpow_mult_distr; replace (-1 * -1) with 1 by ring; apply pow1).
  assert (N0 : px1 n x 0 <> 0) by (intros Q; rewrite Q in P0; lra).
  set (a := (-1) ^ z) in *. set (b := (-1) ^ (n - 1 - z)) in *. set (p := px1 n x z) in *. set (p0 := px1 n x 0) in *.
  assert (Q : 0 < (b * p) * (a * b * p0)) by (apply Rmult_lt_0_compat; assumption).
  replace (b * p * (a * b * p0)) with ((b * b) * (a * p * p0)) in Q by ring. unfold b in Q. rewrite S2 in Q.
  replace (a * (1 / (x z - x 0%nat) * p / p0)) with ((1 * (a * p * p0)) * (/ (x z - x 0%nat) * / (p0 * p0))) by (field; repeat split; try exact N0; lra).
  apply Rmult_lt_0_compat; [exact Q|]. apply Rmult_lt_0_compat; apply Rinv_0_lt_compat; [lra|apply Rlt_0_sqr; exact N0].
Qed.
End Sign.
Lemma even_sign z : Nat.Even z -> (-1) ^ z = 1.
Proof. intros (k & ->). rewrite pow_mult. replace ((-1) ^ 2) with 1 by ring. apply pow1. Qed.
Lemma odd_sign z : Nat.Odd z -> (-1) ^ z = -1.
Proof. intros (k & ->). rewrite pow_add, pow_mult. replace ((-1) ^ 2) with 1 by ring. rewrite pow1. ring. Qed.
(** Without finite elements. *)
Lemma Az_sign legendre jacobi nr nz op z : good_roots legendre jacobi -> build_operators legendre jacobi nr nz false = Ok op -> (1 <= z < nz)%nat -> 0 < (-1) ^ z * Az op z 0%nat.
Proof.
  intros (HL & _) B Z. unfold build_operators in B. apply Ok_inj in B. subst op. cbn [Az]. cbn.
  apply first_column_sign; [|exact Z]. destruct (rootsz_increasing legendre nz ltac:(lia) (HL _)) as (_ & _ & HI). exact HI.
Qed.
(** The second point with either. *)
Lemma Az_second legendre jacobi nr nz ocfe op : good_roots legendre jacobi -> build_operators legendre jacobi nr nz ocfe = Ok op -> (3 <= nz)%nat -> 0 < Az op 2%nat 0%nat.
Proof.
  intros G B Z. destruct ocfe; [|assert (S := Az_sign _ _ _ _ _ 2%nat G B ltac:(lia)); cbn in S; lra].
  destruct G as (HL & _). unfold build_operators in B. remember ((nz - 1) / 2)%nat as NE eqn:ENE. clear ENE.
  destruct (Nat.eqb_spec (NE * 3 - (NE - 1)) nz) as [En|]; [|discriminate]. apply Ok_inj in B. subst op. cbn [Az].
  assert (HNE : (1 <= NE)%nat) by lia. assert (PN := INR_NE NE 2 HNE ltac:(lia)).
  assert (X := x_facts legendre NE 2 HNE ltac:(lia) (HL _)). destruct X as (X0 & X1 & HI).
  assert (HX : forall i j, (i < j)%nat -> (j < 3)%nat -> rootsz legendre 3 i < rootsz legendre 3 j) by (intros i j I J; apply HI; lia).
  assert (S := first_column_sign 3 (rootsz legendre 3) HX 2%nat ltac:(lia)).
  replace ((-1) ^ 2) with 1 in S by ring. rewrite Rmult_1_l in S.
  change (0 < Adv legendre NE 2 2%nat 0%nat). destruct (Nat.eq_dec NE 1) as [E1|E1].
  - assert (H := Adv_interior legendre NE 2 HNE ltac:(lia) 0%nat 2%nat 0%nat ltac:(lia) ltac:(lia) ltac:(lia)). cbn [Nat.mul Nat.add Nat.leb Nat.ltb andb Nat.sub] in H. rewrite H.
    apply Rmult_lt_0_compat; [exact PN|exact S].
  - assert (H := Adv_joint legendre NE 2 HNE ltac:(lia) 0%nat 0%nat ltac:(lia) ltac:(unfold NZ; lia)). cbn [Nat.mul Nat.add Nat.leb Nat.ltb andb Nat.sub] in H. rewrite H.
    assert (QP := Qd_pos legendre NE 2 HNE ltac:(lia) (HL _)). unfold Qd in QP |- *. cbn [Nat.sub] in QP |- *.
    assert (A0 : 0 < -1 * Amat 3 (rootsz legendre 3) 0%nat 0%nat).
    { apply (A_diag_sign legendre NE 2 HNE ltac:(lia) (-1) 0%nat 2%nat); [lia| |].
      - intros j J. destruct (Nat.eq_dec j 0) as [->|]; [lra|]. assert (rootsz legendre 3 0%nat < rootsz legendre 3 j) by (apply HX; lia). lra.
      - assert (rootsz legendre 3 0%nat < rootsz legendre 3 2%nat) by (apply HX; lia). lra. }
    set (A20 := Amat 3 (rootsz legendre 3) 2%nat 0%nat) in *. set (A22 := Amat 3 (rootsz legendre 3) 2%nat 2%nat) in *. set (A00 := Amat 3 (rootsz legendre 3) 0%nat 0%nat) in *.
    replace (INR NE * A20 - INR NE * A22 / (A22 - A00) * A20) with (INR NE * A20 * (- A00 / (A22 - A00))) by (field; lra).
    apply Rmult_lt_0_compat; [apply Rmult_lt_0_compat; [exact PN|exact S]|]. apply Rdiv_lt_0_compat; lra.
Qed.

(** ** Continuity *)
Lemma c_const k a : continuity_pt (fun _ => k) a.
Proof. apply continuity_pt_const. intros ? ?. reflexivity. Qed.
Lemma c_plus f g a : continuity_pt f a -> continuity_pt g a -> continuity_pt (fun t => f t + g t) a.
Proof. apply (continuity_pt_plus f g). Qed.
Lemma c_minus f g a : continuity_pt f a -> continuity_pt g a -> continuity_pt (fun t => f t - g t) a.
Proof. apply (continuity_pt_minus f g). Qed.
Lemma c_opp f a : continuity_pt f a -> continuity_pt (fun t => - f t) a.
Proof. apply (continuity_pt_opp f). Qed.
Lemma c_mult f g a : continuity_pt f a -> continuity_pt g a -> continuity_pt (fun t => f t * g t) a.
Proof. apply (continuity_pt_mult f g). Qed.
Lemma c_div f g a : continuity_pt f a -> continuity_pt g a -> g a <> 0 -> continuity_pt (fun t => f t / g t) a.
Proof. apply (continuity_pt_div f g). Qed.
Lemma c_pow f n a : continuity_pt f a -> continuity_pt (fun t => f t ^ n) a.
Proof. intros H. induction n as [|n IH]; cbn; [apply c_const|apply c_mult; assumption]. Qed.
Lemma c_sqrt f a : continuity_pt f a -> 0 <= f a -> continuity_pt (fun t => sqrt (f t)) a.
Proof. intros H P. apply (continuity_pt_comp f sqrt); [exact H|]. apply continuity_pt_sqrt. exact P. Qed.
Lemma c_rsum n (f : nat -> R -> R) a : (forall i, (i < n)%nat -> continuity_pt (f i) a) -> continuity_pt (fun t => rsum n (fun i => f i t)) a.
Proof. induction n as [|n IH]; intros H; cbn; [apply c_const|]. apply c_plus; [apply IH; intros; apply H; lia|apply H; lia]. Qed.
Lemma c_ext f g a : (forall t, f t = g t) -> continuity_pt f a -> continuity_pt g a.
Proof. intros E C eps He. destruct (C eps He) as (d & D & P). exists d. split; [exact D|]. intros t T. rewrite <- !E. apply P, T. Qed.

Section Equilibrium.
Variables (n : nat) (K : nat -> R) (val : nat -> nat) (q : R -> nat -> R) (CT : R -> R) (a : R).
Hypothesis SEL : forall i, (i < n)%nat -> 0 < K i.
Hypothesis CQ : forall i, (i < n)%nat -> continuity_pt (fun t => q t i) a.
Hypothesis CC : continuity_pt CT a.
(** Only the presaturant at [a]. *)
Hypothesis Q0 : 0 < q a 0%nat.
Hypothesis QI : forall i, (1 <= i < n)%nat -> q a i = 0.
Hypothesis N0 : (0 < n)%nat.
Lemma masked_zero mask : mask 0%nat = false -> masked_sum n mask (fun i => q a i / K i) = 0.
Proof.
  intros M. unfold masked_sum. transitivity (rsum n (fun _ => 0)); [|clear; induction n as [|m IH]; cbn; [reflexivity|rewrite IH; ring]].
  apply rsum_ext. intros i I. destruct (mask i) eqn:E; [|reflexivity]. rewrite QI; [unfold Rdiv; ring|]. destruct i; [congruence|lia].
Qed.
Lemma c_masked mask : continuity_pt (fun t => masked_sum n mask (fun i => q t i / K i)) a.
Proof.
  unfold masked_sum. apply c_rsum. intros i I. destruct (mask i); [|apply c_const]. apply c_div; [apply CQ, I|apply c_const|]. specialize (SEL i I). lra.
Qed.
Lemma dv_zero : val 0%nat = 1%nat -> eq_aa n K val (q a) = 0 /\ eq_bb n K val (q a) = 1.
Proof.
  intros V. unfold eq_aa, eq_bb. rewrite !masked_zero; [split; [unfold Rdiv; ring|field; lra]| |]; unfold mv_idx, dv_idx; cbn; rewrite ?V; [apply andb_false_r|reflexivity].
Qed.
Lemma calc_continuous i : (1 <= i < n)%nat -> val 0%nat = 1%nat ->
  continuity_pt (fun t => calc_Ceq n K val (q t) (CT t) i) a /\ calc_Ceq n K val (q a) (CT a) i = 0.
Proof.
  intros I V. unfold calc_Ceq. destruct (has_divalent n val).
  - destruct (dv_zero V) as (A0 & B0). unfold Ceq_dv, mass_action. destruct (Nat.eqb_spec i 0) as [->|_]; [lia|]. split.
    + apply c_mult; [apply c_div; [apply CQ; lia|apply c_const|specialize (SEL i ltac:(lia)); lra]|].
      apply c_pow. apply c_div; [|apply CQ; lia|lra].
      assert (CA : continuity_pt (fun t => eq_aa n K val (q t)) a) by (unfold eq_aa; apply c_div; [apply c_masked|apply c_pow, CQ; lia|apply pow_nonzero; lra]).
      assert (CB : continuity_pt (fun t => eq_bb n K val (q t)) a) by (unfold eq_bb; apply c_plus; [apply c_div; [apply c_masked|apply CQ; lia|lra]|apply c_const]).
      unfold Cc_column. cbv zeta. apply c_div.
      * apply c_mult; [apply c_const|apply c_opp; exact CC].
      * apply c_minus; [apply c_opp; exact CB|]. apply c_sqrt.
        -- apply c_minus; [apply c_pow; exact CB|]. apply c_mult; [apply c_mult; [apply c_const|exact CA]|apply c_opp; exact CC].
        -- rewrite A0, B0. replace (1 ^ 2 - 4 * 0 * - CT a) with 1 by ring. lra.
      * rewrite A0, B0. replace (1 ^ 2 - 4 * 0 * - CT a) with 1 by ring. rewrite sqrt_1. lra.
    + rewrite QI by exact I. unfold Rdiv. ring.
  - assert (D : rsum n (fun j => alpha K i j * q a j) = alpha K i 0 * q a 0%nat).
    { assert (G : forall m, (1 <= m <= n)%nat -> rsum m (fun j => alpha K i j * q a j) = alpha K i 0 * q a 0%nat).
      { induction m as [|m IH]; intros M; [lia|]. destruct m as [|m]; [cbn; ring|]. change (rsum (S m) (fun j => alpha K i j * q a j) + alpha K i (S m) * q a (S m) = alpha K i 0 * q a 0%nat). rewrite IH by lia. rewrite (QI (S m)) by lia. ring. }
      apply G. lia. }
    unfold Ceq_mv. split.
    + apply c_div; [apply c_mult; [apply CQ; lia|exact CC]| |].
      * apply c_rsum. intros j J. apply c_mult; [apply c_const|apply CQ, J].
      * rewrite D. unfold alpha. assert (0 < K i) by (apply SEL; lia). assert (0 < K 0%nat) by (apply SEL; lia).
        apply Rgt_not_eq. apply Rmult_lt_0_compat; [apply Rdiv_lt_0_compat; assumption|exact Q0].
    + rewrite QI by exact I. unfold Rdiv. ring.
Qed.
End Equilibrium.

(** ** The first moments *)
Lemma starts_down Tf f f' : 0 < Tf -> evolves 0 Tf f f' -> continuity_pt f' 0 -> f' 0 < 0 -> exists d, 0 < d <= Tf /\ forall T, 0 < T < d -> f T < f 0.
Proof.
  intros HT EV C N. destruct (C (- f' 0) ltac:(lra)) as (d & D & P). exists (Rmin d Tf). split; [split; [apply Rmin_glb_lt; lra|apply Rmin_r]|].
  intros T HH. assert (T < d) by (eapply Rlt_le_trans; [apply HH|apply Rmin_l]). assert (T < Tf) by (eapply Rlt_le_trans; [apply HH|apply Rmin_r]).
  destruct (evolves_mvt 0 T f f' ltac:(lra) (evolves_sub 0 Tf T f f' ltac:(lra) EV)) as (x & X & E).
  assert (LT : f' x < 0).
  { assert (Q : R_dist (f' x) (f' 0) < - f' 0).
    { apply P. split; [split; [exact I|lra]|]. cbn. unfold R_dist. rewrite Rminus_0_r, Rabs_right; lra. }
    unfold R_dist in Q. apply Rabs_def2 in Q. lra. }
  assert (f' x * (T - 0) < 0) by (rewrite Rminus_0_r; rewrite <- (Rmult_0_l T); apply Rmult_lt_compat_r; lra). lra.
Qed.

Section Start.
Variables (psdm : bool) (c : column) (op : operators) (th : R) (Cin : R -> nat -> R) (Tf : R) (y : R -> nat -> nat -> nat -> R) (i z : nat).
Hypothesis N : (1 <= i < NION c)%nat.
Hypothesis RR : (1 <= nr c)%nat.
Hypothesis Z : (1 <= z < nz c)%nat.
Hypothesis SEL : forall j, (j < NION c)%nat -> 0 < Kxc c j.
Hypothesis V : val c 0%nat = 1%nat.
Hypothesis HE : 0 < EBED c.
Hypothesis HTH : 0 < theta psdm c.
Hypothesis HQ : 0 < Qcap c.
Hypothesis TF : 0 < Tf.
Hypothesis CI : continuity_pt (fun T => Cin T i) 0.
Hypothesis TR : is_trajectory (nr c) (NION c) (nz c) (fun T u => rhs psdm c op th (Cin T) u) Tf y.
Hypothesis Y0 : same_state (nr c) (NION c) (nz c) (y 0) (initial_state c (Cin 0) None).
Let J (T : R) : R := calc_Ceq (NION c) (Kxc c) (val c) (fun j => y T (nr c) j z / theta psdm c) (rsum (NION c) (fun j => y T 0%nat j z)) i.
Let G (T : R) : R := (- vel c / Lbed c * rsum (nz c) (fun j => Az op z j * (if Nat.eqb j 0 then Cin T i else y T 0%nat i j))
   + (1 - EBED c) * (- kL c i * (y T 0%nat i z - J T) * 3 / rb c)) / EBED c * th.
Lemma rate_is T : rhs psdm c op th (Cin T) (y T) 0%nat i z = G T.
Proof.
  assert (EZ : Nat.eqb z 0 = false) by (apply Nat.eqb_neq; lia). assert (EI : Nat.eqb i 0 = false) by (apply Nat.eqb_neq; lia).
  assert (CTE : CTz c (Cin T) (y T) z = rsum (NION c) (fun j => y T 0%nat j z)) by (unfold CTz, liq; rewrite EZ; reflexivity).
  unfold G, J, rhs, theta. destruct psdm; unfold diffun_psdm, diffun_hsdm, assemble, dC; rewrite EZ; unfold psdm_J, hsdm_J, flux, implicit_presat; rewrite EI; rewrite CTE; unfold liq at 2; rewrite EZ; try reflexivity.
  rewrite (calc_Ceq_ext (NION c) (Kxc c) (val c) (fun j => y T (nr c) j z / 1) (fun j => y T (nr c) j z) (rsum (NION c) (fun j => y T 0%nat j z)) (rsum (NION c) (fun j => y T 0%nat j z))); [reflexivity|lia| |reflexivity|lia]. intros j _. field.
Qed.
Lemma cont r j k : (r <= nr c)%nat -> (j < NION c)%nat -> (k < nz c)%nat -> continuity_pt (fun T => y T r j k) 0.
Proof. intros A B D. apply (TR r j k A B D). lra. Qed.
Lemma J_facts : continuity_pt J 0 /\ J 0 = 0.
Proof.
  unfold J. apply (calc_continuous (NION c) (Kxc c) (val c) (fun T j => y T (nr c) j z / theta psdm c) (fun T => rsum (NION c) (fun j => y T 0%nat j z))); try assumption.
  - intros j HJ. apply c_div; [apply cont; lia|apply c_const|lra].
  - apply c_rsum. intros j HJ. apply cont; lia.
  - rewrite Y0 by lia. destruct (nr c) as [|m] eqn:E; [lia|]. cbn. apply Rdiv_lt_0_compat; assumption.
  - intros j HJ. rewrite Y0 by lia. destruct (nr c) as [|m] eqn:E; [lia|]. unfold initial_state. assert (Nat.eqb j 0 = false) as -> by (apply Nat.eqb_neq; lia). unfold Rdiv. ring.
  - lia.
Qed.
Lemma G_continuous : continuity_pt G 0.
Proof.
  destruct J_facts as (JC & _). unfold G. apply c_mult; [|apply c_const]. apply c_div; [|apply c_const|lra]. apply c_plus.
  - apply c_mult; [apply c_const|]. apply c_rsum. intros j HJ. apply c_mult; [apply c_const|]. destruct (Nat.eqb j 0); [exact CI|apply cont; lia].
  - apply c_mult; [apply c_const|]. unfold Rdiv. apply c_mult; [|apply c_const]. apply c_mult; [|apply c_const]. apply c_mult; [apply c_const|]. apply c_minus; [apply cont; lia|exact JC].
Qed.
Lemma liquid0 j : (1 <= j < nz c)%nat -> y 0 0%nat i j = 0.
Proof. intros HJ. rewrite Y0 by lia. unfold initial_state. assert (Nat.eqb j 0 = false) as -> by (apply Nat.eqb_neq; lia). assert (Nat.eqb i 0 = false) as -> by (apply Nat.eqb_neq; lia). reflexivity. Qed.
Lemma G0 : G 0 = - (vel c / Lbed c * th / EBED c * Cin 0 i) * Az op z 0%nat.
Proof.
  destruct J_facts as (_ & JE). unfold G. rewrite JE, liquid0 by lia.
  assert (S : rsum (nz c) (fun j => Az op z j * (if Nat.eqb j 0 then Cin 0 i else y 0 0%nat i j)) = Az op z 0%nat * Cin 0 i).
  { assert (GG : forall m, (1 <= m <= nz c)%nat -> rsum m (fun j => Az op z j * (if Nat.eqb j 0 then Cin 0 i else y 0 0%nat i j)) = Az op z 0%nat * Cin 0 i).
    { induction m as [|m IH]; intros M; [lia|]. destruct m as [|m]; [cbn; ring|].
      change (rsum (S m) (fun j => Az op z j * (if Nat.eqb j 0 then Cin 0 i else y 0 0%nat i j)) + Az op z (S m) * y 0 0%nat i (S m) = Az op z 0%nat * Cin 0 i). rewrite IH, liquid0 by lia. ring. }
    apply GG. lia. }
  rewrite S. unfold Rdiv. ring.
Qed.
Lemma first_moment : 0 < vel c / Lbed c * th / EBED c * Cin 0 i ->
  (0 < Az op z 0%nat -> exists d, 0 < d <= Tf /\ forall T, 0 < T < d -> y T 0%nat i z < 0) /\
  (Az op z 0%nat < 0 -> exists d, 0 < d <= Tf /\ forall T, 0 < T < d -> 0 < y T 0%nat i z).
Proof.
  intros P. assert (EV := TR 0%nat i z ltac:(lia) ltac:(lia) ltac:(lia)).
  assert (EG : evolves 0 Tf (fun T => y T 0%nat i z) G) by (eapply evolves_ext; [reflexivity| |exact EV]; intros t _; apply rate_is).
  assert (L0 := liquid0 z ltac:(lia)). split; intros A.
  - destruct (starts_down Tf _ _ TF EG G_continuous) as (d & D & Q); [rewrite G0; assert (0 < vel c / Lbed c * th / EBED c * Cin 0 i * Az op z 0%nat) by (apply Rmult_lt_0_compat; lra); lra|].
    exists d. split; [exact D|]. intros T HT. specialize (Q T HT). cbv beta in Q. lra.
  - destruct (starts_down Tf (fun T => - y T 0%nat i z) (fun T => - G T) TF) as (d & D & Q).
    + eapply evolves_ext; [| |apply (evolves_scal 0 Tf (-1) _ _ EG)]; intros; cbv beta; ring.
    + apply c_opp, G_continuous.
    + rewrite G0. assert (0 < vel c / Lbed c * th / EBED c * Cin 0 i * - Az op z 0%nat) by (apply Rmult_lt_0_compat; lra). lra.
    + exists d. split; [exact D|]. intros T HT. specialize (Q T HT). cbv beta in Q. lra.
Qed.
End Start.

(** ** C185: concentrations turn negative *)




Lemma push c th (Cin : nat -> R) i : 0 < vel c -> 0 < Lbed c -> 0 < EBED c -> 0 < th -> 0 < Cin i -> 0 < vel c / Lbed c * th / EBED c * Cin i.
Proof. intros. apply Rmult_lt_0_compat; [|assumption]. apply Rdiv_lt_0_compat; [|assumption]. apply Rmult_lt_0_compat; [|assumption]. apply Rdiv_lt_0_compat; assumption. Qed.


(** From a fresh bed, every ion but the presaturant that the water carries is at once at a
    negative concentration at the second point below the inlet. *)
Theorem C185_column_refuted : forall legendre jacobi ocfe op (psdm : bool) c th Cin Tf y i,
  good_roots legendre jacobi -> build_operators legendre jacobi (nr c) (nz c) ocfe = Ok op ->
  (1 <= i < NION c)%nat -> (1 <= nr c)%nat -> (3 <= nz c)%nat -> selectivities (NION c) (Kxc c) -> val c 0%nat = 1%nat ->
  0 < EBED c -> 0 < (if psdm then 1 - EPOR c else 1) -> 0 < Qcap c -> 0 < vel c -> 0 < Lbed c -> 0 < th -> 0 < Tf ->
  continuity_pt (fun T => Cin T i) 0 -> 0 < Cin 0 i ->
  is_trajectory (nr c) (NION c) (nz c) (fun T u => rhs psdm c op th (Cin T) u) Tf y ->
  same_state (nr c) (NION c) (nz c) (y 0) (initial_state c (Cin 0) None) ->
  exists d, 0 < d <= Tf /\ forall T, 0 < T < d -> y T 0%nat i 2%nat < 0.
Proof.
  intros. eapply (first_moment psdm c op th Cin Tf y i 2%nat); try eassumption; try lia; [apply push; assumption|].
  eapply Az_second; eassumption.
Qed.

(** Without finite elements and with an odd number of points along the bed, so is the effluent. *)
Theorem C185_effluent_refuted : forall legendre jacobi op (psdm : bool) c th Cin Tf y i,
  good_roots legendre jacobi -> build_operators legendre jacobi (nr c) (nz c) false = Ok op ->
  (1 <= i < NION c)%nat -> (1 <= nr c)%nat -> (3 <= nz c)%nat -> Nat.Odd (nz c) -> selectivities (NION c) (Kxc c) -> val c 0%nat = 1%nat ->
  0 < EBED c -> 0 < (if psdm then 1 - EPOR c else 1) -> 0 < Qcap c -> 0 < vel c -> 0 < Lbed c -> 0 < th -> 0 < Tf ->
  continuity_pt (fun T => Cin T i) 0 -> 0 < Cin 0 i ->
  is_trajectory (nr c) (NION c) (nz c) (fun T u => rhs psdm c op th (Cin T) u) Tf y ->
  same_state (nr c) (NION c) (nz c) (y 0) (initial_state c (Cin 0) None) ->
  exists d, 0 < d <= Tf /\ forall T, 0 < T < d -> y T 0%nat i (nz c - 1)%nat < 0.
Proof.
  intros legendre jacobi op psdm c th Cin Tf y i GR B. intros. eapply (first_moment psdm c op th Cin Tf y i (nz c - 1)%nat); try eassumption; try lia; [apply push; assumption|].
  assert (S := Az_sign _ _ _ _ _ (nz c - 1)%nat GR B ltac:(lia)). rewrite even_sign in S; [lra|].
  destruct H2 as (k & ->). exists k. lia.
Qed.

(** With an even number the effluent is at once positive, and so are the first point below the
    inlet and every second one after it. *)
Theorem C185_start_partial : forall legendre jacobi op (psdm : bool) c th Cin Tf y i z,
  good_roots legendre jacobi -> build_operators legendre jacobi (nr c) (nz c) false = Ok op ->
  (1 <= i < NION c)%nat -> (1 <= nr c)%nat -> (1 <= z < nz c)%nat -> selectivities (NION c) (Kxc c) -> val c 0%nat = 1%nat ->
  0 < EBED c -> 0 < (if psdm then 1 - EPOR c else 1) -> 0 < Qcap c -> 0 < vel c -> 0 < Lbed c -> 0 < th -> 0 < Tf ->
  continuity_pt (fun T => Cin T i) 0 -> 0 < Cin 0 i ->
  is_trajectory (nr c) (NION c) (nz c) (fun T u => rhs psdm c op th (Cin T) u) Tf y ->
  same_state (nr c) (NION c) (nz c) (y 0) (initial_state c (Cin 0) None) ->
  (Nat.Odd z -> exists d, 0 < d <= Tf /\ forall T, 0 < T < d -> 0 < y T 0%nat i z) /\
  (Nat.Even z -> exists d, 0 < d <= Tf /\ forall T, 0 < T < d -> y T 0%nat i z < 0).
Proof.
  intros legendre jacobi op psdm c th Cin Tf y i z GR B. intros.
  assert (S := Az_sign _ _ _ _ _ z GR B ltac:(lia)).
  assert (F : (0 < Az op z 0%nat -> exists d, 0 < d <= Tf /\ forall T, 0 < T < d -> y T 0%nat i z < 0) /\
    (Az op z 0%nat < 0 -> exists d, 0 < d <= Tf /\ forall T, 0 < T < d -> 0 < y T 0%nat i z)).
  { eapply (first_moment psdm c op th Cin Tf y i z); try eassumption. apply push; assumption. }
  split; intros P; apply F; [rewrite odd_sign in S by exact P|rewrite even_sign in S by exact P]; lra.
Qed.
Print Assumptions C185_column_refuted.
Print Assumptions C185_effluent_refuted.
Print Assumptions C185_start_partial.

(** Chloride resin fed chloride, nitrate and sulphate at 1 meq/L each, five points along the bed: it
    can be run, and nitrate leaves it at a negative concentration from the start. *)
From Verif Require Import Props_IxColumn Props_Exist.
Example negative_effluent : forall psdm, exists op Tf y d,
  build_operators even_roots (fun m _ _ => even_roots m) 4 5 false = Ok op /\ 0 < Tf /\ 0 < d <= Tf /\
  is_trajectory 4 3 5 (fun _ u => rhs psdm ex_col op 100 (fun _ => 1) u) Tf y /\
  same_state 4 3 5 (y 0) (initial_state ex_col (fun _ => 1) None) /\
  forall T, 0 < T < d -> y T 0%nat 1%nat 4%nat < 0.
Proof.
  intros psdm. destruct ex_col_operators as (_ & (op & B) & _). exists op.
  assert (TH : 0 < theta psdm ex_col) by (destruct psdm; cbn; lra).
  assert (SK : selectivities 3 (Kxc ex_col)) by (intros [|[|[|i]]] _; cbn; lra).
  destruct (C168_fresh_bed_starts psdm ex_col op 100 (fun _ _ => 1) 5) as (Tf & y & HT & TR & Y0); try (cbn; lia); try (cbn; lra); try assumption.
  - intros i _ t _ e He. exists 1. split; [lra|]. intros. rewrite Rminus_diag_eq by reflexivity. rewrite Rabs_R0. exact He.
  - intros. lra.
  - destruct (C185_effluent_refuted even_roots (fun m _ _ => even_roots m) op psdm ex_col 100 (fun _ _ => 1) Tf y 1) as (d & D & N); try (cbn; lia); try (cbn; lra); try assumption.
    + exact even_roots_good.
    + exists 2%nat. reflexivity.
    + apply c_const.
    + exists Tf, y, d. repeat split; try assumption; try lra. apply (TR r i z H H0 H1). apply (TR r i z H H0 H1).
Qed.
