(** C202 — errors in the table of influent concentrations do not build up in the resin at the inlet. *)
From Coq Require Import Reals List Arith Bool Lra Lia.
From Verif Require Import Lib_Py Lib_Sum Lib_Traj S_Colloc S_Radial P_JacobiRoots.
From Verif Require Import M_IxEq S_IxEq M_IxColumn S_IxColumn S_Unique Props_Rest Props_Exhaust Props_IxColumn P_InletTwo P_L1 Props_InletTwo S_Approach Props_OnePoint P_Track Props_Track.
Open Scope R_scope.

(** ** What is read at any time is a mean of two rows of the table *)
Lemma interp_mean xs T : (forall ys, List.length ys = List.length xs -> interp1d (combine xs ys) T = Err ValueError) \/
  exists k w, (S k < List.length xs)%nat /\ 0 <= w <= 1 /\ forall ys, List.length ys = List.length xs -> interp1d (combine xs ys) T = Ok (nth k ys 0 + (nth (S k) ys 0 - nth k ys 0) * w).
Proof.
  induction xs as [|x0 xs IH]; [left; intros ys _; reflexivity|]. destruct xs as [|x1 xs].
  - left. intros [|y [|]] H; try discriminate H. reflexivity.
  - destruct (rleb x0 T && rleb T x1)%bool eqn:E.
    + right. exists 0%nat, (/ (x1 - x0) * (T - x0)). split; [cbn; lia|]. split.
      * apply andb_true_iff in E. destruct E as (E1 & E2). unfold rleb in E1, E2. destruct (Rle_dec x0 T) as [E3|]; [|discriminate E1]. destruct (Rle_dec T x1) as [E4|]; [|discriminate E2]. destruct (Req_dec x0 x1) as [Q|Q].
        { replace (T - x0) with 0 by lra. lra. }
        assert (P : 0 < x1 - x0) by lra. assert (IP := Rinv_0_lt_compat _ P). split; [apply Rmult_le_pos; lra|]. apply (Rmult_le_reg_l (x1 - x0)); [exact P|]. rewrite <- Rmult_assoc, Rinv_r by lra. lra.
      * intros [|y0 [|y1 ys]] H; try discriminate H. cbn [combine interp1d nth]. rewrite E. f_equal. unfold Rdiv. ring.
    + destruct IH as [IH|(k & w & Hk & Hw & IH)].
      * left. intros [|y0 [|y1 ys]] H; try discriminate H. cbn [combine interp1d]. rewrite E. apply (IH (y1 :: ys)). cbn in H |- *. lia.
      * right. exists (S k), w. split; [cbn in Hk |- *; lia|]. split; [exact Hw|]. intros [|y0 [|y1 ys]] H; try discriminate H. specialize (IH (y1 :: ys) ltac:(cbn in H |- *; lia)).
        cbn [combine interp1d]. rewrite E. exact IH.
Qed.
Lemma read_mean const tm th times ys0 T v0 : List.length ys0 = List.length times -> get_Cin const tm th times ys0 T = Ok v0 ->
  exists k l w, (k < List.length times)%nat /\ (l < List.length times)%nat /\ 0 <= w <= 1 /\
    forall ys, List.length ys = List.length times -> get_Cin const tm th times ys T = Ok (nth k ys 0 * (1 - w) + nth l ys 0 * w).
Proof.
  intros L0 E. unfold get_Cin in *. destruct const.
  - destruct ys0 as [|a l]; [discriminate E|]. cbn in L0. exists 0%nat, 0%nat, 0. split; [lia|]. split; [lia|]. split; [lra|].
    intros [|b m] L; [cbn in L; lia|]. cbn [nth]. f_equal. ring.
  - set (xs := map (fun t => t * (tm / th)) times) in *. assert (LX : List.length xs = List.length times) by apply map_length.
    destruct (interp_mean xs T) as [B|(k & w & Hk & Hw & B)].
    + rewrite B in E by lia. discriminate E.
    + exists k, (S k), w. split; [lia|]. split; [lia|]. split; [exact Hw|]. intros ys L. rewrite B by lia. f_equal. ring.
Qed.

(** two tables of influents, one column for every ion, with the same times *)
Record tables (n : nat) (times : list R) (c0 eps : R) (col col' : nat -> list R) : Prop := {
  tab_length : forall i, (i < n)%nat -> List.length (col i) = List.length times /\ List.length (col' i) = List.length times;
  tab_nonneg : forall i k, (i < n)%nat -> (k < List.length times)%nat -> 0 <= nth k (col i) 0 /\ 0 <= nth k (col' i) 0;
  tab_total : forall k, (k < List.length times)%nat -> c0 <= rsum n (fun i => nth k (col i) 0) /\ c0 <= rsum n (fun i => nth k (col' i) 0);
  tab_near : forall k, (k < List.length times)%nat -> rsum n (fun i => Rabs (nth k (col i) 0 - nth k (col' i) 0)) <= eps }.

Lemma mean_between a b w lo : 0 <= w <= 1 -> lo <= a -> lo <= b -> lo <= a * (1 - w) + b * w.
Proof. intros W A B. assert (0 <= (a - lo) * (1 - w)) by (apply Rmult_le_pos; lra). assert (0 <= (b - lo) * w) by (apply Rmult_le_pos; lra). lra. Qed.
Lemma mean_below a b w hi : 0 <= w <= 1 -> a <= hi -> b <= hi -> a * (1 - w) + b * w <= hi.
Proof. intros W A B. assert (0 <= (hi - a) * (1 - w)) by (apply Rmult_le_pos; lra). assert (0 <= (hi - b) * w) by (apply Rmult_le_pos; lra). lra. Qed.
Lemma row_below n m (f : nat -> nat -> R) k : (k < m)%nat -> (forall i k, (i < n)%nat -> (k < m)%nat -> 0 <= f k i) -> rsum n (f k) <= rsum m (fun k => rsum n (f k)).
Proof. intros K P. apply (P_EntropyDv.one_le m (fun k => rsum n (f k)) k K). intros j J. apply rsum_nonneg. intros i I. apply P; assumption. Qed.
Lemma read_waters n const tm th times c0 eps col col' T C D : (0 < n)%nat -> tables n times c0 eps col col' ->
  (forall i, (i < n)%nat -> get_Cin const tm th times (col i) T = Ok (C i) /\ get_Cin const tm th times (col' i) T = Ok (D i)) ->
  (forall i, (i < n)%nat -> 0 <= C i /\ 0 <= D i) /\
  (c0 <= rsum n C /\ rsum n C <= rsum (List.length times) (fun k => rsum n (fun i => nth k (col i) 0)) /\ c0 <= rsum n D /\ rsum n D <= rsum (List.length times) (fun k => rsum n (fun i => nth k (col' i) 0))) /\
  rsum n (fun i => Rabs (C i - D i)) <= eps.
Proof.
  intros N [TL TN TT TE] RD.
  destruct (read_mean const tm th times (col 0%nat) T (C 0%nat) (proj1 (TL 0%nat N)) (proj1 (RD 0%nat N))) as (k & l & w & K & L & W & MN).
  assert (CI : forall i, (i < n)%nat -> C i = nth k (col i) 0 * (1 - w) + nth l (col i) 0 * w).
  { intros i I. destruct (RD i I) as (E & _). rewrite (MN _ (proj1 (TL i I))) in E. injection E as <-. reflexivity. }
  assert (DI : forall i, (i < n)%nat -> D i = nth k (col' i) 0 * (1 - w) + nth l (col' i) 0 * w).
  { intros i I. destruct (RD i I) as (_ & E). rewrite (MN _ (proj2 (TL i I))) in E. injection E as <-. reflexivity. }
  assert (SUM : forall f g h : nat -> R, (forall i, (i < n)%nat -> f i = g i * (1 - w) + h i * w) -> rsum n f = rsum n g * (1 - w) + rsum n h * w).
  { intros f g h E. rewrite (rsum_ext n f (fun i => g i * (1 - w) + h i * w)) by exact E. rewrite rsum_plus, !rsum_scal_r. reflexivity. }
  split; [|split].
  - intros i I. rewrite CI, DI by exact I. destruct (TN i k I K). destruct (TN i l I L). split; apply mean_between; assumption.
  - rewrite (SUM C _ _ CI), (SUM D _ _ DI). destruct (TT k K). destruct (TT l L). split; [apply mean_between; assumption|]. split.
    { apply mean_below; [exact W| |]; apply (row_below n _ (fun k i => nth k (col i) 0)); (assumption || intros; apply TN; assumption). }
    split; [apply mean_between; assumption|]. apply mean_below; [exact W| |]; apply (row_below n _ (fun k i => nth k (col' i) 0)); (assumption || intros; apply TN; assumption).
  - apply Rle_trans with (rsum n (fun i => Rabs (nth k (col i) 0 - nth k (col' i) 0) * (1 - w) + Rabs (nth l (col i) 0 - nth l (col' i) 0) * w)).
    + apply rsum_le. intros i I. rewrite CI, DI by exact I.
      replace (nth k (col i) 0 * (1 - w) + nth l (col i) 0 * w - (nth k (col' i) 0 * (1 - w) + nth l (col' i) 0 * w)) with ((nth k (col i) 0 - nth k (col' i) 0) * (1 - w) + (nth l (col i) 0 - nth l (col' i) 0) * w) by ring.
      eapply Rle_trans; [apply Rabs_triang|]. rewrite !Rabs_mult, (Rabs_right (1 - w)), (Rabs_right w) by lra. lra.
    + rewrite (SUM _ (fun i => Rabs (nth k (col i) 0 - nth k (col' i) 0)) (fun i => Rabs (nth l (col i) 0 - nth l (col' i) 0))) by reflexivity. apply mean_below; [exact W|apply TE; exact K|apply TE; exact L].
Qed.

Theorem C202_inlet_table : forall legendre jacobi ocfe op (psdm : bool) c th c0,
  jacobi_roots 2 1 (jacobi 1%nat (5 / 2) (3 / 2)) -> build_operators legendre jacobi (nr c) (nz c) ocfe = Ok op ->
  working_column psdm c th -> nr c = 2%nat -> (1 < NION c)%nat -> 0 < Qcap c -> 0 < c0 ->
  (* one film and one diffusion coefficient *)
  (forall i, (1 <= i < NION c)%nat -> kL c i = kL c 1%nat /\ Ds c i = Ds c 1%nat /\ (psdm = true -> Dp c i = Ds c 1%nat)) ->
  exists A B G, 0 < A /\ 0 < B /\ 0 < G /\ forall eps times col col',
    (* two tables without negative values, with totals of at least c0, that differ by at most eps in every row *)
    0 <= eps -> tables (NION c) times c0 eps col col' ->
    forall const tm Cin Din Tf y x,
    (forall T i, 0 < T < Tf -> (i < NION c)%nat -> get_Cin const tm th times (col i) T = Ok (Cin T i) /\ get_Cin const tm th times (col' i) T = Ok (Din T i)) ->
    is_trajectory (nr c) (NION c) (nz c) (fun T u => rhs psdm c op th (Cin T) u) Tf y ->
    is_trajectory (nr c) (NION c) (nz c) (fun T u => rhs psdm c op th (Din T) u) Tf x ->
    loaded_inlet (nr c) (NION c) (Qcap c) (y 0) -> loaded_inlet (nr c) (NION c) (Qcap c) (x 0) ->
    forall T, 0 <= T <= Tf -> inlet_distance (nr c) (NION c) (y T) (x T) <= B * exp (- A * T) * inlet_distance (nr c) (NION c) (y 0) (x 0) + G * eps.
Proof.
  intros legendre jacobi ocfe op psdm c th c0 HJ BO WC NR NI HQ HC0 SM.
  destruct (C202_inlet_tracks legendre jacobi ocfe op psdm c th c0 HJ BO WC NR NI HQ HC0 SM) as (A & B & G & AP & BP & GP & AL).
  exists A, B, G. split; [assumption|]. split; [assumption|]. split; [assumption|].
  intros eps times col col' EPS TB const tm Cin Din Tf y x RD TY TX LY LX T HT.
  assert (RW : forall t, 0 < t < Tf -> _) by (intros t Ht; exact (read_waters (NION c) const tm th times c0 eps col col' t (Cin t) (Din t) ltac:(lia) TB (fun i I => RD t i Ht I))).
  set (M1 := rsum (List.length times) (fun k => rsum (NION c) (fun i => nth k (col i) 0))) in RW. set (M2 := rsum (List.length times) (fun k => rsum (NION c) (fun i => nth k (col' i) 0))) in RW.
  assert (H1 : M1 <= Rmax M1 M2) by apply Rmax_l. assert (H2 : M2 <= Rmax M1 M2) by apply Rmax_r.
  replace (- A * T) with (- A * (T - 0)) by ring.
  apply (AL Cin Din Tf y x (Rmax M1 M2)); try assumption; try lra.
  - intros t i Ht I. apply (RW t Ht). exact I.
  - intros t Ht. destruct (RW t Ht) as (_ & (R1 & R2 & R3 & R4) & _). lra.
  - intros t Ht. apply (RW t). lra.
Qed.
Print Assumptions C202_inlet_table.

Theorem C202_one_point_table : forall legendre jacobi ocfe op (psdm : bool) c th c0,
  jacobi_roots 2 0 (jacobi 0%nat (5 / 2) (3 / 2)) -> build_operators legendre jacobi (nr c) (nz c) ocfe = Ok op ->
  working_column psdm c th -> nr c = 1%nat -> (1 < NION c)%nat -> 0 < Qcap c -> 0 < c0 ->
  (forall i, (1 <= i < NION c)%nat -> kL c i = kL c 1%nat) ->
  exists A G, 0 < A /\ 0 < G /\ forall eps times col col',
    (* two tables without negative values, with totals of at least c0, that differ by at most eps in every row *)
    0 <= eps -> tables (NION c) times c0 eps col col' ->
    forall const tm Cin Din Tf y x,
    (forall T i, 0 < T < Tf -> (i < NION c)%nat -> get_Cin const tm th times (col i) T = Ok (Cin T i) /\ get_Cin const tm th times (col' i) T = Ok (Din T i)) ->
    is_trajectory (nr c) (NION c) (nz c) (fun T u => rhs psdm c op th (Cin T) u) Tf y ->
    is_trajectory (nr c) (NION c) (nz c) (fun T u => rhs psdm c op th (Din T) u) Tf x ->
    loaded_inlet (nr c) (NION c) (Qcap c) (y 0) -> loaded_inlet (nr c) (NION c) (Qcap c) (x 0) ->
    forall T, 0 <= T <= Tf -> inlet_distance (nr c) (NION c) (y T) (x T) <= exp (- A * T) * inlet_distance (nr c) (NION c) (y 0) (x 0) + G * eps.
Proof.
  intros legendre jacobi ocfe op psdm c th c0 HJ BO WC NR NI HQ HC0 SM.
  destruct (C202_one_point_tracks legendre jacobi ocfe op psdm c th c0 HJ BO WC NR NI HQ HC0 SM) as (A & G & AP & GP & AL).
  exists A, G. split; [assumption|]. split; [assumption|].
  intros eps times col col' EPS TB const tm Cin Din Tf y x RD TY TX LY LX T HT.
  assert (RW : forall t, 0 < t < Tf -> _) by (intros t Ht; exact (read_waters (NION c) const tm th times c0 eps col col' t (Cin t) (Din t) ltac:(lia) TB (fun i I => RD t i Ht I))).
  set (M1 := rsum (List.length times) (fun k => rsum (NION c) (fun i => nth k (col i) 0))) in RW. set (M2 := rsum (List.length times) (fun k => rsum (NION c) (fun i => nth k (col' i) 0))) in RW.
  assert (H1 : M1 <= Rmax M1 M2) by apply Rmax_l. assert (H2 : M2 <= Rmax M1 M2) by apply Rmax_r.
  replace (- A * T) with (- A * (T - 0)) by ring.
  apply (AL Cin Din Tf y x (Rmax M1 M2)); try assumption; try lra.
  - intros t i Ht I. apply (RW t Ht). exact I.
  - intros t Ht. destruct (RW t Ht) as (_ & (R1 & R2 & R3 & R4) & _). lra.
  - intros t Ht. apply (RW t). lra.
Qed.
Print Assumptions C202_one_point_table.

(** Chloride resin on two radial points, chloride, nitrate and sulphate rising from 1 to 2 meq/L within a day, all measured a tenth of one meq/L too high. *)
From Verif Require Import Props_Exist Props_Negative.
Import ListNotations.
Lemma rising a T : 0 <= T <= 5 -> get_Cin false 3600 100 [0; 24] [a; a + 1] T = Ok (a + T / 864).
Proof.
  intros H. cbn. unfold rleb. destruct (Rle_dec _ T) as [_|N]; [|lra]. destruct (Rle_dec T _) as [_|N]; [|lra]. cbn. f_equal. field.
Qed.
Example table_too_high : exists jacobi op G Tf y x, 0 < G /\ 0 < Tf /\ build_operators even_roots jacobi 2 5 false = Ok op /\
  is_trajectory 2 3 5 (fun t u => rhs false col_two op 100 (fun _ => 1 + t / 864) u) Tf y /\ is_trajectory 2 3 5 (fun t u => rhs false col_two op 100 (fun _ => 11 / 10 + t / 864) u) Tf x /\
  same_state 2 3 5 (y 0) (initial_state col_two (fun _ => 1 + 0 / 864) None) /\
  forall T, 0 <= T <= Tf -> inlet_distance 2 3 (y T) (x T) <= G * (3 / 10).
Proof.
  destruct (jacobi_exist 2 1) as (r & Hr). set (jac := fun (m : nat) (_ _ : R) => match m with 1%nat => r | _ => even_roots m end). exists jac.
  destruct (build_operators even_roots jac 2 5 false) as [op|] eqn:B; [|discriminate B]. exists op.
  assert (SK : selectivities 3 (Kxc col_two)) by (intros [|[|[|i]]] _; cbn; lra).
  assert (WC : working_column false col_two 100).
  { repeat split; try (cbn; lia); try (cbn; lra); try exact SK.
    all: destruct i as [|[|[|i]]]; cbn; try lia; try lra; auto. }
  destruct (C202_inlet_table even_roots jac false op false col_two 100 3 Hr B WC eq_refl ltac:(cbn; lia) ltac:(cbn; lra) ltac:(lra)) as (A & BB & G & AP & BP & GP & AL);
    [intros i _; repeat split; try reflexivity; discriminate|].
  assert (RUN : forall a, 0 <= a -> exists Tf y, 0 < Tf <= 5 /\ is_trajectory (nr col_two) (NION col_two) (nz col_two) (fun t u => rhs false col_two op 100 (fun _ => a + t / 864) u) Tf y /\ same_state (nr col_two) (NION col_two) (nz col_two) (y 0) (initial_state col_two (fun _ => a + 0 / 864) None)).
  { intros a Ha. apply (C168_fresh_bed_starts false col_two op 100 (fun t _ => a + t / 864) 5); try (cbn; lia); try (cbn; lra); try assumption.
    - intros i _ t _ e He. exists e. split; [exact He|]. intros s _ D. replace (a + s / 864 - (a + t / 864)) with ((s - t) / 864) by field. unfold Rdiv. rewrite Rabs_mult, (Rabs_right (/ 864)) by lra. assert (X := Rabs_pos (s - t)). lra.
    - intros. lra. }
  destruct (RUN 1 ltac:(lra)) as (T1 & y & H1 & TY & Y0). destruct (RUN (11 / 10) ltac:(lra)) as (T2 & x & H2 & TX & X0). set (Tf := Rmin T1 T2). assert (M1 : Tf <= T1) by apply Rmin_l. assert (M2 : Tf <= T2) by apply Rmin_r. assert (M0 : 0 < Tf) by (apply Rmin_pos; lra).
  assert (TY' : is_trajectory (nr col_two) (NION col_two) (nz col_two) (fun t u => rhs false col_two op 100 (fun _ => 1 + t / 864) u) Tf y) by (intros k i z K I Z; apply (evolves_sub 0 T1); [exact M1|apply TY; assumption]).
  assert (TX' : is_trajectory (nr col_two) (NION col_two) (nz col_two) (fun t u => rhs false col_two op 100 (fun _ => 11 / 10 + t / 864) u) Tf x) by (intros k i z K I Z; apply (evolves_sub 0 T2); [exact M2|apply TX; assumption]).
  exists G, Tf, y, x. split; [exact GP|]. split; [exact M0|]. split; [reflexivity|]. split; [exact TY'|]. split; [exact TX'|]. split; [exact Y0|]. intros T HT.
  assert (LOAD : forall a v, same_state (nr col_two) (NION col_two) (nz col_two) (v 0) (initial_state col_two (fun _ => a) None) -> loaded_inlet 2 3 1400 (v 0)).
  { intros a v V0 [|k] K; [lia|]. split; [|split].
    - rewrite V0 by (cbn; lia). cbn. lra.
    - intros i I. rewrite V0 by (cbn in *; lia). destruct i; cbn; lra.
    - cbn. rewrite !V0 by (cbn; lia). cbn. lra. }
  assert (TB : tables (NION col_two) [0; 24] 3 (3 / 10) (fun _ => [1; 1 + 1]) (fun _ => [11 / 10; 11 / 10 + 1])).
  { split.
    - intros. split; reflexivity.
    - intros i [|[|k]] _ K; cbn in *; try lia; lra.
    - intros [|[|k]] K; cbn in *; try lia; lra.
    - intros [|[|k]] K; cbn in *; try lia; rewrite !Rabs_left by lra; lra. }
  assert (X1 := AL (3 / 10) [0; 24] (fun _ => [1; 1 + 1]) (fun _ => [11 / 10; 11 / 10 + 1]) ltac:(lra) TB false 3600 (fun t _ => 1 + t / 864) (fun t _ => 11 / 10 + t / 864) Tf y x
    (fun t i Ht _ => conj (rising 1 t ltac:(lra)) (rising (11 / 10) t ltac:(lra))) TY' TX' (LOAD _ y Y0) (LOAD _ x X0) T HT).
  assert (D0 : inlet_distance (nr col_two) (NION col_two) (y 0) (x 0) = 0).
  { unfold inlet_distance. apply rsum_zero. intros k K. apply rsum_zero. intros i I. rewrite Y0, X0 by (cbn in *; lia). replace (initial_state col_two (fun _ => 1 + 0 / 864) None (S k) i 0%nat) with (initial_state col_two (fun _ => 11 / 10 + 0 / 864) None (S k) i 0%nat) by reflexivity. rewrite Rminus_diag_eq by reflexivity. apply Rabs_R0. }
  rewrite D0, Rmult_0_r, Rplus_0_l in X1. exact X1.
Qed.
