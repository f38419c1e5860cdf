(** Properties C105-C109: fitting an isotherm to batch data. *)
From Coq Require Import Reals List Arith Bool String Sorted Lra Lia ZArith.
From Verif Require Import Lib_Py Lib_Pow S_GacFun M_GacFun P_GacFun M_GacMin P_GacMin M_Extra M_IxUnc M_Isotherm P_Colloc.
Import ListNotations.
Open Scope R_scope.
Open Scope string_scope.
Local Notation length := List.length.

(** ** Specification *)
(** Row [i] of the frame has concentration [x] and loading [y]: the user's, or what left the
    water per mass of carbon. *)
Definition row_of (d : idata) (i : nat) (x y : R) : Prop :=
  nth_error (d_Ce d) i = Some (Some x) /\
  match d_q d with
  | Some q => nth_error q i = Some (Some y)
  | None => exists c0 m, nth_error (d_C0 d) i = Some (Some c0) /\ nth_error (d_mass d) i = Some (Some m) /\ y = (c0 - x) / m
  end.
Definition measured (d : idata) (x y : R) : Prop := exists i, row_of d i x y.
Definition sse (f : list R -> R -> R) (p : list R) (pts : list (R * R)) : R := fold_right Rplus 0 (map (fun q => (snd q - f p (fst q)) ^ 2) pts).
(** curve_fit finds a least-squares fit among non-negative parameters. *)
Definition least_squares (cf : (list R -> R -> R) -> nat -> list (R * R) -> res (list R * list R)) : Prop :=
  forall f n pts p v, cf f n pts = Ok (p, v) -> length p = n /\ (forall x, In x p -> 0 <= x) /\
    forall p', length p' = n -> (forall x, In x p' -> 0 <= x) -> sse f p pts <= sse f p' pts.
Definition parameters (r : fitted) : list (string * R) := map (fun q => (fst q, fst (snd q))) (f_table r).

(** ** The points used *)
Lemma mapM_in {A B} (f : A -> res B) : forall l r, mapM f l = Ok r -> forall b, In b r <-> exists a, In a l /\ f a = Ok b.
Proof.
  induction l as [|x l IH]; intros r H b; cbn in H; [assert (r = []) by congruence; subst r; split; [intros []|intros (a & [] & _)]|]. destruct (f x) as [y|] eqn:F; [|discriminate]. cbn in H. destruct (mapM f l) as [ys|] eqn:M; [|discriminate]. cbn in H.
  assert (r = y :: ys) by congruence. subst r. split.
  - intros [<-|I]; [exists x; split; [left; reflexivity|exact F]|]. apply (IH ys eq_refl) in I. destruct I as (a & A1 & A2). exists a. split; [right; exact A1|exact A2].
  - intros (a & [<-|A1] & A2); [left; congruence|]. right. apply (IH ys eq_refl). exists a. auto.
Qed.
Lemma combine_in {A B} : forall (l : list A) (m : list B) a b, In (a, b) (combine l m) <-> exists i, nth_error l i = Some a /\ nth_error m i = Some b.
Proof.
  induction l as [|x l IH]; intros m a b; cbn; [split; [intros []|intros (i & H & _); destruct i; discriminate]|]. destruct m as [|y m]; cbn; [split; [intros []|intros (i & _ & H); destruct i; discriminate]|].
  split.
  - intros [E|I]; [exists 0%nat; cbn; split; congruence|]. apply IH in I as (i & I1 & I2). exists (S i). auto.
  - intros (i & I1 & I2). destruct i as [|i]; cbn in I1, I2; [left; congruence|]. right. apply IH. exists i. auto.
Qed.
Lemma loading_nth : forall c0 ce m i, nth_error (loading c0 ce m) i = match nth_error c0 i, nth_error ce i, nth_error m i with Some a, Some b, Some c => Some (divN (map2 Rminus a b) c) | _, _, _ => None end.
Proof.
  induction c0 as [|a r IH]; intros ce m i; cbn [loading]; [destruct i; reflexivity|]. destruct ce as [|b s]; [cbn; destruct i; cbn; [reflexivity|destruct (nth_error r i); reflexivity]|].
  destruct m as [|c t]; [cbn; destruct i; cbn; [reflexivity|destruct (nth_error r i), (nth_error s i); reflexivity]|]. destruct i as [|i]; [reflexivity|]. cbn. apply IH.
Qed.
Lemma points_spec d pts : points (with_q d) = Ok pts -> forall x y, In (x, y) pts <-> measured d x y.
Proof.
  intros H x y. unfold points in H. rewrite (mapM_in _ _ _ H). unfold measured, row_of.
  transitivity (exists i, nth_error (d_Ce (with_q d)) i = Some (Some x) /\ nth_error (match d_q (with_q d) with Some q => q | None => [] end) i = Some (Some y)).
  - split.
    + intros ((a & b) & I & E). apply filter_In in I as (I & _). destruct a as [a|]; [|destruct b; discriminate]. destruct b as [b|]; [|discriminate]. assert (a = x /\ b = y) as (-> & ->) by (split; congruence). apply combine_in in I. exact I.
    + intros (i & I1 & I2). exists (Some x, Some y). split; [|reflexivity]. apply filter_In. split; [apply combine_in; exists i; auto|reflexivity].
  - unfold with_q. destruct (d_q d) as [q|] eqn:Q; [rewrite Q; reflexivity|]. cbn [d_Ce d_q]. split.
    + intros (i & I1 & I2). exists i. split; [exact I1|]. rewrite loading_nth, I1 in I2. destruct (nth_error (d_C0 d) i) as [[c0|]|], (nth_error (d_mass d) i) as [[m|]|]; cbn in I2; try discriminate.
      exists c0, m. split; [reflexivity|]. split; [reflexivity|]. congruence.
    + intros (i & I1 & c0 & m & I2 & I3 & ->). exists i. split; [exact I1|]. rewrite loading_nth, I1, I2, I3. reflexivity.
Qed.
Lemma fit_inv cf tq name d r d' : isotherm_fit cf tq name d = (Ok r, d') -> exists pts k p v, points (with_q d) = Ok pts /\ pts <> [] /\ kind_of name = Some k /\ cf (k_fun k) (length (k_names k)) pts = Ok (p, v) /\
  f_table r = combine (k_names k) (map (fun i => (nth i p 0, sqrt (nth i v 0))) (seq 0 (length (k_names k)))) /\
  f_title r = map (fun i => (nth i p 0, sqrt (nth (nth i (k_title k) 0%nat) v 0))) (seq 0 (length (k_names k))) /\
  f_curve r = map (fun x => (x, (k_fun k p x, bands tq (k_fun k p) (length (k_names k)) pts x))) (grid pts).
Proof.
  unfold isotherm_fit. intros H. destruct (points (with_q d)) as [pts|]; [|discriminate]. cbn [bind] in H. destruct pts as [|pt pts]; [discriminate|]. destruct (kind_of name) as [k|]; [|discriminate].
  destruct (cf (k_fun k) (length (k_names k)) (pt :: pts)) as [(p & v)|] eqn:C; [|discriminate]. cbn [bind fst snd] in H.
  exists (pt :: pts), k, p, v. split; [reflexivity|]. split; [discriminate|]. split; [reflexivity|]. split; [exact C|]. match type of H with (Ok ?A, _) = _ => assert (E : r = A) by congruence end. subst r. cbn [f_table f_title f_curve]. auto.
Qed.
(** ** C105: exact data give back the isotherm *)
Lemma sse_nonneg f p pts : 0 <= sse f p pts.
Proof. unfold sse. induction pts as [|q pts IH]; cbn; [lra|]. pose proof (pow2_ge_0 (snd q - f p (fst q))). cbn in *. lra. Qed.
Lemma sse_zero f p pts : sse f p pts <= 0 <-> forall x y, In (x, y) pts -> y = f p x.
Proof.
  split.
  - induction pts as [|q pts IH]; intros H x y I; [contradiction|]. unfold sse in H. cbn [map fold_right] in H. pose proof (pow2_ge_0 (snd q - f p (fst q))) as P. pose proof (sse_nonneg f p pts) as N. unfold sse in N.
    destruct I as [->|I]; [|apply IH; [unfold sse; lra|exact I]]. cbn [fst snd] in *. assert (Z : (y - f p x) ^ 2 = 0) by lra. assert (y - f p x = 0); [|lra]. replace ((y - f p x) ^ 2) with (Rsqr (y - f p x)) in Z by (unfold Rsqr; ring). apply Rsqr_0_uniq. exact Z.
  - intros H. unfold sse. induction pts as [|(x & y) pts IH]; cbn [map fold_right]; [lra|]. cbn [fst snd]. rewrite (H x y (or_introl eq_refl)). assert (A : (f p x - f p x) ^ 2 = 0) by ring. rewrite A. assert (fold_right Rplus 0 (map (fun q => (snd q - f p (fst q)) ^ 2) pts) <= 0); [|lra]. apply IH. intros a b I. apply H. right. exact I.
Qed.
Lemma first_of : forall (err : nat -> R) (p : list R) (ns : list string), map (fun q => (fst q, fst (snd q))) (combine ns (map (fun i => (nth i p 0, err i)) (seq 0 (length p)))) = combine ns p.
Proof.
  intros err p. revert err. induction p as [|a p IH]; intros err ns; [destruct ns; reflexivity|]. destruct ns as [|n ns]; [reflexivity|].
  cbn [length seq map combine fst snd nth]. f_equal. rewrite <- seq_shift, map_map. cbn [nth]. apply (IH (fun i => err (S i)) ns).
Qed.
(** The fitted curve goes through all points when some admissible curve does. *)
Lemma through cf tq name d r d' k p0 : least_squares cf -> isotherm_fit cf tq name d = (Ok r, d') -> kind_of name = Some k -> length p0 = length (k_names k) -> (forall x, In x p0 -> 0 <= x) ->
  (forall x y, measured d x y -> y = k_fun k p0 x) ->
  exists p, length p = length (k_names k) /\ (forall x, In x p -> 0 <= x) /\ parameters r = combine (k_names k) p /\ forall x y, measured d x y -> y = k_fun k p x.
Proof.
  intros LS H K L0 P0 M. destruct (fit_inv _ _ _ _ _ _ H) as (pts & k' & p & v & PT & _ & K' & C & TB & _). assert (k' = k) by congruence. subst k'.
  destruct (LS _ _ _ _ _ C) as (L & P & MIN). exists p. split; [exact L|]. split; [exact P|]. split.
  - unfold parameters. rewrite TB, <- L. apply (first_of (fun i => sqrt (nth i v 0))).
  - intros x y I. apply (proj1 (sse_zero (k_fun k) p pts)); [|apply (points_spec d pts PT); exact I]. apply (Rle_trans _ (sse (k_fun k) p0 pts)); [apply MIN; assumption|]. apply sse_zero. intros a b J. apply M. apply (points_spec d pts PT). exact J.
Qed.
Lemma list2 (p : list R) : length p = 2%nat -> exists a b, p = [a; b].
Proof. destruct p as [|a [|b [|c p]]]; try discriminate. intros _. exists a, b. reflexivity. Qed.
Lemma list3 (p : list R) : length p = 3%nat -> exists a b c, p = [a; b; c].
Proof. destruct p as [|a [|b [|c [|e p]]]]; try discriminate. intros _. exists a, b, c. reflexivity. Qed.
Theorem C105_freundlich : forall cf tq name d r d' K n x1 y1 x2 y2, least_squares cf -> lower name = "freundlich" -> isotherm_fit cf tq name d = (Ok r, d') ->
  0 < K -> 0 <= n -> (forall x y, measured d x y -> 0 < x /\ y = K * Rpower x n) -> measured d x1 y1 -> measured d x2 y2 -> x1 <> x2 ->
  parameters r = [("K", K); ("1/n", n)].
Proof.
  intros cf tq name d r d' K n x1 y1 x2 y2 LS NM H PK Pn M M1 M2 NE.
  destruct (through cf tq name d r d' {| k_names := ["K"; "1/n"]; k_fun := freundlich; k_title := [0; 0]%nat |} [K; n] LS H) as (p & L & P & PR & TH).
  - unfold kind_of. rewrite NM. reflexivity.
  - reflexivity.
  - intros x [<-|[<-|[]]]; lra.
  - intros x y I. destruct (M x y I) as (X & ->). cbn. unfold freundlich. cbn. rewrite rpow_Rpower by exact X. reflexivity.
  - rewrite PR. cbn [k_names k_fun] in *. destruct (list2 p L) as (K' & n' & ->). cbn [combine].
    assert (EQ : forall x y, measured d x y -> 0 < x /\ ln K + n * ln x = ln K' + n' * ln x /\ 0 < K').
    { intros x y I. destruct (M x y I) as (X & E). pose proof (TH x y I) as T. unfold freundlich in T. cbn in T. rewrite rpow_Rpower in T by exact X. rewrite E in T. split; [exact X|].
      assert (PX : forall a, 0 < Rpower x a) by (intros; apply exp_pos). assert (K0 : 0 < K'). { specialize (P K' (or_introl eq_refl)). destruct P as [P|P]; [exact P|]. subst K'. rewrite Rmult_0_l in T. pose proof (Rmult_lt_0_compat _ _ PK (PX n)). lra. }
      split; [|exact K0]. apply (f_equal ln) in T. rewrite !ln_mult in T by (assumption || apply PX). unfold Rpower in T. rewrite !ln_exp in T. exact T. }
    destruct (EQ _ _ M1) as (X1 & E1 & K0). destruct (EQ _ _ M2) as (X2 & E2 & _). assert (DL : ln x1 <> ln x2) by (intros E; apply NE, ln_inv; assumption).
    assert (n' = n). { assert (Z : (n - n') * (ln x1 - ln x2) = 0) by lra. apply Rmult_integral in Z as [Z|Z]; lra. } subst n'. assert (ln K = ln K') by lra. assert (K = K') by (apply ln_inv; assumption). subst K'. reflexivity.
Qed.
Theorem C105_langmuir : forall cf tq name d r d' KL qm x1 y1 x2 y2, least_squares cf -> lower name = "langmuir" -> isotherm_fit cf tq name d = (Ok r, d') ->
  0 < KL -> 0 < qm -> (forall x y, measured d x y -> 0 <= x /\ y = qm * KL * x / (1 + KL * x)) -> measured d x1 y1 -> measured d x2 y2 -> 0 < x1 -> 0 < x2 -> x1 <> x2 ->
  parameters r = [("KL", KL); ("qm", qm)].
Proof.
  intros cf tq name d r d' KL qm x1 y1 x2 y2 LS NM H PK Pq M M1 M2 X1 X2 NE.
  destruct (through cf tq name d r d' {| k_names := ["KL"; "qm"]; k_fun := langmuir; k_title := [0; 0]%nat |} [KL; qm] LS H) as (p & L & P & PR & TH).
  - unfold kind_of. rewrite NM. reflexivity.
  - reflexivity.
  - intros x [<-|[<-|[]]]; lra.
  - intros x y I. destruct (M x y I) as (X & ->). cbn. unfold langmuir. cbn. unfold Rdiv. ring.
  - rewrite PR. cbn [k_names k_fun] in *. destruct (list2 p L) as (K' & q' & ->). cbn [combine]. pose proof (P K' (or_introl eq_refl)) as K0.
    assert (EQ : forall x y, measured d x y -> 0 < x -> qm * KL * (1 + K' * x) = K' * q' * (1 + KL * x)).
    { intros x y I X. destruct (M x y I) as (_ & E). pose proof (TH x y I) as T. unfold langmuir in T. cbn in T. rewrite E in T. assert (A : 0 < 1 + KL * x) by nra. assert (B : 0 < 1 + K' * x) by nra.
      apply (f_equal (fun z => z * (1 + KL * x) * (1 + K' * x) / x)) in T. replace (qm * KL * x / (1 + KL * x) * (1 + KL * x) * (1 + K' * x) / x) with (qm * KL * (1 + K' * x)) in T by (field; lra).
      replace (K' * x * q' / (1 + K' * x) * (1 + KL * x) * (1 + K' * x) / x) with (K' * q' * (1 + KL * x)) in T by (field; lra). exact T. }
    pose proof (EQ _ _ M1 X1) as E1. pose proof (EQ _ _ M2 X2) as E2. assert (Z : (qm * KL * K' - K' * q' * KL) * (x1 - x2) = 0) by lra. apply Rmult_integral in Z as [Z|Z]; [|lra].
    assert (S0 : qm * KL = K' * q') by nra. assert (K' = KL). { assert (qm * KL * (K' - KL) = 0) by (rewrite S0 in *; nra). apply Rmult_integral in H0 as [H0|H0]; nra. } subst K'. assert (q' = qm) by nra. subst q'. reflexivity.
Qed.
(** Between two zeros of a differentiable function its derivative vanishes. *)
Lemma rolle (f f' : R -> R) a b : a < b -> (forall x, a <= x <= b -> derivable_pt_lim f x (f' x)) -> f a = f b -> exists c, a < c < b /\ f' c = 0.
Proof. intros L D E. destruct (MVT_cor2 f f' a b L D) as (c & C & B). exists c. split; [exact B|]. rewrite E in C. assert (Z : f' c * (b - a) = 0) by lra. apply Rmult_integral in Z as [Z|Z]; lra. Qed.
Lemma exp_diff_derive a M b N u : derivable_pt_lim (fun u => a * exp (M * u) - b * exp (N * u)) u (a * M * exp (M * u) - b * N * exp (N * u)).
Proof.
  assert (E : forall k m, derivable_pt_lim (fun u => k * exp (m * u)) u (k * m * exp (m * u))).
  { intros k m. replace (k * m * exp (m * u)) with (k * (exp (m * u) * m)) by ring. apply (derivable_pt_lim_scal (fun u => exp (m * u)) k u). apply (derivable_pt_lim_comp (fun u => m * u) exp u m (exp (m * u))); [|apply derivable_pt_lim_exp].
    assert (DL : derivable_pt_lim (mult_real_fct m id) u (m * 1)) by (apply derivable_pt_lim_scal, derivable_pt_lim_id). rewrite Rmult_1_r in DL. exact DL. }
  apply (derivable_pt_lim_minus (fun u => a * exp (M * u)) (fun u => b * exp (N * u))); apply E.
Qed.
Lemma log_eq p q x y : 0 < p -> 0 < q -> p * exp x = q * exp y -> ln p + x = ln q + y.
Proof. intros P Q E. apply (f_equal ln) in E. rewrite !ln_mult, !ln_exp in E by (assumption || apply exp_pos). exact E. Qed.
Lemma two_exponentials a M b N u1 u2 u3 k : 0 < a -> 0 < b -> 0 < M -> u1 < u2 < u3 -> (forall u, u = u1 \/ u = u2 \/ u = u3 -> a * exp (M * u) - b * exp (N * u) = k) -> M = N /\ a = b.
Proof.
  intros Pa Pb PM U E. set (g := fun u => a * exp (M * u) - b * exp (N * u)).
  destruct (rolle g (fun u => a * M * exp (M * u) - b * N * exp (N * u)) u1 u2) as (c1 & C1 & D1); [lra|intros; apply exp_diff_derive|unfold g; rewrite !E by auto; reflexivity|].
  destruct (rolle g (fun u => a * M * exp (M * u) - b * N * exp (N * u)) u2 u3) as (c2 & C2 & D2); [lra|intros; apply exp_diff_derive|unfold g; rewrite !E by auto; reflexivity|]. cbv beta in D1, D2.
  assert (PX : forall x, 0 < exp x) by (intros; apply exp_pos). assert (PL : 0 < a * M) by nra. assert (PN : 0 < b * N). { pose proof (PX (M * c1)). pose proof (PX (N * c1)). nra. }
  assert (L1 : ln (a * M) + M * c1 = ln (b * N) + N * c1). { apply log_eq; [exact PL|exact PN|lra]. }
  assert (L2 : ln (a * M) + M * c2 = ln (b * N) + N * c2). { apply log_eq; [exact PL|exact PN|lra]. }
  assert (MN : M = N). { assert (Z : (M - N) * (c1 - c2) = 0) by lra. apply Rmult_integral in Z as [Z|Z]; lra. } split; [exact MN|]. subst N. assert (Z : (a - b) * (M * exp (M * c1)) = 0) by lra. pose proof (Rmult_lt_0_compat _ _ PM (PX (M * c1))). apply Rmult_integral in Z as [Z|Z]; lra.
Qed.
Theorem C105_redlich_peterson : forall cf tq name d r d' A B M x1 y1 x2 y2 x3 y3, least_squares cf -> lower name = "redlichpeterson" -> isotherm_fit cf tq name d = (Ok r, d') ->
  0 < A -> 0 <= B -> 0 < M -> (forall x y, measured d x y -> 0 < x /\ y = A * x / (B + Rpower x M)) -> measured d x1 y1 -> measured d x2 y2 -> measured d x3 y3 -> x1 < x2 < x3 ->
  parameters r = [("A", A); ("B", B); ("M", M)].
Proof.
  intros cf tq name d r d' A B M x1 y1 x2 y2 x3 y3 LS NM H PA PB PM Me M1 M2 M3 X.
  destruct (through cf tq name d r d' {| k_names := ["A"; "B"; "M"]; k_fun := redlich_peterson; k_title := [0; 0; 2]%nat |} [A; B; M] LS H) as (p & L & P & PR & TH).
  - unfold kind_of. rewrite NM. reflexivity.
  - reflexivity.
  - intros x [<-|[<-|[<-|[]]]]; lra.
  - intros x y I. destruct (Me x y I) as (X0 & ->). cbn. unfold redlich_peterson. cbn. rewrite rpow_Rpower by exact X0. reflexivity.
  - rewrite PR. cbn [k_names k_fun] in *. destruct (list3 p L) as (A' & B' & M' & ->). cbn [combine]. pose proof (P A' (or_introl eq_refl)) as A0. pose proof (P B' (or_intror (or_introl eq_refl))) as B0.
    assert (PX : forall x, 0 < exp x) by (intros; apply exp_pos).
    assert (EQ : forall x y, measured d x y -> 0 < x /\ 0 < A' /\ A' * (B + exp (M * ln x)) = A * (B' + exp (M' * ln x))).
    { intros x y I. destruct (Me x y I) as (X0 & E). pose proof (TH x y I) as T. unfold redlich_peterson in T. cbn in T. rewrite rpow_Rpower in T by exact X0. rewrite E in T. unfold Rpower in T. split; [exact X0|].
      pose proof (PX (M * ln x)) as E1. pose proof (PX (M' * ln x)) as E2. set (e1 := exp (M * ln x)) in *. set (e2 := exp (M' * ln x)) in *.
      apply (f_equal (fun z => z * (B + e1) * (B' + e2) / x)) in T. replace (A * x / (B + e1) * (B + e1) * (B' + e2) / x) with (A * (B' + e2)) in T by (field; lra). replace (A' * x / (B' + e2) * (B + e1) * (B' + e2) / x) with (A' * (B + e1)) in T by (field; lra).
      split; [nra|]. lra. }
    destruct (EQ _ _ M1) as (X1 & A1 & E1). destruct (EQ _ _ M2) as (X2 & _ & E2). destruct (EQ _ _ M3) as (X3 & _ & E3).
    destruct (two_exponentials A' M A M' (ln x1) (ln x2) (ln x3) (A * B' - A' * B)) as (Q1 & Q2); try assumption.
    + split; apply ln_increasing; lra.
    + intros u [->|[->| ->]]; lra.
    + subst M' A'. assert (B = B') by nra. subst B'. reflexivity.
Qed.
(** A solver that knows one answer, and four measurements on that curve. *)
Definition knows (p : list R) (f : list R -> R -> R) (n : nat) (pts : list (R * R)) : res (list R * list R) :=
  if (Nat.eqb (length p) n && rleb (sse f p pts) 0)%bool then Ok (p, map (fun _ => 1) p) else Err ValueError.
Lemma knows_ls p : (forall x, In x p -> 0 <= x) -> least_squares (knows p).
Proof.
  intros P f n pts q v H. unfold knows in H. destruct (Nat.eqb_spec (length p) n) as [L|L]; [|discriminate]. cbn [andb] in H. destruct (rleb (sse f p pts) 0) eqn:E; [|discriminate]. apply rleb_true in E.
  assert (q = p) by congruence. subst q. split; [exact L|]. split; [exact P|]. intros p' _ _. pose proof (sse_nonneg f p' pts). lra.
Qed.
Definition demo_data (f : R -> R) : idata := {| d_C0 := [Some 9; Some 9; None; Some 9]; d_Ce := [Some 1; Some 2; Some 3; Some 4]; d_mass := [Some 1; Some 1; Some 1; Some 1]; d_q := Some [Some (f 1); Some (f 2); None; Some (f 4)] |}.
Lemma demo_points f : points (with_q (demo_data f)) = Ok [(1, f 1); (2, f 2); (4, f 4)].
Proof. reflexivity. Qed.
Lemma demo_measured f x y : measured (demo_data f) x y -> (x = 1 \/ x = 2 \/ x = 4) /\ y = f x.
Proof. intros H. apply (points_spec _ _ (demo_points f)) in H. destruct H as [E|[E|[E|[]]]]; (assert (x = 1 /\ y = f 1 \/ x = 2 /\ y = f 2 \/ x = 4 /\ y = f 4) as [(-> & ->)|[(-> & ->)|(-> & ->)]] by (inversion E; auto)); auto. Qed.
Lemma demo_fit p k name f tq : kind_of name = Some k -> length p = length (k_names k) -> (forall x, x = 1 \/ x = 2 \/ x = 4 -> f x = k_fun k p x) -> exists r, isotherm_fit (knows p) tq name (demo_data f) = (Ok r, demo_data f).
Proof.
  intros K L E. unfold isotherm_fit. rewrite demo_points, K. cbn [bind]. unfold knows. rewrite L, Nat.eqb_refl. rewrite (proj2 (rleb_true _ 0)).
  - cbn [andb bind]. eexists. reflexivity.
  - apply sse_zero. intros x y [I|[I|[I|[]]]]; inversion I; subst; apply E; auto.
Qed.
Example freundlich_met : exists r, isotherm_fit (knows [2; 1 / 2]) (fun _ _ => 2) "Freundlich" (demo_data (fun x => 2 * Rpower x (1 / 2))) = (Ok r, demo_data (fun x => 2 * Rpower x (1 / 2))) /\ parameters r = [("K", 2); ("1/n", 1 / 2)].
Proof.
  destruct (demo_fit [2; 1 / 2] _ "Freundlich" (fun x => 2 * Rpower x (1 / 2)) (fun _ _ => 2) eq_refl eq_refl) as (r & Hr).
  { intros x X. cbn. unfold freundlich. cbn. rewrite rpow_Rpower by (destruct X as [->|[->| ->]]; lra). reflexivity. }
  exists r. split; [exact Hr|]. eapply (C105_freundlich (knows [2; 1 / 2]) (fun _ _ => 2) "Freundlich") with (x1 := 1) (x2 := 2); try exact Hr; try reflexivity; try lra.
  - apply knows_ls. intros x [<-|[<-|[]]]; lra.
  - intros x y H. apply demo_measured in H as (X & ->). split; [destruct X as [->|[->| ->]]; lra|reflexivity].
  - exists 0%nat. split; reflexivity.
  - exists 1%nat. split; reflexivity.
Qed.
Example langmuir_met : exists r, isotherm_fit (knows [3; 5]) (fun _ _ => 2) "LANGMUIR" (demo_data (fun x => 5 * 3 * x / (1 + 3 * x))) = (Ok r, demo_data (fun x => 5 * 3 * x / (1 + 3 * x))) /\ parameters r = [("KL", 3); ("qm", 5)].
Proof.
  destruct (demo_fit [3; 5] _ "LANGMUIR" (fun x => 5 * 3 * x / (1 + 3 * x)) (fun _ _ => 2) eq_refl eq_refl) as (r & Hr).
  { intros x X. cbn. unfold langmuir. cbn. unfold Rdiv. ring. }
  exists r. split; [exact Hr|]. eapply (C105_langmuir (knows [3; 5]) (fun _ _ => 2) "LANGMUIR") with (x1 := 1) (x2 := 2); try exact Hr; try reflexivity; try lra.
  - apply knows_ls. intros x [<-|[<-|[]]]; lra.
  - intros x y H. apply demo_measured in H as (X & ->). split; [destruct X as [->|[->| ->]]; lra|reflexivity].
  - exists 0%nat. split; reflexivity.
  - exists 1%nat. split; reflexivity.
Qed.
Example redlich_peterson_met : exists r, isotherm_fit (knows [3; 5; 1 / 2]) (fun _ _ => 2) "RedlichPeterson" (demo_data (fun x => 3 * x / (5 + Rpower x (1 / 2)))) = (Ok r, demo_data (fun x => 3 * x / (5 + Rpower x (1 / 2)))) /\ parameters r = [("A", 3); ("B", 5); ("M", 1 / 2)].
Proof.
  destruct (demo_fit [3; 5; 1 / 2] _ "RedlichPeterson" (fun x => 3 * x / (5 + Rpower x (1 / 2))) (fun _ _ => 2) eq_refl eq_refl) as (r & Hr).
  { intros x X. cbn. unfold redlich_peterson. cbn. rewrite rpow_Rpower by (destruct X as [->|[->| ->]]; lra). reflexivity. }
  exists r. split; [exact Hr|]. eapply (C105_redlich_peterson (knows [3; 5; 1 / 2]) (fun _ _ => 2) "RedlichPeterson") with (x1 := 1) (x2 := 2) (x3 := 4); try exact Hr; try reflexivity; try lra.
  - apply knows_ls. intros x [<-|[<-|[<-|[]]]]; lra.
  - intros x y H. apply demo_measured in H as (X & ->). split; [destruct X as [->|[->| ->]]; lra|reflexivity].
  - exists 0%nat. split; reflexivity.
  - exists 1%nat. split; reflexivity.
  - exists 3%nat. split; reflexivity.
Qed.

(** ** C106: errors of the parameters *)
(** In the returned frame each parameter has its own standard error: the root of its variance. *)
Lemma nth_error_combine {A B} : forall (l : list A) (m : list B) i a b, nth_error (combine l m) i = Some (a, b) <-> nth_error l i = Some a /\ nth_error m i = Some b.
Proof.
  induction l as [|x l IH]; intros m i a b; cbn; [split; [destruct i; discriminate|intros (H & _); destruct i; discriminate]|]. destruct m as [|y m]; [split; [destruct i; discriminate|intros (_ & H); destruct i; discriminate]|].
  destruct i as [|i]; cbn; [split; [intros E; split; congruence|intros (E1 & E2); congruence]|apply IH].
Qed.
Theorem C106_errors_partial : forall cf tq name d r d', isotherm_fit cf tq name d = (Ok r, d') ->
  exists names f pts p v, In (lower name, names) [("freundlich", ["K"; "1/n"]); ("langmuir", ["KL"; "qm"]); ("redlichpeterson", ["A"; "B"; "M"])] /\
    (forall x y, In (x, y) pts <-> measured d x y) /\ cf f (length names) pts = Ok (p, v) /\ length (f_table r) = length names /\ length (f_title r) = length names /\
    forall i n, nth_error names i = Some n -> nth_error (f_table r) i = Some (n, (nth i p 0, sqrt (nth i v 0))) /\ exists e, nth_error (f_title r) i = Some (nth i p 0, e).
Proof.
  intros cf tq name d r d' H. destruct (fit_inv _ _ _ _ _ _ H) as (pts & k & p & v & PT & _ & K & C & TB & TI & _).
  exists (k_names k), (k_fun k), pts, p, v. split.
  { unfold kind_of in K. destruct (String.eqb_spec (lower name) "freundlich") as [->|_]; [assert (E : k_names k = ["K"; "1/n"]) by (inversion K; reflexivity); rewrite E; cbn; auto|].
    destruct (String.eqb_spec (lower name) "langmuir") as [->|_]; [assert (E : k_names k = ["KL"; "qm"]) by (inversion K; reflexivity); rewrite E; cbn; auto|].
    destruct (String.eqb_spec (lower name) "redlichpeterson") as [->|_]; [assert (E : k_names k = ["A"; "B"; "M"]) by (inversion K; reflexivity); rewrite E; cbn; auto|discriminate]. }
  split; [apply (points_spec d pts PT)|]. split; [exact C|]. split; [rewrite TB, combine_length, map_length, seq_length; apply Nat.min_id|]. split; [rewrite TI, map_length, seq_length; reflexivity|].
  intros i n I. assert (L : (i < length (k_names k))%nat) by (apply nth_error_Some; rewrite I; discriminate). assert (SQ : nth_error (seq 0 (length (k_names k))) i = Some i). { rewrite (nth_error_nth' _ 0%nat) by (rewrite seq_length; exact L). rewrite seq_nth by exact L. reflexivity. }
  split; [|rewrite TI; eexists; rewrite nth_error_map, SQ; reflexivity]. rewrite TB. apply nth_error_combine. split; [exact I|]. rewrite nth_error_map, SQ. reflexivity.
Qed.
(** The title of the plot shows the error of the first parameter beside the second. *)
Theorem C106_title_refuted : forall cf tq name d r d', isotherm_fit cf tq name d = (Ok r, d') ->
  exists p1 e1 p2 e2, nth_error (f_table r) 0 = Some (fst (hd ("", (0, 0)) (f_table r)), (p1, e1)) /\ (exists n2, nth_error (f_table r) 1 = Some (n2, (p2, e2))) /\
    nth_error (f_title r) 0 = Some (p1, e1) /\ nth_error (f_title r) 1 = Some (p2, e1).
Proof.
  intros cf tq name d r d' H. destruct (fit_inv _ _ _ _ _ _ H) as (pts & k & p & v & _ & _ & K & _ & TB & TI & _). rewrite TB, TI. unfold kind_of in K.
  destruct (String.eqb (lower name) "freundlich"); [|destruct (String.eqb (lower name) "langmuir"); [|destruct (String.eqb (lower name) "redlichpeterson"); [|discriminate]]];
    match type of K with Some ?A = _ => assert (E : k = A) by congruence end; subst k; cbn; do 4 eexists; (split; [reflexivity|]); (split; [eexists; reflexivity|]); split; reflexivity.
Qed.
Example title_wrong : exists cf d r d', isotherm_fit cf (fun _ _ => 2) "freundlich" d = (Ok r, d') /\ nth_error (f_table r) 1 = Some ("1/n", (1 / 2, 0)) /\ nth_error (f_title r) 1 = Some (1 / 2, 1).
Proof.
  exists (fun _ _ _ => Ok ([2; 1 / 2], [1; 0])), (demo_data (fun _ => 1)). do 2 eexists. split; [reflexivity|]. cbn. rewrite sqrt_0, sqrt_1. split; reflexivity.
Qed.
(** ** C107: the loadings used are those of the frame *)
Definition same_inputs (d d' : idata) : Prop := d_C0 d' = d_C0 d /\ d_Ce d' = d_Ce d /\ d_mass d' = d_mass d.
(** Without a column q in the frame; the call leaves the other columns as they are. *)
Theorem C107_loadings_partial : forall cf tq name d o d', isotherm_fit cf tq name d = (o, d') -> same_inputs d d' /\
  (d_q d = None -> forall r, o = Ok r -> exists f n pts a, cf f n pts = Ok a /\
     forall x y, In (x, y) pts <-> exists i c0 m, nth_error (d_C0 d) i = Some (Some c0) /\ nth_error (d_Ce d) i = Some (Some x) /\ nth_error (d_mass d) i = Some (Some m) /\ y = (c0 - x) / m).
Proof.
  intros cf tq name d o d' H. split.
  - assert (d' = with_q d) by (unfold isotherm_fit in H; congruence). subst d'. unfold with_q. destruct (d_q d); repeat split.
  - intros Q r ->. destruct (fit_inv _ _ _ _ _ _ H) as (pts & k & p & v & PT & _ & _ & C & _). exists (k_fun k), (length (k_names k)), pts, (p, v). split; [exact C|]. intros x y. rewrite (points_spec d pts PT). unfold measured, row_of. rewrite Q. split.
    + intros (i & I1 & c0 & m & I2 & I3 & E). exists i, c0, m. auto.
    + intros (i & c0 & m & I2 & I1 & I3 & E). exists i. split; [exact I1|]. exists c0, m. auto.
Qed.
(** After a call the frame keeps its first loadings: a second call with corrected
    concentrations pairs them with the old loadings, whatever the solver. *)
Theorem C107_second_call_refuted : forall cf tq name d o d' ce o2 d2 r2, d_q d = None -> isotherm_fit cf tq name d = (o, d') ->
  isotherm_fit cf tq name {| d_C0 := d_C0 d'; d_Ce := ce; d_mass := d_mass d'; d_q := d_q d' |} = (o2, d2) -> o2 = Ok r2 ->
  exists f n pts a, cf f n pts = Ok a /\
    forall x y, In (x, y) pts <-> exists i c0 x0 m, nth_error ce i = Some (Some x) /\ nth_error (d_C0 d) i = Some (Some c0) /\ nth_error (d_Ce d) i = Some (Some x0) /\ nth_error (d_mass d) i = Some (Some m) /\ y = (c0 - x0) / m.
Proof.
  intros cf tq name d o d' ce o2 d2 r2 Q H H2 ->. assert (E : d' = with_q d) by (unfold isotherm_fit in H; congruence). subst d'. destruct (fit_inv _ _ _ _ _ _ H2) as (pts & k & p & v & PT & _ & _ & C & _).
  exists (k_fun k), (length (k_names k)), pts, (p, v). split; [exact C|]. intros x y. rewrite (points_spec _ pts PT). unfold measured, row_of. unfold with_q. rewrite Q. cbn [d_q d_Ce d_C0 d_mass]. split.
  - intros (i & I1 & I2). rewrite loading_nth in I2. destruct (nth_error (d_C0 d) i) as [[c0|]|] eqn:N1, (nth_error (d_Ce d) i) as [[x0|]|] eqn:N2, (nth_error (d_mass d) i) as [[m|]|] eqn:N3; cbn in I2; try discriminate.
    exists i, c0, x0, m. rewrite N1, N2, N3. split; [exact I1|]. do 3 (split; [reflexivity|]). congruence.
  - intros (i & c0 & x0 & m & I1 & N1 & N2 & N3 & ->). exists i. split; [exact I1|]. rewrite loading_nth, N1, N2, N3. reflexivity.
Qed.
Example second_met : exists cf o d' r2 d2, isotherm_fit cf (fun _ _ => 2) "freundlich" {| d_C0 := [Some 9; Some 8]; d_Ce := [Some 1; Some 2]; d_mass := [Some 1; Some 2]; d_q := None |} = (o, d') /\
  isotherm_fit cf (fun _ _ => 2) "freundlich" {| d_C0 := d_C0 d'; d_Ce := [Some 3; Some 4]; d_mass := d_mass d'; d_q := d_q d' |} = (Ok r2, d2).
Proof. exists (fun _ _ _ => Ok ([2; 1 / 2], [1; 0])). do 4 eexists. split; reflexivity. Qed.
(** ** C108: the bands *)
Lemma lsum_squares (g : R * R -> R) l : 0 <= lsum (map (fun q => g q ^ 2) l).
Proof. induction l as [|q l IH]; cbn [map lsum fold_right]; [unfold lsum; cbn; lra|]. unfold lsum in *. cbn [map fold_right]. pose proof (pow2_ge_0 (g q)). lra. Qed.
Lemma lsum_zero m : forall l : list (R * R), lsum (map (fun q => (fst q - m) ^ 2) l) = 0 -> forall q, In q l -> fst q = m.
Proof.
  induction l as [|a l IH]; intros Z q I; [contradiction|]. unfold lsum in Z. cbn [map fold_right] in Z. fold (lsum (map (fun q => (fst q - m) ^ 2) l)) in Z. pose proof (lsum_squares (fun q => fst q - m) l) as P. cbv beta in P. pose proof (pow2_ge_0 (fst a - m)) as A.
  destruct I as [->|I]; [|apply IH; [lra|exact I]]. assert (S0 : Rsqr (fst q - m) = 0) by (rewrite Rsqr_pow2; lra). apply Rsqr_0_uniq in S0. lra.
Qed.
(** The rows of the frame used, in order, each once. *)
Definition rows_used (d : idata) (ks : list nat) (pts : list (R * R)) : Prop :=
  StronglySorted lt ks /\ Forall2 (fun i q => row_of d i (fst q) (snd q)) ks pts /\ forall i x y, row_of d i x y -> In i ks.
(** The isotherm with the parameters shown. *)
Definition curve_of (name : string) (ps : list R) (f : R -> R) : Prop :=
  (name = "freundlich" /\ exists K n, ps = [K; n] /\ forall x, 0 < x -> f x = K * Rpower x n) \/
  (name = "langmuir" /\ exists KL qm, ps = [KL; qm] /\ forall x, f x = qm * KL * x / (1 + KL * x)) \/
  (name = "redlichpeterson" /\ exists A B M, ps = [A; B; M] /\ forall x, 0 < x -> f x = A * x / (B + Rpower x M)).
Definition total (l : list R) : R := fold_right Rplus 0 l.
Lemma rows_kept : forall (ce q : list num) l, mapM (fun p => match p with (Some x, Some y) => Ok (x, y) | _ => Err ValueError end) (filter (fun p => match snd p with Some _ => true | None => false end) (combine ce q)) = Ok l ->
  exists ks, StronglySorted lt ks /\ Forall2 (fun i p => nth_error ce i = Some (Some (fst p)) /\ nth_error q i = Some (Some (snd p))) ks l /\
    forall i x y, nth_error ce i = Some (Some x) -> nth_error q i = Some (Some y) -> In i ks.
Proof.
  assert (UP : forall ks, StronglySorted lt ks -> StronglySorted lt (map S ks)).
  { induction 1 as [|k ks SS IH F]; cbn [map]; constructor; [exact IH|]. apply Forall_forall. intros z I. apply in_map_iff in I as (w & <- & I). rewrite Forall_forall in F. specialize (F w I). lia. }
  assert (UF : forall a b (ce q : list num) ks l, Forall2 (fun i p => nth_error ce i = Some (Some (fst p)) /\ nth_error q i = Some (Some (snd p))) ks l ->
     Forall2 (fun i (p : R * R) => nth_error (a :: ce) i = Some (Some (fst p)) /\ nth_error (b :: q) i = Some (Some (snd p))) (map S ks) l) by (induction 1; cbn [map]; constructor; auto).
  induction ce as [|a ce IH]; intros q l H; [cbn in H; assert (l = []) by congruence; subst l; exists []; split; [constructor|]; split; [constructor|]; intros i x y E; destruct i; discriminate|].
  destruct q as [|b q]; [cbn in H; assert (l = []) by congruence; subst l; exists []; split; [constructor|]; split; [constructor|]; intros i x y _ E; destruct i; discriminate|].
  cbn [combine filter snd] in H. destruct b as [y|].
  - cbn [mapM] in H. destruct a as [x|]; [|discriminate]. cbn [bind] in H. match type of H with bind ?e _ = _ => destruct e as [l'|] eqn:E end; [|discriminate]. cbn [bind] in H. assert (l = (x, y) :: l') by congruence. subst l.
    destruct (IH q l' E) as (ks & K1 & K2 & K3). exists (0%nat :: map S ks). split; [constructor; [apply UP, K1|apply Forall_forall; intros z I; apply in_map_iff in I as (w & <- & _); lia]|]. split; [constructor; [split; reflexivity|apply UF, K2]|].
    intros [|i] x' y' E1 E2; [left; reflexivity|right; apply in_map; exact (K3 i x' y' E1 E2)].
  - destruct (IH q l H) as (ks & K1 & K2 & K3). exists (map S ks). split; [apply UP, K1|]. split; [apply UF, K2|]. intros [|i] x' y' E1 E2; [discriminate E2|apply in_map; exact (K3 i x' y' E1 E2)].
Qed.
Lemma rows_points d pts : points (with_q d) = Ok pts -> exists ks, rows_used d ks pts.
Proof.
  intros H. destruct (rows_kept _ _ _ H) as (ks & K1 & K2 & K3). exists ks.
  assert (RO : forall i x y, row_of d i x y <-> nth_error (d_Ce (with_q d)) i = Some (Some x) /\ nth_error (match d_q (with_q d) with Some q => q | None => [] end) i = Some (Some y)).
  { intros i x y. unfold row_of, with_q. destruct (d_q d) as [q|] eqn:Q; [rewrite Q; reflexivity|]. cbn [d_Ce d_q]. split.
    - intros (I1 & c0 & m & I2 & I3 & ->). split; [exact I1|]. rewrite loading_nth, I1, I2, I3. reflexivity.
    - intros (I1 & I2). split; [exact I1|]. rewrite loading_nth, I1 in I2. destruct (nth_error (d_C0 d) i) as [[c0|]|], (nth_error (d_mass d) i) as [[m|]|]; cbn in I2; try discriminate.
      exists c0, m. split; [reflexivity|]. split; [reflexivity|]. congruence. }
  split; [exact K1|]. split; [|intros i x y R0; apply RO in R0 as (R1 & R2); exact (K3 i x y R1 R2)]. clear - K2 RO. induction K2; constructor; [apply RO; assumption|assumption].
Qed.
Lemma curve_shown name k (p : list R) (e : nat -> R) : kind_of name = Some k -> curve_of (lower name) (map snd (map (fun q => (fst q, fst (snd q))) (combine (k_names k) (map (fun i => (nth i p 0, e i)) (seq 0 (length (k_names k))))))) (k_fun k p).
Proof.
  intros K. unfold kind_of in K. destruct (String.eqb_spec (lower name) "freundlich") as [->|_]; [left|destruct (String.eqb_spec (lower name) "langmuir") as [->|_]; [right; left|destruct (String.eqb_spec (lower name) "redlichpeterson") as [->|_]; [right; right|discriminate]]];
    (split; [reflexivity|]); match type of K with Some ?A = _ => assert (EK : k = A) by congruence end; subst k; cbn [k_names k_fun length seq map combine fst snd].
  - do 2 eexists. split; [reflexivity|]. intros x X. unfold freundlich. rewrite rpow_Rpower by exact X. reflexivity.
  - do 2 eexists. split; [reflexivity|]. intros x. unfold langmuir. unfold Rdiv. ring.
  - do 3 eexists. split; [reflexivity|]. intros x X. unfold redlich_peterson. rewrite rpow_Rpower by exact X. reflexivity.
Qed.
(** The curve is the isotherm with the parameters returned, at 30 points from the smallest to
    the largest concentration.  The bands are there exactly with more measurements than
    parameters, not all at one concentration, and have the half widths of a linear regression:
    Student's t times the scatter of the residuals times the root of 1/n + (x - mean)^2 / spread,
    with one more under the root for the prediction. *)
Theorem C108_bands : forall cf tq name d r d', isotherm_fit cf tq name d = (Ok r, d') ->
  exists ks pts f, rows_used d ks pts /\ curve_of (lower name) (map snd (parameters r)) f /\ length (f_curve r) = 30%nat /\
    (exists lo hi ylo yhi, measured d lo ylo /\ measured d hi yhi /\ (forall x y, measured d x y -> lo <= x <= hi) /\ (lo < hi -> spans (map fst (f_curve r)) 30 lo hi)) /\
    let n := length pts in let m := length (parameters r) in
    let mid := total (map fst pts) / INR n in
    let spread := total (map (fun q => (fst q - mid) ^ 2) pts) in
    let scatter := sqrt (total (map (fun q => (snd q - f (fst q)) ^ 2) pts) / (INR n - INR m)) in
    let t := tq (975 / 1000) (Z.of_nat n - Z.of_nat m)%Z in
    forall x y b, In (x, (y, b)) (f_curve r) -> y = f x /\
      (b <> None <-> (m < n)%nat /\ exists x1 y1 x2 y2, measured d x1 y1 /\ measured d x2 y2 /\ x1 <> x2) /\
      forall c p, b = Some (c, p) -> c = t * scatter * sqrt (1 / INR n + (x - mid) ^ 2 / spread) /\ p = t * scatter * sqrt (1 + 1 / INR n + (x - mid) ^ 2 / spread).
Proof.
  intros cf tq name d r d' H. destruct (fit_inv _ _ _ _ _ _ H) as (pts & k & p & v & PT & NE & K & C & TB & _ & CU). pose proof (points_spec d pts PT) as PS.
  destruct (rows_points d pts PT) as (ks & KS). exists ks, pts, (k_fun k p). split; [exact KS|]. assert (LM : length (parameters r) = length (k_names k)) by (unfold parameters; rewrite TB, map_length, combine_length, map_length, seq_length; apply Nat.min_id).
  split; [unfold parameters; rewrite TB; exact (curve_shown name k p (fun i => sqrt (nth i v 0)) K)|].
  split; [rewrite CU, map_length; unfold grid; apply linspace_length|]. split.
  { assert (NM : map fst pts <> []) by (destruct pts; [congruence|discriminate]). destruct (lmin_spec _ NM) as (A1 & A2). destruct (lmax_spec _ NM) as (B1 & B2). apply in_map_iff in A1 as ((x1 & y1) & E1 & I1). apply in_map_iff in B1 as ((x2 & y2) & E2 & I2). cbn in E1, E2.
    exists (lmin (map fst pts)), (lmax (map fst pts)), y1, y2. split; [apply PS; congruence|]. split; [apply PS; congruence|]. split.
    - intros x y M. apply PS in M. apply (in_map fst) in M. split; [apply A2; exact M|apply B2; exact M].
    - intros L. rewrite CU, map_map. cbn [fst]. rewrite map_id. unfold grid. apply (linspace_spans _ _ 28 L). }
  rewrite LM. cbv zeta. intros x y b I. rewrite CU in I. apply in_map_iff in I as (x0 & E & _). assert (B : bands tq (k_fun k p) (length (k_names k)) pts x0 = b) by congruence. assert (x0 = x) by congruence. assert (Y : y = k_fun k p x) by congruence. subst x0. clear E.
  split; [exact Y|]. unfold bands in B. cbv zeta in B.
  assert (EM : mean (map fst pts) = total (map fst pts) / INR (length pts)) by (unfold mean, total, lsum; rewrite map_length; reflexivity). rewrite EM in B. set (mid := total (map fst pts) / INR (length pts)) in *.
  change (lsum (map (fun p0 : R * R => (fst p0 - mid) ^ 2) pts)) with (total (map (fun q => (fst q - mid) ^ 2) pts)) in B. set (D := total (map (fun q => (fst q - mid) ^ 2) pts)) in *.
  assert (DZ : D <> 0 <-> exists x1 y1 x2 y2, measured d x1 y1 /\ measured d x2 y2 /\ x1 <> x2).
  { split.
    - intros N. assert (EP : exists x1 y1 rest, pts = (x1, y1) :: rest) by (clear - NE; destruct pts as [|(x1, y1) rest]; [congruence|do 3 eexists; reflexivity]). destruct EP as (x1 & y1 & rest & EP). destruct (Req_EM_T x1 mid) as [E1|E1].
      + assert (G : exists q, In q pts /\ fst q <> mid).
        { assert (G : forall l : list (R * R), total (map (fun q => (fst q - mid) ^ 2) l) <> 0 -> exists q, In q l /\ fst q <> mid).
          { induction l as [|q l IH]; cbn [map]; unfold total; cbn [fold_right]; [lra|]. intros Z. destruct (Req_EM_T (fst q) mid) as [E|E]; [|exists q; split; [left; reflexivity|exact E]].
            destruct IH as (w & W1 & W2); [unfold total; rewrite E in Z; intros Z'; apply Z; rewrite Z'; ring|]. exists w. split; [right; exact W1|exact W2]. }
          exact (G pts N). }
        destruct G as ((x2, y2) & I2 & N2). exists x1, y1, x2, y2. split; [apply PS; rewrite EP; left; reflexivity|]. split; [apply PS; exact I2|]. cbn in N2. congruence.
      + assert (G : exists q, In q pts /\ fst q <> x1).
        { assert (G : forall l : list (R * R), (forall q, In q l -> fst q = x1) -> total (map fst l) = INR (length l) * x1).
          { induction l as [|q l IH]; intros A; cbn [map]; unfold total; cbn [fold_right]; [cbn; ring|]. fold (total (map fst l)). rewrite IH by (intros w W; apply A; right; exact W). rewrite (A q (or_introl eq_refl)). cbn [List.length]. rewrite S_INR. ring. }
          assert (G2 : ~ forall q, In q pts -> fst q = x1).
          { intros A. apply E1. unfold mid. rewrite (G pts A). field. rewrite EP. cbn [List.length]. rewrite S_INR. pose proof (pos_INR (length rest)). lra. }
          clear - G2. induction pts as [|q l IH]; [exfalso; apply G2; intros q []|]. destruct (Req_EM_T (fst q) x1) as [E|E]; [|exists q; split; [left; reflexivity|exact E]].
          destruct IH as (w & W1 & W2); [intros A; apply G2; intros w [<-|W]; [exact E|exact (A w W)]|]. exists w. split; [right; exact W1|exact W2]. }
        destruct G as ((x2, y2) & I2 & N2). exists x1, y1, x2, y2. split; [apply PS; rewrite EP; left; reflexivity|]. split; [apply PS; exact I2|]. cbn in N2. congruence.
    - intros (x1 & y1 & x2 & y2 & M1 & M2 & N) Z. apply PS in M1, M2. pose proof (lsum_zero mid pts Z _ M1) as Q1. pose proof (lsum_zero mid pts Z _ M2) as Q2. cbn in Q1, Q2. congruence. }
  split.
  - rewrite <- DZ. rewrite <- B. destruct (Z.leb_spec (Z.of_nat (length pts) - Z.of_nat (length (k_names k))) 0) as [G|G]; cbn [orb]; [split; [intros N; contradiction (N eq_refl)|intros (L & _); lia]|].
    destruct (reqb D 0) eqn:Q; [apply reqb_true in Q; split; [intros N; contradiction (N eq_refl)|intros (_ & N); contradiction]|apply reqb_false in Q]. split; [intros _; split; [lia|exact Q]|intros _; discriminate].
  - intros c q EB. rewrite EB in B. destruct (Z.leb _ 0 || reqb D 0)%bool; [discriminate|]. rewrite minus_IZR, <- !INR_IZR_INZ in B. change (dec 975 3) with (975 / 10 ^ 3) in B. replace (975 / 10 ^ 3) with (975 / 1000) in B by field. unfold lsum in B. unfold total. injection B as B1 B2. split; symmetry; assumption.
Qed.
(** So the prediction band contains the confidence band, the squares of their half widths
    differ by a constant, and both widen away from the mean. *)
Theorem C108_shape : forall cf tq name d r d', (forall a z, (0 < z)%Z -> 0 <= tq a z) -> isotherm_fit cf tq name d = (Ok r, d') ->
  exists ks pts ts, rows_used d ks pts /\ let mid := total (map fst pts) / INR (length pts) in
    forall x y c p, In (x, (y, Some (c, p))) (f_curve r) -> 0 <= c <= p /\ p ^ 2 = c ^ 2 + ts ^ 2 /\
      forall x' y' c' p', In (x', (y', Some (c', p'))) (f_curve r) -> Rabs (x - mid) <= Rabs (x' - mid) -> c <= c' /\ p <= p'.
Proof.
  intros cf tq name d r d' TQ H. destruct (C108_bands _ _ _ _ _ _ H) as (ks & pts & f & KS & _ & _ & _ & B). cbv zeta in B.
  set (n := length pts) in *. set (m := length (parameters r)) in *. set (mid := total (map fst pts) / INR n) in *. set (D := total (map (fun q => (fst q - mid) ^ 2) pts)) in *.
  set (sc := sqrt (total (map (fun q => (snd q - f (fst q)) ^ 2) pts) / (INR n - INR m))) in *. set (t := tq (975 / 1000) (Z.of_nat n - Z.of_nat m)%Z) in *.
  exists ks, pts, (t * sc). split; [exact KS|]. cbv zeta. fold n. fold mid.
  assert (D0 : 0 <= D) by apply lsum_squares.
  assert (ID : 0 <= / D). { destruct D0 as [D0|D0]; [left; apply Rinv_0_lt_compat; exact D0|]. rewrite <- D0. rewrite Rinv_0. lra. }
  assert (DV : forall x, 0 <= (x - mid) ^ 2 / D) by (intros x; apply Rmult_le_pos; [apply pow2_ge_0|exact ID]).
  assert (ROW : forall x y c q, In (x, (y, Some (c, q))) (f_curve r) -> 0 <= t * sc /\ 0 <= 1 / INR n /\ c = t * sc * sqrt (1 / INR n + (x - mid) ^ 2 / D) /\ q = t * sc * sqrt (1 + 1 / INR n + (x - mid) ^ 2 / D)).
  { intros x y c q I. destruct (B x y (Some (c, q)) I) as (_ & (EX & _) & F). destruct (EX ltac:(discriminate)) as (L & _). split; [apply Rmult_le_pos; [apply TQ; lia|apply sqrt_pos]|].
    split; [apply Rmult_le_pos; [lra|left; apply Rinv_0_lt_compat, lt_0_INR; lia]|]. apply F. reflexivity. }
  intros x y c q I. destruct (ROW _ _ _ _ I) as (T0 & N1 & -> & ->). specialize (DV x) as DX. split; [split; [apply Rmult_le_pos; [exact T0|apply sqrt_pos]|apply Rmult_le_compat_l; [exact T0|apply sqrt_le_1; lra]]|]. split.
  { rewrite !Rpow_mult_distr. assert (S2 : forall z, 0 <= z -> sqrt z ^ 2 = z) by (intros z Z; rewrite <- Rsqr_pow2; apply Rsqr_sqrt; exact Z). rewrite !S2 by lra. ring. }
  intros x' y' c' p' I' A. destruct (ROW _ _ _ _ I') as (_ & _ & -> & ->). specialize (DV x') as DX'.
  assert (SQ : (x - mid) ^ 2 / D <= (x' - mid) ^ 2 / D). { apply Rmult_le_compat_r; [exact ID|]. rewrite <- !Rsqr_pow2. apply Rsqr_le_abs_1. exact A. }
  split; apply Rmult_le_compat_l; try exact T0; apply sqrt_le_1; lra.
Qed.
(** ** C109: the name of the isotherm *)
(** The three isotherms are known in any mixture of cases. *)
Theorem C109_known_partial : forall cf tq name d pts p v, In (lower name) ["freundlich"; "langmuir"; "redlichpeterson"] -> points (with_q d) = Ok pts -> pts <> [] -> (forall f n, cf f n pts = Ok (p, v)) ->
  exists r, isotherm_fit cf tq name d = (Ok r, with_q d).
Proof.
  intros cf tq name d pts p v I PT NE C. unfold isotherm_fit. rewrite PT. cbn [bind]. destruct pts as [|pt pts]; [congruence|]. unfold kind_of. destruct I as [<-|[<-|[<-|[]]]]; cbn [String.eqb Ascii.eqb Bool.eqb]; cbv iota; rewrite C; eexists; reflexivity.
Qed.
(** Any other name, after a printed warning, ends in an UnboundLocalError. *)
Theorem C109_unknown_refuted : forall cf tq name d pts, ~ In (lower name) ["freundlich"; "langmuir"; "redlichpeterson"] -> points (with_q d) = Ok pts -> pts <> [] ->
  isotherm_fit cf tq name d = (Err UnboundLocalError, with_q d).
Proof.
  intros cf tq name d pts I PT NE. unfold isotherm_fit. rewrite PT. cbn [bind]. destruct pts as [|pt pts]; [congruence|]. unfold kind_of.
  destruct (String.eqb_spec (lower name) "freundlich") as [E|_]; [exfalso; apply I; cbn; auto|]. destruct (String.eqb_spec (lower name) "langmuir") as [E|_]; [exfalso; apply I; cbn; auto|].
  destruct (String.eqb_spec (lower name) "redlichpeterson") as [E|_]; [exfalso; apply I; cbn; auto|]. reflexivity.
Qed.
Example names_met : points (with_q (demo_data (fun x => x))) = Ok [(1, 1); (2, 2); (4, 4)] /\ In (lower "FreundLich") ["freundlich"; "langmuir"; "redlichpeterson"] /\ ~ In (lower "Toth") ["freundlich"; "langmuir"; "redlichpeterson"].
Proof. split; [reflexivity|]. split; [left; reflexivity|]. intros [E|[E|[E|[]]]]; discriminate. Qed.
Print Assumptions C105_freundlich.
Print Assumptions C105_langmuir.
Print Assumptions C105_redlich_peterson.
Print Assumptions C106_errors_partial.
Print Assumptions C106_title_refuted.
Print Assumptions C107_loadings_partial.
Print Assumptions C107_second_call_refuted.
Print Assumptions C108_bands.
Print Assumptions C108_shape.
Print Assumptions C109_known_partial.
Print Assumptions C109_unknown_refuted.
