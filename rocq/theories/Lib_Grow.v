(** Rates that grow at most linearly, and solutions that last. *)
From Coq Require Import Reals List Arith Lra Lia.
From Verif Require Import Lib_Sum Lib_Traj Lib_Tame Lib_Exist.
Import ListNotations.
Open Scope R_scope.

Section Growth.
Context {X I : Type}.
Variables (idx : list I) (co : I -> X -> R) (P : R -> X -> Prop).
Definition norm (x : X) : R := lsum (map (fun i => Rabs (co i x)) idx).
Lemma norm_pos x : 0 <= norm x.
Proof.
  unfold norm. induction idx as [|i l IH]; simpl; [lra|]. assert (A := Rabs_pos (co i x)). lra.
Qed.
Lemma norm_coord i x : In i idx -> Rabs (co i x) <= norm x.
Proof.
  unfold norm. clear P. induction idx as [|j l IH]; intros H; [destruct H|]. simpl.
  assert (N : 0 <= lsum (map (fun i => Rabs (co i x)) l)).
  { clear. induction l as [|k l IH]; simpl; [lra|]. assert (A := Rabs_pos (co k x)). lra. }
  assert (A := Rabs_pos (co j x)). destruct H as [->|H]; [lra|]. specialize (IH H). lra.
Qed.

(** [F] grows at most linearly on [P]. *)
Definition grows (F : R -> X -> R) : Prop :=
  exists A B, 0 <= A /\ 0 <= B /\ forall t x, P t x -> Rabs (F t x) <= A + B * norm x.
Lemma grows_le F H : (forall t x, P t x -> Rabs (H t x) <= Rabs (F t x)) -> grows F -> grows H.
Proof. intros L (A & B & HA & HB & G). exists A, B. repeat split; try assumption. intros t x Px. eapply Rle_trans; [apply L, Px|apply G, Px]. Qed.
Lemma grows_ext F H : (forall t x, F t x = H t x) -> grows F -> grows H.
Proof. intros E. apply grows_le. intros t x _. rewrite E. lra. Qed.
Lemma grows_bounded F M : (forall t x, P t x -> Rabs (F t x) <= M) -> grows F.
Proof.
  intros H. exists (Rabs M), 0. split; [apply Rabs_pos|]. split; [lra|]. intros t x Px. specialize (H t x Px). assert (A := Rle_abs M). lra.
Qed.
Lemma grows_const k : grows (fun _ _ => k).
Proof. apply (grows_bounded _ (Rabs k)). intros. lra. Qed.
Lemma grows_coord i : In i idx -> grows (fun _ x => co i x).
Proof. intros Hi. exists 0, 1. repeat split; try lra. intros t x _. assert (N := norm_coord i x Hi). lra. Qed.
Lemma grows_plus F H : grows F -> grows H -> grows (fun t x => F t x + H t x).
Proof.
  intros (A & B & HA & HB & G) (A2 & B2 & HA2 & HB2 & G2). exists (A + A2), (B + B2). repeat split; try lra.
  intros t x Px. specialize (G t x Px). specialize (G2 t x Px). assert (T := Rabs_triang (F t x) (H t x)). lra.
Qed.
Lemma grows_scal k F : grows F -> grows (fun t x => k * F t x).
Proof.
  intros (A & B & HA & HB & G). assert (K := Rabs_pos k). exists (Rabs k * A), (Rabs k * B). repeat split; try (apply Rmult_le_pos; assumption).
  intros t x Px. specialize (G t x Px). rewrite Rabs_mult. apply Rmult_le_compat_l with (r := Rabs k) in G; [|exact K]. lra.
Qed.
Lemma grows_opp F : grows F -> grows (fun t x => - F t x).
Proof. apply grows_le. intros. rewrite Rabs_Ropp. lra. Qed.
Lemma grows_minus F H : grows F -> grows H -> grows (fun t x => F t x - H t x).
Proof. intros A B. apply (grows_plus F (fun t x => - H t x)); [exact A|apply grows_opp, B]. Qed.
Lemma grows_div k F : grows F -> grows (fun t x => F t x / k).
Proof. intros A. apply (grows_ext (fun t x => / k * F t x)); [intros; unfold Rdiv; ring|]. apply grows_scal, A. Qed.
Lemma grows_rsum n (F : nat -> R -> X -> R) : (forall j, (j < n)%nat -> grows (F j)) -> grows (fun t x => rsum n (fun j => F j t x)).
Proof.
  induction n as [|n IH]; intros H; simpl; [apply grows_const|].
  apply (grows_plus (fun t x => rsum n (fun j => F j t x)) (F n)); [apply IH; intros; apply H; lia|apply H; lia].
Qed.
End Growth.

Lemma evolves_lsum {I} a b (l : list I) (f f' : I -> R -> R) : (forall i, In i l -> evolves a b (f i) (f' i)) ->
  evolves a b (fun t => lsum (map (fun i => f i t) l)) (fun t => lsum (map (fun i => f' i t) l)).
Proof.
  induction l as [|i l IH]; intros H; simpl; [apply evolves_const|].
  apply evolves_plus; [apply H; left; reflexivity|apply IH; intros; apply H; right; assumption].
Qed.
Lemma gronwall a b E E' K : evolves a b E E' -> (forall t, a < t < b -> E' t <= K * E t) ->
  forall t, a <= t <= b -> E t <= E a * exp (K * (t - a)).
Proof.
  intros H B t Ht. assert (Y := evolves_nonincreasing a b _ _ (evolves_mult a b _ _ _ _ (evolves_exp a b (- K)) H)). cbv beta in Y.
  assert (Z : exp (- K * t) * E t <= exp (- K * a) * E a).
  { apply Y; [|exact Ht]. intros s Hs. specialize (B s Hs). assert (0 < exp (- K * s)) by apply exp_pos.
    assert (exp (- K * s) * (E' s - K * E s) <= 0) by nra. lra. }
  assert (P := exp_pos (K * t)). apply Rmult_le_compat_l with (r := exp (K * t)) in Z; [|lra].
  rewrite <- !Rmult_assoc, <- !exp_plus in Z. replace (K * t + - K * t) with 0 in Z by ring. rewrite exp_0 in Z.
  replace (K * t + - K * a) with (K * (t - a)) in Z by ring. lra.
Qed.

Section FullGrowth.
Context {X I : Type}.
Variables (idx : list I) (co : I -> X -> R) (mk : (I -> R) -> X).
Hypothesis eq_dec : forall i j : I, {i = j} + {i <> j}.
Hypothesis co_mk : forall f i, In i idx -> co i (mk f) = f i.
Variables (t0 b : R) (G : I -> R -> X -> R) (x0 : X) (safe : R -> X -> Prop).

Definition energy (x : X) : R := lsum (map (fun i => co i x * co i x) idx).
Lemma lsum_le {A} (l : list A) f g : (forall i, In i l -> f i <= g i) -> lsum (map f l) <= lsum (map g l).
Proof.
  induction l as [|i l IH]; intros H; simpl; [lra|]. assert (A1 := H i (or_introl eq_refl)). specialize (IH (fun j Hj => H j (or_intror Hj))). lra.
Qed.
Lemma lsum_const {A} (l : list A) k : lsum (map (fun _ => k) l) = INR (length l) * k.
Proof. induction l as [|i l IH]; cbn [map lsum fold_right length]; [simpl; ring|]. change (fold_right Rplus 0) with lsum. rewrite S_INR, IH. ring. Qed.
Lemma lsum_scal {A} (l : list A) k f : lsum (map (fun i => k * f i) l) = k * lsum (map f l).
Proof. induction l as [|i l IH]; simpl; [ring|]. rewrite IH. ring. Qed.
Lemma energy_coord i x : In i idx -> co i x * co i x <= energy x.
Proof.
  unfold energy. induction idx as [|j l IH]; intros H; [destruct H|]. simpl.
  assert (N : 0 <= lsum (map (fun i => co i x * co i x) l)).
  { clear. induction l as [|k l IH]; simpl; [lra|]. assert (A := Rle_0_sqr (co k x)). unfold Rsqr in A. lra. }
  assert (A := Rle_0_sqr (co j x)). unfold Rsqr in A. destruct H as [->|H]; [lra|].
  assert (C : lsum (map (fun i => co i x * co i x) l) >= co i x * co i x); [|lra]. apply Rle_ge, IH; [|exact H].
  intros f k Hk. apply co_mk. right. exact Hk.
Qed.

(** When the states that solutions reach are safe and the rates grow at most linearly on safe
    states, solutions stay within a bound. *)
Theorem growth_bound : t0 <= b ->
  (forall T y, t0 <= T <= b -> solves idx co t0 G x0 T y -> safe T (y T)) ->
  (forall i, In i idx -> grows idx co safe (G i)) ->
  exists M, forall T y, t0 <= T <= b -> solves idx co t0 G x0 T y -> forall i, In i idx -> Rabs (co i (y T)) <= M.
Proof.
  intros Hb Sf Gr.
  assert (U : exists A B, 0 <= A /\ 0 <= B /\ forall i, In i idx -> forall t x, safe t x -> Rabs (G i t x) <= A + B * norm idx co x).
  { assert (W : forall l, incl l idx -> exists A B, 0 <= A /\ 0 <= B /\ forall i, In i l -> forall t x, safe t x -> Rabs (G i t x) <= A + B * norm idx co x).
    { induction l as [|i l IH]; intros Hl.
      - exists 0, 0. repeat split; try lra. intros i Hi. destruct Hi.
      - destruct (IH (fun j Hj => Hl j (or_intror Hj))) as (A & B & HA & HB & H).
        destruct (Gr i (Hl i (or_introl eq_refl))) as (A2 & B2 & HA2 & HB2 & H2). exists (A + A2), (B + B2).
        repeat split; try lra. intros j Hj t x Hx. assert (N := norm_pos idx co x).
        assert (BN : 0 <= B * norm idx co x) by (apply Rmult_le_pos; assumption). assert (BN2 : 0 <= B2 * norm idx co x) by (apply Rmult_le_pos; assumption).
        destruct Hj as [<-|Hj]; [specialize (H2 t x Hx)|specialize (H j Hj t x Hx)]; lra. }
    apply W, incl_refl. }
  destruct U as (A & B & HA & HB & U). set (n := INR (length idx)). assert (Hn : 0 <= n) by apply pos_INR.
  set (K := n * (2 * (A + B * n))). assert (HK : 0 <= K).
  { unfold K. apply Rmult_le_pos; [exact Hn|]. assert (0 <= B * n) by (apply Rmult_le_pos; assumption). lra. }
  exists ((1 + energy x0) * exp (K * (b - t0))).
  intros T y HT (Y0 & Y) i Hi.
  assert (SF : forall s, t0 <= s <= T -> safe s (y s)).
  { intros s Hs. apply Sf; [lra|]. split; [exact Y0|]. intros j Hj. apply (evolves_sub t0 T); [lra|]. apply Y, Hj. }
  assert (EV : evolves t0 T (fun t => 1 + energy (y t)) (fun t => 0 + lsum (map (fun i => G i t (y t) * co i (y t) + co i (y t) * G i t (y t)) idx))).
  { apply evolves_plus; [apply evolves_const|]. apply evolves_lsum. intros j Hj. apply evolves_mult; apply Y, Hj. }
  assert (E0 : forall x, 0 <= energy x).
  { intros x. unfold energy. clear. induction idx as [|k l IH]; simpl; [lra|]. assert (Q := Rle_0_sqr (co k x)). unfold Rsqr in Q. lra. }
  assert (GW := gronwall t0 T _ _ K EV). cbv beta in GW.
  assert (SQ : forall v, Rabs v <= 1 + v * v).
  { intros v. assert (Q := Rle_0_sqr (Rabs v - 1)). unfold Rsqr in Q. assert (Rabs v * Rabs v = v * v) by (rewrite <- Rabs_mult; apply Rabs_right; apply Rle_ge, Rle_0_sqr).
    assert (Z := Rabs_pos v). nra. }
  assert (EA : energy (y t0) = energy x0).
  { unfold energy. f_equal. apply map_ext_in. intros j Hj. rewrite Y0 by exact Hj. reflexivity. }
  assert (ET : 1 + energy (y T) <= (1 + energy (y t0)) * exp (K * (T - t0))).
  { apply GW; [|lra]. intros s Hs. rewrite Rplus_0_l. specialize (SF s ltac:(lra)).
    apply Rle_trans with (lsum (map (fun _ => 2 * (A + B * n) * (1 + energy (y s))) idx)).
    - apply lsum_le. intros j Hj. assert (B1 := U j Hj s (y s) SF).
      set (g := G j s (y s)) in *. set (v := co j (y s)). 
      assert (V1 := SQ v). assert (V2 := energy_coord j (y s) Hj). fold v in V2.
      assert (NN : Rabs v * norm idx co (y s) <= n * energy (y s)).
      { unfold norm. rewrite <- lsum_scal. unfold n. rewrite <- lsum_const. apply lsum_le. intros k Hk.
        assert (V3 := energy_coord k (y s) Hk). assert (Q := Rle_0_sqr (Rabs v - Rabs (co k (y s)))). unfold Rsqr in Q.
        assert (Rabs v * Rabs v = v * v) by (rewrite <- Rabs_mult; apply Rabs_right; apply Rle_ge, Rle_0_sqr).
        assert (Rabs (co k (y s)) * Rabs (co k (y s)) = co k (y s) * co k (y s)) by (rewrite <- Rabs_mult; apply Rabs_right; apply Rle_ge, Rle_0_sqr).
        lra. }
      assert (GV : g * v <= Rabs v * (A + B * norm idx co (y s))).
      { eapply Rle_trans; [apply Rle_abs|]. rewrite Rabs_mult, Rmult_comm. apply Rmult_le_compat_l; [apply Rabs_pos|exact B1]. }
      specialize (E0 (y s)).
      assert (AV : A * Rabs v <= A * (1 + energy (y s))) by (apply Rmult_le_compat_l; lra).
      assert (BV : B * (Rabs v * norm idx co (y s)) <= B * (n * energy (y s))) by (apply Rmult_le_compat_l; assumption).
      assert (BN : 0 <= B * n) by (apply Rmult_le_pos; assumption). lra.
    - rewrite lsum_const. fold n. right. unfold K. ring. }
  rewrite EA in ET. apply Rle_trans with (1 + energy (y T)).
  - eapply Rle_trans; [apply SQ|]. assert (V2 := energy_coord i (y T) Hi). lra.
  - eapply Rle_trans; [exact ET|]. apply Rmult_le_compat_l; [specialize (E0 x0); lra|].
    destruct (Req_dec (K * (T - t0)) (K * (b - t0))) as [->|N]; [lra|]. left. apply exp_increasing.
    assert (K * (T - t0) <= K * (b - t0)) by (apply Rmult_le_compat_l; lra). lra.
Qed.
(** When moreover they are tame at the limits of what is reached, there is a solution to the end. *)
Theorem lasting_run : t0 <= b ->
  (forall T y, t0 <= T <= b -> solves idx co t0 G x0 T y -> safe T (y T)) ->
  (forall i, In i idx -> grows idx co safe (G i)) ->
  (forall t x, t0 <= t <= b -> reached idx co t0 b G x0 t x -> forall i, In i idx -> tame idx co (fun s => t0 <= s <= b) (G i) t x) ->
  exists y, solves idx co t0 G x0 b y.
Proof.
  intros Hb Sf Gr Tm. destruct (growth_bound Hb Sf Gr) as (M & HM).
  apply (full_run idx co mk eq_dec co_mk t0 b G x0 M Hb); [|exact Tm]. exact HM.
Qed.
End FullGrowth.
