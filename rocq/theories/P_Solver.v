(** Proofs about integrators. *)
From Coq Require Import Reals List Arith Lra Lia Bool.
From Verif Require Import Lib_Sum S_Solver.
Import ListNotations.
Open Scope R_scope.

Scheme computed_mut := Induction for computed Sort Prop
with increment_mut := Induction for increment Sort Prop.
Combined Scheme computed_increment from computed_mut, increment_mut.

Section Solver.
Context {I : Type}.
Variables (dom : I -> Prop) (f : R -> (I -> R) -> (I -> R) -> Prop) (y0 : I -> R).
Notation computed := (computed dom f y0). Notation increment := (increment dom f y0).

Lemma linear_kept l : linear dom l -> (forall t z d, f t z d -> l d = 0) ->
  (forall y, computed y -> l y = l y0) /\ (forall d, increment d -> l d = 0).
Proof.
  intros (EX & LI) H0. apply (computed_increment I dom f y0 (fun y _ => l y = l y0) (fun d _ => l d = 0)).
  - intros y E. apply EX, E.
  - intros y d y' _ IHy _ IHd E. rewrite (EX y' (fun k => 1 * y k + 1 * d k)) by (intros k Hk; rewrite E by exact Hk; ring). rewrite LI. lra.
  - intros t z d H. exact (H0 t z d H).
  - intros y y' d _ IHy _ IHd E. rewrite (EX d (fun k => 1 * y k + (-1) * y' k)) by (intros k Hk; rewrite E by exact Hk; ring). rewrite LI. lra.
  - intros a d b e d' _ IHd _ IHe E. rewrite (EX d' (fun k => a * d k + b * e k)) by exact E. rewrite LI, IHd, IHe. ring.
Qed.

(** ** Closure *)
Lemma computed_y0 : computed y0.
Proof. apply computed_start. reflexivity. Qed.
Lemma increment_zero d : (forall k, dom k -> d k = 0) -> increment d.
Proof. intros E. apply (increment_diff dom f y0 y0 y0); try apply computed_y0. intros k Hk. rewrite E by exact Hk. ring. Qed.
Lemma increment_ext d e : increment d -> (forall k, dom k -> e k = d k) -> increment e.
Proof. intros H E. apply (increment_linear dom f y0 1 d 0 d); try exact H. intros k Hk. rewrite E by exact Hk. ring. Qed.
Lemma computed_ext y z : computed y -> (forall k, dom k -> z k = y k) -> computed z.
Proof. intros H E. apply (computed_add dom f y0 y (fun _ => 0)); [exact H|apply increment_zero; reflexivity|]. intros k Hk. rewrite E by exact Hk. ring. Qed.
Lemma increment_scal a d : increment d -> increment (fun k => a * d k).
Proof. intros H. apply (increment_linear dom f y0 a d 0 d); try exact H. intros; ring. Qed.
Lemma increment_plus d e : increment d -> increment e -> increment (fun k => d k + e k).
Proof. intros H K. apply (increment_linear dom f y0 1 d 1 e); try assumption. intros; ring. Qed.
Lemma increment_minus d e : increment d -> increment e -> increment (fun k => d k - e k).
Proof. intros H K. apply (increment_linear dom f y0 1 d (-1) e); try assumption. intros; ring. Qed.
Lemma increment_rsum n a (g : nat -> I -> R) : (forall i, (i < n)%nat -> increment (g i)) -> increment (fun k => rsum n (fun i => a i * g i k)).
Proof.
  induction n as [|n IH]; intros H; [apply increment_zero; reflexivity|].
  cbn [rsum]. apply increment_plus; [apply IH; intros; apply H; lia|]. apply increment_scal, H. lia.
Qed.
Lemma increment_jacobian f0 cols x : difference_jacobian dom f f0 cols -> increment (jacobian_times f0 cols x).
Proof.
  intros ((t0 & z0 & F0) & H). induction cols as [|c cols IH]; [apply increment_zero; reflexivity|].
  destruct (H c (or_introl eq_refl)) as (_ & t & z & F).
  apply (increment_ext (fun k => x (fst (fst c)) / snd (fst c) * (snd c k - f0 k) + jacobian_times f0 cols x k)).
  - apply (increment_plus (fun k => x (fst (fst c)) / snd (fst c) * (snd c k - f0 k))); [|apply IH; intros e He; apply H; right; exact He].
    apply (increment_scal _ (fun k => snd c k - f0 k)). apply increment_minus; eapply increment_rate; eassumption.
  - intros k _. unfold jacobian_times. cbn [fold_right]. unfold Rdiv. ring.
Qed.

(** ** BDF *)
Lemma newton_increment f0 cols c t psi yp y d : difference_jacobian dom f f0 cols -> increment psi ->
  newton dom f f0 cols c t psi yp y d -> increment d.
Proof.
  intros HJ HP N. induction N as [|y d fy dy N IH F (S & _)]; [apply increment_zero; reflexivity|].
  apply increment_plus; [exact IH|].
  apply (increment_ext (fun k => (c * fy k - psi k - d k) + c * jacobian_times f0 cols dy k)).
  - apply (increment_plus (fun k => c * fy k - psi k - d k)); [|apply (increment_scal c (jacobian_times f0 cols dy)), increment_jacobian, HJ].
    apply (increment_minus (fun k => c * fy k - psi k)); [|exact IH]. apply (increment_minus (fun k => c * fy k)); [|exact HP].
    apply increment_scal. eapply increment_rate, F.
  - intros k Hk. specialize (S k Hk). lra.
Qed.
Lemma compute_R_col0 factor i : compute_R factor (S i) 0 = 0.
Proof. induction i as [|i IH]; [cbn; unfold Rdiv; ring|]. change (compute_R factor (S i) 0 * ((INR (S i) - factor * INR 0) / INR (S (S i))) = 0). rewrite IH. ring. Qed.
Lemma compute_R_sums n j : rsum (S n) (fun k => compute_R 1 k j) = - compute_R 1 (S n) j * INR (S n) / INR j \/ j = 0%nat.
Proof.
  destruct j as [|j]; [right; reflexivity|left]. assert (J : INR (S j) <> 0) by (apply not_0_INR; lia).
  induction n as [|n IH].
  - cbn [rsum compute_R]. change (INR 0) with 0. change (INR 1) with 1. field. exact J.
  - change (rsum (S (S n)) (fun k => compute_R 1 k (S j))) with (rsum (S n) (fun k => compute_R 1 k (S j)) + compute_R 1 (S n) (S j)). rewrite IH.
    change (compute_R 1 (S (S n)) (S j)) with (compute_R 1 (S n) (S j) * ((INR (S n) - 1 * INR (S j)) / INR (S (S n)))).
    assert (N : INR (S (S n)) <> 0) by (apply not_0_INR; lia). field. split; assumption.
Qed.
Lemma compute_R_vanishes n j : (j < n)%nat -> compute_R 1 n j = 0.
Proof.
  induction n as [|n IH]; intros H; [lia|]. cbn [compute_R]. destruct (Nat.eq_dec j n) as [-> |N].
  - unfold Rdiv. ring.
  - rewrite IH by lia. ring.
Qed.
Lemma RU_row0 order factor j : (1 <= j <= order)%nat -> RU order factor 0 j = 0.
Proof.
  intros H. unfold RU. rewrite (rsum_ext _ _ (fun k => compute_R 1 k j)) by (intros; cbn; ring).
  destruct (compute_R_sums order j) as [E|E]; [|lia]. rewrite E, compute_R_vanishes by lia. unfold Rdiv. ring.
Qed.
Lemma RU_col0 order factor i : RU order factor i 0 = match i with O => 1 | _ => 0 end.
Proof.
  unfold RU. rewrite rsum_S_first. rewrite (rsum_zero order) by (intros k Hk; rewrite compute_R_col0; ring).
  destruct i; [cbn; ring|]. rewrite compute_R_col0. ring.
Qed.
Lemma change_D_first order factor (D : nat -> I -> R) k : change_D order factor D 0 k = D 0%nat k.
Proof.
  unfold change_D. cbn [Nat.leb]. rewrite rsum_S_first, RU_col0. rewrite (rsum_zero order); [ring|]. intros i Hi. rewrite RU_col0. ring.
Qed.
Lemma change_D_rest order factor (D : nat -> I -> R) j k : (1 <= j <= order)%nat ->
  change_D order factor D j k = rsum order (fun i => RU order factor (S i) j * D (S i) k).
Proof.
  intros H. unfold change_D. rewrite (proj2 (Nat.leb_le j order)) by lia. rewrite rsum_S_first, RU_row0 by lia. ring.
Qed.
Lemma bdf_parts order D : bdf dom f y0 order D -> computed (D 0%nat) /\ forall j, increment (D (S j)).
Proof.
  induction 1 as [t h fy F|order factor D H (IC & II)|order D gamma alpha c t f0 cols y d H (IC & II) HJ N|order order' D H IH L].
  - split; [apply computed_y0|]. intros [|j]; [apply increment_scal; eapply increment_rate, F|apply increment_zero; reflexivity].
  - split; [eapply computed_ext; [exact IC|intros; apply change_D_first]|]. intros j. destruct (le_lt_dec (S j) order) as [L|L].
    + eapply increment_ext; [|intros k _; apply change_D_rest; lia]. apply increment_rsum. intros; apply II.
    + unfold change_D. rewrite (proj2 (Nat.leb_gt (S j) order)) by lia. apply II.
  - assert (ID : increment d).
    { eapply newton_increment; [exact HJ| |exact N]. apply (increment_ext (fun k => / alpha * rsum order (fun i => gamma (S i) * D (S i) k))).
      - apply (increment_scal (/ alpha) (fun k => rsum order (fun i => gamma (S i) * D (S i) k))), (increment_rsum order (fun i => gamma (S i)) (fun i => D (S i))). intros; apply II.
      - intros k _. unfold Rdiv. ring. }
    assert (IR : forall n j, increment (fun k => d k + rsum n (fun m => D (S j + m)%nat k))).
    { intros n j. apply increment_plus; [exact ID|]. eapply increment_ext; [apply (increment_rsum n (fun _ => 1) (fun m => D (S j + m)%nat)); intros; apply II|].
      intros k _. apply rsum_ext. intros; ring. }
    split.
    + unfold update_D. cbn [Nat.leb]. rewrite Nat.sub_0_r. apply (computed_add dom f y0 _ _ _ IC (IR order 0%nat)).
      intros k _. rewrite rsum_S_first. cbn [Nat.add]. ring.
    + intros j. unfold update_D. destruct (Nat.leb (S j) order); [apply IR|]. destruct (Nat.eqb (S j) (order + 1)); [exact ID|].
      destruct (Nat.eqb (S j) (order + 2)); [|apply II]. apply increment_minus; [exact ID|]. rewrite Nat.add_1_r. apply II.
  - exact IH.
Qed.
Lemma bdf_computed y : bdf_output dom f y0 y -> computed y.
Proof.
  intros (order & D & p & B & E). destruct (bdf_parts order D B) as (IC & II).
  apply (computed_add dom f y0 (D 0%nat) (fun k => rsum order (fun i => p (S i) * D (S i) k))); [exact IC| |exact E].
  apply (increment_rsum order (fun i => p (S i)) (fun i => D (S i))). intros; apply II.
Qed.

(** ** Runge-Kutta *)
Lemma stages_increment y ks : stages f y ks -> forall d, In d ks -> increment d.
Proof. induction 1 as [|a t ks d S IH F]; intros e Hin; [destruct Hin|]. destruct Hin as [E|E]; [subst e; eapply increment_rate, F|exact (IH e E)]. Qed.
Lemma combine_increment b ks : (forall d, In d ks -> increment d) -> increment (combine b ks).
Proof. intros H. apply (increment_rsum (length ks) b (fun i => nth i ks (fun _ => 0))). intros i Hi. apply H, nth_In, Hi. Qed.
Lemma runge_kutta_computed y : runge_kutta f y0 y -> computed y.
Proof.
  induction 1 as [|y ks b H IH S]; [apply computed_y0|].
  apply (computed_add dom f y0 y (combine b ks)); [exact IH| |reflexivity]. apply combine_increment. eapply stages_increment, S.
Qed.

(** ** A start at which nothing changes *)
Definition steady : Prop := forall t z d, (forall k, dom k -> z k = y0 k) -> f t z d -> forall k, dom k -> d k = 0.
Lemma newton_steady f0 cols c t psi yp y d : steady -> difference_jacobian dom f f0 cols ->
  (forall k, dom k -> psi k = 0) -> (forall k, dom k -> yp k = y0 k) -> newton dom f f0 cols c t psi yp y d ->
  (forall k, dom k -> y k = y0 k) /\ (forall k, dom k -> d k = 0).
Proof.
  intros ST (_ & HJ) HP HY N. induction N as [|y d fy dy N (IY & ID) F (_ & U)]; [split; [exact HY|reflexivity]|].
  assert (Z : forall k, dom k -> 0 = dy k).
  { apply (U (fun _ => 0)). intros k Hk. rewrite HP, ID by exact Hk. rewrite (ST t y fy IY F k Hk).
    assert (J : jacobian_times f0 cols (fun _ => 0) k = 0); [|rewrite J; ring].
    unfold jacobian_times. clear. induction cols as [|e cols IH]; [reflexivity|]. cbn [fold_right]. rewrite IH. ring. }
  split; intros k Hk; rewrite <- Z by exact Hk; rewrite ?IY, ?ID by exact Hk; ring.
Qed.
Lemma bdf_steady order D : steady -> bdf dom f y0 order D ->
  (forall k, dom k -> D 0%nat k = y0 k) /\ forall j k, dom k -> D (S j) k = 0.
Proof.
  intros ST. induction 1 as [t h fy F|order factor D H (IC & II)|order D gamma alpha c t f0 cols y d H (IC & II) HJ N|order order' D H IH L].
  - split; [reflexivity|]. intros [|j] k Hk; [|reflexivity]. rewrite (ST t y0 fy ltac:(reflexivity) F k Hk). ring.
  - split; [intros k Hk; rewrite change_D_first; apply IC, Hk|]. intros j k Hk. destruct (le_lt_dec (S j) order) as [L|L].
    + rewrite change_D_rest by lia. apply rsum_zero. intros i Hi. rewrite II by exact Hk. ring.
    + unfold change_D. rewrite (proj2 (Nat.leb_gt (S j) order)) by lia. apply II, Hk.
  - assert (ID : forall k, dom k -> d k = 0).
    { eapply (newton_steady f0 cols c t (fun k => rsum order (fun i => gamma (S i) * D (S i) k) / alpha) (fun k => rsum (S order) (fun i => D i k))); [exact ST|exact HJ| | |exact N].
      - intros k Hk. cbv beta. rewrite rsum_zero by (intros i Hi; rewrite II by exact Hk; ring). unfold Rdiv. ring.
      - intros k Hk. cbv beta. rewrite rsum_S_first, IC by exact Hk. rewrite rsum_zero by (intros i Hi; apply II, Hk). ring. }
    split.
    + intros k Hk. unfold update_D. cbn [Nat.leb]. rewrite Nat.sub_0_r, rsum_S_first. cbn [Nat.add]. rewrite IC, ID by exact Hk.
      rewrite rsum_zero by (intros i Hi; apply II, Hk). ring.
    + intros j k Hk. unfold update_D. destruct (Nat.leb (S j) order).
      * rewrite ID by exact Hk. rewrite rsum_zero by (intros i Hi; apply II, Hk). ring.
      * destruct (Nat.eqb (S j) (order + 1)); [apply ID, Hk|]. destruct (Nat.eqb (S j) (order + 2)); [|apply II, Hk].
        rewrite Nat.add_1_r, ID, II by exact Hk. ring.
  - exact IH.
Qed.
Lemma bdf_output_steady y : steady -> bdf_output dom f y0 y -> forall k, dom k -> y k = y0 k.
Proof.
  intros ST (order & D & p & B & E) k Hk. destruct (bdf_steady order D ST B) as (IC & II). rewrite E, IC by exact Hk.
  rewrite rsum_zero by (intros i Hi; rewrite II by exact Hk; ring). ring.
Qed.
Lemma combine_zero b (ks : list (I -> R)) k : (forall d, In d ks -> d k = 0) -> combine b ks k = 0.
Proof. intros H. apply rsum_zero. intros i Hi. rewrite H by (apply nth_In, Hi). ring. Qed.
Lemma stages_steady y ks : steady -> (forall k, dom k -> y k = y0 k) -> stages f y ks -> forall d, In d ks -> forall k, dom k -> d k = 0.
Proof.
  intros ST HY. induction 1 as [|a t ks d S IH F]; intros e Hin; [destruct Hin|]. destruct Hin as [E|E]; [subst e|exact (IH e E)].
  refine (ST t _ d _ F). intros k Hk. rewrite combine_zero by (intros x Hx; exact (IH x Hx k Hk)). rewrite HY by exact Hk. ring.
Qed.
Lemma runge_kutta_steady y : steady -> runge_kutta f y0 y -> forall k, dom k -> y k = y0 k.
Proof.
  intros ST. induction 1 as [|y ks b H IH S]; [reflexivity|]. intros k Hk.
  rewrite combine_zero by (intros d Hd; exact (stages_steady y ks ST IH S d Hd k Hk)). rewrite IH by exact Hk. ring.
Qed.
End Solver.
