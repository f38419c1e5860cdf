(** Radial integrals of polynomials in the squared radius: [mom a c] is the integral over
    0 <= s <= 1 of s^(a-1) P(s^2), P the polynomial with coefficients c. *)
From Coq Require Import Reals Lra Lia Arith List FinFun.
From Verif Require Import Lib_Sum Lib_Poly.
Import ListNotations.
Open Scope R_scope.

Fixpoint mom (a : R) (c : list R) : R :=
  match c with [] => 0 | x :: t => x / a + mom (a + 2) t end.

Lemma mom_padd c : forall d a, mom a (padd c d) = mom a c + mom a d.
Proof. induction c as [|x c IH]; intros [|y d] a; simpl; try lra. rewrite IH. unfold Rdiv. ring. Qed.
Lemma mom_pscal k c : forall a, mom a (pscal k c) = k * mom a c.
Proof. induction c as [|x c IH]; intros a; simpl; [ring|]. fold (pscal k c). rewrite IH. unfold Rdiv. ring. Qed.
Lemma mom_plin n k p a : mom a (plin n k p) = rsum n (fun j => k j * mom a (p j)).
Proof. induction n as [|n IH]; simpl; [reflexivity|]. rewrite mom_padd, mom_pscal, IH. reflexivity. Qed.

(** A polynomial that is zero everywhere has no other coefficient. *)
Lemma seq_pos_nodup m : forall k, NoDup (map (fun i => INR (S i)) (seq k m)).
Proof.
  intros k. apply FinFun.Injective_map_NoDup; [|apply seq_NoDup].
  intros i j E. apply INR_eq in E. lia.
Qed.
Lemma peval_zero_tail x t : (forall y, peval (x :: t) y = 0) -> x = 0 /\ forall y, peval t y = 0.
Proof.
  intros H. assert (Hx : x = 0). { assert (E := H 0). simpl in E. lra. }
  split; [exact Hx|]. apply root_count with (rs := map (fun i => INR (S i)) (seq 0 (length t))).
  - apply seq_pos_nodup.
  - rewrite map_length, seq_length. lia.
  - intros r Hr. apply in_map_iff in Hr as (i & <- & _). cbv beta. assert (E := H (INR (S i))). cbn [peval] in E.
    assert (P : 0 < INR (S i)) by (apply lt_0_INR; lia). rewrite Hx in E.
    apply Rmult_eq_reg_l with (INR (S i)); [lra|apply Rgt_not_eq, P].
Qed.
Lemma mom_zero c : (forall y, peval c y = 0) -> forall a, mom a c = 0.
Proof.
  induction c as [|x c IH]; intros H a; [reflexivity|]. destruct (peval_zero_tail x c H) as (-> & Ht).
  simpl. rewrite (IH Ht). unfold Rdiv. ring.
Qed.
Lemma mom_ext a c d : (forall y, peval c y = peval d y) -> mom a c = mom a d.
Proof.
  intros H. assert (Z : mom a (padd c (pscal (-1) d)) = 0).
  { apply mom_zero. intros y. rewrite peval_padd, peval_pscal, H. ring. }
  rewrite mom_padd, mom_pscal in Z. lra.
Qed.

(** Integration by parts. *)
Lemma mom_parts c : forall a, 0 < a -> mom a (padd (pscal a c) (pscal 2 (0 :: pderiv c))) = peval c 1.
Proof.
  induction c as [|x c IH]; intros a Ha.
  - simpl. unfold Rdiv. ring.
  - transitivity (mom a ((a * x) :: padd (pscal (a + 2) c) (pscal 2 (0 :: pderiv c)))).
    + apply mom_ext. intros y. simpl. repeat (rewrite ?peval_padd, ?peval_pscal; simpl). ring.
    + cbn [mom]. rewrite IH by lra. simpl. field. lra.
Qed.

(** Products. *)
Fixpoint pmul (c d : list R) : list R :=
  match c with [] => [] | x :: t => padd (pscal x d) (0 :: pmul t d) end.
Lemma peval_pmul c d y : peval (pmul c d) y = peval c y * peval d y.
Proof. induction c as [|x c IH]; simpl; [ring|]. rewrite peval_padd, peval_pscal. simpl. rewrite IH. ring. Qed.
Lemma length_pmul c d : (length (pmul c d) <= length c + length d)%nat.
Proof. induction c as [|x c IH]; simpl; [lia|]. rewrite length_padd, length_pscal. simpl. lia. Qed.
Lemma length_pmul_pred c d : (1 <= length d)%nat -> (length (pmul c d) <= length c + length d - 1)%nat.
Proof.
  intros Hd. induction c as [|x c IH]; simpl; [lia|]. rewrite length_padd, length_pscal. simpl. lia.
Qed.
Lemma length_pderiv c : length (pderiv c) = length c.
Proof. induction c as [|x c IH]; [reflexivity|]. cbn [pderiv]. rewrite length_padd. cbn [length]. rewrite IH. lia. Qed.

(** Coefficients. *)
Lemma nth_padd c : forall d k, nth k (padd c d) 0 = nth k c 0 + nth k d 0.
Proof. induction c as [|x c IH]; intros [|y d] [|k]; simpl; try lra. apply IH. Qed.
Lemma nth_pscal k c : forall i, nth i (pscal k c) 0 = k * nth i c 0.
Proof. induction c as [|x c IH]; intros [|i]; simpl; try lra. apply IH. Qed.
Lemma nth_pderiv c : forall k, nth k (pderiv c) 0 = INR (S k) * nth (S k) c 0.
Proof.
  induction c as [|x c IH]; intros k; [destruct k; simpl; ring|].
  simpl pderiv. rewrite nth_padd. destruct k as [|k].
  - simpl. ring.
  - cbn [nth]. rewrite IH. rewrite (S_INR (S k)). cbn [nth]. ring.
Qed.
Lemma nth_pmul_lin u c k : nth (S k) (pmul_lin u c) 0 = nth k c 0 - u * nth (S k) c 0.
Proof. unfold pmul_lin. rewrite nth_padd, nth_pscal. cbn [nth]. ring. Qed.
Lemma nth_pquo c r : forall k, (length c <= k + 2)%nat -> nth k (pquo c r) 0 = nth (S k) c 0.
Proof.
  induction c as [|x c IH]; intros k L; [destruct k; reflexivity|].
  simpl pquo. rewrite nth_padd, nth_pscal. cbn [nth].
  assert (nth k (pquo c r) 0 = 0). { apply nth_overflow. assert (H := length_pquo c r). simpl in L. lia. }
  rewrite H. ring.
Qed.
Lemma peval_app c d y : peval (c ++ d) y = peval c y + y ^ (length c) * peval d y.
Proof. induction c as [|x c IH]; simpl; [ring|]. rewrite IH. ring. Qed.
Lemma split_last c m : (length c <= S m)%nat ->
  exists d, (length d <= m)%nat /\ forall y, peval c y = peval d y + nth m c 0 * y ^ m.
Proof.
  revert c; induction m as [|m IH]; intros c L.
  - exists []. split; [simpl; lia|]. intros y. destruct c as [|x [|z c]]; simpl in *; try ring; lia.
  - destruct c as [|x c].
    + exists []. split; [simpl; lia|]. intros y. simpl. ring.
    + destruct (IH c) as (d & Ld & Hd); [simpl in L; lia|]. exists (x :: d). split; [simpl; lia|].
      intros y. simpl. rewrite Hd. ring.
Qed.
Lemma pderiv_short c m : (length c <= S m)%nat ->
  exists d, (length d <= m)%nat /\ (forall y, peval (pderiv c) y = peval d y) /\
    ((1 <= m)%nat -> nth (m - 1) d 0 = INR m * nth m c 0).
Proof.
  intros L. exists (firstn m (pderiv c)). split; [rewrite firstn_length; lia|]. split.
  - intros y. rewrite <- (firstn_skipn m (pderiv c)) at 1. rewrite peval_app.
    replace (peval (skipn m (pderiv c)) y) with 0; [ring|].
    assert (Ls : (length (skipn m (pderiv c)) <= 1)%nat) by (rewrite skipn_length, length_pderiv; lia).
    destruct (skipn m (pderiv c)) as [|z [|w l]] eqn:E; simpl in *; [reflexivity| |lia].
    assert (nth m (pderiv c) 0 = 0). { rewrite nth_pderiv, nth_overflow by lia. ring. }
    rewrite <- (firstn_skipn m (pderiv c)), E, app_nth2, firstn_length in H by (rewrite firstn_length; lia).
    destruct (le_lt_dec (length c) m) as [Lm|Lm].
    + exfalso. assert (X := skipn_length m (pderiv c)). rewrite E, length_pderiv in X. simpl in X. lia.
    + rewrite length_pderiv, Nat.min_l, Nat.sub_diag in H by lia. simpl in H. lra.
  - intros Hm. destruct m as [|m]; [lia|]. replace (S m - 1)%nat with m by lia.
    rewrite <- nth_pderiv. rewrite <- (firstn_skipn (S m) (pderiv c)) at 2.
    destruct (le_lt_dec (length c) m) as [Lm|Lm].
    + rewrite !nth_overflow; try reflexivity; rewrite ?firstn_skipn, ?firstn_length, length_pderiv; lia.
    + rewrite app_nth1; [reflexivity|]. rewrite firstn_length, length_pderiv. lia.
Qed.
Fixpoint pmono (m : nat) : list R := match m with O => [1] | S k => 0 :: pmono k end.
Lemma peval_pmono m y : peval (pmono m) y = y ^ m.
Proof. induction m as [|m IH]; simpl; [ring|]. rewrite IH. ring. Qed.

(** Positivity, and what the functional means: an antiderivative. *)
Fixpoint anti (k : nat) (c : list R) (s : R) : R :=
  match c with [] => 0 | x :: t => x * s ^ k / INR k + anti (S (S k)) t s end.
Lemma anti_deriv c : forall k s, derivable_pt_lim (anti (S k) c) s (s ^ k * peval c (s ^ 2)).
Proof.
  induction c as [|x c IH]; intros k s.
  - simpl anti. simpl peval. replace (s ^ k * 0) with 0 by ring. apply derivable_pt_lim_const.
  - assert (P : INR (S k) <> 0) by (apply not_0_INR; lia).
    replace (s ^ k * peval (x :: c) (s ^ 2)) with ((x / INR (S k)) * (INR (S k) * s ^ k) + s ^ (S (S k)) * peval c (s ^ 2))
      by (simpl peval; rewrite <- !tech_pow_Rmult; field; exact P).
    apply (derivable_pt_lim_plus (fun s => x * s ^ S k / INR (S k)) (anti (S (S (S k))) c)); [|apply IH].
    apply (derivable_pt_lim_ext (fun s => x / INR (S k) * s ^ S k) _ _ _).
    + intros y. field. exact P.
    + apply (derivable_pt_lim_scal (fun s => s ^ S k)). apply (derivable_pt_lim_pow s (S k)).
Qed.
Lemma anti_0 c : forall k, anti (S k) c 0 = 0.
Proof. induction c as [|x c IH]; intros k; cbn [anti]; [reflexivity|]. rewrite IH, pow_i by lia. unfold Rdiv. ring. Qed.
Lemma anti_1 c : forall k, anti (S k) c 1 = mom (INR (S k)) c.
Proof.
  induction c as [|x c IH]; intros k; cbn [anti mom]; [reflexivity|].
  rewrite IH, pow1, !S_INR. f_equal; [unfold Rdiv; ring|]. f_equal. ring.
Qed.
Lemma mom_nonneg k c : (forall s, 0 <= s <= 1 -> 0 <= peval c (s ^ 2)) -> 0 <= mom (INR (S k)) c.
Proof.
  intros H. rewrite <- anti_1. rewrite <- (anti_0 c k).
  destruct (MVT_cor2 (anti (S k) c) (fun s => s ^ k * peval c (s ^ 2)) 0 1) as (z & E & Hz); [lra|intros; apply anti_deriv|].
  assert (0 <= z ^ k * peval c (z ^ 2)) by (apply Rmult_le_pos; [apply pow_le; lra|apply H; lra]).
  lra.
Qed.

(** Division by the product of linear factors. *)
Fixpoint newton (us : list R) (c : list R) : list R * list R :=
  match us with
  | [] => (c, [])
  | u :: t => let r := newton t (pquo c u) in (fst r, padd [peval c u] (pmul_lin u (snd r)))
  end.
Fixpoint nprod (us : list R) (y : R) : R := match us with [] => 1 | u :: t => (y - u) * nprod t y end.
Lemma newton_spec us : forall c y, peval c y = nprod us y * peval (fst (newton us c)) y + peval (snd (newton us c)) y.
Proof.
  induction us as [|u us IH]; intros c y; [simpl; ring|]. cbn [newton nprod fst snd].
  rewrite (peval_pquo c u y), (IH (pquo c u) y), peval_padd, peval_pmul_lin. cbn [peval]. ring.
Qed.
Lemma newton_quo us : forall c, (length (fst (newton us c)) <= length c - length us)%nat.
Proof.
  induction us as [|u us IH]; intros c; simpl; [lia|]. specialize (IH (pquo c u)). assert (H := length_pquo c u). lia.
Qed.
Lemma newton_rem us : forall c, (length (snd (newton us c)) <= length us)%nat.
Proof.
  induction us as [|u us IH]; intros c; cbn [newton snd]; [simpl; lia|].
  rewrite length_padd, length_pmul_lin. specialize (IH (pquo c u)). simpl. lia.
Qed.
