(** Polynomials as coefficient lists, lowest degree first. *)
From Coq Require Import Reals Lra Lia Arith List.
From Verif Require Import Lib_Sum.
Import ListNotations.
Open Scope R_scope.

Fixpoint peval (c : list R) (x : R) : R :=
  match c with [] => 0 | a :: t => a + x * peval t x end.

Fixpoint padd (c d : list R) : list R :=
  match c, d with
  | [], _ => d
  | _, [] => c
  | a :: c', b :: d' => (a + b) :: padd c' d'
  end.
Definition pscal (k : R) (c : list R) : list R := map (Rmult k) c.

Lemma peval_padd c d x : peval (padd c d) x = peval c x + peval d x.
Proof.
  revert d; induction c as [|a c IH]; intros [|b d]; simpl; try lra.
  rewrite IH. lra.
Qed.
Lemma peval_pscal k c x : peval (pscal k c) x = k * peval c x.
Proof. induction c as [|a c IH]; simpl; [lra|]. rewrite IH. lra. Qed.
Lemma length_padd c d : length (padd c d) = Nat.max (length c) (length d).
Proof. revert d; induction c as [|a c IH]; intros [|b d]; simpl; auto. Qed.
Lemma length_pscal k c : length (pscal k c) = length c.
Proof. apply map_length. Qed.

(** Multiplication by [x - u]. *)
Definition pmul_lin (u : R) (c : list R) : list R := padd (pscal (- u) c) (0 :: c).
Lemma peval_pmul_lin u c x : peval (pmul_lin u c) x = (x - u) * peval c x.
Proof. unfold pmul_lin. rewrite peval_padd, peval_pscal. simpl. ring. Qed.
Lemma length_pmul_lin u c : length (pmul_lin u c) = S (length c).
Proof. unfold pmul_lin. rewrite length_padd, length_pscal. simpl. lia. Qed.

(** Formal derivative. *)
Fixpoint pderiv (c : list R) : list R :=
  match c with [] => [] | _ :: t => padd t (0 :: pderiv t) end.

Lemma peval_deriv c x : derivable_pt_lim (peval c) x (peval (pderiv c) x).
Proof.
  induction c as [|a c IH]; simpl; [apply derivable_pt_lim_const|].
  rewrite peval_padd. simpl.
  replace (peval c x + (0 + x * peval (pderiv c) x))
    with (0 + (1 * peval c x + x * peval (pderiv c) x)) by ring.
  apply (derivable_pt_lim_plus (fun _ => a) (fun y => y * peval c y));
    [apply derivable_pt_lim_const|].
  apply (derivable_pt_lim_mult (fun y => y) (peval c)); [apply derivable_pt_lim_id|exact IH].
Qed.

(** Synthetic division by [x - r]. *)
Fixpoint pquo (c : list R) (r : R) : list R :=
  match c with [] => [] | _ :: t => padd t (pscal r (pquo t r)) end.
Lemma length_pquo c r : (length (pquo c r) <= Nat.pred (length c))%nat.
Proof.
  induction c as [|a c IH]; simpl; [lia|].
  rewrite length_padd, length_pscal. lia.
Qed.
Lemma peval_pquo c r x : peval c x = peval c r + (x - r) * peval (pquo c r) x.
Proof.
  induction c as [|a c IH]; simpl; [ring|].
  rewrite peval_padd, peval_pscal.
  replace (peval c r) with (peval c x - (x - r) * peval (pquo c r) x) by lra. ring.
Qed.

(** A polynomial with more distinct roots than its degree is zero. *)
Lemma root_count c : forall rs, NoDup rs -> (length c <= length rs)%nat ->
  (forall r, In r rs -> peval c r = 0) -> forall x, peval c x = 0.
Proof.
  remember (length c) as n eqn:E. revert c E.
  induction n as [|n IH]; intros c E rs ND Hl Hr x.
  - destruct c; [reflexivity|discriminate].
  - destruct rs as [|r rs]; [simpl in Hl; lia|].
    inversion ND; subst.
    rewrite (peval_pquo c r x), (Hr r) by (left; reflexivity).
    assert (Hq : peval (pquo c r) x = 0).
    { destruct (Nat.eq_dec (length (pquo c r)) n) as [Eq|Eq].
      - apply (IH (pquo c r) (eq_sym Eq) rs H2); [simpl in Hl; lia|].
        intros s Hs. assert (HE := peval_pquo c r s).
        rewrite (Hr s), (Hr r) in HE by (simpl; auto).
        assert (s - r <> 0) by (intros X; apply H1; replace r with s by lra; exact Hs).
        apply Rmult_eq_reg_l with (s - r); [lra|assumption].
      - assert (Hq := length_pquo c r).
        pose (c' := (pquo c r ++ repeat 0 (n - length (pquo c r)))%list).
        assert (EV : forall y, peval c' y = peval (pquo c r) y).
        { intros y. unfold c'. generalize (n - length (pquo c r))%nat.
          generalize (pquo c r). induction l as [|a l IHl]; intros m; simpl.
          - induction m as [|m IHm]; simpl; [reflexivity|]. rewrite IHm. ring.
          - rewrite IHl. reflexivity. }
        rewrite <- EV. apply (IH c') with (rs := rs); [|exact H2|simpl in Hl; lia|].
        + unfold c'. rewrite app_length, repeat_length. lia.
        + intros s Hs. rewrite EV. assert (HE := peval_pquo c r s).
          rewrite (Hr s), (Hr r) in HE by (simpl; auto).
          assert (s - r <> 0) by (intros X; apply H1; replace r with s by lra; exact Hs).
          apply Rmult_eq_reg_l with (s - r); [lra|assumption]. }
    rewrite Hq. ring.
Qed.

(** Coefficient functions. *)
Definition coefs (n : nat) (c : nat -> R) : list R := map c (seq 0 n).
Lemma peval_coefs_gen n c k x : peval (map c (seq k n)) x = rsum n (fun i => c (k + i)%nat * x ^ i).
Proof.
  revert k; induction n as [|n IH]; intros k; [reflexivity|].
  rewrite rsum_S_first. simpl. rewrite IH, Nat.add_0_r.
  rewrite <- rsum_scal. rewrite Rmult_1_r. f_equal. apply rsum_ext. intros i _.
  rewrite Nat.add_succ_r. simpl. ring.
Qed.
Lemma peval_coefs n c x : peval (coefs n c) x = rsum n (fun i => c i * x ^ i).
Proof. unfold coefs. rewrite peval_coefs_gen. reflexivity. Qed.
Lemma length_coefs n c : length (coefs n c) = n.
Proof. unfold coefs. rewrite map_length, seq_length. reflexivity. Qed.

(** Linear combinations. *)
Fixpoint plin (n : nat) (k : nat -> R) (p : nat -> list R) : list R :=
  match n with O => [] | S m => padd (plin m k p) (pscal (k m) (p m)) end.
Lemma peval_plin n k p x : peval (plin n k p) x = rsum n (fun j => k j * peval (p j) x).
Proof.
  induction n as [|n IH]; simpl; [reflexivity|].
  rewrite peval_padd, peval_pscal, IH. reflexivity.
Qed.
Lemma length_plin n k p m : (forall j, (j < n)%nat -> (length (p j) <= m)%nat) ->
  (length (plin n k p) <= m)%nat.
Proof.
  induction n as [|n IH]; intros H; simpl; [lia|].
  rewrite length_padd, length_pscal. apply Nat.max_lub; [apply IH; intros; apply H; lia|apply H; lia].
Qed.

Lemma derivable_pt_lim_ext f g x l :
  (forall y, f y = g y) -> derivable_pt_lim f x l -> derivable_pt_lim g x l.
Proof.
  intros H D eps He. destruct (D eps He) as (d & Hd). exists d. intros h Hh1 Hh2.
  rewrite <- !H. apply Hd; assumption.
Qed.

(** Equal polynomial functions have equal derivatives of all orders. *)
Lemma pderiv_ext c d : (forall x, peval c x = peval d x) ->
  forall x, peval (pderiv c) x = peval (pderiv d) x.
Proof.
  intros H x. apply (uniqueness_limite (peval c) x).
  - apply peval_deriv.
  - eapply derivable_pt_lim_ext; [|apply peval_deriv]. intros y; symmetry; apply H.
Qed.

Lemma pderiv_padd c d x : peval (pderiv (padd c d)) x = peval (pderiv c) x + peval (pderiv d) x.
Proof.
  apply (uniqueness_limite (peval (padd c d)) x); [apply peval_deriv|].
  eapply derivable_pt_lim_ext;
    [|apply (derivable_pt_lim_plus (peval c) (peval d)); apply peval_deriv].
  intros y. unfold plus_fct. symmetry; apply peval_padd.
Qed.
Lemma pderiv_pscal k c x : peval (pderiv (pscal k c)) x = k * peval (pderiv c) x.
Proof.
  apply (uniqueness_limite (peval (pscal k c)) x); [apply peval_deriv|].
  eapply derivable_pt_lim_ext;
    [|apply (derivable_pt_lim_scal (peval c)); apply peval_deriv].
  intros y. unfold mult_real_fct. symmetry; apply peval_pscal.
Qed.
Lemma pderiv_pmul_lin u c x :
  peval (pderiv (pmul_lin u c)) x = peval c x + (x - u) * peval (pderiv c) x.
Proof.
  apply (uniqueness_limite (peval (pmul_lin u c)) x); [apply peval_deriv|].
  eapply derivable_pt_lim_ext with (f := fun y => (y - u) * peval c y);
    [intros y; symmetry; apply peval_pmul_lin|].
  replace (peval c x + (x - u) * peval (pderiv c) x)
    with ((1 - 0) * peval c x + (x - u) * peval (pderiv c) x) by ring.
  apply (derivable_pt_lim_mult (fun y => y - u) (peval c)); [|apply peval_deriv].
  apply (derivable_pt_lim_minus (fun y => y) (fun _ => u));
    [apply derivable_pt_lim_id|apply derivable_pt_lim_const].
Qed.
Lemma pderiv2_pmul_lin u c x :
  peval (pderiv (pderiv (pmul_lin u c))) x
  = 2 * peval (pderiv c) x + (x - u) * peval (pderiv (pderiv c)) x.
Proof.
  rewrite (pderiv_ext (pderiv (pmul_lin u c)) (padd c (pmul_lin u (pderiv c)))).
  - rewrite pderiv_padd, pderiv_pmul_lin. ring.
  - intros y. rewrite pderiv_pmul_lin, peval_padd, peval_pmul_lin. reflexivity.
Qed.
Lemma pderiv_plin n k p x :
  peval (pderiv (plin n k p)) x = rsum n (fun j => k j * peval (pderiv (p j)) x).
Proof.
  induction n as [|n IH]; simpl; [reflexivity|].
  rewrite pderiv_padd, pderiv_pscal, IH. reflexivity.
Qed.
Lemma pderiv2_plin n k p x :
  peval (pderiv (pderiv (plin n k p))) x
  = rsum n (fun j => k j * peval (pderiv (pderiv (p j))) x).
Proof.
  rewrite (pderiv_ext (pderiv (plin n k p)) (plin n k (fun j => pderiv (p j)))).
  - apply pderiv_plin.
  - intros y. rewrite pderiv_plin, peval_plin. reflexivity.
Qed.

(** Composition with an affine map. *)
Fixpoint paff (s b : R) (c : list R) : list R :=
  match c with
  | [] => []
  | a :: t => padd [a] (padd (0 :: pscal s (paff s b t)) (pscal b (paff s b t)))
  end.
Lemma peval_paff s b c x : peval (paff s b c) x = peval c (s * x + b).
Proof.
  induction c as [|a c IH]; [reflexivity|]. cbn [paff].
  rewrite !peval_padd. cbn [peval]. rewrite !peval_pscal, IH. ring.
Qed.
Lemma length_paff s b c : (length (paff s b c) <= length c)%nat.
Proof.
  induction c as [|a c IH]; [simpl; lia|]. cbn [paff].
  rewrite !length_padd. cbn [length]. rewrite !length_pscal. lia.
Qed.
Lemma pderiv_paff s b c x : peval (pderiv (paff s b c)) x = s * peval (pderiv c) (s * x + b).
Proof.
  apply (uniqueness_limite (peval (paff s b c)) x); [apply peval_deriv|].
  eapply derivable_pt_lim_ext; [intros y; symmetry; apply peval_paff|].
  rewrite Rmult_comm.
  apply (derivable_pt_lim_comp (fun y => s * y + b) (peval c)); [|apply peval_deriv].
  assert (E : s * 1 + 0 = s) by ring. enough (D : derivable_pt_lim (fun y => s * y + b) x (s * 1 + 0)) by (rewrite E in D; exact D).
  apply (derivable_pt_lim_plus (fun y => s * y) (fun _ => b)).
  - apply (derivable_pt_lim_scal (fun y => y)). apply derivable_pt_lim_id.
  - apply derivable_pt_lim_const.
Qed.

Lemma peval_nth l n x : (length l <= n)%nat -> peval l x = rsum n (fun k => nth k l 0 * x ^ k).
Proof.
  revert n. induction l as [|a l IH]; intros n Hn.
  - simpl. symmetry. apply rsum_zero. intros [|i] _; simpl; ring.
  - destruct n as [|n]; [simpl in Hn; lia|]. rewrite rsum_S_first. simpl peval.
    rewrite (IH n) by (simpl in Hn; lia). rewrite <- rsum_scal. simpl nth. simpl pow at 1.
    f_equal; [ring|]. apply rsum_ext. intros; simpl; ring.
Qed.
