(** A granular-carbon bed at rest. *)
From Coq Require Import Reals List Arith Bool Lra Lia.
From Verif Require Import Lib_Py Lib_Sum Lib_Pow Lib_Poly M_Colloc M_IxColumn M_GacColumn S_Colloc S_IxColumn
  P_Colloc P_Ocfe P_GacFun P_GacColumn Props_GacColumn P_Rest P_RestEq.
Import ListNotations.
Open Scope R_scope.

Lemma some_positive n q : (forall i, (i < n)%nat -> 0 <= q i) -> 0 < rsum n q -> exists k, (k < n)%nat /\ 0 < q k.
Proof.
  induction n as [|n IH]; intros Q S; cbn [rsum] in S; [lra|]. destruct (Rlt_le_dec 0 (q n)) as [P|P]; [exists n; split; [lia|exact P]|].
  destruct IH as (k & K & PK); [intros; apply Q; lia|lra|]. exists k. split; [lia|exact PK].
Qed.

(** ** Loadings are determined by what diffuses, and by the liquid they are in equilibrium with *)
Section Share.
Variables (n : nat) (A B w : nat -> R) (h : nat -> R -> R).
Hypothesis HA : forall i, (i < n)%nat -> 0 <= A i.
Hypothesis HB : forall i, (i < n)%nat -> 0 <= B i.
Hypothesis Hw : forall i, (i < n)%nat -> 0 < w i.
Hypothesis Hh0 : forall i x, (i < n)%nat -> 0 < x -> 0 < h i x.
Hypothesis Hh : forall i x y, (i < n)%nat -> 0 < x -> x < y -> h i x < h i y.
Let W q := rsum n (fun j => w j * q j).
Definition mixed (q : nat -> R) (i : nat) : R := A i * (q i / rsum n q * h i (rsum n (fun j => w j * q j))) + B i * q i.

Lemma wsum_pos q : (forall i, (i < n)%nat -> 0 <= q i) -> 0 < rsum n q -> 0 < W q.
Proof.
  intros Q S. destruct (some_positive n q Q S) as (k & Hk & P).
  apply (rsum_pos_one n _ k Hk); [intros j Hj; apply Rmult_le_pos; [left; apply Hw, Hj|apply Q, Hj]|apply Rmult_lt_0_compat; [apply Hw, Hk|exact P]].
Qed.
Lemma h_le i x y : (i < n)%nat -> 0 < x -> x <= y -> h i x <= h i y.
Proof. intros Hi Hx [L| ->]; [left; apply Hh; assumption|lra]. Qed.
(** shares of one total cannot all shrink *)
Lemma shares_same (x x' D D' : nat -> R) : (forall i, (i < n)%nat -> 0 <= x i) -> rsum n x = 1 -> rsum n x' = 1 ->
  (forall i, (i < n)%nat -> 0 < D i < D' i) -> (forall i, (i < n)%nat -> x i * D i = x' i * D' i) -> False.
Proof.
  intros X S S' HD E.
  assert (L : forall i, (i < n)%nat -> x' i <= x i).
  { intros i Hi. destruct (HD i Hi). apply (Rmult_le_reg_r (D' i)); [lra|]. rewrite <- (E i Hi). apply Rmult_le_compat_l; [apply X, Hi|lra]. }
  assert (EQ := sum_same_le n x' x L ltac:(lra)).
  destruct (some_positive n x X ltac:(lra)) as (k & Hk & P). assert (Ek := E k Hk). rewrite (EQ k Hk) in Ek. destruct (HD k Hk).
  assert (x k * D k < x k * D' k) by (apply Rmult_lt_compat_l; assumption). lra.
Qed.
Lemma shares_total q : 0 < rsum n q -> rsum n (fun i => q i / rsum n q) = 1.
Proof. intros S. unfold Rdiv. rewrite rsum_scal_r. field. lra. Qed.
Lemma mixed_ordered q q' : (forall i, (i < n)%nat -> 0 < B i) -> (forall i, (i < n)%nat -> 0 <= q i) -> (forall i, (i < n)%nat -> 0 <= q' i) ->
  0 < rsum n q -> 0 < rsum n q' -> W q <= W q' -> (forall i, (i < n)%nat -> mixed q i = mixed q' i) -> forall i, (i < n)%nat -> q i = q' i.
Proof.
  intros BP P P' S S' L E.
  assert (WP := wsum_pos q P S). assert (WP' := wsum_pos q' P' S').
  assert (IS := Rinv_0_lt_compat _ S). assert (IS' := Rinv_0_lt_compat _ S').
  assert (SL : rsum n q' <= rsum n q).
  { destruct (Rle_lt_dec (rsum n q') (rsum n q)) as [|LT]; [assumption|exfalso].
    apply (shares_same (fun i => q i / rsum n q) (fun i => q' i / rsum n q') (fun i => A i * h i (W q) + B i * rsum n q) (fun i => A i * h i (W q') + B i * rsum n q')).
    - intros i Hi. apply Rmult_le_pos; [apply P, Hi|lra].
    - apply shares_total, S.
    - apply shares_total, S'.
    - intros i Hi. assert (H1 := h_le i _ _ Hi WP L). assert (H0 := Hh0 i _ Hi WP). assert (BI := BP i Hi). assert (AI := HA i Hi).
      assert (0 <= A i * h i (W q)) by (apply Rmult_le_pos; lra). assert (A i * h i (W q) <= A i * h i (W q')) by (apply Rmult_le_compat_l; lra).
      assert (B i * rsum n q < B i * rsum n q') by (apply Rmult_lt_compat_l; lra). assert (0 < B i * rsum n q) by (apply Rmult_lt_0_compat; lra). lra.
    - intros i Hi. assert (Ei := E i Hi). unfold mixed in Ei. fold (W q) (W q') in Ei.
      replace (q i / rsum n q * (A i * h i (W q) + B i * rsum n q)) with (A i * (q i / rsum n q * h i (W q)) + B i * q i) by (field; lra).
      rewrite Ei. field. lra. }
  assert (QL : forall i, (i < n)%nat -> q' i <= q i).
  { intros i Hi. assert (Ei := E i Hi). unfold mixed in Ei. fold (W q) (W q') in Ei.
    assert (H1 := h_le i _ _ Hi WP L). assert (H0 := Hh0 i _ Hi WP). assert (BI := BP i Hi). assert (AI := HA i Hi).
    set (e := A i * (h i (W q) * / rsum n q) + B i). set (e' := A i * (h i (W q') * / rsum n q') + B i).
    assert (Q1 : q i * e = q' i * e') by (unfold e, e'; transitivity (A i * (q i / rsum n q * h i (W q)) + B i * q i); [field; lra|rewrite Ei; field; lra]).
    assert (Le : e <= e').
    { unfold e, e'. assert (h i (W q) * / rsum n q <= h i (W q') * / rsum n q').
      { apply Rmult_le_compat; try lra. apply Rinv_le_contravar; assumption. }
      assert (A i * (h i (W q) * / rsum n q) <= A i * (h i (W q') * / rsum n q')) by (apply Rmult_le_compat_l; assumption). lra. }
    assert (Pe : 0 < e). { unfold e. assert (0 <= A i * (h i (W q) * / rsum n q)) by (apply Rmult_le_pos; [assumption|apply Rmult_le_pos; lra]). lra. }
    apply (Rmult_le_reg_r e); [exact Pe|]. rewrite Q1. apply Rmult_le_compat_l; [apply P', Hi|exact Le]. }
  assert (WL : forall i, (i < n)%nat -> w i * q' i <= w i * q i).
  { intros i Hi. assert (WI := Hw i Hi). apply Rmult_le_compat_l; [lra|apply QL, Hi]. }
  assert (WE : W q' = W q). { apply Rle_antisym; [apply rsum_le; exact WL|exact L]. }
  intros i Hi. assert (WI := Hw i Hi). assert (Z := sum_same_le n _ _ WL WE i Hi). cbv beta in Z. apply (Rmult_eq_reg_l (w i)); lra.
Qed.
Lemma mixed_unique q q' : (forall i, (i < n)%nat -> 0 < B i) -> (forall i, (i < n)%nat -> 0 <= q i) -> (forall i, (i < n)%nat -> 0 <= q' i) ->
  0 < rsum n q -> 0 < rsum n q' -> (forall i, (i < n)%nat -> mixed q i = mixed q' i) -> forall i, (i < n)%nat -> q i = q' i.
Proof.
  intros BP P P' S S' E i Hi. destruct (Rle_lt_dec (W q) (W q')) as [L|L].
  - apply mixed_ordered; assumption.
  - symmetry. apply mixed_ordered; try assumption; [lra|]. intros j Hj. symmetry. apply E, Hj.
Qed.
(** without a surface term *)
Lemma pure_le q q' : (forall i, (i < n)%nat -> 0 < A i) -> (forall i, (i < n)%nat -> B i = 0) -> (forall i, (i < n)%nat -> 0 <= q i) -> (forall i, (i < n)%nat -> 0 <= q' i) ->
  0 < rsum n q -> 0 < rsum n q' -> (forall i, (i < n)%nat -> mixed q i = mixed q' i) -> W q' <= W q.
Proof.
  intros AP B0 P P' S S' E. assert (WP := wsum_pos q P S). assert (IS := Rinv_0_lt_compat _ S).
  destruct (Rle_lt_dec (W q') (W q)) as [|LT]; [assumption|exfalso].
  apply (shares_same (fun i => q i / rsum n q) (fun i => q' i / rsum n q') (fun i => A i * h i (W q)) (fun i => A i * h i (W q'))).
  - intros i Hi. apply Rmult_le_pos; [apply P, Hi|lra].
  - apply shares_total, S.
  - apply shares_total, S'.
  - intros i Hi. assert (H0 := Hh0 i _ Hi WP). assert (H1 := Hh i _ _ Hi WP LT). assert (AI := AP i Hi).
    split; [apply Rmult_lt_0_compat; lra|apply Rmult_lt_compat_l; lra].
  - intros i Hi. assert (Ei := E i Hi). unfold mixed in Ei. fold (W q) (W q') in Ei. rewrite (B0 i Hi) in Ei. lra.
Qed.
Lemma pure_unique q q' : (forall i, (i < n)%nat -> 0 < A i) -> (forall i, (i < n)%nat -> B i = 0) -> (forall i, (i < n)%nat -> 0 <= q i) -> (forall i, (i < n)%nat -> 0 <= q' i) ->
  0 < rsum n q -> 0 < rsum n q' -> (forall i, (i < n)%nat -> mixed q i = mixed q' i) -> forall i, (i < n)%nat -> q i = q' i.
Proof.
  intros AP B0 P P' S S' E. assert (WP := wsum_pos q P S).
  assert (WE : W q = W q'). { apply Rle_antisym; apply pure_le; try assumption. intros j Hj. symmetry. apply E, Hj. }
  assert (X : forall i, (i < n)%nat -> q i * rsum n q' = q' i * rsum n q).
  { intros i Hi. assert (Ei := E i Hi). unfold mixed in Ei. fold (W q) (W q') in Ei. rewrite (B0 i Hi), <- WE in Ei.
    assert (AI := AP i Hi). assert (H0 := Hh0 i _ Hi WP). assert (AH : 0 < A i * h i (W q)) by (apply Rmult_lt_0_compat; assumption).
    assert (Y : q i / rsum n q = q' i / rsum n q') by (apply (Rmult_eq_reg_l (A i * h i (W q))); lra).
    apply (f_equal (fun v => v * (rsum n q * rsum n q'))) in Y. field_simplify in Y; lra. }
  assert (SE : rsum n q = rsum n q').
  { assert (Z : W q * rsum n q' = W q' * rsum n q).
    { unfold W. rewrite <- !rsum_scal_r. apply rsum_ext. intros j Hj. assert (T := X j Hj). rewrite !Rmult_assoc, T. reflexivity. }
    rewrite <- WE in Z. symmetry. apply (Rmult_eq_reg_l (W q)); lra. }
  intros i Hi. assert (T := X i Hi). rewrite <- SE in T. apply (Rmult_eq_reg_r (rsum n q)); lra.
Qed.
End Share.

(** ** Operators *)
Lemma peval_square P r : derivable_pt_lim (fun s => peval P (s ^ 2)) r (2 * r * peval (pderiv P) (r ^ 2)).
Proof.
  replace (2 * r * peval (pderiv P) (r ^ 2)) with (peval (pderiv P) (r ^ 2) * (INR 2 * r ^ 1)) by (simpl; ring).
  apply (derivable_pt_lim_comp (fun s => s ^ 2) (peval P)); [apply (derivable_pt_lim_pow r 2)|apply peval_deriv].
Qed.
Lemma carbon_radial_kernel inv legendre jroots nr nz ne m : good_library inv legendre jroots nr nz -> calc_solver_matrix inv legendre jroots nr nz ne = Ok m ->
  forall f, (forall i, (i < nr - 1)%nat -> rsum nr (fun j => b_r m i j * f j) = 0) -> forall j, (j < nr)%nat -> f j = f (nr - 1)%nat.
Proof.
  intros HG Hm. destruct (C68_radial_exact inv legendre jroots nr nz ne m HG Hm) as (x & _ & Xp & Xi & HX).
  apply (B_kernel nr (fun i => x i ^ 2) 3 (b_r m)); [|lra|].
  - intros i j Hi Hj E. assert (PI := Xp i Hi). assert (PJ := Xp j Hj).
    destruct (Nat.lt_total i j) as [L|[L|L]]; [|exact L|]; [assert (Q := Xi i j L Hj)|assert (Q := Xi j i L Hi)]; exfalso; nra.
  - intros P i LP Hi. destruct (HX (fun r => peval P (r ^ 2))) as (f' & f'' & D1 & D2 & HL & _).
    { exists (fun k => nth k P 0). intros r. unfold poly. apply peval_nth, LP. }
    assert (HLi := HL i Hi). unfold apply_row in HLi. rewrite HLi. unfold sphere_laplacian.
    assert (E1 : forall r, f' r = 2 * r * peval (pderiv P) (r ^ 2)) by (intros r; apply (uniqueness_limite (fun s => peval P (s ^ 2)) r); [exact (D1 r)|apply peval_square]).
    assert (E2 : forall r, f'' r = 2 * peval (pderiv P) (r ^ 2) + 4 * r ^ 2 * peval (pderiv (pderiv P)) (r ^ 2)).
    { intros r. apply (uniqueness_limite f' r); [apply D2|]. apply (Lib_Poly.derivable_pt_lim_ext (fun s => 2 * s * peval (pderiv P) (s ^ 2))); [intros; symmetry; apply E1|].
      replace (2 * peval (pderiv P) (r ^ 2) + 4 * r ^ 2 * peval (pderiv (pderiv P)) (r ^ 2)) with
        (2 * peval (pderiv P) (r ^ 2) + 2 * r * (2 * r * peval (pderiv (pderiv P)) (r ^ 2))) by ring.
      apply (derivable_pt_lim_mult (fun s => 2 * s) (fun s => peval (pderiv P) (s ^ 2))); [|apply peval_square].
      assert (D := derivable_pt_lim_scal id 2 r 1 (derivable_pt_lim_id r)). rewrite Rmult_1_r in D. exact D. }
    rewrite E1, E2. assert (PI := Xp i Hi). field. lra.
Qed.
Lemma carbon_axial_kernel inv legendre jroots nr nz ne m : good_library inv legendre jroots nr nz -> calc_solver_matrix inv legendre jroots nr nz ne = Ok m ->
  forall f, (forall z, (1 <= z < m_c m)%nat -> rsum (m_c m) (fun j => a_z m z j * f j) = 0) -> forall z, (z < m_c m)%nat -> f z = f 0%nat.
Proof.
  intros HG Hm f H. destruct (solver_matrix_inv _ _ _ _ _ _ _ Hm) as (H2 & H3 & H1 & Emc & _).
  assert (EL : m_c m = (ne * (nz - 1) + 1)%nat) by exact Emc. intros z Hz.
  apply (bed_constant legendre ne (nz - 1) H1 ltac:(lia)); [|intros w Hw|lia].
  - replace (nz - 1 - 1)%nat with (nz - 2)%nat by lia. apply (gl_leg _ _ _ _ _ HG).
  - rewrite <- EL in *. rewrite <- (H w Hw). apply rsum_ext. intros j Hj. f_equal. symmetry.
    rewrite (axial_rows inv legendre jroots nr nz ne m HG Hm w j Hw Hj). unfold Adv. do 3 f_equal. lia.
Qed.

Section Bed.
Variables (inv : nat -> matrix -> matrix) (legendre : nat -> nat -> R) (jroots : nat -> R -> R -> nat -> R) (nr nz ne : nat) (m : gac_matrices) (g : gac_in)
  (cinfl ff fa : nat -> R) (y : nat -> nat -> nat -> R).
Hypothesis HG : good_library inv legendre jroots nr nz.
Hypothesis Hm : calc_solver_matrix inv legendre jroots nr nz ne = Ok m.
Hypothesis HP : physical g.
Hypothesis Hff : forall i, (i < x_n g)%nat -> 0 < ff i.
Hypothesis Hkf : forall i, (i < x_n g)%nat -> 0 < stdv g i.
Hypothesis Ha : forall i, (i < x_n g)%nat -> 0 <= bedp g i * fa i.
Hypothesis Hb : forall i, (i < x_n g)%nat -> 0 < beds g i.
Hypothesis Hy : forall i r z, (i < x_n g)%nat -> (r < nr)%nat -> (z < m_c m)%nat -> 0 <= y i r z.
Let du := gac_rhs g nr (m_c m) (w_r m) (a_z m) (b_r m) cinfl ff fa y.
Hypothesis Hrest : forall i r z, (i < x_n g)%nat -> (r <= nr)%nat -> (z < m_c m)%nat -> du i r z = 0.
Let surf i z := cpore g nr ff y i (nr - 1) z.

Lemma nr_big : (2 <= nr)%nat.
Proof. destruct (solver_matrix_inv _ _ _ _ _ _ _ Hm) as (H2 & _). lia. Qed.
Lemma carbon_liquid i z : (i < x_n g)%nat -> (1 <= z < m_c m)%nat -> y i nr z = cinfl i.
Proof.
  intros Hi Hz. set (f := fun j => if Nat.eqb j 0 then cinfl i else y i nr j).
  assert (E : f z = f 0%nat).
  { apply (carbon_axial_kernel inv legendre jroots nr nz ne m HG Hm); [|lia]. intros w Hw.
    assert (W := C68_surface_weight_positive _ _ _ _ _ _ _ HG Hm). assert (D := dg_pos g HP i Hi).
    assert (B := gac_balance g nr (m_c m) (w_r m) (a_z m) (b_r m) cinfl ff fa y ltac:(assert (N := nr_big); lia) ltac:(lra) i w ltac:(lia) ltac:(lra)).
    fold du in B. rewrite (Hrest i nr w) in B by lia.
    rewrite (rsum_zero nr) in B by (intros r Hr; fold du; rewrite Hrest by lia; ring).
    assert (D1 := dg1_pos g HP).
    replace (m_c m) with (S (m_c m - 1)) by lia. rewrite rsum_S_first. unfold f at 1. cbn [Nat.eqb].
    replace (rsum (m_c m - 1) (fun i0 => a_z m w (S i0) * f (S i0))) with (rsum (m_c m - 1) (fun j => a_z m w (S j) * y i nr (S j))) by reflexivity.
    apply (Rmult_eq_reg_l (- dg1 g)); lra. }
  unfold f in E. cbn [Nat.eqb] in E. rewrite (proj2 (Nat.eqb_neq z 0)) in E by lia. exact E.
Qed.
Lemma carbon_surface i z : (i < x_n g)%nat -> (z < m_c m)%nat -> surf i z = cinfl i.
Proof.
  intros Hi Hz. assert (W := C68_surface_weight_positive _ _ _ _ _ _ _ HG Hm). assert (D := dg_pos g HP i Hi).
  assert (B := gac_bead_gain g nr (m_c m) (w_r m) (a_z m) (b_r m) cinfl ff fa y ltac:(assert (N := nr_big); lia) ltac:(lra) i z).
  rewrite rsum_zero in B by (intros r Hr; fold du; rewrite Hrest by lia; ring).
  assert (E : (if Nat.eqb z 0 then cinfl i else y i nr z) = cinfl i) by (destruct (Nat.eqb_spec z 0); [reflexivity|apply carbon_liquid; lia]).
  fold (surf i z) in B. rewrite E in B. unfold dgI in B. assert (K := Hkf i Hi).
  assert (ID : 0 < 1 / dg g i) by (apply Rdiv_lt_0_compat; lra).
  assert (P : 0 < stdv g i * (1 / dg g i)) by (apply Rmult_lt_0_compat; assumption).
  apply (Rmult_eq_reg_l (stdv g i * (1 / dg g i))); lra.
Qed.

(** a point's loadings as moles *)
Definition moles (yy : nat -> nat -> nat -> R) (r z j : nat) : R := qe g j * yy j r z.
Let hh (i : nat) (p : R) : R := rpow (x_xn g i / qe g i * p) (xni g i).
Lemma hh_pos i x : (i < x_n g)%nat -> 0 < x -> 0 < hh i x.
Proof.
  intros Hi Hx. apply rpow_pos. apply Rmult_lt_0_compat; [|exact Hx]. apply Rdiv_lt_0_compat; [apply HP, Hi|apply (qe_pos g HP i Hi)].
Qed.
Lemma hh_lt i a b : (i < x_n g)%nat -> 0 < a -> a < b -> hh i a < hh i b.
Proof.
  intros Hi Hx L. assert (X := ph_xn g HP i Hi). assert (Q := qe_pos g HP i Hi). assert (C : 0 < x_xn g i / qe g i) by (apply Rdiv_lt_0_compat; assumption).
  apply rpow_lt; [split; [apply Rmult_le_pos; lra|apply Rmult_lt_compat_l; assumption]|]. unfold xni. apply Rdiv_lt_0_compat; lra.
Qed.
Lemma cpore_zero yy i r z : (forall j, (j < x_n g)%nat -> yy j r z = 0) -> cpore g nr ff yy i r z = 0.
Proof.
  intros Z. assert (Y : yt0 g yy r z = 0).
  { unfold yt0. apply rsum_zero. intros j Hj. unfold z_raw. rewrite (Z j Hj), Rmult_0_r. cbv zeta. destruct (rltb 0 0); ring. }
  assert (R : cpore_raw g ff yy i r z = 0).
  { unfold cpore_raw. rewrite Y. destruct (rltb _ _); [reflexivity|]. rewrite (proj2 (rleb_true 0 0)) by lra. reflexivity. }
  unfold cpore. rewrite R. cbv zeta. destruct (Nat.eqb r (nr - 1)); [|reflexivity]. destruct (rltb 0 0); reflexivity.
Qed.
Lemma cpore_mixed A B yy r z : (forall i, (i < x_n g)%nat -> 0 <= yy i r z) -> 0 < rsum (x_n g) (moles yy r z) -> forall i, (i < x_n g)%nat ->
  A i * cpore g nr ff yy i r z + B i * yy i r z =
  mixed (x_n g) (fun i => A i * ff i) (fun i => B i / qe g i) (fun j => / x_xn g j) hh (moles yy r z) i.
Proof.
  intros Y S i Hi. assert (Q := qe_pos g HP).
  assert (P : forall j, (j < x_n g)%nat -> 0 <= moles yy r z j) by (intros j Hj; apply Rmult_le_pos; [left; apply Q, Hj|apply Y, Hj]).
  assert (E1 : exists k, (k < x_n g)%nat /\ 0 < yy k r z).
  { destruct (some_positive _ _ P S) as (k & Hk & PK). exists k. split; [exact Hk|]. unfold moles in PK. assert (QK := Q k Hk). assert (YK := Y k Hk).
    destruct YK as [YK|YK]; [exact YK|]. rewrite <- YK in PK. lra. }
  rewrite (cpore_eq g nr ff yy r z (ph_n g HP) Q (fun j Hj => ph_xn g HP j Hj) (fun j Hj => Rlt_le _ _ (Hff j Hj)) Y E1 i Hi).
  unfold mixed, hh. fold (moles yy r z). change (rsum (x_n g) (fun i0 => qe g i0 * yy i0 r z)) with (rsum (x_n g) (moles yy r z)).
  change (qe g i * yy i r z) with (moles yy r z i).
  rewrite (rsum_ext (x_n g) (fun j => / x_xn g j * moles yy r z j) (fun j => qe g j * yy j r z / x_xn g j)) by (intros; unfold moles, Rdiv; ring).
  assert (QI := Q i Hi). rewrite <- Rmult_assoc. f_equal. unfold moles. field. lra.
Qed.
Lemma moles_empty yy r z : (forall i, (i < x_n g)%nat -> 0 <= yy i r z) -> ~ 0 < rsum (x_n g) (moles yy r z) -> forall i, (i < x_n g)%nat -> yy i r z = 0.
Proof.
  intros Y N i Hi. assert (QI := qe_pos g HP i Hi). destruct (Y i Hi) as [P|P]; [exfalso|symmetry; exact P]. apply N.
  apply (rsum_pos_one _ _ i Hi); [intros j Hj; apply Rmult_le_pos; [left; apply (qe_pos g HP), Hj|apply Y, Hj]|apply Rmult_lt_0_compat; assumption].
Qed.
Lemma inv_xn i : (i < x_n g)%nat -> 0 < / x_xn g i.
Proof. intros Hi. apply Rinv_0_lt_compat, HP, Hi. Qed.
(** what diffuses determines the loadings *)
Lemma potential_determines A B yy r z yy' r' z' : (forall i, (i < x_n g)%nat -> 0 <= A i) -> (forall i, (i < x_n g)%nat -> 0 < B i) ->
  (forall i, (i < x_n g)%nat -> 0 <= yy i r z) -> (forall i, (i < x_n g)%nat -> 0 <= yy' i r' z') ->
  (forall i, (i < x_n g)%nat -> A i * cpore g nr ff yy i r z + B i * yy i r z = A i * cpore g nr ff yy' i r' z' + B i * yy' i r' z') ->
  forall i, (i < x_n g)%nat -> yy i r z = yy' i r' z'.
Proof.
  intros HA HB Y Y' E. assert (Q := qe_pos g HP).
  assert (N : forall (v v' : nat -> nat -> nat -> R) r z r' z', (forall i, (i < x_n g)%nat -> 0 <= v i r z) -> (forall i, (i < x_n g)%nat -> 0 <= v' i r' z') ->
    (forall i, (i < x_n g)%nat -> A i * cpore g nr ff v i r z + B i * v i r z = A i * cpore g nr ff v' i r' z' + B i * v' i r' z') ->
    ~ 0 < rsum (x_n g) (moles v r z) -> 0 < rsum (x_n g) (moles v' r' z') -> False).
  { clear Y Y' E. intros v v' r0 z0 r1 z1 Y Y' E N P.
    assert (P1 : forall j, (j < x_n g)%nat -> 0 <= moles v' r1 z1 j) by (intros j Hj; apply Rmult_le_pos; [left; apply Q, Hj|apply Y', Hj]).
    destruct (some_positive _ _ P1 P) as (k & Hk & PK).
    assert (Ek := E k Hk). rewrite (cpore_zero v k r0 z0), (moles_empty v r0 z0 Y N k Hk) in Ek by (apply moles_empty; assumption).
    rewrite (cpore_mixed A B v' r1 z1 Y' P k Hk) in Ek. unfold mixed in Ek.
    assert (WP := wsum_pos (x_n g) (fun j => / x_xn g j) inv_xn (moles v' r1 z1) P1 P).
    assert (H0 := hh_pos k _ Hk WP). assert (FK := Hff k Hk). assert (AK := HA k Hk). assert (BK := HB k Hk). assert (QK := Q k Hk).
    assert (T1 : 0 <= A k * ff k * (moles v' r1 z1 k / rsum (x_n g) (moles v' r1 z1) * hh k (rsum (x_n g) (fun j => / x_xn g j * moles v' r1 z1 j)))).
    { apply Rmult_le_pos; [apply Rmult_le_pos; lra|]. apply Rmult_le_pos; [|lra]. apply Rmult_le_pos; [lra|]. left. apply Rinv_0_lt_compat, P. }
    assert (T2 : 0 < B k / qe g k * moles v' r1 z1 k) by (apply Rmult_lt_0_compat; [apply Rdiv_lt_0_compat; assumption|exact PK]). lra. }
  destruct (Rlt_dec 0 (rsum (x_n g) (moles yy r z))) as [S|S]; destruct (Rlt_dec 0 (rsum (x_n g) (moles yy' r' z'))) as [S'|S'].
  - intros i Hi. assert (QI := Q i Hi).
    assert (M : moles yy r z i = moles yy' r' z' i).
    { apply (mixed_unique (x_n g) (fun i => A i * ff i) (fun i => B i / qe g i) (fun j => / x_xn g j) hh); try assumption.
      - intros k Hk. apply Rmult_le_pos; [apply HA, Hk|left; apply Hff, Hk].
      - apply inv_xn.
      - apply hh_pos.
      - apply hh_lt.
      - intros k Hk. apply Rdiv_lt_0_compat; [apply HB, Hk|apply Q, Hk].
      - intros k Hk. apply Rmult_le_pos; [left; apply Q, Hk|apply Y, Hk].
      - intros k Hk. apply Rmult_le_pos; [left; apply Q, Hk|apply Y', Hk].
      - intros k Hk. rewrite <- !cpore_mixed by assumption. apply E, Hk. }
    unfold moles in M. apply (Rmult_eq_reg_l (qe g i)); lra.
  - exfalso. apply (N yy' yy r' z' r z Y' Y); try assumption. intros i Hi. symmetry. apply E, Hi.
  - exfalso. apply (N yy yy' r z r' z' Y Y'); assumption.
  - intros i Hi. rewrite (moles_empty yy r z Y S i Hi), (moles_empty yy' r' z' Y' S' i Hi). reflexivity.
Qed.
(** so does the liquid they are in equilibrium with *)
Lemma liquid_determines yy r z yy' r' z' : (forall i, (i < x_n g)%nat -> 0 <= yy i r z) -> (forall i, (i < x_n g)%nat -> 0 <= yy' i r' z') ->
  (forall i, (i < x_n g)%nat -> cpore g nr ff yy i r z = cpore g nr ff yy' i r' z') ->
  forall i, (i < x_n g)%nat -> yy i r z = yy' i r' z'.
Proof.
  intros Y Y' E. assert (Q := qe_pos g HP).
  assert (CM : forall (v : nat -> nat -> nat -> R) r z, (forall i, (i < x_n g)%nat -> 0 <= v i r z) -> 0 < rsum (x_n g) (moles v r z) -> forall i, (i < x_n g)%nat ->
    cpore g nr ff v i r z = mixed (x_n g) (fun i => 1 * ff i) (fun i => 0 / qe g i) (fun j => / x_xn g j) hh (moles v r z) i).
  { intros v r0 z0 V S i Hi. rewrite <- (cpore_mixed (fun _ => 1) (fun _ => 0) v r0 z0 V S i Hi). ring. }
  assert (N : forall (v v' : nat -> nat -> nat -> R) r z r' z', (forall i, (i < x_n g)%nat -> 0 <= v i r z) -> (forall i, (i < x_n g)%nat -> 0 <= v' i r' z') ->
    (forall i, (i < x_n g)%nat -> cpore g nr ff v i r z = cpore g nr ff v' i r' z') ->
    ~ 0 < rsum (x_n g) (moles v r z) -> 0 < rsum (x_n g) (moles v' r' z') -> False).
  { clear Y Y' E. intros v v' r0 z0 r1 z1 Y Y' E N P.
    assert (P1 : forall j, (j < x_n g)%nat -> 0 <= moles v' r1 z1 j) by (intros j Hj; apply Rmult_le_pos; [left; apply Q, Hj|apply Y', Hj]).
    destruct (some_positive _ _ P1 P) as (k & Hk & PK).
    assert (Ek := E k Hk). rewrite (cpore_zero v k r0 z0) in Ek by (apply moles_empty; assumption).
    rewrite (CM v' r1 z1 Y' P k Hk) in Ek. unfold mixed in Ek.
    assert (WP := wsum_pos (x_n g) (fun j => / x_xn g j) inv_xn (moles v' r1 z1) P1 P).
    assert (H0 := hh_pos k _ Hk WP). assert (FK := Hff k Hk).
    assert (T1 : 0 < 1 * ff k * (moles v' r1 z1 k / rsum (x_n g) (moles v' r1 z1) * hh k (rsum (x_n g) (fun j => / x_xn g j * moles v' r1 z1 j)))).
    { apply Rmult_lt_0_compat; [lra|]. apply Rmult_lt_0_compat; [|exact H0]. apply Rdiv_lt_0_compat; assumption. }
    unfold Rdiv in Ek at 2. rewrite !Rmult_0_l in Ek. lra. }
  destruct (Rlt_dec 0 (rsum (x_n g) (moles yy r z))) as [S|S]; destruct (Rlt_dec 0 (rsum (x_n g) (moles yy' r' z'))) as [S'|S'].
  - intros i Hi. assert (QI := Q i Hi).
    assert (M : moles yy r z i = moles yy' r' z' i).
    { apply (pure_unique (x_n g) (fun i => 1 * ff i) (fun i => 0 / qe g i) (fun j => / x_xn g j) hh); try assumption.
      - apply inv_xn.
      - apply hh_pos.
      - apply hh_lt.
      - intros k Hk. assert (F := Hff k Hk). lra.
      - intros k Hk. unfold Rdiv. ring.
      - intros k Hk. apply Rmult_le_pos; [left; apply Q, Hk|apply Y, Hk].
      - intros k Hk. apply Rmult_le_pos; [left; apply Q, Hk|apply Y', Hk].
      - intros k Hk. rewrite <- !CM by assumption. apply E, Hk. }
    unfold moles in M. apply (Rmult_eq_reg_l (qe g i)); lra.
  - exfalso. apply (N yy' yy r' z' r z Y' Y); try assumption. intros i Hi. symmetry. apply E, Hi.
  - exfalso. apply (N yy yy' r z r' z' Y Y'); assumption.
  - intros i Hi. rewrite (moles_empty yy r z Y S i Hi), (moles_empty yy' r' z' Y' S' i Hi). reflexivity.
Qed.
Lemma carbon_uniform i r z : (i < x_n g)%nat -> (r < nr)%nat -> (z < m_c m)%nat -> y i r z = y i (nr - 1)%nat z.
Proof.
  intros Hi Hr Hz. assert (N := nr_big).
  apply (potential_determines (fun i => bedp g i * fa i) (beds g) y r z y (nr - 1) z Ha Hb); try exact Hi; try (intros; apply Hy; (assumption || lia)).
  intros k Hk.
  apply (carbon_radial_kernel inv legendre jroots nr nz ne m HG Hm (fun r => bedp g k * fa k * cpore g nr ff y k r z + beds g k * y k r z)); [|exact Hr].
  intros w Hw. assert (Z := Hrest k w z Hk ltac:(lia) Hz). unfold du, gac_rhs in Z. rewrite (proj2 (Nat.ltb_lt w (nr - 1))) in Z by lia. unfold bb in Z.
  rewrite <- Z, <- rsum_scal_r, <- rsum_plus. apply rsum_ext. intros j Hj. ring.
Qed.
End Bed.
