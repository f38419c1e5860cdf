(** Property C191: signs of the concentrations a granular-carbon run computes. *)
From Coq Require Import Reals List Arith Bool Lra Lia.
From Verif Require Import Lib_Py Lib_Sum Lib_Traj Lib_Tame M_Colloc S_Colloc P_Colloc P_Ocfe M_GacFun P_GacFun M_GacColumn S_GacColumn P_GacColumn P_GacUnique
  Props_GacColumn Props_Negative Props_Unique Props_Order Props_Exist.
Import ListNotations.
Open Scope R_scope.

(** ** The first column of the axial matrix *)
Section Axial.
Variables (inv : nat -> matrix -> matrix) (legendre : nat -> nat -> R) (jroots : nat -> R -> R -> nat -> R) (nr nz ne : nat) (m : gac_matrices).
Hypothesis HG : good_library inv legendre jroots nr nz.
Hypothesis Hm : calc_solver_matrix inv legendre jroots nr nz ne = Ok m.
Lemma axial_first : exists L, nz = S L /\ (2 <= L)%nat /\ (1 <= ne)%nat /\ m_c m = (ne * L + 1)%nat /\
  forall z, (1 <= z < m_c m)%nat -> a_z m z 0%nat = Adv legendre ne L z 0%nat.
Proof.
  destruct (solver_matrix_inv _ _ _ _ _ _ _ Hm) as (H2 & H3 & H1 & Emc & _).
  exists (nz - 1)%nat. split; [lia|]. split; [lia|]. split; [exact H1|]. split; [exact Emc|].
  intros z Z. rewrite (axial_rows _ _ _ _ _ _ _ HG Hm z 0%nat Z) by lia. unfold Adv. replace (S (nz - 1))%nat with nz by lia. reflexivity.
Qed.
(** In the first element. *)
Lemma axial_sign z : (1 <= z < nz)%nat -> 0 < (-1) ^ z * a_z m z 0%nat.
Proof.
  intros Z. destruct axial_first as (L & EL & HL & H1 & Emc & EA). rewrite EA by (rewrite Emc; nia).
  assert (HR := gl_leg _ _ _ _ _ HG). rewrite EL in HR.
  assert (HR' : interior_roots (L - 1) (legendre (L - 1)%nat)) by (replace (L - 1)%nat with (S L - 2)%nat by lia; exact HR).
  assert (PN := INR_NE ne L H1 ltac:(lia)).
  destruct (x_facts legendre ne L H1 ltac:(lia) HR') as (X0 & X1 & HI).
  assert (S := first_column_sign (S L) (rootsz legendre (S L)) (fun i j I J => HI i j I ltac:(lia)) z ltac:(lia)).
  set (A := Amat (Datatypes.S L) (rootsz legendre (Datatypes.S L))) in *.
  assert (C : (z < L \/ 1 = ne)%nat \/ (z = L /\ (1 < ne)%nat)) by lia. destruct C as [C|(-> & C)].
  - assert (H := Adv_interior legendre ne L H1 ltac:(lia) 0%nat z 0%nat ltac:(lia) ltac:(lia) ltac:(lia)).
    rewrite Nat.mul_0_l, !Nat.add_0_l, (proj2 (Nat.ltb_lt 0 (L + 1))) in H by lia. cbn [Nat.leb andb Nat.sub] in H. rewrite H.
    replace ((-1) ^ z * (INR ne * Amat (Datatypes.S L) (rootsz legendre (Datatypes.S L)) z 0)) with (INR ne * ((-1) ^ z * A z 0%nat)) by (unfold A; ring).
    apply Rmult_lt_0_compat; assumption.
  - assert (H := Adv_joint legendre ne L H1 ltac:(lia) 0%nat 0%nat ltac:(lia) ltac:(unfold NZ; nia)).
    rewrite Nat.mul_0_l, !Nat.add_0_l, (proj2 (Nat.ltb_lt 0 L)) in H by lia. cbn [Nat.leb andb Nat.sub] in H. rewrite H.
    assert (QP := Qd_pos legendre ne L H1 ltac:(lia) HR'). unfold Qd in QP |- *. fold A in QP |- *.
    assert (A0 : 0 < -1 * A 0%nat 0%nat).
    { apply (A_diag_sign legendre ne L H1 ltac:(lia) (-1) 0%nat L); [lia| |].
      - intros j J. destruct (Nat.eq_dec j 0) as [->|]; [lra|]. assert (rootsz legendre (Datatypes.S L) 0%nat < rootsz legendre (Datatypes.S L) j) by (apply HI; lia). lra.
      - assert (rootsz legendre (Datatypes.S L) 0%nat < rootsz legendre (Datatypes.S L) L) by (apply HI; lia). lra. }
    set (a := A L 0%nat) in *. set (b := A L L) in *. set (c := A 0%nat 0%nat) in *.
    replace ((-1) ^ L * (INR ne * a - INR ne * b / (b - c) * a)) with (INR ne * ((-1) ^ L * a) * (- c / (b - c))) by (field; lra).
    apply Rmult_lt_0_compat; [apply Rmult_lt_0_compat; assumption|]. apply Rdiv_lt_0_compat; lra.
Qed.
End Axial.

(** ** The first moments *)
Lemma lsum_continuous {A} (f : A -> R -> R) l a : (forall p, In p l -> continuity_pt (f p) a) -> continuity_pt (fun t => lsum (map (fun p => f p t) l)) a.
Proof.
  induction l as [|p l IH]; intros H; cbn [map lsum]; [apply c_const|].
  apply c_plus; [apply H; left; reflexivity|apply IH; intros q Q; apply H; right; exact Q].
Qed.
Lemma dist_self {X Y} (idx : list X) (co : X -> Y -> R) y : dist idx co y y = 0.
Proof. unfold dist. induction idx as [|p l IH]; cbn [map lsum]; [reflexivity|]. rewrite IH, Rminus_eq_0, Rabs_R0. ring. Qed.
(** A rate that is continuous in time and state and positive at the start. *)
Lemma starts_up {X Y} (idx : list X) (co : X -> Y -> R) (F : R -> Y -> R) Tf (y : R -> Y) f : 0 < Tf ->
  tame idx co (fun s => 0 <= s <= Tf) F 0 (y 0) -> (forall p, In p idx -> continuity_pt (fun t => co p (y t)) 0) ->
  evolves 0 Tf f (fun t => F t (y t)) -> 0 < F 0 (y 0) -> exists d, 0 < d <= Tf /\ forall T, 0 < T < d -> f 0 < f T.
Proof.
  intros HT ((TC & _) & _) HC EV P. destruct (TC (F 0 (y 0)) P) as (d & D & Q).
  assert (CD : continuity_pt (fun t => dist idx co (y t) (y 0)) 0).
  { unfold dist. apply (lsum_continuous (fun p t => Rabs (co p (y t) - co p (y 0)))). intros p I.
    apply (continuity_pt_comp (fun t => co p (y t) - co p (y 0)) Rabs); [apply c_minus; [apply HC, I|apply c_const]|apply Rcontinuity_abs]. }
  destruct (CD d D) as (d' & D' & Q').
  assert (M1 := Rmin_l (Rmin d d') Tf). assert (M2 := Rmin_r (Rmin d d') Tf). assert (M3 := Rmin_l d d'). assert (M4 := Rmin_r d d').
  assert (MP : 0 < Rmin (Rmin d d') Tf) by (apply Rmin_glb_lt; [apply Rmin_glb_lt; lra|lra]).
  exists (Rmin (Rmin d d') Tf). split; [lra|]. intros T HH.
  destruct (evolves_mvt 0 T f (fun t => F t (y t)) ltac:(lra) (evolves_sub 0 Tf T f _ ltac:(lra) EV)) as (x & Xx & E).
  assert (LT : 0 < F x (y x)).
  { assert (R0 : Rabs (F x (y x) - F 0 (y 0)) < F 0 (y 0)).
    { apply Q; [lra|rewrite Rminus_0_r, Rabs_right; lra|].
      assert (W : R_dist (dist idx co (y x) (y 0)) (dist idx co (y 0) (y 0)) < d).
      { apply Q'. split; [split; [exact I|lra]|]. cbn. unfold R_dist. rewrite Rminus_0_r, Rabs_right; lra. }
      rewrite dist_self in W. unfold R_dist in W. rewrite Rminus_0_r in W. eapply Rle_lt_trans; [apply Rle_abs|exact W]. }
    apply Rabs_def2 in R0. lra. }
  assert (0 < F x (y x) * (T - 0)) by (apply Rmult_lt_0_compat; lra). lra.
Qed.
Lemma starts_down' {X Y} (idx : list X) (co : X -> Y -> R) (F : R -> Y -> R) Tf (y : R -> Y) f : 0 < Tf ->
  tame idx co (fun s => 0 <= s <= Tf) F 0 (y 0) -> (forall p, In p idx -> continuity_pt (fun t => co p (y t)) 0) ->
  evolves 0 Tf f (fun t => F t (y t)) -> F 0 (y 0) < 0 -> exists d, 0 < d <= Tf /\ forall T, 0 < T < d -> f T < f 0.
Proof.
  intros HT TM HC EV P.
  destruct (starts_up idx co (fun t u => -1 * F t u) Tf y (fun t => -1 * f t) HT) as (d & D & Q).
  - apply tame_scal; exact TM.
  - exact HC.
  - apply (evolves_scal 0 Tf (-1) _ _ EV).
  - lra.
  - exists d. split; [exact D|]. intros T HH. specialize (Q T HH). cbv beta in Q. lra.
Qed.

Section Start.
Variables (inv : nat -> matrix -> matrix) (legendre : nat -> nat -> R) (jroots : nat -> R -> R -> nat -> R) (nr nz ne : nat) (m : gac_matrices).
Variables (g : gac_in) (rows : nat -> list (R * R)) (foul : nat -> R -> R) (Tf : R) (y : R -> nat -> nat -> nat -> R) (i : nat).
Hypothesis HG : good_library inv legendre jroots nr nz.
Hypothesis Hm : calc_solver_matrix inv legendre jroots nr nz ne = Ok m.
Hypothesis HP : physical g.
Hypothesis Hx : forall j, (j < x_n g)%nat -> x_xn g j <= 1.
Hypothesis Hi : (i < x_n g)%nat.
Hypothesis HT : 0 < Tf.
Hypothesis HI : 0 < interp_x (rows i) 0.
Hypothesis TR : gac_trajectory (x_n g) nr (m_c m) (diffun g m nr rows foul) Tf y.
Hypothesis Y0 : forall j r z, (j < x_n g)%nat -> (r <= nr)%nat -> (z < m_c m)%nat -> y 0 j r z = 0.
Lemma inlet_positive : 0 < at_time g (cinfA g rows) 0 i.
Proof.
  assert (E := C37_inlet_follows_influent g rows i 0 HP Hi). cbn [INR] in E. rewrite Rmult_0_l in E.
  rewrite <- E in HI. clear E. assert (C := cb0_pos g HP i Hi). assert (M := ph_mw g HP i Hi). assert (U := ph_mul g HP).
  apply Rnot_le_lt. intros N. apply (Rlt_irrefl 0). eapply Rlt_le_trans; [exact HI|].
  set (v := at_time _ _ _ _) in *. replace (v * cb0 g i * x_mw g i / x_mass_mul g) with (- (- v * (cb0 g i * x_mw g i / x_mass_mul g))) by (field; lra).
  assert (0 < cb0 g i * x_mw g i / x_mass_mul g) by (apply Rdiv_lt_0_compat; [apply Rmult_lt_0_compat; assumption|exact U]).
  assert (0 <= - v * (cb0 g i * x_mw g i / x_mass_mul g)) by (apply Rmult_le_pos; lra). lra.
Qed.
Lemma surface0 z : (z < m_c m)%nat -> cpore g nr (at_time g (foulFA g foul) 0) (y 0) i (nr - 1) z = 0.
Proof.
  intros Z. unfold cpore. rewrite Nat.eqb_refl.
  assert (E : cpore_raw g (at_time g (foulFA g foul) 0) (y 0) i (nr - 1) z = 0).
  { unfold cpore_raw.
    assert (Y : yt0 g (y 0) (nr - 1) z = 0).
    { unfold yt0. apply rsum_zero. intros j Hj. unfold z_raw. rewrite Y0 by (try assumption; lia). rewrite Rmult_0_r.
      rewrite (proj2 (rltb_false 0 0)) by lra. ring. }
    rewrite Y. destruct (rltb _ _); [reflexivity|]. rewrite (proj2 (rleb_true 0 0)) by lra. reflexivity. }
  rewrite E. rewrite (proj2 (rltb_false 0 0)) by lra. reflexivity.
Qed.
Lemma rate0 z : (1 <= z < m_c m)%nat -> diffun g m nr rows foul 0 (y 0) i nr z = - (dg1 g * at_time g (cinfA g rows) 0 i) * a_z m z 0%nat.
Proof.
  intros Z. assert (HR := solver_matrix_inv _ _ _ _ _ _ _ Hm). destruct HR as (H2 & _).
  unfold diffun, gac_rhs. rewrite (proj2 (Nat.ltb_ge nr (nr - 1))) by lia. rewrite (proj2 (Nat.eqb_neq nr (nr - 1))) by lia. rewrite (proj2 (Nat.eqb_neq z 0)) by lia.
  unfold cbs. rewrite (proj2 (Nat.eqb_neq z 0)) by lia. rewrite surface0, Y0 by lia.
  assert (S : rsum (m_c m - 1) (fun j => a_z m z (S j) * y 0 i nr (S j)) = 0).
  { apply rsum_zero. intros j Hj. rewrite Y0 by lia. ring. }
  rewrite S. ring.
Qed.
Lemma carbon_first_moment z : (1 <= z < nz)%nat ->
  (Nat.Odd z -> exists d, 0 < d <= Tf /\ forall T, 0 < T < d -> 0 < y T i nr z) /\
  (Nat.Even z -> exists d, 0 < d <= Tf /\ forall T, 0 < T < d -> y T i nr z < 0).
Proof.
  intros Z. assert (HR := solver_matrix_inv _ _ _ _ _ _ _ Hm). destruct HR as (H2 & H3 & H1 & Emc & _).
  assert (ZM : (1 <= z < m_c m)%nat) by (rewrite Emc; nia).
  assert (S := axial_sign _ _ _ _ _ _ _ HG Hm z Z). assert (IP := inlet_positive). assert (D1 := dg1_pos g HP).
  assert (PP : 0 < dg1 g * at_time g (cinfA g rows) 0 i) by (apply Rmult_lt_0_compat; lra).
  assert (TM := carbon_tame g m nr rows foul Tf HP Hx ltac:(lia) 0 (y 0) (i, nr, z) ltac:(lra) ltac:(apply in_g_entries; lia)). cbn [fst snd] in TM.
  assert (CC : forall p, In p (g_entries g nr (m_c m)) -> continuity_pt (fun t => g_at p (y t)) 0).
  { intros ((j & r) & k) Hp. apply g_entries_in in Hp as (A1 & A2 & A3). cbn [fst snd] in *. apply (TR j r k A1 A2 A3). lra. }
  assert (EV := TR i nr z Hi (le_n nr) ltac:(lia)).
  assert (L0 := Y0 i nr z Hi (le_n nr) ltac:(lia)).
  split; intros P.
  - rewrite odd_sign in S by exact P.
    destruct (starts_up _ _ _ Tf y (fun T => y T i nr z) HT TM CC EV) as (d & D & Q).
    { rewrite rate0 by exact ZM. assert (0 < dg1 g * at_time g (cinfA g rows) 0 i * (- a_z m z 0%nat)) by (apply Rmult_lt_0_compat; lra). lra. }
    exists d. split; [exact D|]. intros T HH. specialize (Q T HH). cbv beta in Q. lra.
  - rewrite even_sign in S by exact P.
    destruct (starts_down' _ _ _ Tf y (fun T => y T i nr z) HT TM CC EV) as (d & D & Q).
    { rewrite rate0 by exact ZM. assert (0 < dg1 g * at_time g (cinfA g rows) 0 i * (a_z m z 0%nat)) by (apply Rmult_lt_0_compat; lra). lra. }
    exists d. split; [exact D|]. intros T HH. specialize (Q T HH). cbv beta in Q. lra.
Qed.
End Start.

(** ** C191: concentrations turn negative, and the report hides it *)

(** From a fresh bed, every compound the water carries is at once at a negative concentration at
    the second point below the inlet, and at every second one after it in the first element. *)
Theorem C191_column_refuted : forall inv legendre jroots nr nz ne m g rows foul Tf y i z,
  good_library inv legendre jroots nr nz -> calc_solver_matrix inv legendre jroots nr nz ne = Ok m ->
  physical g -> (forall j, (j < x_n g)%nat -> x_xn g j <= 1) -> (i < x_n g)%nat -> 0 < Tf -> 0 < interp_x (rows i) 0 ->
  gac_trajectory (x_n g) nr (m_c m) (diffun g m nr rows foul) Tf y ->
  (forall j r k, (j < x_n g)%nat -> (r <= nr)%nat -> (k < m_c m)%nat -> y 0 j r k = 0) ->
  (2 <= z < nz)%nat -> Nat.Even z ->
  exists d, 0 < d <= Tf /\ forall T, 0 < T < d -> y T i nr z < 0.
Proof.
  intros inv legendre jroots nr nz ne m g rows foul Tf y i z HG Hm HP Hx Hi HT HI TR Y0 Z E.
  eapply (carbon_first_moment inv legendre jroots nr nz ne m g rows foul Tf y i); try eassumption. lia.
Qed.

(** Without finite elements and with an odd number of points along the bed, so is the effluent, and
    what is reported for it is zero. *)
Theorem C191_effluent_refuted : forall inv legendre jroots nr nz m g rows foul Tf y i,
  good_library inv legendre jroots nr nz -> calc_solver_matrix inv legendre jroots nr nz 1 = Ok m ->
  physical g -> (forall j, (j < x_n g)%nat -> x_xn g j <= 1) -> (i < x_n g)%nat -> 0 < Tf -> 0 < interp_x (rows i) 0 ->
  gac_trajectory (x_n g) nr (m_c m) (diffun g m nr rows foul) Tf y ->
  (forall j r k, (j < x_n g)%nat -> (r <= nr)%nat -> (k < m_c m)%nat -> y 0 j r k = 0) ->
  Nat.Odd nz ->
  exists d, 0 < d <= Tf /\ forall T, 0 < T < d -> y T i nr (m_c m - 1)%nat < 0 /\ reported g i (y T i nr (m_c m - 1)%nat) = 0.
Proof.
  intros inv legendre jroots nr nz m g rows foul Tf y i HG Hm HP Hx Hi HT HI TR Y0 (k & E).
  assert (HR := solver_matrix_inv _ _ _ _ _ _ _ Hm). destruct HR as (H2 & H3 & H1 & Emc & _).
  assert (F : (nz - 1 = m_c m - 1)%nat) by lia. rewrite <- F.
  destruct (carbon_first_moment inv legendre jroots nr nz 1 m g rows foul Tf y i HG Hm HP Hx Hi HT HI TR Y0 (nz - 1) ltac:(lia)) as (_ & Q).
  destruct Q as (d & D & Q); [exists k; lia|]. exists d. split; [exact D|]. intros T HH. specialize (Q T HH). split; [exact Q|].
  unfold reported. rewrite (proj2 (rltb_true _ _)) by exact Q. unfold Rdiv. ring.
Qed.

(** With an even number the effluent is at once positive and reported as such; so are the first
    point below the inlet and every second one after it in the first element. *)
Theorem C191_start_partial : forall inv legendre jroots nr nz ne m g rows foul Tf y i z,
  good_library inv legendre jroots nr nz -> calc_solver_matrix inv legendre jroots nr nz ne = Ok m ->
  physical g -> (forall j, (j < x_n g)%nat -> x_xn g j <= 1) -> (i < x_n g)%nat -> 0 < Tf -> 0 < interp_x (rows i) 0 ->
  gac_trajectory (x_n g) nr (m_c m) (diffun g m nr rows foul) Tf y ->
  (forall j r k, (j < x_n g)%nat -> (r <= nr)%nat -> (k < m_c m)%nat -> y 0 j r k = 0) ->
  (1 <= z < nz)%nat -> Nat.Odd z ->
  exists d, 0 < d <= Tf /\ forall T, 0 < T < d -> 0 < y T i nr z /\ (z = (m_c m - 1)%nat -> 0 < reported g i (y T i nr z)).
Proof.
  intros inv legendre jroots nr nz ne m g rows foul Tf y i z HG Hm HP Hx Hi HT HI TR Y0 Z O.
  destruct (carbon_first_moment inv legendre jroots nr nz ne m g rows foul Tf y i HG Hm HP Hx Hi HT HI TR Y0 z Z) as (Q & _).
  destruct (Q O) as (d & D & P). exists d. split; [exact D|]. intros T HH. specialize (P T HH). split; [exact P|]. intros _.
  unfold reported. rewrite (proj2 (rltb_false _ _)) by lra.
  assert (C := cb0_pos g HP i Hi). assert (M := ph_mw g HP i Hi). assert (U := ph_mul g HP).
  apply Rdiv_lt_0_compat; [|exact U]. apply Rmult_lt_0_compat; [|exact M]. apply Rmult_lt_0_compat; assumption.
Qed.
Print Assumptions C191_column_refuted.
Print Assumptions C191_effluent_refuted.
Print Assumptions C191_start_partial.

(** Two compounds at 100 ug/L on a bed of three points: it can be run, both leave at a negative
    concentration from the start, and zero is reported. *)
Example negative_carbon_effluent : exists m Tf y d,
  calc_solver_matrix inv23 leg_mid jac_one 2 3 1 = Ok m /\ 0 < d <= Tf /\
  gac_trajectory 2 2 (m_c m) (diffun (g_ex 2 true 1) m 2 (fun _ => [(0, 100); (1000, 100)]) (fun _ _ => 1)) Tf y /\
  forall T, 0 < T < d -> y T 0%nat 2%nat (m_c m - 1)%nat < 0 /\ reported (g_ex 2 true 1) 0 (y T 0%nat 2%nat (m_c m - 1)%nat) = 0.
Proof.
  destruct (matrices_example 1 (le_n 1)) as (m & Hm & _). exists m.
  assert (HP : physical (g_ex 2 true 1)) by (apply physical_example; lia).
  assert (Hx : forall j, (j < x_n (g_ex 2 true 1))%nat -> x_xn (g_ex 2 true 1) j <= 1) by (intros j _; cbn; lra).
  destruct (C168_carbon_column_starts (g_ex 2 true 1) m 2 (fun _ => [(0, 100); (1000, 100)]) (fun _ _ => 1) 1 (fun _ _ _ => 0) HP Hx ltac:(lia) ltac:(lra)) as (Tf & y & HT & TR & Y0).
  destruct (C191_effluent_refuted inv23 leg_mid jac_one 2 3 m (g_ex 2 true 1) (fun _ => [(0, 100); (1000, 100)]) (fun _ _ => 1) Tf y 0 library_example Hm HP Hx) as (d & D & Q); try assumption.
  - cbn. lia.
  - lra.
  - unfold interp_x, line. lra.
  - exists 1%nat. reflexivity.
  - exists Tf, y, d. split; [exact Hm|]. split; [exact D|]. split; [exact TR|exact Q].
Qed.
