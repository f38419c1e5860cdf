(** Specification of similar equipment: columns, batches and contactors of different size
    that are the same after a change of scale. *)
From Coq Require Import Reals List Arith.
From Verif Require Import Lib_Sum M_IxColumn M_IxBatch M_GacColumn.
From Verif Require M_Pac.
Import ListNotations.
Open Scope R_scope.

(** Seconds the water spends in an empty bed. *)
Definition ebct (c : column) : R := Lbed c / vel c.
(** Two ion-exchange columns with the same resin, ions and numerical grid.  The second has
    [r] times the contact time, and its film transfer (per radius) and diffusion (per radius
    squared) take [r] times as long. *)
Record similar (r : R) (c c' : column) : Prop := {
  sm_ions : NION c' = NION c; sm_nr : nr c' = nr c; sm_nz : nz c' = nz c;
  sm_bed : EBED c' = EBED c; sm_pores : EPOR c' = EPOR c; sm_Q : Qcap c' = Qcap c;
  sm_K : forall i, Kxc c' i = Kxc c i; sm_val : forall i, val c' i = val c i;
  sm_ebct : ebct c' = r * ebct c;
  sm_film : forall i, (i < NION c)%nat -> r * (kL c' i / rb c') = kL c i / rb c;
  sm_surface : forall i, (i < NION c)%nat -> r * (Ds c' i / rb c' ^ 2) = Ds c i / rb c ^ 2;
  sm_pore : forall i, (i < NION c)%nat -> r * (Dp c' i / rb c' ^ 2) = Dp c i / rb c ^ 2 }.
Definition sized (c : column) : Prop := 0 < Lbed c /\ 0 < vel c /\ 0 < rb c.

(** Two batches with the same resin, the same initial water and the same resin volume per
    volume of water. *)
Record similar_batch (r : R) (b b' : batch) : Prop := {
  sb_ions : b_NION b' = b_NION b; sb_nr : b_nr b' = b_nr b;
  sb_Q : b_Q b' = b_Q b; sb_pores : b_EPOR b' = b_EPOR b;
  sb_K : b_K b' = b_K b; sb_val : b_val b' = b_val b; sb_C0 : b_C0 b' = b_C0 b;
  sb_dose : b_VR b' / b_VL b' = b_VR b / b_VL b;
  sb_film : r * (b_kL b' / b_rb b') = b_kL b / b_rb b;
  sb_surface : r * (b_Ds b' / b_rb b' ^ 2) = b_Ds b / b_rb b ^ 2;
  sb_pore : r * (b_Dp b' / b_rb b' ^ 2) = b_Dp b / b_rb b ^ 2 }.

(** Two carbon columns: the same carbon, water and compounds; coefficients supplied. *)
Definition supplied (g : gac_in) : Prop := forall i, (i < x_n g)%nat -> 0 < x_kf g i /\ 0 < x_dp g i /\ 0 < x_ds g i.
Record similar_gac (r : R) (g g' : gac_in) : Prop := {
  sg_n : x_n g' = x_n g; sg_epor : x_epor g' = x_epor g; sg_rhop : x_rhop g' = x_rhop g; sg_ebed : x_ebed g' = x_ebed g;
  sg_tortu : x_tortu g' = x_tortu g; sg_mass : x_mass_mul g' = x_mass_mul g; sg_free : x_organic_free g' = x_organic_free g;
  sg_K : forall i, x_K g' i = x_K g i; sg_xn : forall i, x_xn g' i = x_xn g i;
  sg_mw : forall i, x_mw g' i = x_mw g i; sg_inf : forall i, x_inf0 g' i = x_inf0 g i;
  sg_tau : x_tau g' = r * x_tau g;
  sg_film : forall i, (i < x_n g)%nat -> r * (x_kf g' i / x_rad g') = x_kf g i / x_rad g;
  sg_pore : forall i, (i < x_n g)%nat -> r * (x_dp g' i / x_rad g' ^ 2) = x_dp g i / x_rad g ^ 2;
  sg_surface : forall i, (i < x_n g)%nat -> r * (x_ds g' i / x_rad g' ^ 2) = x_ds g i / x_rad g ^ 2 }.

(** Two powdered carbons in contactors with the same share of carbon. *)
Record similar_pac (r : R) (q q' : M_Pac.eqn) : Prop := {
  sp_rho : M_Pac.q_rho q' = M_Pac.q_rho q; sp_K : M_Pac.q_K q' = M_Pac.q_K q; sp_n : M_Pac.q_n q' = M_Pac.q_n q;
  sp_E : M_Pac.q_E q' = M_Pac.q_E q; sp_Ep : M_Pac.q_Ep q' = M_Pac.q_Ep q;
  sp_film : r * (M_Pac.q_kL q' / M_Pac.q_ra q') = M_Pac.q_kL q / M_Pac.q_ra q;
  sp_pore : r * (M_Pac.q_Dp q' / M_Pac.q_ra q' ^ 2) = M_Pac.q_Dp q / M_Pac.q_ra q ^ 2;
  sp_surface : r * (M_Pac.q_Ds q' / M_Pac.q_ra q' ^ 2) = M_Pac.q_Ds q / M_Pac.q_ra q ^ 2 }.
