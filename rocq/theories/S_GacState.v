(** Specification vocabulary for C42 and C43: what each uncertainty request asks for. *)
From Coq Require Import Reals List Arith Bool String.
From Verif Require Import Lib_Py M_GacState.
Import ListNotations.
Open Scope R_scope.

(** The things a request can name.  [Loading]: the loading q behind 1/n. *)
Inductive what := Capacity | FreundlichK | Loading | Mass | SurfaceDiffusion | PoreDiffusion | FilmTransfer | Flow | Influent.

(** A request of p percent asks for two cases, 1 + p/100 and 1 - p/100. *)
Definition pair_of (w : what) (v : option R) : list (what * R) :=
  match v with None => [] | Some p => [(w, 1 + p / 100); (w, 1 - p / 100)] end.
Definition requested (q : request) : list (what * R) :=
  (pair_of Capacity (r_capacity q) ++ pair_of FreundlichK (r_k q) ++ pair_of Loading (r_qn q)
   ++ pair_of Mass (r_mass q) ++ pair_of SurfaceDiffusion (r_ds q) ++ pair_of PoreDiffusion (r_dp q)
   ++ pair_of FilmTransfer (r_kf q) ++ pair_of Flow (r_flrt q) ++ pair_of Influent (r_c0 q))%list.

Definition scale_k (a b : R) (r : krow) : krow :=
  {| kK := kK r * a; kN := kN r * b; kQ := kQ r; kBrk := kBrk r; kAve := kAve r; kVol := kVol r; kMW := kMW r |}.
Definition scale_m (a b e : R) (m : mtr) : mtr := {| m_kf := m_kf m * a; m_dp := m_dp m * b; m_ds := m_ds m * e |}.

(** The inputs of a case: [i] with the named quantity scaled by [f] and nothing else
    touched.  Capacity scales K by f and 1/n by 2 - f.  A heavier bed that would exceed
    the filter density is lengthened to that density. *)
Definition length_for (i : inp) (wt : R) : R :=
  let area := PI / 4 * i_diam i ^ 2 in
  if rltb (i_rhof i) (wt / (area * i_L i)) then wt / (area * i_rhof i) else i_L i.
Definition case_inputs (i : inp) (w : what) (f : R) : inp :=
  {| i_L := match w with Mass => length_for i (i_wt i * f) | _ => i_L i end;
     i_diam := i_diam i;
     i_wt := match w with Mass => i_wt i * f | _ => i_wt i end;
     i_flrt := match w with Flow => i_flrt i * f | _ => i_flrt i end;
     i_rhop := i_rhop i; i_rhof := i_rhof i; i_rad := i_rad i; i_tortu := i_tortu i;
     i_psdfr := i_psdfr i; i_epor := i_epor i;
     i_kd := match w with
             | Capacity => col_map (scale_k f (2 - f)) (i_kd i)
             | FreundlichK => col_map (scale_k f 1) (i_kd i)
             | _ => i_kd i end;
     i_data := match w with
               | Influent => col_map (fun d => {| d_inf := fun t => d_inf d t * f; d_eff := d_eff d |}) (i_data i)
               | _ => i_data i end;
     i_comps := i_comps i; i_num := i_num i;
     i_mt := match w with
             | SurfaceDiffusion => col_map (scale_m 1 1 f) (i_mt i)
             | PoreDiffusion => col_map (scale_m 1 f 1) (i_mt i)
             | FilmTransfer => col_map (scale_m f 1 1) (i_mt i)
             | _ => i_mt i end |}.

(** The column reduced to one compound. *)
Definition only (c : string) (i : inp) : inp :=
  match lookup c (i_kd i), lookup c (i_data i) with
  | Some k, Some d => with_frames [(c, k)] [(c, d)] [c] 1 (i_mt i) i
  | _, _ => i
  end.
(** The column with given mass-transfer values. *)
Definition with_mt (m : frame mtr) (i : inp) : inp := with_frames (i_kd i) (i_data i) (i_comps i) (i_num i) m i.

(** [v] is the greatest (least) of the numbers [a] and those satisfying [P]. *)
Definition greatest (a : R) (P : R -> Prop) (v : R) : Prop :=
  a <= v /\ (forall x, P x -> x <= v) /\ (v = a \/ P v).
Definition least (a : R) (P : R -> Prop) (v : R) : Prop :=
  v <= a /\ (forall x, P x -> v <= x) /\ (v = a \/ P v).
