(** Model of the equilibrium column model, PSDM/psdm/ecm.py: 26-40 and 277-303 (input),
    42-106 (run_ecm), 132-172 (isotherm and wave equations), 261-275 (plot_ecm).
    Arrays are functions of the index; the root finders are parameters whose answers are
    arbitrary unless a theorem says otherwise.  Reading the workbook and printing are not
    modelled; the two fitting functions (174-259) are in M_EcmFit. *)
From Coq Require Import Reals List Arith Bool String.
From Verif Require Import Lib_Py Lib_Sum Lib_Pow M_GacFun.
Import ListNotations.
Open Scope R_scope.

(** 22-24. *)
Definition ml_pergal : R := dec 3785411784 6.
Definition cm_perft : R := 12 * dec 254 2.

(** Rows of the compounds sheet and the bed sheet ('values' column) as read. *)
Record sheet := { sh_n : nat; sh_K : nat -> R; sh_xni : nat -> R; sh_C0 : nat -> R; sh_MW : nat -> R }.
Record bedsheet := { bs_flrt : R; bs_density : R; bs_void : R; bs_L : option R }.
(** compdata and beddata after _process_input_file. *)
Record ecm_in := {
  e_n : nat; e_K : nat -> R; e_xni : nat -> R; e_xn : nat -> R; e_C0 : nat -> R; e_Co : nat -> R; e_MW : nat -> R;
  e_vf : R; e_rhob : R; e_eps : R; e_L : option R }.
(** 277-303. *)
Definition process_input (mass : bool) (c : sheet) (b : bedsheet) : ecm_in :=
  {| e_n := sh_n c;
     e_K := if mass then fun i => sh_K c i / sh_MW c i / rpow (1 / sh_MW c i) (sh_xni c i) else sh_K c;
     e_xni := sh_xni c; e_xn := fun i => 1 / sh_xni c i;
     e_C0 := sh_C0 c; e_Co := fun i => sh_C0 c i / sh_MW c i; e_MW := sh_MW c;
     e_vf := bs_flrt b * ml_pergal / cm_perft ^ 2 / 60;
     e_rhob := bs_density b * 1000; e_eps := bs_void b; e_L := bs_L b |}.

Section Ecm.
Variable e : ecm_in.
(** 132-138 and 145-154, _fcn2 (start 0) and _fcn2_e: liquid concentrations of the compounds
    start .. n-1 in equilibrium with the loadings [x]. *)
Definition fcn2 (start : nat) (x : nat -> R) (j : nat) : R :=
  let m := (e_n e - start)%nat in
  let xn := fun j => e_xn e (start + j)%nat in
  let k := fun j => e_K e (start + j)%nat in
  let qt := rsum m x in
  let qnq := rsum m (fun j => xn j * x j) in
  x j / qt * rpow (qnq / (xn j * k j)) (xn j).
(** 140-143. *)
Definition fcn (x : nat -> R) (j : nat) : R := fcn2 0 x j * e_MW e j - e_C0 e j.

(** self.vw, self.qstore, self.cstore *)
Record est := { vw : nat -> R; qs : nat -> nat -> R; cs : nat -> nat -> R }.
(** 156-172. *)
Definition fcn_extra (st : est) (start : nat) (x : nat -> R) (j : nat) : R :=
  let l := (start - 1)%nat in
  let c_calc := (x j - qs st l (start + j)%nat) * e_rhob e * vw st l / (e_vf e - vw st l * e_eps e) + cs st l (start + j)%nat in
  c_calc - fcn2 start x j.

(** a.x of line 54 and b.x of line 81. *)
Variable root0 : nat -> R.
Variable root : nat -> est -> nat -> R.
(** 43-62. *)
Definition start_state : est :=
  {| vw := fun i => if Nat.eqb i 0 then e_vf e * e_C0 e 0%nat / (root0 0%nat * e_MW e 0%nat * e_rhob e + e_C0 e 0%nat * e_eps e) else 0;
     qs := fun r c => if Nat.eqb r 0 then root0 c else 0;
     cs := fun r c => if Nat.eqb r 0 then e_Co e c else 0 |}.
(** 76-94: one pass of the loop. *)
Definition stage (i : nat) (st : est) : est :=
  let x := root i st in
  let q' := fun r c => if (Nat.eqb r i && Nat.leb i c)%bool then x (c - i)%nat else qs st r c in
  let c' := fun r c => if (Nat.eqb r i && Nat.leb i c)%bool then fcn2 i x (c - i)%nat else cs st r c in
  let vf_elem := e_vf e * c' 0%nat i in
  let denom := q' i i * e_rhob e + c' i i * e_eps e in
  let mid_part := rsum i (fun k => (q' k i * e_rhob e + c' k i * e_eps e) *
                                   (vw st k - (if Nat.eqb k 0 then 0 else vw st (k - 1)%nat))) in
  let third_part := denom * vw st (i - 1)%nat in
  {| vw := fun k => if Nat.eqb k i then (vf_elem - mid_part + third_part) / denom else vw st k; qs := q'; cs := c' |}.
Fixpoint stages (more i : nat) (st : est) : est :=
  match more with O => st | S m => stages m (S i) (stage i st) end.
Definition run_ecm : est := stages (e_n e - 1) 1 start_state.
(** 64-69 and 96-105. *)
Definition bed_length : R := match e_L e with Some l => l | None => dec 2765 3 end.
Definition bvf (i : nat) : R := e_vf e / vw run_ecm i.
Definition usage_rate (i : nat) : R := 1 / (e_rhob e / bvf i).
Definition days_to_breakthrough (i : nat) : R := bed_length * 100 / (vw run_ecm i * 3600 * 24).
(** 72-73. *)
Definition sstc (i : nat) : R := 1000 * rpow (e_Co e i) (1 - e_xni e i) / e_K e i.

(** 261-275, plot_ecm: the points of the curve of compound [j], the columns being in reverse
    order of the zones. *)
Definition twice (l : list R) : list R := flat_map (fun x => [x; x]) l.
Definition plot_points (j : nat) : list (R * R) :=
  let zones := rev (seq 0 (e_n e)) in
  combine ((0 :: twice (map days_to_breakthrough zones)) ++ [days_to_breakthrough 0 + 1])%list
          ([0; 0] ++ twice (map (fun k => cs run_ecm k j * e_MW e j) zones))%list.
Definition plot_obj (j : nat) (t : R) : R := interp_x (plot_points j) t.
End Ecm.
