(** Model of Shiny-PAC/PAC.py, get_analytical_sol2: Crank's reference curve.  Finding a root
    between two bounds (scipy's brentq) is a parameter; the curves at one time. *)
From Coq Require Import Reals List.
From Verif Require Import Lib_Py Lib_Sum M_Pac.
Import ListNotations.
Open Scope R_scope.

Section Crank.
Variable brentq : (R -> R) -> R -> R -> res R.
(** 648-649 *)
Definition crank_f (A x : R) : R := tan x - 3 * x / (3 + A * x ^ 2).
(** 651-655 *)
Fixpoint qn_loop (n : nat) (A guess : R) (roots : list R) : res (list R) :=
  match n with
  | O => Ok roots
  | S n' =>
      let guess := match roots with [] => guess | _ => guess + PI end in
      do r <- brentq (crank_f A) guess (guess + PI / 2);
      qn_loop n' A guess (roots ++ [r])
  end.
(** 643-655 *)
Definition find_qn (n : nat) (A : R) : res (list R) := qn_loop n A (PI - dec 1 6) [].
(** 691-711 *)
Definition finiteSphere (t : R) (n : nat) (D ra A : R) : res R :=
  do q <- find_qn n A;
  let B := 6 * A * (A + 1) in
  Ok (1 - lsum (map (fun q => B * exp (- D * t * q ^ 2 / ra ^ 2) / (9 + 9 * A + q ^ 2 * A ^ 2)) q)).
(** 766-770, from the last state of the long run: [Y] at the radii, [C] in the liquid *)
Definition Kd_of (f : carbon) (nc : nat) (W Y : nat -> R) (C : R) : R := 3 * rsum nc (fun i => W i * Y i) / C * f_density f.
(** 774-784, one compound and one time *)
Definition crank (f : carbon) (dosage Kd Ds Dp t : R) : res R :=
  let Deff := Ds + f_porosity f * Dp / (f_density f * 1000 * Kd) in
  let A := 1 / (dosage / (f_density f * 10 ^ 6)) / Kd in
  let depletion := 1 / (1 + A) in
  do s <- finiteSphere t 500 Deff (f_radius f) A;
  Ok (1 - depletion * s).
End Crank.
