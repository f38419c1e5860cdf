(** Model of Shiny-PAC/PAC.py, get_analytical_sol2: the reference curve with a film and surface
    diffusion (HSDM).  Finding a root between two bounds (scipy's brentq) is a parameter; the
    curves at one time. *)
From Coq Require Import Reals List.
From Verif Require Import Lib_Py Lib_Sum M_Pac.
Import ListNotations.
Open Scope R_scope.

Section Hsdm.
Variable brentq : (R -> R) -> R -> R -> res R.
(** 662-665 *)
Definition hsdm_f (A B x : R) : R :=
  let numer := 3 - (1 - A) / A * x ^ 2 / B in
  let denom := 3 + (1 - A) / A * (B - 1) / B * x ^ 2 in
  numer / denom - tan x / x.
(** 671-681: a root, or none when the call raises anything *)
Definition tried (r : res R) : list R := match r with Ok x => [x] | Err _ => [] end.
(** 667-686 *)
Fixpoint pn_loop (n : nat) (A B guess : R) (roots : list R) : res (list R) :=
  match n with
  | O => Ok roots
  | S n' =>
      let last := guess + PI * dec 9999 4 in
      let half := last / 2 in
      let roots := match roots with
                   | [] => (tried (brentq (hsdm_f A B) guess half) ++ tried (brentq (hsdm_f A B) half last))%list
                   | _ => roots
                   end in
      let guess := match roots with [] => guess | _ => guess + PI end in
      do r <- brentq (hsdm_f A B) guess (guess + PI * dec 9999 4);
      pn_loop n' A B guess (roots ++ [r])
  end.
(** 657-689 *)
Definition find_pn (n : nat) (A B : R) : res (list R) := pn_loop n A B (PI / 2 + dec 1 6) [].
(** 734-756 *)
Definition finiteHSDM (t kf Ds rb Vw Vx Kd : R) (nterms : nat) : res R :=
  let Bi := kf * rb / Ds / Kd in
  let LAM := 1 / (1 + Vw / Vx / Kd) in
  do q <- find_pn nterms LAM Bi;
  Ok (1 - lsum (map (fun q => 6 * exp (- Ds * t * q ^ 2 / rb ^ 2) /
        (9 * LAM / (1 - LAM) + (1 - LAM) * q ^ 2 - (5 * LAM + 1) * q ^ 2 / Bi + (1 - LAM) * q ^ 4 / Bi ^ 2)) q)).
(** 780-781, 787-788, 794-799, 804: one compound *)
Definition hsdm (f : carbon) (dosage Kd kf Ds t : R) : res R :=
  let A := 1 / (dosage / (f_density f * 10 ^ 6)) / Kd in
  let depletion := 1 / (1 + A) in
  let Vp := dosage / (f_density f * 10 ^ 6) in
  do s <- finiteHSDM t kf Ds (f_radius f) 1 Vp Kd 10;
  Ok (1 - s * depletion).
(** 793-806: all compounds, each with its distribution coefficient; [None]: nothing but nan *)
Fixpoint hsdm_all (f : carbon) (dosage : R) (cs : list (comp * R)) (t : R) : option (list R) :=
  match cs with
  | [] => Some []
  | (c, Kd) :: cs =>
      match hsdm f dosage Kd (kf c) (Ds c) t, hsdm_all f dosage cs t with
      | Ok x, Some l => Some (x :: l)
      | _, _ => None
      end
  end.
End Hsdm.
