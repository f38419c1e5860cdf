(** Specification for C169: diffusion from a stirred bath into spheres (Crank, The mathematics
    of diffusion, 6.3). *)
From Coq Require Import Reals.
From Verif Require Import Lib_Py.
Open Scope R_scope.

(** What is asked of a root finder: where a continuous function changes sign it finds a zero
    between the bounds, exactly. *)
Definition finds_roots (brentq : (R -> R) -> R -> R -> res R) : Prop := forall f a b, a < b ->
  (forall x, a <= x <= b -> continuity_pt f x) -> f a * f b <= 0 ->
  exists x, brentq f a b = Ok x /\ a <= x <= b /\ f x = 0.

(** The positive solutions of tan x = 3 x / (3 + A x^2), without the fraction. *)
Definition crank_root (A x : R) : Prop := 0 < x /\ sin x * (3 + A * x ^ 2) = 3 * x * cos x.

(** A bath of concentration [F] around spheres of radius [ra] with the concentration [Kd u] in
    them, [V] volumes of sphere to one of bath: diffusion inside, nothing at the centre, equilibrium at the surface,
    and the bath loses what crosses the surface 3 V / ra. *)
Definition bath_of_spheres (D ra Kd V : R) (F : R -> R) : Prop :=
  exists u ur urr ut : R -> R -> R,
    (forall r t, 0 < r -> derivable_pt_lim (fun s => u s t) r (ur r t) /\ derivable_pt_lim (fun s => ur s t) r (urr r t) /\
       derivable_pt_lim (fun s => u r s) t (ut r t) /\ ut r t = D * (urr r t + 2 / r * ur r t)) /\
    (forall t, exists M, forall r, 0 < r <= ra -> Rabs (u r t) <= M) /\
    (forall t, u ra t = F t) /\
    (forall t, derivable_pt_lim F t (- (3 * V / ra * (D * (Kd * ur ra t))))).
