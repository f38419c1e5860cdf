(** Specification for C170: uptake from a stirred bath through a film and by diffusion in
    spheres. *)
From Coq Require Import Reals.
From Verif Require Import Lib_Py S_PacCrank.
Open Scope R_scope.

(** What is asked of a root finder: the zero of a continuous function that changes sign, an
    exception when the signs at the bounds are the same. *)
Definition brackets_roots (brentq : (R -> R) -> R -> R -> res R) : Prop :=
  finds_roots brentq /\ forall f a b, a < b -> 0 < f a * f b -> exists e, brentq f a b = Err e.

(** The positive solutions of
    tan x / x = (3 - (1 - L)/L x^2/B) / (3 + (1 - L)/L (B - 1)/B x^2), without the fractions. *)
Definition film_root (L B x : R) : Prop :=
  0 < x /\ sin x * (3 + (1 - L) / L * (1 - 1 / B) * x ^ 2) = x * cos x * (3 - (1 - L) / L * x ^ 2 / B).

(** A bath of concentration [F] around spheres of radius [ra] with the concentration [Kd u] in
    them, [V] volumes of sphere to one of bath: diffusion inside, nothing at the centre, as much through the film,
    with the coefficient [kf], as into the sphere, and the bath loses what crosses the surface
    3 V / ra. *)
Definition bath_with_film (D ra kf Kd V : R) (F : R -> R) : Prop :=
  exists u ur urr ut : R -> R -> R,
    (forall r t, 0 < r -> derivable_pt_lim (fun s => u s t) r (ur r t) /\ derivable_pt_lim (fun s => ur s t) r (urr r t) /\
       derivable_pt_lim (fun s => u r s) t (ut r t) /\ ut r t = D * (urr r t + 2 / r * ur r t)) /\
    (forall t, exists M, forall r, 0 < r <= ra -> Rabs (u r t) <= M) /\
    (forall t, kf * (F t - u ra t) = D * (Kd * ur ra t)) /\
    (forall t, derivable_pt_lim F t (- (3 * V / ra * (kf * (F t - u ra t))))).
