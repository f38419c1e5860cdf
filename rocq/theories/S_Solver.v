(** What a numerical integrator can return.

    The programs hand their equations du/dt = f(t, u) to a library integrator.  The library is
    not part of the repository; this file says what its results are made of, in exact
    arithmetic.  [f t z d]: the program's right-hand side, called at time [t] with the state
    [z], returned [d] (a relation, since the call may raise).  A state is a vector indexed by
    [I]; [dom] are the indices that the program uses. *)
From Coq Require Import Reals List Arith Lra Lia.
From Verif Require Import Lib_Sum.
Import ListNotations.
Open Scope R_scope.

Section Solver.
Context {I : Type}.
Variables (dom : I -> Prop) (f : R -> (I -> R) -> (I -> R) -> Prop) (y0 : I -> R).

(** ** Step by step
    [computed y]: [y] can be reached from [y0] by adding increments.  An increment is any
    linear combination of values returned by the right-hand side, wherever it was called, and
    of differences between states reached before.  Runge-Kutta methods, linear multistep
    methods with any step sizes and orders, the Newton iterations of implicit ones with any
    finite-difference Jacobian however old, and interpolation between steps all do this. *)
Inductive computed : (I -> R) -> Prop :=
| computed_start y : (forall k, dom k -> y k = y0 k) -> computed y
| computed_add y d y' : computed y -> increment d -> (forall k, dom k -> y' k = y k + d k) -> computed y'
with increment : (I -> R) -> Prop :=
| increment_rate t z d : f t z d -> increment d
| increment_diff y y' d : computed y -> computed y' -> (forall k, dom k -> d k = y k - y' k) -> increment d
| increment_linear a d b e d' : increment d -> increment e -> (forall k, dom k -> d' k = a * d k + b * e k) -> increment d'.

(** A linear function of the states that reads only the used indices. *)
Definition linear (l : (I -> R) -> R) : Prop :=
  (forall x y, (forall k, dom k -> x k = y k) -> l x = l y) /\
  (forall a x b y, l (fun k => a * x k + b * y k) = a * l x + b * l y).

(** ** scipy's BDF, the method of hsdmix.py 545, psdmix.py 361, hsdmixbatch.py 302, psdmixbatch.py 316 and PSDM.py 1622
    A model of scipy.integrate's variable-order BDF in difference form, with the choices that
    its error control makes (step size, order, when to renew the Jacobian, how many Newton
    iterations, whether to accept) left open.  [D]: the table of backward differences. *)

(** product of the Jacobian by [x]: column [j] is the difference quotient with step [h] between
    the rates [d] and [f0] *)
Definition jacobian_times (f0 : I -> R) (cols : list (I * R * (I -> R))) (x : I -> R) (k : I) : R :=
  fold_right (fun c s => x (fst (fst c)) * ((snd c k - f0 k) / snd (fst c)) + s) 0 cols.
Definition difference_jacobian (f0 : I -> R) (cols : list (I * R * (I -> R))) : Prop :=
  (exists t z, f t z f0) /\ forall c, In c cols -> dom (fst (fst c)) /\ exists t z, f t z (snd c).
(** [x] is the solution of (1 - c J) x = r *)
Definition solves (f0 : I -> R) (cols : list (I * R * (I -> R))) (c : R) (r x : I -> R) : Prop :=
  let is_solution x := forall k, dom k -> x k - c * jacobian_times f0 cols x k = r k in
  is_solution x /\ forall x', is_solution x' -> forall k, dom k -> x' k = x k.
(** solve_bdf_system: [y] and [d] after some iterations from the prediction [yp] *)
Inductive newton (f0 : I -> R) (cols : list (I * R * (I -> R))) (c t : R) (psi yp : I -> R) : (I -> R) -> (I -> R) -> Prop :=
| newton_start : newton f0 cols c t psi yp yp (fun _ => 0)
| newton_more y d fy dy : newton f0 cols c t psi yp y d -> f t y fy ->
    solves f0 cols c (fun k => c * fy k - psi k - d k) dy ->
    newton f0 cols c t psi yp (fun k => y k + dy k) (fun k => d k + dy k).
(** compute_R: the matrix that changes the step size by [factor] *)
Fixpoint compute_R (factor : R) (i j : nat) : R :=
  match i with O => 1 | S m => compute_R factor m j * ((INR m - factor * INR j) / INR (S m)) end.
Definition RU (order : nat) (factor : R) (i j : nat) : R := rsum (S order) (fun k => compute_R factor i k * compute_R 1 k j).
Definition change_D (order : nat) (factor : R) (D : nat -> I -> R) (j : nat) : I -> R :=
  if Nat.leb j order then fun k => rsum (S order) (fun i => RU order factor i j * D i k) else D j.
(** the table after a step whose correction is [d] *)
Definition update_D (order : nat) (D : nat -> I -> R) (d : I -> R) (j : nat) : I -> R :=
  if Nat.leb j order then fun k => d k + rsum (S order - j) (fun m => D (j + m)%nat k)
  else if Nat.eqb j (order + 1) then d
  else if Nat.eqb j (order + 2) then fun k => d k - D (order + 1)%nat k
  else D j.
Inductive bdf : nat -> (nat -> I -> R) -> Prop :=
| bdf_start t h fy : f t y0 fy ->
    bdf 1 (fun j => match j with O => y0 | S O => fun k => h * fy k | _ => fun _ => 0 end)
| bdf_rescale order factor D : bdf order D -> bdf order (change_D order factor D)
| bdf_step order D gamma alpha c t f0 cols y d : bdf order D -> difference_jacobian f0 cols ->
    newton f0 cols c t (fun k => rsum order (fun i => gamma (S i) * D (S i) k) / alpha) (fun k => rsum (S order) (fun i => D i k)) y d ->
    bdf order (update_D order D d)
| bdf_order order order' D : bdf order D -> (1 <= order' <= order + 1)%nat -> bdf order' D.
(** A value of the solution at a requested time: the interpolating polynomial through the
    table, [p] being the products of (t - t_i)/(h i). *)
Definition bdf_output (y : I -> R) : Prop :=
  exists order D p, bdf order D /\ forall k, dom k -> y k = D 0%nat k + rsum order (fun i => p (S i) * D (S i) k).

(** ** Explicit Runge-Kutta, the method that PAC.py 885 gets
    One step of size [h] from [y] at [t], with any tableau; [ks] are the stages, last first.
    Every stage calls the right-hand side at [y] plus a combination of the stages before it. *)
Definition combine (b : nat -> R) (ks : list (I -> R)) (k : I) : R :=
  rsum (length ks) (fun i => b i * nth i ks (fun _ => 0) k).
Inductive stages (y : I -> R) : list (I -> R) -> Prop :=
| stages_none : stages y []
| stages_more a t ks d : stages y ks -> f t (fun k => y k + combine a ks k) d -> stages y (d :: ks).
Inductive runge_kutta : (I -> R) -> Prop :=
| rk_start : runge_kutta y0
| rk_step y ks b : runge_kutta y -> stages y ks -> runge_kutta (fun k => y k + combine b ks k).
(** values between two steps: the interpolant is also the last step plus a combination of its
    stages, so it has the form of a step *)
End Solver.
