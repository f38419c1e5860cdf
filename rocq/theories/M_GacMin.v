(** Model of the best-fit lookup: PSDM/psdm/PSDM_functions.py 909-997,
    find_minimum_df.  A table is a function of row and column; its labels are the
    index and columns of the frame.  A non-frame argument (989-991) is not modelled. *)
From Coq Require Import Reals List Arith Bool.
From Verif Require Import Lib_Py.
Import ListNotations.
Open Scope R_scope.

Definition table := nat -> nat -> R.

(** Row-major list of positions, as numpy.where returns them. *)
Definition cells (nx ny : nat) : list (nat * nat) := list_prod (seq 0 nx) (seq 0 ny).
Definition at_cell (t : table) (c : nat * nat) : R := t (fst c) (snd c).
(** numpy.min, numpy.max of a non-empty list. *)
Fixpoint lmin (l : list R) : R :=
  match l with [] => 0 | [x] => x | x :: r => let m := lmin r in if rleb x m then x else m end.
Fixpoint lmax (l : list R) : R :=
  match l with [] => 0 | [x] => x | x :: r => let m := lmax r in if rleb m x then x else m end.
(** numpy.where(t == v). *)
Definition where_eq (nx ny : nat) (t : table) (v : R) : list (nat * nat) :=
  filter (fun c => reqb (at_cell t c) v) (cells nx ny).

(** numpy.percentile(values, 10), linear interpolation between order statistics. *)
Fixpoint insert (x : R) (l : list R) : list R :=
  match l with [] => [x] | y :: r => if rleb x y then x :: l else y :: insert x r end.
Fixpoint sort (l : list R) : list R :=
  match l with [] => [] | x :: r => insert x (sort r) end.
Definition percentile10 (l : list R) : R :=
  let s := sort l in
  let n := (length l - 1)%nat in
  let lo := (n / 10)%nat in
  nth lo s 0 + INR (n mod 10) / 10 * (nth (S lo) s (nth lo s 0) - nth lo s 0).

(** numpy floats: a division by zero gives inf or nan. *)
Inductive score := Fin (x : R) | Inf | NaN.
Record candidate := { c_score : score; c_val : R; c_x : nat; c_y : nat; c_below : nat; c_tol : nat }.

(** 934-972: one pass of the loop, on the current data. *)
Definition neighbours (nx ny x y : nat) : list (nat * nat) :=
  let minX := if Nat.ltb 0 x then (x - 1)%nat else 0%nat in
  let maxX := if Nat.ltb x (nx - 1) then (x + 2)%nat else nx in
  let minY := if Nat.ltb 0 y then (y - 1)%nat else 0%nat in
  let maxY := if Nat.ltb y (ny - 1) then (y + 2)%nat else ny in
  list_prod (seq minX (maxX - minX)) (seq minY (maxY - minY)).
Definition steps (n x : nat) : nat := if (Nat.eqb x 0 || Nat.eqb x (n - 1))%bool then 2%nat else 3%nat.
Fixpoint lsum (l : list R) : R := match l with [] => 0 | x :: r => x + lsum r end.
Definition candidate_of (nx ny : nat) (thresh : R) (t : table) : candidate :=
  let cur := lmin (map (at_cell t) (cells nx ny)) in
  let (x, y) := hd (0%nat, 0%nat) (where_eq nx ny t cur) in
  let sub := neighbours nx ny x y in
  let mean := lsum (map (fun c => at_cell t c - cur) sub) / INR (length sub) in
  {| c_score := if reqb cur 0 then (if reqb mean 0 then NaN else Inf) else Fin (mean / cur);
     c_val := cur; c_x := x; c_y := y;
     c_below := length (filter (fun c => rltb (at_cell t c) thresh) sub);
     c_tol := (steps nx x * steps ny y)%nat |}.
(** 974: every cell holding the minimum is overwritten with the maximum. *)
Definition knock_out (nx ny : nat) (maxv : R) (t : table) : table :=
  let cur := lmin (map (at_cell t) (cells nx ny)) in
  fun i j => if reqb (t i j) cur then maxv else t i j.
(** 933-974. *)
Fixpoint candidates (nx ny : nat) (maxv thresh : R) (k : nat) (t : table) : list candidate :=
  match k with
  | O => []
  | S k => candidate_of nx ny thresh t :: candidates nx ny maxv thresh k (knock_out nx ny maxv t)
  end.
(** 976-979: first candidate with the least score; a nan anywhere makes numpy.min nan,
    which equals nothing: IndexError. *)
Definition score_ltb (a b : score) : bool :=
  match a, b with Fin x, Fin y => rltb x y | Fin _, Inf => true | _, _ => false end.
Definition is_nan (c : candidate) : bool := match c_score c with NaN => true | _ => false end.
Fixpoint best (c : candidate) (l : list candidate) : candidate :=
  match l with
  | [] => c
  | d :: r => if score_ltb (c_score d) (c_score c) then best d r else best c r
  end.

(** 909-997: row label, column label, value.  [int()] of an array with other than one
    element is a TypeError (930-931). *)
Definition find_minimum_df (nx ny : nat) (index columns : nat -> R) (t : table) : res (R * R * R) :=
  let vals := map (at_cell t) (cells nx ny) in
  match vals with
  | [] => Err ValueError
  | _ =>
    let maxv := lmax vals in
    let thresh := percentile10 vals in
    let minv := lmin vals in
    match where_eq nx ny t minv with
    | [(i, j)] =>
        match candidates nx ny maxv thresh 10 t with
        | [] => Err IndexError
        | c :: r =>
            if existsb is_nan (c :: r) then Err IndexError else
            let b := best c r in
            if Nat.eqb (c_below b) (c_tol b)
            then Ok (index (c_x b), columns (c_y b), c_val b)
            else Ok (index i, columns j, minv)
        end
    | _ => Err TypeError
    end
  end.
