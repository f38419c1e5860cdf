(** Model of the collocation operators.
    Source: IonExchangeModel/ixpy/colloc.py (the GAC and PAC models have their
    own copies, see M_GacColumn.v and M_Pac.v).
    Arrays are functions of their indices; the orthogonal-polynomial root finders
    of scipy are parameters. *)
From Coq Require Import Reals List Arith Bool.
From Verif Require Import Lib_Py Lib_Sum.
Import ListNotations.
Open Scope R_scope.

(** colloc.py:29-42 — [recur]. *)
Definition recur (p : R * R * R) (H : R) : R * R * R :=
  let '(p1, p2, p3) := p in (H * p1, H * p2 + 2 * p1, H * p3 + 3 * p2).

(** colloc.py:45-65 — [calc_px_column]: all the roots different from [r]. *)
Definition calc_px_column (r : R) (n : nat) (roots : nat -> R) : R * R * R :=
  fold_left (fun p j => if reqb (roots j - r) 0 then p else recur p (r - roots j))
            (seq 0 n) (1, 0, 0).

(** colloc.py:84-89, 133-138 — rows of [px_mat]. *)
Definition px1 (n : nat) (roots : nat -> R) (i : nat) : R :=
  fst (fst (calc_px_column (roots i) n roots)).
Definition px2 (n : nat) (roots : nat -> R) (i : nat) : R :=
  snd (fst (calc_px_column (roots i) n roots)).
Definition px3 (n : nat) (roots : nat -> R) (i : nat) : R :=
  snd (calc_px_column (roots i) n roots).

(** colloc.py:92-103, 141-152 — [Amat], [Bmat]. *)
Definition Amat (n : nat) (roots : nat -> R) (i j : nat) : R :=
  if Nat.eqb i j then (1 / 2) * px2 n roots i / px1 n roots i
  else (1 / (roots i - roots j)) * px1 n roots i / px1 n roots j.
Definition Bmat (n : nat) (roots : nat -> R) (i j : nat) : R :=
  if Nat.eqb i j then (1 / 3) * px3 n roots i / px1 n roots i
  else (1 / (roots i - roots j)) *
       (px2 n roots i / px1 n roots j - 2 * Amat n roots i j).

(** colloc.py:78-82 — grid of [recur_colloc]; [legendre m] are the roots returned
    by roots_sh_legendre(m). *)
Definition rootsz (legendre : nat -> nat -> R) (n : nat) (i : nat) : R :=
  if Nat.eqb i 0 then 0
  else if Nat.eqb i (n - 1) then 1
  else legendre (n - 2)%nat (i - 1)%nat.

(** colloc.py:68-105 — [recur_colloc]: grid, first and second derivative. *)
Definition recur_colloc (legendre : nat -> nat -> R) (n : nat)
  : (nat -> R) * (nat -> nat -> R) * (nat -> nat -> R) :=
  let r := rootsz legendre n in (r, Amat n r, Bmat n r).

(** colloc.py:121-129 — squared radii; [jacobi m p q] are the roots returned by
    roots_sh_jacobi(m, p, q). *)
Definition rootsu (jacobi : nat -> R -> R -> nat -> R) (n : nat) (a : R) (i : nat) : R :=
  if Nat.eqb i (n - 1) then 1
  else let p := dec 15 1 + (a - 1) / 2 in jacobi (n - 1)%nat p (p - 1) i.

(** colloc.py:108-167 — [recur_colloc_symm]: radii, gradient, Laplacian, weights. *)
Definition Ax (n : nat) (u : nat -> R) (i j : nat) : R :=
  2 * sqrt (u i) * Amat n u i j.
Definition Bx (n : nat) (u : nat -> R) (a : R) (i j : nat) : R :=
  2 * a * Amat n u i j + u i * 4 * Bmat n u i j.
Definition wp_sum (n : nat) (u : nat -> R) : R :=
  rsum n (fun i => 1 / (u i * px1 n u i ^ 2)).
Definition Wx (n : nat) (u : nat -> R) (a : R) (i : nat) : R :=
  (1 / (u i * px1 n u i ^ 2)) / wp_sum n u / a.
Definition recur_colloc_symm (jacobi : nat -> R -> R -> nat -> R) (n : nat) (a : R)
  : (nat -> R) * (nat -> nat -> R) * (nat -> nat -> R) * (nat -> R) :=
  let u := rootsu jacobi n a in
  (fun i => sqrt (u i), Ax n u, Bx n u a, Wx n u a).

(** colloc.py:170-186 — [build_collocation]; the radial operators are the
    sphere's (a = 3). *)
Record collocation := {
  k_rootsz : nat -> R; k_Az : nat -> nat -> R;
  k_rootsr : nat -> R; k_Br : nat -> nat -> R; k_Wr : nat -> R }.
Definition build_collocation (legendre : nat -> nat -> R)
  (jacobi : nat -> R -> R -> nat -> R) (nr nz : nat) : collocation :=
  let '(rr, _, br, wr) := recur_colloc_symm jacobi nr 3 in
  let '(rz, az, _) := recur_colloc legendre nz in
  {| k_rootsz := rz; k_Az := az; k_rootsr := rr; k_Br := br; k_Wr := wr |}.

(** ** Axial finite elements: colloc.py:189-248 *)

(** numpy.delete on a vector. *)
Definition np_delete (l : list R) (idx : list nat) : list R :=
  map snd (filter (fun p => negb (existsb (Nat.eqb (fst p)) idx))
                  (combine (seq 0 (length l)) l)).

(** colloc.py:206-212 — overall grid points. *)
Definition Xvals (roots : nat -> R) (NE NP : nat) : list R :=
  np_delete
    (concat (map (fun k => map (fun p => roots p / INR NE + INR k / INR NE) (seq 0 NP))
                 (seq 0 NE)))
    (map (fun k => NP * (k + 1))%nat (seq 0 (NE - 1))).

Definition matrix := nat -> nat -> R.
(** [M[r0:r1, c0:c1] = f] (indices relative to the block). *)
Definition set_block (M : matrix) (r0 r1 c0 c1 : nat) (f : nat -> nat -> R) : matrix :=
  fun i j => if (Nat.leb r0 i && Nat.ltb i r1 && Nat.leb c0 j && Nat.ltb j c1)%bool
             then f (i - r0)%nat (j - c0)%nat else M i j.

(** colloc.py:216-226 — blocks of the element interiors. *)
Definition fill_blocks (A : matrix) (NE NP : nat) : matrix :=
  fold_left (fun M k =>
      let ii := (k * NP - k)%nat in let iii := ((k + 1) * NP - k)%nat in
      set_block M ii iii ii iii (fun i j => INR NE * A i j))
    (seq 0 NE) (fun _ _ => 0).

(** colloc.py:229-242 — continuation points where elements meet. *)
Definition fill_joints (A : matrix) (NE NP NZ : nat) (M0 : matrix) : matrix :=
  let Q := A (NP - 1)%nat (NP - 1)%nat - A 0%nat 0%nat in
  let Z i j := INR NE * A i j in
  let last := (NP - 1)%nat in
  fold_left (fun M k =>
      let idx := (k * NP - k)%nat in
      let ii := ((k + 1) * NP - (k + 1))%nat in
      let iii := ((k + 2) * NP - (k + 1))%nat in
      let M1 := set_block M ii (ii + 1) 0 NZ (fun _ _ => 0) in
      let M2 := set_block M1 ii (ii + 1) idx ii
                 (fun _ j => Z last j - Z last last / Q * A last j) in
      set_block M2 ii (ii + 1) (ii + 1) iii
                 (fun _ j => Z last last / Q * A 0%nat (j + 1)%nat))
    (seq 0 (NE - 1)) M0.

(** colloc.py:189-248 — [advect_operator]: the operator and the grid. *)
Definition advect_operator (legendre : nat -> nat -> R) (NE NP : nat)
  : matrix * list R :=
  let NZ := (NE * NP - (NE - 1))%nat in
  let r := rootsz legendre NP in
  let A := Amat NP r in
  let M := fill_joints A NE NP NZ (fill_blocks A NE NP) in
  (set_block M 0 1 0 NZ (fun _ _ => 0), Xvals r NE NP).
