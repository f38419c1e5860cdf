(** Model of the stepwise isotherm fit: PSDM/psdm/PSDM.py 1015-1310, run_all_smart.

    One simulation, run_psdm_kfit (1659-1762) on a table that holds trial values for
    the compound, is the parameter [sim]: [Some e] its sum of squares, [None] an
    exception.  It ends by restoring the isotherm table from its backup (1759, 781)
    unless it raises.  Sums of squares that are nan are not modelled.  The frame of
    results is indexed by position; the code addresses it by rounded label, which is the
    same thing as long as the labels of an axis differ. *)
From Coq Require Import Reals List Arith Bool String ZArith.
From Verif Require Import Lib_Py.
Import ListNotations.
Open Scope R_scope.

(** Rows 'K', '1/n' and 'q' of a compound's column of self.k_data. *)
Record entry := { eK : R; eN : R; eQ : R }.
Definition ktab := string -> entry.
Definition put (c : string) (e : entry) (t : ktab) : ktab :=
  fun d => if String.eqb c d then e else t d.

(** A simulation that was run: compound, row and column of the frame, values used. *)
Record point := { p_comp : string; p_row : nat; p_col : nat; p_K : R; p_N : R }.

(** self.k_data, self.k_data_bup, ssq_storage, the simulations run, newest first, and
    best_xn, best_k, best_ssq. *)
Record sstate := { kt : ktab; bt : ktab; store : nat -> nat -> option R; log : list point;
                   best_xn : R; best_k : R; best_ssq : R }.

(** Labels of the frame: K factors on rows 0..KM, 1/n on columns 0..XM. *)
Record axes := { kf : nat -> R; KM : nat; xs : nat -> R; XM : nat }.

(** Indexing a label list of [m + 1] items with a Python integer. *)
Definition pos (m : nat) (z : Z) : res nat :=
  if (0 <=? z)%Z && (z <=? Z.of_nat m)%Z then Ok (Z.to_nat z)
  else if (z <? 0)%Z && (- Z.of_nat (S m) <=? z)%Z then Ok (Z.to_nat (z + Z.of_nat (S m)))
  else Err IndexError.

Section Search.
Variable sim : string -> R -> R -> option R.
(** self.k_by_xn_factor: K as a function of 1/n, for compounds whose capacity was
    computed at construction. *)
Variable base : string -> option (R -> R).

(** 1059-1075, get_ssq: 1e20 stands for a failed simulation. *)
Definition huge : R := IZR (10 ^ 20).
Definition set_kt (t : ktab) (s : sstate) : sstate :=
  {| kt := t; bt := bt s; store := store s; log := log s;
     best_xn := best_xn s; best_k := best_k s; best_ssq := best_ssq s |}.
Definition add_log (p : point) (s : sstate) : sstate :=
  {| kt := kt s; bt := bt s; store := store s; log := p :: log s;
     best_xn := best_xn s; best_k := best_k s; best_ssq := best_ssq s |}.
Definition trial (c : string) (k n : R) (t : ktab) : ktab :=
  put c {| eK := k; eN := n; eQ := eQ (t c) |} t.
Definition get_ssq (c : string) (k k_factor xn : R) (row col : nat) (s : sstate) : R * sstate :=
  let s1 := set_kt (trial c (k * k_factor) xn (kt s)) s in
  match store s row col with
  | Some v => (v, s1)
  | None =>
      let s2 := add_log {| p_comp := c; p_row := row; p_col := col; p_K := k * k_factor; p_N := xn |} s1 in
      match sim c (k * k_factor) xn with
      | Some v => (v, set_kt (bt s2) s2)
      | None => (huge, s2)
      end
  end.
(** 1077-1083, get_base_k. *)
Definition get_base_k (c : string) (xn : R) (s : sstate) : R :=
  match base c with Some f => f xn | None => eK (kt s c) end.

Definition set_store (row col : nat) (v : R) (s : sstate) : sstate :=
  {| kt := kt s; bt := bt s;
     store := fun i j => if (Nat.eqb i row && Nat.eqb j col)%bool then Some v else store s i j;
     log := log s; best_xn := best_xn s; best_k := best_k s; best_ssq := best_ssq s |}.
Definition set_best (xn k v : R) (s : sstate) : sstate :=
  {| kt := kt s; bt := bt s; store := store s; log := log s;
     best_xn := xn; best_k := k; best_ssq := v |}.
(** 1149-1156 and the five blocks of 1172-1255: look a position up, record it, keep the
    best.  [always] is the unconditional write of 1151. *)
Definition visit (always : bool) (c : string) (k k_factor xn : R) (row col : nat) (s : sstate)
  : R * sstate :=
  let (v, s1) := get_ssq c k k_factor xn row col s in
  let s2 := match store s1 row col with
            | Some _ => if always then set_store row col v s1 else s1
            | None => set_store row col v s1
            end in
  (v, if rltb v (best_ssq s2) then set_best xn (k_factor * k) v s2 else s2).

(** 1142: numpy.round(numpy.linspace(0, m, 5)), ties to even. *)
Definition fifth (m i : nat) : nat :=
  let q := (i * m / 4)%nat in
  match ((i * m) mod 4)%nat with
  | 0%nat | 1%nat => q
  | 2%nat => if Nat.even q then q else S q
  | _ => S q
  end.
(** 1144-1158, the rough search along 1/n.  Returns the column to start from. *)
Fixpoint rough (c : string) (a : axes) (row : nat) (js : list nat) (xi : nat) (s : sstate)
  : nat * sstate :=
  match js with
  | [] => (xi, s)
  | j :: r =>
      let xn := xs a j in
      let b := get_base_k c xn s in
      let old := best_ssq s in
      let (v, s1) := visit true c b (kf a row) xn row j s in
      rough c a row r (if rltb v old then j else xi) s1
  end.

(** 1172-1264: one pass of the loop.  Returns base_ssq and the two shifts. *)
Definition pass (c : string) (a : axes) (xi ki : Z) (s : sstate) : res (R * Z * Z * sstate) :=
  do col <- pos (XM a) xi;
  do row <- pos (KM a) ki;
  let xn := xs a col in
  let k_factor := kf a row in
  let cb := get_base_k c xn s in
  let (base_ssq, s1) := visit false c cb k_factor xn row col s in
  do on_right <-
    (if (xi <? Z.of_nat (XM a))%Z
     then do rc <- pos (XM a) (xi + 1);
          Ok (visit false c (get_base_k c (xs a rc) s1) k_factor (xs a rc) row rc s1)
     else Ok (huge, s1));
  let (right_ssq, s2) := on_right : R * sstate in
  do on_left <-
    (if (1 <=? xi)%Z
     then do lc <- pos (XM a) (xi - 1);
          Ok (visit false c (get_base_k c (xs a lc) s2) k_factor (xs a lc) row lc s2)
     else Ok (huge, s2));
  let (left_ssq, s3) := on_left : R * sstate in
  let shift_xn :=
    if (rleb right_ssq base_ssq && (xi + 1 <=? Z.of_nat (XM a))%Z)%bool then 1%Z
    else if (rleb left_ssq base_ssq && (0 <=? xi - 1)%Z)%bool then (-1)%Z else 0%Z in
  do upper <-
    (if (ki <? Z.of_nat (KM a))%Z
     then do ur <- pos (KM a) (ki + 1);
          Ok (visit false c cb (kf a ur) xn ur col s3)
     else Ok (huge, s3));
  let (upper_ssq, s4) := upper : R * sstate in
  do lower <-
    (if (1 <=? ki)%Z
     then do lr <- pos (KM a) (ki - 1);
          Ok (visit false c cb (kf a lr) xn lr col s4)
     else Ok (huge, s4));
  let (lower_ssq, s5) := lower : R * sstate in
  let shift_k :=
    if (rleb upper_ssq base_ssq && (ki + 1 <=? Z.of_nat (KM a))%Z)%bool then 1%Z
    else if (rleb lower_ssq base_ssq && (0 <=? ki - 1)%Z)%bool then (-1)%Z else 0%Z in
  Ok (base_ssq, shift_xn, shift_k, s5).

(** 1274-1281: store the best values; a non-positive K becomes 1e-6, and so does a q
    that is no larger. *)
Definition save_best (c : string) (s : sstate) : sstate :=
  let e := kt s c in
  let small := rleb (best_k s) 0 in
  let t := put c {| eK := if small then dec 1 6 else best_k s; eN := best_xn s;
                    eQ := if (small && rleb (eQ e) (dec 1 6))%bool then dec 1 6 else eQ e |} (kt s) in
  {| kt := t; bt := t; store := store s; log := log s;
     best_xn := best_xn s; best_k := best_k s; best_ssq := best_ssq s |}.
(** 1291-1294: the other exit stores the best values as they are. *)
Definition save_best_alt (c : string) (s : sstate) : sstate :=
  let t := put c {| eK := best_k s; eN := best_xn s; eQ := eQ (kt s c) |} (kt s) in
  {| kt := t; bt := t; store := store s; log := log s;
     best_xn := best_xn s; best_k := best_k s; best_ssq := best_ssq s |}.

(** 1161-1296: the while loop, cut off after [fuel] passes. *)
Inductive outcome := Running | Done (r : res sstate).
Fixpoint climb (c : string) (a : axes) (limit : R) (fuel loops : nat) (xi ki dx dk : Z) (s : sstate)
  : outcome :=
  match fuel with
  | O => Running
  | S fuel =>
      let loops := S loops in
      let xi := (xi + dx)%Z in
      let ki := (ki + dk)%Z in
      match pass c a xi ki s with
      | Err e => Done (Err e)
      | Ok (base_ssq, dx, dk, s) =>
          if (rleb (Rabs (base_ssq - best_ssq s)) (dec 1 7) || rleb limit (INR loops))%bool
          then Done (Ok (save_best c s))
          else if ((dk =? 0)%Z && (dx =? 0)%Z)%bool then Done (Ok (save_best_alt c s))
          else climb c a limit fuel loops xi ki dx dk s
      end
  end.

(** numpy.arange(lo, hi, step): how many values (a zero step is an error). *)
Definition ceil (x : R) : Z := (- Int_part (- x))%Z.
Definition arange_len (lo hi step : R) : nat := Z.to_nat (ceil ((hi - lo) / step)).
(** First position whose label is [v]. *)
Fixpoint find_label (lbl : nat -> R) (v : R) (n i : nat) : option nat :=
  match n with
  | O => None
  | S n => if reqb (lbl i) v then Some i else find_label lbl v n (S i)
  end.
(** 1121-1130: the axes; [rnd d x] is numpy.round(x, d).  [num] is a positive integer. *)
Definition make_axes (rnd : nat -> R -> R) (bf pm : R) (num : nat) (des_xn : R) : res axes :=
  let scale := bf * pm / 100 / INR num in
  let max_k := bf * (1 + pm / 100) in
  let min_k := bf * (1 - pm / 100) in
  if (Nat.eqb num 0 || reqb scale 0 || reqb des_xn 0)%bool then Err ValueError else
  let nk := arange_len min_k (max_k + scale / 2) scale in
  let nx := arange_len (dec 2 1) (1 + des_xn / 2) des_xn in
  if (Nat.eqb nk 0 || Nat.eqb nx 0)%bool then Err KeyError else
  Ok {| kf := fun i => rnd 6%nat (min_k + INR i * scale); KM := (nk - 1)%nat;
        xs := fun j => rnd 3%nat (dec 2 1 + INR j * des_xn); XM := (nx - 1)%nat |}.

(** 1110-1296: the search for one compound.  [foul] is self.foul_mult_estimates, which
    the constructor fills for every compound (287, 301, 316). *)
Variable foul : string -> R.
Definition start_xn : R := dec 45 2.
Definition search (rnd : nat -> R -> R) (pm : R) (num : nat) (des_xn limit : R) (fuel : nat)
  (c : string) (t b : ktab) : outcome :=
  let bf := foul c in
  match make_axes rnd bf pm num des_xn with
  | Err e => Done (Err e)
  | Ok a =>
    match find_label (kf a) (rnd 6%nat bf) (S (KM a)) 0, find_label (xs a) (rnd 3%nat start_xn) (S (XM a)) 0 with
    | Some k0, Some x0 =>
        let s0 := {| kt := t; bt := b; store := fun _ _ => None; log := [];
                     best_xn := start_xn; best_k := 0; best_ssq := 0 |} in
        let base_k := get_base_k c start_xn s0 in
        let (v, s1) := get_ssq c base_k bf start_xn k0 x0 s0 in
        let s2 := set_best start_xn (base_k * bf) v (set_store k0 x0 v s1) in
        let (xi, s3) := rough c a k0 (map (fifth (XM a)) (seq 0 5)) x0 s2 in
        climb c a limit fuel 0 (Z.of_nat xi) (Z.of_nat k0) 0 0 s3
    | _, _ => Done (Err KeyError)
    end
  end.

(** 1108-1309: every compound in turn, then the reset of the table to its backup.  The
    states in which the searches ended are kept for reference. *)
Fixpoint search_all (rnd : nat -> R -> R) (pm : R) (num : nat) (des_xn limit : R) (fuel : nat)
  (cs : list string) (t b : ktab) : option (res (ktab * ktab * list (string * sstate))) :=
  match cs with
  | [] => Some (Ok (b, b, []))
  | c :: r =>
      match search rnd pm num des_xn limit fuel c t b with
      | Running => None
      | Done (Err e) => Some (Err e)
      | Done (Ok s) =>
          match search_all rnd pm num des_xn limit fuel r (kt s) (bt s) with
          | Some (Ok (t', b', l)) => Some (Ok (t', b', (c, s) :: l))
          | o => o
          end
      end
  end.
End Search.
