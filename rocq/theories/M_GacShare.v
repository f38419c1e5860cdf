(** Model of who owns the isotherm table of a granular-carbon column: PSDM/psdm/PSDM.py
    290-318 and 352 (the constructor keeps the caller's frame, the backup is a copy), 781
    (__reset_column_values puts a copy of the backup in its place), 1659-1762
    (run_psdm_kfit) and 886-894 (the trials of run_all).

    Frames live in a store: a column holds the address of its k_data, and so does the
    caller.  A write through an address is seen by everyone who holds it.  A run is
    recorded with the isotherm it reads; its results are left out, and so are runs that
    raise. *)
From Coq Require Import Reals List Arith Bool String.
From Verif Require Import Lib_Py M_GacFun M_GacSmart.
Import ListNotations.
Open Scope R_scope.

(** The part of the column object that matters here: the address of self.k_data,
    self.k_data_bup, self.optimize_flag, self.test_range, self.xn_range,
    self.k_by_xn_factor and whether self.k_data_input_type is list. *)
Record owner := { o_ref : nat; o_bup : ktab; o_opt : bool; o_ks : list R; o_xs : list R;
  o_factor : string -> option (R -> R); o_list : bool }.
(** The store, its next free address, the columns, and the runs so far, latest first: column,
    compound, K and 1/n. *)
Record world := { at_ : nat -> ktab; next : nat; col : nat -> option owner; runs : list (nat * string * R * R) }.

Definition store (r : nat) (t : ktab) (w : world) : world :=
  {| at_ := fun q => if Nat.eqb q r then t else at_ w q; next := next w; col := col w; runs := runs w |}.
Definition own (i : nat) (o : owner) (w : world) : world :=
  {| at_ := at_ w; next := next w; col := fun j => if Nat.eqb j i then Some o else col w j; runs := runs w |}.
(** DataFrame.copy and the DataFrame constructor: a table at a new address. *)
Definition alloc (t : ktab) (w : world) : world :=
  {| at_ := fun q => if Nat.eqb q (next w) then t else at_ w q; next := S (next w); col := col w; runs := runs w |}.

(** 290-318, 352 with a table: the caller's frame is taken over as it is; with forced
    breakthrough days the columns of the compounds concerned are replaced in it first ([forced]
    lists them with their new values). *)
Definition force (forced : list (string * entry)) (t : ktab) : ktab :=
  fold_left (fun t p => put (fst p) (snd p) t) forced t.
Definition construct (i r : nat) (forced : list (string * entry)) (opt : bool) (ks xs : list R)
  (factor : string -> option (R -> R)) (w : world) : world :=
  let w1 := store r (force forced (at_ w r)) w in
  own i {| o_ref := r; o_bup := at_ w1 r; o_opt := opt; o_ks := ks; o_xs := xs; o_factor := factor; o_list := false |} w1.
(** 290-302: without a table the constructor makes one ([t] holds the values it works out). *)
Definition construct_bare (i : nat) (t : ktab) (opt : bool) (ks xs : list R)
  (factor : string -> option (R -> R)) (w : world) : world :=
  own i {| o_ref := next w; o_bup := t; o_opt := opt; o_ks := ks; o_xs := xs; o_factor := factor; o_list := true |} (alloc t w).

(** run_psdm, as far as it concerns the table. *)
Definition run (i : nat) (c : string) (r : nat) (w : world) : world :=
  {| at_ := at_ w; next := next w; col := col w; runs := (i, c, eK (at_ w r c), eN (at_ w r c)) :: runs w |}.
(** 1706-1709, 1718-1721: set K and 1/n in place, then run. *)
Definition try_pair (i : nat) (c : string) (r : nat) (p : R * R) (w : world) : world :=
  run i c r (store r (trial c (fst p) (snd p) (at_ w r)) w).

(** 1692-1702: k_mult. *)
Definition k_mult (o : owner) (c : string) (e : entry) (x : R) : R :=
  match o_factor o c with Some f => f x | None => recalc_k (eK e) (eQ e) (eN e) x end.
Definition single (o : owner) : bool := (Nat.eqb (List.length (o_ks o)) 1 && Nat.eqb (List.length (o_xs o)) 1)%bool.
Definition grid (o : owner) (c : string) (e : entry) : list (R * R) :=
  flat_map (fun k => map (fun x => (k_mult o c e x * k, x)) (o_xs o)) (o_ks o).
Definition refer (r : nat) (opt : bool) (o : owner) : owner :=
  {| o_ref := r; o_bup := o_bup o; o_opt := opt; o_ks := o_ks o; o_xs := o_xs o; o_factor := o_factor o; o_list := o_list o |}.
(** 1659-1761 and 781. *)
Definition fit (i : nat) (c : string) (w : world) : world :=
  match col w i with
  | None => w
  | Some o =>
      let r := o_ref o in
      let opt := (o_opt o && negb (single o))%bool in
      let w1 :=
        if opt then fold_left (fun w p => try_pair i c r p w) (grid o c (at_ w r c)) w
        else if (o_list o && single o)%bool then try_pair i c r (hd 0 (o_ks o), hd 0 (o_xs o)) w
        else run i c r w in
      own i (refer (next w1) opt o) (alloc (o_bup o) w1)
  end.

(** 889-894: one trial of run_all, with the flag optimize_flag off (827): the chained
    assignments self.k_data.loc['K'][compound] = ... reach the table only without
    copy-on-write ([cow] off), then run_psdm_kfit runs with single ranges. *)
Definition narrow (k x : R) (o : owner) : owner :=
  {| o_ref := o_ref o; o_bup := o_bup o; o_opt := false; o_ks := [k]; o_xs := [x]; o_factor := o_factor o; o_list := o_list o |}.
Definition grid_trial (cow : bool) (i : nat) (c : string) (k x : R) (w : world) : world :=
  match col w i with
  | None => w
  | Some o =>
      let w1 := if cow then w else store (o_ref o) (trial c k x (at_ w (o_ref o))) w in
      fit i c (own i (narrow k x o) w1)
  end.

(** What a program does: constructs columns, changes their settings, fits. *)
Inductive act :=
| New (i r : nat) (forced : list (string * entry)) (opt : bool) (ks xs : list R) (factor : string -> option (R -> R))
| Bare (i : nat) (t : ktab) (opt : bool) (ks xs : list R) (factor : string -> option (R -> R))
| Settings (i : nat) (opt : bool) (ks xs : list R)
| Fit (i : nat) (c : string)
| Trial (i : nat) (c : string) (k x : R).
Definition settings (opt : bool) (ks xs : list R) (o : owner) : owner :=
  {| o_ref := o_ref o; o_bup := o_bup o; o_opt := opt; o_ks := ks; o_xs := xs; o_factor := o_factor o; o_list := o_list o |}.
Definition step (cow : bool) (w : world) (a : act) : world :=
  match a with
  | New i r forced opt ks xs f => construct i r forced opt ks xs f w
  | Bare i t opt ks xs f => construct_bare i t opt ks xs f w
  | Settings i opt ks xs => match col w i with None => w | Some o => own i (settings opt ks xs o) w end
  | Fit i c => fit i c w
  | Trial i c k x => grid_trial cow i c k x w
  end.
Definition history (cow : bool) (acts : list act) (w : world) : world := fold_left (step cow) acts w.
