(** Python run-time conventions shared by all model files: exceptions as
    values, strings, association lists standing for dictionaries and for the
    indexed columns of pandas frames. *)
From Coq Require Import List String Ascii Reals Bool Arith.
Import ListNotations.
Open Scope string_scope.

(** The ways a call can fail. *)
Inductive pyerr :=
| KeyError | IndexError | TypeError | ValueError | UnboundLocalError
| AttributeError
| SystemExit            (* sys.exit() *)
| EOFError              (* input() with no more typed answers *).

Inductive res (A : Type) :=
| Ok  (a : A)
| Err (e : pyerr).
Arguments Ok {A} a.
Arguments Err {A} e.

Definition bind {A B} (m : res A) (f : A -> res B) : res B :=
  match m with Ok a => f a | Err e => Err e end.

Notation "'do' x <- m ; f" := (bind m (fun x => f))
  (at level 200, x pattern, m at level 100, f at level 200).

Definition of_option {A} (e : pyerr) (o : option A) : res A :=
  match o with Some a => Ok a | None => Err e end.

(** Dictionaries with string keys, in insertion order. *)
Fixpoint lookup {A} (k : string) (d : list (string * A)) : option A :=
  match d with
  | [] => None
  | (k', v) :: t => if String.eqb k k' then Some v else lookup k t
  end.

Definition mem_key {A} (k : string) (d : list (string * A)) : bool :=
  match lookup k d with Some _ => true | None => false end.

(** [d[k] = v] : overwrite in place, or append at the end. *)
Fixpoint update {A} (k : string) (v : A) (d : list (string * A))
  : list (string * A) :=
  match d with
  | [] => [(k, v)]
  | (k', v') :: t =>
      if String.eqb k k' then (k', v) :: t else (k', v') :: update k v t
  end.

Definition remove_key {A} (k : string) (d : list (string * A)) :=
  filter (fun p => negb (String.eqb k (fst p))) d.

Definition keys {A} (d : list (string * A)) : list string := map fst d.

Definition mem_str (s : string) (l : list string) : bool :=
  existsb (String.eqb s) l.

(** [l.index(s)] : position of the first occurrence. *)
Fixpoint index_of (s : string) (l : list string) : option nat :=
  match l with
  | [] => None
  | x :: t => if String.eqb s x then Some 0
              else option_map S (index_of s t)
  end.

(** [p in s] for strings. *)
Definition str_in (p s : string) : bool :=
  match String.index 0 p s with Some _ => true | None => false end.

(** [s.split(c)] for a one-character separator. *)
Fixpoint split_on (c : ascii) (s : string) : list string :=
  match s with
  | EmptyString => [""]
  | String a t =>
      if Ascii.eqb a c then "" :: split_on c t
      else match split_on c t with
           | [] => [String a EmptyString]
           | h :: r => String a h :: r
           end
  end.

(** [s.lower()] on ASCII text. *)
Definition lower_ascii (a : ascii) : ascii :=
  let n := nat_of_ascii a in
  if (Nat.leb 65 n && Nat.leb n 90)%bool then ascii_of_nat (n + 32) else a.

Fixpoint lower (s : string) : string :=
  match s with
  | EmptyString => EmptyString
  | String a t => String (lower_ascii a) (lower t)
  end.

(** Decimal literals such as 3.2808 = dec 32808 4, and powers of ten. *)
Definition dec (m : Z) (k : nat) : R := (IZR m / 10 ^ k)%R.

(** Decidable order on the reals, as booleans (Python comparisons). *)
Definition rltb (x y : R) : bool := if Rlt_dec x y then true else false.
Definition rleb (x y : R) : bool := if Rle_dec x y then true else false.
Definition reqb (x y : R) : bool := if Req_EM_T x y then true else false.
