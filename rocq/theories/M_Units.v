(** Model of the unit conversions of ixpy.
    Source: IonExchangeModel/ixpy/paramsheets.py, lines 50-306.

    The user's terminal is the list of answers still to be typed; every
    converter takes it and returns what is left of it.  Printed messages and the
    [label]/[caller] arguments, which only appear in messages, are dropped. *)
From Coq Require Import List String Ascii Reals Bool Arith.
From Verif Require Import Lib_Py.
Import ListNotations.
Open Scope string_scope.

(** A converter's result: factor, input unit (possibly corrected by the user),
    output unit. *)
Definition conv_result : Type := R * string * string.

(** Computations that may read answers from the terminal. *)
Definition io (A : Type) : Type := list string -> res (A * list string).
Definition io_ret {A} (a : A) : io A := fun t => Ok (a, t).
Definition io_err {A} (e : pyerr) : io A := fun _ => Err e.
Definition io_bind {A B} (m : io A) (f : A -> io B) : io B :=
  fun t => match m t with
           | Ok (a, t') => f a t'
           | Err e => Err e
           end.
Notation "'ask' x <- m ; f" := (io_bind m (fun x => f))
  (at level 200, x pattern, m at level 100, f at level 200).

Definition io_opt {A} (e : pyerr) (o : option A) : io A :=
  match o with Some a => io_ret a | None => io_err e end.

(** paramsheets.py:76-85 — ask until an accepted unit is typed.  [input()] with
    no further answers raises EOFError, which the [except ValueError] of the
    loop does not catch. *)
Fixpoint prompt_unit (u_list : list string) (answers : list string)
  : res (string * nat * list string) :=
  match answers with
  | [] => Err EOFError
  | a :: rest =>
      match index_of a u_list with
      | Some i => Ok (a, i, rest)
      | None => prompt_unit u_list rest
      end
  end.

(** paramsheets.py:50-100 — [conv_units].  [base_data/base_vector[:,None]] has
    entry [coef[j]/coef[i]] in row i, column j. *)
Definition conv_units (u_in u_out : string) (u_list : list string)
  (u_coef : list R) : io conv_result :=
  fun answers =>
    do (u_in', i, rest) <-
      match index_of u_in u_list with
      | Some i => Ok (u_in, i, answers)
      | None => prompt_unit u_list answers
      end;
    match index_of u_out u_list with
    | None => Err SystemExit
    | Some j =>
        do ci <- of_option IndexError (nth_error u_coef i);
        do cj <- of_option IndexError (nth_error u_coef j);
        Ok ((cj / ci)%R, u_in', u_out, rest)
    end.

(** paramsheets.py:104-109 *)
Definition length_units := ["m"; "cm"; "mm"; "ft"; "in"; "um"].
Definition length_coefs : list R :=
  [1; 100; 1000; dec 32808 4; dec 393701 4; 1000000]%R.
Definition conv_length (u_in u_out : string) : io conv_result :=
  conv_units u_in u_out length_units length_coefs.

(** paramsheets.py:112-117 *)
Definition volume_units :=
  ["m3"; "cm3"; "ml"; "L"; "mm3"; "gal"; "ft3"; "in3"; "cuf"; "l"].
Definition volume_coefs : list R :=
  [1; 1000000; 1000000; 1000; 1000000000; dec 264172 3; dec 353147 4;
   dec 61023801579099 9; dec 353147 4; 1000]%R.
Definition conv_volume (u_in u_out : string) : io conv_result :=
  conv_units u_in u_out volume_units volume_coefs.

(** paramsheets.py:120-125 *)
Definition time_units :=
  ["days"; "hours"; "min"; "sec"; "m"; "s"; "seconds"; "h"; "d"; "hr"; "day";
   "hour"].
Definition time_coefs : list R :=
  [1; 24; 24*60; 24*60*60; 24*60; 24*60*60; 24*60*60; 24; 1; 24; 1; 24]%R.
Definition conv_time (u_in u_out : string) : io conv_result :=
  conv_units u_in u_out time_units time_coefs.

(** paramsheets.py:203-208 *)
Definition area_units := ["m2"; "cm2"; "mm2"; "in2"; "ft2"].
Definition area_coefs : list R :=
  [1; 10000; 1000000; dec 15500031 4; dec 107639 4]%R.
Definition conv_area (u_in u_out : string) : io conv_result :=
  conv_units u_in u_out area_units area_coefs.

(** paramsheets.py:260-264 *)
Definition weight_units :=
  ["kg"; "g"; "mg"; "ug"; "ng"; "lbs"; "lb"; "lbm"; "oz"].
Definition weight_coefs : list R :=
  [1; 1000; 1000000; 1000000000; 1000000000000; dec 22046226218 10;
   dec 22046226218 10; dec 22046226218 10; dec 3527396195 8]%R.
Definition conv_weight (u_in u_out : string) : io conv_result :=
  conv_units u_in u_out weight_units weight_coefs.

(** paramsheets.py:252-258 — keyword arguments MW and val become parameters
    (both default to 1 in the code, see [conv_capacity_mass] below). *)
Definition conc_units := ["meq"; "mg"; "ug"; "ng"; "mgN"; "mgC"; "eq"; "g"].
Definition conc_coefs (MW val : R) : list R :=
  [1; MW/val; 1000*MW/val; 1000000*MW/val; dec 14001 3/val; dec 12011 3/val;
   1/1000; 1/1000*MW/val]%R.
Definition conv_conc (MW val : R) (u_in u_out : string) : io conv_result :=
  conv_units u_in u_out conc_units (conc_coefs MW val).

(** Lines 129-140 (and the identical loops of the other compound converters):
    split "a/b"; a unit without "/" but containing "gpm" counts as gal/min; any
    other unit contributes nothing to the lists. *)
Definition slash : ascii := "/"%char.
Definition split_compound (var : string) : list (string * string) :=
  if str_in "/" var then
    match split_on slash var with
    | a :: b :: _ => [(a, b)]
    | _ => []
    end
  else if str_in "gpm" var then [("gal", "min")]
  else [].

(** [lst[0]] and [lst[1]] of the two lists built by the loop over
    [[u_in, u_out]]; too short a list raises IndexError. *)
Definition compound_parts (u_in u_out : string)
  : res ((string * string) * (string * string)) :=
  let l := (split_compound u_in ++ split_compound u_out)%list in
  do a <- of_option IndexError (nth_error l 0);
  do b <- of_option IndexError (nth_error l 1);
  Ok (a, b).

Definition io_lift {A} (m : res A) : io A :=
  fun t => do a <- m; Ok (a, t).

(** The common shape of the compound converters: convert the two parts, divide
    the factors.  [relabel] rebuilds the corrected input unit. *)
Definition conv_compound (conv_num conv_den : string -> string -> io conv_result)
  (relabel : string -> string -> string) (u_in u_out : string)
  : io conv_result :=
  ask (pin, pout) <- io_lift (compound_parts u_in u_out);
  ask (nf, nin, _) <- conv_num (fst pin) (fst pout);
  ask (df, din, _) <- conv_den (snd pin) (snd pout);
  io_ret ((nf / df)%R, relabel nin din, u_out).

Definition relabel_slash (a b : string) : string := (a ++ "/" ++ b)%string.

(** paramsheets.py:128-152 — gallons are relabelled "gp"+time (144-148). *)
Definition relabel_flow (a b : string) : string :=
  if String.eqb a "gal" then ("g" ++ "p" ++ b)%string else relabel_slash a b.
Definition conv_vol_per_time : string -> string -> io conv_result :=
  conv_compound conv_volume conv_time relabel_flow.

(** paramsheets.py:155-175 *)
Definition conv_vel : string -> string -> io conv_result :=
  conv_compound conv_length conv_time relabel_slash.

(** paramsheets.py:177-201 — the label of a per-gallon density is rebuilt as
    "<weight>pg" (193-197). *)
Definition relabel_dens (a b : string) : string :=
  if String.eqb b "gal" then (a ++ "p" ++ "g")%string else relabel_slash a b.
Definition conv_dens : string -> string -> io conv_result :=
  conv_compound conv_weight conv_volume relabel_dens.

(** paramsheets.py:211-231 *)
Definition conv_area_per_time : string -> string -> io conv_result :=
  conv_compound conv_area conv_time relabel_slash.

(** paramsheets.py:266-285 *)
Definition conv_capacity_mass (MW val : R) : string -> string -> io conv_result :=
  conv_compound (conv_conc MW val) conv_weight relabel_slash.

(** paramsheets.py:287-306 *)
Definition conv_capacity_vol (MW val : R) : string -> string -> io conv_result :=
  conv_compound (conv_conc MW val) conv_volume relabel_slash.

(** paramsheets.py:235-249 — [conv_fr_to_vel].  [u_out.split('/')] is unpacked
    into exactly two parts, otherwise ValueError (238). *)
Definition conv_fr_to_vel (u_in u_out : string) (diam : R) (diam_u : string)
  : io conv_result :=
  ask (l_out, time_out) <-
    (if str_in "/" u_out then
       match split_on slash u_out with
       | [a; b] => io_ret (a, b)
       | _ => io_err ValueError
       end
     else io_ret ("gal", "min"));
  let tmp_vol_u := (diam_u ++ "3" ++ "/" ++ time_out)%string in
  ask (vol_to_d, u_in_vd, u_out_vd) <- conv_vol_per_time u_in tmp_vol_u;
  ask (tmp_cv, _, _) <- conv_length diam_u l_out;
  io_ret ((vol_to_d * tmp_cv / (PI * diam ^ 2 / 4))%R,
          (u_in_vd ++ "/" ++ u_out_vd)%string, u_out).
