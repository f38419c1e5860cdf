(** Specification of units, independent of the model's tables. *)
From Coq Require Import List String Reals.
From Verif Require Import Lib_Py.
Import ListNotations.
Open Scope string_scope.

(** A family of conversion factors on a set of unit names is a consistent
    system: identity, reciprocal, transitive, and never zero. *)
Definition coherent (U : list string) (factor : string -> string -> R) : Prop :=
  (forall a, In a U -> factor a a = 1%R) /\
  (forall a b, In a U -> In b U -> factor a b * factor b a = 1)%R /\
  (forall a b c, In a U -> In b U -> In c U ->
     factor a b * factor b c = factor a c)%R.

(** Physical sizes of the units (SI definitions).  Length in metres. *)
Definition si_length : list (string * R) :=
  [("m", 1%R); ("cm", dec 1 2); ("mm", dec 1 3); ("um", dec 1 6);
   ("ft", dec 3048 4); ("in", dec 254 4)].

(** Volume in cubic metres; the gallon is the US gallon of 231 cubic inches. *)
Definition si_volume : list (string * R) :=
  [("m3", 1%R); ("cm3", dec 1 6); ("ml", dec 1 6); ("mm3", dec 1 9);
   ("L", dec 1 3); ("l", dec 1 3);
   ("in3", (dec 254 4 ^ 3)%R); ("ft3", (dec 3048 4 ^ 3)%R);
   ("cuf", (dec 3048 4 ^ 3)%R); ("gal", (231 * dec 254 4 ^ 3)%R)].

(** Time in seconds ("m" is the minute). *)
Definition si_time : list (string * R) :=
  [("s", 1%R); ("sec", 1%R); ("seconds", 1%R);
   ("min", 60%R); ("m", 60%R);
   ("h", 3600%R); ("hr", 3600%R); ("hour", 3600%R); ("hours", 3600%R);
   ("d", 86400%R); ("day", 86400%R); ("days", 86400%R)].

(** Area in square metres. *)
Definition si_area : list (string * R) :=
  [("m2", 1%R); ("cm2", dec 1 4); ("mm2", dec 1 6);
   ("in2", (dec 254 4 ^ 2)%R); ("ft2", (dec 3048 4 ^ 2)%R)].

(** Mass in kilograms (avoirdupois pound and ounce). *)
Definition si_weight : list (string * R) :=
  [("kg", 1%R); ("g", dec 1 3); ("mg", dec 1 6); ("ug", dec 1 9);
   ("ng", dec 1 12); ("lb", dec 45359237 8); ("lbs", dec 45359237 8);
   ("lbm", dec 45359237 8); ("oz", (dec 45359237 8 / 16)%R)].

(** Amount of substance in milliequivalents, for an ion of molar mass [MW]
    (g/mol) and charge [val]; one mole of the ion carries one mole of N or C
    for the units "mg as N", "mg as C" (standard atomic weights 14.007 and
    12.011). *)
Definition meq_of (MW val : R) : list (string * R) :=
  [("meq", 1%R); ("eq", 1000%R);
   ("g", (1000 * val / MW)%R); ("mg", (val / MW)%R);
   ("ug", (val / MW / 1000)%R); ("ng", (val / MW / 1000000)%R);
   ("mgN", (val / dec 14007 3)%R); ("mgC", (val / dec 12011 3)%R)].

(** A factor from [a] to [b] is physical, up to relative error [tol]: the number
    of [b]s in one [a] is size a / size b. *)
Definition physical (tol : R) (size : list (string * R))
  (a b : string) (factor : R) : Prop :=
  exists sa sb, lookup a size = Some sa /\ lookup b size = Some sb /\
    (Rabs (factor * (sb / sa) - 1) <= tol)%R.

(** The interface of a converter: input unit, output unit and the answers
    waiting at the terminal give a factor, the unit finally used, the output
    unit and the remaining answers, or an error. *)
Definition converter : Type :=
  string -> string -> list string -> res (R * string * string * list string).

(** Accepted units are converted without consulting the user, by a coherent
    family of factors. *)
Definition coherent_converter (U : list string) (conv : converter) : Prop :=
  exists factor, coherent U factor /\
    forall a b t, In a U -> In b U -> conv a b t = Ok (factor a b, a, b, t).

(** Accepted units are converted by physically correct factors. *)
Definition physical_converter (tol : R) (size : list (string * R))
  (conv : converter) : Prop :=
  forall a b t, In a (keys size) -> In b (keys size) ->
    exists factor, conv a b t = Ok (factor, a, b, t) /\ physical tol size a b factor.

(** Units of equal size are interchangeable, as input and as output. *)
Definition spelling_converter (size : list (string * R)) (conv : converter) : Prop :=
  forall a a' b s t, In (a, s) size -> In (a', s) size -> In b (keys size) ->
    exists f g,
      conv a b t = Ok (f, a, b, t) /\ conv a' b t = Ok (f, a', b, t) /\
      conv b a t = Ok (g, b, a, t) /\ conv b a' t = Ok (g, b, a', t).

(** Behaviour on unknown units. *)
Definition guarded_converter (U : list string) (conv : converter) : Prop :=
  (* an unknown output unit never yields a factor *)
  (forall u_in u_out t, ~ In u_out U ->
     conv u_in u_out t = Err SystemExit \/ conv u_in u_out t = Err EOFError) /\
  (* with a known input unit, an unknown output unit exits *)
  (forall u_in u_out t, In u_in U -> ~ In u_out U ->
     conv u_in u_out t = Err SystemExit) /\
  (* an unknown input unit is replaced by the first known answer, and gives
     the factor of that answer *)
  (forall u_in u_out bad u rest,
     ~ In u_in U -> (forall x, In x bad -> ~ In x U) -> In u U -> In u_out U ->
     exists factor, conv u u_out rest = Ok (factor, u, u_out, rest) /\
       conv u_in u_out (bad ++ u :: rest)%list = Ok (factor, u, u_out, rest)) /\
  (* with no known answer there is no factor *)
  (forall u_in u_out bad,
     ~ In u_in U -> (forall x, In x bad -> ~ In x U) ->
     conv u_in u_out bad = Err EOFError).

(** Compound units "a/b". *)
Definition slash_units (A B : list string) : list string :=
  flat_map (fun a => map (fun b => (a ++ "/" ++ b)%string) B) A.

(** Same as [coherent_converter] for converters that may rewrite the spelling
    of the input unit they report. *)
Definition coherent_compound (U : list string) (conv : converter) : Prop :=
  exists factor, coherent U factor /\
    forall a b t, In a U -> In b U ->
      exists spelling, conv a b t = Ok (factor a b, spelling, b, t).

(** The factor of a quotient of units is the quotient of the factors. *)
Definition quotient_converter (A B : list string) (num den conv : converter)
  : Prop :=
  forall a b c d t, In a A -> In b B -> In c A -> In d B ->
    exists fn fd spelling,
      num a c t = Ok (fn, a, c, t) /\ den b d t = Ok (fd, b, d, t) /\
      conv (a ++ "/" ++ b)%string (c ++ "/" ++ d)%string t
      = Ok ((fn / fd)%R, spelling, (c ++ "/" ++ d)%string, t).

(** A result of [conv] from [u_in] to [u_out], given the answers typed by the user, is [stable] when
    its reported unit converts again, with nothing asked, by the same factor and to the same report. *)
Definition stable (conv : converter) (u_out : string) (r : R * string * string * list string) : Prop :=
  let '(factor, reported, out, _) := r in out = u_out /\ forall t, conv reported u_out t = Ok (factor, reported, u_out, t).
