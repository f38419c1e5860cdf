(** Model of PSDM/psdm/PSDM_extra.py: sizes of large columns and of the rapid small-scale
    columns derived from them.  A pandas NaN, or a cell never written, is [None]; Python's
    arithmetic hands NaN on.  An argument is a plain number or a [value, unit] pair. *)
From Coq Require Import Reals List Bool String.
From Verif Require Import Lib_Py Lib_Pow M_GacSheet.
Import ListNotations.
Open Scope R_scope.
Open Scope string_scope.

Definition num := option R.
Definition map1 (f : R -> R) (a : num) : num := match a with Some x => Some (f x) | None => None end.
Definition map2 (f : R -> R -> R) (a b : num) : num := match a, b with Some x, Some y => Some (f x y) | _, _ => None end.
Definition mulN := map2 Rmult.
Definition divN := map2 Rdiv.

Inductive quant := Plain (x : R) | InUnit (x : R) (unit : string).

(** 14-18 *)
Definition sizes : list (string * R) :=
  [("4", dec 476 2); ("5", 4); ("6", dec 336 2); ("7", dec 283 2); ("8", dec 238 2); ("10", 2);
   ("12", dec 168 2); ("14", dec 141 2); ("16", dec 119 2); ("18", 1); ("20", dec 841 3); ("25", dec 707 3);
   ("30", dec 595 3); ("35", dec 5 1); ("40", dec 420 3); ("45", dec 354 3); ("50", dec 297 3); ("60", dec 25 2);
   ("70", dec 21 2); ("80", dec 177 3); ("100", dec 149 3); ("120", dec 125 3); ("140", dec 105 3); ("170", dec 88 3);
   ("200", dec 74 3); ("230", dec 63 3); ("270", dec 53 3); ("325", dec 44 3); ("400", dec 37 3)].
(** 20-35; the mesh is given as the two parts of mesh.split('x'). *)
Definition calc_mesh_diameter (mesh : string * string) : R :=
  let size s := match lookup s sizes with Some d => d | None => 0 end in
  (size (fst mesh) + size (snd mesh)) / 2.

(** 38-54 *)
Definition length_convert2cm (value : R) (unit : string) : num :=
  let unit := lower unit in
  if String.eqb unit "cm" then Some value
  else if String.eqb unit "m" then Some (value * 100)
  else if String.eqb unit "mm" then Some (value / 10)
  else if String.eqb unit "in" then Some (value * dec 254 2)
  else if String.eqb unit "ft" then Some (value * 12 * dec 254 2)
  else if (String.eqb unit "yard" || String.eqb unit "yd")%bool then Some (value * 3 * 12 * dec 254 2)
  else None.
(** 57-79 *)
Definition flrt_convert2cm3min (value : R) (unit : string) : num :=
  let unit := lower unit in
  if (String.eqb unit "cm3/min" || String.eqb unit "ml/min")%bool then Some value
  else if String.eqb unit "m3/min" then Some (value * 100 ^ 3)
  else if String.eqb unit "mm3/min" then Some (value / 10 ^ 3)
  else if String.eqb unit "in3/min" then Some (value * (dec 254 2) ^ 3)
  else if String.eqb unit "ft3/min" then Some (value * (12 * dec 254 2) ^ 3)
  else if String.eqb unit "mgd" then Some (value * dec 3785411784 6 * 10 ^ 6 / 1440)
  else if (String.eqb unit "lpm" || String.eqb unit "l/min")%bool then Some (value * 1000)
  else if (String.eqb unit "gal/min" || String.eqb unit "gpm")%bool then Some (value * dec 3785411784 6)
  else if (String.eqb unit "m3/day" || String.eqb unit "m3pd")%bool then Some (value * 10 ^ 6 / 1440)
  else None.
(** 82-97 *)
Definition mass_convert2g (value : R) (unit : string) : num :=
  let unit := lower unit in
  if (String.eqb unit "gm" || String.eqb unit "g" || String.eqb unit "grams")%bool then Some value
  else if String.eqb unit "kg" then Some (value * 1000)
  else if (String.eqb unit "lb" || String.eqb unit "pounds")%bool then Some (value * dec 45359237 5)
  else if (String.eqb unit "ton" || String.eqb unit "tons")%bool then Some (value * 2000 * dec 45359237 5)
  else if (String.eqb unit "mton" || String.eqb unit "metric tons")%bool then Some (value * 1000 * 1000)
  else None.
(** 100-113 *)
Definition time_convert2day (value : R) (unit : string) : num :=
  let unit := lower unit in
  if String.eqb unit "min" then Some (value / (24 * 60))
  else if (String.eqb unit "sec" || String.eqb unit "s")%bool then Some (value / (24 * 60 * 60))
  else if (String.eqb unit "day" || String.eqb unit "days" || String.eqb unit "d")%bool then Some value
  else if (String.eqb unit "hr" || String.eqb unit "hours" || String.eqb unit "h")%bool then Some (value / 24)
  else None.

(** lc_obj, 121-123 *)
Record large := { l_flrt : num; l_L : num; l_diam : num; l_part : num; l_time : num; l_mass : num; l_ebct : num;
                  l_density : num; l_loading : num }.
(** the arguments of 116-119; column_info is None *)
Record largeargs := { a_L : option quant; a_diam : option quant; a_flrt : option quant; a_loading : option quant;
  a_density : option quant; a_mass : option quant; a_time : option quant; a_part : option quant; a_mesh : option (string * string) }.

(** 126-148, 173-178, 184-198: a cell written from an argument. *)
Definition cell (conv : R -> string -> num) (a : option quant) : num :=
  match a with None => None | Some (Plain x) => Some x | Some (InUnit x u) => conv x u end.
(** 151-165 *)
Definition loading_cell (a : quant) : num :=
  match a with
  | Plain x => Some x
  | InUnit x u => let u := lower u in
      if (String.eqb u "m/h" || String.eqb u "m/hr")%bool then Some x
      else if String.eqb u "gpm/ft2" then Some (x * dec 244475 5)
      else if String.eqb u "cm/s" then
        divN (divN (mulN (Some x) (time_convert2day 1 "hr")) (time_convert2day 1 "s")) (length_convert2cm 1 "m")
      else None
  end.
(** 200-211 *)
Definition density_cell (value : R) (unit : string) : num :=
  let unit := lower unit in
  if (String.eqb unit "gm/ml" || String.eqb unit "g/ml" || String.eqb unit "gm/cm3" || String.eqb unit "g/cm3")%bool then Some value
  else if String.eqb unit "lb/ft3" then Some (value / dec 624279605761 10)
  else None.
(** np.pi / 4 * diam ** 2 *)
Definition area (d : num) : num := map1 (fun d => PI / 4 * d ^ 2) d.
(** _time_convert2day(1, 'min') / _time_convert2day(1, 'hr') *)
Definition minhr : num := divN (time_convert2day 1 "min") (time_convert2day 1 "hr").

(** 116-227 *)
Definition build_large_scale_column (a : largeargs) : large :=
  let l := cell length_convert2cm (a_L a) in
  let d := cell length_convert2cm (a_diam a) in
  (* 150-171 *)
  let '(loading, flow) := match a_flrt a, a_loading a with
    | None, Some v => let r := loading_cell v in
        (r, mulN (mulN (mulN r (length_convert2cm 1 "m")) minhr) (area d))
    | _, _ => (None, cell flrt_convert2cm3min (a_flrt a))
    end in
  (* 173-181 *)
  let part := match a_part a, a_mesh a with
    | Some _, _ => cell length_convert2cm (a_part a)
    | None, Some m => Some (calc_mesh_diameter m)
    | None, None => None
    end in
  (* 216-218 *)
  let ebct := divN (mulN l (area d)) flow in
  (* 220-225 *)
  let loading := match loading with
    | Some r => Some r
    | None => divN (divN (divN flow (area d)) (length_convert2cm 1 "m")) minhr
    end in
  {| l_flrt := flow; l_L := l; l_diam := d; l_part := part; l_time := cell time_convert2day (a_time a);
     l_mass := cell mass_convert2g (a_mass a); l_ebct := ebct; l_density := cell density_cell (a_density a); l_loading := loading |}.

(** sc_obj, 232-240 *)
Record small := { s_diam : num; s_length : num; s_part : num; s_ebct : num; s_time : num; s_loading : num; s_Q : num;
                  s_mass : num; s_water : num }.
(** 242-294 *)
Definition calc_RSSCT_specs (lc : large) (column_diameter : option quant) (particle : option quant) (mesh : option (string * string))
  (power_x : R) : small :=
  let d := cell length_convert2cm column_diameter in
  (* 249-263 *)
  let part : option num := match particle, mesh with
    | None, Some m => Some (Some (calc_mesh_diameter m))
    | Some (Plain x), _ => Some (Some x)
    | Some (InUnit x u), _ => Some (mulN (length_convert2cm x u) (length_convert2cm 1 "mm"))
    | None, None => None
    end in
  match part with
  | None => {| s_diam := d; s_length := None; s_part := None; s_ebct := None; s_time := None; s_loading := None; s_Q := None;
               s_mass := None; s_water := None |}
  | Some p =>
      (* 266-276 *)
      let pw := map1 (fun x => rpow x (2 - power_x)) in
      let ebct := divN (mulN (l_ebct lc) (pw p)) (pw (l_part lc)) in
      let time := divN (mulN (l_time lc) (pw p)) (pw (l_part lc)) in
      let loading := divN (mulN (l_loading lc) (l_part lc)) p in
      (* 278-287 *)
      let len := mulN (divN (mulN (mulN ebct loading) (time_convert2day 1 "min")) (time_convert2day 1 "hr")) (length_convert2cm 1 "m") in
      let vol := mulN (area d) len in
      let q := divN vol ebct in
      (* 289-292 *)
      let water := divN (divN (mulN time q) (time_convert2day 1 "min")) (flrt_convert2cm3min 1 "lpm") in
      {| s_diam := d; s_length := len; s_part := p; s_ebct := ebct; s_time := time; s_loading := loading; s_Q := q;
         s_mass := mulN vol (l_density lc); s_water := water |}
  end.
