(** Granular-carbon correlations: fouling, tortuosity, Freundlich conversion,
    search grids, film transfer and water properties.
    PSDM/psdm/PSDM_functions.py, PSDM/psdm/PSDM.py, IonExchangeModel/ixpy/KL_guess.py.
    Numbers are reals; [x**y] is [rpow x y]. *)
From Coq Require Import List String Reals Bool Arith.
From Verif Require Import Lib_Py Lib_Pow M_GacSheet.
Import ListNotations.
Open Scope string_scope.

(** ** numpy / scipy helpers *)

(** numpy.linspace(a, b, n). *)
Definition linspace (a b : R) (n : nat) : list R :=
  match n with
  | O => []
  | S O => [a]
  | S m => map (fun i => (a + INR i * ((b - a) / INR m))%R) (seq 0 n)
  end.

(** The straight line through two points. *)
Definition line (x0 y0 x1 y1 t : R) : R := (y0 + (y1 - y0) / (x1 - x0) * (t - x0))%R.

(** scipy.interpolate.interp1d(x, y, fill_value='extrapolate') on a table with
    increasing x: the segment whose right end is the first x not below [t]; the first
    and last segments are prolonged. *)
Fixpoint interp_x (table : list (R * R)) (t : R) : R :=
  match table with
  | (x0, y0) :: ((x1, y1) :: more) as rest =>
      match more with
      | [] => line x0 y0 x1 y1 t
      | _ => if rleb t x1 then line x0 y0 x1 y1 t else interp_x rest t
      end
  | [(_, y0)] => y0
  | [] => 0%R
  end.

(** ** Fouling *)

(** PSDM_functions.py 463-468, foul_params['water']. *)
Definition foul_water : list (string * (R * R * R * R)) :=
  [("Organic Free", (1, 0, 0, 0)%R);
   ("Rhine", (dec 35 2, dec (-615) 10, dec 65 2, dec (-893) 7));
   ("Portage", (dec 51 2, dec (-921) 9, dec 49 2, dec (-28) 6));
   ("Karlsruhe", (dec 65 2, dec (-671) 9, dec 35 2, dec (-1) 4));
   ("Wausau", (dec 83 2, dec (-912) 9, dec 17 2, dec (-265) 6));
   ("Houghton", (dec 66 2, dec (-155) 9, dec 34 2, dec (-729) 7))].

(** PSDM_functions.py 469-478, foul_params['chemical'] without 'PFAS'. *)
Definition foul_chem : list (string * (R * R)) :=
  [("halogenated alkanes", (dec 12 1, dec (-2) 1));
   ("halogenated alkanes QSPR", (dec 122 2, dec (-12) 2));
   ("halogenated alkenes", (1, 0)%R);
   ("trihalo-methanes", (1, 0)%R);
   ("aromatics", (dec 9 1, dec 1 1));
   ("nitro compounds", (dec 75 2, dec 25 2));
   ("chlorinated hydrocarbon", (dec 59 2, dec 41 2));
   ("phenols", (dec 65 2, dec 35 2));
   ("PNAs", (dec 32 2, dec 68 2));
   ("pesticides", (0%R, dec 5 2))].

(** PSDM_functions.py 479-508, foul_params['chemical']['PFAS']. *)
Definition foul_pfas : list (string * (R * R)) :=
  [("PFBA", (dec 82 2, dec 12 2)); ("PFPeA", (dec 67 2, dec 19 2)); ("PFHxA", (dec 55 2, dec 28 2));
   ("PFHpA", (dec 44 2, dec 36 2)); ("PFOA", (dec 34 2, dec 44 2)); ("PFNA", (dec 24 2, dec 53 2));
   ("PFDA", (dec 17 2, dec 61 2)); ("PFBS", (dec 68 2, dec 24 2)); ("PFHxS", (dec 44 2, dec 48 2));
   ("PFHpS", (dec 34 2, dec 57 2)); ("PFOS", (dec 25 2, dec 66 2)); ("PFMOAA", (dec 88 2, dec 55 3));
   ("PFO2HxA", (dec 63 2, dec 17 2)); ("PFO3OA", (dec 43 2, dec 27 2)); ("GenX", (dec 50 2, dec 34 2));
   ("PFO4DA", (dec 25 2, dec 37 2)); ("NafionBP2", (dec 29 2, dec 63 2)); ("62FTS", (dec 38 2, dec 62 2));
   ("82FTS", (dec 20 2, dec 79 2)); ("PFPrS", (dec 63 2, dec 14 2)); ("PMPA", (dec 63 2, dec 17 2));
   ("PFPeS", (dec 49 2, dec 35 2)); ("PFPrA", (dec 88 2, dec 3 2)); ("TCE", (1, 0)%R);
   ("PFOS_sp", (dec 122 2, dec (-12) 2)); ("PFOA_sp", (dec 122 2, dec (-12) 2));
   ("Ave", (dec 45 2, dec 41 2))].

(** PSDM.py 365-382: the pair (b1, b2) of one compound; an unlisted PFAS gets the
    entry 'Ave'. *)
Definition foul_b (chem_type compound : string) : res (R * R) :=
  if String.eqb chem_type "PFAS" then
    match lookup compound foul_pfas with
    | Some b => Ok b
    | None => of_option KeyError (lookup "Ave" foul_pfas)
    end
  else of_option KeyError (lookup chem_type foul_chem).

(** PSDM.py 384-387: rk1 .. rk4. *)
Definition foul_rk (a : R * R * R * R) (b : R * R) : R * R * R * R :=
  let '(a1, a2, a3, a4) := a in
  let '(b1, b2) := b in
  (b1 * a1 + b2, b1 * a2, b1 * a3, b1 * a4)%R.

(** PSDM.py 358-388, __get_fouling_params, for one compound. *)
Definition get_fouling_params (water_type chem_type compound : string) : res (R * R * R * R) :=
  do a <- of_option KeyError (lookup water_type foul_water);
  do b <- foul_b chem_type compound;
  Ok (foul_rk a b).

(** PSDM.py 397-401: the multiplier at one time (minutes), floored at 1e-3. *)
Definition foul_mult (rk : R * R * R * R) (t : R) : R :=
  let '(rk1, rk2, rk3, rk4) := rk in
  let k := (rk1 + rk2 * t + rk3 * exp (rk4 * t))%R in
  if rltb k (dec 1 3) then dec 1 3 else k.

(** PSDM.py 391-407 with 275-278, __fouled_k_new on the 500 times from 0 to [tmax]
    minutes, for one compound: a function of time in minutes. *)
Definition fouling_fun (rk : R * R * R * R) (tmax : R) (t : R) : R :=
  interp_x (map (fun x => (x, foul_mult rk x)) (linspace 0 tmax 500)) t.

(** PSDM.py 275-277: the last tabulated time, in minutes. *)
Definition fouling_horizon (max_days duration t_mult : R) : R := (Rmax max_days duration * t_mult)%R.

(** PSDM_functions.py 688-711, fouling_k; an array argument is treated entry by entry
    in the same way.  chemical='PFAS' (a dictionary that cannot be unpacked into two
    names) is a ValueError. *)
Definition fouling_k (k t : R) (water chemical : string) : res R :=
  do a <- of_option KeyError (lookup water foul_water);
  do b <- (if String.eqb chemical "PFAS" then Err ValueError
           else of_option KeyError (lookup chemical foul_chem));
  let '(rk1, rk2, rk3, rk4) := foul_rk a b in
  let kt := (k * (rk1 + rk2 * t + rk3 * exp (rk4 * t)))%R in
  Ok (if rltb kt (k / 1000) then (k / 1000)%R else kt).

(** ** Tortuosity: PSDM_functions.py 714-727. *)

(** Entry of an array argument (718-721). *)
Definition tortuosity_array (t : R) : R :=
  let tort := (dec 334 3 + dec 661 8 * t)%R in
  if rltb tort 1 then 1%R else tort.

(** Plain number (722-726). *)
Definition tortuosity_scalar (t : R) : R :=
  if rltb t (70 * min_per_day) then 1%R else (dec 334 3 + dec 661 8 * t)%R.

(** ** Freundlich conversion: PSDM_functions.py 804-805, recalc_k. *)
Definition recalc_k (orig_k q xn_old xn_new : R) : R :=
  (rpow q (1 - xn_new / xn_old) * rpow orig_k (xn_new / xn_old))%R.

(** ** Search grids: PSDM_functions.py 999-1023, generate_grid. *)

(** np.max / np.min of a non-empty list; of an empty one a ValueError. *)
Definition np_max (l : list R) : res R :=
  match l with [] => Err ValueError | x :: t => Ok (fold_left Rmax t x) end.
Definition np_min (l : list R) : res R :=
  match l with [] => Err ValueError | x :: t => Ok (fold_left Rmin t x) end.

(** One axis (1004-1012, and 1015-1022 with the other defaults). *)
Definition grid_axis (dmin dmax : R) (num loop_num : nat) (range : list R) : res (list R) :=
  if (Nat.eqb loop_num 0 && Nat.eqb (List.length range) 1)%bool
  then Ok (linspace dmin dmax num)
  else do hi <- np_max range; do lo <- np_min range; Ok (linspace lo hi num).

Definition generate_grid (num_xn num_k loop_num : nat) (xn_range k_range : list R)
  : res (list R * list R) :=
  do x <- grid_axis (dec 3 1) (dec 9 1) num_xn loop_num xn_range;
  do k <- grid_axis 1 5 num_k loop_num k_range;
  Ok (x, k).

(** ** Film transfer: PSDM_functions.py 670-782. *)

(** 670-679, ohashi. *)
Definition ohashi (re sc : R) : R :=
  if rltb re (dec 58 1) then (2 + dec 158 2 * rpow re (dec 4 1) * rpow sc (1 / 3))%R
  else if rltb re 500 then (2 + dec 121 2 * rpow re (dec 5 1) * rpow sc (1 / 3))%R
  else (2 + dec 59 2 * rpow re (dec 6 1) * rpow sc (1 / 3))%R.

(** 681-686, gnielinski. *)
Definition gnielinski (re sc ebed : R) : R :=
  let sh_l := (dec 644 3 * rpow re (dec 5 1) * rpow sc (1 / 3))%R in
  let sh_t := (dec 37 3 * rpow re (dec 8 1) * sc /
               (1 + dec 2443 3 * rpow re (dec (-1) 1) * (rpow sc (2 / 3) - 1)))%R in
  ((2 + rpow (sh_l ^ 2 + sh_t ^ 2) (dec 5 1)) * (1 + dec 15 1 * (1 - ebed)))%R.

(** What kf_calc hands back: a number, or (trailing comma, line 763) a one-tuple. *)
Inductive kf_value := Num (x : R) | Tuple1 (x : R).

(** 748-782, kf_calc. *)
Definition kf_calc (multi_p re sc ebed : R) (corr : string) : kf_value :=
  if String.eqb corr "Chern and Chien" then
    Num (multi_p * (1 + dec 15 1 * (1 - ebed)) * (2 + dec 644 3 * rpow re (dec 5 1) * rpow sc (1 / 3)))%R
  else if String.eqb corr "Tan et al" then
    Num (multi_p * dec 11 1 / ebed * rpow (re * sc) (1 / 3))%R
  else if String.eqb corr "Wilson and Geankoplis" then
    Num (multi_p * dec 109 2 / ebed * rpow (re * sc) (1 / 3))%R
  else if String.eqb corr "Ohashi et al" then
    Tuple1 (multi_p * ohashi re sc)%R
  else if String.eqb corr "Williamson et al" then
    Num (multi_p * dec 24 1 * ebed * rpow re (dec 3 1) * rpow sc (dec 42 2))%R
  else if String.eqb corr "Ko et al" then
    Num (multi_p * (dec 325 3 / (ebed * rpow re (dec 36 2) * rpow sc (1 / 3))))%R
  else if String.eqb corr "Wakau and Funazkri" then
    Num (multi_p * (2 + dec 11 1 * rpow re (dec 6 1) * rpow sc (1 / 3)))%R
  else if String.eqb corr "Kakaoka et al" then
    Num (multi_p * (dec 185 2 * rpow ((1 - ebed) / ebed) (1 / 3) * rpow re (1 / 3) * rpow sc (1 / 3)))%R
  else Num (multi_p * gnielinski re sc ebed)%R.

(** ** Water and diffusivity *)

(** PSDM_functions.py 729-736, viscosity, and KL_guess.py 46-53: g/(cm s), degrees C. *)
Definition viscosity (temp : R) : R :=
  let t := (temp + dec 27315 2)%R in
  (exp (- dec 2471 2 + 4209 / t + dec 4527 5 * t - dec 3376 8 * t ^ 2) / 100)%R.

(** PSDM_functions.py 738-746, density, and KL_guess.py 56-60: g/cm3. *)
Definition density (temp : R) : R :=
  let t := ((temp + dec 27315 2) / dec 32465 2)%R in
  (dec 98396 5 * (- dec 141768 5 + dec 897665 5 * t - dec 122755 4 * t ^ 2
                  + dec 745844 5 * t ^ 3 - dec 173849 5 * t ^ 4))%R.

(** PSDM.py 1386-1387: liquid diffusivity (cm2/s) and Schmidt number. *)
Definition difl (vw mol_vol : R) : R :=
  (dec 1326 7 / (rpow (vw * 100) (dec 114 2) * rpow mol_vol (dec 589 3)))%R.
Definition schmidt (vw dw difl : R) : R := (vw / (dw * difl))%R.

(** PSDM.py 1390-1392: the film coefficient (cm/s) used by run_psdm. *)
Definition kf_default (rad re sc ebed difl : R) : kf_value :=
  kf_calc (difl / (2 * rad)) re sc ebed "Chern and Chien".

(** KL_guess.py 64-75, Hayduk_Laudie. *)
Definition Hayduk_Laudie (MV T : R) : R :=
  let mu := (viscosity T * 100)%R in
  (dec 1326 7 * rpow mu (- dec 114 2) * rpow MV (- dec 589 3))%R.

(** KL_guess.py 78-91, Wilke_Chang. *)
Definition Wilke_Chang (MV T MW psi : R) : R :=
  let mu := (viscosity T * 100)%R in
  let kelvins := (T + dec 27315 2)%R in
  (dec 74 9 * sqrt (psi * MW) * kelvins * rpow MV (- dec 6 1) / mu)%R.

(** KL_guess.py 94-122, simple_Gnielinski. *)
Definition simple_Gnielinski (rb v EBED T DL : R) : R :=
  let rho_L := density T in
  let mu := viscosity T in
  let dP := (2 * rb)%R in
  let u := (v / EBED)%R in
  let Re := (u * dP * (rho_L / mu))%R in
  let Sc := (mu / rho_L / DL)%R in
  let Sh := ((2 + dec 644 3 * rpow Re (1 / 2) * rpow Sc (1 / 3)) * (1 + dec 15 1 * (1 - EBED)))%R in
  (Sh * DL / dP)%R.
