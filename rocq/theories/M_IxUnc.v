(** Model of the ion-exchange uncertainty estimates.
    Sources: IonExchangeModel/ixpy/hsdmix.py:575-660 ([model_uncertainty]) and
    psdmix.py:391-479 ([model_uncertainty_PSDM]); what [solve] reads from the object:
    hsdmix.py:291-417, 488, 511, 537-542 and psdmix.py:85-214, 293, 322-323, 353-358.
    The integration itself is a parameter [integrate]: any function of the values
    that [solve] reads. *)
From Coq Require Import List String Reals Bool Arith ZArith.
From Verif Require Import Lib_Py M_Params M_IxData M_IxColumn.
Import ListNotations.
Open Scope string_scope.
Local Notation length := List.length.

(** What one call of [solve] depends on; times in seconds (the internal time scale
    is immaterial, property C59). *)
Record run := {
  r_col : column;
  r_secs : list R;             (* times of the influent table *)
  r_cin : list (list R);       (* influent of each ion *)
  r_report : option (list R)   (* reporting times *) }.

Fixpoint mapM {A B} (f : A -> res B) (l : list A) : res (list B) :=
  match l with
  | [] => Ok []
  | x :: t => do y <- f x; do ys <- mapM f t; Ok (y :: ys)
  end.

(** [int(x)] of a non-negative number. *)
Definition to_int (x : R) : nat := Z.to_nat (Int_part x).

Definition row_fun (rows : list (string * ion)) (f : ion -> R) (i : nat) : R :=
  match nth_error rows i with Some kr => f (snd kr) | None => 0%R end.

(** hsdmix.py:291-347, 488, 511; psdmix.py:85-144, 293, 322-323 — reading the
    object.  kL, Ds and Dp are looked up in params by PSDMIX (101-103) but the ion
    table's columns are the ones used by both. *)
Definition read_column (psdm : bool) (l : loaded) : res column :=
  let p := l_params l in
  do ebed <- value_of "EBED" p;
  do epor <- (if psdm then value_of "EPOR" p else Ok 0%R);
  do len <- value_of "L" p;
  do v <- value_of "v" p;
  do vnz <- value_of "nz" p;
  do vnr <- value_of "nr" p;
  do _u1 <- (if psdm then value_of "Ds" p else Ok 0%R);
  do _u2 <- (if psdm then value_of "Dp" p else Ok 0%R);
  do _u3 <- (if psdm then value_of "kL" p else Ok 0%R);
  do vrb <- value_of "rb" p;
  do q <- value_of "Q" p;
  if negb (has_kL (l_ions l) && has_Ds (l_ions l) && (has_Dp (l_ions l) || negb psdm)) then Err KeyError
  else
  let rows := ion_rows (l_ions l) in
  Ok {| NION := length (l_names l); nr := to_int vnr; nz := to_int vnz;
        EBED := ebed; EPOR := epor; Lbed := len; vel := v; rb := vrb; Qcap := q;
        kL := row_fun rows i_kL; Ds := row_fun rows i_Ds;
        Dp := if psdm then row_fun rows i_Dp else (fun _ => 0%R);
        Kxc := row_fun rows i_Kxc; val := fun i => nth i (l_valences l) 0%nat |}.

(** hsdmix.py:537-545; psdmix.py:353-361 — reporting times beyond the end of the
    influent make [solve_ivp] raise ValueError; [np.any(t_eval)] is false for [0]. *)
Definition prepare (psdm : bool) (l : loaded) (t_eval : list R) : res run :=
  do cin <- mapM (fun n => of_option KeyError (lookup n (c_cols (l_Cin l)))) (l_names l);
  do c <- read_column psdm l;
  do last <- match rev (c_times (l_Cin l)) with t :: _ => Ok t | [] => Err IndexError end;
  let used := existsb (fun t => negb (reqb t 0)) t_eval in
  if (used && existsb (fun t => rltb last t || rltb t 0) t_eval)%bool then Err ValueError
  else Ok {| r_col := c;
             r_secs := map (fun t => (t * l_time_mult l)%R) (c_times (l_Cin l));
             r_cin := cin;
             r_report := if used then Some (map (fun t => (t * l_time_mult l)%R) t_eval) else None |}.

(** ** Perturbations *)

Definition scale_param (k : string) (x : R) (l : loaded) : res loaded :=
  match lookup k (l_params l) with
  | None => Err KeyError
  | Some (v, u) =>
      Ok {| l_params := update k ((v * x)%R, u) (l_params l); l_ions := l_ions l;
            l_valences := l_valences l; l_names := l_names l; l_time_mult := l_time_mult l;
            l_Cin := l_Cin l; l_units := l_units l |}
  end.
Definition with_ions (f : list (string * ion) -> list (string * ion)) (l : loaded) : loaded :=
  {| l_params := l_params l;
     l_ions := {| has_kL := has_kL (l_ions l); has_Ds := has_Ds (l_ions l);
                  has_Dp := has_Dp (l_ions l); ion_rows := f (ion_rows (l_ions l)) |};
     l_valences := l_valences l; l_names := l_names l; l_time_mult := l_time_mult l;
     l_Cin := l_Cin l; l_units := l_units l |}.
Definition set_Kxc (x : R) (i : ion) : ion :=
  {| i_mw := i_mw i; i_val := i_val i; i_units := i_units i; i_Kxc := x;
     i_kL := i_kL i; i_Ds := i_Ds i; i_Dp := i_Dp i |}.
(** A row created by assigning to a missing label: NaN but for Kxc. *)
Definition new_row (x : R) : ion :=
  {| i_mw := 0%R; i_val := 0%nat; i_units := ""; i_Kxc := x; i_kL := 0%R; i_Ds := 0%R; i_Dp := 0%R |}.
Definition scale_Kxc (x : R) (rows : list (string * ion)) : list (string * ion) :=
  let rows' := map (fun kr => (fst kr, set_Kxc (i_Kxc (snd kr) * x)%R (snd kr))) rows in
  match lookup "CHLORIDE" rows' with
  | Some r => update "CHLORIDE" (set_Kxc 1%R r) rows'
  | None => (rows' ++ [("CHLORIDE", new_row 1%R)])%list
  end.
Definition scale_Cin (x : R) (l : loaded) : loaded :=
  {| l_params := l_params l; l_ions := l_ions l; l_valences := l_valences l;
     l_names := l_names l; l_time_mult := l_time_mult l;
     l_Cin := {| c_times := c_times (l_Cin l);
                 c_cols := map (fun kc => (fst kc, map (fun y => (y * x)%R) (snd kc))) (c_cols (l_Cin l)) |};
     l_units := l_units l |}.

(** hsdmix.py:615-638; psdmix.py:432-458. *)
Definition perturb (key : string) (x : R) (l : loaded) : res loaded :=
  if String.eqb key "capacity" then do l1 <- scale_param "Qf" x l; scale_param "Q" x l1
  else if String.eqb key "ebed" then scale_param "EBED" x l
  else if String.eqb key "epor" then scale_param "EBED" x l
  else if String.eqb key "ds" then scale_param "Ds" x l
  else if String.eqb key "dp" then scale_param "Dp" x l
  else if String.eqb key "kL" then scale_param "kL" x l
  else if String.eqb key "flrt" then scale_param "v" x l
  else if String.eqb key "L" then scale_param "L" x l
  else if String.eqb key "c0" then Ok (scale_Cin x l)
  else if String.eqb key "Kxc" then Ok (with_ions (scale_Kxc x) l)
  else Ok l.

(** hsdmix.py:603-609; psdmix.py:420-427 — the requested cases: [None] is the text 'None'. *)
Definition tests (inputs : list (string * option R)) : list (string * R) :=
  flat_map (fun kv => match snd kv with
                      | Some x => [(fst kv, (1 + x / 100)%R); (fst kv, (1 - x / 100)%R)]
                      | None => [] end) inputs.
Definition inputs_hsdm (cap kxc ds kl flrt c0 len ebed : option R) : list (string * option R) :=
  [("capacity", cap); ("Kxc", kxc); ("ds", ds); ("kL", kl); ("flrt", flrt); ("c0", c0);
   ("L", len); ("ebed", ebed)].
Definition inputs_psdm (cap kxc ds kl dp flrt c0 len ebed epor : option R) : list (string * option R) :=
  [("capacity", cap); ("Kxc", kxc); ("ds", ds); ("kL", kl); ("dp", dp); ("flrt", flrt); ("c0", c0);
   ("L", len); ("ebed", ebed); ("epor", epor)].

(** ** One simulated case *)

Section Bands.
Variable integrate : run -> list (list R).   (* outlet history of each ion *)
Variable psdm : bool.

(** converter.py:7-39 over the rows of the ion table; an extra row has no history. *)
Definition convert_all (rows : list (string * ion)) (outlet : list (list R)) : res (list (list R)) :=
  mapM (fun ir => match nth_error outlet (fst ir) with
                  | Some h => Ok (conv_iex_u (snd (snd ir)) h)
                  | None => Err IndexError end)
       (combine (seq 0 (length rows)) rows).

Definition simulate (l : loaded) (tvals : list R) : res (list (list R)) :=
  do r <- prepare psdm l tvals;
  convert_all (ion_rows (l_ions l)) (integrate r).

Definition case (l : loaded) (tvals : list R) (t : string * R) : res (list (list R)) :=
  do l' <- perturb (fst t) (snd t) l; simulate l' tvals.

(** hsdmix.py:646-647; psdmix.py:466-467 — [np.where] updates, entry by entry. *)
Definition map2d (f : R -> R -> R) (a b : list (list R)) : list (list R) :=
  map (fun xy => map (fun uv => f (fst uv) (snd uv)) (combine (fst xy) (snd xy))) (combine a b).
Definition raise_band : list (list R) -> list (list R) -> list (list R) :=
  map2d (fun up x => if rltb up x then x else up).
Definition lower_band : list (list R) -> list (list R) -> list (list R) :=
  map2d (fun lo x => if rltb x lo then x else lo).

(** hsdmix.py:612-647; psdmix.py:429-467 — the loop; every case starts from the copy
    of the object. *)
Fixpoint bands (copy : loaded) (tvals : list R) (ts : list (string * R)) (up lo : list (list R))
  : res (list (list R) * list (list R)) :=
  match ts with
  | [] => Ok (up, lo)
  | t :: rest =>
      do df <- case copy tvals t;
      bands copy tvals rest (raise_band up df) (lower_band lo df)
  end.

(** np.arange(0, stop, 12) *)
Definition arange12 (stop : R) : list R :=
  map (fun k => (12 * INR k)%R) (seq 0 (Z.to_nat (- Int_part (- (stop / 12))))).

(** hsdmix.py:576-587; psdmix.py:392-403 — a table not in hours is taken to be in
    days and rewritten in hours, in the caller's object. *)
Definition to_hours (l : loaded) : res (loaded * list R) :=
  do duration <- match rev (c_times (l_Cin l)) with t :: _ => Ok t | [] => Err IndexError end;
  if reqb (l_time_mult l) 3600 then Ok (l, arange12 (duration + 1))
  else Ok ({| l_params := update "time" (3600%R, None) (l_params l); l_ions := l_ions l;
              l_valences := l_valences l; l_names := l_names l; l_time_mult := 3600%R;
              l_Cin := {| c_times := map (fun t => (t * 24)%R) (c_times (l_Cin l));
                          c_cols := c_cols (l_Cin l) |};
              l_units := l_units l |},
           arange12 (duration * 24 + 1)).

(** hsdmix.py:575-660; psdmix.py:391-479 — base case, bands (absent when nothing is
    requested) and the caller's object afterwards.  Simplification: rows of the
    output are matched by position; the code aligns the base case on rounded days. *)
Record estimate := { e_base : list (list R); e_bands : option (list (list R) * list (list R)) }.
Definition model_uncertainty (l : loaded) (inputs : list (string * option R))
  : res (estimate * loaded) :=
  do (l1, tvals) <- to_hours l;
  do base <- simulate l1 tvals;
  do ul <- bands l tvals (tests inputs) base base;
  Ok ({| e_base := base;
         e_bands := match tests inputs with [] => None | _ => Some ul end |}, l1).
End Bands.
