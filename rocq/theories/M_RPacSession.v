(** Model of the session of the powdered-carbon page, Shiny-PAC/PACapp.R: what the run button
    (669-707) and the button of the dosage study (709-769) leave behind, the tables and plots made of it
    (772-836) and the saved workbook (842-857).
    The inputs are the boxes, the sizes of the contactor and the compounds (M_RPacApp); [solve] is the integration of M_Pac.
    An error in either button is an error in an observer of Shiny, which ends the session.  Compounds
    have names that R keeps (755-758). *)
From Coq Require Import Reals List Arith Bool String.
From Verif Require Import Lib_Py M_GacFun M_GacShiny M_RIexApp M_RGacApp M_Pac M_RPacApp M_IxUnc.
Import ListNotations.
Open Scope R_scope.
Open Scope string_scope.
Local Notation length := List.length.

Record pinputs := { n_sizes : sizes; n_boxes : pboxes; n_compounds : list (string * comp) }.
(** 470-478: the boxes of the study *)
Record wishes := { v_lo : R; v_hi : R; v_n : nat; v_target : R; v_tunits : string; v_cunits : string }.
(** 692-693: C0 and its unit, as on the page *)
Definition c0_rows (l : list (string * comp)) : csheet := map (fun nc => (fst nc, C0 (snd nc), C0_units (snd nc))) l.
(** 730, PAC.py 383-470: the contactor of the study *)
Definition page_pac (i : pinputs) : res (carbon * pac) :=
  do w <- page_built (n_sizes i) (n_boxes i);
  match b_density w, b_porosity w, b_radius w, b_hrt w, b_crt w, b_dosage w with
  | Some de, Some po, Some ra, Some h, Some c, Some d =>
      let f := {| f_density := de; f_porosity := po; f_radius := ra; f_dw := b_dw w; f_hrt := h |} in
      do o <- create f d (Rmax h c) (n_compounds i); Ok (f, o)
  | _, _, _, _, _, _ => Err ValueError
  end.
(** 735-767: concentrations in ug/L by dose, for each compound at 30, 60, 90 and 120 minutes; waiting times by dose *)
Record studied := { s_doses : list (R * list (string * list R)); s_wait : list (R * list (string * option R)) }.
Definition page_study (solve : list eqn -> R -> list (R * list R)) (i : pinputs) (w : wishes) : res studied :=
  do fo <- page_pac i;
  do r <- for_target (fst fo) solve (snd fo) (v_lo w) (v_hi w) (v_n w) (v_target w) (v_tunits w) (v_cunits w);
  Ok {| s_doses := by_dose (fst fo) solve (snd fo) (v_lo w) (v_hi w) (v_n w); s_wait := r |}.

(** 663-667: the inputs and the results there are: the table and C/C0 (pac_obj), the study (sub_data, sub_data2) *)
Record ppage := { pg_in : pinputs; pg_want : wishes; pg_out : option (table * list (R * string * option R)); pg_study : option studied }.
Inductive paction := PEdit (i : pinputs) | PWish (w : wishes) | PRun | PStudy.
Definition popened (i : pinputs) (w : wishes) : ppage := {| pg_in := i; pg_want := w; pg_out := None; pg_study := None |}.
Definition pact (solve : list eqn -> R -> list (R * list R)) (p : ppage) (a : paction) : option ppage :=
  match a with
  | PEdit i => Some {| pg_in := i; pg_want := pg_want p; pg_out := pg_out p; pg_study := pg_study p |}
  | PWish w => Some {| pg_in := pg_in p; pg_want := w; pg_out := pg_out p; pg_study := pg_study p |}
  | PRun =>
      match page_run solve (n_sizes (pg_in p)) (n_boxes (pg_in p)) (n_compounds (pg_in p)) with
      | Ok t => Some {| pg_in := pg_in p; pg_want := pg_want p; pg_out := Some (t, pac_cc0 (c0_rows (n_compounds (pg_in p))) t); pg_study := pg_study p |}
      | Err _ => None
      end
  | PStudy =>
      match page_study solve (pg_in p) (pg_want p) with
      | Ok s => Some {| pg_in := pg_in p; pg_want := pg_want p; pg_out := pg_out p; pg_study := Some s |}
      | Err _ => None
      end
  end.
(** [None]: the session has ended *)
Definition psession (solve : list eqn -> R -> list (R * list R)) (p : ppage) (l : list paction) : option ppage :=
  fold_left (fun q a => match q with Some p => pact solve p a | None => None end) l (Some p).

(** 772-796: the points of the first plot *)
Definition shown (p : ppage) (tu cu : string) : res (list (R * string * option R)) :=
  match pg_out p with
  | None => Ok []
  | Some (t, cc0) =>
      if String.eqb cu "C/C0"
      then mapM (fun q => do x <- p_plot_time tu (fst (fst q)); Ok (x, snd (fst q), snd q)) cc0
      else mapM (fun q => do x <- p_plot_time tu (fst (fst q)); do y <- p_plot_conc cu (snd q); Ok (x, snd (fst q), Some y)) (by_row (wide t))
  end.
(** 797-815: the curve of a compound at the [k]-th of the four residence times: dose and concentration *)
Definition dose_curve (p : ppage) (cu n : string) (k : nat) : res (list (R * R)) :=
  match pg_study p with
  | None => Err ValueError
  | Some s => mapM (fun r => do l <- of_option KeyError (lookup n (snd r)); do c <- of_option KeyError (nth_error l k); do y <- p_plot_conc cu c; Ok (fst r, y)) (s_doses s)
  end.
(** 832-836: the waiting times and the target in the title of their plot *)
Definition waiting (p : ppage) : option (list (R * list (string * option R))) := option_map s_wait (pg_study p).
Definition waiting_title (p : ppage) : R * string := (v_target (pg_want p), v_tunits (pg_want p)).
(** 846-852: the workbook; [file] are the sheets of the workbook the page was opened with (538-539) *)
Record psaved := { k_file : pfile; k_compounds : list (string * comp); k_points : list (R * string * option R); k_wait : option (list (R * list (string * option R))) }.
Definition save_page (file : pfile) (p : ppage) (tu cu : string) : res psaved :=
  do pts <- shown p tu cu; Ok {| k_file := saved file (n_boxes (pg_in p)); k_compounds := n_compounds (pg_in p); k_points := pts; k_wait := waiting p |}.
