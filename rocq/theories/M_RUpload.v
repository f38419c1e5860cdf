(** Model of the uploads of the three web pages: process_files of Shiny-IEX/Ion_Exchange_Model.R
    (727-797), read_in_files of Shiny-GAC/GACapp.R (116-186) and of Shiny-PAC/PACapp.R (115-159), the calls when
    the application starts (1227, 480, 161), the upload of a page (Ion_Exchange_Model.R 1777-1808,
    GACapp.R 888-905, PACapp.R 521-535) and what a page reads when it opens.
    A workbook is a list of named sheets, a sheet a list of rows of texts with the names of the
    columns first; temp_file is a directory of such tables, one for the whole application, shared
    by its sessions.  Reading a sheet that is there succeeds.  Warnings of the reader, which keep
    an old effluent or file name, are not modelled.  Files are written at once and one after the
    other. *)
From Coq Require Import List String Bool.
From Verif Require Import Lib_Py.
Import ListNotations.
Open Scope string_scope.

Definition sheet := list (list string).
Definition workbook := list (string * sheet).
Definition dir := list (string * sheet).

(** A sheet goes to a file; without the sheet the file is left ("Reverting to default values" is
    only announced), *)
Definition copy (s f : string) (w : workbook) (d : dir) : dir :=
  match lookup s w with Some t => update f t d | None => d end.
(** or gets what the error handler writes. *)
Definition copy_or (s f : string) (dflt : sheet) (w : workbook) (d : dir) : dir :=
  update f (match lookup s w with Some t => t | None => dflt end) d.

(** ** Ion_Exchange_Model.R 727-797 *)
(** 751: a column called time, whatever its capitals.  Other columns with the word time in their
    name are not renamed here. *)
Definition fix_time (t : sheet) : sheet :=
  match t with [] => [] | h :: rows => map (fun n => if String.eqb (lower n) "time" then "time" else n) h :: rows end.
(** 729-730 *)
Definition no_effluent : sheet := [["time"; "CHLORIDE"]; ["0"; "0"]].
Definition no_file : sheet := [["name"]; ["No file Uploaded"]].
(** 748-758 *)
Definition copy_cin (w : workbook) (d : dir) : dir :=
  match lookup "Cin" w with Some t => update "cinsheet.csv" (fix_time t) d | None => d end.
(** 781-796; a workbook with a sheet called name counts as no file *)
Definition iex_name (file : string) (w : workbook) (d : dir) : dir :=
  update "filename.csv" (match lookup "name" w with Some _ => no_file | None => [["name"]; [file]] end) d.
Definition process_files (file : string) (w : workbook) (d : dir) : dir :=
  iex_name file w (copy_or "effluent" "effluent.csv" no_effluent w (copy_cin w (copy "ions" "ionsheet.csv" w (copy "params" "paramsheet.csv" w d)))).
(** 1782-1789: a second observer writes the name of the file again *)
Definition iex_upload (file : string) (w : workbook) (d : dir) : dir :=
  update "filename.csv" [["name"]; [file]] (process_files file w d).

(** ** GACapp.R 116-186 *)
(** 142-150: the data are split in influents and effluents and spread; [spread] is that step, or
    [None] when it stops.  (M_RGacApp.read_data is the step.) *)
Definition copy_data (spread : sheet -> option (sheet * sheet)) (w : workbook) (d : dir) : dir :=
  match lookup "data" w with
  | Some t => match spread t with Some (i, e) => update "dat_effluent.csv" e (update "dat_influent.csv" i d) | None => d end
  | None => d
  end.
(** 157-174, PACapp.R 142-158 *)
Definition page_name (file : string) (w : workbook) (d : dir) : dir := copy_or "name" "filename.csv" [["name"]; [file]] w d.
(** 183-184 *)
Definition no_fouling : sheet := [["WaterFouling"; "ChemicalFouling"]; ["Organic Free"; "halogenated alkenes"]].
Definition gac_upload (spread : sheet -> option (sheet * sheet)) (file : string) (w : workbook) (d : dir) : dir :=
  copy_or "Fouling Data" "Foulingdata.csv" no_fouling w (page_name file w (copy_data spread w (copy "columnSpecs" "columnSpecs.csv" w
    (copy "Kdata" "Kdata2.csv" w (copy "Kdata" "Kdata.csv" w (copy "Properties" "Properties.csv" w d)))))).

(** ** PACapp.R 115-159 *)
Definition pac_upload (file : string) (w : workbook) (d : dir) : dir :=
  page_name file w (copy "Compounds" "Compounds.csv" w (copy "PAC Characteristics" "PAC.csv" w (copy "Contactor" "Contactor.csv" w d))).

(** ** The application *)
(** A page is open in a session, [u]; what it shows is what it read when it opened (1798, 1826,
    2086, 2098, 2143; GACapp.R 908-915, 1070-1083; PACapp.R 538-580). *)
Record server := { files : dir; pages : list (nat * dir) }.
Inductive event := Open (u : nat) | Upload (u : nat) (file : string) (w : workbook).
Fixpoint set_page (u : nat) (d : dir) (ps : list (nat * dir)) : list (nat * dir) :=
  match ps with [] => [(u, d)] | (k, e) :: r => if Nat.eqb k u then (u, d) :: r else (k, e) :: set_page u d r end.
Fixpoint page_of (u : nat) (ps : list (nat * dir)) : option dir :=
  match ps with [] => None | (k, e) :: r => if Nat.eqb k u then Some e else page_of u r end.
(** the uploading session is reloaded *)
Definition step (up : string -> workbook -> dir -> dir) (s : server) (e : event) : server :=
  match e with
  | Open u => {| files := files s; pages := set_page u (files s) (pages s) |}
  | Upload u f w => let d := up f w (files s) in {| files := d; pages := set_page u d (pages s) |}
  end.
(** started on a directory with what the shipped workbook [config] says *)
Definition start (up : string -> workbook -> dir -> dir) (cf : string) (config : workbook) : server := {| files := up cf config []; pages := [] |}.
Definition history (up : string -> workbook -> dir -> dir) (cf : string) (config : workbook) (es : list event) : server :=
  fold_left (step up) es (start up cf config).
