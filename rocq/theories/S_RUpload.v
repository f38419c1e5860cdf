(** What the uploads of a web page should do, in terms of the history of its workbooks. *)
From Coq Require Import List String.
From Verif Require Import Lib_Py M_RUpload.
Import ListNotations.
Open Scope string_scope.

(** The workbooks that were uploaded, by anybody, oldest first. *)
Definition uploaded (es : list event) : list workbook :=
  flat_map (fun e => match e with Upload _ _ w => [w] | Open _ => [] end) es.
(** [t] is the sheet [s] of the last workbook that has one. *)
Definition latest (s : string) (ws : list workbook) (t : sheet) : Prop :=
  exists before w after, ws = (before ++ w :: after)%list /\ lookup s w = Some t /\ forall w', In w' after -> lookup s w' = None.
(** The page that session [u] has open shows the table [t] for the file [f]. *)
Definition shows (u : nat) (f : string) (t : sheet) (s : server) : Prop := exists d, page_of u (pages s) = Some d /\ lookup f d = Some t.
(** The session that an event belongs to. *)
Definition owner (e : event) : nat := match e with Open u => u | Upload u _ _ => u end.
(** The workbook has the sheets. *)
Definition has (ss : list string) (w : workbook) : Prop := forall s, In s ss -> exists t, lookup s w = Some t.
