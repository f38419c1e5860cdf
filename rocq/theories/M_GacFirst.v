(** Model of the influent table of run_psdm, PSDM/psdm/PSDM.py 1370-1377, down to whether
    pandas shares memory.  [cow] is pandas' copy-on-write mode (always on from pandas 3, off by
    default before; the repository names no version).  M_GacColumn.v's [cin_table] is the table
    with it (Props_First.v, [table_copied]). *)
From Coq Require Import Reals List Arith Bool.
From Verif Require Import Lib_Py Lib_Sum M_GacColumn.
Import ListNotations.
Open Scope R_scope.

(** 1373: [cbo = (inf * self.mass_mul / mw)[compound_list]], the column of compound [i];
    rows are (time in minutes, concentration in the units of the sheet). *)
Definition cbo (g : gac_in) (i : nat) (rows : list (R * R)) : list (R * R) :=
  map (fun p => (fst p, snd p * x_mass_mul g / x_mw g i)) rows.

(** 1375-1376: [cb0 = cbo.loc[0]; cb0[cb0 == 0.] = 1.].  All columns of [cbo] are floats in one
    block, so that without copy-on-write the row is a view and the assignment also puts the one
    into the frame. *)
Definition cbo_after (cow : bool) (l : list (R * R)) : list (R * R) :=
  if cow then l else map (fun p => (fst p, if (reqb (fst p) 0 && reqb (snd p) 0)%bool then 1 else snd p)) l.

(** 1377: [cin = cbo/cb0]. *)
Definition cin (cow : bool) (g : gac_in) (i : nat) (rows : list (R * R)) : list (R * R) :=
  map (fun p => (fst p, snd p / cb0 g i)) (cbo_after cow (cbo g i rows)).

(** The sheet that [cin_table] turns into this table; handed to M_GacColumn.v's [diffun] it gives
    the run. *)
Definition sheet_seen (cow : bool) (g : gac_in) (rows : nat -> list (R * R)) (i : nat) : list (R * R) :=
  map (fun p => (fst p, snd p * x_mw g i / x_mass_mul g)) (cbo_after cow (cbo g i (rows i))).
