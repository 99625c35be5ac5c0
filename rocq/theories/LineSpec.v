(** What the rows of line programs say, from the DWARF standard: up to version 4 the files of a unit are numbered from 1, in version 5
    from 0. *)
From Coq Require Import NArith List.
From Verif Require Import LineModel.
Import ListNotations.
Local Open Scope N_scope.

(** The names of the files of a unit, and its rows. *)
Definition unit_files (u : unit_) : list (option str * str) := match line_program u with Some (names, _) => names | None => [] end.
Definition unit_rows (u : unit_) : list row := match line_program u with Some (_, rows) => rows | None => [] end.
(** The file a number means. *)
Definition means (version : N) (u : unit_) (i : N) : option (option str * str) :=
  if version <=? 4 then if i =? 0 then None else nth_error (unit_files u) (N.to_nat (i - 1)) else nth_error (unit_files u) (N.to_nat i).
(** The file of a list of numbered files with this number. *)
Definition numbered (l : list (N * (str * str))) (id : N) (f : str * str) : Prop := In (id, f) l.
(** A path is absolute if it starts with a slash. *)
Definition absolute (s : str) : Prop := exists r, s = 47 :: r.
