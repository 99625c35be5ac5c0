(** Model of reading the source files and source locations of the compilation units, riscv-elf/src/debug_info.rs 70-92, 118-178, and of
    the numbers the files get, riscv-elf/src/lib.rs 289-300.  What gimli reads from the sections of the file is given. *)
From Coq Require Import NArith Bool List.
Import ListNotations.
Local Open Scope N_scope.

(** Strings of bytes; those that are not UTF-8, which end the reading with an error, are left out. *)
Definition str := list N.
(** gimli's [LineRow], the parts that are read. *)
Record row := mkRow { address : N; file_index : N; row_line : option N; row_column : option N; prologue_end : bool; end_sequence : bool }.
(** A compilation unit: its directory, and the file names (each with the directory of its entry, if found) and rows of its line
    program, if it has one. *)
Record unit_ := mkUnit { comp_dir : option str; line_program : option (list (option str * str) * list row) }.
(** 45-50 [SourceLocationInfo]. *)
Record location := mkLoc { loc_address : N; loc_file : N; loc_line : N; loc_col : N }.

(** [Path::join] on Unix: an absolute path replaces the first one; a separator is added unless the first one is empty or ends with one. *)
Definition slash : N := 47.
Definition path_join (base dir : str) : str :=
  match dir with
  | c :: _ => if c =? slash then dir else match rev base with [] => dir | d :: _ => if d =? slash then base ++ dir else base ++ slash :: dir end
  | [] => match rev base with [] => [] | d :: _ => if d =? slash then base else base ++ [slash] end
  end.
Definition or_empty (o : option str) : str := match o with Some s => s | None => [] end.
(** 134-152: the file list. *)
Definition file_entry (base : str) (e : option str * str) : str * str := (path_join base (or_empty (fst e)), snd e).
(** 157-160: the rows that are skipped. *)
Definition skipped (r : row) : bool := prologue_end r || end_sequence r.
(** 162-173: the location of a row; the address is cut to 32 bits. *)
Definition row_location (delta : N) (r : row) : location :=
  mkLoc (address r mod 2 ^ 32) (file_index r + delta) (match row_line r with None => 0 | Some v => v end) (match row_column r with None => 0 | Some v => v end).
(** 118-178 [read_source_locations]: the number added to file numbers, the file list and the locations. *)
Definition read_source_locations (u : unit_) (files : list (str * str)) (locs : list location) : N * list (str * str) * list location :=
  let delta := N.of_nat (length files) in
  match line_program u with
  | None => (delta, files, locs)
  | Some (names, rows) =>
      (delta, files ++ map (file_entry (or_empty (comp_dir u))) names, locs ++ map (row_location delta) (filter (fun r => negb (skipped r)) rows))
  end.
(** 70-92: the loop over the units, without their symbols (read_unit_symbols is in DbgModel.v). *)
Fixpoint read_units (us : list unit_) (files : list (str * str)) (locs : list location) : list (str * str) * list location :=
  match us with
  | [] => (files, locs)
  | u :: r => let '(_, files', locs') := read_source_locations u files locs in read_units r files' locs'
  end.
(** lib.rs 289-300 [take_source_files_info]: number, directory and name; the numbers are [u32]. *)
Fixpoint number_files (id : N) (l : list (str * str)) : list (N * (str * str)) := match l with [] => [] | f :: r => (id + 1, f) :: number_files (id + 1) r end.
Definition source_files_info (files : list (str * str)) : list (N * (str * str)) := number_files 0 files.
