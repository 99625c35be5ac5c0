(** Model of the collection of empirical constraints from execution traces, openvm/src/empirical_constraints.rs 30-431.
    Traces of segments are given as the rows of their chips, with the values of the execution bus interaction.  Names of
    columns in the debug information and progress messages are not modelled.  [None] is a panic. *)
From Coq Require Import Arith NArith Bool List.
From Verif Require Import PartModel BlocksModel EmpModel.
Import ListNotations.

(** 30-35 [Timestamp]: ordered by segment first. *)
Definition timestamp : Type := nat * N.
Definition ts_lt (a b : timestamp) : bool := Nat.ltb (fst a) (fst b) || (Nat.eqb (fst a) (fst b) && (snd a <? snd b)%N).
(** 39-46 [Row], with its pc and cells as what was executed. *)
Definition exec : Type := N * list N.
Record trow := mkRow { tr_exec : exec; tr_time : timestamp }.
Definition tr_pc (r : trow) : N := fst (tr_exec r).
Definition tr_cells (r : trow) : list N := snd (tr_exec r).

(** 57-62 [rows_by_pc]. *)
Definition rows_by_pc (rows : list trow) : list (N * list trow) :=
  fold_left (fun acc row => nm_put (tr_pc row) (fun l => l ++ [row]) [row] acc) rows [].
(** 65-67 [rows_sorted_by_time]: [sorted_by_key] is stable. *)
Fixpoint insert_row (r : trow) (l : list trow) : list trow :=
  match l with [] => [r] | s :: t => if ts_lt (tr_time s) (tr_time r) then s :: insert_row r t else r :: l end.
Definition rows_sorted_by_time (rows : list trow) : list trow := fold_right insert_row [] rows.

Section Collect.
  Context (ord : list (cell * nat) -> list (cell * nat)) (gord : list (list cell) -> list (list cell)).
  (** 257-259 [block_instruction_counts]. *)
  Context (counts : N -> option nat).
  (** 300-302 [is_basic_block_start]. *)
  Definition is_start (pc : N) : bool := match counts pc with Some _ => true | None => false end.

  (** 405-421: the closure of [batching], until the rows are used up.  [fuel] bounds the number of calls; each uses a row.  A
      block whose count is 0 cannot be: [count - 1] panics. *)
  Fixpoint consecutive (pc : N) (rows : list exec) : bool :=
    match rows with [] => true | r :: t => (fst r =? pc + 4)%N && consecutive (fst r) t end.
  Fixpoint batches (fuel : nat) (rows : list exec) : option (list (N * list exec)) :=
    match fuel, rows with
    | _, [] => Some []
    | O, _ => None
    | S fuel, first :: rest =>
      match counts (fst first) with
      | Some O => None
      | Some (S n) =>
        if consecutive (fst first) (firstn n rest) then
          option_map (cons (fst first, first :: firstn n rest)) (batches fuel (skipn n rest))
        else None
      | None => batches fuel rest
      end
    end.
  (** 401-431 [get_blocks]. *)
  Definition get_blocks (rows : list trow) : option (list (N * list (list exec))) :=
    let sorted := map tr_exec (rows_sorted_by_time rows) in
    option_map (fun l => fold_left (fun m b => nm_put (fst b) (fun l => l ++ [snd b]) [snd b] m) l []) (batches (length sorted) sorted).
  (** 361-397 [generate_equivalence_classes_by_block]. *)
  Definition with_key {A B} (f : A -> option B) (kv : N * A) : option (N * B) := option_map (pair (fst kv)) (f (snd kv)).
  Definition classes_by_block (rows : list trow) : option (list (N * part cell)) :=
    match get_blocks rows with
    | Some blocks => all_some (map (with_key (fun instances => detect_classes ord gord (map (map snd) instances))) blocks)
    | None => None
    end.
  (** 331-338 [detect_column_ranges_by_pc]. *)
  Definition ranges_by_pc (rows : list trow) : option (list (N * list (N * N))) :=
    all_some (map (with_key (fun l => detect_column_ranges (map tr_cells l))) (rows_by_pc rows)).

  (** autoprecompiles/src/empirical_constraints.rs 236-247 [merge_maps] for [air_id_by_pc]. *)
  Definition merge_entry (m : option (list (N * nat))) (kv : N * nat) : option (list (N * nat)) :=
    match m with
    | None => None
    | Some m =>
      match nm_get (fst kv) m with
      | None => Some (nm_put (fst kv) (fun _ => snd kv) (snd kv) m)
      | Some a => if Nat.eqb a (snd kv) then Some m else None
      end
    end.
  Definition merge_maps (a b : list (N * nat)) : option (list (N * nat)) := fold_left merge_entry b (Some a).

  (** 255-261 [ConstraintDetector]: what it knows, with the AIR of each pc. *)
  Definition detector : Type := emp * list (N * nat).
  (** 308-329 [process_trace]. *)
  Definition trace_constraints (rows : list trow) : option emp :=
    match classes_by_block rows, ranges_by_pc rows with
    | Some classes, Some ranges => Some (mkEmp ranges classes (map (fun kv => (fst kv, N.of_nat (length (snd kv)))) (rows_by_pc rows)))
    | _, _ => None
    end.
  Definition process_trace (d : detector) (rows : list trow) (airs : list (N * nat)) : option detector :=
    match trace_constraints rows with
    | Some new =>
      match combine_with ord gord (fst d) new, merge_maps (snd d) airs with Some e, Some m => Some (e, m) | _, _ => None end
    | None => None
    end.

  (** 234-252 [take_complete_blocks]. *)
  Definition latest (ts : list timestamp) : option timestamp :=
    fold_left (fun m t => match m with None => Some t | Some u => if ts_lt t u then m else Some t end) ts None.
  Definition take_complete_blocks (rows : list trow) : option (list trow * list trow) :=
    match latest (map tr_time (filter (fun r => is_start (tr_pc r)) rows)) with
    | Some t => Some (filter (fun r => ts_lt (tr_time r) t) rows, filter (fun r => negb (ts_lt (tr_time r) t)) rows)
    | None => None
    end.

  (** The trace of a chip in a segment: the AIR, whether it is one of instructions, and for each row the multiplicity, pc and timestamp
      of its execution bus interaction and the cells. *)
  Record crow := mkCRow { cr_mult : N; cr_pc : N; cr_ts : N; cr_cells : list N }.
  Record chip := mkChip { ch_air : nat; ch_instruction : bool; ch_rows : list crow }.
  (** 165-207: padding rows are skipped; the AIR of a pc must not change. *)
  Definition state : Type := list trow * list (N * nat).
  Definition push_row (seg air : nat) (s : option state) (r : crow) : option state :=
    match s with
    | None => None
    | Some (rows, airs) =>
      if (cr_mult r =? 0)%N then s else
      option_map (pair (rows ++ [mkRow (cr_pc r, cr_cells r) (seg, cr_ts r)])) (merge_entry (Some airs) (cr_pc r, air))
    end.
  (** 131-208: other chips are skipped. *)
  Definition push_chip (seg : nat) (s : option state) (c : chip) : option state :=
    if ch_instruction c then fold_left (push_row seg (ch_air c)) (ch_rows c) s else s.
  (** 121-223: the callback for a segment; [None] also if [max_segments] is 0. *)
  Definition segment_callback (max_segments seg : nat) (chips : list chip) (s : state) (d : detector) : option (state * detector) :=
    match fold_left (push_chip seg) chips (Some s), max_segments with
    | Some (rows, airs), S _ =>
      if Nat.eqb ((seg + 1) mod max_segments) 0 then
        match take_complete_blocks rows with
        | Some (complete, remaining) => option_map (pair (remaining, [])) (process_trace d complete airs)
        | None => None
        end
      else Some ((rows, airs), d)
    | _, _ => None
    end.
  Fixpoint segments_loop (max_segments seg : nat) (segments : list (list chip)) (s : state) (d : detector) : option (state * detector) :=
    match segments with
    | [] => Some (s, d)
    | chips :: rest =>
      match segment_callback max_segments seg chips s d with
      | Some (s', d') => segments_loop max_segments (S seg) rest s' d'
      | None => None
      end
    end.
  (** 109-229 [detect_empirical_constraints_from_input]. *)
  Definition detect_from_input (max_segments : nat) (segments : list (list chip)) (d : detector) : option detector :=
    match segments_loop max_segments 0 segments ([], []) d with
    | Some ((rows, airs), d') => process_trace d' rows airs
    | None => None
    end.
  (** 76-107 [detect_empirical_constraints]: the inputs one after the other. *)
  Definition detect (max_segments : nat) (inputs : list (list (list chip))) : option emp :=
    option_map fst (fold_left (fun d i => match d with Some d => detect_from_input max_segments i d | None => None end) inputs (Some (emp_default, []))).
End Collect.
