(** What empirical constraints say about rows and about executions of a block. *)
From Coq Require Import Arith NArith Bool List.
From Verif Require Import PartModel PartSpec BlocksModel EmpModel.
Import ListNotations.

(** A row of the instruction at [pc] is within all ranges known for [pc]. *)
Definition row_consistent (e : emp) (pc : N) (row : list N) : Prop :=
  forall rs, nm_get pc (column_ranges e) = Some rs ->
  forall i lo hi v, nth_error rs i = Some (lo, hi) -> nth_error row i = Some v -> (lo <= v <= hi)%N.
(** Something is known about the rows at [pc]. *)
Definition knows_row (e : emp) (pc : N) : Prop := nm_get pc (column_ranges e) <> None.
(** The values of an execution of the block at [pc] are equal on cells that are always equal. *)
Definition block_consistent (e : emp) (pc : N) (val : cell -> N) : Prop :=
  forall p, nm_get pc (block_classes e) = Some p -> forall x y, together p x y -> val x = val y.
Definition knows_block (e : emp) (pc : N) : Prop := nm_get pc (block_classes e) <> None.
(** The maps are sorted and the partitions well formed. *)
Fixpoint keys_sorted {V} (m : list (N * V)) : Prop :=
  match m with [] => True | (k, _) :: r => Forall (fun kv => (k < fst kv)%N) r /\ keys_sorted r end.
Definition emp_ok (e : emp) : Prop :=
  keys_sorted (column_ranges e) /\ keys_sorted (block_classes e) /\ keys_sorted (pc_counts e) /\ Forall (fun kp => part_ok (snd kp)) (block_classes e).
(** The ranges known for a pc have the same number of columns in both. *)
Definition same_widths (a b : emp) : Prop :=
  forall pc ra rb, nm_get pc (column_ranges a) = Some ra -> nm_get pc (column_ranges b) = Some rb -> length ra = length rb.
(** The generated equations hold. *)
Definition eqc_holds {R} (val : R -> N) (c : eqc R) : Prop := match c with EqNum r v => val r = v | EqRef r s => val r = val s end.
(** The value of a cell in the rows of a block. *)
Definition cell_value (rows : list (list N)) (c : cell) : option N := match nth_error rows (fst c) with Some r => nth_error r (snd c) | None => None end.
