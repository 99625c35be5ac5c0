(** What an execution is, how it is recorded in segments, and what empirical constraints say about executions. *)
From Coq Require Import Arith NArith Bool List Permutation Sorted.
From Verif Require Import PartModel PartSpec BlocksModel EmpModel EmpSpec CollectModel.
Import ListNotations.

Section CollectSpec.
  Context (counts : N -> option nat).
  (** The instructions of a block run one after the other; no instruction inside is the beginning of a block.  An instruction that is
      in no block runs alone. *)
  Definition run_of (n : nat) (b : list exec) : Prop :=
    exists first rest, b = first :: rest /\ counts (fst first) = Some n /\ (forall k r, nth_error b k = Some r -> fst r = (fst first + 4 * N.of_nat k)%N) /\
      Forall (fun r => counts (fst r) = None) rest.
  Definition complete_run (b : list exec) : Prop := (exists r, b = [r] /\ counts (fst r) = None) \/ (exists n, run_of n b /\ length b = n).
  (** Only the last run of an execution may be incomplete. *)
  Inductive execution : list (list exec) -> Prop :=
  | execution_end : execution []
  | execution_stop n b : run_of n b -> length b <= n -> execution [b]
  | execution_run b bs : complete_run b -> execution bs -> execution (b :: bs).

  (** The rows of instructions in a segment, without padding, are what was executed, in the order of their timestamps. *)
  Definition instruction_rows (chips : list chip) : list crow := filter (fun r => negb (cr_mult r =? 0)%N) (flat_map (fun c => if ch_instruction c then ch_rows c else []) chips).
  Definition recorded (chips : list chip) (steps : list exec) : Prop :=
    exists rows, Permutation (instruction_rows chips) rows /\ StronglySorted (fun a b => cr_ts a < cr_ts b)%N rows /\ map (fun r => (cr_pc r, cr_cells r)) rows = steps.
  (** An execution is cut into segments anywhere. *)
  Definition segmented (segments : list (list chip)) (bs : list (list exec)) : Prop :=
    exists pieces, Forall2 recorded segments pieces /\ concat pieces = concat bs.
  (** Instructions at [pc] are recorded by the chip [air pc] with [width pc] columns. *)
  Definition laid_out (air width : N -> nat) (segments : list (list chip)) : Prop :=
    forall chips c r, In chips segments -> In c chips -> ch_instruction c = true -> In r (ch_rows c) -> cr_mult r <> 0%N -> air (cr_pc r) = ch_air c /\ length (cr_cells r) = width (cr_pc r).

  (** The trace is not processed before the end, or the execution begins with a block in the first segment. *)
  Definition begins (max_segments : nat) (segments : list (list chip)) (bs : list (list exec)) : Prop :=
    length segments < max_segments \/ exists r b bs' chips rest, bs = (r :: b) :: bs' /\ counts (fst r) <> None /\ segments = chips :: rest /\ instruction_rows chips <> [].

  (** The executions of an instruction, and of a block. *)
  Definition executions_at (pc : N) (bs : list (list exec)) : list (list N) := map snd (filter (fun r => (fst r =? pc)%N) (concat bs)).
  Definition instances_of (pc : N) (bs : list (list exec)) : list (list (list N)) :=
    map (map snd) (filter (fun b => match b with r :: _ => (fst r =? pc)%N && match counts pc with Some _ => true | None => false end | [] => false end) bs).

  (** At most one percent of the executions are below the range and at most one percent above; the bounds occur. *)
  Definition range_fits (lo hi : N) (column : list N) : Prop :=
    In lo column /\ In hi column /\ (lo <= hi)%N /\ 100 * length (filter (fun v => (v <? lo)%N) column) <= length column /\ 100 * length (filter (fun v => (hi <? v)%N) column) <= length column.
  (** What is known is exactly about what was executed. *)
  Definition counts_exact (e : emp) (bs : list (list exec)) : Prop := forall pc, count_of (pc_counts e) pc = N.of_nat (length (executions_at pc bs)).
  Definition classes_exact (e : emp) (bs : list (list exec)) : Prop := forall pc,
    match nm_get pc (block_classes e) with
    | None => instances_of pc bs = []
    | Some p => instances_of pc bs <> [] /\ forall x y, x <> y -> (together p x y <-> forall rows, In rows (instances_of pc bs) -> exists v, cell_value rows x = Some v /\ cell_value rows y = Some v)
    end.
  Definition ranges_fit (width : N -> nat) (e : emp) (bs : list (list exec)) : Prop := forall pc,
    match nm_get pc (column_ranges e) with
    | None => executions_at pc bs = []
    | Some rs => executions_at pc bs <> [] /\ length rs = width pc /\
        forall col lo hi, nth_error rs col = Some (lo, hi) -> range_fits lo hi (map (fun r => nth col r 0%N) (executions_at pc bs))
    end.
End CollectSpec.
