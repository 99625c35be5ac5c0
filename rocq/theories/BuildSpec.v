(** What it means that a precompile stands for a block of instructions. *)
From Coq Require Import Arith NArith Bool List.
From Verif Require Import Field ExprModel SystemModel Spec OvmModel OvmSpec PassSpec MemModel MemSpec LowOvm SymModel SymSpec PipeModel PipeSpec PipeMachineSpec BlocksModel BuildModel.
Import ListNotations.

Section BuildSpec.
  Context {p : positive} (m : busmap) (program : list (F p) -> Prop) (pc_bus exec_bus : N).
  Local Notation circuit := (smach p * list (F p))%type.
  Local Notation row := (var -> F p).
  (** ** Executing the instructions one by one: each has a row of its own. *)
  (** All messages, in order; those on the buses that keep state. *)
  Definition block_values (is : list circuit) (rows : list row) : list (busi (F p)) :=
    flat_map (fun x => machine_values (fst (fst x)) (snd x)) (combine is rows).
  Definition block_sends (is : list circuit) (rows : list row) : list (busi (F p)) :=
    filter (fun b => ovm_stateful m (bus_id b) && negb (is_zero (mult b))) (block_values is rows).
  (** The messages of a circuit on the execution bus. *)
  Definition handshake (i : circuit) (r : row) : list (N * F p * list (F p)) := filter (fun g => (fst (fst g) =? exec_bus)%N) (messages (fst i) r).
  (** Each instruction takes over from the one before what that one sends: program counter and time. *)
  Definition consecutive (is : list circuit) (rows : list row) : Prop := forall k i j ri rj r1 s1 r2 s2,
    nth_error is k = Some i -> nth_error is (k + 1) = Some j -> nth_error rows k = Some ri -> nth_error rows (k + 1) = Some rj ->
    handshake i ri = [r1; s1] -> handshake j rj = [r2; s2] -> snd r2 = snd s1 /\ snd (fst r2) = fopp (snd (fst s1)).
  (** Every circuit accepts its row as a real one, with the instruction's own program row, all lookups hold, and the instructions
      follow each other. *)
  Definition block_accepts (is : list circuit) (rows : list row) : Prop :=
    Forall2 (accepts_instruction pc_bus exec_bus) is rows /\
    Forall (acceptable (ovm_stateful m) (ovm_table m program)) (block_values is rows) /\ consecutive is rows.
  (** … and in addition memory behaves as the virtual machine guarantees. *)
  Definition block_execution (is : list circuit) (rows : list row) : Prop :=
    block_accepts is rows /\ Forall (legal m) (block_sends is rows) /\ in_time m (block_sends is rows).
  (** The rows side by side: each circuit has as many columns as it is wide. *)
  Definition side_by_side (is : list circuit) (rows : list row) (s : row) : Prop := exists widths,
    Forall2 (fun i w => has_width (fst i) w) is widths /\ length rows = length is /\
    forall k w r j, nth_error widths k = Some w -> nth_error rows k = Some r -> j < w -> s (Orig (N.of_nat (list_sum (firstn k widths) + j))) = r (Orig (N.of_nat j)).
  (** The columns of the block. *)
  Definition block_column (is : list circuit) (v : var) : Prop := exists widths, Forall2 (fun i w => has_width (fst i) w) is widths /\ issued (list_sum widths) v.
  (** Circuits have columns with ids and no derived columns, and in a row they accept they send on the execution bus as
      often as they receive. *)
  Definition plain (i : circuit) : Prop := (forall v, column_of (fst i) v -> exists n, v = Orig n) /\ sm_derived (fst i) = [].
  Definition even_handed (i : circuit) : Prop := forall r rc sd, SymSpec.accepts (fst i) r -> handshake i r = [rc; sd] -> snd (fst sd) = fopp (snd (fst rc)).

  (** The column of a precompile that tells real rows from padding. *)
  Definition flag_column (a : precompile p) (v : var) : Prop := exists l, sm_derived (pre_machine a) = l ++ [(v, AConst 1%F)].
  (** The substitutions of an instruction list the columns of its circuit that are still in use, with their place in the block. *)
  Definition lists_used (is : list circuit) (a : precompile p) : Prop := exists widths, Forall2 (fun i w => has_width (fst i) w) is widths /\
    length (pre_subs a) = length is /\ forall k kept w j id, nth_error (pre_subs a) k = Some kept -> nth_error widths k = Some w ->
      (In (j, id) kept <-> j < w /\ id = N.of_nat (list_sum (firstn k widths) + j) /\ column_of (pre_machine a) (Orig id)).
  (** The columns that are kept have the values they have in the rows of the instructions. *)
  Definition takes_over (a : precompile p) (rows : list row) (s : row) : Prop := forall k kept r j id,
    nth_error (pre_subs a) k = Some kept -> nth_error rows k = Some r -> In (j, id) kept -> s (Orig id) = r (Orig (N.of_nat j)).
End BuildSpec.

(** ** The conditions that are checked during execution *)
Section CheckSpec.
  Context {p : positive} {E : Type} (pc : E -> N) (step : N) (bs : list (bblock (instruction p))).
  (** The number of instructions before a basic block. *)
  Definition before (k : nat) : nat := list_sum (map (fun b => length (instrs b)) (firstn k bs)).
  (** In the states that have been reached, the program counter is at the start of a basic block whenever the basic block begins. *)
  Definition starts_right (states : list E) : Prop := forall k b s, nth_error bs k = Some b -> nth_error states (before k) = Some s -> pc s = start_pc b.
  (** Within a basic block, the program counter proceeds by steps. *)
  Definition straight (states : list E) : Prop := forall k b i s t, nth_error bs k = Some b -> i + 1 < length (instrs b) ->
    nth_error states (before k + i) = Some s -> nth_error states (before k + i + 1) = Some t -> pc t = (pc s + step)%N.
  (** In the states that have been reached, the program counter is that of the instruction whose turn it is. *)
  Definition on_track (states : list E) : Prop := forall k x s, nth_error (block_instructions step bs) k = Some x -> nth_error states k = Some s -> pc s = fst x.
End CheckSpec.
