(** Model of the execution of precompiles in software: openvm/src/powdr_extension/executor/mod.rs (preparing and executing, in the
    plain and in the metered mode) and openvm/src/powdr_extension/vm.rs (the table of executors). *)
From Coq Require Import Arith NArith Bool List.
From Verif Require Import BlocksModel ExecModel SelModel.
Import ListNotations.
Local Open Scope N_scope.

(** OpenVM's [Instruction]: the opcode and the operands a to g. *)
Record ins := mkIns { opcode : nat; operands : list N }.
(** OpenVM's [StaticProgramError], as far as it is made here; the others are numbered. *)
Inductive static_error := InvalidInstruction (at_pc : N) | ExecutorNotFound (op : nat) | OtherError (n : N).
Inductive res (A : Type) := ROk (a : A) | RErr (e : static_error).
Arguments ROk {A}. Arguments RErr {A}.
(** Rayon's [collect] of results: all the values in order, or one of the errors, no matter which. *)
Inductive collects {A B} (f : A -> res B) (l : list A) : res (list B) -> Prop :=
| collects_ok ys : map f l = map ROk ys -> collects f l (ROk ys)
| collects_err x e : In x l -> f x = RErr e -> collects f l (RErr e).
(** A table from opcodes to executors ([ExecutorInventory]). *)
Fixpoint get_executor {X} (inv : list (nat * X)) (op : nat) : option X :=
  match inv with [] => None | (o, e) :: r => if Nat.eqb o op then Some e else get_executor r op end.

(** Height changes that are reported to the context of a metered execution: a chip and a number of rows. *)
Definition log := list (nat * N).
(** The two modes: E1 reports nothing, E2 reports heights. *)
Inductive mode := Plain | Metered.

Section Soft.
  (** [St]: the states of the virtual machine, with what the optimistic constraints read from them. [halted]: the execution has
      ended, with an exit code or an error.  [X]: the executors of the original instructions. *)
  Context {St X : Type} (reg : St -> N -> N) (pc : St -> N) (value_limb : N -> nat -> N) (halted : St -> bool).
  (** OpenVM's [pre_compute] and [metered_pre_compute] of an original executor, at a program counter of 32 bits: the function that
      will be executed.  The second one gets the number of the chip and also reports heights. *)
  Context (pre_compute : X -> N -> ins -> res (St -> St)) (metered_pre_compute : X -> nat -> N -> ins -> res (St -> St * log)).
  (** The number of the chip that gets the rows of an opcode (OpenVM). *)
  Context (chip : nat -> nat) (base step : N).

  (** ** blocks/mod.rs *)
  (** 35-40, 124-127 [instructions], [par_instructions]. *)
  Fixpoint from_pc (q : N) (l : list ins) : list (N * ins) := match l with [] => [] | i :: r => (q, i) :: from_pc (q + step) r end.
  Definition block_pcs (sb : list (bblock ins)) : list (N * ins) := flat_map (fun b => from_pc (start_pc b) (instrs b)) sb.
  (** 84-96 [instruction_indexed_start_pcs], with lib.rs 393-413 [superblock_pc_constraints]; [None] is the panic for a program
      counter that does not fit into [u32]. *)
  Fixpoint start_checks (idx : nat) (sb : list (bblock ins)) : list oconstr :=
    match sb with [] => [] | b :: r => mkOC (OLit (mkLit idx LPc)) (ONum (start_pc b)) :: start_checks (idx + length (instrs b)) r end.
  Definition built_checks (sb : list (bblock ins)) : option oconstrs :=
    if forallb (fun b => start_pc b <? 2 ^ 32) sb then Some (from_constraints (start_checks 0 sb)) else None.

  (** ** executor/mod.rs *)
  (** 45-54 [PowdrExecutor]: the block and the conditions of the precompile, and the rows per call. *)
  Record pexec := mkPE { pe_block : list (bblock ins); pe_checks : oconstrs; pe_height : N }.
  (** 189-194 [PowdrPreCompute]. *)
  Record prepared := mkPrep { height_change : N; original_instructions : list (St -> St); optimistic : oconstrs }.
  (** 355-373: preparing one original instruction, always for the plain mode; its program counter is cut to 32 bits. *)
  Definition prepare_one (inv : list (nat * X)) (x : N * ins) : res (St -> St) :=
    match get_executor inv (opcode (snd x)) with
    | None => RErr (ExecutorNotFound (opcode (snd x)))
    | Some e => pre_compute e (fst x mod 2 ^ 32) (snd x)
    end.
  (** 319-382 [pre_compute_impl]. *)
  Definition prepares (inv : list (nat * X)) (e : pexec) (at_pc : N) (i : ins) (r : res prepared) : Prop :=
    if forallb (N.eqb 0) (operands i)
    then exists fs, collects (prepare_one inv) (block_pcs (pe_block e)) fs /\
           r = match fs with ROk l => ROk (mkPrep (pe_height e) l (pe_checks e)) | RErr x => RErr x end
    else r = RErr (InvalidInstruction at_pc).
  (** 416-426: the original instructions, with a check after each of them; [None] is a failed assertion. *)
  Fixpoint execute_from (ocs : oconstrs) (l : list (St -> St)) (ev : evaluator) (s : St) : option St :=
    match l with
    | [] => Some s
    | f :: r => let s' := f s in
                match try_next reg pc value_limb s' ocs ev with StepOk ev' => execute_from ocs r ev' s' | _ => None end
    end.
  (** 404-427 [execute_e12_impl], 429-437 [execute_e1_impl]. *)
  Definition execute_e12 (d : prepared) (s : St) : option St :=
    match try_next reg pc value_limb s (optimistic d) ev_new with
    | StepOk ev => execute_from (optimistic d) (original_instructions d) ev s
    | _ => None
    end.
  (** 439-453 [execute_e2_impl]: the rows are reported before the execution. *)
  Definition execute_e2 (chip_idx : nat) (d : prepared) (s : St) : option (St * log) :=
    match execute_e12 d s with Some t => Some (t, [(chip_idx, height_change d)]) | None => None end.

  (** ** vm.rs 97-118 [extend_execution]: an executor with one row per call for every precompile.  [None]: OpenVM's [add_executor]
      refuses an opcode that has one already. *)
  Fixpoint extend_from (i : nat) (apcs : list (list (bblock ins) * oconstrs)) (inv : list (nat * (X + pexec))) : option (list (nat * (X + pexec))) :=
    match apcs with
    | [] => Some inv
    | (sb, ocs) :: r =>
      if existsb (fun x => Nat.eqb (fst x) (powdr_opcode + i)) inv then None
      else extend_from (S i) r (inv ++ [((powdr_opcode + i)%nat, inr (mkPE sb ocs 1))])
    end.
  Definition plain_inventory (inv : list (nat * X)) : list (nat * (X + pexec)) := map (fun x => (fst x, inl (snd x))) inv.
  Definition extend_execution (inv : list (nat * X)) (apcs : list (list (bblock ins) * oconstrs)) : option (list (nat * (X + pexec))) :=
    extend_from 0 apcs (plain_inventory inv).

  (** ** OpenVM's interpreter *)
  (** The code that is executed: a slot that has a mark (see C53) holds an instruction with that opcode and no operands. *)
  Definition marked (prog : list ins) (marks : list (option nat)) : list ins :=
    map (fun x => match snd x with Some op => mkIns op (repeat 0 7) | None => fst x end) (combine prog marks).
  (** One instruction, executed at a program counter in a state; [None] is a panic.  The executor of a precompile has the original
      table for the instructions of its block (executor/mod.rs 611 in [new]: the executors of the base configuration). *)
  Inductive executes (m : mode) (inv : list (nat * X)) (ext : list (nat * (X + pexec))) (q : N) (i : ins) (s : St) : option (St * log) -> Prop :=
  | executes_plain e f : m = Plain -> get_executor ext (opcode i) = Some (inl e) -> pre_compute e q i = ROk f ->
      executes m inv ext q i s (Some (f s, []))
  | executes_metered e g : m = Metered -> get_executor ext (opcode i) = Some (inl e) -> metered_pre_compute e (chip (opcode i)) q i = ROk g ->
      executes m inv ext q i s (Some (g s))
  | executes_e1 a d : m = Plain -> get_executor ext (opcode i) = Some (inr a) -> prepares inv a q i (ROk d) ->
      executes m inv ext q i s (match execute_e12 d s with Some t => Some (t, []) | None => None end)
  | executes_e2 a d : m = Metered -> get_executor ext (opcode i) = Some (inr a) -> prepares inv a q i (ROk d) ->
      executes m inv ext q i s (execute_e2 (chip (opcode i)) d s).
  (** The loop: while the execution has not ended, the instruction at the program counter is executed.  What is listed for each
      turn: the program counter and the heights that were reported. *)
  Inductive runs (m : mode) (inv : list (nat * X)) (ext : list (nat * (X + pexec))) (code : list ins) : St -> list (N * log) -> St -> Prop :=
  | runs_end s : runs m inv ext code s [] s
  | runs_step s k i t l tr u : halted s = false -> pc s = base + N.of_nat k * step -> nth_error code k = Some i ->
      executes m inv ext (pc s) i s (Some (t, l)) -> runs m inv ext code t tr u ->
      runs m inv ext code s ((pc s, l) :: tr) u.
End Soft.
