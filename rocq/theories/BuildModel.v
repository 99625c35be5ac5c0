(** Model of [build] in autoprecompiles/src/lib.rs: from a superblock to a precompile.  Exports and metrics are left out, and
    so is the conversion between the two representations of the field (see C30 for it). *)
From Coq Require Import Arith NArith Bool List.
From Verif Require Import Field ExprModel SystemModel BlocksModel ExecModel OvmModel InlinerModel SymModel PipeModel.
Import ListNotations.

Section BuildModel.
  Context {p : positive}.
  (** An instruction: its circuit ([get_instruction_air_and_id]) and the values of its program lookup at a program counter
      (blocks/mod.rs 191-194 [pc_lookup_row]). *)
  Record instruction := mkI { i_machine : smach p; i_row : N -> list (F p) }.
  (** [PcStep::pc_step], and whether a program counter fits into a register value. *)
  Context (step : N) (fits : N -> bool).
  (** blocks/mod.rs 35-40, 124-127 [instructions].  Simplification: no overflow of [u64]. *)
  Definition bb_instructions (b : bblock instruction) : list (N * instruction) :=
    map (fun xi => ((start_pc b + N.of_nat (fst xi) * step)%N, snd xi)) (enumerate (instrs b)).
  Definition block_instructions (bs : list (bblock instruction)) : list (N * instruction) := flat_map bb_instructions bs.
  (** symbolic_machine_generator.rs 134-150: the circuits with the program rows. *)
  Definition circuits (bs : list (bblock instruction)) : list (smach p * list (F p)) :=
    map (fun x => (i_machine (snd x), i_row (snd x) (fst x))) (block_instructions bs).
  (** blocks/mod.rs 84-96 [instruction_indexed_start_pcs]. *)
  Fixpoint start_pcs_from (idx : nat) (bs : list (bblock instruction)) : list (nat * N) :=
    match bs with [] => [] | b :: r => (idx, start_pc b) :: start_pcs_from (idx + length (instrs b)) r end.
  (** lib.rs 393-413 [superblock_pc_constraints]; it panics if a program counter does not fit. *)
  Definition pc_constraints (bs : list (bblock instruction)) : option (list oconstr) :=
    if forallb (fun x => fits (snd x)) (start_pcs_from 0 bs)
    then Some (map (fun x => mkOC (OLit (mkLit (fst x) LPc)) (ONum (snd x))) (start_pcs_from 0 bs)) else None.

  (** lib.rs 180-194 [Apc]: the machine, the substitutions and the conditions. *)
  Record precompile := mkPre { pre_machine : smach p; pre_subs : list (list (nat * N)); pre_checks : oconstrs }.
  (** lib.rs 284-390 [build].  The empirical constraints are given as expressions [extra] over the columns of the block (see
      C38 and C45 for how they are made and filtered); the execution constraints that are generated from them are not used. *)
  Definition builds (m : busmap) (bound : degree_bound) (bs : list (bblock instruction)) (extra : list (aexpr p)) (l : list (PipeModel.step p)) (a : precompile) : Prop :=
    exists pc_bus exec_bus sm al sm1 n1 sm2 next cs,
      get_bus_id m BPc = Some pc_bus /\ get_bus_id m BExec = Some exec_bus /\
      statements_to_machine pc_bus exec_bus (circuits bs) = Some (sm, al) /\
      optimizes m bound (mkSM (sm_cons sm ++ map constraint_from extra) (sm_buses sm) (sm_derived sm)) (N.to_nat (al_next al)) l sm1 n1 /\
      add_guards sm1 (N.of_nat n1) = Some (sm2, next) /\
      pc_constraints bs = Some cs /\
      a = mkPre sm2 (apc_subs sm2 (mkAlloc (al_subs al) next)) (from_constraints cs).
End BuildModel.
Arguments instruction : clear implicits.
Arguments precompile : clear implicits.
