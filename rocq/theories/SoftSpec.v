(** What is meant by: a program does the same with and without precompiles. *)
From Coq Require Import Arith NArith Bool List.
From Verif Require Import BlocksModel ExecModel SelModel SoftModel.
Import ListNotations.
Local Open Scope N_scope.

(** The states after each of some functions, executed one after the other. *)
Fixpoint after {St} (fs : list (St -> St)) (s : St) : list St := match fs with [] => [] | f :: r => f s :: after r (f s) end.

Section SoftSpec.
  Context {St X : Type} (pc : St -> N) (halted : St -> bool).
  Context (pre_compute : X -> N -> ins -> res (St -> St)) (metered_pre_compute : X -> nat -> N -> ins -> res (St -> St * log)).
  Context (chip : nat -> nat) (step : N).
  (** An instruction that does not branch and may be part of a precompile does not end the execution, and goes to the next one. *)
  Definition sequential (inv : list (nat * X)) (is_branching is_allowed : ins -> bool) : Prop :=
    forall e q i f s, is_branching i = false -> is_allowed i = true -> get_executor inv (opcode i) = Some e -> pre_compute e q i = ROk f ->
      halted s = false -> pc s = q -> halted (f s) = false /\ pc (f s) = q + step.
  (** An instruction does the same in both modes. *)
  Definition same_effects : Prop := forall e c q i,
    (forall g, metered_pre_compute e c q i = ROk g -> exists f, pre_compute e q i = ROk f /\ forall s, fst (g s) = f s) /\
    (forall f, pre_compute e q i = ROk f -> exists g, metered_pre_compute e c q i = ROk g /\ forall s, fst (g s) = f s).
  (** Two lists of turns of the loop.  A turn of the first one is a turn of the second one, at a place where no precompile starts; or
      it is the call of a precompile, and stands for one turn for each instruction of its block.  A call reports one row of its own chip
      if the execution is metered, and nothing for the instructions of the block. *)
  Inductive grouped (m : mode) (apcs : list (list (bblock ins))) : list (N * log) -> list (N * log) -> Prop :=
  | grouped_end : grouped m apcs [] []
  | grouped_same q l tr tr0 : (forall i b, nth_error apcs i = Some [b] -> start_pc b <> q) -> grouped m apcs tr tr0 ->
      grouped m apcs ((q, l) :: tr) ((q, l) :: tr0)
  | grouped_call i b turns tr tr0 : nth_error apcs i = Some [b] ->
      map fst turns = map (fun j => start_pc b + N.of_nat j * step) (seq 0 (length (instrs b))) -> grouped m apcs tr tr0 ->
      grouped m apcs ((start_pc b, match m with Plain => [] | Metered => [(chip (powdr_opcode + i)%nat, 1)] end) :: tr) (turns ++ tr0).
  (** What is given: a program whose addresses have 32 bits and whose opcodes all have executors; precompiles for different ones of its
      basic blocks, with the conditions that [build] gives them; the marks that [setup] puts into the program, and the table of
      executors with those of the precompiles. *)
  Definition installed (base : N) (is_branching is_allowed : ins -> bool) (jumpdest : N -> bool) (prog : list ins) (inv : list (nat * X))
      (apcs : list (list (bblock ins) * oconstrs)) (marks : list (option nat)) (ext : list (nat * (X + pexec))) : Prop :=
    0 < step /\ base + N.of_nat (length prog) * step <= 2 ^ 32 /\
    (forall i, In i prog -> get_executor inv (opcode i) <> None) /\
    NoDup (map fst apcs) /\
    (forall sb, In sb (map fst apcs) -> exists b, sb = [b] /\ In b (collect_basic_blocks is_branching is_allowed jumpdest base step prog)) /\
    (forall sb ocs, In (sb, ocs) apcs -> built_checks sb = Some ocs) /\
    setup base step (map Some prog) (map fst apcs) = Some marks /\
    extend_execution inv apcs = Some ext.
End SoftSpec.
