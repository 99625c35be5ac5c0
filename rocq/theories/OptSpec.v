(** The memory during an execution of a block, and what the conditions on an execution mean. *)
From Coq Require Import Arith NArith Bool List.
From Verif Require Import Field ExprModel SymModel SymSpec EmpModel OptModel.
Import ListNotations.

(** The column of a cell, given the columns of all instructions. *)
Definition at_cell (subs : list (list N)) (c : cell) : option N := match nth_error subs (fst c) with Some s => nth_error s (snd c) | None => None end.

Section OptSpec.
  Context {p : positive}.
  (** The limbs stored at an address (address space and pointer). *)
  Definition memory := list (F p) -> list (F p).
  (** A message on the memory bus with multiplicity -1 reads what is stored at its address, one with
      multiplicity 1 overwrites it; the last argument is a time stamp.  Other messages do not concern the memory. *)
  Inductive effect (memory_bus : N) : N * F p * list (F p) -> memory -> memory -> Prop :=
  | Reads space pointer limbs time M : M [space; pointer] = limbs ->
      effect memory_bus (memory_bus, fopp 1%F, space :: pointer :: limbs ++ [time]) M M
  | Writes space pointer limbs time M M' : M' [space; pointer] = limbs -> (forall a, a <> [space; pointer] -> M' a = M a) ->
      effect memory_bus (memory_bus, 1%F, space :: pointer :: limbs ++ [time]) M M'
  | Inactive args M : effect memory_bus (memory_bus, 0%F, args) M M
  | Elsewhere bus k args M : bus <> memory_bus -> effect memory_bus (bus, k, args) M M.
  Fixpoint effects (memory_bus : N) (l : list (N * F p * list (F p))) (M M' : memory) : Prop :=
    match l with [] => forall a, M' a = M a | g :: r => exists M1, effect memory_bus g M M1 /\ effects memory_bus r M1 M' end.
  (** An execution of a block: a row that satisfies the machines of all instructions, and the memory before each
      instruction and at the end. *)
  Definition execution (memory_bus : N) (ms : list (smach p)) (row : var -> F p) (before : nat -> memory) : Prop :=
    forall i m, nth_error ms i = Some m -> accepts m row /\ effects memory_bus (messages m row) (before i) (before (i + 1)).
  (** Every address is accessed at most twice: it is read and then overwritten. *)
  Definition active (memory_bus : N) (address : list (F p)) (g : N * F p * list (F p)) : Prop :=
    fst (fst g) = memory_bus /\ snd (fst g) <> 0%F /\ firstn 2 (snd g) = address.
  Definition settled (memory_bus : N) (l : list (N * F p * list (F p))) : Prop :=
    forall i j gi gj address, i < j -> nth_error l i = Some gi -> nth_error l j = Some gj ->
      active memory_bus address gi -> active memory_bus address gj -> snd (fst gi) = fopp 1%F /\ snd (fst gj) = 1%F.
  (** What is asked of an optimizer that gets the ids of new columns from an allocator: all columns it uses are
      those of the machine or new ones, and every satisfying row is still one, after setting the new columns, with
      the same effect on the memory. *)
  Definition optimizes (memory_bus : N) (optimize : smach p -> allocator -> option (smach p)) : Prop :=
    forall m a m', (forall n, column_of m (Orig n) -> (n < al_next a)%N) -> optimize m a = Some m' ->
      (forall v, column_of m' v -> column_of m v \/ exists n, v = Orig n /\ (al_next a <= n)%N) /\
      (forall row M M', accepts m row -> effects memory_bus (messages m row) M M' ->
         exists row', (forall v, column_of m v -> row' v = row v) /\ accepts m' row' /\ effects memory_bus (messages m' row') M M').
  (** A column that is itself an argument of an interaction on a bus. *)
  Definition argument_of (bus : N) (m : smach p) (v : var) : Prop :=
    exists b e, In b (sm_buses m) /\ sb_id b = bus /\ In e (sb_args b) /\ occurs v e /\ forall row, aeval row e = row v.
  (** The value of a literal and the truth of a condition in an execution. *)
  Definition limb_value (before : nat -> memory) (l : reglimb p) : option (F p) := nth_error (before (rl_instr l) (rl_addr l)) (rl_limb l).
  Definition condition_value (before : nat -> memory) (e : oexp p) : option N :=
    match e with XNum v => Some v | XLit l => option_map val (limb_value before l) end.
  Definition condition_holds (before : nat -> memory) (c : ocon p) : Prop :=
    exists v, condition_value before (xleft c) = Some v /\ condition_value before (xright c) = Some v.
  (** The truth of an empirical equation in a row. *)
  Definition equation_holds (row : var -> F p) (c : eqc N) : Prop :=
    match c with EqNum r v => row (Orig r) = of_N v | EqRef r s => row (Orig r) = row (Orig s) end.
End OptSpec.
