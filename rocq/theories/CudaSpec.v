(** What the GPU trace generator should do, and when it can. *)
From Coq Require Import Arith ZArith NArith Bool List.
From Verif Require Import Field ExprModel SystemModel SymModel TraceModel TraceSpec CudaModel.
Import ListNotations.

Section CudaSpec.
  Context {p : positive}.
  (** Whatever the order in which the accesses of the threads interleave: none faults, the number of accesses is
      bounded, and when no thread can go on, all are done and the buffer is [M'] and the counters are [C']. *)
  Definition completes (ts : list (prog p)) (M : list (F p)) (C : bin -> N) (M' : list (F p)) (C' : bin -> N) : Prop :=
    exists bound, forall n M1 C1 ts1, steps n (M, C, ts) (M1, C1, ts1) ->
      n <= bound /\ ~ In Fault ts1 /\
      ((forall s, ~ step (M1, C1, ts1) s) -> Forall (fun q => q = Done) ts1 /\ M1 = M' /\ forall b, C1 b = C' b).
  (** How often a counter was incremented. *)
  Definition requests (b : bin) (l : list bin) : N := N.of_nat (length (filter (bin_eqb b) l)).
  (** The number of values on the stack while an expression is evaluated, left operand first. *)
  Fixpoint stack_need (e : aexpr p) : nat :=
    match e with ARef _ | ANum _ => 1 | ANeg a => stack_need a | ABin a _ b => Nat.max (stack_need a) (1 + stack_need b) end.
  Definition method_need (m : amethod p) : nat := match m with AConst _ => 1 | AQuot a b => Nat.max (stack_need b) (1 + stack_need a) end.
  (** The size of the bytecode. *)
  Fixpoint words (e : aexpr p) : nat := match e with ARef _ | ANum _ => 2 | ANeg a => words a + 1 | ABin a _ b => words a + words b + 1 end.
  Definition method_words (m : amethod p) : nat := match m with AConst _ => 2 | AQuot a b => words b + words a + 2 end.
  Definition bus_words (b : sbus p) : nat := list_sum (map words (sb_mult b :: sb_args b)).
  (** Sizes that the device can represent. *)
  Record device_fits (P : apc p) (ch : chips) (rows : N -> list (list (F p))) (calls : nat) : Prop := {
    fit_calls : (N.of_nat calls < 2 ^ 31)%N;
    fit_trace : (N.of_nat (length (main_columns (apc_machine P))) * N.of_nat (next_power_of_two_or_zero calls) <= 2 ^ 32)%N;
    fit_columns : (N.of_nat (length (main_columns (apc_machine P))) <= 2 ^ 31)%N;
    fit_airs : (N.of_nat (length (apc_airs P)) < 2 ^ 31)%N;
    fit_original : forall subs s, In subs (apc_subs_by P) -> In s subs -> (N.of_nat (fst s) < 2 ^ 31)%N;
    fit_rows : forall a, In a (apc_airs P) -> (N.of_nat (length (rows a)) < 2 ^ 31)%N;
    fit_derived : (N.of_nat (list_sum (map (fun d => method_words (snd d)) (sm_derived (apc_machine P)))) < 2 ^ 32)%N;
    fit_bus : (N.of_nat (list_sum (map bus_words (sm_buses (apc_machine P)))) < 2 ^ 32)%N;
    fit_spans : (N.of_nat (list_sum (map (fun b => 1 + length (sb_args b))%nat (sm_buses (apc_machine P)))) < 2 ^ 32)%N;
    fit_stack_derived : forall d, In d (sm_derived (apc_machine P)) -> method_need (snd d) <= 16;
    fit_stack_bus : forall b e, In b (sm_buses (apc_machine P)) -> In e (sb_mult b :: sb_args b) -> stack_need e <= 16;
    fit_ids : forall b, In b (sm_buses (apc_machine P)) -> (sb_id b < 2 ^ 16)%N;
    fit_tables : (ch_bins ch < 2 ^ 32 /\ ch_size0 ch * ch_size1 ch < 2 ^ 32)%N;
  }.
  (** A VM that has all three lookup chips, on different buses. *)
  Definition all_chips (ch : chips) : Prop :=
    exists bit tuple, ch_bit ch = Some bit /\ ch_tuple ch = Some tuple /\ NoDup [bit; tuple; ch_range ch].
  (** [order] lists the airs of the instructions that have a column in the machine. *)
  Definition lists_airs (P : apc p) (order : list N) : Prop :=
    NoDup order /\ forall a, In a order <-> In a (used (apc_subs_by P) (apc_airs P)).
  (** The sum of the multiplicities of the requests with given arguments on a bus. *)
  Definition sent (id : N) (args : list N) (effects : list (N * F p * list (F p))) : N :=
    fold_right N.add 0%N (map (fun e => val (snd (fst e))) (filter (fun e => (fst (fst e) =? id)%N && if list_eq_dec N.eq_dec (map val (snd e)) args then true else false) effects)).
End CudaSpec.
