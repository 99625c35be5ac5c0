(** What it means that the optimizer keeps the executions of a machine. *)
From Coq Require Import Arith NArith Bool List.
From Verif Require Import Field ExprModel SystemModel Spec OvmModel OvmSpec PassSpec MemModel MemSpec LowOvm SymModel SymSpec PipeModel PipeSpec.
Import ListNotations.

Section MachineSpec.
  Context {p : positive} (m : busmap) (program : list (F p) -> Prop).
  (** The messages of a row, and those of them that go to the buses that keep state. *)
  Definition machine_values (sm : smach p) (row : var -> F p) : list (busi (F p)) :=
    map (fun g => mkBus (of_N (fst (fst g))) (snd (fst g)) (snd g)) (messages sm row).
  Definition machine_sends (sm : smach p) (row : var -> F p) : list (busi (F p)) :=
    filter (fun b => ovm_stateful m (bus_id b) && negb (is_zero (mult b))) (machine_values sm row).
  (** A row that satisfies all constraints and lookups … *)
  Definition machine_admissible (row : var -> F p) (sm : smach p) : Prop :=
    SymSpec.accepts sm row /\ Forall (acceptable (ovm_stateful m) (ovm_table m program)) (machine_values sm row).
  (** … and whose messages on the stateful buses are those that the virtual machine guarantees. *)
  Definition machine_execution (row : var -> F p) (sm : smach p) : Prop :=
    machine_admissible row sm /\ Forall (legal m) (machine_sends sm row) /\ in_time m (machine_sends sm row).
  (** Derived columns have the values of their computation methods. *)
  Definition machine_computed (row : var -> F p) (sm : smach p) : Prop := Forall (fun d => row (fst d) = amethod_value row (snd d)) (sm_derived sm).
  (** Each message is sent as often in total. *)
  Definition same_machine_effect (row : var -> F p) (sm : smach p) (row' : var -> F p) (sm' : smach p) : Prop :=
    forall bus args, net bus args (machine_sends sm' row') = net bus args (machine_sends sm row).
  (** All columns of the machine have been issued. *)
  Definition in_method (v : var) (a : amethod p) : Prop := match a with AConst _ => False | AQuot x y => occurs v x \/ occurs v y end.
  Definition machine_over (n : nat) (sm : smach p) : Prop :=
    (forall v, column_of sm v -> issued n v) /\ forall d, In d (sm_derived sm) -> issued n (fst d) /\ forall v, in_method v (snd d) -> issued n v.
  (** The instructions follow each other: each receives on the execution bus what the one before has sent. *)
  Definition chained (row : var -> F p) (sm : smach p) : Prop :=
    forall id, get_bus_id m BExec = Some id -> exists r s rest, on_bus id sm = r :: s :: receives_and_sends rest /\
      Forall (fun sr => map (aeval row) (sb_args (fst sr)) = map (aeval row) (sb_args (snd sr)) /\ aeval row (sb_mult (snd sr)) = fopp (aeval row (sb_mult (fst sr)))) (handovers s rest).
  (** Each send to the next instruction is matched by a receive in all rows. *)
  Definition balanced (sm : smach p) : Prop :=
    forall id, get_bus_id m BExec = Some id -> exists r s rest, on_bus id sm = r :: s :: receives_and_sends rest /\
      forall row, SymSpec.accepts sm row -> Forall (fun sr => aeval row (sb_mult (snd sr)) = fopp (aeval row (sb_mult (fst sr)))) (handovers s rest).
End MachineSpec.
