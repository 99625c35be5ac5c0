(** What rows of a symbolic machine are, and what it accepts and sends. *)
From Coq Require Import Arith NArith Bool List.
From Verif Require Import Field ExprModel SymModel.
Import ListNotations.

Section SymSpec.
  Context {p : positive}.
  (** The value of an expression in a row. *)
  Fixpoint aeval (row : var -> F p) (e : aexpr p) : F p :=
    match e with
    | ARef v => row v
    | ANum k => k
    | ABin l OAdd r => (aeval row l + aeval row r)%F
    | ABin l OSub r => (aeval row l - aeval row r)%F
    | ABin l OMul r => (aeval row l * aeval row r)%F
    | ANeg e => fopp (aeval row e)
    end.
  (** A row is accepted if all constraints are zero; a message is a bus, a multiplicity and arguments. *)
  Definition accepts (m : smach p) (row : var -> F p) : Prop := Forall (fun e => aeval row e = 0%F) (sm_cons m).
  Definition message (row : var -> F p) (b : sbus p) : N * F p * list (F p) := (sb_id b, aeval row (sb_mult b), map (aeval row) (sb_args b)).
  Definition messages (m : smach p) (row : var -> F p) : list (N * F p * list (F p)) := map (message row) (sm_buses m).
  (** The value that a derived column's method computes. *)
  Definition amethod_value (row : var -> F p) (m : amethod p) : F p :=
    match m with AConst k => k | AQuot a b => if is_zero (aeval row b) then 0%F else (aeval row a / aeval row b)%F end.
  Definition derived_columns (m : smach p) (row : var -> F p) : list (var * F p) := map (fun d => (fst d, amethod_value row (snd d))) (sm_derived m).
  (** The column occurs in a constraint or bus interaction. *)
  Fixpoint occurs (v : var) (e : aexpr p) : Prop :=
    match e with ARef w => w = v | ANum _ => False | ABin l _ r => occurs v l \/ occurs v r | ANeg e => occurs v e end.
  Definition column_of (m : smach p) (v : var) : Prop :=
    Exists (occurs v) (sm_cons m) \/ Exists (fun b => occurs v (sb_mult b) \/ Exists (occurs v) (sb_args b)) (sm_buses m).
  (** The part of a row that starts at column [k]. *)
  Definition columns_from (k : N) (row : var -> F p) : var -> F p := fun v => match v with Orig n => row (Orig (n + k)%N) | _ => row v end.
  (** The columns of the machine are 0, …, width - 1. *)
  Definition has_width (m : smach p) (width : nat) : Prop :=
    0 < width /\ forall v, column_of m v <-> exists n, v = Orig n /\ (n < N.of_nat width)%N.
  (** The interactions on one bus, in order. *)
  Definition on_bus (bus : N) (m : smach p) : list (sbus p) := filter (fun b => (sb_id b =? bus)%N) (sm_buses m).
  (** The machine of one instruction has exactly one lookup of its own row in the program, of the given
      width, and exactly one pair of a receive and a send on the execution bus. *)
  Definition well_formed_instruction (pc_bus exec_bus : N) (i : smach p * list (F p)) : Prop :=
    (exists width, has_width (fst i) width) /\
    (exists lookup, on_bus pc_bus (fst i) = [lookup] /\ length (sb_args lookup) = length (snd i)) /\
    (exists receive send, on_bus exec_bus (fst i) = [receive; send]).
  (** What the machine of an instruction demands once its program row is fixed: its own constraints, the
      execution bus receive has multiplicity -1 and the looked-up row is the instruction's. *)
  Definition accepts_instruction (pc_bus exec_bus : N) (i : smach p * list (F p)) (row : var -> F p) : Prop :=
    accepts (fst i) row /\
    (forall receive send, on_bus exec_bus (fst i) = [receive; send] -> aeval row (sb_mult receive) = fopp 1%F) /\
    (forall lookup, on_bus pc_bus (fst i) = [lookup] -> map (aeval row) (sb_args lookup) = snd i).
End SymSpec.
