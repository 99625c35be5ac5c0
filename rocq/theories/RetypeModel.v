(** Model of the conversion of a precompile from one field type to another, autoprecompiles/src/symbolic_machine_generator.rs 15-112. *)
From Coq Require Import NArith List.
Import ListNotations.

Section Retype.
  (** [V]: the columns, expression.rs 12-19 [AlgebraicReference]. [B], [Sub], [O]: blocks, substitutions and optimistic constraints,
      which the conversion does not look at. *)
  Context {V B Sub O : Type}.

  (** expression/src/lib.rs 49-56 [AlgebraicBinaryOperator], 69-72 [AlgebraicUnaryOperator]. *)
  Inductive binop := OpAdd | OpSub | OpMul.
  Inductive unop := OpMinus.
  (** expression/src/lib.rs 26-35 [AlgebraicExpression], with the records of the two kinds of operations inlined. *)
  Inductive aexpr (T : Type) :=
  | ANumber (n : T)
  | AReference (r : V)
  | ABinary (op : binop) (left right : aexpr T)
  | AUnary (op : unop) (e : aexpr T).
  (** constraint-solver/src/constraint_system.rs 128-137 [ComputationMethod]. *)
  Inductive method (T : Type) := Constant (c : T) | QuotientOrZero (e1 e2 : aexpr T).
  (** symbolic_machine.rs 70-75 [SymbolicBusInteraction]. *)
  Record interaction (T : Type) := mkInteraction { bus : N; mult : aexpr T; args : list (aexpr T) }.
  (** symbolic_machine.rs 115-124 [SymbolicMachine]; a constraint is its expression, a derived column is the column and its method. *)
  Record machine (T : Type) := mkMachine { constraints : list (aexpr T); interactions : list (interaction T); derived : list (V * method T) }.
  (** lib.rs 185-195 [Apc]. *)
  Record apc (T : Type) := mkApc { block : B; apc_machine : machine T; subs : list (list Sub); optimistic : O }.
  Arguments ANumber {T}. Arguments AReference {T}. Arguments ABinary {T}. Arguments AUnary {T}.
  Arguments Constant {T}. Arguments QuotientOrZero {T}.
  Arguments mkInteraction {T}. Arguments bus {T}. Arguments mult {T}. Arguments args {T}.
  Arguments mkMachine {T}. Arguments constraints {T}. Arguments interactions {T}. Arguments derived {T}.
  Arguments mkApc {T}. Arguments block {T}. Arguments apc_machine {T}. Arguments subs {T}. Arguments optimistic {T}.

  Context {T U : Type} (convert : T -> U).
  (** 87-112 [convert_expression]. *)
  Fixpoint convert_expression (e : aexpr T) : aexpr U :=
    match e with
    | ANumber n => ANumber (convert n)
    | AReference r => AReference r
    | ABinary op l r => ABinary op (convert_expression l) (convert_expression r)
    | AUnary op x => AUnary op (convert_expression x)
    end.
  (** 71-85 [convert_bus_interaction]. *)
  Definition convert_interaction (i : interaction T) : interaction U := mkInteraction (bus i) (convert_expression (mult i)) (map convert_expression (args i)).
  (** 47-57, the match. *)
  Definition convert_method (m : method T) : method U :=
    match m with
    | Constant c => Constant (convert c)
    | QuotientOrZero e1 e2 => QuotientOrZero (convert_expression e1) (convert_expression e2)
    end.
  (** 29-61 [convert_machine_field_type], 63-69 [convert_symbolic_constraint]. *)
  Definition convert_machine (m : machine T) : machine U :=
    mkMachine (map convert_expression (constraints m)) (map convert_interaction (interactions m)) (map (fun d => (fst d, convert_method (snd d))) (derived m)).
  (** 16-26 [convert_apc_field_type]. *)
  Definition convert_apc (a : apc T) : apc U := mkApc (block a) (convert_machine (apc_machine a)) (subs a) (optimistic a).
End Retype.
Arguments aexpr : clear implicits. Arguments method : clear implicits. Arguments interaction : clear implicits. Arguments machine : clear implicits. Arguments apc : clear implicits.
Arguments ANumber {V T}. Arguments AReference {V T}. Arguments ABinary {V T}. Arguments AUnary {V T}.
Arguments Constant {V T}. Arguments QuotientOrZero {V T}.
Arguments mkInteraction {V T}. Arguments bus {V T}. Arguments mult {V T}. Arguments args {V T}.
Arguments mkMachine {V T}. Arguments constraints {V T}. Arguments interactions {V T}. Arguments derived {V T}.
Arguments mkApc {V B Sub O T}. Arguments block {V B Sub O T}. Arguments apc_machine {V B Sub O T}. Arguments subs {V B Sub O T}. Arguments optimistic {V B Sub O T}.
