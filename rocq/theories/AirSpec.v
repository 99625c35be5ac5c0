(** What an AIR of OpenVM demands of a row, and when it can be a symbolic machine. *)
From Coq Require Import Arith NArith Bool List.
From Verif Require Import Field ExprModel SymModel AirModel.
Import ListNotations.

Section AirSpec.
  Context {p : positive}.
  (** What an AIR sees at one row: the entries of the parts of the main trace by part, offset of the row and index,
      all other entries, and the three selectors. *)
  Record view := mkView { w_main : nat -> nat -> nat -> F p; w_other : nat -> nat -> F p; w_first : F p; w_last : F p; w_transition : F p }.
  Fixpoint xvalue (w : view) (e : xexpr p) : F p :=
    match e with
    | XConst k => k
    | XAdd x y => (xvalue w x + xvalue w y)%F
    | XSub x y => (xvalue w x - xvalue w y)%F
    | XMul x y => (xvalue w x * xvalue w y)%F
    | XNeg x => fopp (xvalue w x)
    | XVar (EMain part offset) i => w_main w part offset i
    | XVar (EOther k) i => w_other w k i
    | XFirst => w_first w
    | XLast => w_last w
    | XTransition => w_transition w
    end.
  Definition air_accepts (a : air p) (w : view) : Prop := Forall (fun e => xvalue w e = 0%F) (a_cons a).
  Definition air_messages (a : air p) (w : view) : list (N * F p * list (F p)) :=
    map (fun i => (xi_bus i, xvalue w (xi_count i), map (xvalue w) (xi_message i))) (a_ints a).
  (** All atoms of the AIR satisfy [P]. *)
  Fixpoint atoms (P : xexpr p -> Prop) (e : xexpr p) : Prop :=
    match e with XConst _ => True | XAdd x y | XSub x y | XMul x y => atoms P x /\ atoms P y | XNeg x => atoms P x | _ => P e end.
  Definition air_atoms (P : xexpr p -> Prop) (a : air p) : Prop :=
    Forall (atoms P) (a_cons a) /\ Forall (fun i => atoms P (xi_count i) /\ Forall (atoms P) (xi_message i)) (a_ints a).
  (** It only looks at columns of the current row. *)
  Definition own_row (width : nat) (e : xexpr p) : Prop := exists i, e = XVar (EMain 0 0) i /\ i < width.
  (** It looks at columns of the current and the next row and at selectors. *)
  Definition two_rows (width : nat) (e : xexpr p) : Prop :=
    (exists offset i, e = XVar (EMain 0 offset) i /\ offset < 2 /\ i < width) \/ e = XFirst \/ e = XLast \/ e = XTransition.
  (** If it names its columns, there are as many names as columns. *)
  Definition names_columns (a : air p) : Prop := forall n, a_columns a = Some n -> n = a_width a.
  (** The row of a machine is the row that the AIR sees. *)
  Definition same_row (width : nat) (w : view) (row : var -> F p) : Prop := forall i, i < width -> row (Orig (N.of_nat i)) = w_main w 0 0 i.

  (** The AIR that executes an allowed opcode. *)
  Definition implements (lookup : N -> option nat) (insertion : list nat) (ext : list (air p)) (op : N) (a : air p) : Prop :=
    exists ex k, lookup op = Some ex /\ nth_error insertion ex = Some k /\ nth_error ext k = Some a.
  Definition distinct_names (ext : list (air p)) : Prop := forall a b, In a ext -> In b ext -> a_name a = a_name b -> a = b.

  (** The AIR of the opcode is the one of the given name. *)
  Definition executed_by (o : original_airs p) (name op : N) : bool := match get_instruction_air_and_id o op with Some (x, _) => (x =? name)%N | None => false end.
  (** The number of elements with the property. *)
  Fixpoint number {A} (f : A -> bool) (l : list A) : nat := match l with [] => 0 | x :: l => (if f x then 1 else 0) + number f l end.
  Definition at_most (x y : nat * nat) : Prop := fst x <= fst y /\ snd x <= snd y.
End AirSpec.
Arguments view : clear implicits.
