(** What the trace of an autoprecompile should contain. *)
From Coq Require Import Arith NArith Bool List Sorted.
From Verif Require Import Field ExprModel SystemModel SymModel SymSpec TraceModel.
Import ListNotations.

Section TraceSpec.
  Context {p : positive}.
  (** The columns of a machine, in ascending order of their ids. *)
  Definition column_id (m : smach p) (id : N) : Prop := exists v, column_of m v /\ vid v = id.
  Definition lists_columns (m : smach p) (cols : list N) : Prop := StronglySorted N.lt cols /\ forall id, In id cols <-> column_id m id.
  (** The list [r] holds the values [row] of the columns [cols]. *)
  Definition holds (cols : list N) (r : list (F p)) (row : var -> F p) : Prop :=
    length r = length cols /\ forall i v, nth_error cols i = Some (vid v) -> nth_error r i = Some (row v).
  Definition derived_id (m : smach p) (id : N) : Prop := exists d, In d (sm_derived m) /\ vid (fst d) = id.
  (** The columns that a method reads. *)
  Definition method_reads (me : amethod p) (v : var) : Prop := match me with AConst _ => False | AQuot a b => occurs v a \/ occurs v b end.
  (** Derived columns are distinct and none reads itself or one that is computed later. *)
  Fixpoint in_order (ds : list (var * amethod p)) : Prop :=
    match ds with
    | [] => True
    | d :: ds =>
      (forall e, In e ds -> vid (fst e) <> vid (fst d)) /\
      (forall v, method_reads (snd d) v -> forall e, In e (d :: ds) -> vid (fst e) <> vid v) /\
      in_order ds
    end.
  (** One call of a block: a row of the width of its air for every instruction. *)
  Definition fits (airs : list N) (widths : N -> nat) (call : list (list (F p))) : Prop :=
    Forall2 (fun a r => length r = widths a) airs call.
  (** The rows of the instructions that have at least one substitution. *)
  Definition used {A B} (subs : list (list A)) (rows : list B) : list B :=
    map snd (filter (fun x => match fst x with [] => false | _ => true end) (combine subs rows)).
  (** The calls since the last trace was generated, for every generated trace of a history. *)
  Fixpoint segments (pending : list (list (list (F p)))) (es : list (event p)) : list (list (list (list (F p)))) :=
    match es with
    | [] => []
    | Call rows :: es => segments (pending ++ [rows]) es
    | Generate :: es => pending :: segments [] es
    end.
End TraceSpec.
