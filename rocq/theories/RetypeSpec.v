(** What the expressions, constraints, messages and derived columns of a precompile mean in a type of numbers. *)
From Coq Require Import NArith List.
From Verif Require Import RetypeModel.
Import ListNotations.

(** The operations of a type of numbers; [quotient] is zero for a zero denominator. *)
Record arith (T : Type) := mkArith { zero : T; add : T -> T -> T; sub : T -> T -> T; mul : T -> T -> T; neg : T -> T; quotient : T -> T -> T }.
Arguments mkArith {T}. Arguments zero {T}. Arguments add {T}. Arguments sub {T}. Arguments mul {T}. Arguments neg {T}. Arguments quotient {T}.

(** Two types of numbers with the same arithmetic: [f] translates every operation. *)
Record translates {T U} (a : arith T) (b : arith U) (f : T -> U) : Prop := {
  tr_zero : f (zero a) = zero b;
  tr_add : forall x y, f (add a x y) = add b (f x) (f y);
  tr_sub : forall x y, f (sub a x y) = sub b (f x) (f y);
  tr_mul : forall x y, f (mul a x y) = mul b (f x) (f y);
  tr_neg : forall x, f (neg a x) = neg b (f x);
  tr_quotient : forall x y, f (quotient a x y) = quotient b (f x) (f y) }.
Definition injective {T U} (f : T -> U) : Prop := forall x y, f x = f y -> x = y.

Section Meaning.
  Context {V T : Type} (a : arith T) (row : V -> T).
  (** The value of an expression on a row. *)
  Fixpoint value (e : aexpr V T) : T :=
    match e with
    | ANumber n => n
    | AReference r => row r
    | ABinary OpAdd l r => add a (value l) (value r)
    | ABinary OpSub l r => sub a (value l) (value r)
    | ABinary OpMul l r => mul a (value l) (value r)
    | AUnary OpMinus x => neg a (value x)
    end.
  (** The row satisfies the constraints. *)
  Definition satisfies (m : machine V T) : Prop := forall e, In e (constraints m) -> value e = zero a.
  (** What the row sends: the bus, how often, and the values. *)
  Definition sends (m : machine V T) : list (N * T * list T) := map (fun i => (bus i, value (mult i), map value (args i))) (interactions m).
  (** What the methods give for the derived columns. *)
  Definition derives (m : machine V T) : list (V * T) :=
    map (fun d => (fst d, match snd d with Constant c => c | QuotientOrZero x y => quotient a (value x) (value y) end)) (derived m).
End Meaning.
(** The columns of an expression, from left to right. *)
Fixpoint columns {V T} (e : aexpr V T) : list V :=
  match e with ANumber _ => [] | AReference r => [r] | ABinary _ l r => columns l ++ columns r | AUnary _ x => columns x end.
