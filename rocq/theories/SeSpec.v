(** What a run-time constant means, independently of how its operations simplify. *)
From Coq Require Import NArith Bool List.
From Verif Require Import Field RangeModel Spec SeModel.
Import ListNotations.
Local Open Scope F_scope.

Section Means.
  Context {S : Type} {p : positive} (env : S -> F p).
  (** At run time, when the symbols have the values [env], the expression is defined (no divisor is zero), its
      value is the number, and each range constraint written on it or inside of it is true. *)
  Inductive means : sexp S p -> F p -> Prop :=
  | m_concrete k : means (Concrete k) k
  | m_symbol s r : rc_allows r (env s) -> means (Symbol s r) (env s)
  | m_add a b r x y : means a x -> means b y -> rc_allows r (x + y) -> means (SBin a SAdd b r) (x + y)
  | m_sub a b r x y : means a x -> means b y -> rc_allows r (x - y) -> means (SBin a SSub b r) (x - y)
  | m_mul a b r x y : means a x -> means b y -> rc_allows r (x * y) -> means (SBin a SMul b r) (x * y)
  | m_div a b r x y z : means a x -> means b y -> y <> 0 -> z * y = x -> rc_allows r z -> means (SBin a SDiv b r) z
  | m_neg a r x : means a x -> rc_allows r (- x) -> means (SNeg a r) (- x).
End Means.

(** The symbol is mentioned. *)
Fixpoint occurs {S p} (v : S) (e : sexp S p) : Prop :=
  match e with
  | Concrete _ => False
  | Symbol s _ => s = v
  | SBin a _ b _ => occurs v a \/ occurs v b
  | SNeg a _ => occurs v a
  end.
(** All divisions are by numbers. *)
Fixpoint only_by_numbers {S p} (e : sexp S p) : Prop :=
  match e with
  | Concrete _ | Symbol _ _ => True
  | SBin a SDiv b _ => only_by_numbers a /\ exists k, b = Concrete k
  | SBin a _ b _ => only_by_numbers a /\ only_by_numbers b
  | SNeg a _ => only_by_numbers a
  end.
(** The values after one symbol got another value. *)
Definition with_value {S p} (eqb : S -> S -> bool) (env : S -> F p) (v : S) (y : F p) (s : S) : F p := if eqb s v then y else env s.
