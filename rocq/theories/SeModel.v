(** Model of constraint-solver/src/symbolic_expression.rs. *)
From Coq Require Import NArith Bool List.
From Verif Require Import Field RangeModel.
Import ListNotations.
Local Open Scope F_scope.

(** symbolic_expression.rs 33-40 [BinaryOperator]. *)
Inductive sop := SAdd | SSub | SMul | SDiv.
(** symbolic_expression.rs 21-45 [SymbolicExpression]; the only unary operator is [Neg]. *)
Inductive sexp (S : Type) (p : positive) :=
| Concrete (k : F p)
| Symbol (s : S) (r : rc p)
| SBin (l : sexp S p) (o : sop) (e : sexp S p) (r : rc p)
| SNeg (e : sexp S p) (r : rc p).
Arguments Concrete {S p}. Arguments Symbol {S p}. Arguments SBin {S p}. Arguments SNeg {S p}.

Definition sop_eqb (a b : sop) : bool :=
  match a, b with SAdd, SAdd | SSub, SSub | SMul, SMul | SDiv, SDiv => true | _, _ => false end.

(** symbolic_expression.rs 66-73 [from_symbol]. *)
Definition from_symbol {S p} (s : S) (r : rc p) : sexp S p :=
  match try_to_single_value r with Some v => Concrete v | None => Symbol s r end.

Section Ops.
  Context {S : Type} {p : positive} (eqb : S -> S -> bool).
  Local Notation E := (sexp S p).

  (** Derived [PartialEq]. *)
  Fixpoint sexp_eqb (a b : E) : bool :=
    match a, b with
    | Concrete x, Concrete y => feqb x y
    | Symbol s r, Symbol s' r' => eqb s s' && rc_eqb r r'
    | SBin l o e r, SBin l' o' e' r' => sexp_eqb l l' && sop_eqb o o' && sexp_eqb e e' && rc_eqb r r'
    | SNeg e r, SNeg e' r' => sexp_eqb e e' && rc_eqb r r'
    | _, _ => false
    end.
  (** symbolic_expression.rs 434-442 [try_to_number], runtime_constant.rs 52-72. *)
  Definition s_number (a : E) : option (F p) := match a with Concrete k => Some k | _ => None end.
  Definition known_zero (a : E) : bool := match s_number a with Some k => is_zero k | None => false end.
  Definition known_one (a : E) : bool := match s_number a with Some k => is_one k | None => false end.
  Definition known_minus_one (a : E) : bool := match s_number a with Some k => feqb k (- (1)) | None => false end.
  (** symbolic_expression.rs 444-451 [range_constraint]. *)
  Definition s_rc (a : E) : rc p :=
    match a with Concrete v => from_value v | Symbol _ r => r | SBin _ _ _ r => r | SNeg _ r => r end.
  (** runtime_constant.rs 67-72 [is_known_nonzero]. *)
  Definition known_nonzero (a : E) : bool := negb (allows_value (s_rc a) 0).

  (** symbolic_expression.rs 243-274 [Add].  The guard is tried for both alternatives of the pattern. *)
  Definition sadd (a b : E) : E :=
    if known_zero a then b
    else if known_zero b then a
    else
      match a, b with
      | Concrete x, Concrete y => Concrete (x + y)
      | _, _ =>
        if match a with SNeg n _ => sexp_eqb n b | _ => false end || match b with SNeg n _ => sexp_eqb n a | _ => false end then Concrete 0
        else SBin a SAdd b (combine_sum (s_rc a) (s_rc b))
      end.
  (** symbolic_expression.rs 323-370 [Neg]. *)
  Fixpoint sneg (a : E) : E :=
    match a with
    | Concrete k => Concrete (- k)
    | SNeg e _ => e
    | SBin l SAdd e _ => sadd (sneg l) (sneg e)
    | SBin l SSub e _ => SBin e SSub l (multiple (s_rc a) (- (1)))
    | SBin (Concrete k) SMul e _ => SBin (Concrete (- k)) SMul e (multiple (s_rc a) (- (1)))
    | SBin l SMul (Concrete k) _ => SBin l SMul (Concrete (- k)) (multiple (s_rc a) (- (1)))
    | _ => SNeg a (multiple (s_rc a) (- (1)))
    end.
  (** symbolic_expression.rs 289-314 [Sub]. *)
  Definition ssub (a b : E) : E :=
    if known_zero a then sneg b
    else if known_zero b then a
    else
      match a, b with
      | Concrete x, Concrete y => Concrete (x - y)
      | _, _ => if sexp_eqb a b then Concrete 0 else SBin a SSub b (combine_sum (s_rc a) (rc_neg (s_rc b)))
      end.
  (** symbolic_expression.rs 379-405 [Mul]. *)
  Definition smul (a b : E) : E :=
    match a, b with
    | Concrete x, Concrete y => Concrete (x * y)
    | _, _ =>
      if known_zero a || known_zero b then Concrete 0
      else if known_one a then b
      else if known_one b then a
      else if known_minus_one a then sneg b
      else if known_minus_one b then sneg a
      else SBin a SMul b (combine_product (s_rc a) (s_rc b))
    end.
  (** symbolic_expression.rs 453-474 [field_div]; [None] is the failed assertion. *)
  Definition sdiv (a b : E) : option E :=
    match a, b with
    | Concrete x, Concrete y => if feqb y 0 then None else Some (Concrete (x / y))
    | _, _ =>
      Some (if known_zero a then Concrete 0
            else if known_one b then a
            else if known_minus_one b then sneg a
            else SBin a SDiv b unconstrained)
    end.
  (** symbolic_expression.rs 476-496 [field_inverse]. *)
  Definition sinv (a : E) : option E :=
    match a with
    | Concrete x => if feqb x 0 then None else Some (Concrete (1 / x))
    | SBin x SDiv y _ => Some (SBin y SDiv x unconstrained)
    | _ => Some (SBin (Concrete 1) SDiv a unconstrained)
    end.
  (** symbolic_expression.rs 77-109 [compute_substitution]; the outer [None] is a panic, the inner one
      says that nothing changes. *)
  Fixpoint compute_substitution (v : S) (s : E) (a : E) : option (option E) :=
    match a with
    | Concrete _ => Some None
    | Symbol x _ => Some (if eqb x v then Some s else None)
    | SBin l o r _ =>
      match compute_substitution v s l, compute_substitution v s r with
      | Some nl, Some nr =>
        match nl, nr with
        | None, None => Some None
        | _, _ =>
          let l' := match nl with Some x => x | None => l end in
          let r' := match nr with Some x => x | None => r end in
          match o with
          | SAdd => Some (Some (sadd l' r'))
          | SSub => Some (Some (ssub l' r'))
          | SMul => Some (Some (smul l' r'))
          | SDiv => match sdiv l' r' with Some x => Some (Some x) | None => None end
          end
        end
      | _, _ => None
      end
    | SNeg e _ =>
      match compute_substitution v s e with
      | Some (Some x) => Some (Some (sneg x))
      | Some None => Some None
      | None => None
      end
    end.
  (** symbolic_expression.rs 111-116 [substitute]. *)
  Definition substitute (v : S) (s : E) (a : E) : option E :=
    match compute_substitution v s a with
    | Some (Some x) => Some x
    | Some None => Some a
    | None => None
    end.
End Ops.

(** symbolic_expression.rs 119-163 [try_to_expression]: the target type has its own operations; the outer
    [None] is the panic of a division by zero, the inner one the failure. *)
Section Convert.
  Context {S : Type} {p : positive} {X : Type}.
  Variables (add sub mul : X -> X -> X) (neg : X -> X) (number : F p -> X) (var_ : S -> X) (try_number : X -> option (F p)).
  Fixpoint try_to_expression (a : sexp S p) : option (option X) :=
    match a with
    | Concrete k => Some (Some (number k))
    | Symbol s _ => Some (Some (var_ s))
    | SBin l o r _ =>
      match try_to_expression l with
      | None => None
      | Some None => Some None
      | Some (Some l') =>
        match try_to_expression r with
        | None => None
        | Some None => Some None
        | Some (Some r') =>
          match o with
          | SAdd => Some (Some (add l' r'))
          | SSub => Some (Some (sub l' r'))
          | SMul => Some (Some (mul l' r'))
          | SDiv =>
            match try_number r' with
            | Some k => if feqb k 0 then None else Some (Some (mul l' (number (1 / k))))
            | None => Some None
            end
          end
        end
      end
    | SNeg e _ =>
      match try_to_expression e with
      | None => None
      | Some None => Some None
      | Some (Some e') => Some (Some (neg e'))
      end
    end.
End Convert.

(** symbolic_expression.rs 165-195 [try_transform_var_type]. *)
Fixpoint try_transform {S1 S2 p} (f : S1 -> option S2) (a : sexp S1 p) : option (sexp S2 p) :=
  match a with
  | Concrete k => Some (Concrete k)
  | Symbol v r => match f v with Some v' => Some (from_symbol v' r) | None => None end
  | SBin l o e r =>
    match try_transform f l, try_transform f e with
    | Some l', Some e' => Some (SBin l' o e' r)
    | _, _ => None
    end
  | SNeg e r => match try_transform f e with Some e' => Some (SNeg e' r) | None => None end
  end.
