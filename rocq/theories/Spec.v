(** Specification vocabulary used to state the properties.  Nothing here refers to the
    algorithms of the model, only to its data types. *)
From Coq Require Import NArith ZArith Bool List.
From Verif Require Import Field RangeModel ExprModel ExprFacts SolveModel SystemModel.
Import ListNotations.
Local Open Scope N_scope.

Section Spec.
  Context {p : positive}.

  (** The circular interval from [mn] to [mx] (both inclusive) contains [x]. *)
  Definition between (mn mx x : F p) : Prop :=
    (val mn <= val mx /\ val mn <= val x /\ val x <= val mx) \/
    (val mx < val mn /\ (val mn <= val x \/ val x <= val mx)).
  (** [x] only uses bits of [m]. *)
  Definition only_bits (m : N) (x : F p) : Prop :=
    forall i, N.testbit (val x) i = true -> N.testbit m i = true.
  (** The set of values described by a range constraint. *)
  Definition rc_allows (r : rc p) (x : F p) : Prop :=
    between (rmin r) (rmax r) x /\ only_bits (mask r) x.

  (** All claims of the range constraint provider [g] are true of the assignment [s]. *)
  Definition rcs_true (g : var -> rc p) (s : var -> F p) : Prop := forall v, rc_allows (g v) (s v).

  (** [s] solves the algebraic constraint [e] (an expression that has to be zero). *)
  Definition solves (s : var -> F p) (e : gexp p) : Prop := eval s e = 0%F.

  (** Number of elements of a finite set of field elements. *)
  Definition has_size (S : F p -> Prop) (n : N) : Prop :=
    exists l, NoDup l /\ (forall x, In x l <-> S x) /\ N.of_nat (length l) = n.
  (** The claims of [g] about the variables of [e] are true of [s]. *)
  Definition consistent_on (g : var -> rc p) (s : var -> F p) (e : gexp p) : Prop :=
    forall v, In v (vars e) -> rc_allows (g v) (s v).
  (** An effect reported by the solver is true of [s]. *)
  Definition effect_true (s : var -> F p) (ef : effect p) : Prop :=
    match ef with
    | Assign v k => s v = k
    | SetRC v r => rc_allows r (s v)
    | CondAssign v cv r a b => (rc_allows r cv -> s v = a) /\ (~ rc_allows r cv -> s v = b)
    end.

  (** [s] satisfies all algebraic constraints of a system; what the bus interactions send
      under [s]; the values of the derived variables' computations. *)
  Definition sys_solves (s : var -> F p) (c : csys p) : Prop := Forall (solves s) (algs c).
  Definition bus_values (s : var -> F p) (c : csys p) : list (busi (F p)) := map (bmap (eval s)) (buses c).
  Definition cm_value (s : var -> F p) (m : cmethod p) : F p :=
    match m with CConst k => k | CQuot a b => if is_zero (eval s b) then 0%F else (eval s a / eval s b)%F end.
  Definition derived_values (s : var -> F p) (c : csys p) : list (var * F p) :=
    map (fun d => (fst d, cm_value s (snd d))) (derived c).

  (** Field-wise: the values [v] of a bus interaction are allowed by range constraints [b]. *)
  Definition bus_allows (b : busi (rc p)) (v : busi (F p)) : Prop := Forall2 rc_allows (fields b) (fields v).
  (** A bus interaction handler [h] is sound for a set [sem] of legal bus interactions if it
      never excludes a legal one and does not change the number of fields. *)
  Definition handler_sound (sem : busi (F p) -> Prop) (h : busi (rc p) -> busi (rc p)) : Prop :=
    forall b, length (payload (h b)) = length (payload b) /\
      forall v, sem v -> bus_allows b v -> bus_allows (h b) v.
End Spec.
