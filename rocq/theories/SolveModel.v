(** Model of constraint-solver/src/algebraic_constraint/{mod,solve}.rs and effect.rs for
    runtime constants that are plain field elements (the only instance used by the
    autoprecompile pipeline).  Line numbers refer to algebraic_constraint/solve.rs unless a
    file is named. *)
From Coq Require Import NArith ZArith Bool List.
From Verif Require Import Field RangeModel ExprModel.
Import ListNotations.
Local Open Scope F_scope.

Section SolveModel.
  Context {p : positive}.
  Local Notation gexp := (gexp p).
  Local Notation rc := (rc p).

  (** effect.rs 5-20 [Effect].  [Assertion] is omitted: 187-196 creates it only for a
      coefficient that is neither known-zero nor known-nonzero, and a field element is always
      one of the two. *)
  Inductive effect :=
  | Assign (v : var) (k : F p)
  | SetRC (v : var) (r : rc)
  | CondAssign (v : var) (cond_value : F p) (cond : rc) (in_range out_of_range : F p).

  (** 15-19 [ProcessResult], 36-42 [Error]; [Panic] is a failing [assert!] (69, 97, 170). *)
  Inductive res :=
  | Ok (effects : list effect) (complete : bool)
  | Unsat
  | Conflict
  | Panic.

  (** mod.rs 52-54 [assert_eq]; 57-59 [assert_bool]; the constraint is its expression. *)
  Definition assert_eq (a b : gexp) : gexp := gsub a b.
  Definition assert_bool (e : gexp) : gexp := gmul e (gsub e gone).
  (** mod.rs 63-65 [is_redundant]. *)
  Definition is_redundant (e : gexp) : bool := gis_zero e.

  (** 91-105 [try_solve_for]; [Some None] would be the failing [assert!] in line 95. *)
  Definition try_solve_for (v : var) (e : gexp) : option gexp :=
    match coefficient_of_variable v e with
    | None => None
    | Some k =>
      if is_zero k then None else
      let subtracted := gsub e (gscale (from_var v) k) in
      if mentions v subtracted then None else Some (gscale subtracted (- finv k))
    end.
  (** The [assert!] in line 95 fails. *)
  Definition try_solve_for_panics (v : var) (e : gexp) : bool :=
    match coefficient_of_variable v e with Some k => is_zero k | None => false end.

  (** 112-159 [try_solve_for_expr]; the precondition "[expr] is affine" (119) is asserted by
      [try_solve_for_expr_panics]. *)
  Definition normalization_factor (e expr : gexp) : F p :=
    match find (fun v => match coefficient_of_variable v e with
                         | Some k => negb (is_zero k) | None => false end) (vars expr) with
    | Some v => match coefficient_of_variable v expr, coefficient_of_variable v e with
                | Some a, Some k => a / k
                | _, _ => 1
                end
    | None => 1
    end.
  Definition try_solve_for_expr (e expr : gexp) : option gexp :=
    if is_quadratic e then None else
    let result := gsub expr (gscale e (normalization_factor e expr)) in
    if existsb (fun v => mentions v result) (vars expr) then None else Some result.
  Definition try_solve_for_expr_panics (expr : gexp) : bool := is_quadratic expr.

  (** 377-387 [assignment_if_satisfies_range_constraints] wrapped into the [complete] result
      of 175-182. *)
  Definition assign_checked (g : var -> rc) (v : var) (k : F p) : res :=
    if is_disjoint (g v) (from_value k) then Conflict else Ok [Assign v k] true.

  (** 210-226 [transfer_constraints]. *)
  Definition transfer_constraints (g : var -> rc) (e : gexp) : list effect :=
    flat_map (fun vk => match try_solve_for (fst vk) e with
                        | None => []
                        | Some r => let c := range_constraint g r in
                                    if is_unconstrained c then [] else [SetRC (fst vk) c]
                        end) (lin e).

  (** 161-205 [solve_affine]. *)
  Definition solve_affine (g : var -> rc) (e : gexp) : res :=
    match lin e with
    | [(v, k)] => if is_zero k then Panic else assign_checked g v (cst e / (- k))
    | _ => if existsb (fun vk => try_solve_for_panics (fst vk) e) (lin e) then Panic
           else Ok (transfer_constraints g e) false
    end.

  (** 266-313 [combine_to_conditional_assignment]. *)
  Definition combine_to_conditional (g : var -> rc) (el : list effect) (cl : bool)
             (er : list effect) (cr : bool) : option res :=
    match el, er with
    | [Assign v1 a1], [Assign v2 a2] =>
      if negb (veqb v1 v2) then None else
      let diff := a1 + (- a2) in
      if negb (is_disjoint (combine_sum (g v1) (from_value diff)) (g v1)) then None
      else Some (Ok [CondAssign v1 a1 (g v1) a1 a2] (cl && cr))
    | _, _ => None
    end.

  (** 316-324 [effect_to_range_constraint]; a constant's range constraint is [from_value]. *)
  Definition effect_to_rc (e : effect) : option (var * rc) :=
    match e with
    | SetRC v r => Some (v, r)
    | Assign v k => Some (v, from_value k)
    | CondAssign _ _ _ _ _ => None
    end.

  (** 333-342: [into_grouping_map().reduce(conjunction)].  The code's result is a hash map;
      the model keeps the order of first occurrence. *)
  Fixpoint rc_insert (v : var) (r : rc) (m : list (var * rc)) : list (var * rc) :=
    match m with
    | [] => [(v, r)]
    | (w, r') :: m' => if veqb v w then (w, conjunction r' r) :: m' else (w, r') :: rc_insert v r m'
    end.
  Definition group_rcs (es : list effect) : list (var * rc) :=
    fold_left (fun m e => match effect_to_rc e with Some (v, r) => rc_insert v r m | None => m end) es [].
  Fixpoint rc_lookup (v : var) (m : list (var * rc)) : option rc :=
    match m with
    | [] => None
    | (w, r) :: m' => if veqb v w then Some r else rc_lookup v m'
    end.
  (** 344-358: one alternative. *)
  Definition combine_one (right : list (var * rc)) (vr : var * rc) : list (var * rc * bool) :=
    match rc_lookup (fst vr) right with
    | None => []
    | Some r2 =>
      let r := disjunction (snd vr) r2 in
      [(fst vr, r,
        match try_to_single_value (snd vr), try_to_single_value r2 with
        | Some _, Some _ => (size_estimate r <=? 2)%N
        | _, _ => false
        end)]
    end.
  (** 329-375 [combine_range_constraints]. *)
  Definition combine_range_constraints (el er : list effect) : res :=
    let effects := flat_map (combine_one (group_rcs er)) (group_rcs el) in
    let complete := Nat.eqb (length el) 1 && Nat.eqb (length er) 1
                    && Nat.eqb (length effects) 1 && forallb snd effects in
    Ok (map (fun x => SetRC (fst (fst x)) (snd (fst x))) effects) complete.

  (** 55-80 [solve] and 228-261 [solve_quadratic]. *)
  Fixpoint solve (g : var -> rc) (e : gexp) : res :=
    if negb (allows_value (range_constraint g e) 0) then Unsat else
    match e with
    | GE [] [] c => if is_zero c then Ok [] true else Panic
    | GE [] l c => solve_affine g e
    | GE [(le, ri)] [] c =>
      if is_zero c then
        match solve g le, solve g ri with
        | Panic, _ | _, Panic => Panic
        | Unsat, o | Conflict, o => o
        | o, Unsat | o, Conflict => o
        | Ok el cl, Ok er cr =>
          match combine_to_conditional g el cl er cr with
          | Some r => r
          | None => combine_range_constraints el er
          end
        end
      else Ok [] false
    | GE _ _ _ => Ok [] false
    end.
End SolveModel.
Arguments effect : clear implicits.
Arguments res : clear implicits.
