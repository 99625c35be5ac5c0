(** Model of solving a bus interaction: constraint-solver/src/constraint_system.rs 252-301 and
    bus_interaction_handler.rs.  The bus interaction handler (a trait object) is a parameter. *)
From Coq Require Import NArith ZArith Bool List.
From Verif Require Import Field RangeModel ExprModel SolveModel SystemModel.
Import ListNotations.
Local Open Scope F_scope.

Section BusModel.
  Context {p : positive}.
  Local Notation gexp := (gexp p).
  Local Notation rc := (rc p).
  Variable handler : busi rc -> busi rc.

  (** constraint_system.rs 253-262 [to_range_constraints]. *)
  Definition to_range_constraints (g : var -> rc) (b : busi gexp) : busi rc := bmap (range_constraint g) b.

  (** bus_interaction_handler.rs 29-47 [handle_bus_interaction_checked]; [BPanic] is the panic
      of [zip_eq] on lists of different lengths. *)
  Inductive bres (A : Type) := BOk (a : A) | BViolates | BPanic.
  Arguments BOk {A}. Arguments BViolates {A}. Arguments BPanic {A}.
  Definition handle_checked (b : busi rc) : bres (busi rc) :=
    let n := handler b in
    if existsb (fun ab => is_disjoint (fst ab) (snd ab)) (combine (fields b) (fields n)) then BViolates
    else if Nat.eqb (length (fields b)) (length (fields n)) then BOk n else BPanic.

  (** constraint_system.rs 283-297: the effects obtained from one field. *)
  Definition field_effects (g : var -> rc) (e : gexp) (r : rc) : list (effect p) :=
    flat_map (fun v =>
      match coefficient_of_variable v e with
      | None => [] (* unwrap panics, excluded for affine expressions *)
      | Some k =>
        match try_solve_for v e with
        | None => []
        | Some sol =>
          let r' := combine_sum (multiple r (1 / k)) (range_constraint g sol) in
          if is_unconstrained r' then [] else [SetRC v r']
        end
      end) (vars e).
  (** constraint_system.rs 270-300 [solve]. *)
  Definition bus_solve (g : var -> rc) (b : busi gexp) : bres (list (effect p)) :=
    match handle_checked (to_range_constraints g b) with
    | BOk n => BOk (flat_map (fun er => if is_affine (fst er) then field_effects g (fst er) (snd er) else [])
                      (combine (fields b) (fields n)))
    | BViolates => BViolates
    | BPanic => BPanic
    end.
End BusModel.
Arguments bres : clear implicits.
Arguments BOk {A}. Arguments BViolates {A}. Arguments BPanic {A}.
(** bus_interaction_handler.rs 56-63 [DefaultBusInteractionHandler]. *)
Definition default_handler {p} (b : busi (rc p)) : busi (rc p) := b.
