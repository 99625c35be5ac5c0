(** Model of constraint-solver/src/inliner.rs. *)
From Coq Require Import NArith ZArith Bool List.
From Verif Require Import Field RangeModel ExprModel SolveModel SystemModel.
Import ListNotations.
Local Open Scope nat_scope.

Section InlinerModel.
  Context {p : positive}.
  Local Notation gexp := (gexp p).
  Local Notation ics := (ics p).

  (** inliner.rs 115-128 [find_inlinable_variables]. *)
  Definition find_inlinable (e : gexp) : list (var * gexp) :=
    flat_map (fun vk => match try_solve_for (fst vk) e with Some r => [(fst vk, r)] | None => [] end) (rev (lin e)).

  (** The loop state: system, [to_remove_idx], [substitutions] (in insertion order; the code
      uses a hash set and a B-tree map, see [InlinerFacts.inline_state_ok] for distinctness). *)
  Record inl_state := mkInl { inl_sys : ics; inl_rem : list nat; inl_subs : list (var * gexp) }.

  Variable should_inline : var -> gexp -> ics -> bool.

  (** inliner.rs 37-53: the body for one constraint. *)
  Definition inline_at (st : inl_state) (i : nat) : inl_state :=
    match nth_error (algs (isys (inl_sys st))) i with
    | None => st (* index panic, excluded: the number of constraints does not change *)
    | Some e =>
      match find (fun ve => should_inline (fst ve) (snd ve) (inl_sys st)) (find_inlinable e) with
      | None => st
      | Some (v, r) =>
        mkInl (ics_subst_unknown v r (inl_sys st)) (i :: inl_rem st) (inl_subs st ++ [(v, r)])
      end
    end.
  (** inliner.rs 36-53: one round over all constraints, last first. *)
  Definition inline_round (n : nat) (st : inl_state) : inl_state := fold_left inline_at (rev (seq 0 n)) st.
  (** inliner.rs 34-58: rounds until nothing new is inlined; [None] when the fuel runs out. *)
  Fixpoint inline_loop (fuel n : nat) (st : inl_state) : option inl_state :=
    match fuel with
    | O => None
    | S fuel' =>
      let st' := inline_round n st in
      if Nat.eqb (length (inl_subs st')) (length (inl_subs st)) then Some st' else inline_loop fuel' n st'
    end.
  (** inliner.rs 60-66. *)
  Definition remove_inlined (st : inl_state) : ics :=
    retain_algs_idx (fun i => negb (existsb (Nat.eqb i) (inl_rem st))) (inl_sys st).
  (** inliner.rs 22-73 [replace_constrained_witness_columns]. *)
  Definition inline (fuel : nat) (c : ics) : option (ics * list (var * gexp)) :=
    match inline_loop fuel (length (algs (isys c))) (mkInl c [] []) with
    | None => None
    | Some st => Some (remove_inlined st, inl_subs st)
    end.
  (** inliner.rs 68-71: the sanity check. *)
  Definition inline_assert (r : ics * list (var * gexp)) : bool :=
    forallb (fun v => negb (existsb (fun ve => veqb v (fst ve)) (snd r))) (sys_vars (isys (fst r))).
End InlinerModel.

Section DegreeBound.
  Context {p : positive}.
  Local Notation gexp := (gexp p).
  Local Notation ics := (ics p).

  (** inliner.rs 132-148 [expression_degree_with_virtual_substitution]. *)
  Fixpoint virtual_degree (v : var) (d : nat) (e : gexp) : nat :=
    match e with
    | GE q l _ =>
      fold_right (fun ab acc => Nat.max (virtual_degree v d (fst ab) + virtual_degree v d (snd ab)) acc)
        (fold_right (fun wk acc => Nat.max (if veqb (fst wk) v then d else 1) acc) 0 l) q
    end.
  (** inliner.rs 13-17 [DegreeBound]. *)
  Record degree_bound := mkDB { db_identities : nat; db_bus : nat }.
  (** inliner.rs 87-112 [substitution_would_not_violate_degree_bound]; 76-82
      [inline_everything_below_degree_bound] is this function. *)
  Definition below_degree_bound (b : degree_bound) (v : var) (r : gexp) (c : ics) : bool :=
    forallb (fun x => match x with
                      | RAlg e => Nat.leb (virtual_degree v (degree r) e) (db_identities b)
                      | RBus i => forallb (fun e => Nat.leb (virtual_degree v (degree r) e) (db_bus b)) (fields i)
                      end) (referencing c [v]).
End DegreeBound.
