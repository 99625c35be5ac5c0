(** What the low-degree optimizer needs from the virtual machine. *)
From Coq Require Import Arith NArith Bool List.
From Verif Require Import Field RangeModel ExprModel SystemModel Spec BusModel OvmModel OvmSpec PassSpec.
Import ListNotations.

Section LowSpec.
  Context {p : positive} (stateful : F p -> bool) (legal : F p -> list (F p) -> Prop).
  (** The handler never excludes a lookup that the table answers. *)
  Definition lookup_sound (h : busi (rc p) -> busi (rc p)) : Prop :=
    forall b v, stateful (bus_id v) = false -> acceptable stateful legal v -> bus_allows b v -> bus_allows (h b) v.
  (** At most 256 values. *)
  Definition small (r : rc p) : Prop := exists l, length l <= 256 /\ forall x, rc_allows r x -> In x l.
  (** Range checks: the interactions made for ranges of at most 256 values are lookups that are all accepted exactly if
      the expressions are in range. *)
  Definition checks_ranges (make : list (gexp p * rc p) -> made p) : Prop :=
    forall rs bs s, Forall (fun er => small (snd er)) rs -> make rs = Made bs ->
      Forall (fun b => stateful (eval s (bus_id b)) = false) bs /\
      (Forall (fun b => acceptable stateful legal (bmap (eval s) b)) bs <-> Forall (in_range s) rs).
  (** Only ranges of values in the domain [dom] of all tables can be checked. *)
  Definition checks_domain (dom : F p -> F p -> Prop) (make : list (gexp p * rc p) -> made p) : Prop :=
    forall rs bs, Forall (fun er => small (snd er)) rs -> make rs = Made bs -> Forall (fun er => forall i x, rc_allows (snd er) x -> dom i x) rs.
  (** A handler knows a table if it derives a value from the values of the other fields only if the tuple is in the table, where the
      values of the other fields belong to a domain (which may depend on the bus). *)
  Definition knows_tables (dom : F p -> F p -> Prop) (h : busi (rc p) -> busi (rc p)) : Prop :=
    forall b b' i o r vs v, stateful i = false -> try_to_single_value (bus_id b) = Some i -> handle_checked h b = BOk b' ->
      nth_error (payload b) o = Some r -> try_to_single_value r = None ->
      (exists r', nth_error (payload b') o = Some r' /\ try_to_single_value r' = Some v) ->
      length vs = length (payload b) -> nth_error vs o = Some v ->
      (forall j x, j <> o -> nth_error vs j = Some x -> dom i x /\ exists r', nth_error (payload b) j = Some r' /\ try_to_single_value r' = Some x) ->
      legal i vs.
  (** Constants in lookups belong to the domain, and the other fields are not known to have only one value. *)
  Definition lookups_ok (dom : F p -> F p -> Prop) (g : var -> rc p) (c : csys p) : Prop :=
    forall b i e, In b (buses c) -> try_to_known (bus_id b) = Some i -> stateful i = false -> In e (payload b) ->
      match try_to_known e with Some k => dom i k | None => try_to_single_value (range_constraint g e) = None end.
End LowSpec.
