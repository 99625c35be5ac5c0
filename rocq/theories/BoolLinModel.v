(** Models of constraint-solver/src/solver/boolean_extractor.rs and linearizer.rs.  The variable
    dispenser (base.rs 67-91) is a counter: the next boolean variable is [Boolv nb], the next
    linearized variable [Lin nl].  Hash maps are association lists; a lookup returns the first
    entry, insertion of an absent key adds an entry.  When [apply_assignments] makes two keys
    equal, the hash map keeps one of the entries, the list keeps both and uses the first. *)
From Coq Require Import NArith ZArith Bool List.
From Verif Require Import Field RangeModel ExprModel SolveModel SystemModel.
Import ListNotations.
Local Open Scope F_scope.

Section BoolLinModel.
  Context {p : positive}.
  Local Notation gexp := (gexp p).
  Local Notation P := (N.pos p).

  (** indexed_constraint_system.rs 31-53 [apply_substitutions_to_expressions]. *)
  Definition apply_substs_to_exprs (es : list gexp) (ss : list (var * gexp)) : list gexp :=
    algs (isys (ics_apply_substs ss (ics_from (mkCS es [] [])))).

  (** ** boolean_extractor.rs *)
  (** 14-25 [BooleanExtractor]. *)
  Definition bool_map := list (gexp * option var).
  Definition bool_contains (k : gexp) (m : bool_map) : bool := existsb (fun kv => gexp_eqb k (fst kv)) m.

  (** 148-152 [try_to_abs_u64]. *)
  Definition try_to_abs_u64 (x : F p) : option N :=
    if (2 ^ 64 <=? P)%N then None else Some (N.min (val x) (P - val x)).
  (** The order of [Option<u64>] (None first). *)
  Definition opt_leb (a b : option N) : bool :=
    match a, b with None, _ => true | Some _, None => false | Some x, Some y => (x <=? y)%N end.

  (** 73-83 the factor. *)
  Definition bool_factor (le ri : gexp) : F p :=
    match lin le, lin ri with
    | (lv, lc) :: _, (rv, rcf) :: _ => if veqb lv rv then rcf / lc else 1
    | _, _ => 1
    end.
  (** 49-146 [try_extract_boolean]: the constraint and the new variable, if any, with the
      updated map and counter. *)
  Definition try_extract_boolean (m : bool_map) (nb : N) (e : gexp)
    : option (gexp * option var) * (bool_map * N) :=
    match try_as_single_product e with
    | None => (None, (m, nb))
    | Some (le, ri) =>
      match try_to_known (gsub (gscale le (bool_factor le ri)) ri) with
      | None => (None, (m, nb))
      | Some offset =>
        if is_zero offset then
          if bool_contains ri m then (None, (m, nb))
          else (Some (ri, None), ((ri, None) :: m, nb))
        else
          let alt := gsub (gneg ri) (from_number offset) in
          let expr := if opt_leb (try_to_abs_u64 (cst ri)) (try_to_abs_u64 (cst alt)) then ri else alt in
          let key := gscale (gneg expr) (1 / offset) in
          if bool_contains key m then (None, (m, nb)) else
          match try_to_simple_unknown key with
          | Some _ => (None, (m, nb))
          | None =>
            let z := Boolv nb in
            (Some (gadd expr (gscale (from_var z) offset), Some z), ((key, Some z) :: m, nb + 1)%N)
          end
      end
    end.
  (** 154-165 [apply_assignments]. *)
  Definition bool_apply (ss : list (var * gexp)) (m : bool_map) : bool_map :=
    match ss with [] => m | _ => combine (apply_substs_to_exprs (map fst m) ss) (map snd m) end.

  (** ** linearizer.rs *)
  (** 17-21 [Linearizer]. *)
  Definition lin_map := list (gexp * gexp).
  Fixpoint lin_lookup (e : gexp) (m : lin_map) : option gexp :=
    match m with [] => None | (k, x) :: m' => if gexp_eqb e k then Some x else lin_lookup e m' end.
  (** 127-137 [try_substitute_by_existing_var]. *)
  Definition try_subst_existing (m : lin_map) (e : gexp) : option gexp :=
    match try_to_known e, try_to_simple_unknown e with
    | None, None => lin_lookup e m
    | _, _ => Some e
    end.
  (** The state threaded through: map, dispenser, collected constraints. *)
  Record lin_state := mkLS { lmap : lin_map; lnext : N; lconstrs : list gexp }.
  (** 107-125 [substitute_by_var]. *)
  Definition substitute_by_var (e : gexp) (st : lin_state) : gexp * lin_state :=
    match try_subst_existing (lmap st) e with
    | Some x => (x, st)
    | None =>
      let v := from_var (Lin (lnext st)) in
      (v, mkLS ((e, v) :: lmap st) (lnext st + 1)%N (lconstrs st ++ [gsub e v]))
    end.
  (** 28-60 [linearize_expression] and 90-100 [linearize_and_substitute_by_var]. *)
  Definition lin_rest (l : list (var * F p)) (c : F p) : list gexp :=
    map (fun vc => gscale (from_var (fst vc)) (snd vc)) l ++ (if is_zero c then [] else [from_number c]).
  Fixpoint linearize (e : gexp) (st : lin_state) {struct e} : gexp * lin_state :=
    match e with
    | GE [] _ _ => (e, st)
    | GE q l c =>
      let '(qs, st') :=
        (fix go (q : list (gexp * gexp)) (st : lin_state) : list gexp * lin_state :=
           match q with
           | [] => ([], st)
           | (a, b) :: t =>
             let '(a1, st1) := linearize a st in
             let '(a2, st2) := substitute_by_var a1 st1 in
             let '(b1, st3) := linearize b st2 in
             let '(b2, st4) := substitute_by_var b1 st3 in
             let '(x, st5) := substitute_by_var (gmul a2 b2) st4 in
             let '(xs, st6) := go t st5 in
             (x :: xs, st6)
           end) q st in
      (gsum (qs ++ lin_rest l c), st')
    end.
  (** 63-88 [try_linearize_existing]. *)
  Fixpoint try_linearize_existing (m : lin_map) (e : gexp) {struct e} : option gexp :=
    match e with
    | GE [] _ _ => Some e
    | GE q l c =>
      let qs :=
        (fix go (q : list (gexp * gexp)) : option (list gexp) :=
           match q with
           | [] => Some []
           | (a, b) :: t =>
             match try_linearize_existing m a with
             | None => None
             | Some a1 =>
               match try_subst_existing m a1 with
               | None => None
               | Some a2 =>
                 match try_linearize_existing m b with
                 | None => None
                 | Some b1 =>
                   match try_subst_existing m b1 with
                   | None => None
                   | Some b2 =>
                     match try_subst_existing m (gmul a2 b2), go t with
                     | Some x, Some xs => Some (x :: xs)
                     | _, _ => None
                     end
                   end
                 end
               end
             end
           end) q in
      match qs with Some qs => Some (gsum (qs ++ lin_rest l c)) | None => None end
    end.
  Definition option_list {A} (o : option A) : list A := match o with Some x => [x] | None => [] end.
  (** 144-156 [internalized_versions_of_expression]. *)
  Definition internalized_versions (m : lin_map) (e : gexp) : list gexp :=
    e :: option_list (try_subst_existing m e) ++ option_list (try_linearize_existing m e).
  (** 161-170 [apply_assignments]. *)
  Definition lin_apply (ss : list (var * gexp)) (m : lin_map) : lin_map :=
    match ss with
    | [] => m
    | _ => combine (apply_substs_to_exprs (map fst m) ss) (apply_substs_to_exprs (map snd m) ss)
    end.
End BoolLinModel.
Arguments lin_state : clear implicits.
Arguments bool_map : clear implicits.
Arguments lin_map : clear implicits.
