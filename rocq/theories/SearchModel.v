(** Model of constraint-solver/src/utils.rs and solver/exhaustive_search.rs.  [BTreeSet<V>] is
    a strictly increasing list, [BTreeMap<V, _>] an association list with increasing keys. *)
From Coq Require Import NArith ZArith Bool List.
From Verif Require Import Field RangeModel ExprModel SolveModel SystemModel BusModel.
Import ListNotations.
Local Open Scope F_scope.

Section Maps.
  Context {A : Type}.
  (** [BTreeMap::insert]: replaces the value of an existing key. *)
  Fixpoint vm_insert (v : var) (a : A) (m : list (var * A)) : list (var * A) :=
    match m with
    | [] => [(v, a)]
    | (w, b) :: m' => if veqb v w then (v, a) :: m' else if vltb v w then (v, a) :: m else (w, b) :: vm_insert v a m'
    end.
  (** [BTreeMap::get]. *)
  Fixpoint vm_get (v : var) (m : list (var * A)) : option A :=
    match m with [] => None | (w, a) :: m' => if veqb v w then Some a else vm_get v m' end.
  (** [collect::<BTreeMap<_, _>>]. *)
  Definition vm_collect (l : list (var * A)) : list (var * A) := fold_left (fun m va => vm_insert (fst va) (snd va) m) l [].
End Maps.
(** [collect::<BTreeSet<_>>]. *)
Definition vset (l : list var) : list var := map fst (vm_collect (map (fun v => (v, tt)) l)).
Fixpoint vlist_eqb (a b : list var) : bool :=
  match a, b with
  | [], [] => true
  | x :: a', y :: b' => veqb x y && vlist_eqb a' b'
  | _, _ => false
  end.
(** itertools [unique]. *)
Fixpoint vsets_unique (seen : list (list var)) (l : list (list var)) : list (list var) :=
  match l with
  | [] => []
  | x :: l' => if existsb (vlist_eqb x) seen then vsets_unique seen l' else x :: vsets_unique (x :: seen) l'
  end.

Section SearchModel.
  Context {p : positive}.
  Local Notation gexp := (gexp p).
  Local Notation rc := (rc p).
  Variable h : busi rc -> busi rc.

  (** utils.rs 12-22 [has_few_possible_assignments]; [try_into_u64] and [checked_mul] fail
      from 2^64 on. *)
  Fixpoint count_assignments (g : var -> rc) (vs : list var) (acc : N) : option N :=
    match vs with
    | [] => Some acc
    | v :: vs' =>
      let n := size_estimate (g v) in
      if (n <? 2 ^ 64)%N && (acc * n <? 2 ^ 64)%N then count_assignments g vs' (acc * n)%N else None
    end.
  Definition has_few_possible_assignments (g : var -> rc) (vs : list var) (threshold : N) : bool :=
    match count_assignments g vs 1 with Some n => (n <=? threshold)%N | None => false end.
  (** utils.rs 30-45 [get_all_possible_assignments]; [None] is the panic of [allowed_values]. *)
  Fixpoint cartesian (g : var -> rc) (vs : list var) : option (list (list (var * F p))) :=
    match vs with
    | [] => Some [[]]
    | v :: vs' =>
      match allowed_values (g v), cartesian g vs' with
      | Some l, Some r => Some (flat_map (fun k => map (cons (v, k)) r) l)
      | _, _ => None
      end
    end.
  Definition get_all_possible_assignments (g : var -> rc) (vs : list var) : option (list (list (var * F p))) :=
    match cartesian g vs with Some l => Some (map vm_collect l) | None => None end.
  (** utils.rs 49-74 [possible_concrete_values]; the inner [None] is too many assignments, the
      outer one a panic ([allowed_values] or the [unwrap] in 67). *)
  Fixpoint known_values (e : gexp) (l : list (list (var * F p))) : option (list (F p)) :=
    match l with
    | [] => Some []
    | a :: l' =>
      match try_to_known (subst_known_multi a e), known_values e l' with
      | Some k, Some ks => Some (k :: ks)
      | _, _ => None
      end
    end.
  Definition possible_concrete_values (g : var -> rc) (e : gexp) (max : N) : option (option (list (F p))) :=
    if has_few_possible_assignments g (vars e) max then
      match get_all_possible_assignments g (vars e) with
      | None => None
      | Some l => match known_values e l with Some ks => Some (Some ks) | None => None end
      end
    else Some None.

  (** ** exhaustive_search.rs *)
  (** 20-23. *)
  Definition MAX_SEARCH_WIDTH : N := 1024.
  Definition MAX_VAR_RANGE_WIDTH : N := 5.
  (** 120-140 [is_candidate_for_exhaustive_search], [has_small_max_range_constraint_size]. *)
  Definition is_candidate (g : var -> rc) (vs : list var) : bool :=
    has_few_possible_assignments g vs MAX_SEARCH_WIDTH &&
    forallb (fun v => (size_estimate (g v) <? 2 ^ 64)%N && (size_estimate (g v) <=? MAX_VAR_RANGE_WIDTH)%N) vs.
  (** 106-110: stable sort by size. *)
  Fixpoint size_insert (g : var -> rc) (v : var) (l : list var) : list var :=
    match l with
    | [] => [v]
    | w :: l' => if (size_estimate (g v) <? size_estimate (g w))%N then v :: l else w :: size_insert g v l'
    end.
  Definition size_sort (g : var -> rc) (l : list var) : list var := fold_left (fun acc v => size_insert g v acc) l [].
  Definition without_largest (g : var -> rc) (vs : list var) : list var :=
    vset (firstn (length vs - 1) (size_sort g vs)).
  (** 77-118 [get_brute_force_candidates]. *)
  Definition get_brute_force_candidates (c : csys p) (g : var -> rc) : list (list var) :=
    vsets_unique []
      (filter (fun vs => match vs with [] => false | _ => true end)
        (flat_map (fun vs => if is_candidate g vs then [vs]
                             else let vs' := without_largest g vs in if is_candidate g vs' then [vs'] else [])
          (vsets_unique [] (map (fun e => vset (vars e)) (algs c ++ flat_map fields (buses c)))))).

  (** 143 the error, and panics of the called functions. *)
  Inductive dres (A : Type) := DOk (a : A) | DErr | DPanic.
  Arguments DOk {A}. Arguments DErr {A}. Arguments DPanic {A}.
  (** 157-184: the effects of each constraint that references an assigned variable. *)
  Definition ref_effects (g : var -> rc) (a : list (var * F p)) (r : cref p) : dres (list (effect p)) :=
    match r with
    | RAlg e =>
      match solve g (subst_known_multi a e) with
      | Ok es _ => DOk es
      | Unsat | Conflict => DErr
      | Panic => DPanic
      end
    | RBus b =>
      match bus_solve h g (bmap (subst_known_multi a) b) with
      | BOk es => DOk es
      | BViolates => DErr
      | BPanic => DPanic
      end
    end.
  Fixpoint collect_effects (g : var -> rc) (a : list (var * F p)) (rs : list (cref p)) : dres (list (effect p)) :=
    match rs with
    | [] => DOk []
    | r :: rs' =>
      match ref_effects g a r with
      | DOk es => match collect_effects g a rs' with DOk es' => DOk (es ++ es') | DErr => DErr | DPanic => DPanic end
      | DErr => DErr
      | DPanic => DPanic
      end
    end.
  (** 189-203. *)
  Definition effect_rc_pair (ef : effect p) : list (var * rc) :=
    match ef with
    | Assign v k => [(v, from_value k)]
    | SetRC v r => [(v, r)]
    | CondAssign _ _ _ _ _ => []
    end.
  (** 204-218. *)
  Fixpoint intersect_all (l : list (var * rc)) (m : list (var * rc)) : dres (list (var * rc)) :=
    match l with
    | [] => DOk m
    | (v, r) :: l' =>
      match vm_get v m with
      | None => intersect_all l' (vm_insert v r m)
      | Some existing =>
        if is_disjoint existing r then DErr else intersect_all l' (vm_insert v (conjunction existing r) m)
      end
    end.
  (** 151-219 [derive_new_range_constraints]. *)
  Definition derive_new_rcs (c : ics p) (g : var -> rc) (a : list (var * F p)) : dres (list (var * rc)) :=
    match collect_effects g a (referencing c (map fst a)) with
    | DOk es => intersect_all (flat_map effect_rc_pair es ++ map (fun vk => (fst vk, from_value (snd vk))) a) []
    | DErr => DErr
    | DPanic => DPanic
    end.
  (** 54-71: the union over the remaining assignments. *)
  Fixpoint search_fold (c : ics p) (g : var -> rc) (l : list (list (var * F p))) (acc : list (var * rc)) : dres (list (var * rc)) :=
    match l with
    | [] => DOk acc
    | a :: l' =>
      match derive_new_rcs c g a with
      | DErr => search_fold c g l' acc
      | DPanic => DPanic
      | DOk m =>
        let acc1 := map (fun vr => (fst vr, disjunction (snd vr) (match vm_get (fst vr) m with Some r => r | None => unconstrained end))) acc in
        let acc2 := filter (fun vr => negb (rc_eqb (g (fst vr)) (snd vr))) acc1 in
        match acc2 with [] => DOk [] | _ => search_fold c g l' acc2 end
      end
    end.
  (** 49-52: the first assignment without contradiction. *)
  Fixpoint search_first (c : ics p) (g : var -> rc) (l : list (list (var * F p))) : dres (list (var * rc)) :=
    match l with
    | [] => DErr
    | a :: l' =>
      match derive_new_rcs c g a with
      | DErr => search_first c g l'
      | DPanic => DPanic
      | DOk m => search_fold c g l' m
      end
    end.
  (** 31-72 [exhaustive_search_on_variable_set]. *)
  Definition exhaustive_search_on (c : ics p) (g : var -> rc) (vs : list var) : dres (list (var * rc)) :=
    match get_all_possible_assignments g vs with
    | None => DPanic
    | Some l => search_first c g l
    end.
End SearchModel.
Arguments dres : clear implicits.
Arguments DOk {A}. Arguments DErr {A}. Arguments DPanic {A}.
