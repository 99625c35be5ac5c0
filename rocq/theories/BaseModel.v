(** Model of the solver: constraint-solver/src/solver/base.rs (line numbers refer to it unless a
    file is named), solver/var_transformation.rs and solver.rs.  Variables are already of the
    transformed type [var]; the user's variables are [Orig].  Loops take fuel; running out of
    it is the separate outcome [OutOfFuel]. *)
From Coq Require Import NArith ZArith Bool List.
From Verif Require Import Field RangeModel ExprModel SolveModel SystemModel BusModel
  SplitterModel BoolLinModel SearchModel.
Import ListNotations.
Local Open Scope F_scope.

(** Outcome of a solver operation: a result, an [Err(_)], a panic. *)
Inductive out (A : Type) := Done (a : A) | Contradiction | Panicked | OutOfFuel.
Arguments Done {A}. Arguments Contradiction {A}. Arguments Panicked {A}. Arguments OutOfFuel {A}.

Section BaseModel.
  Context {p : positive}.
  Local Notation gexp := (gexp p).
  Local Notation rc := (rc p).
  Variable h : busi rc -> busi rc.

  (** 35-56 [BaseSolver] with the dispenser 68-91 as two counters. *)
  Record bsolver := mkBase {
    bcs : qcs p;
    brc : list (var * rc);
    bpend : list (var * gexp);
    bcache : list (gexp * list gexp);
    bnb : N; bnl : N;
    bbm : bool_map p;
    blm : lin_map p }.
  (** 93-106 [new]. *)
  Definition base_new : bsolver := mkBase (qcs_from (mkCS [] [] [])) [] [] [] 0 0 [] [].
  Definition set_cs c st := mkBase c (brc st) (bpend st) (bcache st) (bnb st) (bnl st) (bbm st) (blm st).
  Definition set_rcs r st := mkBase (bcs st) r (bpend st) (bcache st) (bnb st) (bnl st) (bbm st) (blm st).
  Definition set_pend a st := mkBase (bcs st) (brc st) a (bcache st) (bnb st) (bnl st) (bbm st) (blm st).
  Definition set_cache c st := mkBase (bcs st) (brc st) (bpend st) c (bnb st) (bnl st) (bbm st) (blm st).
  Definition set_bool m n st := mkBase (bcs st) (brc st) (bpend st) (bcache st) n (bnl st) m (blm st).
  Definition set_lin m n st := mkBase (bcs st) (brc st) (bpend st) (bcache st) (bnb st) n (bbm st) m.
  Definition clear_cache st := set_cache [] st.

  (** 609-615 [RangeConstraints::get]. *)
  Definition rcget (st : bsolver) (v : var) : rc := match vm_get v (brc st) with Some r => r | None => unconstrained end.
  (** 189-192 [add_range_constraint] relative to the recursive call. *)
  Definition upd_fun := var -> rc -> bsolver -> option (bool * bsolver).
  Definition add_rc_with (rec : upd_fun) v r st : option bsolver :=
    match rec v r (clear_cache st) with Some (_, st') => Some st' | None => None end.
  (** 269-281 [try_extract_boolean]. *)
  Definition extract_with (rec : upd_fun) (e : gexp) (st : bsolver) : option (list gexp * bsolver) :=
    let '(r, (m, nb)) := try_extract_boolean (bbm st) (bnb st) e in
    let st1 := set_bool m nb st in
    match r with
    | None => Some ([], st1)
    | Some (c, None) => Some ([c], st1)
    | Some (c, Some z) => match add_rc_with rec z (from_mask 1) st1 with Some st2 => Some ([c], st2) | None => None end
    end.
  (** 153-163: extraction of all constraints, each followed by the original one. *)
  Fixpoint extract_all_with (rec : upd_fun) (es : list gexp) (st : bsolver) : option (list gexp * bsolver) :=
    match es with
    | [] => Some ([], st)
    | e :: es' =>
      match extract_with rec e st with
      | None => None
      | Some (l, st1) =>
        match extract_all_with rec es' st1 with
        | None => None
        | Some (l', st2) => Some (l ++ e :: l', st2)
        end
      end
    end.
  (** 287-301 [linearize_constraint]. *)
  Definition linearize_constraint (e : gexp) (st : bsolver) : list gexp * bsolver :=
    if is_affine e then ([e], st)
    else let '(x, ls) := linearize e (mkLS (blm st) (bnl st) []) in
         (e :: lconstrs ls ++ [x], set_lin (lmap ls) (lnext ls) st).
  Fixpoint linearize_all (es : list gexp) (st : bsolver) : list gexp * bsolver :=
    match es with
    | [] => ([], st)
    | e :: es' => let '(l, st1) := linearize_constraint e st in
                  let '(l', st2) := linearize_all es' st1 in (l ++ l', st2)
    end.
  (** 147-169 [add_algebraic_constraints]. *)
  Definition not_redundant (e : gexp) : bool := negb (is_redundant e).
  Definition add_algs_with (rec : upd_fun) (es : list gexp) (st : bsolver) : option bsolver :=
    match extract_all_with rec (filter not_redundant es) (clear_cache st) with
    | None => None
    | Some (es1, st1) =>
      let '(es2, st2) := linearize_all es1 st1 in
      Some (set_cs (qcs_add_algs (filter not_redundant es2) (bcs st2)) st2)
    end.

  (** 510-540 [apply_assignment]: extraction from the constraints that reference the variable. *)
  Fixpoint extract_refs (rs : list (cref p)) (m : bool_map p) (nb : N) : list gexp * list var * (bool_map p * N) :=
    match rs with
    | [] => ([], [], (m, nb))
    | RBus _ :: rs' => extract_refs rs' m nb
    | RAlg e :: rs' =>
      let '(r, (m1, nb1)) := try_extract_boolean m nb e in
      let '(cs, zs, st) := extract_refs rs' m1 nb1 in
      match r with
      | None => (cs, zs, st)
      | Some (c, zo) => (c :: cs, option_list zo ++ zs, st)
      end
    end.
  Fixpoint add_bools_with (rec : upd_fun) (zs : list var) (st : bsolver) : option bsolver :=
    match zs with
    | [] => Some st
    | z :: zs' => match add_rc_with rec z (from_mask 1) st with Some st1 => add_bools_with rec zs' st1 | None => None end
    end.
  Definition apply_assignment_with (rec : upd_fun) (v : var) (e : gexp) (st : bsolver) : option bsolver :=
    let st1 := set_cs (qcs_subst_unknown v e (bcs st)) st in
    let '(cs, zs, (m, nb)) := extract_refs (referencing (qsys (bcs st1)) [v]) (bbm st1) (bnb st1) in
    let st2 := set_bool m nb st1 in
    match add_bools_with rec zs st2 with
    | None => None
    | Some st3 =>
      match add_algs_with rec cs st3 with
      | None => None
      | Some st4 => Some (set_pend (bpend st4 ++ [(v, e)]) st4)
      end
    end.
  (** 490-508 [apply_range_constraint_update] and 620-633 [update].  The code recurses through
      [apply_assignment]; [None] is a recursion deeper than [fuel], see
      [BaseFacts.update_total] for why two levels are enough. *)
  Fixpoint apply_rc_update (fuel : nat) (v : var) (r : rc) (st : bsolver) : option (bool * bsolver) :=
    match fuel with
    | O => None
    | S f =>
      let existing := rcget st v in
      let new := conjunction existing r in
      if rc_eqb new existing then Some (false, st)
      else
        let st1 := set_rcs (vm_insert v new (brc st)) st in
        match try_to_single_value new with
        | Some k => match apply_assignment_with (apply_rc_update f) v (from_number k) st1 with
                    | Some st2 => Some (true, st2) | None => None end
        | None => Some (true, set_cs (variable_updated v (bcs st1)) st1)
        end
    end.
  Definition DEPTH : nat := 2.
  Definition rc_update := apply_rc_update DEPTH.
  Definition apply_assignment := apply_assignment_with rc_update.
  Definition add_algs_base := add_algs_with rc_update.

  (** 308-323 [linearize_bus_interaction]. *)
  Fixpoint sbv_all (es : list gexp) (ls : lin_state p) : list gexp * lin_state p :=
    match es with
    | [] => ([], ls)
    | e :: es' => let '(x, ls1) := substitute_by_var e ls in
                  let '(xs, ls2) := sbv_all es' ls1 in (x :: xs, ls2)
    end.
  Definition linearize_bus (b : busi gexp) (ls : lin_state p) : busi gexp * lin_state p :=
    let '(i, ls1) := substitute_by_var (bus_id b) ls in
    let '(m, ls2) := substitute_by_var (mult b) ls1 in
    let '(xs, ls3) := sbv_all (payload b) ls2 in (mkBus i m xs, ls3).
  Fixpoint linearize_buses (bs : list (busi gexp)) (ls : lin_state p) : list (busi gexp) * lin_state p :=
    match bs with
    | [] => ([], ls)
    | b :: bs' => let '(b1, ls1) := linearize_bus b ls in
                  let '(bs1, ls2) := linearize_buses bs' ls1 in (b1 :: bs1, ls2)
    end.
  (** 171-187 [add_bus_interactions]. *)
  Definition add_buses_base (bs : list (busi gexp)) (st : bsolver) : option bsolver :=
    let st0 := clear_cache st in
    let '(bs1, ls) := linearize_buses bs (mkLS (blm st0) (bnl st0) []) in
    let st1 := set_lin (lmap ls) (lnext ls) st0 in
    match add_algs_base (lconstrs ls) st1 with
    | None => None
    | Some st2 => Some (set_cs (qcs_add_buses bs1 (bcs st2)) st2)
    end.
  (** 189-192 [add_range_constraint]. *)
  Definition add_rc_base (v : var) (r : rc) (st : bsolver) : option bsolver := add_rc_with rc_update v r st.
  (** 194-222 [retain_variables]; [None] is the failing [assert!] in 196. *)
  Definition keeps (vs : list var) (nl : N) (v : var) : bool :=
    existsb (veqb v) vs || match v with Lin n => (n <? nl)%N | _ => false end.
  Definition retain_base (vs : list var) (st : bsolver) : option bsolver :=
    match bpend st with
    | _ :: _ => None
    | [] =>
      let c1 := qcs_retain_algs (fun e => existsb (keeps vs (bnl st)) (vars e)) (bcs st) in
      let c2 := qcs_retain_buses (fun b => existsb (keeps vs (bnl st)) (bus_vars b)) c1 in
      let remaining := sys_vars (isys (qsys c2)) in
      Some (set_rcs (filter (fun vr => existsb (veqb (fst vr)) remaining) (brc st)) (set_cs c2 (clear_cache st)))
    end.
  (** 224-233 [range_constraint_for_expression]; 235-240 [try_to_equivalent_constant]. *)
  Definition range_query (st : bsolver) (e : gexp) : rc :=
    fold_left (fun acc x => conjunction acc (range_constraint (rcget st) x)) (internalized_versions (blm st) e) unconstrained.
  Definition const_query (st : bsolver) (e : gexp) : option (F p) :=
    match flat_map (fun x => option_list (try_to_known x)) (internalized_versions (blm st) e) with k :: _ => Some k | [] => None end.
  (** 442-473 [equivalent_expressions]. *)
  Fixpoint cache_lookup (e : gexp) (c : list (gexp * list gexp)) : option (list gexp) :=
    match c with [] => None | (k, l) :: c' => if gexp_eqb e k then Some l else cache_lookup e c' end.
  Definition equivalent_expressions (e : gexp) (st : bsolver) : list gexp * bsolver :=
    if is_quadratic e then ([e], st) else
    match cache_lookup e (bcache st) with
    | Some l => (l, st)
    | None =>
      let exprs := flat_map (fun r => match r with RAlg c => option_list (try_solve_for_expr c e) | RBus _ => [] end)
                     (referencing (qsys (bcs st)) (vars e)) in
      let exprs := match exprs with [] => [e] | _ => exprs end in
      (exprs, set_cache ((e, exprs) :: bcache st) st)
    end.
  (** 242-259 [are_expressions_known_to_be_different]; [None] is a panic.  The code stops at
      the first pair that succeeds; a panic in a later pair is impossible, see
      [SearchFacts.possible_values_ok]. *)
  Definition pair_different (st : bsolver) (ab : gexp * gexp) : option bool :=
    match possible_concrete_values (rcget st) (gsub (fst ab) (snd ab)) 20 with
    | None => None
    | Some None => Some false
    | Some (Some ks) => Some (forallb (fun k => negb (is_zero k)) ks)
    end.
  Fixpoint any_different (st : bsolver) (l : list (gexp * gexp)) : option bool :=
    match l with
    | [] => Some false
    | ab :: l' => match pair_different st ab with
                  | None => None | Some true => Some true | Some false => any_different st l' end
    end.
  Definition different_query (a b : gexp) (st : bsolver) : option bool * bsolver :=
    match try_to_known a, try_to_known b with
    | Some x, Some y => (Some (negb (feqb x y)), st)
    | _, _ =>
      let '(ea, st1) := equivalent_expressions a st in
      let '(eb, st2) := equivalent_expressions b st1 in
      (any_different st2 (list_prod ea eb), st2)
    end.

  (** 579-600 [try_to_simple_equivalence]. *)
  Definition try_to_simple_equivalence (e : gexp) : option (var * gexp) :=
    if is_affine e && is_zero (cst e) then
      match lin e with
      | [(v1, c1); (v2, c2)] => if is_one (- c2 / c1) then Some (v2, from_var v1) else None
      | _ => None
      end
    else None.
  (** 561-571 [contains_algebraic_constraint]; 544-558 [add_algebraic_constraints_if_new]. *)
  Definition contains_alg (st : bsolver) (e : gexp) : bool :=
    existsb (fun r => match r with RAlg c => gexp_eqb c e | RBus _ => false end) (referencing (qsys (bcs st)) (vars e)).
  Definition add_algs_if_new (es : list gexp) (st : bsolver) : option (bool * bsolver) :=
    match filter (fun e => negb (contains_alg st e)) es with
    | [] => Some (false, st)
    | l => match add_algs_base l st with Some st' => Some (true, st') | None => None end
    end.
  (** 475-488 [apply_effect]. *)
  Definition lift {A} (o : option A) : out A := match o with Some a => Done a | None => OutOfFuel end.
  Definition apply_effect (ef : effect p) (st : bsolver) : out (bool * bsolver) :=
    match ef with
    | Assign v k => match apply_assignment v (from_number k) st with Some st' => Done (true, st') | None => OutOfFuel end
    | SetRC v r => lift (rc_update v r st)
    | CondAssign _ _ _ _ _ => Panicked
    end.
  Fixpoint apply_effects (l : list (effect p)) (prog : bool) (st : bsolver) : out (bool * bsolver) :=
    match l with
    | [] => Done (prog, st)
    | ef :: l' =>
      match apply_effect ef st with
      | Done (b, st') => apply_effects l' (prog || b) st'
      | Contradiction => Contradiction | Panicked => Panicked | OutOfFuel => OutOfFuel
      end
    end.
  (** 352-380 [solve_in_isolation]: one popped item. *)
  Definition process_item (x : item) (prog : bool) (st : bsolver) : out (bool * bsolver) :=
    match to_ref (isys (qsys (bcs st))) x with
    | Some (Some (RAlg c)) =>
      match try_to_simple_equivalence c with
      | Some (v, e) => match apply_assignment v e st with Some st' => Done (prog, st') | None => OutOfFuel end
      | None =>
        match solve (rcget st) c with
        | Ok es _ =>
          match try_split_constraint (rcget st) c with
          | SplitPanic => Panicked
          | NoSplit => apply_effects es prog st
          | Parts l => match add_algs_if_new l st with
                       | Some (b, st1) => apply_effects es (prog || b) st1
                       | None => OutOfFuel
                       end
          end
        | Unsat | Conflict => Contradiction
        | Panic => Panicked
        end
      end
    | Some (Some (RBus b)) =>
      match bus_solve h (rcget st) b with
      | BOk es => apply_effects es prog st
      | BViolates => Contradiction
      | BPanic => Panicked
      end
    | _ => Panicked
    end.
  Fixpoint solve_in_isolation (fuel : nat) (prog : bool) (st : bsolver) : out (bool * bsolver) :=
    match fuel with
    | O => OutOfFuel
    | S f =>
      match qcs_pop (bcs st) with
      | (None, _) => Done (prog, st)
      | (Some x, c) =>
        match process_item x prog (set_cs c st) with
        | Done (b, st') => solve_in_isolation f b st'
        | Contradiction => Contradiction | Panicked => Panicked | OutOfFuel => OutOfFuel
        end
      end
    end.
  (** 385-438 [exhaustive_search]; 391 sorts stably by length. *)
  Fixpoint len_insert (s : list var) (l : list (list var)) : list (list var) :=
    match l with
    | [] => [s]
    | t :: l' => if Nat.ltb (length s) (length t) then s :: l else t :: len_insert s l'
    end.
  Definition sort_by_len (l : list (list var)) : list (list var) := fold_left (fun acc s => len_insert s acc) l [].
  Fixpoint apply_rcs (l : list (var * rc)) (prog : bool) (st : bsolver) : option (bool * bsolver) :=
    match l with
    | [] => Some (prog, st)
    | (v, r) :: l' => match rc_update v r st with Some (b, st') => apply_rcs l' (prog || b) st' | None => None end
    end.
  Fixpoint search_sets (sets : list (list var)) (failed : list (list var)) (prog : bool) (st : bsolver) : out (bool * bsolver) :=
    match sets with
    | [] => Done (prog, st)
    | vs :: sets' =>
      let vs1 := filter (fun v => match try_to_single_value (rcget st v) with Some _ => false | None => true end) vs in
      if existsb (vlist_eqb vs1) failed then search_sets sets' failed prog st
      else
        match exhaustive_search_on h (qsys (bcs st)) (rcget st) vs1 with
        | DErr => Contradiction
        | DPanic => Panicked
        | DOk [] => search_sets sets' (vs1 :: failed) prog st
        | DOk m => match apply_rcs m prog st with
                   | Some (b, st') => search_sets sets' failed b st'
                   | None => OutOfFuel
                   end
        end
    end.
  Definition exhaustive_search (st : bsolver) : out (bool * bsolver) :=
    search_sets (sort_by_len (get_brute_force_candidates (isys (qsys (bcs st))) (rcget st))) [] false st.
  (** 332-349 [loop_until_no_progress]. *)
  Fixpoint solver_loop (fuel : nat) (st : bsolver) : out bsolver :=
    match fuel with
    | O => OutOfFuel
    | S f =>
      match solve_in_isolation fuel false st with
      | Done (true, st') => solver_loop f st'
      | Done (false, st') =>
        match exhaustive_search st' with
        | Done (true, st'') => solver_loop f st''
        | Done (false, st'') => Done st''
        | Contradiction => Contradiction | Panicked => Panicked | OutOfFuel => OutOfFuel
        end
      | Contradiction => Contradiction | Panicked => Panicked | OutOfFuel => OutOfFuel
      end
    end.
  (** 132-145 [solve]. *)
  Definition solve_base (fuel : nat) (st : bsolver) : out (list (var * gexp) * bsolver) :=
    match solver_loop fuel (clear_cache st) with
    | Done st1 =>
      let a := bpend st1 in
      let st2 := set_pend [] st1 in
      let st3 := set_lin (lin_apply a (blm st2)) (bnl st2) st2 in
      Done (a, set_bool (bool_apply a (bbm st3)) (bnb st3) st3)
    | Contradiction => Contradiction | Panicked => Panicked | OutOfFuel => OutOfFuel
    end.
  (** var_transformation.rs 103-114 [solve]; the [assert!] panics. *)
  Definition is_orig (v : var) : bool := match v with Orig _ => true | _ => false end.
  Definition solver_solve (fuel : nat) (st : bsolver) : out (list (var * gexp) * bsolver) :=
    match solve_base fuel st with
    | Done (a, st') =>
      if forallb (fun ve => is_affine (snd ve)) a
      then Done (filter (fun ve => is_orig (fst ve) && forallb is_orig (vars (snd ve))) a, st')
      else Panicked
    | Contradiction => Contradiction | Panicked => Panicked | OutOfFuel => OutOfFuel
    end.

  (** The operations of the [Solver] trait (solver.rs 54-99). *)
  Inductive sop :=
  | AddAlgs (es : list gexp)
  | AddBuses (bs : list (busi gexp))
  | AddRC (v : var) (r : rc)
  | Retain (vs : list var)
  | Solve
  | AskVar (v : var)
  | AskRange (e : gexp)
  | AskConst (e : gexp)
  | AskDifferent (a b : gexp).
  (** What the user observes. *)
  Inductive answer :=
  | Assignments (l : list (var * gexp))
  | VarRange (v : var) (r : rc)
  | Range (e : gexp) (r : rc)
  | Const (e : gexp) (k : option (F p))
  | Different (a b : gexp) (d : bool)
  | Silent.
  Definition opt_out {A B} (o : option A) (f : A -> B) : out B := match o with Some a => Done (f a) | None => Panicked end.
  Definition solver_do (fuel : nat) (o : sop) (st : bsolver) : out (answer * bsolver) :=
    match o with
    | AddAlgs es => match add_algs_base es st with Some st' => Done (Silent, st') | None => OutOfFuel end
    | AddBuses bs => match add_buses_base bs st with Some st' => Done (Silent, st') | None => OutOfFuel end
    | AddRC v r => match add_rc_base v r st with Some st' => Done (Silent, st') | None => OutOfFuel end
    | Retain vs => match retain_base vs st with Some st' => Done (Silent, st') | None => Panicked end
    | Solve => match solver_solve fuel st with
               | Done (l, st') => Done (Assignments l, st')
               | Contradiction => Contradiction | Panicked => Panicked | OutOfFuel => OutOfFuel
               end
    | AskVar v => Done (VarRange v (rcget st v), st)
    | AskRange e => Done (Range e (range_query st e), st)
    | AskConst e => Done (Const e (const_query st e), st)
    | AskDifferent a b => match different_query a b st with
                          | (Some d, st') => Done (Different a b d, st')
                          | (None, _) => Panicked
                          end
    end.
  (** A history: the answers so far and how it ended. *)
  Fixpoint solver_run (fuel : nat) (os : list sop) (st : bsolver) : list answer * out bsolver :=
    match os with
    | [] => ([], Done st)
    | o :: os' =>
      match solver_do fuel o st with
      | Done (a, st') => let '(l, r) := solver_run fuel os' st' in (a :: l, r)
      | Contradiction => ([], Contradiction)
      | Panicked => ([], Panicked)
      | OutOfFuel => ([], OutOfFuel)
      end
    end.
  (** solver.rs 38-52 [new_solver], 26-35 [solve_system]. *)
  Definition solve_system (fuel : nat) (c : csys p) : list answer * out bsolver :=
    solver_run fuel [AddAlgs (algs c); AddBuses (buses c); Solve] base_new.
End BaseModel.
Arguments bsolver : clear implicits.
Arguments sop : clear implicits.
Arguments answer : clear implicits.
