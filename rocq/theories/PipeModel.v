(** Model of how autoprecompiles/src/optimizer.rs [optimize] and constraint_optimizer.rs [optimize_constraints] put the passes
    together, for the bus interaction handler of OpenVM.  Logging and exports are left out.  A panic or an error of a pass
    means that there is no step.  Hash maps are visited in any order. *)
From Coq Require Import Arith NArith Bool List Permutation.
From Verif Require Import Field RangeModel ExprModel SystemModel BaseModel InlinerModel OvmModel PassModel PassSpec ExhModel RuleModel MemModel SymModel LowModel LowOvm.
Import ListNotations.

Section PipeModel.
  Context {p : positive}.
  Local Notation gexp := (gexp p).
  Local Notation csys := (csys p).
  (** optimizer.rs 35-42: the bus map (which determines the handler) and the degree bound. *)
  Context (m : busmap) (bound : degree_bound).

  (** The constraint system, the solver and the number of columns issued so far (the allocator's [next_poly_id]). *)
  Record ostate := mkO { o_sys : csys; o_solver : bsolver p; o_next : nat }.
  (** optimizer.rs 57-64 [new_var]: the id of the new column. *)
  Definition new_column (k : nat) : var := Orig (N.of_nat k).
  (** constraint_optimizer.rs 280-282; [range_constraint_for_expression]. *)
  Definition single_value_of (st : bsolver p) (e : gexp) : option (F p) := try_to_single_value (range_query st e).
  (** solver.rs [are_expressions_known_to_be_different]. *)
  Definition ask_different (st : bsolver p) (a b : gexp) : option bool * bsolver p := different_query a b st.
  Definition add_to_solver (es : list gexp) (st st' : bsolver p) : Prop := add_algs_base es st = Some st'.

  Inductive kind := KSolver | KTrivial | KFree | KDisc | KExh | KSimp | KRule | KFields | KMem | KLow | KInline | KRuleLast | KRange.

  Inductive pass : kind -> ostate -> ostate -> Prop :=
  (** constraint_optimizer.rs 68. *)
  | p_solver fuel c st n a st' c' : solver_solve (ovm_total m) fuel st = Done (a, st') ->
      solver_based_optimization a (single_value_of st') c = Some c' -> pass KSolver (mkO c st n) (mkO c' st' n)
  (** 72. *)
  | p_trivial c st n : pass KTrivial (mkO c st n) (mkO (remove_trivial_constraints c) st n)
  (** 77-78, 369: with the index of the system; the solver keeps the variables that stay. *)
  | p_free lookup c st n keep c' st' : good_lookup lookup c -> remove_free_variables (ovm_stateful m) lookup c = Some (keep, c') ->
      retain_base keep st = Some st' -> pass KFree (mkO c st n) (mkO c' st' n)
  (** 83-84, 433, and optimizer.rs 118-122. *)
  | p_disc lookup c st n keep c' st' : good_lookup lookup c -> remove_disconnected_columns (ovm_stateful m) lookup c = Some (keep, c') ->
      retain_base keep st = Some st' -> pass KDisc (mkO c st n) (mkO c' st' n)
  (** 91. *)
  | p_exh lookup in_order c st n c' : good_lookup lookup c -> (forall l e, In e (in_order l) <-> In e l) ->
      simplify_exhaustive lookup in_order (rcget st) c = Some c' -> pass KExh (mkO c st n) (mkO c' st n)
  (** 98-102, and optimizer.rs 150-156. *)
  | p_simp c st n c' : trivial_simplifications (ovm_stateful m) c = Some c' -> pass KSimp (mkO c st n) (mkO c' st n)
  (** 106-119. *)
  | p_rule c st n c' asg n' st' : rule_based (ovm_total m) (rcget st) new_column None c n c' asg n' ->
      add_to_solver (map (fun ve => gsub (from_var (fst ve)) (snd ve)) asg) st st' -> pass KRule (mkO c st n) (mkO c' st' n')
  (** 128. *)
  | p_fields c st n : pass KFields (mkO c st n) (mkO (substitute_bus_interaction_fields (const_query st) c) st n)
  (** 138; without a memory bus the system stays as it is. *)
  | p_mem ord c st n c' eqs st1 st' : (forall l, Permutation (ord l) l) ->
      optimize_memory ask_different ord c st (get_bus_id m BMemory) = Some (c', eqs, st1) ->
      match get_bus_id m BMemory with Some _ => add_to_solver eqs st1 st' | None => st' = st1 end -> pass KMem (mkO c st n) (mkO c' st' n)
  (** 143-148. *)
  | p_low c st n c' new st' : low_degree (ovm_total m) (ovm_stateful m) (batch_make m) (rcget st) (range_query st) (db_identities bound) c = Some c' ->
      algs c' = algs c ++ new -> add_to_solver new st st' -> pass KLow (mkO c st n) (mkO c' st' n)
  (** optimizer.rs 110-113; the index is new, and the loop of the inliner ends within this number of rounds. *)
  | p_inline c st n c' defs : inline (below_degree_bound bound) (S (length (algs c))) (ics_from c) = Some (c', defs) ->
      pass KInline (mkO c st n) (mkO (isys c') st n)
  (** optimizer.rs 129-135; the assignments are not used any more. *)
  | p_rule_last c st n c' asg n' : rule_based (ovm_total m) (rcget st) new_column (Some (db_identities bound)) c n c' asg n' ->
      pass KRuleLast (mkO c st n) (mkO c' st n')
  (** optimizer.rs 140-144. *)
  | p_range fuel c st n c' : optimize_range_constraints m bound fuel c = Some c' -> pass KRange (mkO c st n) (mkO c' st n).

  (** A run, with all its steps. *)
  Definition step : Type := kind * ostate * ostate.
  Inductive run : ostate -> list step -> ostate -> Prop :=
  | run_done x : run x [] x
  | run_step k x y l z : pass k x y -> run y l z -> run x ((k, x, y) :: l) z.
  Definition kinds (l : list step) : list kind := map (fun t => fst (fst t)) l.
  (** optimizer.rs 86-89 [new_solver] (solver.rs 38-52). *)
  Definition start (c : csys) (n : nat) (x : ostate) : Prop := exists fuel l st,
    solver_run (ovm_total m) fuel [AddAlgs (algs c); AddBuses (buses c)] base_new = (l, Done st) /\ x = mkO c st n.
  (** constraint_optimizer.rs 51-157 [optimize_constraints]: the order of the passes in the loop. *)
  Definition loop_passes : list kind := [KSolver; KTrivial; KFree; KDisc; KExh; KSimp; KRule; KFields; KMem; KLow].
  (** optimizer.rs 110-156: after the loop. *)
  Definition last_passes : list kind := [KInline; KDisc; KRuleLast; KRange; KSimp].
  (** optimizer.rs 91-109: the loop runs at least once and ends when the statistics do not change; here it ends at any time. *)
  Definition pass_order (l : list kind) : Prop := exists n, l = concat (repeat loop_passes (S n)) ++ last_passes.
  (** optimizer.rs 165-191: the assertions at the end; a missing program bus panics. *)
  Definition final_checks (c : csys) : bool :=
    forallb (fun e => Nat.leb (degree e) (db_identities bound)) (algs c) &&
    forallb (fun b => forallb (fun e => Nat.leb (degree e) (db_identities bound)) (fields b)) (buses c) &&
    match get_bus_id m BPc with
    | None => false
    | Some i => negb (existsb (fun b => gexp_eqb (bus_id b) (from_number (of_N i))) (buses c))
    end.
  (** optimizer.rs 32-197 [optimize]. *)
  Definition optimizes (sm : smach p) (n : nat) (l : list step) (sm' : smach p) (n' : nat) : Prop := exists sm1 c x y,
    match get_bus_id m BExec with Some id => optimize_exec_bus sm id | None => Some sm end = Some sm1 /\
    to_system sm1 = Some c /\ start c n x /\ run x l y /\ pass_order (kinds l) /\
    final_checks (o_sys y) = true /\ from_system (o_sys y) = Some sm' /\ n' = o_next y.
End PipeModel.
Arguments ostate : clear implicits.
Arguments step : clear implicits.
