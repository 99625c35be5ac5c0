(** Model of the passes in autoprecompiles/src/constraint_optimizer.rs and of constraint-solver/src/reachability.rs and
    system_splitter.rs.  Line numbers refer to constraint_optimizer.rs unless a file is named.  The passes work on the
    indexed constraint system through its operations, which act on the plain system as modelled here
    ([C18_refinement], [C18_lookup]).  A panic is [None]. *)
From Coq Require Import Arith NArith Bool List.
From Verif Require Import Field ExprModel SolveModel SystemModel.
Import ListNotations.

Section PassModel.
  Context {p : positive}.
  Local Notation gexp := (gexp p).
  Local Notation csys := (csys p).
  (** 636-642 [IsBusStateful]. *)
  Context (stateful : F p -> bool).

  (** 610-617 [remove_trivial_constraints]. *)
  Definition remove_trivial_constraints (c : csys) : csys :=
    mkCS (filter (fun e => negb (is_redundant e)) (algs c)) (filter (fun b => negb (gis_zero (mult b))) (buses c)) (derived c).
  (** [BusInteraction::eq]. *)
  Fixpoint gexps_eqb (a b : list gexp) : bool :=
    match a, b with [], [] => true | x :: a, y :: b => gexp_eqb x y && gexps_eqb a b | _, _ => false end.
  Definition bus_eqb (a b : busi gexp) : bool := gexps_eqb (fields a) (fields b).
  (** 619-634 [remove_equal_bus_interactions]. *)
  Fixpoint drop_equal (seen : list (busi gexp)) (l : list (busi gexp)) : list (busi gexp) :=
    match l with
    | [] => []
    | b :: r =>
      match try_to_known (bus_id b) with
      | Some id => if negb (stateful id) then if existsb (bus_eqb b) seen then drop_equal seen r else b :: drop_equal (b :: seen) r
                   else b :: drop_equal seen r
      | None => b :: drop_equal seen r
      end
    end.
  Definition remove_equal_bus_interactions (c : csys) : csys := mkCS (algs c) (drop_equal [] (buses c)) (derived c).
  (** itertools [unique]. *)
  Fixpoint gunique (seen : list gexp) (l : list gexp) : list gexp :=
    match l with
    | [] => []
    | x :: r => if existsb (gexp_eqb x) seen then gunique seen r else x :: gunique (x :: seen) r
    end.
  Definition product (l : list gexp) : option gexp := match l with [] => None | f :: r => Some (fold_left gmul r f) end.
  (** 702-725 [remove_duplicate_factors]. *)
  Definition has_duplicate_factors (e : gexp) : bool := Nat.ltb (length (gunique [] (to_factors e))) (length (to_factors e)).
  Fixpoint all_some {A B} (f : A -> option B) (l : list A) : option (list B) :=
    match l with [] => Some [] | x :: r => match f x, all_some f r with Some y, Some t => Some (y :: t) | _, _ => None end end.
  Definition remove_duplicate_factors (c : csys) : option csys :=
    if existsb (fun e => match to_factors e with [] => true | _ => false end) (algs c) then None
    else match all_some (fun e => product (gunique [] (to_factors e))) (filter has_duplicate_factors (algs c)) with
         | None => None
         | Some new => Some (mkCS (filter (fun e => negb (has_duplicate_factors e)) (algs c) ++ new) (buses c) (derived c))
         end.
  (** 644-699 [remove_redundant_constraints]: [multiple fs gs]: all factors [fs] are among [gs]. *)
  Definition multiple (fs gs : list gexp) : bool := forallb (fun f => existsb (gexp_eqb f) gs) fs.
  Definition redundant_by (l : list (nat * list gexp)) (i_fs : nat * list gexp) : option (list nat) :=
    let m := filter (fun j_gs => multiple (snd i_fs) (snd j_gs)) l in
    if existsb (fun j_gs => Nat.ltb (length (snd j_gs)) (length (snd i_fs))) m then None
    else Some (map fst (filter (fun j_gs => Nat.ltb (length (snd i_fs)) (length (snd j_gs)) || Nat.ltb (fst i_fs) (fst j_gs)) m)).
  Definition remove_redundant_constraints (c : csys) : option csys :=
    match remove_duplicate_factors c with
    | None => None
    | Some c =>
      let l := enumerate (map to_factors (algs c)) in
      if existsb (fun j_gs => match snd j_gs with [] => true | _ => false end) l then None
      else match all_some (redundant_by l) l with
           | None => None
           | Some rs => Some (mkCS (map snd (filter (fun ie => negb (existsb (Nat.eqb (fst ie)) (concat rs))) (enumerate (algs c)))) (buses c) (derived c))
           end
    end.
  (** 727-740 [remove_unreferenced_derived_variables]. *)
  Definition remove_unreferenced_derived_variables (c : csys) : csys :=
    mkCS (algs c) (buses c) (filter (fun d => existsb (veqb (fst d)) (sys_vars c)) (derived c)).
  (** 190-215 [trivial_simplifications]. *)
  Definition trivial_simplifications (c : csys) : option csys :=
    option_map remove_unreferenced_derived_variables (remove_redundant_constraints (remove_equal_bus_interactions (remove_trivial_constraints c))).

  (** 165-187 [substitute_bus_interaction_fields]; [known] is the solver's [try_to_equivalent_constant].  The fields
      of an interaction are visited in the order of [fields]. *)
  Definition replace_fields (f : gexp -> option (gexp * gexp)) (b : busi gexp) : busi gexp * list gexp :=
    (bmap (fun e => match f e with Some (e', _) => e' | None => e end) b, flat_map (fun e => match f e with Some (_, k) => [k] | None => [] end) (fields b)).
  Definition replace_all_fields (f : gexp -> option (gexp * gexp)) (c : csys) : csys :=
    mkCS (algs c ++ flat_map (fun b => snd (replace_fields f b)) (buses c)) (map (fun b => fst (replace_fields f b)) (buses c)) (derived c).
  Definition substitute_field (known : gexp -> option (F p)) (e : gexp) : option (gexp * gexp) :=
    if is_affine e && Nat.leb (length (lin e)) 1 then None
    else match known e with Some v => Some (from_number v, gsub e (from_number v)) | None => None end.
  Definition substitute_bus_interaction_fields (known : gexp -> option (F p)) (c : csys) : csys := replace_all_fields (substitute_field known) c.
  (** 269-284 [try_replace_by_number]; [single] is the solver's range constraint of the expression if it is a single value. *)
  Definition replace_by_number (single : gexp -> option (F p)) (e : gexp) : option (gexp * gexp) :=
    match try_to_known e with
    | Some _ => None
    | None => match single e with Some n => Some (from_number n, gsub (from_number n) e) | None => None end
    end.
  (** 217-267 [solver_based_optimization] with the assignments that the solver found; the substitutions in a system
      are those of indexed_constraint_system.rs 389-398. *)
  Definition sys_subst (v : var) (e : gexp) (c : csys) : csys :=
    mkCS (map (subst_unknown v e) (algs c)) (map (bmap (subst_unknown v e)) (buses c)) (map (fun d => (fst d, cm_subst_unknown v e (snd d))) (derived c)).
  Definition solver_based_optimization (assignments : list (var * gexp)) (single : gexp -> option (F p)) (c : csys) : option csys :=
    if forallb (fun ve => is_affine (snd ve)) assignments
    then Some (replace_all_fields (replace_by_number single) (fold_left (fun c ve => sys_subst (fst ve) (snd ve) c) assignments c))
    else None.

  (** 376-395 [can_always_be_satisfied_via_free_variable]. *)
  Fixpoint can_always_be_satisfied (x : var) (e : gexp) : bool :=
    match try_solve_for x e with
    | Some _ => true
    | None => match e with
              | GE [(l, r)] [] c => if is_zero c then can_always_be_satisfied x l || can_always_be_satisfied x r else false
              | _ => false
              end
    end.
  (** indexed_constraint_system.rs 328-338 [constraints_referencing_variables] of the current index; what it returns is
      the subject of [C18_lookup_positions], which is the hypothesis [good_lookup] of the theorems. *)
  Context (lookup : csys -> list var -> list (cref p)).
  (** 312-347: the condition for deleting a variable. *)
  Definition may_delete (c : csys) (x : var) : bool :=
    match lookup c [x] with
    | [RAlg e] => can_always_be_satisfied x e
    | [RBus b] => match try_to_known (bus_id b) with
                  | None => false
                  | Some id => negb (stateful id) &&
                               Nat.eqb (length (filter (fun e => match try_to_known e with None => true | _ => false end) (payload b))) 1 &&
                               forallb (fun e => Nat.leb (degree_of_variable x e) 1) (payload b)
                  end
    | _ => false
    end.
  Definition bus_ids_known (c : csys) : bool := forallb (fun b => match try_to_known (bus_id b) with Some _ => true | None => false end) (buses c).
  Definition is_stateful (b : busi gexp) : bool := match try_to_known (bus_id b) with Some id => stateful id | None => false end.
  (** 294-372 [remove_free_variables]; the variables handed to [Solver::retain_variables] and the new system. *)
  Definition remove_free_variables (c : csys) : option (list var * csys) :=
    if bus_ids_known c then
      let keep := filter (fun x => negb (may_delete c x)) (vunique [] (sys_vars c)) in
      let kept (l : list var) := forallb (fun v => existsb (veqb v) keep) l in
      Some (keep, mkCS (filter (fun e => kept (vars e)) (algs c)) (filter (fun b => is_stateful b || kept (bus_vars b)) (buses c)) (derived c))
    else None.

  (** ** reachability.rs *)
  (** A hash set of variables as a list without repetitions. *)
  Definition vadd (s : list var) (v : var) : list var := if existsb (veqb v) s then s else v :: s.
  (** reachability.rs 44-57: one iteration; [cs] are the constraints that reference the variables reached so far. *)
  Definition reach_step (blocked : list var) (reached : list var) (c : cref p) : list var :=
    if existsb (fun v => existsb (veqb v) reached && negb (existsb (veqb v) blocked)) (cref_vars c)
    then fold_left vadd (cref_vars c) reached else reached.
  Fixpoint reach_loop (n : nat) (c : csys) (blocked reached : list var) : option (list var) :=
    match n with
    | O => None
    | S n => let reached' := fold_left (reach_step blocked) (lookup c reached) reached in
             if Nat.eqb (length reached') (length reached) then Some reached else reach_loop n c blocked reached'
    end.
  (** reachability.rs 30-62 [reachable_variables_except_blocked]; each iteration but the last adds a variable. *)
  Definition reachable_variables_except_blocked (init blocked : list var) (c : csys) : option (list var) :=
    reach_loop (S (length (sys_vars c))) c blocked (fold_left vadd init []).
  (** reachability.rs 11-22 [reachable_variables]. *)
  Definition reachable_variables (init : list var) (c : csys) : option (list var) := reachable_variables_except_blocked init [] c.

  (** 439-452 [variables_in_stateful_bus_interactions]. *)
  Definition stateful_variables (c : csys) : list var := flat_map bus_vars (filter is_stateful (buses c)).
  (** 405-436 [remove_disconnected_columns]. *)
  Definition remove_disconnected_columns (c : csys) : option (list var * csys) :=
    if bus_ids_known c then
      match reachable_variables (stateful_variables c) c with
      | None => None
      | Some keep =>
        let connected (l : list var) := existsb (fun v => existsb (veqb v) keep) l in
        Some (keep, mkCS (filter (fun e => connected (vars e)) (algs c)) (filter (fun b => is_stateful b || connected (bus_vars b)) (buses c)) (derived c))
      end
    else None.

  (** system_splitter.rs 16-59 [split_system]: [remaining] is the sorted set of variables. *)
  Definition algs_of (l : list (cref p)) : list gexp := flat_map (fun r => match r with RAlg e => [e] | RBus _ => [] end) l.
  Definition buses_of (l : list (cref p)) : list (busi gexp) := flat_map (fun r => match r with RAlg _ => [] | RBus b => [b] end) l.
  Fixpoint split_loop (n : nat) (c : csys) (remaining : list var) : option (list csys) :=
    match remaining with
    | [] => Some []
    | v :: rest =>
      match n with
      | O => None
      | S n =>
        match reachable_variables [v] c with
        | None => None
        | Some vs =>
          let cs := lookup c vs in
          match split_loop n c (filter (fun w => negb (existsb (veqb w) vs)) rest) with
          | None => None
          | Some l => Some (mkCS (algs_of cs) (buses_of cs) [] :: l)
          end
        end
      end
    end.
  (** [remaining] of indexed_constraint_system.rs [variables], the keys of the index, which include the variables of the
      computation methods of derived variables; [sorted] sorts them and removes repetitions. *)
  Context (sorted : list var -> list var).
  Definition split_system (c0 : csys) : option (list csys) :=
    let c := mkCS (filter (fun e => negb (is_redundant e)) (algs c0)) (buses c0) (derived c0) in
    let remaining := sorted (sys_vars c ++ flat_map (fun d => cm_vars (snd d)) (derived c)) in
    split_loop (length remaining) c remaining.
End PassModel.
