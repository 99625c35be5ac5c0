(** Model of autoprecompiles/src/optimistic/{execution_literals, algebraic_references,
    execution_constraint_generator}.rs and of their use in [build], autoprecompiles/src/lib.rs 297-332.
    Line numbers refer to execution_literals.rs unless a file is named.  A panic is [None].  Column references
    are compared by id only (expression.rs 27-43) and are ids here; the optimizer is an argument. *)
From Coq Require Import Arith NArith Bool List.
From Verif Require Import Field ExprModel SystemModel SymModel MemModel BlocksModel PartModel EmpModel.
Import ListNotations.

(** execution/ast.rs 77-84, 120-126 [OptimisticLiteral] of a register limb: the number of instructions that have
    been executed, the address and the limb. *)
Record reglimb (p : positive) := mkRL { rl_instr : nat; rl_addr : list (F p); rl_limb : nat }.
Arguments mkRL {p}. Arguments rl_instr {p}. Arguments rl_addr {p}. Arguments rl_limb {p}.
(** execution/ast.rs 54-59, 9-13 [OptimisticExpression], [OptimisticConstraint]. *)
Inductive oexp (p : positive) := XNum (v : N) | XLit (l : reglimb p).
Arguments XNum {p}. Arguments XLit {p}.
Record ocon (p : positive) := mkXC { xleft : oexp p; xright : oexp p }.
Arguments mkXC {p}. Arguments xleft {p}. Arguments xright {p}.

Section Literals.
  Context {p : positive}.
  (** [optimize] with a handler, bounds and so on; the allocator provides the ids of new columns. *)
  Context (optimize : smach p -> allocator -> option (smach p)) (memory_bus : N).
  (** 53-58 [ConcreteMemoryAccess]. *)
  Record caccess := mkCA { ca_instr : nat; ca_addr : list (F p); ca_limbs : list var }.
  (** 105-142 [try_extract_concrete_memory_access]; the outer [option] is for panics. *)
  Definition try_extract (idx : nat) (b : sbus p) : option (option caccess) :=
    match to_bus b with
    | None => None
    | Some bi =>
      match try_from_bus memory_bus bi with
      | Panics => None
      | NotMemory | Unclear => Some None
      | Access m =>
        Some (match all_opt (map try_to_known (mi_addr m)), all_opt (map try_to_simple_unknown (mi_data m)) with
              | Some addr, Some limbs => Some (mkCA (match mi_op m with GetPrevious => idx | SetNew => idx + 1 end) addr limbs)
              | _, _ => None
              end)
      end
    end.
  Definition option_list {A} (o : option A) : list A := match o with Some a => [a] | None => [] end.
  (** 60-100 [extract_concrete_memory_accesses]. *)
  Definition extract_accesses (im : nat * smach p) : option (list caccess) :=
    match optimize (snd im) (alloc_from_machine (snd im)) with
    | None => None
    | Some m => option_map (flat_map option_list) (all_opt (map (try_extract (fst im)) (sm_buses m)))
    end.
  (** 144-172 [generate_limb_mapping]. *)
  Definition limb_mapping (a : allocator) (c : caccess) : list (N * reglimb p) :=
    flat_map (fun iv => if is_known a (vid (snd iv)) then [(vid (snd iv), mkRL (ca_instr c) (ca_addr c) (fst iv))] else []) (enumerate (ca_limbs c)).
  (** 22-50 [optimistic_literals]. *)
  Definition literals_of (ms : list (smach p)) (a : allocator) : option (list (N * reglimb p)) :=
    option_map (fun l => nm_collect (flat_map (limb_mapping a) (concat l))) (all_opt (map extract_accesses (enumerate ms))).
  Definition optimistic_literals (pc_bus exec_bus : N) (instrs : list (smach p * list (F p))) : option (list (N * reglimb p)) :=
    match statements_to_machines pc_bus exec_bus instrs with Some (ms, a) => literals_of ms a | None => None end.
End Literals.

(** algebraic_references.rs 18-34 [BlockCellAlgebraicReferenceMapper::new]. *)
Definition cells_by_id (subs : list (list N)) : list (N * cell) :=
  nm_collect (flat_map (fun i => map (fun c => (snd c, (fst i, fst c))) (enumerate (snd i))) (enumerate subs)).
Definition mapper_new (subs : list (list N)) (columns : list N) : option (list (cell * N)) :=
  all_opt (map (fun id => option_map (fun c => (c, id)) (nm_get id (cells_by_id subs))) columns).
(** 36-38 [get_algebraic_reference]; of several entries for a cell the last one is the one in the map. *)
Definition mapper_get (m : list (cell * N)) (c : cell) : option N := option_map snd (find (fun x => cell_eqb (fst x) c) (rev m)).

(** execution_constraint_generator.rs 27-42 [get_optimistic_expression].  The number is a field element here,
    made in empirical_constraints.rs 329 [from]: it panics if it is not below the modulus. *)
Definition number_exp {p} (v : N) : option (oexp p) := if (v <? N.pos p)%N && (v <? 2 ^ 32)%N then Some (XNum v) else None.
Definition reference_exp {p} (lits : list (N * reglimb p)) (id : N) : option (oexp p) := option_map XLit (nm_get id lits).
Definition constraint_of {p} (lits : list (N * reglimb p)) (c : eqc N) : option (ocon p) :=
  match c with
  | EqNum r v => match reference_exp lits r, number_exp v with Some x, Some y => Some (mkXC x y) | _, _ => None end
  | EqRef r s => match reference_exp lits r, reference_exp lits s with Some x, Some y => Some (mkXC x y) | _, _ => None end
  end.
(** 13-25 [generate_execution_constraints]. *)
Definition execution_constraints {p} (cs : list (eqc N)) (lits : list (N * reglimb p)) : option (list (ocon p)) := all_opt (map (constraint_of lits) cs).

Section Restrict.
  Context {p : positive} (ord : list (cell * nat) -> list (cell * nat)).
  (** lib.rs 308-313: the predicate, with its [unwrap]. *)
  Definition checkable (mp : list (cell * N)) (lits : list (N * reglimb p)) (c : cell) : option bool :=
    option_map (fun id => match nm_get id lits with Some _ => true | None => false end) (mapper_get mp c).
  (** [Iterator::all] on a predicate that may panic: stops at the first [false]. *)
  Fixpoint all_true {A} (f : A -> option bool) (l : list A) : option bool :=
    match l with [] => Some true | x :: r => match f x with None => None | Some false => Some false | Some true => all_true f r end end.
  (** empirical_constraints.rs 171-215: [filtered] runs into no panic of the predicate. *)
  Definition answers {A} (o : option A) : bool := match o with Some _ => true | None => false end.
  Definition filter_answers (f : cell -> option bool) (be : bemp) : bool :=
    forallb (fun pr => forallb (fun ir => answers (all_true (fun idx => f (idx, fst ir)) (pc_indices (be_pcs be) (fst pr)))) (enumerate (snd pr))) (be_ranges be) &&
    match to_classes ord (be_classes be) with Some cl => forallb (forallb (fun c => answers (f c))) cl | None => false end.
  Definition filtered_or_panic (f : cell -> option bool) (be : bemp) : option bemp :=
    if filter_answers f be then filtered ord (fun c => match f c with Some b => b | None => false end) be else None.
  (** lib.rs 304-322: the empirical equations that are kept and the conditions on the execution for them. *)
  Definition restricted (mp : list (cell * N)) (lits : list (N * reglimb p)) (pcs : list N) (be : bemp) : option (list (eqc N) * list (ocon p)) :=
    match filtered_or_panic (checkable mp lits) be with
    | None => None
    | Some be' =>
      match generate_constraints ord (mapper_get mp) pcs be' with
      | None => None
      | Some cs => option_map (fun xs => (cs, xs)) (execution_constraints cs lits)
      end
    end.
End Restrict.
