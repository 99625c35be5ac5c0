(** Model of expression/src/lib.rs, autoprecompiles/src/{expression_conversion, symbolic_machine,
    symbolic_machine_generator, powdr}.rs and of the guards and the column allocation in
    autoprecompiles/src/lib.rs.  Column references are compared by id only (expression.rs 27-43), the
    column with id [n] is the variable [Orig n]; names are not modelled. *)
From Coq Require Import Arith NArith Bool List.
From Verif Require Import Field ExprModel SystemModel.
Import ListNotations.

(** expression/src/lib.rs 26-75 [AlgebraicExpression]. *)
Inductive aop := OAdd | OSub | OMul.
Inductive aexpr (p : positive) := ARef (v : var) | ANum (k : F p) | ABin (l : aexpr p) (o : aop) (r : aexpr p) | ANeg (e : aexpr p).
Arguments ARef {p}. Arguments ANum {p}. Arguments ABin {p}. Arguments ANeg {p}.
(** symbolic_machine.rs 69-74 [SymbolicBusInteraction]; the derived columns' computation methods. *)
Record sbus (p : positive) := mkSB { sb_id : N; sb_mult : aexpr p; sb_args : list (aexpr p) }.
Arguments mkSB {p}. Arguments sb_id {p}. Arguments sb_mult {p}. Arguments sb_args {p}.
Inductive amethod (p : positive) := AConst (k : F p) | AQuot (a b : aexpr p).
Arguments AConst {p}. Arguments AQuot {p}.
(** symbolic_machine.rs 113-122 [SymbolicMachine]. *)
Record smach (p : positive) := mkSM { sm_cons : list (aexpr p); sm_buses : list (sbus p); sm_derived : list (var * amethod p) }.
Arguments mkSM {p}. Arguments sm_cons {p}. Arguments sm_buses {p}. Arguments sm_derived {p}.

Section SymModel.
  Context {p : positive}.
  Local Open Scope F_scope.
  Local Notation aexpr := (aexpr p).
  Local Notation gexp := (gexp p).

  (** ** Expressions *)
  (** expression/src/lib.rs 112-125 [degree]. *)
  Fixpoint adegree (e : aexpr) : nat :=
    match e with
    | ARef _ => 1
    | ANum _ => 0
    | ABin l OMul r => adegree l + adegree r
    | ABin l _ r => Nat.max (adegree l) (adegree r)
    | ANeg e => adegree e
    end.
  (** References in an expression, in the order of a visit. *)
  Fixpoint arefs (e : aexpr) : list var :=
    match e with ARef v => [v] | ANum _ => [] | ABin l _ r => arefs l ++ arefs r | ANeg e => arefs e end.
  (** expression_conversion.rs 10-20 [algebraic_to_grouped_expression], with expression/src/lib.rs 186-213 [to_expression]. *)
  Fixpoint to_grouped (e : aexpr) : gexp :=
    match e with
    | ARef v => from_var v
    | ANum k => from_number k
    | ABin l OAdd r => gadd (to_grouped l) (to_grouped r)
    | ABin l OSub r => gsub (to_grouped l) (to_grouped r)
    | ABin l OMul r => gmul (to_grouped l) (to_grouped r)
    | ANeg e => gneg (to_grouped e)
    end.
  (** expression_conversion.rs 91-101 [extract_negation_if_possible]. *)
  Definition extract_negation (e : aexpr) : aexpr * bool := match e with ANeg e => (e, true) | _ => (e, false) end.
  (** 81-87 [field_element_to_algebraic_expression]. *)
  Definition number_to_alg (k : F p) : aexpr := if is_in_lower_half k then ANum k else ANeg (ANum (fopp k)).
  (** 45-53. *)
  Definition linear_to_alg (vc : var * F p) : aexpr :=
    let '(v, c) := vc in
    if is_one c then ARef v
    else if is_one (fopp c) then ANeg (ARef v)
    else if is_in_lower_half c then ABin (ANum c) OMul (ARef v)
    else ANeg (ABin (ANum (fopp c)) OMul (ARef v)).
  (** [reduce] with addition. *)
  Definition reduce_add (l : list aexpr) : option aexpr :=
    match l with [] => None | e :: r => Some (fold_left (fun acc i => ABin acc OAdd i) r e) end.
  (** 35-44. *)
  Definition product_to_alg (l r : aexpr) : aexpr :=
    let '(l, ln) := extract_negation l in
    let '(r, rn) := extract_negation r in
    if Bool.eqb ln rn then ABin l OMul r else ANeg (ABin l OMul r).
  (** 60-78. *)
  Definition sum_to_alg (items : list aexpr) : aexpr :=
    let xs := map extract_negation items in
    let positive := reduce_add (map fst (filter (fun x => negb (snd x)) xs)) in
    let negated := reduce_add (map fst (filter snd xs)) in
    match positive, negated with
    | Some a, Some b => ABin a OSub b
    | Some a, None => a
    | None, Some b => ANeg b
    | None, None => ANum 0
    end.
  (** 25-79 [grouped_expression_to_algebraic], with grouped_expression.rs 275-288 [into_summands]. *)
  Fixpoint to_alg (e : gexp) : aexpr :=
    match e with
    | GE q l c =>
      sum_to_alg (map (fun lr => product_to_alg (to_alg (fst lr)) (to_alg (snd lr))) q
                  ++ map linear_to_alg l
                  ++ (if is_zero c then [] else [number_to_alg c]))
    end.
  (** symbolic_machine.rs 47-57 [SymbolicConstraint::from]. *)
  Definition constraint_from (e : aexpr) : aexpr := match e with ANeg e => e | _ => e end.

  (** ** Machines *)
  (** symbolic_machine.rs 203-227 [children]: derived columns are not among them. *)
  Definition sb_children (b : sbus p) : list aexpr := sb_mult b :: sb_args b.
  Definition sm_children (m : smach p) : list aexpr := sm_cons m ++ flat_map sb_children (sm_buses m).
  (** 197-201 [degree]. *)
  Definition sm_degree (m : smach p) : nat := fold_right (fun e d => Nat.max (adegree e) d) 0%nat (sm_children m).
  Definition sm_refs (m : smach p) : list var := flat_map arefs (sm_children m).
  (** 133-138 [concatenate]. *)
  Definition sm_concat (m n : smach p) : smach p := mkSM (sm_cons m ++ sm_cons n) (sm_buses m ++ sm_buses n) (sm_derived m ++ sm_derived n).
  (** 285-300 [symbolic_bus_interaction_to_bus_interaction].  [P::from] panics if the bus id is not
      below the modulus (plonky3_macros.rs 143-154). *)
  Definition to_bus (b : sbus p) : option (busi gexp) :=
    if (sb_id b <? N.pos p)%N then Some (mkBus (from_number (of_N (sb_id b))) (to_grouped (sb_mult b)) (map to_grouped (sb_args b))) else None.
  Definition to_method (m : amethod p) : cmethod p := match m with AConst k => CConst k | AQuot a b => CQuot (to_grouped a) (to_grouped b) end.
  Fixpoint all_opt {A} (l : list (option A)) : option (list A) :=
    match l with [] => Some [] | x :: r => match x, all_opt r with Some a, Some l' => Some (a :: l') | _, _ => None end end.
  (** 225-260 [symbolic_machine_to_constraint_system]. *)
  Definition to_system (m : smach p) : option (csys p) :=
    match all_opt (map to_bus (sm_buses m)) with
    | Some bs => Some (mkCS (map to_grouped (sm_cons m)) bs (map (fun d => (fst d, to_method (snd d))) (sm_derived m)))
    | None => None
    end.
  (** 302-325 [bus_interaction_to_symbolic_bus_interaction]; [None] is the panic for an id that is not a number. *)
  Definition from_bus (b : busi gexp) : option (sbus p) :=
    match try_to_known (bus_id b) with
    | Some k => Some (mkSB (val k) (to_alg (mult b)) (map to_alg (payload b)))
    | None => None
    end.
  Definition from_method (m : cmethod p) : amethod p := match m with CConst k => AConst k | CQuot a b => AQuot (to_alg a) (to_alg b) end.
  (** 262-283 [constraint_system_to_symbolic_machine]. *)
  Definition from_system (c : csys p) : option (smach p) :=
    match all_opt (map from_bus (buses c)) with
    | Some bs => Some (mkSM (map (fun e => constraint_from (to_alg e)) (algs c)) bs (map (fun d => (fst d, from_method (snd d))) (derived c)))
    | None => None
    end.

  (** ** Guards: autoprecompiles/src/lib.rs *)
  (** powdr.rs 11-18 [make_refs_zero], 20-23 [make_bool]. *)
  Fixpoint make_refs_zero (e : aexpr) : aexpr :=
    match e with ARef _ => ANum 0 | ANum k => ANum k | ABin l o r => ABin (make_refs_zero l) o (make_refs_zero r) | ANeg e => ANeg (make_refs_zero e) end.
  Definition make_bool (e : aexpr) : aexpr := ABin e OMul (ABin e OSub (ANum 1)).
  (** 415-420 [satisfies_zero_witness]; the [unwrap] never fails, see [SymFacts.zeroed_known]. *)
  Definition satisfies_zero_witness (e : aexpr) : bool :=
    match try_to_known (to_grouped (make_refs_zero e)) with Some k => is_zero k | None => false end.
  (** 427-453 [add_guards_constraint]. *)
  Fixpoint guard_constraint (is_valid : aexpr) (e : aexpr) : aexpr :=
    if satisfies_zero_witness e then e
    else match e with
         | ABin l o r =>
           ABin (guard_constraint is_valid l) o (match o with OAdd | OSub => guard_constraint is_valid r | OMul => r end)
         | ANeg e => ANeg (guard_constraint is_valid e)
         | ANum k => ABin (ANum k) OMul is_valid
         | ARef v => ARef v
         end.
  (** 465-467 [canonicalize]. *)
  Definition canonicalize (e : aexpr) : aexpr := to_alg (to_grouped e).
  (** 470-524 [add_guards]; [next] is the next id of the column allocator. [None] is the failed assertion about degrees. *)
  Definition guard_bus (is_valid : aexpr) (b : sbus p) : sbus p :=
    if negb (satisfies_zero_witness (sb_mult b)) then mkSB (sb_id b) (canonicalize (ABin is_valid OMul (sb_mult b))) (sb_args b) else b.
  Definition mult_constraints (is_valid : aexpr) (b : sbus p) : list aexpr :=
    if negb (satisfies_zero_witness (sb_mult b)) then []
    else [constraint_from (canonicalize (ABin (ABin (ANum 1) OSub is_valid) OMul (sb_mult b)))].
  Definition add_guards (m : smach p) (next : N) : option (smach p * N) :=
    let is_valid := ARef (Orig next) in
    let m1 := mkSM (map (fun e => constraint_from (canonicalize (guard_constraint is_valid e))) (sm_cons m)
                    ++ flat_map (mult_constraints is_valid) (sm_buses m))
                   (map (guard_bus is_valid) (sm_buses m))
                   (sm_derived m ++ [(Orig next, AConst 1)]) in
    if negb (Nat.eqb (sm_degree m) 0) && negb (Nat.eqb (length (sm_buses m)) 0) && negb (Nat.eqb (sm_degree m) (sm_degree m1)) then None
    else Some (mkSM (sm_cons m1 ++ [constraint_from (make_bool is_valid)]) (sm_buses m1) (sm_derived m1), (next + 1)%N).

  (** ** Column allocation *)
  (** powdr.rs 109-119 [offset_reference_ids]. *)
  Definition voff (k : N) (v : var) : var := match v with Orig n => Orig (n + k)%N | _ => v end.
  Fixpoint aoff (k : N) (e : aexpr) : aexpr :=
    match e with ARef v => ARef (voff k v) | ANum c => ANum c | ABin l o r => ABin (aoff k l) o (aoff k r) | ANeg e => ANeg (aoff k e) end.
  Definition sb_off (k : N) (b : sbus p) : sbus p := mkSB (sb_id b) (aoff k (sb_mult b)) (map (aoff k) (sb_args b)).
  Definition sm_off (k : N) (m : smach p) : smach p := mkSM (map (aoff k) (sm_cons m)) (map (sb_off k) (sm_buses m)) (sm_derived m).
  (** powdr.rs 45-58 [unique_references], as ids.  The order (ascending) is not used below. *)
  Definition unique_ids (m : smach p) : list N := nodup N.eq_dec (map vid (sm_refs m)).
  Definition nseq (a : N) (n : nat) : list N := map (fun i => (a + N.of_nat i)%N) (seq 0 n).
  (** powdr.rs 66-85 [globalize_references]; [None] is a panic: no columns, or ids that are not contiguous. *)
  Definition globalize (m : smach p) (next : N) : option (N * list N * smach p) :=
    let ids := unique_ids m in
    match ids with
    | [] => None
    | i :: r =>
      if (fold_left N.max r i =? N.of_nat (length ids) - 1)%N then
        Some ((next + N.of_nat (length ids))%N, nseq next (length ids), sm_off next m)
      else None
    end.
  (** lib.rs 257-282 [ColumnAllocator]. *)
  Record allocator := mkAlloc { al_subs : list (list N); al_next : N }.
  Definition alloc_from_machine (m : smach p) : allocator := mkAlloc [] (fold_left N.max (map vid (sm_refs m)) 0%N + 1)%N.
  Definition issue (a : allocator) : N * allocator := (al_next a, mkAlloc (al_subs a) (al_next a + 1)%N).
  Definition is_known (a : allocator) (id : N) : bool := (id <? al_next a)%N.
  (** symbolic_machine_generator.rs 192-205 [exec_receive]; [None]: not exactly two interactions. *)
  Definition exec_receive (exec_bus : N) (m : smach p) : option (sbus p) :=
    match filter (fun b => (sb_id b =? exec_bus)%N) (sm_buses m) with [r; _] => Some r | _ => None end.
  (** [exactly_one] on the pc lookups. *)
  Definition pc_lookup (pc_bus : N) (m : smach p) : option (sbus p) :=
    match filter (fun b => (sb_id b =? pc_bus)%N) (sm_buses m) with [b] => Some b | _ => None end.
  (** [zip_eq] panics for different lengths. *)
  Fixpoint zip_eq {A B} (l : list A) (m : list B) : option (list (A * B)) :=
    match l, m with
    | [], [] => Some []
    | a :: l, b :: m => match zip_eq l m with Some r => Some ((a, b) :: r) | None => None end
    | _, _ => None
    end.
  (** 134-190 [statements_to_symbolic_machines], one instruction: its machine (after the field
      conversion) and its pc lookup row. *)
  Definition add_local_constraints (pc_bus exec_bus : N) (row : list (F p)) (m : smach p) : option (smach p) :=
    match pc_lookup pc_bus m, exec_receive exec_bus m with
    | Some lk, Some rcv =>
      match zip_eq (sb_args lk) row with
      | Some lr =>
        Some (mkSM (sm_cons m ++ constraint_from (ABin (sb_mult rcv) OAdd (ANum 1))
                    :: map (fun x => constraint_from (ABin (fst x) OSub (ANum (snd x)))) lr)
                   (sm_buses m) (sm_derived m))
      | None => None
      end
    | _, _ => None
    end.
  Fixpoint block_machines (pc_bus exec_bus : N) (next : N) (instrs : list (smach p * list (F p))) : option (list (smach p) * list (list N) * N) :=
    match instrs with
    | [] => Some ([], [], next)
    | (m, row) :: r =>
      match globalize m next with
      | None => None
      | Some (next', subs, m1) =>
        match add_local_constraints pc_bus exec_bus row m1 with
        | None => None
        | Some m2 =>
          match block_machines pc_bus exec_bus next' r with
          | Some (ms, ss, n) => Some (m2 :: ms, subs :: ss, n)
          | None => None
          end
        end
      end
    end.
  Definition statements_to_machines (pc_bus exec_bus : N) (instrs : list (smach p * list (F p))) : option (list (smach p) * allocator) :=
    match block_machines pc_bus exec_bus 0 instrs with Some (ms, ss, n) => Some (ms, mkAlloc ss n) | None => None end.
  (** 116-130 [statements_to_symbolic_machine]; [reduce().unwrap()] panics for no instructions. *)
  Definition statements_to_machine (pc_bus exec_bus : N) (instrs : list (smach p * list (F p))) : option (smach p * allocator) :=
    match statements_to_machines pc_bus exec_bus instrs with
    | Some (m :: ms, a) => Some (fold_left sm_concat ms m, a)
    | _ => None
    end.
  (** lib.rs 218-253 [Apc::new]: the substitutions of columns that are used in the machine. *)
  Definition apc_subs (m : smach p) (a : allocator) : list (list (nat * N)) :=
    map (fun subs => filter (fun x => existsb (N.eqb (snd x)) (unique_ids m)) (enumerate subs)) (al_subs a).
End SymModel.

(** symbolic_machine_generator.rs 16-114: conversion of the field type. *)
Section Convert.
  Context {p q : positive} (f : F p -> F q).
  Fixpoint aconv (e : aexpr p) : aexpr q :=
    match e with ARef v => ARef v | ANum k => ANum (f k) | ABin l o r => ABin (aconv l) o (aconv r) | ANeg e => ANeg (aconv e) end.
  Definition sb_conv (b : sbus p) : sbus q := mkSB (sb_id b) (aconv (sb_mult b)) (map aconv (sb_args b)).
  Definition method_conv (m : amethod p) : amethod q := match m with AConst k => AConst (f k) | AQuot a b => AQuot (aconv a) (aconv b) end.
  Definition sm_conv (m : smach p) : smach q :=
    mkSM (map aconv (sm_cons m)) (map sb_conv (sm_buses m)) (map (fun d => (fst d, method_conv (snd d))) (sm_derived m)).
End Convert.
