(** Model of the OpenVM bus interaction handler (openvm-bus-interaction-handler/src) and of
    autoprecompiles/src/range_constraint_optimizer.rs. *)
From Coq Require Import NArith ZArith Bool List.
From Verif Require Import Field RangeModel ExprModel SolveModel SystemModel InlinerModel BaseModel.
Import ListNotations.
Local Open Scope F_scope.

(** autoprecompiles/src/bus_map.rs 4-16 [BusType] with openvm-bus-interaction-handler/src/bus_map.rs
    16-21 [OpenVmBusType] inlined. *)
Inductive btype :=
| BExec | BMemory | BPc
| BVarRange | BTuple (s0 s1 : N) | BBitwise.
(** Derived [PartialEq]. *)
Definition btype_eqb (a b : btype) : bool :=
  match a, b with
  | BExec, BExec | BMemory, BMemory | BPc, BPc | BVarRange, BVarRange | BBitwise, BBitwise => true
  | BTuple a0 a1, BTuple b0 b1 => (a0 =? b0)%N && (a1 =? b1)%N
  | _, _ => false
  end.
(** autoprecompiles/src/bus_map.rs 30-33 [BusMap]; the [BTreeMap] is an association list in the
    order of the keys. *)
Definition busmap := list (N * btype).
(** bus_map.rs 50-55 [bus_type]; [None] is the panic. *)
Fixpoint bus_type (m : busmap) (i : N) : option btype :=
  match m with [] => None | (j, t) :: m' => if (i =? j)%N then Some t else bus_type m' i end.
(** bus_map.rs 62-66 [get_bus_id]. *)
Fixpoint get_bus_id (m : busmap) (t : btype) : option N :=
  match m with [] => None | (j, t') :: m' => if btype_eqb t' t then Some j else get_bus_id m' t end.
(** lib.rs 60-71 [tuple_range_checker_sizes]; [None] is the [unwrap]. *)
Fixpoint tuple_sizes (m : busmap) : option (N * N) :=
  match m with [] => None | (_, BTuple a b) :: _ => Some (a, b) | _ :: m' => tuple_sizes m' end.
(** openvm-bus-interaction-handler/src/bus_map.rs 37-58 [default_openvm_bus_map]. *)
Definition default_openvm_bus_map : busmap :=
  [(0, BExec); (1, BMemory); (2, BPc); (3, BVarRange); (6, BBitwise); (7, BTuple 256 2048)]%N.

Section OvmModel.
  Context {p : positive}.
  Local Notation gexp := (gexp p).
  Local Notation rc := (rc p).
  Local Notation P := (N.pos p).

  (** number/src/plonky3_macros.rs 149-154 [From<u64>]: panics outside the field. *)
  Definition from_u64 (n : N) : option (F p) := if (n <? P)%N then Some (of_N n) else None.
  (** lib.rs 120-122 [byte_constraint]. *)
  Definition byte_constraint : rc := from_mask 255.

  (** bitwise_lookup.rs 9-66 [handle_bitwise_lookup]; [None] is a panic. *)
  Definition handle_bitwise (pl : list rc) : option (list rc) :=
    match pl with
    | [x; y; _; op] =>
      match try_to_single_value op with
      | Some k =>
        if (val k =? 0)%N then Some [byte_constraint; byte_constraint; from_value 0; from_value 0]
        else if (val k =? 1)%N then
          match try_to_single_value x, try_to_single_value y with
          | Some a, Some b =>
            match from_u64 (N.lxor (val a) (val b)) with
            | Some z => Some [from_value a; from_value b; from_value z; from_value 1]
            | None => None
            end
          | _, _ => Some [byte_constraint; byte_constraint;
                          conjunction (from_mask (N.lor (mask x) (mask y))) byte_constraint; from_value 1]
          end
        else None
      | None => Some [byte_constraint; byte_constraint; byte_constraint; from_mask 1]
      end
    | _ => None
    end.

  (** The slice pattern [address_space, pointer, data @ .., timestamp] with nonempty data. *)
  Definition split_memory {A} (pl : list A) : option (A * A * list A * A) :=
    match pl with
    | a :: q :: d :: rest =>
      match rev (d :: rest) with
      | ts :: x :: l => Some (a, q, rev (x :: l), ts)
      | _ => None
      end
    | _ => None
    end.
  (** memory.rs 11-55 [handle_memory]; [None] is a panic. *)
  Definition handle_memory (pl : list rc) (m : F p) : option (list rc) :=
    match split_memory pl with
    | None => None
    | Some (a, q, d, ts) =>
      if negb (feqb m (- (1))) then Some pl else
      match try_to_single_value a with
      | None => Some pl
      | Some k =>
        if (2 ^ 32 <=? val k)%N then None else
        if (val k =? 1)%N || (val k =? 2)%N then
          let zero := (val k =? 1)%N && match try_to_single_value q with Some x => is_zero x | None => false end in
          Some (a :: q :: map (fun _ => if zero then from_value 0 else byte_constraint) d ++ [ts])
        else Some pl
      end
    end.

  (** variable_range_checker.rs 9 [MAX_BITS]. *)
  Definition MAX_BITS : N := 25.
  (** variable_range_checker.rs 13-34 [handle_variable_range_checker]. *)
  Definition handle_var_range (pl : list rc) : option (list rc) :=
    match pl with
    | [_; bits] =>
      match try_to_single_value bits with
      | Some k => if (val k <=? MAX_BITS)%N then Some [from_mask (N.shiftl 1 (val k) - 1); bits]
                  else Some [from_mask (N.shiftl 1 MAX_BITS - 1); from_range 0 (of_N MAX_BITS)]
      | None => Some [from_mask (N.shiftl 1 MAX_BITS - 1); from_range 0 (of_N MAX_BITS)]
      end
    | _ => None
    end.

  (** tuple_range_checker.rs 19-26 [tuple_range_checker_ranges]; [None] is the underflow for a
      size of zero or the panic of [T::from]. *)
  Definition tuple_range (s : N) : option rc :=
    if (s =? 0)%N then None else
    match from_u64 (s - 1) with Some x => Some (from_range 0 x) | None => None end.
  Definition tuple_ranges (s0 s1 : N) : option (rc * rc) :=
    match tuple_range s0, tuple_range s1 with Some a, Some b => Some (a, b) | _, _ => None end.
  (** tuple_range_checker.rs 28-40 [handle_bus_interaction]. *)
  Definition handle_tuple (s0 s1 : N) (pl : list rc) : option (list rc) :=
    match pl with
    | [_; _] => match tuple_ranges s0 s1 with Some (a, b) => Some [a; b] | None => None end
    | _ => None
    end.

  (** lib.rs 76-117 [handle_bus_interaction]; [None] is a panic. *)
  Definition ovm_handle (m : busmap) (b : busi rc) : option (busi rc) :=
    match try_to_single_value (bus_id b), try_to_single_value (mult b) with
    | Some i, Some k =>
      if is_zero k then Some b else
      match bus_type m (val i) with
      | None => None
      | Some t =>
        match (match t with
               | BExec | BPc => Some (payload b)
               | BBitwise => handle_bitwise (payload b)
               | BMemory => handle_memory (payload b) k
               | BVarRange => handle_var_range (payload b)
               | BTuple s0 s1 => handle_tuple s0 s1 (payload b)
               end) with
        | Some pl => Some (mkBus (bus_id b) (mult b) pl)
        | None => None
        end
      end
    | _, _ => Some b
    end.
  (** The handler as passed to the solver.  Simplification: where the code panics the model
      carries on with the unchanged constraints, so it has more executions than the code. *)
  Definition ovm_total (m : busmap) (b : busi rc) : busi rc := match ovm_handle m b with Some b' => b' | None => b end.

  (** lib.rs 125-136 [is_stateful]; [None] is a panic. *)
  Definition is_stateful (m : busmap) (i : F p) : option bool :=
    match bus_type m (val i) with
    | None => None
    | Some BExec | Some BMemory => Some true
    | Some _ => Some false
    end.

  (** bitwise_lookup.rs 68-105 [bitwise_lookup_pure_range_constraints]; the outer [None] is a panic. *)
  Definition bitwise_pure (pl : list gexp) : option (option (list (gexp * rc))) :=
    match pl with
    | [x; y; z; op] =>
      if match try_to_known op with Some k => is_zero k | None => false end
      then Some (Some [(x, from_mask 255); (y, from_mask 255); (z, from_value 0)])
      else if gexp_eqb x y then Some (Some [(x, from_mask 255); (z, from_value 0); (op, from_mask 1)])
      else Some None
    | _ => None
    end.
  (** variable_range_checker.rs 36-51; shifting a [u64] by 64 or more panics. *)
  Definition var_range_pure (pl : list gexp) : option (option (list (gexp * rc))) :=
    match pl with
    | [x; bits] =>
      match try_to_known bits with
      | Some k => if (val k <? 64)%N then Some (Some [(x, from_mask (N.shiftl 1 (val k) - 1))]) else None
      | None => Some None
      end
    | _ => None
    end.
  (** tuple_range_checker.rs 42-53 [pure_range_constraints]. *)
  Definition tuple_pure (s0 s1 : N) (pl : list gexp) : option (option (list (gexp * rc))) :=
    match pl with
    | [x; y] => match tuple_ranges s0 s1 with Some (a, b) => Some (Some [(x, a); (y, b)]) | None => None end
    | _ => None
    end.
  (** lib.rs 139-163 [pure_range_constraints]; the outer [None] is a panic. *)
  Definition ovm_pure (m : busmap) (b : busi gexp) : option (option (list (gexp * rc))) :=
    match try_to_known (bus_id b) with
    | None => None
    | Some i =>
      match bus_type m (val i) with
      | None => None
      | Some BExec | Some BMemory | Some BPc => Some None
      | Some BBitwise => bitwise_pure (payload b)
      | Some BVarRange => var_range_pure (payload b)
      | Some (BTuple s0 s1) => tuple_pure s0 s1 (payload b)
      end
    end.

  (** range_constraint_optimizer.rs 153-160 [range_constraint_to_num_bits]. *)
  Definition rc_to_num_bits (r : rc) : option N :=
    find (fun k => rc_eqb r (from_mask (N.shiftl 1 k - 1))) (map N.of_nat (seq 0 30)).
  (** 163-175 [filter_byte_constraints]: the byte constraints (itertools [unique]) and the rest. *)
  Definition is_byte_rc (r : rc) : bool := match rc_to_num_bits r with Some k => (k =? 8)%N | None => false end.
  Fixpoint exprs_unique (seen l : list gexp) : list gexp :=
    match l with
    | [] => []
    | e :: l' => if existsb (gexp_eqb e) seen then exprs_unique seen l' else e :: exprs_unique (e :: seen) l'
    end.
  Definition filter_byte_constraints (l : list (gexp * rc)) : list gexp * list (gexp * rc) :=
    (exprs_unique [] (map fst (filter (fun er => is_byte_rc (snd er)) l)), filter (fun er => negb (is_byte_rc (snd er))) l).

  (** The results of [batch_make_range_constraints]. *)
  Inductive made := Made (bs : list (busi gexp)) | MakeError | MakePanic.
  (** lib.rs 199-207, 229-240, 253-265: an interaction with multiplicity one. *)
  Definition mk_check (m : busmap) (t : btype) (pl : list gexp) : option (busi gexp) :=
    match get_bus_id m t with
    | None => None
    | Some i => match from_u64 i with
                | Some k => Some (mkBus (from_number k) (from_number 1) pl)
                | None => None
                end
    end.
  Fixpoint all_some {A} (l : list (option A)) : option (list A) :=
    match l with
    | [] => Some []
    | Some x :: l' => match all_some l' with Some xs => Some (x :: xs) | None => None end
    | None :: _ => None
    end.
  (** lib.rs 212-241: chunks of two. *)
  Fixpoint byte_pairs (l : list gexp) : list (list gexp) :=
    match l with
    | [] => []
    | [x] => [[x; from_number 0; from_number 0; from_number 0]]
    | x :: y :: l' => [x; y; from_number 0; from_number 0] :: byte_pairs l'
    end.
  (** lib.rs 243-267: [None] is the error. *)
  Definition num_bits_list (l : list (gexp * rc)) : option (list (list gexp)) :=
    all_some (map (fun er => match rc_to_num_bits (snd er) with
                             | Some k => Some [fst er; from_number (of_N k)]
                             | None => None
                             end) l).
  (** lib.rs 165-274 [batch_make_range_constraints].  An error and a panic can only be told
      apart if no panic precedes the error, which is the case if the three buses exist. *)
  Definition batch_make (m : busmap) (l : list (gexp * rc)) : made :=
    let '(bytes, rest) := filter_byte_constraints l in
    match tuple_sizes m with
    | None => MakePanic
    | Some (s0, s1) =>
      match tuple_ranges s0 s1 with
      | None => MakePanic
      | Some (r0, r1) =>
        if negb (rc_eqb r0 (from_mask 255)) then MakePanic else
        let second := filter (fun er => rc_eqb (snd er) r1) rest in
        let others := filter (fun er => negb (rc_eqb (snd er) r1)) rest
                      ++ skipn (length bytes) second in
        let second := firstn (length bytes) second in
        let n := length second in
        match all_some (map (fun bs => mk_check m (BTuple s0 s1) [fst bs; fst (snd bs)]) (combine (firstn n bytes) second)),
              all_some (map (mk_check m BBitwise) (byte_pairs (skipn n bytes))) with
        | Some b1, Some b2 =>
          match num_bits_list others with
          | None => MakeError
          | Some pls => match all_some (map (mk_check m BVarRange) pls) with
                        | Some b3 => Made (b1 ++ b2 ++ b3)
                        | None => MakePanic
                        end
          end
        | _, _ => MakePanic
        end
      end
    end.

  (** ** range_constraint_optimizer.rs 58-138 [optimize_range_constraints] *)
  (** 80-90: the map of range constraints; kept in the order of first insertion, which is the
      order of [to_constrain] after [unique]. *)
  Fixpoint rc_merge (e : gexp) (r : rc) (l : list (gexp * rc)) : list (gexp * rc) :=
    match l with
    | [] => [(e, conjunction unconstrained r)]
    | (e', r') :: l' => if gexp_eqb e e' then (e', conjunction r' r) :: l' else (e', r') :: rc_merge e r l'
    end.
  (** 70-93: the bus interactions that stay and the collected constraints; [None] is a panic. *)
  Fixpoint collect_pure (m : busmap) (bs : list (busi gexp)) (l : list (gexp * rc)) : option (list (busi gexp) * list (gexp * rc)) :=
    match bs with
    | [] => Some ([], l)
    | b :: bs' =>
      if negb (gexp_eqb (mult b) (from_number 1)) then
        match collect_pure m bs' l with Some (k, l') => Some (b :: k, l') | None => None end
      else
        match ovm_pure m b with
        | None => None
        | Some None => match collect_pure m bs' l with Some (k, l') => Some (b :: k, l') | None => None end
        | Some (Some rs) => collect_pure m bs' (fold_left (fun acc er => rc_merge (fst er) (snd er) acc) rs l)
        end
    end.
  (** 97-98, 106: solve the remaining system and ask for the range constraints of the expressions;
      [None] is the failing [unwrap] (or more iterations than the fuel). *)
  Definition solver_ranges (h : busi rc -> busi rc) (fuel : nat) (c : csys p) (es : list gexp) : option (list rc) :=
    match solver_run h fuel ([AddAlgs (algs c); AddBuses (buses c); Solve] ++ map AskRange es) base_new with
    | (l, Done _) => Some (map (fun a => match a with Range _ r => r | _ => unconstrained end) (skipn 3 l))
    | _ => None
    end.
  (** 105-108: keep what is not implied. *)
  Definition not_implied (cur : rc) (er : gexp * rc) : bool := negb (rc_eqb cur (conjunction cur (snd er))).
  (** 112-126: bit constraints by polynomial constraints. *)
  Definition as_bit (bound : degree_bound) (er : gexp * rc) : bool :=
    rc_eqb (snd er) (from_mask 1) && Nat.leb (degree (assert_bool (fst er))) (db_identities bound).
  Definition optimize_range_constraints (m : busmap) (bound : degree_bound) (fuel : nat) (c : csys p) : option (csys p) :=
    match collect_pure m (buses c) [] with
    | None => None
    | Some (kept, l) =>
      let c1 := mkCS (algs c) kept (derived c) in
      match solver_ranges (ovm_total m) fuel c1 (map fst l) with
      | None => None
      | Some curs =>
        let l1 := map snd (filter (fun x => not_implied (fst x) (snd x)) (combine curs l)) in
        match batch_make m (filter (fun er => negb (as_bit bound er)) l1) with
        | Made bs => Some (mkCS (algs c ++ map (fun er => assert_bool (fst er)) (filter (as_bit bound) l1)) (kept ++ bs) (derived c))
        | _ => None
        end
      end
    end.
End OvmModel.
Arguments made : clear implicits.
