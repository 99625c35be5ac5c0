(** Model of autoprecompiles/src/memory_optimizer.rs with the memory bus interactions of
    openvm-bus-interaction-handler/src/memory_bus_interaction.rs, and of [optimize_exec_bus] in
    autoprecompiles/src/optimizer.rs.  Line numbers refer to memory_optimizer.rs unless a file is named.
    A panic is [None]. *)
From Coq Require Import Arith NArith Bool List.
From Verif Require Import Field ExprModel SystemModel SymModel.
Import ListNotations.

(** 50-57 [MemoryOp]. *)
Inductive memop := GetPrevious | SetNew.

Section MemModel.
  Context {p : positive}.
  Local Open Scope F_scope.
  Local Notation gexp := (gexp p).
  (** memory_bus_interaction.rs 16-30 [OpenVmMemoryBusInteraction], [OpenVmAddress]. *)
  Record memint := mkMI { mi_op : memop; mi_space : F p; mi_local : gexp; mi_data : list gexp; mi_ts : list gexp }.
  Inductive conversion := NotMemory | Unclear | Panics | Access (m : memint).
  (** memory_bus_interaction.rs 49-81 [try_from_bus_interaction]: [NotMemory] is [Ok(None)], [Unclear] is [Err];
      the bus id as a field element panics if it is not below the modulus. *)
  Definition split_last {A} (l : list A) : option (list A * A) :=
    match rev l with [] => None | x :: r => Some (rev r, x) end.
  Definition try_from_bus (id : N) (b : busi gexp) : conversion :=
    match try_to_known (bus_id b) with
    | None => Unclear
    | Some k =>
      if negb (id <? N.pos p)%N then Panics
      else if negb (feqb k (of_N id)) then NotMemory
      else
        let rest (op : memop) :=
          match payload b with
          | space :: local :: r =>
            match split_last r with
            | None => Panics
            | Some (data, ts) => match try_to_known space with Some sp => Access (mkMI op sp local data [ts]) | None => Panics end
            end
          | _ => Panics
          end in
        match try_to_known (mult b) with
        | Some n => if is_one n then rest SetNew else if feqb n (fopp 1) then rest GetPrevious else Unclear
        | None => Unclear
        end
    end.
  (** memory_bus_interaction.rs 32-42; 98-112 [Address]. *)
  Definition address := list gexp.
  Definition mi_addr (m : memint) : address := [from_number (mi_space m); mi_local m].
  Fixpoint addr_eqb (a b : address) : bool :=
    match a, b with [], [] => true | x :: a, y :: b => gexp_eqb x y && addr_eqb a b | _, _ => false end.
  (** 114-130 [MemoryContent]. *)
  Record mcontent := mkMC { mc_index : nat; mc_data : list gexp; mc_ts : list gexp }.
  (** The hash map of contents; [mem_get] and [mem_remove] together are [HashMap::remove]. *)
  Definition contents := list (address * mcontent).
  Fixpoint mem_get (a : address) (m : contents) : option mcontent :=
    match m with [] => None | (b, c) :: m' => if addr_eqb a b then Some c else mem_get a m' end.
  Definition mem_remove (a : address) (m : contents) : contents := filter (fun bc => negb (addr_eqb a (fst bc))) m.
  (** The solver: its state and the answer to [are_expressions_known_to_be_different] ([None]: it panics). *)
  Context {S : Type} (diff : S -> gexp -> gexp -> option bool * S).
  (** [any] stops at the first component that is known to be different. *)
  Fixpoint any_diff (st : S) (l : list (gexp * gexp)) : option bool * S :=
    match l with
    | [] => (Some false, st)
    | (a, b) :: r => match diff st a b with
                     | (None, st1) => (None, st1)
                     | (Some true, st1) => (Some true, st1)
                     | (Some false, st1) => any_diff st1 r
                     end
    end.
  (** 197-204: the contents that are retained; [ord] is the order in which the hash map is visited. *)
  Context (ord : contents -> contents).
  Fixpoint retain (st : S) (a : address) (m : contents) : option (contents * S) :=
    match m with
    | [] => Some ([], st)
    | (b, c) :: m' =>
      match zip_eq a b with
      | None => None
      | Some l => match any_diff st l with
                  | (None, _) => None
                  | (Some keep, st1) => match retain st1 a m' with
                                        | None => None
                                        | Some (m1, st2) => Some (if keep then ((b, c) :: m1, st2) else (m1, st2))
                                        end
                  end
      end
    end.
  (** 176-188: equations between the contents of the two interactions. *)
  Definition equate (c : mcontent) (m : memint) : option (list gexp) :=
    match zip_eq (mc_data c) (mi_data m), zip_eq (mc_ts c) (mi_ts m) with
    | Some d, Some t => Some (map (fun x => gsub (fst x) (snd x)) (d ++ t))
    | _, _ => None
    end.
  (** 133-219 [redundant_memory_interactions_indices]. *)
  Record mstate := mkMS { ms_mem : contents; ms_remove : list nat; ms_new : list gexp; ms_solver : S }.
  Definition mem_step (id : N) (x : mstate) (ib : nat * busi gexp) : option mstate :=
    match try_from_bus id (snd ib) with
    | Panics => None
    | NotMemory => Some x
    | Unclear => Some (mkMS [] (ms_remove x) (ms_new x) (ms_solver x))
    | Access m =>
      match mi_op m with
      | GetPrevious =>
        match mem_get (mi_addr m) (ms_mem x) with
        | None => Some x
        | Some c => match equate c m with
                    | None => None
                    | Some eqs => Some (mkMS (mem_remove (mi_addr m) (ms_mem x)) (ms_remove x ++ [fst ib; mc_index c]) (ms_new x ++ eqs) (ms_solver x))
                    end
        end
      | SetNew =>
        match retain (ms_solver x) (mi_addr m) (ord (ms_mem x)) with
        | None => None
        | Some (mem, st) =>
          Some (mkMS ((mi_addr m, mkMC (fst ib) (mi_data m) (mi_ts m)) :: mem_remove (mi_addr m) mem) (ms_remove x) (ms_new x) st)
        end
      end
    end.
  Fixpoint mem_loop (id : N) (l : list (nat * busi gexp)) (x : mstate) : option mstate :=
    match l with [] => Some x | ib :: r => match mem_step id x ib with Some x' => mem_loop id r x' | None => None end end.
  (** 16-48 [optimize_memory]: the new system, the constraints handed to the solver and the solver before that. *)
  Definition optimize_memory (c : csys p) (st : S) (memory_bus : option N) : option (csys p * list gexp * S) :=
    match memory_bus with
    | None => Some (c, [], st)
    | Some id =>
      match mem_loop id (enumerate (buses c)) (mkMS [] [] [] st) with
      | None => None
      | Some x =>
        Some (mkCS (algs c ++ ms_new x) (map snd (filter (fun ib => negb (existsb (Nat.eqb (fst ib)) (ms_remove x))) (enumerate (buses c)))) (derived c),
              ms_new x, ms_solver x)
      end
    end.

  (** optimizer.rs 199-249 [optimize_exec_bus]. *)
  Record estate := mkES { es_seen : bool; es_receive : bool; es_send : option (sbus p); es_new : list (aexpr p); es_kept : list (sbus p) }.
  Definition exec_step (id : N) (x : estate) (b : sbus p) : option estate :=
    if negb (sb_id b =? id)%N then Some (mkES (es_seen x) (es_receive x) (es_send x) (es_new x) (es_kept x ++ [b]))
    else if negb (es_seen x) then Some (mkES true (negb (es_receive x)) (es_send x) (es_new x) (es_kept x ++ [b]))
    else if negb (es_receive x) then Some (mkES true (negb (es_receive x)) (Some b) (es_new x) (es_kept x))
    else match es_send x with
         | None => None
         | Some s => match zip_eq (sb_args b) (sb_args s) with
                     | None => None
                     | Some l => Some (mkES true (negb (es_receive x)) (Some s) (es_new x ++ map (fun z => constraint_from (ABin (fst z) OSub (snd z))) l) (es_kept x))
                     end
         end.
  Fixpoint exec_loop (id : N) (l : list (sbus p)) (x : estate) : option estate :=
    match l with [] => Some x | b :: r => match exec_step id x b with Some x' => exec_loop id r x' | None => None end end.
  Definition optimize_exec_bus (m : smach p) (id : N) : option (smach p) :=
    match exec_loop id (sm_buses m) (mkES false true None [] []) with
    | Some x => match es_send x with Some s => Some (mkSM (sm_cons m ++ es_new x) (es_kept x ++ [s]) (sm_derived m)) | None => None end
    | None => None
    end.
End MemModel.
Arguments memint : clear implicits. Arguments contents : clear implicits. Arguments mcontent : clear implicits. Arguments mstate : clear implicits. Arguments estate : clear implicits.
