(** Model of the chips that generate traces of a precompile: openvm/src/lib.rs 277-330 [PowdrCpuProverExt] and 216-268 (GPU),
    openvm/src/powdr_extension/trace_generator/{cpu,cuda}/periphery.rs, cpu/mod.rs 90-142 and 206-225 [generate_witness],
    openvm-riscv/src/isa/trace_generator/{common,cpu,cuda}.rs.

    Chips of the periphery are shared (Rust's [Arc]): a chip is a location in a heap of counters, and cloning keeps the
    location.  What belongs to OpenVM is modelled by its contract: an inventory is a list of AIRs or of chips in the order of
    adding; [next_air] fails unless the AIR at the position of the next chip has the type of the chip; an extension takes the
    first chip of the periphery of a type if there is one, and adds a new one otherwise; the system starts with a new range
    checker.  A chip counts only with the chips of the periphery that it was given. *)
From Coq Require Import Arith NArith Bool List Ascii String.
From Verif Require Import NumModel JsonModel AirModel CudaModel.
Import ListNotations.
Local Open Scope list_scope.

Definition loc := nat.
(** [VariableRangeChecker], [BitwiseOperationLookup<8>] and [RangeTupleChecker<2>]. *)
Inductive kind := KRange | KBitwise | KTuple.
Definition kind_eqb (a b : kind) : bool := match a, b with KRange, KRange => true | KBitwise, KBitwise => true | KTuple, KTuple => true | _, _ => false end.
Inductive air := APeriphery (k : kind) | AOther (name : text).
Inductive chip := CPeriphery (k : kind) (l : loc) | COther (name : text) (uses : list (kind * loc)).
(** [Air::name]. *)
Definition air_name (a : air) : text :=
  match a with
  | APeriphery KRange => txt "VariableRangeCheckerAir"
  | APeriphery KBitwise => txt "BitwiseOperationLookupAir"
  | APeriphery KTuple => txt "RangeTupleCheckerAir"
  | AOther name => name
  end.
Definition air_eqb (a b : air) : bool :=
  match a, b with
  | APeriphery k, APeriphery k' => kind_eqb k k'
  | AOther n, AOther n' => if list_eq_dec N.eq_dec n n' then true else false
  | _, _ => false
  end.

(** The counters, and the next location that is free. *)
Record heap := mkHeap { h_next : loc; h_count : loc -> bin -> nat }.
(** A new chip has counted nothing. *)
Definition alloc (h : heap) : loc * heap :=
  (h_next h, mkHeap (S (h_next h)) (fun l b => if l =? h_next h then 0 else h_count h l b)).
Definition bin_eq_dec (a b : bin) : {a = b} + {a <> b}.
Proof. decide equality; apply N.eq_dec. Defined.
Definition count_up (l : loc) (b : bin) (h : heap) : heap :=
  mkHeap (h_next h) (fun l' b' => if (l' =? l) && (if bin_eq_dec b' b then true else false) then S (h_count h l' b') else h_count h l' b').
(** Generating the trace of a periphery chip may change its counters. *)
Definition count_reset (l : loc) (h : heap) : heap := mkHeap (h_next h) (fun l' b => if l' =? l then 0 else h_count h l' b).

(** ** Inventories (OpenVM) *)
Definition find_air (k : kind) (airs : list air) : bool := existsb (air_eqb (APeriphery k)) airs.
Fixpoint find_chip (k : kind) (inv : list chip) : option loc :=
  match inv with
  | [] => None
  | CPeriphery k' l :: r => if kind_eqb k k' then Some l else find_chip k r
  | COther _ _ :: r => find_chip k r
  end.
(** What an extension does, in order, for AIRs and for chips. *)
Inductive item := Needs (k : kind) | Adds (name : text).
Definition extension := list item.
Definition extend_air (airs : list air) (i : item) : list air :=
  match i with
  | Needs k => if find_air k airs then airs else airs ++ [APeriphery k]
  | Adds name => airs ++ [AOther name]
  end.
Definition extend_circuit (airs : list air) (x : extension) : list air := fold_left extend_air x airs.
(** [next_air] before a chip is added; [Err]: [ChipInventoryError]. *)
Definition add_checked (airs : list air) (inv : list chip) (a : air) (c : chip) : res (list chip) :=
  match nth_error airs (List.length inv) with
  | Some b => if air_eqb a b then Ok (inv ++ [c]) else Err
  | None => Err
  end.
(** A chip can use what the inventory has at this moment. *)
Definition found (k : kind) (inv : list chip) : list (kind * loc) := match find_chip k inv with Some l => [(k, l)] | None => [] end.
Definition extend_chip (airs : list air) (st : list chip * heap) (i : item) : res (list chip * heap) :=
  let '(inv, h) := st in
  match i with
  | Needs k =>
    match find_chip k inv with
    | Some _ => Ok st
    | None => let '(l, h) := alloc h in match add_checked airs inv (APeriphery k) (CPeriphery k l) with Ok inv => Ok (inv, h) | Err => Err | Panic => Panic end
    end
  | Adds name =>
    match add_checked airs inv (AOther name) (COther name (found KRange inv ++ found KBitwise inv ++ found KTuple inv)) with
    | Ok inv => Ok (inv, h) | Err => Err | Panic => Panic
    end
  end.
Fixpoint extend_prover (airs : list air) (st : list chip * heap) (x : extension) : res (list chip * heap) :=
  match x with
  | [] => Ok st
  | i :: x => match extend_chip airs st i with Ok st => extend_prover airs st x | Err => Err | Panic => Panic end
  end.
(** The system: its range checker and other AIRs, which depend on its configuration. *)
Definition system_items (others : list text) : extension := Needs KRange :: map Adds others.

(** ** The periphery of a precompile *)
(** cpu/periphery.rs 36-42 and cuda/periphery.rs 34-40. *)
Record periphery := mkPeriphery { p_bitwise : option loc; p_range : loc; p_tuple : option loc }.
(** 25-34 [PowdrPeripheryInstances]. *)
Record instances := mkInstances { i_real : periphery; i_dummy : periphery }.
Definition new_like (o : option loc) (h : heap) : option loc * heap :=
  match o with Some _ => let '(l, h) := alloc h in (Some l, h) | None => (None, h) end.
(** cpu/periphery.rs 44-78, cuda/periphery.rs 42-83 [new]. *)
Definition new_instances (range : loc) (bitwise tuple : option loc) (h : heap) : instances * heap :=
  let '(dummy_bitwise, h) := new_like bitwise h in
  let '(dummy_tuple, h) := new_like tuple h in
  (mkInstances (mkPeriphery bitwise range tuple) (mkPeriphery dummy_bitwise range dummy_tuple), h).
(** lib.rs 294-318 and 229-253; [None]: [unwrap]. *)
Definition prover_instances (inv : list chip) (h : heap) : option (instances * heap) :=
  match find_chip KRange inv with
  | Some range => Some (new_instances range (find_chip KBitwise inv) (find_chip KTuple inv) h)
  | None => None
  end.

Inductive backend := Cpu | Gpu.
Definition is_some {A} (o : option A) : bool := match o with Some _ => true | None => false end.
(** cpu/periphery.rs 97-127, cuda/periphery.rs 102-148: [Panic] is a failed assertion. *)
Definition periphery_airs (b : backend) (s : periphery) (airs : list air) : res (list air) :=
  if is_some (p_bitwise s) && find_air KBitwise airs then Panic else
  let airs := if is_some (p_bitwise s) then airs ++ [APeriphery KBitwise] else airs in
  if is_some (p_tuple s) && find_air KTuple airs then Panic else
  let airs := if is_some (p_tuple s) then airs ++ [APeriphery KTuple] else airs in
  let fine := match b with Cpu => find_air KRange airs | Gpu => List.length (filter (air_eqb (APeriphery KRange)) airs) <=? 1 end in
  if fine then Ok airs else Panic.
(** cpu/periphery.rs 145-178, cuda/periphery.rs 157-187: without [next_air]. *)
Definition periphery_chips (s : periphery) (inv : list chip) : res (list chip) :=
  if is_some (p_bitwise s) && is_some (find_chip KBitwise inv) then Panic else
  let inv := match p_bitwise s with Some l => inv ++ [CPeriphery KBitwise l] | None => inv end in
  if is_some (p_tuple s) && is_some (find_chip KTuple inv) then Panic else
  let inv := match p_tuple s with Some l => inv ++ [CPeriphery KTuple l] | None => inv end in
  if is_some (find_chip KRange inv) then Ok inv else Panic.

(** ** Dummy inventories: trace_generator/common.rs, cpu.rs and cuda.rs *)
Record config := mkConfig {
  c_system : list text; c_rv32i : option extension; c_io : option extension; c_keccak : option extension; c_sha2 : option extension;
  c_rv32m : option extension; c_bigint : option extension; c_modular : option extension; c_fp2 : option extension;
  c_pairing : option extension; c_ecc : option extension; c_deferral : option extension }.
Definition if_some (o : option extension) : extension := match o with Some x => x | None => [] end.
(** common.rs 6-54. *)
Definition create_dummy_airs (b : backend) (c : config) (s : periphery) : res (list air) :=
  match periphery_airs b s (extend_circuit [] (system_items (c_system c))) with
  | Ok airs =>
    let airs := extend_circuit airs (if_some (c_rv32i c)) in
    let airs := extend_circuit airs (if_some (c_io c)) in
    let airs := extend_circuit airs (if_some (c_keccak c)) in
    let airs := extend_circuit airs (if_some (c_sha2 c)) in
    let airs := extend_circuit airs (if_some (c_rv32m c)) in
    let airs := extend_circuit airs (if_some (c_bigint c)) in
    let airs := extend_circuit airs (if_some (c_modular c)) in
    let airs := extend_circuit airs (if_some (c_fp2 c)) in
    let airs := extend_circuit airs (if_some (c_pairing c)) in
    let airs := extend_circuit airs (if_some (c_ecc c)) in
    let airs := extend_circuit airs (if_some (c_deferral c)) in
    Ok airs
  | Err => Err
  | Panic => Panic
  end.
Definition and_then {A B} (r : res A) (f : A -> res B) : res B := match r with Ok a => f a | Err => Err | Panic => Panic end.
(** cpu.rs 20-122, cuda.rs 15-80. *)
Definition create_dummy_chips (c : config) (airs : list air) (s : periphery) (h : heap) : res (list chip * heap) :=
  and_then (extend_prover airs ([], h) (system_items (c_system c))) (fun st =>
  and_then (periphery_chips s (fst st)) (fun inv =>
  and_then (extend_prover airs (inv, snd st) (if_some (c_rv32i c))) (fun st =>
  and_then (extend_prover airs st (if_some (c_io c))) (fun st =>
  and_then (extend_prover airs st (if_some (c_keccak c))) (fun st =>
  and_then (extend_prover airs st (if_some (c_sha2 c))) (fun st =>
  and_then (extend_prover airs st (if_some (c_rv32m c))) (fun st =>
  and_then (extend_prover airs st (if_some (c_bigint c))) (fun st =>
  and_then (extend_prover airs st (if_some (c_modular c))) (fun st =>
  and_then (extend_prover airs st (if_some (c_fp2 c))) (fun st =>
  and_then (extend_prover airs st (if_some (c_pairing c))) (fun st =>
  and_then (extend_prover airs st (if_some (c_ecc c))) (fun st =>
  extend_prover airs st (if_some (c_deferral c)))))))))))))).

(** ** Generating a trace: cpu/mod.rs 93-142 and 206-225 *)
Section Generate.
  Context {R : Type}.
  (** What a chip requests from its periphery when it generates its trace from these records. *)
  Variable requests : text -> R -> list (kind * bin).
  Fixpoint request (uses : list (kind * loc)) (k : kind) (b : bin) (h : heap) : heap :=
    match uses with [] => h | (k', l) :: r => if kind_eqb k k' then count_up l b h else request r k b h end.
  Definition run_chip (c : chip) (records : R) (h : heap) : heap :=
    match c with
    | CPeriphery k l => count_reset l h
    | COther name uses => fold_left (fun h q => request uses (fst q) (snd q) h) (requests name records) h
    end.
  (** executor/mod.rs [take_real_arena]. *)
  Fixpoint take_arena (name : text) (arenas : list (text * R)) : option (R * list (text * R)) :=
    match arenas with
    | [] => None
    | (n, r) :: rest =>
      if list_eq_dec N.eq_dec n name then Some (r, rest)
      else match take_arena name rest with Some (x, rest) => Some (x, (n, r) :: rest) | None => None end
    end.
  (** 118-142, for the positions of chips from the last to the first; [None]: there is no AIR at a position. *)
  Fixpoint run_dummies (airs : list air) (inv : list chip) (positions : list nat) (arenas : list (text * R)) (h : heap) : option (list (text * (chip * R)) * heap) :=
    match positions with
    | [] => Some ([], h)
    | i :: rest =>
      match nth_error inv i, nth_error airs i with
      | Some c, Some a =>
        match take_arena (air_name a) arenas with
        | Some (records, arenas) =>
          match run_dummies airs inv rest arenas (run_chip c records h) with
          | Some (out, h) => Some ((air_name a, (c, records)) :: out, h)
          | None => None
          end
        | None => run_dummies airs inv rest arenas h
        end
      | _, _ => None
      end
    end.
  (** periphery.rs 179-236 [apply] on the real chips; [None]: a panic. *)
  Definition apply_bin (s : periphery) (h : heap) (b : bin) : option heap :=
    match b with
    | BRange _ => Some (count_up (p_range s) b h)
    | BTuple _ => option_map (fun l => count_up l b h) (p_tuple s)
    | BBit _ _ _ => option_map (fun l => count_up l b h) (p_bitwise s)
    end.
  Fixpoint apply_bins (s : periphery) (h : heap) (l : list bin) : option heap :=
    match l with [] => Some h | b :: r => match apply_bin s h b with Some h => apply_bins s h r | None => None end end.
  Fixpoint apply_all (ch : chips) (s : periphery) (h : heap) (effects : list (N * N * list N)) : option heap :=
    match effects with
    | [] => Some h
    | (id, mult, args) :: r =>
      match apply_bus ch id mult args with
      | Some bins => match apply_bins s h bins with Some h => apply_all ch s h r | None => None end
      | None => None
      end
    end.
  (** The traces of the original AIRs.  [replayed] are the interactions of the rows of the trace (computed from these traces). *)
  Definition generate_witness (b : backend) (c : config) (ch : chips) (pair : instances) (arenas : list (text * R))
      (replayed : list (text * (chip * R)) -> list (N * N * list N)) (h : heap) : option (list (text * (chip * R)) * heap) :=
    match create_dummy_airs b c (i_dummy pair) with
    | Ok airs =>
      match create_dummy_chips c airs (i_dummy pair) h with
      | Ok (inv, h) =>
        match run_dummies airs inv (rev (seq 0 (List.length inv))) arenas h with
        | Some (out, h) => match apply_all ch (i_real pair) h (replayed out) with Some h => Some (out, h) | None => None end
        | None => None
        end
      | _ => None
      end
    | _ => None
    end.
  (** All precompiles of a VM share the periphery (lib.rs 320-332); one generation after the other. *)
  Fixpoint generate_all (b : backend) (c : config) (ch : chips) (pair : instances)
      (calls : list (list (text * R) * (list (text * (chip * R)) -> list (N * N * list N)))) (h : heap) : option (list (list (text * (chip * R))) * heap) :=
    match calls with
    | [] => Some ([], h)
    | (arenas, replayed) :: calls =>
      match generate_witness b c ch pair arenas replayed h with
      | Some (out, h) => match generate_all b c ch pair calls h with Some (outs, h) => Some (out :: outs, h) | None => None end
      | None => None
      end
    end.
End Generate.
