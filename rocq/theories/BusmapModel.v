(** Model of the table of buses: autoprecompiles/src/bus_map.rs, and the tables OpenVM makes of it. *)
From Coq Require Import NArith Bool List.
Import ListNotations.
Local Open Scope N_scope.

(** bus_map.rs 4-17 [BusType]. *)
Inductive bus_type_of (C : Type) := ExecutionBridge | Memory | PcLookup | Other (c : C).
Arguments ExecutionBridge {C}. Arguments Memory {C}. Arguments PcLookup {C}. Arguments Other {C}.
(** The derived [PartialEq]. *)
Definition type_eqb {C} (ceqb : C -> C -> bool) (a b : bus_type_of C) : bool :=
  match a, b with
  | ExecutionBridge, ExecutionBridge | Memory, Memory | PcLookup, PcLookup => true
  | Other x, Other y => ceqb x y
  | _, _ => false
  end.

Section Busmap.
  Context {C : Type} (ceqb : C -> C -> bool).
  Local Notation ty := (bus_type_of C).
  (** 31-33 [BusMap]: the entries of the [BTreeMap], in the order of their keys. *)
  Definition table := list (N * ty).
  (** 39-46: the entry of one pair. [inr] is the panic, with the two types its message names: the new one and the one in the table. *)
  Fixpoint enter (k : N) (v : ty) (m : table) : table + ty * ty :=
    match m with
    | [] => inl [(k, v)]
    | (k', v') :: r =>
        if k <? k' then inl ((k, v) :: m)
        else if k =? k' then if type_eqb ceqb v' v then inl m else inr (v, v')
        else match enter k v r with inl r' => inl ((k', v') :: r') | inr x => inr x end
    end.
  (** 37-48 [from_id_type_pairs]. *)
  Fixpoint enter_all (ps : list (N * ty)) (m : table) : table + ty * ty :=
    match ps with [] => inl m | (k, v) :: r => match enter k v m with inl m' => enter_all r m' | inr x => inr x end end.
  Definition from_id_type_pairs (ps : list (N * ty)) : table + ty * ty := enter_all ps [].
  (** 51-55 [bus_type]; [None] is the panic. *)
  Definition bus_type (m : table) (k : N) : option ty := match find (fun x => fst x =? k) m with Some x => Some (snd x) | None => None end.
  (** 58-60 [all_types_by_id]. *)
  Definition all_types_by_id (m : table) : table := m.
  (** 63-67 [get_bus_id]. *)
  Definition get_bus_id (m : table) (t : ty) : option N := match find (fun x => type_eqb ceqb (snd x) t) m with Some x => Some (fst x) | None => None end.
End Busmap.

(** openvm-bus-interaction-handler/src/bus_map.rs 17-21 [OpenVmBusType]. *)
Inductive vm_type := VariableRangeChecker | TupleRangeChecker (x y : N) | BitwiseLookup.
Definition vm_eqb (a b : vm_type) : bool :=
  match a, b with
  | VariableRangeChecker, VariableRangeChecker | BitwiseLookup, BitwiseLookup => true
  | TupleRangeChecker x y, TupleRangeChecker z w => (x =? z) && (y =? w)
  | _, _ => false
  end.
(** openvm-bus-interaction-handler/src/bus_map.rs 10-15, 37-58 [default_openvm_bus_map], lib.rs 44. *)
Definition default_pairs : list (N * bus_type_of vm_type) :=
  [(0, ExecutionBridge); (1, Memory); (2, PcLookup); (3, Other VariableRangeChecker); (6, Other BitwiseLookup); (7, Other (TupleRangeChecker (2 ^ 8) (8 * 2 ^ 8)))].
(** openvm/src/extraction_utils.rs 312-359 [bus_map], from the numbers OpenVM gave to the buses; the last two exist only if their chips
    do.  The numbers are 16 bits there, so that widening them changes nothing. *)
Definition vm_pairs (execution memory program range : N) (bitwise : option N) (tuple : option (N * (N * N))) : list (N * bus_type_of vm_type) :=
  [(execution, ExecutionBridge); (memory, Memory); (program, PcLookup); (range, Other VariableRangeChecker)] ++
  match bitwise with Some k => [(k, Other BitwiseLookup)] | None => [] end ++
  match tuple with Some (k, (x, y)) => [(k, Other (TupleRangeChecker x y))] | None => [] end.
