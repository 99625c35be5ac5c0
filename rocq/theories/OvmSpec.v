(** What the OpenVM buses accept. *)
From Coq Require Import NArith ZArith Bool List.
From Verif Require Import Field RangeModel ExprModel SystemModel Spec OvmModel.
Import ListNotations.
Local Open Scope N_scope.

Section OvmSpec.
  Context {p : positive}.
  Definition byte (x : F p) : Prop := val x < 256.
  (** The tuples a bus of type [t] accepts with multiplicity [k]: the lookup tables of OpenVM, and
      for the memory bus the facts OpenVM guarantees about values received from it (everything
      written to registers and memory is a byte, register 0 is always zero). *)
  Definition accepts (t : btype) (k : F p) (pl : list (F p)) : Prop :=
    match t with
    | BExec | BPc => True
    | BBitwise => exists x y z op, pl = [x; y; z; op] /\ byte x /\ byte y /\
        ((val op = 0 /\ val z = 0) \/ (val op = 1 /\ val z = N.lxor (val x) (val y)))
    | BVarRange => exists x bits, pl = [x; bits] /\ val bits <= 25 /\ val x < 2 ^ val bits
    | BTuple s0 s1 => exists x y, pl = [x; y] /\ val x < s0 /\ val y < s1
    | BMemory => exists a ptr data ts, pl = a :: ptr :: data ++ [ts] /\ data <> [] /\ val a < 2 ^ 32 /\
        (k = fopp fone ->
          ((val a = 1 \/ val a = 2) -> Forall byte data) /\
          (val a = 1 -> val ptr = 0 -> Forall (fun x => val x = 0) data))
    end.
  (** A bus interaction with multiplicity zero is always fine, any other one has to be accepted by its bus. *)
  Definition legal (m : busmap) (v : busi (F p)) : Prop :=
    mult v = fzero \/ exists t, In (val (bus_id v), t) m /\ accepts t (mult v) (payload v).
  (** Bus identifiers are distinct field elements; the sizes of the tuple range checker are
      positive and at most 2^25. *)
  Definition map_ok (m : busmap) : Prop :=
    NoDup (map fst m) /\
    forall i t, In (i, t) m -> i < N.pos p /\
      match t with BTuple s0 s1 => 1 <= s0 <= 2 ^ 25 /\ 1 <= s1 <= 2 ^ 25 | _ => True end.
  (** What a row sends to and receives from the execution and memory buses, which keep state
      outside the circuit. *)
  Definition keeps_state (m : busmap) (v : busi (F p)) : bool :=
    existsb (fun it => (fst it =? val (bus_id v)) && match snd it with BExec | BMemory => true | _ => false end) m.
  Definition state_events (m : busmap) (s : var -> F p) (c : csys p) : list (busi (F p)) :=
    filter (keeps_state m) (bus_values s c).
  (** No variable range check of multiplicity one asks for a constant number of bits above 25. *)
  Definition bits_in_table (m : busmap) (b : busi (gexp p)) : Prop :=
    forall i x bits, mult b = from_number 1%F -> bus_id b = from_number i -> In (val i, BVarRange) m -> payload b = [x; from_number bits] -> val bits <= 25.
  Definition in_range (s : var -> F p) (er : gexp p * rc p) : Prop := rc_allows (snd er) (eval s (fst er)).
End OvmSpec.
Arguments map_ok p m : clear implicits.
