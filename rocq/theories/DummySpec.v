(** What the chips that generate traces of a precompile should achieve. *)
From Coq Require Import Arith NArith Bool List.
From Verif Require Import NumModel AirModel CudaModel DummyModel.
Import ListNotations.

(** The AIR of a chip. *)
Definition air_of (c : chip) : DummyModel.air := match c with CPeriphery k _ => APeriphery k | COther name _ => AOther name end.
(** The chip that counts lookups of a bin. *)
Definition kind_of (b : bin) : kind := match b with BRange _ => KRange | BTuple _ => KTuple | BBit _ _ _ => KBitwise end.
(** The lookups of interactions of the rows of traces. *)
Definition lookups (ch : chips) (effects : list (N * N * list N)) : list bin :=
  flat_map (fun e => match apply_bus ch (fst (fst e)) (snd (fst e)) (snd e) with Some l => l | None => [] end) effects.
(** The last chip of an inventory whose AIR has a name. *)
Definition last_named (inv : list chip) (name : text) (c : chip) : Prop :=
  exists before after, inv = before ++ c :: after /\ air_name (air_of c) = name /\ Forall (fun c' => air_name (air_of c') <> name) after.
(** All chips of a VM have been created. *)
Definition existing (inv : list chip) (h : heap) : Prop := forall k l, In (CPeriphery k l) inv -> l < h_next h.
(** The buses of the lookups are those of chips of the VM. *)
Definition buses_of (ch : chips) (inv : list chip) : Prop :=
  (ch_bit ch <> None -> find_chip KBitwise inv <> None) /\ (ch_tuple ch <> None -> find_chip KTuple inv <> None).
