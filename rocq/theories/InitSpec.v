(** Specification for C78: the words in memory before a program starts. *)
From Coq Require Import NArith ZArith List.
From Verif Require Import ElfModel ElfSpec.
Import ListNotations.
Local Open Scope N_scope.

(** The file has the word [v], which is not zero, at the address [a] of its data; the last word of a section is filled up with zeros. *)
Definition word_at (e : elf) (a v : N) : Prop :=
  exists s bytes k, In s (e_segs e) /\ s_exec s = false /\ s_data s = Some bytes /\ (4 * k < length bytes)%nat /\
    a = s_vaddr s + N.of_nat (4 * k) /\ v = le_bytes (firstn 4 (skipn (4 * k) bytes)) /\ v <> 0.
(** A relocation of a program at a fixed address is about the word at [a]. *)
Definition relocated (e : elf) (a : N) : Prop := exists r, In r (e_relocs e) /\ w32 (r_offset r) = a /\ data_address (e_segs e) a.
(** The last relocation of a position-independent program that is about the word at [a] sets it to [v]. *)
Definition set_to (rs : list reloc) (a v : N) : Prop :=
  exists l1 r l2 z, rs = l1 ++ r :: l2 /\ w32 (r_offset r) = a /\ r_addend r = Some z /\ (Z.of_N v = z mod 2 ^ 32)%Z /\ forall r', In r' l2 -> w32 (r_offset r') <> a.
(** What memory holds at [a]: a number, or the address of code. *)
Inductive holds (e : elf) (a : N) : data -> Prop :=
| fixed_code v : e_dyn e = false -> word_at e a v -> relocated e a -> text_address (e_segs e) v -> holds e a (TextLabel v)
| fixed_number v : e_dyn e = false -> word_at e a v -> ~ (relocated e a /\ text_address (e_segs e) v) -> holds e a (Value v)
| moved_code v : e_dyn e = true -> set_to (e_dynrelas e) a v -> text_address (e_segs e) v -> holds e a (TextLabel v)
| moved_number v : e_dyn e = true -> set_to (e_dynrelas e) a v -> ~ text_address (e_segs e) v -> holds e a (Value v)
| moved_word v : e_dyn e = true -> word_at e a v -> (forall r, In r (e_dynrelas e) -> w32 (r_offset r) <> a) -> holds e a (Value v).
