(** The labels and known jumps of a 64-bit program. *)
From Coq Require Import Arith NArith ZArith Bool List.
From Verif Require Import ElfModel ElfSpec WideModel.
Import ListNotations.
Local Open Scope N_scope.

(** Four bytes of the file, the lowest first. *)
Definition word_at (file : list N) (o : nat) (w : N) : Prop :=
  exists a b c d, nth_error file o = Some a /\ nth_error file (o + 1) = Some b /\ nth_error file (o + 2) = Some c /\ nth_error file (o + 3) = Some d /\
    w = a + 256 * b + 256 ^ 2 * c + 256 ^ 3 * d.
Section WideSpec.
  Variable decode64 : N -> option ins.
  Variable file : list N.
  (** Instruction number [k] of an executable segment. *)
  Definition code64 (ph : phdr64) (k : nat) (i : ins) : Prop :=
    ph_exec ph = true /\ N.of_nat (4 * k + 4) <= ph_filesz ph /\ exists w, word_at file (N.to_nat (ph_offset ph) + 4 * k) w /\ decode64 w = Some i.
  Definition addr64 (ph : phdr64) (k : nat) : N := ph_vaddr ph + 4 * N.of_nat k.
  (** The jumps with a target that is known: jumps and branches relative to their address; and JALR after AUIPC, if the register that
      JALR writes is the source register of AUIPC (C54_wide: there is none). *)
  Inductive known_jump (ph : phdr64) : jump -> Prop :=
  | known_jal k i z : code64 ph k i -> i_op i = JAL -> i_imm i = Some z -> known_jump ph (mkJump (to_u64 (Z.of_N (addr64 ph k) + z)) (addr64 ph k) (TJal (i_rd i)))
  | known_branch k i z : code64 ph k i -> is_jump (i_op i) = true -> i_op i <> JAL -> i_imm i = Some z ->
      known_jump ph (mkJump (to_u64 (Z.of_N (addr64 ph k) + z)) (addr64 ph k) (TBranch (i_op i) (i_rs1 i) (i_rs2 i)))
  | known_pair k i i' h l : code64 ph k i -> i_op i = AUIPC -> code64 ph (S k) i' -> i_op i' = JALR -> i_rd i' = i_rs1 i -> i_imm i = Some h -> i_imm i' = Some l ->
      known_jump ph (mkJump (to_u64 (Z.of_N (addr64 ph (S k)) + h + l)) (addr64 ph (S k)) TPair).
  (** A symbol at an address of an executable segment, other than zero. *)
  Definition text_symbol (e : elf64) (a : N) (s : sym64) : Prop :=
    In s (e_syms e) /\ s_value s = a /\ a <> 0 /\ exists ph, In ph (e_phs e) /\ ph_exec ph = true /\ ph_vaddr ph <= a < ph_vaddr ph + ph_memsz ph.
  (** A segment that can be read: it is in the file, and a sequence of instructions of 32 bits. *)
  Definition readable (ph : phdr64) : Prop :=
    ph_offset ph + ph_filesz ph <= N.of_nat (length file) /\ ph_filesz ph mod 4 = 0 /\
    forall k, N.of_nat (4 * k + 4) <= ph_filesz ph ->
      exists a w i, nth_error file (N.to_nat (ph_offset ph) + 4 * k) = Some a /\ a mod 4 = 3 /\ word_at file (N.to_nat (ph_offset ph) + 4 * k) w /\ decode64 w = Some i.
End WideSpec.
