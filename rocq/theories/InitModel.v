(** Model of the initial memory and the start of a loaded program, riscv-elf/src/lib.rs 302-324, 394-400.  Loading itself is
    the model of C54 ([ElfModel]), the symbol table that of C60 ([DbgModel]). *)
From Coq Require Import NArith List.
From Verif Require DbgModel.
From Verif Require Import ElfModel.
Import ListNotations.
Local Open Scope N_scope.

(** isa-utils/src/lib.rs 1-11 [SingleDataValue] (without the unsupported [Offset]), riscv-types/src/lib.rs 90-94 [MemEntry]. *)
Inductive mem_value := LabelReference (n : DbgModel.text) | MemValue (v : N).
Record mem_entry := mkEntry { m_label : option DbgModel.text; m_addr : N; m_value : mem_value }.

Section Mem.
  Variable t : DbgModel.table.
  (** The notes by their addresses: [self.dbg.notes.get]. *)
  Variable notes : N -> option DbgModel.text.
  (** 302-324 [take_initial_mem]. *)
  Definition entry_of (e : N * data) : mem_entry :=
    let '(addr, d) := e in
    let value := match d with TextLabel l => LabelReference (DbgModel.get_one t l) | Value v => MemValue v end in
    let label := match notes addr with Some n => Some n | None => DbgModel.try_get_one t addr end in
    mkEntry label addr value.
  Definition take_initial_mem (p : elf_program) : list mem_entry := map entry_of (p_data p).
  (** 398-400 [start_function]. *)
  Definition start_function (p : elf_program) : DbgModel.text := DbgModel.get_one t (p_entry p).
End Mem.
