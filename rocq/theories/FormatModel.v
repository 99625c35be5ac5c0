(** Model of the printed form of instructions: openvm-riscv/src/isa/instruction_formatter.rs and format_fe of
    openvm/src/lib.rs, and of the functions that build instructions, symbolic_instruction_builder.rs.  A field element
    is its canonical number below the modulus [p], which is how it is printed. *)
From Coq Require Import Arith NArith ZArith Bool List Ascii String.
From Verif Require Import NumModel JsonModel ElfModel.
Import ListNotations.
Local Open Scope list_scope.

(** [Instruction] of OpenVM. *)
Record instruction := mkInstr { opcode : N; op_a : N; op_b : N; op_c : N; op_d : N; op_e : N; op_f : N; op_g : N }.

(** ** Printing *)
(** instruction_formatter.rs 51-107 [openvm_opcode_formatter] with the numbers of opcode.rs 49-104, which the tests
    163-189 there list. *)
Definition opcode_names : list (N * text) :=
  [(512%N, txt "ADD"); (513%N, txt "SUB"); (514%N, txt "XOR"); (515%N, txt "OR"); (516%N, txt "AND");
   (517%N, txt "SLL"); (518%N, txt "SRL"); (519%N, txt "SRA"); (520%N, txt "SLT"); (521%N, txt "SLTU");
   (528%N, txt "LOADW"); (529%N, txt "LOADBU"); (530%N, txt "LOADHU"); (531%N, txt "STOREW"); (532%N, txt "STOREH");
   (533%N, txt "STOREB"); (534%N, txt "LOADB"); (535%N, txt "LOADH");
   (544%N, txt "BEQ"); (545%N, txt "BNE"); (549%N, txt "BLT"); (550%N, txt "BLTU"); (551%N, txt "BGE"); (552%N, txt "BGEU");
   (560%N, txt "JAL"); (561%N, txt "LUI"); (565%N, txt "JALR"); (576%N, txt "AUIPC");
   (592%N, txt "MUL"); (593%N, txt "MULH"); (594%N, txt "MULHSU"); (595%N, txt "MULHU");
   (596%N, txt "DIV"); (597%N, txt "DIVU"); (598%N, txt "REM"); (599%N, txt "REMU");
   (608%N, txt "HINT_STOREW"); (609%N, txt "HINT_BUFFER");
   (1056%N, txt "BIGINT_BEQ"); (1057%N, txt "BIGINT_BNE"); (1061%N, txt "BIGINT_BLT"); (1062%N, txt "BIGINT_BLTU");
   (1063%N, txt "BIGINT_BGE"); (1064%N, txt "BIGINT_BGEU")].
Definition opcode_name (o : N) : text :=
  match find (fun x => (fst x =? o)%N) opcode_names with Some (_, t) => t | None => txt "<opcode " ++ print 10 o ++ txt ">" end.
(** openvm/src/lib.rs 107-114 [format_fe]. *)
Definition format_fe (p v : N) : text := if (v <? p / 2)%N then print 10 v else 45%N :: print 10 (p - v).
(** The arguments of a format string, each with the text before it. *)
Definition fields (l : list (text * text)) : text := flat_map (fun x => fst x ++ snd x) l.
Definition is_alu (o : N) : bool := (512 <=? o)%N && (o <=? 521)%N.
Definition is_load_store (o : N) : bool := (528 <=? o)%N && (o <=? 535)%N.
Definition is_branch (o : N) : bool := mem_addr o [549; 550; 551; 552; 544; 545]%N.
Definition is_listed (o : N) : bool := mem_addr o (all_opcodes_except_bigint ++ branch_opcodes_bigint).
(** instruction_formatter.rs 6-49 [openvm_instruction_formatter]; [None]: an assertion fails. *)
Definition format_instruction (p : N) (i : instruction) : option text :=
  let '(mkInstr o a b c d e f g) := i in
  let n := print 10 in
  if is_alu o then
    if (d =? 1)%N && (f =? 0)%N && (g =? 0)%N then
      Some (fields [([], opcode_name o); (txt " rd_ptr = ", n a); (txt ", rs1_ptr = ", n b); (txt ", rs2 = ", n c); (txt ", rs2_as = ", n e)])
    else None
  else if is_load_store o then
    if (d =? 1)%N then
      Some (fields [([], opcode_name o); (txt " rd_rs2_ptr = ", n a); (txt ", rs1_ptr = ", n b); (txt ", imm = ", n c); (txt ", mem_as = ", n e);
                    (txt ", needs_write = ", n f); (txt ", imm_sign = ", n g)])
    else None
  else if is_branch o then
    Some (fields [([], opcode_name o); (txt " ", n a); (txt " ", n b); (txt " ", format_fe p c); (txt " ", n d); (txt " ", n e)])
  else if is_listed o then
    Some (fields [([], opcode_name o); (txt " ", n a); (txt " ", n b); (txt " ", n c); (txt " ", n d); (txt " ", n e)])
  else
    Some (fields [([], opcode_name o); (txt " ", n a); (txt " ", n b); (txt " ", n c); (txt " ", n d); (txt " ", n e); (txt " ", n f); (txt " ", n g)]).

(** ** Building *)
Section Build.
  Variable p : N.
  (** [from_u32] and the negation of a field element. *)
  Definition from_u32 (x : N) : N := (x mod p)%N.
  Definition fneg (x : N) : N := ((p - x) mod p)%N.
  (** symbolic_instruction_builder.rs 6-37 [build_instr5]. *)
  Definition build_instr5 (code a b c d e : N) : instruction :=
    mkInstr code (from_u32 a) (from_u32 b) (from_u32 c) (from_u32 d) (from_u32 e) 0 0.
  (** 39-67 [alu_ops]. *)
  Definition alu_op (code rd_ptr rs1_ptr rs2 rs2_as : N) : instruction :=
    mkInstr code (from_u32 rd_ptr) (from_u32 rs1_ptr) (from_u32 rs2) 1 (from_u32 rs2_as) 0 0.
  (** 69-99 [ls_ops]. *)
  Definition ls_op (code rd_rs2_ptr rs1_ptr imm mem_as needs_write imm_sign : N) : instruction :=
    mkInstr code (from_u32 rd_rs2_ptr) (from_u32 rs1_ptr) (from_u32 imm) 1 (from_u32 mem_as) (from_u32 needs_write) (from_u32 imm_sign).
  (** 101-133 [branch_ops]; [None]: the negation of the least [i32] overflows. *)
  Definition branch_op (code rs1_ptr rs2_ptr : N) (imm : Z) : option instruction :=
    if (imm =? - 2 ^ 31)%Z then None
    else
      let c := if (0 <=? imm)%Z then from_u32 (Z.to_N imm) else fneg (from_u32 (Z.to_N (- imm))) in
      Some (mkInstr code (from_u32 rs1_ptr) (from_u32 rs2_ptr) c 1 1 0 0).
End Build.
(** 135-276: the opcodes of the functions of each kind. *)
Definition instr5_codes : list N := [560; 561; 565; 576; 592; 593; 594; 595; 596; 597; 598; 599; 608; 609]%N.
Definition alu_codes : list N := [512; 513; 514; 515; 516; 517; 518; 519; 520; 521]%N.
Definition ls_codes : list N := [528; 529; 530; 531; 532; 533; 534; 535]%N.
Definition branch_codes : list N := [544; 545; 549; 550; 551; 552]%N.
