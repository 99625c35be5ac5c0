(** What a program refers to, and how it is executed, independently of how labels are found. *)
From Coq Require Import Arith NArith ZArith Bool List.
From Verif Require Import BlocksModel ElfModel.
Import ListNotations.
Local Open Scope N_scope.

Definition is_jump (o : opcode) : bool := match o with JAL | BEQ | BNE | BLT | BGE | BLTU | BGEU => true | _ => false end.
Definition is_branch (o : opcode) : bool := match o with BEQ | BNE | BLT | BGE | BLTU | BGEU => true | _ => false end.
(** An address plus offsets, as the machine adds them. *)
Definition plus (a : N) (z : Z) : N := Z.to_N ((Z.of_N a + z) mod 2 ^ 32)%Z.

(** The file is read as 32-bit addresses; sections start at different addresses and end below 2^32. *)
Definition segments_ok (segs : list segment) : Prop :=
  NoDup (map s_vaddr segs) /\ Forall (fun s => s_vaddr s + s_memsz s < 2 ^ 32) segs.
(** The section an address belongs to: the last that starts at or before it, unless it ends before.
    (The first address after a section also counts.) *)
Definition owner (segs : list segment) (a : N) (s : segment) : Prop :=
  In s segs /\ s_vaddr s <= a <= s_vaddr s + s_memsz s /\ forall s', In s' segs -> s_vaddr s' <= a -> s_vaddr s' <= s_vaddr s.
Definition text_address (segs : list segment) (a : N) : Prop := exists s, owner segs a s /\ s_exec s = true.
Definition data_address (segs : list segment) (a : N) : Prop := exists s, owner segs a s /\ s_exec s = false.

(** Words of data lie at different addresses. *)
Definition words_ok (segs : list segment) : Prop :=
  (forall s bytes, In s segs -> s_exec s = false -> s_data s = Some bytes -> s_vaddr s + N.of_nat (length bytes) + 4 <= 2 ^ 32) /\
  (forall s s' bytes bytes' k k', In s segs -> s_exec s = false -> s_data s = Some bytes -> (4 * k < length bytes)%nat ->
     In s' segs -> s_exec s' = false -> s_data s' = Some bytes' -> (4 * k' < length bytes')%nat ->
     s_vaddr s + N.of_nat (4 * k) = s_vaddr s' + N.of_nat (4 * k') -> s = s').

Section Code.
  Variable decode32 : N -> option ins.
  Variable decode16 : N -> decoded16.
  (** The bytes begin with the instruction [m], which has [n] of them: four if the first ends in 11 and
      two otherwise.  What cannot be decoded (and CSRRW, which compilers use for it) is an instruction that is not
      implemented; two bytes are only accepted as such if they are zero. *)
  Inductive first_of : list N -> maybe_ins -> nat -> Prop :=
  | first_long b0 b1 b2 b3 rest i : b0 mod 4 = 3 -> decode32 (b0 + 2 ^ 8 * b1 + 2 ^ 16 * b2 + 2 ^ 24 * b3) = Some i -> i_op i <> CSRRW ->
      first_of (b0 :: b1 :: b2 :: b3 :: rest) (Ins i) 4
  | first_unimp b0 b1 b2 b3 rest : b0 mod 4 = 3 ->
      (decode32 (b0 + 2 ^ 8 * b1 + 2 ^ 16 * b2 + 2 ^ 24 * b3) = None \/
       exists i, decode32 (b0 + 2 ^ 8 * b1 + 2 ^ 16 * b2 + 2 ^ 24 * b3) = Some i /\ i_op i = CSRRW) ->
      first_of (b0 :: b1 :: b2 :: b3 :: rest) Unimp32 4
  | first_short b0 b1 rest c i : b0 mod 4 <> 3 -> decode16 (b0 + 2 ^ 8 * b1) = Ok16 c -> to_32bit_equivalent c = Some i ->
      first_of (b0 :: b1 :: rest) (Ins i) 2
  | first_zero b0 b1 rest : b0 mod 4 <> 3 -> decode16 (b0 + 2 ^ 8 * b1) = Illegal16 -> b0 = 0 -> b1 = 0 -> first_of (b0 :: b1 :: rest) Unimp16 2.
  (** [m], which has [n] bytes, lies at address [a] of the bytes that start at [base]. *)
  Inductive lies_at : N -> list N -> N -> maybe_ins -> nat -> Prop :=
  | lies_here base data m n : first_of data m n -> lies_at base data base m n
  | lies_later base data m' n' a m n : first_of data m' n' ->
      lies_at (w32 (base + N.of_nat n')) (skipn n' data) a m n -> lies_at base data a m n.
  (** ... and [m2] follows it directly. *)
  Inductive lies_two : N -> list N -> N -> maybe_ins -> nat -> maybe_ins -> nat -> Prop :=
  | two_here base data m1 n1 m2 n2 : first_of data m1 n1 ->
      first_of (skipn n1 data) m2 n2 -> lies_two base data base m1 n1 m2 n2
  | two_later base data m' n' a m1 n1 m2 n2 : first_of data m' n' ->
      lies_two (w32 (base + N.of_nat n')) (skipn n' data) a m1 n1 m2 n2 -> lies_two base data a m1 n1 m2 n2.
  (** The instructions of a file. *)
  Definition code (e : elf) (a : N) (i : ins) (n : nat) : Prop :=
    exists s bytes, In s (e_segs e) /\ s_exec s = true /\ s_data s = Some bytes /\ lies_at (s_vaddr s) bytes a (Ins i) n.
  Definition code2 (e : elf) (a : N) (i1 : ins) (n1 : nat) (i2 : ins) (n2 : nat) : Prop :=
    exists s bytes, In s (e_segs e) /\ s_exec s = true /\ s_data s = Some bytes /\ lies_two (s_vaddr s) bytes a (Ins i1) n1 (Ins i2) n2.

  (** The addresses of instructions that the program mentions: where it starts, where its jumps, branches and
      calls go, the addresses of code it loads into a register, and those in its data.  The global pointer (x3) is an
      exception: it may accidentally point to the code. *)
  Inductive referenced (e : elf) : N -> Prop :=
  | ref_entry : referenced e (e_entry e)
  | ref_jump a i n z : code e a i n -> is_jump (i_op i) = true -> i_imm i = Some z -> referenced e (plus a z)
  | ref_call a i1 n1 i2 n2 rd1 hi rd2 rs1 lo : code2 e a i1 n1 i2 n2 ->
      i_op i1 = AUIPC -> i_rd i1 = Some rd1 -> i_imm i1 = Some hi -> i_op i2 = JALR -> i_rd i2 = Some rd2 -> i_rs1 i2 = Some rs1 -> i_imm i2 = Some lo ->
      referenced e (plus a (hi + lo))
  | ref_relative a i1 n1 i2 n2 rd hi rd2 lo : code2 e a i1 n1 i2 n2 ->
      i_op i1 = AUIPC -> i_rd i1 = Some rd -> i_imm i1 = Some hi -> i_op i2 = ADDI -> i_rd i2 = Some rd2 -> i_rs1 i2 = Some rd -> i_imm i2 = Some lo ->
      rd2 <> 3 -> text_address (e_segs e) (plus a (hi + lo)) -> referenced e (plus a (hi + lo))
  | ref_absolute a i1 n1 i2 n2 rd hi rd2 lo r : code2 e a i1 n1 i2 n2 ->
      i_op i1 = LUI -> i_rd i1 = Some rd -> i_imm i1 = Some hi -> i_op i2 = ADDI -> i_rd i2 = Some rd2 -> i_rs1 i2 = Some rd -> i_imm i2 = Some lo ->
      In r (e_relocs e) -> r_type r = R_RISCV_HI20 -> w32 (r_offset r) = a ->
      rd2 <> 3 -> text_address (e_segs e) (plus 0 (hi + lo)) -> referenced e (plus 0 (hi + lo))
  | ref_dynamic r z : e_dyn e = true -> In r (e_dynrelas e) -> r_addend r = Some z ->
      text_address (e_segs e) (plus 0 z) -> referenced e (plus 0 z)
  | ref_static r s bytes k : e_dyn e = false -> In r (e_relocs e) -> data_address (e_segs e) (w32 (r_offset r)) ->
      In s (e_segs e) -> s_exec s = false -> s_data s = Some bytes -> w32 (r_offset r) = s_vaddr s + N.of_nat (4 * k) -> (4 * k < length bytes)%nat ->
      let v := le_bytes (firstn 4 (skipn (4 * k) bytes)) in
      text_address (e_segs e) v -> referenced e v.

  (** ** Execution *)
  Record mstate := mkState { pc : N; reg : N -> N }.
  Definition rget (s : mstate) (x : N) : N := if x =? 0 then 0 else reg s x.
  (** All registers but [x] are the same. *)
  Definition only (x : option N) (s s' : mstate) : Prop := forall y, Some y <> x -> rget s' y = rget s y.
  Definition even (a : N) : N := a - a mod 2.
  (** One step, as far as it concerns jumps: other instructions change their destination register in any way
      (and the memory, which is not shown). *)
  Inductive machine_step (e : elf) : mstate -> mstate -> Prop :=
  | step_jal s s' i n z : code e (pc s) i n -> i_op i = JAL -> i_imm i = Some z -> pc s' = plus (pc s) z -> only (i_rd i) s s' ->
      machine_step e s s'
  | step_branch s s' i n z : code e (pc s) i n -> is_branch (i_op i) = true -> i_imm i = Some z ->
      pc s' = plus (pc s) z \/ pc s' = plus (pc s) (Z.of_nat n) -> only None s s' -> machine_step e s s'
  | step_jalr s s' i n rs1 z : code e (pc s) i n -> i_op i = JALR -> i_rs1 i = Some rs1 -> i_imm i = Some z ->
      pc s' = even (plus (rget s rs1) z) -> only (i_rd i) s s' -> machine_step e s s'
  | step_auipc s s' i n rd z : code e (pc s) i n -> i_op i = AUIPC -> i_rd i = Some rd -> i_imm i = Some z ->
      pc s' = plus (pc s) (Z.of_nat n) -> only (Some rd) s s' -> (rd <> 0 -> rget s' rd = plus (pc s) z) -> machine_step e s s'
  | step_other s s' i n : code e (pc s) i n -> is_jump (i_op i) = false -> i_op i <> JALR -> i_op i <> AUIPC ->
      pc s' = plus (pc s) (Z.of_nat n) -> only (i_rd i) s s' -> machine_step e s s'.
End Code.

(** ** Compressed instructions *)
(** What an instruction does: writes a register, loads or stores a word, jumps and links, stops, or nothing. *)
Inductive act := Write (rd v : N) | LoadWord (rd a : N) | StoreWord (a v : N) | Goto (t link : N) | Break | Nothing.
Definition write (rd v : N) : act := if rd =? 0 then Nothing else Write rd v.
Definition shift_right_arithmetic (a n : N) : N := to_u32 (Z.shiftr (to_i32 a) (Z.of_N n)).
(** Operands that must be there. *)
Definition on1 {A C} (a : option A) (f : A -> C) : option C := match a with Some x => Some (f x) | None => None end.
Definition on2 {A B C} (a : option A) (b : option B) (f : A -> B -> C) : option C := match a with Some x => on1 b (f x) | None => None end.
Definition on3 {A B C D} (a : option A) (b : option B) (c : option C) (f : A -> B -> C -> D) : option D := match a with Some x => on2 b c (f x) | None => None end.
(** The 32-bit instructions that compressed ones stand for. *)
Definition exec32 (pc : N) (get : N -> N) (i : ins) : option act :=
  match i_op i with
  | LUI => on2 (i_rd i) (i_imm i) (fun rd z => write rd (plus 0 z))
  | ADDI => on3 (i_rd i) (i_rs1 i) (i_imm i) (fun rd a z => write rd (plus (get a) z))
  | ANDI => on3 (i_rd i) (i_rs1 i) (i_imm i) (fun rd a z => write rd (N.land (get a) (plus 0 z)))
  | SLLI => on3 (i_rd i) (i_rs1 i) (i_imm i) (fun rd a z => write rd (w32 (N.shiftl (get a) (Z.to_N z))))
  | SRLI => on3 (i_rd i) (i_rs1 i) (i_imm i) (fun rd a z => write rd (N.shiftr (get a) (Z.to_N z)))
  | SRAI => on3 (i_rd i) (i_rs1 i) (i_imm i) (fun rd a z => write rd (shift_right_arithmetic (get a) (Z.to_N z)))
  | ADD => on3 (i_rd i) (i_rs1 i) (i_rs2 i) (fun rd a b => write rd (w32 (get a + get b)))
  | SUB => on3 (i_rd i) (i_rs1 i) (i_rs2 i) (fun rd a b => write rd (plus (get a) (- Z.of_N (get b))))
  | XOR => on3 (i_rd i) (i_rs1 i) (i_rs2 i) (fun rd a b => write rd (N.lxor (get a) (get b)))
  | OR => on3 (i_rd i) (i_rs1 i) (i_rs2 i) (fun rd a b => write rd (N.lor (get a) (get b)))
  | AND => on3 (i_rd i) (i_rs1 i) (i_rs2 i) (fun rd a b => write rd (N.land (get a) (get b)))
  | LW => on3 (i_rd i) (i_rs1 i) (i_imm i) (fun rd a z => LoadWord rd (plus (get a) z))
  | SW => on3 (i_rs1 i) (i_rs2 i) (i_imm i) (fun a b z => StoreWord (plus (get a) z) (get b))
  | JAL => on2 (i_rd i) (i_imm i) (fun rd z => Goto (plus pc z) rd)
  | JALR => on3 (i_rd i) (i_rs1 i) (i_imm i) (fun rd a z => Goto (even (plus (get a) z)) rd)
  | BEQ => on3 (i_rs1 i) (i_rs2 i) (i_imm i) (fun a b z => if get a =? get b then Goto (plus pc z) 0 else Nothing)
  | BNE => on3 (i_rs1 i) (i_rs2 i) (i_imm i) (fun a b z => if get a =? get b then Nothing else Goto (plus pc z) 0)
  | EBREAK => Some Break
  | _ => None
  end.
(** The compressed instructions.  The decoder gives the register that is read and written as source and as destination, except for those
    that are always the same. *)
Definition both (i : ins) : option N := match i_rd i, i_rs1 i with Some a, Some b => if a =? b then Some a else None | _, _ => None end.
Definition exec16 (pc : N) (get : N -> N) (i : ins) : option act :=
  match i_op i with
  | C_NOP => on1 (i_imm i) (fun _ => Nothing)
  | C_LI | C_LUI => on2 (i_rd i) (i_imm i) (fun rd z => write rd (plus 0 z))
  | C_ADDI | C_ADDI16SP => on2 (both i) (i_imm i) (fun r z => write r (plus (get r) z))
  | C_ADDI4SPN => on2 (i_rd i) (i_imm i) (fun rd z => write rd (plus (get 2) z))
  | C_SLLI => on2 (both i) (i_imm i) (fun r z => write r (w32 (N.shiftl (get r) (Z.to_N z))))
  | C_SRLI => on2 (both i) (i_imm i) (fun r z => write r (N.shiftr (get r) (Z.to_N z)))
  | C_SRAI => on2 (both i) (i_imm i) (fun r z => write r (shift_right_arithmetic (get r) (Z.to_N z)))
  | C_ANDI => on2 (both i) (i_imm i) (fun r z => write r (N.land (get r) (plus 0 z)))
  | C_MV => on2 (i_rd i) (i_rs2 i) (fun rd b => write rd (get b))
  | C_ADD => on2 (both i) (i_rs2 i) (fun r b => write r (w32 (get r + get b)))
  | C_SUB => on2 (both i) (i_rs2 i) (fun r b => write r (plus (get r) (- Z.of_N (get b))))
  | C_XOR => on2 (both i) (i_rs2 i) (fun r b => write r (N.lxor (get r) (get b)))
  | C_OR => on2 (both i) (i_rs2 i) (fun r b => write r (N.lor (get r) (get b)))
  | C_AND => on2 (both i) (i_rs2 i) (fun r b => write r (N.land (get r) (get b)))
  | C_LW => on3 (i_rd i) (i_rs1 i) (i_imm i) (fun rd a z => LoadWord rd (plus (get a) z))
  | C_SW => on3 (i_rs1 i) (i_rs2 i) (i_imm i) (fun a b z => StoreWord (plus (get a) z) (get b))
  | C_LWSP => on2 (i_rd i) (i_imm i) (fun rd z => LoadWord rd (plus (get 2) z))
  | C_SWSP => on2 (i_rs2 i) (i_imm i) (fun b z => StoreWord (plus (get 2) z) (get b))
  | C_J => on1 (i_imm i) (fun z => Goto (plus pc z) 0)
  | C_JAL => on1 (i_imm i) (fun z => Goto (plus pc z) 1)
  | C_JR => on1 (i_rs1 i) (fun a => Goto (even (get a)) 0)
  | C_JALR => on1 (i_rs1 i) (fun a => Goto (even (get a)) 1)
  | C_BEQZ => on2 (i_rs1 i) (i_imm i) (fun a z => if get a =? 0 then Goto (plus pc z) 0 else Nothing)
  | C_BNEZ => on2 (i_rs1 i) (i_imm i) (fun a z => if get a =? 0 then Nothing else Goto (plus pc z) 0)
  | C_EBREAK => Some Break
  | _ => None
  end.

(** ** Programs of OpenVM *)
Definition baby_bear : N := 2013265921.
Definition field_add (pc c : N) : N := (pc + c) mod baby_bear.
(** The instructions of a program whose first instruction is at [base]. *)
Definition slot_at (base : N) (prog : list ovm_ins) (a : N) (x : ovm_ins) : Prop :=
  exists k, nth_error prog k = Some x /\ a = base + 4 * N.of_nat k.
(** The conditional branches: BEQ, BNE, BLT, BLTU, BGE, BGEU, and the same on 256-bit numbers. *)
Definition bigint_conditional (x : ovm_ins) : Prop := In (o_opcode x) [0x420; 0x421; 0x425; 0x426; 0x427; 0x428].
Definition conditional (x : ovm_ins) : Prop := In (o_opcode x) [0x220; 0x221; 0x225; 0x226; 0x227; 0x228] \/ bigint_conditional x.
Definition is_jal (x : ovm_ins) : Prop := o_opcode x = 0x230.
Definition is_jalr (x : ovm_ins) : Prop := o_opcode x = 0x235.
Definition jumps (x : ovm_ins) : Prop := conditional x \/ is_jal x \/ is_jalr x.
(** Where the execution may go from the instruction [x] at [a]: jumps with a target that is known go
    there, branches may also fall through; [dynamic] are the possible targets of the others. *)
Definition flows (dynamic : N -> Prop) (a : N) (x : ovm_ins) (b : N) : Prop :=
  (is_jalr x /\ dynamic b) \/ (is_jal x /\ b = field_add a (o_c x)) \/
  (conditional x /\ (b = field_add a (o_c x) \/ b = a + 4)) \/ (~ jumps x /\ b = a + 4).
(** A list of program counters that an execution may go through. *)
Inductive execution (base : N) (prog : list ovm_ins) (dynamic : N -> Prop) : list N -> Prop :=
| exec_one a x : slot_at base prog a x -> execution base prog dynamic [a]
| exec_step a x b l : slot_at base prog a x -> flows dynamic a x b -> execution base prog dynamic (b :: l) -> execution base prog dynamic (a :: b :: l).
(** The program is the translation of the code of a file: the jumps of its base instruction set are those of the
    code, at the same address. *)
Definition translated decode32 decode16 (e : elf) (base : N) (prog : list ovm_ins) : Prop :=
  forall a x, slot_at base prog a x -> (conditional x /\ ~ bigint_conditional x) \/ is_jal x ->
    exists i n z, code decode32 decode16 e a i n /\ is_jump (i_op i) = true /\ i_imm i = Some z /\ (- 2 ^ 21 < z < 2 ^ 21)%Z /\
      o_c x = Z.to_N (z mod Z.of_N baby_bear)%Z.
