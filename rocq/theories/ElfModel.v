(** Model of riscv-elf/src/lib.rs (finding the text addresses a program refers to, and lifting its
    instructions), riscv-elf/src/rv64.rs (the scan for jump targets), and of the jump destinations of
    openvm-riscv/src/isa/mod.rs. *)
From Coq Require Import Arith NArith ZArith Bool List.
Import ListNotations.
Local Open Scope N_scope.

(** [u32] and [i32]: addresses are numbers below 2^32, immediates are integers; sums wrap. *)
Definition w32 (a : N) : N := a mod 2 ^ 32.
Definition to_u32 (z : Z) : N := Z.to_N (z mod 2 ^ 32)%Z.
Definition to_i32 (a : N) : Z := (let z := Z.of_N (w32 a) in if z <? 2 ^ 31 then z else z - 2 ^ 32)%Z.

(** ** Instructions as the crate raki decodes them *)
Inductive opcode :=
| LUI | AUIPC | ADDI | ECALL | LB | LH | LW | LBU | LHU | SB | SH | SW
| JAL | JALR | BEQ | BNE | BLT | BGE | BLTU | BGEU | CSRRW
| SRLI | SRAI | ANDI | SUB | XOR | OR | AND | SLLI | ADD | EBREAK
| C_LW | C_SW | C_NOP | C_ADDI | C_ADDI16SP | C_ADDI4SPN | C_LI | C_JAL | C_LUI | C_SRLI | C_SRAI | C_ANDI
| C_SUB | C_XOR | C_OR | C_AND | C_J | C_BEQZ | C_BNEZ | C_SLLI | C_LWSP | C_JR | C_MV | C_EBREAK | C_JALR | C_ADD | C_SWSP
| OTHER (n : N).
Inductive extension := ExtC | ExtA | ExtX.
(** [raki::Instruction]. *)
Record ins := mkIns { i_op : opcode; i_rd : option N; i_rs1 : option N; i_rs2 : option N; i_imm : option Z; i_ext : extension }.

(** lib.rs 1191-1311 [to_32bit_equivalent]; [None] is the [unreachable!]. *)
Definition to_32bit_equivalent (i : ins) : option ins :=
  let same o := Some (mkIns o (i_rd i) (i_rs1 i) (i_rs2 i) (i_imm i) (i_ext i)) in
  match i_op i with
  | C_LW => same LW
  | C_SW => same SW
  | C_NOP => Some (mkIns ADDI (Some 0) (Some 0) (i_rs2 i) (i_imm i) (i_ext i))
  | C_ADDI | C_ADDI16SP => same ADDI
  | C_ADDI4SPN => Some (mkIns ADDI (i_rd i) (Some 2) (i_rs2 i) (i_imm i) (i_ext i))
  | C_LI => Some (mkIns ADDI (i_rd i) (Some 0) (i_rs2 i) (i_imm i) (i_ext i))
  | C_JAL => Some (mkIns JAL (Some 1) (i_rs1 i) (i_rs2 i) (i_imm i) (i_ext i))
  | C_LUI => same LUI
  | C_SRLI => same SRLI
  | C_SRAI => same SRAI
  | C_ANDI => same ANDI
  | C_SUB => same SUB
  | C_XOR => same XOR
  | C_OR => same OR
  | C_AND => same AND
  | C_J => Some (mkIns JAL (Some 0) (i_rs1 i) (i_rs2 i) (i_imm i) (i_ext i))
  | C_BEQZ => Some (mkIns BEQ (i_rd i) (i_rs1 i) (Some 0) (i_imm i) (i_ext i))
  | C_BNEZ => Some (mkIns BNE (i_rd i) (i_rs1 i) (Some 0) (i_imm i) (i_ext i))
  | C_SLLI => same SLLI
  | C_LWSP => Some (mkIns LW (i_rd i) (Some 2) (i_rs2 i) (i_imm i) (i_ext i))
  | C_JR => Some (mkIns JALR (Some 0) (i_rs1 i) None (Some 0%Z) (i_ext i))
  | C_MV => Some (mkIns ADD (i_rd i) (Some 0) (i_rs2 i) (i_imm i) (i_ext i))
  | C_EBREAK => same EBREAK
  | C_JALR => Some (mkIns JALR (Some 1) (i_rs1 i) None (Some 0%Z) (i_ext i))
  | C_ADD => same ADD
  | C_SWSP => Some (mkIns SW (i_rd i) (Some 2) (i_rs2 i) (i_imm i) (i_ext i))
  | _ => None
  end.

(** lib.rs 647-668 [UnimpOrInstruction], [MaybeInstruction] is a pair with the address. *)
Inductive maybe_ins := Unimp16 | Unimp32 | Ins (i : ins).
Definition ins_len (m : maybe_ins) : N :=
  match m with
  | Unimp16 => 2
  | Unimp32 => 4
  | Ins i => match i_ext i with ExtC => 2 | _ => 4 end
  end.

Local Notation "'let?' x := a 'in' b" := (match a with Some x => b | None => None end) (at level 200, x pattern, right associativity).

(** What the decoder of raki returns for 16 bits. *)
Inductive decoded16 := Ok16 (i : ins) | Illegal16 | Err16.

Fixpoint le_bytes (l : list N) : N := match l with [] => 0 | b :: r => b + 256 * le_bytes r end.

Section Decode.
  Variable decode32 : N -> option ins.
  Variable decode16 : N -> decoded16.
  (** lib.rs 1109-1187 [RiscVInstructionIterator::next]: the instruction at the beginning of the data and
      the number of its bytes; [None] is a panic. *)
  Definition first_ins (data : list N) : option (maybe_ins * nat) :=
    match data with
    | [] => None
    | b :: _ =>
      if N.land b 3 =? 3 then
        if Nat.leb 4 (length data) then
          match decode32 (le_bytes (firstn 4 data)) with
          | Some i => match i_op i with CSRRW => Some (Unimp32, 4%nat) | _ => Some (Ins i, 4%nat) end
          | None => Some (Unimp32, 4%nat)
          end
        else None
      else if Nat.leb 2 (length data) then
        let w := le_bytes (firstn 2 data) in
        match decode16 w with
        | Ok16 c => let? i := to_32bit_equivalent c in Some (Ins i, 2%nat)
        | Illegal16 => if w =? 0 then Some (Unimp16, 2%nat) else None
        | Err16 => None
        end
      else None
    end.
  (** The whole iteration.  The fuel is the number of bytes. *)
  Fixpoint iterate (fuel : nat) (addr : N) (data : list N) : option (list (N * maybe_ins)) :=
    match data with
    | [] => Some []
    | _ =>
      match fuel with
      | O => None
      | S fuel =>
        let? (m, n) := first_ins data in
        let? r := iterate fuel (w32 (addr + N.of_nat n)) (skipn n data) in
        Some ((addr, m) :: r)
      end
    end.
  Definition instructions (addr : N) (data : list N) : option (list (N * maybe_ins)) := iterate (length data) addr data.
End Decode.

(** ** Sections *)
(** A program header of type PT_LOAD with the bytes of the file it stands for ([None]: the range is not in
    the file, and slicing panics). *)
Record segment := mkSeg { s_vaddr : N; s_memsz : N; s_exec : bool; s_data : option (list N) }.
(** lib.rs 592-595 [AddressMap]: a map, sorted by the address; inserting replaces. *)
Fixpoint bt_insert {V} (k : N) (v : V) (m : list (N * V)) : list (N * V) :=
  match m with
  | [] => [(k, v)]
  | (k', v') :: m' => if k <? k' then (k, v) :: m else if k =? k' then (k, v) :: m' else (k', v') :: bt_insert k v m'
  end.
Fixpoint bt_get {V} (k : N) (m : list (N * V)) : option V :=
  match m with [] => None | (k', v) :: m' => if k =? k' then Some v else bt_get k m' end.
Definition address_map (segs : list segment) : list (N * segment) :=
  fold_left (fun m s => bt_insert (w32 (s_vaddr s)) s m) segs [].
(** [range(..=addr).next_back()]. *)
Definition last_at_most {V} (addr : N) (m : list (N * V)) : option V :=
  fold_left (fun o e => if fst e <=? addr then Some (snd e) else o) m None.
(** lib.rs 608-624 [get_section_of_addr]. *)
Definition section_of (m : list (N * segment)) (addr : N) : option segment :=
  let? s := last_at_most addr m in
  if w32 (w32 (s_vaddr s) + w32 (s_memsz s)) <? addr then None else Some s.
(** lib.rs 598-606. *)
Definition is_in_data_section (m : list (N * segment)) (addr : N) : bool :=
  match section_of m addr with Some s => negb (s_exec s) | None => false end.
Definition is_in_text_section (m : list (N * segment)) (addr : N) : bool :=
  match section_of m addr with Some s => s_exec s | None => false end.

(** ** Lifting *)
(** lib.rs 671-713 [HighLevelImmediate], [HighLevelInsn]; the name of the operation is a term. *)
Inductive himm := HNone | HLabel (a : N) | HValue (z : Z).
Inductive hop := HLa | HLi | HJal | HTail | HUnimp | HSyscall (n : N) | HOp (o : opcode).
Record hins := mkH { h_addr : N; h_size : N; h_op : hop; h_rd : option N; h_rs1 : option N; h_rs2 : option N; h_imm : himm }.

Definition mem_addr (a : N) (l : list N) : bool := existsb (N.eqb a) l.
Definition is_load (o : opcode) : bool := match o with LB | LH | LW | LBU | LHU => true | _ => false end.
Definition is_store (o : opcode) : bool := match o with SB | SH | SW => true | _ => false end.
Definition wrap_add (a b : Z) : Z := to_i32 (to_u32 (a + b)).
(** syscalls/src/lib.rs 64-80: the numbers of system calls. *)
Definition is_syscall (z : Z) : bool := ((1 <=? z) && (z <=? 15))%Z.

Section Lift.
  (** The relocations of type HI20, the sections, and in the second pass the referenced addresses. *)
  Variable rellocs : list N.
  Variable amap : list (N * segment).
  Variable read : option (list N).

  (** lib.rs 723-769 [composed_immediate]. *)
  Definition composed_immediate (hi lo : Z) (rd_ui rd_addi insn2_addr : N) (is_address : bool) : option (hop * N * himm) :=
    let immediate := wrap_add hi lo in
    if is_address && is_in_text_section amap (to_u32 immediate) && negb (rd_addi =? 3) then Some (HLa, rd_ui, HLabel (to_u32 immediate))
    else if rd_ui =? rd_addi then
      if match read with Some refs => mem_addr insn2_addr refs | None => false end then None
      else Some (HLi, rd_ui, HValue immediate)
    else None.
  (** lib.rs 772-968 [try_map_two]; the outer [None] is a panic. *)
  Definition try_map_two (m1 m2 : N * maybe_ins) : option (option hins) :=
    let addr := fst m1 in
    let size := ins_len (snd m1) + ins_len (snd m2) in
    match snd m1, snd m2 with
    | Ins i1, Ins i2 =>
      let composed hi lo rd1 rd2 is_address :=
        match composed_immediate hi lo rd1 rd2 (fst m2) is_address with
        | Some (op, rd, imm) => Some (Some (mkH addr size op (Some rd) None None imm))
        | None => Some None
        end in
      match i_op i1, i_rd i1, i_rs1 i1, i_imm i1 with
      | LUI, Some rd1, _, Some hi =>
        match i_op i2, i_rd i2, i_rs1 i2, i_imm i2 with
        | ADDI, Some rd2, Some rs, Some lo =>
          if rd1 =? rs then composed hi lo rd1 rd2 (mem_addr addr rellocs) else Some None
        | _, _, _, _ => Some None
        end
      | ADDI, Some rd1, Some rs, Some op =>
        match i_op i2 with
        | ECALL => Some (if (rd1 =? 5) && (rs =? 0) && is_syscall op then Some (mkH addr size (HSyscall (Z.to_N op)) None None None HNone) else None)
        | _ => Some None
        end
      | AUIPC, Some rd1, _, Some hi0 =>
        let hi := wrap_add hi0 (to_i32 addr) in
        match i_op i2, i_rd i2, i_rs1 i2, i_rs2 i2, i_imm i2 with
        | ADDI, Some rd2, Some rs, _, Some lo => if rd1 =? rs then composed hi lo rd1 rd2 true else None
        | o, Some rd2, Some rs, None, Some lo =>
          let a := wrap_add hi lo in
          if is_load o then
            if (rd1 =? rd2) && (rd2 =? rs) then
              if is_in_text_section amap (to_u32 a) then None
              else Some (Some (mkH addr size (HOp o) (Some rd2) (Some 0) None (HValue a)))
            else None
          else match o with
          | JALR =>
            if (rd1 =? rs) && (rs =? rd2) then Some (Some (mkH addr size HJal (Some rd2) None None (HLabel (to_u32 a))))
            else if (rd2 =? 0) && (rs =? 6) && (rd1 =? 6) then Some (Some (mkH addr size HTail None None None (HLabel (to_u32 a))))
            else None
          | _ => None
          end
        | o, None, Some rs, Some _, Some lo =>
          if is_store o && (rd1 =? rs) then if is_in_text_section amap (to_u32 (wrap_add hi lo)) then None else Some None
          else None
        | _, _, _, _, _ => None
        end
      | _, _, _, _ => Some None
      end
    | _, _ => Some None
    end.
  (** lib.rs 970-1048 [map_one], with the address that is added to the set in the first pass; [None] is
      the panic of [unwrap] or of the assertion. *)
  Definition map_one (m : N * maybe_ins) : option (hins * list N) :=
    let addr := fst m in
    let size := ins_len (snd m) in
    match snd m with
    | Ins i =>
      let plain imm refs :=
        Some (mkH addr size (HOp (i_op i)) (i_rd i) (i_rs1 i) (i_rs2 i) (match i_ext i with ExtA => HNone | _ => imm end), refs) in
      match i_op i with
      | JAL | BEQ | BNE | BLT | BGE | BLTU | BGEU =>
        let? imm := i_imm i in
        let t := to_u32 (imm + to_i32 addr) in
        plain (HLabel t) [t]
      | JALR => let? imm := i_imm i in if (imm =? 0)%Z then plain (HValue 0) [] else None
      | LUI => let? imm := i_imm i in plain (HValue (Z.shiftr imm 12)) []
      | AUIPC => let? imm := i_imm i in Some (mkH addr size HLi (i_rd i) None None (HValue (wrap_add imm (to_i32 addr))), [])
      | _ => plain (match i_imm i with Some z => HValue z | None => HNone end) []
      end
    | _ => Some (mkH addr size HUnimp None None None HNone, [])
    end.
  (** lib.rs 960-965: the address that a pair adds to the set. *)
  Definition label_of (h : hins) : list N := match h_imm h with HLabel a => [a] | _ => [] end.
  (** lib.rs 1329-1350 [try_map_two_by_two], with the addresses that are added. *)
  Fixpoint map_two_by_two (l : list (N * maybe_ins)) : option (list hins * list N) :=
    match l with
    | [] => Some ([], [])
    | first :: rest =>
      match rest with
      | second :: rest' =>
        let? mapped := try_map_two first second in
        match mapped with
        | Some h => let? (hs, refs) := map_two_by_two rest' in Some (h :: hs, label_of h ++ refs)
        | None => let? (h, r) := map_one first in let? (hs, refs) := map_two_by_two rest in Some (h :: hs, r ++ refs)
        end
      | [] => let? (h, r) := map_one first in Some ([h], r)
      end
    end.
End Lift.

(** ** Loading *)
Inductive data := TextLabel (a : N) | Value (v : N).
(** lib.rs 631-645 [load_data_section]. *)
Fixpoint load_data (fuel : nat) (addr : N) (bytes : list N) (m : list (N * data)) : list (N * data) :=
  match bytes with
  | [] => m
  | _ =>
    match fuel with
    | O => m
    | S fuel =>
      let v := le_bytes (firstn 4 bytes) in
      load_data fuel (w32 (addr + 4)) (skipn 4 bytes) (if v =? 0 then m else bt_insert addr (Value v) m)
    end
  end.
(** A relocation: offset, type and addend. *)
Record reloc := mkReloc { r_offset : N; r_type : N; r_addend : option Z }.
Definition R_RISCV_32 : N := 1.
Definition R_RISCV_RELATIVE : N := 3.
Definition R_RISCV_HI20 : N := 26.
(** The parts of an ELF file that are read.  The relocations of the sections are flattened ([e_has_relocs]:
    there is a table).  The headers of type PT_LOAD are the [e_segs]; those of prover data do not matter here. *)
Record elf := mkElf {
  e_riscv32 : bool; e_dyn : bool; e_has_relocs : bool; e_entry : N; e_segs : list segment;
  e_relocs : list reloc; e_dynrelas : list reloc; e_dynrels : nat }.

(** lib.rs 211-241 [pie_relocate_data_sections]. *)
Fixpoint pie_relocate (amap : list (N * segment)) (rs : list reloc) (m : list (N * data)) (refs : list N) : option (list (N * data) * list N) :=
  match rs with
  | [] => Some (m, refs)
  | r :: rs' =>
    let addr := w32 (r_offset r) in
    if negb (is_in_data_section amap addr) then None
    else if negb (r_type r =? R_RISCV_RELATIVE) then None
    else
      let? addend := r_addend r in
      let v := to_u32 addend in
      if is_in_text_section amap v then pie_relocate amap rs' (bt_insert addr (TextLabel v) m) (v :: refs)
      else pie_relocate amap rs' (bt_insert addr (Value v) m) refs
  end.
(** lib.rs 243-276 [static_relocate_data_sections]. *)
Fixpoint static_relocate (amap : list (N * segment)) (rs : list reloc) (m : list (N * data)) (refs : list N) : option (list (N * data) * list N) :=
  match rs with
  | [] => Some (m, refs)
  | r :: rs' =>
    let addr := w32 (r_offset r) in
    if negb (is_in_data_section amap addr) then static_relocate amap rs' m refs
    else if negb (r_type r =? R_RISCV_32) then None
    else
      match bt_get addr m with
      | Some (Value v) =>
        if is_in_text_section amap v then static_relocate amap rs' (bt_insert addr (TextLabel v) m) (v :: refs)
        else static_relocate amap rs' m refs
      | _ => None
      end
  end.

Section Load.
  Variable decode32 : N -> option ins.
  Variable decode16 : N -> decoded16.
  (** lib.rs 117-135: the first pass over the sections, in the order of their addresses. *)
  Fixpoint scan (rellocs : list N) (amap l : list (N * segment)) (m : list (N * data)) (refs : list N) : option (list (N * data) * list N) :=
    match l with
    | [] => Some (m, refs)
    | (addr, s) :: l' =>
      let? bytes := s_data s in
      if s_exec s then
        let? is := instructions decode32 decode16 addr bytes in
        let? (_, r) := map_two_by_two rellocs amap None is in
        scan rellocs amap l' m (r ++ refs)
      else scan rellocs amap l' (load_data (length bytes) addr bytes m) refs
    end.
  (** lib.rs 148-164: the second pass. *)
  Fixpoint lift_all (rellocs : list N) (amap l : list (N * segment)) (refs : list N) : option (list hins) :=
    match l with
    | [] => Some []
    | (addr, s) :: l' =>
      if s_exec s then
        let? bytes := s_data s in
        let? is := instructions decode32 decode16 addr bytes in
        let? (hs, _) := map_two_by_two rellocs amap (Some refs) is in
        let? r := lift_all rellocs amap l' refs in
        Some (hs ++ r)
      else lift_all rellocs amap l' refs
    end.
  (** lib.rs 48-209 [load_elf_from_buffer]: labels, data and lifted instructions; [None] is a panic.
      Simplification: without the debug information, which does not change them.  Sorting the sections by
      the address of their first instruction changes nothing, since the map is sorted by address. *)
  Record elf_program := mkProgram { p_labels : list N; p_data : list (N * data); p_instructions : list hins; p_entry : N }.
  Definition load_elf (e : elf) : option elf_program :=
    if negb (e_riscv32 e) then None
    else if negb (e_dyn e || e_has_relocs e) then None
    else
      let amap := address_map (e_segs e) in
      let rellocs := map (fun r => w32 (r_offset r)) (filter (fun r => r_type r =? R_RISCV_HI20) (e_relocs e)) in
      let? (m, refs) := scan rellocs amap amap [] [w32 (e_entry e)] in
      let? (m, refs) :=
        if e_dyn e then
          let? x := pie_relocate amap (e_dynrelas e) m refs in
          if Nat.eqb (e_dynrels e) 0 then Some x else None
        else static_relocate amap (e_relocs e) m refs in
      let? hs := lift_all rellocs amap amap refs in
      Some (mkProgram refs m hs (w32 (e_entry e))).
End Load.

(** ** Jump destinations of a program of OpenVM *)
(** An instruction of OpenVM: its opcode and the operand [c] (as a canonical number). *)
Record ovm_ins := mkOvm { o_opcode : N; o_c : N }.
(** isa/opcode.rs 49-150: the numbers of opcodes. *)
Definition branch_opcodes_bigint : list N := [1056; 1057; 1061; 1062; 1063; 1064].
Definition branch_opcodes : list N := [544; 545; 549; 550; 551; 552; 560; 565].
Definition branch_opcodes_set : list N := branch_opcodes_bigint ++ branch_opcodes.
Definition all_opcodes_except_bigint : list N :=
  [512; 513; 514; 515; 516; 517; 518; 519; 520; 521; 528; 529; 530; 531; 532; 533; 534; 535; 544; 545; 549; 550; 551; 552;
   560; 561; 565; 576; 592; 593; 594; 595; 596; 597; 598; 599; 608; 609].
Definition instruction_allowlist : list N := filter (fun o => negb (o =? 609) && negb (o =? 608)) all_opcodes_except_bigint.
Definition ovm_branching (i : ovm_ins) : bool := mem_addr (o_opcode i) branch_opcodes_set.
Definition ovm_allowed (i : ovm_ins) : bool := mem_addr (o_opcode i) instruction_allowlist.
(** isa/mod.rs 146-170 [add_extra_targets]; [None] is the panic for a gap in the program. *)
Fixpoint extra_targets (base step : N) (i : nat) (slots : list (option ovm_ins)) : option (list N) :=
  match slots with
  | [] => Some []
  | None :: _ => None
  | Some x :: r =>
    let? l := extra_targets base step (S i) r in
    let pc := w32 (base + w32 (N.of_nat i * step)) in
    Some (if mem_addr (o_opcode x) branch_opcodes_bigint then w32 (pc + o_c x) :: l else l)
  end.
(** isa/mod.rs 105-111 [get_jump_destinations]. *)
Definition jump_destinations (base : N) (slots : list (option ovm_ins)) (labels : list N) : option (list N) :=
  let? l := extra_targets base 4 0 slots in Some (labels ++ l).

(** ** The scan for 64-bit programs *)
(** rv64.rs 117-258 [scan_for_jump_targets]: the addresses that are added.  [prev]: the register [rs1] and
    the immediate of the previous instruction if it was AUIPC.  [addr as i64 + imm as i64] wraps. *)
Definition to_u64 (z : Z) : N := Z.to_N (z mod 2 ^ 64)%Z.
Fixpoint scan64 (base : N) (k : nat) (prev : option (option N * option Z)) (is : list ins) : list N :=
  match is with
  | [] => []
  | i :: r =>
    let addr := base + N.of_nat (k * 4) in
    let next := match i_op i with AUIPC => Some (i_rs1 i, i_imm i) | _ => None end in
    (match i_op i with
     | JAL | BEQ | BNE | BLT | BGE | BLTU | BGEU => match i_imm i with Some imm => [to_u64 (Z.of_N addr + imm)] | None => [] end
     | JALR =>
       match prev with
       | Some (rs1, imm) =>
         if match i_rd i, rs1 with Some a, Some b => a =? b | None, None => true | _, _ => false end then
           match imm, i_imm i with Some h, Some l => [to_u64 (Z.of_N addr + h + l)] | _, _ => [] end
         else []
       | None => []
       end
     | _ => []
     end) ++ scan64 base (S k) next r
  end.
