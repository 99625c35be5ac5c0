(** Model of riscv-elf/src/rv64.rs: labels and jump destinations of a 64-bit program, with the instructions that jump to them. *)
From Coq Require Import Arith NArith ZArith Bool List.
From Verif Require Import ElfModel.
Import ListNotations.
Local Open Scope N_scope.

(** What the crate goblin reads from the file: program headers, symbols with their names, the header. *)
Record phdr64 := mkPh64 { ph_exec : bool; ph_vaddr : N; ph_memsz : N; ph_offset : N; ph_filesz : N }.
Record sym64 := mkSym64 { s_value : N; s_name : option (list N) }.
Record elf64 := mkElf64 { is_class64 : bool; is_little : bool; is_riscv : bool; e_entry : N; e_phs : list phdr64; e_syms : list sym64 }.
(** rv64.rs 12-18 [JumpDest], with its target.  The text is not modelled letter by letter: which instruction it names, and its registers. *)
Inductive jump_text := TJal (rd : option N) | TBranch (o : opcode) (rs1 rs2 : option N) | TPair.
Record jump := mkJump { j_target : N; j_from : N; j_text : jump_text }.
(** 21-32 [Rv64Labels].  Sets and maps are lists in ascending order. *)
Record labels64 := mkLabels { jumpdests : list N; entry_point : N; symbols : list (N * list N); with_debug : list (N * list jump); pc_base : N }.

(** [BTreeSet::insert]. *)
Fixpoint set_insert (x : N) (l : list N) : list N :=
  match l with
  | [] => [x]
  | y :: r => if x <? y then x :: l else if x =? y then l else y :: set_insert x r
  end.
(** [entry(..).or_default().push(..)] of a [BTreeMap]. *)
Fixpoint map_push (j : jump) (l : list (N * list jump)) : list (N * list jump) :=
  match l with
  | [] => [(j_target j, [j])]
  | (y, js) :: r => if j_target j <? y then (j_target j, [j]) :: l else if j_target j =? y then (y, js ++ [j]) :: r else (y, js) :: map_push j r
  end.
Definition mem (x : N) (l : list N) : bool := existsb (N.eqb x) l.

Section Wide.
  (** The decoder of the crate raki, for 64-bit instructions. *)
  Variable decode64 : N -> option ins.
  (** 124-139: the data in words of four bytes, each of them an instruction of 32 bits; [None] is a panic. *)
  Fixpoint decode_words (data : list N) : option (list ins) :=
    match data with
    | [] => Some []
    | a :: b :: c :: d :: r =>
      if N.land a 3 =? 3 then
        match decode64 (le_bytes [a; b; c; d]), decode_words r with Some i, Some l => Some (i :: l) | _, _ => None end
      else None
    | _ => None
    end.
  (** 140-257: the jumps whose target is known.  [prev]: [rs1] and the immediate of the previous instruction if it was AUIPC.
      Simplification: addresses and sums do not overflow before the final conversion. *)
  Fixpoint scan_jumps (base : N) (k : nat) (prev : option (option N * option Z)) (is : list ins) : list jump :=
    match is with
    | [] => []
    | i :: r =>
      let addr := base + N.of_nat (k * 4) in
      let next := match i_op i with AUIPC => Some (i_rs1 i, i_imm i) | _ => None end in
      (match i_op i with
       | JAL => match i_imm i with Some imm => [mkJump (to_u64 (Z.of_N addr + imm)) addr (TJal (i_rd i))] | None => [] end
       | BEQ | BNE | BLT | BGE | BLTU | BGEU =>
         match i_imm i with Some imm => [mkJump (to_u64 (Z.of_N addr + imm)) addr (TBranch (i_op i) (i_rs1 i) (i_rs2 i))] | None => [] end
       | JALR =>
         match prev with
         | Some (rs1, imm) =>
           if match i_rd i, rs1 with Some a, Some b => a =? b | None, None => true | _, _ => false end then
             match imm, i_imm i with Some h, Some l => [mkJump (to_u64 (Z.of_N addr + h + l)) addr TPair] | _, _ => [] end
           else []
         | None => []
         end
       | _ => []
       end) ++ scan_jumps base (S k) next r
    end.
  (** 153-160, 183-205: what is recorded for a jump. *)
  Definition record_jump (labels : list N) (acc : list N * list (N * list jump)) (j : jump) : list N * list (N * list jump) :=
    (set_insert (j_target j) (fst acc), if mem (j_target j) labels then snd acc else map_push j (snd acc)).
  (** 94-107: one program header; [None] is a panic (of the slice or of the scan). *)
  Definition scan_segment (file : list N) (labels : list N) (acc : option (list N * list (N * list jump))) (ph : phdr64) : option (list N * list (N * list jump)) :=
    match acc with
    | None => None
    | Some acc =>
      if ph_exec ph then
        if ph_offset ph + ph_filesz ph <=? N.of_nat (length file) then
          match decode_words (firstn (N.to_nat (ph_filesz ph)) (skipn (N.to_nat (ph_offset ph)) file)) with
          | Some is => Some (fold_left (record_jump labels) (scan_jumps (ph_vaddr ph) 0 None is) acc)
          | None => None
          end
        else None
      else Some acc
    end.
  (** 77-82: whether an address is in an executable segment.  Simplification: no overflow of [u64]. *)
  Definition in_text (phs : list phdr64) (a : N) : bool :=
    existsb (fun ph => ph_exec ph && (ph_vaddr ph <=? a) && (a <? ph_vaddr ph + ph_memsz ph)) phs.
  (** 64-70: the lowest address of an executable segment, or zero. *)
  Definition lowest (phs : list phdr64) : N :=
    match map ph_vaddr (filter ph_exec phs) with [] => 0 | x :: r => fold_left N.min r x end.
  (** 40-115 [compute_jumpdests_from_buffer]; [None] is a panic. *)
  Definition compute_jumpdests (file : list N) (e : elf64) : option labels64 :=
    if is_class64 e && is_little e && is_riscv e then
      let used := filter (fun s => negb (s_value s =? 0) && in_text (e_phs e) (s_value s)) (e_syms e) in
      let addrs := map s_value used in
      let start := fold_left (fun l a => set_insert a l) addrs (set_insert (e_entry e) []) in
      match fold_left (scan_segment file addrs) (e_phs e) (Some (start, [])) with
      | Some (dests, debug) =>
        Some (mkLabels dests (e_entry e)
                (flat_map (fun s => match s_name s with Some n => [(s_value s, n)] | None => [] end) used) debug (lowest (e_phs e)))
      | None => None
      end
    else None.
End Wide.
