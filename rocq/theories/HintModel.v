(** Model of the hint instructions: openvm-riscv/extensions/hints-guest/src/lib.rs, hints-transpiler/src/lib.rs, hints-circuit/src/lib.rs and
    hints-circuit/src/executors.rs (the executors of the ten-limb elements are those of [K256Model]). *)
From Coq Require Import Arith NArith Bool List.
From Verif Require Import K256Model K256Spec.
Import ListNotations.
Local Open Scope N_scope.

(** ** The instruction words *)
(** hints-guest/src/lib.rs 9-19: [OPCODE], [HINTS_FUNCT3], [HintsFunct7] and its [from_repr]. *)
Definition OPCODE : N := 0x5b.
Definition HINTS_FUNCT3 : N := 0.
Inductive funct7 := ReverseBytes | K256InverseField | K256InverseField10x26 | K256SqrtField10x26.
Definition funct7_repr (f : funct7) : N := match f with ReverseBytes => 0 | K256InverseField => 1 | K256InverseField10x26 => 2 | K256SqrtField10x26 => 3 end.
Definition funct7_from_repr (n : N) : option funct7 :=
  match n with 0 => Some ReverseBytes | 1 => Some K256InverseField | 2 => Some K256InverseField10x26 | 3 => Some K256SqrtField10x26 | _ => None end.
(** What [custom_insn_r!] assembles (21-67): the format R of RISC-V.  Opcode at bit 0, rd at 7, funct3 at 12, rs1 at 15, rs2 at 20, funct7 at 25. *)
Definition encode_r (opcode rd funct3 rs1 rs2 funct7 : N) : N := opcode + 2 ^ 7 * rd + 2 ^ 12 * funct3 + 2 ^ 15 * rs1 + 2 ^ 20 * rs2 + 2 ^ 25 * funct7.
(** 21-67: the instruction that a guest function executes, with its pointer in register [rs1]. *)
Definition guest_insn (f : funct7) (rs1 : N) : N := encode_r OPCODE 0 HINTS_FUNCT3 rs1 0 (funct7_repr f).

(** ** The transpiler *)
(** hints-transpiler/src/lib.rs 22-30 [HintsPhantom]. *)
Definition discriminant (f : funct7) : N :=
  match f with ReverseBytes => 0x60 | K256InverseField => 0x61 | K256InverseField10x26 => 0x62 | K256SqrtField10x26 => 0x63 end.
(** [Instruction::phantom] of OpenVM: the operands are [a], [b] and the discriminant with [c_upper] above its sixteen bits.
    Simplification: numbers instead of field elements (all of them are below 2^21 here). *)
Record phantom := mkPhantom { ph_a : N; ph_b : N; ph_c : N }.
Definition phantom_instruction (disc a b c_upper : N) : phantom := mkPhantom a b (disc + 2 ^ 16 * c_upper).
(** 36-66 [process_custom]; [RType::new] of rrs_lib takes the fields with shifts and masks. *)
Definition process_custom (stream : list N) : option phantom :=
  match stream with
  | [] => None
  | w :: _ =>
    if N.land w 0x7f =? OPCODE then
      if N.land (N.shiftr w 12) 0x7 =? HINTS_FUNCT3 then
        match funct7_from_repr (N.land (N.shiftr w 25) 0x7f) with
        | Some f => Some (phantom_instruction (discriminant f) (4 * N.land (N.shiftr w 15) 0x1f) 0 0)
        | None => None
        end
      else None
    else None
  end.

(** ** Execution *)
(** The guest's registers and memory as bytes, and the hint stream. *)
Record vm := mkVm { registers : N -> N; memory : N -> N; hints : list N }.
Definition read (m : N -> N) (p : N) (n : nat) : list N := map (fun k => m (p + N.of_nat k)) (seq 0 n).
(** [read_rv32_register]: four bytes, the lowest first. *)
Definition read_register (s : vm) (a : N) : N := bytes_word (registers s a) (registers s (a + 1)) (registers s (a + 2)) (registers s (a + 3)).
(** [U256::to_be_bytes]. *)
Fixpoint be_bytes (k : nat) (n : N) : list N := match k with O => [] | S k' => be_bytes k' (n / 256) ++ [n mod 256] end.
(** The inverse of crypto_bigint, as a power (there is only one inverse); [None] is the empty option for multiples of the modulus. *)
Fixpoint powm (b : N) (e : positive) : N :=
  match e with
  | xH => b mod K256
  | xO e' => let x := powm b e' in x * x mod K256
  | xI e' => let x := powm b e' in x * x mod K256 * b mod K256
  end.
Definition inv_mod (n : N) : option N := if n mod K256 =? 0 then None else match K256 - 2 with N0 => None | Npos e => Some (powm n e) end.
(** executors.rs 56-89 [K256InverseFieldSubEx] on the 32 bytes at the pointer; [None] is a panic. *)
Definition exec_inverse_sec1 (mem : list N) : option (list N) :=
  let n := be_value mem in
  if n mod K256 =? 0 then Some (be_bytes 32 0)
  else match inv_mod n with Some i => Some (be_bytes 32 i) | None => None end.
(** The sub-executors: how many bytes they read at the pointer, and the stream they leave. *)
Definition input_bytes (f : funct7) : nat := match f with ReverseBytes => 4 | K256InverseField => 32 | K256InverseField10x26 | K256SqrtField10x26 => 40 end.
Definition hint_for (f : funct7) (mem : list N) : option (list N) :=
  match f with
  | ReverseBytes => Some (exec_reverse_bytes mem)
  | K256InverseField => exec_inverse_sec1 mem
  | K256InverseField10x26 => exec_inverse mem
  | K256SqrtField10x26 => exec_sqrt mem
  end.
(** executors.rs [phantom_execute] (15-36, 56-89, 101-135, 148-207): the common part. *)
Definition phantom_execute (f : funct7) (s : vm) (a c_upper : N) : option vm :=
  if c_upper =? 0 then
    let rs1 := read_register s a in
    match hint_for f (read (memory s) rs1 (input_bytes f)) with
    | Some h => Some (mkVm (registers s) (memory s) h)
    | None => None
    end
  else None.
(** hints-circuit/src/lib.rs 37-59 [extend_execution]: adding an executor fails if its discriminant is taken ([None]). *)
Definition add_sub_executor (table : list (N * funct7)) (f : funct7) (disc : N) : option (list (N * funct7)) :=
  if existsb (fun x => fst x =? disc) table then None else Some (table ++ [(disc, f)]).
Definition extend_execution (table : list (N * funct7)) : option (list (N * funct7)) :=
  let* t := add_sub_executor table ReverseBytes (discriminant ReverseBytes) in
  let* t := add_sub_executor t K256InverseField (discriminant K256InverseField) in
  let* t := add_sub_executor t K256InverseField10x26 (discriminant K256InverseField10x26) in
  add_sub_executor t K256SqrtField10x26 (discriminant K256SqrtField10x26).
(** OpenVM's phantom executor: the discriminant is the lower sixteen bits of the third operand. *)
Definition run_phantom (table : list (N * funct7)) (i : phantom) (s : vm) : option vm :=
  match find (fun x => fst x =? ph_c i mod 2 ^ 16) table with
  | Some (_, f) => phantom_execute f s (ph_a i) (ph_c i / 2 ^ 16)
  | None => None
  end.

(** ** The guest *)
(** hints-guest/src/lib.rs 83-92 [read_hint_buffer]: words of four bytes from the stream. *)
Definition read_buffer (words : nat) (stream : list N) : option (list N * list N) :=
  if (4 * words <=? length stream)%nat then Some (firstn (4 * words) stream, skipn (4 * words) stream) else None.
(** 112-115 [hint_k256_inverse_field], with the stream that the executor left. *)
Definition guest_inverse_sec1 (sec1 : list N) : option (list N) :=
  let* stream := exec_inverse_sec1 sec1 in let* (r, _) := read_buffer 8 stream in Some r.
