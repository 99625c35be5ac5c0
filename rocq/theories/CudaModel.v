(** Model of the GPU trace generator: openvm/src/powdr_extension/trace_generator/cuda/mod.rs (host side),
    openvm/cuda/src/{expr_eval.cuh, apc_tracegen.cu, apc_apply_bus.cu} (kernels) and of
    trace_generator/cpu/periphery.rs [apply] (lookups of the CPU trace generator).

    A kernel is a list of threads that run concurrently on one output buffer; a thread is the tree of its accesses
    to the buffer, so that accesses of different threads can interleave in any order.  Read-only inputs
    (bytecode, spans, traces of the original airs) are not part of the shared state.  A failed device assertion or
    an access out of bounds is [Fault], a panic of the host is [None]. *)
From Coq Require Import Arith ZArith NArith Bool List.
From Verif Require Import Field ExprModel SystemModel SymModel TraceModel.
Import ListNotations.

(** ** Machine words *)
Definition u32 (n : N) : N := (n mod 2 ^ 32)%N.
Definition u64 (n : N) : N := (n mod 2 ^ 64)%N.
(** [n as i32] (in C++: [int]). *)
Definition i32 (n : N) : Z := let m := u32 n in if (m <? 2 ^ 31)%N then Z.of_N m else (Z.of_N m - 2 ^ 32)%Z.
(** [(size_t)z] for an [int]. *)
Definition size_t (z : Z) : N := Z.to_N (z mod 2 ^ 64).
Definition nn (n : nat) : N := N.of_nat n.

(** ** Lookup tables *)
(** One counter of a periphery chip: of the variable range checker, of the tuple range checker, and of the bitwise
    lookup (by kind of request, 0 for ranges and 1 for xor, and by operands). *)
Inductive bin := BRange (i : N) | BTuple (i : N) | BBit (selector x y : N).
(** The chips: openvm/src/lib.rs 271-276 [PeripheryBusIds], the number of counters of the range checkers and which
    operands the bitwise lookup accepts.  [None] is a VM without the chip.  The chips themselves belong to OpenVM:
    they are taken to increment one counter per request and to panic for a counter out of range. *)
Record chips := mkChips { ch_range : N; ch_bit : option N; ch_tuple : option N; ch_bins : N; ch_size0 : N; ch_size1 : N; ch_operands : N -> N -> bool }.

Section Periphery.
  Variable ch : chips.
  (** OpenVM's [VariableRangeCheckerChip::add_count], as quoted in apc_apply_bus.cu 74. *)
  Definition range_bin (value max_bits : N) : option bin :=
    let i := (2 ^ max_bits + value - 1)%N in
    if (max_bits <? 64)%N && (i <? ch_bins ch)%N then Some (BRange i) else None.
  (** OpenVM's [RangeTupleCheckerChip::add_count]; periphery.rs 222: the slice is checked there. *)
  Definition tuple_bin (args : list N) : option bin :=
    match args with
    | [a; b] => let i := u32 (a * ch_size1 ch + b) in if (i <? ch_size0 ch * ch_size1 ch)%N then Some (BTuple i) else None
    | _ => None
    end.
  (** OpenVM's [request_range] and [request_xor]. *)
  Definition bit_bin (selector x y : N) : option bin := if ch_operands ch x y then Some (BBit selector x y) else None.
  Definition is_id (o : option N) (id : N) : bool := match o with Some i => (i =? id)%N | None => false end.
  Definition times (mult : N) (b : option bin) : option (list bin) :=
    if (mult =? 0)%N then Some [] else option_map (fun b => repeat b (N.to_nat mult)) b.
  (** trace_generator/cpu/periphery.rs 179-236 [apply]: the counters that are incremented, in order. *)
  Definition apply_bus (bus_id mult : N) (args : list N) : option (list bin) :=
    let id := (bus_id mod 2 ^ 16)%N in
    if is_id (ch_bit ch) id then
      match args with
      | x :: y :: xy :: selector :: _ =>
        times mult (if (selector =? 0)%N then bit_bin 0 x y
                    else if (selector =? 1)%N then (if (N.lxor x y =? xy)%N then bit_bin 1 x y else None)
                    else None)
      | _ => None
      end
    else if (ch_range ch =? id)%N then
      match args with value :: max_bits :: _ => times mult (range_bin value max_bits) | _ => None end
    else if is_id (ch_tuple ch) id then times mult (tuple_bin args)
    else if (id <=? 2)%N then Some []
    else None.
  (** trace_generator/cpu/mod.rs 206-225: all replayed interactions of a trace. *)
  Definition apply_all {p} (effects : list (list (N * F p * list (F p)))) : option (list bin) :=
    option_map (@concat bin) (all_opt (map (fun e : N * F p * list (F p) => apply_bus (fst (fst e)) (val (snd (fst e))) (map val (snd e))) (concat effects))).
End Periphery.

(** ** Threads *)
Section CudaModel.
  Context {p : positive}.
  Local Notation row := (list (F p)).
  Inductive prog :=
  | Done
  | Fault
  | Read (a : N) (k : F p -> prog)
  | Write (a : N) (v : F p) (k : prog)
  | Count (b : bin) (k : prog).
  Definition load {A} (M : list A) (a : N) : option A := nth_error M (N.to_nat a).
  (** The state of a kernel: the output buffer, the counters, and the threads. *)
  Definition state : Type := row * (bin -> N) * list prog.
  Definition bin_eqb (a b : bin) : bool :=
    match a, b with
    | BRange i, BRange j => (i =? j)%N
    | BTuple i, BTuple j => (i =? j)%N
    | BBit s x y, BBit s' x' y' => (s =? s')%N && (x =? x')%N && (y =? y')%N
    | _, _ => false
    end.
  Definition bump (C : bin -> N) (b : bin) : bin -> N := fun c => if bin_eqb c b then (C c + 1)%N else C c.
  Fixpoint update {A} (l : list A) (i : nat) (x : A) : list A :=
    match l, i with [] , _ => [] | _ :: r, 0 => x :: r | y :: r, S i => y :: update r i x end.
  (** One access of one thread.  Counters are incremented atomically (lookup::Histogram of OpenVM). *)
  Definition access (M : row) (C : bin -> N) (q : prog) : option (row * (bin -> N) * prog) :=
    match q with
    | Done | Fault => None
    | Read a k => Some (M, C, match load M a with Some v => k v | None => Fault end)
    | Write a v k => Some (match set_at (N.to_nat a) v M with Some M' => (M', C, k) | None => (M, C, Fault) end)
    | Count b k => Some (M, bump C b, k)
    end.
  Inductive step : state -> state -> Prop :=
  | one_thread M C ts i q M' C' q' : nth_error ts i = Some q -> access M C q = Some (M', C', q') -> step (M, C, ts) (M', C', update ts i q').
  Inductive steps : nat -> state -> state -> Prop :=
  | no_step s : steps 0 s s
  | more_steps n s s' s'' : step s s' -> steps n s' s'' -> steps (S n) s s''.

  (** ** Bytecode: cuda/mod.rs *)
  (** 49-81 [emit_expr]; cuda_abi.rs 138-147 [OpCode].  Words are appended to [bc]; a column without index panics. *)
  Fixpoint emit_expr (cols : list N) (height : N) (e : aexpr p) (bc : list N) : option (list N) :=
    match e with
    | ANum c => Some (bc ++ [1%N; val c])
    | ARef v => let? i := index_of (vid v) cols in Some (bc ++ [0%N; u32 (nn i * height)])
    | ANeg a => let? bc := emit_expr cols height a bc in Some (bc ++ [5%N])
    | ABin a o b =>
      let? bc := emit_expr cols height a bc in
      let? bc := emit_expr cols height b bc in
      Some (bc ++ [match o with OAdd => 2 | OSub => 3 | OMul => 4 end]%N)
    end.
  Record span := mkSpan { sp_off : N; sp_len : N }.
  Definition blen {A} (bc : list A) : N := u32 (nn (length bc)).
  (** [bc.len() as u32 - off]. *)
  Definition span_of (before after : list N) : span := mkSpan (blen before) (u32 (blen after + 2 ^ 32 - blen before)).
  (** 84-97 [emit_expr_span]. *)
  Definition emit_expr_span (cols : list N) (height : N) (e : aexpr p) (bc : list N) : option (span * list N) :=
    let? bc' := emit_expr cols height e bc in Some (span_of bc bc', bc').
  Record dspec := mkSpec { ds_base : N; ds_span : span }.
  (** 100-141 [compile_derived_to_gpu]. *)
  Fixpoint compile_derived (cols : list N) (height : N) (ds : list (var * amethod p)) (bc : list N) : option (list dspec * list N) :=
    match ds with
    | [] => Some ([], bc)
    | (v, m) :: ds =>
      let? col := index_of (vid v) cols in
      let? bc' := match m with
                  | AConst c => Some (bc ++ [1%N; val c])
                  | AQuot e1 e2 =>
                    let? bc := emit_expr cols height e2 bc in
                    let? bc := emit_expr cols height e1 (bc ++ [6%N]) in
                    Some (bc ++ [4%N])
                  end in
      let? (specs, bc'') := compile_derived cols height ds bc' in
      Some (mkSpec (u64 (nn col * height)) (span_of bc bc') :: specs, bc'')
    end.
  Record interaction := mkInter { in_bus : N; in_off : N }.
  Fixpoint compile_spans (cols : list N) (height : N) (es : list (aexpr p)) (bc : list N) : option (list span * list N) :=
    match es with
    | [] => Some ([], bc)
    | e :: es =>
      let? (s, bc) := emit_expr_span cols height e bc in
      let? (ss, bc) := compile_spans cols height es bc in
      Some (s :: ss, bc)
    end.
  (** 143-181 [compile_bus_to_gpu]; the number of arguments is not used by the kernel. *)
  Fixpoint compile_bus (cols : list N) (height : N) (bs : list (sbus p)) (spans : list span) (bc : list N) : option (list interaction * list span * list N) :=
    match bs with
    | [] => Some ([], spans, bc)
    | b :: bs =>
      let? (ss, bc) := compile_spans cols height (sb_mult b :: sb_args b) bc in
      let? (is, spans', bc) := compile_bus cols height bs (spans ++ ss) bc in
      Some (mkInter (u32 (sb_id b)) (blen spans) :: is, spans', bc)
    end.

  (** ** Stack machine: expr_eval.cuh *)
  Definition stack_capacity : nat := 16.
  (** 25-28 [stack_push]; the stack pointer is the length of the list. *)
  Definition stack_push (stack : row) (v : F p) (k : row -> prog) : prog := if length stack <? stack_capacity then k (v :: stack) else Fault.
  (** 36-90 [eval_expr] on the code at [off]; [ip] is below [len + 2], every round of the loop advances it. *)
  Fixpoint eval_loop (fuel : nat) (code : list N) (off len ip : N) (stack : row) (r : N) (k : F p -> prog) : prog :=
    if (ip <? len)%N then
      match fuel with
      | 0 => Fault
      | S fuel =>
        match load code (off + ip) with
        | None => Fault
        | Some op =>
          let binary (f : F p -> F p -> F p) := match stack with b :: a :: stack => stack_push stack (f a b) (fun stack => eval_loop fuel code off len (ip + 1) stack r k) | _ => Fault end in
          let unary (f : F p -> F p) := match stack with a :: stack => stack_push stack (f a) (fun stack => eval_loop fuel code off len (ip + 1) stack r k) | _ => Fault end in
          match op with
          | 0%N => match load code (off + ip + 1) with
                   | Some base => Read (base + r) (fun v => stack_push stack v (fun stack => eval_loop fuel code off len (ip + 2) stack r k))
                   | None => Fault
                   end
          | 1%N => match load code (off + ip + 1) with
                   | Some u => stack_push stack (of_N u) (fun stack => eval_loop fuel code off len (ip + 2) stack r k)
                   | None => Fault
                   end
          | 2%N => binary fadd
          | 3%N => binary fsub
          | 4%N => binary fmul
          | 5%N => unary fopp
          | 6%N => unary (fun a => if is_zero a then 0%F else finv a)
          | _ => Fault
          end
        end
      end
    else match stack with [v] => k v | _ => Fault end.
  (** 98-105 [eval_arg]. *)
  Definition eval_arg (s : span) (code : list N) (r : N) (k : F p -> prog) : prog := eval_loop (N.to_nat (sp_len s)) code (sp_off s) (sp_len s) 0 [] r k.

  (** ** Kernels *)
  (** The loop [for (size_t r = tid; r < H; r += total_threads)] of apc_tracegen.cu 46 and 83. *)
  Fixpoint rows_loop (fuel : nat) (H total r : N) (body : N -> prog -> prog) : prog :=
    if (r <? H)%N then match fuel with 0 => Fault | S fuel => body r (rows_loop fuel H total (r + total) body) end else Done.
  (** apc_tracegen.cu 115-119, 136-140: threads of a launch for [H] rows. *)
  Definition grid256 (H : N) : N := let g := u32 ((H + 255) / 256) in ((if (g =? 0)%N then 1 else g) * 256)%N.
  Definition launch256 (H : N) (body : N -> prog -> prog) : list prog :=
    map (fun tid => rows_loop (N.to_nat H) H (grid256 H) (nn tid) body) (seq 0 (N.to_nat (grid256 H))).

  (** cuda_abi.rs 63-83 [OriginalAir], [Subst]. *)
  Record dair := mkAir { da_height : Z; da_buffer : row; da_block : Z }.
  Record dsub := mkSub { su_air : Z; su_col : Z; su_row : Z; su_apc : Z }.
  (** apc_tracegen.cu 46-66, the body of the loop over rows. *)
  Fixpoint tracegen_row (H : N) (airs : list dair) (subs : list dsub) (calls : Z) (r : N) (k : prog) : prog :=
    match subs with
    | [] => k
    | s :: subs =>
      let dst := u64 (u64 (size_t (su_apc s) * H) + r) in
      let k := tracegen_row H airs subs calls r k in
      if (r <? size_t calls)%N then
        match load airs (size_t (su_air s)) with
        | Some air =>
          let col_base := u64 (size_t (su_col s) * size_t (da_height air)) in
          let src_r := u64 (size_t (su_row s) + r * size_t (da_block air)) in
          match load (da_buffer air) (u64 (col_base + src_r)) with Some v => Write dst v k | None => Fault end
        | None => Fault
        end
      else Write dst 0%F k
    end.
  (** apc_tracegen.cu 83-99. *)
  Fixpoint derived_row (specs : list dspec) (code : list N) (calls : Z) (r : N) (k : prog) : prog :=
    match specs with
    | [] => k
    | s :: specs =>
      let k := derived_row specs code calls r k in
      if (r <? size_t calls)%N then eval_arg (ds_span s) code r (fun v => Write (u64 (ds_base s + r)) v k)
      else Write (u64 (ds_base s + r)) 0%F k
    end.
  Fixpoint repeat_count (n : nat) (b : bin) (k : prog) : prog := match n with 0 => k | S n => Count b (repeat_count n b k) end.
  (** OpenVM's [Histogram::add_count] checks the index. *)
  Definition hist_count (m : N) (bins : N) (i : N) (mk : N -> bin) (k : prog) : prog :=
    if (i <? bins)%N then repeat_count (N.to_nat m) (mk i) k else Fault.
  (** apc_apply_bus.cu 55-113. *)
  Fixpoint bus_row (ch : chips) (bit tuple : N) (is : list interaction) (spans : list span) (code : list N) (r : N) (k : prog) : prog :=
    match is with
    | [] => k
    | i :: is =>
      let k := bus_row ch bit tuple is spans code r k in
      let arg j f := match load spans (u32 (in_off i + j)) with Some s => eval_arg s code r f | None => Fault end in
      arg 0%N (fun mult =>
        let m := val mult in
        if (m =? 0)%N then k
        else if (in_bus i =? ch_range ch)%N then
          arg 1%N (fun v => arg 2%N (fun b =>
            if (val b <? 32)%N then hist_count m (u32 (ch_bins ch)) (u32 (u32 (2 ^ val b) + val v + 2 ^ 32 - 1)) BRange k else Fault))
        else if (in_bus i =? tuple)%N then
          arg 1%N (fun v0 => arg 2%N (fun v1 =>
            hist_count m (u32 (ch_size0 ch * ch_size1 ch)) (u32 (val v0 * ch_size1 ch + val v1)) BTuple k))
        else if (in_bus i =? bit)%N then
          arg 1%N (fun x => arg 2%N (fun y => arg 4%N (fun selector =>
            if (val selector <=? 1)%N then
              if ch_operands ch (val x) (val y) then repeat_count (N.to_nat m) (BBit (val selector) (val x) (val y)) k else Fault
            else Fault)))
        else k)
    end.
  (** apc_apply_bus.cu 51-53, 147-150: one thread for every row, 128 threads per block. *)
  Definition launch128 (calls : N) (body : N -> prog -> prog) : list prog :=
    map (fun tid => if (nn tid <? calls)%N then body (nn tid) Done else Done) (seq 0 (N.to_nat ((calls + 127) / 128 * 128))).

  (** ** Host: cuda/mod.rs 201-402 [try_generate_witness] *)
  (** A trace of a chip on the device: its rows, stored column by column. *)
  Definition column_major (width : nat) (rows : list row) : row := concat (map (fun c => map (fun r => nth c r 0%F) rows) (seq 0 width)).
  (** 287 [into_group_map]: the substitutions of the instructions of one air. *)
  Definition group (instrs : list (N * list (nat * N))) (air : N) : list (list (nat * N)) := map snd (filter (fun x => (fst x =? air)%N) instrs).
  (** 293-323: the body of the fold; [order] is the order in which the map of groups is iterated. *)
  Definition group_subs (cols : list N) (air_index : nat) (subs_by_row : list (list (nat * N))) : option (list dsub) :=
    all_opt (map (fun x : nat * (nat * N) =>
      let? i := index_of (snd (snd x)) cols in
      Some (mkSub (i32 (nn air_index)) (i32 (nn (fst (snd x)))) (i32 (nn (fst x))) (i32 (nn i))))
      (flat_map (fun x => map (pair (fst x)) (snd x)) (combine (seq 0 (length subs_by_row)) subs_by_row))).
  Fixpoint host_airs (cols : list N) (traces : N -> option (nat * list row)) (instrs : list (N * list (nat * N))) (air_index : nat) (order : list N) : option (list dair * list dsub) :=
    match order with
    | [] => Some ([], [])
    | air :: order =>
      let g := group instrs air in
      let? subs := group_subs cols air_index g in
      let? (width, rows) := traces air in
      let? (airs, subs') := host_airs cols traces instrs (S air_index) order in
      Some (mkAir (i32 (nn (length rows))) (column_major width rows) (i32 (nn (length g))) :: airs, subs ++ subs')
    end.
  (** The threads of the three launches. *)
  Record launches := mkLaunch { la_height : nat; la_width : nat; la_trace : list prog; la_derived : list prog; la_bus : list prog }.
  (** [order]: the iteration order of the groups; [traces]: the dummy traces by air, without those of height 0. *)
  Definition try_generate_witness (P : apc p) (ch : chips) (order : list N) (traces : N -> option (nat * list row)) (calls : nat) : option launches :=
    let? instrs := with_subs P in
    let cols := main_columns (apc_machine P) in
    let height := next_power_of_two_or_zero calls in
    let H := nn height in
    let n := i32 (nn calls) in
    let? (airs, subs) := host_airs cols traces instrs 0 order in
    let? (specs, dcode) := compile_derived cols H (sm_derived (apc_machine P)) [] in
    let? (is, spans, bcode) := compile_bus cols H (sm_buses (apc_machine P)) [] [] in
    let? bit := ch_bit ch in
    let? tuple := ch_tuple ch in
    Some (mkLaunch height (length cols)
      (launch256 H (tracegen_row H airs subs n))
      (if is_empty specs then [] else launch256 H (derived_row specs dcode n))
      (if (n <=? 0)%Z then [] else launch128 (size_t n) (bus_row ch bit tuple is spans bcode))).
  (** The dummy traces of 235-257: the rows of the real arenas and the padding of the chips. *)
  Definition device_traces (P : apc p) (widths : N -> nat) (padding : N -> list row) (A : arenas p) (a : N) : option (nat * list row) :=
    let rows := ar_real A a ++ padding a in
    if existsb (N.eqb a) (apc_airs P) && negb (is_empty rows) then Some (widths a, rows) else None.
End CudaModel.
Arguments prog : clear implicits. Arguments state : clear implicits. Arguments dair : clear implicits. Arguments launches : clear implicits.
