(** Model of autoprecompiles/src/trace_handler.rs and of the parts of openvm/src/powdr_extension that record
    the original instructions of an autoprecompile (APC) and fill its trace: executor/mod.rs and
    trace_generator/cpu/mod.rs.  A panic is [None].  Airs are identified by numbers. *)
From Coq Require Import Arith NArith Bool List.
From Verif Require Import Field ExprModel SystemModel SymModel.
Import ListNotations.

(** autoprecompiles/src/lib.rs 190-206 [Apc]: the air of every instruction of the block, the substitutions of
    every instruction (original column, APC column id) and the machine. *)
Record apc (p : positive) := mkApc { apc_airs : list N; apc_subs_by : list (list (nat * N)); apc_machine : smach p }.
Arguments mkApc {p}. Arguments apc_airs {p}. Arguments apc_subs_by {p}. Arguments apc_machine {p}.
(** executor/mod.rs 95-101, 164-167 [InitializedOriginalArenas], [ArenaPair]: the rows in the real and the
    dummy arena of every air.  The arena index of an air is its position in a map that is built from the same
    list of instructions in [new] (107-141) and in [PowdrExecutor::new] (612-640); arenas are looked up by air
    here.  A record is represented by the row that the chip of the air makes of it. *)
Record arenas (p : positive) := mkArenas { ar_real : N -> list (list (F p)); ar_dummy : N -> list (list (F p)); ar_calls : nat }.
Arguments mkArenas {p}. Arguments ar_real {p}. Arguments ar_dummy {p}. Arguments ar_calls {p}.
(** trace_handler.rs 12-16 [OriginalRowReference]; [data] is the trace of an air. *)
Record row_ref := mkRef { rr_air : N; rr_start : nat; rr_length : nat }.
(** 18-29 [TraceData]; [td_columns] is [apc_poly_id_to_index]: the id of the column at each index. *)
Record trace_data (p : positive) := mkTD { td_values : list (list row_ref); td_maps : list (list (nat * nat)); td_columns : list N; td_compute : list (var * amethod p) }.
Arguments mkTD {p}. Arguments td_values {p}. Arguments td_maps {p}. Arguments td_columns {p}. Arguments td_compute {p}.

Notation "'let?' x := a 'in' b" := (match a with Some x => b | None => None end) (at level 200, x pattern, right associativity).

Section TraceModel.
  Context {p : positive}.
  Local Notation row := (list (F p)).

  (** ** Recording: executor/mod.rs *)
  Definition push (f : N -> list row) (air : N) (r : row) : N -> list row := fun a => if (a =? air)%N then f a ++ [r] else f a.
  Definition is_empty {A} (l : list A) : bool := match l with [] => true | _ => false end.
  (** 136-138 [new]. *)
  Definition new_arenas : arenas p := mkArenas (fun _ => []) (fun _ => []) 0.
  (** 484-513 [execute], the loop over instructions with 632-636 [should_use_real_arena]: the executor of an
      instruction adds one record to the arena it is given. *)
  Fixpoint exec_instructions (airs : list N) (subs : list (list (nat * N))) (rows : list row) (A : arenas p) : arenas p :=
    match airs, subs, rows with
    | a :: airs, s :: subs, r :: rows =>
      exec_instructions airs subs rows
        (if negb (is_empty s) then mkArenas (push (ar_real A) a r) (ar_dummy A) (ar_calls A)
         else mkArenas (ar_real A) (push (ar_dummy A) a r) (ar_calls A))
    | _, _, _ => A
    end.
  (** 455-516 [execute]: one call of the APC. *)
  Definition exec_call (P : apc p) (A : arenas p) (rows : list row) : arenas p :=
    let A := exec_instructions (apc_airs P) (apc_subs_by P) rows A in
    mkArenas (ar_real A) (ar_dummy A) (ar_calls A + 1).

  (** ** generate_trace: trace_handler.rs *)
  (** autoprecompiles/src/powdr.rs 45-58 [unique_references], through a [BTreeMap] by id; symbolic_machine.rs 130-132 [main_columns]. *)
  Fixpoint insert_id (x : N) (l : list N) : list N :=
    match l with
    | [] => [x]
    | y :: r => if (x <? y)%N then x :: l else if (x =? y)%N then l else y :: insert_id x r
    end.
  Definition main_columns (m : smach p) : list N := fold_left (fun l v => insert_id (vid v) l) (sm_refs m) [].
  (** 70-75 and the indexing of [apc_poly_id_to_index]: [None] for an id that is not a key. *)
  Fixpoint index_of (id : N) (cols : list N) : option nat :=
    match cols with [] => None | c :: r => if (c =? id)%N then Some 0 else option_map S (index_of id r) end.
  (** 53-57: instructions with substitutions; [zip_eq] panics for lists of different lengths. *)
  Definition with_subs (P : apc p) : option (list (N * list (nat * N))) :=
    option_map (filter (fun x => negb (is_empty (snd x)))) (zip_eq (apc_airs P) (apc_subs_by P)).
  (** 68 [counts]. *)
  Definition count_air (a : N) (airs : list N) : nat := length (filter (N.eqb a) airs).
  (** 77-89: the number of earlier instructions of the same air. *)
  Fixpoint offsets (counts : N -> nat) (airs : list N) : list nat :=
    match airs with
    | [] => []
    | a :: r => counts a :: offsets (fun b => if (b =? a)%N then counts b + 1 else counts b) r
    end.
  (** 91-104. *)
  Definition index_map (cols : list N) (subs : list (nat * N)) : option (list (nat * nat)) :=
    all_opt (map (fun s => option_map (fun i => (fst s, i)) (index_of (snd s) cols)) subs).
  (** 106-124; [widths] is the width of the trace of an air, if there is one. *)
  Definition source_row (widths : N -> option nat) (airs : list N) (trace_row : nat) (x : N * nat) : option row_ref :=
    let '(air, offset) := x in
    let? width := widths air in
    Some (mkRef air ((trace_row * count_air air airs + offset) * width) width).
  Definition generate_trace (widths : N -> option nat) (calls : nat) (P : apc p) : option (trace_data p) :=
    let? instrs := with_subs P in
    let airs := map fst instrs in
    let cols := main_columns (apc_machine P) in
    let offs := offsets (fun _ => 0) airs in
    let? maps := all_opt (map (fun x => index_map cols (snd x)) instrs) in
    let? values := all_opt (map (fun k => all_opt (map (source_row widths airs k) (combine airs offs))) (seq 0 calls)) in
    Some (mkTD values maps cols (sm_derived (apc_machine P))).

  (** ** generate_witness: trace_generator/cpu/mod.rs *)
  (** 170 [&r.data[r.start..r.start + r.length]]. *)
  Definition slice (data : row) (start len : nat) : option row :=
    if start + len <=? length data then Some (firstn len (skipn start data)) else None.
  Fixpoint set_at (i : nat) (x : F p) (r : row) : option row :=
    match r, i with
    | [], _ => None
    | _ :: r, 0 => Some (x :: r)
    | y :: r, S i => option_map (cons y) (set_at i x r)
    end.
  (** 173-175. *)
  Fixpoint copy_columns (src : row) (m : list (nat * nat)) (r : row) : option row :=
    match m with
    | [] => Some r
    | (from, to) :: m => let? x := nth_error src from in let? r := set_at to x r in copy_columns src m r
    end.
  (** 168-176. *)
  Fixpoint copy_rows (data : N -> row) (refs : list row_ref) (maps : list (list (nat * nat))) (r : row) : option row :=
    match refs, maps with
    | [], [] => Some r
    | ref :: refs, m :: maps =>
      let? src := slice (data (rr_air ref)) (rr_start ref) (rr_length ref) in
      let? r := copy_columns src m r in
      copy_rows data refs maps r
    | _, _ => None
    end.
  (** 188-198, autoprecompiles/src/expression.rs 222-236 [MappingRowEvaluator]: an expression in a row; expression/src/lib.rs 186-213 [to_expression]. *)
  Fixpoint eval_in (cols : list N) (r : row) (e : aexpr p) : option (F p) :=
    match e with
    | ARef v => let? i := index_of (vid v) cols in nth_error r i
    | ANum k => Some k
    | ABin a o b =>
      let? x := eval_in cols r a in
      let? y := eval_in cols r b in
      Some (match o with OAdd => x + y | OSub => x - y | OMul => x * y end)%F
    | ANeg a => option_map fopp (eval_in cols r a)
    end.
  (** 182-202: the numerator is evaluated only if the divisor is not zero. *)
  Definition derived_value (cols : list N) (r : row) (m : amethod p) : option (F p) :=
    match m with
    | AConst k => Some k
    | AQuot a b =>
      let? d := eval_in cols r b in
      if is_zero d then Some 0%F else let? n := eval_in cols r a in Some (finv d * n)%F
    end.
  (** 178-204. *)
  Fixpoint compute_derived (cols : list N) (ds : list (var * amethod p)) (r : row) : option row :=
    match ds with
    | [] => Some r
    | (v, m) :: ds =>
      let? i := index_of (vid v) cols in
      let? x := derived_value cols r m in
      let? r := set_at i x r in
      compute_derived cols ds r
    end.
  (** 206-225: the bus interactions that are replayed on the periphery. *)
  Definition replay (cols : list N) (r : row) (b : sbus p) : option (N * F p * list (F p)) :=
    let? m := eval_in cols r (sb_mult b) in
    let? args := all_opt (map (eval_in cols r) (sb_args b)) in
    Some (sb_id b, m, args).
  Definition fill_row (P : apc p) (data : N -> row) (td : trace_data p) (refs : list row_ref) : option (row * list (N * F p * list (F p))) :=
    let cols := td_columns td in
    let? r := copy_rows data refs (td_maps td) (repeat 0%F (length cols)) in
    let? r := compute_derived cols (td_compute td) r in
    let? effects := all_opt (map (replay cols r) (sm_buses (apc_machine P))) in
    Some (r, effects).
  (** openvm's [next_power_of_two_or_zero]. *)
  Definition next_power_of_two_or_zero (n : nat) : nat := match n with 0 => 0 | _ => 2 ^ Nat.log2_up n end.
  (** The trace of a chip: one row for every record, in order, and some padding. *)
  Definition chip_trace (rows : list row) (padding : row) : row := concat rows ++ padding.
  (** 90-228 [generate_witness] for initialized arenas: the rows of the trace and the replayed interactions of
      every row.  [widths] and [padding] are those of the chips, which exist for all airs that have an arena. *)
  Definition generate_witness (P : apc p) (widths : N -> nat) (padding : N -> row) (A : arenas p) : option (list row * list (list (N * F p * list (F p)))) :=
    let data := fun a => chip_trace (ar_real A a) (padding a) in
    let has_arena := fun a => existsb (N.eqb a) (apc_airs P) in
    let? td := generate_trace (fun a => if has_arena a then Some (widths a) else None) (ar_calls A) P in
    let width := length (td_columns td) in
    let height := next_power_of_two_or_zero (ar_calls A) in
    if width =? 0 then None (* [chunks_mut] *)
    else
      let? filled := all_opt (map (fill_row P data td) (firstn height (td_values td))) in
      Some (map fst filled ++ repeat (repeat 0%F width) (height - length filled), map snd filled).

  (** ** Segments: executor/mod.rs 56-92 [OriginalArenas] *)
  (** A call initializes the arenas if needed; generating a trace takes them (cpu/mod.rs 60-62). *)
  Inductive event := Call (rows : list row) | Generate.
  Definition trace_step (P : apc p) (widths : N -> nat) (padding : N -> row) (st : option (arenas p)) (e : event)
    : option (arenas p) * option (option (list row * list (list (N * F p * list (F p))))) :=
    match e with
    | Call rows => (Some (exec_call P (match st with Some A => A | None => new_arenas end) rows), None)
    | Generate => (None, Some (match st with Some A => generate_witness P widths padding A | None => Some ([], []) end))
    end.
  Fixpoint trace_run (P : apc p) (widths : N -> nat) (padding : N -> row) (st : option (arenas p)) (es : list event)
    : list (option (list row * list (list (N * F p * list (F p))))) :=
    match es with
    | [] => []
    | e :: es =>
      let '(st, out) := trace_step P widths padding st e in
      match out with Some o => o :: trace_run P widths padding st es | None => trace_run P widths padding st es end
    end.
End TraceModel.
Arguments event : clear implicits.
