(** Model of openvm/src/utils.rs, openvm/src/extraction_utils.rs (from the AIRs of OpenVM to symbolic machines),
    openvm/src/powdr_extension/chip.rs (from a symbolic machine to an AIR) and of the layout of the record
    arenas in openvm/src/powdr_extension/executor/mod.rs.  Names of AIRs are numbers, ordered like the names;
    names of columns are only counted. *)
From Coq Require Import Arith NArith Bool List.
From Verif Require Import Field ExprModel SymModel TraceModel.
Import ListNotations.

(** A call can return, return an error, or panic. *)
Inductive res (A : Type) := Ok (a : A) | Err | Panic.
Arguments Ok {A}. Arguments Err {A}. Arguments Panic {A}.
Definition then_ {A B} (r : res A) (f : A -> res B) : res B := match r with Ok a => f a | Err => Err | Panic => Panic end.
(** [collect] into a [Result]: it stops at the first error. *)
Fixpoint each {A B} (f : A -> res B) (l : list A) : res (list B) :=
  match l with [] => Ok [] | x :: l => then_ (f x) (fun y => then_ (each f l) (fun ys => Ok (y :: ys))) end.

(** The expressions of OpenVM (openvm_stark_backend): an entry of the main trace has a part and an offset of its
    row; [EOther] are the preprocessed, permutation, public, challenge and exposed entries. *)
Inductive entry := EMain (part offset : nat) | EOther (kind : nat).
Inductive xexpr (p : positive) :=
| XConst (k : F p) | XAdd (x y : xexpr p) | XSub (x y : xexpr p) | XMul (x y : xexpr p) | XNeg (x : xexpr p)
| XVar (e : entry) (index : nat) | XFirst | XLast | XTransition.
Arguments XConst {p}. Arguments XAdd {p}. Arguments XSub {p}. Arguments XMul {p}. Arguments XNeg {p}. Arguments XVar {p}.
Arguments XFirst {p}. Arguments XLast {p}. Arguments XTransition {p}.
Record xint (p : positive) := mkXI { xi_bus : N; xi_message : list (xexpr p); xi_count : xexpr p }.
Arguments mkXI {p}. Arguments xi_bus {p}. Arguments xi_message {p}. Arguments xi_count {p}.
(** An AIR: [a_columns] is the number of names that [columns] returns, if it returns any. *)
Record air (p : positive) := mkAir { a_name : N; a_columns : option nat; a_width : nat; a_preprocessed : option nat; a_cons : list (xexpr p); a_ints : list (xint p) }.
Arguments mkAir {p}. Arguments a_name {p}. Arguments a_columns {p}. Arguments a_width {p}. Arguments a_preprocessed {p}. Arguments a_cons {p}. Arguments a_ints {p}.

(** utils.rs 22-28 [OpenVmReference], without the name, and expression/src/lib.rs 26-75 with these references. *)
Inductive oref := RColumn (id : N) (next : bool) | RFirst | RLast | RTransition.
Inductive gaexpr (p : positive) := GaRef (r : oref) | GaNum (k : F p) | GaBin (l : gaexpr p) (o : aop) (r : gaexpr p) | GaNeg (e : gaexpr p).
Arguments GaRef {p}. Arguments GaNum {p}. Arguments GaBin {p}. Arguments GaNeg {p}.

(** openvm/src/lib.rs 459-473 [AirMetrics], extraction_utils.rs 430-434 [AirWidths]. *)
Record metrics := mkMetrics { mt_preprocessed : nat; mt_main : nat; mt_constraints : nat; mt_interactions : nat }.
(** extraction_utils.rs 40-50 [OriginalAirs]; both maps as lists of pairs. *)
Record original_airs (p : positive) := mkOA { oa_opcodes : list (N * N); oa_machines : list (N * (smach p * metrics)) }.
Arguments mkOA {p}. Arguments oa_opcodes {p}. Arguments oa_machines {p}.
Fixpoint find_key {A} (k : N) (l : list (N * A)) : option A :=
  match l with [] => None | (x, a) :: l => if (x =? k)%N then Some a else find_key k l end.

Section AirModel.
  Context {p : positive}.

  (** utils.rs 60-103 [symbolic_to_algebraic]; [columns] is the number of columns. *)
  Fixpoint symbolic_to_algebraic (columns : nat) (e : xexpr p) : res (gaexpr p) :=
    match e with
    | XConst k => Ok (GaNum k)
    | XAdd x y => then_ (symbolic_to_algebraic columns x) (fun x => then_ (symbolic_to_algebraic columns y) (fun y => Ok (GaBin x OAdd y)))
    | XSub x y => then_ (symbolic_to_algebraic columns x) (fun x => then_ (symbolic_to_algebraic columns y) (fun y => Ok (GaBin x OSub y)))
    | XMul x y => then_ (symbolic_to_algebraic columns x) (fun x => then_ (symbolic_to_algebraic columns y) (fun y => Ok (GaBin x OMul y)))
    | XNeg x => then_ (symbolic_to_algebraic columns x) (fun x => Ok (GaNeg x))
    | XVar (EMain part offset) index =>
      if negb (part =? 0) then Panic
      else
        match offset with
        | 0 => if index <? columns then Ok (GaRef (RColumn (N.of_nat index) false)) else Panic
        | 1 => if index <? columns then Ok (GaRef (RColumn (N.of_nat index) true)) else Panic
        | _ => Panic
        end
    | XVar (EOther _) _ => Panic
    | XFirst => Ok (GaRef RFirst)
    | XLast => Ok (GaRef RLast)
    | XTransition => Ok (GaRef RTransition)
    end.
  (** utils.rs 48-57 [try_from], autoprecompiles/src/expression.rs 80-110 [try_convert]. *)
  Fixpoint try_convert (e : gaexpr p) : res (aexpr p) :=
    match e with
    | GaRef (RColumn id false) => Ok (ARef (Orig id))
    | GaRef _ => Err
    | GaNum k => Ok (ANum k)
    | GaBin l o r => then_ (try_convert l) (fun l => then_ (try_convert r) (fun r => Ok (ABin l o r)))
    | GaNeg e => then_ (try_convert e) (fun e => Ok (ANeg e))
    end.
  Definition convert (columns : nat) (e : xexpr p) : res (aexpr p) := then_ (symbolic_to_algebraic columns e) try_convert.
  (** utils.rs 105-119 [openvm_bus_interaction_to_powdr]. *)
  Definition convert_interaction (columns : nat) (i : xint p) : res (sbus p) :=
    then_ (convert columns (xi_count i)) (fun mult =>
    then_ (each (convert columns) (xi_message i)) (fun args => Ok (mkSB (xi_bus i) mult args))).
  (** extraction_utils.rs 377-387 [get_columns]. *)
  Definition get_columns (a : air p) : res nat :=
    match a_columns a with Some n => if n =? a_width a then Ok n else Panic | None => Ok (a_width a) end.
  (** 401-421 [get_air_metrics]. *)
  Definition get_air_metrics (a : air p) : metrics :=
    mkMetrics (match a_preprocessed a with Some n => n | None => 0 end) (a_width a) (length (a_cons a)) (length (a_ints a)).
  (** 290-317: the closure given to [insert_opcode]. *)
  Definition machine_of (a : air p) : res (smach p * metrics) :=
    then_ (get_columns a) (fun columns =>
    then_ (each (convert columns) (a_cons a)) (fun cons =>
    then_ (each (convert_interaction columns) (a_ints a)) (fun ints =>
    Ok (mkSM (map constraint_from cons) ints [], get_air_metrics a)))).
  (** 82-100 [insert_opcode]. *)
  Definition insert_opcode (o : original_airs p) (opcode name : N) (machine : res (smach p * metrics)) : res (original_airs p) :=
    match find_key opcode (oa_opcodes o) with
    | Some _ => Panic
    | None =>
      match find_key name (oa_machines o) with
      | Some _ => Ok (mkOA ((opcode, name) :: oa_opcodes o) (oa_machines o))
      | None => then_ machine (fun m => Ok (mkOA ((opcode, name) :: oa_opcodes o) ((name, m) :: oa_machines o)))
      end
    end.
  (** 261-322 [airs]: [allowed] is the set of allowed opcodes in the order of its iteration, [lookup] the map from
      opcodes to executors, [insertion] from executors to positions in [ext]. *)
  Fixpoint airs_loop (lookup : N -> option nat) (insertion : list nat) (ext : list (air p)) (allowed : list N) (o : original_airs p) : res (original_airs p) :=
    match allowed with
    | [] => Ok o
    | op :: allowed =>
      match lookup op with
      | None => airs_loop lookup insertion ext allowed o
      | Some ex =>
        match nth_error insertion ex with
        | None => Panic
        | Some k =>
          match nth_error ext k with
          | None => Panic
          | Some a => then_ (insert_opcode o op (a_name a) (machine_of a)) (airs_loop lookup insertion ext allowed)
          end
        end
      end
    end.
  Definition airs (lookup : N -> option nat) (insertion : list nat) (ext : list (air p)) (allowed : list N) : res (original_airs p) :=
    airs_loop lookup insertion ext allowed (mkOA [] []).
  (** 52-68 [get_instruction_air_and_id]; [None] is a panic. *)
  Definition get_instruction_air_and_id (o : original_airs p) (opcode : N) : option (N * smach p) :=
    let? name := find_key opcode (oa_opcodes o) in
    let? m := find_key name (oa_machines o) in
    Some (name, fst m).
  (** 102-108 [get_instruction_metrics], 110-112 [allow_list]. *)
  Definition get_instruction_metrics (o : original_airs p) (opcode : N) : option metrics :=
    let? name := find_key opcode (oa_opcodes o) in
    option_map snd (find_key name (oa_machines o)).
  Definition allow_list (o : original_airs p) : list N := map fst (oa_opcodes o).

  (** chip.rs 72-79 [PowdrAir::new], 81-87 [width], 92-129 [eval] on a row: the values of the constraints, and bus
      (as u16), multiplicity, arguments and weight of the interactions; [None] is a panic.  The columns are
      looked up by id, see [TraceModel.eval_in]. *)
  Definition powdr_width (m : smach p) : option nat := if 0 <? length (main_columns m) then Some (length (main_columns m)) else None.
  Definition powdr_eval (m : smach p) (row : list (F p)) : option (list (F p) * list (N * F p * list (F p) * nat)) :=
    let cols := main_columns m in
    if length cols =? length row then
      let? cs := all_opt (map (eval_in cols row) (sm_cons m)) in
      let? is := all_opt (map (fun b =>
        let? mult := eval_in cols row (sb_mult b) in
        let? args := all_opt (map (eval_in cols row) (sb_args b)) in
        Some ((sb_id b mod 65536)%N, mult, args, 1)) (sm_buses m)) in
      Some (cs, is)
    else None.

  (** ** Record arenas *)
  (** extraction_utils.rs 134-167 [record_arena_dimension_by_air_name_per_apc_call]: a map ordered by names, here a
      sorted list of names with the real height, the width and the dummy height. *)
  Definition dims := list (N * (nat * nat * nat)).
  Fixpoint count_instr (name : N) (width : nat) (dummy : bool) (d : dims) : dims :=
    let one := if dummy then (0, width, 1) else (1, width, 0) in
    match d with
    | [] => [(name, one)]
    | (n, (r, w, u)) :: d' =>
      if (name <? n)%N then (name, one) :: d
      else if (name =? n)%N then (n, if dummy then (r, w, u + 1) else (r + 1, w, u)) :: d'
      else (n, (r, w, u)) :: count_instr name width dummy d'
    end.
  Fixpoint arena_dims_loop (o : original_airs p) (instrs : list (N * list (nat * N))) (d : dims) : option dims :=
    match instrs with
    | [] => Some d
    | (op, sub) :: instrs =>
      let? name := find_key op (oa_opcodes o) in
      let? m := find_key name (oa_machines o) in
      arena_dims_loop o instrs (count_instr name (mt_main (snd m)) (is_empty sub) d)
    end.
  Definition arena_dims (o : original_airs p) (opcodes : list N) (subs : list (list (nat * N))) : option dims :=
    let? instrs := zip_eq opcodes subs in arena_dims_loop o instrs [].
  (** executor/mod.rs 625-650 [cached_instructions_meta]: index of the arena and whether it is the real one. *)
  Definition instruction_meta (o : original_airs p) (d : dims) (i : N * list (nat * N)) : option (nat * bool) :=
    let? am := get_instruction_air_and_id o (fst i) in
    let? k := index_of (fst am) (map fst d) in
    Some (k, negb (is_empty (snd i))).
  Definition executor_meta (o : original_airs p) (opcodes : list N) (subs : list (list (nat * N))) : option (list (nat * bool)) :=
    let? d := arena_dims o opcodes subs in
    let? instrs := zip_eq opcodes subs in
    all_opt (map (instruction_meta o d) instrs).
  (** executor/mod.rs 107-141 [InitializedOriginalArenas::new]: the capacities, in rows, of the real and the dummy arenas. *)
  Definition capacities (d : dims) (estimate : nat) : list (nat * nat) := map (fun x => match snd x with (r, _, u) => (r * estimate, u * estimate) end) d.
  (** 484-513: rows used in the arenas after one more call; [None] if an arena does not exist. *)
  Fixpoint use_row (k : nat) (real : bool) (used : list (nat * nat)) : option (list (nat * nat)) :=
    match used, k with
    | [], _ => None
    | (r, u) :: used, 0 => Some ((if real then (r + 1, u) else (r, u + 1)) :: used)
    | x :: used, S k => let? l := use_row k real used in Some (x :: l)
    end.
  Fixpoint use_rows (meta : list (nat * bool)) (used : list (nat * nat)) : option (list (nat * nat)) :=
    match meta with [] => Some used | (k, real) :: meta => let? used := use_row k real used in use_rows meta used end.
  Fixpoint use_calls (n : nat) (meta : list (nat * bool)) (used : list (nat * nat)) : option (list (nat * nat)) :=
    match n with 0 => Some used | S n => let? used := use_rows meta used in use_calls n meta used end.
End AirModel.
