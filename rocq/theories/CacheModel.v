(** Model of the cache of artifacts of the command line: cli-openvm-riscv/src/main.rs.  Building the precompiles and
    setting up the program are given as relations between inputs and results, because results may differ from one
    run to the next.  A file of the cache is named by the directory, the stage and the hash; the last part of its
    path, "artifact.cbor", is the same for all of them and left out.  Writing a file is a sequence of operations of
    one byte each, so that a run can be interrupted between any two of them.  Runs at the same time are not modelled. *)
From Coq Require Import Arith NArith Bool List Ascii String.
From Verif Require Import NumModel JsonModel.
Import ListNotations.
Local Open Scope list_scope.

(** ** Arguments *)
(** autoprecompiles/src/pgo/mod.rs 49-60 [PgoType]. *)
Inductive pgo_type := PgoCell | PgoInstruction | PgoNone.
(** main.rs 66-77 [ProfileArgs], 79-105 [GenerateApcsArgs], 107-128 [SelectArgs], 130-135 [SetupArgs].  A path is a text. *)
Record profile_args := mkProfileArgs { guest : text; profile_input : option N }.
Record generate_args := mkGenerateArgs { g_profile : profile_args; apc_candidates_dir : option text; apc_max_instructions : option N;
  apc_exec_count_cutoff : option N; optimistic_precompiles : bool; superblocks : N }.
Record select_args := mkSelectArgs { s_generate : generate_args; autoprecompiles : N; skip : N; pgo : pgo_type; max_columns : option N }.
Record setup_args := mkSetupArgs { u_select : select_args }.
(** 47-64 [Commands], with 137-150 [ExecuteArgs] and 152-173 [ProveArgs]. *)
Inductive command :=
| SelectApcs (a : select_args)
| SetUp (a : setup_args)
| Execute (a : setup_args) (input : option N) (metrics : option text)
| Prove (a : setup_args) (input : option N) (mock recursion : bool) (metrics : option text).
(** 251-268 [validate_select_args]; [false]: the program ends with a message. *)
Definition validate_select_args (a : select_args) (for_execution : bool) : bool :=
  negb ((1 <? superblocks (s_generate a))%N && negb match pgo a with PgoCell => true | _ => false end)
  && negb (for_execution && (1 <? superblocks (s_generate a))%N).
(** The arguments of the two stages of a command (189-247 [run_command]). *)
Definition setup_of (c : command) : option setup_args :=
  match c with SelectApcs _ => None | SetUp a | Execute a _ _ | Prove a _ _ _ _ => Some a end.
Definition select_of (c : command) : select_args :=
  match c with SelectApcs a => a | SetUp a | Execute a _ _ | Prove a _ _ _ _ => u_select a end.
Definition accepted (c : command) : bool :=
  validate_select_args (select_of c) match c with SelectApcs _ => false | _ => true end.

(** ** The text of the arguments: derived [Debug] *)
Section Text.
  (** [escape c] is what [Debug] prints for the character [c] of a text. *)
  Variable escape : N -> text.
  Definition show_text (s : text) : text := 34%N :: flat_map escape s ++ [34%N].
  Definition show_number (n : N) : text := print 10 n.
  Definition show_bool (b : bool) : text := if b then txt "true" else txt "false".
  Definition show_option {A} (show : A -> text) (o : option A) : text :=
    match o with Some x => txt "Some(" ++ show x ++ txt ")" | None => txt "None" end.
  Definition show_pgo (p : pgo_type) : text :=
    match p with PgoCell => txt "Cell" | PgoInstruction => txt "Instruction" | PgoNone => txt "None" end.
  Definition show_profile (a : profile_args) : text :=
    txt "ProfileArgs { guest: " ++ show_text (guest a) ++ txt ", profile_input: " ++ show_option show_number (profile_input a) ++ txt " }".
  Definition show_generate (a : generate_args) : text :=
    txt "GenerateApcsArgs { profile: " ++ show_profile (g_profile a) ++
    txt ", apc_candidates_dir: " ++ show_option show_text (apc_candidates_dir a) ++
    txt ", apc_max_instructions: " ++ show_option show_number (apc_max_instructions a) ++
    txt ", apc_exec_count_cutoff: " ++ show_option show_number (apc_exec_count_cutoff a) ++
    txt ", optimistic_precompiles: " ++ show_bool (optimistic_precompiles a) ++
    txt ", superblocks: " ++ show_number (superblocks a) ++ txt " }".
  Definition show_select (a : select_args) : text :=
    txt "SelectArgs { generate: " ++ show_generate (s_generate a) ++
    txt ", autoprecompiles: " ++ show_number (autoprecompiles a) ++
    txt ", skip: " ++ show_number (skip a) ++
    txt ", pgo: " ++ show_pgo (pgo a) ++
    txt ", max_columns: " ++ show_option show_number (max_columns a) ++ txt " }".
  Definition show_setup (a : setup_args) : text := txt "SetupArgs { select: " ++ show_select (u_select a) ++ txt " }".
End Text.
(** [Debug] of a text (Rust's core library); [printable] is a table of characters. *)
Definition escape_debug (printable : N -> bool) (c : N) : text :=
  if (c =? 34)%N then txt "\" ++ [34%N]
  else if (c =? 92)%N then txt "\\"
  else if (c =? 10)%N then txt "\n"
  else if (c =? 13)%N then txt "\r"
  else if (c =? 9)%N then txt "\t"
  else if (c =? 0)%N then txt "\0"
  else if printable c then [c]
  else txt "\u{" ++ print 16 c ++ txt "}".
(** [{:016x}]. *)
Definition hex16 (n : N) : text := repeat 48%N (16 - List.length (print 16 n)) ++ print 16 n.

(** ** Files *)
Definition file := (text * text * text)%type.
Definition file_dec (x y : file) : {x = y} + {x <> y}.
Proof. repeat decide equality. Defined.
Definition files := file -> option (list N).
(** [File::create] makes the file empty, and [to_writer] appends to it. *)
Inductive op := Create (f : file) | Append (f : file) (b : N).
Definition put (fs : files) (f : file) (c : option (list N)) : files := fun g => if file_dec f g then c else fs g.
Definition apply1 (fs : files) (o : op) : files :=
  match o with
  | Create f => put fs f (Some [])
  | Append f b => put fs f (match fs f with Some l => Some (l ++ [b]) | None => None end)
  end.
Definition apply (ops : list op) (fs : files) : files := fold_left apply1 ops fs.

Section Cache.
  (** What a command finds besides its arguments and the cache: the compiled guest program, and powdr itself. *)
  Context {world apcs program : Type}.
  Variable escape : N -> text.
  (** The serialized [exe] of the guest program. *)
  Variable exe : world -> list N.
  (** [DefaultHasher] over the values in turn. *)
  Variable digest : list (list N) -> N.
  Variable encode_apcs : apcs -> list N.
  Variable decode_apcs : list N -> option apcs.
  Variable encode_program : program -> list N.
  Variable decode_program : list N -> option program.
  (** The results that building and selecting the precompiles, and setting up the program with them, can have
      (lines 318-333 and 351-352). *)
  Variable selects : select_args -> world -> apcs -> Prop.
  Variable sets_up : world -> apcs -> program -> Prop.

  (** 361-366 [hash_guest_exe], 373-378 [stage_hash]. *)
  Definition guest_hash (w : world) : text := hex16 (digest [exe w]).
  Definition stage_hash (args : text) (w : world) : text := hex16 (digest [args; guest_hash w]).
  (** 384-399 [load_cached] *)
  Definition load_cached {T} (decode : list N -> option T) (fs : files) (dir : option text) (stage hash : text) : option T :=
    match dir with
    | None => None
    | Some d => match fs (d, stage, hash) with Some bytes => decode bytes | None => None end
    end.
  (** 401-407 [save_cached]. *)
  Definition save_cached (dir : option text) (stage hash : text) (bytes : list N) : list op :=
    match dir with
    | None => []
    | Some d => Create (d, stage, hash) :: map (Append (d, stage, hash)) bytes
    end.

  Section Run.
    Variable dir : option text.
    Variable w : world.
    Variable fs : files.
    (** 308-336 [run_select_apcs]: what it does to the files and what it returns. *)
    Inductive run_select (a : select_args) : list op -> apcs -> Prop :=
    | select_hit r :
        load_cached decode_apcs fs dir (txt "select") (stage_hash (show_select escape a) w) = Some r ->
        run_select a [] r
    | select_miss r :
        load_cached decode_apcs fs dir (txt "select") (stage_hash (show_select escape a) w) = None ->
        selects a w r ->
        run_select a (save_cached dir (txt "select") (stage_hash (show_select escape a) w) (encode_apcs r)) r.
    (** 340-355 [run_setup]. *)
    Inductive run_setup (a : setup_args) : list op -> program -> Prop :=
    | setup_hit p :
        load_cached decode_program fs dir (txt "setup") (stage_hash (show_setup escape a) w) = Some p ->
        run_setup a [] p
    | setup_miss ops r p :
        load_cached decode_program fs dir (txt "setup") (stage_hash (show_setup escape a) w) = None ->
        run_select (u_select a) ops r -> sets_up w r p ->
        run_setup a (ops ++ save_cached dir (txt "setup") (stage_hash (show_setup escape a) w) (encode_program p)) p.
    (** 189-247 [run_command], up to the use of the result. *)
    Inductive answer := Selected (r : apcs) | Ready (p : program).
    Inductive run_command : command -> list op -> answer -> Prop :=
    | run_select_apcs a ops r : accepted (SelectApcs a) = true -> run_select a ops r -> run_command (SelectApcs a) ops (Selected r)
    | run_others c a ops p : accepted c = true -> setup_of c = Some a -> run_setup a ops p -> run_command c ops (Ready p).
    (** What an interrupted command has done to the files: some of the operations of one of its stages, after all
        those of the stage before. *)
    Inductive interrupted (c : command) : list op -> Prop :=
    | stopped_early : interrupted c []
    | stopped_select ops r k :
        match setup_of c with
        | Some a => load_cached decode_program fs dir (txt "setup") (stage_hash (show_setup escape a) w) = None
        | None => True
        end ->
        run_select (select_of c) ops r -> interrupted c (firstn k ops)
    | stopped_late ops r k : run_command c ops r -> interrupted c (firstn k ops).
  End Run.

  (** What happens to the directory of artifacts: commands that finish or are interrupted, and files that are lost
      or cut. *)
  Inductive event :=
  | Finished (dir : option text) (w : world) (c : command) (r : answer)
  | Interrupted (dir : option text) (w : world) (c : command)
  | Damaged (f : file) (k : option nat).
  Inductive happens (fs : files) : event -> files -> Prop :=
  | happens_finished dir w c ops r : run_command dir w fs c ops r -> happens fs (Finished dir w c r) (apply ops fs)
  | happens_interrupted dir w c ops : interrupted dir w fs c ops -> happens fs (Interrupted dir w c) (apply ops fs)
  | happens_damaged f k :
      happens fs (Damaged f k) (put fs f (match k, fs f with Some k, Some l => Some (firstn k l) | _, _ => None end)).
  Inductive history (fs : files) : list event -> files -> Prop :=
  | history_nil : history fs [] fs
  | history_cons e fs1 l fs2 : happens fs e fs1 -> history fs1 l fs2 -> history fs (e :: l) fs2.
End Cache.
