(** Model of exporting the states of a build: autoprecompiles/src/export.rs and its uses in lib.rs, optimizer.rs and
    constraint_optimizer.rs.  A path is a directory, which does not matter here, and the name of a file; what is
    written is a list of files in the order of writing, and a later file replaces an earlier one of the same name. *)
From Coq Require Import Arith NArith Bool List Ascii String.
From Verif Require Import NumModel JsonModel.
Import ListNotations.
Local Open Scope list_scope.

(** [join] of itertools and of slices. *)
Fixpoint join_with (sep : N) (l : list text) : text := match l with [] => [] | [x] => x | x :: r => x ++ sep :: join_with sep r end.
(** [{:03}]. *)
Definition pad3 (n : N) : text := repeat 48%N (3 - List.length (print 10 n)) ++ print 10 n.
(** [Path::file_stem]: the name up to its last dot, or all of it if there is no dot or only one at the beginning. *)
Fixpoint until_dot (s : text) : option text := match s with [] => None | c :: r => if (c =? 46)%N then Some r else until_dot r end.
Definition file_stem (s : text) : text := match until_dot (rev s) with Some [] => s | Some r => rev r | None => s end.

(** export.rs 32-43 [ExportLevel]. *)
Inductive level := OnlyApc | ApcAndLoop | ApcAndSteps.

Section Export.
  Context {D : Type}.
  (** What is in a file: a document, a rendered machine or a text. *)
  Inductive content := Document (d : D) | Rendered (d : D) | Plain (t : text).
  (** 24-30 [ExportOptions]; the path is the beginning of the names of files. *)
  Record options := mkOptions { ex_path : option text; ex_level : level; ex_seq : N; ex_subs : list text }.
  (** 49-56 [new]. *)
  Definition new_options (path : bool) (start_pcs : list N) (l : level) : options :=
    mkOptions (if path then Some (txt "apc_candidate_" ++ join_with 95 (map (print 10) start_pcs)) else None) l 0 [].
  (** 58-71 [from_env_vars]. *)
  Definition level_from (export_level : option text) : level :=
    match export_level with
    | Some t => if list_eq_dec N.eq_dec t (txt "2") then ApcAndLoop else if list_eq_dec N.eq_dec t (txt "3") then ApcAndSteps else OnlyApc
    | None => OnlyApc
    end.
  Definition file_name (stub : text) (seq : N) (info : option text) : text :=
    stub ++ [95%N] ++ pad3 seq ++ (match info with Some i => 95%N :: i | None => [] end) ++ txt ".json".
  (** 186-195 [next_path]; [None]: the failed [unwrap] without a path. *)
  Definition next_path (o : options) (info : option text) : option (options * text) :=
    match ex_path o with
    | None => None
    | Some stub =>
      Some (mkOptions (ex_path o) (ex_level o) (ex_seq o + 1) (ex_subs o),
            file_name stub (ex_seq o) info)
    end.
  (** 197-207 [write_to_next_file], [write_to_file]. *)
  Definition write_to_next_file (o : options) (d : D) (info : option text) : option (options * text * list (text * content)) :=
    match next_path o info with Some (o, name) => Some (o, name, [(name, Document d)]) | None => None end.

  (** What callers do. *)
  Inductive export :=
  | EApc (d : D) (suffix : option text)
  | EOuter (d : D) (suffix : text)
  | EInner (d : D) (suffix : text)
  | ERegister (vars : list text)
  | ESubs.
  Definition run_export (o : options) (e : export) : option (options * list (text * content)) :=
    match e with
    (* 77-93 [export_apc], 95-111 [export_apc_from_machine] *)
    | EApc d suffix =>
      match write_to_next_file o d suffix with
      | Some (o, name, ws) => Some (o, ws ++ [(file_stem name ++ txt ".txt", Rendered d)])
      | None => None
      end
    (* 113-134 [export_optimizer_outer], [export_optimizer_outer_constraint_system] *)
    | EOuter d suffix =>
      match ex_level o with
      | OnlyApc => Some (o, [])
      | _ => match write_to_next_file o d (Some suffix) with Some (o, _, ws) => Some (o, ws) | None => None end
      end
    (* 136-153 [export_optimizer_inner], [export_optimizer_inner_constraint_system] *)
    | EInner d suffix =>
      match ex_level o with
      | ApcAndSteps => match write_to_next_file o d (Some suffix) with Some (o, _, ws) => Some (o, ws) | None => None end
      | _ => Some (o, [])
      end
    (* 157-170 [register_substituted_variables] *)
    | ERegister vars =>
      match ex_path o with
      | Some _ => Some (mkOptions (ex_path o) (ex_level o) (ex_seq o) (ex_subs o ++ vars), [])
      | None => Some (o, [])
      end
    (* 173-182 [export_substituted_variables] *)
    | ESubs =>
      match ex_path o with
      | Some stub => Some (o, [(stub ++ txt "_substitutions.json", Plain ([91%N] ++ join_with 44 (ex_subs o) ++ [93%N]))])
      | None => Some (o, [])
      end
    end.
  Fixpoint run_exports (o : options) (l : list export) : option (options * list (text * content)) :=
    match l with
    | [] => Some (o, [])
    | e :: r => match run_export o e with
                | Some (o1, ws) => match run_exports o1 r with Some (o2, ws') => Some (o2, ws ++ ws') | None => None end
                | None => None
                end
    end.

  (** ** A build *)
  (** constraint_optimizer.rs 57-157 [optimize_constraints] with 215-240, after optimizer.rs 94-95: what one iteration of the loop exports. *)
  Record iteration := mkIteration {
    it_start : D; it_assignments : list text; it_solver : D; it_trivial : D; it_free : D; it_disconnected : D; it_exhaustive : D; it_simp : D;
    it_rules : list text; it_rule_based : D; it_fields : D; it_memory : D; it_low_degree : D }.
  Definition iteration_exports (i : iteration) : list export :=
    [EOuter (it_start i) (txt "loop_iteration"); ERegister (it_assignments i); EInner (it_solver i) (txt "solver");
     EInner (it_trivial i) (txt "remove_trivial"); EInner (it_free i) (txt "remove_free"); EInner (it_disconnected i) (txt "remove_disconnected");
     EInner (it_exhaustive i) (txt "simplify_exhaustive"); EInner (it_simp i) (txt "trivial_simp"); ERegister (it_rules i);
     EInner (it_rule_based i) (txt "rule_based"); EInner (it_fields i) (txt "substitute_bus_interactio_fields");
     EInner (it_memory i) (txt "memory"); EInner (it_low_degree i) (txt "low_degree_bus")].
  (** lib.rs 339-347, optimizer.rs 55, 92-162, lib.rs 381-383.  The assignments of the last rule based pass (131-137) are
      the field [b_last_rules], which is not exported. *)
  Record building := mkBuilding {
    b_unopt : D; b_exec : D; b_iterations : list iteration; b_inlined : list text; b_inlining : D; b_disconnected : D;
    b_last_rules : list text; b_rule_based : D; b_range : D; b_simp : D; b_final : D }.
  Definition optimizer_exports (b : building) : list export :=
    EOuter (b_exec b) (txt "exec_bus") :: flat_map iteration_exports (b_iterations b) ++
    [ERegister (b_inlined b); EOuter (b_inlining b) (txt "inlining"); EInner (b_disconnected b) (txt "remove_disconnected");
     EOuter (b_rule_based b) (txt "rule_based"); EOuter (b_range b) (txt "range_constraints"); EOuter (b_simp b) (txt "trivial_simp"); ESubs].
  Definition build_exports (requested : bool) (b : building) : list export :=
    (if requested then [EApc (b_unopt b) (Some (txt "unopt"))] else []) ++ optimizer_exports b ++
    (if requested then [EApc (b_final b) None] else []).
  Definition requested (o : options) : bool := match ex_path o with Some _ => true | None => false end.
  Definition run_build (o : options) (b : building) : option (options * list (text * content)) := run_exports o (build_exports (requested o) b).
End Export.
Arguments content : clear implicits.
Arguments export : clear implicits.
Arguments iteration : clear implicits.
Arguments building : clear implicits.
