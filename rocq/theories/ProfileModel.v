(** Model of what is counted: autoprecompiles/src/execution_profile.rs, evaluation.rs, stats_logger.rs, the statistics in
    openvm/src/customize_exe.rs, openvm/src/extraction_utils.rs and openvm/src/lib.rs.  Counts in machines are small numbers. *)
From Coq Require Import Arith NArith Bool List Ascii String.
From Verif Require Import NumModel JsonModel SymModel TraceModel AirModel.
Import ListNotations.
Local Open Scope list_scope.

(** ** Execution profiles *)
(** An event of the tracing library: its fields in order, with values that are of type u64 or not. *)
Inductive field_value := U64 (v : N) | Other.
Definition event := list (text * field_value).
(** execution_profile.rs 69-84 [PgoData], [record_u64], [record_debug]. *)
Definition record_field (pc : option N) (f : text * field_value) : option N :=
  match snd f with U64 v => if list_eq_dec N.eq_dec (fst f) (txt "pc") then Some v else pc | Other => pc end.
(** 108-124 [on_event] with 97-99 [increment]: pushed at the end. *)
Definition on_event (pcs : list N) (e : event) : list N :=
  match fold_left record_field e None with Some pc => pcs ++ [pc] | None => pcs end.
(** 43-47: a map as pairs; [None]: the count exceeds a u32 (a panic, or zero without checks of overflow). *)
Fixpoint count_pc (counts : list (N * N)) (pc : N) : option (list (N * N)) :=
  match counts with
  | [] => Some [(pc, 1%N)]
  | (k, n) :: r =>
    if (k =? pc)%N then if (n + 1 <? 2 ^ 32)%N then Some ((k, n + 1)%N :: r) else None
    else match count_pc r pc with Some r' => Some ((k, n) :: r') | None => None end
  end.
Fixpoint count_pcs (counts : list (N * N)) (pcs : list N) : option (list (N * N)) :=
  match pcs with [] => Some counts | pc :: r => match count_pc counts pc with Some counts => count_pcs counts r | None => None end end.
(** 16-23 [ExecutionProfile]. *)
Record profile := mkProfile { pc_count : list (N * N); pc_list : list N }.
(** 27-67 [execution_profile] of the events during the execution; [None] is a panic: 50 [min().unwrap()] or too many. *)
Definition execution_profile (events : list event) : option profile :=
  let pcs := fold_left on_event events [] in
  match count_pcs [] pcs with
  | Some [] => None
  | Some counts => Some (mkProfile counts pcs)
  | None => None
  end.
(** pgo/mod.rs 38-47, adapter.rs 97-100 [pc_execution_count] with a profile. *)
Definition pc_execution_count (prof : profile) (pc : N) : option N := find_key pc (pc_count prof).

(** ** Statistics of machines *)
(** evaluation.rs 10-21 [AirStats], 34-43 [add], 45-49 [sum]. *)
Record stats := mkStats { s_main : nat; s_constraints : nat; s_interactions : nat }.
Definition stats_add (a b : stats) : stats := mkStats (s_main a + s_main b) (s_constraints a + s_constraints b) (s_interactions a + s_interactions b).
Definition stats_sum (l : list stats) : stats := fold_left stats_add l (mkStats 0 0 0).
(** openvm/src/lib.rs 466-474 [From<AirMetrics>]. *)
Definition stats_from (m : metrics) : stats := mkStats (mt_main m) (mt_constraints m) (mt_interactions m).
(** extraction_utils.rs 425-455 [AirWidths]: preprocessed and main; 457-461 [total]. *)
Definition widths : Type := nat * nat.
Definition widths_add (a b : widths) : widths := (fst a + fst b, snd a + snd b).
Definition widths_sum (l : list widths) : widths := fold_left widths_add l (0, 0).
Definition widths_total (w : widths) : nat := fst w + snd w.
(** 441-449: [None]: below zero (a panic, or a huge number without checks of overflow); 486-488 [columns_saved]. *)
Definition widths_sub (a b : widths) : option widths :=
  if (fst b <=? fst a) && (snd b <=? snd a) then Some (fst a - fst b, snd a - snd b) else None.

(** [unwrap] for every instruction; [None] is a panic. *)
Fixpoint each_some {A B} (f : A -> option B) (l : list A) : option (list B) :=
  match l with
  | [] => Some []
  | x :: r => match f x with Some y => match each_some f r with Some ys => Some (y :: ys) | None => None end | None => None end
  end.

Section Machines.
  Context {p : positive}.
  (** evaluation.rs 23-31 [AirStats::new]. *)
  Definition stats_of (m : smach p) : stats := mkStats (List.length (main_columns m)) (List.length (sm_cons m)) (List.length (sm_buses m)).
  (** extraction_utils.rs 401-418 [get_air_metrics] of a [PowdrAir]: chip.rs 83-89 [width] and one constraint or
      interaction per one of the machine (94-130 [eval]); nothing is preprocessed. *)
  Definition apc_metrics (m : smach p) : option metrics :=
    match powdr_width m with Some w => Some (mkMetrics 0 w (List.length (sm_cons m)) (List.length (sm_buses m))) | None => None end.
  (** customize_exe.rs 111-129 [apc_stats]: the widths before and after. *)
  Definition apc_stats (o : original_airs p) (opcodes : list N) (m : smach p) : option (widths * widths) :=
    match apc_metrics m, each_some (get_instruction_metrics o) opcodes with
    | Some after, Some before => Some (widths_sum (map (fun x => (mt_preprocessed x, mt_main x)) before), (mt_preprocessed after, mt_main after))
    | _, _ => None
    end.
  (** evaluation.rs 65-82 [evaluate_apc] with extraction_utils.rs 69-73 [get_instruction_air_stats]. *)
  Definition evaluate_apc (o : original_airs p) (opcodes : list N) (m : smach p) : option ((widths * widths) * (stats * stats)) :=
    match each_some (get_instruction_metrics o) opcodes, apc_stats o opcodes m with
    | Some before, Some w => Some (w, (stats_sum (map stats_from before), stats_of m))
    | _, _ => None
    end.

  (** openvm/src/lib.rs 500-540 [air_metrics]: of the AIRs with their names, those of precompiles, each with the next widths, and the others. *)
  Fixpoint starts_with (prefix s : text) : bool :=
    match prefix, s with
    | [], _ => true
    | c :: prefix, d :: s => (c =? d)%N && starts_with prefix s
    | _, [] => false
    end.
  Fixpoint air_metrics (airs : list (text * metrics)) (apc_stats : list (widths * widths)) : option (list (metrics * (widths * widths)) * list metrics) :=
    match airs with
    | [] => Some ([], [])
    | (name, m) :: r =>
      if starts_with (txt "PowdrAir") name then
        match apc_stats with
        | [] => None
        | w :: apc_stats => match air_metrics r apc_stats with Some (powdr, others) => Some ((m, w) :: powdr, others) | None => None end
        end
      else match air_metrics r apc_stats with Some (powdr, others) => Some (powdr, m :: others) | None => None end
    end.
  (** powdr_extension/vm.rs 120-128 [extend_circuit]: one AIR per precompile, in order, behind the original ones. *)
  Definition extend_circuit (original : list (text * metrics)) (name : text) (precompiles : list (smach p)) : option (list (text * metrics)) :=
    match each_some apc_metrics precompiles with Some ms => Some (original ++ map (pair name) ms) | None => None end.
End Machines.
