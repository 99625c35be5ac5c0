(** Model of the profile-guided selection of blocks: autoprecompiles/src/pgo and the functions of
    openvm/src/customize_exe.rs that call it and install the result. *)
From Coq Require Import Arith NArith Bool List.
From Verif Require Import BlocksModel.
Import ListNotations.
Local Open Scope N_scope.

(** [usize] and [u64] arithmetic in a release build: [+], [-] and [*] wrap, [checked_mul] does not. *)
Definition wrap64 (a : N) : N := a mod 2 ^ 64.
Definition wrap32 (a : N) : N := a mod 2 ^ 32.
Definition sub64 (a b : N) : N := wrap64 (a + 2 ^ 64 - b).
Definition checked_mul64 (a b : N) : option N := if a * b <? 2 ^ 64 then Some (a * b) else None.

(** pgo/cell/selection.rs 12-25 [BlockCandidate]; [cost_before] is not used in the selection. *)
Record cand := mkCand { c_pcs : list N; c_cost : N; c_value : N; c_count : N }.
(** selection.rs 60-65 [Density]. *)
Record density := mkDensity { d_value : N; d_cost : N; d_tie : N }.
(** selection.rs 41-57 [value], [cost], [density]; [None] is a panic. *)
Definition density_of (c : cand) : option density :=
  match checked_mul64 (c_count c) (c_value c), c_pcs c with
  | Some v, pc :: _ => Some (mkDensity v (c_cost c) pc)
  | _, _ => None
  end.
(** selection.rs 83-88 [Density::cmp]; [None] is a panic. *)
Definition density_cmp (a b : density) : option comparison :=
  match checked_mul64 (d_value a) (d_cost b), checked_mul64 (d_value b) (d_cost a) with
  | Some l, Some r => Some (match N.compare l r with Eq => N.compare (d_tie a) (d_tie b) | o => o end)
  | _, _ => None
  end.

(** selection.rs 100-107: the pairs of cut points; [tuples] drops an unpaired last element. *)
Fixpoint tuples (l : list nat) : list (nat * nat) :=
  match l with a :: b :: l' => (a, b) :: tuples l' | _ => [] end.
(** [&run[start..end]]; [None] is a panic. *)
Definition slice (run : list N) (s e : nat) : option (list N) :=
  if Nat.leb s e && Nat.leb e (length run) then Some (firstn (e - s) (skipn s run)) else None.
Fixpoint slices (run : list N) (l : list (nat * nat)) : option (list (list N)) :=
  match l with
  | [] => Some []
  | (s, e) :: l' =>
    if Nat.eqb s e then slices run l'
    else match slice run s e, slices run l' with Some x, Some r => Some (x :: r) | _, _ => None end
  end.
(** selection.rs 93-109 [count_and_update_run]; [None] is a panic or a search that does not end. *)
Definition count_and_update_run (pcs run : list N) : option (N * list (list N)) :=
  match find_non_overlapping run pcs with
  | None => None
  | Some matches =>
    match slices run (tuples (0%nat :: flat_map (fun i => [i; (i + length pcs)%nat]) matches ++ [length run])) with
    | Some subs => Some (wrap32 (N.of_nat (length matches)), subs)
    | None => None
    end
  end.
(** selection.rs 113-127 [count_and_update_execution]; the accumulator is the [total_count]. *)
Fixpoint count_and_update_from (total : N) (pcs : list N) (exec : list (list N * N)) : option (N * list (list N * N)) :=
  match exec with
  | [] => Some (total, [])
  | (run, k) :: exec' =>
    match count_and_update_run pcs run with
    | None => None
    | Some (n, subs) =>
      match count_and_update_from (wrap32 (total + wrap32 (n * k))) pcs exec' with
      | Some (t, r) => Some (t, map (fun s => (s, k)) subs ++ r)
      | None => None
      end
    end
  end.
Definition count_and_update_execution (pcs : list N) (exec : list (list N * N)) : option (N * list (list N * N)) :=
  count_and_update_from 0 pcs exec.

(** [candidates[idx] = c]. *)
Fixpoint set_nth {A} (i : nat) (x : A) (l : list A) : list A :=
  match l, i with
  | [], _ => []
  | _ :: l', O => x :: l'
  | y :: l', S i' => y :: set_nth i' x l'
  end.

Section Select.
  (** The queue of the crate priority_queue, as the list of its entries: [pop] removes one.  Nothing
      is assumed about it here.  Simplification: a panic in a comparison of [push] shows up in the
      next [pop]. *)
  Variable pop : list (nat * density) -> option ((nat * density) * list (nat * density)).
  (** selection.rs 156-185: the loop.  [None] is a panic or the end of the fuel. *)
  Fixpoint select_loop (fuel : nat) (budget : N) (max_selected : nat) (cands : list cand) (queue : list (nat * density))
      (selected : list nat) (cumulative : N) (exec : list (list N * N)) : option (list nat) :=
    match queue with
    | [] => Some selected
    | _ :: _ =>
      match fuel with
      | O => None
      | S fuel =>
        match pop queue with
        | None => None
        | Some ((idx, _), queue) =>
          match nth_error cands idx with
          | None => None
          | Some c =>
            if budget <? wrap64 (cumulative + c_cost c) then select_loop fuel budget max_selected cands queue selected cumulative exec
            else
            match count_and_update_execution (c_pcs c) exec with
            | None => None
            | Some (count, exec') =>
              if count =? 0 then select_loop fuel budget max_selected cands queue selected cumulative exec
              else if count <? c_count c then
                let c' := mkCand (c_pcs c) (c_cost c) (c_value c) count in
                match density_of c' with
                | None => None
                | Some d => select_loop fuel budget max_selected (set_nth idx c' cands) ((idx, d) :: queue) selected cumulative exec
                end
              else
                let selected := selected ++ [idx] in
                if Nat.leb max_selected (length selected) then Some selected
                else select_loop fuel budget max_selected cands queue selected (wrap64 (cumulative + c_cost c)) exec'
            end
          end
        end
      end
    end.
  Fixpoint densities (i : nat) (cands : list cand) : option (list (nat * density)) :=
    match cands with
    | [] => Some []
    | c :: r => match density_of c, densities (S i) r with Some d, Some l => Some ((i, d) :: l) | _, _ => None end
    end.
  (** Every round drops an entry of the queue or lowers a count. *)
  Definition select_fuel (cands : list cand) : nat :=
    (length cands + list_sum (map (fun c => N.to_nat (c_count c)) cands))%nat.
  (** selection.rs 132-187 [select_blocks_greedy]. *)
  Definition select_blocks_greedy (cands : list cand) (budget : N) (max_selected : nat) (exec : list (list N * N)) : option (list nat) :=
    match densities 0 cands with
    | None => None
    | Some queue => select_loop (select_fuel cands) budget max_selected cands queue [] 0 exec
    end.

  Context {I : Type}.
  Local Notation bblock := (bblock I).
  (** The widths (columns) of a superblock before and after the optimization, if [build] does not
      fail: pgo/cell/mod.rs 184-205 [try_generate_candidate] with customize_exe.rs 104-127
      [apc_stats], 386-396 [cost_before_opt], [cost_after_opt]. *)
  Variable widths : list bblock -> option (N * N).
  (** selection.rs 28-39 [BlockCandidate::new], customize_exe.rs 398-400 [value_per_use]. *)
  Definition candidate (sb : list bblock) (count : N) (w : N * N) : cand :=
    mkCand (map start_pc sb) (snd w) (sub64 (fst w) (snd w)) count.
  (** pgo/cell/mod.rs 126-143: the blocks that could be built.  The order of a parallel
      [filter_map] is that of the input. *)
  Fixpoint generate (blocks : list (list bblock * N)) : list (list bblock * cand) :=
    match blocks with
    | [] => []
    | (sb, n) :: r => match widths sb with Some w => (sb, candidate sb n w) :: generate r | None => generate r end
    end.
  (** [apcs[position].take().unwrap()] for every position; [None] is a panic. *)
  Fixpoint take_all {A} (l : list (option A)) (positions : list nat) : option (list A) :=
    match positions with
    | [] => Some []
    | i :: r =>
      match nth_error l i with
      | Some (Some x) => match take_all (set_nth i None l) r with Some xs => Some (x :: xs) | None => None end
      | _ => None
      end
    end.
  (** pgo/cell/mod.rs 102-176 [CellPgo::create_apcs_with_pgo].  Simplification: the limits of the
      configuration are small numbers. *)
  Definition cell_create (autoprecompiles skip : nat) (max_columns : option N)
      (blocks : list (list bblock * N)) (runs : list (list N * N)) : option (list (list bblock)) :=
    if Nat.eqb autoprecompiles 0 then Some []
    else
      let apcs := generate blocks in
      let budget := match max_columns with Some b => b | None => 2 ^ 64 - 1 end in
      match select_blocks_greedy (map snd apcs) budget (autoprecompiles + skip) runs with
      | None => None
      | Some selection => take_all (map (fun a => Some (fst a)) apcs) (skipn (Nat.min skip (length selection)) selection)
      end.
  (** customize_exe.rs 214-231 [compile_apcs] in cell mode: what is left for the precompiles of the
      columns the user allows in total. *)
  Definition apc_columns (max_total : option N) (non_apc : N) : option N :=
    match max_total with Some m => Some (sub64 m non_apc) | None => None end.
  (** adapter.rs 58-79 [filter_blocks_and_create_apcs_with_pgo] in cell mode. *)
  Definition compile_cell (autoprecompiles skip max_bbs : nat) (cutoff : N) (max_instrs : nat) (max_total : option N) (non_apc : N)
      (exec : list N) (bs : list bblock) : option (list (list bblock)) :=
    match detect_superblocks max_bbs cutoff max_instrs exec bs with
    | None => None
    | Some (blocks, runs) => cell_create autoprecompiles skip (apc_columns max_total non_apc) blocks runs
    end.

  (** [sorted_by_key] with [Reverse]: a stable sort, descending. *)
  Fixpoint insert_desc {A} (key : A -> N) (x : A) (l : list A) : list A :=
    match l with
    | [] => [x]
    | y :: l' => if key x <=? key y then y :: insert_desc key x l' else x :: l
    end.
  Definition sort_desc {A} (key : A -> N) (l : list A) : list A := fold_left (fun m x => insert_desc key x m) l [].
  Definition num_instrs (sb : list bblock) : N := N.of_nat (length (flat_map instrs sb)).
  Definition is_basic (sb : list bblock) : bool := Nat.eqb (length sb) 1.
  (** pgo/mod.rs 75-113 [create_apcs_for_all_blocks]; [None] is the panic of [unwrap]. *)
  Definition create_for_all (autoprecompiles skip : nat) (blocks : list (list bblock)) : option (list (list bblock)) :=
    let l := firstn autoprecompiles (skipn skip blocks) in
    if forallb (fun sb => match widths sb with Some _ => true | None => false end) l then Some l else None.
  (** pgo/instruction.rs 29-78: the key is a product of [u32]. *)
  Definition instruction_key (b : list bblock * N) : N := wrap32 (snd b * wrap32 (num_instrs (fst b))).
  Definition instruction_create (autoprecompiles skip : nat) (blocks : list (list bblock * N)) : option (list (list bblock)) :=
    if Nat.eqb autoprecompiles 0 then Some []
    else if forallb (fun b => is_basic (fst b)) blocks then create_for_all autoprecompiles skip (map fst (sort_desc instruction_key blocks))
    else None.
  Definition compile_instruction (autoprecompiles skip max_bbs : nat) (cutoff : N) (max_instrs : nat)
      (exec : list N) (bs : list bblock) : option (list (list bblock)) :=
    match detect_superblocks max_bbs cutoff max_instrs exec bs with
    | None => None
    | Some (blocks, _) => instruction_create autoprecompiles skip blocks
    end.
  (** pgo/none.rs 20-58, with adapter.rs 69-76: the blocks of more than one instruction. *)
  Definition compile_none (autoprecompiles skip : nat) (bs : list bblock) : option (list (list bblock)) :=
    let blocks := filter (fun sb => 1 <? num_instrs sb) (map (fun b => [b]) bs) in
    create_for_all autoprecompiles skip (sort_desc (fun sb => wrap32 (num_instrs sb)) blocks).

  (** ** Installing the precompiles *)
  (** An OpenVM program is a list of slots, some of them gaps; program.rs 71-79 [instructions] drops the
      gaps, and [collect_basic_blocks] numbers what is left. *)
  Definition prog_instructions (slots : list (option I)) : list I :=
    flat_map (fun s => match s with Some i => [i] | None => [] end) slots.
  (** customize_exe.rs 41 [POWDR_OPCODE]. *)
  Definition powdr_opcode : nat := 4351.
  (** customize_exe.rs 308-363 [setup]: the opcode of a precompile at every slot of the program that has
      one.  [add_apc_instruction_at_pc_index] (OpenVM) is the update of one slot; [None] is a panic.
      Simplification: the subtraction of the base panics instead of wrapping. *)
  Fixpoint setup_from (base step : N) (i : nat) (apcs : list (list bblock)) (marks : list (option nat)) : option (list (option nat)) :=
    match apcs with
    | [] => Some marks
    | [b] :: r =>
      if start_pc b <? base then None
      else
        let k := N.to_nat ((start_pc b - base) / step) in
        if Nat.ltb k (length marks) then setup_from base step (S i) r (set_nth k (Some (powdr_opcode + i)%nat) marks) else None
    | _ => None
    end.
  Definition setup (base step : N) (slots : list (option I)) (apcs : list (list bblock)) : option (list (option nat)) :=
    setup_from base step 0 apcs (map (fun _ => None) slots).
End Select.
