(** Model of autoprecompiles/src/blocks: basic blocks, runs and superblocks. *)
From Coq Require Import NArith Bool List.
Import ListNotations.

Section Detection.
  Context {I : Type}.
  (** blocks/mod.rs 20-26 [BasicBlock]. *)
  Record bblock := mkBB { start_pc : N; instrs : list I }.
  (** What [collect_basic_blocks] gets from the adapter and the program: [is_branching] and
      [is_allowed], the set of jump targets, the base pc and the pc step. *)
  Context (is_branching is_allowed : I -> bool) (jumpdest : N -> bool) (base step : N).
  (** blocks/mod.rs 176-178 [instruction_index_to_pc].  Simplification: no overflow of [u64]. *)
  Definition index_to_pc (i : nat) : N := (base + N.of_nat i * step)%N.
  (** detection.rs: "if not empty, push the current block". *)
  Definition flush (pc : N) (cur : list I) : list bblock :=
    match cur with [] => [] | _ => [mkBB pc cur] end.
  (** detection.rs 9-74 [collect_basic_blocks]: the loop, with the current block as [(pc, cur)];
      the result is the list of blocks pushed from here on. *)
  Fixpoint collect_from (i : nat) (pc : N) (cur : list I) (is : list I) : list bblock :=
    match is with
    | [] => flush pc cur
    | x :: r =>
      if negb (is_allowed x) then
        flush pc cur ++ mkBB (index_to_pc i) [x] :: collect_from (S i) (index_to_pc (S i)) [] r
      else
        let '(out, pc1, cur1) := if jumpdest (index_to_pc i) then (flush pc cur, index_to_pc i, []) else ([], pc, cur) in
        let cur2 := cur1 ++ [x] in
        out ++ (if is_branching x then mkBB pc1 cur2 :: collect_from (S i) (index_to_pc (S i)) [] r
                else collect_from (S i) pc1 cur2 r)
    end.
  Definition collect_basic_blocks (prog : list I) : list bblock := collect_from 0 (index_to_pc 0) [] prog.
  (** blocks/mod.rs 30-40 [pcs]. *)
  Definition bb_pcs (b : bblock) : list N := map (fun i => (start_pc b + N.of_nat i * step)%N) (seq 0 (length (instrs b))).
End Detection.
Arguments bblock : clear implicits.

(** ** Occurrences *)
Fixpoint pcs_eqb (a b : list N) : bool :=
  match a, b with
  | [], [] => true
  | x :: a', y :: b' => (x =? y)%N && pcs_eqb a' b'
  | _, _ => false
  end.
(** blocks/mod.rs 231-243 [find_non_overlapping], at the type it is used at.  [None]: the loop does
    not end within the fuel. *)
Fixpoint find_loop (fuel pos : nat) (hay needle : list N) : option (list nat) :=
  if Nat.leb (pos + length needle) (length hay) then
    match fuel with
    | O => None
    | S fuel =>
      if pcs_eqb (firstn (length needle) (skipn pos hay)) needle
      then match find_loop fuel (pos + length needle) hay needle with Some l => Some (pos :: l) | None => None end
      else find_loop fuel (pos + 1) hay needle
    end
  else Some [].
Definition find_non_overlapping (hay needle : list N) : option (list nat) := find_loop (S (length hay)) 0 hay needle.

(** ** [BTreeMap<Vec<u64>, u32>]: sorted association lists *)
Fixpoint pcs_cmp (a b : list N) : comparison :=
  match a, b with
  | [], [] => Eq
  | [], _ => Lt
  | _, [] => Gt
  | x :: a', y :: b' => match N.compare x y with Eq => pcs_cmp a' b' | c => c end
  end.
(** [*map.entry(k).or_insert(0) += n], and [insert(k, 0)] (which is only used on maps with zeros) for n = 0. *)
Fixpoint bt_add (k : list N) (n : N) (m : list (list N * N)) : list (list N * N) :=
  match m with
  | [] => [(k, n)]
  | (k', n') :: m' =>
    match pcs_cmp k k' with
    | Lt => (k, n) :: m
    | Eq => (k', (n' + n)%N) :: m'
    | Gt => (k', n') :: bt_add k n m'
    end
  end.

Section Superblocks.
  Context {I : Type}.
  Local Notation bblock := (bblock I).
  (** blocks/mod.rs 357-360: the map from start pcs; of several blocks with the same pc the last one wins. *)
  Fixpoint lookup_bb (pc : N) (bs : list bblock) : option bblock :=
    match bs with
    | [] => None
    | b :: bs' => match lookup_bb pc bs' with Some b' => Some b' | None => if (start_pc b =? pc)%N then Some b else None end
    end.
  (** blocks/mod.rs 258-280: the loop; [None] is a panic (no block at a pc, or an empty block).
      [runs] is the map, [cur] the current run. *)
  Fixpoint runs_loop (fuel : nat) (bs : list bblock) (exec : list N) (cur : list N) (runs : list (list N * N)) : option (list (list N * N)) :=
    match exec with
    | [] => Some (match cur with [] => runs | _ => bt_add cur 1 runs end)
    | pc :: _ =>
      match lookup_bb pc bs with
      | None => None
      | Some b =>
        match fuel with
        | O => None
        | S fuel =>
          match instrs b with
          | [] => None
          | [_] => runs_loop fuel bs (skipn 1 exec) [] (match cur with [] => runs | _ => bt_add cur 1 runs end)
          | l => runs_loop fuel bs (skipn (length l) exec) (cur ++ [pc]) runs
          end
        end
      end
    end.
  (** blocks/mod.rs 248-290 [detect_execution_bb_runs].  Simplification: counts do not overflow. *)
  Definition detect_runs (bs : list bblock) (exec : list N) : option (list (list N * N)) := runs_loop (length exec) bs exec [] [].
  (** [slice::windows]. *)
  Definition windows (len : nat) (l : list N) : list (list N) :=
    map (fun i => firstn len (skipn i l)) (seq 0 (S (length l) - len)).
  (** blocks/mod.rs 294-308 [count_superblocks_in_run]. *)
  Definition superblocks_in_run (run : list N) (max_len : nat) : list (list N * N) :=
    fold_left (fun m len => fold_left (fun m w => bt_add w 0 m) (windows len run) m) (seq 1 (Nat.min max_len (length run))) [].
  Definition count_in (run sb : list N) : N :=
    match find_non_overlapping run sb with Some l => N.of_nat (length l) | None => 0%N end.
  Definition count_superblocks_in_run (run : list N) (max_len : nat) : list (list N * N) :=
    map (fun kn => (fst kn, count_in run (fst kn))) (superblocks_in_run run max_len).
  (** blocks/mod.rs 312-334 [count_superblocks_in_execution].  Simplification: the parallel
      reduction is a left fold over the runs (addition is associative and commutative). *)
  Definition merge_counts (a b : list (list N * N)) : list (list N * N) := fold_left (fun m kn => bt_add (fst kn) (snd kn) m) b a.
  Definition count_superblocks (runs : list (list N * N)) (max_len : nat) : list (list N * N) :=
    fold_left (fun m rn => merge_counts m (map (fun kn => (fst kn, snd kn * snd rn)%N) (count_superblocks_in_run (fst rn) max_len))) runs [].
  (** blocks/mod.rs 339-422 [detect_superblocks]; [None] is a panic. *)
  Fixpoint blocks_at (bs : list bblock) (pcs : list N) : option (list bblock) :=
    match pcs with
    | [] => Some []
    | pc :: r => match lookup_bb pc bs, blocks_at bs r with Some b, Some l => Some (b :: l) | _, _ => None end
    end.
  Fixpoint select_blocks (cutoff : N) (max_instrs : nat) (bs : list bblock) (found : list (list N * N)) : option (list (list bblock * N)) :=
    match found with
    | [] => Some []
    | (pcs, n) :: r =>
      match blocks_at bs pcs, select_blocks cutoff max_instrs bs r with
      | Some sb, Some l =>
        if (n <? cutoff)%N then Some l
        else if Nat.ltb max_instrs (length (flat_map instrs sb)) then Some l
        else Some ((sb, n) :: l)
      | _, _ => None
      end
    end.
  Definition detect_superblocks (max_bbs : nat) (cutoff : N) (max_instrs : nat) (exec : list N) (bs : list bblock)
    : option (list (list bblock * N) * list (list N * N)) :=
    match detect_runs bs exec with
    | None => None
    | Some runs =>
      match select_blocks cutoff max_instrs bs (count_superblocks runs max_bbs) with
      | Some l => Some (l, runs)
      | None => None
      end
    end.
End Superblocks.
