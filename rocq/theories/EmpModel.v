(** Model of autoprecompiles/src/empirical_constraints.rs and of the detection of empirical
    constraints in openvm/src/empirical_constraints.rs. *)
From Coq Require Import Arith NArith Bool List.
From Verif Require Import PartModel BlocksModel.
Import ListNotations.

(** ** [BTreeMap] with number keys: sorted association lists *)
Fixpoint nm_get {V} (k : N) (m : list (N * V)) : option V :=
  match m with [] => None | (k', v) :: m' => if (k =? k')%N then Some v else nm_get k m' end.
(** [entry(k).and_modify(f).or_insert(v)]; [insert] is [nm_put k (fun _ => v) v]. *)
Fixpoint nm_put {V} (k : N) (f : V -> V) (v : V) (m : list (N * V)) : list (N * V) :=
  match m with
  | [] => [(k, v)]
  | (k', v') :: m' =>
    match N.compare k k' with
    | Lt => (k, v) :: m
    | Eq => (k', f v') :: m'
    | Gt => (k', v') :: nm_put k f v m'
    end
  end.
(** [collect] into a map: later entries replace earlier ones. *)
Definition nm_collect {V} (l : list (N * V)) : list (N * V) := fold_left (fun m kv => nm_put (fst kv) (fun _ => snd kv) (snd kv) m) l [].

(** empirical_constraints.rs 251-257 [BlockCell]: (instruction_idx, column_idx). *)
Definition cell : Type := nat * nat.
Definition cell_eqb (a b : cell) : bool := Nat.eqb (fst a) (fst b) && Nat.eqb (snd a) (snd b).
(** 24-36 [EmpiricalConstraints].  The debug information is not modelled. *)
Record emp := mkEmp { column_ranges : list (N * list (N * N)); block_classes : list (N * part cell); pc_counts : list (N * N) }.
Definition emp_default : emp := mkEmp [] [] [].

Section EmpModel.
  (** Iteration orders of hash maps. *)
  Context (ord : list (cell * nat) -> list (cell * nat)) (gord : list (list cell) -> list (list cell)).
  (** 66-72: existing ranges are widened, as far as there are new ones. *)
  Fixpoint widen (old new : list (N * N)) : list (N * N) :=
    match old, new with
    | (a, b) :: o, (c, d) :: n => (N.min a c, N.max b d) :: widen o n
    | o, [] => o
    | [], _ => []
    end.
  Definition combine_ranges (a b : list (N * list (N * N))) : list (N * list (N * N)) :=
    fold_left (fun m kr => nm_put (fst kr) (fun old => widen old (snd kr)) (snd kr) m) b a.
  (** 78-87; [None] is a panic. *)
  Definition combine_classes (a b : list (N * part cell)) : option (list (N * part cell)) :=
    fold_left (fun m kc =>
      match m with
      | None => None
      | Some m =>
        match nm_get (fst kc) m with
        | None => Some (nm_put (fst kc) (fun _ => snd kc) (snd kc) m)
        | Some old => match intersected_with cell_eqb ord gord old (snd kc) with
                      | Some p => Some (nm_put (fst kc) (fun _ => p) p m)
                      | None => None
                      end
        end
      end) b (Some a).
  (** 91-94. *)
  Definition combine_counts (a b : list (N * N)) : list (N * N) :=
    fold_left (fun m kn => nm_put (fst kn) (fun c => (c + snd kn)%N) (snd kn) m) b a.
  (** 60-95 [combine_with]. *)
  Definition combine_with (a b : emp) : option emp :=
    match combine_classes (block_classes a) (block_classes b) with
    | Some cl => Some (mkEmp (combine_ranges (column_ranges a) (column_ranges b)) cl (combine_counts (pc_counts a) (pc_counts b)))
    | None => None
    end.
  (** 143-164 [apply_pc_threshold]. *)
  Definition count_of (m : list (N * N)) (pc : N) : N := match nm_get pc m with Some n => n | None => 0%N end.
  Definition as_u32 (x : N) : N := (x mod 2 ^ 32)%N.
  Definition apply_pc_threshold (threshold : N) (e : emp) : emp :=
    mkEmp (filter (fun kr => (threshold <=? count_of (pc_counts e) (fst kr))%N) (column_ranges e))
          (filter (fun kc => (threshold <=? count_of (pc_counts e) (as_u32 (fst kc)))%N) (block_classes e))
          (pc_counts e).

  (** 39-47 [BlockEmpiricalConstraints]. *)
  Record bemp := mkBE { be_pcs : list N; be_ranges : list (N * list (nat * (N * N))); be_classes : part cell }.
  Definition enumerate {A} (l : list A) : list (nat * A) := combine (seq 0 (length l)) l.
  Section Block.
    Context {I : Type} (step : N).
    (** blocks/mod.rs 80-95 [instruction_indexed_start_pcs]. *)
    Fixpoint indexed_start_pcs (idx : nat) (bs : list (bblock I)) : list (nat * N) :=
      match bs with [] => [] | b :: r => (idx, start_pc b) :: indexed_start_pcs (idx + length (instrs b)) r end.
    (** 113-125: the classes of the basic blocks, shifted, and their union. *)
    Definition shifted_class (e : emp) (ip : nat * N) : option (part cell) :=
      map_elements cell_eqb ord (fun c : cell => (fst c + fst ip, snd c)) (match nm_get (snd ip) (block_classes e) with Some p => p | None => mkPart [] 0 end).
    Definition union_classes (ps : list (part cell)) : option (part cell) :=
      match ps with
      | [] => None
      | p :: r => fold_left (fun acc q => match acc with Some a => combine_parts cell_eqb ord a q | None => None end) r (Some p)
      end.
    (** 98-136 [for_block]; [None] is a panic. *)
    Definition for_block (e : emp) (block : list (bblock I)) : option bemp :=
      let pcs := flat_map (bb_pcs step) block in
      let ranges := nm_collect (flat_map (fun pc => match nm_get (as_u32 pc) (column_ranges e) with Some rs => [(as_u32 pc, enumerate rs)] | None => [] end) pcs) in
      match all_some (map (shifted_class e) (indexed_start_pcs 0 block)) with
      | None => None
      | Some ps => match union_classes ps with Some cl => Some (mkBE pcs ranges cl) | None => None end
      end.
  End Block.
  (** 171-215 [filtered]; the predicate is applied to the position of a range in its map, not to its key. *)
  Definition pc_indices (pcs : list N) (pc : N) : list nat := map fst (filter (fun ip => N.eqb (snd ip) pc) (enumerate pcs)).
  Definition filter_ranges (pred : cell -> bool) (pcs : list N) (pr : N * list (nat * (N * N))) : N * list (nat * (N * N)) :=
    (fst pr, map snd (filter (fun ir => forallb (fun idx => pred (idx, fst ir)) (pc_indices pcs (fst pr))) (enumerate (snd pr)))).
  Definition filtered (pred : cell -> bool) (be : bemp) : option bemp :=
    match to_classes ord (be_classes be) with
    | None => None
    | Some cl =>
      match from_iter cell_eqb (map (filter pred) cl) with
      | Some p => Some (mkBE (be_pcs be) (map (filter_ranges pred (be_pcs be)) (be_ranges be)) p)
      | None => None
      end
    end.
  (** 363-402 [EqualityConstraint], on cells: the references are looked up by [mapper]. *)
  Section Generate.
    Context {R : Type} (mapper : cell -> option R).
    Inductive eqc := EqNum (r : R) (v : N) | EqRef (r s : R).
    (** 317-341 [range_constraints]; [None] is a missing reference. *)
    Definition range_constraint (idx : nat) (cr : nat * (N * N)) : option (list eqc) :=
      let '(col, (mn, mx)) := cr in
      if (mn =? mx)%N then match mapper (idx, col) with Some r => Some [EqNum r mn] | None => None end else Some [].
    Definition range_constraints_of (be : bemp) (ip : nat * N) : option (list eqc) :=
      match nm_get (as_u32 (snd ip)) (be_ranges be) with
      | None => Some []
      | Some rs => option_map (@concat _) (all_some (map (range_constraint (fst ip)) rs))
      end.
    Definition range_constraints (pcs : list N) (be : bemp) : option (list eqc) :=
      option_map (@concat _) (all_some (map (range_constraints_of be) (enumerate pcs))).
    (** 343-359 [equivalence_constraints]. *)
    Definition class_constraints (c : list cell) : option (list eqc) :=
      match c with
      | [] => None
      | first :: others =>
        match mapper first with
        | None => None
        | Some r => all_some (map (fun o => match mapper o with Some s => Some (EqRef r s) | None => None end) others)
        end
      end.
    Definition equivalence_constraints (be : bemp) : option (list eqc) :=
      match to_classes ord (be_classes be) with
      | None => None
      | Some cl => option_map (@concat _) (all_some (map class_constraints cl))
      end.
    (** 302-307 [generate_constraints]. *)
    Definition generate_constraints (pcs : list N) (be : bemp) : option (list eqc) :=
      match range_constraints pcs be, equivalence_constraints be with Some a, Some b => Some (a ++ b) | _, _ => None end.
  End Generate.

  (** ** openvm/src/empirical_constraints.rs *)
  (** 262-283 [ConcreteBlock::equivalence_classes]: the rows of a block instance, each a list of
      values; cells are grouped by value. *)
  Fixpoint vgroup_insert (v : N) (x : cell) (g : list (N * list cell)) : list (N * list cell) :=
    match g with
    | [] => [(v, [x])]
    | (v', l) :: g' => if (v =? v')%N then (v', l ++ [x]) :: g' else (v', l) :: vgroup_insert v x g'
    end.
  Definition block_cells (rows : list (list N)) : list (N * cell) :=
    flat_map (fun ir => map (fun cv => (snd cv, (fst ir, fst cv))) (enumerate (snd ir))) (enumerate rows).
  Definition instance_classes (rows : list (list N)) : option (part cell) :=
    from_iter cell_eqb (gord (map snd (fold_left (fun g vx => vgroup_insert (fst vx) (snd vx) g) (block_cells rows) []))).
  (** 380-389: the classes common to all instances of a block. *)
  Definition detect_classes (instances : list (list (list N))) : option (part cell) :=
    match all_some (map instance_classes instances) with
    | Some ps => parallel_intersect cell_eqb ord gord CHUNK_SIZE (length ps) ps
    | None => None
    end.
End EmpModel.
Arguments eqc : clear implicits.
(** 342-365 [detect_column_ranges] for one column: [sort_unstable] is an insertion sort, which gives
    the same list of numbers. *)
Fixpoint insert_sorted (x : N) (l : list N) : list N :=
  match l with [] => [x] | y :: r => if (x <=? y)%N then x :: l else y :: insert_sorted x r end.
Definition sort_values (l : list N) : list N := fold_right insert_sorted [] l.
Definition percentile_range (values : list N) : option (N * N) :=
  let s := sort_values values in
  match nth_error s (length s / 100), nth_error s (length s * 99 / 100) with Some a, Some b => Some (a, b) | _, _ => None end.
Definition detect_column_ranges (rows : list (list N)) : option (list (N * N)) :=
  match rows with
  | [] => None
  | r0 :: _ =>
    if forallb (fun r => Nat.eqb (length r) (length r0)) rows then
      all_some (map (fun col => percentile_range (map (fun r => nth col r 0%N) rows)) (seq 0 (length r0)))
    else None
  end.
