(** Model of autoprecompiles/src/execution: evaluation of optimistic constraints and the
    selection of APC calls. *)
From Coq Require Import Arith NArith Bool List.
Import ListNotations.

Section ExecModel.
  (** mod.rs [ExecutionState]: what is read from a state of the execution.  Register addresses
      and values are numbers. *)
  Context {E : Type} (reg : E -> N -> N) (pc : E -> N) (clk : E -> nat) (value_limb : N -> nat -> N).

  (** ** ast.rs *)
  (** ast.rs 77-84 [LocalOptimisticLiteral], 120-126 [OptimisticLiteral]. *)
  Inductive lit_val := RegisterLimb (a : N) (limb : nat) | LPc.
  Record literal := mkLit { instr_idx : nat; lval : lit_val }.
  (** ast.rs 95-101 [LocalFetch]; a [Fetch] is a pair of a step and a [LocalFetch]. *)
  Inductive lfetch := FReg (a : N) | FPc.
  Definition lfetch_eqb (a b : lfetch) : bool :=
    match a, b with FReg x, FReg y => N.eqb x y | FPc, FPc => true | _, _ => false end.
  (** ast.rs 86-93. *)
  Definition to_fetch (v : lit_val) : lfetch := match v with RegisterLimb a _ => FReg a | LPc => FPc end.
  (** ast.rs 103-110 [get]. *)
  Definition fetch_get (f : lfetch) (s : E) : N := match f with FReg a => reg s a | FPc => pc s end.
  (** ast.rs 54-59 [OptimisticExpression], 9-13 [OptimisticConstraint]. *)
  Inductive oexpr := ONum (v : N) | OLit (l : literal).
  Record oconstr := mkOC { oleft : oexpr; oright : oexpr }.
  (** ast.rs 25-46 [unique_references]; duplicates only repeat a fetch and are kept. *)
  Definition oexpr_refs (e : oexpr) : list literal := match e with ONum _ => [] | OLit l => [l] end.
  Definition refs (c : oconstr) : list literal := oexpr_refs (oleft c) ++ oexpr_refs (oright c).

  (** ** evaluator.rs *)
  (** 18-24 [OptimisticConstraints].  The maps from steps to vectors are lists of pairs, looked up by [at_step]. *)
  Record oconstrs := mkOCs { fetches_by_step : list (nat * lfetch); checks_by_step : list (nat * oconstr) }.
  Definition at_step {A} (i : nat) (l : list (nat * A)) : list A := map snd (filter (fun x => Nat.eqb (fst x) i) l).
  (** 44-49: the step at which a constraint can first be evaluated. *)
  Definition first_evaluable_step (c : oconstr) : nat := fold_right Nat.max 0 (map instr_idx (refs c)).
  (** 35-80 [from_constraints]. *)
  Definition from_constraints (cs : list oconstr) : oconstrs :=
    mkOCs (flat_map (fun c => map (fun l => (instr_idx l, to_fetch (lval l)))
                                  (filter (fun l => Nat.ltb (instr_idx l) (first_evaluable_step c)) (refs c))) cs)
          (map (fun c => (first_evaluable_step c, c)) cs).
  (** 88-95 [OptimisticConstraintEvaluator]. *)
  Record evaluator := mkEv { instruction_index : nat; memory : list (nat * lfetch * N) }.
  Definition ev_new : evaluator := mkEv 0 [].
  Fixpoint mem_get (m : list (nat * lfetch * N)) (i : nat) (f : lfetch) : option N :=
    match m with
    | [] => None
    | (j, g, v) :: m' => if Nat.eqb i j && lfetch_eqb f g then Some v else mem_get m' i f
    end.
  (** 219-228 [fetch]; [None] is the panic of a missing entry. *)
  Definition step_fetch (step : nat) (s : E) (m : list (nat * lfetch * N)) (i : nat) (f : lfetch) : option N :=
    if Nat.eqb i step then Some (fetch_get f s) else mem_get m i f.
  (** 206-217 [evaluate_literal], with the debug assertion. *)
  Definition eval_literal (step : nat) (s : E) (m : list (nat * lfetch * N)) (l : literal) : option N :=
    if Nat.leb (instr_idx l) step then
      match step_fetch step s m (instr_idx l) (to_fetch (lval l)) with
      | Some v => Some (match lval l with RegisterLimb _ k => value_limb v k | LPc => v end)
      | None => None
      end
    else None.
  (** 194-204 [evaluate_expression], 189-192 [evaluate_constraint]. *)
  Definition eval_oexpr (step : nat) (s : E) (m : list (nat * lfetch * N)) (e : oexpr) : option N :=
    match e with ONum v => Some v | OLit l => eval_literal step s m l end.
  Definition eval_oconstr (step : nat) (s : E) (m : list (nat * lfetch * N)) (c : oconstr) : option bool :=
    match eval_oexpr step s m (oleft c), eval_oexpr step s m (oright c) with
    | Some a, Some b => Some (N.eqb a b)
    | _, _ => None
    end.
  (** [Iterator::all], with panics. *)
  Fixpoint all_hold (step : nat) (s : E) (m : list (nat * lfetch * N)) (cs : list oconstr) : option bool :=
    match cs with
    | [] => Some true
    | c :: r => match eval_oconstr step s m c with
                | None => None
                | Some false => Some false
                | Some true => all_hold step s m r
                end
    end.
  Inductive stepped (A : Type) := StepOk (a : A) | StepFailed | StepPanic.
  Arguments StepOk {A}. Arguments StepFailed {A}. Arguments StepPanic {A}.
  (** 119-166 [try_next_execution_step]. *)
  Definition try_next (s : E) (ocs : oconstrs) (ev : evaluator) : stepped evaluator :=
    match all_hold (instruction_index ev) s (memory ev) (at_step (instruction_index ev) (checks_by_step ocs)) with
    | None => StepPanic
    | Some false => StepFailed
    | Some true =>
      StepOk (mkEv (S (instruction_index ev))
                   (fold_left (fun m f => (instruction_index ev, f, fetch_get f s) :: m) (at_step (instruction_index ev) (fetches_by_step ocs)) (memory ev)))
    end.
  (** An evaluator taken through a sequence of states. *)
  Fixpoint ev_run (ocs : oconstrs) (ss : list E) (ev : evaluator) : stepped evaluator :=
    match ss with
    | [] => StepOk ev
    | s :: r => match try_next s ocs ev with StepOk ev' => ev_run ocs r ev' | StepFailed => StepFailed | StepPanic => StepPanic end
    end.

  (** ** candidates.rs *)
  Context {S : Type}.
  (** 251-260 [Apc]. *)
  Record apc := mkApc { apc_constraints : oconstrs; cycle_count : nat; apc_priority : nat }.
  (** 18-28 [ApcCall]. *)
  Record call := mkCall { call_apc : nat; call_from : S; call_to : S }.
  (** 219-232 [ApcCandidate], 234-248 [Clocked], 262-268 [CandidateStatus]. *)
  Inductive cstatus := InProgress (ev : evaluator) | DoneAt (c : nat) (t : S).
  Record cand := mkCand { total_check_count : nat; apc_id : nat; from_clk : nat; from_snap : S; status : cstatus }.
  Definition in_progress (c : cand) : bool := match status c with InProgress _ => true | _ => false end.
  (** 40-68 [check_conditions]; [None] is a panic. *)
  Definition check_one (apcs : list apc) (s : E) (t : S) (c : cand) : option (list cand) :=
    match status c with
    | DoneAt _ _ => Some [c]
    | InProgress ev =>
      match nth_error apcs (apc_id c) with
      | None => None
      | Some a =>
        match try_next s (apc_constraints a) ev with
        | StepPanic => None
        | StepFailed => Some []
        | StepOk ev' =>
          Some [mkCand (total_check_count c) (apc_id c) (from_clk c) (from_snap c)
                       (if Nat.eqb (total_check_count c) (instruction_index ev') then DoneAt (clk s) t else InProgress ev')]
        end
      end
    end.
  Fixpoint check_conditions (apcs : list apc) (s : E) (t : S) (cs : list cand) : option (list cand) :=
    match cs with
    | [] => Some []
    | c :: r => match check_one apcs s t c, check_conditions apcs s t r with Some l, Some l' => Some (l ++ l') | _, _ => None end
    end.
  (** 73-78 [abort_in_progress]. *)
  Definition abort_in_progress (cs : list cand) : list cand * list nat :=
    (filter (fun c => negb (in_progress c)) cs, map apc_id (filter in_progress cs)).
  (** 157-176 [try_insert]; [None] is a panic. *)
  Definition try_insert (apcs : list apc) (s : E) (id : nat) (f : S) (cs : list cand) : option (list cand * bool) :=
    match nth_error apcs id with
    | None => None
    | Some a =>
      match try_next s (apc_constraints a) ev_new with
      | StepPanic => None
      | StepFailed => Some (cs, false)
      | StepOk ev => Some (cs ++ [mkCand (cycle_count a + 1) id (clk s) f (InProgress ev)], true)
      end
    end.
  (** 193-201 [CandidateRank] and the range of a candidate. *)
  Record rank := mkRank { r_priority : nat; r_len : nat; r_id : nat }.
  (** 203-210 [cmp]. *)
  Definition rank_cmp (a b : rank) : comparison :=
    match Nat.compare (r_priority a) (r_priority b) with
    | Eq => match Nat.compare (r_len a) (r_len b) with
            | Eq => Nat.compare (r_id b) (r_id a)
            | c => c
            end
    | c => c
    end.
  (** 189-191 [ranges_overlap]. *)
  Definition ranges_overlap (a b : nat * nat) : bool := Nat.ltb (fst a) (snd b) && Nat.ltb (fst b) (snd a).
  (** 97-108, 178-187: rank and range of a candidate; [None]: a candidate in progress, an unknown
      apc or a range that ends before it starts. *)
  Definition meta1 (apcs : list apc) (idx : nat) (c : cand) : option (rank * (nat * nat)) :=
    match status c, nth_error apcs (apc_id c) with
    | DoneAt e _, Some a => if Nat.leb (from_clk c) e then Some (mkRank (apc_priority a) (e - from_clk c) idx, (from_clk c, e)) else None
    | _, _ => None
    end.
  Fixpoint metas (apcs : list apc) (idx : nat) (cs : list cand) : option (list (rank * (nat * nat))) :=
    match cs with
    | [] => Some []
    | c :: r => match meta1 apcs idx c, metas apcs (Datatypes.S idx) r with Some m, Some l => Some (m :: l) | _, _ => None end
    end.
  (** itertools [tuple_combinations] for pairs. *)
  Fixpoint pairs {A} (l : list A) : list (A * A) := match l with [] => [] | x :: r => map (pair x) r ++ pairs r end.
  (** 113-136: the vector of flags is the list of the discarded indices; [None] is [unreachable!]. *)
  Definition discard_step (d : option (list nat)) (ab : (rank * (nat * nat)) * (rank * (nat * nat))) : option (list nat) :=
    match d with
    | None => None
    | Some d =>
      let '((ra, ga), (rb, gb)) := ab in
      if existsb (Nat.eqb (r_id ra)) d || existsb (Nat.eqb (r_id rb)) d || negb (ranges_overlap ga gb) then Some d else
      match rank_cmp ra rb with
      | Gt => Some (r_id rb :: d)
      | Lt => Some (r_id ra :: d)
      | Eq => None
      end
    end.
  Definition discarded (ms : list (rank * (nat * nat))) : option (list nat) := fold_left discard_step (pairs ms) (Some []).
  (** 138-152. *)
  Fixpoint keep (idx : nat) (d : list nat) (cs : list cand) : list cand :=
    match cs with
    | [] => []
    | c :: r => if existsb (Nat.eqb idx) d then keep (Datatypes.S idx) d r else c :: keep (Datatypes.S idx) d r
    end.
  Fixpoint to_calls (cs : list cand) : option (list call) :=
    match cs with
    | [] => Some []
    | c :: r => match status c, to_calls r with DoneAt _ t, Some l => Some (mkCall (apc_id c) (from_snap c) t :: l) | _, _ => None end
    end.
  (** 81-153 [extract_calls]; [None] is a panic. *)
  Definition extract_calls (apcs : list apc) (cs : list cand) : option (list cand * list call) :=
    if existsb in_progress cs then Some (cs, []) else
    match metas apcs 0 cs with
    | None => None
    | Some ms =>
      match discarded ms with
      | None => None
      | Some d => match to_calls (keep 0 d cs) with Some l => Some ([], l) | None => None end
      end
    end.

  (** ** Histories of calls to [ApcCandidates] *)
  Inductive cop := Insert (s : E) (id : nat) (f : S) | Check (s : E) (t : S) | Abort | Extract.
  Inductive cout := Inserted (ok : bool) | Checked | Aborted (ids : list nat) | Calls (l : list call).
  Definition cstep (apcs : list apc) (o : cop) (cs : list cand) : option (list cand * cout) :=
    match o with
    | Insert s id f => match try_insert apcs s id f cs with Some (cs', ok) => Some (cs', Inserted ok) | None => None end
    | Check s t => match check_conditions apcs s t cs with Some cs' => Some (cs', Checked) | None => None end
    | Abort => let '(cs', ids) := abort_in_progress cs in Some (cs', Aborted ids)
    | Extract => match extract_calls apcs cs with Some (cs', l) => Some (cs', Calls l) | None => None end
    end.
  Fixpoint crun (apcs : list apc) (os : list cop) (cs : list cand) : option (list cand * list cout) :=
    match os with
    | [] => Some (cs, [])
    | o :: r => match cstep apcs o cs with
                | None => None
                | Some (cs', out) => match crun apcs r cs' with Some (cs'', outs) => Some (cs'', out :: outs) | None => None end
                end
    end.
End ExecModel.
Arguments StepOk {A}. Arguments StepFailed {A}. Arguments StepPanic {A}.
Arguments call : clear implicits. Arguments cop : clear implicits. Arguments cand : clear implicits. Arguments cstatus : clear implicits. Arguments cout : clear implicits.
