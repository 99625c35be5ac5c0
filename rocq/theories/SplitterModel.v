(** Model of constraint-solver/src/solver/constraint_splitter.rs (the line numbers below), with
    a runtime constant type equal to the field, so that [Component::try_from] always succeeds. *)
From Coq Require Import NArith ZArith Bool List.
From Verif Require Import Field RangeModel ExprModel SolveModel.
Import ListNotations.
Local Open Scope F_scope.

Section SplitterModel.
  Context {p : positive}.
  Local Notation gexp := (gexp p).
  Local Notation rc := (rc p).
  Local Notation P := (N.pos p).

  (** 271-275 [Component]. *)
  Record comp := mkComp { ccoeff : F p; cexpr : gexp }.
  (** 283-290 [TryFrom]. *)
  Definition comp_of (vc : var * F p) : comp := mkComp (snd vc) (from_var (fst vc)).
  (** 294-303 [normalize]. *)
  Definition normalize (c : comp) : comp :=
    if is_in_lower_half (ccoeff c) then c else mkComp (- ccoeff c) (gneg (cexpr c)).
  (** 306-316 [Add] (for equal coefficients). *)
  Definition comp_add (a b : comp) : comp := mkComp (ccoeff a) (gadd (cexpr a) (cexpr b)).
  (** 318-328 [Div]; dividing by zero is a failing [assert!], see [split_panics]. *)
  Definition comp_div (c : comp) (k : F p) : comp := mkComp (ccoeff c / k) (cexpr c).
  (** 330-334 [From<Component>]. *)
  Definition comp_expr (c : comp) : gexp := gscale (cexpr c) (ccoeff c).
  (** 336-347 [Zero]. *)
  Definition comp_zero : comp := mkComp 0 gzero.
  Definition comp_is_zero (c : comp) : bool := is_zero (ccoeff c) || gis_zero (cexpr c).

  (** 131-150 [group_components_by_coefficients]: [into_grouping_map_by(coeff).sum()] as insertion
      into an association list (the hash map's order is forgotten by the sorting), then
      [sorted_by_key(coeff)] as insertion sort. *)
  Fixpoint comp_insert (c : comp) (l : list comp) : list comp :=
    match l with
    | [] => [c]
    | d :: t => if feqb (ccoeff d) (ccoeff c) then comp_add d c :: t else d :: comp_insert c t
    end.
  Fixpoint sort_insert (c : comp) (l : list comp) : list comp :=
    match l with
    | [] => [c]
    | d :: t => if fleb (ccoeff c) (ccoeff d) then c :: l else d :: sort_insert c t
    end.
  Definition group_components (l : list comp) : list comp :=
    fold_right sort_insert []
      (filter (fun c => negb (comp_is_zero c))
         (fold_left (fun acc c => comp_insert (normalize c) acc) l [])).

  (** Results of [find_solution]: a value, none, a panic (in [try_into_u64().unwrap()] or an
      overflow of the 64-bit addition), or recursion deeper than the fuel. *)
  Inductive fres := FSome (x : F p) | FNone | FPanic | FDeep.

  (** 156-241 [find_solution]; the first argument bounds the depth of the recursion. *)
  Fixpoint find_solution (fuel : nat) (g : var -> rc) (e : gexp) (k : F p) (rest : gexp) (c : F p) : fres :=
    match fuel with
    | O => FDeep
    | S fuel' =>
      let erc := range_constraint g e in
      let rrc := range_constraint g rest in
      let uw := range_width (p:=p) unconstrained in
      if (range_width erc =? uw)%N || (range_width rrc =? uw)%N then FNone else
      if negb (is_zero (rmin erc)) then
        match find_solution fuel' g (gsub e (from_number (rmin erc))) k rest (c + rmin erc) with
        | FSome x => FSome (x + rmin erc)
        | r => r
        end
      else if negb (is_zero (rmin rrc)) then
        find_solution fuel' g e k (gsub rest (from_number (rmin rrc))) (c + k * rmin rrc)
      else
        let max_expr := rmax erc in
        let max_rest := rmax rrc in
        if (P <=? val max_expr + val k * val max_rest)%N then FNone else
        if (2 ^ 64 <=? val k + val k)%N then FPanic else
        if (val k + val k <=? val max_expr)%N then FNone else
        if (2 ^ 64 <=? val (- c)%F)%N then FPanic else
        let rhs := of_N (val (- c) mod val k) in
        match filter (allows_value erc) [rhs + of_N 0 * k; rhs + of_N 1 * k] with
        | [x] => FSome x
        | _ => FNone
        end
    end.
  (** The recursion of [find_solution] is at most three deep (proved in SplitterFacts). *)
  Definition FIND_DEPTH : nat := 3.

  (** 246-268 [recombine_components]. *)
  Definition recombine (comps : list comp) (c : F p) : gexp :=
    match filter (fun x => negb (comp_is_zero x)) comps with
    | [x] => gadd (cexpr x) (from_number (c / ccoeff x))
    | remaining => gadd (gsum (map comp_expr remaining)) (from_number c)
    end.

  (** The loop 72-117: its variables, and how it ends. *)
  Record split_state := mkSplit { scomps : list comp; sconst : F p; sparts : list gexp }.
  Inductive step_res := Continue (st : split_state) | Break | StepPanic.

  (** 74-83 [rest]. *)
  Definition split_rest (st : split_state) (index : nat) (cand : comp) : list comp :=
    map (fun ic => normalize (comp_div (snd ic) (ccoeff cand)))
      (filter (fun ic => negb (Nat.eqb (fst ic) index) && negb (comp_is_zero (snd ic)))
         (combine (seq 0 (length (scomps st))) (scomps st))).
  Definition min_coeff (c : comp) (l : list comp) : F p :=
    fold_left (fun m d => fmin_ m (ccoeff d)) l (ccoeff c).
  Fixpoint replace_nth {A} (i : nat) (x : A) (l : list A) : list A :=
    match l, i with [], _ => [] | _ :: t, O => x :: t | y :: t, S i' => y :: replace_nth i' x t end.

  Definition split_step (g : var -> rc) (st : split_state) (index : nat) : step_res :=
    let cand := nth index (scomps st) comp_zero in
    match split_rest st index cand with
    | [] => Break
    | c0 :: cs =>
      let rest := c0 :: cs in
      let k := min_coeff c0 cs in
      if is_zero (ccoeff cand) || is_zero k || negb (is_in_lower_half k) then StepPanic else
      match find_solution FIND_DEPTH g (cexpr cand) k
              (gsum (map (fun c => comp_expr (comp_div c k)) rest)) (sconst st / ccoeff cand) with
      | FSome x =>
        Continue (mkSplit (replace_nth index comp_zero (scomps st)) (sconst st + x * ccoeff cand)
                    (sparts st ++ [assert_eq (cexpr cand) (from_number x)]))
      | FNone => Continue st
      | FPanic | FDeep => StepPanic
      end
    end.
  Fixpoint split_loop (g : var -> rc) (indices : list nat) (st : split_state) : option split_state :=
    match indices with
    | [] => Some st
    | i :: is => match split_step g st i with
                 | Continue st' => split_loop g is st'
                 | Break => Some st
                 | StepPanic => None
                 end
    end.

  (** 33-128 [try_split_constraint]. *)
  Inductive split_res := Parts (l : list gexp) | NoSplit | SplitPanic.
  Definition try_split_constraint (g : var -> rc) (e : gexp) : split_res :=
    if is_quadratic e then NoSplit else
    if existsb (fun vc => is_unconstrained (g (fst vc))) (lin e) then NoSplit else
    let comps := group_components (map comp_of (lin e)) in
    if Nat.ltb (length comps) 2 then NoSplit else
    match split_loop g (seq 0 (length comps)) (mkSplit comps (cst e) []) with
    | None => SplitPanic
    | Some st => match sparts st with
                 | [] => NoSplit
                 | ps => Parts (ps ++ [recombine (scomps st) (sconst st)])
                 end
    end.
End SplitterModel.
Arguments comp : clear implicits.
Arguments split_res : clear implicits.
Arguments fres : clear implicits.
Arguments split_state : clear implicits.
