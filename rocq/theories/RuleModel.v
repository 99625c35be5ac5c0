(** Model of constraint-solver/src/rule_based_optimizer/{rules,driver,environment}.rs.

    The datalog rules of rules.rs are inductive predicates: a fact is in the least fixed point that the rule engine
    computes exactly if it is derivable.  Line numbers of rules are those of rules.rs.
    Simplifications:
    - identifiers ([Var], [Expr], item_db.rs) are replaced by what they stand for; the order of expression identifiers is
      the order of their creation, here any relation; the order of variable identifiers is any relation as well
      (identifiers are sorted like the variables at the start and new variables get larger ones, so the transformation of
      expressions to identifiers and back does not change them);
    - a request for a new variable inside a rule is a replacement that depends on the variable. *)
From Coq Require Import Arith NArith Bool List Permutation.
From Verif Require Import Field RangeModel ExprModel SolveModel SystemModel BusModel PassModel.
Import ListNotations.
Local Open Scope F_scope.

(** environment.rs 26-34 and the input facts of rules.rs 49-59. *)
Record renv (p : positive) := mkEnv {
  r_algs : list (gexp p);
  r_init : list (gexp p * rc p);
  r_rc : list (var * rc p);
  r_single : list var;
  r_elt : gexp p -> gexp p -> Prop;
  r_vlt : var -> var -> Prop }.
Arguments mkEnv {p}. Arguments r_algs {p}. Arguments r_init {p}. Arguments r_rc {p}. Arguments r_single {p}. Arguments r_elt {p}. Arguments r_vlt {p}.

(** A replacement of constraints, see types.rs 30-40; in the second case it needs a new variable, computed as quotient. *)
Inductive repl (p : positive) :=
| Plain (old new : list (gexp p))
| WithVar (old : list (gexp p)) (num den : gexp p) (new : var -> list (gexp p)).
Arguments Plain {p}. Arguments WithVar {p}.

Section Env.
  Context {p : positive}.
  Local Notation gexp := (gexp p).
  Local Notation rc := (rc p).
  (** environment.rs 142-150 [try_to_affine]. *)
  Definition try_to_affine (e : gexp) : option (F p * var * F p) :=
    match e with GE [] [(v, k)] c => Some (k, v, c) | _ => None end.
  (** environment.rs 134-138 [affine_var_count] with [unwrap_or(0)]. *)
  Definition affine_var_count (e : gexp) : nat := if is_affine e then length (lin e) else 0%nat.
  (** itertools [merge_join_by] without the pairs that are in both lists; [true] is [Left]. *)
  Fixpoint merge_diff (l1 : list (var * F p)) : list (var * F p) -> list (bool * (var * F p)) :=
    fix go l2 := match l1, l2 with
      | [], _ => map (pair false) l2
      | _, [] => map (pair true) l1
      | x1 :: t1, x2 :: t2 =>
        if veqb (fst x1) (fst x2) then merge_diff t1 t2
        else if vltb (fst x1) (fst x2) then (true, x1) :: merge_diff t1 l2 else (false, x2) :: go t2
      end.
  (** environment.rs 188-229 [differ_in_exactly_one_variable]. *)
  Definition differ_in_exactly_one_variable (a b : gexp) : option (var * var * F p) :=
    if is_affine a && is_affine b && Nat.eqb (length (lin a)) (length (lin b)) && Nat.leb 2 (length (lin a)) then
      match merge_diff (lin a) (lin b) with
      | [(true, (lv, lc)); (false, (rv, rc))] | [(false, (rv, rc)); (true, (lv, lc))] =>
        let f := lc / rc in
        if feqb (cst a) (cst b * f)
           && (let ca := map snd (filter (fun x => negb (veqb (fst x) lv)) (lin a)) in
               let cb := map (fun x => snd x * f) (filter (fun x => negb (veqb (fst x) rv)) (lin b)) in
               Nat.eqb (length ca) (length cb) && forallb (fun xy => feqb (fst xy) (snd xy)) (combine ca cb))
        then Some (lv, rv, f) else None
      | _ => None
      end
    else None.
End Env.

Section Rules.
  Context {p : positive} (E : renv p).
  Local Notation gexp := (gexp p).
  Local Notation rc := (rc p).
  Local Notation minus1 := (fopp (p:=p) fone).
  Local Notation two := (of_N (p:=p) 2).

  (** 61-62 [AlgebraicConstraint]. *)
  Definition algebraic (e : gexp) : Prop := In e (r_algs E).
  (** 67-69, 102-103, 129-130 [Expression], with the products (98-100) and splits (125-128) it depends on unfolded. *)
  Inductive expression : gexp -> Prop :=
  | ex_alg e : algebraic e -> expression e
  | ex_range e r : In (e, r) (r_init E) -> expression e
  | ex_left e l r : expression e -> try_as_single_product e = Some (l, r) -> expression l
  | ex_right e l r : expression e -> try_as_single_product e = Some (l, r) -> expression r
  | ex_head e h t : expression e -> try_split_head_tail e = Some (h, t) -> expression h
  | ex_tail e h t : expression e -> try_split_head_tail e = Some (h, t) -> expression t.
  (** 90-94 [ContainsVariable]. *)
  Definition contains (e : gexp) (v : var) : Prop := expression e /\ In v (vars e).
  (** 96-101 [Product]. *)
  Inductive product : gexp -> gexp -> gexp -> Prop :=
  | pr_split e l r : expression e -> try_as_single_product e = Some (l, r) -> product e l r
  | pr_swap e l r : product e l r -> product e r l.
  (** 106-110 [AffineExpression]; 112-114 [LinearExpression]; 116-120 [Constant]; 124-128 [ExpressionSumHeadTail]. *)
  Definition affine (e : gexp) (k : F p) (v : var) (c : F p) : Prop := expression e /\ try_to_affine e = Some (k, v, c).
  Definition linear (e : gexp) (v : var) (k : F p) : Prop := affine e k v 0.
  Definition constant (e : gexp) (k : F p) : Prop := expression e /\ try_to_known e = Some k.
  Definition head_tail (e h t : gexp) : Prop := expression e /\ try_split_head_tail e = Some (h, t).
  (** 134-139 [SimpleSum]. *)
  Inductive simple_sum : gexp -> F p -> F p -> Prop :=
  | ss_step e h t v f c : head_tail e h t -> simple_sum t f c -> linear h v f -> simple_sum e f c
  | ss_base e f v c : affine e f v c -> simple_sum e f c.
  (** 142-148 [IsAffine]. *)
  Inductive is_affine_ : gexp -> Prop :=
  | ia_const e k : constant e k -> is_affine_ e
  | ia_step e h t v k : head_tail e h t -> linear h v k -> is_affine_ t -> is_affine_ e.
  (** 151-155 [HasSummand]. *)
  Inductive has_summand : gexp -> gexp -> Prop :=
  | hs_head e h t : head_tail e h t -> has_summand e h
  | hs_tail e h t x : head_tail e h t -> has_summand t x -> has_summand e x.
  (** 162-168 [DifferBySummand]. *)
  Inductive differ_by_summand : gexp -> gexp -> gexp -> Prop :=
  | db_head e1 e2 s : head_tail e1 s e2 -> differ_by_summand e1 e2 s
  | db_tail e1 e2 h t1 t2 s : differ_by_summand t1 t2 s -> head_tail e1 h t1 -> head_tail e2 h t2 -> differ_by_summand e1 e2 s.
  (** 176-191 [AffinelyRelated]. *)
  Inductive affinely_related : gexp -> F p -> gexp -> F p -> Prop :=
  | ar_base e1 f1 v o1 e2 f2 o2 : affine e1 f1 v o1 -> affine e2 f2 v o2 -> affinely_related e1 (f1 / f2) e2 (o1 - o2 * (f1 / f2))
  | ar_step e1 e2 f o t1 t2 h1 h2 v f1 : affinely_related t1 f t2 o -> head_tail e1 h1 t1 -> linear h1 v f1 ->
      head_tail e2 h2 t2 -> linear h2 v (f1 / f) -> affinely_related e1 f e2 o.
  (** 194-198 [HasProductSummand]. *)
  Definition has_product_summand (e l r : gexp) : Prop := exists x, has_summand e x /\ product x l r.
  (** 201-204 [ProductConstraint]. *)
  Definition product_constraint (e l r : gexp) : Prop := algebraic e /\ product e l r.
  (** 59, 287-288 [RangeConstraintOnVar], [BooleanVar]. *)
  Definition range_on_var (v : var) (r : rc) : Prop := In (v, r) (r_rc E).
  Definition boolean_var (v : var) : Prop := range_on_var v (from_mask 1).
  (** 227-234 [AffineAndAllVarsBoolean]. *)
  Inductive affine_boolean : gexp -> Prop :=
  | ab_base e k v c : affine e k v c -> boolean_var v -> affine_boolean e
  | ab_step e h t : head_tail e h t -> affine_boolean h -> affine_boolean t -> affine_boolean e.
  (** 208-224 [BooleanAndSubsetOfVars]. *)
  Inductive boolean_subset : gexp -> gexp -> Prop :=
  | bs_base e1 e2 k v c : affine e1 k v c -> contains e2 v -> affine_boolean e1 -> affine_boolean e2 -> boolean_subset e1 e2
  | bs_both e1 e2 h1 t1 h2 t2 v k1 k2 : boolean_subset t1 t2 -> head_tail e1 h1 t1 -> linear h1 v k1 -> boolean_var v ->
      head_tail e2 h2 t2 -> linear h2 v k2 -> boolean_subset e1 e2
  | bs_right e1 e2 h2 t2 : boolean_subset e1 t2 -> head_tail e2 h2 t2 -> affine_boolean e2 -> boolean_subset e1 e2.
  (** 242-262 [RangeConstraintOnExpression]. *)
  Inductive range_on : gexp -> rc -> Prop :=
  | ro_init e r : In (e, r) (r_init E) -> range_on e r
  | ro_square e l r : product e l l -> range_on l r -> range_on e (square r)
  | ro_product e l r rl rr : product e l r -> r_elt E l r -> range_on l rl -> range_on r rr -> range_on e (combine_product rl rr)
  | ro_linear e v k r : linear e v k -> range_on_var v r -> range_on e (RangeModel.multiple r k)
  | ro_sum e h t rh rt : head_tail e h t -> range_on h rh -> range_on t rt -> range_on e (combine_sum rh rt)
  | ro_const e k : constant e k -> range_on e (from_value k).
  (** 559-561 [Solvable]. *)
  Definition solvable (e : gexp) (v : var) (x : F p) : Prop := exists k c, affine e k v c /\ x = - c / k.
  (** 269-284 [UpdateRangeConstraintOnVar]. *)
  Inductive update_range : var -> rc -> Prop :=
  | ur_affine e r k v c : range_on e r -> affine e k v c -> k <> 0 -> update_range v (RangeModel.multiple (combine_sum r (from_value (- c))) (1 / k))
  | ur_two e l r v c1 c2 : product_constraint e l r -> r_elt E l r -> solvable l v c1 -> solvable r v c2 ->
      update_range v (disjunction (from_value c1) (from_value c2)).
  (** 291-298 [BooleanExpressionConstraint]. *)
  Definition boolean_expression (e r : gexp) : Prop := exists l f c, product_constraint e l r /\ affinely_related l f r c /\ c = - f.

  (** 324-334 [SingleOccurrenceVariable], [SingleOccurrenceVariableInExpr]. *)
  Definition single_in (e : gexp) (v : var) : Prop := In v (r_single E) /\ contains e v /\ algebraic e.
  (** 339-350 [LargestSingleOccurrenceVariablePairInExpr]. *)
  Definition largest_pair (e : gexp) (v1 v2 : var) : Prop :=
    single_in e v1 /\ single_in e v2 /\ r_vlt E v1 v2 /\ v1 <> v2 /\
    forall v3, In v3 (r_single E) -> In v3 (vars e) -> v3 = v1 \/ v3 = v2 \/ r_vlt E v3 v1.
  (** 356-367 [FreeVariableCombinationCandidate]. *)
  Definition free_candidate (e : gexp) (k1 : F p) (v1 : var) (x1 : gexp) (k2 : F p) (v2 : var) (x2 : gexp) : Prop :=
    largest_pair e v1 v2 /\ algebraic e /\ exists e1 e2,
    has_product_summand e x1 e1 /\ linear e1 v1 k1 /\ has_product_summand e x2 e2 /\ x2 <> e1 /\ x1 <> e2 /\ linear e2 v2 k2.
  (** 377-384 [square_if_needed]. *)
  Definition square_if_needed (x : gexp) (r : rc) : gexp * rc := if feqb (rmin r) 0 then (x, r) else (gmul x x, square r).
  (** 395-403: the expression without the summands that mention the variables. *)
  Definition without (v1 v2 : var) (e : gexp) : gexp :=
    gsum (map (fun ab => GE [ab] [] 0) (filter (fun ab => negb (existsb (fun v => veqb v v1 || veqb v v2) (vars (fst ab) ++ vars (snd ab)))) (quad e))
          ++ map (fun vc => GE [] [vc] 0) (lin e) ++ (if is_zero (cst e) then [] else [GE [] [] (cst e)])).
  (** 375-408: the replacement. *)
  Definition free_replacement (e : gexp) (k1 : F p) (v1 : var) (x1 : gexp) (rc1 : rc) (k2 : F p) (v2 : var) (x2 : gexp) (rc2 : rc) : option (repl p) :=
    let '(x1, rc1) := square_if_needed x1 rc1 in
    let '(x2, rc2) := square_if_needed x2 rc2 in
    if negb (feqb (rmin rc1) 0) || negb (feqb (rmin rc2) 0) then None
    else let sum := combine_sum (RangeModel.multiple rc1 k1) (RangeModel.multiple rc2 k2) in
         if negb (feqb (rmin sum) 0 && fltb (rmax sum) fminus1) then None
         else let r := without v1 v2 e in
              let factor := gadd (gscale x1 k1) (gscale x2 k2) in
              Some (WithVar [e] (gneg r) factor (fun v => [gadd r (gmul (from_var v) factor)])).
  (** 369-408 [ReplaceAlgebraicConstraintBy]. *)
  Definition free_rule (a : repl p) : Prop := exists e k1 v1 x1 rc1 k2 v2 x2 rc2,
    free_candidate e k1 v1 x1 k2 v2 x2 /\ range_on x1 rc1 /\ range_on x2 rc2 /\ free_replacement e k1 v1 x1 rc1 k2 v2 x2 rc2 = Some a.

  (** 414-419 [PlusMinusResult]. *)
  Definition plus_minus (e e1 : gexp) (v : var) : Prop := exists r, product e e1 r /\ affine r two v minus1.
  (** 424-431 [DiffMarkerConstraint]; [r2] is the summand with [diff_val]. *)
  Definition diff_marker (e : gexp) (m : var) (e2 : gexp) (res : var) (diff : var) (r2 : gexp) : Prop := exists l r r1 km kd,
    product_constraint e l r /\ linear l m km /\ head_tail r r1 r2 /\ plus_minus r1 e2 res /\ linear r2 diff kd.
  (** 438-450 [NegatedDiffMarkerConstraint]. *)
  Inductive negated : gexp -> var -> gexp -> var -> var -> nat -> Prop :=
  | ng_base e m l r r2 v res : product_constraint e l r -> affine l minus1 m 1 -> plus_minus r r2 res -> linear r2 v minus1 -> negated e m l v res 0
  | ng_step e m l r r2 v res n e' m' l' v' me : product_constraint e l r -> negated e' m' l' v' res n -> differ_by_summand l l' me ->
      linear me m minus1 -> plus_minus r r2 res -> linear r2 v minus1 -> negated e m l v res (S n).
  (** 457-463 [NegatedDiffMarkerConstraintFinal]. *)
  Definition negated_final (e : gexp) (m : var) (l : gexp) (res : var) (n : nat) : Prop := exists r e' m' l' v' me n',
    n = S n' /\ product_constraint e l r /\ negated e' m' l' v' res n' /\ differ_by_summand l l' me /\ linear me m minus1 /\ linear r res 1.
  (** 465-472 [NegatedDiffMarkerConstraintFinalNegated]. *)
  Definition negated_final_negated (e : gexp) (m : var) (l : gexp) (v res : var) (n : nat) : Prop := exists r r2 e' m' l' v' me n',
    n = S n' /\ product_constraint e l r /\ negated e' m' l' v' res n' /\ differ_by_summand l l' me /\ linear me m minus1 /\
    plus_minus r r2 res /\ affine r2 minus1 v 1.
  (** 477-520 [EqualZeroCheck]; the arrays are lists, and the markers, the factors they are in and the summands with [diff_val] are listed too. *)
  Definition zero_check (cs : list gexp) (res : var) (a m : list var) (ls diffs : list gexp) (rs : list rc) : Prop :=
    exists c0 c1 c2 c3 c4 c5 c6 c7 c8 c9 m0 m1 m2 m3 a0 a1 a2 a3 l0 l1 l2 one_minus l4 diff d0 d1 d2 d3 e0 e1 e2 e3 r0 r1 r2 r3 sum,
    cs = [c0; c1; c2; c3; c4; c5; c6; c7; c8; c9] /\ a = [a0; a1; a2; a3] /\ m = [m0; m1; m2; m3] /\ ls = [l0; l1; l2; one_minus; l4] /\ diffs = [d0; d1; d2; d3] /\ rs = [r0; r1; r2; r3] /\
    negated c0 m3 l0 a3 res 0 /\ negated c1 m2 l1 a2 res 1 /\ negated c2 m1 l2 a1 res 2 /\
    negated_final c3 m0 one_minus res 3 /\ negated_final_negated c4 m0 l4 a0 res 3 /\
    diff_marker c5 m0 e0 res diff d0 /\ affine e0 1 a0 minus1 /\
    diff_marker c6 m1 e1 res diff d1 /\ linear e1 a1 1 /\
    diff_marker c7 m2 e2 res diff d2 /\ linear e2 a2 1 /\
    diff_marker c8 m3 e3 res diff d3 /\ linear e3 a3 1 /\
    boolean_var res /\ boolean_var m0 /\ boolean_var m1 /\ boolean_var m2 /\ boolean_var m3 /\
    range_on_var a0 r0 /\ range_on_var a1 r1 /\ range_on_var a2 r2 /\ range_on_var a3 r3 /\
    rmin r0 = 0 /\ rmin r1 = 0 /\ rmin r2 = 0 /\ rmin r3 = 0 /\
    fltb (rmax (combine_sum (combine_sum (combine_sum r0 r1) r2) r3)) fminus1 = true /\
    boolean_expression c9 sum /\ affinely_related sum minus1 one_minus 1.
  (** 522-537: the replacement. *)
  Definition zero_replacement (cs : list gexp) (res : var) (a : list var) : repl p :=
    let sum := gsum (map from_var a) in
    WithVar cs gone sum (fun v => [gmul (from_var res) sum; gsub (gadd (from_var res) (gmul (from_var v) sum)) gone]).
  Definition zero_rule (a : repl p) : Prop := exists cs res vs m ls d rs, zero_check cs res vs m ls d rs /\ a = zero_replacement cs res vs.

  (** 544-553: constraints with non-negative factors. *)
  Definition combine_rule (a : repl p) : Prop := exists e1 e2 x l r rl rr,
    product_constraint e1 x l /\ product_constraint e2 x r /\ r_elt E e1 e2 /\ range_on l rl /\ range_on r rr /\
    rmin rl = 0 /\ rmin rr = 0 /\ is_unconstrained (combine_sum rl rr) = false /\ a = Plain [e1; e2] [gmul x (gadd l r)].

  (** 84-85, 578-589 [EqualZero], [EntailsZeroHeadAndTail].  The addition is that of 64-bit words. *)
  Inductive equal_zero : gexp -> Prop :=
  | ez_alg e : algebraic e -> equal_zero e
  | ez_head e h t rh rt : equal_zero e -> head_tail e h t -> range_on h rh -> range_on t rt -> rmin rh = 0 -> rmin rt = 0 ->
      ((val (rmax rh) + val (rmax rt)) mod 2 ^ 64 < val (p:=p) minus1)%N -> equal_zero h
  | ez_tail e h t rh rt : equal_zero e -> head_tail e h t -> range_on h rh -> range_on t rt -> rmin rh = 0 -> rmin rt = 0 ->
      ((val (rmax rh) + val (rmax rt)) mod 2 ^ 64 < val (p:=p) minus1)%N -> equal_zero t.
  (** 595-600 [ExactlyOneSet]. *)
  Definition exactly_one (e : gexp) : Prop := algebraic e /\ affine_boolean e /\ exists f c, simple_sum e f c /\ f + c = 0.
  (** 610-620 [AffineSumCountCoeffs]. *)
  Inductive count_coeffs : gexp -> option var -> F p -> Prop :=
  | cc_const e c : constant e c -> count_coeffs e None (- c)
  | cc_hit e h t v f : count_coeffs t None f -> head_tail e h t -> linear h v f -> count_coeffs e (Some v) f
  | cc_miss e h t v1 v f k : count_coeffs t v1 f -> head_tail e h t -> linear h v k -> k <> f -> count_coeffs e v1 f.
  (** 564-567, 622-634 [Assignment]. *)
  Inductive assignment : var -> F p -> Prop :=
  | as_zero e v x : equal_zero e -> solvable e v x -> assignment v x
  | as_one_hot e1 e2 v2 f x v k : exactly_one e1 -> algebraic e1 -> boolean_subset e2 e1 -> algebraic e2 -> count_coeffs e2 v2 f ->
      has_summand e2 x -> linear x v k -> assignment v (match v2 with Some w => if veqb v w then 1 else 0 | None => 0 end).

  (** 646-652 [QuadraticEquivalenceCandidate]. *)
  Definition quadratic_candidate (e r : gexp) (o : F p) : Prop := exists l f c,
    product_constraint e l r /\ affinely_related l f r c /\ is_affine_ l /\ (1 < affine_var_count l)%nat /\ o = c / f.
  (** 664-672 [QuadraticEquivalenceCandidatePair]; the [unwrap] succeeds. *)
  Definition quadratic_pair (e1 e2 : gexp) (o : F p) (v1 v2 : var) : Prop := exists c1 c2 o1 o2 f k,
    quadratic_candidate c1 e1 o1 /\ quadratic_candidate c2 e2 o2 /\ r_elt E e1 e2 /\
    differ_in_exactly_one_variable e1 e2 = Some (v1, v2, f) /\ o1 = o2 * f /\ coefficient_of_variable v1 e1 = Some k /\ o = o1 / k.
  (** 681-688 [QuadraticEquivalence], [Equivalence]. *)
  Definition equivalence (v1 v2 : var) : Prop := exists e1 e2 o r,
    quadratic_pair e1 e2 o v1 v2 /\ range_on_var v1 r /\ range_on_var v2 r /\ is_disjoint r (combine_sum r (from_value o)) = true.

  (** types.rs 20-28 [Action], without the replacements. *)
  Inductive action := UpdateRange (v : var) (r : rc) | SetConst (v : var) (k : F p) | SetVar (v w : var).
  (** 690-707: the output. *)
  Inductive action_rule : action -> Prop :=
  | ac_range v r : update_range v r -> action_rule (UpdateRange v r)
  | ac_const v k : assignment v k -> action_rule (SetConst v k)
  | ac_var v w : equivalence v w -> r_vlt E w v -> action_rule (SetVar v w)
  | ac_var' v w : equivalence w v -> r_vlt E w v -> action_rule (SetVar v w).
  Definition replace_rule (a : repl p) : Prop := free_rule a \/ combine_rule a \/ zero_rule a.
End Rules.
Arguments action p : clear implicits.

Section Driver.
  Context {p : positive}.
  Local Notation gexp := (gexp p).
  Local Notation rc := (rc p).
  Local Notation csys := (csys p).
  (** The bus interaction handler, the range constraints of the solver and the callback for new variables. *)
  Variable handler : busi rc -> busi rc.
  Variable g : var -> rc.
  Variable fresh : nat -> var.
  (** Line numbers are those of driver.rs from here on.  347-352: [None] forbids larger degrees. *)
  Variable bound : option nat.

  (** 47-66: the variables of the loop; [d_next] counts the calls of [new_var]. *)
  Record dstate := mkD { d_sys : csys; d_rc : list (var * rc); d_asg : list (var * gexp); d_next : nat }.
  (** 62-66: the entries of a hash map; one for each variable. *)
  Fixpoint dedup (l : list var) : list var :=
    match l with [] => [] | v :: l' => if existsb (veqb v) l' then dedup l' else v :: dedup l' end.
  Definition initial_state (c : csys) (next : nat) : dstate :=
    mkD c (filter (fun vr => negb (is_unconstrained (snd vr))) (map (fun v => (v, g v)) (dedup (sys_vars c)))) [] next.
  (** 110-132. *)
  Fixpoint group (e : gexp) (r : rc) (l : list (gexp * rc)) : list (gexp * rc) :=
    match l with
    | [] => [(e, r)]
    | (e', r') :: l' => if gexp_eqb e e' then (e', conjunction r' r) :: l' else (e', r') :: group e r l'
    end.
  Definition bus_ranges (c : csys) : list (gexp * rc) :=
    fold_left (fun acc er => group (fst er) (snd er) acc)
      (filter (fun er => negb (is_unconstrained (snd er)))
        (flat_map (fun b => combine (fields b) (fields (handler (to_range_constraints g b)))) (buses c))) [].
  (** 74-85. *)
  Definition count_var (v : var) (l : list var) : nat := length (filter (veqb v) l).
  Definition single_occurrence (c : csys) : list var := filter (fun v => Nat.eqb (count_var v (sys_vars c)) 1) (sys_vars c).
  (** 89-144; the orders on expressions and variables are any. *)
  Definition env_of (elt : gexp -> gexp -> Prop) (vlt : var -> var -> Prop) (d : dstate) : renv p :=
    mkEnv (algs (d_sys d)) (bus_ranges (d_sys d)) (d_rc d) (single_occurrence (d_sys d)) elt vlt.

  (** Substitution by a constant in a system (indexed_constraint_system.rs 348-386). *)
  Definition sys_subst_known (v : var) (k : F p) (c : csys) : csys :=
    mkCS (map (subst_known v k) (algs c)) (map (bmap (subst_known v k)) (buses c)) (map (fun d => (fst d, cm_subst_known v k (snd d))) (derived c)).
  Fixpoint rc_find (v : var) (l : list (var * rc)) : rc :=
    match l with [] => unconstrained | (w, r) :: l' => if veqb v w then r else rc_find v l' end.
  Definition rc_insert (v : var) (r : rc) (l : list (var * rc)) : list (var * rc) := (v, r) :: filter (fun wr => negb (veqb v (fst wr))) l.
  Definition set_const (v : var) (k : F p) (d : dstate) : dstate :=
    mkD (sys_subst_known v k (d_sys d)) (d_rc d) (d_asg d ++ [(v, from_number k)]) (d_next d).
  (** 167-204. *)
  Definition apply_action (d : dstate) (a : action p) : dstate :=
    match a with
    | UpdateRange v r =>
      let old := rc_find v (d_rc d) in
      let new := conjunction old r in
      if rc_eqb new old then d
      else match try_to_single_value new with
           | Some k => set_const v k d
           | None => mkD (d_sys d) (rc_insert v new (d_rc d)) (d_asg d) (d_next d)
           end
    | SetConst v k => set_const v k d
    | SetVar v w => mkD (sys_subst v (from_var w) (d_sys d)) (d_rc d) (d_asg d ++ [(v, from_var w)]) (d_next d)
    end.
  (** 205-236, 255-290: a replacement with its new variable, which is created only if it occurs. *)
  Definition instantiate (d : dstate) (r : repl p) : (list gexp * list gexp) * dstate :=
    match r with
    | Plain old new => ((old, new), d)
    | WithVar old num den new =>
      let v := fresh (d_next d) in
      if existsb (mentions v) (new v)
      then ((old, new v), mkD (mkCS (algs (d_sys d)) (buses (d_sys d)) (derived (d_sys d) ++ [(v, CQuot num den)])) (d_rc d) (d_asg d) (S (d_next d)))
      else ((old, new v), d)
    end.
  Fixpoint instantiate_all (d : dstate) (l : list (repl p)) : list (list gexp * list gexp) * dstate :=
    match l with
    | [] => ([], d)
    | r :: l' => let '(x, d1) := instantiate d r in let '(xs, d2) := instantiate_all d1 l' in (x :: xs, d2)
    end.
  (** 322-345 [is_replacement_within_degree_bound]. *)
  Definition max_degree (l : list gexp) : nat := fold_right Nat.max 0%nat (map degree l).
  Definition within_bound (r : list gexp * list gexp) : bool :=
    match bound with
    | None => negb (Nat.ltb (max_degree (fst r)) (max_degree (snd r)))
    | Some k => Nat.leb (max_degree (snd r)) k
    end.
  Definition member (e : gexp) (l : list gexp) : bool := existsb (gexp_eqb e) l.
  (** itertools [unique]. *)
  Fixpoint unique (seen l : list gexp) : list gexp :=
    match l with [] => [] | e :: l' => if member e seen then unique seen l' else e :: unique (e :: seen) l' end.
  (** 404-434. *)
  Definition select (c : csys) (rs : list (list gexp * list gexp)) : list gexp * list gexp :=
    fold_left (fun acc r =>
      if forallb (fun e => member e (algs c)) (fst r) && negb (existsb (fun e => member e (fst acc)) (fst r))
      then (fst acc ++ fst r, snd acc ++ snd r) else acc) rs ([], []).
  (** 355-450 [batch_replace_algebraic_constraints]. *)
  Definition batch_replace (c : csys) (rs : list (list gexp * list gexp)) : csys :=
    let '(removed, added) := select c (map (fun r => (unique [] (fst r), snd r)) (filter within_bound rs)) in
    match removed with
    | [] => c
    | _ => mkCS (filter (fun e => negb (member e removed)) (algs c) ++ added) (buses c) (derived c)
    end.
  (** 68-246: one round of the loop.  [acts] and [reps] are the output of the rules in the order in which they are processed;
      the replacements are sorted again (238).  What is proved holds for any part of the output of the rules and any order. *)
  Definition round (d d' : dstate) : Prop := exists elt vlt acts reps xs rs d1,
    Forall (action_rule (env_of elt vlt d)) acts /\ Forall (replace_rule (env_of elt vlt d)) reps /\
    instantiate_all (fold_left apply_action acts d) reps = (xs, d1) /\ Permutation xs rs /\
    d' = mkD (batch_replace (d_sys d1) rs) (d_rc d1) (d_asg d1) (d_next d1).
  (** The loop. *)
  Inductive rounds : dstate -> dstate -> Prop :=
  | rs_done d : rounds d d
  | rs_step d d' d'' : round d d' -> rounds d' d'' -> rounds d d''.
  (** 40-249 [rule_based_optimization]; [next'] is the counter of new variables in the end. *)
  Definition rule_based (c : csys) (next : nat) (c' : csys) (assignments : list (var * gexp)) (next' : nat) : Prop := exists d,
    rounds (initial_state c next) d /\ assignments = d_asg d /\ next' = d_next d /\
    c' = mkCS (filter (fun e => negb (is_redundant e)) (algs (d_sys d))) (buses (d_sys d)) (derived (d_sys d)).
End Driver.
