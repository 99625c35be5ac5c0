(** Model of constraint-solver/src/grouped_expression.rs.

    Simplifications:
    - the runtime-constant type [T] is the field itself (the instantiation used by
      autoprecompiles), so [T::substitute] is the identity, [is_known_zero] is
      [is_zero], [try_to_number] always succeeds and [range_constraint] of a
      coefficient is [from_value];
    - the variable type is [var] below (the [Variable] enum of
      solver/var_transformation.rs over original variables numbered by [N]);
    - [BTreeMap] is an association list sorted by the variable order. Operations that
      find "the" entry of a variable treat all entries of that variable alike, which
      coincides with the Rust code because keys of a map are unique. *)
From Coq Require Import NArith Bool List.
From Verif Require Import Field RangeModel.
Import ListNotations.

(** solver/var_transformation.rs 14-23 [enum Variable] with its derived order. *)
Inductive var := Orig (n : N) | Boolv (n : N) | Lin (n : N).
Definition vkind (v : var) : N := match v with Orig _ => 0 | Boolv _ => 1 | Lin _ => 2 end%N.
Definition vid (v : var) : N := match v with Orig n | Boolv n | Lin n => n end.
Definition veqb (a b : var) : bool := (vkind a =? vkind b)%N && (vid a =? vid b)%N.
Definition vltb (a b : var) : bool :=
  (vkind a <? vkind b)%N || ((vkind a =? vkind b)%N && (vid a <? vid b)%N).

(** grouped_expression.rs 36-47 [struct GroupedExpression]. *)
Inductive gexp (p : positive) :=
  GE (q : list (gexp p * gexp p)) (l : list (var * F p)) (c : F p).
Arguments GE {p}.

Section ExprModel.
  Context {p : positive}.
  Local Notation gexp := (gexp p).
  Local Open Scope F_scope.

  Definition quad (e : gexp) := let 'GE q _ _ := e in q.
  Definition lin (e : gexp) := let 'GE _ l _ := e in l.
  Definition cst (e : gexp) := let 'GE _ _ c := e in c.

  (** The value of an expression under an assignment (doc comment, 23-35). *)
  Fixpoint eval (s : var -> F p) (e : gexp) : F p :=
    match e with
    | GE q l c =>
      fold_right (fun ab acc => eval s (fst ab) * eval s (snd ab) + acc) 0 q
      + fold_right (fun vc acc => snd vc * s (fst vc) + acc) 0 l + c
    end.

  (** Derived [PartialEq] (36). *)
  Definition lin_eqb (l1 l2 : list (var * F p)) : bool :=
    (fix go (l1 l2 : list (var * F p)) := match l1, l2 with
       | [], [] => true
       | (v1, c1) :: t1, (v2, c2) :: t2 => veqb v1 v2 && feqb c1 c2 && go t1 t2
       | _, _ => false end) l1 l2.
  Fixpoint gexp_eqb (a b : gexp) : bool :=
    match a, b with
    | GE q1 l1 c1, GE q2 l2 c2 =>
      (fix go (q1 q2 : list (gexp * gexp)) := match q1, q2 with
         | [], [] => true
         | (a1, b1) :: t1, (a2, b2) :: t2 => gexp_eqb a1 a2 && gexp_eqb b1 b2 && go t1 t2
         | _, _ => false end) q1 q2
      && lin_eqb l1 l2 && feqb c1 c2
    end.

  (** 86-93 [from_number], 129-135 [from_runtime_constant]. *)
  Definition from_number (k : F p) : gexp := GE [] [] k.
  (** 137-143 [from_unknown_variable]. *)
  Definition from_var (v : var) : gexp := GE [] [(v, 1)] 0.
  (** 97-103 [zero], 111-117 [one]. *)
  Definition gzero : gexp := GE [] [] 0.
  Definition gone : gexp := GE [] [] 1.

  (** 146-152 [try_to_known]; 160-162 [try_to_number] (same for [T = F]). *)
  Definition try_to_known (e : gexp) : option (F p) :=
    match e with GE [] [] c => Some c | _ => None end.
  (** 105-107 [is_zero], 119-121 [is_one]. *)
  Definition gis_zero (e : gexp) : bool :=
    match try_to_known e with Some c => is_zero c | None => false end.
  Definition gis_one (e : gexp) : bool :=
    match try_to_known e with Some c => is_one c | None => false end.
  (** 155-157 [is_affine], 181-183 [is_quadratic]. *)
  Definition is_quadratic (e : gexp) : bool := match quad e with [] => false | _ => true end.
  Definition is_affine (e : gexp) : bool := negb (is_quadratic e).
  (** 165-178 [try_to_simple_unknown]. *)
  Definition try_to_simple_unknown (e : gexp) : option var :=
    match e with
    | GE [] [(v, k)] c => if is_zero c && is_one k then Some v else None
    | _ => None
    end.
  (** 186-195 [try_as_single_product]. *)
  Definition try_as_single_product (e : gexp) : option (gexp * gexp) :=
    match e with
    | GE [(l, r)] [] c => if is_zero c then Some (l, r) else None
    | _ => None
    end.

  (** 514-520 [referenced_unknown_variables] (with repetitions, in order). *)
  Fixpoint vars (e : gexp) : list var :=
    match e with
    | GE q l _ => flat_map (fun ab => vars (fst ab) ++ vars (snd ab)) q ++ map fst l
    end.
  Definition mentions (v : var) (e : gexp) : bool := existsb (veqb v) (vars e).

  (** [BTreeMap::get]. *)
  Fixpoint lget (v : var) (l : list (var * F p)) : option (F p) :=
    match l with
    | [] => None
    | (w, k) :: t => if veqb v w then Some k else lget v t
    end.
  (** [BTreeMap::remove]. *)
  Definition lremove (v : var) (l : list (var * F p)) : list (var * F p) :=
    filter (fun wk => negb (veqb v (fst wk))) l.
  (** [entry(v).and_modify(|f| *f += c).or_insert(c)]. *)
  Fixpoint ladd (v : var) (c : F p) (l : list (var * F p)) : list (var * F p) :=
    match l with
    | [] => [(v, c)]
    | (w, k) :: t =>
      if veqb v w then (w, k + c) :: t
      else if vltb v w then (v, c) :: (w, k) :: t
      else (w, k) :: ladd v c t
    end.
  Definition lretain_nonzero (l : list (var * F p)) : list (var * F p) :=
    filter (fun wk => negb (is_zero (snd wk))) l.

  (** 708-719 [negate], 721-736 [Neg]. *)
  Fixpoint gneg (e : gexp) : gexp :=
    match e with
    | GE q l c => GE (map (fun ab => (gneg (fst ab), snd ab)) q)
                     (map (fun vc => (fst vc, - snd vc)) l) (- c)
    end.

  (** 681-691 [quadratic_terms_add_to_zero]. *)
  Definition quadratic_terms_add_to_zero (f s : gexp * gexp) : bool :=
    let n1 := (gneg (fst s), snd s) in
    let n2 := (fst s, gneg (snd s)) in
    let peq (a b : gexp * gexp) := gexp_eqb (fst a) (fst b) && gexp_eqb (snd a) (snd b) in
    let f' := (snd f, fst f) in
    (peq n1 f || peq n2 f) || (peq n1 f' || peq n2 f').

  (** Remove the first element satisfying [f]. *)
  Fixpoint remove_first {A} (f : A -> bool) (l : list A) : option (list A) :=
    match l with
    | [] => None
    | x :: t => if f x then Some t else option_map (cons x) (remove_first f t)
    end.

  (** 21 [MAX_SUM_SIZE_FOR_QUADRATIC_ANALYSIS]. *)
  Definition MAX_SUM : nat := 20.

  (** 618-645 [combine_removing_zeros]. *)
  Fixpoint combine_go (first second : list (gexp * gexp)) : list (gexp * gexp) :=
    match first with
    | [] => second
    | f :: t =>
      match remove_first (quadratic_terms_add_to_zero f) second with
      | Some second' => combine_go t second'
      | None => f :: combine_go t second
      end
    end.
  Definition combine_removing_zeros (first second : list (gexp * gexp)) : list (gexp * gexp) :=
    if Nat.ltb MAX_SUM (length first + length second) then first ++ second
    else combine_go first second.

  (** 648-677 [remove_quadratic_terms_adding_to_zero].  The double loop over pairs
      [(i, j)], [i < j], in lexicographic order with the [to_remove] set removes, for
      each surviving [i], the first surviving [j > i] matching it; written here as
      recursion on the list, [n] being its length. *)
  Fixpoint rqz_go (n : nat) (q : list (gexp * gexp)) : list (gexp * gexp) :=
    match n, q with
    | S n', f :: t =>
      match remove_first (quadratic_terms_add_to_zero f) t with
      | Some t' => rqz_go n' t'
      | None => f :: rqz_go n' t
      end
    | _, _ => q
    end.
  Definition remove_quadratic_terms_adding_to_zero (q : list (gexp * gexp)) :=
    if Nat.ltb MAX_SUM (length q) then q else rqz_go (length q) q.

  (** 597-614 [AddAssign]. *)
  Definition gadd (a b : gexp) : gexp :=
    GE (combine_removing_zeros (quad a) (quad b))
       (lretain_nonzero (fold_left (fun l vc => ladd (fst vc) (snd vc) l) (lin b) (lin a)))
       (cst a + cst b).
  (** 693-706 [Sub]. *)
  Definition gsub (a b : gexp) : gexp := gadd a (gneg b).

  (** 755-770 [MulAssign<&T>]. *)
  Fixpoint gscale_nz (k : F p) (e : gexp) : gexp :=
    match e with
    | GE q l c => GE (map (fun ab => (gscale_nz k (fst ab), snd ab)) q)
                     (map (fun vc => (fst vc, snd vc * k)) l) (c * k)
    end.
  Definition gscale (e : gexp) (k : F p) : gexp := if is_zero k then gzero else gscale_nz k e.

  (** 780-797 [Mul]. *)
  Definition gmul (a b : gexp) : gexp :=
    match try_to_known b with
    | Some k => gscale a k
    | None => match try_to_known a with
              | Some k => gscale b k
              | None => GE [(a, b)] [] 0
              end
    end.
  (** 772-779 [Sum]. *)
  Definition gsum (l : list gexp) : gexp := fold_left gadd l gzero.

  (** The [match (l.try_to_known(), r.try_to_known())] inside the closures of
      [substitute_by_known] (433-449) and [substitute_by_unknown] (488-503): the pairs
      that stay quadratic and the sum of the others. *)
  Definition absorb (acc : list (gexp * gexp) * gexp) (lr : gexp * gexp) :=
    let '(kept, to_add) := acc in
    match try_to_known (fst lr), try_to_known (snd lr) with
    | Some l, Some r => (kept, gadd to_add (from_number (l * r)))
    | Some l, None => (kept, gadd to_add (gscale (snd lr) l))
    | None, Some r => (kept, gadd to_add (gscale (fst lr) r))
    | None, None => (kept ++ [lr], to_add)
    end.
  Definition absorb_known (q : list (gexp * gexp)) : list (gexp * gexp) * gexp :=
    fold_left absorb q ([], gzero).

  Definition lsum_of (v : var) (l : list (var * F p)) : F p :=
    fold_right (fun wk acc => if veqb v (fst wk) then snd wk + acc else acc) 0 l.
  Definition lcontains (v : var) (l : list (var * F p)) : bool :=
    existsb (fun wk => veqb v (fst wk)) l.

  (** 412-457 [substitute_by_known]. *)
  Fixpoint subst_known (v : var) (k : F p) (e : gexp) : gexp :=
    match e with
    | GE q l c =>
      let '(l', c') := if lcontains v l then (lremove v l, c + lsum_of v l * k)
                       else (lretain_nonzero l, c) in
      let '(q', to_add) :=
        absorb_known (map (fun ab => (subst_known v k (fst ab), subst_known v k (snd ab))) q) in
      let self := GE (remove_quadratic_terms_adding_to_zero q') l' c' in
      if gis_zero to_add then self else gadd self to_add
    end.

  (** 372-407 [substitute_simple]. *)
  Definition absorb_simple (acc : list (gexp * gexp) * gexp * F p) (lr : gexp * gexp) :=
    let '(kept, to_add, c) := acc in
    match try_to_known (fst lr), try_to_known (snd lr) with
    | Some l, Some r => (kept, to_add, c + l * r)
    | Some l, None => (kept, if is_zero l then to_add else gadd to_add (gscale (snd lr) l), c)
    | None, Some r => (kept, if is_zero r then to_add else gadd to_add (gscale (fst lr) r), c)
    | None, None => (kept ++ [lr], to_add, c)
    end.
  Fixpoint subst_simple (v : var) (k : F p) (e : gexp) : gexp :=
    match e with
    | GE q l c =>
      let '(l', c') := if lcontains v l then (lremove v l, c + lsum_of v l * k) else (l, c) in
      let '(q', to_add, c'') :=
        fold_left absorb_simple
          (map (fun ab => (subst_simple v k (fst ab), subst_simple v k (snd ab))) q)
          ([], gzero, c') in
      let self := GE q' l' c'' in
      if gis_zero to_add then self else gadd self to_add
    end.

  (** 471-510 [substitute_by_unknown]. *)
  Fixpoint subst_unknown (v : var) (s : gexp) (e : gexp) : gexp :=
    if negb (mentions v e) then e else
    match e with
    | GE q l c =>
      let to_add0 := fold_left (fun acc wk => if veqb v (fst wk) then gadd acc (gscale s (snd wk)) else acc)
                       l gzero in
      let '(q', to_add) :=
        fold_left absorb
          (map (fun ab => (subst_unknown v s (fst ab), subst_unknown v s (snd ab))) q)
          ([], to_add0) in
      gadd (GE (remove_quadratic_terms_adding_to_zero q') (lremove v l) c) to_add
    end.

  (** 460-465 [substitute_by_known_multi]. *)
  Definition subst_known_multi (a : list (var * F p)) (e : gexp) : gexp :=
    fold_left (fun e vk => subst_known (fst vk) (snd vk) e) a e.

  (** 294-301 [degree]. *)
  Fixpoint degree (e : gexp) : nat :=
    match e with
    | GE q l _ => fold_right (fun ab acc => Nat.max (degree (fst ab) + degree (snd ab)) acc)
                    (match l with [] => 0 | _ => 1 end)%nat q
    end.
  (** 305-313 [degree_of_variable]. *)
  Fixpoint degree_of_variable (v : var) (e : gexp) : nat :=
    match e with
    | GE q l _ =>
      fold_right (fun ab acc => Nat.max (degree_of_variable v (fst ab) + degree_of_variable v (snd ab)) acc)
        (if lcontains v l then 1 else 0)%nat q
    end.

  (** 321-323 [coefficient_of_variable_in_affine_part]. *)
  Definition coefficient_of_variable (v : var) (e : gexp) : option (F p) := lget v (lin e).

  (** 330-343 [try_extract_affine_var]. *)
  Definition try_extract_affine_var (v : var) (e : gexp) : option (F p * gexp) :=
    if Nat.eqb (length (filter (veqb v) (vars e))) 1 then
      match lget v (lin e) with
      | Some k => Some (k, GE (quad e) (lremove v (lin e)) (cst e))
      | None => None
      end
    else None.

  (** 237-249 [try_split_head_tail]. *)
  Definition try_split_head_tail (e : gexp) : option (gexp * gexp) :=
    match e with
    | GE ((hl, hr) :: q) l c => Some (gmul hl hr, GE q l c)
    | GE [] ((v, k) :: l) c => Some (GE [] [(v, k)] 0, GE [] l c)
    | GE [] [] _ => None
    end.

  (** 275-288 [into_summands], each summand converted by 59-84 [From]. *)
  Definition summands (e : gexp) : list gexp :=
    map (fun ab => GE [ab] [] 0) (quad e) ++ map (fun vc => GE [] [vc] 0) (lin e)
    ++ (if is_zero (cst e) then [] else [GE [] [] (cst e)]).

  (** 201-233 [to_factors]. *)
  Fixpoint to_factors (e : gexp) : list gexp :=
    match e with
    | GE q l c =>
      let n := (length q + length l + (if is_zero c then 0 else 1))%nat in
      match n with
      | O => [gzero]
      | 1%nat =>
        match q with
        | [(a, b)] => to_factors a ++ to_factors b
        | _ => match l with
               | (v, _) :: _ => [from_var v]
               | [] => []
               end
        end
      | _ =>
        let divide_by := if negb (is_zero c) then c
                         else match l with (_, k) :: _ => k | [] => 1 end in
        [gscale e (1 / divide_by)]
      end
    end.

  (** 346-368 [range_constraint]; the provider is a function ([get], 556-558). *)
  Definition rc_sum (l : list (rc p)) : rc p :=
    match l with [] => from_value 0 | r :: t => fold_left combine_sum t r end.
  Fixpoint range_constraint (g : var -> rc p) (e : gexp) : rc p :=
    match e with
    | GE q l c =>
      rc_sum (map (fun ab => if gexp_eqb (fst ab) (snd ab) then square (range_constraint g (fst ab))
                             else combine_product (range_constraint g (fst ab)) (range_constraint g (snd ab))) q
              ++ map (fun vc => combine_product (g (fst vc)) (from_value (snd vc))) l
              ++ [from_value c])
    end.

  (** 529-554 [try_transform_var_type] with an infallible renaming. *)
  Fixpoint rename (f : var -> var) (e : gexp) : gexp :=
    match e with
    | GE q l c => GE (map (fun ab => (rename f (fst ab), rename f (snd ab))) q)
                     (fold_left (fun l vc => ladd (f (fst vc)) (snd vc) l) l []) c
    end.
End ExprModel.

(** Convenience notations for building expressions. *)
Declare Scope G_scope.
Delimit Scope G_scope with G.
Infix "+" := gadd : G_scope.
Infix "-" := gsub : G_scope.
Infix "*" := gmul : G_scope.
