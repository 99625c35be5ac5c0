(** Model of [simplify_constraints_using_exhaustive_search] in autoprecompiles/src/constraint_optimizer.rs; line numbers
    refer to that file.  B-tree maps from expressions are association lists; the order of their keys is only visible in the
    order of the added constraints, for which [in_order] stands. *)
From Coq Require Import NArith Bool List.
From Verif Require Import Field RangeModel ExprModel SystemModel SearchModel.
Import ListNotations.

Section ExhModel.
  Context {p : positive}.
  Local Notation gexp := (gexp p).
  Local Notation csys := (csys p).
  Context (lookup : csys -> list var -> list (cref p)).
  (** The elements of a [BTreeSet] of expressions in its order. *)
  Context (in_order : list gexp -> list gexp).

  (** 453-461 [SimplifiedExpression]; [Some None] is [Some(Err(()))]. *)
  Record simp := mkSimp { expr_of : gexp; is_alg : bool; simplified : option (option gexp) }.
  (** 468-476 [update]. *)
  Definition update (x : simp) (new : gexp) : simp :=
    mkSimp (expr_of x) (is_alg x)
      match simplified x with
      | None => Some (Some new)
      | Some (Some old) => if gexp_eqb old new then Some (Some old) else Some None
      | Some None => Some None
      end.
  (** 497-516: the expressions; [or_insert_with], then [|=]. *)
  Fixpoint add_expr (e : gexp) (alg : bool) (l : list simp) : list simp :=
    match l with
    | [] => [mkSimp e alg None]
    | x :: r => if gexp_eqb (expr_of x) e then mkSimp (expr_of x) (is_alg x || alg) (simplified x) :: r else x :: add_expr e alg r
    end.
  Definition ref_exprs (r : cref p) : list (gexp * bool) :=
    match r with RAlg e => [(e, true)] | RBus b => map (fun e => (e, false)) (fields b) end.
  Definition collect_exprs (rs : list (cref p)) : list simp :=
    fold_left (fun acc eb => add_expr (fst eb) (snd eb) acc) (flat_map ref_exprs rs) [].
  (** 525-536: the assignment violates an algebraic constraint. *)
  Definition violated (a : list (var * F p)) (e : gexp) : bool :=
    match try_to_known (subst_known_multi a e) with Some n => negb (is_zero n) | None => false end.
  (** 521-556: one assignment. *)
  Definition try_assignment (exprs : list simp) (a : list (var * F p)) : list simp :=
    if existsb (fun x => is_alg x && violated a (expr_of x)) exprs then exprs
    else filter (fun x => is_alg x || negb match simplified x with Some None => true | _ => false end)
                (map (fun x => update x (subst_known_multi a (expr_of x))) exprs).
  (** 559-564. *)
  Definition found (x : simp) : list (gexp * gexp) :=
    match simplified x with
    | Some (Some s) => if gexp_eqb s (expr_of x) then [] else [(expr_of x, s)]
    | _ => []
    end.
  (** 494-564: the substitutions found with one set of variables; [None] is a panic while enumerating assignments. *)
  Definition set_substitutions (g : var -> rc p) (c : csys) (vs : list var) : option (list (gexp * gexp)) :=
    match get_all_possible_assignments g vs with
    | None => None
    | Some l => Some (flat_map found (fold_left try_assignment l (collect_exprs (lookup c vs))))
    end.
  (** 490-565: all sets; [BTreeMap::extend] replaces the values of existing keys, so later ones come first here. *)
  Fixpoint substitutions (g : var -> rc p) (c : csys) (sets : list (list var)) (acc : list (gexp * gexp)) : option (list (gexp * gexp)) :=
    match sets with
    | [] => Some acc
    | vs :: r => match set_substitutions g c vs with None => None | Some l => substitutions g c r (l ++ acc) end
    end.
  (** [BTreeMap::get]. *)
  Fixpoint sub_get (e : gexp) (subs : list (gexp * gexp)) : option gexp :=
    match subs with [] => None | (k, s) :: r => if gexp_eqb e k then Some s else sub_get e r end.
  (** 586-597. *)
  Definition replace_alg (subs : list (gexp * gexp)) (e : gexp) : gexp :=
    match sub_get e subs with Some s => if gis_zero s then e else s | None => e end.
  Definition alg_equation (subs : list (gexp * gexp)) (e : gexp) : list gexp :=
    match sub_get e subs with Some s => if gis_zero s then [] else [gsub e s] | None => [] end.
  (** 598-606. *)
  Definition replace_field (subs : list (gexp * gexp)) (e : gexp) : gexp := match sub_get e subs with Some s => s | None => e end.
  Definition field_equation (subs : list (gexp * gexp)) (e : gexp) : list gexp := match sub_get e subs with Some s => [gsub e s] | None => [] end.
  (** 484-612 [simplify_constraints_using_exhaustive_search]. *)
  Definition simplify_exhaustive (g : var -> rc p) (c : csys) : option csys :=
    match substitutions g c (get_brute_force_candidates c g) [] with
    | None => None
    | Some [] => Some c
    | Some subs =>
      Some (mkCS (map (replace_alg subs) (algs c) ++ in_order (flat_map (alg_equation subs) (algs c) ++ flat_map (field_equation subs) (flat_map fields (buses c))))
                 (map (bmap (replace_field subs)) (buses c)) (derived c))
    end.
End ExhModel.
