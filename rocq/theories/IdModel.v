(** Model of the identifiers in constraint-solver/src/rule_based_optimizer: item_db.rs, new_var_generator.rs and the functions of
    driver.rs that go from variables and expressions to identifiers and back.

    Variables are those of [ExprModel]; [Var(n)] of types.rs 8-9 is [Orig n], which has the order of the numbers.  Hash maps are
    lists of pairs whose first pair with a key counts. *)
From Coq Require Import Arith NArith Bool List.
From Verif Require Import Field ExprModel SystemModel.
Import ListNotations.

(** ** item_db.rs *)
Section Items.
  Context {A : Type}.
  Variable eqb : A -> A -> bool.
  (** 13-17 [ItemDB]. *)
  Record item_db := mkDb { db_items : list A; db_reverse : list (A * nat) }.
  Fixpoint reverse_get (x : A) (m : list (A * nat)) : option nat :=
    match m with [] => None | (y, i) :: m' => if eqb x y then Some i else reverse_get x m' end.
  (** 19-36 [from_iter]: later items overwrite equal ones in the map. *)
  Definition db_from_iter (l : list A) : item_db := mkDb l (rev (combine l (seq 0 (length l)))).
  (** 38-46 [index]; [None] is a panic. *)
  Definition db_index (d : item_db) (i : nat) : option A := nth_error (db_items d) i.
  (** 53-79 [insert_owned_new], [insert], [insert_owned]. *)
  Definition db_insert_new (d : item_db) (x : A) : nat * item_db :=
    let id := length (db_items d) in (id, mkDb (db_items d ++ [x]) ((x, id) :: db_reverse d)).
  Definition db_insert (d : item_db) (x : A) : nat * item_db :=
    match reverse_get x (db_reverse d) with Some id => (id, d) | None => db_insert_new d x end.
  (** 81-83 [id]; [None] is a panic. *)
  Definition db_id (d : item_db) (x : A) : option nat := reverse_get x (db_reverse d).
  (** 92-95. *)
  Definition next_free_id (d : item_db) : nat := length (db_items d).
  (** [insert] for a list of items, from left to right. *)
  Fixpoint db_insert_all (d : item_db) (l : list A) : list nat * item_db :=
    match l with
    | [] => ([], d)
    | x :: l' => let '(i, d1) := db_insert d x in let '(is, d2) := db_insert_all d1 l' in (i :: is, d2)
    end.
End Items.
Arguments item_db : clear implicits.

(** types.rs 8-9. *)
Definition id_var (n : nat) : var := Orig (N.of_nat n).
Definition id_of (v : var) : nat := N.to_nat (vid v).

(** ** grouped_expression.rs 524-554 [try_transform_var_type] with a function that has a state. *)
Section Transform.
  Context {p : positive} {St : Type}.
  Variable f : St -> var -> option (var * St).
  (** [BTreeMap::insert] and [collect]. *)
  Fixpoint linsert (v : var) (c : F p) (l : list (var * F p)) : list (var * F p) :=
    match l with
    | [] => [(v, c)]
    | (w, k) :: t => if veqb v w then (w, c) :: t else if vltb v w then (v, c) :: (w, k) :: t else (w, k) :: linsert v c t
    end.
  Definition lcollect (l : list (var * F p)) : list (var * F p) := fold_left (fun m vc => linsert (fst vc) (snd vc) m) l [].
  Fixpoint transform_linear (l : list (var * F p)) (s : St) : option (list (var * F p) * St) :=
    match l with
    | [] => Some ([], s)
    | (v, c) :: l' =>
      match f s v with
      | None => None
      | Some (w, s1) => match transform_linear l' s1 with None => None | Some (l2, s2) => Some ((w, c) :: l2, s2) end
      end
    end.
  Fixpoint transform (e : gexp p) (s : St) : option (gexp p * St) :=
    match e with
    | GE q l c =>
      match
        (fix pairs (q : list (gexp p * gexp p)) (s : St) : option (list (gexp p * gexp p) * St) :=
           match q with
           | [] => Some ([], s)
           | (a, b) :: q' =>
             match transform a s with
             | None => None
             | Some (a', s1) =>
               match transform b s1 with
               | None => None
               | Some (b', s2) => match pairs q' s2 with None => None | Some (q2, s3) => Some ((a', b') :: q2, s3) end
               end
             end
           end) q s
      with
      | None => None
      | Some (q', s1) => match transform_linear l s1 with None => None | Some (l', s2) => Some (GE q' (lcollect l') c, s2) end
      end
    end.
  Fixpoint transform_list (l : list (gexp p)) (s : St) : option (list (gexp p) * St) :=
    match l with
    | [] => Some ([], s)
    | e :: l' =>
      match transform e s with
      | None => None
      | Some (e', s1) => match transform_list l' s1 with None => None | Some (l2, s2) => Some (e' :: l2, s2) end
      end
    end.
End Transform.

Section Identifiers.
  Context {p : positive} {Prefix : Type}.
  Local Notation gexp := (gexp p).
  Local Notation vdb := (item_db var).
  (** driver.rs 47-53: all occurrences of variables, sorted, with repetitions. *)
  Definition var_mapper (sorted_occurrences : list var) : vdb := db_from_iter sorted_occurrences.
  (** 482-488 [transform_variables]. *)
  Definition to_id (m : vdb) (s : unit) (v : var) : option (var * unit) := option_map (fun i => (id_var i, tt)) (db_id veqb m v).
  Definition transform_variables (m : vdb) (e : gexp) : option gexp := option_map fst (transform (to_id m) e tt).
  (** 490-496 [undo_variable_transform]. *)
  Definition from_id (m : vdb) (s : unit) (v : var) : option (var * unit) := option_map (fun x => (x, tt)) (db_index m (id_of v)).
  Definition undo_variable_transform (m : vdb) (e : gexp) : option gexp := option_map fst (transform (from_id m) e tt).
  (** 498-514 [undo_variable_transform_in_computation_method]. *)
  Definition undo_method (m : vdb) (c : cmethod p) : option (cmethod p) :=
    match c with
    | CConst k => Some (CConst k)
    | CQuot a b =>
      match undo_variable_transform m a with
      | None => None
      | Some a' => match undo_variable_transform m b with None => None | Some b' => Some (CQuot a' b') end
      end
    end.
  (** 452-480 [transform_constraint_system] for a list of expressions. *)
  Fixpoint transform_expressions (m : vdb) (l : list gexp) (d : item_db gexp) : option (list nat * item_db gexp) :=
    match l with
    | [] => Some ([], d)
    | e :: l' =>
      match transform_variables m e with
      | None => None
      | Some e' =>
        let '(i, d1) := db_insert gexp_eqb d e' in
        match transform_expressions m l' d1 with None => None | Some (is, d2) => Some (i :: is, d2) end
      end
    end.

  (** ** new_var_generator.rs 8-23 *)
  Record request := mkRequest { rq_final : option nat; rq_prefix : Prefix; rq_method : cmethod p }.
  Record generator := mkGen { gn_counter : nat; gn_requests : list (nat * request) }.
  (** 25-31 [new], 33-48 [generate]. *)
  Definition new_generator (n : nat) : generator := mkGen n [].
  Definition generate (g : generator) (x : Prefix) (m : cmethod p) : var * generator :=
    (id_var (gn_counter g), mkGen (S (gn_counter g)) ((gn_counter g, mkRequest None x m) :: gn_requests g)).
  Fixpoint generate_all (g : generator) (l : list (Prefix * cmethod p)) : list var * generator :=
    match l with
    | [] => ([], g)
    | (x, m) :: l' => let '(v, g1) := generate g x m in let '(vs, g2) := generate_all g1 l' in (v :: vs, g2)
    end.
  Fixpoint get_request (t : nat) (l : list (nat * request)) : option request :=
    match l with [] => None | (u, r) :: l' => if Nat.eqb t u then Some r else get_request t l' end.
  Definition set_final (t i : nat) (l : list (nat * request)) : list (nat * request) :=
    map (fun ur => if Nat.eqb t (fst ur) then (fst ur, mkRequest (Some i) (rq_prefix (snd ur)) (rq_method (snd ur))) else ur) l.

  (** ** driver.rs 255-290 [undo_variable_transform_and_recreate_new_variables] *)
  (** The callback: the variable of its n-th call. *)
  Variable new_var : nat -> Prefix -> var.
  (** What the function changes: the variables, the requests, the derived variables of the system and the number of calls. *)
  Record restate := mkRe { re_db : vdb; re_requests : list (nat * request); re_derived : list (var * cmethod p); re_calls : nat }.
  Definition recreate (s : restate) (v : var) : option (var * restate) :=
    match get_request (id_of v) (re_requests s) with
    | Some r =>
      match rq_final r with
      | Some i => option_map (fun x => (x, s)) (db_index (re_db s) i)
      | None =>
        let x := new_var (re_calls s) (rq_prefix r) in
        let '(i, d) := db_insert veqb (re_db s) x in
        match undo_method d (rq_method r) with
        | None => None
        | Some m =>
          option_map (fun y => (y, mkRe d (set_final (id_of v) i (re_requests s)) (re_derived s ++ [(x, m)]) (S (re_calls s)))) (db_index d i)
        end
      end
    | None => option_map (fun x => (x, s)) (db_index (re_db s) (id_of v))
    end.
  (** 205-236 with 301-315 [ReplacementAction::new]: the expressions of all replacements, in the order in which they are transformed. *)
  Definition recreate_all (l : list gexp) (s : restate) : option (list gexp * restate) := transform_list recreate l s.
End Identifiers.
Arguments request : clear implicits.
Arguments generator : clear implicits.
Arguments restate : clear implicits.
