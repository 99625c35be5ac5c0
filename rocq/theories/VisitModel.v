(** Model of walking through and rewriting expressions: expression/src/visitors.rs and its uses in
    autoprecompiles/src/powdr.rs, with names.  The callback is a function on what it has captured; a walk
    that changes expressions gets a bound for the depth of its recursion, [None]: the bound is reached. *)
From Coq Require Import Arith NArith Bool List.
From Verif Require Import Field SymModel NumModel JsonModel.
Import ListNotations.

(** visitors.rs 25-29. *)
Inductive order := Pre | Post.

Section Visit.
  Context {p : positive}.
  Local Notation E := (nexpr p).

  (** expression/src/lib.rs 79-91 [children]; 96-108 [children_mut], of which the new values are put back. *)
  Definition children (e : E) : list E := match e with NRef _ _ | NNum _ => [] | NBin l _ r => [l; r] | NNeg e => [e] end.
  Definition put_children (e : E) (l : list E) : E :=
    match e, l with
    | NBin _ o _, [x; y] => NBin x o y
    | NNeg _, [x] => NNeg x
    | _, _ => e
    end.

  Section Walk.
    Context {St B : Type}.
    (** [Iterator::try_for_each]: stops after the first element at which the callback breaks. *)
    Fixpoint try_each {A} (f : St -> A -> St * option B) (s : St) (l : list A) : St * option B :=
      match l with
      | [] => (s, None)
      | a :: r => match f s a with (s1, Some b) => (s1, Some b) | (s1, None) => try_each f s1 r end
      end.
    (** visitors.rs 116-129 [visit_expressions]; the children are written out. *)
    Fixpoint visit (f : St -> E -> St * option B) (o : order) (s : St) (e : E) : St * option B :=
      match (match o with Pre => f s e | Post => (s, None) end) with
      | (s1, Some b) => (s1, Some b)
      | (s1, None) =>
        match (match e with
               | NRef _ _ | NNum _ => (s1, None)
               | NBin l _ r => match visit f o s1 l with (s2, Some b) => (s2, Some b) | (s2, None) => visit f o s2 r end
               | NNeg x => visit f o s1 x
               end) with
        | (s2, Some b) => (s2, Some b)
        | (s2, None) => match o with Pre => (s2, None) | Post => f s2 e end
        end
      end.
    (** [try_for_each] on places: what is behind the element that breaks stays as it is. *)
    Fixpoint try_each_mut {A} (f : St -> A -> option (St * A * option B)) (s : St) (l : list A) : option (St * list A * option B) :=
      match l with
      | [] => Some (s, [], None)
      | a :: r =>
        match f s a with
        | None => None
        | Some (s1, a1, Some b) => Some (s1, a1 :: r, Some b)
        | Some (s1, a1, None) => match try_each_mut f s1 r with Some (s2, r1, b) => Some (s2, a1 :: r1, b) | None => None end
        end
      end.
    (** visitors.rs 101-114 [visit_expressions_mut]: the children are those of the expression after the first call. *)
    Fixpoint visit_mut (fuel : nat) (f : St -> E -> St * E * option B) (o : order) (s : St) (e : E) : option (St * E * option B) :=
      match fuel with
      | 0 => None
      | S fuel =>
        match (match o with Pre => f s e | Post => (s, e, None) end) with
        | (s1, e1, Some b) => Some (s1, e1, Some b)
        | (s1, e1, None) =>
          match try_each_mut (visit_mut fuel f o) s1 (children e1) with
          | None => None
          | Some (s2, l, Some b) => Some (s2, put_children e1 l, Some b)
          | Some (s2, l, None) => Some (match o with Pre => (s2, put_children e1 l, None) | Post => f s2 (put_children e1 l) end)
          end
        end
      end.
  End Walk.

  (** 39-65 [pre_visit_expressions_mut], [post_visit_expressions_mut]. *)
  Definition continue {St} (f : St -> E -> St * E) (s : St) (e : E) : St * E * option unit := (f s e, None).
  Definition without_break {St A} (r : option (St * A * option unit)) : option (St * A) :=
    match r with Some (s, a, _) => Some (s, a) | None => None end.
  Definition pre_visit_mut {St} fuel (f : St -> E -> St * E) (s : St) (e : E) := without_break (visit_mut fuel (continue f) Pre s e).
  Definition post_visit_mut {St} fuel (f : St -> E -> St * E) (s : St) (e : E) := without_break (visit_mut fuel (continue f) Post s e).
  (** 132-136 [all_children]. *)
  Fixpoint all_children (e : E) : list E :=
    e :: match e with NRef _ _ | NNum _ => [] | NBin l _ r => all_children l ++ all_children r | NNeg x => all_children x end.

  (** ** Containers *)
  (** symbolic_machine.rs 60-68, 98-106, 201-223 [children] and [children_mut]: no derived columns. *)
  Definition nb_children (b : nbus p) : list E := nb_mult b :: nb_args b.
  Definition nm_children (m : nmach p) : list E := nm_cons m ++ flat_map nb_children (nm_buses m).
  Fixpoint put_buses (l : list (nbus p)) (es : list E) : list (nbus p) :=
    match l with
    | [] => []
    | b :: r => mkNB (nb_id b) (hd (nb_mult b) es) (firstn (length (nb_args b)) (tl es)) :: put_buses r (skipn (length (nb_args b)) (tl es))
    end.
  Definition nm_put (m : nmach p) (es : list E) : nmach p :=
    mkNM (firstn (length (nm_cons m)) es) (put_buses (nm_buses m) (skipn (length (nm_cons m)) es)) (nm_derived m).
  (** visitors.rs 76-92, 94-98. *)
  Definition visit_machine {St B} (f : St -> E -> St * option B) (o : order) (s : St) (m : nmach p) : St * option B :=
    try_each (visit f o) s (nm_children m).
  Definition visit_machine_mut {St B} fuel (f : St -> E -> St * E * option B) (o : order) (s : St) (m : nmach p) : option (St * nmach p * option B) :=
    match try_each_mut (visit_mut fuel f o) s (nm_children m) with Some (s1, es, b) => Some (s1, nm_put m es, b) | None => None end.
  Definition machine_all_children (m : nmach p) : list E := flat_map all_children (nm_children m).
  Definition pre_visit_machine_mut {St} fuel (f : St -> E -> St * E) (s : St) (m : nmach p) := without_break (visit_machine_mut fuel (continue f) Pre s m).

  (** ** Uses: autoprecompiles/src/powdr.rs *)
  Definition rewriting (g : E -> E) (s : unit) (e : E) : unit * E := (s, g e).
  Definition result {A} (r : option (unit * A)) : option A := match r with Some (_, a) => Some a | None => None end.
  (** 11-18 [make_refs_zero]. *)
  Definition zero_reference (e : E) : E := match e with NRef _ _ => NNum 0%F | _ => e end.
  Definition refs_to_zero fuel (e : E) : option E := result (pre_visit_mut fuel (rewriting zero_reference) tt e).
  (** expression.rs 27-43: references are compared by their ids. *)
  Definition same_op (o o' : aop) : bool := match o, o' with OAdd, OAdd | OSub, OSub | OMul, OMul => true | _, _ => false end.
  Fixpoint same (e e' : E) : bool :=
    match e, e' with
    | NRef _ i, NRef _ j => (i =? j)%N
    | NNum k, NNum k' => (val k =? val k')%N
    | NBin l o r, NBin l' o' r' => same l l' && same_op o o' && same r r'
    | NNeg e, NNeg e' => same e e'
    | _, _ => false
    end.
  (** [BTreeMap::get]: the keys of a map are different, so the first is the only one. *)
  Fixpoint sub_get (sub : list (E * E)) (e : E) : option E :=
    match sub with [] => None | (k, v) :: r => if same k e then Some v else sub_get r e end.
  (** 25-34 [substitute_subexpressions]. *)
  Definition substitute_once (sub : list (E * E)) (e : E) : E := match sub_get sub e with Some v => v | None => e end.
  Definition substitute_subexpressions fuel (sub : list (E * E)) (e : E) : option E := result (pre_visit_mut fuel (rewriting (substitute_once sub)) tt e).
  (** [BTreeMap::insert] and [collect]: pairs in the order of their keys, a new value replaces the old one. *)
  Fixpoint bt_insert (k : N) (v : text) (m : list (N * text)) : list (N * text) :=
    match m with
    | [] => [(k, v)]
    | (k', v') :: r => if (k <? k')%N then (k, v) :: m else if (k =? k')%N then (k, v) :: r else (k', v') :: bt_insert k v r
    end.
  Definition bt_collect (l : list (N * text)) : list (N * text) := fold_left (fun m kv => bt_insert (fst kv) (snd kv) m) l [].
  (** 36-58 [unique_references], as ids with names. *)
  Definition reference_of (e : E) : list (N * text) := match e with NRef name id => [(id, name)] | _ => [] end.
  Definition unique_of (l : list E) : list (N * text) := bt_collect (flat_map reference_of l).
  Definition unique_references (m : nmach p) : list (N * text) := unique_of (machine_all_children m).
  Fixpoint bt_get (m : list (N * text)) (k : N) : option text :=
    match m with [] => None | (k', v) :: r => if (k' =? k)%N then Some v else bt_get r k end.
  (** 88-107 [globalize_reference_names]; the callback's state is [false] after a failed [unwrap]. *)
  Definition globalized_name (suffix : N) (name : text) : text := name ++ [95%N] ++ print 10 suffix.
  Definition rename (names : list (N * text)) (ok : bool) (e : E) : bool * E :=
    match e with
    | NRef _ id => match bt_get names id with Some name => (ok, NRef name id) | None => (false, e) end
    | _ => (ok, e)
    end.
  Definition globalize_names fuel (suffix : N) (m : nmach p) : option (nmach p) :=
    let names := map (fun r => (fst r, globalized_name suffix (snd r))) (unique_references m) in
    match pre_visit_machine_mut fuel (rename names) true m with Some (true, m1) => Some m1 | _ => None end.
  (** 109-119 [offset_reference_ids]; the sum does not overflow. *)
  Definition offset_reference (k : N) (e : E) : E := match e with NRef name id => NRef name (id + k)%N | _ => e end.
  Definition offset_ids fuel (k : N) (m : nmach p) : option (nmach p) := result (pre_visit_machine_mut fuel (rewriting (offset_reference k)) tt m).
  (** 66-85 [globalize_references]; [None] is a panic: no columns, or ids that are not contiguous. *)
  Definition globalize_references fuel (m : nmach p) (next suffix : N) : option (N * list N * nmach p) :=
    let ids := map fst (unique_references m) in
    match ids with
    | [] => None
    | i :: r =>
      if (fold_left N.max r i =? N.of_nat (length ids) - 1)%N then
        match globalize_names fuel suffix m with
        | Some m1 => match offset_ids fuel next m1 with
                     | Some m2 => Some ((next + N.of_nat (length ids))%N, nseq next (length ids), m2)
                     | None => None
                     end
        | None => None
        end
      else None
    end.
End Visit.
