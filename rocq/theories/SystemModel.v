(** Model of constraint-solver/src/constraint_system.rs and indexed_constraint_system.rs.
    Line numbers refer to indexed_constraint_system.rs unless a file is named. *)
From Coq Require Import NArith ZArith Bool List.
From Verif Require Import Field RangeModel ExprModel.
Import ListNotations.
Local Open Scope F_scope.

(** constraint_system.rs 193-205 [BusInteraction]. *)
Record busi (A : Type) := mkBus { bus_id : A; mult : A; payload : list A }.
Arguments mkBus {A}. Arguments bus_id {A}. Arguments mult {A}. Arguments payload {A}.
(** constraint_system.rs 207-223 [fields]. *)
Definition fields {A} (b : busi A) : list A := bus_id b :: mult b :: payload b.
(** constraint_system.rs 238-250 [from_iter] composed with a map over [fields]. *)
Definition bmap {A B} (f : A -> B) (b : busi A) : busi B :=
  mkBus (f (bus_id b)) (f (mult b)) (map f (payload b)).

(** constraint_system.rs 131-138 [ComputationMethod]. *)
Inductive cmethod (p : positive) :=
| CConst (k : F p)
| CQuot (a b : gexp p).
Arguments CConst {p}. Arguments CQuot {p}.

(** constraint_system.rs 18-31 [ConstraintSystem] (an algebraic constraint is the
    expression that has to be zero) and 82-86 [DerivedVariable] as a pair. *)
Record csys (p : positive) := mkCS {
  algs : list (gexp p);
  buses : list (busi (gexp p));
  derived : list (var * cmethod p) }.
Arguments mkCS {p}. Arguments algs {p}. Arguments buses {p}. Arguments derived {p}.

(** 82-91 [ConstraintSystemItem]. *)
Inductive item := IAlg (i : nat) | IBus (i : nat) | IDer (i : nat).
(** 108-116 [index]; the derived [Ord] is variant first, then index. *)
Definition iindex (x : item) : nat := match x with IAlg i | IBus i | IDer i => i end.
Definition ikind (x : item) : nat := match x with IAlg _ => 0 | IBus _ => 1 | IDer _ => 2 end.
Definition ieqb (x y : item) : bool := Nat.eqb (ikind x) (ikind y) && Nat.eqb (iindex x) (iindex y).
Definition iltb (x y : item) : bool :=
  Nat.ltb (ikind x) (ikind y) || (Nat.eqb (ikind x) (ikind y) && Nat.ltb (iindex x) (iindex y)).
(** 119-121 [is_derived_variable]. *)
Definition is_derived (x : item) : bool := match x with IDer _ => true | _ => false end.
(** 96-104 [flat_constraint_id]; [None] is the panic. *)
Definition flat_id (x : item) : option nat :=
  match x with IAlg i => Some (2 * i)%nat | IBus i => Some (2 * i + 1)%nat | IDer _ => None end.

(** [BTreeSet] insertion as insertion into a strictly increasing list. *)
Fixpoint iinsert (x : item) (l : list item) : list item :=
  match l with
  | [] => [x]
  | y :: l' => if ieqb x y then l else if iltb x y then x :: l else y :: iinsert x l'
  end.
Definition iinsert_all (xs : list item) (l : list item) : list item := fold_left (fun l x => iinsert x l) xs l.

(** The hash map [HashMap<V, BTreeSet<ConstraintSystemItem>>] as an association list.  Its
    iteration order is never observed by the functions below. *)
Definition occmap := list (var * list item).
Fixpoint occ_get (v : var) (m : occmap) : option (list item) :=
  match m with [] => None | (w, l) :: m' => if veqb v w then Some l else occ_get v m' end.
(** [entry(v).or_default().extend(xs)] (316-319, 381-384). *)
Fixpoint occ_extend (v : var) (xs : list item) (m : occmap) : occmap :=
  match m with
  | [] => [(v, iinsert_all xs [])]
  | (w, l) :: m' => if veqb v w then (w, iinsert_all xs l) :: m' else (w, l) :: occ_extend v xs m'
  end.
Definition occ_items (v : var) (m : occmap) : list item := match occ_get v m with Some l => l | None => [] end.

Section SystemModel.
  Context {p : positive}.
  Local Notation gexp := (gexp p).
  Local Notation csys := (csys p).
  Local Notation bus := (busi (gexp)).

  (** constraint_system.rs 303-309; 150-161. *)
  Definition bus_vars (b : bus) : list var := flat_map vars (fields b).
  Definition cm_vars (m : cmethod p) : list var :=
    match m with CConst _ => [] | CQuot a b => vars a ++ vars b end.
  (** constraint_system.rs 63-73 [referenced_unknown_variables]. *)
  Definition sys_vars (c : csys) : list var := flat_map vars (algs c) ++ flat_map bus_vars (buses c).
  (** constraint_system.rs 167-189. *)
  Definition cm_subst_known v k (m : cmethod p) : cmethod p :=
    match m with CConst k => CConst k | CQuot a b => CQuot (subst_known v k a) (subst_known v k b) end.
  Definition cm_subst_unknown v e (m : cmethod p) : cmethod p :=
    match m with CConst k => CConst k | CQuot a b => CQuot (subst_unknown v e a) (subst_unknown v e b) end.
  (** constraint_system.rs 75-80 [extend]. *)
  Definition cs_extend (c d : csys) : csys :=
    mkCS (algs c ++ algs d) (buses c ++ buses d) (derived c ++ derived d).

  (** 57-65 [IndexedConstraintSystem]. *)
  Record ics := mkICS { isys : csys; iocc : occmap }.

  (** 404-452 [variable_occurrences]. *)
  Definition enumerate {A} (l : list A) : list (nat * A) := combine (seq 0 (length l)) l.
  Definition occurrences_list (c : csys) : list (var * item) :=
    flat_map (fun ie => map (fun v => (v, IAlg (fst ie))) (vars (snd ie))) (enumerate (algs c))
    ++ flat_map (fun ib => map (fun v => (v, IBus (fst ib))) (bus_vars (snd ib))) (enumerate (buses c))
    ++ flat_map (fun id => map (fun v => (v, IDer (fst id))) (cm_vars (snd (snd id)))) (enumerate (derived c)).
  Definition variable_occurrences (c : csys) : occmap :=
    fold_left (fun m vi => occ_extend (fst vi) [snd vi] m) (occurrences_list c) [].
  (** 139-149 [From<ConstraintSystem>]. *)
  Definition ics_from (c : csys) : ics := mkICS c (variable_occurrences c).

  (** 230-269 [retain]: the index maps. [None] results from a replacement map lookup out of
      range, which panics. *)
  Fixpoint replacement_map {A} (f : A -> bool) (l : list A) (counter : nat) : list (option nat) :=
    match l with
    | [] => []
    | x :: l' => if f x then Some counter :: replacement_map f l' (S counter)
                 else None :: replacement_map f l' counter
    end.
  Definition retain_items (kind : nat) (mk : nat -> item) (rm : list (option nat)) (xs : list item) : list item :=
    iinsert_all (flat_map (fun x => if Nat.eqb (ikind x) kind
                          then match nth_error rm (iindex x) with
                               | Some (Some j) => [mk j]
                               | _ => []
                               end
                          else [x]) xs) [].
  Definition retain_occ (kind : nat) (mk : nat -> item) (rm : list (option nat)) (m : occmap) : occmap :=
    filter (fun vl => match snd vl with [] => false | _ => true end)
      (map (fun vl => (fst vl, retain_items kind mk rm (snd vl))) m).
  (** The slice access [replacement_map[item.index()]] (258) panics. *)
  Definition retain_panics {A} (kind : nat) (l : list A) (m : occmap) : bool :=
    existsb (fun vl => existsb (fun x => Nat.eqb (ikind x) kind && Nat.leb (length l) (iindex x)) (snd vl)) m.
  (** 187-198, 201-212, 215-226. *)
  Definition retain_algs (f : gexp -> bool) (c : ics) : ics :=
    mkICS (mkCS (filter f (algs (isys c))) (buses (isys c)) (derived (isys c)))
          (retain_occ 0 IAlg (replacement_map f (algs (isys c)) 0) (iocc c)).
  (** As [retain_algs] for a closure that counts its calls (inliner.rs 60-64). *)
  Definition filter_idx {A} (f : nat -> bool) (l : list A) : list A :=
    map snd (filter (fun ia => f (fst ia)) (enumerate l)).
  Definition retain_algs_idx (f : nat -> bool) (c : ics) : ics :=
    mkICS (mkCS (filter_idx f (algs (isys c))) (buses (isys c)) (derived (isys c)))
          (retain_occ 0 IAlg (replacement_map (fun ia => f (fst ia)) (enumerate (algs (isys c))) 0) (iocc c)).
  Definition retain_buses (f : bus -> bool) (c : ics) : ics :=
    mkICS (mkCS (algs (isys c)) (filter f (buses (isys c))) (derived (isys c)))
          (retain_occ 1 IBus (replacement_map f (buses (isys c)) 0) (iocc c)).
  Definition retain_derived (f : var * cmethod p -> bool) (c : ics) : ics :=
    mkICS (mkCS (algs (isys c)) (buses (isys c)) (filter f (derived (isys c))))
          (retain_occ 2 IDer (replacement_map f (derived (isys c)) 0) (iocc c)).

  (** 297-323 [extend]; 273-283, 286-294 are [extend] with the other lists empty. *)
  Definition shift_item (na nb nd : nat) (x : item) : item :=
    match x with IAlg i => IAlg (i + na) | IBus i => IBus (i + nb) | IDer i => IDer (i + nd) end.
  Definition ics_extend (c : ics) (d : csys) : ics :=
    let sh := shift_item (length (algs (isys c))) (length (buses (isys c))) (length (derived (isys c))) in
    mkICS (cs_extend (isys c) d)
          (fold_left (fun m vl => occ_extend (fst vl) (map sh (snd vl)) m) (variable_occurrences d) (iocc c)).
  Definition add_algs (es : list gexp) (c : ics) : ics := ics_extend c (mkCS es [] []).
  Definition add_buses (bs : list bus) (c : ics) : ics := ics_extend c (mkCS [] bs []).

  (** constraint_system.rs 312-317 [ConstraintRef]. *)
  Inductive cref := RAlg (e : gexp) | RBus (b : bus).
  Definition cref_vars (r : cref) : list var := match r with RAlg e => vars e | RBus b => bus_vars b end.
  (** 125-141 [try_to_constraint_ref]; the outer [None] is an out-of-range panic. *)
  Definition to_ref (c : csys) (x : item) : option (option cref) :=
    match x with
    | IAlg i => match nth_error (algs c) i with Some e => Some (Some (RAlg e)) | None => None end
    | IBus i => match nth_error (buses c) i with Some b => Some (Some (RBus b)) | None => None end
    | IDer _ => Some None
    end.
  (** itertools [unique]. *)
  Fixpoint iunique (seen : list item) (l : list item) : list item :=
    match l with
    | [] => []
    | x :: l' => if existsb (ieqb x) seen then iunique seen l' else x :: iunique (x :: seen) l'
    end.
  (** 328-338 [constraints_referencing_variables]; a panic drops the item, see
      [IndexFacts.index_no_panic]. *)
  Definition referencing_items (c : ics) (vs : list var) : list item :=
    iunique [] (flat_map (fun v => occ_items v (iocc c)) vs).
  Definition referencing (c : ics) (vs : list var) : list cref :=
    flat_map (fun x => match to_ref (isys c) x with Some (Some r) => [r] | _ => [] end) (referencing_items c vs).

  (** 454-476 / 478-497 [substitute_by_*_in_item]; an index out of range leaves the model's
      lists unchanged and panics in the code. *)
  Fixpoint nth_map {A} (f : A -> A) (i : nat) (l : list A) : list A :=
    match l, i with
    | [], _ => []
    | x :: l', O => f x :: l'
    | x :: l', S i' => x :: nth_map f i' l'
    end.
  Definition subst_item (fe : gexp -> gexp) (fc : cmethod p -> cmethod p) (c : csys) (x : item) : csys :=
    match x with
    | IAlg i => mkCS (nth_map fe i (algs c)) (buses c) (derived c)
    | IBus i => mkCS (algs c) (nth_map (bmap fe) i (buses c)) (derived c)
    | IDer i => mkCS (algs c) (buses c) (nth_map (fun d => (fst d, fc (snd d))) i (derived c))
    end.
  (** 345-354 [substitute_by_known]. *)
  Definition ics_subst_known (v : var) (k : F p) (c : ics) : ics :=
    mkICS (fold_left (subst_item (subst_known v k) (cm_subst_known v k)) (occ_items v (iocc c)) (isys c)) (iocc c).
  (** itertools [unique] on variables. *)
  Fixpoint vunique (seen : list var) (l : list var) : list var :=
    match l with
    | [] => []
    | x :: l' => if existsb (veqb x) seen then vunique seen l' else x :: vunique (x :: seen) l'
    end.
  (** 363-386 [substitute_by_unknown]. *)
  Definition ics_subst_unknown (v : var) (e : gexp) (c : ics) : ics :=
    let items := occ_items v (iocc c) in
    mkICS (fold_left (subst_item (subst_unknown v e) (cm_subst_unknown v e)) items (isys c))
          (fold_left (fun m w => occ_extend w items m) (vunique [] (vars e)) (iocc c)).
  (** 389-398 [apply_substitutions]. *)
  Definition ics_apply_substs (ss : list (var * gexp)) (c : ics) : ics :=
    fold_left (fun c ve => ics_subst_unknown (fst ve) (snd ve) c) ss c.

  (** ** The work queue *)
  (** 630-634 [ConstraintSystemQueue]. *)
  Record wqueue := mkQ { qitems : list item; qbits : list bool }.
  Fixpoint set_nth {A} (i : nat) (b : A) (l : list A) : list A :=
    match l, i with [], _ => [] | _ :: l', O => b :: l' | x :: l', S i' => x :: set_nth i' b l' end.
  (** Some items have no flat id (derived variables): the code panics, the model leaves the
      bits unchanged; see [IndexFacts] for the proof that this does not happen. *)
  Definition set_flat (x : item) (b : bool) (bits : list bool) : list bool :=
    match flat_id x with Some i => set_nth i b bits | None => bits end.
  (** 637-653 [new]. *)
  Definition queue_new (c : csys) : wqueue :=
    let na := length (algs c) in let nb := length (buses c) in
    let items := map IAlg (seq 0 na) ++ map IBus (seq 0 nb) in
    mkQ items (fold_left (fun bits x => set_flat x true bits) items (repeat false (2 * Nat.max na nb + 2))).
  (** 655-664 [push]; 657-659 resize with [false]. *)
  Definition resize (n : nat) (bits : list bool) : list bool := firstn n bits ++ repeat false (n - length bits).
  Definition queue_push (x : item) (q : wqueue) : wqueue :=
    match flat_id x with
    | None => q (* assertion failure *)
    | Some i =>
      let bits := if Nat.leb (length (qbits q)) i then resize (i + 1) (qbits q) else qbits q in
      if nth i bits false then mkQ (qitems q) bits
      else mkQ (qitems q ++ [x]) (set_nth i true bits)
    end.
  (** 666-672 [pop_front]. *)
  Definition queue_pop (q : wqueue) : option item * wqueue :=
    match qitems q with
    | [] => (None, q)
    | x :: xs => (Some x, mkQ xs (set_flat x false (qbits q)))
    end.

  (** 75-80 [IndexedConstraintSystemWithQueue]. *)
  Record qcs := mkQCS { qsys : ics; qq : wqueue }.
  (** 508-520. *)
  Definition qcs_from (c : csys) : qcs := mkQCS (ics_from c) (queue_new c).
  (** 533-539 [pop_front]. *)
  Definition qcs_pop (c : qcs) : option item * qcs :=
    let '(x, q) := queue_pop (qq c) in (x, mkQCS (qsys c) q).
  (** 545-553 [variable_updated]. *)
  Definition variable_updated (v : var) (c : qcs) : qcs :=
    mkQCS (qsys c) (fold_left (fun q x => if is_derived x then q else queue_push x q) (occ_items v (iocc (qsys c))) (qq c)).
  (** 560-564 [substitute_by_unknown]. *)
  Definition qcs_subst_unknown (v : var) (e : gexp) (c : qcs) : qcs :=
    variable_updated v (mkQCS (ics_subst_unknown v e (qsys c)) (qq c)).
  (** 566-581, 583-598. *)
  Definition qcs_add_algs (es : list gexp) (c : qcs) : qcs :=
    let n := length (algs (isys (qsys c))) in
    mkQCS (add_algs es (qsys c))
          (fold_left (fun q i => queue_push (IAlg (n + i)) q) (seq 0 (length es)) (qq c)).
  Definition qcs_add_buses (bs : list bus) (c : qcs) : qcs :=
    let n := length (buses (isys (qsys c))) in
    mkQCS (add_buses bs (qsys c))
          (fold_left (fun q i => queue_push (IBus (n + i)) q) (seq 0 (length bs)) (qq c)).
  (** 600-610, 612-622. *)
  Definition requeue (s : ics) (q : wqueue) : wqueue :=
    match qitems q with [] => q | _ => queue_new (isys s) end.
  Definition qcs_retain_algs (f : gexp -> bool) (c : qcs) : qcs :=
    let s := retain_algs f (qsys c) in mkQCS s (requeue s (qq c)).
  Definition qcs_retain_buses (f : bus -> bool) (c : qcs) : qcs :=
    let s := retain_buses f (qsys c) in mkQCS s (requeue s (qq c)).
End SystemModel.
Arguments ics : clear implicits.
Arguments qcs : clear implicits.
Arguments cref : clear implicits.
