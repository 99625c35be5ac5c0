(** What walking through and rewriting expressions should do. *)
From Coq Require Import Arith NArith Bool List.
From Verif Require Import Field ExprModel SystemModel SymModel NumModel JsonModel JsonSpec VisitModel.
Import ListNotations.

Section Spec.
  Context {p : positive}.
  Local Notation E := (nexpr p).

  (** An expression occurs in another one. *)
  Inductive part_of : E -> E -> Prop :=
  | part_self e : part_of e e
  | part_left x l o r : part_of x l -> part_of x (NBin l o r)
  | part_right x l o r : part_of x r -> part_of x (NBin l o r)
  | part_neg x e : part_of x e -> part_of x (NNeg e).
  (** All parts from left to right, every expression before its parts or behind them. *)
  Inductive listed : order -> E -> list E -> Prop :=
  | listed_ref w name id : listed w (NRef name id) [NRef name id]
  | listed_num w k : listed w (NNum k) [NNum k]
  | pre_bin l o r ls rs : listed Pre l ls -> listed Pre r rs -> listed Pre (NBin l o r) (NBin l o r :: ls ++ rs)
  | post_bin l o r ls rs : listed Post l ls -> listed Post r rs -> listed Post (NBin l o r) (ls ++ rs ++ [NBin l o r])
  | pre_neg e l : listed Pre e l -> listed Pre (NNeg e) (NNeg e :: l)
  | post_neg e l : listed Post e l -> listed Post (NNeg e) (l ++ [NNeg e]).
  (** The callback is called on the elements of a list in order until it breaks. *)
  Inductive calls {St B A} (f : St -> A -> St * option B) : St -> list A -> St -> option B -> Prop :=
  | calls_end s : calls f s [] s None
  | calls_break s a l s1 b : f s a = (s1, Some b) -> calls f s (a :: l) s1 (Some b)
  | calls_on s a l s1 s2 b : f s a = (s1, None) -> calls f s1 l s2 b -> calls f s (a :: l) s2 b.
  (** The same with elements that are replaced. *)
  Inductive changes {St B A} (f : St -> A -> St * A * option B) : St -> list A -> St -> list A -> option B -> Prop :=
  | changes_end s : changes f s [] s [] None
  | changes_break s a a1 l s1 b : f s a = (s1, a1, Some b) -> changes f s (a :: l) s1 (a1 :: l) (Some b)
  | changes_on s a a1 l l1 s1 s2 b : f s a = (s1, a1, None) -> changes f s1 l s2 l1 b -> changes f s (a :: l) s2 (a1 :: l1) b.
  (** Columns and numbers, and expressions that differ only there. *)
  Definition leaf (e : E) : Prop := match e with NRef _ _ | NNum _ => True | _ => False end.
  Fixpoint leaves (e : E) : list E := match e with NRef _ _ | NNum _ => [e] | NBin l _ r => leaves l ++ leaves r | NNeg e => leaves e end.
  Fixpoint same_shape (e e' : E) : Prop :=
    match e, e' with
    | NBin l o r, NBin l' o' r' => same_shape l l' /\ o = o' /\ same_shape r r'
    | NNeg e, NNeg e' => same_shape e e'
    | e, e' => leaf e /\ leaf e'
    end.
  (** Rewriting all parts before the whole. *)
  Fixpoint bottom_up (g : E -> E) (e : E) : E :=
    g (match e with NBin l o r => NBin (bottom_up g l) o (bottom_up g r) | NNeg e => NNeg (bottom_up g e) | e => e end).
  (** Rewriting the whole before the parts of what it has become. *)
  Inductive top_down (g : E -> E) : E -> E -> Prop :=
  | top_leaf e : leaf (g e) -> top_down g e (g e)
  | top_bin e l o r l' r' : g e = NBin l o r -> top_down g l l' -> top_down g r r' -> top_down g e (NBin l' o r')
  | top_neg e x x' : g e = NNeg x -> top_down g x x' -> top_down g e (NNeg x').
  (** Names do not matter. *)
  Fixpoint no_names (e : E) : E :=
    match e with NRef _ id => NRef [] id | NNum k => NNum k | NBin l o r => NBin (no_names l) o (no_names r) | NNeg e => NNeg (no_names e) end.
  Definition no_key (sub : list (E * E)) (e : E) : Prop := forall k v, In (k, v) sub -> no_names k <> no_names e.
  (** The outermost parts that are keys are replaced by their values, nothing else. *)
  Inductive replaced (sub : list (E * E)) : E -> E -> Prop :=
  | replaced_key e k v : In (k, v) sub -> no_names k = no_names e -> replaced sub e v
  | replaced_leaf e : no_key sub e -> leaf e -> replaced sub e e
  | replaced_bin l o r l' r' : no_key sub (NBin l o r) -> replaced sub l l' -> replaced sub r r' -> replaced sub (NBin l o r) (NBin l' o r')
  | replaced_neg e e' : no_key sub (NNeg e) -> replaced sub e e' -> replaced sub (NNeg e) (NNeg e').
  (** The keys of a map. *)
  Definition different_keys (sub : list (E * E)) : Prop := NoDup (map (fun kv => no_names (fst kv)) sub).

  (** The columns of an expression and of a machine from left to right. *)
  Fixpoint columns (e : E) : list (N * text) :=
    match e with NRef name id => [(id, name)] | NNum _ => [] | NBin l _ r => columns l ++ columns r | NNeg e => columns e end.
  Definition machine_columns (m : nmach p) : list (N * text) :=
    flat_map columns (nm_cons m) ++ flat_map (fun b => columns (nb_mult b) ++ flat_map columns (nb_args b)) (nm_buses m).
  (** The last name that a column has. *)
  Definition last_name (l : list (N * text)) (id : N) (name : text) : Prop :=
    exists l1 l2, l = l1 ++ (id, name) :: l2 /\ ~ In id (map fst l2).
  (** Replacing columns by columns. *)
  Fixpoint map_columns (g : text -> N -> text * N) (e : E) : E :=
    match e with NRef name id => NRef (fst (g name id)) (snd (g name id)) | NNum k => NNum k | NBin l o r => NBin (map_columns g l) o (map_columns g r) | NNeg e => NNeg (map_columns g e) end.
  Definition map_machine (g : text -> N -> text * N) (m : nmach p) : nmach p :=
    mkNM (map (map_columns g) (nm_cons m)) (map (fun b => mkNB (nb_id b) (map_columns g (nb_mult b)) (map (map_columns g) (nb_args b))) (nm_buses m)) (nm_derived m).
  Definition machine_height (m : nmach p) : nat := fold_right (fun e h => Nat.max (height e) h) 0 (nm_cons m ++ flat_map (fun b => nb_mult b :: nb_args b) (nm_buses m)).

  (** The expressions, machines and columns of [SymModel], which have no names. *)
  Fixpoint nameless (e : E) : aexpr p :=
    match e with NRef _ id => ARef (Orig id) | NNum k => ANum k | NBin l o r => ABin (nameless l) o (nameless r) | NNeg e => ANeg (nameless e) end.
  Definition nameless_method (m : nmethod p) : amethod p := match m with NConst k => AConst k | NQuot a b => AQuot (nameless a) (nameless b) end.
  Definition nameless_machine (m : nmach p) : smach p :=
    mkSM (map nameless (nm_cons m)) (map (fun b => mkSB (nb_id b) (nameless (nb_mult b)) (map nameless (nb_args b))) (nm_buses m))
         (map (fun d => (Orig (snd (fst d)), nameless_method (snd d))) (nm_derived m)).
End Spec.
