(** What it means that identifiers stand for variables and expressions. *)
From Coq Require Import Arith NArith Bool List Sorted Permutation.
From Verif Require Import Field ExprModel SystemModel.
Import ListNotations.

(** Linear terms in the strict order of their variables. *)
Definition in_order {p} (l : list (var * F p)) : Prop := StronglySorted (fun a b => vltb (fst a) (fst b) = true) l.
(** An expression as the code builds it: its linear terms, and those of its factors, are in order. *)
Inductive ordered {p} : gexp p -> Prop :=
| Ordered q l c : Forall (fun ab => ordered (fst ab) /\ ordered (snd ab)) q -> in_order l -> ordered (GE q l c).
(** [e'] is [e] with [h v] instead of every variable [v], and its linear terms in order. *)
Inductive renamed {p} (h : var -> var) : gexp p -> gexp p -> Prop :=
| Renamed q l c q' l' :
    Forall2 (fun ab ab' => renamed h (fst ab) (fst ab') /\ renamed h (snd ab) (snd ab')) q q' ->
    Permutation l' (map (fun vc => (h (fst vc), snd vc)) l) -> in_order l' -> renamed h (GE q l c) (GE q' l' c).
(** The same for ways to compute a variable. *)
Inductive method_renamed {p} (h : var -> var) : cmethod p -> cmethod p -> Prop :=
| renamed_const k : method_renamed h (CConst k) (CConst k)
| renamed_quot a b a' b' : renamed h a a' -> renamed h b b' -> method_renamed h (CQuot a b) (CQuot a' b').
Definition method_ordered {p} (m : cmethod p) : Prop := match m with CConst _ => True | CQuot a b => ordered a /\ ordered b end.

(** The numbers in a list that have a property, in the order of their first occurrence, each once. *)
Fixpoint firsts (wanted : nat -> bool) (seen l : list nat) : list nat :=
  match l with
  | [] => []
  | t :: l' => if wanted t && negb (existsb (Nat.eqb t) seen) then t :: firsts wanted (t :: seen) l' else firsts wanted seen l'
  end.
