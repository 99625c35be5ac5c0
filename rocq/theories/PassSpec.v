(** What a constraint system means to its environment. *)
From Coq Require Import Arith NArith Bool List Permutation.
From Verif Require Import Field ExprModel ExprFacts SystemModel Spec.
Import ListNotations.

Section PassSpec.
  Context {p : positive}.
  (** Some buses are stateful: their messages are seen by the rest of the virtual machine.  The others are lookups;
      [legal] tells which tuples their tables contain. *)
  Context (stateful : F p -> bool) (legal : F p -> list (F p) -> Prop).
  (** An interaction is acceptable if it is on a stateful bus, has multiplicity zero or is legal. *)
  Definition acceptable (b : busi (F p)) : Prop :=
    stateful (bus_id b) = false -> mult b <> 0%F -> legal (bus_id b) (payload b).
  (** The assignment satisfies all constraints and all lookups. *)
  Definition admissible (s : var -> F p) (c : csys p) : Prop := sys_solves s c /\ Forall acceptable (bus_values s c).
  (** What is sent to stateful buses, in order. *)
  Definition sends (s : var -> F p) (c : csys p) : list (busi (F p)) :=
    filter (fun b => stateful (bus_id b) && negb (is_zero (mult b))) (bus_values s c).
  (** The two systems accept the same assignments, which send the same. *)
  Definition same_meaning (c c' : csys p) : Prop :=
    forall s, (admissible s c <-> admissible s c') /\ (admissible s c -> sends s c' = sends s c).
  (** Every accepted assignment of [c] is accepted by [c'] and sends the same. *)
  Definition carries_over (c c' : csys p) (s : var -> F p) : Prop := admissible s c -> admissible s c' /\ sends s c' = sends s c.
  (** A lookup can be answered by choosing the variable [x]: its table contains a tuple of its form, and [x] moves every
      field that is not a constant. *)
  Definition answerable (x : var) (b : busi (gexp p)) (s : var -> F p) : Prop :=
    (exists s0, legal (eval s0 (bus_id b)) (map (eval s0) (payload b))) /\
    forall e, In e (payload b) -> try_to_known e = None -> exists t, eval (upd s x t) e <> eval s e.
End PassSpec.

(** All constraints of a system. *)
Definition crefs {p} (c : csys p) : list (cref p) := map RAlg (algs c) ++ map RBus (buses c).
Definition mentions_any {p} (vs : list var) (r : cref p) : bool := existsb (fun v => existsb (veqb v) vs) (cref_vars r).
(** A lookup of the constraints that mention given variables returns all of them and maybe other constraints; it is
    exact if it returns no others. *)
Definition good_lookup {p} (lookup : csys p -> list var -> list (cref p)) (c : csys p) : Prop :=
  forall vs, exists extra, Permutation (lookup c vs) (filter (mentions_any vs) (crefs c) ++ extra) /\ incl extra (crefs c).
Definition exact_lookup {p} (lookup : csys p -> list var -> list (cref p)) (c : csys p) : Prop :=
  forall vs, Permutation (lookup c vs) (filter (mentions_any vs) (crefs c)).

(** Variables connected through constraints, where the search does not go on from blocked variables. *)
Inductive connected (cs : list (list var)) (init blocked : list var) : var -> Prop :=
| conn_init v : In v init -> connected cs init blocked v
| conn_step c v w : In c cs -> In v c -> connected cs init blocked v -> ~ In v blocked -> In w c -> connected cs init blocked w.
(** The variables of each constraint of a system. *)
Definition constraint_vars {p} (c : csys p) : list (list var) := map vars (algs c) ++ map (fun b => flat_map vars (fields b)) (buses c).

(** The values of substituted variables follow from those of the others; substitutions are made from left to right. *)
Definition undo {p} (a : list (var * gexp p)) (s : var -> F p) : var -> F p := fold_right (fun ve s => upd s (fst ve) (eval s (snd ve))) s a.
Definition disjoint_vars {p} (a b : csys p) : Prop := forall v, In v (sys_vars a) -> ~ In v (sys_vars b).
(** The constraints with and without variables. *)
Definition has_vars {p} (r : cref p) : bool := match cref_vars r with [] => false | _ => true end.
Definition constants_of {p} (c : csys p) : csys p :=
  mkCS (filter (fun e => match vars e with [] => true | _ => false end) (algs c)) (filter (fun b => match bus_vars b with [] => true | _ => false end) (buses c)) [].
