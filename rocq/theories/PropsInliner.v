(** C10 and the second half of C07: the inliner. *)
From Coq Require Import NArith ZArith Znumtheory Bool List Lia.
From Verif Require Import Field Primes RangeModel ExprModel ExprFacts SolveModel SystemModel IndexFacts Spec InlinerModel InlinerFacts.
Import ListNotations.
Local Open Scope nat_scope.

(** C07, second half: the predicted degree bounds the degree after the substitution, and is
    exact if the variable does not occur. *)
Theorem C07_prediction : forall (p : positive) (v : var) (r e : gexp p),
  degree (subst_unknown v r e) <= virtual_degree v (degree r) e.
Proof. intros p. exact degree_subst_unknown. Qed.
Theorem C07_prediction_exact : forall (p : positive) (v : var) (r e : gexp p),
  ~ In v (vars e) -> virtual_degree v (degree r) e = degree e.
Proof. intros p v r e. exact (vd_not_mentioned v (degree r) e). Qed.

(** C10: inlining under any policy terminates (one round more than there are constraints is
    enough), the solutions of the old system are the solutions of the new system that satisfy
    the definitions, the bus interactions and derived variables then have the same values,
    every solution of the new system extends uniquely to one of the old system, exactly one
    constraint per definition is removed, each variable is removed once and none remains. *)
Theorem C10_inline : forall (p : positive) (should_inline : var -> gexp p -> ics p -> bool) (c : csys p),
  prime (Z.pos p) ->
  exists c' defs, inline should_inline (S (length (algs c))) (ics_from c) = Some (c', defs) /\
    (forall s, sys_solves s c <-> Forall (fun d => s (fst d) = eval s (snd d)) defs /\ sys_solves s (isys c')) /\
    (forall s, Forall (fun d => s (fst d) = eval s (snd d)) defs ->
       bus_values s (isys c') = bus_values s c /\ derived_values s (isys c') = derived_values s c) /\
    (forall s, sys_solves s (isys c') -> exists s',
       (forall w, ~ In w (map fst defs) -> s' w = s w) /\ sys_solves s' c /\
       bus_values s' c = bus_values s (isys c') /\ derived_values s' c = derived_values s (isys c') /\
       (forall s'', (forall w, ~ In w (map fst defs) -> s'' w = s w) -> sys_solves s'' c -> forall w, s'' w = s' w)) /\
    NoDup (map fst defs) /\ length (algs c) = length (algs (isys c')) + length defs /\
    inline_assert (c', defs) = true /\ index_ok c'.
Proof. intros p f c Hp. exact (b_inline Hp f c). Qed.
(** C10: with the degree bound policy no expression exceeds the bounds unless it is an
    unchanged expression of the input. *)
Theorem C10_degree : forall (p : positive) (b : degree_bound) (c : csys p) (c' : ics p) fuel defs,
  prime (Z.pos p) -> inline (below_degree_bound b) fuel (ics_from c) = Some (c', defs) ->
  (forall e, In e (algs (isys c')) -> degree e <= db_identities b \/ In e (algs c)) /\
  (forall i, In i (buses (isys c')) -> (forall e, In e (fields i) -> degree e <= db_bus b) \/ In i (buses c)).
Proof. intros p b c c' fuel defs Hp. exact (inline_degree b Hp (ics_from c) c' fuel defs (ics_from_ok c)). Qed.

Definition v (k : N) : gexp babybear := from_var (Orig k).
Definition n (k : N) : gexp babybear := from_number (of_N k).
Open Scope G_scope.
(** Two chained definitions; the last one is inlined first, a third constraint is kept
    because inlining it would violate the degree bound, and one bus field changes. *)
Definition ex_sys : csys babybear :=
  mkCS [v 1 - v 0 * v 0; v 2 - v 1 - n 1; v 3 - v 2 * v 0; v 3 * v 2 - n 7] [mkBus (n 3) (n 1) [v 2; v 0]] [(Orig 0, CQuot (v 2) (v 1))].
Example C10_example :
  let r := inline (below_degree_bound (mkDB 3 2)) 5 (ics_from ex_sys) in
  option_map (fun x => (algs (isys (fst x)), map bus_id (buses (isys (fst x))), map fst (snd x))) r =
  Some ([v 1 - v 0 * v 0; (v 1 + n 1) * v 0 * (v 1 + n 1) - n 7], [n 3], [Orig 3; Orig 2]).
Proof. vm_compute. reflexivity. Qed.
Close Scope G_scope.

Print Assumptions C07_prediction. Print Assumptions C07_prediction_exact.
Print Assumptions C10_inline. Print Assumptions C10_degree.
