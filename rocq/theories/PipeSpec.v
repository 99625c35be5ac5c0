(** What it means that a run of the optimizer keeps executions. *)
From Coq Require Import Arith NArith Bool List.
From Verif Require Import Field RangeModel ExprModel ExprWf SystemModel Spec BaseModel InlinerModel OvmModel OvmSpec PassSpec MemModel MemSpec LowOvm LowSpec RuleModel RuleSpec PipeModel.
Import ListNotations.

Section PipeSpec.
  Context {p : positive}.
  (** Columns that exist when [n] columns have been issued. *)
  Definition issued (n : nat) (v : var) : Prop := exists k, v = Orig (N.of_nat k) /\ k < n.
  (** Expressions over issued columns, in the normal form that all operations on expressions produce. *)
  Definition over (n : nat) (e : gexp p) : Prop := wf e /\ forall v, In v (vars e) -> issued n v.
  Definition system_over (n : nat) (c : csys p) : Prop :=
    Forall (over n) (algs c) /\ Forall (fun b => Forall (over n) (fields b)) (buses c) /\
    Forall (fun d => issued n (fst d) /\ forall v, In v (cm_vars (snd d)) -> issued n v) (derived c).
  (** Two assignments agree on the columns issued so far. *)
  Definition agree (n : nat) (s t : var -> F p) : Prop := forall v, issued n v -> t v = s v.
  (** Derived columns have the values of their computation methods. *)
  Definition computed (s : var -> F p) (c : csys p) : Prop := Forall (fun d => s (fst d) = cm_value s (snd d)) (derived c).

  Context (m : busmap) (program : list (F p) -> Prop).
  (** The messages on the memory bus are in chronological order, if there is a memory bus. *)
  Definition in_time (l : list (busi (F p))) : Prop := forall id, get_bus_id m BMemory = Some id -> chronological id l.
  (** An execution: all constraints and lookups hold, the messages on the stateful buses are those the virtual machine
      guarantees (what is received from memory are bytes), and memory accesses are in chronological order. *)
  Definition execution (s : var -> F p) (c : csys p) : Prop :=
    admissible (ovm_stateful m) (ovm_table m program) s c /\ Forall (legal m) (sends (ovm_stateful m) s c) /\ in_time (sends (ovm_stateful m) s c).
  (** The same net effect on the stateful buses: each message is sent as often in total. *)
  Definition same_effect (s : var -> F p) (c : csys p) (s' : var -> F p) (c' : csys p) : Prop :=
    forall bus args, net bus args (sends (ovm_stateful m) s' c') = net bus args (sends (ovm_stateful m) s c).

  (** Whatever the rule-based optimizer takes for a zero test while it works on [x] is one (see C42). *)
  Definition zero_tests_right (limit : option nat) (x : ostate p) : Prop := forall d s,
    rounds (ovm_total m) (rcget (o_solver x)) new_column limit (initial_state (rcget (o_solver x)) (o_sys x) (o_next x)) d ->
    sys_solves s (d_sys d) -> (forall v r, In (v, r) (d_rc d) -> rc_allows r (s v)) ->
    forall elt vlt cs res a mk ls ds rs, zero_check (env_of (ovm_total m) (rcget (o_solver x)) elt vlt d) cs res a mk ls ds rs -> markers_ok s mk ls ds rs.

  (** ** Conditions under which solutions can be taken back *)
  (** The lookups that removing free variables drops can be answered (see C27). *)
  Definition lookups_answerable (c c' : csys p) : Prop := forall b v s,
    In b (buses c) -> ~ In b (buses c') -> In v (bus_vars b) -> ~ In v (sys_vars c') -> answerable (ovm_table m program) v b s.
  (** Every solution after a pass comes from one before, with the same messages. *)
  Definition recoverable (c c' : csys p) : Prop := forall s', admissible (ovm_stateful m) (ovm_table m program) s' c' ->
    exists s, admissible (ovm_stateful m) (ovm_table m program) s c /\ sends (ovm_stateful m) s c = sends (ovm_stateful m) s' c'.
  (** For the three kinds of passes that may accept too much, see C25, C27 and C42. *)
  Definition reversible (t : step p) : Prop :=
    match t with
    | (KFree, x, y) => lookups_answerable (o_sys x) (o_sys y)
    | (KLow, x, _) => lookups_ok (ovm_stateful m) (ovm_domain m) (rcget (o_solver x)) (o_sys x)
    | (KRule, x, y) | (KRuleLast, x, y) => recoverable (o_sys x) (o_sys y)
    | _ => True
    end.
  (** What rule-based passes take for zero tests are zero tests. *)
  Definition tests_right (bound : degree_bound) (t : step p) : Prop :=
    match t with
    | (KRule, x, _) => zero_tests_right None x
    | (KRuleLast, x, _) => zero_tests_right (Some (db_identities bound)) x
    | _ => True
    end.
End PipeSpec.
