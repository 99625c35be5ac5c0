(** What the facts of the rule system claim. *)
From Coq Require Import Arith NArith Bool List Permutation.
From Verif Require Import Field RangeModel ExprModel ExprFacts SystemModel Spec RuleModel.
Import ListNotations.

Section RuleSpec.
  Context {p : positive}.
  (** The range constraints among the input facts are true of an assignment; all input facts are. *)
  Definition ranges_true (E : renv p) (s : var -> F p) : Prop :=
    (forall e r, In (e, r) (r_init E) -> rc_allows r (eval s e)) /\ (forall v r, In (v, r) (r_rc E) -> rc_allows r (s v)).
  Definition env_true (E : renv p) (s : var -> F p) : Prop := Forall (solves s) (r_algs E) /\ ranges_true E s.
  (** An action is right about an assignment. *)
  Definition action_true (s : var -> F p) (a : action p) : Prop :=
    match a with
    | UpdateRange v r => rc_allows r (s v)
    | SetConst v k => s v = k
    | SetVar v w => s v = s w
    end.
  (** A replacement gives true constraints, if the new variable is computed as requested. *)
  Definition known_var (E : renv p) (v : var) : Prop :=
    (exists e, In e (r_algs E) /\ In v (vars e)) \/ (exists e r, In (e, r) (r_init E) /\ In v (vars e)).
  Definition repl_true (E : renv p) (s : var -> F p) (a : repl p) : Prop :=
    match a with
    | Plain _ new => Forall (solves s) new
    | WithVar _ num den new => forall v, ~ known_var E v -> Forall (solves (upd s v (cm_value s (CQuot num den)))) (new v)
    end.
  (** A marked difference is positive, and small enough that its negation is out of the range [r]. *)
  Definition positive_difference (r : rc p) (d : F p) : Prop := (1 <= val d /\ val d + val (rmax r) + 1 < N.pos p)%N.
  (** What the zero test assumes about its markers without testing it: the factors of the constraints are one minus the sum of the
      markers so far (from the last one to the first one), and the difference is positive where the marker is set. *)
  Definition markers_ok (s : var -> F p) (m : list var) (ls diffs : list (gexp p)) (rs : list (rc p)) : Prop :=
    exists m0 m1 m2 m3, m = [m0; m1; m2; m3] /\
    map (eval s) ls = [1 - s m3; 1 - s m3 - s m2; 1 - s m3 - s m2 - s m1; 1 - s m3 - s m2 - s m1 - s m0; 1 - s m3 - s m2 - s m1 - s m0]%F /\
    Forall2 (fun md r => s (fst md) = 1%F -> positive_difference r (eval s (snd md))) (combine m diffs) rs.
  (** The computed values are those of the assignment. *)
  Definition asg_true (s : var -> F p) (l : list (var * gexp p)) : Prop := Forall (fun ve => s (fst ve) = eval s (snd ve)) l.
  (** A round in which all replacements are of a given kind. *)
  Definition round_of (handler : busi (rc p) -> busi (rc p)) (g : var -> rc p) (fresh : nat -> var) (bound : option nat) (reps_ok : renv p -> repl p -> Prop) (d d' : dstate) : Prop :=
    exists elt vlt acts reps xs rs d1, Forall (action_rule (env_of handler g elt vlt d)) acts /\ Forall (reps_ok (env_of handler g elt vlt d)) reps /\
    instantiate_all fresh (fold_left apply_action acts d) reps = (xs, d1) /\ Permutation xs rs /\
    d' = mkD (batch_replace bound (d_sys d1) rs) (d_rc d1) (d_asg d1) (d_next d1).
End RuleSpec.
