(** What a user of the solver may rely on: the meaning of every operation and of every answer. *)
From Coq Require Import NArith Bool List.
From Verif Require Import Field RangeModel ExprModel ExprWf SystemModel Spec BaseModel.
Import ListNotations.
Local Open Scope F_scope.

Section SolverSpec.
  Context {p : positive}.
  Local Notation gexp := (gexp p).
  (** Expressions built by the user: sorted terms without zero coefficients, over the user's own variables. *)
  Definition user_expr (e : gexp) : Prop := wf e /\ forall v, In v (vars e) -> is_orig v = true.
  Definition op_ok (o : sop p) : Prop :=
    match o with
    | AddAlgs es => Forall user_expr es
    | AddBuses bs => Forall (fun b => Forall user_expr (fields b)) bs
    | AddRC v _ => is_orig v = true
    | Retain _ | Solve | AskVar _ => True
    | AskRange e | AskConst e => user_expr e
    | AskDifferent a b => user_expr a /\ user_expr b
    end.
  (** [s] satisfies what the operation adds to the solver. *)
  Definition op_holds (sem : busi (F p) -> Prop) (s : var -> F p) (o : sop p) : Prop :=
    match o with
    | AddAlgs es => Forall (solves s) es
    | AddBuses bs => Forall sem (map (bmap (eval s)) bs)
    | AddRC v r => rc_allows r (s v)
    | _ => True
    end.
  (** The answer [a] to operation [o] is the answer to that very question and is true of [s]. *)
  Definition answer_correct (s : var -> F p) (o : sop p) (a : answer p) : Prop :=
    match o, a with
    | Solve, Assignments l =>
        Forall (fun ve => s (fst ve) = eval s (snd ve) /\ is_orig (fst ve) = true /\ user_expr (snd ve) /\ ~ In (fst ve) (vars (snd ve))) l
    | AskVar v, VarRange w r => w = v /\ (is_orig v = true -> rc_allows r (s v))
    | AskRange e, Range e' r => e' = e /\ rc_allows r (eval s e)
    | AskConst e, Const e' k => e' = e /\ (forall x, k = Some x -> eval s e = x)
    | AskDifferent a b, Different a' b' d => a' = a /\ b' = b /\ (d = true -> eval s a <> eval s b)
    | (AddAlgs _ | AddBuses _ | AddRC _ _ | Retain _), Silent => True
    | _, _ => False
    end.
  (** Every removal of variables comes before any other operation, or after a call to [solve] with only questions in between. *)
  Fixpoint retains_after_solve (clean : bool) (os : list (sop p)) : bool :=
    match os with
    | [] => true
    | o :: os' =>
      match o with
      | AddAlgs _ | AddBuses _ | AddRC _ _ => retains_after_solve false os'
      | Retain _ => clean && retains_after_solve clean os'
      | Solve => retains_after_solve true os'
      | _ => retains_after_solve clean os'
      end
    end.
End SolverSpec.
