(** Optimistic constraints on a recorded history, and non-overlapping calls. *)
From Coq Require Import Arith NArith Bool List.
From Verif Require Import ExecModel.
Import ListNotations.

(** A set of APCs: for each one its constraints, its number of cycles and its priority. *)
Section Apcs.
  Variable specs : list (list oconstr * nat * nat).
  Definition mk_apcs : list apc := map (fun x => mkApc (from_constraints (fst (fst x))) (snd (fst x)) (snd x)) specs.
  Definition cycles_of (id : nat) : nat := match nth_error specs id with Some x => snd (fst x) | None => 0 end.
  Definition constraints_of (id : nat) : list oconstr := match nth_error specs id with Some x => fst (fst x) | None => [] end.
End Apcs.

Section ExecSpec.
  Context {E : Type} (reg : E -> N -> N) (pc : E -> N) (clk : E -> nat) (value_limb : N -> nat -> N).
  (** The value of a literal: what it names in the state before instruction [instr_idx]. *)
  Definition lit_value (hist : list E) (l : literal) : option N :=
    match nth_error hist (instr_idx l) with
    | Some s => Some (match lval l with RegisterLimb a k => value_limb (reg s a) k | LPc => pc s end)
    | None => None
    end.
  Definition oexpr_value (hist : list E) (e : oexpr) : option N := match e with ONum v => Some v | OLit l => lit_value hist l end.
  (** Both sides have a value, the same one. *)
  Definition oc_holds (hist : list E) (c : oconstr) : Prop :=
    exists v, oexpr_value hist (oleft c) = Some v /\ oexpr_value hist (oright c) = Some v.
  (** All states the constraint refers to are among the first [n] (the first state, if it refers to none). *)
  Definition due (n : nat) (c : oconstr) : Prop := 0 < n /\ forall l, In l (refs c) -> instr_idx l < n.

  Context {S : Type}.
  Local Notation cop := (cop E S).
  (** Time intervals [a, b) and [c, d) without a common instant. *)
  Definition disjoint (x y : nat * nat) : Prop := snd x <= fst y \/ snd y <= fst x.
  (** Higher priority wins, then the longer one, then the one inserted first. *)
  Definition outranks (x y : nat * nat * nat) : Prop :=
    let '(px, lx, ix) := x in let '(py, ly, iy) := y in
    px > py \/ (px = py /\ (lx > ly \/ (lx = ly /\ ix < iy))).

  (** The states a history goes through; the clock never goes backwards. *)
  Definition op_clk (o : cop) : list nat := match o with Insert s _ _ => [clk s] | Check s _ => [clk s] | _ => [] end.
  Fixpoint ascending (l : list nat) : Prop :=
    match l with
    | x :: ((y :: _) as r) => x <= y /\ ascending r
    | _ => True
    end.
  Definition clock_ok (os : list cop) : Prop := ascending (flat_map op_clk os).
  Definition checks_of (os : list cop) : list E := flat_map (fun o => match o with Check s _ => [s] | _ => [] end) os.
  (** All APCs named in a history exist. *)
  Definition ids_ok (apcs : list apc) (os : list cop) : Prop :=
    Forall (fun o => match o with Insert _ id _ => id < length apcs | _ => True end) os.
  (** The call was started by an insertion, followed by as many checks as the APC has cycles
      without an abort, and the constraints of the APC hold on the states seen. The interval is given by the clock. *)
  Definition genuine (cycles : nat -> nat) (constraints : nat -> list oconstr) (os : list cop) (c : call S) (ab : nat * nat) : Prop :=
    exists before s0 middle sn after,
      os = before ++ Insert s0 (call_apc c) (call_from c) :: middle ++ Check sn (call_to c) :: after /\
      ~ In Abort middle /\
      length (checks_of (middle ++ [Check sn (call_to c)])) = cycles (call_apc c) /\
      (forall oc, In oc (constraints (call_apc c)) -> due (1 + cycles (call_apc c)) oc ->
         oc_holds (s0 :: checks_of (middle ++ [Check sn (call_to c)])) oc) /\
      ab = (clk s0, clk sn).
  Definition calls_of (outs : list (cout S)) : list (call S) := flat_map (fun o => match o with Calls l => l | _ => [] end) outs.
  Local Notation cand := (cand S).
  (** The interval of a finished candidate, its rank, and the call it stands for. *)
  Definition cand_end (c : cand) : nat := match status c with DoneAt e _ => e | _ => 0 end.
  Definition cand_range (c : cand) : nat * nat := (from_clk c, cand_end c).
  Definition cand_rank (apcs : list apc) (cs : list cand) (i : nat) : nat * nat * nat :=
    match nth_error cs i with
    | Some c => (match nth_error apcs (apc_id c) with Some a => apc_priority a | None => 0 end, cand_end c - from_clk c, i)
    | None => (0, 0, i)
    end.
  Definition range_at (cs : list cand) (i : nat) : nat * nat := match nth_error cs i with Some c => cand_range c | None => (0, 0) end.
  Definition call_at (cs : list cand) (i : nat) (k : call S) : Prop :=
    exists c t, nth_error cs i = Some c /\ status c = DoneAt (cand_end c) t /\ k = mkCall (apc_id c) (from_snap c) t.
End ExecSpec.
