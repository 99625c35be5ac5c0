(** C08, C09: solving a single algebraic constraint. *)
From Coq Require Import NArith ZArith Znumtheory Bool List Lia.
From Verif Require Import Field Primes RangeModel ExprModel ExprFacts ExprWf SolveModel SolveFacts SolveComplete Spec Bridge.
Import ListNotations.
Local Open Scope nat_scope.

(** C08: every returned effect holds in every solution consistent with the range constraints;
    an error means there is no such solution; the code does not panic.  In addition, a result
    marked complete is equivalent to the constraint, effects only concern variables of the
    constraint, and no conditional assignment is returned. *)
Theorem C08_solve : forall (p : positive) (g : var -> rc p) (e : gexp p),
  prime (Z.pos p) -> wf e ->
  match solve g e with
  | Ok effects complete =>
      (forall s, consistent_on g s e -> solves s e -> Forall (effect_true s) effects) /\
      (complete = true -> forall s, consistent_on g s e -> Forall (effect_true s) effects -> solves s e) /\
      (forall ef, In ef effects -> match ef with CondAssign _ _ _ _ _ => False | Assign v _ | SetRC v _ => In v (vars e) end)
  | Unsat | Conflict => forall s, consistent_on g s e -> ~ solves s e
  | Panic => False
  end.
Proof. intros p g e Hp. exact (b_solve Hp g e). Qed.

Definition x : gexp babybear := from_var (Orig 0).
Definition y : gexp babybear := from_var (Orig 1).
Definition n (k : N) : gexp babybear := from_number (of_N k).
Open Scope G_scope.
Example C08_example :
  let g := fun v => match v with Orig 0 => from_mask 1 | _ => unconstrained end : rc babybear in
  let e := (y - n 3) * (y - x) in
  wf e /\ (exists effects b, solve g e = Ok effects b /\ length effects = 1) /\
  solves (fun _ => of_N 1) e /\ consistent_on g (fun _ => of_N 1) e /\
  solve (fun _ => from_mask 1) (x + y - n 5) = Unsat.
Proof.
  cbv zeta. split; [|split; [|split; [|split]]].
  - repeat first [apply wf_gsub | apply wf_gadd | apply wf_gmul | apply wf_from_var | apply wf_from_number | apply prime_babybear].
  - do 2 eexists. vm_compute. split; reflexivity.
  - vm_compute. reflexivity.
  - intros v _. apply rc_allows_iff. destruct v as [[|q]|k|k]; vm_compute; reflexivity.
  - vm_compute. reflexivity.
Qed.
Close Scope G_scope.

(** C09: solving for a variable or for an affine expression is exact. *)
Theorem C09_solve_for : forall (p : positive) (v : var) (e r : gexp p),
  prime (Z.pos p) -> try_solve_for v e = Some r ->
  (forall s, solves s e <-> s v = eval s r) /\ ~ In v (vars r) /\ incl (vars r) (vars e).
Proof. intros p v e r Hp. exact (b_solve_for Hp v e r). Qed.
Theorem C09_solve_for_expr : forall (p : positive) (e x r : gexp p),
  prime (Z.pos p) -> wf x -> try_solve_for_expr e x = Some r ->
  (forall s, solves s e <-> eval s x = eval s r) /\
  (forall v, In v (vars x) -> ~ In v (vars r)) /\ incl (vars r) (vars e).
Proof. intros p e x r Hp. exact (b_solve_for_expr Hp e x r). Qed.
(** Solving succeeds whenever the variable occurs linearly and nowhere else, and whenever the
    constraint is affine and a nonzero multiple of the expression plus something independent. *)
Theorem C09_solve_for_complete : forall (p : positive) (v : var) (e : gexp p),
  prime (Z.pos p) -> wf e -> In v (map fst (lin e)) ->
  (forall ab, In ab (quad e) -> ~ In v (vars (fst ab)) /\ ~ In v (vars (snd ab))) ->
  exists r, try_solve_for v e = Some r.
Proof. intros p v e _. exact (try_solve_for_complete v e). Qed.
Theorem C09_solve_for_expr_complete : forall (p : positive) (e x : gexp p),
  prime (Z.pos p) -> wf e -> wf x -> is_affine e = true -> is_affine x = true -> vars x <> [] ->
  (exists k (r : gexp p), k <> fzero /\ (forall v, In v (vars x) -> ~ In v (vars r)) /\
     forall s, eval s e = (k * eval s x + eval s r)%F) ->
  exists r, try_solve_for_expr e x = Some r.
Proof. intros p e x Hp. exact (try_solve_for_expr_complete Hp e x). Qed.
(** The assertion inside the search for a variable cannot fail. *)
Theorem C09_no_panic : forall (p : positive) (v : var) (e : gexp p), wf e -> try_solve_for_panics v e = false.
Proof. intros p. exact try_solve_for_no_panic. Qed.

Open Scope G_scope.
Example C09_example :
  (exists r, try_solve_for (Orig 0) (x * n 2 + y * y - n 7) = Some r) /\
  (exists r, try_solve_for_expr (x * n 2 + y * n 4 - n 7) (x + y * n 2) = Some r).
Proof. split; eexists; vm_compute; reflexivity. Qed.
Close Scope G_scope.

Print Assumptions C08_solve. Print Assumptions C09_solve_for. Print Assumptions C09_solve_for_expr.
Print Assumptions C09_no_panic. Print Assumptions C09_solve_for_complete. Print Assumptions C09_solve_for_expr_complete.
