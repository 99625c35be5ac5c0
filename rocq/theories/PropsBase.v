(** C15, C16: whole histories of solver operations. *)
From Coq Require Import NArith ZArith Znumtheory Bool List Lia.
From Verif Require Import Field Primes RangeModel RangeFacts ExprModel ExprFacts ExprWf SolveModel SystemModel Spec Bridge
  BusModel SearchModel SearchFacts BaseModel BaseFacts SolverSpec BaseSolve PropsSearch.
Import ListNotations.
Local Open Scope nat_scope.

(** C15, C16: take any sequence of operations on a fresh solver and any assignment that
    satisfies all the constraints, bus interactions and range constraints added in it. Every
    answer given (the assignments returned by [solve], range constraints, constants and
    differences) is true of that assignment, and the solver reports no contradiction. *)
Theorem C15_answers_hold : forall (p : positive) sem h fuel (os : list (sop p)) s, prime (Z.pos p) -> (2 < N.pos p <= 2 ^ 64)%N -> handler_sound sem h ->
  Forall op_ok os -> Forall (op_holds sem s) os ->
  Forall2 (answer_correct s) (firstn (length (fst (solver_run h fuel os base_new))) os) (fst (solver_run h fuel os base_new)) /\
  snd (solver_run h fuel os base_new) <> Contradiction.
Proof.
  intros p sem h fuel os s Hp [H2 H64] Hh U Hs. pose proof (solver_run_ok Hp H2 H64 sem h Hh fuel os base_new U wfst_new) as T.
  pose proof (solver_run_matches h fuel os base_new) as M. destruct (solver_run h fuel os base_new) as [l r]. cbn [fst snd] in *.
  destruct T as (A & B & _). destruct (B s (sat_new sem s) Hs) as [B1 B2]. split; auto. now apply correct_of.
Qed.
(** A contradiction is reported only by a call to [solve], and only if no assignment satisfies
    what was added before that call. *)
Theorem C15_contradiction : forall (p : positive) sem h fuel (os : list (sop p)) l, prime (Z.pos p) -> (2 < N.pos p <= 2 ^ 64)%N -> handler_sound sem h ->
  Forall op_ok os -> solver_run h fuel os base_new = (l, Contradiction) ->
  forall s, ~ Forall (op_holds sem s) (firstn (length l) os).
Proof.
  intros p sem h fuel os l Hp B Hh U E s Hs. destruct B as [H2 H64].
  pose proof (solver_run_prefix Hp H2 H64 sem h Hh fuel os base_new l U wfst_new E) as E1.
  destruct (C15_answers_hold p sem h fuel (firstn (length l) os ++ [Solve]) s Hp (conj H2 H64) Hh) as [_ N].
  - apply Forall_app. split; [|repeat constructor]. apply Forall_forall. intros o Ho. rewrite Forall_forall in U. apply U.
    rewrite <- (firstn_skipn (length l) os). apply in_or_app. now left.
  - apply Forall_app. split; auto. repeat constructor.
  - rewrite E1 in N. now apply N.
Qed.
(** The solver does not panic if variables are only removed right after solving. *)
Theorem C15_no_panic : forall (p : positive) sem h fuel (os : list (sop p)), prime (Z.pos p) -> (2 < N.pos p <= 2 ^ 64)%N -> handler_sound sem h ->
  Forall op_ok os -> retains_after_solve true os = true -> snd (solver_run h fuel os base_new) <> Panicked.
Proof.
  intros p sem h fuel os Hp [H2 H64] Hh U R. exact (solver_run_retains Hp H2 H64 sem h Hh fuel os true base_new U wfst_new (fun _ => eq_refl) R).
Qed.
(** The entry point [solve_system]: returned assignments hold in every solution of the system,
    an error means that there is no solution, and there is no panic. *)
Theorem C15_solve_system : forall (p : positive) sem h fuel (c : csys p), prime (Z.pos p) -> (2 < N.pos p <= 2 ^ 64)%N -> handler_sound sem h ->
  Forall user_expr (algs c) -> Forall (fun b => Forall user_expr (fields b)) (buses c) ->
  match solve_system h fuel c with
  | (l, Done _) => exists a, l = [Silent; Silent; Assignments a] /\
      forall s, sys_solves s c -> Forall sem (bus_values s c) ->
      Forall (fun ve => s (fst ve) = eval s (snd ve) /\ is_orig (fst ve) = true /\ user_expr (snd ve) /\ ~ In (fst ve) (vars (snd ve))) a
  | (_, Contradiction) => forall s, sys_solves s c -> ~ Forall sem (bus_values s c)
  | (_, Panicked) => False
  | (_, OutOfFuel) => True
  end.
Proof.
  intros p sem h fuel c Hp HB Hh Ua Ub. unfold solve_system. set (os := [AddAlgs (algs c); AddBuses (buses c); Solve]).
  assert (U : Forall op_ok os) by (repeat constructor; auto).
  pose proof (fun s => C15_answers_hold p sem h fuel os s Hp HB Hh U) as T.
  assert (R : retains_after_solve true os = true) by reflexivity.
  pose proof (C15_no_panic p sem h fuel os Hp HB Hh U R) as NP.
  destruct (solver_run h fuel os base_new) as [l r] eqn:E. cbn [fst snd] in *.
  assert (K : forall s, sys_solves s c -> Forall sem (bus_values s c) -> Forall (op_holds sem s) os).
  { intros s A B. constructor; [exact A|]. constructor; [exact B|]. constructor; [exact I|constructor]. }
  destruct r as [st| | |]; auto.
  - unfold os in E. cbn [solver_run solver_do] in E.
    destruct (add_algs_base (algs c) base_new) as [st1|]; [|discriminate].
    destruct (add_buses_base (buses c) st1) as [st2|]; [|discriminate].
    destruct (solver_solve h fuel st2) as [[a st3]| | |]; try discriminate. assert (El : l = [Silent; Silent; Assignments a]) by congruence.
    exists a. split; auto. intros s A B. destruct (T s (K s A B)) as [C _]. rewrite El in C. cbn [length firstn os] in C.
    inversion C as [|? ? ? ? _ C1]; subst. inversion C1 as [|? ? ? ? _ C2]; subst. inversion C2 as [|? ? ? ? C3 _]; subst. exact C3.
  - intros s A B. destruct (T s (K s A B)) as [_ C]. now apply C.
Qed.
(** C16, for each kind of question in any position of a history. *)
Theorem C16_facts : forall (p : positive) sem h fuel (os : list (sop p)) s, prime (Z.pos p) -> (2 < N.pos p <= 2 ^ 64)%N -> handler_sound sem h ->
  Forall op_ok os -> Forall (op_holds sem s) os -> forall i o a,
  nth_error os i = Some o -> nth_error (fst (solver_run h fuel os base_new)) i = Some a ->
  (forall v, o = AskVar v -> is_orig v = true -> exists r, a = VarRange v r /\ rc_allows r (s v)) /\
  (forall e, o = AskRange e -> exists r, a = Range e r /\ rc_allows r (eval s e)) /\
  (forall e, o = AskConst e -> exists k, a = Const e k /\ (forall x, k = Some x -> eval s e = x)) /\
  (forall e1 e2, o = AskDifferent e1 e2 -> exists d, a = Different e1 e2 d /\ (d = true -> eval s e1 <> eval s e2)).
Proof.
  intros p sem h fuel os s Hp HB Hh U Hs i o a Ho Ha. destruct (C15_answers_hold p sem h fuel os s Hp HB Hh U Hs) as [T _].
  set (l := fst (solver_run h fuel os base_new)) in *. clearbody l.
  assert (C : answer_correct s o a).
  { clear - T Ho Ha. revert os l T Ho Ha. induction i as [|i IH]; intros os l T Ho Ha.
    - destruct os as [|o' os]; [discriminate|]. destruct l as [|a' l]; [discriminate|]. cbn in Ho, Ha. injection Ho as ->. injection Ha as ->. now inversion T.
    - destruct os as [|o' os]; [discriminate|]. destruct l as [|a' l]; [discriminate|]. cbn [nth_error] in Ho, Ha. cbn [length firstn] in T. inversion T; subst. eauto. }
  split; [|split; [|split]]; intros; subst o; destruct a; cbn in C; try tauto.
  - destruct C as [-> C]. eauto.
  - destruct C as [-> C]. eauto.
  - destruct C as [-> C]. eauto.
  - destruct C as (-> & -> & C). eauto.
Qed.

(** A history on BabyBear: x + 256 * y = 300 for a byte x and y below 4, (z - 1) * (z - 5) = 0,
    and the bus interaction (x, w). The solver finds x, y and w and knows that z differs from 2. *)
Definition hist : list (sop babybear) :=
  let x := Orig 0 in let y := Orig 1 in let z := Orig 2 in let w := Orig 3 in
  [AddRC x (from_mask 255); AddRC y (from_mask 3);
   AddAlgs [gsub (gadd (from_var x) (gscale (from_var y) (of_N 256))) (from_number (of_N 300));
            gmul (gsub (from_var z) (from_number (of_N 1))) (gsub (from_var z) (from_number (of_N 5)))];
   AddBuses [mkBus (from_number (of_N 7)) (from_number (of_N 1)) [from_var x; from_var w]];
   Solve;
   AskVar z; AskRange (gadd (from_var w) (from_var z)); AskConst (from_var y); AskDifferent (from_var z) (from_number (of_N 2))].
Definition hist_s (v : var) : F babybear :=
  match v with Orig 0 => of_N 44 | Orig 1 => of_N 1 | Orig 2 => of_N 5 | Orig 3 => of_N 88 | _ => fzero end.
Lemma rc_allows_c {p} (r : rc p) k : allows_value r k = true -> rc_allows r k.
Proof. apply rc_allows_iff. Qed.
Example C15_example :
  (prime (Z.pos babybear) /\ (2 < N.pos babybear <= 2 ^ 64)%N) /\ handler_sound double_sem double_handler /\
  Forall op_ok hist /\ Forall (op_holds double_sem hist_s) hist /\ retains_after_solve true hist = true /\
  exists a r1 r2 k st, solver_run double_handler 100 hist base_new = ([Silent; Silent; Silent; Silent; Assignments a; r1; r2; Const (from_var (Orig 1)) k;
     Different (from_var (Orig 2)) (from_number (of_N 2)) true], Done st) /\
  map fst a = [Orig 0; Orig 1; Orig 3] /\ map (fun ve => option_map val (try_to_known (snd ve))) a = [Some 44%N; Some 1%N; Some 88%N].
Proof.
  split; [split; [exact prime_babybear|vm_compute; split; congruence]|]. split; [exact double_sound|].
  split.
  { assert (K : forall e : gexp babybear, wf e -> forallb is_orig (vars e) = true -> user_expr e).
    { intros e A B. split; auto. rewrite forallb_forall in B. exact B. }
    constructor; [reflexivity|]. constructor; [reflexivity|].
    constructor; [repeat (apply Forall_cons || apply Forall_nil); (apply K; [|vm_compute; reflexivity])|].
    1, 2: repeat first [apply wf_gsub | apply wf_gadd | apply wf_gmul | apply wf_gscale | apply wf_from_var | apply wf_from_number | apply prime_babybear].
    constructor; [apply Forall_cons; [|apply Forall_nil]; repeat (apply Forall_cons || apply Forall_nil); (apply K; [|vm_compute; reflexivity])|].
    1-4: repeat first [apply wf_from_var | apply wf_from_number | apply prime_babybear].
    repeat (apply Forall_cons || apply Forall_nil); try exact I; cbn [op_ok];
      first [apply K | split; apply K]; try (vm_compute; reflexivity);
      repeat first [apply wf_gadd | apply wf_from_var | apply wf_from_number | apply prime_babybear]. }
  split.
  - constructor; [apply rc_allows_c; vm_compute; reflexivity|]. constructor; [apply rc_allows_c; vm_compute; reflexivity|].
    constructor; [repeat constructor; apply F_ext; vm_compute; reflexivity|].
    constructor; [constructor; [|constructor]; intros _ _; apply F_ext; vm_compute; reflexivity|]. repeat constructor.
  - split; [reflexivity|]. eexists _, _, _, _, _. split; [vm_compute; reflexivity|]. split; vm_compute; reflexivity.
Qed.
(** The hypothesis of [C15_no_panic] is needed: a range constraint with a single value followed
    by the removal of variables fails an assertion. *)
Theorem C15_retain_refuted : exists (os : list (sop babybear)), Forall op_ok os /\ snd (solver_run (fun b => b) 100 os base_new) = Panicked.
Proof.
  exists [AddRC (Orig 0) (from_value (of_N 5)); Retain [Orig 1]]. split; [repeat constructor|]. vm_compute. reflexivity.
Qed.
Print Assumptions C15_answers_hold. Print Assumptions C15_contradiction. Print Assumptions C15_no_panic.
Print Assumptions C15_solve_system. Print Assumptions C16_facts. Print Assumptions C15_retain_refuted.
