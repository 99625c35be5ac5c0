(** C14: exhaustive search. *)
From Coq Require Import NArith ZArith Znumtheory Bool List Lia.
From Verif Require Import Field Primes RangeModel RangeFacts ExprModel ExprFacts ExprWf SolveModel SystemModel Spec Bridge
  BusModel SearchModel SearchFacts.
Import ListNotations.
Local Open Scope nat_scope.

(** [s] satisfies the algebraic constraints, every bus interaction is permitted by the bus
    semantics [sem], and every variable is within its range constraint. *)
Definition satisfies {p} (sem : busi (F p) -> Prop) (g : var -> rc p) (s : var -> F p) (c : csys p) : Prop :=
  rcs_true g s /\ sys_solves s c /\ Forall sem (bus_values s c).

(** C14: all reported range constraints hold in every solution; a contradiction is reported
    only if there is none; a panic only if the range of some variable is too large to
    enumerate. *)
Theorem C14_search : forall (p : positive) sem h (c : csys p) g vs, prime (Z.pos p) -> handler_sound sem h -> Forall wf (algs c) ->
  match exhaustive_search_on h (ics_from c) g vs with
  | DOk m => (forall s, satisfies sem g s c -> Forall (fun vr => rc_allows (snd vr) (s (fst vr))) m) /\
             incl (map fst m) (sys_vars c ++ vs)
  | DErr => forall s, ~ satisfies sem g s c
  | DPanic => exists v, In v vs /\ (2 ^ 32 <= range_width (g v))%N
  end.
Proof.
  intros p sem h c g vs Hp Hh Hw.
  assert (K : forall s, satisfies sem g s c -> (forall v, In v vs -> rc_allows (g v) (s v)) /\ good_s sem (ics_from c) g s).
  { intros s (A & B & C). split; [auto|]. split; [auto|]. split; [exact B|].
    apply Forall_forall. intros b Hb. rewrite Forall_forall in C. apply C. unfold bus_values. apply in_map_iff. eauto. }
  pose proof (exhaustive_search_ok Hp sem h Hh (ics_from c) g Hw vs) as H. destruct (exhaustive_search_on h (ics_from c) g vs).
  - destruct H as [H1 H2]. split.
    + intros s Hs. destruct (K s Hs) as [K1 K2]. exact (H1 s K1 K2).
    + intros v Hv. apply in_or_app. exact (H2 v Hv).
  - intros s Hs. destruct (K s Hs) as [K1 K2]. exact (H s K1 K2).
  - destruct H as (v & Hv & E). exists v. split; auto. now apply b_allowed_values_total.
Qed.
(** The search never panics on the variable sets the solver proposes, and these are sets of
    variables of the system. *)
Theorem C14_candidates : forall (p : positive) sem h (c : csys p) g vs, prime (Z.pos p) -> handler_sound sem h -> Forall wf (algs c) ->
  In vs (get_brute_force_candidates c g) ->
  incl vs (sys_vars c) /\ exhaustive_search_on h (ics_from c) g vs <> DPanic.
Proof.
  intros p sem h c g vs Hp Hh Hw Hvs. split; [intros v; eapply candidates_vars; eauto|]. intros E.
  pose proof (C14_search p sem h c g vs Hp Hh Hw) as H. rewrite E in H. destruct H as (v & Hv & H).
  destruct (candidates_small _ _ _ Hvs) as [K _]. pose proof (candidate_small _ _ _ K Hv) as L.
  unfold size_estimate, MAX_VAR_RANGE_WIDTH in L. lia.
Qed.
(** The values computed for an expression include its value in every assignment within the
    range constraints. *)
Theorem C14_values : forall (p : positive) g (e : gexp p) max ks, prime (Z.pos p) -> wf e -> (max < 2 ^ 32)%N ->
  possible_concrete_values g e max = Some (Some ks) -> forall s, consistent_on g s e -> In (eval s e) ks.
Proof.
  intros p g e max ks Hp Hw Hm E s Hs. pose proof (possible_values_ok Hp g e max Hw Hm) as H. rewrite E in H. exact (H s Hs).
Qed.

(** A bus with number 7 that only permits pairs (a, 2 * a), with a handler that uses this. *)
Definition double_sem (b : busi (F babybear)) : Prop :=
  val (bus_id b) = 7%N -> val (mult b) = 1%N -> match payload b with [a; d] => d = fmul (of_N 2%N) a | _ => True end.
Definition double_handler (b : busi (rc babybear)) : busi (rc babybear) :=
  match try_to_single_value (bus_id b), try_to_single_value (mult b), payload b with
  | Some i, Some m, [a; d] =>
    if (feqb i (of_N 7%N) && feqb m (of_N 1%N))%bool
    then mkBus (bus_id b) (mult b) [a; match try_to_single_value a with Some k => conjunction d (from_value (fmul (of_N 2%N) k)) | None => d end]
    else b
  | _, _, _ => b
  end.
Lemma double_sound : handler_sound double_sem double_handler.
Proof.
  intros [i m pl]. unfold double_handler. cbn [bus_id mult payload].
  destruct (try_to_single_value i) as [ki|] eqn:Ei; [|split; auto]. destruct (try_to_single_value m) as [km|] eqn:Em; [|split; auto].
  destruct pl as [|a [|d [|? ?]]]; try (split; auto; fail).
  destruct (feqb ki (of_N 7%N) && feqb km (of_N 1%N))%bool eqn:E; [|split; auto].
  apply andb_true_iff in E. destruct E as [E1 E2]. apply feqb_eq in E1, E2. subst.
  split; [reflexivity|]. intros [vi vm vp] Hs Hb. unfold bus_allows, fields in *. cbn [bus_id mult payload] in *.
  inversion Hb as [|? ? ? ? A1 Hb1]; subst. inversion Hb1 as [|? ? ? ? A2 Hb2]; subst.
  inversion Hb2 as [|? ka ? ? A3 Hb3]; subst. inversion Hb3 as [|? kd ? ? A4 Hb4]; subst. inversion Hb4; subst.
  constructor; auto. constructor; auto. constructor; auto. constructor; auto.
  destruct (try_to_single_value a) as [k|] eqn:Ea; auto. apply b_conjunction; auto.
  apply (b_single i _ vi Ei) in A1. apply (b_single m _ vm Em) in A2. apply (b_single a _ ka Ea) in A3. subst.
  rewrite (Hs eq_refl eq_refl). apply rc_allows_iff. apply from_value_allows. reflexivity.
Qed.
(** For booleans x, y with x + y = 1 and the bus interaction (x, z): the search on {x, y}
    reports that z is within 0..2; with x * y = 1 added it reports a contradiction. *)
Example C14_example :
  let x : gexp babybear := from_var (Orig 0) in let y : gexp babybear := from_var (Orig 1) in let z : gexp babybear := from_var (Orig 2) in
  let n := fun k => from_number (of_N k) : gexp babybear in
  let g := fun v : var => match v return rc babybear with Orig 2 => unconstrained | _ => from_mask 1%N end in
  let c := mkCS [gsub (gadd x y) (n 1%N)] [mkBus (n 7%N) (n 1%N) [x; z]] [] in
  let c' := mkCS [gsub (gmul x y) (n 1%N); gsub (gadd x y) (n 1%N)] [] [] in
  Forall wf (algs c) /\ satisfies double_sem g (fun v => match v with Orig 0 => of_N 1%N | Orig 2 => of_N 2%N | _ => of_N 0%N end) c /\
  In [Orig 0; Orig 1] (get_brute_force_candidates c g) /\
  match exhaustive_search_on double_handler (ics_from c) g [Orig 0; Orig 1] with
  | DOk m => match vm_get (Orig 2) m with
             | Some r => map (fun k => allows_value r (of_N k)) [0%N; 2%N; 3%N; 4%N] = [true; true; false; false]
             | None => False end
  | _ => False
  end /\
  exhaustive_search_on double_handler (ics_from c') g [Orig 0; Orig 1] = DErr.
Proof.
  cbv zeta. split.
  { constructor; [|constructor]. apply wf_gsub; [apply wf_gadd; apply wf_from_var; apply prime_babybear|apply wf_from_number]. }
  split.
  { split; [|split].
    - intros v. apply rc_allows_iff. destruct v as [[|[[]|[]|]]| |]; vm_compute; reflexivity.
    - constructor; [vm_compute; reflexivity|constructor].
    - constructor; [|constructor]. intros _ _. vm_compute. reflexivity. }
  split; [vm_compute; tauto|]. split; vm_compute; reflexivity.
Qed.
Print Assumptions C14_search.
Print Assumptions C14_candidates.
Print Assumptions C14_values.
