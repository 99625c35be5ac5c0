(** C29: simplification by exhaustive search. *)
From Coq Require Import Arith NArith ZArith Znumtheory Bool List Permutation Lia.
From Verif Require Import Field Primes RangeModel ExprModel ExprFacts ExprWf ExprMore SystemModel IndexFacts Spec BusModel SearchModel SearchFacts BaseModel BaseFacts SolverSpec BaseSolve PropsSearch PropsBase
  PassSpec PassSem ExhModel ExhFacts PropsMem PropsPass.
Import ListNotations.
Local Open Scope nat_scope.

(** Every assignment that the result accepts is accepted by the original and sends the same; the converse holds for every assignment that
    respects the range constraints used. *)
Theorem C29_same : forall p stateful legal lookup in_order g (c c' : csys p), (forall l e, In e (in_order l) <-> In e l) -> good_lookup lookup c ->
  simplify_exhaustive lookup in_order g c = Some c' ->
  (forall s, admissible stateful legal s c' -> admissible stateful legal s c /\ sends stateful s c' = sends stateful s c) /\
  (forall s, (forall v, In v (sys_vars c) -> rc_allows (g v) (s v)) -> carries_over stateful legal c c' s) /\
  derived c' = derived c /\ length (buses c') = length (buses c).
Proof.
  intros p stateful legal lookup in_order g c c' Ho G H. split; [intros s; eapply simplify_back; eauto|]. split; [intros s Hr; eapply simplify_forward; eauto|].
  destruct (simplify_subs lookup in_order g c c' H) as (subs & _ & [->|[_ ->]]); auto. cbn [applied derived buses]. split; auto. apply map_length.
Qed.
(** It does not panic, whatever the range constraints are. *)
Theorem C29_total : forall p lookup in_order g (c : csys p), exists c', simplify_exhaustive lookup in_order g c = Some c'.
Proof. intros p lookup in_order g c. pose proof (simplify_total lookup in_order g c) as H. destruct (simplify_exhaustive lookup in_order g c) as [c'|]; [eauto|congruence]. Qed.
(** What is found with one set of variables: an expression of a constraint that mentions one of the variables is replaced by another exactly if
    every combination of allowed values that violates none of these algebraic constraints turns it into that other expression, and there is one. *)
Definition tried {p} (g : var -> rc p) (vs : list var) (a : list (var * F p)) : Prop := exists l, get_all_possible_assignments g vs = Some l /\ In a l.
Definition no_conflict {p} (rs : list (cref p)) (a : list (var * F p)) : Prop := forall e k, In (RAlg e) rs -> subst_known_multi a e = from_number k -> k = 0%F.
Theorem C29_found : forall p lookup g (c : csys p) vs l, set_substitutions lookup g c vs = Some l -> forall e s,
  In (e, s) l <-> (In (RAlg e) (lookup c vs) \/ exists b, In (RBus b) (lookup c vs) /\ In e (fields b)) /\ s <> e /\
    (exists a, tried g vs a /\ no_conflict (lookup c vs) a) /\ (forall a, tried g vs a -> no_conflict (lookup c vs) a -> subst_known_multi a e = s).
Proof.
  intros p lookup g c vs l H e s. unfold set_substitutions in H. destruct (get_all_possible_assignments g vs) as [la|] eqn:E; [|discriminate]. injection H as <-. rewrite found_iff. unfold expr_in, all_to.
  assert (T : forall a, tried g vs a <-> In a la). { intros a. unfold tried. rewrite E. split; [intros (x & [= <-] & Hx); auto|eauto]. }
  assert (N : forall a, no_conflict (lookup c vs) a <-> conflicting (lookup c vs) a = false).
  { intros a. unfold no_conflict, conflicting. split.
    - intros Hn. apply not_true_iff_false. intros X. apply existsb_exists in X. destruct X as ([e'|b] & Hr & V); [|discriminate]. unfold violated in V. destruct (try_to_known (subst_known_multi a e')) as [k|] eqn:Ek; [|discriminate]. apply negb_true_iff, is_zero_neq in V. apply V. apply (Hn e'); auto. destruct (subst_known_multi a e') as [[|] [|] k']; cbn in Ek; try discriminate. injection Ek as ->. reflexivity.
    - intros Hn e' k Hr Ek. destruct (F_dec k 0%F) as [|D]; auto. exfalso. assert (X : existsb (fun r => match r with RAlg e => violated a e | RBus _ => false end) (lookup c vs) = true); [|congruence]. apply existsb_exists. exists (RAlg e'). split; auto. unfold violated. rewrite Ek. cbn. apply negb_true_iff. now apply is_zero_neq. }
  split.
  - intros (H1 & ((a & Ha & Ca) & H2) & H3). split; auto. split; auto. split; [exists a; rewrite T, N; auto|]. intros b Hb Cb. apply H2; [now apply T|now apply N].
  - intros (H1 & H3 & (a & Ha & Ca) & H2). split; auto. split; auto. split; [exists a; rewrite <- T, <- N; auto|]. intros b Hb Cb. apply H2; [now apply T|now apply N].
Qed.
(** With the solver of this repository as provider of range constraints, after any history of operations that the assignment satisfies. *)
Theorem C29_with_solver : forall p sem h fuel (os : list (sop p)) l st stateful legal lookup in_order (c c' : csys p) s, prime (Z.pos p) -> (2 < N.pos p <= 2 ^ 64)%N -> handler_sound sem h ->
  Forall op_ok os -> solver_run h fuel os base_new = (l, Done st) -> (forall l e, In e (in_order l) <-> In e l) -> good_lookup lookup c -> forallb is_orig (sys_vars c) = true ->
  simplify_exhaustive lookup in_order (rcget st) c = Some c' -> Forall (op_holds sem s) os -> (admissible stateful legal s c <-> admissible stateful legal s c') /\ (admissible stateful legal s c -> sends stateful s c' = sends stateful s c).
Proof.
  intros p sem h fuel os l st stateful legal lookup in_order c c' s Hp HB Hh U E Ho G Hu H Hs. destruct (C29_same p stateful legal lookup in_order (rcget st) c c' Ho G H) as (A & B & _).
  assert (R : forall v, In v (sys_vars c) -> rc_allows (rcget st v) (s v)).
  { intros v Hv. rewrite forallb_forall in Hu. specialize (Hu v Hv). destruct (solver_state p sem h fuel os l st Hp HB Hh U E) as [W S]. destruct (S s Hs) as (s' & X & Sat). assert (Ev : s' v = s v) by (destruct v as [n|n|n]; [apply X|discriminate Hu|discriminate Hu]). rewrite <- Ev. now apply (rcget_allows sem). }
  specialize (B s R). split; [split; [intros D; now apply B|intros D; now apply A]|]. intros D. now apply B.
Qed.

(** Example on BabyBear: [v0] and [v1] are bits and not equal, so [v0 * v1 + v2] is [v2] and [v0 * v1 + v3 - 7] is [v3 - 7]. *)
Definition bits (v : var) : rc babybear := match v with Orig 0 | Orig 1 => from_mask 1 | _ => unconstrained end.
Definition exh_sys : csys babybear :=
  mkCS [gsub (gadd (v_ 0) (v_ 1)) (n_ 1); gsub (gadd (gmul (v_ 0) (v_ 1)) (v_ 3)) (n_ 7)] [mkBus (n_ 1) (n_ 1) [v_ 0; gadd (gmul (v_ 0) (v_ 1)) (v_ 2)]] [].
Definition exh_s (v : var) : F babybear := match v with Orig 0 => of_N 1 | Orig 1 => 0%F | Orig 3 => of_N 7 | _ => of_N 9 end.
Example exh_example : exists c', simplify_exhaustive (fun c => referencing (ics_from c)) (fun l => l) bits exh_sys = Some c' /\ good_lookup (fun c => referencing (ics_from c)) exh_sys /\
  map payload (buses c') = [[v_ 0; v_ 2]] /\ algs c' = [gsub (gadd (v_ 0) (v_ 1)) (n_ 1); gsub (v_ 3) (n_ 7); gsub (gsub (gadd (gmul (v_ 0) (v_ 1)) (v_ 3)) (n_ 7)) (gsub (v_ 3) (n_ 7)); gsub (gadd (gmul (v_ 0) (v_ 1)) (v_ 2)) (v_ 2)] /\
  (forall v, In v (sys_vars exh_sys) -> rc_allows (bits v) (exh_s v)) /\ admissible first_bus five_times exh_s exh_sys.
Proof.
  eexists. split; [vm_compute; reflexivity|]. split; [intros vs; exists []; rewrite app_nil_r; split; [apply C18_lookup_fresh|intros x []]|]. split; [vm_compute; reflexivity|]. split; [vm_compute; reflexivity|]. split.
  - intros v Hv. apply Bridge.rc_allows_iff. cbv in Hv. repeat (destruct Hv as [<-|Hv]; [vm_compute; reflexivity|]). destruct Hv.
  - split; [apply sys_solves_dec; vm_compute; reflexivity|]. apply Forall_forall. intros b Hb. cbn in Hb. destruct Hb as [<-|[]]. intros X. vm_compute in X. discriminate.
Qed.
Print Assumptions C29_same. Print Assumptions C29_total. Print Assumptions C29_found. Print Assumptions C29_with_solver.
