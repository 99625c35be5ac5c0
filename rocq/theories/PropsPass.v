(** C26, C27, C28, C44: the passes of the constraint optimizer. *)
From Coq Require Import Arith NArith ZArith Znumtheory Bool List Permutation Lia.
From Verif Require Import Field Primes RangeModel RangeFacts ExprModel ExprFacts ExprWf ExprMore SolveModel SolveFacts SolveComplete SystemModel IndexFacts IndexHist Spec BusModel SearchModel BaseModel BaseFacts SolverSpec BaseSolve PropsSearch PropsBase
  PassModel PassSpec PassFacts PassSem PassReach PropsMem.
From Coq Require Import Ring.
Import ListNotations.
Local Open Scope nat_scope.

(** What [constraints_referencing_variables] returns after any history of operations: every constraint that mentions one of the
    variables, once per occurrence in the system, and possibly further constraints of the system; on a fresh index no others. *)
Theorem C18_lookup_positions : forall p (c0 : csys p) ops, Forall IndexHist.op_ok ops ->
  good_lookup (fun _ => referencing (run_ops ops (ics_from c0))) (isys (run_ops ops (ics_from c0))).
Proof. intros p c0 ops H vs. apply lookup_positions. apply run_ops_ok; auto. apply ics_from_ok. Qed.
Theorem C18_lookup_fresh : forall p (c : csys p), exact_lookup (fun c => referencing (ics_from c)) c.
Proof. intros p c vs. apply lookup_fresh. Qed.

(** C26: the clean-up passes accept the same assignments, which send the same messages.  Derived variables are kept
    if they still occur. *)
Theorem C26_trivial_simplifications : forall p stateful legal (c c' : csys p), prime (Z.pos p) -> Forall wf (algs c) ->
  trivial_simplifications stateful c = Some c' ->
  same_meaning stateful legal c c' /\ derived c' = filter (fun d => existsb (veqb (fst d)) (sys_vars c')) (derived c).
Proof.
  intros p stateful legal c c' Hp W E. split; [eapply trivial_simplifications_same; eauto|]. revert E. unfold trivial_simplifications. set (c2 := remove_equal_bus_interactions _ _). destruct (remove_redundant_constraints c2) as [c3|] eqn:E; [|discriminate]. cbn. intros [= <-].
  assert (W2 : Forall wf (algs c2)) by (cbn; apply Forall_forall; intros e He; apply filter_In in He; rewrite Forall_forall in W; apply W; tauto). destruct (redundant_same stateful legal Hp c2 c3 W2 E) as (_ & _ & D). unfold remove_unreferenced_derived_variables. cbn [derived]. rewrite D. reflexivity.
Qed.
(** They panic exactly if a constraint is a non-zero constant. *)
Theorem C26_panics : forall p stateful (c : csys p), prime (Z.pos p) -> Forall wf (algs c) ->
  trivial_simplifications stateful c = None <-> exists k, In (from_number k) (algs c) /\ k <> 0%F.
Proof.
  intros p stateful c Hp W. rewrite (trivial_simplifications_none stateful (fun _ _ => True) Hp c W). split; [intros (e & He & k & -> & Hk)|intros (k & He & Hk)]; eauto. exists (from_number k). split; auto. exists k. auto.
Qed.
(** Each of the passes on its own. *)
Theorem C26_steps : forall p stateful legal (c : csys p), prime (Z.pos p) -> Forall wf (algs c) ->
  same_meaning stateful legal c (remove_trivial_constraints c) /\
  same_meaning stateful legal c (remove_equal_bus_interactions stateful c) /\
  (forall c', remove_duplicate_factors c = Some c' -> same_meaning stateful legal c c') /\
  (forall c', remove_redundant_constraints c = Some c' -> same_meaning stateful legal c c') /\
  same_meaning stateful legal c (remove_unreferenced_derived_variables c).
Proof.
  intros p stateful legal c Hp W. split; [apply trivial_same|]. split; [apply equal_same|]. split; [intros c' E; eapply dup_same; eauto|]. split; [intros c' E; eapply redundant_same; eauto|]. apply unreferenced_same.
Qed.
(** Fields replaced by constants: every assignment that the result accepts is accepted by the original; conversely if the
    solver is right about the assignment. *)
Theorem C26_fields : forall p stateful legal known (c : csys p) s,
  let c' := substitute_bus_interaction_fields known c in
  (admissible stateful legal s c' -> admissible stateful legal s c /\ sends stateful s c' = sends stateful s c) /\
  ((forall b e v, In b (buses c) -> In e (fields b) -> known e = Some v -> eval s e = v) -> carries_over stateful legal c c' s) /\
  derived c' = derived c.
Proof. intros p stateful legal known c s. destruct (substitute_fields stateful legal known c s). split; auto. Qed.
(** Substituting the solver's assignments: every assignment that the result accepts gives one for the original by
    computing the substituted variables; conversely every assignment of which the solver's results are true is accepted. *)
Theorem C26_solver_based : forall p stateful legal a single (c c' : csys p) s, solver_based_optimization a single c = Some c' ->
  (admissible stateful legal s c' -> admissible stateful legal (undo a s) c /\ sends stateful s c' = sends stateful (undo a s) c) /\
  (forall v, ~ In v (map fst a) -> undo a s v = s v) /\
  ((forall v e, In (v, e) a -> s v = eval s e) -> (forall e k, single e = Some k -> eval s e = k) -> carries_over stateful legal c c' s).
Proof.
  intros p stateful legal a single c c' s E. destruct (solver_based stateful legal a single c c' s E) as [H1 H2]. split; auto. split; [intros v Hv; now apply undo_other|]. intros Ha Hs. apply H2; eauto.
Qed.
(** With the solver of this repository: after any history of operations that an assignment satisfies, ended by [solve], the
    pass does not panic and the assignment carries over; so it does for the replacement of fields by constants. *)
Definition single_value {p} (st : bsolver p) (e : gexp p) : option (F p) := try_to_single_value (range_query st e).
Lemma user_subst {p} v (e0 e : gexp p) : prime (Z.pos p) -> user_expr e0 -> user_expr e -> user_expr (subst_unknown v e0 e).
Proof. intros Hp [W0 O0] [W O]. split; [now apply wf_subst_unknown|]. intros w Hw. apply vars_subst_unknown in Hw. destruct Hw as [[Hw _]|[_ Hw]]; auto. Qed.
Theorem C26_with_solver : forall p sem h fuel (os : list (sop p)) l a st stateful legal c s, prime (Z.pos p) -> (2 < N.pos p <= 2 ^ 64)%N -> handler_sound sem h ->
  Forall op_ok os -> solver_run h fuel (os ++ [Solve]) base_new = (l ++ [Assignments a], Done st) ->
  Forall (fun b => Forall user_expr (fields b)) (buses c) -> Forall (op_holds sem s) os ->
  (exists c', solver_based_optimization a (single_value st) c = Some c' /\ carries_over stateful legal c c' s) /\
  carries_over stateful legal c (substitute_bus_interaction_fields (const_query st) c) s.
Proof.
  intros p sem h fuel os l a st stateful legal c s Hp HB Hh U E Hc Hs. assert (U' : Forall op_ok (os ++ [Solve])) by (apply Forall_app; split; auto; constructor; [exact I|constructor]). assert (Hs' : Forall (op_holds sem s) (os ++ [Solve])) by (apply Forall_app; split; auto; constructor; [exact I|constructor]).
  destruct (solver_state p sem h fuel (os ++ [Solve]) (l ++ [Assignments a]) st Hp HB Hh U' E) as [W S]. destruct (S s Hs') as (s' & X & Sat). destruct HB as [H2 H64].
  pose proof (solver_run_ok Hp H2 H64 sem h Hh fuel (os ++ [Solve]) base_new U' wfst_new) as T. rewrite E in T. destruct T as (T1 & T2 & _). destruct (T2 s (sat_new sem s) Hs') as [T3 _]. apply Forall_app in T1, T3. destruct T1 as [_ T1], T3 as [_ T3]. inversion_clear T1 as [|? ? Ua _]. inversion_clear T3 as [|? ? Ta _]. cbn [answer_user answer_true] in Ua, Ta. rewrite Forall_forall in Ua, Ta.
  split.
  - unfold solver_based_optimization. assert (Aff : forallb (fun ve => is_affine (snd ve)) a = true) by (apply forallb_forall; intros ve Hve; apply Ua; auto).
    destruct (solver_based_optimization a (single_value st) c) as [c'|] eqn:Ec; [|unfold solver_based_optimization in Ec; rewrite Aff in Ec; discriminate]. unfold solver_based_optimization in Ec. exists c'. split; auto. apply (proj2 (solver_based stateful legal a (single_value st) c c' s Ec)).
    + intros v e Hve. exact (Ta _ Hve).
    + intros b e k Hb He Hk. assert (Ue : user_expr e).
      { assert (G : forall (l : list (var * gexp p)) c1, incl l a -> Forall (fun b => Forall user_expr (fields b)) (buses c1) -> Forall (fun b => Forall user_expr (fields b)) (buses (fold_left (fun c ve => sys_subst (fst ve) (snd ve) c) l c1))).
        { induction l0 as [|ve l0 IH]; intros c1 Hi Hc1; cbn [fold_left]; auto. apply IH; [intros x Hx; apply Hi; now right|]. cbn [sys_subst buses]. apply Forall_map. eapply Forall_impl; [|exact Hc1]. intros b1 Hb1. assert (Uv : user_expr (snd ve)) by (apply (Ua ve); apply Hi; now left). unfold bmap, fields in *. cbn [bus_id mult payload]. inversion_clear Hb1 as [|? ? B1 B2]. inversion_clear B2 as [|? ? B3 B4]. constructor; [now apply user_subst|]. constructor; [now apply user_subst|]. apply Forall_map. eapply Forall_impl; [|exact B4]. intros x Hx. now apply user_subst. }
        specialize (G a c (incl_refl a) Hc). rewrite Forall_forall in G. specialize (G b Hb). rewrite Forall_forall in G. auto. }
      rewrite <- (user_eval s s' e X Ue). pose proof (range_query_ok sem s' st e Sat) as R. unfold single_value in Hk. exact (proj1 (Bridge.b_single _ _ _ Hk) R).
  - apply (proj2 (substitute_fields stateful legal (const_query st) c s)). intros b e v Hb He Hk. rewrite Forall_forall in Hc. specialize (Hc b Hb). rewrite Forall_forall in Hc. rewrite <- (user_eval s s' e X (Hc e He)). eapply const_query_ok; eauto.
Qed.

Section Moves.
  Context {p : positive}.
  Add Ring Fring : (F_ring_theory (p:=p)).
  Lemma moves (s : var -> F p) x (f : gexp p) : quad f = [] -> slope x f <> 0%F -> exists t, eval (upd s x t) f <> eval s f.
  Proof.
    intros Hq Sl. exists (s x + 1)%F. rewrite (slope_eval s x _ f Hq). replace (eval s f) with (eval (upd s x (s x)) f) by (apply eval_ext; intros v _; apply upd_id). rewrite (slope_eval s x (s x) f Hq). intros E. apply Sl.
    transitivity (eval (upd s x 0) f + slope x f * (s x + 1) - (eval (upd s x 0) f + slope x f * s x))%F; [ring|]. rewrite E. ring.
  Qed.
  Lemma mul_zero_any (a : F p) : (a * 0)%F = 0%F. Proof. ring. Qed.
End Moves.

(** C27: removing free variables keeps accepted assignments and what they send. *)
Theorem C27_carries_over : forall p stateful legal lookup (c c' : csys p) keep s, remove_free_variables stateful lookup c = Some (keep, c') -> carries_over stateful legal c c' s.
Proof. intros. eapply free_forward; eauto. Qed.
(** A removed variable occurs in one constraint only, and that is no stateful interaction.  Only constraints with a removed
    variable are removed; no other constraint has one. *)
Theorem C27_removed : forall p stateful lookup (c c' : csys p) keep, good_lookup lookup c -> remove_free_variables stateful lookup c = Some (keep, c') ->
  crefs c' = filter (fun r => forallb (fun v => existsb (veqb v) keep) (cref_vars r)) (crefs c) /\ incl keep (sys_vars c) /\ derived c' = derived c /\
  (forall x, In x (sys_vars c) -> ~ In x keep -> exists A r B, crefs c = A ++ r :: B /\ In x (cref_vars r) /\ (forall r', In r' (A ++ B) -> ~ In x (cref_vars r')) /\
     match r with RAlg _ => True | RBus b => forall k, bus_id b = from_number k -> stateful k = false end).
Proof.
  intros p stateful lookup c c' keep G H. destruct (remove_free_spec stateful lookup c c' keep H) as (K & Hk & Hc & Hr). split.
  - rewrite Hr. apply filter_ext_in. intros r Hin. destruct (kept_ref stateful keep r) eqn:E.
    + symmetry. apply forallb_forall. intros x Hx. apply in_vars. eapply kept_vars; eauto.
    + symmetry. destruct r as [e|b]; cbn [kept_ref cref_vars] in *; auto. apply orb_false_iff in E. apply E.
  - split; [rewrite Hk; intros x Hx; apply filter_In in Hx; destruct Hx as [Hx _]; exact (proj1 (vunique_iff _ _) Hx)|]. split; [now rewrite Hc|].
    intros x Hx Nx. apply (in_keep stateful lookup c keep x Hk Hx) in Nx. destruct (may_delete_spec stateful lookup c x G Hx Nx) as (A & r & B & E1 & E2 & E3 & D). exists A, r, B. repeat (split; auto). destruct r as [e|b]; auto. destruct D as [D _]. intros k Ek. unfold is_stateful in D. rewrite Ek in D. cbn in D. exact D.
Qed.
(** Conversely every assignment that the result accepts extends to the original, if the removed lookups can be answered
    (missing: see [C27_lookup_refuted]). *)
Theorem C27_extends_partial : forall p stateful legal lookup (c c' : csys p) keep s, prime (Z.pos p) -> good_lookup lookup c -> remove_free_variables stateful lookup c = Some (keep, c') ->
  (forall b x s', In b (buses c) -> In x (bus_vars b) -> ~ In x keep -> answerable legal x b s') ->
  admissible stateful legal s c' -> exists s', (forall v, s' v <> s v -> In v (sys_vars c) /\ ~ In v keep) /\ admissible stateful legal s' c /\ sends stateful s' c = sends stateful s c'.
Proof. intros. eapply free_backward; eauto. Qed.
(** They can if no lookup has a removed variable, ... *)
Theorem C27_extends_algebraic : forall p stateful legal lookup (c c' : csys p) keep s, prime (Z.pos p) -> good_lookup lookup c -> remove_free_variables stateful lookup c = Some (keep, c') ->
  buses c' = buses c -> admissible stateful legal s c' ->
  exists s', (forall v, s' v <> s v -> In v (sys_vars c) /\ ~ In v keep) /\ admissible stateful legal s' c /\ sends stateful s' c = sends stateful s c'.
Proof.
  intros p stateful legal lookup c c' keep s Hp G H Eb A. eapply C27_extends_partial; eauto. intros b x s' Hb Hx Nx. exfalso. apply Nx. destruct (C27_removed p stateful lookup c c' keep G H) as (Hr & _).
  assert (Hin : In (RBus b) (crefs c')) by (unfold crefs; rewrite in_app_iff, Eb; right; now apply in_map). rewrite Hr in Hin. apply filter_In in Hin. destruct Hin as [_ Hin]. rewrite forallb_forall in Hin. now apply in_vars, Hin.
Qed.
(** ... or if lookups have affine fields and a constant multiplicity and their tables are not empty for their constants. *)
Theorem C27_extends_affine : forall p stateful legal lookup (c c' : csys p) keep s, prime (Z.pos p) -> good_lookup lookup c -> remove_free_variables stateful lookup c = Some (keep, c') ->
  (forall b id, In b (buses c) -> bus_id b = from_number id -> stateful id = false ->
     (exists m, mult b = from_number m) /\ Forall (fun e => is_affine e = true /\ wf e) (payload b) /\ exists s0, legal id (map (eval s0) (payload b))) ->
  admissible stateful legal s c' -> exists s', (forall v, s' v <> s v -> In v (sys_vars c) /\ ~ In v keep) /\ admissible stateful legal s' c /\ sends stateful s' c = sends stateful s c'.
Proof.
  intros p stateful legal lookup c c' keep s Hp G H Hb A. destruct (remove_free_spec stateful lookup c c' keep H) as (K & Hk & Hc & Hr).
  assert (Ids : forall b, In b (buses c) -> exists id, bus_id b = from_number id). { intros b Hin. unfold bus_ids_known in K. rewrite forallb_forall in K. specialize (K b Hin). destruct (try_to_known (bus_id b)) as [id|] eqn:Ei; [|discriminate]. exists id. destruct (bus_id b) as [[|] [|] k]; cbn in Ei; try discriminate. injection Ei as <-. reflexivity. }
  eapply C27_extends_partial; eauto. intros b x s' Hin Hx Nx. destruct (Ids b Hin) as (id & Eid).
  assert (Hxs : In x (sys_vars c)) by (apply sys_vars_crefs; exists (RBus b); split; auto; unfold crefs; apply in_app_iff; right; now apply in_map).
  pose proof (proj1 (in_keep stateful lookup c keep x Hk Hxs) Nx) as M. destruct (may_delete_spec stateful lookup c x G Hxs M) as (P & r & Q & E1 & E2 & E3 & D).
  assert (Er : r = RBus b). { assert (Hin' : In (RBus b) (crefs c)) by (unfold crefs; apply in_app_iff; right; now apply in_map). rewrite E1 in Hin'. apply in_elt_inv in Hin'. destruct Hin' as [->|Hin']; auto. exfalso. apply (E3 _ Hin'). exact Hx. } subst r.
  destruct D as (Hs & (f & Hf) & _). assert (St : stateful id = false) by (unfold is_stateful in Hs; rewrite Eid in Hs; cbn in Hs; exact Hs). destruct (Hb b id Hin Eid St) as ((m & Em) & Haff & s0 & Hl). split; [exists s0; rewrite Eid, eval_from_number; exact Hl|].
  intros e He Hn. assert (Ef : e = f). { assert (X : In e (filter (fun e => match try_to_known e with None => true | _ => false end) (payload b))) by (apply filter_In; rewrite Hn; auto). rewrite Hf in X. destruct X as [<-|[]]; auto. } subst e.
  assert (Hxf : In x (vars f)). { unfold bus_vars, fields in Hx. rewrite Eid, Em in Hx. cbn in Hx. apply in_flat_map in Hx. destruct Hx as (e & He' & Hxe). destruct (try_to_known e) as [k|] eqn:Ek; [exfalso; destruct e as [[|] [|] kk]; cbn in Ek; try discriminate; destruct Hxe|]. assert (X : In e (filter (fun e => match try_to_known e with None => true | _ => false end) (payload b))) by (apply filter_In; rewrite Ek; auto). rewrite Hf in X. destruct X as [<-|[]]; auto. }
  rewrite Forall_forall in Haff. destruct (Haff f He) as [Af Wf]. assert (Hq : quad f = []) by (unfold is_affine, is_quadratic in Af; destruct (quad f); auto; discriminate). pose proof (proj1 (slope_vars x f Hq Wf) Hxf) as Sl.
  now apply moves.
Qed.

(** C28: the variables found are those connected to the given ones. *)
Theorem C28_reachable : forall p lookup init blocked (c : csys p), good_lookup lookup c ->
  exists l, reachable_variables_except_blocked lookup init blocked c = Some l /\ forall v, In v l <-> connected (constraint_vars c) init blocked v.
Proof. intros. now apply reachable_ok. Qed.
(** Removing disconnected columns keeps the constraints with variables connected to stateful interactions and these themselves. *)
Theorem C28_kept : forall p stateful lookup (c : csys p), good_lookup lookup c -> (forall b, In b (buses c) -> exists id, bus_id b = from_number id) ->
  exists keep c', remove_disconnected_columns stateful lookup c = Some (keep, c') /\ derived c' = derived c /\
    (forall v, In v keep <-> connected (constraint_vars c) (flat_map bus_vars (filter (fun b => stateful (cst (bus_id b))) (buses c))) [] v) /\
    (forall r, In r (crefs c') <-> In r (crefs c) /\ ((exists v, In v (cref_vars r) /\ In v keep) \/ exists b, r = RBus b /\ stateful (cst (bus_id b)) = true)).
Proof.
  intros p stateful lookup c G Hid. assert (K : bus_ids_known c = true) by (apply forallb_forall; intros b Hb; destruct (Hid b Hb) as (id & ->); reflexivity).
  assert (St : forall b, In b (buses c) -> is_stateful stateful b = stateful (cst (bus_id b))) by (intros b Hb; destruct (Hid b Hb) as (id & E); unfold is_stateful; rewrite E; reflexivity).
  destruct (disconnected_spec lookup stateful c G K) as (keep & E & Hk). exists keep. eexists. split; [exact E|]. split; [reflexivity|]. split.
  - intros v. rewrite Hk. unfold stateful_variables. erewrite filter_ext_in by exact St. reflexivity.
  - intros r. rewrite crefs_filter, filter_In. assert (X : forall l, existsb (fun v => existsb (veqb v) keep) l = true <-> exists v, In v l /\ In v keep). { intros l. rewrite existsb_exists. split; intros (v & Hv & Hin); exists v; split; auto; now apply in_vars. }
    split; intros [Hr H]; split; auto; destruct r as [e|b]; cbn [cref_vars] in *.
    + left. now apply X.
    + apply orb_true_iff in H. destruct H as [H|H]; [right; exists b; split; auto; rewrite <- St; auto|left; now apply X]. unfold crefs in Hr. apply in_app_iff in Hr. destruct Hr as [Hr|Hr]; apply in_map_iff in Hr; destruct Hr as (y & Ey & Hy); congruence.
    + destruct H as [H|(b & H & _)]; [now apply X|discriminate].
    + apply orb_true_iff. destruct H as [H|(b' & [= <-] & H)]; [right; now apply X|left]. rewrite St; auto. unfold crefs in Hr. apply in_app_iff in Hr. destruct Hr as [Hr|Hr]; apply in_map_iff in Hr; destruct Hr as (y & Ey & Hy); congruence.
Qed.
(** Every accepted assignment stays accepted and sends the same; and, unless nothing is accepted by the original, every
    assignment that the result accepts becomes accepted by the original by changing the variables that are not connected. *)
Theorem C28_carries_over : forall p stateful legal lookup (c c' : csys p) keep s, good_lookup lookup c -> remove_disconnected_columns stateful lookup c = Some (keep, c') -> carries_over stateful legal c c' s.
Proof. intros. eapply disconnected_forward; eauto. Qed.
Theorem C28_extends : forall p stateful legal lookup (c c' : csys p) keep s s0, good_lookup lookup c -> remove_disconnected_columns stateful lookup c = Some (keep, c') ->
  admissible stateful legal s0 c -> admissible stateful legal s c' ->
  exists s', (forall v, In v keep -> s' v = s v) /\ admissible stateful legal s' c /\ sends stateful s' c = sends stateful s c'.
Proof.
  intros p stateful legal lookup c c' keep s s0 G H A0 A. destruct (disconnected_extends lookup stateful legal c c' keep s s0 G H A0 A) as (s' & H1 & _ & H3). exists s'. split; auto. intros v Hv. apply H1.
  assert (K : bus_ids_known c = true) by (unfold remove_disconnected_columns in H; destruct (bus_ids_known c); [auto|discriminate]). destruct (disconnected_spec lookup stateful c G K) as (k & E & Hk). rewrite E in H. injection H as -> _. now apply Hk.
Qed.

(** C44: splitting gives each constraint with variables to exactly one part; parts share no variables and cannot be split
    further.  [sorted] is the sorted set of variables of the code. *)
Theorem C44_split : forall p sorted (c : csys p), (forall l v, In v (sorted l) <-> In v l) ->
  exists l, split_system (fun c => referencing (ics_from c)) sorted c = Some l /\ Permutation (flat_map crefs l) (filter has_vars (crefs c)) /\ ForallOrdPairs disjoint_vars l /\
    forall a, In a l -> derived a = [] /\ forall v w, In v (sys_vars a) -> In w (sys_vars a) -> connected (constraint_vars c) [v] [] w.
Proof. intros p sorted c Hs. apply split_ok; auto. apply C18_lookup_fresh. Qed.
(** An assignment is accepted exactly if all parts and the constraints without variables accept it; it sends the same. *)
Theorem C44_meaning : forall p stateful legal sorted (c : csys p) l s, (forall l v, In v (sorted l) <-> In v l) ->
  split_system (fun c => referencing (ics_from c)) sorted c = Some l ->
  (admissible stateful legal s c <-> Forall (admissible stateful legal s) l /\ admissible stateful legal s (constants_of c)) /\
  Permutation (sends stateful s c) (flat_map (sends stateful s) l ++ sends stateful s (constants_of c)).
Proof. intros. eapply split_meaning; eauto. apply C18_lookup_fresh. Qed.
(** ** Examples on BabyBear, and what does not hold *)
Definition fresh (c : csys babybear) : list var -> list (cref babybear) := referencing (ics_from c).
Definition first_bus (b : F babybear) : bool := feqb b (of_N 1).
(** Bus 2 contains pairs (x, 5 x). *)
Definition five_times (b : F babybear) (l : list (F babybear)) : Prop := match l with [x; y] => y = (of_N 5 * x)%F | _ => False end.
Definition s0 : var -> F babybear := fun _ => 0%F.
Lemma sys_solves_dec (s : var -> F babybear) c : forallb (fun e => feqb (eval s e) 0%F) (algs c) = true -> sys_solves s c.
Proof. intros H. apply Forall_forall. intros e He. rewrite forallb_forall in H. apply feqb_eq. now apply H. Qed.
Ltac five := apply Forall_forall; intros b Hb; cbn in Hb; repeat (destruct Hb as [<-|Hb]; [intros _ _; cbn; try (apply F_ext; vm_compute; reflexivity)|]); destruct Hb.

(** Two equal lookups, a repeated factor, a multiple of another constraint, a trivial constraint and two derived variables;
    what remains is one constraint, the stateful interactions, one lookup and one derived variable. *)
Definition pass_sys : csys babybear :=
  mkCS [gmul (v_ 0) (v_ 0); gzero; gmul (gmul (v_ 0) (v_ 1)) (n_ 3)]
       [mkBus (n_ 1) (n_ 1) [v_ 0; v_ 2]; mkBus (n_ 2) (n_ 1) [v_ 0; v_ 2]; mkBus (n_ 1) (n_ 1) [v_ 0; v_ 2]; mkBus (n_ 2) (n_ 1) [v_ 0; v_ 2]]
       [(Orig 2, CConst (of_N 7)); (Orig 9, CConst (of_N 7))].
Definition pass_s (v : var) : F babybear := match v with Orig 1 => of_N 3 | _ => 0%F end.
Lemma wf_pass : Forall wf (algs pass_sys).
Proof. repeat apply Forall_cons; try apply Forall_nil; repeat first [apply wf_gmul | apply wf_gsub | apply wf_from_var | apply wf_from_number | apply wf_gzero | apply prime_babybear]. Qed.
Example trivial_example : Forall wf (algs pass_sys) /\ exists c', trivial_simplifications first_bus pass_sys = Some c' /\ algs c' = [v_ 0] /\ length (buses c') = 3 /\ derived c' = [(Orig 2, CConst (of_N 7))] /\
  admissible first_bus five_times pass_s pass_sys /\ length (sends first_bus pass_s pass_sys) = 2.
Proof.
  split; [apply wf_pass|]. eexists. split; [vm_compute; reflexivity|]. split; [reflexivity|]. split; [reflexivity|]. split; [reflexivity|]. split; [split; [apply sys_solves_dec; vm_compute; reflexivity|five]|vm_compute; reflexivity].
Qed.

(** The solver finds [v0 = 3], [v3 = 4] and [v1 = v2]; the field [v0 + v3 * v0] becomes 15. *)
Definition sub_ops : list (sop babybear) := [AddAlgs [gsub (v_ 0) (n_ 3); gsub (v_ 1) (v_ 2); gsub (gadd (v_ 3) (v_ 0)) (n_ 7)]].
Definition sub_sys : csys babybear := mkCS [gmul (v_ 0) (gsub (gadd (v_ 1) (v_ 2)) (v_ 7)); gmul (v_ 5) (v_ 6)] [mkBus (n_ 1) (n_ 1) [gadd (v_ 0) (gmul (v_ 3) (v_ 0)); v_ 1]; mkBus (n_ 1) (v_ 5) [gadd (v_ 1) (v_ 2)]] [].
Definition sub_s (v : var) : F babybear := match v with Orig 0 => of_N 3 | Orig 1 => of_N 10 | Orig 2 => of_N 10 | Orig 3 => of_N 4 | _ => of_N 1 end.
Example solver_example : exists l a st c', Forall op_ok sub_ops /\ solver_run double_handler 100 (sub_ops ++ [Solve]) base_new = (l ++ [Assignments a], Done st) /\
  Forall (fun b => Forall user_expr (fields b)) (buses sub_sys) /\ Forall (op_holds double_sem sub_s) sub_ops /\
  solver_based_optimization a (single_value st) sub_sys = Some c' /\ length a = 3 /\ map payload (buses c') = [[n_ 15; v_ 1]; [gadd (v_ 1) (v_ 1)]].
Proof.
  assert (K : forall e : gexp babybear, wf e -> forallb is_orig (vars e) = true -> user_expr e) by (intros e A B; split; auto; rewrite forallb_forall in B; exact B).
  exists [Silent], [(Orig 0, n_ 3); (Orig 2, v_ 1); (Orig 3, n_ 4)]. do 2 eexists. split; [|split; [vm_compute; reflexivity|split; [|split; [|split; [vm_compute; reflexivity|split; reflexivity]]]]].
  - apply Forall_cons; [|apply Forall_nil]. repeat apply Forall_cons; try apply Forall_nil; (apply K; [|vm_compute; reflexivity]); repeat first [apply wf_gsub | apply wf_gadd | apply wf_gmul | apply wf_from_var | apply wf_from_number | apply prime_babybear].
  - repeat apply Forall_cons; try apply Forall_nil; (apply K; [|vm_compute; reflexivity]); repeat first [apply wf_gsub | apply wf_gadd | apply wf_gmul | apply wf_from_var | apply wf_from_number | apply prime_babybear].
  - repeat apply Forall_cons; try apply Forall_nil; apply F_ext; vm_compute; reflexivity.
Qed.
(** [v3] and [v5] are free. *)
Definition free_sys : csys babybear :=
  mkCS [gsub (v_ 3) (gmul (v_ 0) (v_ 1)); gmul (v_ 0) (gsub (v_ 0) (n_ 1))] [mkBus (n_ 1) (n_ 1) [v_ 0; v_ 1]; mkBus (n_ 2) (n_ 1) [n_ 4; gadd (v_ 5) (v_ 1)]; mkBus (n_ 2) (n_ 1) [v_ 0; v_ 1]] [].
Definition free_s (v : var) : F babybear := match v with Orig 0 => of_N 1 | Orig 1 => of_N 5 | _ => 0%F end.
Example free_example : exists c', remove_free_variables first_bus fresh free_sys = Some ([Orig 0; Orig 1], c') /\ good_lookup fresh free_sys /\ length (algs c') = 1 /\ length (buses c') = 2 /\
  (forall b id, In b (buses free_sys) -> bus_id b = from_number id -> first_bus id = false ->
     (exists m, mult b = from_number m) /\ Forall (fun e => is_affine e = true /\ wf e) (payload b) /\ exists s0, five_times id (map (eval s0) (payload b))) /\
  admissible first_bus five_times free_s c' /\ ~ admissible first_bus five_times free_s free_sys.
Proof.
  eexists. split; [vm_compute; reflexivity|]. split; [intros vs; exists []; rewrite app_nil_r; split; [apply C18_lookup_fresh|intros x []]|]. split; [reflexivity|]. split; [reflexivity|]. split; [|split].
  - intros b id Hb E Hs. cbn in Hb. destruct Hb as [<-|[<-|[<-|[]]]].
    + exfalso. injection E as <-. vm_compute in Hs. discriminate.
    + split; [eexists; reflexivity|]. split; [|exists (fun v => match v with Orig 5 => of_N 20 | _ => 0%F end); apply F_ext; vm_compute; reflexivity]. repeat apply Forall_cons; try apply Forall_nil; (split; [reflexivity|]); repeat first [apply wf_gadd | apply wf_from_var | apply wf_from_number | apply prime_babybear].
    + split; [eexists; reflexivity|]. split; [|exists s0; apply F_ext; vm_compute; reflexivity]. repeat apply Forall_cons; try apply Forall_nil; (split; [reflexivity|]); repeat first [apply wf_gadd | apply wf_from_var | apply wf_from_number | apply prime_babybear].
  - split; [apply sys_solves_dec; vm_compute; reflexivity|]. apply Forall_forall. intros b Hb. cbn in Hb. destruct Hb as [<-|[<-|[]]].
    + intros X. vm_compute in X. discriminate.
    + intros _ _. apply F_ext. vm_compute. reflexivity.
  - intros [H _]. apply Forall_inv in H. apply (f_equal (@val _)) in H. vm_compute in H. discriminate.
Qed.
(** A lookup of [(1, v0 * v1)], which says that the product is 5: [v0] is removed with it, and then [v1] may be zero. *)
Definition product_sys : csys babybear := mkCS [] [mkBus (n_ 1) (n_ 1) [v_ 1]; mkBus (n_ 2) (n_ 1) [n_ 1; gmul (v_ 0) (v_ 1)]] [].
Theorem C27_lookup_refuted : exists (c c' : csys babybear) keep s, good_lookup fresh c /\ remove_free_variables first_bus fresh c = Some (keep, c') /\
  admissible first_bus five_times s c' /\ (exists s1, admissible first_bus five_times s1 c) /\
  ~ exists s', (forall v, In v keep -> s' v = s v) /\ admissible first_bus five_times s' c.
Proof.
  exists product_sys. eexists. eexists. exists s0. split; [intros vs; exists []; rewrite app_nil_r; split; [apply C18_lookup_fresh|intros x []]|]. split; [vm_compute; reflexivity|]. split; [|split].
  - split; [constructor|]. apply Forall_forall. intros b Hb. cbn in Hb. destruct Hb as [<-|[]]. intros X. vm_compute in X. discriminate.
  - exists (fun v => match v with Orig 0 => of_N 1 | _ => of_N 5 end). split; [constructor|]. apply Forall_forall. intros b Hb. cbn in Hb. destruct Hb as [<-|[<-|[]]]; [intros X; vm_compute in X; discriminate|]. intros _ _. apply F_ext. vm_compute. reflexivity.
  - intros (s' & Hs & _ & H). unfold bus_values in H. cbn [product_sys buses map] in H. apply Forall_inv_tail, Forall_inv in H. assert (E1 : s' (Orig 1) = 0%F) by (apply Hs; now left).
    assert (X : eval s' (gmul (v_ 0) (v_ 1)) = (of_N 5 * of_N 1)%F). { assert (Y : five_times (eval s' (n_ 2)) [eval s' (n_ 1); eval s' (gmul (v_ 0) (v_ 1))]) by (apply H; [vm_compute; reflexivity|vm_compute; discriminate]). cbn [five_times] in Y. rewrite Y. f_equal. }
    rewrite eval_gmul in X. unfold v_ at 2 in X. rewrite eval_from_var, E1 in X. assert (Z : (eval s' (v_ 0) * 0)%F = 0%F) by apply mul_zero_any. rewrite Z in X. apply (f_equal (@val _)) in X. vm_compute in X. discriminate.
Qed.
(** [v2] and [v3] are not connected to the stateful interaction. *)
Definition disc_sys : csys babybear := mkCS [gsub (v_ 0) (v_ 1); gsub (gmul (v_ 2) (v_ 3)) (n_ 1)] [mkBus (n_ 1) (n_ 1) [v_ 0]; mkBus (n_ 2) (n_ 1) [v_ 1; v_ 4]] [].
Definition disc_s (v : var) : F babybear := match v with Orig 2 | Orig 3 => of_N 1 | _ => 0%F end.
Example disconnected_example : exists c' keep, remove_disconnected_columns first_bus fresh disc_sys = Some (keep, c') /\ length keep = 3 /\ length (algs c') = 1 /\ length (buses c') = 2 /\ good_lookup fresh disc_sys /\
  (forall b, In b (buses disc_sys) -> exists id, bus_id b = from_number id) /\ admissible first_bus five_times disc_s disc_sys /\ admissible first_bus five_times s0 c'.
Proof.
  do 2 eexists. split; [vm_compute; reflexivity|]. split; [reflexivity|]. split; [reflexivity|]. split; [reflexivity|]. split; [intros vs; exists []; rewrite app_nil_r; split; [apply C18_lookup_fresh|intros x []]|].
  split; [intros b Hb; cbn in Hb; destruct Hb as [<-|[<-|[]]]; eexists; reflexivity|]. split; (split; [apply sys_solves_dec; vm_compute; reflexivity|]); apply Forall_forall; intros b Hb; cbn in Hb; (destruct Hb as [<-|[<-|[]]]; [intros X; vm_compute in X; discriminate|]); intros _ _; apply F_ext; vm_compute; reflexivity.
Qed.
(** If the rest cannot be satisfied, the result accepts assignments although the original accepts none. *)
Theorem C28_unsatisfiable_refuted : exists (c c' : csys babybear) keep s, good_lookup fresh c /\ remove_disconnected_columns first_bus fresh c = Some (keep, c') /\
  admissible first_bus five_times s c' /\ ~ exists s', admissible first_bus five_times s' c.
Proof.
  exists (mkCS [v_ 2; gsub (v_ 2) (n_ 1)] [mkBus (n_ 1) (n_ 1) [v_ 0]] []). do 2 eexists. exists s0. split; [intros vs; exists []; rewrite app_nil_r; split; [apply C18_lookup_fresh|intros x []]|]. split; [vm_compute; reflexivity|]. split.
  - split; [constructor|]. apply Forall_forall. intros b Hb. cbn in Hb. destruct Hb as [<-|[]]. intros X. vm_compute in X. discriminate.
  - intros (s' & H & _). unfold sys_solves in H. cbn [algs] in H. pose proof (Forall_inv H) as H1. pose proof (Forall_inv (Forall_inv_tail H)) as H2. change (eval s' (gsub (v_ 2) (n_ 1)) = 0%F) in H2. change (eval s' (v_ 2) = 0%F) in H1. rewrite eval_gsub, H1 in H2. apply (f_equal (@val _)) in H2. vm_compute in H2. discriminate.
Qed.
Definition split_sys : csys babybear := mkCS [gsub (v_ 0) (v_ 1); gmul (v_ 2) (v_ 3); n_ 5; gsub (v_ 1) (n_ 1)] [mkBus (n_ 1) (n_ 1) [v_ 4; v_ 3]; mkBus (n_ 1) (n_ 1) [n_ 7]] [].
Example split_example : (forall l v, In v (vunique [] l) <-> In v l) /\ exists l, split_system (fun c => referencing (ics_from c)) (vunique []) split_sys = Some l /\ map (fun c => length (crefs c)) l = [2; 2].
Proof. split; [intros; apply vunique_iff|]. eexists. split; vm_compute; reflexivity. Qed.
(** The constraint [5 = 0] is in no part, so all parts may be satisfied by an assignment that the system does not accept, and the message
    [7] is sent by no part. *)
Theorem C44_constant_refuted : exists (c : csys babybear) l s, split_system (fun c => referencing (ics_from c)) (vunique []) c = Some l /\
  Forall (admissible first_bus five_times s) l /\ ~ admissible first_bus five_times s c /\ length (sends first_bus s c) = 1 /\ flat_map (sends first_bus s) l = [].
Proof.
  exists (mkCS [gsub (v_ 0) (v_ 1); n_ 5] [mkBus (n_ 1) (n_ 1) [n_ 7]] []). eexists. exists s0. split; [vm_compute; reflexivity|]. split; [|split; [|split; vm_compute; reflexivity]].
  - apply Forall_cons; [|apply Forall_nil]. split; [apply sys_solves_dec; vm_compute; reflexivity|constructor].
  - intros [H _]. unfold sys_solves in H. cbn [algs] in H. pose proof (Forall_inv (Forall_inv_tail H)) as H2. cbv beta in H2. apply (f_equal (@val _)) in H2. vm_compute in H2. discriminate.
Qed.
Print Assumptions C18_lookup_positions. Print Assumptions C18_lookup_fresh.
Print Assumptions C26_trivial_simplifications. Print Assumptions C26_panics. Print Assumptions C26_steps. Print Assumptions C26_fields. Print Assumptions C26_solver_based. Print Assumptions C26_with_solver.
Print Assumptions C27_carries_over. Print Assumptions C27_removed. Print Assumptions C27_extends_partial. Print Assumptions C27_extends_algebraic. Print Assumptions C27_extends_affine. Print Assumptions C27_lookup_refuted.
Print Assumptions C28_reachable. Print Assumptions C28_kept. Print Assumptions C28_carries_over. Print Assumptions C28_extends. Print Assumptions C28_unsatisfiable_refuted.
Print Assumptions C44_split. Print Assumptions C44_meaning. Print Assumptions C44_constant_refuted.
