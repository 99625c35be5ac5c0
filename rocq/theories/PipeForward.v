(** Every pass takes executions to executions. *)
From Coq Require Import Arith NArith ZArith Znumtheory Bool List Lia ZifyBool ZifyN ZifyNat Permutation.
From Verif Require Import Field RangeModel ExprModel ExprFacts ExprMore ExprWf SystemModel Spec Bridge BusModel IndexFacts BaseModel BaseFacts BaseSolve SolverSpec OvmModel OvmSpec OvmFacts OvmBatch InlinerModel PassModel PassSpec PassSem ExhModel MemModel MemSpec MemSem LowModel LowSpec LowOvm RuleModel RuleSpec RuleDrive
  PropsInliner PropsOvm PropsMem PropsPass PropsExh PropsLow PipeModel PipeSpec PipeSolver PipeStruct PipeStruct2 PipeFacts.
Import ListNotations.
Local Open Scope nat_scope.

(** The rule-based optimizer only issues columns. *)
Section Next.
  Context {p : positive} (handler : busi (rc p) -> busi (rc p)) (g : var -> rc p) (fresh : nat -> var) (limit : option nat).
  Lemma action_next (d : RuleModel.dstate (p:=p)) a : d_next (apply_action d a) = d_next d.
  Proof. destruct a as [v r|v k|v w]; cbn [apply_action]; auto. destruct (rc_eqb _ _); auto. destruct (try_to_single_value _); reflexivity. Qed.
  Lemma actions_next acts (d : RuleModel.dstate (p:=p)) : d_next (fold_left apply_action acts d) = d_next d.
  Proof. revert d. induction acts as [|a acts IH]; intros d; cbn [fold_left]; auto. rewrite IH. apply action_next. Qed.
  Lemma instantiate_next (d : RuleModel.dstate (p:=p)) r x d' : instantiate fresh d r = (x, d') -> d_next d <= d_next d'.
  Proof. destruct r as [old new|old num den new]; cbn [instantiate]; [intros [= _ <-]; auto|]. destruct (existsb _ _); intros [= _ <-]; cbn [d_next]; lia. Qed.
  Lemma instantiate_all_next reps : forall (d : RuleModel.dstate (p:=p)) xs d', instantiate_all fresh d reps = (xs, d') -> d_next d <= d_next d'.
  Proof.
    induction reps as [|r reps IH]; intros d xs d'; cbn [instantiate_all]; [intros [= _ <-]; auto|]. destruct (instantiate fresh d r) as [x d1] eqn:E. destruct (instantiate_all fresh d1 reps) as [ys d2] eqn:E2. intros [= _ <-].
    apply instantiate_next in E. apply IH in E2. lia.
  Qed.
  Lemma rounds_next d d' : rounds handler g fresh limit d d' -> d_next d <= d_next d'.
  Proof.
    induction 1 as [|d d' d'' H _ IH]; auto. destruct H as (elt & vlt & acts & reps & xs & rs & d1 & _ & _ & Hi & _ & ->). cbn [d_next] in IH. apply instantiate_all_next in Hi. rewrite actions_next in Hi. lia.
  Qed.
  Lemma rule_next (c : csys p) n c' asg n' : rule_based handler g fresh limit c n c' asg n' -> n <= n'.
  Proof. intros (d & R & _ & -> & _). apply rounds_next in R. exact R. Qed.
End Next.

Section Forward.
  Context {p : positive} (Hp : prime (Z.pos p)).
  Hypothesis Hbig : (2 ^ 26 < N.pos p)%N.
  Hypothesis Hword : (2 * N.pos p <= 2 ^ 64)%N.
  Context (m : busmap) (Hm : map_ok p m) (bound : degree_bound) (program : list (F p) -> Prop).
  Local Notation gexp := (gexp p).
  Add Ring Fw : (F_ring_theory (p:=p)).
  Local Notation csys := (csys p).
  Local Notation ostate := (ostate p).
  Local Notation stateful := (ovm_stateful (p:=p) m).
  Local Notation table := (ovm_table m program).
  Let Hsize : (2 ^ 26 < N.pos p <= 2 ^ 64)%N. Proof. split; [exact Hbig|]. lia. Qed.
  Let H2 : (2 < N.pos p)%N. Proof. pose proof Hbig. change (2 ^ 26)%N with 67108864%N in *. lia. Qed.
  Let Hsound : handler_sound (legal m) (ovm_total (p:=p) m) := ovm_total_sound Hbig m Hm.

  Record good (x : ostate) (s : var -> F p) : Prop := {
    g_over : system_over (o_next x) (o_sys x);
    g_knows : informed m (o_next x) (o_solver x) s;
    g_exec : execution m program s (o_sys x);
    g_computed : computed s (o_sys x) }.

  Lemma computed_values s (c : csys) : computed s c <-> Forall (fun vx => s (fst vx) = snd vx) (derived_values s c).
  Proof. unfold computed, derived_values. rewrite Forall_map. reflexivity. Qed.
  Lemma computed_same s (c c' : csys) : derived c' = derived c -> computed s c -> computed s c'.
  Proof. unfold computed. now intros ->. Qed.
  Lemma subst_eval (s : var -> F p) v e a : s v = eval s e -> eval s (subst_unknown v e a) = eval s a.
  Proof. intros H. rewrite eval_subst_unknown. now apply upd_same_value. Qed.
  Lemma subst_derived s (a : list (var * gexp)) (c : csys) : Forall (fun ve => s (fst ve) = eval s (snd ve)) a -> derived_values s (fold_left (fun c ve => sys_subst (fst ve) (snd ve) c) a c) = derived_values s c.
  Proof.
    intros H. revert c. induction H as [|[v e] a He _ IH]; intros c; cbn [fold_left]; auto. rewrite IH. cbn [fst snd] in *. rewrite subst_map. apply sys_map_derived. intros b. now apply subst_eval.
  Qed.
  Lemma over_fields n (c : csys) b e : system_over n c -> In b (buses c) -> In e (fields b) -> over n e.
  Proof. intros (_ & B & _) Hb He. rewrite Forall_forall in B. specialize (B b Hb). rewrite Forall_forall in B. auto. Qed.
  Lemma over_payload n (c : csys) b : system_over n c -> In b (buses c) -> Forall user_expr (payload b).
  Proof. intros O Hb. apply Forall_forall. intros e He. apply (over_user n), (over_fields n c b); auto. right. now right. Qed.
  Lemma over_wf n (c : csys) : system_over n c -> Forall wf (algs c).
  Proof. intros (A & _). eapply Forall_impl; [|exact A]. intros e [W _]. exact W. Qed.
  Lemma over_users n (c : csys) : system_over n c -> Forall user_expr (algs c) /\ Forall (fun b => Forall user_expr (fields b)) (buses c).
  Proof. intros (A & B & _). split; [eapply Forall_impl; [|exact A]; intros e; apply over_user|]. eapply Forall_impl; [|exact B]. intros b. apply Forall_impl. intros e. apply over_user. Qed.
  Lemma good_legal x s : good x s -> Forall (legal m) (bus_values s (o_sys x)).
  Proof. intros G. destruct (g_exec x s G) as (A & L & _). now apply (execution_legal m program Hm). Qed.
  Lemma over_count n (c : csys) : system_over n c -> length (dedup (sys_vars c)) <= n.
  Proof.
    intros O. rewrite <- (seq_length n 0), <- (map_length new_column). apply NoDup_incl_length.
    - generalize (sys_vars c). induction l as [|v l IH]; cbn [dedup]; [constructor|]. destruct (existsb (veqb v) l) eqn:E; auto. constructor; auto. intros I. apply (proj1 (dedup_in _ _)) in I.
      rewrite <- not_true_iff_false in E. apply E. apply existsb_exists. exists v. split; auto. apply veqb_refl.
    - intros v I. apply (proj1 (dedup_in _ _)) in I. apply (system_over_vars n) in I; auto. destruct I as (k & -> & L). apply in_map_iff. exists k. split; auto. apply in_seq. lia.
  Qed.

  Lemma subst_over n (a : list (var * gexp)) (c : csys) : Forall (fun ve => over n (snd ve)) a -> system_over n c -> system_over n (fold_left (fun c ve => sys_subst (fst ve) (snd ve) c) a c).
  Proof. intros H. revert c. induction H as [|[v e] a He _ IH]; intros c O; cbn [fold_left]; auto. apply IH. now apply (sys_subst_over Hp). Qed.

  (** One pass that keeps the number of columns and the assignment. *)
  Lemma good_carries c st n c' st' s : system_over n c' -> informed m n st' s -> carries_over stateful table c c' s -> computed s c' -> good (mkO c st n) s ->
    good (mkO c' st' n) s /\ same_effect m s c s c'.
  Proof. intros O I C D G. destruct (execution_carries m program s c c' C (g_exec _ _ G)) as [X E]. split; auto. constructor; auto. Qed.

  (** ** The passes *)
  Lemma f_solver fuel c st n a st' c' s : solver_solve (ovm_total m) fuel st = Done (a, st') -> solver_based_optimization a (single_value_of st') c = Some c' -> good (mkO c st n) s ->
    good (mkO c' st' n) s /\ same_effect m s c s c'.
  Proof.
    intros E H G. destruct (informed_solve Hp Hsize m Hm n fuel st a st' s E (g_knows _ _ G)) as [I' Fa].
    assert (Oa : Forall (fun ve => over n (snd ve)) a) by (eapply Forall_impl; [|exact Fa]; intros ve X; apply X).
    assert (Ta : Forall (fun ve => s (fst ve) = eval s (snd ve)) a) by (eapply Forall_impl; [|exact Fa]; intros ve X; apply X).
    pose proof (g_over _ _ G) as O. cbn [o_sys o_next] in O. apply (good_carries c st); auto.
    - now apply (solver_over Hp n a (single_value_of st') c).
    - apply (proj2 (solver_based stateful table a (single_value_of st') c c' s H)).
      + intros v e I. rewrite Forall_forall in Ta. exact (Ta _ I).
      + intros b e k Hb He Hk. apply (informed_single m n st'); auto. apply (over_user n), (over_fields n _ b e (subst_over n a c Oa O) Hb He).
    - apply computed_values. unfold solver_based_optimization in H. destruct (forallb _ _); [|discriminate]. injection H as <-. unfold derived_values. unfold replace_all_fields. cbn [derived]. fold (derived_values s (fold_left (fun c ve => sys_subst (fst ve) (snd ve) c) a c)).
      rewrite subst_derived by auto. apply computed_values, G.
  Qed.
  Lemma f_trivial c st n s : good (mkO c st n) s -> good (mkO (remove_trivial_constraints c) st n) s /\ same_effect m s c s (remove_trivial_constraints c).
  Proof.
    intros G. pose proof (g_over _ _ G) as O. cbn [o_sys o_next] in O. apply (good_carries c st); auto; [now apply trivial_over|apply G| |apply (computed_same s c); [reflexivity|apply G]].
    intros A. destruct (C26_steps p stateful table c Hp (over_wf n c O)) as (T & _). destruct (T s) as [T1 T2]. split; [now apply T1|now apply T2].
  Qed.
  Lemma f_free lookup c st n keep c' st' s : good_lookup lookup c -> remove_free_variables stateful lookup c = Some (keep, c') -> retain_base keep st = Some st' -> good (mkO c st n) s ->
    good (mkO c' st' n) s /\ same_effect m s c s c'.
  Proof.
    intros L H R G. pose proof (g_over _ _ G) as O. cbn [o_sys o_next] in O. apply (good_carries c st); auto.
    - now apply (free_over n stateful lookup c keep).
    - now apply (informed_retain m n keep st), G.
    - now apply (C27_carries_over p stateful table lookup c c' keep s).
    - apply (computed_same s c); [|apply G]. now apply (C27_removed p stateful lookup c c' keep).
  Qed.
  Lemma f_disc lookup c st n keep c' st' s : good_lookup lookup c -> remove_disconnected_columns stateful lookup c = Some (keep, c') -> retain_base keep st = Some st' -> good (mkO c st n) s ->
    good (mkO c' st' n) s /\ same_effect m s c s c'.
  Proof.
    intros L H R G. pose proof (g_over _ _ G) as O. cbn [o_sys o_next] in O. apply (good_carries c st); auto.
    - now apply (disc_over n stateful lookup c keep).
    - now apply (informed_retain m n keep st), G.
    - now apply (C28_carries_over p stateful table lookup c c' keep s).
    - apply (computed_same s c); [|apply G]. unfold remove_disconnected_columns in H. destruct (bus_ids_known c); [|discriminate]. destruct (reachable_variables _ _ _); [|discriminate]. now injection H as _ <-.
  Qed.
  Lemma f_exh lookup in_order c st n c' s : good_lookup lookup c -> (forall l e, In e (in_order l) <-> In e l) -> simplify_exhaustive lookup in_order (rcget st) c = Some c' -> good (mkO c st n) s ->
    good (mkO c' st n) s /\ same_effect m s c s c'.
  Proof.
    intros L Ho H G. pose proof (g_over _ _ G) as O. cbn [o_sys o_next] in O. destruct (C29_same p stateful table lookup in_order (rcget st) c c' Ho L H) as (_ & B & D & _). apply (good_carries c st); auto.
    - now apply (exh_over Hp n lookup in_order (rcget st) c).
    - apply G.
    - apply B. intros v Hv. apply (informed_rc m n st s v (g_knows _ _ G)). now apply (system_over_vars n c).
    - apply (computed_same s c); [exact D|apply G].
  Qed.
  Lemma f_simp c st n c' s : trivial_simplifications stateful c = Some c' -> good (mkO c st n) s -> good (mkO c' st n) s /\ same_effect m s c s c'.
  Proof.
    intros H G. pose proof (g_over _ _ G) as O. cbn [o_sys o_next] in O. destruct (C26_trivial_simplifications p stateful table c c' Hp (over_wf n c O) H) as [T D]. apply (good_carries c st); auto.
    - now apply (simp_over Hp n stateful c).
    - apply G.
    - intros A. destruct (T s) as [T1 T2]. split; [now apply T1|now apply T2].
    - unfold computed. rewrite D. pose proof (g_computed _ _ G) as Cm. unfold computed in Cm. cbn [o_sys] in Cm. rewrite Forall_forall in *. intros d Hd. apply filter_In in Hd. now apply Cm.
  Qed.
  Lemma f_fields c st n s : good (mkO c st n) s -> let c' := substitute_bus_interaction_fields (const_query st) c in good (mkO c' st n) s /\ same_effect m s c s c'.
  Proof.
    intros G c'. pose proof (g_over _ _ G) as O. cbn [o_sys o_next] in O. destruct (C26_fields p stateful table (const_query st) c s) as (_ & B & D). apply (good_carries c st); auto.
    - now apply fields_over.
    - apply G.
    - apply B. intros b e v Hb He Hk. apply (informed_const m n st); auto; [apply G|]. apply (over_user n). now apply (over_fields n c b).
    - apply (computed_same s c); [exact D|apply G].
  Qed.
  Lemma f_low c st n c' new st' s : low_degree (ovm_total m) stateful (batch_make m) (rcget st) (range_query st) (db_identities bound) c = Some c' -> algs c' = algs c ++ new -> add_to_solver new st st' ->
    good (mkO c st n) s -> good (mkO c' st' n) s /\ same_effect m s c s c'.
  Proof.
    intros H E A G. pose proof (g_over _ _ G) as O. cbn [o_sys o_next] in O. pose proof (low_over Hp n (ovm_total m) stateful m (rcget st) (range_query st) (db_identities bound) c c' O H) as O'.
    assert (C : carries_over stateful table c c' s).
    { apply (C25_carries_over p _ _ table _ _ _ _ _ _ s H (ovm_lookup_sound Hbig m program Hm) (ovm_checks_ranges Hbig m program Hm)). intros b e Hb He. pose proof (over_user n e (over_fields n c b e O Hb He)) as U.
      split; [now apply (informed_ranges m n st s e (g_knows _ _ G))|now apply (informed_range m n st s e (g_knows _ _ G))]. }
    apply (good_carries c st); auto.
    - assert (O2 : Forall (over n) (algs c')) by apply O'. rewrite E in O2. apply Forall_app in O2. apply (informed_add Hp Hsize m Hm n new st st' s); [apply O2| |exact A|apply G].
      destruct (C (proj1 (g_exec _ _ G))) as [[S' _] _]. unfold sys_solves in S'. rewrite E in S'. apply Forall_app in S'. apply S'.
    - apply (computed_same s c); [|apply G]. exact (proj1 (C25_degree p _ _ _ _ _ _ _ _ H)).
  Qed.
  Lemma f_inline c st n c' defs s : inline (below_degree_bound bound) (S (length (algs c))) (ics_from c) = Some (c', defs) -> good (mkO c st n) s -> good (mkO (isys c') st n) s /\ same_effect m s c s (isys c').
  Proof.
    intros H G. pose proof (g_over _ _ G) as O. cbn [o_sys o_next] in O. destruct (C10_inline p (below_degree_bound bound) c Hp) as (c1 & d1 & E & X1 & X2 & _). rewrite H in E. injection E as <- <-.
    destruct (g_exec _ _ G) as ((Sv & Ac) & L & T). cbn [o_sys] in *. destruct (proj1 (X1 s) Sv) as [Df Sv']. destruct (X2 s Df) as [Eb Ed].
    destruct (execution_same m program s s c (isys c')) as [Ex Ef]; [split; [exact Sv'|now rewrite Eb]|unfold sends; now rewrite Eb|exact (g_exec _ _ G)|].
    split; auto. constructor; cbn [o_sys o_solver o_next]; auto; [now apply (inline_over Hp n (below_degree_bound bound) c c' defs)|apply G|]. apply computed_values. rewrite Ed. apply computed_values, G.
  Qed.
  Lemma f_range fuel c st n c' s : optimize_range_constraints m bound fuel c = Some c' -> good (mkO c st n) s -> good (mkO c' st n) s /\ same_effect m s c s c'.
  Proof.
    intros H G. pose proof (g_over _ _ G) as O. cbn [o_sys o_next] in O. destruct (over_users n c O) as [Ua Ub]. pose proof (good_legal _ _ G) as L. destruct (g_exec _ _ G) as ((Sv & Ac) & _). cbn [o_sys] in *.
    assert (Bt : Forall (bits_in_table m) (buses c)). { unfold bus_values in L. rewrite Forall_map in L. eapply Forall_impl; [|exact L]. intros b. now apply (legal_bits Hbig m Hm s). }
    destruct (C22_equivalent p m bound fuel c c' Hp Hsize Hm Ua Ub Bt H) as (Q & E & D & _). destruct (proj1 (Q s) (conj Sv L)) as [Sv' L'].
    assert (A' : admissible stateful table s c').
    { split; auto. unfold bus_values in *. rewrite Forall_map in *. destruct (range_buses m bound fuel c c' H) as [B1 _]. rewrite Forall_forall in *. intros b Hb. destruct (B1 b Hb) as [I|I]; auto. apply (check_acceptable m program Hm); auto. }
    destruct (execution_same m program s s c c' A') as [Ex Ef]; [apply (events_sends m Hm); apply E|exact (g_exec _ _ G)|]. split; auto.
    constructor; cbn [o_sys o_solver o_next]; auto; [now apply (range_over Hp n m bound fuel c)|apply G|]. apply (computed_same s c); [exact D|apply G].
  Qed.
  Lemma f_mem ord c st n c' eqs st1 st' s : (forall l, Permutation (ord l) l) -> optimize_memory ask_different ord c st (get_bus_id m BMemory) = Some (c', eqs, st1) ->
    match get_bus_id m BMemory with Some _ => add_to_solver eqs st1 st' | None => st' = st1 end -> good (mkO c st n) s -> good (mkO c' st' n) s /\ same_effect m s c s c'.
  Proof.
    intros Ho H A G. pose proof (g_over _ _ G) as O. cbn [o_sys o_next] in O. destruct (mem_over n ask_different ord c st _ c' eqs st1 Ho O H) as [O' Oe].
    destruct (get_bus_id m BMemory) as [id|] eqn:Gm.
    2:{ subst st'. cbn [optimize_memory] in H. injection H as <- _ <-. split; auto. intros bus args. reflexivity. }
    assert (Tm : chronological id (bus_values s c)). { destruct (g_exec _ _ G) as (_ & _ & T). apply (in_time_values m Hm Hbig) in T. now apply T. }
    assert (MA : may_ask user_expr c) by (split; [intros k; apply user_number|intros b Hb; now apply (over_payload n c)]).
    assert (RA : right_about ask_different (fun st => informed m n st s) user_expr s). { intros st0 a b d st2 I0 Ua Ub Hd. apply (informed_different Hp Hsize m Hm n st0 st2 s a b d); auto. }
    destruct (C23_equations p _ ask_different (fun st => informed m n st s) user_expr ord c st id c' eqs st1 s H2 Ho MA RA (g_knows _ _ G) H Tm) as [Se Ss].
    pose proof (C23_chronological p _ ask_different (fun st => informed m n st s) user_expr ord c st id c' eqs st1 s H2 Ho MA RA (g_knows _ _ G) H Tm) as Tm'.
    destruct (g_exec _ _ G) as ((Sv & Ac) & L & T). cbn [o_sys] in *. destruct (C23_net p _ ask_different ord c st id c' eqs st1 s H2 Ho H (Ss Sv)) as [_ Nt].
    destruct (C23_structure p _ ask_different ord c st id c' eqs st1 H2 Ho H) as (Ea & Ed & rm & Eb & _).
    assert (Sub : incl (bus_values s c') (bus_values s c)).
    { unfold bus_values. rewrite Eb. intros v Hv. apply in_map_iff in Hv. destruct Hv as (b & <- & Hb). apply in_map. apply in_map_iff in Hb. destruct Hb as ([i b'] & <- & Hb). apply filter_In in Hb. destruct Hb as [Hb _]. apply MemFacts.enumerate_in in Hb. now apply nth_error_In in Hb. }
    split; [|now apply net_effect]. constructor; cbn [o_sys o_solver o_next]; auto.
    - destruct (optimize_pairs p _ ask_different (fun st => informed m n st s) user_expr (fun a b => eval s a <> eval s b) ord c st id c' eqs st1 H2 MA RA Ho (g_knows _ _ G) H) as (_ & _ & _ & _ & _ & _ & I1 & _).
      now apply (informed_add Hp Hsize m Hm n eqs st1).
    - split; [split; [now apply Ss|now apply incl_Forall with (2 := Ac)]|]. split.
      + apply incl_Forall with (2 := L). unfold sends. intros v Hv. apply filter_In in Hv. apply filter_In. split; [apply Sub|]; apply Hv.
      + apply (in_time_values m Hm Hbig). intros id' E'. rewrite Gm in E'. injection E' as <-. exact Tm'.
    - apply (computed_same s c); [exact Ed|apply G].
  Qed.
  Lemma new_column_inj i j : new_column i = new_column j -> i = j.
  Proof. unfold new_column. intros H. injection H as H. lia. Qed.
  Lemma scope_issued n n' (c : csys) v : n <= n' -> system_over n c -> scope new_column c n n' v -> issued n' v.
  Proof. intros L O [I|(k & K & ->)]; [apply (issued_le n); auto; now apply (system_over_vars n c)|]. exists k. split; [reflexivity|lia]. Qed.
  (** The rule-based optimizer may compute new columns. *)
  Lemma f_rule limit c st n c' asg n' s : (N.of_nat n' <= N.pos p)%N -> zero_tests_right m limit (mkO c st n) -> rule_based (ovm_total m) (rcget st) new_column limit c n c' asg n' -> good (mkO c st n) s ->
    exists s', agree n s s' /\ n <= n' /\ good (mkO c' st n') s' /\ same_effect m s c s' c' /\
      Forall (fun ve => over n' (gsub (from_var (fst ve)) (snd ve)) /\ s' (fst ve) = eval s' (snd ve)) asg.
  Proof.
    intros Hn Z R G. pose proof (g_over _ _ G) as O. cbn [o_sys o_next] in O. pose proof (g_knows _ _ G) as Kn. cbn [o_solver o_next] in Kn. destruct (g_exec _ _ G) as ((Sv & Ac) & L & T). cbn [o_sys] in *.
    destruct (rule_based_full Hp (ovm_total m) (rcget st) new_column limit (legal m) c c' n n' asg s) as (s' & Ag & Sv' & Eb & Ta & (extra & Ed & Ef & Fx) & Wa & Wb & Sc & Ln & Dv & Av); auto.
    - pose proof Hbig. change (2 ^ 26)%N with 67108864%N in *. lia.
    - exact new_column_inj.
    - intros k x Lk. now apply (informed_fresh m n st s k x Kn).
    - intros k Lk. split; [intros I; apply (issued_new n k Lk); now apply (system_over_vars n c)|]. intros x me I J. apply (issued_new n k Lk). destruct O as (_ & _ & D). rewrite Forall_forall in D. now apply (D _ I).
    - now apply (over_wf n).
    - intros b e Hb He. now apply (over_fields n c b e O Hb He).
    - pose proof (over_count n c O). pose proof (rule_next _ _ _ _ _ _ _ _ _ R). lia.
    - exact (good_legal _ _ G).
    - intros v I. apply (informed_rc m n st s v Kn). now apply (system_over_vars n c).
    - intros d s1 Rd _ S1 C1 _ _. exact (Z d s1 Rd S1 C1).
    - assert (Agn : agree n s s'). { intros v I. apply Ag. intros k Lk ->. now apply (issued_new n k Lk). }
      exists s'. split; auto. split; auto. destruct (execution_same m program s s' c c') as [Ex Efx]; [split; [exact Sv'|now rewrite Eb]|unfold sends; now rewrite Eb|exact (g_exec _ _ G)|].
      split; [|split; [exact Efx|]].
      + constructor; cbn [o_sys o_solver o_next]; auto; [|now apply (informed_later m n n' st s s')|].
        * split; [|split].
          -- apply Forall_forall. intros e He. split; [rewrite Forall_forall in Wa; now apply Wa|]. intros v Hv. apply (scope_issued n n' c); auto. apply Sc. unfold sys_vars. apply in_app_iff. left. apply in_flat_map. eauto.
          -- apply Forall_forall. intros b Hb. apply Forall_forall. intros e He. split; [now apply (Wb b)|]. intros v Hv. apply (scope_issued n n' c); auto. apply Sc. unfold sys_vars. apply in_app_iff. right. apply in_flat_map. exists b. split; auto. apply bus_vars_in. eauto.
          -- assert (Fs : map fst (derived c') = map fst (derived c) ++ map new_column (seq n (n' - n))).
             { rewrite <- Ef. transitivity (map fst (derived_values s' c')); [unfold derived_values; now rewrite map_map|]. rewrite Ed, map_app. f_equal. unfold derived_values. now rewrite map_map. }
             pose proof O as (_ & _ & D). rewrite Forall_forall in D. apply Forall_forall. intros [x me] I. cbn [fst snd]. split.
             ++ assert (Ix : In x (map fst (derived c'))) by (apply in_map_iff; exists (x, me); auto). rewrite Fs in Ix. apply in_app_iff in Ix. destruct Ix as [Ix|Ix]; apply in_map_iff in Ix.
                ** destruct Ix as (d & <- & Id). apply (issued_le n); auto. exact (proj1 (D d Id)).
                ** destruct Ix as (k & <- & Ik). apply in_seq in Ik. exists k. split; [reflexivity|lia].
             ++ intros v Hv. destruct (Dv x me v I Hv) as [Y|(x0 & m0 & I0 & Y)]; [now apply (scope_issued n n' c)|]. apply (issued_le n); auto. exact (proj2 (D _ I0) v Y).
        * apply computed_values. rewrite Ed. apply Forall_app. split; auto. pose proof (g_computed _ _ G) as Cm. cbn [o_sys] in Cm. apply computed_values in Cm. destruct O as (_ & _ & D). unfold derived_values in *. rewrite Forall_map in *.
          rewrite Forall_forall in *. intros d Id. cbn [fst snd]. rewrite (Agn (fst d)) by exact (proj1 (D d Id)). now apply (Cm d Id).
      + apply Forall_forall. intros [v e] I. cbn [fst snd]. destruct (Av v e I) as (Y1 & Y2 & Y3). split; [|now apply Ta]. apply over_gsub; [apply (over_var Hp); now apply (scope_issued n n' c)|]. split; auto. intros w Hw. apply (scope_issued n n' c); auto.
  Qed.

  (** ** A pass and a run *)
  Lemma pass_forward k (x y : ostate) s : pass m bound k x y -> (N.of_nat (o_next y) <= N.pos p)%N -> tests_right m bound (k, x, y) ->
    good x s -> exists s', agree (o_next x) s s' /\ o_next x <= o_next y /\ good y s' /\ same_effect m s (o_sys x) s' (o_sys y).
  Proof.
    intros H Hn Zt G.
    assert (K : forall c st n c' st', good (mkO c' st' n) s /\ same_effect m s c s c' -> exists s', agree (o_next (mkO c st n)) s s' /\ o_next (mkO c st n) <= o_next (mkO c' st' n) /\ good (mkO c' st' n) s' /\ same_effect m s (o_sys (mkO c st n)) s' (o_sys (mkO c' st' n))).
    { intros c st n c' st' [G' E]. exists s. split; [apply agree_refl|]. auto. }
    destruct H.
    - apply K. now apply (f_solver fuel c st n a).
    - apply K. now apply f_trivial.
    - apply K. now apply (f_free lookup c st n keep).
    - apply K. now apply (f_disc lookup c st n keep).
    - apply K. now apply (f_exh lookup in_order c st).
    - apply K. now apply (f_simp c st).
    - cbn [o_next o_sys o_solver] in *. destruct (f_rule None c st n c' asg n' s Hn Zt H G) as (s' & A & L & G' & E & Fa). exists s'. split; auto. split; auto. split; auto.
      constructor; cbn [o_sys o_solver o_next]; try apply G'. apply (informed_add Hp Hsize m Hm n' (map (fun ve => gsub (from_var (fst ve)) (snd ve)) asg) st st' s'); [| |assumption|apply G'].
      + rewrite Forall_map. eapply Forall_impl; [|exact Fa]. intros ve X. apply X.
      + rewrite Forall_map. eapply Forall_impl; [|exact Fa]. intros ve [_ X]. unfold solves. rewrite eval_gsub, eval_from_var, X. ring.
    - apply K. now apply f_fields.
    - apply K. now apply (f_mem ord c st n c' eqs st1).
    - apply K. now apply (f_low c st n c' new).
    - apply K. now apply (f_inline c st n c' defs).
    - cbn [o_next o_sys o_solver] in *. destruct (f_rule (Some (db_identities bound)) c st n c' asg n' s Hn Zt H G) as (s' & A & L & G' & E & _). exists s'. auto.
    - apply K. now apply (f_range fuel c st).
  Qed.
  (** The number of columns never shrinks. *)
  Lemma pass_next k (x y : ostate) : pass m bound k x y -> o_next x <= o_next y.
  Proof. intros H. destruct H; cbn [o_next]; auto; match goal with R : rule_based _ _ _ _ _ _ _ _ _ |- _ => exact (rule_next _ _ _ _ _ _ _ _ _ R) end. Qed.
  Lemma run_next (x : ostate) l y : run m bound x l y -> o_next x <= o_next y.
  Proof. induction 1 as [|k x y l z H _ IH]; auto. apply pass_next in H. lia. Qed.
  Lemma run_forward (x : ostate) l y s : run m bound x l y -> (N.of_nat (o_next y) <= N.pos p)%N ->
    Forall (tests_right m bound) l ->
    good x s -> exists s', agree (o_next x) s s' /\ good y s' /\ same_effect m s (o_sys x) s' (o_sys y).
  Proof.
    intros R. revert s. induction R as [|k x y l z H R IH]; intros s Hn Z G.
    - exists s. split; [apply agree_refl|]. split; auto. intros bus args. reflexivity.
    - pose proof (run_next _ _ _ R) as Ln. inversion_clear Z as [|? ? Z1 Z2]. destruct (pass_forward k x y s H ltac:(lia) Z1 G) as (s1 & A1 & L1 & G1 & E1).
      destruct (IH s1 Hn) as (s2 & A2 & G2 & E2); [exact Z2|exact G1|]. exists s2. split; [now apply (agree_trans (o_next x) (o_next y) s s1 s2)|]. split; auto. now apply (effect_trans m s s1 s2 (o_sys x) (o_sys y) (o_sys z)).
  Qed.
End Forward.
