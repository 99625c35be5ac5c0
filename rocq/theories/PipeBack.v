(** Solutions after a run come from solutions before it. *)
From Coq Require Import Arith NArith ZArith Znumtheory Bool List Lia ZifyBool ZifyN ZifyNat Permutation.
From Verif Require Import Field RangeModel ExprModel ExprFacts ExprMore ExprWf SystemModel Spec Bridge BusModel IndexFacts BaseModel BaseFacts BaseSolve SolverSpec OvmModel OvmSpec OvmFacts OvmBatch InlinerModel PassModel PassSpec PassSem ExhModel MemModel MemSpec MemSem LowModel LowSpec LowOvm RuleModel RuleSpec RuleDrive
  PropsInliner PropsOvm PropsMem PropsPass PropsExh PropsLow PipeModel PipeSpec PipeSolver PipeStruct PipeStruct2 PipeFacts PipeForward.
Import ListNotations.
Local Open Scope nat_scope.

Section Back.
  Context {p : positive} (Hp : prime (Z.pos p)).
  Hypothesis Hbig : (2 ^ 26 < N.pos p)%N.
  Hypothesis Hword : (2 * N.pos p <= 2 ^ 64)%N.
  Context (m : busmap) (Hm : map_ok p m) (bound : degree_bound) (program : list (F p) -> Prop).
  Local Notation csys := (csys p).
  Local Notation ostate := (ostate p).
  Local Notation stateful := (ovm_stateful (p:=p) m).
  Local Notation table := (ovm_table m program).
  Local Notation admissible := (admissible stateful table).
  Local Notation sends := (sends stateful).
  Let Hsize : (2 ^ 26 < N.pos p <= 2 ^ 64)%N. Proof. split; [exact Hbig|]. lia. Qed.
  Let H2 : (2 < N.pos p)%N. Proof. pose proof Hbig. change (2 ^ 26)%N with 67108864%N in *. lia. Qed.

  Lemma b_free lookup c keep c' s' : good_lookup lookup c -> remove_free_variables stateful lookup c = Some (keep, c') -> lookups_answerable m program c c' ->
    admissible s' c' -> exists s, admissible s c /\ sends s c = sends s' c'.
  Proof.
    intros G H A Ad. destruct (C27_extends_partial p stateful table lookup c c' keep s' Hp G H) as (s & _ & A1 & A2); eauto. intros b x t Hb Hx Nx.
    destruct (C27_removed p stateful lookup c c' keep G H) as (Er & _). assert (K : forall r y, In r (crefs c') -> In y (cref_vars r) -> In y keep).
    { intros r y Hr Hy. rewrite Er in Hr. apply filter_In in Hr. destruct Hr as [_ Hr]. rewrite forallb_forall in Hr. now apply in_vars, Hr. }
    apply A; auto.
    - intros Hb'. apply Nx. apply (K (RBus b)); auto. unfold crefs. apply in_app_iff. right. now apply in_map.
    - intros Hx'. apply Nx. apply sys_vars_crefs in Hx'. destruct Hx' as (r & Hr & Hy). now apply (K r).
  Qed.
  (** All passes but the one on memory accesses. *)
  Lemma pass_back k (x y : ostate) s' s0 : pass m bound k x y -> k <> KMem -> reversible m program (k, x, y) -> good m program x s0 ->
    admissible s' (o_sys y) -> (k = KRange -> Forall (legal m) (sends s' (o_sys y))) -> exists s, admissible s (o_sys x) /\ sends s (o_sys x) = sends s' (o_sys y).
  Proof.
    intros H Nm R G A L. pose proof (g_over _ _ _ _ G) as O. destruct H; cbn [o_sys o_next o_solver reversible] in *.
    - destruct (C26_solver_based p stateful table a (single_value_of st') c c' s' H0) as [B _]. destruct (B A) as [B1 B2]. exists (undo a s'). split; auto.
    - destruct (C26_steps p stateful table c Hp (over_wf n c O)) as (T & _). destruct (T s') as [T1 T2]. exists s'. pose proof (proj2 T1 A) as A'. split; auto. symmetry. now apply T2.
    - now apply (b_free lookup c keep c' s').
    - destruct (C28_extends p stateful table lookup c c' keep s' s0 H H0 (proj1 (g_exec _ _ _ _ G)) A) as (s & _ & B1 & B2). exists s. auto.
    - destruct (C29_same p stateful table lookup in_order (rcget st) c c' H0 H H1) as (B & _). destruct (B s' A). exists s'. auto.
    - destruct (C26_trivial_simplifications p stateful table c c' Hp (over_wf n c O) H) as [T _]. destruct (T s') as [T1 T2]. exists s'. pose proof (proj2 T1 A) as A'. split; auto. symmetry. now apply T2.
    - now apply R.
    - destruct (C26_fields p stateful table (const_query st) c s') as (B & _). destruct (B A). exists s'. auto.
    - congruence.
    - destruct (C25_back p _ _ table _ (ovm_domain m) _ _ _ _ _ s' H (ovm_knows_tables Hbig m program Hm) (ovm_checks_ranges Hbig m program Hm) (ovm_checks_domain Hbig m program Hm) R A). exists s'. auto.
    - destruct (C10_inline p (below_degree_bound bound) c Hp) as (c1 & d1 & E & _ & _ & X & _). rewrite H in E. injection E as <- <-. destruct A as [Sv Ac]. destruct (X s' Sv) as (s & _ & Sv' & Eb & _). exists s. split; [split; [exact Sv'|now rewrite Eb]|]. unfold PassSpec.sends. now rewrite Eb.
    - now apply R.
    - destruct (over_users n c O) as [Ua Ub]. assert (Bt : Forall (bits_in_table m) (buses c)).
      { pose proof (good_legal m Hm program _ _ G) as L0. cbn [o_sys] in L0. unfold bus_values in L0. rewrite Forall_map in L0. eapply Forall_impl; [|exact L0]. intros b. now apply (legal_bits Hbig m Hm s0). }
      destruct (C22_equivalent p m bound fuel c c' Hp Hsize Hm Ua Ub Bt H) as (Q & E & _). pose proof (execution_legal m program Hm s' c' A (L eq_refl)) as L'. destruct (proj2 (Q s') (conj (proj1 A) L')) as [Sv Lc].
      exists s'. split; [split; auto|symmetry; apply (events_sends m Hm); apply E]. destruct (range_buses m bound fuel c c' H) as [_ B2]. destruct A as [_ Ac]. unfold bus_values in *. rewrite Forall_map in *. rewrite Forall_forall in *. intros b Hb. destruct (B2 b Hb) as [I|I]; auto. apply (check_acceptable m program Hm); auto.
  Qed.
  Lemma mem_back (x y : ostate) s' : pass m bound KMem x y -> admissible s' (o_sys y) -> admissible s' (o_sys x) /\ same_effect m s' (o_sys x) s' (o_sys y).
  Proof.
    intros H [Sv Ac]. inversion H as [| | | | | | | |ord c st n c' eqs st1 st' Ho Hopt _| | | |]; subst. cbn [o_sys] in *. destruct (get_bus_id m BMemory) as [id|] eqn:Gm; [|cbn [optimize_memory] in Hopt; injection Hopt as <- _ _; split; [split; auto|intros bus args; reflexivity]].
    destruct (C23_net p _ ask_different ord c st id c' eqs st1 s' H2 Ho Hopt Sv) as [Sc Nt]. split; [split; auto|now apply net_effect]. destruct (C23_structure p _ ask_different ord c st id c' eqs st1 H2 Ho Hopt) as (_ & _ & rm & Eb & Rm).
    unfold bus_values in *. rewrite Forall_map in *. rewrite Forall_forall in *. intros b Hb. apply In_nth_error in Hb. destruct Hb as (i & Hi). destruct (rm i) eqn:Er.
    - destruct (Rm i b Hi Er s') as [Ei _]. intros Ns. exfalso. rewrite Ei in Ns. apply get_bus_id_in in Gm. destruct (proj2 Hm _ _ Gm) as [Lid _]. rewrite (stateful_type m Hm (of_N id) BMemory) in Ns; [discriminate|]. rewrite val_of_N_small; auto.
    - apply Ac. rewrite Eb. apply in_map_iff. exists (i, b). split; auto. apply filter_In. split; [now apply MemFacts.enumerate_in|]. cbn [fst]. now rewrite Er.
  Qed.
  Lemma run_back (x : ostate) l y : run m bound x l y -> forall s' s0, ~ In KMem (kinds l) -> Forall (reversible m program) l -> Forall (tests_right m bound) l -> (N.of_nat (o_next y) <= N.pos p)%N -> good m program x s0 ->
    admissible s' (o_sys y) -> Forall (legal m) (sends s' (o_sys y)) -> exists s, admissible s (o_sys x) /\ sends s (o_sys x) = sends s' (o_sys y).
  Proof.
    induction 1 as [x|k x y l z H R IH]; intros s' s0 Nm Rv Tr Hn G A L; [exists s'; auto|]. inversion_clear Rv as [|? ? R1 R2]. inversion_clear Tr as [|? ? T1 T2]. pose proof (run_next Hbig Hword m bound _ _ _ R) as Ln.
    destruct (pass_forward Hp Hbig Hword m Hm bound program k x y s0 H ltac:(lia) T1 G) as (s1 & _ & _ & G1 & _). destruct (IH s' s1) as (s2 & A2 & E2); auto; [intros I; apply Nm; now right|].
    destruct (pass_back k x y s2 s0 H) as (s3 & A3 & E3); auto; [intros ->; apply Nm; now left|intros _; now rewrite E2|]. exists s3. split; auto. now rewrite E3.
  Qed.
  (** Memory accesses are only optimized before range constraints are. *)
  Lemma run_back_memory (x : ostate) l y : run m bound x l y -> forall s' s0, ~ In KRange (kinds l) -> Forall (reversible m program) l -> Forall (tests_right m bound) l -> (N.of_nat (o_next y) <= N.pos p)%N -> good m program x s0 ->
    admissible s' (o_sys y) -> exists s, admissible s (o_sys x) /\ same_effect m s (o_sys x) s' (o_sys y).
  Proof.
    induction 1 as [x|k x y l z H R IH]; intros s' s0 Nr Rv Tr Hn G A; [exists s'; split; auto; intros bus args; reflexivity|]. inversion_clear Rv as [|? ? R1 R2]. inversion_clear Tr as [|? ? T1 T2]. pose proof (run_next Hbig Hword m bound _ _ _ R) as Ln.
    destruct (pass_forward Hp Hbig Hword m Hm bound program k x y s0 H ltac:(lia) T1 G) as (s1 & _ & _ & G1 & _). destruct (IH s' s1) as (s2 & A2 & E2); auto; [intros I; apply Nr; now right|].
    assert (Dk : k = KMem \/ k <> KMem) by (destruct k; auto; right; discriminate). destruct Dk as [->|Nk].
    - destruct (mem_back x y s2 H A2) as [A3 E3]. exists s2. split; auto. now apply (effect_trans m s2 s2 s' (o_sys x) (o_sys y) (o_sys z)).
    - assert (B : exists s, admissible s (o_sys x) /\ sends s (o_sys x) = sends s2 (o_sys y)) by (apply (pass_back k x y s2 s0); auto; intros ->; exfalso; apply Nr; now left).
      destruct B as (s3 & A3 & E3). exists s3. split; auto. apply (effect_trans m s3 s2 s' (o_sys x) (o_sys y) (o_sys z)); auto. now apply sends_effect.
  Qed.
End Back.
