(** One way to run the passes, to show what the theorems about runs say about concrete machines: hash maps are visited in
    order, and the rule-based passes stop after no round. *)
From Coq Require Import Arith NArith ZArith Bool List Lia Permutation.
From Verif Require Import Field RangeModel ExprModel ExprFacts SystemModel Spec BaseModel InlinerModel OvmModel OvmSpec SolveModel PassModel PassFacts PassSpec ExhModel RuleModel RuleSpec MemModel MemSpec SymModel LowModel LowSpec LowOvm PropsPass PipeModel PipeSpec.
Import ListNotations.
Local Open Scope nat_scope.

Section Run.
  Context {p : positive} (m : busmap) (bound : degree_bound) (fuel : nat).
  Local Notation ostate := (ostate p).
  Local Notation step := (step p).
  Definition bind {A B} (o : option A) (f : A -> option B) : option B := match o with Some a => f a | None => None end.
  Definition own_index (c : csys p) : list var -> list (cref p) := referencing (ics_from c).
  Definition without_redundant (c : csys p) : csys p := mkCS (filter (fun e => negb (is_redundant e)) (algs c)) (buses c) (derived c).
  Definition do_pass (k : kind) (x : ostate) : option ostate :=
    let c := o_sys x in let st := o_solver x in let n := o_next x in
    match k with
    | KSolver => match solver_solve (ovm_total m) fuel st with Done (a, st') => bind (solver_based_optimization a (single_value_of st') c) (fun c' => Some (mkO c' st' n)) | _ => None end
    | KTrivial => Some (mkO (remove_trivial_constraints c) st n)
    | KFree => bind (remove_free_variables (ovm_stateful m) own_index c) (fun kc => bind (retain_base (fst kc) st) (fun st' => Some (mkO (snd kc) st' n)))
    | KDisc => bind (remove_disconnected_columns (ovm_stateful m) own_index c) (fun kc => bind (retain_base (fst kc) st) (fun st' => Some (mkO (snd kc) st' n)))
    | KExh => bind (simplify_exhaustive own_index (fun l => l) (rcget st) c) (fun c' => Some (mkO c' st n))
    | KSimp => bind (trivial_simplifications (ovm_stateful m) c) (fun c' => Some (mkO c' st n))
    | KRule => bind (add_algs_base [] st) (fun st' => Some (mkO (without_redundant c) st' n))
    | KFields => Some (mkO (substitute_bus_interaction_fields (const_query st) c) st n)
    | KMem => bind (optimize_memory ask_different (fun l => l) c st (get_bus_id m BMemory))
                (fun r => match get_bus_id m BMemory with
                          | Some _ => bind (add_algs_base (snd (fst r)) (snd r)) (fun st' => Some (mkO (fst (fst r)) st' n))
                          | None => Some (mkO (fst (fst r)) (snd r) n)
                          end)
    | KLow => bind (low_degree (ovm_total m) (ovm_stateful m) (batch_make m) (rcget st) (range_query st) (db_identities bound) c)
                (fun c' => let new := skipn (length (algs c)) (algs c') in
                           if gexps_eqb (algs c') (algs c ++ new) then bind (add_algs_base new st) (fun st' => Some (mkO c' st' n)) else None)
    | KInline => bind (inline (below_degree_bound bound) (S (length (algs c))) (ics_from c)) (fun r => Some (mkO (isys (fst r)) st n))
    | KRuleLast => Some (mkO (without_redundant c) st n)
    | KRange => bind (optimize_range_constraints m bound fuel c) (fun c' => Some (mkO c' st n))
    end.
  Lemma own_index_good (c : csys p) : good_lookup own_index c.
  Proof. intros vs. exists []. split; [|intros r []]. rewrite app_nil_r. apply (C18_lookup_fresh p c vs). Qed.
  Lemma bind_some A B (o : option A) (f : A -> option B) b : bind o f = Some b -> exists a, o = Some a /\ f a = Some b.
  Proof. destruct o as [a|]; [|discriminate]. cbn. eauto. Qed.
  Lemma do_pass_sound k (x y : ostate) : do_pass k x = Some y -> pass m bound k x y.
  Proof.
    destruct x as [c st n]. destruct k; cbn [do_pass o_sys o_solver o_next]; intros H.
    - destruct (solver_solve (ovm_total m) fuel st) as [[a st']| | |] eqn:E; try discriminate. apply bind_some in H. destruct H as (c' & E1 & [= <-]). now apply (p_solver m bound fuel) with a.
    - injection H as <-. constructor.
    - apply bind_some in H. destruct H as ([kp c'] & E1 & H). apply bind_some in H. destruct H as (st' & E2 & [= <-]). apply (p_free m bound own_index c st n kp c' st'); auto using own_index_good.
    - apply bind_some in H. destruct H as ([kp c'] & E1 & H). apply bind_some in H. destruct H as (st' & E2 & [= <-]). apply (p_disc m bound own_index c st n kp c' st'); auto using own_index_good.
    - apply bind_some in H. destruct H as (c' & E1 & [= <-]). apply (p_exh m bound own_index (fun l => l)); auto using own_index_good. reflexivity.
    - apply bind_some in H. destruct H as (c' & E1 & [= <-]). now constructor.
    - apply bind_some in H. destruct H as (st' & E1 & [= <-]). apply (p_rule m bound c st n (without_redundant c) [] n st'); [|exact E1]. exists (initial_state (rcget st) c n). split; [constructor|]. auto.
    - injection H as <-. constructor.
    - apply bind_some in H. destruct H as ([[c' eqs] st1] & E1 & H). cbn [fst snd] in H.
      assert (K : exists st', y = mkO c' st' n /\ match get_bus_id m BMemory with Some _ => add_to_solver eqs st1 st' | None => st' = st1 end).
      { destruct (get_bus_id m BMemory); [|injection H as <-; eauto]. apply bind_some in H. destruct H as (st' & E2 & [= <-]). exists st'. auto. }
      destruct K as (st' & -> & K). apply (p_mem m bound (fun l => l) c st n c' eqs st1 st'); auto.
    - apply bind_some in H. destruct H as (c' & E1 & H). cbn zeta in H. destruct (gexps_eqb _ _) eqn:Eg; [|discriminate]. apply gexps_eqb_eq in Eg. apply bind_some in H. destruct H as (st' & E2 & [= <-]). now apply (p_low m bound c st n c' (skipn (length (algs c)) (algs c')) st').
    - apply bind_some in H. destruct H as ([c' defs] & E1 & [= <-]). now apply (p_inline m bound c st n c' defs).
    - injection H as <-. apply (p_rule_last m bound c st n (without_redundant c) [] n). exists (initial_state (rcget st) c n). split; [constructor|]. auto.
    - apply bind_some in H. destruct H as (c' & E1 & [= <-]). now apply (p_range m bound fuel).
  Qed.
  Fixpoint do_passes (ks : list kind) (x : ostate) : option (list step * ostate) :=
    match ks with
    | [] => Some ([], x)
    | k :: r => bind (do_pass k x) (fun y => bind (do_passes r y) (fun lz => Some ((k, x, y) :: fst lz, snd lz)))
    end.
  Lemma do_passes_sound ks : forall (x : ostate) l y, do_passes ks x = Some (l, y) -> run m bound x l y /\ kinds l = ks.
  Proof.
    induction ks as [|k ks IH]; intros x l y H; cbn [do_passes] in H; [injection H as <- <-; split; [constructor|reflexivity]|].
    apply bind_some in H. destruct H as (z & E1 & H). apply bind_some in H. destruct H as ([l' y'] & E2 & [= <- <-]). destruct (IH _ _ _ E2) as [R K]. split; [constructor; auto; now apply do_pass_sound|]. unfold kinds in *. cbn [map fst]. now rewrite K.
  Qed.
  (** The whole optimizer, with [rounds_] + 1 rounds of the loop. *)
  Definition order (rounds_ : nat) : list kind := concat (repeat loop_passes (S rounds_)) ++ last_passes.
  Definition do_optimize (rounds_ : nat) (sm : smach p) (n : nat) : option (list step * smach p * nat) :=
    bind (match get_bus_id m BExec with Some id => optimize_exec_bus sm id | None => Some sm end) (fun sm1 =>
    bind (to_system sm1) (fun c =>
    match solver_run (ovm_total m) fuel [AddAlgs (algs c); AddBuses (buses c)] base_new with
    | (_, Done st) => bind (do_passes (order rounds_) (mkO c st n)) (fun ly =>
        if final_checks m bound (o_sys (snd ly)) then bind (from_system (o_sys (snd ly))) (fun sm' => Some (fst ly, sm', o_next (snd ly))) else None)
    | _ => None
    end)).
  Lemma do_optimize_sound rounds_ (sm : smach p) n l sm' n' : do_optimize rounds_ sm n = Some (l, sm', n') -> optimizes m bound sm n l sm' n'.
  Proof.
    intros H. apply bind_some in H. destruct H as (sm1 & E1 & H). apply bind_some in H. destruct H as (c & E2 & H). destruct (solver_run _ fuel _ base_new) as [an [st| | |]] eqn:E3; try discriminate.
    apply bind_some in H. destruct H as ([l' y] & E4 & H). cbn [fst snd] in H. destruct (final_checks m bound (o_sys y)) eqn:E5; [|discriminate]. apply bind_some in H. destruct H as (sm2 & E6 & [= <- <- <-]).
    apply do_passes_sound in E4. destruct E4 as [R K]. exists sm1, c, (mkO c st n), y. split; [exact E1|]. split; auto. split; [exists fuel, an, st; auto|]. split; auto. split; [rewrite K; now exists rounds_|]. auto.
  Qed.

  (** ** A check that a step is sound *)
  Definition lookup_checked (g : var -> rc p) (b : busi (gexp p)) : bool :=
    match try_to_known (bus_id b) with
    | Some i => ovm_stateful m i || forallb (fun e => match try_to_known e with Some k => N.ltb (val k) 256 | None => match try_to_single_value (range_constraint g e) with None => true | Some _ => false end end) (payload b)
    | None => true
    end.
  Definition rule_checked (x y : ostate) : bool :=
    forallb (fun e => match quad e with [] => true | _ => false end) (algs (o_sys x)) && gexps_eqb (algs (o_sys y)) (algs (o_sys x)) &&
    Nat.eqb (length (buses (o_sys x))) (length (buses (o_sys y))) && forallb (fun bb => bus_eqb (fst bb) (snd bb)) (combine (buses (o_sys x)) (buses (o_sys y))).
  Definition step_checked (t : step) : bool :=
    match t with
    | (KFree, x, y) => forallb (fun b => existsb (bus_eqb b) (buses (o_sys y))) (buses (o_sys x))
    | (KLow, x, _) => forallb (lookup_checked (rcget (o_solver x))) (buses (o_sys x))
    | (KRule, x, y) | (KRuleLast, x, y) => rule_checked x y
    | _ => true
    end.
  Definition affine_only (l : list (gexp p)) : Prop := Forall (fun e => quad e = []) l.
  Lemma affine_gadd (a b : gexp p) : quad a = [] -> quad b = [] -> quad (gadd a b) = [].
  Proof. intros A B. unfold gadd. cbn [quad]. rewrite A, B. reflexivity. Qed.
  Lemma affine_subst_known v k (e : gexp p) : quad e = [] -> quad (subst_known v k e) = [].
  Proof. destruct e as [q l c]. cbn [quad]. intros ->. cbn [subst_known map]. destruct (if lcontains v l then _ else _) as [l' c']. reflexivity. Qed.
  Lemma affine_subst v w (e : gexp p) : quad e = [] -> quad (subst_unknown v (from_var w) e) = [].
  Proof.
    destruct e as [q l c]. cbn [quad]. intros ->. cbn [subst_unknown]. destruct (negb _); [reflexivity|]. cbn [map fold_left]. apply affine_gadd; [reflexivity|].
    assert (K : forall l (acc : gexp p), quad acc = [] -> quad (fold_left (fun acc wk => if veqb v (fst wk) then gadd acc (gscale (from_var w) (snd wk)) else acc) l acc) = []).
    { clear. induction l as [|[x k] l IH]; intros acc A; cbn [fold_left fst snd]; auto. apply IH. destruct (veqb v x); auto. apply affine_gadd; auto. unfold gscale. destruct (is_zero k); reflexivity. }
    now apply K.
  Qed.
  Lemma no_rules elt vlt (d : dstate (p:=p)) g : affine_only (algs (d_sys d)) -> forall r, ~ replace_rule (env_of (ovm_total m) g elt vlt d) r.
  Proof.
    intros E r H. set (E0 := env_of (ovm_total m) g elt vlt d) in *. unfold affine_only in E. rewrite Forall_forall in E.
    assert (K0 : forall e l r, quad e = [] -> ~ RuleModel.product E0 e l r). { intros e l r0 Q P. induction P as [e l r0 _ T|e l r0 P IH]; auto. destruct e as [q ll c]. cbn [quad] in Q. subst q. discriminate. }
    assert (K : forall e l r, ~ product_constraint E0 e l r) by (intros e l r0 [A P]; revert P; apply K0; apply E; exact A).
    assert (K1 : forall e x, has_summand E0 e x -> quad e = [] -> quad x = []).
    { induction 1 as [e h t [_ T]|e h t x [_ T] _ IH]; intros Q; destruct e as [q l c]; cbn [quad] in Q; subst q; destruct l as [|[v k] l]; try discriminate; injection T as <- <-; [reflexivity|]. apply IH. reflexivity. }
    destruct H as [H|[H|H]].
    - destruct H as (e & k1 & v1 & x1 & rc1 & k2 & v2 & x2 & rc2 & (_ & A & e1 & e2 & (x & Hs & P) & _) & _). apply (K0 x x1 e1); auto. apply (K1 e x Hs). apply E. exact A.
    - destruct H as (e1 & e2 & x & l & r0 & rl & rr & A & _). now apply K in A.
    - destruct H as (cs & res & vs & mm & ls & dd & rs & Z & _). destruct Z as (c0 & c1 & c2 & c3 & c4 & c5 & c6 & c7 & c8 & c9 & Z). decompose [ex and] Z. match goal with B : boolean_expression _ c9 _ |- _ => destruct B as (? & ? & ? & A & _) end. now apply K in A.
  Qed.
  Lemma action_algs a (d : dstate (p:=p)) : affine_only (algs (d_sys d)) -> affine_only (algs (d_sys (apply_action d a))).
  Proof.
    intros E. assert (S0 : forall v k, affine_only (algs (d_sys (set_const v k d)))).
    { intros v k. unfold set_const, sys_subst_known, affine_only. cbn [d_sys algs]. rewrite Forall_map. eapply Forall_impl; [|exact E]. intros e. apply affine_subst_known. }
    destruct a as [v r|v k|v w]; cbn [apply_action]; auto.
    - destruct (rc_eqb _ _); auto. destruct (try_to_single_value _); auto.
    - unfold sys_subst, affine_only. cbn [d_sys algs]. rewrite Forall_map. eapply Forall_impl; [|exact E]. intros e. apply affine_subst.
  Qed.
  Lemma rounds_algs g limit (d d' : dstate (p:=p)) : rounds (ovm_total m) g new_column limit d d' -> affine_only (algs (d_sys d)) -> affine_only (algs (d_sys d')).
  Proof.
    induction 1 as [|d d1 d2 R _ IH]; auto. intros E. apply IH. destruct R as (elt & vlt & acts & reps & xs & rs & d3 & _ & Rp & I & Pm & ->). assert (reps = []) as ->. { destruct reps as [|r reps]; auto. exfalso. inversion Rp as [|? ? X _]. now apply (no_rules elt vlt d g E r). }
    cbn [instantiate_all] in I. injection I as <- <-. apply Permutation_nil in Pm. subst rs. cbn [d_sys]. unfold batch_replace, select. cbn. clear - E. revert d E. induction acts as [|a acts IHa]; intros d E; cbn [fold_left]; auto. apply IHa. now apply action_algs.
  Qed.
  (** With affine constraints only, the rules do not replace any constraint. *)
  Lemma zero_tests_none limit (x : ostate) : affine_only (algs (o_sys x)) -> zero_tests_right m limit x.
  Proof.
    intros E d s R _ _ elt vlt cs res a mk ls ds rs Z. exfalso. apply (no_rules elt vlt d (rcget (o_solver x))) with (r := zero_replacement cs res a); [now apply (rounds_algs _ _ _ _ R)|]. right. right. exists cs, res, a, mk, ls, ds, rs. auto.
  Qed.
  Lemma rule_checked_affine (x y : ostate) : rule_checked x y = true -> affine_only (algs (o_sys x)).
  Proof. unfold rule_checked. rewrite !andb_true_iff. intros [[[H _] _] _]. rewrite forallb_forall in H. apply Forall_forall. intros e He. specialize (H e He). destruct e as [[|] l c]; [reflexivity|discriminate]. Qed.
  Lemma step_checked_tests (t : step) : step_checked t = true -> tests_right m bound t.
  Proof. destruct t as [[k x] y]. destruct k; cbn [step_checked tests_right]; auto; intros H; apply zero_tests_none; now apply rule_checked_affine in H. Qed.
  Lemma buses_same (l l' : list (busi (gexp p))) : length l = length l' -> forallb (fun bb => bus_eqb (fst bb) (snd bb)) (combine l l') = true -> l = l'.
  Proof.
    revert l'. induction l as [|b l IH]; intros [|b' l']; try discriminate; auto. intros L H. cbn [combine forallb fst snd] in H. apply andb_true_iff in H. destruct H as [H1 H2]. apply bus_eqb_eq in H1. subst b'. f_equal. apply IH; auto.
  Qed.
  Lemma step_checked_reversible program (t : step) : step_checked t = true -> (let '(k, x, y) := t in pass m bound k x y) -> reversible m program t.
  Proof.
    destruct t as [[k x] y].
    assert (Rl : rule_checked x y = true -> recoverable m program (o_sys x) (o_sys y)).
    { intros H. unfold rule_checked in H. rewrite !andb_true_iff in H. destruct H as [[[_ A] L] B]. apply Nat.eqb_eq in L. apply gexps_eqb_eq in A. pose proof (buses_same _ _ L B) as E. intros s' [Sv Ac]. exists s'. unfold admissible, sends, bus_values, sys_solves in *. rewrite E, <- A. auto. }
    destruct k; cbn [step_checked reversible]; auto.
    - intros H _ b v s Hb Nb. exfalso. apply Nb. rewrite forallb_forall in H. specialize (H b Hb). apply existsb_exists in H. destruct H as (b' & I & E). apply bus_eqb_eq in E. now subst b'.
    - intros H _ b i e Hb Ei Si He. rewrite forallb_forall in H. specialize (H b Hb). unfold lookup_checked in H. rewrite Ei, Si in H. cbn [orb] in H. rewrite forallb_forall in H. specialize (H e He). destruct (try_to_known e) as [k|]; [intros _; apply N.ltb_lt; exact H|]. destruct (try_to_single_value _); [discriminate|reflexivity].
  Qed.
  Lemma run_passes (x : ostate) l y : run m bound x l y -> Forall (fun t => let '(k, a, b) := t in pass m bound k a b) l.
  Proof. induction 1; constructor; auto. Qed.
  Lemma checked_all program (x : ostate) l y : run m bound x l y -> forallb step_checked l = true -> Forall (tests_right m bound) l /\ Forall (reversible m program) l.
  Proof.
    intros R H. rewrite forallb_forall in H. apply run_passes in R. rewrite Forall_forall in R. split; apply Forall_forall; intros t I; [apply step_checked_tests; auto|apply step_checked_reversible; [auto|exact (R t I)]].
  Qed.

  (** ** A check for the chronological order *)
  Definition op_eqb (a b : memop) : bool := match a, b with GetPrevious, GetPrevious | SetNew, SetNew => true | _, _ => false end.
  Definition classify (id : N) (b : busi (F p)) : option (memop * (F p * F p) * list (F p)) :=
    if feqb (bus_id b) (of_N id) then
      match payload b with
      | x :: y :: c => if feqb (mult b) 1 then Some (SetNew, (x, y), c) else if feqb (mult b) (fopp 1) then Some (GetPrevious, (x, y), c) else None
      | _ => None
      end
    else None.
  Lemma classify_iff id (b : busi (F p)) op addr ct : fopp 1%F <> (1 : F p)%F -> access id b op addr ct <-> classify id b = Some (op, addr, ct).
  Proof.
    intros Ne. unfold access, classify. destruct addr as [x y]. cbn [fst snd]. split.
    - intros (E1 & E2 & E3). rewrite E1, E3, (proj2 (feqb_eq _ _) eq_refl). destruct op; rewrite E2.
      + destruct (feqb (fopp 1%F) 1%F) eqn:E; [apply feqb_eq in E; contradiction|]. now rewrite (proj2 (feqb_eq _ _) eq_refl).
      + now rewrite (proj2 (feqb_eq _ _) eq_refl).
    - destruct (feqb (bus_id b) (of_N id)) eqn:E1; [|discriminate]. apply feqb_eq in E1. destruct (payload b) as [|x' [|y' c]]; try discriminate. destruct (feqb (mult b) 1) eqn:E2; [apply feqb_eq in E2; intros [= <- <- <- <-]; auto|]. destruct (feqb (mult b) (fopp 1)) eqn:E3; [|discriminate]. apply feqb_eq in E3. intros [= <- <- <- <-]. auto.
  Qed.
  Definition same_addr (a b : F p * F p) : bool := feqb (fst a) (fst b) && feqb (snd a) (snd b).
  (** The last access to the address in a list that begins with the latest. *)
  Fixpoint last_access (id : N) (addr : F p * F p) (l : list (busi (F p))) : option (memop * list (F p)) :=
    match l with
    | [] => None
    | b :: r => match classify id b with
                | Some (op, a, c) => if same_addr a addr then Some (op, c) else last_access id addr r
                | None => last_access id addr r
                end
    end.
  Fixpoint in_order_from (id : N) (before l : list (busi (F p))) : bool :=
    match l with
    | [] => true
    | b :: r => match classify id b with
                | Some (GetPrevious, a, c) =>
                  match last_access id a before with Some (op, c') => op_eqb op SetNew && forallb (fun xy => feqb (fst xy) (snd xy)) (combine c' c) && Nat.eqb (length c') (length c) | None => true end
                | _ => true
                end && in_order_from id (b :: before) r
    end.
  Lemma same_addr_eq a b : same_addr a b = true <-> a = b.
  Proof. destruct a, b. unfold same_addr. cbn [fst snd]. rewrite andb_true_iff, !feqb_eq. split; [intros [-> ->]; auto|intros [= -> ->]; auto]. Qed.
  Lemma last_access_spec id addr (l : list (busi (F p))) : fopp 1%F <> (1 : F p)%F -> forall i bi op ci, nth_error l i = Some bi -> access id bi op addr ci ->
    (forall k bk opk ck, k < i -> nth_error l k = Some bk -> ~ access id bk opk addr ck) -> last_access id addr l = Some (op, ci).
  Proof.
    intros Ne. induction l as [|b l IH]; intros [|i] bi op ci E A Bt; try discriminate; cbn [nth_error last_access] in *.
    - injection E as ->. apply (classify_iff id bi op addr ci Ne) in A. rewrite A. now rewrite (proj2 (same_addr_eq _ _) eq_refl).
    - assert (K : last_access id addr l = Some (op, ci)). { apply (IH i bi op ci E A). intros k bk opk ck L Ek. apply (Bt (S k) bk opk ck); auto. lia. }
      destruct (classify id b) as [[[op' a'] c']|] eqn:C; auto. destruct (same_addr a' addr) eqn:S0; auto. apply same_addr_eq in S0. subst a'. apply (classify_iff id b op' addr c' Ne) in C. exfalso. apply (Bt 0 b op' c'); auto. lia.
  Qed.
  Lemma list_same (c c' : list (F p)) : forallb (fun xy => feqb (fst xy) (snd xy)) (combine c c') = true -> length c = length c' -> c = c'.
  Proof. revert c'. induction c as [|x c IH]; intros [|y c']; try discriminate; auto. cbn. intros H L. apply andb_true_iff in H. destruct H as [H1 H2]. apply feqb_eq in H1. subst. f_equal. auto. Qed.
  Lemma in_order_spec id (l : list (busi (F p))) : fopp 1%F <> (1 : F p)%F -> forall before, in_order_from id before l = true ->
    forall j bj addr cj, nth_error l j = Some bj -> access id bj GetPrevious addr cj -> forall op ci, last_access id addr (rev (firstn j l) ++ before) = Some (op, ci) -> op = SetNew /\ ci = cj.
  Proof.
    intros Ne. induction l as [|b l IH]; intros before H [|j] bj addr cj E A op ci La; try discriminate; cbn [nth_error in_order_from firstn rev] in *; apply andb_true_iff in H; destruct H as [H1 H2].
    - injection E as ->. apply (classify_iff id bj _ addr cj Ne) in A. rewrite A in H1. cbn [app] in La. rewrite La in H1. rewrite !andb_true_iff in H1. destruct H1 as [[H1 H3] H4]. apply Nat.eqb_eq in H4. split; [destruct op; auto; discriminate|now apply list_same].
    - apply (IH (b :: before) H2 j bj addr cj E A op ci). rewrite <- app_assoc in La. exact La.
  Qed.
  Lemma rev_nth_firstn (l : list (busi (F p))) j i : i < j -> j <= length l -> nth_error (rev (firstn j l)) (j - S i) = nth_error l i.
  Proof.
    intros L1 L2. assert (Lf : length (firstn j l) = j) by (rewrite firstn_length; lia). destruct (nth_error l i) as [x|] eqn:E.
    - rewrite (nth_error_nth' _ x) by (rewrite rev_length; lia). rewrite rev_nth by lia. f_equal. rewrite Lf. replace (j - S (j - S i)) with i by lia. apply nth_error_nth. rewrite <- E. clear - L1. revert l j L1. induction i as [|i IH]; intros [|y l] [|j] L; try lia; cbn; auto. apply IH. lia.
    - apply nth_error_None in E. lia.
  Qed.
  Lemma chronological_check id (l : list (busi (F p))) : fopp 1%F <> (1 : F p)%F -> in_order_from id [] l = true -> chronological id l.
  Proof.
    intros Ne H i j bi bj op addr ci cj L Ei Ej Ai Aj Bt. pose proof (proj1 (nth_error_Some l j) ltac:(congruence)) as Lj. apply (in_order_spec id l Ne [] H j bj addr cj Ej Aj). rewrite app_nil_r.
    apply (last_access_spec id addr _ Ne (j - S i) bi op ci); auto; [rewrite rev_nth_firstn; auto; lia|]. intros k bk opk ck Lk Ek. apply (Bt (j - S k) bk opk ck); [lia|]. rewrite <- Ek. rewrite <- (rev_nth_firstn l j (j - S k)) by lia. f_equal. lia.
  Qed.
End Run.
