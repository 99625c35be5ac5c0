(** Histories of linearizer calls (linearizer.rs), as made by base.rs 132-187: linearizing an
    expression, replacing an expression by a variable, and applying assignments. *)
From Coq Require Import NArith ZArith Znumtheory Bool List Lia Ring.
From Coq Require Import ZifyBool ZifyN ZifyNat.
From Verif Require Import Field RangeModel RangeFacts ExprModel ExprFacts ExprWf ExprMore SolveModel SolveFacts
  SystemModel IndexFacts BoolLinModel BoolLinFacts.
Import ListNotations.
Local Open Scope F_scope.

(** linearizer.rs 28, 107, 161: the three operations that change the linearizer. *)
Inductive lin_op (p : positive) := LinExpr (e : gexp p) | LinVar (e : gexp p) | LinAssign (ss : list (var * gexp p)).
Arguments LinExpr {p}. Arguments LinVar {p}. Arguments LinAssign {p}.

Section LinHist.
  Context {p : positive}.
  Context (Hp : prime (Z.pos p)).
  Local Notation gexp := (gexp p).
  Add Ring Fring : (F_ring_theory (p:=p)).

  (** One operation; the output is the input expression paired with its replacement. *)
  Definition lin_do (o : lin_op p) (st : lin_state p) : list (gexp * gexp) * lin_state p :=
    match o with
    | LinExpr e => let '(x, st') := linearize e st in ([(e, x)], st')
    | LinVar e => let '(x, st') := substitute_by_var e st in ([(e, x)], st')
    | LinAssign ss => ([], mkLS (lin_apply ss (lmap st)) (lnext st) (lconstrs st))
    end.
  Fixpoint lin_run (os : list (lin_op p)) (st : lin_state p) : list (gexp * gexp) * lin_state p :=
    match os with
    | [] => ([], st)
    | o :: os' => let '(xs, st1) := lin_do o st in let '(ys, st2) := lin_run os' st1 in (xs ++ ys, st2)
    end.
  (** Initially (linearizer.rs 17-26, [Default]) nothing is known. *)
  Definition lin_init : lin_state p := mkLS [] 0 [].
  Definition op_exprs (o : lin_op p) : list gexp := match o with LinExpr e | LinVar e => [e] | LinAssign _ => [] end.
  Definition op_assigns (o : lin_op p) : list (var * gexp) := match o with LinAssign ss => ss | _ => [] end.

  (** Expressions use no variable of the linearizer that has not been introduced yet. *)
  Definition orig_only (e : gexp) : Prop := forall v, In v (vars e) -> match v with Orig _ => True | _ => False end.

  (** Inputs over original variables and well-formed assignments. *)
  Definition op_ok (o : lin_op p) : Prop :=
    match o with
    | LinExpr e | LinVar e => wf e /\ orig_only e
    | LinAssign _ => False
    end.
  Lemma orig_bounded nb nl e : orig_only e -> bounded nb nl e.
  Proof. intros H v Hv. specialize (H v Hv). destruct v; cbn; tauto. Qed.

  Lemma lin_run_ok os st xs st' : Forall op_ok os -> lm_ok 0 (lnext st) (lmap st) -> lin_run os st = (xs, st') ->
    exists new, lstep 0 st st' new /\ map fst xs = flat_map op_exprs os /\
      Forall (fun ex => aff 0 (lnext st') (snd ex)) xs /\
      forall s, lin_true s (lmap st') -> Forall (fun ex => eval s (snd ex) = eval s (fst ex)) xs.
  Proof.
    intros H. revert st xs. induction H as [|o os Ho Hos IH]; intros st xs HM; cbn [lin_run].
    - intros [= <- <-]. exists []. split; [now apply lstep_refl|]. auto.
    - assert (Hstep : forall e x st1, wf e -> orig_only e -> lin_do o st = ([(e, x)], st1) -> op_exprs o = [e] ->
        (exists new, lstep 0 st st1 new /\ aff 0 (lnext st1) x /\ forall s, lin_true s (lmap st1) -> eval s x = eval s e) ->
        (let '(xs, st1) := lin_do o st in let '(ys, st2) := lin_run os st1 in (xs ++ ys, st2)) = (xs, st') ->
        exists new, lstep 0 st st' new /\ map fst xs = flat_map op_exprs (o :: os) /\
          Forall (fun ex => aff 0 (lnext st') (snd ex)) xs /\
          forall s, lin_true s (lmap st') -> Forall (fun ex => eval s (snd ex) = eval s (fst ex)) xs).
      { intros e x st1 W V -> Ho' (n1 & L1 & A1 & V1). destruct (lin_run os st1) as [ys st2] eqn:E2. intros [= <- <-].
        destruct (IH _ _ (ls_ok _ _ _ _ L1) E2) as (n2 & L2 & M2 & A2 & V2). exists (n1 ++ n2).
        split; [exact (lstep_trans _ _ _ _ _ _ L1 L2)|]. split; [cbn [app map fst flat_map]; rewrite Ho', M2; reflexivity|]. split.
        - constructor; auto. cbn [snd]. eapply aff_mono; [| |exact A1]; [lia|exact (ls_le _ _ _ _ L2)].
        - intros s Hs. cbn [app]. constructor; auto. cbn [fst snd]. apply V1. exact (proj1 (proj1 (ls_iff _ _ _ _ L2 s) Hs)). }
      destruct o as [e|e|ss]; cbn [op_ok] in Ho; [| |tauto]; destruct Ho as [W V]; unfold lin_do in *.
      + destruct (linearize e st) as [x st1] eqn:E1. intros H. apply (Hstep e x st1); auto.
        apply (linearize_ok Hp 0 e st); auto. now apply orig_bounded.
      + destruct (substitute_by_var e st) as [x st1] eqn:E1. intros H. apply (Hstep e x st1); auto.
        apply (subst_by_var_ok Hp 0 st); auto. now apply orig_bounded.
  Qed.
  (** All the vocabulary of the statement: [xs] are pairs of an expression and its replacement. *)
  Theorem linearizer_history os xs st : Forall op_ok os -> lin_run os lin_init = (xs, st) ->
    map fst xs = flat_map op_exprs os /\
    Forall (fun ex => is_affine (snd ex) = true /\ wf (snd ex)) xs /\
    (forall s, exists s', (forall v, match v with Lin _ => True | _ => s' v = s v end) /\ Forall (fun c => eval s' c = 0) (lconstrs st)) /\
    (forall s, Forall (fun c => eval s c = 0) (lconstrs st) -> Forall (fun ex => eval s (snd ex) = eval s (fst ex)) xs).
  Proof.
    intros Hos E. assert (HM : lm_ok 0 (lnext lin_init) (lmap lin_init)) by constructor.
    destruct (lin_run_ok os lin_init xs st Hos HM E) as (new & L & M & A & V). split; auto. split; [|split].
    - eapply Forall_impl; [|exact A]. intros [e x] (W & Q & _). split; auto. cbn [snd] in *. destruct x as [q l c]. cbn in *. now subst.
    - intros s. destruct (ls_ext _ _ _ _ L s) as (s' & E' & L'); [constructor|].
      set (s2 := fun v => match v with Lin _ => s' v | _ => s v end). 
      exists s2. split; [intros [n|n|n]; cbn; auto|].
      assert (Es : forall v, old 0 (lnext st) v -> s2 v = s' v).
      { intros [n|n|n] Ho; cbn in *; auto; [|lia]. symmetry. apply E'. exact I. }
      rewrite (ls_new _ _ _ _ L). cbn [lin_init lconstrs app]. pose proof (proj2 (proj1 (ls_iff _ _ _ _ L s') L')) as H.
      pose proof (ls_good _ _ _ _ L) as Hg. rewrite Forall_forall in *. intros c Hc. rewrite <- (H c Hc). apply eval_ext.
      intros v Hv. apply Es. exact (proj2 (Hg c Hc) v Hv).
    - intros s Hs. apply V. apply (ls_iff _ _ _ _ L s). split; [constructor|]. rewrite (ls_new _ _ _ _ L) in Hs. exact Hs.
  Qed.

  (** Histories with assignments: what the linearizer knows stays true. *)
  Definition op_ok2 (o : lin_op p) : Prop :=
    match o with
    | LinExpr e | LinVar e => True
    | LinAssign ss => Forall (fun ve => ~ In (fst ve) (vars (snd ve))) ss
    end.
  Lemma subst_by_var_true (s : var -> F p) (e : gexp) st x st' : lin_true s (lmap st) -> substitute_by_var e st = (x, st') ->
    Forall (fun c => eval s c = 0) (lconstrs st') ->
    lin_true s (lmap st') /\ eval s x = eval s e /\ Forall (fun c => eval s c = 0) (lconstrs st).
  Proof.
    intros Hm. unfold substitute_by_var. destruct (try_subst_existing (lmap st) e) as [y|] eqn:E.
    - intros [= <- <-] H. split; auto. split; auto. eapply try_subst_existing_eval; eauto.
    - intros [= <- <-]. cbn [lconstrs lmap]. rewrite Forall_app. intros [H1 H2]. inversion_clear H2 as [|? ? H3 _].
      rewrite eval_gsub in H3. apply (proj1 (sub_eq_zero _ _)) in H3. split; [constructor; auto|]. split; auto.
  Qed.
  Lemma subst_by_var_constrs (e : gexp) st x st' : substitute_by_var e st = (x, st') -> exists l, lconstrs st' = lconstrs st ++ l.
  Proof.
    unfold substitute_by_var. destruct try_subst_existing; intros [= <- <-]; [exists []; now rewrite app_nil_r|eexists; reflexivity].
  Qed.
  Definition lin_back (s : var -> F p) (e : gexp) (f : lin_state p -> gexp * lin_state p) : Prop :=
    forall st x st', f st = (x, st') ->
     (exists l, lconstrs st' = lconstrs st ++ l) /\
     (lin_true s (lmap st) -> Forall (fun c => eval s c = 0) (lconstrs st') -> lin_true s (lmap st') /\ eval s x = eval s e).
  Lemma sbv_back s e : lin_back s e (substitute_by_var e).
  Proof.
    intros st x st' H. split; [eapply subst_by_var_constrs; eauto|]. intros H1 H2.
    destruct (subst_by_var_true s e st x st' H1 H H2) as (A & B & _). auto.
  Qed.
  Lemma linearize_back s e : lin_back s e (linearize e).
  Proof.
    induction e as [q l c IH] using gexp_ind'. intros st x st'. destruct q as [|ab0 q0].
    { cbn [linearize]. intros [= <- <-]. split; [exists []; now rewrite app_nil_r|auto]. }
    set (go := fix go (q : list (gexp * gexp)) (st : lin_state p) : list gexp * lin_state p :=
           match q with
           | [] => ([], st)
           | (a, b) :: t =>
             let '(a1, st1) := linearize a st in
             let '(a2, st2) := substitute_by_var a1 st1 in
             let '(b1, st3) := linearize b st2 in
             let '(b2, st4) := substitute_by_var b1 st3 in
             let '(x, st5) := substitute_by_var (gmul a2 b2) st4 in
             let '(xs, st6) := go t st5 in
             (x :: xs, st6)
           end).
    change (linearize (GE (ab0 :: q0) l c) st) with
      (let '(qs, st') := go (ab0 :: q0) st in (gsum (qs ++ lin_rest l c), st')).
    assert (G : forall q, Forall (fun ab => lin_back s (fst ab) (linearize (fst ab)) /\ lin_back s (snd ab) (linearize (snd ab))) q ->
      forall st xs st', go q st = (xs, st') ->
        (exists l, lconstrs st' = lconstrs st ++ l) /\
        (lin_true s (lmap st) -> Forall (fun c => eval s c = 0) (lconstrs st') ->
         lin_true s (lmap st') /\ fold_right (fun e acc => eval s e + acc) 0 xs = eq_sum s q)).
    { clear. induction 1 as [|[a b] t [Ha Hb] Ht IHt]; intros st xs st'; cbn [go].
      - intros [= <- <-]. split; [exists []; now rewrite app_nil_r|]. auto.
      - cbn [fst snd] in *.
        destruct (linearize a st) as [a1 st1] eqn:E1. destruct (Ha _ _ _ E1) as [(l1 & L1) V1].
        destruct (substitute_by_var a1 st1) as [a2 st2] eqn:E2. destruct (sbv_back s _ _ _ _ E2) as [(l2 & L2) V2].
        destruct (linearize b st2) as [b1 st3] eqn:E3. destruct (Hb _ _ _ E3) as [(l3 & L3) V3].
        destruct (substitute_by_var b1 st3) as [b2 st4] eqn:E4. destruct (sbv_back s _ _ _ _ E4) as [(l4 & L4) V4].
        destruct (substitute_by_var (gmul a2 b2) st4) as [x5 st5] eqn:E5. destruct (sbv_back s _ _ _ _ E5) as [(l5 & L5) V5].
        fold go. destruct (go t st5) as [xs' st6] eqn:E6. destruct (IHt _ _ _ E6) as [(l6 & L6) V6]. intros [= <- <-].
        rewrite L6, L5, L4, L3, L2, L1 in *. rewrite !Forall_app in *.
        split; [exists (((((l1 ++ l2) ++ l3) ++ l4) ++ l5) ++ l6); now rewrite !app_assoc|].
        intros T0 H.
        destruct V1 as [T1 V1]; [tauto|tauto|]. destruct V2 as [T2 V2]; [tauto|tauto|]. destruct V3 as [T3 V3]; [tauto|tauto|].
        destruct V4 as [T4 V4]; [tauto|tauto|]. destruct V5 as [T5 V5]; [tauto|tauto|]. destruct V6 as [T6 V6]; [tauto|tauto|].
        split; auto. cbn [fold_right]. rewrite V6, eq_sum_cons. cbn [fst snd]. f_equal.
        rewrite V5, eval_gmul, V4, V3, V2, V1. reflexivity. }
    specialize (G _ IH st). destruct (go (ab0 :: q0) st) as [xs st1]. intros [= <- <-]. destruct (G xs st1 eq_refl) as [L V].
    split; auto. intros T0 H. destruct (V T0 H) as [T1 V1]. split; auto.
    rewrite eval_gsum, fold_add_app, V1, eval_lin_rest, eval_GE. ring.
  Qed.
  Lemma lin_do_back (s : var -> F p) (o : lin_op p) st xs st' : op_ok2 o -> lin_do o st = (xs, st') ->
    (exists l, lconstrs st' = lconstrs st ++ l) /\
    (lin_true s (lmap st) -> Forall (fun c => eval s c = 0) (lconstrs st') -> Forall (fun ve => s (fst ve) = eval s (snd ve)) (op_assigns o) ->
     lin_true s (lmap st') /\ Forall (fun ex => eval s (snd ex) = eval s (fst ex)) xs).
  Proof.
    destruct o as [e|e|ss]; cbn [op_ok2 lin_do op_assigns]; intros Ho.
    - destruct (linearize e st) as [x st1] eqn:E. intros [= <- <-]. destruct (linearize_back s e _ _ _ E) as [L V]. split; auto.
      intros T H _. destruct (V T H). split; auto.
    - destruct (substitute_by_var e st) as [x st1] eqn:E. intros [= <- <-]. destruct (sbv_back s e _ _ _ E) as [L V]. split; auto.
      intros T H _. destruct (V T H). split; auto.
    - intros [= <- <-]. cbn [lconstrs lmap]. split; [exists []; now rewrite app_nil_r|]. intros T H HA. split; [|constructor].
      now apply lin_apply_true.
  Qed.
  Lemma lin_run_back (s : var -> F p) os : Forall op_ok2 os -> forall st xs st', lin_run os st = (xs, st') ->
    (exists l, lconstrs st' = lconstrs st ++ l) /\
    (lin_true s (lmap st) -> Forall (fun c => eval s c = 0) (lconstrs st') -> Forall (fun ve => s (fst ve) = eval s (snd ve)) (flat_map op_assigns os) ->
     lin_true s (lmap st') /\ Forall (fun ex => eval s (snd ex) = eval s (fst ex)) xs).
  Proof.
    induction 1 as [|o os Ho Hos IH]; intros st xs st'; cbn [lin_run].
    - intros [= <- <-]. split; [exists []; now rewrite app_nil_r|auto].
    - destruct (lin_do o st) as [ys st1] eqn:E1. destruct (lin_run os st1) as [zs st2] eqn:E2. intros [= <- <-].
      destruct (lin_do_back s o _ _ _ Ho E1) as [(l1 & L1) V1]. destruct (IH _ _ _ E2) as [(l2 & L2) V2].
      rewrite L2, L1 in *. split; [exists (l1 ++ l2); now rewrite app_assoc|]. cbn [flat_map]. rewrite !Forall_app in *.
      intros T [H1 H2] [A1 A2]. destruct V1 as [T1 V1]; auto. destruct V2 as [T2 V2]; auto.
  Qed.
  Theorem linearizer_history_assign os xs st (s : var -> F p) : Forall op_ok2 os -> lin_run os lin_init = (xs, st) ->
    Forall (fun c => eval s c = 0) (lconstrs st) ->
    Forall (fun ve => s (fst ve) = eval s (snd ve)) (flat_map op_assigns os) ->
    Forall (fun ex => eval s (snd ex) = eval s (fst ex)) xs /\
    (forall e x, try_linearize_existing (lmap st) e = Some x -> eval s x = eval s e) /\
    (forall e x, In x (internalized_versions (lmap st) e) -> eval s x = eval s e).
  Proof.
    intros H E H1 H2. destruct (lin_run_back s os H lin_init xs st E) as [_ V].
    destruct V as [T V]; auto. { constructor. }
    split; auto. split.
    - intros e x. now apply try_linearize_existing_eval.
    - intros e x. now apply internalized_eval.
  Qed.
End LinHist.
