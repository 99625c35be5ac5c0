(** The solver loop, the queries and whole histories of solver operations. *)
From Coq Require Import NArith ZArith Znumtheory Bool List Lia Ring Sorted.
From Coq Require Import ZifyBool ZifyN ZifyNat.
From Verif Require Import Field RangeModel RangeFacts ExprModel ExprFacts ExprWf ExprMore SolveModel SolveFacts
  SystemModel IndexFacts Spec Bridge BusModel BusFacts SplitterModel SplitterFacts BoolLinModel BoolLinFacts
  SearchModel SearchFacts BaseModel BaseFacts SolverSpec.
Import ListNotations.
Local Open Scope F_scope.

Section BaseSolve.
  Context {p : positive}.
  Context (Hp : prime (Z.pos p)) (H2 : (2 < N.pos p)%N) (H64 : (N.pos p <= 2 ^ 64)%N).
  Local Notation gexp := (gexp p).
  Local Notation rc := (rc p).
  Local Notation P := (N.pos p).
  Add Ring Fring : (F_ring_theory (p:=p)).
  Context (sem : busi (F p) -> Prop) (h : busi rc -> busi rc) (Hh : handler_sound sem h).
  Local Notation bsolver := (bsolver p).
  Local Notation sat := (sat sem).
  Local Notation step := (step sem).
  Local Notation rec_ok := (rec_ok sem).
  Local Notation step_trans := (BaseFacts.step_trans H2 H64 sem).
  Local Notation step_refl := (BaseFacts.step_refl H2 H64 sem).
  Local Notation step_clear := (BaseFacts.step_clear H2 H64 sem).
  Local Notation shrink_eq := (BaseFacts.shrink_eq H2 H64).
  Local Notation shrink_refl := (BaseFacts.shrink_refl H2 H64).
  Implicit Types (st : bsolver) (s : var -> F p) (e x : gexp).

  (** ** The recursion of range constraint updates through assignments stops at depth two. *)
  Definition fresh_total (rec : upd_fun (p:=p)) : Prop := forall z st, vm_get z (brc st) = None ->
    exists b st', rec z (from_mask 1) st = Some (b, st') /\ (forall w, vm_get w (brc st) = None -> w <> z -> vm_get w (brc st') = None).
  Lemma bool_not_single : try_to_single_value (conjunction unconstrained (from_mask 1) : rc) = None.
  Proof.
    destruct (try_to_single_value _) as [k|] eqn:E; auto. exfalso.
    assert (G : forall b : F p, b = 0 \/ b = 1 -> b = k).
    { intros b Hb. apply (b_single _ _ _ E). apply b_conjunction; [apply rc_allows_iff, unconstrained_allows|]. now apply bool_mask_allows. }
    assert (A : (0 : F p) = 1) by (rewrite (G 0), (G 1); auto). symmetry in A. now apply (one_neq_zero Hp) in A.
  Qed.
  Lemma update_fresh f : fresh_total (apply_rc_update (S f)).
  Proof.
    intros z st E. cbn [apply_rc_update]. assert (Er : rcget st z = unconstrained) by (unfold rcget; now rewrite E). rewrite Er.
    destruct (rc_eqb _ _); [eexists _, _; split; [reflexivity|auto]|]. rewrite bool_not_single. eexists _, _. split; [reflexivity|].
    intros w Hw N. cbn [set_cs set_rcs brc]. rewrite vm_get_insert. destruct (veqb_spec w z); congruence.
  Qed.
  Lemma wfst_fresh st n : wfst st -> (bnb st <= n)%N -> vm_get (Boolv n) (brc st) = None.
  Proof.
    intros W L. destruct (vm_get (Boolv n) (brc st)) as [r|] eqn:E; auto. apply vm_get_in in E. pose proof (w_rc _ W) as R.
    rewrite Forall_forall in R. apply R in E. cbn in E. lia.
  Qed.
  Lemma extract_with_total rec e st : fresh_total rec -> wfst st -> gb (bnb st) (bnl st) e -> extract_with rec e st <> None.
  Proof.
    intros HF W G. unfold extract_with. destruct (try_extract_boolean (bbm st) (bnb st) e) as [[[c [z|]]|] [m nb]] eqn:E; try discriminate.
    destruct (extract_step Hp H2 H64 _ _ _ _ _ _ _ _ G E) as (_ & _ & Hz & _). destruct (Hz z eq_refl) as [-> ->]. unfold add_rc_with.
    destruct (HF (Boolv (bnb st)) (clear_cache (set_bool m (bnb st + 1) st))) as (b & st' & -> & _); [|discriminate].
    cbn. apply wfst_fresh; auto. lia.
  Qed.
  Lemma extract_all_total rec es : forall st, rec_ok rec -> fresh_total rec -> wfst st -> Forall (gb (bnb st) (bnl st)) es -> extract_all_with rec es st <> None.
  Proof.
    induction es as [|e es IH]; intros st HR HF W G; cbn [extract_all_with]; [discriminate|]. inversion G as [|? ? Ge Ges]; subst.
    destruct (extract_with rec e st) as [[l st1]|] eqn:E; [|now apply extract_with_total in E].
    destruct (extract_with_ok Hp H2 H64 sem rec e st l st1 HR W Ge E) as [_ S1].
    specialize (IH st1 HR HF (t_wf _ _ _ _ _ S1)). destruct (extract_all_with rec es st1) as [[l2 st2]|]; [discriminate|]. intros _. apply IH; auto.
    eapply Forall_impl; [|exact Ges]. intros x. apply gb_mono; apply S1.
  Qed.
  Lemma add_algs_total rec es st : rec_ok rec -> fresh_total rec -> wfst st -> Forall (gb (bnb st) (bnl st)) es -> add_algs_with rec es st <> None.
  Proof.
    intros HR HF W G. unfold add_algs_with. pose proof (extract_all_total rec (filter not_redundant es) (clear_cache st) HR HF (wfst_clear _ W) (filter_Forall _ _ _ G)) as T.
    destruct (extract_all_with _ _ _) as [[es1 st1]|]; [|tauto]. destruct (linearize_all es1 st1). discriminate.
  Qed.
  Lemma add_bools_total rec zs : forall st, fresh_total rec -> NoDup zs -> Forall (fun z => vm_get z (brc st) = None) zs -> add_bools_with rec zs st <> None.
  Proof.
    induction zs as [|z zs IH]; intros st HF ND G; cbn [add_bools_with]; [discriminate|]. inversion G as [|? ? Gz Gzs]; subst. inversion ND as [|? ? Nz ND']; subst.
    unfold add_rc_with. destruct (HF z (clear_cache st) Gz) as (b & st' & -> & K). apply IH; auto. apply Forall_forall. intros w Hw. apply K; [|congruence].
    rewrite Forall_forall in Gzs. exact (Gzs w Hw).
  Qed.
  Lemma apply_assignment_total rec v e st : rec_ok rec -> fresh_total rec -> wfst st -> old (bnb st) (bnl st) v -> aff (bnb st) (bnl st) e -> ~ In v (vars e) ->
    apply_assignment_with rec v e st <> None.
  Proof.
    intros HR HF W O A Nv. unfold apply_assignment_with. pose proof (subst_step Hp H2 H64 sem v e st W (aff_gb _ _ _ A) Nv) as S1.
    set (st1 := set_cs (qcs_subst_unknown v e (bcs st)) st) in *. pose proof (t_wf _ _ _ _ _ S1) as W1.
    destruct (extract_refs (referencing (qsys (bcs st1)) [v]) (bbm st1) (bnb st1)) as [[cs zs] [m nb]] eqn:E1.
    assert (Gr : Forall (fun r => match r with RAlg x => gb (bnb st1) (bnl st1) x | RBus _ => True end) (referencing (qsys (bcs st1)) [v])).
    { apply Forall_forall. intros r Hr. apply referencing_sound in Hr. destruct r; auto. pose proof (w_algs _ W1) as G. rewrite Forall_forall in G. auto. }
    destruct (extract_refs_ok Hp H2 H64 _ _ _ _ _ _ _ _ Gr E1) as (L & Gc & Hz & ND & HS).
    pose proof (wfst_grow H2 H64 st1 m nb W1 L) as W2. set (st2 := set_bool m nb st1) in *.
    pose proof (add_bools_total rec zs st2 HF ND) as T. destruct (add_bools_with rec zs st2) as [st3|] eqn:E3.
    - assert (Oz : Forall (old (bnb st2) (bnl st2)) zs).
      { eapply Forall_impl; [|exact Hz]. intros z (n & -> & Hn). cbn. lia. }
      pose proof (add_bools_with_ok H2 H64 sem rec zs st2 st3 HR W2 Oz E3) as S3.
      assert (Gc3 : Forall (gb (bnb st3) (bnl st3)) cs).
      { eapply Forall_impl; [|exact Gc]. intros x. apply gb_mono; [exact (t_nb _ _ _ _ _ S3)|exact (t_nl _ _ _ _ _ S3)]. }
      pose proof (add_algs_total rec cs st3 HR HF (t_wf _ _ _ _ _ S3) Gc3) as T4. destruct (add_algs_with rec cs st3); [discriminate|tauto].
    - intros _. apply T; auto. eapply Forall_impl; [|exact Hz]. intros z (n & -> & Hn). cbn [st2 set_bool brc]. apply wfst_fresh; auto. lia.
  Qed.
  Lemma update_total f v r st : wfst st -> old (bnb st) (bnl st) v -> apply_rc_update (S (S f)) v r st <> None.
  Proof.
    intros W O. remember (S f) as g. cbn [apply_rc_update]. destruct (rc_eqb _ _); [discriminate|].
    pose proof (set_rc_ok H2 H64 sem v r st W O) as S1. set (st1 := set_rcs _ _) in *. destruct (try_to_single_value _) as [k|]; [|discriminate].
    pose proof (apply_assignment_total (apply_rc_update g) v (from_number k) st1 (apply_rc_update_ok Hp H2 H64 sem g)) as T.
    destruct (apply_assignment_with _ _ _ _); [discriminate|]. intros _. apply T; auto; [subst g; apply update_fresh|apply S1|apply aff_number].
  Qed.
  Lemma rc_update_total v r st : wfst st -> old (bnb st) (bnl st) v ->
    exists b st', rc_update v r st = Some (b, st') /\ step (fun s => rc_allows r (s v)) anyway st st'.
  Proof.
    intros W O. destruct (rc_update v r st) as [[b st']|] eqn:E; [|now apply update_total in E]. exists b, st'. split; auto.
    exact (rc_update_ok Hp H2 H64 sem v r st b st' W O E).
  Qed.
  Lemma add_rc_base_total v r st : wfst st -> old (bnb st) (bnl st) v ->
    exists st', add_rc_base v r st = Some st' /\ step (fun s => rc_allows r (s v)) anyway st st'.
  Proof.
    intros W O. destruct (add_rc_base v r st) as [st'|] eqn:E.
    - exists st'. split; auto. exact (add_rc_with_ok H2 H64 sem rc_update v r st st' (rc_update_ok Hp H2 H64 sem) W O E).
    - exfalso. unfold add_rc_base, add_rc_with in E. destruct (rc_update_total v r (clear_cache st) (wfst_clear _ W) O) as (b & st' & E' & _). rewrite E' in E. discriminate.
  Qed.
  Lemma add_algs_base_total es st : wfst st -> Forall (gb (bnb st) (bnl st)) es ->
    exists st', add_algs_base es st = Some st' /\ step (fun s => zeros s es) anyway st st'.
  Proof.
    intros W G. destruct (add_algs_base es st) as [st'|] eqn:E.
    - exists st'. split; auto. exact (add_algs_with_ok Hp H2 H64 sem rc_update es st st' (rc_update_ok Hp H2 H64 sem) W G E).
    - apply add_algs_total in E; auto; [tauto|apply rc_update_ok; auto|apply update_fresh].
  Qed.
  Lemma apply_assignment_base_total v e st : wfst st -> old (bnb st) (bnl st) v -> aff (bnb st) (bnl st) e -> ~ In v (vars e) ->
    exists st', apply_assignment v e st = Some st' /\ step (fun s => s v = eval s e) anyway st st'.
  Proof.
    intros W O A N. destruct (apply_assignment v e st) as [st'|] eqn:E.
    - exists st'. split; auto. exact (apply_assignment_with_ok Hp H2 H64 sem rc_update v e st st' (rc_update_ok Hp H2 H64 sem) W O A N E).
    - apply apply_assignment_total in E; auto; [tauto|apply rc_update_ok; auto|apply update_fresh].
  Qed.

  (** ** Bus interactions *)
  Lemma sbv_all_ok nb es : forall ls xs ls', lm_ok nb (lnext ls) (lmap ls) -> Forall (gb nb (lnext ls)) es -> sbv_all es ls = (xs, ls') ->
    exists new, lstep nb ls ls' new /\ Forall (aff nb (lnext ls')) xs /\ forall s, lin_true s (lmap ls') -> map (eval s) xs = map (eval s) es.
  Proof.
    induction es as [|e es IH]; intros ls xs ls' M G; cbn [sbv_all].
    - intros [= <- <-]. exists []. split; [now apply lstep_refl|]. split; [constructor|reflexivity].
    - inversion G as [|? ? Ge Ges]; subst. destruct (substitute_by_var e ls) as [x ls1] eqn:E1. destruct (sbv_all es ls1) as [ys ls2] eqn:E2. intros [= <- <-].
      destruct (subst_by_var_ok Hp nb ls e x ls1 M (proj1 Ge) (proj2 Ge) E1) as (n1 & L1 & A1 & V1). pose proof (ls_le _ _ _ _ L1) as Ll1.
      destruct (IH ls1 ys ls2 (ls_ok _ _ _ _ L1)) as (n2 & L2 & A2 & V2); auto.
      { eapply Forall_impl; [|exact Ges]. intros y. apply gb_mono; lia. }
      exists (n1 ++ n2). split; [eapply lstep_trans; eauto|]. pose proof (ls_le _ _ _ _ L2) as Ll2. split.
      + constructor; auto. eapply aff_mono; [| |exact A1]; lia.
      + intros s T. cbn [map]. f_equal; [|now apply V2]. apply V1. now apply (proj1 (ls_iff _ _ _ _ L2 s) T).
  Qed.
  Lemma linearize_bus_ok nb b ls b' ls' : lm_ok nb (lnext ls) (lmap ls) -> Forall (gb nb (lnext ls)) (fields b) -> linearize_bus b ls = (b', ls') ->
    exists new, lstep nb ls ls' new /\ Forall (gb nb (lnext ls')) (fields b') /\ forall s, lin_true s (lmap ls') -> bmap (eval s) b' = bmap (eval s) b.
  Proof.
    intros M G. unfold linearize_bus. unfold fields in G. inversion G as [|? ? G1 G']; subst. inversion G' as [|? ? G2 G3]; subst.
    destruct (substitute_by_var (bus_id b) ls) as [i ls1] eqn:E1. destruct (substitute_by_var (mult b) ls1) as [m ls2] eqn:E2.
    destruct (sbv_all (payload b) ls2) as [xs ls3] eqn:E3. intros [= <- <-].
    destruct (subst_by_var_ok Hp nb ls _ i ls1 M (proj1 G1) (proj2 G1) E1) as (n1 & L1 & A1 & V1). pose proof (ls_le _ _ _ _ L1) as Ll1.
    assert (G2' : gb nb (lnext ls1) (mult b)) by (eapply gb_mono; [| |exact G2]; lia).
    destruct (subst_by_var_ok Hp nb ls1 _ m ls2 (ls_ok _ _ _ _ L1) (proj1 G2') (proj2 G2') E2) as (n2 & L2 & A2 & V2). pose proof (ls_le _ _ _ _ L2) as Ll2.
    destruct (sbv_all_ok nb (payload b) ls2 xs ls3 (ls_ok _ _ _ _ L2)) as (n3 & L3 & A3 & V3); auto.
    { eapply Forall_impl; [|exact G3]. intros y. apply gb_mono; lia. }
    pose proof (ls_le _ _ _ _ L3) as Ll3. exists ((n1 ++ n2) ++ n3). split; [eapply lstep_trans; [eapply lstep_trans; eauto|eauto]|]. split.
    - unfold fields. cbn [bus_id mult payload]. constructor; [apply aff_gb; eapply aff_mono; [| |exact A1]; lia|].
      constructor; [apply aff_gb; eapply aff_mono; [| |exact A2]; lia|]. eapply Forall_impl; [|exact A3]. intros y. apply aff_gb.
    - intros s T. unfold bmap. cbn [bus_id mult payload]. pose proof (proj1 (proj1 (ls_iff _ _ _ _ L3 s) T)) as T2.
      pose proof (proj1 (proj1 (ls_iff _ _ _ _ L2 s) T2)) as T1. now rewrite (V1 s T1), (V2 s T2), (V3 s T).
  Qed.
  Lemma linearize_buses_ok nb bs : forall ls bs' ls', lm_ok nb (lnext ls) (lmap ls) -> Forall (fun b => Forall (gb nb (lnext ls)) (fields b)) bs -> linearize_buses bs ls = (bs', ls') ->
    exists new, lstep nb ls ls' new /\ Forall (fun b => Forall (gb nb (lnext ls')) (fields b)) bs' /\
      forall s, lin_true s (lmap ls') -> map (bmap (eval s)) bs' = map (bmap (eval s)) bs.
  Proof.
    induction bs as [|b bs IH]; intros ls bs' ls' M G; cbn [linearize_buses].
    - intros [= <- <-]. exists []. split; [now apply lstep_refl|]. split; [constructor|reflexivity].
    - inversion G as [|? ? Ge Ges]; subst. destruct (linearize_bus b ls) as [x ls1] eqn:E1. destruct (linearize_buses bs ls1) as [ys ls2] eqn:E2. intros [= <- <-].
      destruct (linearize_bus_ok nb b ls x ls1 M Ge E1) as (n1 & L1 & A1 & V1). pose proof (ls_le _ _ _ _ L1) as Ll1.
      destruct (IH ls1 ys ls2 (ls_ok _ _ _ _ L1)) as (n2 & L2 & A2 & V2); auto.
      { eapply Forall_impl; [|exact Ges]. intros y. apply Forall_impl. intros z. apply gb_mono; lia. }
      exists (n1 ++ n2). split; [eapply lstep_trans; eauto|]. pose proof (ls_le _ _ _ _ L2) as Ll2. split.
      + constructor; auto. eapply Forall_impl; [|exact A1]. intros z. apply gb_mono; lia.
      + intros s T. cbn [map]. f_equal; [|now apply V2]. apply V1. now apply (proj1 (ls_iff _ _ _ _ L2 s) T).
  Qed.
  Definition buses_hold (s : var -> F p) (bs : list (busi gexp)) : Prop := Forall sem (map (bmap (eval s)) bs).
  Definition buses_gb nb nl (bs : list (busi gexp)) : Prop := Forall (fun b => Forall (gb nb nl) (fields b)) bs.
  Lemma buses_frame nb nl bs : buses_gb nb nl bs -> forall s s', ext nb nl s s' -> buses_hold s bs -> buses_hold s' bs.
  Proof.
    intros G s s' X H. unfold buses_hold in *. erewrite map_ext_in; [exact H|]. intros b Hb. cbn beta. apply (bmap_eval_ext nb nl); auto.
    unfold buses_gb in G. rewrite Forall_forall in G. auto.
  Qed.
  Lemma put_buses_ok bs st : wfst st -> buses_gb (bnb st) (bnl st) bs -> step (fun s => buses_hold s bs) anyway st (set_cs (qcs_add_buses bs (bcs st)) st).
  Proof.
    intros W G. constructor; try (cbn; lia); [|now apply shrink_eq|].
    - destruct W. constructor; cbn [set_cs bcs brc bpend bcache bnb bnl blm]; auto.
      + now apply qcs_add_buses_ok.
      + rewrite isys_add_buses. cbn [cs_extend algs]. rewrite app_nil_r. auto.
      + rewrite isys_add_buses. cbn [cs_extend buses]. apply Forall_app. auto.
    - intros s S Z. exists s. split; [apply ext_refl|]. split; [|exact I]. destruct S. constructor; cbn [set_cs bcs brc bpend bcache bnb bnl blm]; auto.
      + rewrite isys_add_buses. cbn [cs_extend algs]. rewrite app_nil_r. auto.
      + rewrite isys_add_buses. cbn [cs_extend buses]. apply Forall_app. split; auto. unfold buses_hold in Z. now rewrite Forall_map in Z.
  Qed.
  Lemma add_buses_total bs st : wfst st -> buses_gb (bnb st) (bnl st) bs ->
    exists st', add_buses_base bs st = Some st' /\ step (fun s => buses_hold s bs) anyway st st'.
  Proof.
    intros W G. unfold add_buses_base. destruct (linearize_buses bs (mkLS (blm (clear_cache st)) (bnl (clear_cache st)) [])) as [bs1 ls] eqn:E.
    cbn [clear_cache set_cache blm bnl] in E.
    destruct (linearize_buses_ok (bnb st) bs (mkLS (blm st) (bnl st) []) bs1 ls (w_lm _ W) G E) as (new & L & A & V).
    pose proof (ls_le _ _ _ _ L) as Ll. cbn [lnext] in Ll. pose proof (ls_new _ _ _ _ L) as En. cbn [lconstrs app] in En.
    pose proof (wfst_clear _ W) as W0. set (st0 := clear_cache st) in *.
    pose proof (wfst_set_lin H2 H64 st0 (lmap ls) (lnext ls) W0 Ll (ls_ok _ _ _ _ L)) as W1. set (st1 := set_lin (lmap ls) (lnext ls) st0) in *.
    assert (S1 : step (fun s => buses_hold s bs) (fun s => zeros s (lconstrs ls) /\ buses_hold s bs1) st0 st1).
    { constructor; auto; try (cbn; lia); [now apply shrink_eq|]. intros s S Hb.
      destruct (ls_ext _ _ _ _ L s (s_lm _ _ _ S)) as (s' & X & T). cbn [lnext] in X. exists s'. split; [exact X|].
      pose proof (sat_ext sem s s' st0 W0 X S) as S'. split; [destruct S'; constructor; auto|]. split; [rewrite En; apply (ls_iff _ _ _ _ L s'); auto|].
      unfold buses_hold. rewrite (V s' T). exact (buses_frame _ _ _ G s s' X Hb). }
    assert (Gl : Forall (gb (bnb st1) (bnl st1)) (lconstrs ls)) by (rewrite En; exact (ls_good _ _ _ _ L)).
    destruct (add_algs_base_total (lconstrs ls) st1 W1 Gl) as (st2 & -> & S2).
    eexists. split; [reflexivity|]. eapply step_trans; [apply step_clear; auto|]. eapply step_trans; [exact S1|].
    assert (G1 : buses_gb (bnb st1) (bnl st1) bs1) by exact A.
    eapply step_trans; [apply (step_frame sem (fun s => buses_hold s bs1) _ _ _ _ (buses_frame _ _ _ G1) S2)|].
    eapply step_weaken; [| |apply put_buses_ok]; cbn beta; [tauto|auto|apply S2|].
    eapply Forall_impl; [|exact G1]. intros b. apply Forall_impl. intros x. apply gb_mono; apply S2.
  Qed.

  (** ** Solving constraints one by one *)
  Definition effect_old nb nl (ef : effect p) : Prop := match ef with Assign v _ | SetRC v _ => old nb nl v | CondAssign _ _ _ _ _ => False end.
  Definition effects_true (s : var -> F p) (l : list (effect p)) : Prop := Forall (effect_true s) l.
  Lemma effects_frame nb nl l : Forall (effect_old nb nl) l -> forall s s', ext nb nl s s' -> effects_true s l -> effects_true s' l.
  Proof.
    intros O s s' X H. unfold effects_true in *. rewrite Forall_forall in *. intros ef Hef. specialize (O _ Hef). specialize (H _ Hef).
    destruct ef; cbn in *; try tauto; now rewrite X.
  Qed.
  Lemma apply_effects_ok l : forall prog st, wfst st -> Forall (effect_old (bnb st) (bnl st)) l ->
    exists b st', apply_effects l prog st = Done (b, st') /\ step (fun s => effects_true s l) anyway st st'.
  Proof.
    induction l as [|ef l IH]; intros prog st W O; cbn [apply_effects].
    - eexists _, _. split; [reflexivity|]. eapply step_weaken; [| |apply (step_refl anyway _ W)]; unfold anyway; auto.
    - inversion O as [|? ? Oe Ol]; subst.
      assert (H : exists b st1, apply_effect ef st = Done (b, st1) /\ step (fun s => effect_true s ef) anyway st st1).
      { destruct ef as [v k|v r|]; cbn in Oe; [| |tauto]; cbn [apply_effect].
        - destruct (apply_assignment_base_total v (from_number k) st W Oe (aff_number _ _ k)) as (st1 & -> & S1); [intros []|].
          eexists _, _. split; [reflexivity|]. eapply step_weaken; [| |exact S1]; auto. intros s _ E. cbn [effect_true] in E. cbn beta. now rewrite E, eval_from_number.
        - destruct (rc_update_total v r st W Oe) as (b & st1 & -> & S1). exists b, st1. split; auto. }
      destruct H as (b & st1 & -> & S1). destruct (IH (prog || b) st1 (t_wf _ _ _ _ _ S1)) as (b' & st' & -> & S2).
      { eapply Forall_impl; [|exact Ol]. intros [v ?|v ?|]; cbn [effect_old]; auto; apply old_mono; apply S1. }
      exists b', st'. split; auto. eapply step_trans; [|exact S2].
      eapply step_weaken; [| |apply (step_frame sem (fun s => effects_true s l) _ _ _ _ (effects_frame _ _ _ Ol) S1)]; cbn beta; [|tauto].
      intros s _ H. inversion H; subst. split; auto.
  Qed.
  Lemma simple_equivalence_ok e v x : wf e -> try_to_simple_equivalence e = Some (v, x) ->
    exists w, x = from_var w /\ w <> v /\ In v (vars e) /\ In w (vars e) /\ forall s, solves s e -> s v = s w.
  Proof.
    intros W. unfold try_to_simple_equivalence. destruct (is_affine e && is_zero (cst e)) eqn:E; [|discriminate].
    apply andb_true_iff in E. destruct E as [Ea Ec]. apply is_zero_eq in Ec.
    destruct e as [q l c]. cbn [lin cst] in *. destruct l as [|[v1 c1] [|[v2 c2] [|? ?]]]; try discriminate.
    destruct (is_one _) eqn:E1; [|discriminate]. intros [= <- <-]. apply is_one_eq in E1.
    apply wf_GE in W. destruct W as [[So Nz] _]. unfold is_affine, is_quadratic in Ea. cbn [quad] in Ea. destruct q as [|? ?]; [|discriminate].
    cbn [map fst] in So. inversion So as [|? ? _ Hlt]; subst. inversion Hlt as [|? ? Hlt' _]; subst.
    assert (N1 : c1 <> 0) by (inversion Nz; subst; auto).
    exists v1. split; auto. split; [intros ->; unfold vlt in Hlt'; rewrite vltb_irrefl in Hlt'; discriminate|].
    split; [cbn; tauto|]. split; [cbn; tauto|]. intros s Hs. unfold solves in Hs. rewrite eval_GE in Hs. cbn in Hs.
    assert (E2 : - c2 = c1). { transitivity (- c2 / c1 * c1); [|rewrite E1; ring]. unfold fdiv. transitivity (- c2 * (c1 * finv c1)); [|ring]. rewrite (finv_r _ Hp N1). ring. }
    assert (E3 : c1 * (s v1 - s v2) = 0). { rewrite <- Hs. rewrite <- E2. ring. }
    apply (mul_eq_zero _ _ Hp) in E3. destruct E3 as [E3|E3]; [tauto|]. apply (proj1 (sub_eq_zero _ _)) in E3. auto.
  Qed.
  Lemma set_cs_same c st : wfst st -> qcs_ok c -> qsys c = qsys (bcs st) -> wfst (set_cs c st) /\ (forall s, sat s st <-> sat s (set_cs c st)).
  Proof.
    intros W Q E. split.
    - destruct W. constructor; cbn [set_cs bcs brc bpend bcache bnb bnl blm]; auto; now rewrite E.
    - intros s. split; intros S; destruct S; constructor; cbn [set_cs bcs brc bpend bcache bnb bnl blm] in *; auto; rewrite E in *; auto.
  Qed.
  Lemma process_item_ok (x : item) prog st : wfst st -> item_valid (isys (qsys (bcs st))) x -> is_constraint x ->
    match process_item h x prog st with
    | Done (b, st') => step anyway anyway st st'
    | Contradiction => forall s, ~ sat s st
    | Panicked | OutOfFuel => False
    end.
  Proof.
    intros W Hv Hc. unfold process_item. destruct x as [i|i|i]; cbn in Hc; try tauto; cbn [to_ref].
    - cbn in Hv. destruct (nth_error (algs (isys (qsys (bcs st)))) i) as [c|] eqn:E; [|now apply nth_error_None in E; cbn in Hv; lia].
      apply nth_error_In in E. pose proof (w_algs _ W) as G. rewrite Forall_forall in G. specialize (G _ E). destruct G as [Wc Bc].
      assert (Hs : forall s, sat s st -> solves s c). { intros s S. pose proof (s_algs _ _ _ S) as T. rewrite Forall_forall in T. auto. }
      destruct (try_to_simple_equivalence c) as [[v e]|] eqn:E1.
      + destruct (simple_equivalence_ok _ _ _ Wc E1) as (w & -> & Nw & Iv & Iw & K).
        destruct (apply_assignment_base_total v (from_var w) st W (Bc _ Iv) (aff_var Hp _ _ _ (Bc _ Iw))) as (st' & -> & S1).
        { intros [Hv'|[]]; auto. }
        eapply step_weaken; [| |exact S1]; auto. cbn beta. intros s S _. rewrite eval_from_var. auto.
      + assert (Hcons : forall s, sat s st -> consistent_on (rcget st) s c) by (intros s S v _; now apply (rcget_allows sem)).
        pose proof (b_solve Hp (rcget st) c Wc) as B. destruct (solve (rcget st) c) as [es cp| | |]; [| | |tauto].
        * destruct B as (B1 & _ & B3).
          assert (Oe : Forall (effect_old (bnb st) (bnl st)) es).
          { apply Forall_forall. intros ef Hef. specialize (B3 _ Hef). destruct ef; cbn; auto. }
          pose proof (try_split_ok Hp (rcget st) c H2 H64 Wc) as T. destruct (try_split_constraint (rcget st) c) as [l| |]; [| |tauto].
          -- destruct T as (T1 & T2 & _). unfold add_algs_if_new.
             assert (Gl : Forall (gb (bnb st) (bnl st)) (filter (fun e => negb (contains_alg st e)) l)).
             { apply filter_Forall. eapply Forall_impl; [|exact T2]. intros y (A & _ & B). split; auto. intros v Hy. auto. }
             destruct (filter _ l) as [|y ys] eqn:Ef.
             ++ destruct (apply_effects_ok es (prog || false) st W Oe) as (b & st' & -> & S1). eapply step_weaken; [| |exact S1]; auto.
                cbn beta. intros s S _. apply B1; auto.
             ++ destruct (add_algs_base_total _ st W Gl) as (st1 & -> & S1).
                destruct (apply_effects_ok es (prog || true) st1 (t_wf _ _ _ _ _ S1)) as (b & st' & -> & S2).
                { eapply Forall_impl; [|exact Oe]. intros [v ?|v ?|]; cbn [effect_old]; auto; apply old_mono; apply S1. }
                eapply step_trans; [|exact S2].
                eapply step_weaken; [| |apply (step_frame sem (fun s => effects_true s es) _ _ _ _ (effects_frame _ _ _ Oe) S1)]; cbn beta; [|tauto].
                intros s S _. split; [|apply B1; auto]. rewrite <- Ef. apply filter_Forall. apply T1; auto. 
                intros v Hy. apply rc_allows_iff. now apply (rcget_allows sem). now apply Hs.
          -- destruct (apply_effects_ok es prog st W Oe) as (b & st' & -> & S1). eapply step_weaken; [| |exact S1]; auto.
             cbn beta. intros s S _. apply B1; auto.
        * intros s S. exact (B s (Hcons s S) (Hs s S)).
        * intros s S. exact (B s (Hcons s S) (Hs s S)).
    - cbn in Hv. destruct (nth_error (buses (isys (qsys (bcs st)))) i) as [b|] eqn:E; [|now apply nth_error_None in E; cbn in Hv; lia].
      apply nth_error_In in E. pose proof (w_buses _ W) as G. rewrite Forall_forall in G. specialize (G _ E).
      assert (Hs : forall s, sat s st -> sem (bmap (eval s) b)). { intros s S. pose proof (s_buses _ _ _ S) as T. rewrite Forall_forall in T. auto. }
      assert (Hr : forall s, sat s st -> forall v, In v (bus_vars b) -> rc_allows (rcget st v) (s v)) by (intros s S v _; now apply (rcget_allows sem)).
      assert (Ob : forall v, In v (bus_vars b) -> old (bnb st) (bnl st) v).
      { intros v Hv'. unfold bus_vars in Hv'. apply in_flat_map in Hv'. destruct Hv' as (e & He & Hv'). rewrite Forall_forall in G. now apply (proj2 (G _ He)). }
      pose proof (bus_solve_ok Hp sem h Hh (rcget st) b) as B. destruct (bus_solve h (rcget st) b) as [es| |]; [| |tauto].
      + destruct B as [B1 B3]. destruct (apply_effects_ok es prog st W) as (b' & st' & -> & S1).
        { apply Forall_forall. intros ef Hef. specialize (B3 _ Hef). destruct ef; cbn; tauto || auto. }
        eapply step_weaken; [| |exact S1]; auto. cbn beta. intros s S _. apply B1; auto.
      + intros s S. exact (B s (Hr s S) (Hs s S)).
    - now apply Hc.
  Qed.
  Lemma no_sat_step st st' : step anyway anyway st st' -> (forall s, ~ sat s st') -> forall s, ~ sat s st.
  Proof. intros T N s S. destruct (t_sat _ _ _ _ _ T s S I) as (s' & _ & S' & _). exact (N s' S'). Qed.
  Definition ospec st (o : out (bool * bsolver)) : Prop :=
    match o with
    | Done (b, st') => step anyway anyway st st'
    | Contradiction => forall s, ~ sat s st
    | Panicked => False
    | OutOfFuel => True
    end.
  Lemma isolation_ok fuel : forall prog st, wfst st -> ospec st (solve_in_isolation h fuel prog st).
  Proof.
    induction fuel as [|f IH]; intros prog st W; cbn [solve_in_isolation]; [exact I|].
    destruct (qcs_pop (bcs st)) as [[x|] c] eqn:E; [|now apply step_refl].
    destruct (qcs_pop_ok _ _ _ (w_q _ W) E) as (Qc & Es & _ & Vx & Cx & _). destruct (set_cs_same c st W Qc Es) as [W1 Hs].
    assert (Vx' : item_valid (isys (qsys (bcs (set_cs c st)))) x) by (cbn [set_cs bcs]; rewrite Es; auto).
    pose proof (process_item_ok x prog (set_cs c st) W1 Vx' Cx) as T.
    assert (S0 : step anyway anyway st (set_cs c st)).
    { constructor; auto; try (cbn; lia); [now apply shrink_eq|]. intros s S _. exists s. split; [apply ext_refl|]. split; [|exact I]. now apply Hs. }
    destruct (process_item h x prog (set_cs c st)) as [[b st']| | |]; cbn [ospec]; auto.
    - specialize (IH b st' (t_wf _ _ _ _ _ T)). pose proof (step_trans _ _ _ _ _ _ S0 T) as S1.
      destruct (solve_in_isolation h f b st') as [[b2 st2]| | |]; cbn [ospec] in *; auto.
      + eapply step_trans; eauto.
      + eapply no_sat_step; eauto.
    - eapply no_sat_step; eauto.
  Qed.
  Lemma apply_rcs_ok l : forall prog st, wfst st -> Forall (fun vr => old (bnb st) (bnl st) (fst vr)) l ->
    exists b st', apply_rcs l prog st = Some (b, st') /\ step (fun s => map_true s l) anyway st st'.
  Proof.
    induction l as [|[v r] l IH]; intros prog st W O; cbn [apply_rcs].
    - eexists _, _. split; [reflexivity|]. eapply step_weaken; [| |apply (step_refl anyway _ W)]; unfold anyway; auto.
    - inversion O as [|? ? Oe Ol]; subst. destruct (rc_update_total v r st W Oe) as (b & st1 & -> & S1).
      destruct (IH (prog || b) st1 (t_wf _ _ _ _ _ S1)) as (b' & st' & -> & S2).
      { eapply Forall_impl; [|exact Ol]. intros vr. apply old_mono; apply S1. }
      exists b', st'. split; auto. eapply step_trans; [|exact S2].
      assert (Fr : forall s s', ext (bnb st) (bnl st) s s' -> map_true s l -> map_true s' l).
      { intros s s' X H. unfold map_true in *. rewrite Forall_forall in *. intros vr Hvr. rewrite X; auto. }
      eapply step_weaken; [| |apply (step_frame sem (fun s => map_true s l) _ _ _ _ Fr S1)]; cbn beta; [|tauto].
      intros s _ H. inversion H; subst. split; auto.
  Qed.
  Definition small st (vs : list var) : Prop := forall v, In v vs -> old (bnb st) (bnl st) v /\ (range_width (rcget st v) < 2 ^ 32)%N.
  Lemma search_sets_ok sets : forall failed prog st, wfst st -> (forall vs, In vs sets -> small st vs) -> ospec st (search_sets h sets failed prog st).
  Proof.
    induction sets as [|vs sets IH]; intros failed prog st W Sm; cbn [search_sets]; [now apply step_refl|].
    set (vs1 := filter _ vs). destruct (existsb (vlist_eqb vs1) failed); [apply IH; auto; intros; apply Sm; now right|].
    assert (Sm1 : small st vs1). { intros v Hv. apply filter_In in Hv. apply (Sm vs); [now left|tauto]. }
    assert (Wf : Forall wf (algs (isys (qsys (bcs st))))) by (eapply Forall_impl; [|apply W]; intros e He; apply He).
    pose proof (exhaustive_search_ok Hp sem h Hh (qsys (bcs st)) (rcget st) Wf vs1) as X.
    assert (Gd : forall s, sat s st -> (forall v, In v vs1 -> rc_allows (rcget st v) (s v)) /\ good_s sem (qsys (bcs st)) (rcget st) s).
    { intros s S. split; [intros v _; now apply (rcget_allows sem)|]. split; [intros v _; now apply (rcget_allows sem)|]. split; [apply S|apply S]. }
    destruct (exhaustive_search_on h (qsys (bcs st)) (rcget st) vs1) as [m| |].
    - destruct X as [X1 X2]. destruct m as [|vr m]; [apply IH; auto; intros; apply Sm; now right|].
      assert (Om : Forall (fun vr => old (bnb st) (bnl st) (fst vr)) (vr :: m)).
      { apply Forall_forall. intros [v r] Hv. apply (in_map fst) in Hv. destruct (X2 _ Hv) as [K|K]; [|now apply Sm1].
        cbn [fst]. unfold sys_vars in K. apply in_app_iff in K. destruct K as [K|K]; apply in_flat_map in K; destruct K as (y & Hy & K).
        - pose proof (w_algs _ W) as G. rewrite Forall_forall in G. now apply (proj2 (G _ Hy)).
        - pose proof (w_buses _ W) as G. rewrite Forall_forall in G. specialize (G _ Hy). apply in_flat_map in K. destruct K as (z & Hz & K).
          rewrite Forall_forall in G. now apply (proj2 (G _ Hz)). }
      destruct (apply_rcs_ok (vr :: m) prog st W Om) as (b & st' & -> & S1).
      assert (S1' : step anyway anyway st st').
      { eapply step_weaken; [| |exact S1]; auto. cbn beta. intros s S _. destruct (Gd s S) as [A B]. exact (X1 s A B). }
      specialize (IH failed b st' (t_wf _ _ _ _ _ S1)). 
      assert (Sm' : forall vs, In vs sets -> small st' vs).
      { intros ws Hws v Hv. destruct (Sm ws (or_intror Hws) v Hv) as [A B]. split; [eapply old_mono; [apply S1|apply S1|exact A]|].
        pose proof (t_shrink _ _ _ _ _ S1 v). lia. }
      specialize (IH Sm'). destruct (search_sets h sets failed b st') as [[b2 st2]| | |]; cbn [ospec] in *; auto.
      + eapply step_trans; eauto.
      + eapply no_sat_step; eauto.
    - intros s S. destruct (Gd s S) as [A B]. exact (X s A B).
    - destruct X as (v & Hv & E). apply b_allowed_values_total in E. destruct (Sm1 v Hv). lia.
  Qed.
  Lemma len_insert_in (s : list var) l (x : list var) : In x (len_insert s l) -> x = s \/ In x l.
  Proof.
    induction l as [|t l IH]; cbn [len_insert]; [intros [->|[]]; auto|]. destruct (Nat.ltb _ _); cbn [In]; [intuition|].
    intros [->|H]; auto. apply IH in H. tauto.
  Qed.
  Lemma sort_by_len_in l (x : list var) : In x (sort_by_len l) -> In x l.
  Proof.
    unfold sort_by_len. assert (G : forall acc, In x (fold_left (fun acc t => len_insert t acc) l acc) -> In x l \/ In x acc).
    { induction l as [|s l IH]; intros acc; cbn [fold_left]; auto. intros H. apply IH in H. destruct H as [H|H]; [left; now right|].
      apply len_insert_in in H. destruct H as [->|H]; auto. left; now left. }
    intros H. apply G in H. destruct H as [H|[]]; auto.
  Qed.
  Lemma sys_vars_old st v : wfst st -> In v (sys_vars (isys (qsys (bcs st)))) -> old (bnb st) (bnl st) v.
  Proof.
    intros W K. unfold sys_vars in K. apply in_app_iff in K. destruct K as [K|K]; apply in_flat_map in K; destruct K as (y & Hy & K).
    - pose proof (w_algs _ W) as G. rewrite Forall_forall in G. now apply (proj2 (G _ Hy)).
    - pose proof (w_buses _ W) as G. rewrite Forall_forall in G. specialize (G _ Hy). apply in_flat_map in K. destruct K as (z & Hz & K).
      rewrite Forall_forall in G. now apply (proj2 (G _ Hz)).
  Qed.
  Lemma exhaustive_ok st : wfst st -> ospec st (exhaustive_search h st).
  Proof.
    intros W. apply search_sets_ok; auto. intros vs Hvs v Hv. apply sort_by_len_in in Hvs. split.
    - apply sys_vars_old; auto. eapply candidates_vars; eauto.
    - destruct (candidates_small _ _ _ Hvs) as [K _]. pose proof (candidate_small _ _ _ K Hv) as L. unfold size_estimate, MAX_VAR_RANGE_WIDTH in L. lia.
  Qed.
  Definition lspec st (o : out bsolver) : Prop :=
    match o with Done st' => step anyway anyway st st' | Contradiction => forall s, ~ sat s st | Panicked => False | OutOfFuel => True end.
  Lemma solver_loop_ok fuel : forall st, wfst st -> lspec st (solver_loop h fuel st).
  Proof.
    induction fuel as [|f IH]; intros st W; cbn [solver_loop]; [exact I|]. pose proof (isolation_ok (S f) false st W) as T.
    destruct (solve_in_isolation h (S f) false st) as [[[] st']| | |]; cbn [ospec] in T; auto.
    - specialize (IH st' (t_wf _ _ _ _ _ T)). destruct (solver_loop h f st'); cbn [lspec] in *; auto; [eapply step_trans; eauto|eapply no_sat_step; eauto].
    - pose proof (exhaustive_ok st' (t_wf _ _ _ _ _ T)) as T2. destruct (exhaustive_search h st') as [[[] st'']| | |]; cbn [ospec] in T2; auto.
      + specialize (IH st'' (t_wf _ _ _ _ _ T2)). pose proof (step_trans _ _ _ _ _ _ T T2) as T3.
        destruct (solver_loop h f st''); cbn [lspec] in *; auto; [eapply step_trans; eauto|eapply no_sat_step; eauto].
      + cbn [lspec]. eapply step_trans; eauto.
      + cbn [lspec]. eapply no_sat_step; eauto.
  Qed.
  Definition pend_true (s : var -> F p) (a : list (var * gexp)) : Prop := Forall (fun ve => s (fst ve) = eval s (snd ve)) a.
  Lemma solve_base_ok fuel st : wfst st ->
    match solve_base h fuel st with
    | Done (a, st') => step anyway (fun s => pend_true s a) st st' /\ bpend st' = [] /\
        Forall (fun ve => aff (bnb st') (bnl st') (snd ve) /\ ~ In (fst ve) (vars (snd ve))) a
    | Contradiction => forall s, ~ sat s st
    | Panicked => False
    | OutOfFuel => True
    end.
  Proof.
    intros W. unfold solve_base. pose proof (solver_loop_ok fuel (clear_cache st) (wfst_clear _ W)) as T.
    destruct (solver_loop h fuel (clear_cache st)) as [st1| | |]; cbn [lspec] in T; auto.
    - pose proof (t_wf _ _ _ _ _ T) as W1.
      assert (N : Forall (fun ve => ~ In (fst ve) (vars (snd ve))) (bpend st1)) by (eapply Forall_impl; [|apply W1]; cbn beta; tauto).
      assert (A : Forall (fun ve => aff (bnb st1) (bnl st1) (snd ve)) (bpend st1)) by (eapply Forall_impl; [|apply W1]; cbn beta; tauto).
      split; [|split; [reflexivity|]].
      + eapply step_trans; [eapply step_trans; [apply step_clear; auto|exact T]|]. destruct W1.
        constructor; try (cbn; lia); [|now apply shrink_eq|].
        * constructor; cbn [set_pend set_lin set_bool bcs brc bpend bcache bnb bnl blm]; auto. apply lin_apply_ok; auto.
        * intros s S _. exists s. split; [apply ext_refl|]. destruct S. split; [|exact s_pend].
          constructor; cbn [set_pend set_lin set_bool bcs brc bpend bcache bnb bnl blm]; auto. apply lin_apply_true; auto.
      + cbn [set_pend set_lin set_bool bnb bnl]. eapply Forall_impl; [|apply W1]. cbn beta. tauto.
    - intros s S. exact (T s (sat_clear sem s st S)).
  Qed.
  Lemma solver_solve_ok fuel st : wfst st ->
    match solver_solve h fuel st with
    | Done (a, st') => step anyway (fun s => pend_true s a) st st' /\ bpend st' = [] /\
        Forall (fun ve => is_orig (fst ve) = true /\ wf (snd ve) /\ is_affine (snd ve) = true /\ (forall v, In v (vars (snd ve)) -> is_orig v = true) /\ ~ In (fst ve) (vars (snd ve))) a
    | Contradiction => forall s, ~ sat s st
    | Panicked => False
    | OutOfFuel => True
    end.
  Proof.
    intros W. unfold solver_solve. pose proof (solve_base_ok fuel st W) as T. destruct (solve_base h fuel st) as [[a st']| | |]; auto.
    destruct T as (T1 & T2 & T3). destruct (forallb _ a) eqn:E.
    - split; [|split; [exact T2|]].
      + eapply step_weaken; [| |exact T1]; auto. intros s H. now apply filter_Forall.
      + apply Forall_forall. intros ve Hve. apply filter_In in Hve. destruct Hve as [Hin Hf]. apply andb_true_iff in Hf. destruct Hf as [F1 F2].
        rewrite forallb_forall in F2, E. rewrite Forall_forall in T3. destruct (T3 _ Hin) as ((A & _ & _) & B). split; auto.
    - assert (E' : forallb (fun ve => is_affine (snd ve)) a = true); [|congruence]. apply forallb_forall. intros ve Hve.
      rewrite Forall_forall in T3. destruct (T3 _ Hve) as ((_ & Q & _) & _). unfold is_affine, is_quadratic. now rewrite Q.
  Qed.

  (** ** Queries *)
  Lemma range_query_ok s st e : sat s st -> rc_allows (range_query st e) (eval s e).
  Proof.
    intros S. unfold range_query. assert (G : forall l acc, (forall x, In x l -> eval s x = eval s e) -> rc_allows acc (eval s e) ->
      rc_allows (fold_left (fun acc x => conjunction acc (range_constraint (rcget st) x)) l acc) (eval s e)).
    { induction l as [|x l IH]; intros acc H A; cbn [fold_left]; auto. apply IH; [intros; apply H; now right|]. apply b_conjunction; auto.
      rewrite <- (H x (or_introl eq_refl)). apply b_expr_rc. intros v _. now apply (rcget_allows sem). }
    apply G; [|apply rc_allows_iff, unconstrained_allows]. intros x Hx. eapply internalized_eval; eauto. apply S.
  Qed.
  Lemma const_query_ok s st e k : sat s st -> const_query st e = Some k -> eval s e = k.
  Proof.
    intros S. unfold const_query. destruct (flat_map _ _) as [|k0 l] eqn:E; [discriminate|]. intros [= ->].
    assert (Hin : In k (flat_map (fun x => option_list (try_to_known x)) (internalized_versions (blm st) e))) by (rewrite E; now left).
    apply in_flat_map in Hin. destruct Hin as (x & Hx & Hk). rewrite <- (internalized_eval s _ _ _ (s_lm _ _ _ S) Hx).
    destruct (try_to_known x) as [k'|] eqn:Ek; cbn in Hk; [|tauto]. destruct Hk as [->|[]]. now apply try_to_known_eval.
  Qed.
  Lemma wf_solve_for_expr (e x r : gexp) : wf e -> wf x -> try_solve_for_expr e x = Some r -> wf r.
  Proof.
    intros We Wx. unfold try_solve_for_expr. destruct (is_quadratic e); [discriminate|]. destruct (existsb _ _); [discriminate|]. intros [= <-].
    apply wf_gsub; auto. apply wf_gscale; auto.
  Qed.
  Lemma cache_lookup_in e c l : cache_lookup e c = Some l -> In (e, l) (c : list (gexp * list gexp)).
  Proof.
    induction c as [|[k m] c IH]; cbn [cache_lookup]; [discriminate|]. destruct (gexp_eqb e k) eqn:E.
    - intros [= ->]. apply gexp_eqb_eq in E. subst. now left.
    - intros H. right. auto.
  Qed.
  Definition equivs (s : var -> F p) (e : gexp) (l : list gexp) : Prop := Forall (fun x => eval s e = eval s x) l.
  Lemma equivs_frame nb nl e l : gb nb nl e -> Forall (gb nb nl) l -> forall s s', ext nb nl s s' -> equivs s e l -> equivs s' e l.
  Proof.
    intros G Gl s s' X H. unfold equivs in *. rewrite Forall_forall in *. intros x Hx.
    rewrite (ext_eval _ _ _ _ _ X (proj2 G)), (ext_eval _ _ _ _ _ X (proj2 (Gl _ Hx))). auto.
  Qed.
  Lemma equivalent_ok e st l st' : wfst st -> gb (bnb st) (bnl st) e -> equivalent_expressions e st = (l, st') ->
    Forall (gb (bnb st) (bnl st)) l /\ step anyway (fun s => equivs s e l) st st' /\ bnb st' = bnb st /\ bnl st' = bnl st.
  Proof.
    intros W G. unfold equivalent_expressions. destruct (is_quadratic e).
    { intros [= <- <-]. split; [constructor; auto|]. split; auto. eapply step_weaken; [| |apply (step_refl anyway _ W)]; auto.
      intros s _. repeat (constructor; auto). }
    destruct (cache_lookup e (bcache st)) as [l0|] eqn:E.
    { intros [= <- <-]. apply cache_lookup_in in E. pose proof (w_cache _ W) as C. rewrite Forall_forall in C. destruct (C _ E) as [C1 C2]. cbn [fst snd] in *.
      split; auto. split; auto. constructor; auto; try lia; [apply shrink_refl|]. intros s S _. exists s. split; [apply ext_refl|]. split; auto.
      pose proof (s_cache _ _ _ S) as T. rewrite Forall_forall in T. exact (T _ E). }
    set (exprs0 := flat_map _ _). set (exprs := match exprs0 with [] => [e] | _ => exprs0 end). intros [= <- <-].
    assert (K : forall x, In x exprs -> x = e \/ exists c, In c (algs (isys (qsys (bcs st)))) /\ try_solve_for_expr c e = Some x).
    { assert (K0 : forall x, In x exprs0 -> exists c, In c (algs (isys (qsys (bcs st)))) /\ try_solve_for_expr c e = Some x).
      { intros x Hx. unfold exprs0 in Hx. apply in_flat_map in Hx. destruct Hx as (r & Hr & Hx). apply referencing_sound in Hr. destruct r as [c|]; [|destruct Hx].
        destruct (try_solve_for_expr c e) as [y|] eqn:Ey; cbn in Hx; [|tauto]. destruct Hx as [<-|[]]. eauto. }
      intros x Hx. unfold exprs in Hx. destruct exprs0 as [|y ys]; [destruct Hx as [<-|[]]; auto|]. right. auto. }
    assert (Ge : Forall (gb (bnb st) (bnl st)) exprs).
    { apply Forall_forall. intros x Hx. destruct (K x Hx) as [->|(c & Hc & Ec)]; auto. pose proof (w_algs _ W) as Ga. rewrite Forall_forall in Ga. destruct (Ga _ Hc) as [Wc Bc].
      split; [eapply wf_solve_for_expr; [exact Wc|apply G|exact Ec]|]. intros v Hv. destruct (b_solve_for_expr Hp c e x (proj1 G) Ec) as (_ & _ & Hi). auto. }
    assert (Eq : forall s, sat s st -> equivs s e exprs).
    { intros s S. apply Forall_forall. intros x Hx. destruct (K x Hx) as [->|(c & Hc & Ec)]; auto. destruct (b_solve_for_expr Hp c e x (proj1 G) Ec) as (Hs & _).
      apply Hs. pose proof (s_algs _ _ _ S) as T. rewrite Forall_forall in T. auto. }
    split; auto. split; auto. constructor; try (cbn; lia); [|now apply shrink_eq|].
    - destruct W. constructor; cbn [set_cache bcs brc bpend bcache bnb bnl blm]; auto.
    - intros s S _. exists s. split; [apply ext_refl|]. split; [|auto]. pose proof (Eq s S) as Q. destruct S. constructor; cbn [set_cache bcs brc bpend bcache bnb bnl blm]; auto.
  Qed.
  Lemma any_different_ok st l : wfst st -> Forall (fun ab => wf (fst ab) /\ wf (snd ab)) l ->
    exists d, any_different st l = Some d /\ (d = true -> forall s, sat s st -> exists ab, In ab l /\ eval s (fst ab) <> eval s (snd ab)).
  Proof.
    intros W. induction 1 as [|[a b] l [Wa Wb] Hl IH]; cbn [any_different]; [exists false; split; auto; discriminate|]. cbn [fst snd] in *.
    unfold pair_different. cbn [fst snd]. pose proof (possible_values_ok Hp (rcget st) (gsub a b) 20 (wf_gsub _ _ Wa Wb) ltac:(lia)) as V.
    destruct IH as (d & Ed & Hd). destruct (possible_concrete_values (rcget st) (gsub a b) 20) as [[ks|]|]; [| |tauto].
    - destruct (forallb (fun k => negb (is_zero k)) ks) eqn:E.
      + exists true. split; auto. intros _ s S. exists (a, b). split; [now left|]. cbn [fst snd]. intros Heq.
        assert (Hk : In (eval s (gsub a b)) ks) by (apply V; intros v _; now apply (rcget_allows sem)).
        rewrite forallb_forall in E. apply E in Hk. rewrite eval_gsub, Heq in Hk. replace (eval s b - eval s b) with (0 : F p) in Hk by ring.
        apply negb_true_iff in Hk. apply is_zero_neq in Hk. auto.
      + exists d. split; auto. intros T s S. destruct (Hd T s S) as (ab & Hab & N). exists ab. split; auto. now right.
    - exists d. split; auto. intros T s S. destruct (Hd T s S) as (ab & Hab & N). exists ab. split; auto. now right.
  Qed.
  Lemma different_ok a b st : wfst st -> gb (bnb st) (bnl st) a -> gb (bnb st) (bnl st) b ->
    exists d st', different_query a b st = (Some d, st') /\ step anyway (fun s => d = true -> eval s a <> eval s b) st st'.
  Proof.
    intros W Ga Gb. unfold different_query.
    assert (Gen : exists d st', (let '(ea, st1) := equivalent_expressions a st in let '(eb, st2) := equivalent_expressions b st1 in (any_different st2 (list_prod ea eb), st2)) = (Some d, st') /\
      step anyway (fun s => d = true -> eval s a <> eval s b) st st').
    { destruct (equivalent_expressions a st) as [ea st1] eqn:E1. destruct (equivalent_ok a st ea st1 W Ga E1) as (G1 & S1 & B1 & L1).
      destruct (equivalent_expressions b st1) as [eb st2] eqn:E2.
      assert (Gb1 : gb (bnb st1) (bnl st1) b) by (rewrite B1, L1; auto).
      assert (Ga1 : gb (bnb st1) (bnl st1) a) by (rewrite B1, L1; auto).
      destruct (equivalent_ok b st1 eb st2 (t_wf _ _ _ _ _ S1) Gb1 E2) as (G2 & S2 & B2 & L2).
      destruct (any_different_ok st2 (list_prod ea eb) (t_wf _ _ _ _ _ S2)) as (d & -> & Hd).
      { apply Forall_forall. intros [x y] Hxy. apply in_prod_iff in Hxy. destruct Hxy as [Hx Hy]. rewrite Forall_forall in G1, G2. split; [apply (G1 x Hx)|apply (G2 y Hy)]. }
      exists d, st2. split; auto.
      assert (G1' : Forall (gb (bnb st1) (bnl st1)) ea) by (rewrite B1, L1; auto).
      pose proof (step_trans _ _ _ _ _ _ S1 (step_weaken sem _ _ _ _ _ _ (fun s _ H => conj I H) (fun s H => H) (step_frame sem _ _ _ _ _ (equivs_frame _ _ _ _ Ga1 G1') S2))) as S3.
      destruct S3 as [T1 T2 T3 T4 T5]. constructor; auto. intros s S _. destruct (T5 s S I) as (s' & X & S' & Hb & Ha). exists s'. split; auto. split; auto.
      intros Ed. destruct (Hd Ed s' S') as ([x y] & Hxy & Nxy). apply in_prod_iff in Hxy. destruct Hxy as [Hx Hy]. cbn [fst snd] in Nxy.
      unfold equivs in Ha, Hb. rewrite Forall_forall in Ha, Hb. rewrite (Ha x Hx), (Hb y Hy). exact Nxy. }
    destruct (try_to_known a) as [x|] eqn:Ea; [destruct (try_to_known b) as [y|] eqn:Eb|]; auto.
    eexists _, _. split; [reflexivity|]. eapply step_weaken; [| |apply (step_refl anyway _ W)]; auto. intros s _ Hd.
    rewrite (try_to_known_eval s a x Ea), (try_to_known_eval s b y Eb). apply negb_true_iff in Hd. destruct (feqb_spec x y); congruence.
  Qed.

  (** ** Histories *)
  Definition answer_true (s : var -> F p) (a : answer p) : Prop :=
    match a with
    | Assignments l => Forall (fun ve => s (fst ve) = eval s (snd ve)) l
    | VarRange v r => is_orig v = true -> rc_allows r (s v)
    | Range e r => rc_allows r (eval s e)
    | Const e k => match k with Some x => eval s e = x | None => True end
    | Different a b d => d = true -> eval s a <> eval s b
    | Silent => True
    end.
  Definition answer_user (a : answer p) : Prop :=
    match a with
    | Assignments l => Forall (fun ve => is_orig (fst ve) = true /\ user_expr (snd ve) /\ is_affine (snd ve) = true /\ ~ In (fst ve) (vars (snd ve))) l
    | Range e _ | Const e _ => user_expr e
    | Different a b _ => user_expr a /\ user_expr b
    | _ => True
    end.
  Definition same_orig (s s' : var -> F p) : Prop := forall n, s' (Orig n) = s (Orig n).
  Lemma ext_orig nb nl s s' : ext nb nl s s' -> same_orig s s'.
  Proof. intros X n. apply X. exact I. Qed.
  Lemma user_gb nb nl e : user_expr e -> gb nb nl e.
  Proof. intros [A B]. split; auto. intros v Hv. apply B in Hv. destruct v; try discriminate. exact I. Qed.
  Lemma user_eval s s' e : same_orig s s' -> user_expr e -> eval s' e = eval s e.
  Proof. intros X [A B]. apply eval_ext. intros v Hv. apply B in Hv. destruct v; try discriminate. apply X. Qed.
  Lemma user_bus_eval s s' b : same_orig s s' -> Forall user_expr (fields b) -> bmap (eval s') b = bmap (eval s) b.
  Proof.
    intros X G. unfold fields in G. inversion G as [|? ? G1 G']; subst. inversion G' as [|? ? G2 G3]; subst. unfold bmap.
    rewrite (user_eval s s' _ X G1), (user_eval s s' _ X G2). f_equal. apply map_ext_in. intros e He. rewrite Forall_forall in G3. apply user_eval; auto.
  Qed.
  Lemma op_holds_orig s s' o : same_orig s s' -> op_ok o -> op_holds sem s o -> op_holds sem s' o.
  Proof.
    intros X. destruct o as [es|bs|v r| | | | | |]; cbn; auto.
    - intros G H. rewrite Forall_forall in *. intros e He. unfold solves. rewrite (user_eval s s' e X); auto. now apply H.
    - intros G H. erewrite map_ext_in; [exact H|]. intros b Hb. apply user_bus_eval; auto. rewrite Forall_forall in G. auto.
    - destruct v; try discriminate. intros _. now rewrite X.
  Qed.
  Lemma answer_true_orig s s' a : same_orig s s' -> answer_user a -> answer_true s' a -> answer_true s a.
  Proof.
    intros X. destruct a as [l|v r|e r|e [k|]|a b d|]; cbn; auto.
    - intros U H. rewrite Forall_forall in *. intros ve Hve. destruct (U _ Hve) as (A & B & _). rewrite <- (user_eval s s' _ X B), <- (H _ Hve).
      destruct (fst ve); try discriminate. symmetry. apply X.
    - intros _ H O. destruct v; try discriminate. rewrite <- X. auto.
    - intros U H. now rewrite <- (user_eval s s' _ X U).
    - intros U H. now rewrite <- (user_eval s s' _ X U).
    - intros [U1 U2] H. now rewrite <- (user_eval s s' _ X U1), <- (user_eval s s' _ X U2).
  Qed.
  Lemma retain_ok vs st st' : wfst st -> retain_base vs st = Some st' -> wfst st' /\ forall s, sat s st -> sat s st'.
  Proof.
    intros W. unfold retain_base. destruct (bpend st) as [|? ?] eqn:Ep; [|discriminate].
    set (c1 := qcs_retain_algs _ _). set (c2 := qcs_retain_buses _ c1). intros [= <-]. destruct W. split.
    - constructor; cbn [set_rcs set_cs clear_cache set_cache bcs brc bpend bcache bnb bnl blm].
      + apply qcs_retain_buses_ok, qcs_retain_algs_ok. auto.
      + apply (filter_Forall _ _ _ w_algs).
      + apply (filter_Forall _ _ _ w_buses).
      + apply (filter_Forall _ _ _ w_rc).
      + auto.
      + constructor.
      + auto.
    - intros s S. destruct S. constructor; cbn [set_rcs set_cs clear_cache set_cache bcs brc bpend bcache bnb bnl blm]; auto.
      + apply (filter_Forall _ _ _ s_algs).
      + apply (filter_Forall _ _ _ s_buses).
      + apply (filter_Forall _ _ _ s_rc).
  Qed.
  Definition is_retain (o : sop p) : bool := match o with Retain _ => true | _ => false end.
  Lemma solver_do_ok fuel o st : op_ok o -> wfst st ->
    match solver_do h fuel o st with
    | Done (a, st') => wfst st' /\ answer_user a /\ forall s, sat s st -> op_holds sem s o -> exists s', same_orig s s' /\ sat s' st' /\ answer_true s' a
    | Contradiction => o = Solve /\ forall s, ~ sat s st
    | Panicked => (exists vs, o = Retain vs) /\ bpend st <> []
    | OutOfFuel => o = Solve
    end.
  Proof.
    intros U W.
    assert (K : forall (Q R : (var -> F p) -> Prop) st', step Q R st st' -> wfst st' /\ forall s, sat s st -> Q s -> exists s', same_orig s s' /\ sat s' st' /\ R s').
    { intros Q R st' [T1 _ _ _ T5]. split; auto. intros s S HQ. destruct (T5 s S HQ) as (s' & X & S' & HR). exists s'. split; [eapply ext_orig; eauto|auto]. }
    destruct o as [es|bs|v r|vs| |v|e|e|a b]; cbn [solver_do]; cbn in U.
    - destruct (add_algs_base_total es st W) as (st' & -> & S1). { eapply Forall_impl; [|exact U]. intros e. apply user_gb. }
      apply K in S1. destruct S1 as [A B]. split; auto. split; [exact I|]. exact B.
    - destruct (add_buses_total bs st W) as (st' & -> & S1). { eapply Forall_impl; [|exact U]. intros e. apply Forall_impl. intros x. apply user_gb. }
      apply K in S1. destruct S1 as [A B]. split; auto. split; [exact I|]. exact B.
    - destruct (add_rc_base_total v r st W) as (st' & -> & S1). { destruct v; try discriminate. exact I. }
      apply K in S1. destruct S1 as [A B]. split; auto. split; [exact I|]. exact B.
    - destruct (retain_base vs st) as [st'|] eqn:E.
      + destruct (retain_ok _ _ _ W E) as [A B]. split; auto. split; [exact I|]. intros s S _. exists s. split; [intros n; reflexivity|]. split; [auto|exact I].
      + split; [eauto|]. unfold retain_base in E. destruct (bpend st); [discriminate|]. discriminate.
    - pose proof (solver_solve_ok fuel st W) as T. destruct (solver_solve h fuel st) as [[l st']| | |]; auto; [|tauto].
      destruct T as (T1 & T2 & T3). apply K in T1. destruct T1 as [A B]. split; auto. split.
      + cbn. eapply Forall_impl; [|exact T3]. intros ve (X1 & X2 & X3 & X4 & X5). split; auto. split; [split; auto|]. auto.
      + intros s S _. apply B; auto.
    - split; auto. split; [exact I|]. intros s S _. exists s. split; [intros n; reflexivity|]. split; auto. intros _. now apply (rcget_allows sem).
    - split; auto. split; [exact U|]. intros s S _. exists s. split; [intros n; reflexivity|]. split; auto. now apply range_query_ok.
    - split; auto. split; [exact U|]. intros s S _. exists s. split; [intros n; reflexivity|]. split; auto. cbn. destruct (const_query st e) eqn:E; auto. eapply const_query_ok; eauto.
    - destruct U as [Ua Ub]. destruct (different_ok a b st W (user_gb _ _ _ Ua) (user_gb _ _ _ Ub)) as (d & st' & -> & S1).
      apply K in S1. destruct S1 as [A B]. split; auto. split; [split; auto|]. intros s S _. apply B; auto. exact I.
  Qed.
  Lemma solver_run_ok fuel os : forall st, Forall op_ok os -> wfst st ->
    let '(l, r) := solver_run h fuel os st in
    Forall answer_user l /\
    (forall s, sat s st -> Forall (op_holds sem s) os -> Forall (answer_true s) l /\ r <> Contradiction) /\
    (r = Panicked -> exists vs, In (Retain vs) os).
  Proof.
    induction os as [|o os IH]; intros st U W; cbn [solver_run].
    - split; [constructor|]. split; [intros; split; [constructor|discriminate]|discriminate].
    - inversion U as [|? ? Uo Uos]; subst. pose proof (solver_do_ok fuel o st Uo W) as T. destruct (solver_do h fuel o st) as [[a st']| | |].
      + destruct T as (W' & Ua & T). specialize (IH st' Uos W'). destruct (solver_run h fuel os st') as [l r]. destruct IH as (I1 & I2 & I3).
        split; [constructor; auto|]. split.
        * intros s S H. inversion H as [|? ? Ho Hos]; subst. destruct (T s S Ho) as (s' & X & S' & Ta).
          destruct (I2 s' S') as [J1 J2]. { rewrite Forall_forall in *. intros o' Ho'. eapply op_holds_orig; eauto. }
          split; auto. constructor; [eapply answer_true_orig; eauto|]. rewrite Forall_forall in *. intros a' Ha'. eapply answer_true_orig; eauto.
        * intros E. destruct (I3 E) as (vs & Hvs). exists vs. now right.
      + split; [constructor|]. split; [|discriminate]. intros s S. exfalso. exact (proj2 T s S).
      + split; [constructor|]. split; [intros; split; [constructor|discriminate]|]. intros _. destruct T as [(vs & ->) _]. exists vs. now left.
      + split; [constructor|]. split; [intros; split; [constructor|discriminate]|discriminate].
  Qed.
  Lemma wfst_new : wfst (base_new (p:=p)).
  Proof. constructor; [apply qcs_from_ok|..]; cbn; try apply Forall_nil. Qed.
  Lemma sat_new s : sat s base_new.
  Proof. constructor; cbn; constructor. Qed.
  Definition matches (o : sop p) (a : answer p) : Prop :=
    match o, a with
    | Solve, Assignments _ => True
    | AskVar v, VarRange w r => w = v
    | AskRange e, Range e' r => e' = e
    | AskConst e, Const e' k => e' = e
    | AskDifferent a b, Different a' b' d => a' = a /\ b' = b
    | (AddAlgs _ | AddBuses _ | AddRC _ _ | Retain _), Silent => True
    | _, _ => False
    end.
  Lemma solver_do_matches fuel o st a st' : solver_do h fuel o st = Done (a, st') -> matches o a.
  Proof.
    destruct o; cbn [solver_do].
    - destruct (add_algs_base _ _); [|discriminate]. now intros [= <- _].
    - destruct (add_buses_base _ _); [|discriminate]. now intros [= <- _].
    - destruct (add_rc_base _ _ _); [|discriminate]. now intros [= <- _].
    - destruct (retain_base _ _); [|discriminate]. now intros [= <- _].
    - destruct (solver_solve _ _ _) as [[]| | |]; try discriminate. now intros [= <- _].
    - now intros [= <- _].
    - now intros [= <- _].
    - now intros [= <- _].
    - destruct (different_query _ _ _) as [[] ?]; try discriminate. now intros [= <- _].
  Qed.
  Lemma solver_run_matches fuel os : forall st, Forall2 matches (firstn (length (fst (solver_run h fuel os st))) os) (fst (solver_run h fuel os st)).
  Proof.
    induction os as [|o os IH]; intros st; cbn [solver_run]; [constructor|].
    destruct (solver_do h fuel o st) as [[a st']| | |] eqn:E; cbn [fst length firstn]; try constructor.
    specialize (IH st'). destruct (solver_run h fuel os st') as [l r]. cbn [fst length firstn] in *. constructor; auto. eapply solver_do_matches; eauto.
  Qed.
  Lemma correct_of (s : var -> F p) os : forall l, Forall2 matches os l -> Forall answer_user l -> Forall (answer_true s) l -> Forall2 (answer_correct s) os l.
  Proof.
    intros l H. induction H as [|o a os l M _ IH]; intros U T; [constructor|]. inversion U as [|? ? Ua Ul]; subst. inversion T as [|? ? Ta Tl]; subst. constructor; auto.
    clear IH Tl. destruct o, a as [| | |? [k|]| |]; cbn in M; try tauto; cbn in *; subst; auto.
    - rewrite Forall_forall in *. intros ve Hve. split; auto. destruct (Ua _ Hve) as (A & B & _ & C). auto.
    - split; auto. now intros x [= <-].
    - split; auto. discriminate.
    - destruct M; subst. auto.
  Qed.
  Lemma solver_run_prefix fuel os : forall st l, Forall op_ok os -> wfst st -> solver_run h fuel os st = (l, Contradiction) ->
    solver_run h fuel (firstn (length l) os ++ [Solve]) st = (l, Contradiction).
  Proof.
    induction os as [|o os IH]; intros st l U W; cbn [solver_run]; [discriminate|]. inversion U as [|? ? Uo Uos]; subst.
    pose proof (solver_do_ok fuel o st Uo W) as T. destruct (solver_do h fuel o st) as [[a st']| | |] eqn:E; try discriminate.
    - destruct T as (W' & _). specialize (IH st'). destruct (solver_run h fuel os st') as [l1 r1]. intros [= <- ->]. cbn [length firstn app solver_run]. rewrite E.
      rewrite (IH l1 Uos W' eq_refl). reflexivity.
    - intros [= <-]. destruct T as [-> _]. cbn [length firstn app solver_run]. now rewrite E.
  Qed.
  Lemma equivalent_pend e st : bpend (snd (equivalent_expressions e st)) = bpend st.
  Proof. unfold equivalent_expressions. destruct (is_quadratic e); auto. destruct (cache_lookup e (bcache st)); auto. Qed.
  Lemma different_pend a b st : bpend (snd (different_query a b st)) = bpend st.
  Proof.
    unfold different_query. assert (G : bpend (snd (let '(ea, st1) := equivalent_expressions a st in let '(eb, st2) := equivalent_expressions b st1 in (any_different st2 (list_prod ea eb), st2))) = bpend st).
    { pose proof (equivalent_pend a st) as A. destruct (equivalent_expressions a st) as [ea st1]. pose proof (equivalent_pend b st1) as B.
      destruct (equivalent_expressions b st1) as [eb st2]. cbn [snd] in *. congruence. }
    destruct (try_to_known a); [destruct (try_to_known b)|]; auto.
  Qed.
  Lemma solver_run_retains fuel os : forall clean st, Forall op_ok os -> wfst st -> (clean = true -> bpend st = []) -> retains_after_solve clean os = true ->
    snd (solver_run h fuel os st) <> Panicked.
  Proof.
    induction os as [|o os IH]; intros clean st U W Hc Hr; cbn [solver_run]; [discriminate|]. inversion U as [|? ? Uo Uos]; subst.
    pose proof (solver_do_ok fuel o st Uo W) as T. destruct (solver_do h fuel o st) as [[a st']| | |] eqn:E; try discriminate.
    - destruct T as (W' & _). assert (G : snd (solver_run h fuel os st') <> Panicked).
      { destruct o; cbn [retains_after_solve] in Hr; cbn [solver_do] in E.
        - eapply IH; eauto. discriminate.
        - eapply IH; eauto. discriminate.
        - eapply IH; eauto. discriminate.
        - apply andb_true_iff in Hr. destruct Hr as [_ Hr]. eapply IH; eauto. intros _. destruct (retain_base vs st) as [st1|] eqn:Er; [|discriminate].
          assert (st1 = st') as -> by congruence. unfold retain_base in Er. destruct (bpend st) eqn:Ep; [|discriminate].
          apply (f_equal (fun o : option bsolver => match o with Some y => bpend y | None => [] end)) in Er. cbn in Er. congruence.
        - pose proof (solver_solve_ok fuel st W) as T. destruct (solver_solve h fuel st) as [[l st1]| | |]; try discriminate.
          assert (st1 = st') as -> by congruence. eapply IH; eauto. intros _. apply T.
        - assert (st' = st) as -> by congruence. eapply IH; eauto.
        - assert (st' = st) as -> by congruence. eapply IH; eauto.
        - assert (st' = st) as -> by congruence. eapply IH; eauto.
        - pose proof (different_pend a0 b st) as D. destruct (different_query a0 b st) as [[d|] st1]; [|discriminate]. cbn [snd] in D.
          assert (st1 = st') as -> by congruence. eapply IH; eauto. intros C. rewrite D. auto. }
      destruct (solver_run h fuel os st') as [l r]. exact G.
    - exfalso. destruct T as [(vs & ->) N]. cbn [retains_after_solve] in Hr. apply andb_true_iff in Hr. destruct Hr as [-> _]. auto.
  Qed.
End BaseSolve.
