(** Facts about field replacement, free variables, reachability and splitting. *)
From Coq Require Import Arith NArith ZArith Znumtheory Bool List Permutation Lia ZifyBool ZifyNat.
From Verif Require Import Field ExprModel ExprFacts ExprWf ExprMore SolveModel SolveFacts SystemModel IndexFacts Spec PassModel PassSpec PassFacts.
Import ListNotations.
Local Open Scope nat_scope.

Section PassSem.
  Context {p : positive}.
  Local Notation gexp := (gexp p).
  Local Notation csys := (csys p).
  Add Ring Fr2 : (F_ring_theory (p:=p)).
  Context (stateful : F p -> bool) (legal : F p -> list (F p) -> Prop).
  Local Notation admissible := (admissible stateful legal).
  Local Notation sends := (sends stateful).
  Local Notation acceptable := (acceptable stateful legal).

  (** ** Replacing fields *)
  Lemma new_equations f (c : csys) k : In k (flat_map (fun b => snd (replace_fields f b)) (buses c)) <-> exists b e e', In b (buses c) /\ In e (fields b) /\ f e = Some (e', k).
  Proof.
    rewrite in_flat_map. unfold replace_fields. cbn [snd]. split.
    - intros (b & Hb & H). apply in_flat_map in H. destruct H as (e & He & H). destruct (f e) as [[e' k']|] eqn:E; [|destruct H]. destruct H as [->|[]]. eauto 6.
    - intros (b & e & e' & Hb & He & E). exists b. split; auto. apply in_flat_map. exists e. rewrite E. cbn. auto.
  Qed.
  (** If the equations hold, all values are as before. *)
  Lemma replaced_values f (c : csys) s : (forall e e' k, f e = Some (e', k) -> eval s k = 0%F -> eval s e' = eval s e) ->
    (forall b e e' k, In b (buses c) -> In e (fields b) -> f e = Some (e', k) -> eval s k = 0%F) -> bus_values s (replace_all_fields f c) = bus_values s c.
  Proof.
    intros Hf H. unfold bus_values, replace_all_fields, replace_fields. cbn [buses fst]. rewrite !map_map. apply map_ext_in. intros b Hb. rewrite bmap_bmap. apply bmap_ext_in. intros e He. destruct (f e) as [[e' k]|] eqn:E; auto. eapply Hf; eauto.
  Qed.
  Lemma replaced f (c : csys) s : (forall e e' k, f e = Some (e', k) -> eval s k = 0%F -> eval s e' = eval s e) ->
    (admissible s (replace_all_fields f c) <-> admissible s c /\ forall b e e' k, In b (buses c) -> In e (fields b) -> f e = Some (e', k) -> eval s k = 0%F) /\
    (admissible s (replace_all_fields f c) -> sends s (replace_all_fields f c) = sends s c).
  Proof.
    intros Hf. assert (A : sys_solves s (replace_all_fields f c) <-> sys_solves s c /\ forall b e e' k, In b (buses c) -> In e (fields b) -> f e = Some (e', k) -> eval s k = 0%F).
    { unfold sys_solves. cbn [algs replace_all_fields]. rewrite Forall_app. apply and_iff_compat_l. rewrite Forall_forall. split.
      - intros H b e e' k Hb He E. apply H, new_equations. eauto 6.
      - intros H k Hk. apply new_equations in Hk. destruct Hk as (b & e & e' & Hb & He & E). unfold solves. eauto. }
    split.
    - unfold PassSpec.admissible. rewrite A. split.
      + intros [[H1 H2] H3]. rewrite (replaced_values f c s Hf H2) in H3. auto.
      + intros [[H1 H3] H2]. rewrite (replaced_values f c s Hf H2). auto.
    - intros [H _]. apply A in H. destruct H as [_ H]. unfold PassSpec.sends. now rewrite (replaced_values f c s Hf H).
  Qed.
  Lemma substitute_field_ok known (s : var -> F p) e e' k : substitute_field known e = Some (e', k) -> exists v, known e = Some v /\ e' = from_number v /\ (eval s k = 0%F <-> eval s e = v).
  Proof.
    unfold substitute_field. destruct (_ && _); [discriminate|]. destruct (known e) as [v|]; [|discriminate]. intros [= <- <-]. exists v. split; auto. split; auto. rewrite eval_gsub, eval_from_number. apply sub_eq_zero.
  Qed.
  Lemma replace_by_number_ok single (s : var -> F p) e e' k : replace_by_number single e = Some (e', k) -> exists v, single e = Some v /\ e' = from_number v /\ (eval s k = 0%F <-> eval s e = v).
  Proof.
    unfold replace_by_number. destruct (try_to_known e); [discriminate|]. destruct (single e) as [v|]; [|discriminate]. intros [= <- <-]. exists v. split; auto. split; auto. rewrite eval_gsub, eval_from_number, sub_eq_zero. split; congruence.
  Qed.
  Lemma substitute_fields known (c : csys) s :
    (admissible s (substitute_bus_interaction_fields known c) -> admissible s c /\ sends s (substitute_bus_interaction_fields known c) = sends s c) /\
    ((forall b e v, In b (buses c) -> In e (fields b) -> known e = Some v -> eval s e = v) -> carries_over stateful legal c (substitute_bus_interaction_fields known c) s).
  Proof.
    destruct (replaced (substitute_field known) c s) as [H1 H2].
    { intros e e' k E H0. destruct (substitute_field_ok known s e e' k E) as (v & _ & -> & Hk). apply Hk in H0. now rewrite eval_from_number. }
    split; [intros H; split; [now apply H1|now apply H2]|]. intros Hk H. assert (A : admissible s (substitute_bus_interaction_fields known c)); [|split; auto].
    apply H1. split; auto. intros b e e' k Hb He E. destruct (substitute_field_ok known s e e' k E) as (v & Ev & _ & Hkv). apply Hkv. eapply Hk; eauto.
  Qed.

  (** ** Substituting assignments *)
  Lemma undo_app (a b : list (var * gexp)) s : undo (a ++ b) s = undo a (undo b s).
  Proof. apply fold_right_app. Qed.
  Lemma undo_other (a : list (var * gexp)) s v : ~ In v (map fst a) -> undo a s v = s v.
  Proof. induction a as [|[w e] a IH]; cbn; auto. intros H. rewrite upd_other by tauto. apply IH. tauto. Qed.
  Lemma undo_true (a : list (var * gexp)) s : (forall v e, In (v, e) a -> s v = eval s e) -> forall v, undo a s v = s v.
  Proof.
    induction a as [|[w e] a IH]; cbn [undo fold_right fst snd]; intros H v; auto. fold (undo a s). assert (I : forall v, undo a s v = s v) by (apply IH; intros; apply H; now right).
    destruct (veqb_spec w v) as [<-|N]; [|rewrite upd_other by auto; apply I]. rewrite upd_same. rewrite (H w e (or_introl eq_refl)). apply eval_ext. auto.
  Qed.
  Lemma bus_values_ext (c : csys) s s' : (forall v, s v = s' v) -> bus_values s c = bus_values s' c.
  Proof. intros H. apply map_ext. intros b. apply bmap_ext_in. intros e _. apply eval_ext. auto. Qed.
  Lemma admissible_ext (c : csys) s s' : (forall v, s v = s' v) -> admissible s c -> admissible s' c.
  Proof. intros H [H1 H2]. split; [|now rewrite <- (bus_values_ext c s s' H)]. unfold sys_solves in *. rewrite Forall_forall in *. intros e He. unfold solves. rewrite <- (H1 e He). apply eval_ext. auto. Qed.
  Lemma sends_ext (c : csys) s s' : (forall v, s v = s' v) -> sends s c = sends s' c.
  Proof. intros H. unfold PassSpec.sends. now rewrite (bus_values_ext c s s' H). Qed.
  Lemma subst_values v e (c : csys) s : bus_values s (sys_subst v e c) = bus_values (upd s v (eval s e)) c.
  Proof. unfold bus_values. cbn [buses sys_subst]. rewrite map_map. apply map_ext. intros b. rewrite bmap_bmap. apply bmap_ext_in. intros x _. apply eval_subst_unknown. Qed.
  Lemma subst_solves v e (c : csys) s : sys_solves s (sys_subst v e c) <-> sys_solves (upd s v (eval s e)) c.
  Proof. unfold sys_solves. cbn [algs sys_subst]. rewrite Forall_map, !Forall_forall. unfold solves. split; intros H x Hx; [rewrite <- eval_subst_unknown|rewrite eval_subst_unknown]; auto. Qed.
  Lemma subst_all a : forall (c : csys) s, let c' := fold_left (fun c ve => sys_subst (fst ve) (snd ve) c) a c in
    (admissible s c' <-> admissible (undo a s) c) /\ sends s c' = sends (undo a s) c.
  Proof.
    cbv zeta. induction a as [|[v e] a IH]; intros c s; cbn [fold_left fst snd undo fold_right]; [tauto|]. fold (undo a s). destruct (IH (sys_subst v e c) s) as [I1 I2]. rewrite I1, I2. unfold PassSpec.admissible, PassSpec.sends. rewrite subst_values, subst_solves. tauto.
  Qed.
  Lemma solver_based a single (c c' : csys) s : solver_based_optimization a single c = Some c' ->
    (admissible s c' -> admissible (undo a s) c /\ sends s c' = sends (undo a s) c) /\
    ((forall v e, In (v, e) a -> s v = eval s e) -> (forall b e k, In b (buses (fold_left (fun c ve => sys_subst (fst ve) (snd ve) c) a c)) -> In e (fields b) -> single e = Some k -> eval s e = k) -> carries_over stateful legal c c' s).
  Proof.
    unfold solver_based_optimization. destruct (forallb _ _); [|discriminate]. intros [= <-]. set (c1 := fold_left _ a c). destruct (subst_all a c s) as [S1 S2]. fold c1 in S1, S2.
    destruct (replaced (replace_by_number single) c1 s) as [H1 H2].
    { intros e e' k E H0. destruct (replace_by_number_ok single s e e' k E) as (v & _ & -> & Hk). apply Hk in H0. now rewrite eval_from_number. }
    split.
    - intros H. rewrite <- S2. split; [apply S1, H1, H|apply H2, H].
    - intros Ha Hs H. pose proof (undo_true a s Ha) as U. assert (A1 : admissible s c1) by (apply S1; eapply admissible_ext; [|exact H]; intros; symmetry; apply U).
      assert (A2 : admissible s (replace_all_fields (replace_by_number single) c1)).
      { apply H1. split; auto. intros b e e' k Hb He E. destruct (replace_by_number_ok single s e e' k E) as (v & Ev & _ & Hk). apply Hk. eauto. }
      split; auto. rewrite (H2 A2), S2. apply sends_ext. exact U.
  Qed.

  (** ** Constraints of a system one by one *)
  Definition holds (s : var -> F p) (r : cref p) : Prop := match r with RAlg e => solves s e | RBus b => acceptable (bmap (eval s) b) end.
  Lemma admissible_holds s (c : csys) : admissible s c <-> forall r, In r (crefs c) -> holds s r.
  Proof.
    unfold PassSpec.admissible, sys_solves, bus_values, crefs. rewrite Forall_map, !Forall_forall. split.
    - intros [H1 H2] r Hr. apply in_app_iff in Hr. destruct Hr as [Hr|Hr]; apply in_map_iff in Hr; destruct Hr as (x & <- & Hx); cbn; auto. 
    - intros H. split; intros x Hx; [apply (H (RAlg x))|apply (H (RBus x))]; apply in_app_iff; [left|right]; now apply in_map.
  Qed.
  Lemma holds_ext s s' r : (forall v, In v (cref_vars r) -> s v = s' v) -> holds s r -> holds s' r.
  Proof.
    destruct r as [e|b]; cbn [holds cref_vars].
    - intros H. unfold solves. rewrite (eval_ext s s' e H). auto.
    - intros H. rewrite (bmap_ext_in (eval s) (eval s') b); auto. intros e He. apply eval_ext. intros v Hv. apply H. apply in_flat_map. eauto.
  Qed.
  Lemma in_vars v (l : list var) : existsb (veqb v) l = true <-> In v l.
  Proof. rewrite existsb_exists. split; [intros (w & H & E); apply veqb_eq in E; congruence|intros H; exists v; split; auto; apply veqb_refl]. Qed.
  Lemma mentions_any_iff vs (r : cref p) : mentions_any vs r = true <-> exists v, In v vs /\ In v (cref_vars r).
  Proof. unfold mentions_any. rewrite existsb_exists. split; [intros (v & H1 & H2); apply in_vars in H2; eauto|intros (v & H1 & H2); exists v; split; auto; now apply in_vars]. Qed.
  Lemma sends_known s (c : csys) (f : busi gexp -> bool) a : bus_ids_known c = true -> (forall b, In b (buses c) -> is_stateful stateful b = true -> f b = true) ->
    sends s (mkCS a (filter f (buses c)) (derived c)) = sends s c.
  Proof.
    unfold bus_ids_known, PassSpec.sends, bus_values. cbn [buses]. intros K. rewrite forallb_forall in K. revert K. induction (buses c) as [|b l IH]; intros K H; cbn [filter map]; auto.
    assert (I := IH (fun b' Hb' => K b' (or_intror Hb')) (fun b' Hb' => H b' (or_intror Hb'))). destruct (f b) eqn:Ef; cbn [map filter]; [now rewrite I|]. rewrite I.
    assert (Hs : stateful (bus_id (bmap (eval s) b)) = false); [|now rewrite Hs]. specialize (K b (or_introl eq_refl)). destruct (try_to_known (bus_id b)) as [id|] eqn:E; [|discriminate]. cbn. rewrite (try_to_known_eval s _ _ E). destruct (stateful id) eqn:Es; auto. enough (f b = true) by congruence. apply H; [now left|]. unfold is_stateful. now rewrite E.
  Qed.
  Lemma sends_agree s s' (c : csys) : bus_ids_known c = true -> (forall b v, In b (buses c) -> is_stateful stateful b = true -> In v (bus_vars b) -> s v = s' v) -> sends s c = sends s' c.
  Proof.
    unfold bus_ids_known, PassSpec.sends, bus_values. intros K. rewrite forallb_forall in K. revert K. induction (buses c) as [|b l IH]; intros K H; cbn [filter map]; auto.
    assert (I := IH (fun b' Hb' => K b' (or_intror Hb')) (fun b' v Hb' => H b' v (or_intror Hb'))). rewrite I. specialize (K b (or_introl eq_refl)). destruct (try_to_known (bus_id b)) as [id|] eqn:E; [|discriminate].
    destruct (stateful id) eqn:Es.
    - rewrite (bmap_ext_in (eval s) (eval s') b); auto. intros e He. apply eval_ext. intros v Hv. apply (H b v); [now left|unfold is_stateful; now rewrite E|]. apply in_flat_map. eauto.
    - cbn [bus_id bmap]. rewrite !(try_to_known_eval _ _ _ E), Es. reflexivity.
  Qed.

  (** ** Free variables *)
  Hypothesis Hp : prime (Z.pos p).
  Lemma solvable_by x (e : gexp) s : can_always_be_satisfied x e = true -> exists t, solves (upd s x t) e.
  Proof.
    revert e. induction e as [q l c IH] using gexp_ind'. intros H. cbn [can_always_be_satisfied] in H. destruct (try_solve_for x (GE q l c)) as [r|] eqn:E.
    - exists (eval s r). apply (proj2 (try_solve_for_iff Hp _ x _ r E)). rewrite upd_same. apply eval_ext. intros v Hv. symmetry. apply upd_other. intros ->. exact (proj1 (try_solve_for_vars _ _ _ E) Hv).
    - destruct q as [|[a b] [|? ?]]; try discriminate. destruct l; [|discriminate]. destruct (is_zero c) eqn:Ec; [|discriminate]. apply is_zero_eq in Ec. subst. inversion_clear IH as [|? ? [IHa IHb] _]. cbn [fst snd] in *. apply orb_true_iff in H. unfold solves in *. destruct H as [H|H]; [destruct (IHa H) as (t & Ht)|destruct (IHb H) as (t & Ht)]; exists t; cbn [eval fold_right fst snd]; rewrite Ht; ring.
  Qed.
  Lemma degree_0 x (e : gexp) s t : degree_of_variable x e = 0 -> eval (upd s x t) e = eval s e.
  Proof.
    revert e. induction e as [q l c IH] using gexp_ind'. cbn [degree_of_variable]. intros H. cbn [eval]. 
    assert (Hl : lcontains x l = false /\ Forall (fun ab => degree_of_variable x (fst ab) = 0 /\ degree_of_variable x (snd ab) = 0) q).
    { revert H. clear. induction q as [|ab q IHq]; cbn [fold_right]; [destruct (lcontains x l); [discriminate|split; auto]|]. intros H. destruct IHq as [H1 H2]; [lia|]. split; auto. constructor; auto. lia. }
    destruct Hl as [Hl Hq]. f_equal. f_equal.
    - clear H. revert Hq. induction IH as [|ab q [Ha Hb] _ IHq]; intros Hq; cbn [fold_right]; auto. inversion_clear Hq as [|? ? [Q1 Q2] Q3]. rewrite (Ha Q1), (Hb Q2), IHq; auto.
    - revert Hl. unfold lcontains. clear. induction l as [|[v k] l IHl]; cbn [existsb fold_right fst snd]; auto. intros H. apply orb_false_iff in H. destruct H as [H1 H2]. rewrite (IHl H2). rewrite upd_other; auto. intros ->. rewrite veqb_refl in H1. discriminate.
  Qed.
  Lemma degree_1 x (e : gexp) s : degree_of_variable x e <= 1 -> exists a b, forall t, eval (upd s x t) e = (a * t + b)%F.
  Proof.
    revert e. induction e as [q l c IH] using gexp_ind'. cbn [degree_of_variable]. intros H.
    assert (Hq : Forall (fun ab => degree_of_variable x (fst ab) + degree_of_variable x (snd ab) <= 1) q).
    { revert H. clear. induction q as [|ab q IHq]; cbn [fold_right]; [constructor|]. intros H. constructor; [lia|]. apply IHq. lia. }
    assert (Gq : exists a b, forall t, fold_right (fun ab acc => eval (upd s x t) (fst ab) * eval (upd s x t) (snd ab) + acc)%F 0%F q = (a * t + b)%F).
    { clear H. revert Hq. induction IH as [|[y z] q [Ha Hb] _ IHq]; intros Hq; cbn [fold_right fst snd] in *; [exists 0%F, 0%F; intros; ring|]. inversion_clear Hq as [|? ? Q1 Q2]. cbn [fst snd] in Q1. destruct (IHq Q2) as (a1 & b1 & H1).
      destruct Ha as (a2 & b2 & H2); [lia|]. destruct Hb as (a3 & b3 & H3); [lia|]. destruct (degree_of_variable x y) eqn:Dy.
      - exists (eval s y * a3 + a1)%F, (eval s y * b3 + b1)%F. intros t. rewrite H1, H3, (degree_0 x y s t Dy). ring.
      - assert (Dz : degree_of_variable x z = 0) by lia. exists (a2 * eval s z + a1)%F, (b2 * eval s z + b1)%F. intros t. rewrite H1, H2, (degree_0 x z s t Dz). ring. }
    assert (Gl : exists a b, forall t, fold_right (fun vc acc => snd vc * upd s x t (fst vc) + acc)%F 0%F l = (a * t + b)%F).
    { clear. induction l as [|[v k] l IHl]; cbn [fold_right fst snd]; [exists 0%F, 0%F; intros; ring|]. destruct IHl as (a & b & H). destruct (veqb_spec x v) as [<-|N].
      - exists (k + a)%F, b. intros t. rewrite H, upd_same. ring.
      - exists a, (k * s v + b)%F. intros t. rewrite H, upd_other by auto. ring. }
    destruct Gq as (a1 & b1 & H1), Gl as (a2 & b2 & H2). exists (a1 + a2)%F, (b1 + b2 + c)%F. intros t. cbn [eval]. rewrite H1, H2. ring.
  Qed.
  Lemma reaches x (e : gexp) s w : degree_of_variable x e <= 1 -> (exists t, eval (upd s x t) e <> eval s e) -> exists t, eval (upd s x t) e = w.
  Proof.
    intros D (t & Ht). destruct (degree_1 x e s D) as (a & b & H). assert (Es : eval s e = (a * s x + b)%F) by (rewrite <- H; apply eval_ext; intros v _; symmetry; apply upd_id).
    assert (Ha : a <> 0%F) by (intros ->; apply Ht; rewrite H, Es; ring). exists (finv a * (w - b))%F. rewrite H. transitivity ((a * finv a) * (w - b) + b)%F; [ring|]. rewrite finv_r by auto. ring.
  Qed.
  Context (lookup : csys -> list var -> list (cref p)).
  Lemma vunique_iff (l : list var) v : In v (vunique [] l) <-> In v l.
  Proof. split; [apply vunique_sub|]. intros H. destruct (vunique_in [] l v H) as [[]|]; auto. Qed.
  Lemma sys_vars_crefs (c : csys) v : In v (sys_vars c) <-> exists r, In r (crefs c) /\ In v (cref_vars r).
  Proof.
    unfold sys_vars, crefs. rewrite in_app_iff, !in_flat_map. split.
    - intros [(e & He & Hv)|(b & Hb & Hv)]; [exists (RAlg e)|exists (RBus b)]; rewrite in_app_iff; split; auto; [left|right]; now apply in_map.
    - intros (r & Hr & Hv). apply in_app_iff in Hr. destruct Hr as [Hr|Hr]; apply in_map_iff in Hr; destruct Hr as (y & <- & Hy); eauto.
  Qed.
  (** A variable that may be deleted is in one constraint only. *)
  Definition deletable (c : csys) (x : var) (r : cref p) : Prop :=
    match r with
    | RAlg e => can_always_be_satisfied x e = true
    | RBus b => is_stateful stateful b = false /\ (exists f, filter (fun e => match try_to_known e with None => true | _ => false end) (payload b) = [f]) /\ forall e, In e (payload b) -> degree_of_variable x e <= 1
    end.
  Lemma may_delete_spec (c : csys) x : good_lookup lookup c -> In x (sys_vars c) -> may_delete stateful lookup c x = true ->
    exists A r B, crefs c = A ++ r :: B /\ In x (cref_vars r) /\ (forall r', In r' (A ++ B) -> ~ In x (cref_vars r')) /\ deletable c x r.
  Proof.
    intros G Hx. destruct (G [x]) as (extra & P & _). unfold may_delete. assert (L : forall r, lookup c [x] = [r] -> exists A B, crefs c = A ++ r :: B /\ In x (cref_vars r) /\ forall r', In r' (A ++ B) -> ~ In x (cref_vars r')).
    { intros r E. rewrite E in P. apply sys_vars_crefs in Hx. destruct Hx as (r0 & Hr0 & Hv0).
      assert (F : filter (mentions_any [x]) (crefs c) = [r]).
      { apply Permutation_length_1_inv in P. destruct (filter (mentions_any [x]) (crefs c)) as [|y l] eqn:Ef.
        - exfalso. assert (In r0 (filter (mentions_any [x]) (crefs c))) as X by (apply filter_In; split; auto; apply mentions_any_iff; exists x; cbn; auto). rewrite Ef in X. destruct X.
        - cbn in P. injection P as -> Pl. destruct l; [auto|discriminate]. }
      assert (Hm : In r (filter (mentions_any [x]) (crefs c))) by (rewrite F; now left). apply filter_In in Hm. destruct Hm as [Hr Hm]. apply in_split in Hr. destruct Hr as (A & B & ES). exists A, B. split; auto. split; [apply mentions_any_iff in Hm; destruct Hm as (v & [->|[]] & Hv); auto|].
      intros r' Hr' Hv. rewrite ES, filter_app in F. cbn [filter] in F. rewrite Hm in F. assert (Hm' : mentions_any [x] r' = true) by (apply mentions_any_iff; exists x; cbn; auto).
      apply (f_equal (@length _)) in F. rewrite app_length in F. cbn [length] in F. apply in_app_iff in Hr'. destruct Hr' as [Hr'|Hr'].
      - assert (In r' (filter (mentions_any [x]) A)) as X by (now apply filter_In). destruct (filter (mentions_any [x]) A); [destruct X|cbn in F; lia].
      - assert (In r' (filter (mentions_any [x]) B)) as X by (now apply filter_In). destruct (filter (mentions_any [x]) B); [destruct X|cbn in F; lia]. }
    destruct (lookup c [x]) as [|[e|b] [|? ?]]; try discriminate.
    - intros H. destruct (L _ eq_refl) as (A & B & H1 & H2 & H3). exists A, (RAlg e), B. auto.
    - intros H. destruct (L _ eq_refl) as (A & B & H1 & H2 & H3). exists A, (RBus b), B. split; auto. split; auto. split; auto. cbn [deletable]. unfold is_stateful. destruct (try_to_known (bus_id b)) as [id|]; [|discriminate]. apply andb_true_iff in H. destruct H as [H Hd]. apply andb_true_iff in H. destruct H as [Hs Hl]. split; [now apply negb_true_iff|]. split.
      + apply Nat.eqb_eq in Hl. destruct (filter _ (payload b)) as [|f [|? ?]]; try discriminate. eauto.
      + rewrite forallb_forall in Hd. intros e He. apply Nat.leb_le. auto.
  Qed.
  Lemma lookup_by x (b : busi gexp) s (c : csys) : bus_ids_known c = true -> In b (buses c) -> deletable c x (RBus b) -> answerable legal x b s -> exists t, acceptable (bmap (eval (upd s x t)) b).
  Proof.
    intros K Hb (Hs & (f & Hf) & Hd) [(s0 & Hl) Hm]. unfold bus_ids_known in K. rewrite forallb_forall in K. specialize (K b Hb). destruct (try_to_known (bus_id b)) as [id|] eqn:Ei; [|discriminate].
    assert (Hin : In f (payload b) /\ try_to_known f = None). { assert (X : In f (filter (fun e => match try_to_known e with None => true | _ => false end) (payload b))) by (rewrite Hf; now left). apply filter_In in X. destruct X as [X Y]. split; auto. destruct (try_to_known f); [discriminate|auto]. }
    destruct Hin as [Hin Hk]. destruct (reaches x f s (eval s0 f) (Hd f Hin) (Hm f Hin Hk)) as (t & Ht). exists t. intros _ _. cbn [bmap bus_id payload]. assert (Em : map (eval s0) (payload b) = map (eval (upd s x t)) (payload b)); [|rewrite <- Em, (try_to_known_eval _ _ _ Ei); rewrite (try_to_known_eval _ _ _ Ei) in Hl; exact Hl].
    apply map_ext_in. intros e He. destruct (try_to_known e) as [k|] eqn:Ek; [now rewrite !(try_to_known_eval _ _ _ Ek)|]. assert (X : In e (filter (fun e => match try_to_known e with None => true | _ => false end) (payload b))) by (apply filter_In; rewrite Ek; auto). rewrite Hf in X. destruct X as [<-|[]]. auto.
  Qed.
  Definition kept_ref (keep : list var) (r : cref p) : bool :=
    match r with RAlg e => forallb (fun v => existsb (veqb v) keep) (vars e) | RBus b => is_stateful stateful b || forallb (fun v => existsb (veqb v) keep) (bus_vars b) end.
  Lemma crefs_filter (f : gexp -> bool) (g : busi gexp -> bool) (c : csys) d : crefs (mkCS (filter f (algs c)) (filter g (buses c)) d) = filter (fun r => match r with RAlg e => f e | RBus b => g b end) (crefs c).
  Proof.
    unfold crefs. cbn [algs buses]. rewrite filter_app. f_equal.
    - induction (algs c) as [|e l IH]; cbn [filter map]; auto. destruct (f e); cbn [map]; now rewrite IH.
    - induction (buses c) as [|e l IH]; cbn [filter map]; auto. destruct (g e); cbn [map]; now rewrite IH.
  Qed.
  Lemma remove_free_spec (c c' : csys) keep : remove_free_variables stateful lookup c = Some (keep, c') ->
    bus_ids_known c = true /\ keep = filter (fun x => negb (may_delete stateful lookup c x)) (vunique [] (sys_vars c)) /\
    c' = mkCS (filter (fun e => forallb (fun v => existsb (veqb v) keep) (vars e)) (algs c)) (filter (fun b => is_stateful stateful b || forallb (fun v => existsb (veqb v) keep) (bus_vars b)) (buses c)) (derived c) /\
    crefs c' = filter (kept_ref keep) (crefs c).
  Proof.
    unfold remove_free_variables. destruct (bus_ids_known c) eqn:K; [|discriminate]. intros [= <- <-]. split; auto. split; auto. split; auto. apply crefs_filter.
  Qed.
  Lemma in_keep (c : csys) keep x : keep = filter (fun x => negb (may_delete stateful lookup c x)) (vunique [] (sys_vars c)) -> In x (sys_vars c) -> ~ In x keep <-> may_delete stateful lookup c x = true.
  Proof. intros -> Hx. rewrite filter_In, vunique_iff. destruct (may_delete _ _ c x); cbn; split; intros; try tauto; try discriminate. intros [_ H']. discriminate. Qed.
  Lemma free_forward (c c' : csys) keep s : remove_free_variables stateful lookup c = Some (keep, c') -> carries_over stateful legal c c' s.
  Proof.
    intros H. destruct (remove_free_spec _ _ _ H) as (K & Hk & Hc & Hr). intros A. split.
    - apply admissible_holds. intros r Hin. rewrite Hr in Hin. apply filter_In in Hin. apply (proj1 (admissible_holds s c) A). tauto.
    - rewrite Hc. apply sends_known; auto. intros b Hb Hs. now rewrite Hs.
  Qed.
  Lemma not_kept keep r : kept_ref keep r = false -> exists x, In x (cref_vars r) /\ ~ In x keep.
  Proof.
    intros H. assert (F : forallb (fun v => existsb (veqb v) keep) (cref_vars r) = false). { destruct r as [e|b]; cbn [kept_ref] in H; auto. apply orb_false_iff in H. apply H. }
    clear H. cbn [cref_vars]. induction (cref_vars r) as [|v l IH]; [discriminate|]. cbn [forallb] in F. apply andb_false_iff in F. destruct F as [F|F]; [exists v; split; [now left|]; intros X; apply in_vars in X; congruence|]. destruct (IH F) as (x & Hx & N). exists x. split; auto. now right.
  Qed.
  Lemma kept_vars (c : csys) keep r x : good_lookup lookup c -> keep = filter (fun x => negb (may_delete stateful lookup c x)) (vunique [] (sys_vars c)) ->
    In r (crefs c) -> kept_ref keep r = true -> In x (cref_vars r) -> In x keep.
  Proof.
    intros G Hk Hr Hkr Hx. assert (F : forallb (fun v => existsb (veqb v) keep) (cref_vars r) = true \/ exists b, r = RBus b /\ is_stateful stateful b = true).
    { destruct r as [e|b]; cbn [kept_ref] in Hkr; auto. apply orb_true_iff in Hkr. destruct Hkr; eauto. }
    destruct F as [F|(b & -> & Hs)]; [rewrite forallb_forall in F; apply in_vars; auto|].
    assert (Hsv : In x (sys_vars c)) by (apply sys_vars_crefs; eauto). destruct (existsb (veqb x) keep) eqn:E; [now apply in_vars|]. exfalso. assert (N : ~ In x keep) by (intros X; apply in_vars in X; congruence). apply (in_keep c keep x Hk Hsv) in N.
    destruct (may_delete_spec c x G Hsv N) as (A & r & B & ES & Hxr & Ho & Hd). rewrite ES in Hr. apply in_elt_inv in Hr. destruct Hr as [E1|Hr]; [subst r; destruct Hd as [Hd _]; congruence|]. now apply (Ho (RBus b)).
  Qed.
  Lemma free_backward (c c' : csys) keep s : good_lookup lookup c -> remove_free_variables stateful lookup c = Some (keep, c') ->
    (forall b x s', In b (buses c) -> is_stateful stateful b = false -> In x (bus_vars b) -> ~ In x keep -> answerable legal x b s') ->
    admissible s c' -> exists s', (forall v, s' v <> s v -> In v (sys_vars c) /\ ~ In v keep) /\ admissible s' c /\ sends s' c = sends s c'.
  Proof.
    intros G H Hb A. destruct (remove_free_spec _ _ _ H) as (K & Hk & Hc & Hr).
    assert (L : forall todo done, crefs c = done ++ todo -> forall s1, (forall v, s1 v <> s v -> In v (sys_vars c) /\ ~ In v keep) -> (forall r, In r done -> holds s1 r) -> (forall r, In r (crefs c) -> kept_ref keep r = true -> holds s1 r) ->
      exists s', (forall v, s' v <> s v -> In v (sys_vars c) /\ ~ In v keep) /\ forall r, In r (crefs c) -> holds s' r).
    { induction todo as [|r todo IH]; intros done ES s1 H1 H2 H3; [exists s1; split; auto; intros r; rewrite ES, app_nil_r; auto|].
      assert (Hin : In r (crefs c)) by (rewrite ES; apply in_elt). assert (ES' : crefs c = (done ++ [r]) ++ todo) by (rewrite <- app_assoc; exact ES).
      destruct (kept_ref keep r) eqn:Ek.
      - apply (IH (done ++ [r]) ES' s1); auto. intros r' Hr'. apply in_app_iff in Hr'. destruct Hr' as [|[<-|[]]]; auto.
      - destruct (not_kept keep r Ek) as (x & Hx & Nx). assert (Hsv : In x (sys_vars c)) by (apply sys_vars_crefs; eauto). pose proof Nx as Nx0. apply (in_keep c keep x Hk Hsv) in Nx. destruct (may_delete_spec c x G Hsv Nx) as (P & r1 & Q & ES1 & Hxr & Ho & Hd).
        assert (Er : r1 = r). { rewrite ES1 in Hin. apply in_elt_inv in Hin. destruct Hin as [|Hin]; auto. exfalso. eapply Ho; eauto. } subst r1.
        assert (U : exists t, holds (upd s1 x t) r).
        { destruct r as [e|b]; cbn [holds]; [now apply solvable_by|]. assert (Hbc : In b (buses c)). { unfold crefs in Hin. apply in_app_iff in Hin. destruct Hin as [Hin|Hin]; apply in_map_iff in Hin; destruct Hin as (y & Ey & Hy); [discriminate|]. injection Ey as ->. auto. }
          eapply lookup_by; eauto. apply Hb; auto. exact (proj1 Hd). }
        destruct U as (t & Ht).
        assert (Split : forall r', In r' done -> r' = r \/ ~ In x (cref_vars r')).
        { intros r' Hr'. assert (X : In r' (crefs c)) by (rewrite ES; apply in_app_iff; auto). rewrite ES1 in X. apply in_elt_inv in X. destruct X as [->|X]; auto. }
        apply (IH (done ++ [r]) ES' (upd s1 x t)).
        + intros v Hv. destruct (veqb_spec x v) as [<-|N]; auto. rewrite upd_other in Hv by auto. auto.
        + intros r' Hr'. apply in_app_iff in Hr'. destruct Hr' as [Hr'|[<-|[]]]; auto. destruct (Split r' Hr') as [->|N]; auto. apply (holds_ext s1); auto. intros v Hv. symmetry. apply upd_other. congruence.
        + intros r' Hr' Hk'. apply (holds_ext s1); auto. intros v Hv. symmetry. apply upd_other. intros <-. apply Nx0. eapply kept_vars; eauto. }
    destruct (L (crefs c) [] eq_refl s) as (s' & H1 & H2); [intros v N; now destruct N|intros r []|..].
    { intros r Hr' Hk'. apply (proj1 (admissible_holds s c') A). rewrite Hr. now apply filter_In. }
    exists s'. split; auto. split; [now apply admissible_holds|]. transitivity (sends s c).
    - apply sends_agree; auto. intros b v Hb' Hs Hv. destruct (F_dec (s' v) (s v)) as [|N]; auto. exfalso. destruct (H1 v N) as [_ N2]. apply N2. apply (kept_vars c keep (RBus b)); auto; [apply in_app_iff; right; now apply in_map|]. cbn. now rewrite Hs.
    - symmetry. rewrite Hc. apply sends_known; auto. intros b Hb' Hs. now rewrite Hs.
  Qed.
End PassSem.
