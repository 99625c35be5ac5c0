(** Soundness of the exhaustive search. *)
From Coq Require Import NArith ZArith Znumtheory Bool List Lia Ring.
From Coq Require Import ZifyBool ZifyN ZifyNat.
From Verif Require Import Field RangeModel RangeFacts ExprModel ExprFacts ExprWf ExprMore SolveModel SolveFacts
  SystemModel IndexFacts Spec Bridge BusModel BusFacts SearchModel.
Import ListNotations.
Local Open Scope F_scope.

Section Maps.
  Context {A : Type}.
  Lemma vm_insert_in v (a : A) m w b : In (w, b) (vm_insert v a m) -> (w = v /\ b = a) \/ In (w, b) m.
  Proof.
    induction m as [|[u c] m IH]; cbn [vm_insert].
    - intros [[= -> ->]|[]]. auto.
    - destruct (veqb v u); [intros [[= -> ->]|H]; auto; right; now right|].
      destruct (vltb v u); [intros [[= -> ->]|H]; auto|]. intros [H|H]; [right; now left|]. apply IH in H. destruct H; auto. right; now right.
  Qed.
  Lemma vm_insert_key v (a : A) m w : In w (map fst (vm_insert v a m)) <-> w = v \/ In w (map fst m).
  Proof.
    induction m as [|[u c] m IH]; cbn [vm_insert map fst In]; [intuition|].
    destruct (veqb_spec v u) as [->|]; [cbn; intuition|].
    destruct (vltb v u); cbn [map fst In]; [intuition|]. rewrite IH. intuition.
  Qed.
  Lemma vm_get_in v (m : list (var * A)) a : vm_get v m = Some a -> In (v, a) m.
  Proof.
    induction m as [|[w b] m IH]; cbn [vm_get]; [discriminate|]. destruct (veqb_spec v w) as [->|].
    - intros [= ->]. now left.
    - intros H. right. auto.
  Qed.
  Lemma vm_collect_in (l : list (var * A)) v a : In (v, a) (vm_collect l) -> In (v, a) l.
  Proof.
    unfold vm_collect.
    assert (G : forall m, In (v, a) (fold_left (fun m va => vm_insert (fst va) (snd va) m) l m) -> In (v, a) l \/ In (v, a) m).
    { induction l as [|[w b] l IH]; intros m; cbn [fold_left]; auto. intros H. apply IH in H. cbn [fst snd] in H.
      destruct H as [H|H]; [left; now right|]. apply vm_insert_in in H. destruct H as [[-> ->]|H]; auto. left; now left. }
    intros H. apply G in H. destruct H as [H|[]]; auto.
  Qed.
  Lemma vm_collect_key (l : list (var * A)) v : In v (map fst (vm_collect l)) <-> In v (map fst l).
  Proof.
    unfold vm_collect.
    assert (G : forall m, In v (map fst (fold_left (fun m va => vm_insert (fst va) (snd va) m) l m)) <-> In v (map fst l) \/ In v (map fst m)).
    { induction l as [|[w b] l IH]; intros m; cbn [fold_left]; [cbn; tauto|]. rewrite IH, vm_insert_key. cbn [map fst In]. intuition. }
    rewrite G. cbn. tauto.
  Qed.
End Maps.
Lemma vset_in l v : In v (vset l) <-> In v l.
Proof. unfold vset. rewrite vm_collect_key, map_map. cbn [fst]. rewrite map_id. tauto. Qed.

Section SearchFacts.
  Context {p : positive}.
  Context (Hp : prime (Z.pos p)).
  Local Notation gexp := (gexp p).
  Local Notation rc := (rc p).
  Add Ring Fring : (F_ring_theory (p:=p)).

  (** ** Enumerating assignments *)
  Lemma cartesian_complete g vs l (s : var -> F p) : cartesian g vs = Some l -> (forall v, In v vs -> rc_allows (g v) (s v)) ->
    In (map (fun v => (v, s v)) vs) l.
  Proof.
    revert l. induction vs as [|v vs IH]; intros l; cbn [cartesian].
    - intros [= <-] _. now left.
    - destruct (allowed_values (g v)) as [ks|] eqn:E1; [|discriminate]. destruct (cartesian g vs) as [r|]; [|discriminate].
      intros [= <-] H. apply in_flat_map. exists (s v). split.
      + apply (proj2 (b_allowed_values _ _ E1)). apply H. now left.
      + cbn [map]. apply in_map. apply IH; auto. intros w Hw. apply H. now right.
  Qed.
  Lemma cartesian_keys g vs l a : cartesian g vs = Some l -> In a l -> map fst a = vs /\ forall v k, In (v, k) a -> rc_allows (g v : rc) k.
  Proof.
    revert l a. induction vs as [|v vs IH]; intros l a; cbn [cartesian].
    - intros [= <-] [<-|[]]. split; [reflexivity|]. intros v k [].
    - destruct (allowed_values (g v)) as [ks|] eqn:E1; [|discriminate]. destruct (cartesian g vs) as [r|]; [|discriminate].
      intros [= <-] H. apply in_flat_map in H. destruct H as (k & Hk & H). apply in_map_iff in H. destruct H as (b & <- & Hb).
      destruct (IH _ _ eq_refl Hb) as [K V]. split; [cbn [map fst]; congruence|]. intros w k' [[= -> ->]|Hw]; auto.
      now apply (proj2 (b_allowed_values _ _ E1)).
  Qed.
  Lemma cartesian_panic g vs : cartesian g vs = None -> exists v, In v vs /\ allowed_values (g v : rc) = None.
  Proof.
    induction vs as [|v vs IH]; cbn [cartesian]; [discriminate|]. destruct (allowed_values (g v)) eqn:E1.
    - destruct (cartesian g vs); [discriminate|]. intros _. destruct IH as (w & Hw & E); auto. exists w. split; auto. now right.
    - intros _. exists v. split; auto. now left.
  Qed.
  (** An assignment list agrees with [s]. *)
  Definition agrees (s : var -> F p) (a : list (var * F p)) : Prop := Forall (fun vk => s (fst vk) = snd vk) a.
  Lemma all_assignments_complete g vs l (s : var -> F p) : get_all_possible_assignments g vs = Some l ->
    (forall v, In v vs -> rc_allows (g v) (s v)) -> exists a, In a l /\ agrees s a.
  Proof.
    unfold get_all_possible_assignments. destruct (cartesian g vs) as [r|] eqn:E; [|discriminate]. intros [= <-] H.
    exists (vm_collect (map (fun v => (v, s v)) vs)). split.
    - apply in_map. now apply (cartesian_complete g vs).
    - apply Forall_forall. intros [v k] Hin. apply vm_collect_in in Hin. apply in_map_iff in Hin. destruct Hin as (w & [= -> <-] & _). reflexivity.
  Qed.
  Lemma all_assignments_keys (g : var -> rc) vs l a v : get_all_possible_assignments g vs = Some l -> In a l -> In v (map fst a) <-> In v vs.
  Proof.
    unfold get_all_possible_assignments. destruct (cartesian g vs) as [r|] eqn:E; [|discriminate]. intros [= <-] H.
    apply in_map_iff in H. destruct H as (b & <- & Hb). rewrite vm_collect_key. destruct (cartesian_keys _ _ _ _ E Hb) as [-> _]. tauto.
  Qed.

  Lemma subst_multi_eval s a (e : gexp) : agrees s a -> eval s (subst_known_multi a e) = eval s e.
  Proof.
    intros H. unfold subst_known_multi. revert e. induction H as [|[v k] a Hk Ha IH]; intros e; cbn [fold_left]; auto.
    rewrite IH. cbn [fst snd] in *. rewrite eval_subst_known. apply eval_ext. intros w _. unfold upd. destruct (veqb_spec w v) as [->|Hn].
    - rewrite veqb_refl. auto.
    - destruct (veqb_spec v w); congruence.
  Qed.
  Lemma subst_multi_wf a (e : gexp) : wf e -> wf (subst_known_multi a e).
  Proof. unfold subst_known_multi. revert e. induction a as [|[v k] a IH]; intros e H; cbn [fold_left]; auto. apply IH. now apply wf_subst_known. Qed.
  Lemma subst_multi_vars a (e : gexp) w : In w (vars (subst_known_multi a e)) -> In w (vars e) /\ ~ In w (map fst a).
  Proof.
    unfold subst_known_multi. revert e. induction a as [|[v k] a IH]; intros e; cbn [fold_left]; [cbn; tauto|].
    intros H. apply IH in H. destruct H as [H1 H2]. cbn [fst snd] in H1. apply vars_subst_known in H1. cbn [map fst In]. intuition.
  Qed.

  Lemma wf_novars_known (e : gexp) : wf e -> vars e = [] -> exists k, try_to_known e = Some k.
  Proof.
    induction e as [q l c IH] using gexp_ind'. intros W V. rewrite vars_GE in V. apply app_eq_nil in V. destruct V as [Vq Vl].
    destruct l; [|discriminate]. destruct q as [|[a b] q]; [exists c; reflexivity|]. exfalso.
    inversion_clear IH as [|? ? [IHa _] _]. apply wf_GE in W. destruct W as [_ W]. inversion_clear W as [|? ? (Wa & _ & Na & _) _].
    cbn [fst snd] in *. destruct (IHa Wa) as [k Hk]; [|congruence].
    cbn [qvars flat_map fst snd] in Vq. apply app_eq_nil in Vq. destruct Vq as [Vq _]. apply app_eq_nil in Vq. tauto.
  Qed.

  (** Possible values: every value under a consistent assignment is listed; no panic. *)
  Lemma known_values_ok (e : gexp) l : wf e -> (forall a, In a l -> forall v, In v (vars e) -> In v (map fst a)) ->
    exists ks, known_values e l = Some ks /\ forall s a, In a l -> agrees s a -> In (eval s e) ks.
  Proof.
    intros W. induction l as [|a l IH]; intros H; cbn [known_values]; [exists []; split; auto|].
    destruct IH as (ks & E & V); [intros; eapply H; eauto; now right|].
    destruct (wf_novars_known (subst_known_multi a e)) as [k Hk].
    - now apply subst_multi_wf.
    - destruct (vars (subst_known_multi a e)) as [|w ws] eqn:Ev; auto. exfalso.
      destruct (subst_multi_vars a e w) as [H1 H2]; [rewrite Ev; now left|]. apply H2. apply (H a); auto. now left.
    - rewrite Hk, E. exists (k :: ks). split; auto. intros s b [<-|Hb] Hs; [|right; eauto].
      left. rewrite <- (subst_multi_eval s a e Hs). symmetry. now apply try_to_known_eval.
  Qed.
  Lemma few_small g vs t : (t < 2 ^ 32)%N -> has_few_possible_assignments g vs t = true -> forall v, In v vs -> allowed_values (g v : rc) <> None.
  Proof.
    intros Ht. unfold has_few_possible_assignments. destruct (count_assignments g vs 1) as [n|] eqn:E; [|discriminate]. intros Hn v Hv E1.
    apply b_allowed_values_total in E1. apply N.leb_le in Hn.
    assert (G : forall vs acc n, (0 < acc)%N -> count_assignments g vs acc = Some n -> (acc <= n)%N /\ forall v, In v vs -> (range_width (g v) <= n)%N).
    { clear. induction vs as [|v vs IH]; intros acc n Ha; cbn [count_assignments]; [intros [= <-]; split; [lia|intros v []]|].
      destruct (_ && _); [|discriminate]. unfold size_estimate in *. intros H.
      assert (Hw : (0 < range_width (g v))%N) by (unfold range_width; rewrite range_width_of_eq; lia).
      apply IH in H; [|nia]. destruct H as [H1 H2]. split; [nia|]. intros w [<-|Hw']; auto. nia. }
    apply G in E; [|lia]. destruct E as [_ E]. specialize (E v Hv). lia.
  Qed.
  Lemma possible_values_ok g (e : gexp) t : wf e -> (t < 2 ^ 32)%N ->
    match possible_concrete_values g e t with
    | None => False
    | Some None => True
    | Some (Some ks) => forall s, (forall v, In v (vars e) -> rc_allows (g v) (s v)) -> In (eval s e) ks
    end.
  Proof.
    intros W Ht. unfold possible_concrete_values. destruct has_few_possible_assignments eqn:E; auto.
    destruct (get_all_possible_assignments g (vars e)) as [l|] eqn:El.
    - destruct (known_values_ok e l W) as (ks & Ek & V).
      + intros a Ha v Hv. eapply all_assignments_keys; eauto.
      + rewrite Ek. intros s Hs. destruct (all_assignments_complete _ _ _ s El Hs) as (a & Ha & Hag). eauto.
    - unfold get_all_possible_assignments in El. destruct (cartesian g (vars e)) eqn:Ec; [discriminate|].
      apply cartesian_panic in Ec. destruct Ec as (v & Hv & Ev). exact (few_small g _ t Ht E v Hv Ev).
  Qed.

  (** ** The search *)
  Variable sem : busi (F p) -> Prop.
  Variable h : busi rc -> busi rc.
  Hypothesis Hh : handler_sound sem h.

  Definition sys_sat (s : var -> F p) (c : csys p) : Prop :=
    Forall (solves s) (algs c) /\ Forall (fun b => sem (bmap (eval s) b)) (buses c).
  Definition map_true (s : var -> F p) (m : list (var * rc)) : Prop := Forall (fun vr => rc_allows (snd vr) (s (fst vr))) m.
  Definition ref_in (c : csys p) (r : cref p) : Prop := match r with RAlg e => In e (algs c) | RBus b => In b (buses c) end.

  Lemma bmap_multi_eval s a (b : busi gexp) : agrees s a -> bmap (eval s) (bmap (subst_known_multi a) b) = bmap (eval s) b.
  Proof. intros H. rewrite bmap_bmap. apply bmap_ext_in. intros x _. now apply subst_multi_eval. Qed.
  Lemma bus_vars_multi a (b : busi gexp) v : In v (bus_vars (bmap (subst_known_multi a) b)) -> In v (bus_vars b).
  Proof.
    intros H. apply bus_vars_bmap in H. destruct H as (x & Hx & Hv). apply subst_multi_vars in Hv. unfold bus_vars. apply in_flat_map. exists x. tauto.
  Qed.
  Lemma ref_vars (c : csys p) r v : ref_in c r -> In v (cref_vars r) -> In v (sys_vars c).
  Proof.
    unfold sys_vars. rewrite in_app_iff, !in_flat_map. destruct r as [e|b]; cbn [ref_in cref_vars]; intros H1 H2; [left|right]; eauto.
  Qed.
  Lemma ref_effects_ok (c : csys p) g a r : Forall wf (algs c) -> ref_in c r ->
    match ref_effects h g a r with
    | DOk es => (forall s, (forall v, In v (sys_vars c) -> rc_allows (g v) (s v)) -> sys_sat s c -> agrees s a -> Forall (effect_true s) es) /\
                (forall ef v r', In ef es -> In (v, r') (effect_rc_pair ef) -> In v (sys_vars c))
    | DErr => forall s, (forall v, In v (sys_vars c) -> rc_allows (g v) (s v)) -> sys_sat s c -> ~ agrees s a
    | DPanic => False
    end.
  Proof.
    intros Hw Hr. destruct r as [e|b]; cbn [ref_effects ref_in] in *.
    - rewrite Forall_forall in Hw. pose proof (b_solve Hp g (subst_known_multi a e) (subst_multi_wf a e (Hw e Hr))) as H.
      assert (Hc : forall s, (forall v, In v (sys_vars c) -> rc_allows (g v) (s v)) -> consistent_on g s (subst_known_multi a e)).
      { intros s Hs v Hv. apply Hs. apply subst_multi_vars in Hv. apply (ref_vars c (RAlg e)); cbn; tauto. }
      assert (Hs : forall s, sys_sat s c -> agrees s a -> solves s (subst_known_multi a e)).
      { intros s [Hs _] Ha. unfold solves. rewrite subst_multi_eval by auto. rewrite Forall_forall in Hs. exact (Hs e Hr). }
      destruct (solve g (subst_known_multi a e)) as [es b| | |]; auto.
      + destruct H as (H1 & _ & H3). split; [auto|]. intros ef v r' Hef Hv. specialize (H3 ef Hef).
        apply (ref_vars c (RAlg e)); auto. cbn [cref_vars].
        destruct ef as [w k|w r0|w cv r0 a0 b0]; cbn in Hv; [| |tauto]; (destruct Hv as [[= -> <-]|[]]; apply subst_multi_vars in H3; tauto).
      + intros s H1 H2 H3. exact (H s (Hc s H1) (Hs s H2 H3)).
      + intros s H1 H2 H3. exact (H s (Hc s H1) (Hs s H2 H3)).
    - pose proof (bus_solve_ok Hp sem h Hh g (bmap (subst_known_multi a) b)) as H.
      assert (Hc : forall s, (forall v, In v (sys_vars c) -> rc_allows (g v) (s v)) ->
                 forall v, In v (bus_vars (bmap (subst_known_multi a) b)) -> rc_allows (g v) (s v)).
      { intros s Hs v Hv. apply Hs. apply bus_vars_multi in Hv. apply (ref_vars c (RBus b)); cbn; auto. }
      assert (Hs : forall s, sys_sat s c -> agrees s a -> sem (bmap (eval s) (bmap (subst_known_multi a) b))).
      { intros s [_ Hs] Ha. rewrite bmap_multi_eval by auto. rewrite Forall_forall in Hs. exact (Hs b Hr). }
      destruct (bus_solve h g (bmap (subst_known_multi a) b)) as [es| |]; auto.
      + destruct H as (H1 & H3). split; [auto|]. intros ef v r' Hef Hv. specialize (H3 ef Hef).
        apply (ref_vars c (RBus b)); auto. cbn [cref_vars].
        destruct ef as [w k|w r0|w cv r0 a0 b0]; cbn in Hv; try tauto. destruct Hv as [[= -> <-]|[]]. now apply bus_vars_multi in H3.
      + intros s H1 H2 H3. exact (H s (Hc s H1) (Hs s H2 H3)).
  Qed.
  Lemma collect_effects_ok (c : csys p) g a rs : Forall wf (algs c) -> (forall r, In r rs -> ref_in c r) ->
    match collect_effects h g a rs with
    | DOk es => (forall s, (forall v, In v (sys_vars c) -> rc_allows (g v) (s v)) -> sys_sat s c -> agrees s a -> Forall (effect_true s) es) /\
                (forall ef v r', In ef es -> In (v, r') (effect_rc_pair ef) -> In v (sys_vars c))
    | DErr => forall s, (forall v, In v (sys_vars c) -> rc_allows (g v) (s v)) -> sys_sat s c -> ~ agrees s a
    | DPanic => False
    end.
  Proof.
    intros Hw. induction rs as [|r rs IH]; intros H; cbn [collect_effects].
    - split; [constructor|intros ef v r' []].
    - pose proof (ref_effects_ok c g a r Hw (H r (or_introl eq_refl))) as H1.
      destruct (ref_effects h g a r) as [es| |]; auto.
      specialize (IH (fun r' Hr' => H r' (or_intror Hr'))). destruct (collect_effects h g a rs) as [es'| |]; auto.
      destruct H1 as [A1 B1], IH as [A2 B2]. split.
      + intros s Hs1 Hs2 Hs3. apply Forall_app. auto.
      + intros ef v r' Hef Hv. apply in_app_iff in Hef. destruct Hef; eauto.
  Qed.
  Lemma intersect_all_ok l : forall m, match intersect_all l m with
    | DOk m' => (forall s, map_true s l -> map_true s m -> map_true s m') /\ (forall v, In v (map fst m') -> In v (map fst l) \/ In v (map fst m))
    | DErr => forall s, map_true s l -> ~ map_true s m
    | DPanic => False
    end.
  Proof.
    induction l as [|[v r] l IH]; intros m; cbn [intersect_all].
    - split; auto.
    - destruct (vm_get v m) as [ex|] eqn:E.
      + destruct (is_disjoint ex r) eqn:Ed.
        * intros s H1 H2. inversion_clear H1 as [|? ? H3 _]. apply vm_get_in in E. unfold map_true in H2. rewrite Forall_forall in H2.
          specialize (H2 _ E). exact (b_disjoint _ _ _ Ed (conj H2 H3)).
        * specialize (IH (vm_insert v (conjunction ex r) m)).
          assert (G : forall s, map_true s ((v, r) :: l) -> map_true s m -> map_true s (vm_insert v (conjunction ex r) m)).
          { intros s H1 H2. inversion_clear H1 as [|? ? H3 _]. apply Forall_forall. intros [w b] Hin. apply vm_insert_in in Hin.
            unfold map_true in H2. rewrite Forall_forall in H2. destruct Hin as [[-> ->]|Hin]; [|exact (H2 _ Hin)]. cbn [fst snd] in *.
            apply b_conjunction; auto. exact (H2 _ (vm_get_in _ _ _ E)). }
          destruct (intersect_all l _); auto.
          -- destruct IH as [IH1 IH2]. split.
             ++ intros s H1 H2. apply IH1; [now inversion H1|auto].
             ++ intros w Hw. apply IH2 in Hw. rewrite vm_insert_key in Hw. cbn [map fst In]. intuition.
          -- intros s H1 H2. apply (IH s); [now inversion H1|auto].
      + specialize (IH (vm_insert v r m)).
        assert (G : forall s, map_true s ((v, r) :: l) -> map_true s m -> map_true s (vm_insert v r m)).
        { intros s H1 H2. inversion_clear H1 as [|? ? H3 _]. apply Forall_forall. intros [w b] Hin. apply vm_insert_in in Hin.
          unfold map_true in H2. rewrite Forall_forall in H2. destruct Hin as [[-> ->]|Hin]; [exact H3|exact (H2 _ Hin)]. }
        destruct (intersect_all l _); auto.
        -- destruct IH as [IH1 IH2]. split.
           ++ intros s H1 H2. apply IH1; [now inversion H1|auto].
           ++ intros w Hw. apply IH2 in Hw. rewrite vm_insert_key in Hw. cbn [map fst In]. intuition.
        -- intros s H1 H2. apply (IH s); [now inversion H1|auto].
  Qed.
  Lemma derive_ok (c : ics p) g a : Forall wf (algs (isys c)) ->
    match derive_new_rcs h c g a with
    | DOk m => (forall s, (forall v, In v (sys_vars (isys c)) -> rc_allows (g v) (s v)) -> sys_sat s (isys c) -> agrees s a -> map_true s m) /\
               (forall v, In v (map fst m) -> In v (sys_vars (isys c)) \/ In v (map fst a))
    | DErr => forall s, (forall v, In v (sys_vars (isys c)) -> rc_allows (g v) (s v)) -> sys_sat s (isys c) -> ~ agrees s a
    | DPanic => False
    end.
  Proof.
    intros Hw. unfold derive_new_rcs.
    pose proof (collect_effects_ok (isys c) g a (referencing c (map fst a)) Hw) as H.
    assert (Hr : forall r, In r (referencing c (map fst a)) -> ref_in (isys c) r).
    { intros r Hr. apply referencing_sound in Hr. destruct r; exact Hr. }
    specialize (H Hr). destruct (collect_effects h g a _) as [es| |]; auto. destruct H as [H1 H2].
    set (l := flat_map effect_rc_pair es ++ map (fun vk => (fst vk, from_value (snd vk))) a).
    assert (G : forall s, (forall v, In v (sys_vars (isys c)) -> rc_allows (g v) (s v)) -> sys_sat s (isys c) -> agrees s a -> map_true s l).
    { intros s A B C. unfold l, map_true. apply Forall_app. split.
      - apply Forall_flat_map. eapply Forall_impl; [|exact (H1 s A B C)]. intros ef Hef. destruct ef; cbn in *; constructor; auto; cbn.
        rewrite rc_allows_iff, from_value_allows. auto.
      - rewrite Forall_map. eapply Forall_impl; [|exact C]. intros [v k] E. cbn [fst snd] in *. rewrite rc_allows_iff, from_value_allows. auto. }
    assert (K : forall v, In v (map fst l) -> In v (sys_vars (isys c)) \/ In v (map fst a)).
    { intros v. unfold l. rewrite map_app, in_app_iff, map_map. cbn [fst]. intros [Hv|Hv]; auto. left.
      apply in_map_iff in Hv. destruct Hv as ([w r] & <- & Hv). apply in_flat_map in Hv. destruct Hv as (ef & Hef & Hv). cbn [fst]. eauto. }
    pose proof (intersect_all_ok l []) as H. destruct (intersect_all l []) as [m| |]; auto.
    - destruct H as [A B]. split.
      + intros s H3 H4 H5. apply A; [auto|constructor].
      + intros v Hv. apply B in Hv. cbn in Hv. destruct Hv as [Hv|[]]. auto.
    - intros s H3 H4 H5. apply (H s); [auto|constructor].
  Qed.

  Section Search.
    Variable c : ics p.
    Variable g : var -> rc.
    Hypothesis Hw : Forall wf (algs (isys c)).
    Definition good_s (s : var -> F p) : Prop := (forall v, In v (sys_vars (isys c)) -> rc_allows (g v) (s v)) /\ sys_sat s (isys c).

    Lemma search_fold_ok l : forall acc,
      match search_fold h c g l acc with
      | DOk m => (forall s, good_s s -> map_true s acc -> map_true s m) /\
                 (forall s a, good_s s -> In a l -> agrees s a -> map_true s m) /\
                 (forall v, In v (map fst m) -> In v (map fst acc))
      | _ => False
      end.
    Proof.
      induction l as [|a l IH]; intros acc; cbn [search_fold].
      - split; [auto|]. split; [intros s a _ []|auto].
      - pose proof (derive_ok c g a Hw) as HD. destruct (derive_new_rcs h c g a) as [m| |]; auto.
        2:{ specialize (IH acc). destruct (search_fold h c g l acc); auto. destruct IH as (A & B & C). split; auto. split; auto.
            intros s b Hs [<-|Hb] Hag; [|eauto]. exfalso. destruct Hs. exact (HD s H H0 Hag). }
        destruct HD as [HD _].
        set (acc1 := map _ acc). set (acc2 := filter _ acc1).
        assert (T1 : forall s, map_true s acc -> map_true s acc1).
        { intros s Hs. unfold acc1, map_true. rewrite Forall_map. eapply Forall_impl; [|exact Hs]. intros [v r] Hr. cbn [fst snd] in *.
          apply b_disjunction. auto. }
        assert (T2 : forall s, good_s s -> agrees s a -> map_true s acc1).
        { intros s [H1 H2] Ha. specialize (HD s H1 H2 Ha). unfold acc1, map_true. rewrite Forall_map. apply Forall_forall. intros [v r] _. cbn [fst snd].
          apply b_disjunction. right. destruct (vm_get v m) as [r'|] eqn:E.
          - apply vm_get_in in E. unfold map_true in HD. rewrite Forall_forall in HD. exact (HD _ E).
          - apply rc_allows_iff, unconstrained_allows. }
        assert (T3 : forall s, map_true s acc1 -> map_true s acc2).
        { intros s Hs. unfold acc2, map_true in *. rewrite Forall_forall in *. intros x Hx. apply filter_In in Hx. apply Hs. tauto. }
        assert (K : forall v, In v (map fst acc2) -> In v (map fst acc)).
        { intros v Hv. apply in_map_iff in Hv. destruct Hv as ([w r] & <- & Hv). apply filter_In in Hv. destruct Hv as [Hv _].
          unfold acc1 in Hv. apply in_map_iff in Hv. destruct Hv as ([u r'] & [= <- _] & Hv). cbn [fst]. now apply (in_map fst) in Hv. }
        destruct acc2 as [|x acc2'] eqn:E2.
        + split; [constructor|]. split; [constructor|intros v []].
        + rewrite <- E2 in *. specialize (IH acc2). destruct (search_fold h c g l acc2); auto. destruct IH as (A & B & C).
          split; [intros s Hs Ha; apply A; auto|]. split; [|auto]. intros s b Hs [<-|Hb] Hag; eauto.
    Qed.
    Lemma search_first_ok l :
      match search_first h c g l with
      | DOk m => (forall s a, good_s s -> In a l -> agrees s a -> map_true s m) /\
                 (forall v, In v (map fst m) -> In v (sys_vars (isys c)) \/ exists a, In a l /\ In v (map fst a))
      | DErr => forall s a, good_s s -> In a l -> ~ agrees s a
      | DPanic => False
      end.
    Proof.
      induction l as [|a l IH]; cbn [search_first]; [intros s a _ []|].
      pose proof (derive_ok c g a Hw) as HD. destruct (derive_new_rcs h c g a) as [m| |]; auto.
      - destruct HD as [HD HK]. pose proof (search_fold_ok l m) as H. destruct (search_fold h c g l m); try tauto. destruct H as (A & B & C).
        split.
        + intros s b Hs [<-|Hb] Hag; [|eauto]. apply A; auto. destruct Hs. auto.
        + intros v Hv. apply C, HK in Hv. destruct Hv; auto. right. exists a. split; auto. now left.
      - destruct (search_first h c g l); auto.
        + destruct IH as [A B]. split.
          * intros s b Hs [<-|Hb] Hag; [|eauto]. destruct Hs. exfalso. exact (HD s H H0 Hag).
          * intros v Hv. apply B in Hv. destruct Hv as [Hv|(b & Hb & Hv)]; auto. right. exists b. split; auto. now right.
        + intros s b Hs [<-|Hb]; [|eauto]. destruct Hs. auto.
    Qed.
    Theorem exhaustive_search_ok vs :
      match exhaustive_search_on h c g vs with
      | DOk m => (forall s, (forall v, In v vs -> rc_allows (g v) (s v)) -> good_s s -> map_true s m) /\
                 (forall v, In v (map fst m) -> In v (sys_vars (isys c)) \/ In v vs)
      | DErr => forall s, (forall v, In v vs -> rc_allows (g v) (s v)) -> ~ good_s s
      | DPanic => exists v, In v vs /\ allowed_values (g v) = None
      end.
    Proof.
      unfold exhaustive_search_on. destruct (get_all_possible_assignments g vs) as [l|] eqn:E.
      - pose proof (search_first_ok l) as H. destruct (search_first h c g l).
        + destruct H as [A B]. split.
          * intros s Hs Hg. destruct (all_assignments_complete _ _ _ s E Hs) as (b & Hb & Hag). eauto.
          * intros v Hv. apply B in Hv. destruct Hv as [Hv|(b & Hb & Hv)]; auto. right. eapply all_assignments_keys; eauto.
        + intros s Hs Hg. destruct (all_assignments_complete _ _ _ s E Hs) as (b & Hb & Hag). exact (H s b Hg Hb Hag).
        + destruct H.
      - unfold get_all_possible_assignments in E. destruct (cartesian g vs) eqn:Ec; [discriminate|]. now apply cartesian_panic.
    Qed.
  End Search.

  (** The candidates handed to the search have few assignments. *)
  Lemma candidate_small (g : var -> rc) vs v : is_candidate g vs = true -> In v vs -> (size_estimate (g v) <= MAX_VAR_RANGE_WIDTH)%N.
  Proof. unfold is_candidate. rewrite andb_true_iff, forallb_forall. intros [_ H] Hv. specialize (H v Hv). lia. Qed.
  Lemma vsets_unique_in l : forall seen x, In x (vsets_unique seen l) -> In x l.
  Proof.
    induction l as [|y l IH]; intros seen x; cbn [vsets_unique]; auto. destruct existsb; [right; eauto|].
    intros [<-|H]; [now left|right; eauto].
  Qed.
  Lemma candidates_small (c : csys p) g vs : In vs (get_brute_force_candidates c g) -> is_candidate g vs = true /\ vs <> [].
  Proof.
    unfold get_brute_force_candidates. intros H. apply vsets_unique_in in H. apply filter_In in H. destruct H as [H Hn]. split.
    - apply in_flat_map in H. destruct H as (x & _ & H). destruct (is_candidate g x) eqn:E.
      + destruct H as [<-|[]]. exact E.
      + destruct (is_candidate g (without_largest g x)) eqn:E2; [|destruct H]. destruct H as [<-|[]]. exact E2.
    - intros ->. discriminate.
  Qed.
  Lemma size_insert_in (g : var -> rc) v l w : In w (size_insert g v l : list var) <-> w = v \/ In w l.
  Proof. induction l as [|u l IH]; cbn [size_insert]; [cbn; intuition|]. destruct (_ <? _)%N; cbn [In]; [intuition|]. rewrite IH. intuition. Qed.
  Lemma size_sort_in (g : var -> rc) l w : In w (size_sort g l) -> In w l.
  Proof.
    unfold size_sort. assert (G : forall acc, In w (fold_left (fun acc v => size_insert g v acc) l acc) -> In w l \/ In w acc).
    { induction l as [|v l IH]; intros acc; cbn [fold_left]; auto. intros H. apply IH in H. rewrite size_insert_in in H. cbn [In]. intuition. }
    intros H. apply G in H. destruct H as [H|[]]; auto.
  Qed.
  Lemma firstn_incl {A} n (l : list A) x : In x (firstn n l) -> In x l.
  Proof. revert l. induction n as [|n IH]; intros [|y l]; cbn; try tauto. intros [->|H]; auto. Qed.
  Lemma candidates_vars (c : csys p) g vs v : In vs (get_brute_force_candidates c g) -> In v vs -> In v (sys_vars c).
  Proof.
    unfold get_brute_force_candidates. intros H Hv. apply vsets_unique_in in H. apply filter_In in H. destruct H as [H _].
    apply in_flat_map in H. destruct H as (x & Hx & H). apply vsets_unique_in in Hx.
    assert (Hsub : In v x).
    { destruct (is_candidate g x); [destruct H as [<-|[]]; auto|]. destruct (is_candidate g (without_largest g x)); [|destruct H].
      destruct H as [<-|[]]. unfold without_largest in Hv. apply (proj1 (vset_in _ _)) in Hv. apply firstn_incl in Hv. now apply size_sort_in in Hv. }
    apply in_map_iff in Hx. destruct Hx as (e & <- & He). apply (proj1 (vset_in _ _)) in Hsub. unfold sys_vars. apply in_app_iff in He. rewrite in_app_iff.
    destruct He as [He|He]; [left; apply in_flat_map; eauto|right]. apply in_flat_map in He. destruct He as (b & Hb & He).
    apply in_flat_map. exists b. split; auto. apply in_flat_map. eauto.
  Qed.
End SearchFacts.
