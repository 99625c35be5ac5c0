(** All passes produce expressions over issued columns. *)
From Coq Require Import Arith NArith ZArith Znumtheory Bool List Lia.
From Verif Require Import Field RangeModel ExprModel ExprFacts ExprMore ExprWf SystemModel Spec SearchModel SearchFacts BaseModel IndexFacts PassModel PassSpec PassFacts ExhModel ExhFacts RuleModel RuleDrive PropsExh PipeModel PipeSpec PipeSolver.
Import ListNotations.
Local Open Scope nat_scope.

Section Over.
  Context {p : positive} (Hp : prime (Z.pos p)).
  Local Notation gexp := (gexp p).
  Local Notation csys := (csys p).
  Context (n : nat).
  Lemma over_number k : over n (from_number k : gexp).
  Proof. split; [apply wf_from_number|intros v []]. Qed.
  Lemma over_var v : issued n v -> over n (from_var v : gexp).
  Proof. intros I. split; [now apply wf_from_var|]. intros w [<-|[]]. exact I. Qed.
  Lemma over_gneg (a : gexp) : over n a -> over n (gneg a).
  Proof. intros [W V]. split; [now apply wf_gneg|]. now rewrite vars_gneg. Qed.
  Lemma over_gadd (a b : gexp) : over n a -> over n b -> over n (gadd a b).
  Proof. intros [W V] [W' V']. split; [now apply wf_gadd|]. intros v H. apply vars_gadd in H. destruct H; auto. Qed.
  Lemma over_gsub (a b : gexp) : over n a -> over n b -> over n (gsub a b).
  Proof. intros [W V] [W' V']. split; [now apply wf_gsub|]. intros v H. apply vars_gsub in H. destruct H; auto. Qed.
  Lemma over_gmul (a b : gexp) : over n a -> over n b -> over n (gmul a b).
  Proof. intros [W V] [W' V']. split; [now apply wf_gmul|]. intros v H. apply vars_gmul in H. destruct H; auto. Qed.
  Lemma over_gscale (a : gexp) k : over n a -> over n (gscale a k).
  Proof. intros [W V]. split; [now apply wf_gscale|]. intros v H. apply vars_gscale in H. auto. Qed.
  Lemma over_gsum (l : list gexp) : Forall (over n) l -> over n (gsum l).
  Proof.
    intros H. split; [apply wf_gsum; eapply Forall_impl; [|exact H]; intros e [W _]; exact W|]. intros v Hv. apply vars_gsum in Hv. destruct Hv as (e & He & Hv).
    rewrite Forall_forall in H. now apply (H e He).
  Qed.
  Lemma over_subst_known v k (a : gexp) : over n a -> over n (subst_known v k a).
  Proof. intros [W V]. split; [now apply wf_subst_known|]. intros w H. apply vars_subst_known in H. apply V. tauto. Qed.
  Lemma over_subst_unknown v (e a : gexp) : over n e -> over n a -> over n (subst_unknown v e a).
  Proof. intros [W V] [W' V']. split; [now apply wf_subst_unknown|]. intros w H. apply vars_subst_unknown in H. destruct H as [[H _]|[_ H]]; auto. Qed.
  Lemma over_multi l (a : gexp) : over n a -> over n (subst_known_multi l a).
  Proof. intros [W V]. split; [now apply subst_multi_wf|]. intros w H. apply subst_multi_vars in H. apply V. tauto. Qed.
  Lemma over_bmap (f : gexp -> gexp) (b : busi gexp) : (forall e, over n e -> over n (f e)) -> Forall (over n) (fields b) -> Forall (over n) (fields (bmap f b)).
  Proof.
    intros H G. unfold fields in *. inversion G as [|? ? G1 G']; subst. inversion G' as [|? ? G2 G3]; subst. cbn [bmap bus_id mult payload]. constructor; auto. constructor; auto.
    rewrite Forall_map. eapply Forall_impl; [|exact G3]. exact H.
  Qed.
  Lemma over_factors (e : gexp) : over n e -> Forall (over n) (to_factors e).
  Proof.
    induction e as [q l c IH] using gexp_ind'. intros O. pose proof O as [W V]. cbn [to_factors]. destruct (length q + length l + (if is_zero c then 0 else 1)) as [|[|m]].
    - constructor; [|constructor]. split; [apply wf_gzero|intros v []].
    - assert (L : Forall (over n) match l with (v, _) :: _ => [from_var v : gexp] | [] => [] end).
      { destruct l as [|[v k] l]; constructor; [|constructor]. apply over_var. apply V. rewrite vars_GE. apply in_app_iff. right. now left. }
      destruct q as [|[a b] [|? ?]]; auto. inversion IH as [|? ? [Ia Ib] _]; subst. cbn [fst snd] in *. apply wf_GE in W. destruct W as [_ Wq]. inversion Wq as [|? ? (Wa & Wb & _) _]; subst. cbn [fst snd] in *.
      apply Forall_app. split; [apply Ia|apply Ib]; split; auto; intros v Hv; apply V; rewrite vars_GE; apply in_app_iff; left; cbn; rewrite ?in_app_iff; tauto.
    - constructor; [|constructor]. now apply over_gscale.
  Qed.
  Lemma over_product (l : list gexp) e : Forall (over n) l -> PassModel.product l = Some e -> over n e.
  Proof.
    destruct l as [|f l]; [discriminate|]. cbn [PassModel.product]. intros H [= <-]. inversion_clear H as [|? ? W Hl]. revert f W. induction Hl as [|g l Wg _ IH]; intros f W; cbn [fold_left]; auto.
    apply IH. now apply over_gmul.
  Qed.

  Lemma system_over_sub (c c' : csys) : incl (algs c') (algs c) -> incl (buses c') (buses c) -> incl (derived c') (derived c) -> system_over n c -> system_over n c'.
  Proof. intros A B D (X & Y & Z). repeat split; apply Forall_forall; intros x Hx; [rewrite Forall_forall in X|rewrite Forall_forall in Y|rewrite Forall_forall in Z]; auto. Qed.
  Lemma system_over_vars (c : csys) v : system_over n c -> In v (sys_vars c) -> issued n v.
  Proof.
    intros (X & Y & _) H. unfold sys_vars in H. apply in_app_iff in H. rewrite !in_flat_map in H. rewrite Forall_forall in X, Y. destruct H as [(e & He & H)|(b & Hb & H)]; [now apply (X e He)|].
    apply bus_vars_in in H. destruct H as (e & He & H). specialize (Y b Hb). rewrite Forall_forall in Y. now apply (Y e He).
  Qed.
  Lemma trivial_over (c : csys) : system_over n c -> system_over n (remove_trivial_constraints c).
  Proof. apply system_over_sub; unfold remove_trivial_constraints; cbn [algs buses derived]; try apply incl_filter; apply incl_refl. Qed.
  Lemma dup_over (c c' : csys) : system_over n c -> remove_duplicate_factors c = Some c' -> system_over n c'.
  Proof.
    intros (X & Y & Z). unfold remove_duplicate_factors. destruct (existsb _ _); [discriminate|]. destruct (all_some _ _) as [new|] eqn:E; [|discriminate]. intros [= <-]. split; [|split; auto].
    cbn [algs]. apply Forall_app. split; [now apply incl_Forall with (2 := X), incl_filter|]. apply all_some_spec in E. rewrite Forall_forall in X. apply Forall_forall. intros e He.
    destruct (Forall2_in_r _ _ _ _ E He) as (f & Hf & H). apply filter_In in Hf. eapply over_product; [|exact H]. apply Forall_forall. intros g Hg. apply gunique_in in Hg.
    pose proof (over_factors f (X f (proj1 Hf))) as O. rewrite Forall_forall in O. apply O. tauto.
  Qed.
  Lemma simp_over stateful (c c' : csys) : system_over n c -> trivial_simplifications stateful c = Some c' -> system_over n c'.
  Proof.
    intros O. unfold trivial_simplifications. set (c2 := remove_equal_bus_interactions _ _). assert (O2 : system_over n c2).
    { apply (system_over_sub (remove_trivial_constraints c)); [apply incl_refl| |apply incl_refl|now apply trivial_over]. intros b. apply drop_equal_sub. }
    clearbody c2. unfold remove_redundant_constraints. destruct (remove_duplicate_factors c2) as [c3|] eqn:E; [|discriminate]. apply dup_over in E; auto.
    destruct (existsb _ _); [discriminate|]. destruct (all_some _ _) as [rs|]; [|discriminate]. cbn. intros [= <-]. revert E. apply system_over_sub; cbn [algs buses derived].
    - intros e He. apply in_map_iff in He. destruct He as ([i x] & <- & He). apply filter_In in He. destruct He as [He _]. unfold enumerate in He. now apply in_combine_r in He.
    - apply incl_refl.
    - apply incl_filter.
  Qed.
  Lemma free_over stateful lookup (c : csys) keep c' : system_over n c -> remove_free_variables stateful lookup c = Some (keep, c') -> system_over n c'.
  Proof.
    intros O. unfold remove_free_variables. destruct (bus_ids_known c); [|discriminate]. intros H. injection H as _ <-. revert O. apply system_over_sub; cbn [algs buses derived]; try apply incl_filter; apply incl_refl.
  Qed.
  Lemma disc_over stateful lookup (c : csys) keep c' : system_over n c -> remove_disconnected_columns stateful lookup c = Some (keep, c') -> system_over n c'.
  Proof.
    intros O. unfold remove_disconnected_columns. destruct (bus_ids_known c); [|discriminate]. destruct (reachable_variables _ _ _); [|discriminate]. intros H. injection H as _ <-.
    revert O. apply system_over_sub; cbn [algs buses derived]; try apply incl_filter; apply incl_refl.
  Qed.
  Lemma replace_over f (c : csys) : (forall e e' k, over n e -> f e = Some (e', k) -> over n e' /\ over n k) -> system_over n c -> system_over n (replace_all_fields f c).
  Proof.
    intros H (X & Y & Z). split; [|split; auto]; unfold replace_all_fields; cbn [algs buses].
    - apply Forall_app. split; auto. apply Forall_forall. intros k Hk. apply in_flat_map in Hk. destruct Hk as (b & Hb & Hk). unfold replace_fields in Hk. cbn [snd] in Hk.
      apply in_flat_map in Hk. destruct Hk as (e & He & Hk). rewrite Forall_forall in Y. specialize (Y b Hb). rewrite Forall_forall in Y. specialize (Y e He).
      destruct (f e) as [[e' k']|] eqn:E; [|destruct Hk]. destruct Hk as [<-|[]]. now apply (H e e').
    - rewrite Forall_map. eapply Forall_impl; [|exact Y]. intros b. unfold replace_fields. cbn [fst]. apply over_bmap. intros e Oe.
      destruct (f e) as [[e' k]|] eqn:E; auto. now apply (H e e' k).
  Qed.
  Lemma fields_over known (c : csys) : system_over n c -> system_over n (substitute_bus_interaction_fields known c).
  Proof.
    apply replace_over. intros e e' k O. unfold substitute_field. destruct (_ && _); [discriminate|]. destruct (known e) as [x|]; [|discriminate]. intros [= <- <-].
    split; [apply over_number|]. apply over_gsub; auto. apply over_number.
  Qed.
  Lemma cm_map_over f (m : cmethod p) : (forall e, (forall v, In v (vars e) -> issued n v) -> forall v, In v (vars (f e)) -> issued n v) ->
    (forall v, In v (cm_vars m) -> issued n v) -> forall v, In v (cm_vars (cm_map f m)) -> issued n v.
  Proof.
    destruct m as [k|a b]; cbn [cm_map cm_vars]; auto. intros H G v Hv. apply in_app_iff in Hv. destruct Hv as [Hv|Hv]; [apply (H a) in Hv|apply (H b) in Hv]; auto; intros w Hw; apply G, in_app_iff; auto.
  Qed.
  Lemma sys_map_over f (c : csys) : (forall e, over n e -> over n (f e)) -> (forall e, (forall v, In v (vars e) -> issued n v) -> forall v, In v (vars (f e)) -> issued n v) ->
    system_over n c -> system_over n (sys_map f c).
  Proof.
    intros H G (X & Y & Z). repeat split; unfold sys_map; cbn [algs buses derived]; rewrite Forall_map.
    - eapply Forall_impl; [|exact X]. exact H.
    - eapply Forall_impl; [|exact Y]. intros b. now apply over_bmap.
    - eapply Forall_impl; [|exact Z]. intros [x m] [I J]. cbn [fst snd] in *. split; auto. now apply cm_map_over.
  Qed.
  Lemma sys_subst_over v e (c : csys) : over n e -> system_over n c -> system_over n (sys_subst v e c).
  Proof.
    intros O. rewrite subst_map. apply sys_map_over; [intros a; now apply over_subst_unknown|]. intros a H w Hw. apply vars_subst_unknown in Hw. destruct Hw as [[Hw _]|[_ Hw]]; auto. now apply O.
  Qed.
  Lemma solver_over asg single (c c' : csys) : Forall (fun ve => over n (snd ve)) asg -> system_over n c -> solver_based_optimization asg single c = Some c' -> system_over n c'.
  Proof.
    intros Oa O. unfold solver_based_optimization. destruct (forallb _ _); [|discriminate]. intros [= <-]. apply replace_over.
    - intros e e' k Oe. unfold replace_by_number. destruct (try_to_known e); [discriminate|]. destruct (single e) as [x|]; [|discriminate]. intros [= <- <-].
      split; [apply over_number|]. apply over_gsub; auto. apply over_number.
    - revert c O. induction Oa as [|[v e] l Oe _ IH]; intros c O; cbn [fold_left]; auto. apply IH. cbn [fst snd] in *. now apply sys_subst_over.
  Qed.
  Lemma found_over lookup g (c : csys) vs l : good_lookup lookup c -> system_over n c -> set_substitutions lookup g c vs = Some l -> forall e s, In (e, s) l -> over n s.
  Proof.
    intros G (X & Y & _) E e s H. apply (C29_found p lookup g c vs l E) in H. destruct H as (Hin & _ & (a & Ta & Na) & Ha). rewrite <- (Ha a Ta Na). apply over_multi.
    assert (L : forall r, In r (lookup c vs) -> In r (crefs c)).
    { intros r Hr. destruct (G vs) as (extra & Pm & I). apply (Permutation.Permutation_in _ Pm) in Hr. apply in_app_iff in Hr. destruct Hr as [Hr|Hr]; [now apply filter_In in Hr|auto]. }
    unfold crefs in L. rewrite Forall_forall in X, Y. destruct Hin as [Hin|(b & Hin & He)]; apply L in Hin; apply in_app_iff in Hin; rewrite !in_map_iff in Hin.
    - destruct Hin as [(x & Ex & Hx)|(x & Ex & Hx)]; [|discriminate]. injection Ex as <-. auto.
    - destruct Hin as [(x & Ex & Hx)|(x & Ex & Hx)]; [discriminate|]. injection Ex as <-. specialize (Y x Hx). rewrite Forall_forall in Y. auto.
  Qed.
  Lemma subs_over lookup g (c : csys) : good_lookup lookup c -> system_over n c -> forall sets acc l, (forall e s, In (e, s) acc -> over n s) ->
    substitutions lookup g c sets acc = Some l -> forall e s, In (e, s) l -> over n s.
  Proof.
    intros G O. induction sets as [|vs sets IH]; intros acc l A; cbn [substitutions]; [intros [= <-]; exact A|]. destruct (set_substitutions lookup g c vs) as [new|] eqn:E; [|discriminate].
    apply IH. intros e s H. apply in_app_iff in H. destruct H as [H|H]; [|now apply (A e)]. now apply (found_over lookup g c vs new) in H.
  Qed.
  Lemma sub_get_in (e : gexp) subs s : sub_get e subs = Some s -> exists k, In (k, s) subs.
  Proof. induction subs as [|[k x] subs IH]; cbn [sub_get]; [discriminate|]. destruct (gexp_eqb e k); [intros [= ->]; exists k; now left|]. intros H. destruct (IH H) as (k' & I). exists k'. now right. Qed.
  Lemma exh_over lookup in_order g (c c' : csys) : good_lookup lookup c -> (forall l e, In e (in_order l) <-> In e l) -> system_over n c -> simplify_exhaustive lookup in_order g c = Some c' -> system_over n c'.
  Proof.
    intros G Ho O E. destruct (simplify_subs lookup in_order g c c' E) as (subs & Hs & [->|[_ ->]]); auto. pose proof (subs_over lookup g c G O _ [] subs (fun e s H => match H with end) Hs) as S. clear E Hs.
    assert (S' : forall e s, sub_get e subs = Some s -> over n s). { intros e s H. apply sub_get_in in H. destruct H as (k & H). now apply (S k). }
    destruct O as (X & Y & Z). split; [|split; auto]; unfold applied; cbn [algs buses].
    - apply Forall_app. split.
      + rewrite Forall_map. eapply Forall_impl; [|exact X]. intros e Oe. unfold replace_alg. destruct (sub_get e subs) as [s|] eqn:E; auto. destruct (gis_zero s); auto. now apply (S' e).
      + apply Forall_forall. intros k Hk. apply (proj1 (Ho _ _)) in Hk. apply in_app_iff in Hk. rewrite !in_flat_map in Hk. rewrite Forall_forall in X, Y. destruct Hk as [(e & He & Hk)|(e & He & Hk)].
        * unfold alg_equation in Hk. destruct (sub_get e subs) as [s|] eqn:E; [|destruct Hk]. destruct (gis_zero s); [destruct Hk|]. destruct Hk as [<-|[]]. apply over_gsub; auto. now apply (S' e).
        * apply in_flat_map in He. destruct He as (b & Hb & He). specialize (Y b Hb). rewrite Forall_forall in Y. unfold field_equation in Hk. destruct (sub_get e subs) as [s|] eqn:E; [|destruct Hk]. destruct Hk as [<-|[]]. apply over_gsub; auto. now apply (S' e).
    - rewrite Forall_map. eapply Forall_impl; [|exact Y]. intros b. apply over_bmap. intros e Oe. unfold replace_field. destruct (sub_get e subs) as [s|] eqn:E; auto. now apply (S' e).
  Qed.
End Over.
