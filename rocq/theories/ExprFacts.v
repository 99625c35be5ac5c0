(** Evaluation and substitution lemmas for [ExprModel]. *)
From Coq Require Import NArith ZArith Bool List Lia Ring Znumtheory.
From Coq Require Import ZifyBool ZifyN ZifyNat.
From Verif Require Import Field RangeModel RangeFacts ExprModel.
Import ListNotations.
Local Open Scope F_scope.

Lemma veqb_eq a b : veqb a b = true <-> a = b.
Proof.
  unfold veqb. rewrite andb_true_iff, !N.eqb_eq. split.
  - intros [H1 H2]. destruct a, b; cbn in *; try discriminate; congruence.
  - now intros ->.
Qed.
Lemma veqb_refl a : veqb a a = true.
Proof. now apply veqb_eq. Qed.
Lemma veqb_neq a b : veqb a b = false <-> a <> b.
Proof. rewrite <- veqb_eq. destruct (veqb a b); intuition congruence. Qed.
Lemma veqb_spec a b : reflect (a = b) (veqb a b).
Proof. apply iff_reflect. symmetry. apply veqb_eq. Qed.
Lemma veqb_sym a b : veqb a b = veqb b a.
Proof. destruct (veqb_spec a b), (veqb_spec b a); congruence. Qed.
Lemma var_dec (a b : var) : {a = b} + {a <> b}.
Proof. destruct (veqb_spec a b); auto. Qed.
Lemma vltb_trans a b c : vltb a b = true -> vltb b c = true -> vltb a c = true.
Proof. unfold vltb. lia. Qed.
Lemma vltb_irrefl a : vltb a a = false.
Proof. unfold vltb. lia. Qed.
Lemma vltb_total a b : veqb a b = false -> vltb a b = false -> vltb b a = true.
Proof. unfold veqb, vltb. lia. Qed.

(** Assignment update. *)
Definition upd {A} (s : var -> A) (v : var) (x : A) : var -> A :=
  fun w => if veqb v w then x else s w.
Lemma upd_same {A} (s : var -> A) v x : upd s v x v = x.
Proof. unfold upd. now rewrite veqb_refl. Qed.
Lemma upd_other {A} (s : var -> A) v x w : v <> w -> upd s v x w = s w.
Proof. unfold upd. intros H. apply veqb_neq in H. now rewrite H. Qed.
Lemma upd_id {A} (s : var -> A) v w : upd s v (s v) w = s w.
Proof. unfold upd. destruct (veqb_spec v w); congruence. Qed.

Section ExprFacts.
  Context {p : positive}.
  Local Notation gexp := (gexp p).
  Add Ring Fring : (F_ring_theory (p:=p)).
  Implicit Types (e : gexp) (s : var -> F p) (q : list (gexp * gexp)) (l : list (var * F p)) (c k : F p).

  Lemma gexp_ind' (Q : gexp -> Prop) :
    (forall q l c, Forall (fun ab => Q (fst ab) /\ Q (snd ab)) q -> Q (GE q l c)) ->
    forall e, Q e.
  Proof.
    intros H. fix IH 1. intros [q l c]. apply H.
    induction q as [|[a b] q IHq]; constructor; [split; apply IH|exact IHq].
  Qed.

  Definition eq_sum (s : var -> F p) (q : list (gexp * gexp)) : F p :=
    fold_right (fun ab acc => eval s (fst ab) * eval s (snd ab) + acc) 0 q.
  Definition el_sum (s : var -> F p) (l : list (var * F p)) : F p :=
    fold_right (fun vc acc => snd vc * s (fst vc) + acc) 0 l.
  Lemma eval_GE s q l c : eval s (GE q l c) = eq_sum s q + el_sum s l + c.
  Proof. reflexivity. Qed.
  Lemma eq_sum_cons s ab q : eq_sum s (ab :: q) = eval s (fst ab) * eval s (snd ab) + eq_sum s q.
  Proof. reflexivity. Qed.
  Lemma el_sum_cons s vc l : el_sum s (vc :: l) = snd vc * s (fst vc) + el_sum s l.
  Proof. reflexivity. Qed.
  Lemma eq_sum_app s q1 q2 : eq_sum s (q1 ++ q2) = eq_sum s q1 + eq_sum s q2.
  Proof.
    induction q1 as [|ab q1 IH]; cbn [app].
    - unfold eq_sum at 2. cbn. ring.
    - rewrite !eq_sum_cons, IH. ring.
  Qed.
  Lemma el_sum_app s l1 l2 : el_sum s (l1 ++ l2) = el_sum s l1 + el_sum s l2.
  Proof.
    induction l1 as [|ab q1 IH]; cbn [app].
    - unfold el_sum at 2. cbn. ring.
    - rewrite !el_sum_cons, IH. ring.
  Qed.
  Lemma eq_sum_nil s : eq_sum s [] = 0. Proof. reflexivity. Qed.
  Lemma el_sum_nil s : el_sum s [] = 0. Proof. reflexivity. Qed.

  (** Evaluation depends only on the referenced variables. *)
  Lemma eval_ext s1 s2 e : (forall v, In v (vars e) -> s1 v = s2 v) -> eval s1 e = eval s2 e.
  Proof.
    induction e as [q l c IH] using gexp_ind'. intros H. rewrite !eval_GE. f_equal. f_equal.
    - assert (Hq : forall v, In v (flat_map (fun ab => vars (fst ab) ++ vars (snd ab)) q) -> s1 v = s2 v).
      { intros v Hv. apply H. cbn [vars]. apply in_or_app. auto. }
      clear H. induction q as [|ab q IHq]; [reflexivity|]. inversion_clear IH as [|? ? [IHa IHb] IHt].
      rewrite !eq_sum_cons. rewrite IHq; auto.
      + rewrite IHa, IHb; auto; intros v Hv; apply Hq; cbn [flat_map]; rewrite !in_app_iff; auto.
      + intros v Hv. apply Hq. cbn [flat_map]. rewrite in_app_iff. auto.
    - assert (Hl : forall v, In v (map fst l) -> s1 v = s2 v).
      { intros v Hv. apply H. cbn [vars]. apply in_or_app. auto. }
      clear -Hl. induction l as [|vc l IHl]; [reflexivity|]. rewrite !el_sum_cons.
      rewrite IHl by (intros; apply Hl; cbn; auto). rewrite Hl by (cbn; auto). reflexivity.
  Qed.
  Lemma mentions_In v e : mentions v e = true <-> In v (vars e).
  Proof.
    unfold mentions. rewrite existsb_exists. split.
    - intros (w & Hw & E). apply veqb_eq in E. now subst.
    - intros H. exists v. split; auto. apply veqb_refl.
  Qed.
  Lemma eval_upd_notin s v x e : ~ In v (vars e) -> eval (upd s v x) e = eval s e.
  Proof. intros H. apply eval_ext. intros w Hw. apply upd_other. congruence. Qed.

  (** Structural equality implies Leibniz equality. *)
  Lemma lin_eqb_eq l1 l2 : lin_eqb (p:=p) l1 l2 = true <-> l1 = l2.
  Proof.
    revert l2. induction l1 as [|[v c] l1 IH]; destruct l2 as [|[v2 c2] l2]; cbn; try (split; congruence).
    change ((veqb v v2 && feqb c c2 && lin_eqb l1 l2)%bool = true <-> (v, c) :: l1 = (v2, c2) :: l2).
    rewrite !andb_true_iff, veqb_eq, feqb_eq, IH. split; [intros [[-> ->] ->]; auto|intros [= -> -> ->]; auto].
  Qed.
  Lemma gexp_eqb_eq (a b : gexp) : gexp_eqb a b = true <-> a = b.
  Proof.
    revert b. induction a as [q l c IH] using gexp_ind'. intros [q2 l2 c2].
    cbn [gexp_eqb]. rewrite !andb_true_iff, lin_eqb_eq, feqb_eq.
    match goal with |- (?f q q2 = true /\ _) /\ _ <-> _ => set (go := f) end.
    assert (Hq : forall q2, go q q2 = true <-> q = q2).
    { clear - IH. induction q as [|[a b] q IHq]; intros [|[a2 b2] q2]; cbn; try (split; congruence).
      inversion_clear IH as [|? ? [IHa IHb] IHt]. cbn [fst snd] in *.
      fold go. rewrite !andb_true_iff, IHa, IHb, IHq by auto.
      split; [intros [[-> ->] ->]; auto|intros [= -> -> ->]; auto]. }
    rewrite Hq. split; [intros [[-> ->] ->]; auto|intros [= -> -> ->]; auto].
  Qed.

  Lemma eval_from_number s k : eval s (from_number k) = k.
  Proof. unfold from_number. rewrite eval_GE, eq_sum_nil, el_sum_nil. ring. Qed.
  Lemma eval_from_var s v : eval s (from_var v) = s v.
  Proof. unfold from_var. rewrite eval_GE, eq_sum_nil, el_sum_cons, el_sum_nil. cbn [fst snd]. ring. Qed.
  Lemma eval_gzero s : eval s gzero = 0.
  Proof. unfold gzero. rewrite eval_GE, eq_sum_nil, el_sum_nil. ring. Qed.
  Lemma eval_gone s : eval s gone = 1.
  Proof. unfold gone. rewrite eval_GE, eq_sum_nil, el_sum_nil. ring. Qed.

  Lemma try_to_known_some (e : gexp) k : try_to_known e = Some k -> e = GE [] [] k.
  Proof. destruct e as [[|? ?] [|? ?] c]; cbn; congruence. Qed.
  Lemma try_to_known_eval s e k : try_to_known e = Some k -> eval s e = k.
  Proof. intros H. apply try_to_known_some in H. subst. apply eval_from_number. Qed.
  Lemma gis_zero_eval s e : gis_zero e = true -> eval s e = 0.
  Proof.
    unfold gis_zero. destruct (try_to_known e) eqn:E; [|discriminate]. intros H.
    apply is_zero_eq in H. subst. eauto using try_to_known_eval.
  Qed.
  Lemma try_to_simple_unknown_eval s e v : try_to_simple_unknown e = Some v -> eval s e = s v.
  Proof.
    destruct e as [[|? ?] [|[w k] [|? ?]] c]; cbn; try discriminate.
    destruct (is_zero c) eqn:Ec; [|discriminate]. destruct (is_one k) eqn:Ek; [|discriminate].
    intros [= <-]. apply is_zero_eq in Ec. apply is_one_eq in Ek. subst. apply eval_from_var.
  Qed.
  Lemma try_as_single_product_eval s e (a b : gexp) :
    try_as_single_product e = Some (a, b) -> eval s e = eval s a * eval s b.
  Proof.
    destruct e as [[|[a' b'] [|? ?]] [|? ?] c]; cbn [try_as_single_product]; try discriminate.
    destruct (is_zero c) eqn:Ec; [|discriminate]. intros [= <- <-]. apply is_zero_eq in Ec. subst.
    rewrite eval_GE, eq_sum_cons, eq_sum_nil, el_sum_nil. cbn [fst snd]. ring.
  Qed.

  (** Negation. *)
  Lemma eval_gneg s e : eval s (gneg e) = - eval s e.
  Proof.
    induction e as [q l c IH] using gexp_ind'. cbn [gneg]. rewrite !eval_GE.
    assert (H1 : eq_sum s (map (fun ab => (gneg (fst ab), snd ab)) q) = - eq_sum s q).
    { induction q as [|ab q IHq]; [cbn; ring|]. inversion_clear IH as [|? ? [IHa IHb] IHt].
      cbn [map]. rewrite !eq_sum_cons. cbn [fst snd]. rewrite IHq, IHa by auto. ring. }
    assert (H2 : el_sum s (map (fun vc => (fst vc, - snd vc)) l) = - el_sum s l).
    { clear. induction l as [|vc l IHl]; [cbn; ring|]. cbn [map]. rewrite !el_sum_cons, IHl. cbn [fst snd]. ring. }
    rewrite H1, H2. ring.
  Qed.

  Lemma qtaz_eval s f g : quadratic_terms_add_to_zero f g = true ->
    eval s (fst f) * eval s (snd f) + eval s (fst g) * eval s (snd g) = 0.
  Proof.
    unfold quadratic_terms_add_to_zero. cbn [fst snd]. intros H.
    repeat (apply orb_true_iff in H; destruct H as [H|H]);
      apply andb_true_iff in H; destruct H as [H1 H2]; apply gexp_eqb_eq in H1, H2;
      rewrite <- H1, <- H2, ?eval_gneg; ring.
  Qed.
  Lemma remove_first_eval s f q q' :
    remove_first (quadratic_terms_add_to_zero f) q = Some q' ->
    eval s (fst f) * eval s (snd f) + eq_sum s q = eq_sum s q'.
  Proof.
    revert q'. induction q as [|g q IH]; cbn [remove_first]; [discriminate|]. intros q'.
    destruct (quadratic_terms_add_to_zero f g) eqn:E.
    - intros [= <-]. rewrite eq_sum_cons. apply (qtaz_eval s) in E.
      transitivity ((eval s (fst f) * eval s (snd f) + eval s (fst g) * eval s (snd g)) + eq_sum s q); [ring|].
      rewrite E. ring.
    - destruct (remove_first _ q) as [q''|]; [|discriminate]. cbn [option_map]. intros [= <-].
      rewrite !eq_sum_cons. rewrite <- (IH q'') by auto. ring.
  Qed.
  Lemma combine_go_eval s q1 : forall q2, eq_sum s (combine_go q1 q2) = eq_sum s q1 + eq_sum s q2.
  Proof.
    induction q1 as [|f q1 IH]; intros q2; cbn [combine_go].
    - rewrite eq_sum_nil. ring.
    - destruct (remove_first _ q2) as [q2'|] eqn:E.
      + apply (remove_first_eval s) in E. rewrite IH, eq_sum_cons, <- E. ring.
      + rewrite !eq_sum_cons, IH. ring.
  Qed.
  Lemma combine_removing_zeros_eval s q1 q2 :
    eq_sum s (combine_removing_zeros q1 q2) = eq_sum s q1 + eq_sum s q2.
  Proof.
    unfold combine_removing_zeros. destruct (Nat.ltb _ _); [apply eq_sum_app|apply combine_go_eval].
  Qed.
  Lemma rqz_go_eval s n : forall q, eq_sum s (rqz_go n q) = eq_sum s q.
  Proof.
    induction n as [|n IH]; intros [|f q]; cbn [rqz_go]; auto.
    destruct (remove_first _ q) as [q'|] eqn:E.
    - apply (remove_first_eval s) in E. now rewrite IH, eq_sum_cons, <- E.
    - now rewrite !eq_sum_cons, IH.
  Qed.
  Lemma rqz_eval s q : eq_sum s (remove_quadratic_terms_adding_to_zero q) = eq_sum s q.
  Proof. unfold remove_quadratic_terms_adding_to_zero. destruct (Nat.ltb _ _); auto using rqz_go_eval. Qed.

  Lemma ladd_eval s v c l : el_sum s (ladd v c l) = el_sum s l + c * s v.
  Proof.
    induction l as [|[w k] l IH]; cbn [ladd].
    - rewrite el_sum_cons, el_sum_nil. cbn [fst snd]. ring.
    - destruct (veqb_spec v w) as [->|_]; [rewrite !el_sum_cons; cbn [fst snd]; ring|].
      destruct (vltb v w); rewrite !el_sum_cons; [|rewrite IH]; cbn [fst snd]; ring.
  Qed.
  Lemma lretain_eval s l : el_sum s (lretain_nonzero l) = el_sum s l.
  Proof.
    unfold lretain_nonzero. induction l as [|[w k] l IH]; cbn [filter fst snd]; auto.
    destruct (is_zero k) eqn:E; cbn [negb]; rewrite el_sum_cons, ?el_sum_cons, IH; cbn [fst snd]; auto.
    apply is_zero_eq in E. subst. ring.
  Qed.
  Lemma fold_ladd_eval s l2 : forall l1,
    el_sum s (fold_left (fun l vc => ladd (fst vc) (snd vc) l) l2 l1) = el_sum s l1 + el_sum s l2.
  Proof.
    induction l2 as [|vc l2 IH]; intros l1; cbn [fold_left].
    - rewrite el_sum_nil. ring.
    - rewrite IH, ladd_eval, el_sum_cons. ring.
  Qed.

  Lemma eval_gadd s a b : eval s (gadd a b) = eval s a + eval s b.
  Proof.
    destruct a as [q1 l1 c1], b as [q2 l2 c2]. unfold gadd. cbn [quad lin cst].
    rewrite !eval_GE, combine_removing_zeros_eval, lretain_eval, fold_ladd_eval. ring.
  Qed.
  Lemma eval_gsub s a b : eval s (gsub a b) = eval s a - eval s b.
  Proof. unfold gsub. rewrite eval_gadd, eval_gneg. ring. Qed.
  Lemma eval_gscale_nz s k e : eval s (gscale_nz k e) = eval s e * k.
  Proof.
    induction e as [q l c IH] using gexp_ind'. cbn [gscale_nz]. rewrite !eval_GE.
    assert (H1 : eq_sum s (map (fun ab => (gscale_nz k (fst ab), snd ab)) q) = eq_sum s q * k).
    { induction q as [|ab q IHq]; [cbn; ring|]. inversion_clear IH as [|? ? [IHa IHb] IHt].
      cbn [map]. rewrite !eq_sum_cons. cbn [fst snd]. rewrite IHq, IHa by auto. ring. }
    assert (H2 : el_sum s (map (fun vc => (fst vc, snd vc * k)) l) = el_sum s l * k).
    { clear. induction l as [|vc l IHl]; [cbn; ring|]. cbn [map]. rewrite !el_sum_cons, IHl. cbn [fst snd]. ring. }
    rewrite H1, H2. ring.
  Qed.
  Lemma eval_gscale s e k : eval s (gscale e k) = eval s e * k.
  Proof.
    unfold gscale. destruct (is_zero k) eqn:E; [|apply eval_gscale_nz].
    apply is_zero_eq in E. subst. rewrite eval_gzero. ring.
  Qed.
  Lemma eval_gmul s a b : eval s (gmul a b) = eval s a * eval s b.
  Proof.
    unfold gmul. destruct (try_to_known b) as [k|] eqn:Eb.
    - rewrite eval_gscale, (try_to_known_eval s b k Eb). reflexivity.
    - destruct (try_to_known a) as [k|] eqn:Ea.
      + rewrite eval_gscale, (try_to_known_eval s a k Ea). ring.
      + rewrite eval_GE, eq_sum_cons, eq_sum_nil, el_sum_nil. cbn [fst snd]. ring.
  Qed.
  Lemma eval_fold_gadd s (l : list gexp) : forall a, eval s (fold_left gadd l a) = eval s a + fold_right (fun e acc => eval s e + acc) 0 l.
  Proof.
    induction l as [|e l IH]; intros a; cbn [fold_left fold_right]; [ring|].
    rewrite IH, eval_gadd. ring.
  Qed.
  Lemma eval_gsum s (l : list gexp) : eval s (gsum l) = fold_right (fun e acc => eval s e + acc) 0 l.
  Proof. unfold gsum. rewrite eval_fold_gadd, eval_gzero. ring. Qed.

  (** Substitution. *)
  Lemma absorb_eval s q : forall acc,
    let r := fold_left absorb q acc in
    eq_sum s (fst r) + eval s (snd r) = eq_sum s (fst acc) + eval s (snd acc) + eq_sum s q.
  Proof.
    induction q as [|[a b] q IH]; intros [kept ta]; cbn [fold_left].
    - cbn [fst snd]. rewrite eq_sum_nil. ring.
    - rewrite IH. unfold absorb. rewrite eq_sum_cons. cbn [fst snd].
      destruct (try_to_known a) as [k1|] eqn:Ea, (try_to_known b) as [k2|] eqn:Eb; cbn [fst snd];
        rewrite ?eval_gadd, ?eval_from_number, ?eval_gscale, ?eq_sum_app, ?eq_sum_cons, ?eq_sum_nil;
        rewrite ?(try_to_known_eval s _ _ Ea), ?(try_to_known_eval s _ _ Eb); cbn [fst snd]; ring.
  Qed.

  Lemma lremove_eval s v x l :
    el_sum s (lremove v l) + lsum_of v l * x = el_sum (upd s v x) l.
  Proof.
    induction l as [|[w k] l IH]; cbn [lremove filter lsum_of fold_right fst snd].
    - rewrite !el_sum_nil. ring.
    - fold (lremove v l). fold (lsum_of v l). rewrite el_sum_cons, <- IH. cbn [fst snd].
      unfold upd. destruct (veqb_spec v w) as [->|]; cbn [negb]; [ring|].
      rewrite el_sum_cons. cbn [fst snd]. ring.
  Qed.
  Lemma lcontains_false v l s x : lcontains v l = false -> el_sum (upd s v x) l = el_sum s l.
  Proof.
    induction l as [|[w k] l IH]; cbn [lcontains existsb fst]; auto.
    intros H. apply orb_false_iff in H. destruct H as [H1 H2]. rewrite !el_sum_cons. cbn [fst snd].
    rewrite IH by auto. unfold upd. now rewrite H1.
  Qed.

  Lemma eval_subst_known s v k e : eval s (subst_known v k e) = eval (upd s v k) e.
  Proof.
    induction e as [q l c IH] using gexp_ind'. cbn [subst_known]. rewrite eval_GE.
    set (q1 := map _ q).
    assert (Hq : eq_sum s q1 = eq_sum (upd s v k) q).
    { unfold q1. clear q1. induction q as [|ab q IHq]; [reflexivity|]. inversion_clear IH as [|? ? [IHa IHb] IHt].
      cbn [map]. rewrite !eq_sum_cons. cbn [fst snd]. rewrite IHq, IHa, IHb by auto. reflexivity. }
    set (lc := if lcontains v l then _ else _).
    assert (Hl : el_sum s (fst lc) + snd lc = el_sum (upd s v k) l + c).
    { unfold lc. destruct (lcontains v l) eqn:E; cbn [fst snd].
      - rewrite <- lremove_eval. ring.
      - rewrite lretain_eval, lcontains_false by auto. reflexivity. }
    destruct lc as [l' c']. cbn [fst snd] in Hl.
    pose proof (absorb_eval s q1 ([], gzero)) as HA. cbn [fst snd] in HA.
    unfold absorb_known. destruct (fold_left absorb q1 ([], gzero)) as [q' ta]. cbn [fst snd] in HA.
    rewrite eq_sum_nil, eval_gzero in HA.
    transitivity (eq_sum s q' + eval s ta + (el_sum s l' + c')).
    - destruct (gis_zero ta) eqn:Ez.
      + apply (gis_zero_eval s) in Ez. rewrite eval_GE, rqz_eval, Ez. ring.
      + rewrite eval_gadd, eval_GE, rqz_eval. ring.
    - rewrite HA, Hl, Hq. ring.
  Qed.

  Lemma absorb_simple_eval s q : forall acc,
    let r := fold_left absorb_simple q acc in
    eq_sum s (fst (fst r)) + eval s (snd (fst r)) + snd r =
    eq_sum s (fst (fst acc)) + eval s (snd (fst acc)) + snd acc + eq_sum s q.
  Proof.
    induction q as [|[a b] q IH]; intros [[kept ta] c]; cbn [fold_left].
    - cbn [fst snd]. rewrite eq_sum_nil. ring.
    - rewrite IH. unfold absorb_simple. rewrite eq_sum_cons. cbn [fst snd].
      destruct (try_to_known a) as [k1|] eqn:Ea, (try_to_known b) as [k2|] eqn:Eb; cbn [fst snd];
        rewrite ?(try_to_known_eval s _ _ Ea), ?(try_to_known_eval s _ _ Eb).
      + ring.
      + destruct (is_zero k1) eqn:Ez; [apply is_zero_eq in Ez; subst; ring|].
        rewrite eval_gadd, eval_gscale. ring.
      + destruct (is_zero k2) eqn:Ez; [apply is_zero_eq in Ez; subst; ring|].
        rewrite eval_gadd, eval_gscale. ring.
      + rewrite eq_sum_app, eq_sum_cons, eq_sum_nil. cbn [fst snd]. ring.
  Qed.
  Lemma eval_subst_simple s v k e : eval s (subst_simple v k e) = eval (upd s v k) e.
  Proof.
    induction e as [q l c IH] using gexp_ind'. cbn [subst_simple]. rewrite eval_GE.
    set (q1 := map _ q).
    assert (Hq : eq_sum s q1 = eq_sum (upd s v k) q).
    { unfold q1. clear q1. induction q as [|ab q IHq]; [reflexivity|]. inversion_clear IH as [|? ? [IHa IHb] IHt].
      cbn [map]. rewrite !eq_sum_cons. cbn [fst snd]. rewrite IHq, IHa, IHb by auto. reflexivity. }
    set (lc := if lcontains v l then _ else _).
    assert (Hl : el_sum s (fst lc) + snd lc = el_sum (upd s v k) l + c).
    { unfold lc. destruct (lcontains v l) eqn:E; cbn [fst snd].
      - rewrite <- lremove_eval. ring.
      - rewrite lcontains_false by auto. reflexivity. }
    destruct lc as [l' c']. cbn [fst snd] in Hl.
    pose proof (absorb_simple_eval s q1 ([], gzero, c')) as HA. cbn [fst snd] in HA.
    destruct (fold_left absorb_simple q1 ([], gzero, c')) as [[q' ta] c'']. cbn [fst snd] in HA.
    rewrite eq_sum_nil, eval_gzero in HA.
    transitivity (eq_sum s q' + eval s ta + c'' + el_sum s l').
    - destruct (gis_zero ta) eqn:Ez.
      + apply (gis_zero_eval s) in Ez. rewrite eval_GE, Ez. ring.
      + rewrite eval_gadd, eval_GE. ring.
    - rewrite HA, <- Hq. transitivity (el_sum s l' + c' + eq_sum s q1); [ring|]. rewrite Hl. ring.
  Qed.

  Lemma eval_subst_unknown s v e0 e : eval s (subst_unknown v e0 e) = eval (upd s v (eval s e0)) e.
  Proof.
    induction e as [q l c IH] using gexp_ind'. cbn [subst_unknown].
    destruct (mentions v (GE q l c)) eqn:Em; cbn [negb].
    2:{ symmetry. apply eval_upd_notin. rewrite <- mentions_In. congruence. }
    clear Em. set (s' := upd s v (eval s e0)). rewrite eval_GE.
    set (q1 := map _ q).
    assert (Hq : eq_sum s q1 = eq_sum s' q).
    { unfold q1. clear q1. induction q as [|ab q IHq]; [reflexivity|]. inversion_clear IH as [|? ? [IHa IHb] IHt].
      cbn [map]. rewrite !eq_sum_cons. cbn [fst snd]. rewrite IHq, IHa, IHb by auto. reflexivity. }
    set (ta0 := fold_left _ l gzero).
    assert (Ht : eval s ta0 = lsum_of v l * eval s e0).
    { unfold ta0. clear. assert (G : forall a, eval s (fold_left (fun acc wk => if veqb v (fst wk) then gadd acc (gscale e0 (snd wk)) else acc) l a) = eval s a + lsum_of v l * eval s e0).
      { induction l as [|[w k] l IH]; intros a; cbn [fold_left lsum_of fold_right fst snd]; [ring|].
        fold (lsum_of v l). rewrite IH. destruct (veqb v w); [rewrite eval_gadd, eval_gscale|]; ring. }
      rewrite G, eval_gzero. ring. }
    pose proof (absorb_eval s q1 ([], ta0)) as HA. cbn [fst snd] in HA.
    destruct (fold_left absorb q1 ([], ta0)) as [q' ta]. cbn [fst snd] in HA.
    rewrite eq_sum_nil in HA.
    rewrite eval_gadd, eval_GE, rqz_eval.
    transitivity (eq_sum s q' + eval s ta + (el_sum s (lremove v l) + c)); [ring|].
    rewrite HA, Ht, Hq. unfold s'. rewrite <- (lremove_eval s v (eval s e0)). ring.
  Qed.

  Lemma eval_subst_known_multi s a e :
    eval s (subst_known_multi a e) = eval (fold_right (fun vk s => upd s (fst vk) (snd vk)) s a) e.
  Proof.
    unfold subst_known_multi. revert s e. induction a as [|[v k] a IH]; intros s e; cbn [fold_left fold_right fst snd]; auto.
    rewrite IH, eval_subst_known. reflexivity.
  Qed.
End ExprFacts.
