(** Variables, degree, factors, splitting and range constraints of grouped
    expressions. *)
From Coq Require Import NArith ZArith Bool List Lia Ring Znumtheory Sorted.
From Coq Require Import ZifyBool ZifyN ZifyNat.
From Verif Require Import Field RangeModel RangeFacts ExprModel ExprFacts ExprWf.
Import ListNotations.
Local Open Scope F_scope.

Section ExprMore.
  Context {p : positive}.
  Local Notation gexp := (gexp p).
  Add Ring Fring : (F_ring_theory (p:=p)).
  Implicit Types (e : gexp) (s : var -> F p) (q : list (gexp * gexp)) (l : list (var * F p)) (c k : F p).

  (** ** Variables *)
  Definition qvars q : list var := flat_map (fun ab => vars (fst ab) ++ vars (snd ab)) q.
  Lemma vars_GE q l c : vars (GE q l c) = qvars q ++ map fst l.
  Proof. reflexivity. Qed.
  Lemma qvars_in v q : In v (qvars q) <-> exists ab, In ab q /\ (In v (vars (fst ab)) \/ In v (vars (snd ab))).
  Proof.
    unfold qvars. rewrite in_flat_map. split.
    - intros (ab & H1 & H2). rewrite in_app_iff in H2. eauto.
    - intros (ab & H1 & H2). exists ab. rewrite in_app_iff. auto.
  Qed.
  Lemma qvars_forall (Q : var -> Prop) q :
    (forall v, In v (qvars q) -> Q v) <->
    Forall (fun ab => (forall v, In v (vars (fst ab)) -> Q v) /\ (forall v, In v (vars (snd ab)) -> Q v)) q.
  Proof.
    rewrite Forall_forall. split.
    - intros H ab Hab. split; intros v Hv; apply H; apply qvars_in; exists ab; tauto.
    - intros H v Hv. apply qvars_in in Hv. destruct Hv as (ab & Hab & Hv).
      destruct (H ab Hab) as [H1 H2]. destruct Hv; auto.
  Qed.
  Lemma vars_gneg e : vars (gneg e) = vars e.
  Proof.
    induction e as [q l c IH] using gexp_ind'. cbn [gneg]. rewrite !vars_GE, map_map. cbn [fst]. f_equal.
    induction q as [|ab q IHq]; auto. inversion_clear IH as [|? ? [IHa IHb] IHt].
    cbn [map qvars flat_map fst snd]. rewrite IHa. f_equal. apply IHq; auto.
  Qed.
  Lemma vars_gscale_nz k e : vars (gscale_nz k e) = vars e.
  Proof.
    induction e as [q l c IH] using gexp_ind'. cbn [gscale_nz]. rewrite !vars_GE, map_map. cbn [fst]. f_equal.
    induction q as [|ab q IHq]; auto. inversion_clear IH as [|? ? [IHa IHb] IHt].
    cbn [map qvars flat_map fst snd]. rewrite IHa. f_equal. apply IHq; auto.
  Qed.
  Lemma vars_gscale k e v : In v (vars (gscale e k)) -> In v (vars e).
  Proof. unfold gscale. destruct (is_zero k); [intros []|]. now rewrite vars_gscale_nz. Qed.
  Lemma fold_ladd_in w l2 : forall l1,
    In w (map fst (fold_left (fun l vc => ladd (fst vc) (snd vc) l) l2 l1)) ->
    In w (map fst l1) \/ In w (map fst l2).
  Proof.
    induction l2 as [|vc l2 IH]; intros l1; cbn [fold_left map In]; auto.
    intros H. apply IH in H. destruct H as [H|H]; auto. apply ladd_in in H. intuition auto.
  Qed.
  Lemma filter_fst_in (f : var * F p -> bool) l w : In w (map fst (filter f l)) -> In w (map fst l).
  Proof. rewrite !in_map_iff. intros (x & <- & Hx). apply filter_In in Hx. exists x. tauto. Qed.
  Lemma vars_gadd a b v : In v (vars (gadd a b)) -> In v (vars (p:=p) a) \/ In v (vars b).
  Proof.
    destruct a as [q1 l1 c1], b as [q2 l2 c2]. unfold gadd. cbn [quad lin cst]. rewrite !vars_GE, !in_app_iff.
    intros [H|H].
    - assert (HQ : (forall v, In v (qvars (combine_removing_zeros q1 q2)) -> In v (qvars q1) \/ In v (qvars q2))).
      { apply qvars_forall. apply combine_removing_zeros_forall; apply qvars_forall; auto. }
      apply HQ in H. tauto.
    - apply filter_fst_in in H. apply fold_ladd_in in H. tauto.
  Qed.
  Lemma vars_gsub a b v : In v (vars (gsub a b)) -> In v (vars (p:=p) a) \/ In v (vars b).
  Proof. unfold gsub. intros H. apply vars_gadd in H. now rewrite vars_gneg in H. Qed.
  Lemma vars_gmul a b v : In v (vars (gmul a b)) -> In v (vars (p:=p) a) \/ In v (vars b).
  Proof.
    unfold gmul. destruct (try_to_known b); [intros H; left; eauto using vars_gscale|].
    destruct (try_to_known a); [intros H; right; eauto using vars_gscale|].
    rewrite vars_GE. cbn [qvars flat_map fst snd map]. rewrite !app_nil_r, in_app_iff. tauto.
  Qed.
  Lemma vars_gsum (es : list gexp) v : In v (vars (gsum es)) -> exists e, In e es /\ In v (vars e).
  Proof.
    unfold gsum. assert (G : forall a, In v (vars (fold_left gadd es a)) -> In v (vars a) \/ exists e, In e es /\ In v (vars e)).
    { induction es as [|e es IH]; intros a; cbn [fold_left In]; auto. intros H. apply IH in H.
      destruct H as [H|(e' & H1 & H2)]; [apply vars_gadd in H; destruct H; eauto|eauto]. }
    intros H. apply G in H. destruct H as [[]|H]; auto.
  Qed.

  Lemma absorb_vars (Q : var -> Prop) q : forall acc,
    (forall v, In v (qvars q) -> Q v) ->
    (forall v, In v (qvars (fst acc)) -> Q v) -> (forall v, In v (vars (snd acc)) -> Q v) ->
    (forall v, In v (qvars (fst (fold_left absorb q acc))) -> Q v) /\
    (forall v, In v (vars (snd (fold_left absorb q acc))) -> Q v).
  Proof.
    induction q as [|[a b] q IH]; intros [kept ta] HF H1 H2; cbn [fold_left]; auto.
    cbn [fst snd] in *.
    assert (Ha : forall v, In v (vars a) -> Q v).
    { intros v Hv. apply HF. cbn [qvars flat_map]. rewrite !in_app_iff. auto. }
    assert (Hb : forall v, In v (vars b) -> Q v).
    { intros v Hv. apply HF. cbn [qvars flat_map]. rewrite !in_app_iff. auto. }
    apply IH.
    - intros v Hv. apply HF. cbn [qvars flat_map]. rewrite in_app_iff. auto.
    - intros v. unfold absorb. cbn [fst snd].
      destruct (try_to_known a), (try_to_known b); cbn [fst]; auto.
      unfold qvars. rewrite flat_map_app, in_app_iff. cbn [flat_map fst snd].
      rewrite app_nil_r, in_app_iff. intuition auto.
    - intros v. unfold absorb. cbn [fst snd].
      destruct (try_to_known a), (try_to_known b); cbn [snd]; auto; intros H; apply vars_gadd in H;
        destruct H as [H|H]; auto; try (apply vars_gscale in H; auto). destruct H.
  Qed.

  Lemma lremove_in v l w : In w (map fst (lremove v l)) <-> In w (map fst l) /\ w <> v.
  Proof.
    unfold lremove. rewrite !in_map_iff. split.
    - intros (x & <- & Hx). apply filter_In in Hx. destruct Hx as [Hx H]. apply negb_true_iff, veqb_neq in H.
      split; eauto.
    - intros [(x & <- & Hx) Hne]. exists x. split; auto. apply filter_In. split; auto.
      apply negb_true_iff, veqb_neq. congruence.
  Qed.
  Lemma lcontains_iff v l : lcontains v l = true <-> In v (map fst l).
  Proof.
    unfold lcontains. rewrite existsb_exists, in_map_iff. split.
    - intros (x & Hx & E). apply veqb_eq in E. eauto.
    - intros (x & <- & Hx). exists x. split; auto. apply veqb_refl.
  Qed.

  Lemma vars_subst_known v k e w : In w (vars (subst_known v k e)) -> In w (vars e) /\ w <> v.
  Proof.
    revert w. induction e as [q l c IH] using gexp_ind'. intros w0. cbn [subst_known].
    set (q1 := map _ q). set (Q := fun w => In w (vars (GE q l c)) /\ w <> v).
    assert (Hq1 : forall w, In w (qvars q1) -> Q w).
    { apply qvars_forall. apply Forall_map. cbn [fst snd]. rewrite Forall_forall in *. intros ab Hin.
      specialize (IH ab Hin). unfold Q. rewrite vars_GE.
      split; intros u Hu; apply IH in Hu; destruct Hu as [Hu Hne]; split; auto; rewrite in_app_iff, qvars_in;
        left; exists ab; auto. }
    set (lc := if lcontains v l then _ else _).
    assert (Hlc : forall w, In w (map fst (fst lc)) -> Q w).
    { unfold lc, Q. intros u. rewrite vars_GE, in_app_iff. destruct (lcontains v l) eqn:E; cbn [fst]; intros Hu.
      - apply lremove_in in Hu. tauto.
      - apply filter_fst_in in Hu. split; auto. intros ->. apply lcontains_iff in Hu. congruence. }
    destruct lc as [l' c']. cbn [fst] in Hlc.
    pose proof (absorb_vars Q q1 ([], gzero) Hq1 (fun v H => match H with end) (fun v H => match H with end)) as [HA HB].
    unfold absorb_known. destruct (fold_left absorb q1 ([], gzero)) as [q' ta]. cbn [fst snd] in *.
    change (In w0 (vars (if gis_zero ta then GE (remove_quadratic_terms_adding_to_zero q') l' c'
      else gadd (GE (remove_quadratic_terms_adding_to_zero q') l' c') ta)) -> Q w0).
    assert (HS : forall w, In w (vars (GE (remove_quadratic_terms_adding_to_zero q') l' c')) -> Q w).
    { intros u. rewrite vars_GE, in_app_iff. intros [Hu|Hu]; auto. revert u Hu.
      apply qvars_forall. apply rqz_forall. now apply qvars_forall. }
    destruct (gis_zero ta); auto. intros H. apply vars_gadd in H. destruct H; auto.
  Qed.

  Lemma vars_subst_unknown v e0 e w :
    In w (vars (subst_unknown v e0 e)) -> (In w (vars e) /\ w <> v) \/ (In v (vars e) /\ In w (vars e0)).
  Proof.
    revert w. induction e as [q l c IH] using gexp_ind'. intros w0. cbn [subst_unknown].
    destruct (mentions v (GE q l c)) eqn:Em; cbn [negb].
    2:{ intros H. left. split; auto. intros ->. apply mentions_In in H. congruence. }
    apply mentions_In in Em.
    set (q1 := map _ q). set (Q := fun w => (In w (vars (GE q l c)) /\ w <> v) \/ (In v (vars (GE q l c)) /\ In w (vars e0))).
    assert (Hq1 : forall w, In w (qvars q1) -> Q w).
    { apply qvars_forall. apply Forall_map. cbn [fst snd]. rewrite Forall_forall in *. intros ab Hin.
      specialize (IH ab Hin). unfold Q. rewrite vars_GE.
      split; intros u Hu; apply IH in Hu; destruct Hu as [[Hu Hne]|[Hu Hne]]; [left; split; auto|right|left; split; auto|right];
         rewrite ?in_app_iff, ?qvars_in; eauto 6. }
    set (ta0 := fold_left _ l gzero).
    assert (Ht : forall w, In w (vars ta0) -> Q w).
    { intros u Hu. right. split; auto. revert Hu. unfold ta0.
      assert (G : forall a, In u (vars (fold_left (fun acc wk => if veqb v (fst wk) then gadd acc (gscale e0 (snd wk)) else acc) l a)) -> In u (vars a) \/ In u (vars e0)).
      { clear. induction l as [|[w k] l IH]; intros a; cbn [fold_left]; auto. intros H. apply IH in H.
        destruct H as [H|H]; auto. destruct (veqb v _); auto. apply vars_gadd in H. destruct H; auto.
        right. eapply vars_gscale; eauto. }
      intros H. apply G in H. destruct H as [[]|H]; auto. }
    pose proof (absorb_vars Q q1 ([], ta0) Hq1 (fun v H => match H with end) Ht) as [HA HB].
    destruct (fold_left absorb q1 ([], ta0)) as [q' ta]. cbn [fst snd] in *.
    intros H. apply vars_gadd in H. change (Q w0). destruct H as [H|H]; auto.
    rewrite vars_GE, in_app_iff in H. destruct H as [H|H].
    - revert w0 H. apply qvars_forall. apply rqz_forall. now apply qvars_forall.
    - apply lremove_in in H. left. rewrite vars_GE, in_app_iff. tauto.
  Qed.

  (** ** Splitting, summands, extraction *)
  Lemma try_split_head_tail_eval s e h t :
    try_split_head_tail e = Some (h, t) -> eval s e = eval s h + eval s t.
  Proof.
    destruct e as [[|[a b] q] [|[v k] l] c]; cbn [try_split_head_tail]; try discriminate; intros [= <- <-];
      rewrite ?eval_gmul, !eval_GE, ?eq_sum_cons, ?eq_sum_nil, ?el_sum_cons, ?el_sum_nil; cbn [fst snd]; ring.
  Qed.
  Lemma summands_eval s e : eval s e = fold_right (fun e acc => eval s e + acc) 0 (summands e).
  Proof.
    assert (HA : forall es1 es2, fold_right (fun e acc => eval s e + acc) 0 (es1 ++ es2) =
       fold_right (fun e acc => eval s e + acc) 0 es1 + fold_right (fun e acc => eval s e + acc) 0 es2).
    { induction es1 as [|e1 es1 IH]; intros es2; cbn [app fold_right]; [ring|]. rewrite IH. ring. }
    destruct e as [q l c]. unfold summands. cbn [quad lin cst]. rewrite !HA, eval_GE.
    assert (H1 : fold_right (fun e acc => eval s e + acc) 0 (map (fun ab => GE [ab] [] 0) q) = eq_sum s q).
    { induction q as [|ab q IH]; cbn [map fold_right]; auto.
      rewrite IH, eq_sum_cons, eval_GE, eq_sum_cons, eq_sum_nil, el_sum_nil. ring. }
    assert (H2 : fold_right (fun e acc => eval s e + acc) 0 (map (fun vc => GE [] [vc] 0) l) = el_sum s l).
    { induction l as [|ab q' IH]; cbn [map fold_right]; auto.
      rewrite IH, el_sum_cons, eval_GE, eq_sum_nil, el_sum_cons, el_sum_nil. ring. }
    rewrite H1, H2. destruct (is_zero c) eqn:E; cbn [fold_right].
    - apply is_zero_eq in E. subst. ring.
    - rewrite (eval_GE s [] [] c), eq_sum_nil, el_sum_nil. ring.
  Qed.

  Lemma lget_count1 s v k l :
    lget v l = Some k -> (length (filter (veqb v) (map fst l)) <= 1)%nat ->
    el_sum s l = k * s v + el_sum s (lremove v l).
  Proof.
    induction l as [|[w k'] l IH]; cbn [lget map fst filter lremove snd]; [discriminate|].
    fold (lremove v l). destruct (veqb_spec v w) as [->|Hne]; cbn [negb].
    - intros [= ->]. cbn [length]. intros Hl.
      assert (Hn : filter (veqb w) (map fst l) = []) by (destruct (filter (veqb w) (map fst l)); cbn in Hl; auto; lia).
      assert (Hr : lremove w l = l).
      { clear - Hn. unfold lremove. induction l as [|[u k2] l IH]; cbn [map fst filter] in *; auto.
        destruct (veqb w u) eqn:E; [discriminate|]. cbn [negb]. now rewrite IH. }
      rewrite Hr, el_sum_cons. cbn [fst snd]. ring.
    - intros H1 H2. rewrite !el_sum_cons, (IH H1 H2). cbn [fst snd]. ring.
  Qed.
  Lemma try_extract_affine_var_eval s e v k r :
    try_extract_affine_var v e = Some (k, r) -> eval s e = k * s v + eval s r.
  Proof.
    unfold try_extract_affine_var. destruct (Nat.eqb_spec (length (filter (veqb v) (vars e))) 1) as [Hc|]; [|discriminate].
    destruct e as [q l c]. cbn [lin quad cst]. destruct (lget v l) as [k0|] eqn:Eg; [|discriminate]. intros [= <- <-].
    rewrite vars_GE, filter_app, app_length in Hc.
    rewrite !eval_GE, (lget_count1 s v k0 l Eg) by lia. ring.
  Qed.
  Lemma try_extract_affine_var_vars e v k r :
    try_extract_affine_var v e = Some (k, r) ->
    ~ In v (vars r) /\ (forall w, In w (vars r) -> In w (vars e)).
  Proof.
    unfold try_extract_affine_var. destruct (Nat.eqb_spec (length (filter (veqb v) (vars e))) 1) as [Hc|]; [|discriminate].
    destruct e as [q l c]. cbn [lin quad cst]. destruct (lget v l) as [k0|] eqn:Eg; [|discriminate]. intros [= <- <-].
    rewrite vars_GE, filter_app, app_length in Hc.
    apply lget_in in Eg. apply (in_map fst) in Eg. cbn [fst] in Eg.
    assert (Hl : In v (filter (veqb v) (map fst l))) by (apply filter_In; auto using veqb_refl).
    split.
    - rewrite vars_GE, in_app_iff, lremove_in. intros [H|[_ H]]; [|congruence].
      assert (Hq : In v (filter (veqb v) (qvars q))) by (apply filter_In; auto using veqb_refl).
      destruct (filter (veqb v) (qvars q)); [destruct Hq|]. destruct (filter (veqb v) (map fst l)); [destruct Hl|].
      cbn [length] in Hc. lia.
    - intros w. rewrite !vars_GE, !in_app_iff, lremove_in. tauto.
  Qed.

  (** ** Factors *)
  Definition all_factors_prod s (es : list gexp) : F p := fold_right (fun e acc => eval s e * acc) 1 es.
  Lemma all_factors_prod_app s es1 es2 :
    all_factors_prod s (es1 ++ es2) = all_factors_prod s es1 * all_factors_prod s es2.
  Proof. unfold all_factors_prod. induction es1 as [|e es1 IH]; cbn [app fold_right]; [ring|]. rewrite IH. ring. Qed.

  Lemma inv1_mul_neq_zero k : prime (Z.pos p) -> k <> 0 -> 1 / k <> 0.
  Proof.
    intros Hp Hk H. unfold fdiv in H. apply (finv_neq_zero k Hp Hk).
    transitivity (1 * finv k); [ring|exact H].
  Qed.
  Lemma div_mul_cancel x k : prime (Z.pos p) -> k <> 0 -> k * (x * (1 / k)) = x.
  Proof.
    intros Hp Hk. unfold fdiv. transitivity ((k * finv k) * x); [ring|]. rewrite finv_r by auto. ring.
  Qed.

  Lemma to_factors_eval e : prime (Z.pos p) -> wf e ->
    exists k, k <> 0 /\ forall s, eval s e = k * all_factors_prod s (to_factors e).
  Proof.
    intros Hp. induction e as [q l c IH] using gexp_ind'. rewrite wf_GE. intros [[Hls Hln] Hq].
    pose proof (one_neq_zero Hp) as H10.
    cbn [to_factors]. destruct (length q + length l + (if is_zero c then 0 else 1))%nat as [|[|n]] eqn:En.
    - exists 1. split; auto. intros s. destruct q; [|cbn in En; lia]. destruct l; [|cbn in En; lia].
      destruct (is_zero c) eqn:Ec; [|cbn in En; lia]. apply is_zero_eq in Ec. subst.
      unfold all_factors_prod. cbn [fold_right]. change (GE [] [] 0) with (gzero (p:=p)). rewrite eval_gzero. ring.
    - destruct q as [|[a b] [|? ?]]; [| |cbn in En; lia].
      + destruct l as [|[v k] [|? ?]]; [| |cbn in En; lia].
        * destruct (is_zero c) eqn:Ec; [cbn in En; lia|]. apply is_zero_neq in Ec. exists c. split; auto.
          intros s. unfold all_factors_prod. cbn [fold_right]. rewrite eval_GE, eq_sum_nil, el_sum_nil. ring.
        * destruct (is_zero c) eqn:Ec; [|cbn in En; lia]. apply is_zero_eq in Ec. subst.
          exists k. split; [inversion_clear Hln; auto|]. intros s. unfold all_factors_prod. cbn [fold_right].
          rewrite eval_from_var, eval_GE, eq_sum_nil, el_sum_cons, el_sum_nil. cbn [fst snd]. ring.
      + destruct l as [|? ?]; [|cbn in En; lia]. destruct (is_zero c) eqn:Ec; [|cbn in En; lia].
        apply is_zero_eq in Ec. subst. inversion_clear IH as [|? ? [IHa IHb] _]. inversion_clear Hq as [|? ? Hab _].
        cbn [fst snd] in *. destruct IHa as (ka & Hka & Ea); [tauto|]. destruct IHb as (kb & Hkb & Eb); [tauto|].
        exists (ka * kb). split; [rewrite mul_eq_zero_iff by auto; tauto|]. intros s.
        rewrite all_factors_prod_app, eval_GE, eq_sum_cons, eq_sum_nil, el_sum_nil. cbn [fst snd].
        rewrite Ea, Eb. ring.
    - match goal with |- context [gscale (GE q l c) (1 / ?d)] => set (dv := d) end.
      assert (Hd : dv <> 0).
      { unfold dv. destruct (is_zero c) eqn:Ec; cbn [negb]; [|now apply is_zero_neq].
        destruct l as [|[v k] l]; auto. inversion_clear Hln; auto. }
      exists dv. split; auto. intros s. unfold all_factors_prod. cbn [fold_right].
      rewrite eval_gscale. transitivity (dv * (eval s (GE q l c) * (1 / dv))); [|ring].
      now rewrite div_mul_cancel.
  Qed.

  Lemma to_factors_zero_iff s e : prime (Z.pos p) -> wf e ->
    (eval s e = 0 <-> exists f, In f (to_factors e) /\ eval s f = 0).
  Proof.
    intros Hp Hwf. destruct (to_factors_eval e Hp Hwf) as (k & Hk & E). rewrite E, mul_eq_zero_iff by auto.
    assert (G : forall es, all_factors_prod s es = 0 <-> exists f, In f es /\ eval s f = 0).
    { unfold all_factors_prod. induction es as [|f es IH]; cbn [fold_right In].
      - split; [intros H; now apply one_neq_zero in H|intros (f & [] & _)].
      - rewrite mul_eq_zero_iff, IH by auto. split.
        + intros [H|(g & H1 & H2)]; eauto.
        + intros (g & [<-|H1] & H2); eauto. }
    rewrite G. tauto.
  Qed.

  (** ** Range constraint of an expression *)
  Definition consistent (g : var -> rc p) s : Prop := forall v, allows_value (g v) (s v) = true.

  Lemma fold_combine_sum_sound (rs : list (rc p)) (xs : list (F p)) : forall r x,
    Forall2 (fun r x => allows_value r x = true) rs xs -> allows_value r x = true ->
    allows_value (fold_left combine_sum rs r) (fold_right fadd 0 (x :: xs)) = true.
  Proof.
    revert xs. induction rs as [|r1 rs IH]; intros xs r x H Hx; inversion_clear H; cbn [fold_left].
    - cbn [fold_right]. now replace (x + 0) with x by ring.
    - rename y into x1, l' into xs'.
      replace (fold_right fadd 0 (x :: x1 :: xs')) with (fold_right fadd 0 ((x + x1) :: xs')) by (cbn [fold_right]; ring).
      apply IH; auto. now apply combine_sum_sound.
  Qed.
  Lemma rc_sum_sound (rs : list (rc p)) (xs : list (F p)) :
    Forall2 (fun r x => allows_value r x = true) rs xs ->
    allows_value (rc_sum rs) (fold_right fadd 0 xs) = true.
  Proof.
    intros H. destruct H as [|r x rs xs H1 H2]; cbn [rc_sum].
    - apply from_value_allows. reflexivity.
    - now apply fold_combine_sum_sound.
  Qed.

  Lemma range_constraint_sound g s e :
    (forall v, In v (vars e) -> allows_value (g v) (s v) = true) ->
    allows_value (range_constraint g e) (eval s e) = true.
  Proof.
    induction e as [q l c IH] using gexp_ind'. intros Hg. cbn [range_constraint].
    assert (E : eval s (GE q l c) = fold_right fadd 0
       (map (fun ab => eval s (fst ab) * eval s (snd ab)) q ++ map (fun vc => s (fst vc) * snd vc) l ++ [c])).
    { rewrite eval_GE. rewrite fold_right_app.
      assert (G : forall x, fold_right fadd x (map (fun ab => eval s (fst ab) * eval s (snd ab)) q) = eq_sum s q + x).
      { induction q as [|ab q IHq]; intros x; cbn [map fold_right].
        - rewrite eq_sum_nil. ring.
        - rewrite IHq, eq_sum_cons; [ring| |]. + inversion_clear IH; auto.
          + intros v Hv. apply Hg. rewrite vars_GE in *. cbn [qvars flat_map]. rewrite !in_app_iff in *. tauto. }
      rewrite G, fold_right_app. cbn [fold_right].
      assert (G2 : forall x, fold_right fadd x (map (fun vc => s (fst vc) * snd vc) l) = el_sum s l + x).
      { clear. induction l as [|ab l IHq]; intros x; cbn [map fold_right].
        - rewrite el_sum_nil. ring.
        - rewrite IHq, el_sum_cons. ring. }
      rewrite G2. ring. }
    rewrite E. apply rc_sum_sound. apply Forall2_app; [|apply Forall2_app].
    - clear E. induction q as [|[a b] q IHq]; cbn [map]; constructor.
      + inversion_clear IH as [|? ? [IHa IHb] _]. cbn [fst snd] in *.
        assert (Ha : allows_value (range_constraint g a) (eval s a) = true).
        { apply IHa. intros v Hv. apply Hg. rewrite vars_GE. cbn [qvars flat_map fst snd]. rewrite !in_app_iff. tauto. }
        assert (Hb : allows_value (range_constraint g b) (eval s b) = true).
        { apply IHb. intros v Hv. apply Hg. rewrite vars_GE. cbn [qvars flat_map fst snd]. rewrite !in_app_iff. tauto. }
        destruct (gexp_eqb a b) eqn:Eab.
        * apply gexp_eqb_eq in Eab. subst. now apply square_sound.
        * now apply combine_product_sound.
      + apply IHq; [now inversion_clear IH|]. intros v Hv. apply Hg. rewrite vars_GE in *. cbn [qvars flat_map].
        rewrite !in_app_iff in *. tauto.
    - assert (Hl : forall v, In v (map fst l) -> allows_value (g v) (s v) = true).
      { intros v Hv. apply Hg. rewrite vars_GE, in_app_iff. auto. }
      clear -Hl. induction l as [|[v k] l IHl]; cbn [map]; constructor.
      + cbn [fst snd]. apply combine_product_sound; [apply Hl; cbn; auto|]. now apply from_value_allows.
      + apply IHl. intros w Hw. apply Hl. now right.
    - constructor; [|constructor]. now apply from_value_allows.
  Qed.

  (** ** Degree *)
  Fixpoint peval (cs : list (F p)) (t : F p) : F p :=
    match cs with [] => 0 | a :: cs' => a + t * peval cs' t end.
  (** [f] is a univariate polynomial function of degree at most [d]. *)
  Definition poly_le (d : nat) (f : F p -> F p) : Prop :=
    exists cs, (length cs <= S d)%nat /\ forall t, f t = peval cs t.

  Fixpoint padd (a b : list (F p)) : list (F p) :=
    match a, b with
    | [], _ => b | _, [] => a
    | x :: a', y :: b' => (x + y) :: padd a' b'
    end.
  Lemma peval_padd a b t : peval (padd a b) t = peval a t + peval b t.
  Proof.
    revert b. induction a as [|x a IH]; intros [|y b]; cbn [padd peval]; try ring. rewrite IH. ring.
  Qed.
  Lemma padd_length a b : length (padd a b) = Nat.max (length a) (length b).
  Proof. revert b. induction a as [|x a IH]; intros [|y b]; cbn [padd length]; auto. rewrite IH. lia. Qed.
  Definition pscale k (a : list (F p)) := map (fmul k) a.
  Lemma peval_pscale k a t : peval (pscale k a) t = k * peval a t.
  Proof. unfold pscale. induction a as [|x a IH]; cbn [map peval]; [ring|]. rewrite IH. ring. Qed.
  Fixpoint pmul (a b : list (F p)) : list (F p) :=
    match a with
    | [] => []
    | x :: a' => padd (pscale x b) (match a' with [] => [] | _ => 0 :: pmul a' b end)
    end.
  Lemma peval_pmul a b t : peval (pmul a b) t = peval a t * peval b t.
  Proof.
    induction a as [|x a IH]; cbn [pmul peval]; [ring|]. rewrite peval_padd, peval_pscale.
    destruct a; [cbn [peval]; ring|]. cbn [peval] in *. rewrite IH. ring.
  Qed.
  Lemma pmul_length a b : (length (pmul a b) <= length a + length b - 1)%nat.
  Proof.
    induction a as [|x a IH]; cbn [pmul length]; [lia|]. rewrite padd_length. unfold pscale. rewrite map_length.
    destruct a; cbn [length] in *; lia.
  Qed.
  Lemma poly_le_add d1 d2 d f g : poly_le d1 f -> poly_le d2 g -> (d1 <= d)%nat -> (d2 <= d)%nat ->
    poly_le d (fun t => f t + g t).
  Proof.
    intros (a & La & Ha) (b & Lb & Hb) H1 H2. exists (padd a b). split.
    - rewrite padd_length. lia.
    - intros t. now rewrite peval_padd, Ha, Hb.
  Qed.
  Lemma poly_le_mul d1 d2 f g : poly_le d1 f -> poly_le d2 g -> poly_le (d1 + d2) (fun t => f t * g t).
  Proof.
    intros (a & La & Ha) (b & Lb & Hb). exists (pmul a b). split.
    - pose proof (pmul_length a b). lia.
    - intros t. now rewrite peval_pmul, Ha, Hb.
  Qed.
  Lemma poly_le_const d k : poly_le d (fun _ => k).
  Proof. exists [k]. split; [cbn; lia|]. intros t. cbn [peval]. ring. Qed.

  (** On every line in assignment space the value of [e] is a polynomial of degree at
      most [degree e]. *)
  Lemma degree_sound s0 s1 e : poly_le (degree e) (fun t => eval (fun v => s0 v + t * s1 v) e).
  Proof.
    induction e as [q l c IH] using gexp_ind'.
    assert (HL : poly_le (match l with [] => 0 | _ => 1 end)%nat (fun t => el_sum (fun v => s0 v + t * s1 v) l + c)).
    { destruct l as [|x l'].
      - exists [c]. split; [cbn; lia|]. intros t. rewrite el_sum_nil. cbn [peval]. ring.
      - generalize (x :: l'). clear. intros l. exists [el_sum s0 l + c; el_sum s1 l]. split; [cbn; lia|].
        intros t. cbn [peval]. assert (G : el_sum (fun v => s0 v + t * s1 v) l = el_sum s0 l + t * el_sum s1 l).
        { induction l as [|vc l IHl]; [rewrite !el_sum_nil; ring|]. rewrite !el_sum_cons, IHl. ring. }
        rewrite G. ring. }
    cbn [degree]. set (d0 := match l with [] => 0 | _ => 1 end%nat) in *. clearbody d0.
    assert (G : poly_le (fold_right (fun ab acc => Nat.max (degree (fst ab) + degree (snd ab)) acc) d0 q)
                  (fun t => eq_sum (fun v => s0 v + t * s1 v) q + (el_sum (fun v => s0 v + t * s1 v) l + c))).
    { induction q as [|ab q IHq]; cbn [fold_right].
      - destruct HL as (cs & Hl & H). exists cs. split; auto. intros t. rewrite <- H, eq_sum_nil. ring.
      - inversion_clear IH as [|? ? [IHa IHb] IHt]. specialize (IHq IHt).
        pose proof (poly_le_add _ _ (Nat.max (degree (fst ab) + degree (snd ab))
          (fold_right (fun ab acc => Nat.max (degree (fst ab) + degree (snd ab)) acc) d0 q))
           _ _ (poly_le_mul _ _ _ _ IHa IHb) IHq ltac:(lia) ltac:(lia)) as (cs & Hl & H).
        exists cs. split; auto. intros t. rewrite <- H, eq_sum_cons. ring. }
    destruct G as (cs & Hl & H). exists cs. split; auto. intros t. rewrite <- H, eval_GE. ring.
  Qed.
End ExprMore.
