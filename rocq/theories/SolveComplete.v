(** Completeness of [try_solve_for] and [try_solve_for_expr]. *)
From Coq Require Import NArith ZArith Znumtheory Bool List Lia Ring Field Sorted.
From Verif Require Import Field RangeModel RangeFacts ExprModel ExprFacts ExprWf ExprMore SolveModel SolveFacts.
Import ListNotations.
Local Open Scope F_scope.

Section SolveComplete.
  Context {p : positive}.
  Context (Hp : prime (Z.pos p)).
  Local Notation gexp := (gexp p).
  Add Ring Fring : (F_ring_theory (p:=p)).

  Definition slope v (e : gexp) : F p := lsum_of v (lin e).
  Lemma slope_eval s v x (e : gexp) : quad e = [] -> eval (upd s v x) e = eval (upd s v 0) e + slope v e * x.
  Proof.
    destruct e as [q l c]. cbn [quad]. intros ->. unfold slope. cbn [lin]. rewrite !eval_GE, !eq_sum_nil, <- !lremove_eval. ring.
  Qed.
  Lemma slope_unique v (e : gexp) k : quad e = [] ->
    (exists s, eval (upd s v 1) e = eval (upd s v 0) e + k) -> slope v e = k.
  Proof.
    intros Hq (s & H). rewrite (slope_eval s v 1 e Hq) in H.
    transitivity (eval (upd s v 0) e + slope v e * 1 - eval (upd s v 0) e); [ring|]. rewrite H. ring.
  Qed.
  Lemma lsum_notin v (l : list (var * F p)) : ~ In v (map fst l) -> lsum_of v l = 0.
  Proof.
    induction l as [|[w k] l IH]; cbn [lsum_of fold_right map fst In snd]; auto. intros H.
    destruct (veqb_spec v w) as [->|]; [tauto|]. fold (lsum_of v l). apply IH. tauto.
  Qed.
  Lemma lsum_lget v (l : list (var * F p)) : lin_ok l -> lsum_of v l = match lget v l with Some k => k | None => 0 end.
  Proof.
    intros [Hs _]. induction l as [|[w k] l IH]; cbn [lsum_of fold_right lget fst snd]; auto.
    cbn [map fst] in Hs. apply StronglySorted_inv in Hs. destruct Hs as [Hs Hf]. specialize (IH Hs).
    destruct (veqb_spec v w) as [->|]; auto. fold (lsum_of w l). rewrite lsum_notin; [ring|].
    intros Hin. rewrite Forall_forall in Hf. specialize (Hf w Hin). unfold vlt in Hf. rewrite vltb_irrefl in Hf. discriminate.
  Qed.
  Lemma slope_vars v (e : gexp) : quad e = [] -> wf e -> (In v (vars e) <-> slope v e <> 0).
  Proof.
    destruct e as [q l c]. cbn [quad]. intros -> Hw. apply wf_GE in Hw. destruct Hw as [Hl _]. unfold slope. cbn [lin].
    rewrite vars_GE. cbn [qvars flat_map app]. rewrite lsum_lget by auto. destruct (lget v l) as [k|] eqn:E.
    - pose proof (lget_in _ _ _ E) as Hin. split; [|intros _; apply in_map_iff; now exists (v, k)].
      intros _. destruct Hl as [_ Hn]. rewrite Forall_forall in Hn. exact (Hn _ Hin).
    - apply lget_none in E. tauto.
  Qed.
  Lemma slope_coefficient v (e : gexp) : wf e -> slope v e <> 0 -> coefficient_of_variable v e = Some (slope v e).
  Proof.
    destruct e as [q l c]. intros Hw. apply wf_GE in Hw. destruct Hw as [Hl _]. unfold slope, coefficient_of_variable. cbn [lin].
    rewrite lsum_lget by auto. destruct (lget v l); tauto.
  Qed.
  Lemma coefficient_slope v (e : gexp) k : wf e -> coefficient_of_variable v e = Some k -> slope v e = k.
  Proof.
    destruct e as [q l c]. intros Hw. apply wf_GE in Hw. destruct Hw as [Hl _]. unfold slope, coefficient_of_variable. cbn [lin].
    rewrite lsum_lget by auto. now intros ->.
  Qed.
  Lemma gsub_quad_nil (a b : gexp) : quad a = [] -> quad b = [] -> quad (gsub a b) = [].
  Proof. destruct a, b. cbn [quad]. intros -> ->. reflexivity. Qed.
  Lemma gscale_quad_nil (a : gexp) k : quad a = [] -> quad (gscale a k) = [].
  Proof. destruct a. cbn [quad]. intros ->. unfold gscale. destruct (is_zero k); reflexivity. Qed.

  Lemma try_solve_for_expr_complete (e x : gexp) : wf e -> wf x -> is_affine e = true -> is_affine x = true ->
    vars x <> [] ->
    (exists k (r : gexp), k <> 0 /\ (forall v, In v (vars x) -> ~ In v (vars r)) /\ forall s, eval s e = k * eval s x + eval s r) ->
    exists r, try_solve_for_expr e x = Some r.
  Proof.
    unfold is_affine, is_quadratic. intros We Wx Qe Qx Hne (k & r & Hk & Hr & He).
    assert (Hqe : quad e = []) by (destruct (quad e); auto; discriminate).
    assert (Hqx : quad x = []) by (destruct (quad x); auto; discriminate). clear Qe Qx.
    assert (Hs : forall v, In v (vars x) -> slope v e = k * slope v x).
    { intros v Hv. apply slope_unique; auto. exists (fun _ => 0). rewrite !He, (slope_eval _ v 1 x Hqx).
      rewrite !(eval_upd_notin _ v _ r) by (apply Hr; auto). ring. }
    assert (Hn : normalization_factor e x * k = 1).
    { unfold normalization_factor. destruct (find _ (vars x)) as [v|] eqn:Ef.
      - apply find_some in Ef. destruct Ef as [Hv Hc]. pose proof (proj1 (slope_vars v x Hqx Wx) Hv) as Hnz.
        rewrite (slope_coefficient v x Wx Hnz). destruct (coefficient_of_variable v e) as [a|] eqn:Ea; [|discriminate].
        apply (coefficient_slope v e a We) in Ea. rewrite (Hs v Hv) in Ea. subst a. unfold fdiv.
        assert (Hkx : k * slope v x <> 0) by (intros H; apply mul_eq_zero in H; tauto).
        pose proof (finv_r _ Hp Hkx) as Hi.
        transitivity ((k * slope v x) * finv (k * slope v x)); [ring|exact Hi].
      - exfalso. destruct (vars x) as [|v vs] eqn:Ev; [congruence|].
        pose proof (find_none _ _ Ef v (or_introl eq_refl)) as H. cbn beta in H.
        assert (Hv : In v (vars x)) by (rewrite Ev; now left).
        pose proof (proj1 (slope_vars v x Hqx Wx) Hv) as Hnz.
        assert (Hse : slope v e <> 0). { rewrite Hs by (now left). intros H0. apply mul_eq_zero in H0; tauto. }
        rewrite (slope_coefficient v e We Hse) in H. apply negb_false_iff in H. apply is_zero_eq in H. tauto. }
    unfold try_solve_for_expr, is_quadratic. rewrite Hqe.
    set (res := gsub x (gscale e (normalization_factor e x))).
    destruct (existsb (fun v => mentions v res) (vars x)) eqn:Ex; [|eauto]. exfalso.
    apply existsb_exists in Ex. destruct Ex as (v & Hv & Hm). apply mentions_In in Hm.
    assert (Hqr : quad res = []) by (apply gsub_quad_nil; auto; apply gscale_quad_nil; auto).
    assert (Wr : wf res) by (apply wf_gsub; auto; apply wf_gscale; auto).
    apply slope_vars in Hm; auto. apply Hm. apply slope_unique; auto. exists (fun _ => 0).
    unfold res. rewrite !eval_gsub, !eval_gscale. rewrite (slope_eval _ v 1 x Hqx), (slope_eval _ v 1 e Hqe), (Hs v Hv).
    set (n := normalization_factor e x) in *.
    transitivity (eval (upd (fun _ => 0) v 0) x - eval (upd (fun _ => 0) v 0) e * n + slope v x - (n * k) * slope v x); [ring|].
    rewrite Hn. ring.
  Qed.

  Lemma lget_split v (l : list (var * F p)) k : lget v l = Some k -> lin_ok l ->
    forall w, In w (map fst (lretain_nonzero (ladd v (- k) l))) -> w <> v.
  Proof.
    intros Hg [Hs Hn] w Hw ->. 
    assert (Hl : lin_ok (lretain_nonzero (ladd v (- k) l))).
    { split; [apply filter_sorted, ladd_sorted; auto|apply lretain_nonzero_nz]. }
    pose proof (slope_vars v (GE [] (lretain_nonzero (ladd v (- k) l)) 0) eq_refl) as H.
    rewrite vars_GE in H. cbn [qvars flat_map app] in H. destruct H as [H _].
    { apply wf_GE. split; auto. constructor. }
    apply H; auto. apply slope_unique; auto. exists (fun _ => 0). rewrite !eval_GE, !lretain_eval, !ladd_eval, !upd_same, <- !lremove_eval.
    rewrite lsum_lget, Hg by (split; auto). rewrite !eq_sum_nil. ring.
  Qed.
  Lemma try_solve_for_complete v (e : gexp) : wf e -> In v (map fst (lin e)) ->
    (forall ab, In ab (quad e) -> ~ In v (vars (fst ab)) /\ ~ In v (vars (snd ab))) ->
    exists r, try_solve_for v e = Some r.
  Proof.
    intros We Hv Hq. unfold try_solve_for.
    destruct e as [q l c]. cbn [lin quad] in *. pose proof We as We'. apply wf_GE in We'. destruct We' as [Hl _].
    unfold coefficient_of_variable. cbn [lin]. destruct (lget v l) as [k|] eqn:E; [|apply lget_none in E; tauto].
    assert (Hk : k <> 0). { apply lget_in in E. destruct Hl as [_ Hn]. rewrite Forall_forall in Hn. exact (Hn _ E). }
    destruct (is_zero k) eqn:Ez; [apply is_zero_eq in Ez; tauto|].
    destruct (mentions v _) eqn:Em; [|eauto]. exfalso. apply mentions_In in Em.
    unfold gscale, from_var in Em. rewrite Ez in Em. unfold gsub, gadd in Em. cbn [gscale_nz map fst snd gneg quad lin cst fold_left] in Em.
    rewrite vars_GE, in_app_iff in Em. destruct Em as [Em|Em].
    - apply qvars_in in Em. destruct Em as (ab & Hab & Hin).
      assert (HF : Forall (fun ab => ~ In v (vars (fst ab)) /\ ~ In v (vars (snd ab))) (combine_removing_zeros q [])).
      { apply combine_removing_zeros_forall; [now apply Forall_forall|constructor]. }
      rewrite Forall_forall in HF. specialize (HF ab Hab). tauto.
    - assert (E1 : (- (1 * k)) = - k) by ring. rewrite E1 in Em. exact (lget_split v l k E Hl v Em eq_refl).
  Qed.
End SolveComplete.
