(** Facts about the boolean extractor and the linearizer. *)
From Coq Require Import NArith ZArith Znumtheory Bool List Lia Ring.
From Coq Require Import ZifyBool ZifyN ZifyNat.
From Verif Require Import Field RangeModel RangeFacts ExprModel ExprFacts ExprWf ExprMore SolveModel SolveFacts
  SystemModel IndexFacts BoolLinModel.
Import ListNotations.
Local Open Scope F_scope.

(** Variables dispensed so far (original variables always are). *)
Definition old (nb nl : N) (v : var) : Prop :=
  match v with Orig _ => True | Boolv n => (n < nb)%N | Lin n => (n < nl)%N end.
Lemma old_mono nb nl nb' nl' v : (nb <= nb')%N -> (nl <= nl')%N -> old nb nl v -> old nb' nl' v.
Proof. destruct v; cbn; lia. Qed.

Section BoolLinFacts.
  Context {p : positive}.
  Context (Hp : prime (Z.pos p)).
  Local Notation gexp := (gexp p).
  Local Notation P := (N.pos p).
  Add Ring Fring : (F_ring_theory (p:=p)).

  (** ** Substituting in lists of expressions *)
  Definition substs_in (ss : list (var * gexp)) (e : gexp) : gexp :=
    fold_left (fun e ve => subst_unknown (fst ve) (snd ve) e) ss e.
  Lemma apply_substs_map ss es : Forall (fun ve => ~ In (fst ve) (vars (snd ve))) ss ->
    apply_substs_to_exprs es ss = map (substs_in ss) es.
  Proof.
    intros H. unfold apply_substs_to_exprs.
    assert (G : forall c, index_ok c -> algs (isys (ics_apply_substs ss c)) = map (substs_in ss) (algs (isys c))).
    { induction H as [|[v e] ss Hv Hs IH]; intros c Hc; cbn [ics_apply_substs fold_left].
      - cbn [substs_in fold_left]. symmetry. erewrite map_ext; [apply map_id|]. reflexivity.
      - cbn [fst snd] in *. unfold ics_apply_substs in IH. rewrite IH by now apply subst_unknown_ok.
        rewrite (subst_unknown_sys v e c Hc Hv). cbn [cs_map algs]. rewrite map_map. reflexivity. }
    rewrite G by apply ics_from_ok. reflexivity.
  Qed.
  Lemma substs_in_eval s ss e : Forall (fun ve => s (fst ve) = eval s (snd ve)) ss -> eval s (substs_in ss e) = eval s e.
  Proof.
    intros H. revert e. induction H as [|[v r] ss Hv Hs IH]; intros e; cbn [substs_in fold_left]; auto.
    cbn [fst snd] in *. unfold substs_in in IH. rewrite IH, eval_subst_unknown. apply eval_ext. intros w _. unfold upd.
    destruct (veqb_spec w v) as [->|]; auto.
    - rewrite veqb_refl. auto.
    - destruct (veqb_spec v w); congruence.
  Qed.
  Definition bounded nb nl (e : gexp) : Prop := forall v, In v (vars e) -> old nb nl v.
  Lemma bounded_mono nb nl nb' nl' e : (nb <= nb')%N -> (nl <= nl')%N -> bounded nb nl e -> bounded nb' nl' e.
  Proof. intros H1 H2 H v Hv. eapply old_mono; eauto. Qed.
  (** Affine, well-formed, only old variables. *)
  Definition aff nb nl (e : gexp) : Prop := wf e /\ quad e = [] /\ bounded nb nl e.
  Lemma aff_mono nb nl nb' nl' e : (nb <= nb')%N -> (nl <= nl')%N -> aff nb nl e -> aff nb' nl' e.
  Proof. intros H1 H2 (A & B & C). split; [|split]; auto. eapply bounded_mono; eauto. Qed.
  Lemma aff_number nb nl k : aff nb nl (from_number k).
  Proof. split; [apply wf_from_number|split; [reflexivity|intros v []]]. Qed.
  Lemma aff_var nb nl v : old nb nl v -> aff nb nl (from_var v).
  Proof. intros H. split; [now apply wf_from_var|split; [reflexivity|]]. intros w [<-|[]]. exact H. Qed.
  Lemma bounded_gadd nb nl a b : bounded nb nl a -> bounded nb nl b -> bounded nb nl (gadd a b).
  Proof. intros Ha Hb v Hv. apply vars_gadd in Hv. destruct Hv; auto. Qed.
  Lemma aff_gadd nb nl a b : aff nb nl a -> aff nb nl b -> aff nb nl (gadd a b).
  Proof.
    intros (W1 & A1 & V1) (W2 & A2 & V2). split; [now apply wf_gadd|]. split; [|now apply bounded_gadd].
    unfold gadd. cbn [quad]. rewrite A1, A2. reflexivity.
  Qed.
  Lemma aff_gscale nb nl a k : aff nb nl a -> aff nb nl (gscale a k).
  Proof.
    intros (W1 & A1 & V1). split; [now apply wf_gscale|]. split.
    - unfold gscale. destruct is_zero; [reflexivity|]. destruct a as [q l c]. cbn in *. now rewrite A1.
    - intros v Hv. apply vars_gscale in Hv. auto.
  Qed.
  Lemma aff_gsum nb nl es : Forall (aff nb nl) es -> aff nb nl (gsum es).
  Proof.
    unfold gsum. intros H. assert (G : aff nb nl gzero) by apply (aff_number nb nl 0). revert G. generalize (gzero (p:=p)).
    induction H as [|e es He Hes IH]; intros a Ha; cbn [fold_left]; auto. apply IH. now apply aff_gadd.
  Qed.
  Lemma bounded_gmul nb nl a b : bounded nb nl a -> bounded nb nl b -> bounded nb nl (gmul a b).
  Proof. intros Ha Hb v Hv. apply vars_gmul in Hv. destruct Hv; auto. Qed.
  Lemma bounded_gneg nb nl a : bounded nb nl a -> bounded nb nl (gneg a).
  Proof. intros Ha v Hv. rewrite vars_gneg in Hv. auto. Qed.
  Lemma bounded_gsub nb nl a b : bounded nb nl a -> bounded nb nl b -> bounded nb nl (gsub a b).
  Proof. intros. apply bounded_gadd; auto. now apply bounded_gneg. Qed.
  Lemma bounded_gscale nb nl a k : bounded nb nl a -> bounded nb nl (gscale a k).
  Proof. intros Ha v Hv. apply vars_gscale in Hv. auto. Qed.
  Lemma bounded_subst nb nl v e0 e : bounded nb nl e0 -> bounded nb nl e -> bounded nb nl (subst_unknown v e0 e).
  Proof. intros Ha Hb w Hw. apply vars_subst_unknown in Hw. destruct Hw as [[Hw _]|[_ Hw]]; auto. Qed.
  Lemma subst_unknown_affine v e0 e : quad e0 = [] -> quad e = [] -> quad (subst_unknown v e0 e) = [] :> list (gexp * gexp).
  Proof.
    intros A0 A. destruct e as [q l c]. cbn in A. subst q. cbn [subst_unknown]. destruct (negb _); [reflexivity|].
    cbn [map fold_left]. unfold gadd. cbn [quad].
    assert (G : forall acc : gexp, quad acc = [] ->
      quad (fold_left (fun acc wk => if veqb v (fst wk) then gadd acc (gscale e0 (snd wk)) else acc) l acc) = []).
    { induction l as [|wk l IH]; intros acc Ha; cbn [fold_left]; auto. apply IH. destruct veqb; auto.
      unfold gadd; cbn [quad]. rewrite Ha. unfold gscale. destruct is_zero; [reflexivity|].
      destruct e0 as [q0 l0 c0]. cbn in *. now rewrite A0. }
    rewrite G by reflexivity. reflexivity.
  Qed.
  Lemma aff_subst nb nl v e0 e : aff nb nl e0 -> aff nb nl e -> aff nb nl (subst_unknown v e0 e).
  Proof.
    intros (W0 & A0 & B0) (W & A & B). split; [now apply wf_subst_unknown|]. split; [now apply subst_unknown_affine|].
    now apply bounded_subst.
  Qed.
  Lemma substs_in_aff nb nl ss e : Forall (fun ve => aff nb nl (snd ve)) ss -> aff nb nl e -> aff nb nl (substs_in ss e).
  Proof.
    intros H. revert e. induction H as [|[v r] ss Hv Hs IH]; intros e He; cbn [substs_in fold_left]; auto.
    apply IH. now apply aff_subst.
  Qed.
  Lemma substs_in_bounded nb nl ss e : Forall (fun ve => aff nb nl (snd ve)) ss -> wf e -> bounded nb nl e ->
    wf (substs_in ss e) /\ bounded nb nl (substs_in ss e).
  Proof.
    intros H. revert e. induction H as [|[v r] ss (Wv & Av & Bv) Hs IH]; intros e He Hb; cbn [substs_in fold_left]; auto.
    apply IH; [now apply wf_subst_unknown|now apply bounded_subst].
  Qed.

  (** ** The boolean extractor *)
  Lemma bool_factor_nz (le ri : gexp) : wf le -> wf ri -> bool_factor le ri <> 0.
  Proof.
    intros W1 W2. unfold bool_factor. destruct le as [q1 l1 c1], ri as [q2 l2 c2]. cbn [lin].
    apply wf_GE in W1, W2. destruct W1 as [[_ W1] _], W2 as [[_ W2] _].
    destruct l1 as [|[v1 k1] l1]; [apply one_neq_zero; auto|]. destruct l2 as [|[v2 k2] l2]; [apply one_neq_zero; auto|].
    destruct veqb; [|apply one_neq_zero; auto]. inversion_clear W1. inversion_clear W2. cbn [snd] in *.
    unfold fdiv. intros E. apply (mul_eq_zero _ _ Hp) in E. destruct E as [E|E]; [auto|]. exact (finv_neq_zero _ Hp H E).
  Qed.
  Lemma single_product_inv (e le ri : gexp) : try_as_single_product e = Some (le, ri) -> e = GE [(le, ri)] [] 0.
  Proof.
    destruct e as [q l c]. cbn. destruct q as [|[a b] [|]]; try discriminate. destruct l; try discriminate.
    destruct (is_zero c) eqn:E; [|discriminate]. apply is_zero_eq in E. now intros [= -> ->]; subst.
  Qed.
  Lemma wf_product (le ri : gexp) c : wf (GE [(le, ri)] [] c) -> wf le /\ wf ri.
  Proof. intros H. apply wf_GE in H. destruct H as [_ H]. inversion_clear H. tauto. Qed.

  Lemma extract_ok m nb (e c : gexp) zo m' nb' : wf e ->
    try_extract_boolean m nb e = (Some (c, zo), (m', nb')) ->
    wf c /\
    match zo with
    | None => nb' = nb /\ incl (vars c) (vars e) /\ forall s, eval s e = 0 <-> eval s c = 0
    | Some z => z = Boolv nb /\ (nb' = nb + 1)%N /\ incl (vars c) (z :: vars e) /\
        forall s, ~ In z (vars e) ->
          (eval s e = 0 <-> exists b, (b = 0 \/ b = 1) /\ eval (upd s z b) c = 0)
    end.
  Proof.
    intros W. unfold try_extract_boolean. destruct (try_as_single_product e) as [[le ri]|] eqn:E; [|discriminate].
    apply single_product_inv in E. subst e. destruct (wf_product _ _ _ W) as [Wl Wr].
    pose proof (bool_factor_nz le ri Wl Wr) as Hf. set (f := bool_factor le ri) in *.
    destruct (try_to_known (gsub (gscale le f) ri)) as [offset|] eqn:Ek; [|discriminate].
    assert (Hoff : forall s, eval s le * f = eval s ri + offset).
    { intros s. apply (try_to_known_eval s) in Ek. rewrite eval_gsub, eval_gscale in Ek. rewrite <- Ek. ring. }
    assert (He : forall s, eval s (GE [(le, ri)] [] 0) = 0 <-> eval s ri = 0 \/ eval s ri = - offset).
    { intros s. rewrite eval_GE, eq_sum_cons, eq_sum_nil, el_sum_nil. cbn [fst snd].
      replace (eval s le * eval s ri + 0 + 0 + 0) with (eval s le * eval s ri) by ring.
      rewrite (mul_eq_zero_iff _ _ Hp). rewrite <- (add_eq_zero (eval s ri) offset), <- Hoff, (mul_eq_zero_iff _ _ Hp). tauto. }
    assert (Hvars : incl (vars ri) (vars (GE [(le, ri)] [] 0))).
    { rewrite vars_GE. cbn [qvars flat_map fst snd map]. intros v Hv. rewrite !in_app_iff. auto. }
    destruct (is_zero offset) eqn:Ez.
    - destruct (bool_contains ri m); [discriminate|]. intros [= <- <- <- <-]. split; auto. split; auto. split; auto.
      intros s. rewrite He. apply is_zero_eq in Ez. subst offset. replace (- 0) with (0 : F p) by ring. tauto.
    - apply is_zero_neq in Ez. set (alt := gsub (gneg ri) (from_number offset)).
      set (expr := if opt_leb _ _ then ri else alt). destruct (bool_contains _ m); [discriminate|].
      destruct (try_to_simple_unknown _); [discriminate|]. intros [= <- <- <- <-].
      assert (Wexpr : wf expr).
      { unfold expr, alt. destruct opt_leb; auto. apply wf_gsub; [now apply wf_gneg|apply wf_from_number]. }
      assert (Vexpr : incl (vars expr) (vars ri)).
      { unfold expr, alt. destruct opt_leb; [apply incl_refl|]. intros v Hv. apply vars_gsub in Hv. rewrite vars_gneg in Hv.
        destruct Hv as [Hv|[]]; auto. }
      split; [|split; [|split; [|split]]]; auto.
      + apply wf_gadd; auto. apply wf_gscale; auto. now apply wf_from_var.
      + intros v Hv. apply vars_gadd in Hv. destruct Hv as [Hv|Hv].
        * right. auto.
        * apply vars_gscale in Hv. destruct Hv as [<-|[]]. now left.
      + intros s Hz. set (z := Boolv nb) in *.
        assert (Hev : forall b, eval (upd s z b) (gadd expr (gscale (from_var z) offset)) = eval s expr + b * offset).
        { intros b. rewrite eval_gadd, eval_gscale, eval_from_var, upd_same. f_equal. apply eval_upd_notin.
          intros H. apply Hz. auto. }
        rewrite He.
        assert (Hx : (eval s ri = 0 \/ eval s ri = - offset) <-> (eval s expr = 0 \/ eval s expr = - offset)).
        { unfold expr, alt. destruct opt_leb; [tauto|]. rewrite eval_gsub, eval_gneg, eval_from_number.
          split; intros [H|H].
          - right. rewrite H. ring.
          - left. rewrite H. ring.
          - right. transitivity (- (- eval s ri - offset) - offset); [ring|]. rewrite H. ring.
          - left. transitivity (- (- eval s ri - offset) - offset); [ring|]. rewrite H. ring. }
        rewrite Hx. split.
        * intros [H|H]; [exists 0|exists 1]; (split; [auto|]); rewrite Hev, H; ring.
        * intros (b & [->| ->] & H); rewrite Hev in H; [left|right]; [rewrite <- H; ring|].
          apply add_eq_zero. rewrite <- H. ring.
  Qed.
  Lemma extract_none m nb (e : gexp) m' nb' : try_extract_boolean m nb e = (None, (m', nb')) -> m' = m /\ nb' = nb.
  Proof.
    unfold try_extract_boolean. destruct (try_as_single_product e) as [[le ri]|]; [|intros [= <- <-]; auto].
    destruct (try_to_known _); [|intros [= <- <-]; auto]. destruct (is_zero _).
    - destruct (bool_contains _ _); [intros [= <- <-]; auto|discriminate].
    - destruct (bool_contains _ _); [intros [= <- <-]; auto|]. destruct (try_to_simple_unknown _); [intros [= <- <-]; auto|discriminate].
  Qed.

  (** ** The linearizer *)
  Definition lin_true (s : var -> F p) (m : lin_map p) : Prop := Forall (fun kx => eval s (fst kx) = eval s (snd kx)) m.
  Definition lm_ok nb nl (m : lin_map p) : Prop :=
    Forall (fun kx => wf (fst kx) /\ bounded nb nl (fst kx) /\ aff nb nl (snd kx)) m.
  Lemma lm_ok_mono nb nl nb' nl' m : (nb <= nb')%N -> (nl <= nl')%N -> lm_ok nb nl m -> lm_ok nb' nl' m.
  Proof.
    intros H1 H2 H. eapply Forall_impl; [|exact H]. intros [k x] (A & B & C). split; [|split]; auto.
    - eapply bounded_mono; eauto.
    - eapply aff_mono; eauto.
  Qed.
  (** [s'] changes only variables not dispensed yet. *)
  Definition ext nb nl (s s' : var -> F p) : Prop := forall v, old nb nl v -> s' v = s v.
  Lemma ext_refl nb nl s : ext nb nl s s. Proof. intros v _. reflexivity. Qed.
  Lemma ext_trans nb nl nb' nl' s s' s'' : (nb <= nb')%N -> (nl <= nl')%N -> ext nb nl s s' -> ext nb' nl' s' s'' -> ext nb nl s s''.
  Proof. intros H1 H2 A B v Hv. rewrite (B v), (A v); auto. eapply old_mono; eauto. Qed.
  Lemma ext_eval nb nl s s' e : ext nb nl s s' -> bounded nb nl e -> eval s' e = eval s e.
  Proof. intros H B. apply eval_ext. intros v Hv. apply H. auto. Qed.
  Lemma ext_lin_true nb nl s s' m : ext nb nl s s' -> lm_ok nb nl m -> lin_true s m -> lin_true s' m.
  Proof.
    intros HE HM H. unfold lin_true, lm_ok in *. rewrite Forall_forall in *. intros kx Hkx. destruct (HM kx Hkx) as (_ & B & C).
    rewrite (ext_eval _ _ _ _ _ HE B), (ext_eval _ _ _ _ _ HE (proj2 (proj2 C))). auto.
  Qed.

  Record lstep nb (st st' : lin_state p) (new : list gexp) : Prop := {
    ls_le : (lnext st <= lnext st')%N;
    ls_new : lconstrs st' = lconstrs st ++ new;
    ls_good : Forall (fun e => wf e /\ bounded nb (lnext st') e) new;
    ls_iff : forall s, lin_true s (lmap st') <-> lin_true s (lmap st) /\ Forall (fun e => eval s e = 0) new;
    ls_ext : forall s, lin_true s (lmap st) -> exists s', ext nb (lnext st) s s' /\ lin_true s' (lmap st');
    ls_ok : lm_ok nb (lnext st') (lmap st') }.
  Lemma lstep_refl nb st : lm_ok nb (lnext st) (lmap st) -> lstep nb st st [].
  Proof.
    intros H. constructor; auto; try lia; try (now rewrite app_nil_r).
    - intuition.
    - intros s Hs. exists s. split; [apply ext_refl|auto].
  Qed.
  Lemma lstep_trans nb a b c n1 n2 : lstep nb a b n1 -> lstep nb b c n2 -> lstep nb a c (n1 ++ n2).
  Proof.
    intros A B. constructor.
    - pose proof (ls_le _ _ _ _ A). pose proof (ls_le _ _ _ _ B). lia.
    - rewrite (ls_new _ _ _ _ B), (ls_new _ _ _ _ A), app_assoc. reflexivity.
    - apply Forall_app. split; [|exact (ls_good _ _ _ _ B)]. eapply Forall_impl; [|exact (ls_good _ _ _ _ A)].
      intros e [W H]. split; auto. eapply bounded_mono; [| |exact H]; [lia|exact (ls_le _ _ _ _ B)].
    - intros s. rewrite (ls_iff _ _ _ _ B), (ls_iff _ _ _ _ A), Forall_app. tauto.
    - intros s Hs. destruct (ls_ext _ _ _ _ A s Hs) as (s1 & E1 & L1). destruct (ls_ext _ _ _ _ B s1 L1) as (s2 & E2 & L2).
      exists s2. split; auto. eapply ext_trans; [| |exact E1|exact E2]; [lia|exact (ls_le _ _ _ _ A)].
    - exact (ls_ok _ _ _ _ B).
  Qed.

  Lemma lin_lookup_in e m x : lin_lookup e m = Some x -> In (e, x) (m : lin_map p).
  Proof.
    induction m as [|[k y] m IH]; cbn [lin_lookup]; [discriminate|]. destruct (gexp_eqb e k) eqn:E.
    - intros [= <-]. apply gexp_eqb_eq in E. subst. now left.
    - intros H. right. auto.
  Qed.
  Lemma try_subst_existing_eval s m e x : lin_true s m -> try_subst_existing m e = Some x -> eval s x = eval s e.
  Proof.
    intros H. unfold try_subst_existing.
    assert (G : lin_lookup e m = Some x -> eval s x = eval s e).
    { intros Hl. apply lin_lookup_in in Hl. unfold lin_true in H. rewrite Forall_forall in H. symmetry. exact (H _ Hl). }
    destruct (try_to_known e), (try_to_simple_unknown e); try (intros [= <-]; reflexivity). exact G.
  Qed.
  Lemma simple_unknown_inv (e : gexp) v : try_to_simple_unknown e = Some v -> e = from_var v.
  Proof.
    destruct e as [[|] [|[w k] [|]] c]; cbn; try discriminate.
    destruct (is_zero c) eqn:E1, (is_one k) eqn:E2; cbn; try discriminate. intros [= ->].
    apply is_zero_eq in E1. apply is_one_eq in E2. now subst.
  Qed.
  Lemma try_subst_existing_aff nb nl m e x : lm_ok nb nl m -> bounded nb nl e -> try_subst_existing m e = Some x -> aff nb nl x.
  Proof.
    intros HM HB. unfold try_subst_existing. destruct (try_to_known e) as [k|] eqn:E1.
    - intros [= <-]. apply try_to_known_some in E1. subst. apply (aff_number nb nl k).
    - destruct (try_to_simple_unknown e) as [v|] eqn:E2.
      + intros [= <-]. apply simple_unknown_inv in E2. subst. apply aff_var. apply HB. cbn. auto.
      + intros H. apply lin_lookup_in in H. unfold lm_ok in HM. rewrite Forall_forall in HM. exact (proj2 (proj2 (HM _ H))).
  Qed.

  Lemma subst_by_var_ok nb st e x st' : lm_ok nb (lnext st) (lmap st) -> wf e -> bounded nb (lnext st) e ->
    substitute_by_var e st = (x, st') ->
    exists new, lstep nb st st' new /\ aff nb (lnext st') x /\ forall s, lin_true s (lmap st') -> eval s x = eval s e.
  Proof.
    intros HM W B. unfold substitute_by_var. destruct (try_subst_existing (lmap st) e) as [y|] eqn:E.
    - intros [= <- <-]. exists []. split; [now apply lstep_refl|]. split.
      + eapply try_subst_existing_aff; eauto.
      + intros s Hs. eapply try_subst_existing_eval; eauto.
    - intros [= <- <-]. set (v := Lin (lnext st)).
      assert (Ov : old nb (lnext st + 1) v) by (cbn; lia).
      assert (B' : bounded nb (lnext st + 1) e) by (eapply bounded_mono; [| |exact B]; lia).
      exists [gsub e (from_var v)]. split; [constructor; cbn [lnext lmap lconstrs]|split].
      + lia.
      + reflexivity.
      + constructor; [|constructor]. split.
        * apply wf_gsub; auto. now apply wf_from_var.
        * apply bounded_gsub; auto. apply (proj2 (proj2 (aff_var nb _ v Ov))).
      + intros s. unfold lin_true. split.
        * intros H. inversion_clear H as [|? ? H1 H2]. split; auto. constructor; [|constructor].
          cbn [fst snd] in H1. rewrite eval_gsub, H1. ring.
        * intros [H1 H2]. constructor; auto. inversion_clear H2 as [|? ? H3 _]. cbn [fst snd].
          rewrite eval_gsub in H3. now apply (proj1 (sub_eq_zero _ _)).
      + intros s Hs. exists (upd s v (eval s e)).
        assert (HE : ext nb (lnext st) s (upd s v (eval s e))).
        { intros w Hw. apply upd_other. intros E1. assert (E2 : w = v) by congruence. rewrite E2 in Hw. cbn in Hw. lia. }
        split; auto. constructor.
        * cbn [fst snd]. rewrite eval_from_var, upd_same. eapply ext_eval; eauto.
        * eapply ext_lin_true; eauto.
      + constructor; [|apply (lm_ok_mono nb (lnext st)); auto; lia]. cbn [fst snd]. split; auto. split; auto. now apply aff_var.
      + now apply aff_var.
      + intros s Hs. inversion_clear Hs as [|? ? H1 _]. cbn [fst snd] in H1. symmetry. exact H1.
  Qed.

  Lemma eval_lin_rest (s : var -> F p) l (c : F p) : fold_right (fun e acc => eval s e + acc) 0 (lin_rest l c) = el_sum s l + c.
  Proof.
    unfold lin_rest. induction l as [|[v k] l IH]; cbn [map app fold_right].
    - rewrite el_sum_nil. destruct (is_zero c) eqn:E; cbn [fold_right].
      + apply is_zero_eq in E. subst. ring.
      + rewrite eval_from_number. ring.
    - rewrite IH, el_sum_cons, eval_gscale, eval_from_var. cbn [fst snd]. ring.
  Qed.
  Lemma lin_rest_aff nb nl l (c : F p) : (forall v, In v (map fst l) -> old nb nl v) -> Forall (aff nb nl) (lin_rest l c).
  Proof.
    intros H. unfold lin_rest. apply Forall_app. split.
    - apply Forall_forall. intros x Hx. apply in_map_iff in Hx. destruct Hx as ([v k] & <- & Hv). apply aff_gscale, aff_var.
      apply H. now apply (in_map fst) in Hv.
    - destruct is_zero; constructor; [apply aff_number|constructor].
  Qed.
  Lemma fold_add_app (s : var -> F p) (a b : list gexp) :
    fold_right (fun e acc => eval s e + acc) 0 (a ++ b) =
    fold_right (fun e acc => eval s e + acc) 0 a + fold_right (fun e acc => eval s e + acc) 0 b.
  Proof. induction a as [|x a IH]; cbn [app fold_right]; [ring|]. rewrite IH. ring. Qed.

  Lemma linearize_ok nb e : forall st x st', lm_ok nb (lnext st) (lmap st) -> wf e -> bounded nb (lnext st) e ->
    linearize e st = (x, st') ->
    exists new, lstep nb st st' new /\ aff nb (lnext st') x /\ forall s, lin_true s (lmap st') -> eval s x = eval s e.
  Proof.
    induction e as [q l c IH] using gexp_ind'. intros st x st' HM W B. destruct q as [|ab0 q0].
    { cbn [linearize]. intros [= <- <-]. exists []. split; [now apply lstep_refl|]. split; [|reflexivity].
      split; [|split]; auto. }
    remember (ab0 :: q0) as q eqn:Eq. assert (Hne : q <> []) by (subst; discriminate). clear ab0 q0 Eq.
    cbn [linearize].
    set (go := fix go (q : list (gexp * gexp)) (st : lin_state p) : list gexp * lin_state p :=
           match q with
           | [] => ([], st)
           | (a, b) :: t =>
             let '(a1, st1) := linearize a st in
             let '(a2, st2) := substitute_by_var a1 st1 in
             let '(b1, st3) := linearize b st2 in
             let '(b2, st4) := substitute_by_var b1 st3 in
             let '(x, st5) := substitute_by_var (gmul a2 b2) st4 in
             let '(xs, st6) := go t st5 in
             (x :: xs, st6)
           end).
    assert (G : forall q, Forall (fun ab => (forall st x st', lm_ok nb (lnext st) (lmap st) -> wf (fst ab) -> bounded nb (lnext st) (fst ab) ->
                   linearize (fst ab) st = (x, st') ->
                   exists new, lstep nb st st' new /\ aff nb (lnext st') x /\ forall s, lin_true s (lmap st') -> eval s x = eval s (fst ab))
                 /\ (forall st x st', lm_ok nb (lnext st) (lmap st) -> wf (snd ab) -> bounded nb (lnext st) (snd ab) ->
                   linearize (snd ab) st = (x, st') ->
                   exists new, lstep nb st st' new /\ aff nb (lnext st') x /\ forall s, lin_true s (lmap st') -> eval s x = eval s (snd ab))) q ->
      forall st xs st', lm_ok nb (lnext st) (lmap st) -> Forall (fun ab => wf (fst ab) /\ wf (snd ab)) q ->
        Forall (fun ab => bounded nb (lnext st) (fst ab) /\ bounded nb (lnext st) (snd ab)) q ->
        go q st = (xs, st') ->
        exists new, lstep nb st st' new /\ Forall (aff nb (lnext st')) xs /\
          forall s, lin_true s (lmap st') -> fold_right (fun e acc => eval s e + acc) 0 xs = eq_sum s q).
    { clear - Hp. induction 1 as [|[a b] t [Ha Hb] Ht IHt]; intros st xs st' HM HW HB; cbn [go].
      - intros [= <- <-]. exists []. split; [now apply lstep_refl|]. split; [constructor|reflexivity].
      - cbn [fst snd] in *. inversion_clear HW as [|? ? [Wa Wb] HW']. inversion_clear HB as [|? ? [Ba Bb] HB']. cbn [fst snd] in *.
        destruct (linearize a st) as [a1 st1] eqn:E1. destruct (Ha _ _ _ HM Wa Ba E1) as (n1 & L1 & (Wa1 & Aa1 & Ba1) & V1).
        destruct (substitute_by_var a1 st1) as [a2 st2] eqn:E2.
        destruct (subst_by_var_ok nb _ _ _ _ (ls_ok _ _ _ _ L1) Wa1 Ba1 E2) as (n2 & L2 & Fa2 & V2).
        destruct (linearize b st2) as [b1 st3] eqn:E3.
        assert (Bb2 : bounded nb (lnext st2) b).
        { eapply bounded_mono; [| |exact Bb]; [lia|]. pose proof (ls_le _ _ _ _ L1). pose proof (ls_le _ _ _ _ L2). lia. }
        destruct (Hb _ _ _ (ls_ok _ _ _ _ L2) Wb Bb2 E3) as (n3 & L3 & (Wb1 & Ab1 & Bb1) & V3).
        destruct (substitute_by_var b1 st3) as [b2 st4] eqn:E4.
        destruct (subst_by_var_ok nb _ _ _ _ (ls_ok _ _ _ _ L3) Wb1 Bb1 E4) as (n4 & L4 & Fb2 & V4).
        destruct (substitute_by_var (gmul a2 b2) st4) as [x5 st5] eqn:E5.
        assert (Fa2' : aff nb (lnext st4) a2).
        { eapply aff_mono; [| |exact Fa2]; [lia|]. pose proof (ls_le _ _ _ _ L3). pose proof (ls_le _ _ _ _ L4). lia. }
        destruct (subst_by_var_ok nb _ _ _ _ (ls_ok _ _ _ _ L4) (wf_gmul _ _ Hp (proj1 Fa2') (proj1 Fb2))
          (bounded_gmul _ _ _ _ (proj2 (proj2 Fa2')) (proj2 (proj2 Fb2))) E5) as (n5 & L5 & Fx & V5).
        destruct (go t st5) as [xs' st6] eqn:E6. intros [= <- <-].
        assert (HB5 : Forall (fun ab => bounded nb (lnext st5) (fst ab) /\ bounded nb (lnext st5) (snd ab)) t).
        { eapply Forall_impl; [|exact HB']. intros [u w] [Hu Hw]. 
          pose proof (ls_le _ _ _ _ L1). pose proof (ls_le _ _ _ _ L2). pose proof (ls_le _ _ _ _ L3).
          pose proof (ls_le _ _ _ _ L4). pose proof (ls_le _ _ _ _ L5).
          split; (eapply bounded_mono; [| |eassumption]; lia). }
        destruct (IHt _ _ _ (ls_ok _ _ _ _ L5) HW' HB5 E6) as (n6 & L6 & Fxs & V6).
        exists (((((n1 ++ n2) ++ n3) ++ n4) ++ n5) ++ n6).
        assert (L12 := lstep_trans _ _ _ _ _ _ L1 L2). assert (L13 := lstep_trans _ _ _ _ _ _ L12 L3).
        assert (L14 := lstep_trans _ _ _ _ _ _ L13 L4). assert (L15 := lstep_trans _ _ _ _ _ _ L14 L5).
        split; [exact (lstep_trans _ _ _ _ _ _ L15 L6)|]. split.
        + constructor; auto. eapply aff_mono; [| |exact Fx]; [lia|exact (ls_le _ _ _ _ L6)].
        + intros s Hs. cbn [fold_right]. rewrite (V6 s Hs), eq_sum_cons. cbn [fst snd]. f_equal.
          pose proof (proj1 (proj1 (ls_iff _ _ _ _ L6 s) Hs)) as H5. pose proof (proj1 (proj1 (ls_iff _ _ _ _ L5 s) H5)) as H4.
          pose proof (proj1 (proj1 (ls_iff _ _ _ _ L4 s) H4)) as H3. pose proof (proj1 (proj1 (ls_iff _ _ _ _ L3 s) H3)) as H2.
          pose proof (proj1 (proj1 (ls_iff _ _ _ _ L2 s) H2)) as H1.
          rewrite (V5 s H5), eval_gmul, (V4 s H4), (V3 s H3), (V2 s H2), (V1 s H1). reflexivity. }
    assert (HW : Forall (fun ab => wf (fst ab) /\ wf (snd ab)) q).
    { apply wf_GE in W. destruct W as [_ W]. eapply Forall_impl; [|exact W]. cbn. tauto. }
    assert (HB : Forall (fun ab => bounded nb (lnext st) (fst ab) /\ bounded nb (lnext st) (snd ab)) q).
    { apply Forall_forall. intros ab Hab. split; intros v Hv; apply B; rewrite vars_GE, in_app_iff; left; apply qvars_in; exists ab; auto. }
    specialize (G q IH st). fold go. destruct q as [|ab0 q0]; [congruence|]. fold go.
    destruct (go (ab0 :: q0) st) as [xs st1] eqn:Eg. intros [= <- <-].
    destruct (G xs st1 HM HW HB eq_refl) as (new & L & Fx & V). exists new. split; auto. split.
    - apply aff_gsum. apply Forall_app. split; auto. apply lin_rest_aff. intros v Hv.
      eapply old_mono; [| |apply B]; [lia|exact (ls_le _ _ _ _ L)|]. rewrite vars_GE, in_app_iff. auto.
    - intros s Hs. rewrite eval_gsum, fold_add_app, (V s Hs), eval_lin_rest, eval_GE. ring.
  Qed.

  Lemma try_linearize_existing_eval s m e : lin_true s m -> forall x, try_linearize_existing m e = Some x -> eval s x = eval s e.
  Proof.
    intros Hm. induction e as [q l c IH] using gexp_ind'. intros x. destruct q as [|ab0 q0].
    { cbn [try_linearize_existing]. intros [= <-]. reflexivity. }
    set (go := fix go (q : list (gexp * gexp)) : option (list gexp) :=
           match q with
           | [] => Some []
           | (a, b) :: t =>
             match try_linearize_existing m a with
             | None => None
             | Some a1 =>
               match try_subst_existing m a1 with
               | None => None
               | Some a2 =>
                 match try_linearize_existing m b with
                 | None => None
                 | Some b1 =>
                   match try_subst_existing m b1 with
                   | None => None
                   | Some b2 =>
                     match try_subst_existing m (gmul a2 b2), go t with
                     | Some x, Some xs => Some (x :: xs)
                     | _, _ => None
                     end
                   end
                 end
               end
             end
           end).
    change (try_linearize_existing m (GE (ab0 :: q0) l c)) with
      (match go (ab0 :: q0) with Some qs => Some (gsum (qs ++ lin_rest l c)) | None => None end).
    assert (G : forall q, Forall (fun ab => (forall x, try_linearize_existing m (fst ab) = Some x -> eval s x = eval s (fst ab))
                  /\ (forall x, try_linearize_existing m (snd ab) = Some x -> eval s x = eval s (snd ab))) q ->
                forall xs, go q = Some xs -> fold_right (fun e acc => eval s e + acc) 0 xs = eq_sum s q).
    { induction 1 as [|[a b] t [Ha Hb] Ht IHt]; intros xs; cbn [go]; [intros [= <-]; reflexivity|]. cbn [fst snd] in *.
      destruct (try_linearize_existing m a) as [a1|]; [|discriminate]. destruct (try_subst_existing m a1) as [a2|] eqn:E2; [|discriminate].
      destruct (try_linearize_existing m b) as [b1|]; [|discriminate]. destruct (try_subst_existing m b1) as [b2|] eqn:E4; [|discriminate].
      destruct (try_subst_existing m (gmul a2 b2)) as [y|] eqn:E5; [|discriminate]. fold go.
      destruct (go t) as [ys|] eqn:E6; [|discriminate]. intros [= <-]. cbn [fold_right]. rewrite (IHt ys eq_refl), eq_sum_cons.
      cbn [fst snd]. f_equal. rewrite (try_subst_existing_eval _ _ _ _ Hm E5), eval_gmul,
        (try_subst_existing_eval _ _ _ _ Hm E2), (try_subst_existing_eval _ _ _ _ Hm E4), (Ha a1), (Hb b1); auto. }
    specialize (G (ab0 :: q0) IH). destruct (go (ab0 :: q0)) as [xs|]; [|discriminate]. intros [= <-].
    rewrite eval_gsum, fold_add_app, (G xs eq_refl), eval_lin_rest, eval_GE. ring.
  Qed.
  Lemma internalized_eval s m e x : lin_true s m -> In x (internalized_versions m e) -> eval s x = eval s e.
  Proof.
    intros Hm. unfold internalized_versions. intros [<-|H]; auto. apply in_app_iff in H. destruct H as [H|H].
    - destruct (try_subst_existing m e) eqn:E; cbn in H; [|tauto]. destruct H as [<-|[]]. eapply try_subst_existing_eval; eauto.
    - destruct (try_linearize_existing m e) eqn:E; cbn in H; [|tauto]. destruct H as [<-|[]]. eapply try_linearize_existing_eval; eauto.
  Qed.

  Lemma lin_apply_map ss m : Forall (fun ve => ~ In (fst ve) (vars (snd ve))) ss ->
    lin_apply ss m = map (fun kx => (substs_in ss (fst kx), substs_in ss (snd kx))) m.
  Proof.
    intros H. unfold lin_apply. destruct ss as [|a ss].
    - symmetry. erewrite map_ext; [apply map_id|]. intros [k x]. reflexivity.
    - rewrite !apply_substs_map by auto. rewrite !map_map. induction m as [|[k x] m IH]; cbn [map combine]; auto. f_equal. exact IH.
  Qed.
  Lemma lin_apply_true s ss m : Forall (fun ve => ~ In (fst ve) (vars (snd ve))) ss ->
    Forall (fun ve => s (fst ve) = eval s (snd ve)) ss -> lin_true s m -> lin_true s (lin_apply ss m).
  Proof.
    intros H1 H2 H. rewrite lin_apply_map by auto. unfold lin_true in *. rewrite Forall_map. eapply Forall_impl; [|exact H].
    intros [k x] E. cbn [fst snd] in *. now rewrite !substs_in_eval.
  Qed.
  Lemma lin_apply_ok nb nl ss m : Forall (fun ve => ~ In (fst ve) (vars (snd ve))) ss ->
    Forall (fun ve => aff nb nl (snd ve)) ss -> lm_ok nb nl m -> lm_ok nb nl (lin_apply ss m).
  Proof.
    intros H1 H2 H. rewrite lin_apply_map by auto. unfold lm_ok in *. rewrite Forall_map. eapply Forall_impl; [|exact H].
    intros [k x] (A & B & C). cbn [fst snd] in *. destruct (substs_in_bounded nb nl ss k H2 A B).
    split; [|split]; auto. now apply substs_in_aff.
  Qed.
End BoolLinFacts.
