(** Facts about solving bus interactions. *)
From Coq Require Import NArith ZArith Znumtheory Bool List Lia Ring.
From Verif Require Import Field RangeModel RangeFacts ExprModel ExprFacts ExprWf ExprMore SolveModel SolveFacts
  SystemModel IndexFacts Spec Bridge BusModel.
Import ListNotations.
Local Open Scope F_scope.

Section BusFacts.
  Context {p : positive}.
  Context (Hp : prime (Z.pos p)).
  Local Notation gexp := (gexp p).
  Local Notation rc := (rc p).
  Add Ring Fring : (F_ring_theory (p:=p)).

  Lemma try_solve_for_value s v (e r : gexp) k : coefficient_of_variable v e = Some k -> try_solve_for v e = Some r ->
    (1 / k) * eval s e + eval s r = s v.
  Proof.
    intros Ek. unfold try_solve_for. rewrite Ek. destruct (is_zero k) eqn:Ez; [discriminate|]. apply is_zero_neq in Ez.
    destruct (mentions v _); [discriminate|]. intros [= <-].
    rewrite eval_gscale, eval_gsub, eval_gscale, eval_from_var. unfold fdiv.
    assert (Hk : k * finv k = 1) by now apply finv_r.
    transitivity (s v * (k * finv k)); [ring|]. rewrite Hk. ring.
  Qed.

  Variable sem : busi (F p) -> Prop.
  Variable h : busi rc -> busi rc.
  Hypothesis Hh : handler_sound sem h.

  Lemma fields_length {A} (b : busi A) : length (fields b) = S (S (length (payload b))).
  Proof. reflexivity. Qed.
  Lemma fields_bmap {A B} (f : A -> B) b : fields (bmap f b) = map f (fields b).
  Proof. reflexivity. Qed.
  Lemma combine_map_l {A B C} (f : A -> B) (l : list A) : forall l' : list C, combine (map f l) l' = map (fun ac => (f (fst ac), snd ac)) (combine l l').
  Proof. induction l as [|a l IH]; intros [|c l']; cbn; auto. now rewrite IH. Qed.
  Lemma Forall2_combine {A B} (Q : A -> B -> Prop) (l : list A) : forall l', Forall2 Q l l' -> forall ab, In ab (combine l l') -> Q (fst ab) (snd ab).
  Proof. induction l as [|a l IH]; intros l' H [x y] Hin; inversion H; subst; cbn in Hin; [tauto|]. destruct Hin as [[= <- <-]|Hin]; auto. exact (IH _ H4 _ Hin). Qed.

  Lemma to_rcs_allows g s (b : busi gexp) : (forall v, In v (bus_vars b) -> rc_allows (g v) (s v)) ->
    bus_allows (to_range_constraints g b) (bmap (eval s) b).
  Proof.
    intros H. unfold bus_allows, to_range_constraints. rewrite !fields_bmap. unfold bus_vars in H.
    induction (fields b) as [|e l IH]; cbn [map]; constructor.
    - apply b_expr_rc. intros v Hv. apply H. cbn [flat_map]. rewrite in_app_iff. auto.
    - apply IH. intros v Hv. apply H. cbn [flat_map]. rewrite in_app_iff. auto.
  Qed.
  Lemma handle_checked_ok b : match handle_checked h b with
    | BOk n => forall v, sem v -> bus_allows b v -> bus_allows n v
    | BViolates => forall v, sem v -> ~ bus_allows b v
    | BPanic => False
    end.
  Proof.
    unfold handle_checked. destruct (Hh b) as [Hl Hs].
    destruct (existsb _ _) eqn:E.
    - intros v Hv Hb. specialize (Hs v Hv Hb). apply existsb_exists in E. destruct E as ([r1 r2] & Hin & Hd). cbn [fst snd] in Hd.
      unfold bus_allows in *. revert Hb Hs Hin. generalize (fields b) as l1, (fields (h b)) as l2, (fields v) as l3. clear - Hd.
      induction l1 as [|a l1 IH]; intros l2 l3 H1 H2 Hin; [destruct Hin|]. inversion H1; subst. inversion H2; subst. cbn in Hin.
      destruct Hin as [[= -> ->]|Hin]; [|eapply IH; eauto]. eapply b_disjoint; eauto.
    - rewrite !fields_length, Hl, Nat.eqb_refl. exact Hs.
  Qed.
  Lemma field_effects_ok g s (e : gexp) r : (forall v, In v (vars e) -> rc_allows (g v) (s v)) -> rc_allows r (eval s e) ->
    Forall (effect_true s) (field_effects g e r).
  Proof.
    intros Hg Hr. apply Forall_forall. intros ef Hin. unfold field_effects in Hin. apply in_flat_map in Hin.
    destruct Hin as (v & Hv & Hin). destruct (coefficient_of_variable v e) as [k|] eqn:Ek; [|destruct Hin].
    destruct (try_solve_for v e) as [sol|] eqn:Es; [|destruct Hin]. cbn zeta in Hin.
    destruct (is_unconstrained _); [destruct Hin|]. destruct Hin as [<-|[]]. cbn [effect_true].
    rewrite <- (try_solve_for_value s v e sol k Ek Es). apply b_sum.
    - now apply b_multiple.
    - apply b_expr_rc. intros w Hw. apply Hg. now apply (try_solve_for_vars _ _ _ Es).
  Qed.
  Lemma field_effects_vars g (e : gexp) r ef : In ef (field_effects g e r) -> match ef with SetRC v _ => In v (vars e) | _ => False end.
  Proof.
    intros Hin. unfold field_effects in Hin. apply in_flat_map in Hin.
    destruct Hin as (v & Hv & Hin). destruct (coefficient_of_variable v e) as [k|]; [|destruct Hin].
    destruct (try_solve_for v e) as [sol|]; [|destruct Hin]. cbn zeta in Hin.
    destruct (is_unconstrained _); [destruct Hin|]. destruct Hin as [<-|[]]. auto.
  Qed.

  Lemma bus_solve_ok g (b : busi gexp) :
    match bus_solve h g b with
    | BOk effects =>
        (forall s, (forall v, In v (bus_vars b) -> rc_allows (g v) (s v)) -> sem (bmap (eval s) b) -> Forall (effect_true s) effects) /\
        (forall ef, In ef effects -> match ef with SetRC v _ => In v (bus_vars b) | _ => False end)
    | BViolates => forall s, (forall v, In v (bus_vars b) -> rc_allows (g v) (s v)) -> ~ sem (bmap (eval s) b)
    | BPanic => False
    end.
  Proof.
    unfold bus_solve. pose proof (handle_checked_ok (to_range_constraints g b)) as H.
    destruct (handle_checked h (to_range_constraints g b)) as [n| |]; auto.
    - split.
      + intros s Hg Hs. specialize (H _ Hs (to_rcs_allows g s b Hg)). unfold bus_allows in H. rewrite fields_bmap in H.
        apply Forall_flat_map. apply Forall_forall. intros [e r] Hin. cbn [fst snd].
        destruct (is_affine e); [|constructor].
        assert (He : In e (fields b)) by (eapply in_combine_l; eauto).
        apply field_effects_ok.
        * intros v Hv. apply Hg. apply in_flat_map. eauto.
        * revert H Hin. generalize (fields b) as l1, (fields n) as l2. clear. induction l1 as [|a l1 IH]; intros l2 H Hin; [destruct Hin|].
          destruct l2 as [|r' l2]; [destruct Hin|]. cbn [map] in H. inversion H; subst. cbn in Hin. destruct Hin as [[= -> ->]|Hin]; eauto.
      + intros ef Hin. apply in_flat_map in Hin. destruct Hin as ([e r] & Hin & Hef). cbn [fst snd] in Hef.
        destruct (is_affine e); [|destruct Hef]. apply field_effects_vars in Hef. destruct ef; auto.
        apply in_flat_map. exists e. split; auto. eapply in_combine_l; eauto.
    - intros s Hg Hs. exact (H _ Hs (to_rcs_allows g s b Hg)).
  Qed.
  (** The [unwrap] in line 289 does not panic. *)
  Lemma affine_coefficient (e : gexp) v : is_affine e = true -> In v (vars e) -> coefficient_of_variable v e <> None.
  Proof.
    destruct e as [q l c]. unfold is_affine, is_quadratic. cbn [quad]. destruct q as [|ab q]; [|discriminate]. intros _.
    rewrite vars_GE. cbn [qvars flat_map app]. unfold coefficient_of_variable. cbn [lin]. intros Hv Hn. apply lget_none in Hn. auto.
  Qed.
End BusFacts.

(** The default handler is sound for every bus. *)
Lemma default_handler_sound {p} (sem : busi (F p) -> Prop) : handler_sound sem default_handler.
Proof. intros b. split; auto. Qed.
