(** Facts about solving one algebraic constraint ([SolveModel]). *)
From Coq Require Import NArith ZArith Bool List Lia Ring Znumtheory Sorted.
From Coq Require Import ZifyBool ZifyN ZifyNat.
From Verif Require Import Field RangeModel RangeFacts ExprModel ExprFacts ExprWf ExprMore SolveModel.
Import ListNotations.
Local Open Scope F_scope.

Section SolveFacts.
  Context {p : positive} (Hp : prime (Z.pos p)).
  Local Notation gexp := (gexp p).
  Local Notation rc := (rc p).
  Local Notation effect := (effect p).
  Add Ring Fring : (F_ring_theory (p:=p)).
  Implicit Types (e : gexp) (s : var -> F p) (g : var -> rc) (q : list (gexp * gexp)) (l : list (var * F p)) (c k : F p).

  Lemma assert_eq_iff s a b : eval s (assert_eq a b) = 0 <-> eval s a = eval s b.
  Proof. unfold assert_eq. rewrite eval_gsub. apply sub_eq_zero. Qed.
  Lemma assert_bool_iff s e : eval s (assert_bool e) = 0 <-> eval s e = 0 \/ eval s e = 1.
  Proof.
    unfold assert_bool. rewrite eval_gmul, eval_gsub, eval_gone, mul_eq_zero_iff, sub_eq_zero by auto. tauto.
  Qed.
  Lemma is_redundant_sound s e : is_redundant e = true -> eval s e = 0.
  Proof. apply gis_zero_eval. Qed.

  (** ** Solving for a variable / an expression *)
  Lemma try_solve_for_iff s v e r : try_solve_for v e = Some r -> eval s e = 0 <-> s v = eval s r.
  Proof.
    unfold try_solve_for. destruct (coefficient_of_variable v e) as [k|] eqn:Ek; [|discriminate].
    destruct (is_zero k) eqn:Ez; [discriminate|]. apply is_zero_neq in Ez.
    destruct (mentions v _); [discriminate|]. intros [= <-].
    rewrite eval_gscale, eval_gsub, eval_gscale, eval_from_var.
    assert (Hk : k * finv k = 1) by now apply finv_r. split.
    - intros ->. transitivity (s v * (k * finv k)); [rewrite Hk; ring|ring].
    - intros H. assert (E : k * s v = (s v * k - eval s e)).
      { rewrite H at 1. transitivity ((k * finv k) * (s v * k - eval s e)); [ring|]. rewrite Hk. ring. }
      transitivity (s v * k - k * s v); [rewrite E; ring|ring].
  Qed.
  Lemma try_solve_for_vars v e r : try_solve_for v e = Some r ->
    ~ In v (vars r) /\ (forall w, In w (vars r) -> In w (vars e)).
  Proof.
    unfold try_solve_for. destruct (coefficient_of_variable v e) as [k|] eqn:Ek; [|discriminate].
    destruct (is_zero k) eqn:Ez; [discriminate|].
    destruct (mentions v _) eqn:Em; [discriminate|]. intros [= <-]. split.
    - intros H. apply vars_gscale in H. apply mentions_In in H. congruence.
    - intros w H. apply vars_gscale in H. apply vars_gsub in H. destruct H as [H|H]; auto.
      apply vars_gscale in H. cbn in H. destruct H as [<-|[]].
      unfold coefficient_of_variable in Ek. apply lget_in in Ek. destruct e as [q l c]. cbn [lin] in Ek.
      rewrite vars_GE, in_app_iff. right. apply in_map_iff. now exists (v, k).
  Qed.
  Lemma try_solve_for_wf v e r : wf e -> try_solve_for v e = Some r -> wf r.
  Proof.
    unfold try_solve_for. intros Hw. destruct (coefficient_of_variable v e) as [k|]; [|discriminate].
    destruct (is_zero k); [discriminate|]. destruct (mentions v _); [discriminate|]. intros [= <-].
    apply wf_gscale; auto. apply wf_gsub; auto. apply wf_gscale; auto. now apply wf_from_var.
  Qed.
  Lemma try_solve_for_no_panic v e : wf e -> try_solve_for_panics v e = false.
  Proof.
    intros Hw. unfold try_solve_for_panics, coefficient_of_variable. destruct (lget v (lin e)) as [k|] eqn:E; auto.
    apply is_zero_neq. eapply wf_lget_nonzero; eauto.
  Qed.

  Lemma normalization_factor_nz e expr : wf expr -> normalization_factor e expr <> 0.
  Proof.
    intros Hw. unfold normalization_factor. pose proof (one_neq_zero Hp) as H1.
    destruct (find _ _) as [v|] eqn:Ef; auto.
    destruct (coefficient_of_variable v expr) as [a|] eqn:Ea; auto.
    destruct (coefficient_of_variable v e) as [k|] eqn:Ek; auto.
    apply find_some in Ef. rewrite Ek in Ef. destruct Ef as [_ Ef]. apply negb_true_iff, is_zero_neq in Ef.
    apply wf_lget_nonzero in Ea; auto. unfold fdiv. rewrite mul_eq_zero_iff by auto.
    intros [H|H]; auto. now apply finv_neq_zero in H.
  Qed.
  Lemma try_solve_for_expr_iff s e expr r : wf expr -> try_solve_for_expr e expr = Some r ->
    eval s e = 0 <-> eval s expr = eval s r.
  Proof.
    intros Hw. unfold try_solve_for_expr. destruct (is_quadratic e); [discriminate|].
    destruct (existsb _ _); [discriminate|]. intros [= <-]. rewrite eval_gsub, eval_gscale.
    pose proof (normalization_factor_nz e expr Hw) as Hn. set (n := normalization_factor e expr) in *. split.
    - intros ->. ring.
    - intros H. assert (H' : eval s e * n = 0).
      { transitivity (eval s expr - (eval s expr - eval s e * n)); [ring|]. rewrite <- H. ring. }
      apply mul_eq_zero in H'; auto. tauto.
  Qed.
  Lemma try_solve_for_expr_vars e expr r : try_solve_for_expr e expr = Some r ->
    (forall v, In v (vars expr) -> ~ In v (vars r)) /\ (forall w, In w (vars r) -> In w (vars e)).
  Proof.
    unfold try_solve_for_expr. destruct (is_quadratic e); [discriminate|].
    destruct (existsb _ _) eqn:Ee; [discriminate|]. intros [= <-].
    assert (H1 : forall v, In v (vars expr) -> ~ In v (vars (gsub expr (gscale e (normalization_factor e expr))))).
    { intros v Hv Hr. apply mentions_In in Hr.
      rewrite <- not_true_iff_false in Ee. apply Ee. apply existsb_exists. eauto. }
    split; auto. intros w Hw. pose proof (vars_gsub _ _ _ Hw) as [H|H]; [now apply H1 in H|].
    now apply vars_gscale in H.
  Qed.

  (** ** Meaning of an effect *)
  Definition effect_holds s (ef : effect) : Prop :=
    match ef with
    | Assign v k => s v = k
    | SetRC v r => allows_value r (s v) = true
    | CondAssign v cv r a b => s v = if allows_value r cv then a else b
    end.
  Definition effect_var (ef : effect) : var :=
    match ef with Assign v _ | SetRC v _ | CondAssign v _ _ _ _ => v end.
  Definition is_cond (ef : effect) : bool := match ef with CondAssign _ _ _ _ _ => true | _ => false end.
  Definition effect_rc (ef : effect) : rc :=
    match ef with Assign _ k => from_value k | SetRC _ r => r | CondAssign _ _ r _ _ => r end.

  Lemma transfer_in g e ef : In ef (transfer_constraints g e) ->
    exists v k r, In (v, k) (lin e) /\ try_solve_for v e = Some r /\ ef = SetRC v (range_constraint g r).
  Proof.
    unfold transfer_constraints. rewrite in_flat_map. intros ([v k] & Hin & H). cbn [fst] in H.
    destruct (try_solve_for v e) as [r|] eqn:E; [|destruct H].
    destruct (is_unconstrained _); [destruct H|]. destruct H as [<-|[]]. eauto 6.
  Qed.

  (** ** The conditional assignment is never produced for field constants *)
  Lemma interval_intersection_point (a : F p * F p) x :
    interval_intersection a (x, x) <> None -> in_interval (fst a) (snd a) x = true.
  Proof.
    unfold interval_intersection, try_shift, shifted_interval. cbn [fst snd].
    replace (fst a + - fst a) with (0 : F p) by ring.
    assert (H0 : fleb (0 : F p) (snd a + - fst a) = true) by (apply fleb_le; rewrite val_zero; lia).
    assert (H1 : fleb (x + - fst a) (x + - fst a) = true) by (apply fleb_le; lia).
    rewrite H0, H1. cbn [andb fst snd].
    destruct (fleb (fmax_ _ _) _) eqn:E; [|congruence]. intros _.
    apply fleb_le in E. rewrite val_fmax, val_fmin, val_zero in E.
    rewrite in_interval_offset. apply N.leb_le.
    replace (x - fst a) with (x + - fst a) by ring. replace (snd a - fst a) with (snd a + - fst a) by ring. lia.
  Qed.
  Lemma combine_sum_point_interval (r : rc) x d :
    in_interval (rmin r) (rmax r) x = true ->
    in_interval (rmin (combine_sum r (from_value d))) (rmax (combine_sum r (from_value d))) (x + d) = true.
  Proof.
    intros H. unfold combine_sum.
    destruct (_ <=? range_width unconstrained)%N; cbn [rmin rmax].
    - unfold from_value. cbn [rmin rmax]. now rewrite in_interval_shift.
    - pose proof (unconstrained_allows (x + d)) as Hu. unfold allows_value in Hu. now apply andb_true_iff in Hu.
  Qed.
  Lemma land_nonzero_bit a b : N.land a b <> 0%N -> exists i, N.testbit a i = true /\ N.testbit b i = true.
  Proof.
    intros H. exists (N.log2 (N.land a b)). apply andb_true_iff. rewrite <- N.land_spec. now apply N.bit_log2.
  Qed.
  Lemma not_disjoint_point (r : rc) x : is_disjoint r (from_value x) = false ->
    in_interval (rmin r) (rmax r) x = true /\
    ((allows_value r 0 = true /\ x = 0) \/ N.land (mask r) (val x) <> 0%N).
  Proof.
    unfold is_disjoint. intros H. apply orb_false_iff in H. destruct H as [Hm Hi]. split.
    - apply (interval_intersection_point (rmin r, rmax r)). cbn [rmin rmax from_value] in Hi.
      intros E. rewrite E in Hi. discriminate.
    - cbn [mask from_value] in Hm. destruct (N.eqb_spec (N.land (mask r) (val x)) 0) as [E|E]; [|now right].
      rewrite andb_true_r in Hm. apply negb_false_iff, andb_true_iff in Hm. destruct Hm as [H1 H2].
      apply from_value_allows in H2. auto.
  Qed.
  Lemma combine_sum_point_mask (r : rc) x d i :
    in_interval (rmin (combine_sum r (from_value d))) (rmax (combine_sum r (from_value d))) x = true ->
    N.testbit (mask r) i = true -> N.testbit (val x) i = true ->
    N.testbit (mask (combine_sum r (from_value d))) i = true.
  Proof.
    intros Hin Hr Hx. unfold combine_sum in *.
    set (m0 := if (N.pos p <=? _)%N then _ else _).
    assert (Hm0 : N.testbit m0 i = true).
    { unfold m0. destruct (N.pos p <=? mask r + mask (from_value d))%N.
      - pose proof (in_mask_unconstrained x) as H. apply (proj1 (submask_spec _ _) H i Hx).
      - rewrite !N.lor_spec, Hr. now rewrite orb_true_r. }
    destruct (if (_ <=? range_width unconstrained)%N then _ else _) as [mn mx]. cbn [rmin rmax mask] in *.
    destruct (fleb mn mx) eqn:E; auto. rewrite N.land_spec, Hm0. cbn [andb].
    unfold from_range. rewrite E. cbn [mask]. unfold in_interval in Hin. rewrite E in Hin.
    apply andb_true_iff in Hin. destruct Hin as [_ Hin]. apply fleb_le in Hin.
    unfold mask_from_bits, num_bits. apply (proj1 (submask_spec _ _) (submask_size _ _ Hin) i Hx).
  Qed.
  Lemma no_disjoint_alternatives (r : rc) a b :
    is_disjoint r (from_value a) = false -> is_disjoint r (from_value b) = false ->
    is_disjoint (combine_sum r (from_value (a + - b))) r = false.
  Proof.
    intros Ha Hb. apply not_disjoint_point in Ha, Hb. destruct Ha as [Ia Ma], Hb as [Ib _].
    pose proof (combine_sum_point_interval r b (a + - b) Ib) as Is.
    replace (b + (a + - b)) with a in Is by ring.
    unfold is_disjoint. apply orb_false_iff. split.
    - destruct Ma as [[H0 ->]|Hm].
      + assert (H : allows_value (combine_sum r (from_value (0 + - b))) 0 = true).
        { unfold allows_value. rewrite Is. reflexivity. }
        now rewrite H, H0.
      + apply land_nonzero_bit in Hm. destruct Hm as (i & H1 & H2). apply andb_false_iff. right.
        apply N.eqb_neq. intros E. assert (E' : N.testbit (N.land (mask (combine_sum r (from_value (a + - b)))) (mask r)) i = true).
        { rewrite N.land_spec, H1, (combine_sum_point_mask r a (a + - b) i Is H1 H2). reflexivity. }
        rewrite E, N.bits_0 in E'. discriminate.
    - destruct (interval_intersection_sound (rmin (combine_sum r (from_value (a + - b))), rmax (combine_sum r (from_value (a + - b))))
                 (rmin r, rmax r) a Is Ia) as (i & -> & _). reflexivity.
  Qed.

  (** ** Grouping *)
  Lemma rc_insert_sound s v (r : rc) m : allows_value r (s v) = true ->
    Forall (fun x => allows_value (snd x) (s (fst x)) = true) m ->
    Forall (fun x => allows_value (snd x) (s (fst x)) = true) (rc_insert v r m).
  Proof.
    intros Hr. induction 1 as [|[w r'] m H1 H2 IH]; cbn [rc_insert]; [repeat constructor; auto|].
    destruct (veqb_spec v w) as [->|]; constructor; auto. cbn [fst snd] in *. now apply conjunction_sound.
  Qed.
  Lemma group_rcs_sound s es : Forall (effect_holds s) es ->
    Forall (fun x => allows_value (snd x) (s (fst x)) = true) (group_rcs es).
  Proof.
    unfold group_rcs.
    assert (G : forall m, Forall (effect_holds s) es -> Forall (fun x => allows_value (snd x) (s (fst x)) = true) m ->
       Forall (fun x => allows_value (snd x) (s (fst x)) = true)
         (fold_left (fun m ef => match effect_to_rc ef with Some (v, r) => rc_insert v r m | None => m end) es m)).
    { induction es as [|ef es IH]; intros m HF Hm; cbn [fold_left]; auto. inversion_clear HF. apply IH; auto.
      destruct ef; cbn [effect_to_rc effect_holds] in *; auto; apply rc_insert_sound; auto.
      now apply from_value_allows. }
    intros H. apply G; auto.
  Qed.
  Lemma rc_lookup_in v (m : list (var * rc)) r : rc_lookup v m = Some r -> In (v, r) m.
  Proof.
    induction m as [|[w r'] m IH]; cbn [rc_lookup]; [discriminate|].
    destruct (veqb_spec v w) as [->|]; [intros [= ->]; now left|right; auto].
  Qed.
  Lemma rc_insert_new v r (m : list (var * rc)) : ~ In v (map fst m) -> rc_insert v r m = m ++ [(v, r)].
  Proof.
    induction m as [|[w r'] m IH]; cbn [rc_insert map fst In]; auto. intros H.
    destruct (veqb_spec v w) as [->|]; [tauto|]. cbn [app]. rewrite IH; tauto.
  Qed.
  (** With pairwise different variables nothing is merged. *)
  Lemma group_rcs_nodup es : NoDup (map effect_var es) -> existsb is_cond es = false ->
    group_rcs es = map (fun ef => (effect_var ef, effect_rc ef)) es.
  Proof.
    unfold group_rcs.
    assert (G : forall m, NoDup (map fst m ++ map effect_var es) -> existsb is_cond es = false ->
       fold_left (fun m ef => match effect_to_rc ef with Some (v, r) => rc_insert v r m | None => m end) es m
        = m ++ map (fun ef => (effect_var ef, effect_rc ef)) es).
    { induction es as [|ef es IH]; intros m Hn Hc; cbn [fold_left map existsb] in *; [now rewrite app_nil_r|].
      apply orb_false_iff in Hc. destruct Hc as [Hc1 Hc2].
      assert (Hni : ~ In (effect_var ef) (map fst m)).
      { cbn [map] in Hn. apply NoDup_remove_2 in Hn. rewrite in_app_iff in Hn. tauto. }
      replace (match effect_to_rc ef with Some (v, r) => rc_insert v r m | None => m end)
        with (m ++ [(effect_var ef, effect_rc ef)]).
      2:{ destruct ef; cbn [effect_to_rc effect_var effect_rc is_cond] in *; try discriminate; now rewrite rc_insert_new. }
      rewrite IH; auto.
      - rewrite <- app_assoc. reflexivity.
      - rewrite map_app, <- app_assoc. exact Hn. }
    intros Hn Hc. rewrite G; auto.
  Qed.

  Lemma combine_range_constraints_in (el er es : list effect) b x : combine_range_constraints el er = Ok es b -> In x es ->
    exists v r1 r2, In (v, r1) (group_rcs el) /\ In (v, r2) (group_rcs er) /\ x = SetRC v (disjunction r1 r2).
  Proof.
    unfold combine_range_constraints. intros [= <- <-] H. apply in_map_iff in H. destruct H as ([[v r] c] & <- & H).
    apply in_flat_map in H. destruct H as ([v1 r1] & Hin & H). unfold combine_one in H. cbn [fst snd] in H.
    destruct (rc_lookup v1 (group_rcs er)) as [r2|] eqn:E; [|destruct H]. destruct H as [[= <- <- <-]|[]].
    apply rc_lookup_in in E. cbn [fst snd]. eauto 8.
  Qed.
  Lemma combine_range_constraints_nodup (el er es : list effect) b : NoDup (map fst (group_rcs el)) ->
    combine_range_constraints el er = Ok es b -> NoDup (map effect_var es).
  Proof.
    unfold combine_range_constraints. intros Hn [= <- <-]. rewrite map_map. cbn [effect_var].
    induction (group_rcs el) as [|[v r] m IH]; cbn [flat_map map]; [constructor|].
    inversion_clear Hn. unfold combine_one at 1. cbn [fst snd].
    destruct (rc_lookup v (group_rcs er)) as [r2|]; cbn [app map]; [|apply IH; auto].
    cbn [fst]. constructor; [|apply IH; auto].
    intros Hin. apply in_map_iff in Hin. destruct Hin as ([[v' r'] c'] & E & Hin). cbn [fst] in E. subst v'.
    apply in_flat_map in Hin. destruct Hin as ([v1 r1] & Hin & H1). unfold combine_one in H1. cbn [fst snd] in H1.
    destruct (rc_lookup v1 _); [|destruct H1]. destruct H1 as [[= -> _ _]|[]].
    apply H. apply in_map_iff. exists (v, r1). auto.
  Qed.

  (** ** What [solve] guarantees, by cases on the result *)
  Definition assign_ok g (ef : effect) : Prop :=
    match ef with Assign v k => is_disjoint (g v) (from_value k) = false | _ => True end.
  Definition good g e (rs : res p) : Prop :=
    match rs with
    | Panic => False
    | Unsat | Conflict => forall s, (forall v, In v (vars e) -> allows_value (g v) (s v) = true) -> eval s e <> 0
    | Ok es complete =>
      existsb is_cond es = false /\ NoDup (map effect_var es) /\ Forall (assign_ok g) es /\
      (forall v, In v (map effect_var es) -> In v (vars e)) /\
      (forall s, (forall v, In v (vars e) -> allows_value (g v) (s v) = true) -> eval s e = 0 -> Forall (effect_holds s) es) /\
      (forall s, (forall v, In v (vars e) -> allows_value (g v) (s v) = true) -> forall ef, In ef es ->
         (exists x, allows_value (effect_rc ef) x = true) /\
         ((forall x, allows_value (effect_rc ef) x = true -> x = s (effect_var ef)) -> eval s e = 0)) /\
      (complete = true -> forall s, (forall v, In v (vars e) -> allows_value (g v) (s v) = true) ->
         Forall (effect_holds s) es -> eval s e = 0)
    end.

  Lemma map_flat_map_nodup {A B} (f : A -> list B) (h : B -> var) (ka : A -> var) (l : list A) :
    NoDup (map ka l) -> (forall a b, In b (f a) -> h b = ka a) -> (forall a, (length (f a) <= 1)%nat) ->
    NoDup (map h (flat_map f l)).
  Proof.
    intros Hn Hk Hl. induction l as [|a l IH]; cbn [flat_map map] in *; [constructor|].
    inversion_clear Hn. specialize (IH H0). specialize (Hl a). pose proof (Hk a) as Hka.
    destruct (f a) as [|b [|? ?]]; cbn [length app map] in *; [auto| |lia].
    constructor; auto. rewrite (Hka b) by now left. intros Hin. apply H.
    apply in_map_iff in Hin. destruct Hin as (b' & E & Hin). apply in_flat_map in Hin.
    destruct Hin as (a' & Ha' & Hb'). apply in_map_iff. exists a'. split; auto. rewrite <- E. symmetry. auto.
  Qed.
  Lemma vlt_sorted_nodup (l : list var) : StronglySorted vlt l -> NoDup l.
  Proof.
    induction 1 as [|v l H1 IH H2]; constructor; auto. intros Hin. rewrite Forall_forall in H2.
    apply H2 in Hin. unfold vlt in Hin. now rewrite vltb_irrefl in Hin.
  Qed.

  Lemma assign_checked_good g v k c : k <> 0 ->
    good g (GE [] [(v, k)] c) (assign_checked g v (c / (- k))).
  Proof.
    intros Hk.
    assert (Ev : forall s, eval s (GE [] [(v, k)] c) = k * s v + c).
    { intros s. rewrite eval_GE, eq_sum_nil, el_sum_cons, el_sum_nil. cbn [fst snd]. ring. }
    assert (Hiff : forall s, eval s (GE [] [(v, k)] c) = 0 <-> s v = c / (- k)).
    { intros s. rewrite Ev. unfold fdiv. assert (Hn : - k <> 0) by now rewrite opp_eq_zero.
      pose proof (finv_r _ Hp Hn) as Hi. split.
      - intros H. transitivity ((- k * finv (- k)) * s v); [rewrite Hi; ring|].
        transitivity (((k * s v + c) + - (k * s v)) * finv (- k)); [rewrite H; ring|ring].
      - intros ->. transitivity (c - (- k * finv (- k)) * c); [ring|]. rewrite Hi. ring. }
    unfold assign_checked. destruct (is_disjoint _ _) eqn:Ed; cbn [good].
    - intros s Hs H. apply Hiff in H. eapply is_disjoint_sound; [exact Ed|apply Hs; cbn; auto|].
      now apply from_value_allows.
    - split; [reflexivity|]. split; [|split; [|split; [|split; [|split]]]].
      + constructor; [intros []|constructor].
      + repeat constructor; auto.
      + intros w [<-|[]]. cbn. auto.
      + intros s _ H. constructor; [|constructor]. cbn. now apply Hiff.
      + intros s _ ef [<-|[]]. split; [exists (c / (- k)); now apply from_value_allows|]. cbn [effect_rc effect_var]. intros H0. apply Hiff. symmetry. apply H0. now apply from_value_allows.
      + intros _ s _ H. inversion_clear H. now apply Hiff.
  Qed.

  Lemma transfer_good g l c : wf (GE [] l c) -> good g (GE [] l c) (Ok (transfer_constraints g (GE [] l c)) false).
  Proof.
    intros Hw. cbn [good].
    assert (Hsub : forall v r, try_solve_for v (GE [] l c) = Some r -> forall s,
        (forall w, In w (vars (GE [] l c)) -> allows_value (g w) (s w) = true) ->
        allows_value (range_constraint g r) (eval s r) = true).
    { intros v r Hr s Hs. apply range_constraint_sound. intros w Hin. apply Hs.
      apply try_solve_for_vars in Hr. now apply Hr. }
    split; [|split; [|split; [|split; [|split; [|split]]]]].
    - apply not_true_iff_false. rewrite existsb_exists. intros (ef & Hin & Hc).
      apply transfer_in in Hin. destruct Hin as (v & k & r & _ & _ & ->). discriminate.
    - apply map_flat_map_nodup with (ka := fst).
      + rewrite wf_GE in Hw. apply vlt_sorted_nodup. apply Hw.
      + intros [v k] ef. cbn [fst]. destruct (try_solve_for v _); [|intros []].
        destruct (is_unconstrained _); [intros []|]. intros [<-|[]]. reflexivity.
      + intros [v k]. cbn [fst]. destruct (try_solve_for v _); [|cbn; lia]. destruct (is_unconstrained _); cbn; lia.
    - rewrite Forall_forall. intros ef Hin. apply transfer_in in Hin. destruct Hin as (v & k & r & _ & _ & ->). exact I.
    - intros v Hv. apply in_map_iff in Hv. destruct Hv as (ef & <- & Hin). apply transfer_in in Hin.
      destruct Hin as (v & k & r & Hin & _ & ->). cbn [effect_var lin] in *. rewrite vars_GE. cbn [qvars flat_map app].
      now apply (in_map fst) in Hin.
    - intros s Hs H0. rewrite Forall_forall. intros ef Hin. apply transfer_in in Hin.
      destruct Hin as (v & k & r & _ & Hr & ->). cbn [effect_holds].
      pose proof (proj1 (try_solve_for_iff s v _ r Hr) H0) as ->. eauto.
    - intros s Hs ef Hin. apply transfer_in in Hin.
      destruct Hin as (v & k & r & _ & Hr & ->). cbn [effect_rc effect_var]. split; [exists (eval s r); eauto|].
      intros H. apply (try_solve_for_iff s v _ r Hr). symmetry. apply H. eauto.
    - discriminate.
  Qed.

  Lemma disjunction_two_points (r1 r2 : rc) a b x :
    try_to_single_value r1 = Some a -> try_to_single_value r2 = Some b ->
    (size_estimate (disjunction r1 r2) <= 2)%N -> allows_value (disjunction r1 r2) x = true -> x = a \/ x = b.
  Proof.
    unfold try_to_single_value. destruct (feqb_spec (rmin r1) (rmax r1)) as [E1|]; [|discriminate].
    destruct (N.land (val (rmin r1)) _ =? _)%N; [|discriminate]. intros [= <-].
    destruct (feqb_spec (rmin r2) (rmax r2)) as [E2|]; [|discriminate].
    destruct (N.land (val (rmin r2)) _ =? _)%N; [|discriminate]. intros [= <-].
    unfold disjunction. rewrite <- E1, <- E2.
    assert (R1 : fleb (rmin r1) (rmin r1) = true) by (apply fleb_le; lia).
    assert (R2 : fleb (rmin r2) (rmin r2) = true) by (apply fleb_le; lia). rewrite R1, R2.
    unfold size_estimate, range_width. cbn [rmin rmax]. rewrite range_width_of_eq. unfold allows_value. cbn [rmin rmax].
    intros Hw H. apply andb_true_iff in H. destruct H as [H _]. unfold in_interval in H.
    set (lo := fmin_ _ _) in *. set (hi := fmax_ _ _) in *.
    assert (Hlo : val lo = N.min (val (rmin r1)) (val (rmin r2))) by apply val_fmin.
    assert (Hhi : val hi = N.max (val (rmin r1)) (val (rmin r2))) by apply val_fmax.
    assert (Hle : fleb lo hi = true) by (apply fleb_le; lia). rewrite Hle in H.
    apply andb_true_iff in H. rewrite !fleb_le in H.
    pose proof (val_sub hi lo) as Hs. pose proof (val_lt hi). pose proof (val_lt lo). pose proof (val_lt (hi - lo)).
    assert (val x = val (rmin r1) \/ val x = val (rmin r2)) as [Hx|Hx] by lia; [left|right]; now apply F_ext.
  Qed.

  Lemma combine_good g a b el cl er cr : good g a (Ok el cl) -> good g b (Ok er cr) ->
    good g (GE [(a, b)] [] 0) (combine_range_constraints el er).
  Proof.
    intros (CA & NA & AA & VA & SA & PA & _) (CB & NB & AB & VB & SB & PB & _).
    assert (GA := group_rcs_nodup el NA CA). assert (GB := group_rcs_nodup er NB CB).
    assert (Ev : forall s, eval s (GE [(a, b)] [] 0) = eval s a * eval s b).
    { intros s. rewrite eval_GE, eq_sum_cons, eq_sum_nil, el_sum_nil. cbn [fst snd]. ring. }
    assert (Hva : forall v, In v (vars a) -> In v (vars (GE [(a, b)] [] 0))).
    { intros v Hv. rewrite vars_GE. cbn [qvars flat_map fst snd]. rewrite !in_app_iff. auto. }
    assert (Hvb : forall v, In v (vars b) -> In v (vars (GE [(a, b)] [] 0))).
    { intros v Hv. rewrite vars_GE. cbn [qvars flat_map fst snd]. rewrite !in_app_iff. auto. }
    destruct (combine_range_constraints el er) as [es cc| | |] eqn:E; try discriminate E.
    assert (HX : forall x, In x es -> exists ea eb, In ea el /\ In eb er /\ effect_var ea = effect_var eb /\
       x = SetRC (effect_var ea) (disjunction (effect_rc ea) (effect_rc eb))).
    { intros x Hx. destruct (combine_range_constraints_in _ _ _ _ _ E Hx) as (v & r1 & r2 & H1 & H2 & ->).
      rewrite GA, in_map_iff in H1. destruct H1 as (ea & [= <- <-] & Hea).
      rewrite GB, in_map_iff in H2. destruct H2 as (eb & [= Hv <-] & Heb).
      exists ea, eb. auto. }
    cbn [good]. split; [|split; [|split; [|split; [|split; [|split]]]]].
    - apply not_true_iff_false. rewrite existsb_exists. intros (x & Hx & Hc).
      destruct (HX x Hx) as (ea & eb & _ & _ & _ & ->). discriminate.
    - eapply combine_range_constraints_nodup; [|exact E]. rewrite GA, map_map. cbn [fst]. exact NA.
    - rewrite Forall_forall. intros x Hx. destruct (HX x Hx) as (ea & eb & _ & _ & _ & ->). exact I.
    - intros v Hv. apply in_map_iff in Hv. destruct Hv as (x & <- & Hx).
      destruct (HX x Hx) as (ea & eb & H1 & _ & _ & ->). cbn [effect_var]. apply Hva, VA. now apply in_map.
    - intros s Hs H0. rewrite Ev, mul_eq_zero_iff in H0 by auto. rewrite Forall_forall. intros x Hx.
      unfold combine_range_constraints in E. injection E as E _. rewrite <- E in Hx.
      assert (HL : forall (es0 : list effect) v r, Forall (effect_holds s) es0 -> In (v, r) (group_rcs es0) -> allows_value r (s v) = true).
      { intros es0 v r HF Hin. apply group_rcs_sound in HF. rewrite Forall_forall in HF. apply (HF (v, r) Hin). }
      apply in_map_iff in Hx. destruct Hx as ([[v r] c] & <- & Hx).
      apply in_flat_map in Hx. destruct Hx as ([v1 r1] & Hin & Hx). unfold combine_one in Hx. cbn [fst snd] in Hx.
      destruct (rc_lookup v1 (group_rcs er)) as [r2|] eqn:El; [|destruct Hx]. destruct Hx as [[= <- <- <-]|[]].
      apply rc_lookup_in in El. cbn [fst snd effect_holds].
      destruct H0 as [H0|H0].
      + apply disjunction_sound_l. eapply HL; [apply SA; auto|exact Hin].
      + apply disjunction_sound_r. eapply HL; [apply SB; auto|exact El].
    - intros s Hs x Hx. destruct (HX x Hx) as (ea & eb & H1 & H2 & Hv & ->). cbn [effect_rc effect_var].
      destruct (PA s (fun v Hv => Hs v (Hva v Hv)) ea H1) as [[y Hy] Hz]. split.
      + exists y. now apply disjunction_sound_l.
      + intros H. rewrite Ev. rewrite Hz; [ring|]. intros z Hzz. apply H. now apply disjunction_sound_l.
    - intros Hcc s Hs HF. unfold combine_range_constraints in E. injection E as E1 E2. rewrite Hcc in E2.
      rewrite !andb_true_iff, !Nat.eqb_eq in E2. destruct E2 as [[[L1 L2] L3] L4].
      destruct el as [|ea [|? ?]]; try discriminate L1. destruct er as [|eb [|? ?]]; try discriminate L2.
      rewrite GA, GB in *. cbn [map flat_map] in E1, L3, L4. unfold combine_one in E1, L3, L4. cbn [fst snd rc_lookup] in E1, L3, L4.
      destruct (veqb_spec (effect_var ea) (effect_var eb)) as [Hv|]; [|discriminate L3].
      cbn [app map fst snd forallb] in E1, L4. rewrite andb_true_r in L4. subst es.
      inversion_clear HF. cbn [effect_holds] in H.
      destruct (try_to_single_value (effect_rc ea)) as [xa|] eqn:Sa; [|discriminate].
      destruct (try_to_single_value (effect_rc eb)) as [xb|] eqn:Sb; [|discriminate].
      apply N.leb_le in L4. destruct (disjunction_two_points _ _ _ _ _ Sa Sb L4 H) as [Hx|Hx].
      + destruct (PA s (fun v Hv => Hs v (Hva v Hv)) ea (or_introl eq_refl)) as [_ Hz].
        rewrite Ev, Hz; [ring|]. intros y Hy. rewrite Hx. eapply try_to_single_value_sound; eauto.
      + destruct (PB s (fun v Hv => Hs v (Hvb v Hv)) eb (or_introl eq_refl)) as [_ Hz].
        rewrite Ev, Hz; [ring|]. intros y Hy. rewrite <- Hv, Hx. eapply try_to_single_value_sound; eauto.
  Qed.

  Lemma good_product_other g a b rs :
    (forall s, (forall v, In v (vars a) -> allows_value (g v) (s v) = true) -> eval s a <> 0) ->
    good g b rs -> good g (GE [(a, b)] [] 0) rs.
  Proof.
    intros Ha Hb.
    assert (Ev : forall s, eval s (GE [(a, b)] [] 0) = eval s a * eval s b).
    { intros s. rewrite eval_GE, eq_sum_cons, eq_sum_nil, el_sum_nil. cbn [fst snd]. ring. }
    assert (Hva : forall v, In v (vars a) -> In v (vars (GE [(a, b)] [] 0))).
    { intros v Hv. rewrite vars_GE. cbn [qvars flat_map fst snd]. rewrite !in_app_iff. auto. }
    assert (Hvb : forall v, In v (vars b) -> In v (vars (GE [(a, b)] [] 0))).
    { intros v Hv. rewrite vars_GE. cbn [qvars flat_map fst snd]. rewrite !in_app_iff. auto. }
    assert (Hz : forall s, (forall v, In v (vars (GE [(a, b)] [] 0)) -> allows_value (g v) (s v) = true) ->
        (eval s (GE [(a, b)] [] 0) = 0 <-> eval s b = 0)).
    { intros s Hs. rewrite Ev, mul_eq_zero_iff by auto. specialize (Ha s (fun v Hv => Hs v (Hva v Hv))). tauto. }
    assert (Hs' : forall s, (forall v, In v (vars (GE [(a, b)] [] 0)) -> allows_value (g v) (s v) = true) ->
         forall v, In v (vars b) -> allows_value (g v) (s v) = true) by auto.
    destruct rs as [es cc| | |]; cbn [good] in *; auto.
    - destruct Hb as (CB & NB & AB & VB & SB & PB & FB). do 3 (split; auto). split; [|split; [|split]]; auto.
      + intros s Hs H0. apply SB; auto. now apply Hz.
      + intros s Hs ef Hef. destruct (PB s (Hs' s Hs) ef Hef) as [P1 P2]. split; auto.
        intros Hx. apply Hz; auto.
      + intros Hc s Hs HF. apply Hz; auto.
    - intros s Hs H. apply Hz in H; auto. now apply (Hb s (Hs' s Hs)).
    - intros s Hs H. apply Hz in H; auto. now apply (Hb s (Hs' s Hs)).
  Qed.
  Lemma good_product_sym g a b rs : good g (GE [(a, b)] [] 0) rs -> good g (GE [(b, a)] [] 0) rs.
  Proof.
    assert (Ev : forall s, eval s (GE [(a, b)] [] 0) = eval s (GE [(b, a)] [] 0)).
    { intros s. rewrite !eval_GE, !eq_sum_cons, !eq_sum_nil. cbn [fst snd]. ring. }
    assert (Hv : forall v, In v (vars (GE [(a, b)] [] 0)) <-> In v (vars (GE [(b, a)] [] 0))).
    { intros v. rewrite !vars_GE. cbn [qvars flat_map fst snd]. rewrite !in_app_iff. tauto. }
    assert (Hs' : forall s, (forall v, In v (vars (GE [(b, a)] [] 0)) -> allows_value (g v) (s v) = true) ->
         forall v, In v (vars (GE [(a, b)] [] 0)) -> allows_value (g v) (s v) = true) by (intros s H v H'; apply H, Hv, H').
    destruct rs as [es cc| | |]; cbn [good]; auto.
    - intros (CB & NB & AB & VB & SB & PB & FB). do 3 (split; auto). split; [|split; [|split]]; auto.
      + intros v H. apply Hv. auto.
      + intros s Hs. rewrite <- Ev. auto.
      + intros s Hs ef Hef. rewrite <- Ev. now apply (PB s (Hs' s Hs) ef Hef).
      + intros Hc s Hs. rewrite <- Ev. auto.
    - intros H s Hs. rewrite <- Ev. auto.
    - intros H s Hs. rewrite <- Ev. auto.
  Qed.
  Lemma good_empty g e : good g e (Ok [] false).
  Proof. cbn [good]. repeat split; auto; try constructor; try discriminate; intros; contradiction. Qed.

  Lemma combine_to_conditional_none g a b el cl er cr : good g a (Ok el cl) -> good g b (Ok er cr) ->
    combine_to_conditional g el cl er cr = None.
  Proof.
    intros (_ & _ & AA & _) (_ & _ & AB & _). unfold combine_to_conditional.
    destruct el as [|[v1 a1| |] [|]]; auto. destruct er as [|[v2 a2| |] [|]]; auto.
    destruct (veqb_spec v1 v2) as [->|]; auto. cbn [negb].
    inversion_clear AA. inversion_clear AB. cbn [assign_ok] in *.
    now rewrite no_disjoint_alternatives.
  Qed.

  Lemma solve_good g e : wf e -> good g e (solve g e).
  Proof.
    induction e as [q l c IH] using gexp_ind'. intros Hw. cbn [solve].
    match goal with |- context [allows_value ?R 0] => assert (HR : forall s, (forall v, In v (vars (GE q l c)) -> allows_value (g v) (s v) = true) ->
        allows_value R (eval s (GE q l c)) = true) end.
    { intros s Hs. exact (range_constraint_sound g s (GE q l c) Hs). }
    destruct (negb _) eqn:En.
    { cbn [good]. intros s Hs H. apply HR in Hs. rewrite H in Hs. rewrite Hs in En. discriminate. }
    apply negb_false_iff in En. clear HR.
    destruct q as [|[a b] q].
    - destruct l as [|[v k] l].
      + destruct (is_zero c) eqn:Ec.
        * apply is_zero_eq in Ec. subst c. cbn [good]. repeat split; auto; try constructor; intros; try contradiction; auto.
        * exfalso. cbn [range_constraint map app rc_sum fold_left] in En. apply from_value_allows in En. symmetry in En.
          apply is_zero_eq in En. congruence.
      + rewrite wf_GE in Hw. destruct Hw as [[Hs Hn] Hq].
        assert (HF : existsb (fun vk => try_solve_for_panics (fst vk) (GE [] ((v, k) :: l) c)) ((v, k) :: l) = false).
        { apply not_true_iff_false. rewrite existsb_exists. intros (x & _ & Hx).
          rewrite try_solve_for_no_panic in Hx; [discriminate|]. apply wf_GE. repeat split; auto. }
        unfold solve_affine. cbn [lin cst].
        destruct l as [|[v2 k2] l].
        * inversion_clear Hn. cbn [snd] in H. destruct (is_zero k) eqn:Ek; [apply is_zero_eq in Ek; congruence|].
          now apply assign_checked_good.
        * cbn [lin] in HF. rewrite HF. apply transfer_good. apply wf_GE. repeat split; auto.
    - destruct q as [|? ?]; [|apply good_empty]. destruct l as [|? ?]; [|apply good_empty].
      destruct (is_zero c) eqn:Ec; [|apply good_empty]. apply is_zero_eq in Ec. subst c.
      rewrite wf_GE in Hw. destruct Hw as [_ Hq]. inversion_clear Hq as [|? ? (Wa & Wb & _) _].
      inversion_clear IH as [|? ? [IHa IHb] _]. cbn [fst snd] in *. specialize (IHa Wa). specialize (IHb Wb).
      destruct (solve g a) as [el cl| | |] eqn:Sa; [| | |destruct IHa];
        (destruct (solve g b) as [er cr| | |] eqn:Sb; [| | |destruct IHb]);
        try (apply (good_product_other g a b); [exact IHa|exact IHb]);
        try (apply good_product_sym, (good_product_other g b a); [exact IHb|exact IHa]).
      rewrite (combine_to_conditional_none g a b) by auto. eapply combine_good; eauto.
  Qed.
End SolveFacts.
