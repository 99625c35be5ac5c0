(** Lemmas relating the specification vocabulary of [Spec] to the model's functions. *)
From Coq Require Import NArith ZArith Znumtheory Bool List Lia Ring.
From Coq Require Import ZifyBool ZifyN ZifyNat.
From Verif Require Import Field RangeModel RangeFacts ExprModel ExprFacts ExprWf ExprMore SolveModel SolveFacts Spec.
Import ListNotations.
Local Open Scope N_scope.

Section Bridge.
  Context {p : positive}.
  Local Notation P := (N.pos p).
  Local Notation rc := (rc p).
  Add Ring Fring : (F_ring_theory (p:=p)).

  Lemma between_iff (mn mx x : F p) : between mn mx x <-> in_interval mn mx x = true.
  Proof. unfold between, in_interval, fleb. destruct (N.leb_spec (val mn) (val mx)); lia. Qed.
  Lemma only_bits_iff m (x : F p) : only_bits m x <-> (N.land (val x) m =? val x) = true.
  Proof.
    unfold only_bits. rewrite N.eqb_eq. split.
    - intros H. apply N.bits_inj. intros i. rewrite N.land_spec. destruct (N.testbit (val x) i) eqn:E; auto. now rewrite H.
    - intros H i Hi. rewrite <- H, N.land_spec in Hi. now apply andb_true_iff in Hi.
  Qed.
  Lemma rc_allows_iff (r : rc) x : rc_allows r x <-> allows_value r x = true.
  Proof. unfold rc_allows, allows_value. rewrite between_iff, only_bits_iff, andb_true_iff. tauto. Qed.
  Lemma rcs_true_iff (g : var -> rc) s : rcs_true g s <-> consistent g s.
  Proof. unfold rcs_true, consistent. split; intros H v; apply rc_allows_iff, H. Qed.

  (** ** C01 *)
  Lemma b_sum (a b : rc) x y : rc_allows a x -> rc_allows b y -> rc_allows (combine_sum a b) (x + y)%F.
  Proof. rewrite !rc_allows_iff. apply combine_sum_sound. Qed.
  Lemma b_product (a b : rc) x y : rc_allows a x -> rc_allows b y -> rc_allows (combine_product a b) (x * y)%F.
  Proof. rewrite !rc_allows_iff. apply combine_product_sound. Qed.
  Lemma b_square (a : rc) x : rc_allows a x -> rc_allows (square a) (x * x)%F.
  Proof. rewrite !rc_allows_iff. apply square_sound. Qed.
  Lemma b_neg (a : rc) x : rc_allows a x -> rc_allows (rc_neg a) (- x)%F.
  Proof. rewrite !rc_allows_iff. apply rc_neg_sound. Qed.
  Lemma b_multiple (a : rc) k x : rc_allows a x -> rc_allows (multiple a k) (k * x)%F.
  Proof.
    rewrite !rc_allows_iff. intros H. replace (k * x)%F with (x * k)%F; [now apply multiple_sound|].
    apply F_ext. cbn. now rewrite N.mul_comm.
  Qed.
  Lemma b_constructors (x : F p) :
    (rc_allows unconstrained x) /\
    (forall v, rc_allows (from_value v) x <-> x = v) /\
    (forall mn mx, rc_allows (from_range mn mx) x <-> between mn mx x) /\
    (forall m, rc_allows (from_mask m) x <-> only_bits m x) /\
    (forall n, rc_allows (from_max_bit n) x <-> val x < 2 ^ (n + 1)).
  Proof.
    split; [apply rc_allows_iff, unconstrained_allows|].
    split; [intros v; rewrite rc_allows_iff; apply from_value_allows|].
    split; [intros mn mx; rewrite rc_allows_iff, from_range_allows, between_iff; tauto|].
    split; [intros m; rewrite rc_allows_iff, from_mask_allows, only_bits_iff, N.eqb_eq; reflexivity|].
    intros n. rewrite rc_allows_iff. apply from_max_bit_allows.
  Qed.

  (** ** C02 *)
  Lemma b_conjunction (a b : rc) x : rc_allows a x -> rc_allows b x -> rc_allows (conjunction a b) x.
  Proof. rewrite !rc_allows_iff. apply conjunction_sound. Qed.
  Lemma b_disjunction (a b : rc) x : rc_allows a x \/ rc_allows b x -> rc_allows (disjunction a b) x.
  Proof. rewrite !rc_allows_iff. intros [H|H]; [now apply disjunction_sound_l|now apply disjunction_sound_r]. Qed.
  Lemma b_disjoint (a b : rc) x : is_disjoint a b = true -> ~ (rc_allows a x /\ rc_allows b x).
  Proof. rewrite !rc_allows_iff. intros H [Ha Hb]. eapply is_disjoint_sound; eauto. Qed.
  Lemma b_single (a : rc) v x : try_to_single_value a = Some v -> (rc_allows a x <-> x = v).
  Proof.
    rewrite rc_allows_iff. intros H. split; [now apply try_to_single_value_sound|].
    intros ->. now apply try_to_single_value_allowed.
  Qed.
  Lemma b_unconstrained (a : rc) : is_unconstrained a = true <-> forall x, rc_allows a x.
  Proof. rewrite is_unconstrained_iff. split; intros H x; apply rc_allows_iff, H. Qed.

  (** ** C03 *)
  Lemma b_allowed_values (a : rc) l : allowed_values a = Some l -> NoDup l /\ forall x, In x l <-> rc_allows a x.
  Proof.
    intros H. split; [eapply allowed_values_nodup; eauto|]. intros x. rewrite rc_allows_iff. now apply allowed_values_complete.
  Qed.

  (** The elements of a circular interval, starting from its minimum. *)
  Definition interval_elems (mn mx : F p) : list (F p) :=
    map (fun o => (mn + of_N o)%F) (N_range (range_width_of mn mx)).
  Lemma interval_elems_in mn mx x : In x (interval_elems mn mx) <-> between mn mx x.
  Proof.
    rewrite between_iff. unfold interval_elems. rewrite in_map_iff, in_interval_offset, N.leb_le.
    pose proof (range_width_of_eq mn mx) as Hw. split.
    - intros (o & <- & Hin). apply N_range_in in Hin.
      pose proof (val_lt (mx - mn)%F).
      replace (mn + of_N o - mn)%F with (of_N o : F p) by ring.
      rewrite val_of_N_small by lia. lia.
    - intros H. exists (val (x - mn)%F). split; [rewrite of_N_val; ring|]. apply N_range_in. lia.
  Qed.
  Lemma interval_elems_nodup mn mx : NoDup (interval_elems mn mx).
  Proof.
    unfold interval_elems. pose proof (range_width_of_eq mn mx) as Hw. pose proof (val_lt (mx - mn)%F).
    assert (G : forall n, n <= P -> NoDup (map (fun o => (mn + of_N o)%F) (N_range n))); [|apply G; lia].
    clear. intros n Hn. assert (HN := N_range_nodup n).
    assert (HI : forall k, In k (N_range n) -> k < P) by (intros k Hk; apply N_range_in in Hk; lia).
    revert HN HI. generalize (N_range n). intros l. induction l as [|a l IH]; intros HN HI; cbn [map]; constructor.
    - inversion_clear HN. rewrite in_map_iff. intros (b & Hb & Hin). apply H.
      assert (E : val (of_N a : F p) = val (of_N b : F p)).
      { f_equal. transitivity (mn + of_N a - mn)%F; [ring|]. rewrite <- Hb. ring. }
      rewrite !val_of_N_small in E by (apply HI; cbn; auto). now subst.
    - inversion_clear HN. apply IH; auto. intros k Hk. apply HI. now right.
  Qed.
  Lemma b_width (a : rc) : has_size (between (rmin a) (rmax a)) (range_width a).
  Proof.
    exists (interval_elems (rmin a) (rmax a)). split; [apply interval_elems_nodup|]. split; [apply interval_elems_in|].
    unfold interval_elems, N_range. rewrite !map_length, seq_length. unfold range_width. lia.
  Qed.
  Lemma b_width_bound (a : rc) l : NoDup l -> (forall x, In x l -> rc_allows a x) -> N.of_nat (length l) <= range_width a.
  Proof.
    intros Hn Hl. destruct (b_width a) as (l' & Hn' & Hin & <-).
    assert (length l <= length l')%nat; [|lia]. apply NoDup_incl_length; auto. intros x Hx. apply Hin, Hl, Hx.
  Qed.
  Lemma b_allowed_values_total (a : rc) : allowed_values a = None <-> 2 ^ 32 <= range_width a.
  Proof.
    unfold allowed_values. destruct (N.ltb_spec (range_width a) (2 ^ 32)); split; intros; try discriminate; try lia; auto.
  Qed.

  (** ** C05 *)
  Lemma subst_known_spec v (k : F p) e :
    (forall s, eval s (subst_known v k e) = eval (upd s v k) e) /\
    ~ In v (vars (subst_known v k e)) /\ incl (vars (subst_known v k e)) (vars e).
  Proof.
    split; [intros s; apply eval_subst_known|]. split; intros H.
    - apply vars_subst_known in H. tauto.
    - intros H'. apply vars_subst_known in H'. tauto.
  Qed.
  Lemma subst_unknown_spec v (r e : gexp p) :
    (forall s, eval s (subst_unknown v r e) = eval (upd s v (eval s r)) e) /\
    (~ In v (vars r) -> ~ In v (vars (subst_unknown v r e))) /\
    incl (vars (subst_unknown v r e)) (vars e ++ vars r).
  Proof.
    split; [intros s; apply eval_subst_unknown|]. split.
    - intros Hn H. apply vars_subst_unknown in H. tauto.
    - intros w H. apply in_app_iff. apply vars_subst_unknown in H. tauto.
  Qed.

  (** ** C06 *)
  Lemma b_expr_rc g s (e : gexp p) : (forall v, In v (vars e) -> rc_allows (g v) (s v)) -> rc_allows (range_constraint g e) (eval s e).
  Proof. intros H. apply rc_allows_iff. apply range_constraint_sound. intros v Hv. apply rc_allows_iff. auto. Qed.

  (** ** C08 *)
  Lemma effect_true_iff s (ef : effect p) : effect_true s ef <-> effect_holds s ef.
  Proof.
    destruct ef; cbn; [tauto|apply rc_allows_iff|]. rewrite rc_allows_iff.
    destruct (allows_value cond cond_value); intuition congruence.
  Qed.
  Lemma b_solve (Hp : prime (Z.pos p)) g (e : gexp p) : wf e ->
    match solve g e with
    | Ok effects complete =>
        (forall s, consistent_on g s e -> solves s e -> Forall (effect_true s) effects) /\
        (complete = true -> forall s, consistent_on g s e -> Forall (effect_true s) effects -> solves s e) /\
        (forall ef, In ef effects -> match ef with CondAssign _ _ _ _ _ => False | Assign v _ | SetRC v _ => In v (vars e) end)
    | Unsat | Conflict => forall s, consistent_on g s e -> ~ solves s e
    | Panic => False
    end.
  Proof.
    intros Hw. pose proof (solve_good Hp g e Hw) as G.
    assert (HC : forall s, consistent_on g s e -> forall v, In v (vars e) -> allows_value (g v) (s v) = true).
    { intros s H v Hv. apply rc_allows_iff. auto. }
    assert (HE : forall s (l : list (effect p)), Forall (effect_true s) l <-> Forall (effect_holds s) l).
    { intros s l. rewrite !Forall_forall. split; intros H x Hx; apply effect_true_iff; auto. }
    destruct (solve g e) as [es b| | |]; cbn [good] in G; auto.
    - destruct G as (G1 & G2 & G3 & G4 & G5 & G6 & G7). split; [|split].
      + intros s H1 H2. apply HE. auto.
      + intros Hb s H1 H2. apply G7; auto. now apply HE.
      + intros ef Hef. destruct ef as [v k|v r|v cv r a b'].
        * apply G4. now apply (in_map effect_var) in Hef.
        * apply G4. now apply (in_map effect_var) in Hef.
        * assert (existsb is_cond es = true); [|congruence]. apply existsb_exists. eexists; split; eauto.
    - intros s H1 H2. exact (G s (HC s H1) H2).
    - intros s H1 H2. exact (G s (HC s H1) H2).
  Qed.
  Lemma b_solve_for (Hp : prime (Z.pos p)) v (e r : gexp p) : try_solve_for v e = Some r ->
    (forall s, solves s e <-> s v = eval s r) /\ ~ In v (vars r) /\ incl (vars r) (vars e).
  Proof.
    intros H. destruct (try_solve_for_vars _ _ _ H) as [Hv1 Hv2].
    split; [intros s; now apply try_solve_for_iff|]. 
    split; auto.
  Qed.
  Lemma b_solve_for_expr (Hp : prime (Z.pos p)) (e x r : gexp p) : wf x -> try_solve_for_expr e x = Some r ->
    (forall s, solves s e <-> eval s x = eval s r) /\ (forall v, In v (vars x) -> ~ In v (vars r)) /\ incl (vars r) (vars e).
  Proof.
    intros Hw H. split; [intros s; now apply try_solve_for_expr_iff|]. 
    destruct (try_solve_for_expr_vars _ _ _ H); auto.
  Qed.
End Bridge.
