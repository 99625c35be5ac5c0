(** Histories of operations on an indexed constraint system and on the work queue. *)
From Coq Require Import NArith ZArith Bool List Lia.
From Verif Require Import Field RangeModel RangeFacts ExprModel ExprFacts ExprWf ExprMore SystemModel IndexFacts.
Import ListNotations.
Local Open Scope nat_scope.

Section Hist.
  Context {p : positive}.
  Local Notation gexp := (gexp p).
  Local Notation csys := (csys p).
  Local Notation ics := (ics p).
  Local Notation bus := (busi gexp).

  (** The operations of the public interface. *)
  Inductive iop :=
  | OExtend (d : csys)
  | ORetainAlgs (f : gexp -> bool)
  | ORetainAlgsIdx (f : nat -> bool)
  | ORetainBuses (f : bus -> bool)
  | ORetainDerived (f : var * cmethod p -> bool)
  | OSubstKnown (v : var) (k : F p)
  | OSubstUnknown (v : var) (e : gexp).
  Definition run_op (c : ics) (o : iop) : ics :=
    match o with
    | OExtend d => ics_extend c d
    | ORetainAlgs f => retain_algs f c
    | ORetainAlgsIdx f => retain_algs_idx f c
    | ORetainBuses f => retain_buses f c
    | ORetainDerived f => retain_derived f c
    | OSubstKnown v k => ics_subst_known v k c
    | OSubstUnknown v e => ics_subst_unknown v e c
    end.
  Definition run_ops (ops : list iop) (c : ics) : ics := fold_left run_op ops c.
  (** A variable is not substituted by an expression mentioning itself. *)
  Definition op_ok (o : iop) : Prop := match o with OSubstUnknown v e => ~ In v (vars e) | _ => True end.

  (** What each operation is supposed to do to the plain system, without any index. *)
  Inductive op_spec : csys -> iop -> csys -> Prop :=
  | SExtend c d : op_spec c (OExtend d) (mkCS (algs c ++ algs d) (buses c ++ buses d) (derived c ++ derived d))
  | SRetainAlgs c f : op_spec c (ORetainAlgs f) (mkCS (filter f (algs c)) (buses c) (derived c))
  | SRetainAlgsIdx c f : op_spec c (ORetainAlgsIdx f) (mkCS (filter_idx f (algs c)) (buses c) (derived c))
  | SRetainBuses c f : op_spec c (ORetainBuses f) (mkCS (algs c) (filter f (buses c)) (derived c))
  | SRetainDerived c f : op_spec c (ORetainDerived f) (mkCS (algs c) (buses c) (filter f (derived c)))
  | SSubstKnown c c' v k : sys_rel (is_subst_known v k) c c' -> op_spec c (OSubstKnown v k) c'
  | SSubstUnknown c v e :
      op_spec c (OSubstUnknown v e) (cs_map (subst_unknown v e) (cm_subst_unknown v e) c).
  Inductive ops_spec : csys -> list iop -> csys -> Prop :=
  | SNil c : ops_spec c [] c
  | SCons c o c' ops c'' : op_spec c o c' -> ops_spec c' ops c'' -> ops_spec c (o :: ops) c''.

  Lemma run_op_ok o c : index_ok c -> op_ok o -> index_ok (run_op c o).
  Proof.
    intros Hc Ho. destruct o; cbn [run_op op_ok] in *.
    - now apply extend_ok.
    - now apply retain_algs_ok.
    - now apply retain_algs_idx_ok.
    - now apply retain_buses_ok.
    - now apply retain_derived_ok.
    - now apply subst_known_ok.
    - now apply subst_unknown_ok.
  Qed.
  Lemma run_ops_ok ops : forall c, index_ok c -> Forall op_ok ops -> index_ok (run_ops ops c).
  Proof.
    induction ops as [|o ops IH]; intros c Hc Ho; cbn [run_ops fold_left]; auto. inversion_clear Ho.
    apply IH; auto. now apply run_op_ok.
  Qed.
  Lemma run_ops_spec ops : forall c, index_ok c -> Forall op_ok ops -> ops_spec (isys c) ops (isys (run_ops ops c)).
  Proof.
    induction ops as [|o ops IH]; intros c Hc Ho; cbn [run_ops fold_left]; [constructor|]. inversion_clear Ho.
    econstructor; [|apply IH; auto; now apply run_op_ok]. destruct o; cbn [run_op op_ok] in *; try constructor.
    - now apply subst_known_sys.
    - rewrite subst_unknown_sys by auto. constructor.
  Qed.

  Lemma hist_lookup c0 ops : Forall op_ok ops ->
    let c := run_ops ops (ics_from c0) in
    forall vs,
      (forall e, In e (algs (isys c)) -> (exists v, In v vs /\ In v (vars e)) -> In (RAlg e) (referencing c vs)) /\
      (forall b, In b (buses (isys c)) -> (exists v, In v vs /\ In v (bus_vars b)) -> In (RBus b) (referencing c vs)) /\
      (forall e, In (RAlg e) (referencing c vs) -> In e (algs (isys c))) /\
      (forall b, In (RBus b) (referencing c vs) -> In b (buses (isys c))).
  Proof.
    intros Ho c vs. assert (Hok : index_ok c) by (apply run_ops_ok; auto; apply ics_from_ok).
    split; [intros e H1 H2; now apply referencing_alg|]. split; [intros e H1 H2; now apply referencing_bus|].
    split; intros x Hx; exact (referencing_sound _ _ _ Hx).
  Qed.
  Lemma hist_spec c0 ops : Forall op_ok ops -> ops_spec c0 ops (isys (run_ops ops (ics_from c0))).
  Proof. intros Ho. apply (run_ops_spec ops (ics_from c0)); auto. apply ics_from_ok. Qed.
  Lemma hist_no_panic c0 ops : Forall op_ok ops ->
    let c := run_ops ops (ics_from c0) in
    retain_panics 0 (algs (isys c)) (iocc c) = false /\
    retain_panics 1 (buses (isys c)) (iocc c) = false /\
    retain_panics 2 (derived (isys c)) (iocc c) = false /\
    forall v x, In x (occ_items v (iocc c)) -> item_valid (isys c) x.
  Proof.
    intros Ho c. assert (Hok : index_ok c) by (apply run_ops_ok; auto; apply ics_from_ok).
    destruct (retain_no_panic c Hok) as (H1 & H2 & H3). repeat split; auto. intros v x. apply (ok_valid _ Hok).
  Qed.

  (** ** The work queue *)
  (** Position of element [i] after filtering. *)
  Definition kept_pos {A} (f : A -> bool) (l : list A) (i : nat) : nat := length (filter f (firstn i l)).
  Lemma kept_pos_spec {A} (f : A -> bool) (l : list A) : forall i x, nth_error l i = Some x -> f x = true ->
    nth_error (filter f l) (kept_pos f l i) = Some x.
  Proof.
    unfold kept_pos. induction l as [|a l IH]; intros [|i] x; cbn [nth_error firstn filter]; try discriminate.
    - intros [= ->] Hf. now rewrite Hf.
    - intros Hx Hf. destruct (f a); cbn [length nth_error]; auto.
  Qed.
  Definition moved_alg (f : gexp -> bool) (c : csys) (x y : item) : Prop :=
    match x with
    | IAlg i => exists e, nth_error (algs c) i = Some e /\ f e = true /\ y = IAlg (kept_pos f (algs c) i)
    | _ => y = x
    end.
  Definition moved_bus (f : bus -> bool) (c : csys) (x y : item) : Prop :=
    match x with
    | IBus i => exists b, nth_error (buses c) i = Some b /\ f b = true /\ y = IBus (kept_pos f (buses c) i)
    | _ => y = x
    end.

  (** [reach c0 c dirty]: the state [c] can be reached from the system [c0], and [dirty] are
      the constraints that were added, touched by a substitution or whose variables were
      reported as updated since they were last taken from the queue. *)
  Inductive reach (c0 : csys) : qcs p -> (item -> Prop) -> Prop :=
  | RInit : reach c0 (qcs_from c0) (fun x => is_constraint x /\ item_valid c0 x)
  | RPop c d x c' : reach c0 c d -> qcs_pop c = (Some x, c') -> reach c0 c' (fun y => d y /\ y <> x)
  | RUpdated c d v : reach c0 c d ->
      reach c0 (variable_updated v c) (fun y => d y \/ (is_constraint y /\ item_mentions (isys (qsys c)) v y))
  | RSubst c d v e : reach c0 c d -> ~ In v (vars e) ->
      reach c0 (qcs_subst_unknown v e c) (fun y => d y \/ (is_constraint y /\ item_mentions (isys (qsys c)) v y))
  | RAddAlgs c d es : reach c0 c d ->
      reach c0 (qcs_add_algs es c)
        (fun y => d y \/ exists i, i < length es /\ y = IAlg (length (algs (isys (qsys c))) + i))
  | RAddBuses c d bs : reach c0 c d ->
      reach c0 (qcs_add_buses bs c)
        (fun y => d y \/ exists i, i < length bs /\ y = IBus (length (buses (isys (qsys c))) + i))
  | RRetainAlgs c d f : reach c0 c d ->
      reach c0 (qcs_retain_algs f c) (fun y => exists x, d x /\ moved_alg f (isys (qsys c)) x y)
  | RRetainBuses c d f : reach c0 c d ->
      reach c0 (qcs_retain_buses f c) (fun y => exists x, d x /\ moved_bus f (isys (qsys c)) x y).

  Lemma reach_ok c0 c d : reach c0 c d -> qcs_ok c.
  Proof.
    induction 1.
    - apply qcs_from_ok.
    - eapply qcs_pop_ok; eauto.
    - now apply variable_updated_ok.
    - now apply qcs_subst_unknown_ok.
    - now apply qcs_add_algs_ok.
    - now apply qcs_add_buses_ok.
    - now apply qcs_retain_algs_ok.
    - now apply qcs_retain_buses_ok.
  Qed.
  Lemma reach_dirty c0 c d : reach c0 c d -> forall x, d x -> In x (qitems (qq c)).
  Proof.
    induction 1 as [|c d x c' H IH Hpop|c d v H IH|c d v e H IH Hne|c d es H IH|c d bs H IH|c d f H IH|c d f H IH]; intros y Hy;
      try (pose proof (reach_ok _ _ _ H) as Hok).
    - now apply queue_new_items.
    - destruct (qcs_pop_ok _ _ _ Hok Hpop) as (_ & _ & _ & _ & _ & HI). apply HI. destruct Hy. auto.
    - apply variable_updated_items; auto. destruct Hy as [Hy|[Hy1 Hy2]]; auto. left. split; auto.
      apply (ok_complete _ (k_index _ Hok)); auto.
    - apply qcs_subst_unknown_items; auto. destruct Hy as [Hy|[Hy1 Hy2]]; auto.
    - apply qcs_add_algs_items; auto. destruct Hy as [Hy|Hy]; auto.
    - apply qcs_add_buses_items; auto. destruct Hy as [Hy|Hy]; auto.
    - destruct Hy as (x & Hx & Hm). apply IH in Hx. cbn [qcs_retain_algs qq requeue].
      assert (Hv := k_valid _ Hok _ Hx). assert (Hc := q_cons _ (k_queue _ Hok) _ Hx).
      unfold requeue. destruct (qitems (qq c)) as [|z l] eqn:E; [destruct Hx|].
      apply queue_new_items. cbn [retain_algs isys]. destruct x as [i|i|i]; cbn [moved_alg] in Hm.
      + destruct Hm as (e & He & Hf & ->). split; [unfold is_constraint; cbn; discriminate|]. cbn.
        apply nth_error_Some. rewrite (kept_pos_spec f _ i e); auto. discriminate.
      + subst. split; auto.
      + subst. split; auto.
    - destruct Hy as (x & Hx & Hm). apply IH in Hx. cbn [qcs_retain_buses qq requeue].
      assert (Hv := k_valid _ Hok _ Hx). assert (Hc := q_cons _ (k_queue _ Hok) _ Hx).
      unfold requeue. destruct (qitems (qq c)) as [|z l] eqn:E; [destruct Hx|].
      apply queue_new_items. cbn [retain_buses isys]. destruct x as [i|i|i]; cbn [moved_bus] in Hm.
      + subst. split; auto.
      + destruct Hm as (e & He & Hf & ->). split; [unfold is_constraint; cbn; discriminate|]. cbn.
        apply nth_error_Some. rewrite (kept_pos_spec f _ i e); auto. discriminate.
      + subst. split; auto.
  Qed.
  Lemma reach_queue c0 c d : reach c0 c d ->
    NoDup (qitems (qq c)) /\ (forall x, d x -> In x (qitems (qq c))) /\
    (forall x c', qcs_pop c = (Some x, c') -> exists r, to_ref (isys (qsys c)) x = Some (Some r)) /\
    (forall c', qcs_pop c = (None, c') -> forall x, ~ d x).
  Proof.
    intros H. pose proof (reach_ok _ _ _ H) as Hok. split; [apply (k_queue _ Hok)|].
    split; [eapply reach_dirty; eauto|]. split.
    - intros x c' Hpop. destruct (qcs_pop_ok _ _ _ Hok Hpop) as (_ & _ & _ & Hv & Hc & _).
      destruct x as [i|i|i]; cbn in *; [| |unfold is_constraint in Hc; cbn in Hc; congruence];
        apply nth_error_Some in Hv; destruct (nth_error _ i); eauto; congruence.
    - intros c' Hpop x Hx. apply (reach_dirty _ _ _ H) in Hx. destruct (qcs_pop_none _ _ Hpop) as [E _]. now rewrite E in Hx.
  Qed.
End Hist.
