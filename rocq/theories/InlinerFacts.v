(** Facts about the inliner. *)
From Coq Require Import NArith ZArith Znumtheory Bool List Lia Ring Setoid.
From Coq Require Import ZifyBool ZifyN ZifyNat.
From Verif Require Import Field RangeModel RangeFacts ExprModel ExprFacts ExprWf ExprMore SolveModel SolveFacts
  SystemModel IndexFacts Spec InlinerModel.
Import ListNotations.
Local Open Scope nat_scope.

(** ** Degrees *)
Section Degree.
  Context {p : positive}.
  Local Notation gexp := (gexp p).

  Definition dq (q : list (gexp * gexp)) : nat := fold_right (fun ab acc => Nat.max (degree (fst ab) + degree (snd ab)) acc) 0 q.
  Definition dl (l : list (var * F p)) : nat := match l with [] => 0 | _ => 1 end.
  Lemma degree_GE q l c : degree (GE q l c) = Nat.max (dq q) (dl l).
  Proof. cbn [degree]. unfold dq, dl. induction q as [|ab q IH]; cbn [fold_right]; [lia|]. rewrite IH. lia. Qed.
  Lemma dq_le q d : dq q <= d <-> Forall (fun ab => degree (fst ab) + degree (snd ab) <= d) q.
  Proof.
    unfold dq. induction q as [|ab q IH]; cbn [fold_right].
    - split; [constructor|lia].
    - split.
      + intros H. constructor; [lia|]. apply IH. lia.
      + intros H. inversion_clear H. apply IH in H1. lia.
  Qed.
  Lemma degree_gneg (e : gexp) : degree (gneg e) = degree e.
  Proof.
    induction e as [q l c IH] using gexp_ind'. cbn [gneg]. rewrite !degree_GE. f_equal.
    - induction q as [|ab q IHq]; cbn [map dq fold_right fst snd]; auto. inversion_clear IH. destruct H as [H _].
      rewrite H. fold (dq q). fold (dq (map (fun ab => (gneg (fst ab), snd ab)) q)). rewrite IHq; auto.
    - destruct l; reflexivity.
  Qed.
  Lemma degree_gscale_nz k (e : gexp) : degree (gscale_nz k e) = degree e.
  Proof.
    induction e as [q l c IH] using gexp_ind'. cbn [gscale_nz]. rewrite !degree_GE. f_equal.
    - induction q as [|ab q IHq]; cbn [map dq fold_right fst snd]; auto. inversion_clear IH. destruct H as [H _].
      rewrite H. fold (dq q). fold (dq (map (fun ab => (gscale_nz k (fst ab), snd ab)) q)). rewrite IHq; auto.
    - destruct l; reflexivity.
  Qed.
  Lemma degree_gscale k (e : gexp) : degree (gscale e k) <= degree e.
  Proof. unfold gscale. destruct (is_zero k); [cbn; lia|]. now rewrite degree_gscale_nz. Qed.
  Lemma ladd_nonempty v (c : F p) l : ladd v c l <> [].
  Proof. destruct l as [|[w k] l]; cbn; [discriminate|]. destruct (veqb v w); [discriminate|]. destruct (vltb v w); discriminate. Qed.
  Lemma dl_gadd (l1 l2 : list (var * F p)) :
    dl (lretain_nonzero (fold_left (fun l vc => ladd (fst vc) (snd vc) l) l2 l1)) <= Nat.max (dl l1) (dl l2).
  Proof.
    assert (G : forall l : list (var * F p), dl l <= 1) by (intros []; cbn; lia).
    destruct l2 as [|x l2]; [|pose proof (G (lretain_nonzero (fold_left (fun l vc => ladd (fst vc) (snd vc) l) (x :: l2) l1))); cbn [dl] in *; lia].
    cbn [fold_left]. destruct l1 as [|y l1]; [cbn; lia|].
    pose proof (G (lretain_nonzero (y :: l1))). cbn [dl] in *. lia.
  Qed.
  Lemma degree_gadd (a b : gexp) : degree (gadd a b) <= Nat.max (degree a) (degree b).
  Proof.
    destruct a as [q1 l1 c1], b as [q2 l2 c2]. unfold gadd. cbn [quad lin cst]. rewrite !degree_GE.
    pose proof (dl_gadd l1 l2). assert (dq (combine_removing_zeros q1 q2) <= Nat.max (dq q1) (dq q2)); [|lia].
    apply dq_le. apply combine_removing_zeros_forall.
    - apply dq_le. lia.
    - apply dq_le. lia.
  Qed.
  Lemma degree_gsub (a b : gexp) : degree (gsub a b) <= Nat.max (degree a) (degree b).
  Proof. unfold gsub. pose proof (degree_gadd a (gneg b)). rewrite degree_gneg in H. auto. Qed.
  Lemma absorb_degree d q : forall acc : list (gexp * gexp) * gexp,
    Forall (fun ab => degree (fst ab) + degree (snd ab) <= d) q ->
    dq (fst acc) <= d -> degree (snd acc) <= d ->
    dq (fst (fold_left absorb q acc)) <= d /\ degree (snd (fold_left absorb q acc)) <= d.
  Proof.
    induction q as [|[a b] q IH]; intros [kept ta] HF H1 H2; cbn [fold_left]; auto. inversion_clear HF.
    cbn [fst snd] in *. apply IH; auto; unfold absorb; cbn [fst snd];
      destruct (try_to_known a) as [x|] eqn:Ea, (try_to_known b) as [y|] eqn:Eb; cbn [fst snd]; auto.
    - apply dq_le. apply Forall_app. split; [now apply dq_le|]. constructor; auto.
    - pose proof (degree_gadd ta (from_number (x * y)%F)) as G.
      assert (E : degree (from_number (x * y)%F) = 0) by reflexivity. lia.
    - pose proof (degree_gadd ta (gscale b x)). pose proof (degree_gscale x b). lia.
    - pose proof (degree_gadd ta (gscale a y)). pose proof (degree_gscale y a). lia.
  Qed.

  Lemma vd_GE v d q l (c : F p) : virtual_degree v d (GE q l c) =
    Nat.max (fold_right (fun ab acc => Nat.max (virtual_degree v d (fst ab) + virtual_degree v d (snd ab)) acc) 0 q)
            (fold_right (fun wk acc => Nat.max (if veqb (fst wk) v then d else 1) acc) 0 l).
  Proof. cbn [virtual_degree]. induction q as [|ab q IH]; cbn [fold_right]; [lia|]. rewrite IH. lia. Qed.
  Lemma vd_quad v d q l (c : F p) ab : In ab q -> virtual_degree v d (fst ab) + virtual_degree v d (snd ab) <= virtual_degree v d (GE q l c).
  Proof.
    intros H. rewrite vd_GE. induction q as [|x q IH]; [destruct H|]. cbn [fold_right].
    destruct H as [->|H]; [lia|]. specialize (IH H). lia.
  Qed.
  Lemma vd_lin v d q l (c : F p) w k : In (w, k) l -> (if veqb w v then d else 1) <= virtual_degree v d (GE q l c).
  Proof.
    intros H. rewrite vd_GE. induction l as [|x l IH]; [destruct H|]. cbn [fold_right].
    destruct H as [->|H]; [cbn [fst]; lia|]. specialize (IH H). lia.
  Qed.
  Lemma vd_not_mentioned v d (e : gexp) : ~ In v (vars e) -> virtual_degree v d e = degree e.
  Proof.
    induction e as [q l c IH] using gexp_ind'. intros Hn. rewrite vd_GE, degree_GE. rewrite vars_GE, in_app_iff in Hn. f_equal.
    - assert (Hq : ~ In v (qvars q)) by tauto. clear Hn. induction q as [|ab q IHq]; cbn [fold_right dq]; auto. inversion_clear IH.
      destruct H as [Ha Hb]. cbn [qvars flat_map] in Hq. rewrite !in_app_iff in Hq. rewrite Ha, Hb by tauto.
      fold (dq q). rewrite IHq; auto.
    - assert (Hl : ~ In v (map fst l)) by tauto. clear Hn IH. destruct l as [|[w k] l]; cbn [fold_right dl]; auto.
      cbn [map fst In] in *. destruct (veqb_spec w v) as [->|]; [tauto|].
      assert (G : fold_right (fun (wk : var * F p) acc => Nat.max (if veqb (fst wk) v then d else 1) acc) 0 l <= 1); [|lia].
      assert (Hl' : ~ In v (map fst l)) by tauto. clear -Hl'. induction l as [|[w k] l IH]; cbn [fold_right map fst In] in *; [lia|].
      destruct (veqb_spec w v) as [->|]; [tauto|]. specialize (IH ltac:(tauto)). lia.
  Qed.

  Lemma degree_subst_unknown v (r e : gexp) : degree (subst_unknown v r e) <= virtual_degree v (degree r) e.
  Proof.
    induction e as [q l c IH] using gexp_ind'. cbn [subst_unknown].
    destruct (mentions v (GE q l c)) eqn:Em; cbn [negb].
    2:{ rewrite vd_not_mentioned; auto. intros H. apply mentions_In in H. congruence. }
    set (D := virtual_degree v (degree r) (GE q l c)).
    set (ta0 := fold_left _ l gzero).
    assert (Hta0 : degree ta0 <= D).
    { unfold ta0. assert (G : forall l' acc, (forall w k, In (w, k) l' -> In (w, k) l) -> degree acc <= D ->
        degree (fold_left (fun acc wk => if veqb v (fst wk) then gadd acc (gscale r (snd wk)) else acc) l' acc) <= D).
      { induction l' as [|[w k] l' IHl]; intros acc Hin Hacc; cbn [fold_left fst snd]; auto. apply IHl.
        - intros w' k' H. apply Hin. now right.
        - destruct (veqb_spec v w) as [->|]; auto.
          assert (Hd : degree r <= D). { pose proof (vd_lin w (degree r) q l c w k (Hin w k (or_introl eq_refl))) as H.
            rewrite veqb_refl in H. exact H. }
          pose proof (degree_gadd acc (gscale r k)). pose proof (degree_gscale k r). lia. }
      apply G; auto. cbn. lia. }
    destruct (fold_left absorb (map _ q) ([], ta0)) as [q' ta] eqn:Ef.
    assert (HA : dq q' <= D /\ degree ta <= D).
    { pose proof (absorb_degree D (map (fun ab => (subst_unknown v r (fst ab), subst_unknown v r (snd ab))) q) ([], ta0)) as G.
      rewrite Ef in G. cbn [fst snd] in G. apply G; auto; [|cbn; lia].
      apply Forall_map. apply Forall_forall. intros ab Hab. cbn [fst snd].
      rewrite Forall_forall in IH. destruct (IH ab Hab) as [Ha Hb]. pose proof (vd_quad v (degree r) q l c ab Hab) as Hd. fold D in Hd. lia. }
    destruct HA as [HA1 HA2].
    pose proof (degree_gadd (GE (remove_quadratic_terms_adding_to_zero q') (lremove v l) c) ta) as G.
    rewrite (degree_GE (remove_quadratic_terms_adding_to_zero q')) in G.
    assert (H1 : dq (remove_quadratic_terms_adding_to_zero q') <= D).
    { apply dq_le. apply rqz_forall. now apply dq_le. }
    assert (H2 : dl (lremove v l) <= D).
    { destruct (lremove v l) as [|[w k] l'] eqn:El; cbn [dl]; [lia|].
      assert (Hin : In (w, k) (lremove v l)) by (rewrite El; now left).
      unfold lremove in Hin. apply filter_In in Hin. destruct Hin as [Hin Hne]. cbn [fst] in Hne.
      pose proof (vd_lin v (degree r) q l c w k Hin) as H. fold D in H. destruct (veqb_spec w v) as [->|]; [|exact H].
      rewrite veqb_refl in Hne. discriminate. }
    lia.
  Qed.
End Degree.

Section InlinerFacts.
  Context {p : positive}.
  Context (Hp : prime (Z.pos p)).
  Local Notation gexp := (gexp p).
  Local Notation ics := (ics p).
  Local Notation csys := (csys p).
  Add Ring Fring : (F_ring_theory (p:=p)).

  Definition identically_zero (e : gexp) : Prop := forall s, eval s e = 0%F.

  Lemma solvable_not_zero v (e r : gexp) : try_solve_for v e = Some r -> ~ identically_zero e.
  Proof.
    intros H Hz. pose proof (try_solve_for_vars _ _ _ H) as [Hv _].
    set (s0 := fun _ : var => 0%F : F p). set (s := upd s0 v (eval s0 r + 1)%F).
    assert (E : s v = eval s r) by (apply (try_solve_for_iff Hp s v e r H), Hz).
    unfold s in E. rewrite upd_same, eval_upd_notin in E by auto.
    apply (one_neq_zero Hp). transitivity (eval s0 r + 1 - eval s0 r)%F; [ring|]. rewrite E. ring.
  Qed.
  Lemma find_inlinable_in (e : gexp) v r : In (v, r) (find_inlinable e) -> try_solve_for v e = Some r /\ In v (vars e).
  Proof.
    unfold find_inlinable. rewrite in_flat_map. intros ([w k] & Hin & H). cbn [fst] in H.
    destruct (try_solve_for w e) as [r'|] eqn:E; [|destruct H]. destruct H as [[= -> ->]|[]]. split; auto.
    apply in_rev in Hin. destruct e as [q l c]. rewrite vars_GE, in_app_iff. right. apply in_map_iff. exists (v, k). auto.
  Qed.

  Lemma upd_self s v (k : F p) (e : gexp) : s v = k -> eval (upd s v k) e = eval s e.
  Proof. intros <-. apply eval_ext. intros w _. unfold upd. destruct (veqb_spec v w) as [->|]; auto. Qed.

  (** Substitution in a whole system. *)
  Lemma cs_map_solves s v (r : gexp) (c : csys) :
    sys_solves s (cs_map (subst_unknown v r) (cm_subst_unknown v r) c) <-> sys_solves (upd s v (eval s r)) c.
  Proof.
    unfold sys_solves, cs_map, solves. cbn [algs]. rewrite Forall_map, !Forall_forall.
    split; intros H e He; specialize (H e He); rewrite eval_subst_unknown in *; auto.
  Qed.
  Lemma cs_map_bus s v (r : gexp) (c : csys) :
    bus_values s (cs_map (subst_unknown v r) (cm_subst_unknown v r) c) = bus_values (upd s v (eval s r)) c.
  Proof.
    unfold bus_values, cs_map. cbn [buses]. rewrite map_map. apply map_ext. intros b. rewrite bmap_bmap.
    apply bmap_ext_in. intros x _. apply eval_subst_unknown.
  Qed.
  Lemma cs_map_derived s v (r : gexp) (c : csys) :
    derived_values s (cs_map (subst_unknown v r) (cm_subst_unknown v r) c) = derived_values (upd s v (eval s r)) c.
  Proof.
    unfold derived_values, cs_map. cbn [derived]. rewrite map_map. apply map_ext. intros [w [k|a b]]; cbn [fst snd cm_subst_unknown cm_value]; auto.
    now rewrite !eval_subst_unknown.
  Qed.
  Lemma same_values s s' (c : csys) : (forall e, eval s e = eval s' e) ->
    (sys_solves s c <-> sys_solves s' c) /\ bus_values s c = bus_values s' c /\ derived_values s c = derived_values s' c.
  Proof.
    intros H. split; [|split].
    - unfold sys_solves, solves. rewrite !Forall_forall. split; intros G e He; [rewrite <- H|rewrite H]; auto.
    - unfold bus_values. apply map_ext. intros b. apply bmap_ext_in. auto.
    - unfold derived_values. apply map_ext. intros [w [k|a b]]; cbn; auto. now rewrite !H.
  Qed.

  (** [c'] is [c] with [defs] eliminated: the solutions of [c] are those of [c'] that satisfy
      the definitions, every solution of [c'] can be adjusted at the eliminated variables only
      to a solution of [c], and values sent to the buses are the same. *)
  Definition eliminates (c : csys) (defs : list (var * gexp)) (c' : csys) : Prop :=
    (forall s, sys_solves s c <-> (Forall (fun ve => s (fst ve) = eval s (snd ve)) defs /\ sys_solves s c')) /\
    (forall s, Forall (fun ve => s (fst ve) = eval s (snd ve)) defs ->
       bus_values s c' = bus_values s c /\ derived_values s c' = derived_values s c) /\
    (forall s, sys_solves s c' -> exists s',
       (forall w, ~ In w (map fst defs) -> s' w = s w) /\ sys_solves s' c /\
       bus_values s' c = bus_values s c' /\ derived_values s' c = derived_values s c').
  Lemma eliminates_refl c : eliminates c [] c.
  Proof.
    split; [|split].
    - intros s. split; [auto|tauto].
    - auto.
    - intros s H. exists s. auto.
  Qed.
  Lemma eliminates_step c defs c' i e v r : eliminates c defs c' -> nth_error (algs c') i = Some e ->
    try_solve_for v e = Some r -> eliminates c (defs ++ [(v, r)]) (cs_map (subst_unknown v r) (cm_subst_unknown v r) c').
  Proof.
    intros (E1 & E2 & E3) Hi Hr. pose proof (try_solve_for_vars _ _ _ Hr) as [Hv _].
    assert (Hs : forall s, s v = eval s r -> forall x : gexp, eval (upd s v (eval s r)) x = eval s x).
    { intros s H x. now apply upd_self. }
    split; [|split].
    - intros s. rewrite E1, Forall_app, cs_map_solves. split.
      + intros [H1 H2]. assert (Hd : s v = eval s r).
        { apply (try_solve_for_iff Hp s v e r Hr). unfold sys_solves in H2. rewrite Forall_forall in H2. apply H2.
          eapply nth_error_In; eauto. }
        split; [split; auto|]. now apply (same_values _ _ c' (Hs s Hd)).
      + intros [[H1 H2] H3]. inversion_clear H2. cbn [fst snd] in H. split; auto. now apply (same_values _ _ c' (Hs s H)).
    - intros s H. apply Forall_app in H. destruct H as [H1 H2]. inversion_clear H2. cbn [fst snd] in H.
      rewrite cs_map_bus, cs_map_derived. destruct (same_values _ _ c' (Hs s H)) as (_ & -> & ->). auto.
    - intros s H. rewrite cs_map_solves in H. destruct (E3 _ H) as (s' & G1 & G2 & G3 & G4). exists s'.
      split; [|rewrite cs_map_bus, cs_map_derived; auto].
      intros w Hw. rewrite map_app, in_app_iff in Hw. rewrite G1 by tauto. apply upd_other. cbn in Hw. intuition congruence.
  Qed.

  (** ** The loop invariant *)
  Definition determined (defs : list (var * gexp)) : Prop := forall s1 s2 : var -> F p,
    Forall (fun ve => s1 (fst ve) = eval s1 (snd ve)) defs -> Forall (fun ve => s2 (fst ve) = eval s2 (snd ve)) defs ->
    (forall w, ~ In w (map fst defs) -> s1 w = s2 w) -> forall w, s1 w = s2 w.
  Lemma determined_snoc defs v (r : gexp) : determined defs -> ~ In v (vars r) -> (forall w, In w (vars r) -> ~ In w (map fst defs)) ->
    determined (defs ++ [(v, r)]).
  Proof.
    intros Hd Hv Hr s1 s2 H1 H2 H. apply Forall_app in H1, H2. destruct H1 as [H1 G1], H2 as [H2 G2].
    inversion_clear G1. inversion_clear G2. cbn [fst snd] in *. rewrite map_app in H. cbn [map fst] in H.
    assert (E : eval s1 r = eval s2 r).
    { apply eval_ext. intros w Hw. apply H. rewrite in_app_iff. intros [Hk|[->|[]]]; [exact (Hr w Hw Hk)|auto]. }
    apply Hd; auto. intros w Hw. destruct (var_dec v w) as [<-|Hne]; [congruence|]. apply H. rewrite in_app_iff. cbn. intuition.
  Qed.
  Record inl_ok (c0 : csys) (st : inl_state (p:=p)) : Prop := {
    io_det : determined (inl_subs st);
    io_index : index_ok (inl_sys st);
    io_len : length (algs (isys (inl_sys st))) = length (algs c0);
    io_elim : eliminates c0 (inl_subs st) (isys (inl_sys st));
    io_count : length (inl_rem st) = length (inl_subs st);
    io_nodup : NoDup (inl_rem st);
    io_zero : forall i, In i (inl_rem st) -> exists e, nth_error (algs (isys (inl_sys st))) i = Some e /\ identically_zero e;
    io_keys : NoDup (map fst (inl_subs st));
    io_gone : forall v x, In v (map fst (inl_subs st)) -> ~ item_mentions (isys (inl_sys st)) v x;
    io_wf : Forall wf (algs c0) -> Forall wf (algs (isys (inl_sys st))) }.

  Variable should_inline : var -> gexp -> ics -> bool.

  Lemma inl_init_ok c : index_ok c -> inl_ok (isys c) (mkInl c [] []).
  Proof.
    intros H. constructor; cbn; auto; try (constructor; fail); try tauto; [|apply eliminates_refl].
    intros s1 s2 _ _ G. exact (fun w => G w (fun x => x)).
  Qed.
  Lemma cs_map_mentions v (r : gexp) (c : csys) w x : item_mentions (cs_map (subst_unknown v r) (cm_subst_unknown v r) c) w x ->
    (item_mentions c w x /\ w <> v) \/ (In w (vars r) /\ item_mentions c v x).
  Proof.
    destruct x as [i|i|i]; cbn [item_mentions cs_map algs buses derived]; rewrite nth_error_map; intros (y & Hy & Hw).
    - destruct (nth_error (algs c) i) as [z|] eqn:Ez; [|discriminate]. injection Hy as <-.
      apply vars_subst_unknown in Hw. destruct Hw as [[Hw Hn]|[Hw1 Hw2]]; [left|right]; eauto.
    - destruct (nth_error (buses c) i) as [z|] eqn:Ez; [|discriminate]. injection Hy as <-.
      apply bus_vars_bmap in Hw. destruct Hw as (x & Hx & Hw).
      apply vars_subst_unknown in Hw. destruct Hw as [[Hw Hn]|[Hw1 Hw2]]; [left|right]; split; auto; exists z; split; auto; apply bus_vars_in; eauto.
    - destruct (nth_error (derived c) i) as [[u [k|a b]]|] eqn:Ez; [| |discriminate]; injection Hy as <-; cbn in Hw; [destruct Hw|].
      rewrite in_app_iff in Hw. destruct Hw as [Hw|Hw]; apply vars_subst_unknown in Hw; (destruct Hw as [[Hw Hn]|[Hw1 Hw2]]; [left|right]);
        split; auto; eexists; (split; [reflexivity|]); cbn; rewrite in_app_iff; auto.
  Qed.
  Lemma inline_at_ok c0 st i : inl_ok c0 st -> inl_ok c0 (inline_at should_inline st i) /\
    length (inl_subs st) <= length (inl_subs (inline_at should_inline st i)).
  Proof.
    intros Hok. unfold inline_at.
    destruct (nth_error (algs (isys (inl_sys st))) i) as [e|] eqn:Ee; [|auto].
    destruct (find _ (find_inlinable e)) as [[v r]|] eqn:Ef; [|auto].
    apply find_some in Ef. destruct Ef as [Hin _]. apply find_inlinable_in in Hin. destruct Hin as [Hr Hve].
    pose proof (try_solve_for_vars _ _ _ Hr) as [Hvr Hre].
    destruct Hok as [H0 H1 H2 H3 H4 H5 H6 H7 H8 H9].
    pose proof (subst_unknown_sys v r (inl_sys st) H1 Hvr) as Hsys.
    assert (Hfresh : ~ In i (inl_rem st)).
    { intros Hi. destruct (H6 i Hi) as (e' & He' & Hz). rewrite Ee in He'. injection He' as <-.
      exact (solvable_not_zero v e r Hr Hz). }
    assert (Hment : item_mentions (isys (inl_sys st)) v (IAlg i)) by (cbn; eauto).
    split; [|cbn [inl_subs]; rewrite app_length; lia].
    constructor; cbn [inl_sys inl_rem inl_subs].
    - apply determined_snoc; auto. intros w Hw Hk. apply (H8 w (IAlg i) Hk). cbn. eauto.
    - apply subst_unknown_ok; auto.
    - rewrite Hsys. cbn [cs_map algs]. now rewrite map_length.
    - rewrite Hsys. eapply eliminates_step; eauto.
    - cbn [length]. rewrite app_length. cbn. lia.
    - constructor; auto.
    - intros j Hj. rewrite Hsys. cbn [cs_map algs]. rewrite nth_error_map. destruct Hj as [<-|Hj].
      + rewrite Ee. cbn [option_map]. eexists. split; [reflexivity|]. intros s. rewrite eval_subst_unknown.
        apply (try_solve_for_iff Hp _ v e r Hr). rewrite upd_same. symmetry. now apply eval_upd_notin.
      + destruct (H6 j Hj) as (e' & He' & Hz). rewrite He'. cbn [option_map]. eexists. split; [reflexivity|].
        intros s. rewrite eval_subst_unknown. apply Hz.
    - rewrite map_app. apply NoDup_app_intro; auto.
      + constructor; [intros []|constructor].
      + intros x Hx [<-|[]]. exact (H8 _ _ Hx Hment).
    - intros w x Hw. rewrite Hsys. intros Hm. apply cs_map_mentions in Hm. rewrite map_app, in_app_iff in Hw. cbn [map fst In] in Hw.
      destruct Hm as [[Hm Hn]|[Hm1 Hm2]].
      + destruct Hw as [Hw|[->|[]]]; [|congruence]. exact (H8 _ _ Hw Hm).
      + destruct Hw as [Hw|[->|[]]]; [|tauto]. apply (H8 w (IAlg i) Hw). cbn. eauto.
    - intros Hwf. specialize (H9 Hwf). rewrite Hsys. cbn [cs_map algs]. apply Forall_map. rewrite Forall_forall in *. intros x Hx.
      apply wf_subst_unknown; [exact Hp| |auto]. apply (try_solve_for_wf Hp v e r); [|exact Hr]. apply H9. eapply nth_error_In; eauto.
  Qed.
  Lemma inline_fold_ok c0 is : forall st, inl_ok c0 st -> inl_ok c0 (fold_left (inline_at should_inline) is st) /\
    length (inl_subs st) <= length (inl_subs (fold_left (inline_at should_inline) is st)).
  Proof.
    induction is as [|i is IH]; intros st Hok; cbn [fold_left]; auto.
    destruct (inline_at_ok c0 st i Hok) as [G1 G2]. destruct (IH _ G1) as [G3 G4]. split; auto. lia.
  Qed.
  Lemma inl_count_bound c0 st : inl_ok c0 st -> length (inl_subs st) <= length (algs c0).
  Proof.
    intros [H0 H1 H2 H3 H4 H5 H6 H7 H8 H9]. rewrite <- H4, <- H2.
    rewrite <- (seq_length (length (algs (isys (inl_sys st)))) 0). apply NoDup_incl_length; auto.
    intros i Hi. apply in_seq. destruct (H6 i Hi) as (e & He & _). assert (i < length (algs (isys (inl_sys st)))); [|lia].
    apply nth_error_Some. congruence.
  Qed.
  Lemma inline_loop_total c0 n fuel : forall st, inl_ok c0 st -> length (algs c0) - length (inl_subs st) < fuel ->
    exists st', inline_loop should_inline fuel n st = Some st' /\ inl_ok c0 st'.
  Proof.
    induction fuel as [|fuel IH]; intros st Hok Hf; [lia|]. cbn [inline_loop]. unfold inline_round.
    destruct (inline_fold_ok c0 (rev (seq 0 n)) st Hok) as [G1 G2].
    destruct (Nat.eqb_spec (length (inl_subs (fold_left (inline_at should_inline) (rev (seq 0 n)) st))) (length (inl_subs st))); eauto.
    apply IH; auto. pose proof (inl_count_bound _ _ G1). lia.
  Qed.

  Lemma filter_idx_solves s f (l : list gexp) :
    (forall i e, nth_error l i = Some e -> f i = false -> identically_zero e) ->
    Forall (solves s) (filter_idx f l) <-> Forall (solves s) l.
  Proof.
    intros H. unfold filter_idx. rewrite !Forall_forall. split.
    - intros G e He. apply In_nth_error in He. destruct He as (i & Hi). destruct (f i) eqn:Ef.
      + apply G. apply in_map_iff. exists (i, e). split; auto. apply filter_In. split; auto. now apply enumerate_in.
      + exact (H i e Hi Ef s).
    - intros G e He. apply in_map_iff in He. destruct He as ([i e'] & <- & He). apply filter_In in He. destruct He as [He _].
      apply enumerate_in in He. cbn. apply G. eapply nth_error_In; eauto.
  Qed.
  Lemma filter_idx_incl {A} f (l : list A) e : In e (filter_idx f l) -> In e l.
  Proof.
    unfold filter_idx. rewrite in_map_iff. intros ([i e'] & <- & He). apply filter_In in He. destruct He as [He _].
    apply enumerate_in in He. eapply nth_error_In; eauto.
  Qed.

  Lemma inline_correct (c : ics) : index_ok c ->
    exists c' defs, inline should_inline (S (length (algs (isys c)))) c = Some (c', defs) /\
      index_ok c' /\ eliminates (isys c) defs (isys c') /\ determined defs /\ NoDup (map fst defs) /\
      inline_assert (c', defs) = true /\
      (Forall wf (algs (isys c)) -> Forall wf (algs (isys c'))) /\
      length (algs (isys c)) = length (algs (isys c')) + length defs.
  Proof.
    intros Hc. destruct (inline_loop_total (isys c) (length (algs (isys c))) (S (length (algs (isys c)))) (mkInl c [] [])) as (st & Est & Hok).
    { now apply inl_init_ok. }
    { cbn. lia. }
    unfold inline. rewrite Est. exists (remove_inlined st), (inl_subs st). split; auto.
    pose proof Hok as [H0 H1 H2 H3 H4 H5 H6 H7 H8 H9]. unfold remove_inlined.
    set (f := fun i => negb (existsb (Nat.eqb i) (inl_rem st))).
    assert (Hf : forall i, f i = false <-> In i (inl_rem st)).
    { intros i. unfold f. rewrite negb_false_iff, existsb_exists. split.
      - intros (j & Hj & E). apply Nat.eqb_eq in E. now subst.
      - intros Hi. exists i. split; auto. apply Nat.eqb_refl. }
    assert (Hsolves : forall s, sys_solves s (isys (retain_algs_idx f (inl_sys st))) <-> sys_solves s (isys (inl_sys st))).
    { intros s. unfold sys_solves. cbn [retain_algs_idx isys algs]. apply filter_idx_solves. intros i e Hi Hfi.
      apply Hf in Hfi. destruct (H6 i Hfi) as (e' & He' & Hz). rewrite Hi in He'. injection He' as <-. exact Hz. }
    split; [now apply retain_algs_idx_ok|]. split.
    - destruct H3 as (E1 & E2 & E3). split; [|split].
      + intros s. rewrite E1, Hsolves. tauto.
      + exact E2.
      + intros s H. apply Hsolves in H. apply E3 in H. exact H.
    - split; auto. split; auto. split; [|split].
      + unfold inline_assert. cbn [fst snd]. apply forallb_forall. intros v Hv. apply negb_true_iff. apply not_true_iff_false.
        rewrite existsb_exists. intros (ve & Hve & E). apply veqb_eq in E. subst v.
        assert (Hk : In (fst ve) (map fst (inl_subs st))) by now apply in_map.
        unfold sys_vars in Hv. cbn [retain_algs_idx isys algs buses] in Hv. apply in_app_iff in Hv. destruct Hv as [Hv|Hv]; apply in_flat_map in Hv; destruct Hv as (x & Hx & Hv).
        * apply filter_idx_incl in Hx. apply In_nth_error in Hx. destruct Hx as (i & Hi). apply (H8 _ (IAlg i) Hk). cbn. eauto.
        * apply In_nth_error in Hx. destruct Hx as (i & Hi). apply (H8 _ (IBus i) Hk). cbn. eauto.
      + intros Hwf. specialize (H9 Hwf). cbn [retain_algs_idx isys algs]. rewrite Forall_forall in *. intros e He.
        apply H9. eapply filter_idx_incl; eauto.
      + cbn [retain_algs_idx isys algs]. rewrite <- H2, <- H4.
        assert (G : forall (l : list gexp) k rem, NoDup rem -> (forall i, In i rem -> k <= i < k + length l) ->
          length l = length (filter (fun ia => negb (existsb (Nat.eqb (fst ia)) rem)) (combine (seq k (length l)) l)) + length rem).
        { clear. induction l as [|a l IH]; intros k rem Hn Hr; cbn [length seq combine filter].
          - destruct rem as [|i rem]; auto. specialize (Hr i (or_introl eq_refl)). cbn in Hr. lia.
          - cbn [fst]. destruct (existsb (Nat.eqb k) rem) eqn:E; cbn [negb].
            + apply existsb_exists in E. destruct E as (j & Hj & E). apply Nat.eqb_eq in E. subst j.
              apply in_split in Hj. destruct Hj as (r1 & r2 & ->). pose proof (NoDup_remove_1 _ _ _ Hn) as Hn1.
              pose proof (NoDup_remove_2 _ _ _ Hn) as Hn2.
              specialize (IH (S k) (r1 ++ r2) Hn1). rewrite !app_length in *. cbn [length] in *.
              assert (HR : forall i, In i (r1 ++ r2) -> S k <= i < S k + length l).
              { intros i Hi. assert (i <> k) by (intros ->; auto).
                specialize (Hr i). rewrite in_app_iff in Hi, Hr. cbn [In] in Hr. specialize (Hr ltac:(tauto)). lia. }
              specialize (IH HR).
              assert (Hfl : filter (fun ia => negb (existsb (Nat.eqb (fst ia)) (r1 ++ k :: r2))) (combine (seq (S k) (length l)) l) =
                       filter (fun ia => negb (existsb (Nat.eqb (fst ia)) (r1 ++ r2))) (combine (seq (S k) (length l)) l)).
              { apply filter_ext_in. intros [i x] Hi. cbn [fst]. apply in_combine_l in Hi. apply in_seq in Hi.
                rewrite !existsb_app. cbn [existsb]. replace (Nat.eqb i k) with false by (symmetry; apply Nat.eqb_neq; lia). reflexivity. }
              rewrite Hfl. lia.
            + cbn [length]. rewrite (IH (S k) rem) at 1; auto. intros i Hi. specialize (Hr i Hi). cbn [length] in Hr.
              assert (i <> k); [|lia]. intros ->. apply not_true_iff_false in E. apply E. apply existsb_exists. exists k.
              split; auto. apply Nat.eqb_refl. }
        unfold filter_idx, enumerate. rewrite map_length. apply G; auto.
        intros i Hi. destruct (H6 i Hi) as (e & He & _). assert (i < length (algs (isys (inl_sys st)))) by (apply nth_error_Some; congruence). lia.
  Qed.
End InlinerFacts.

(** ** Degree bound *)
Section DegreeFacts.
  Context {p : positive}.
  Local Notation gexp := (gexp p).
  Local Notation ics := (ics p).
  Local Notation csys := (csys p).
  Variable b : degree_bound.

  (** Every expression respects the bound or is unchanged from [c0]. *)
  Definition within (c0 : csys) (c : csys) : Prop :=
    Forall (fun e => degree e <= db_identities b \/ In e (algs c0)) (algs c) /\
    Forall (fun i => Forall (fun e => degree e <= db_bus b) (fields i) \/ In i (buses c0)) (buses c).

  Lemma within_subst c0 (c : ics) v r : index_ok c -> ~ In v (vars r) -> within c0 (isys c) -> below_degree_bound b v r c = true ->
    within c0 (isys (ics_subst_unknown v r c)).
  Proof.
    intros Hok Hv [H1 H2] Hb. rewrite subst_unknown_sys by auto. unfold below_degree_bound in Hb. rewrite forallb_forall in Hb.
    split; cbn [cs_map algs buses]; apply Forall_map; rewrite Forall_forall in *.
    - intros e He. destruct (in_dec (fun x y => reflect_dec _ _ (veqb_spec x y)) v (vars e)) as [Hin|Hnin].
      + left. assert (Href : In (RAlg e) (referencing c [v])).
        { apply referencing_alg; auto. exists v. cbn. auto. }
        apply Hb in Href. apply Nat.leb_le in Href. pose proof (degree_subst_unknown v r e). lia.
      + rewrite subst_unknown_not_mentioned by auto. auto.
    - intros i Hi. destruct (in_dec (fun x y => reflect_dec _ _ (veqb_spec x y)) v (bus_vars i)) as [Hin|Hnin].
      + left. assert (Href : In (RBus i) (referencing c [v])).
        { apply referencing_bus; auto. exists v. cbn. auto. }
        apply Hb in Href. rewrite forallb_forall in Href. apply Forall_forall. intros e He.
        assert (He' : exists x, In x (fields i) /\ e = subst_unknown v r x).
        { unfold fields, bmap in *. cbn [bus_id mult payload In] in *. destruct He as [<-|[<-|He]]; eauto.
          apply in_map_iff in He. destruct He as (x & <- & Hx). eauto. }
        destruct He' as (x & Hx & ->). specialize (Href x Hx). apply Nat.leb_le in Href.
        pose proof (degree_subst_unknown v r x). lia.
      + assert (E : bmap (subst_unknown v r) i = i).
        { rewrite <- (bmap_id i) at 2. apply bmap_ext_in. intros x Hx. apply subst_unknown_not_mentioned.
          intros H. apply Hnin. apply bus_vars_in. eauto. }
        rewrite E. auto.
  Qed.
  Lemma inline_at_within (Hp : prime (Z.pos p)) c0 st i : inl_ok c0 st -> within c0 (isys (inl_sys st)) ->
    within c0 (isys (inl_sys (inline_at (below_degree_bound b) st i))).
  Proof.
    intros Hok Hw. unfold inline_at. destruct (nth_error _ i) as [e|]; auto.
    destruct (find _ (find_inlinable e)) as [[v r]|] eqn:Ef; auto. apply find_some in Ef. destruct Ef as [Hin Hs].
    apply find_inlinable_in in Hin. destruct Hin as [Hr _]. pose proof (try_solve_for_vars _ _ _ Hr) as [Hv _].
    cbn [inl_sys]. apply within_subst; auto. apply Hok.
  Qed.
  Lemma inline_loop_within (Hp : prime (Z.pos p)) c0 n fuel : forall st st', inl_ok c0 st -> within c0 (isys (inl_sys st)) ->
    inline_loop (below_degree_bound b) fuel n st = Some st' -> within c0 (isys (inl_sys st')).
  Proof.
    assert (G : forall is st, inl_ok c0 st -> within c0 (isys (inl_sys st)) ->
      within c0 (isys (inl_sys (fold_left (inline_at (below_degree_bound b)) is st)))).
    { induction is as [|i is IH]; intros st Hok Hw; cbn [fold_left]; auto. apply IH.
      - now apply inline_at_ok.
      - now apply inline_at_within. }
    induction fuel as [|fuel IH]; intros st st' Hok Hw; cbn [inline_loop]; [discriminate|]. unfold inline_round.
    destruct (Nat.eqb _ _).
    - intros [= <-]. now apply G.
    - intros H. eapply IH; [| |exact H]; [now apply inline_fold_ok|now apply G].
  Qed.
  Lemma inline_degree (Hp : prime (Z.pos p)) (c c' : ics) fuel defs : index_ok c ->
    inline (below_degree_bound b) fuel c = Some (c', defs) ->
    (forall e, In e (algs (isys c')) -> degree e <= db_identities b \/ In e (algs (isys c))) /\
    (forall i, In i (buses (isys c')) -> (forall e, In e (fields i) -> degree e <= db_bus b) \/ In i (buses (isys c))).
  Proof.
    intros Hc. unfold inline. destruct (inline_loop _ _ _ _) as [st|] eqn:E; [|discriminate]. intros [= <- <-].
    apply (inline_loop_within Hp (isys c)) in E.
    - destruct E as [E1 E2]. rewrite Forall_forall in E1, E2. cbn [remove_inlined retain_algs_idx isys algs buses]. split.
      + intros e He. apply filter_idx_incl in He. auto.
      + intros i Hi. destruct (E2 i Hi) as [H|H]; auto. left. now apply Forall_forall.
    - now apply inl_init_ok.
    - cbn [inl_sys]. split; apply Forall_forall; auto.
  Qed.
End DegreeFacts.

Section Statement.
  Context {p : positive}.
  Lemma b_inline (Hp : prime (Z.pos p)) (should_inline : var -> gexp p -> ics p -> bool) (c : csys p) :
    exists c' defs, inline should_inline (S (length (algs c))) (ics_from c) = Some (c', defs) /\
      (forall s, sys_solves s c <-> Forall (fun d => s (fst d) = eval s (snd d)) defs /\ sys_solves s (isys c')) /\
      (forall s, Forall (fun d => s (fst d) = eval s (snd d)) defs ->
         bus_values s (isys c') = bus_values s c /\ derived_values s (isys c') = derived_values s c) /\
      (forall s, sys_solves s (isys c') -> exists s',
         (forall w, ~ In w (map fst defs) -> s' w = s w) /\ sys_solves s' c /\
         bus_values s' c = bus_values s (isys c') /\ derived_values s' c = derived_values s (isys c') /\
         (forall s'', (forall w, ~ In w (map fst defs) -> s'' w = s w) -> sys_solves s'' c -> forall w, s'' w = s' w)) /\
      NoDup (map fst defs) /\ length (algs c) = length (algs (isys c')) + length defs /\
      inline_assert (c', defs) = true /\ index_ok c'.
  Proof.
    destruct (inline_correct Hp should_inline (ics_from c) (ics_from_ok c)) as (c' & defs & E & H1 & (H2 & H3 & H4) & H5 & H6 & H7 & H8 & H9).
    exists c', defs. split; [exact E|]. split; [exact H2|]. split; [exact H3|]. split.
    - intros s Hs. destruct (H4 s Hs) as (s' & G1 & G2 & G3 & G4). exists s'. repeat (split; [assumption|]).
      intros s'' K1 K2. apply H5; try (now apply H2). intros w Hw. rewrite K1, G1; auto.
    - auto.
  Qed.
End Statement.
