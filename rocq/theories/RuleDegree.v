(** The rule-based optimizer respects the degree bound. *)
From Coq Require Import Arith NArith ZArith Bool List Lia Ring Znumtheory Permutation Sorted.
From Verif Require Import Field RangeModel RangeFacts ExprModel ExprFacts ExprWf ExprMore SolveModel SystemModel Spec Bridge BusModel BusFacts IndexFacts InlinerModel InlinerFacts PassModel RuleModel RuleSpec RuleFacts RuleReplace RuleDrive RuleBack.
Import ListNotations.
Local Open Scope nat_scope.

Section Degrees.
  Context {p : positive}.
  Local Notation gexp := (gexp p).
  Lemma degree_quad (e : gexp) ab : In ab (quad e) -> degree (fst ab) + degree (snd ab) <= degree e.
  Proof. destruct e as [q l c]. cbn [quad]. intros I. rewrite degree_GE. assert (H : dq q <= dq q) by lia. apply dq_le in H. rewrite Forall_forall in H. specialize (H ab I). lia. Qed.
  Lemma degree_subst_known v k (e : gexp) : degree (subst_known v k e) <= degree e.
  Proof.
    induction e as [q l c IH] using gexp_ind'. cbn [subst_known]. set (D := degree (GE q l c)).
    destruct (if lcontains v l then _ else _) as [l' c'] eqn:El.
    assert (Hl : dl l' <= D).
    { assert (dl l <= D) by (unfold D; rewrite degree_GE; lia).
      assert (G : forall x, In x l' -> In x l). { destruct (lcontains v l); injection El as <- _; unfold lremove, lretain_nonzero; intros x I; now apply filter_In in I. }
      destruct l' as [|x l']; cbn [dl]; [lia|]. destruct l as [|y l]; [destruct (G x); now left|]. cbn [dl] in *. lia. }
    unfold absorb_known. destruct (fold_left absorb (map _ q) ([], gzero)) as [q' ta] eqn:Ef.
    assert (HA : dq q' <= D /\ degree ta <= D).
    { pose proof (absorb_degree D (map (fun ab => (subst_known v k (fst ab), subst_known v k (snd ab))) q) ([], gzero)) as G.
      rewrite Ef in G. cbn [fst snd] in G. apply G; [|cbn; lia|cbn; lia].
      apply Forall_map. apply Forall_forall. intros ab Hab. cbn [fst snd].
      rewrite Forall_forall in IH. destruct (IH ab Hab) as [Ha Hb]. pose proof (degree_quad (GE q l c) ab Hab) as Hd. fold D in Hd. lia. }
    destruct HA as [HA1 HA2].
    assert (H1 : dq (remove_quadratic_terms_adding_to_zero q') <= D).
    { apply dq_le. apply rqz_forall. now apply dq_le. }
    assert (H2 : degree (GE (remove_quadratic_terms_adding_to_zero q') l' c') <= D) by (rewrite degree_GE; lia).
    destruct (gis_zero ta); auto. pose proof (degree_gadd (GE (remove_quadratic_terms_adding_to_zero q') l' c') ta). lia.
  Qed.
  Lemma vd_one v (e : gexp) : virtual_degree v 1 e = degree e.
  Proof.
    induction e as [q l c IH] using gexp_ind'. rewrite vd_GE, degree_GE. f_equal.
    - induction q as [|ab q IHq]; cbn [fold_right dq]; auto. inversion_clear IH as [|? ? [Ha Hb] IH']. rewrite Ha, Hb. fold (dq q). now rewrite IHq.
    - destruct l as [|x l]; cbn [fold_right dl]; auto. assert (G : fold_right (fun (wk : var * F p) acc => Nat.max (if veqb (fst wk) v then 1 else 1) acc) 0 l <= 1); [|destruct (veqb (fst x) v); lia].
      induction l as [|y l IHl]; cbn [fold_right]; [lia|]. destruct (veqb (fst y) v); lia.
  Qed.
  Lemma degree_subst_var (Hp : prime (Z.pos p)) v w (e : gexp) : degree (subst_unknown v (from_var w) e) <= degree e.
  Proof. pose proof (degree_subst_unknown v (from_var w) e) as H. replace (degree (from_var (p:=p) w)) with 1 in H by reflexivity. now rewrite vd_one in H. Qed.

  Lemma product_degree E (e l r : gexp) : product E e l r -> degree l + degree r <= degree e.
  Proof. intros H. apply product_eq in H. destruct H as [-> | ->]; rewrite degree_GE; cbn; lia. Qed.
  Lemma max_degree_le (l : list gexp) n : max_degree l <= n <-> forall e, In e l -> degree e <= n.
  Proof. unfold max_degree. induction l as [|x l IH]; cbn [map fold_right In]; [split; [intros _ e []|lia]|]. split. - intros H e [<-|I]; [lia|]. apply IH; auto. lia. - intros H. apply Nat.max_lub; [auto|]. apply IH. auto. Qed.
End Degrees.

Section RunDegree.
  Context {p : positive} (Hp : prime (Z.pos p)).
  Local Notation gexp := (gexp p).
  Variable handler : busi (rc p) -> busi (rc p).
  Variable g : var -> rc p.
  Variable fresh : nat -> var.
  Variable bound : option nat.
  Variables (k kb : nat).
  Hypothesis Hbound : forall n, bound = Some n -> n <= k.
  Definition degrees_le (c : csys p) : Prop := (forall e, In e (algs c) -> degree e <= k) /\ (forall b e, In b (buses c) -> In e (fields b) -> degree e <= kb).
  Lemma map_degrees f c : (forall e : gexp, degree (f e) <= degree e) -> degrees_le c -> degrees_le (sys_map f c).
  Proof.
    intros Hf [A B]. split.
    - intros e I. unfold sys_map in I. cbn [algs] in I. apply in_map_iff in I. destruct I as (x & <- & I). specialize (Hf x). apply A in I. lia.
    - intros b e Ib Ie. unfold sys_map in Ib. cbn [buses] in Ib. apply in_map_iff in Ib. destruct Ib as (b0 & <- & Ib). rewrite fields_bmap in Ie. apply in_map_iff in Ie. destruct Ie as (x & <- & Ie). specialize (Hf x). apply (B b0) in Ie; auto. lia.
  Qed.
  Lemma action_degrees a (d : dstate) : degrees_le (d_sys d) -> degrees_le (d_sys (apply_action d a)).
  Proof.
    intros H.
    assert (K : forall v x, degrees_le (d_sys (set_const v x d))). { intros v x. change (d_sys (set_const v x d)) with (sys_map (subst_known v x) (d_sys d)). apply map_degrees; auto. apply degree_subst_known. }
    destruct a as [v r|v x|v w]; cbn [apply_action]; auto.
    - destruct (rc_eqb _ _); auto. destruct (try_to_single_value _); auto.
    - change (degrees_le (sys_map (subst_unknown v (from_var w)) (d_sys d))). apply map_degrees; auto. apply (degree_subst_var Hp).
  Qed.
  Lemma round_degrees d d' : degrees_le (d_sys d) -> round handler g fresh bound d d' -> degrees_le (d_sys d').
  Proof.
    intros H (elt & vlt & acts & reps & xs & rs & d1 & _ & _ & Hi & _ & ->). cbn [d_sys].
    assert (H1 : degrees_le (d_sys (fold_left apply_action acts d))). { clear Hi. revert d H. induction acts as [|a acts IH]; cbn [fold_left]; auto. intros d H. apply IH. now apply action_degrees. }
    destruct (inst_rest _ _ _ _ _ Hi) as (Ra & Rb & _). destruct H1 as [A B]. rewrite <- Ra in A. rewrite <- Rb in B. clear H Hi Ra Rb.
    split; [|destruct (batch_rest bound (d_sys d1) rs) as [-> _]; exact B].
    unfold batch_replace. set (l := map _ (filter _ rs)). destruct (select_chosen (d_sys d1) l) as (ch & Ic & _ & Sf & Ss & Sa).
    destruct (select (d_sys d1) l) as [removed added]. cbn [fst snd] in *.
    assert (G : forall e, In e (filter (fun e => negb (member e removed)) (algs (d_sys d1)) ++ added) -> degree e <= k).
    { intros e I. apply in_app_iff in I. destruct I as [I|I]; [apply filter_In in I; now apply A|]. rewrite Ss in I. apply in_flat_map in I. destruct I as (r & Ir & Ie).
      pose proof (Ic r Ir) as Il. unfold l in Il. apply in_map_iff in Il. destruct Il as (r0 & <- & Ir0). apply filter_In in Ir0. destruct Ir0 as [_ W]. cbn [fst snd] in *. unfold within_bound in W.
      destruct bound as [n|].
      - apply Nat.leb_le in W. pose proof (proj1 (max_degree_le _ _) W e Ie). specialize (Hbound n eq_refl). lia.
      - apply negb_true_iff, Nat.ltb_ge in W. assert (M : max_degree (fst r0) <= k). { apply max_degree_le. intros x Ix. destruct (unique_has _ [] x Ix) as [[]|Ux]. apply A. now apply (Sa _ x Ir). }
        apply (proj1 (max_degree_le (snd r0) k)); auto. lia. }
    destruct removed; [exact A|exact G].
  Qed.
  Lemma rounds_degrees d d' : rounds handler g fresh bound d d' -> degrees_le (d_sys d) -> degrees_le (d_sys d').
  Proof. induction 1 as [|d d' d'' R _ IH]; auto. intros H. apply IH. now apply (round_degrees d). Qed.
  Theorem rule_based_degree c c' next next' asg : rule_based handler g fresh bound c next c' asg next' -> degrees_le c -> degrees_le c'.
  Proof. intros (d & R & _ & _ & ->) H. apply rounds_degrees in R; auto. destruct R as [A B]. split; auto. cbn [algs]. intros e I. apply filter_In in I. now apply A. Qed.
End RunDegree.

Section NoZero.
  Context {p : positive} (Hp : prime (Z.pos p)).
  (** The zero test needs a constraint of degree three. *)
  Lemma zero_degree (E : renv p) cs res a m ls ds rs : Forall wf (r_algs E) -> (forall e r, In (e, r) (r_init E) -> wf e) -> (4 < N.pos p)%N -> zero_check E cs res a m ls ds rs -> exists e, In e (r_algs E) /\ 3 <= degree e.
  Proof.
    intros Hwa Hwi Hp4 (c0 & c1 & c2 & c3 & c4 & c5 & c6 & c7 & c8 & c9 & m0 & m1 & m2 & m3 & a0 & a1 & a2 & a3 & l0 & l1 & l2 & om & l4 & diff & d0 & d1 & d2 & d3 & e0 & e1 & e2 & e3 & r0 & r1 & r2 & r3 & sum &
      _ & _ & _ & _ & _ & _ & N0 & _). inversion N0 as [? ? ? r y v ? PC AF (z & PR & AZ) LI|]; subst. destruct PC as [IA PC]. exists c0. split; auto.
    apply product_degree in PC, PR. apply (affine_eq Hp E Hwa Hwi) in AF, AZ, LI. destruct AF as [-> _], AZ as [-> _], LI as [-> _]. rewrite !degree_GE in *. cbn [dq dl fold_right Nat.max] in *. lia.
  Qed.
  Theorem run_quadratic (handler : busi (rc p) -> busi (rc p)) (g : var -> rc p) (fresh : nat -> var) (bound : option nat) (sem : busi (F p) -> Prop) (c c' : csys p) next next' asg (s : var -> F p) :
    handler_sound sem handler -> (4 < N.pos p)%N -> (2 * N.pos p <= 2 ^ 64)%N -> (forall i j, fresh i = fresh j -> i = j) -> (forall k x, next <= k -> rc_allows (g (fresh k)) x) ->
    (forall k, next <= k -> ~ In (fresh k) (sys_vars c) /\ forall x m, In (x, m) (derived c) -> ~ In (fresh k) (cm_vars m)) ->
    Forall wf (algs c) -> (forall b e, In b (buses c) -> In e (fields b) -> wf e) ->
    (N.of_nat (length (dedup (sys_vars c)) + (next' - next)) <= N.pos p)%N -> (forall n, bound = Some n -> n <= 2) -> (forall e, In e (algs c) -> degree e <= 2) ->
    rule_based handler g fresh bound c next c' asg next' ->
    sys_solves s c -> Forall sem (bus_values s c) -> (forall v, In v (sys_vars c) -> rc_allows (g v) (s v)) ->
    exists s', agree_below fresh next s s' /\ sys_solves s' c' /\ bus_values s' c' = bus_values s c /\ (forall v e, In (v, e) asg -> s' v = eval s' e) /\
      exists extra, derived_values s' c' = derived_values s c ++ extra /\ map fst extra = map fresh (seq next (next' - next)) /\ Forall (fun vx => s' (fst vx) = snd vx) extra.
  Proof.
    intros Hh H4 Hw Hf Hg Hn Ha Hb Hc H2 Hd R Hs Hsem Hr.
    apply (rule_based_forward Hp handler g fresh bound sem c c' next next' asg s); auto.
    intros d s1 Rd _ _ _ Wa Wb elt vlt cs res a m ls ds rs Z. exfalso.
    apply zero_degree in Z; auto; cbn [r_algs r_init env_of] in *.
    - destruct Z as (e & I & L). destruct (rounds_degrees Hp handler g fresh bound 2 (fold_right Nat.max 0 (map (fun b => max_degree (fields b)) (buses c))) H2 _ _ Rd) as [A _].
      + split; [exact Hd|]. cbn [d_sys initial_state]. intros b x Ib Ix. assert (G : degree x <= max_degree (fields b)) by (apply (max_degree_le (fields b)); auto).
        clear - Ib G. induction (buses c) as [|b0 l IH]; [destruct Ib|]. cbn [map fold_right]. destruct Ib as [->|Ib]; [lia|]. specialize (IH Ib). lia.
      + apply A in I. lia.
    - intros e r Ie. apply bus_ranges_src in Ie. destruct Ie as (b & Ib & Ie). now apply (Wb b).
  Qed.
End NoZero.
