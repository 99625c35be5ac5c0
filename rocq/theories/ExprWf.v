(** Representation invariant, variables, degree, factors and range constraints of
    grouped expressions. *)
From Coq Require Import NArith ZArith Bool List Lia Ring Znumtheory Sorted.
From Coq Require Import ZifyBool ZifyN ZifyNat.
From Verif Require Import Field RangeModel RangeFacts ExprModel ExprFacts.
Import ListNotations.
Local Open Scope F_scope.

Section ExprWf.
  Context {p : positive}.
  Local Notation gexp := (gexp p).
  Add Ring Fring : (F_ring_theory (p:=p)).
  Implicit Types (e : gexp) (s : var -> F p) (q : list (gexp * gexp)) (l : list (var * F p)) (c k : F p).

  (** ** Representation invariant (doc comment of the struct, 23-47): keys strictly
      increasing, no zero coefficient, factors of products contain an unknown. *)
  Definition vlt (a b : var) : Prop := vltb a b = true.
  Definition lin_ok l : Prop :=
    StronglySorted vlt (map fst l) /\ Forall (fun wk => snd wk <> 0) l.
  Fixpoint wf (e : gexp) : Prop :=
    match e with
    | GE q l c =>
      lin_ok l /\
      fold_right (fun ab acc => (wf (fst ab) /\ wf (snd ab) /\
                   try_to_known (fst ab) = None /\ try_to_known (snd ab) = None) /\ acc) True q
    end.
  Definition quad_ok q : Prop :=
    Forall (fun ab => wf (fst ab) /\ wf (snd ab) /\
              try_to_known (fst ab) = None /\ try_to_known (snd ab) = None) q.
  Lemma wf_GE q l c : wf (GE q l c) <-> lin_ok l /\ quad_ok q.
  Proof.
    cbn [wf]. unfold quad_ok. split; intros [H1 H2]; split; auto.
    - induction q as [|ab q IH]; constructor; cbn [fold_right] in H2; tauto.
    - induction H2; cbn [fold_right]; auto.
  Qed.

  Lemma wf_from_number k : wf (from_number k).
  Proof. apply wf_GE. repeat split; constructor. Qed.
  Lemma wf_gzero : wf gzero.
  Proof. apply wf_GE. repeat split; constructor. Qed.
  Lemma wf_from_var v : prime (Z.pos p) -> wf (from_var v).
  Proof.
    intros Hp. apply wf_GE. repeat split; constructor; try constructor. now apply one_neq_zero.
  Qed.

  Lemma try_to_known_gneg e : try_to_known e = None -> try_to_known (gneg e) = None.
  Proof. destruct e as [[|[a b] q] [|[v k] l] c]; cbn; congruence. Qed.
  Lemma try_to_known_gscale_nz k e : try_to_known e = None -> try_to_known (gscale_nz k e) = None.
  Proof. destruct e as [[|[a b] q] [|[v k'] l] c]; cbn; congruence. Qed.

  Lemma wf_gneg e : wf e -> wf (gneg e).
  Proof.
    induction e as [q l c IH] using gexp_ind'. cbn [gneg]. rewrite !wf_GE. intros [[Hs Hn] Hq]. split; [split|].
    - rewrite map_map. cbn [fst]. exact Hs.
    - apply Forall_map. cbn [snd]. eapply Forall_impl; [|exact Hn]. intros [v k] H. cbn in *.
      now rewrite opp_eq_zero.
    - unfold quad_ok in *. apply Forall_map. cbn [fst snd]. rewrite Forall_forall in *. intros ab Hin.
      specialize (IH ab Hin). specialize (Hq ab Hin). intuition auto using try_to_known_gneg.
  Qed.

  Lemma remove_first_forall {A} (Q : A -> Prop) f (t t' : list A) :
    remove_first f t = Some t' -> Forall Q t -> Forall Q t'.
  Proof.
    revert t'. induction t as [|x t IH]; cbn [remove_first]; [discriminate|]. intros t' H HQ.
    inversion_clear HQ. destruct (f x); [injection H as <-; auto|].
    destruct (remove_first f t) as [t''|]; [|discriminate]. injection H as <-. constructor; auto.
  Qed.
  Lemma combine_removing_zeros_forall (Q : gexp * gexp -> Prop) q1 q2 :
    Forall Q q1 -> Forall Q q2 -> Forall Q (combine_removing_zeros q1 q2).
  Proof.
    unfold combine_removing_zeros. destruct (Nat.ltb _ _); intros H1 H2.
    - apply Forall_app. auto.
    - revert q2 H2. induction H1 as [|f t Hf Ht IH]; intros q2 H2; cbn [combine_go]; auto.
      destruct (remove_first _ q2) eqn:E; [apply IH; eauto using remove_first_forall|].
      constructor; auto.
  Qed.
  Lemma rqz_forall (Q : gexp * gexp -> Prop) q :
    Forall Q q -> Forall Q (remove_quadratic_terms_adding_to_zero q).
  Proof.
    unfold remove_quadratic_terms_adding_to_zero. destruct (Nat.ltb _ _); auto.
    generalize (length q) as n. intros n. revert q. induction n as [|n IH]; intros [|f q] H; cbn [rqz_go]; auto.
    inversion_clear H. destruct (remove_first _ q) eqn:E; [apply IH; eauto using remove_first_forall|].
    constructor; auto.
  Qed.

  Lemma ladd_in v c l w : In w (map fst (ladd v c l)) -> w = v \/ In w (map fst l).
  Proof.
    induction l as [|[u k] l IH]; cbn [ladd map fst In]; [intros [<-|[]]; auto|].
    destruct (veqb_spec v u) as [->|Hne]; cbn [map fst In]; [auto|].
    destruct (vltb v u); cbn [map fst In]; intuition auto.
  Qed.
  Lemma ladd_sorted v c l : StronglySorted vlt (map fst l) -> StronglySorted vlt (map fst (ladd v c l)).
  Proof.
    induction l as [|[u k] l IH]; cbn [ladd map fst]; intros H.
    - repeat constructor.
    - inversion_clear H as [|? ? Hs Hf]. destruct (veqb_spec v u) as [->|Hne]; cbn [map fst].
      + constructor; auto.
      + destruct (vltb v u) eqn:E; cbn [map fst].
        * constructor; [constructor; auto|]. constructor; auto.
          eapply Forall_impl; [|exact Hf]. intros w Hw. unfold vlt in *. eauto using vltb_trans.
        * constructor; auto. apply Forall_forall. intros w Hw. apply ladd_in in Hw.
          destruct Hw as [->|Hw]; [|rewrite Forall_forall in Hf; auto].
          apply vltb_total; auto. now apply veqb_neq.
  Qed.
  Lemma fold_ladd_sorted l2 : forall l1, StronglySorted vlt (map fst l1) ->
    StronglySorted vlt (map fst (fold_left (fun l vc => ladd (fst vc) (snd vc) l) l2 l1)).
  Proof. induction l2 as [|vc l2 IH]; intros l1 H; cbn [fold_left]; auto. apply IH. now apply ladd_sorted. Qed.
  Lemma filter_sorted (f : var * F p -> bool) l :
    StronglySorted vlt (map fst l) -> StronglySorted vlt (map fst (filter f l)).
  Proof.
    induction l as [|a l IH]; cbn [filter map]; auto. intros H. inversion_clear H as [|? ? Hs Hf].
    destruct (f a); cbn [map]; auto. constructor; auto.
    apply Forall_forall. intros w Hw. apply in_map_iff in Hw. destruct Hw as (x & <- & Hx).
    apply filter_In in Hx. rewrite Forall_forall in Hf. apply Hf. apply in_map. tauto.
  Qed.
  Lemma lretain_nonzero_nz l : Forall (fun wk => snd wk <> 0) (lretain_nonzero l).
  Proof.
    apply Forall_forall. intros x Hx. apply filter_In in Hx. destruct Hx as [_ Hx].
    apply negb_true_iff in Hx. now apply is_zero_neq.
  Qed.

  Lemma wf_gadd a b : wf a -> wf b -> wf (gadd a b).
  Proof.
    destruct a as [q1 l1 c1], b as [q2 l2 c2]. unfold gadd. cbn [quad lin cst]. rewrite !wf_GE.
    intros [[Hs1 Hn1] Hq1] [[Hs2 Hn2] Hq2]. split; [split|].
    - apply filter_sorted. now apply fold_ladd_sorted.
    - apply lretain_nonzero_nz.
    - now apply combine_removing_zeros_forall.
  Qed.
  Lemma wf_gsub a b : wf a -> wf b -> wf (gsub a b).
  Proof. intros. apply wf_gadd; auto using wf_gneg. Qed.

  Lemma wf_gscale_nz k e : prime (Z.pos p) -> k <> 0 -> wf e -> wf (gscale_nz k e).
  Proof.
    intros Hp Hk. induction e as [q l c IH] using gexp_ind'. cbn [gscale_nz]. rewrite !wf_GE. intros [[Hs Hn] Hq]. split; [split|].
    - rewrite map_map. cbn [fst]. exact Hs.
    - apply Forall_map. cbn [snd]. eapply Forall_impl; [|exact Hn]. intros [v k'] H. cbn in *.
      rewrite mul_eq_zero_iff by auto. tauto.
    - unfold quad_ok in *. apply Forall_map. cbn [fst snd]. rewrite Forall_forall in *. intros ab Hin.
      specialize (IH ab Hin). specialize (Hq ab Hin). intuition auto using try_to_known_gscale_nz.
  Qed.
  Lemma wf_gscale k e : prime (Z.pos p) -> wf e -> wf (gscale e k).
  Proof.
    intros Hp H. unfold gscale. destruct (is_zero k) eqn:E; [apply wf_gzero|].
    apply is_zero_neq in E. now apply wf_gscale_nz.
  Qed.
  Lemma wf_gmul a b : prime (Z.pos p) -> wf a -> wf b -> wf (gmul a b).
  Proof.
    intros Hp Ha Hb. unfold gmul. destruct (try_to_known b) eqn:Eb; [now apply wf_gscale|].
    destruct (try_to_known a) eqn:Ea; [now apply wf_gscale|].
    apply wf_GE. split; [repeat split; constructor|]. constructor; [|constructor]. cbn. auto.
  Qed.
  Lemma wf_gsum (es : list gexp) : Forall wf es -> wf (gsum es).
  Proof.
    unfold gsum. assert (G : forall a, wf a -> Forall wf es -> wf (fold_left gadd es a)).
    { induction es as [|e es IH]; intros a Ha H; cbn [fold_left]; auto. inversion_clear H.
      apply IH; auto. now apply wf_gadd. }
    apply G. apply wf_gzero.
  Qed.

  Lemma absorb_wf q : prime (Z.pos p) -> forall acc,
    Forall (fun ab => wf (fst ab) /\ wf (snd ab)) q ->
    quad_ok (fst acc) -> wf (snd acc) ->
    quad_ok (fst (fold_left absorb q acc)) /\ wf (snd (fold_left absorb q acc)).
  Proof.
    intros Hp. induction q as [|[a b] q IH]; intros [kept ta] HF H1 H2; cbn [fold_left]; auto.
    inversion_clear HF as [|? ? [Ha Hb] HF']. cbn [fst snd] in *.
    apply IH; auto; unfold absorb; cbn [fst snd];
    destruct (try_to_known a) as [k1|] eqn:Ea, (try_to_known b) as [k2|] eqn:Eb; cbn [fst snd]; auto;
      try (apply wf_gadd; auto; try apply wf_from_number; now apply wf_gscale).
    apply Forall_app; split; auto; constructor; cbn; auto.
  Qed.
  Lemma lremove_ok v l : lin_ok l -> lin_ok (lremove v l).
  Proof.
    intros [Hs Hn]. split; [now apply filter_sorted|]. rewrite Forall_forall in *.
    intros x Hx. apply filter_In in Hx. apply Hn. tauto.
  Qed.
  Lemma wf_subst_known v k e : prime (Z.pos p) -> wf e -> wf (subst_known v k e).
  Proof.
    intros Hp. induction e as [q l c IH] using gexp_ind'. rewrite wf_GE. intros [Hl Hq]. cbn [subst_known].
    set (q1 := map _ q).
    assert (Hq1 : Forall (fun ab => wf (fst ab) /\ wf (snd ab)) q1).
    { apply Forall_map. cbn [fst snd]. unfold quad_ok in Hq. rewrite Forall_forall in *. intros ab Hin.
      specialize (IH ab Hin). specialize (Hq ab Hin). tauto. }
    set (lc := if lcontains v l then _ else _).
    assert (Hlc : lin_ok (fst lc)).
    { unfold lc. destruct (lcontains v l); cbn [fst]; [now apply lremove_ok|].
      destruct Hl. split; [now apply filter_sorted|apply lretain_nonzero_nz]. }
    destruct lc as [l' c']. cbn [fst] in Hlc.
    pose proof (absorb_wf q1 Hp ([], gzero) Hq1 ltac:(constructor) wf_gzero) as [HA HB].
    unfold absorb_known. destruct (fold_left absorb q1 ([], gzero)) as [q' ta]. cbn [fst snd] in *.
    assert (HS : wf (GE (remove_quadratic_terms_adding_to_zero q') l' c')).
    { apply wf_GE. split; auto. now apply rqz_forall. }
    destruct (gis_zero ta); auto. now apply wf_gadd.
  Qed.
  Lemma wf_subst_unknown v e0 e : prime (Z.pos p) -> wf e0 -> wf e -> wf (subst_unknown v e0 e).
  Proof.
    intros Hp H0. induction e as [q l c IH] using gexp_ind'. intros Hwf. cbn [subst_unknown].
    destruct (mentions v _); cbn [negb]; auto. apply wf_GE in Hwf. destruct Hwf as [Hl Hq].
    set (q1 := map _ q).
    assert (Hq1 : Forall (fun ab => wf (fst ab) /\ wf (snd ab)) q1).
    { apply Forall_map. cbn [fst snd]. unfold quad_ok in Hq. rewrite Forall_forall in *. intros ab Hin.
      specialize (IH ab Hin). specialize (Hq ab Hin). tauto. }
    set (ta0 := fold_left _ l gzero).
    assert (Ht : wf ta0).
    { unfold ta0. assert (G : forall a, wf a -> wf (fold_left (fun acc wk => if veqb v (fst wk) then gadd acc (gscale e0 (snd wk)) else acc) l a)).
      { clear - Hp H0. induction l as [|[w k] l IH]; intros a Ha; cbn [fold_left]; auto.
        apply IH. destruct (veqb v _); auto. apply wf_gadd; auto. now apply wf_gscale. }
      apply G. apply wf_gzero. }
    pose proof (absorb_wf q1 Hp ([], ta0) Hq1 ltac:(constructor) Ht) as [HA HB].
    destruct (fold_left absorb q1 ([], ta0)) as [q' ta]. cbn [fst snd] in *.
    apply wf_gadd; auto. apply wf_GE. split; [now apply lremove_ok|]. now apply rqz_forall.
  Qed.

  (** Keys of a well-formed linear part are unique. *)
  Lemma lget_in v l k : lget v l = Some k -> In (v, k) l.
  Proof.
    induction l as [|[w k'] l IH]; cbn [lget]; [discriminate|]. destruct (veqb_spec v w) as [->|].
    - intros [= ->]. now left.
    - intros. right. auto.
  Qed.
  Lemma lget_none v l : lget v l = None <-> ~ In v (map fst l).
  Proof.
    induction l as [|[w k'] l IH]; cbn [lget map fst In]; [tauto|].
    destruct (veqb_spec v w) as [->|]; [intuition congruence|]. rewrite IH. intuition congruence.
  Qed.
  Lemma lget_some_in v l k : lin_ok l -> In (v, k) l -> lget v l = Some k.
  Proof.
    intros [Hs _]. induction l as [|[w k'] l IH]; cbn [lget In]; [tauto|].
    cbn [map fst] in Hs. inversion_clear Hs as [|? ? Hs' Hf]. intros [E|Hin].
    - injection E as -> ->. now rewrite veqb_refl.
    - destruct (veqb_spec v w) as [->|]; auto. exfalso. rewrite Forall_forall in Hf.
      specialize (Hf w). unfold vlt in Hf. rewrite vltb_irrefl in Hf.
      discriminate Hf. apply (in_map fst) in Hin. exact Hin.
  Qed.
  Lemma wf_lget_nonzero e v k : wf e -> lget v (lin e) = Some k -> k <> 0.
  Proof.
    destruct e as [q l c]. rewrite wf_GE. intros [[_ Hn] _] H. apply lget_in in H.
    rewrite Forall_forall in Hn. apply (Hn (v, k) H).
  Qed.
End ExprWf.
