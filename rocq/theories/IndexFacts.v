(** Facts about the occurrence index and the work queue ([SystemModel]). *)
From Coq Require Import NArith ZArith Bool List Lia Sorted.
From Coq Require Import ZifyBool ZifyN ZifyNat.
From Verif Require Import Field RangeModel RangeFacts ExprModel ExprFacts ExprWf ExprMore SystemModel.
Import ListNotations.
Local Open Scope nat_scope.

Lemma NoDup_app_intro {A} (l1 l2 : list A) : NoDup l1 -> NoDup l2 -> (forall x, In x l1 -> In x l2 -> False) -> NoDup (l1 ++ l2).
Proof.
  induction l1 as [|a l1 IH]; cbn; intros H1 H2 H; auto. inversion_clear H1. constructor.
  - rewrite in_app_iff. intros [Hx|Hx]; [auto|]. eapply H; eauto.
  - apply IH; auto. intros x Ha Hb. eapply H; eauto.
Qed.
Lemma ieqb_eq x y : ieqb x y = true <-> x = y.
Proof.
  unfold ieqb. rewrite andb_true_iff, !Nat.eqb_eq. destruct x, y; cbn; split; try intros [? ?]; try congruence;
    intros [= <-]; auto.
Qed.
Lemma ieqb_spec x y : reflect (x = y) (ieqb x y).
Proof. apply iff_reflect. symmetry. apply ieqb_eq. Qed.
Lemma iinsert_in x l y : In y (iinsert x l) <-> y = x \/ In y l.
Proof.
  induction l as [|z l IH]; cbn [iinsert In]; [intuition auto|].
  destruct (ieqb_spec x z) as [->|]; cbn [In]; [intuition auto|].
  destruct (iltb x z); cbn [In]; [intuition auto|]. rewrite IH. intuition auto.
Qed.
Lemma iinsert_all_in xs : forall l y, In y (iinsert_all xs l) <-> In y xs \/ In y l.
Proof.
  induction xs as [|x xs IH]; intros l y; cbn [iinsert_all fold_left In]; [tauto|].
  fold (iinsert_all xs (iinsert x l)). rewrite IH, iinsert_in. intuition auto.
Qed.

Lemma occ_items_extend v w xs m y :
  In y (occ_items v (occ_extend w xs m)) <-> (v = w /\ In y xs) \/ In y (occ_items v m).
Proof.
  unfold occ_items. induction m as [|[u l] m IH]; cbn [occ_extend occ_get].
  - destruct (veqb_spec v w) as [->|]; [rewrite iinsert_all_in|]; cbn [In]; intuition auto.
  - destruct (veqb_spec w u) as [->|]; cbn [occ_get].
    + destruct (veqb_spec v u) as [->|]; [rewrite iinsert_all_in|]; intuition auto.
    + destruct (veqb_spec v u) as [->|]; [|exact IH]. intuition congruence.
Qed.
Lemma occ_extend_keys v xs m w : In w (map fst (occ_extend v xs m)) <-> w = v \/ In w (map fst m).
Proof.
  induction m as [|[u l] m IH]; cbn [occ_extend map fst In]; [intuition auto|].
  destruct (veqb_spec v u) as [->|]; cbn [map fst In]; [intuition auto|]. rewrite IH. intuition auto.
Qed.
Lemma occ_extend_nodup v xs m : NoDup (map fst m) -> NoDup (map fst (occ_extend v xs m)).
Proof.
  induction m as [|[u l] m IH]; cbn [occ_extend map fst]; intros H.
  - constructor; [intros []|constructor].
  - inversion_clear H. destruct (veqb_spec v u) as [->|]; cbn [map fst]; constructor; auto.
    rewrite occ_extend_keys. intuition auto.
Qed.
Lemma fold_occ_extend_in v (L : list (var * list item)) : forall m y,
  In y (occ_items v (fold_left (fun m vl => occ_extend (fst vl) (snd vl) m) L m)) <->
  (exists l, In (v, l) L /\ In y l) \/ In y (occ_items v m).
Proof.
  induction L as [|[w l] L IH]; intros m y; cbn [fold_left In].
  - split; [tauto|]. intros [(l & [] & _)|H]; auto.
  - rewrite IH, occ_items_extend. cbn [fst snd]. split.
    + intros [(l' & H1 & H2)|[[-> H]|H]]; eauto 6.
    + intros [(l' & [[= -> ->]|H1] & H2)|H]; eauto 6.
Qed.
Lemma fold_occ_extend_nodup (L : list (var * list item)) : forall m,
  NoDup (map fst m) -> NoDup (map fst (fold_left (fun m vl => occ_extend (fst vl) (snd vl) m) L m)).
Proof. induction L as [|[w l] L IH]; intros m H; cbn [fold_left]; auto. apply IH. now apply occ_extend_nodup. Qed.
Lemma occ_get_in v m l : NoDup (map fst m) -> (occ_get v m = Some l <-> In (v, l) m).
Proof.
  induction m as [|[u l'] m IH]; cbn [occ_get map fst In]; intros H; [split; [discriminate|tauto]|].
  inversion_clear H. destruct (veqb_spec v u) as [->|].
  - split; [intros [= ->]; auto|]. intros [[= ->]|Hin]; auto. exfalso. apply H0. now apply (in_map fst) in Hin.
  - rewrite IH by auto. split; auto. intros [[= <- _]|]; congruence.
Qed.
Lemma occ_items_in v m y : NoDup (map fst m) -> (In y (occ_items v m) <-> exists l, In (v, l) m /\ In y l).
Proof.
  intros Hn. unfold occ_items. destruct (occ_get v m) as [l|] eqn:E.
  - apply occ_get_in in E; auto. split; eauto. intros (l' & H1 & H2). apply occ_get_in in E, H1; auto. congruence.
  - split; [intros []|]. intros (l' & H1 & H2). apply occ_get_in in H1; auto. congruence.
Qed.

Lemma enumerate_in {A} (l : list A) i x : In (i, x) (enumerate l) <-> nth_error l i = Some x.
Proof.
  unfold enumerate. assert (G : forall k, In (i, x) (combine (seq k (length l)) l) <-> (k <= i)%nat /\ nth_error l (i - k) = Some x).
  { revert i. induction l as [|a l IH]; intros i k; cbn [length seq combine In].
    - split; [intros []|]. intros [_ H]. destruct (i - k)%nat; discriminate.
    - rewrite IH. split.
      + intros [[= -> ->]|[H1 H2]]; [rewrite Nat.sub_diag; auto|].
        replace (i - k)%nat with (S (i - S k)) by lia. split; [lia|auto].
      + intros [H1 H2]. destruct (Nat.eq_dec i k) as [->|]; [rewrite Nat.sub_diag in H2; injection H2 as ->; auto|].
        right. replace (i - k)%nat with (S (i - S k)) in H2 by lia. split; [lia|auto]. }
  rewrite G, Nat.sub_0_r. intuition lia.
Qed.

Section IndexFacts.
  Context {p : positive}.
  Local Notation gexp := (gexp p).
  Local Notation csys := (csys p).
  Local Notation ics := (ics p).
  Local Notation bus := (busi gexp).

  (** The constraint (or derived variable) with item [x] mentions [v]. *)
  Definition item_mentions (c : csys) (v : var) (x : item) : Prop :=
    match x with
    | IAlg i => exists e, nth_error (algs c) i = Some e /\ In v (vars e)
    | IBus i => exists b, nth_error (buses c) i = Some b /\ In v (bus_vars b)
    | IDer i => exists d, nth_error (derived c) i = Some d /\ In v (cm_vars (snd d))
    end.
  Definition item_valid (c : csys) (x : item) : Prop :=
    match x with
    | IAlg i => (i < length (algs c))%nat
    | IBus i => (i < length (buses c))%nat
    | IDer i => (i < length (derived c))%nat
    end.
  Lemma item_mentions_valid c v x : item_mentions c v x -> item_valid c x.
  Proof. destruct x; cbn; intros (y & H & _); apply nth_error_Some; congruence. Qed.

  Lemma bus_vars_in v (b : bus) : In v (bus_vars b) <-> exists x, In x (fields b) /\ In v (vars x).
  Proof. unfold bus_vars. apply in_flat_map. Qed.

  Record index_ok (c : ics) : Prop := {
    ok_complete : forall v x, item_mentions (isys c) v x -> In x (occ_items v (iocc c));
    ok_valid : forall v x, In x (occ_items v (iocc c)) -> item_valid (isys c) x;
    ok_nodup : NoDup (map fst (iocc c)) }.

  Lemma occurrences_list_in (c : csys) v x : In (v, x) (occurrences_list c) <-> item_mentions c v x.
  Proof.
    unfold occurrences_list. rewrite !in_app_iff, !in_flat_map. split.
    - intros [([i e] & H1 & H2)|[([i e] & H1 & H2)|([i e] & H1 & H2)]]; apply enumerate_in in H1; cbn [fst snd] in H2;
        apply in_map_iff in H2; destruct H2 as (w & [= -> <-] & H2); cbn; eauto.
    - destruct x as [i|i|i]; cbn; intros (e & H1 & H2); apply enumerate_in in H1;
        [left|right; left|right; right]; exists (i, e); split; auto; apply in_map_iff; eauto.
  Qed.
  Lemma variable_occurrences_in (c : csys) v x : In x (occ_items v (variable_occurrences c)) <-> item_mentions c v x.
  Proof.
    rewrite <- occurrences_list_in. unfold variable_occurrences.
    assert (G : forall L m, In x (occ_items v (fold_left (fun m vi => occ_extend (fst vi) [snd vi] m) L m)) <->
       In (v, x) L \/ In x (occ_items v m)).
    { induction L as [|[w y] L IH]; intros m; cbn [fold_left In]; [tauto|]. rewrite IH, occ_items_extend. cbn [fst snd In].
      split.
      - intros [H|[[-> [->|[]]]|H]]; auto.
      - intros [[[= -> ->]|H]|H]; auto. }
    rewrite G. cbn. tauto.
  Qed.
  Lemma variable_occurrences_nodup (c : csys) : NoDup (map fst (variable_occurrences c)).
  Proof.
    unfold variable_occurrences. assert (G : forall L m, NoDup (map fst m) ->
      NoDup (map fst (fold_left (fun m vi => occ_extend (fst vi) [snd vi] m) (L : list (var * item)) m))).
    { induction L as [|[w y] L IH]; intros m H; cbn [fold_left]; auto. apply IH. now apply occ_extend_nodup. }
    apply G. constructor.
  Qed.
  Lemma ics_from_ok c : index_ok (ics_from c).
  Proof.
    constructor; cbn [ics_from isys iocc].
    - intros v x. apply variable_occurrences_in.
    - intros v x H. apply variable_occurrences_in in H. eapply item_mentions_valid; eauto.
    - apply variable_occurrences_nodup.
  Qed.

  (** ** Retain *)
  Lemma replacement_spec {A} (f : A -> bool) (l : list A) : forall k i x, nth_error l i = Some x ->
    if f x then exists j, nth_error (replacement_map f l k) i = Some (Some (k + j)) /\ nth_error (filter f l) j = Some x
    else nth_error (replacement_map f l k) i = Some None.
  Proof.
    induction l as [|a l IH]; intros k [|i] x; cbn [nth_error replacement_map filter]; try discriminate.
    - intros [= ->]. destruct (f x); cbn [nth_error]; auto. exists 0%nat. rewrite Nat.add_0_r. auto.
    - intros H. destruct (f a) eqn:Ea; cbn [nth_error].
      + specialize (IH (S k) i x H). destruct (f x); auto. destruct IH as (j & H1 & H2).
        exists (S j). replace (k + S j)%nat with (S k + j)%nat by lia. auto.
      + apply IH, H.
  Qed.
  Lemma replacement_spec_inv {A} (f : A -> bool) (l : list A) : forall k j x, nth_error (filter f l) j = Some x ->
    exists i, nth_error l i = Some x /\ nth_error (replacement_map f l k) i = Some (Some (k + j)).
  Proof.
    induction l as [|a l IH]; intros k j x; cbn [nth_error replacement_map filter]; [destruct j; discriminate|].
    destruct (f a) eqn:Ea.
    - destruct j as [|j]; cbn [nth_error].
      + intros [= ->]. exists 0%nat. rewrite Nat.add_0_r. auto.
      + intros H. destruct (IH (S k) j x H) as (i & H1 & H2). exists (S i). cbn [nth_error].
        replace (k + S j)%nat with (S k + j)%nat by lia. auto.
    - intros H. destruct (IH k j x H) as (i & H1 & H2). exists (S i). auto.
  Qed.
  Lemma retain_items_in kind mk rm xs y :
    In y (retain_items kind mk rm xs) <->
    exists x, In x xs /\ if Nat.eqb (ikind x) kind then exists j, nth_error rm (iindex x) = Some (Some j) /\ y = mk j else y = x.
  Proof.
    unfold retain_items. rewrite iinsert_all_in. cbn [In]. rewrite in_flat_map. split.
    - intros [(x & Hx & H)|[]]. exists x. split; auto. destruct (Nat.eqb (ikind x) kind).
      + destruct (nth_error rm (iindex x)) as [[j|]|]; cbn [In] in H; intuition eauto.
      + cbn [In] in H. intuition auto.
    - intros (x & Hx & H). left. exists x. split; auto. destruct (Nat.eqb (ikind x) kind).
      + destruct H as (j & -> & ->). now left.
      + now left.
  Qed.
  Lemma filter_keys_nodup (f : var * list item -> bool) m : NoDup (map fst m) -> NoDup (map fst (filter f m)).
  Proof.
    induction m as [|a m IH]; cbn [filter map]; intros H; auto. inversion_clear H. destruct (f a); cbn [map]; auto.
    constructor; auto. rewrite in_map_iff in *. intros (x & E & Hx). apply filter_In in Hx. apply H0. exists x. tauto.
  Qed.
  Lemma retain_occ_nodup kind mk rm m : NoDup (map fst m) -> NoDup (map fst (retain_occ kind mk rm m)).
  Proof. intros H. unfold retain_occ. apply filter_keys_nodup. rewrite map_map. exact H. Qed.
  Lemma retain_occ_in kind mk rm m v y : NoDup (map fst m) ->
    In y (occ_items v (retain_occ kind mk rm m)) <-> In y (retain_items kind mk rm (occ_items v m)).
  Proof.
    intros Hn. rewrite occ_items_in by now apply retain_occ_nodup. unfold retain_occ. split.
    - intros (l & H1 & H2). apply filter_In in H1. destruct H1 as [H1 _]. apply in_map_iff in H1.
      destruct H1 as ([w l'] & [= -> <-] & H1). cbn [fst snd] in *. apply occ_get_in in H1; auto.
      unfold occ_items. now rewrite H1.
    - unfold occ_items. destruct (occ_get v m) as [l|] eqn:E; [|cbn; intros []].
      intros H. exists (retain_items kind mk rm l). split; auto. apply filter_In. split.
      + apply in_map_iff. exists (v, l). split; auto. apply occ_get_in; auto.
      + cbn [snd]. destruct (retain_items _ _ _ _); auto.
  Qed.

  Lemma retain_algs_ok f c : index_ok c -> index_ok (retain_algs f c).
  Proof.
    intros [H1 H2 H3]. constructor; cbn [retain_algs isys iocc]; [| |now apply retain_occ_nodup].
    - intros v x Hx. rewrite retain_occ_in, retain_items_in by auto. destruct x as [j|j|j]; cbn in Hx.
      + destruct Hx as (e & He & Hv). destruct (replacement_spec_inv f (algs (isys c)) 0 j e He) as (i & Hi & Hr).
        exists (IAlg i). split; [apply H1; cbn; eauto|]. cbn. eauto.
      + exists (IBus j). split; [apply H1; exact Hx|]. reflexivity.
      + exists (IDer j). split; [apply H1; exact Hx|]. reflexivity.
    - intros v y Hy. rewrite retain_occ_in, retain_items_in in Hy by auto. destruct Hy as (x & Hx & Hy).
      apply H2 in Hx. destruct x as [i|i|i]; cbn [ikind Nat.eqb iindex] in Hy; [|subst; exact Hx..].
      destruct Hy as (j & Hj & ->). cbn in *. destruct (nth_error (algs (isys c)) i) as [e|] eqn:Ee.
      2:{ apply nth_error_None in Ee. lia. }
      pose proof (replacement_spec f (algs (isys c)) 0 i e Ee) as HR. destruct (f e).
      + destruct HR as (j' & R1 & R2). rewrite Hj in R1. injection R1 as ->. apply nth_error_Some. congruence.
      + congruence.
  Qed.
  Lemma retain_algs_idx_ok f c : index_ok c -> index_ok (retain_algs_idx f c).
  Proof.
    intros [H1 H2 H3]. constructor; cbn [retain_algs_idx isys iocc]; [| |now apply retain_occ_nodup].
    - intros v x Hx. rewrite retain_occ_in, retain_items_in by auto. destruct x as [j|j|j]; cbn in Hx.
      + destruct Hx as (e & He & Hv). unfold filter_idx in He. rewrite nth_error_map in He.
        destruct (nth_error (filter _ _) j) as [[i0 e0]|] eqn:E0; [|discriminate]. injection He as ->.
        destruct (replacement_spec_inv _ _ 0 j _ E0) as (i & Hi & Hr).
        exists (IAlg i). split; [apply H1|cbn; eauto].
        assert (Hin : In (i0, e) (enumerate (algs (isys c)))) by (eapply nth_error_In; eauto).
        assert (i0 = i) as ->. { unfold enumerate in Hi. clear - Hi.
          assert (G : forall k (l : list gexp) i, nth_error (combine (seq k (length l)) l) i = Some (i0, e) -> i0 = (k + i)%nat).
          { intros k l. revert k. induction l as [|a l IH]; intros k [|i']; cbn; try discriminate.
            - intros [= <- <-]. lia.
            - intros H. apply IH in H. lia. }
          apply G in Hi. lia. }
        apply enumerate_in in Hin. cbn. eauto.
      + exists (IBus j). split; [apply H1; exact Hx|]. reflexivity.
      + exists (IDer j). split; [apply H1; exact Hx|]. reflexivity.
    - intros v y Hy. rewrite retain_occ_in, retain_items_in in Hy by auto. destruct Hy as (x & Hx & Hy).
      apply H2 in Hx. destruct x as [i|i|i]; cbn [ikind Nat.eqb iindex] in Hy; [|subst; exact Hx..].
      destruct Hy as (j & Hj & ->). cbn in *. unfold filter_idx. rewrite map_length.
      destruct (nth_error (enumerate (algs (isys c))) i) as [e|] eqn:Ee.
      2:{ apply nth_error_None in Ee. unfold enumerate in Ee. rewrite combine_length, seq_length in Ee. lia. }
      pose proof (replacement_spec (fun ia => f (fst ia)) _ 0 i e Ee) as HR. cbn beta in HR. destruct (f (fst e)).
      + destruct HR as (j' & R1 & R2). rewrite Hj in R1. injection R1 as ->. apply nth_error_Some. congruence.
      + congruence.
  Qed.
  Lemma retain_buses_ok f c : index_ok c -> index_ok (retain_buses f c).
  Proof.
    intros [H1 H2 H3]. constructor; cbn [retain_buses isys iocc]; [| |now apply retain_occ_nodup].
    - intros v x Hx. rewrite retain_occ_in, retain_items_in by auto. destruct x as [j|j|j]; cbn in Hx.
      + exists (IAlg j). split; [apply H1; exact Hx|]. reflexivity.
      + destruct Hx as (e & He & Hv). destruct (replacement_spec_inv f (buses (isys c)) 0 j e He) as (i & Hi & Hr).
        exists (IBus i). split; [apply H1; cbn; eauto|]. cbn. eauto.
      + exists (IDer j). split; [apply H1; exact Hx|]. reflexivity.
    - intros v y Hy. rewrite retain_occ_in, retain_items_in in Hy by auto. destruct Hy as (x & Hx & Hy).
      apply H2 in Hx. destruct x as [i|i|i]; cbn [ikind Nat.eqb iindex] in Hy; try (subst; exact Hx).
      destruct Hy as (j & Hj & ->). cbn in *. destruct (nth_error (buses (isys c)) i) as [e|] eqn:Ee.
      2:{ apply nth_error_None in Ee. lia. }
      pose proof (replacement_spec f (buses (isys c)) 0 i e Ee) as HR. destruct (f e).
      + destruct HR as (j' & R1 & R2). rewrite Hj in R1. injection R1 as ->. apply nth_error_Some. congruence.
      + congruence.
  Qed.
  Lemma retain_derived_ok f c : index_ok c -> index_ok (retain_derived f c).
  Proof.
    intros [H1 H2 H3]. constructor; cbn [retain_derived isys iocc]; [| |now apply retain_occ_nodup].
    - intros v x Hx. rewrite retain_occ_in, retain_items_in by auto. destruct x as [j|j|j]; cbn in Hx.
      + exists (IAlg j). split; [apply H1; exact Hx|]. reflexivity.
      + exists (IBus j). split; [apply H1; exact Hx|]. reflexivity.
      + destruct Hx as (e & He & Hv). destruct (replacement_spec_inv f (derived (isys c)) 0 j e He) as (i & Hi & Hr).
        exists (IDer i). split; [apply H1; cbn; eauto|]. cbn. eauto.
    - intros v y Hy. rewrite retain_occ_in, retain_items_in in Hy by auto. destruct Hy as (x & Hx & Hy).
      apply H2 in Hx. destruct x as [i|i|i]; cbn [ikind Nat.eqb iindex] in Hy; try (subst; exact Hx).
      destruct Hy as (j & Hj & ->). cbn in *. destruct (nth_error (derived (isys c)) i) as [e|] eqn:Ee.
      2:{ apply nth_error_None in Ee. lia. }
      pose proof (replacement_spec f (derived (isys c)) 0 i e Ee) as HR. destruct (f e).
      + destruct HR as (j' & R1 & R2). rewrite Hj in R1. injection R1 as ->. apply nth_error_Some. congruence.
      + congruence.
  Qed.
  Lemma retain_no_panic c : index_ok c ->
    retain_panics 0 (algs (isys c)) (iocc c) = false /\
    retain_panics 1 (buses (isys c)) (iocc c) = false /\
    retain_panics 2 (derived (isys c)) (iocc c) = false.
  Proof.
    intros [H1 H2 H3].
    assert (G : forall A kind (l : list A), (forall x, item_valid (isys c) x -> ikind x = kind -> (iindex x < length l)%nat) ->
       retain_panics kind l (iocc c) = false).
    { intros A kind l HL. apply not_true_iff_false. unfold retain_panics. rewrite existsb_exists.
      intros ([v xs] & Hin & H). apply existsb_exists in H. destruct H as (x & Hx & H). cbn [snd] in Hx.
      apply andb_true_iff in H. destruct H as [Hk Hl]. apply Nat.eqb_eq in Hk. apply Nat.leb_le in Hl.
      assert (Hv : item_valid (isys c) x). { apply (H2 v). apply occ_items_in; eauto. }
      specialize (HL x Hv Hk). lia. }
    repeat split; apply G; intros [i|i|i] Hv Hk; cbn in *; auto; discriminate.
  Qed.

  (** ** Extend *)
  Lemma extend_ok c d : index_ok c -> index_ok (ics_extend c d).
  Proof.
    intros [H1 H2 H3]. unfold ics_extend. set (sh := shift_item _ _ _).
    assert (HF : forall v y, In y (occ_items v (fold_left (fun m vl => occ_extend (fst vl) (map sh (snd vl)) m) (variable_occurrences d) (iocc c)))
       <-> (exists x, item_mentions d v x /\ y = sh x) \/ In y (occ_items v (iocc c))).
    { intros v y.
      assert (G : forall L m, In y (occ_items v (fold_left (fun m vl => occ_extend (fst vl) (map sh (snd vl)) m) (L : occmap) m)) <->
         (exists l x, In (v, l) L /\ In x l /\ y = sh x) \/ In y (occ_items v m)).
      { induction L as [|[w l] L IH]; intros m; cbn [fold_left In].
        - split; [tauto|]. intros [(l & x & [] & _)|H]; auto.
        - rewrite IH, occ_items_extend. cbn [fst snd]. rewrite in_map_iff. split.
          + intros [(l' & x & Ha & Hb & Hc)|[[-> (x & Ha & Hb)]|H]]; eauto 8.
          + intros [(l' & x & [[= -> ->]|Ha] & Hb & Hc)|H]; eauto 8. }
      rewrite G. split; (intros [H|H]; [left|tauto]).
      - destruct H as (l & x & Ha & Hb & Hc). exists x. split; auto. apply variable_occurrences_in.
        apply occ_items_in; eauto using variable_occurrences_nodup.
      - destruct H as (x & Ha & Hb). apply variable_occurrences_in in Ha.
        apply occ_items_in in Ha; [|apply variable_occurrences_nodup]. destruct Ha as (l & Ha & Hc). eauto 6. }
    constructor; cbn [isys iocc cs_extend algs buses derived].
    - intros v x Hx. apply HF. destruct x as [i|i|i]; cbn in Hx; destruct Hx as (e & He & Hv).
      + destruct (Nat.lt_ge_cases i (length (algs (isys c)))) as [Hi|Hi].
        * rewrite nth_error_app1 in He by auto. right. apply H1. cbn. eauto.
        * rewrite nth_error_app2 in He by auto. left. exists (IAlg (i - length (algs (isys c)))). cbn. split; eauto.
          f_equal. lia.
      + destruct (Nat.lt_ge_cases i (length (buses (isys c)))) as [Hi|Hi].
        * rewrite nth_error_app1 in He by auto. right. apply H1. cbn. eauto.
        * rewrite nth_error_app2 in He by auto. left. exists (IBus (i - length (buses (isys c)))). cbn. split; eauto.
          f_equal. lia.
      + destruct (Nat.lt_ge_cases i (length (derived (isys c)))) as [Hi|Hi].
        * rewrite nth_error_app1 in He by auto. right. apply H1. cbn. eauto.
        * rewrite nth_error_app2 in He by auto. left. exists (IDer (i - length (derived (isys c)))). cbn. split; eauto.
          f_equal. lia.
    - intros v y Hy. apply HF in Hy. destruct Hy as [(x & Hx & ->)|Hy].
      + apply item_mentions_valid in Hx. destruct x; cbn in *; rewrite app_length; lia.
      + apply H2 in Hy. destruct y; cbn in *; rewrite app_length; lia.
    - assert (G : forall L m, NoDup (map fst m) -> NoDup (map fst (fold_left (fun m vl => occ_extend (fst vl) (map sh (snd vl)) m) (L : occmap) m))).
      { induction L as [|a L IH]; intros m Hm; cbn [fold_left]; auto. apply IH. now apply occ_extend_nodup. }
      now apply G.
  Qed.

  (** ** Substitution *)
  Lemma nth_map_nth {A} (f : A -> A) i (l : list A) j :
    nth_error (nth_map f i l) j = if Nat.eqb i j then option_map f (nth_error l j) else nth_error l j.
  Proof.
    revert i j. induction l as [|a l IH]; intros i j.
    - destruct i, j; cbn; try reflexivity; destruct (Nat.eqb i j); reflexivity.
    - destruct i, j; cbn [nth_map nth_error Nat.eqb option_map]; auto.
  Qed.
  Lemma nth_map_length {A} (f : A -> A) i (l : list A) : length (nth_map f i l) = length l.
  Proof. revert i. induction l as [|a l IH]; intros [|i]; cbn [nth_map length]; auto. Qed.

  Definition opt_iter {A} (f : A -> A) (n : nat) (x : A) : A := Nat.iter n f x.
  Definition icount (x : item) (l : list item) : nat := length (filter (ieqb x) l).
  Lemma fold_subst_item fe fc (items : list item) : forall c : csys,
    let c' := fold_left (subst_item fe fc) items c in
    (forall i, nth_error (algs c') i = option_map (opt_iter fe (icount (IAlg i) items)) (nth_error (algs c) i)) /\
    (forall i, nth_error (buses c') i = option_map (opt_iter (bmap fe) (icount (IBus i) items)) (nth_error (buses c) i)) /\
    (forall i, nth_error (derived c') i = option_map (opt_iter (fun d => (fst d, fc (snd d))) (icount (IDer i) items)) (nth_error (derived c) i)).
  Proof.
    unfold opt_iter, icount.
    assert (HS : forall A (f : A -> A) n x, Nat.iter n f (f x) = f (Nat.iter n f x)).
    { intros A f n x. induction n as [|n IH]; [reflexivity|]. change (f (Nat.iter n f (f x)) = f (f (Nat.iter n f x))). now rewrite IH. }
    induction items as [|x items IH]; intros c; cbn [fold_left filter length].
    - split; [|split]; intros i; cbn; destruct (nth_error _ i); reflexivity.
    - destruct (IH (subst_item fe fc c x)) as (A1 & A2 & A3).
      split; [|split]; intros i; rewrite ?A1, ?A2, ?A3; destruct x as [j|j|j]; cbn [subst_item algs buses derived ieqb ikind iindex Nat.eqb andb filter];
        rewrite ?nth_map_nth; try reflexivity; unfold ieqb; cbn [ikind iindex Nat.eqb andb];
        rewrite (Nat.eqb_sym i j); destruct (Nat.eqb j i); try reflexivity; destruct (nth_error _ i); cbn [option_map length]; try reflexivity;
        f_equal; first [apply HS | exact (HS _ (fun d => (fst d, fc (snd d))) _ _)].
  Qed.

  Lemma icount_in x l : (0 < icount x l)%nat <-> In x l.
  Proof.
    unfold icount. induction l as [|y l IH]; cbn [filter length In]; [lia|].
    destruct (ieqb_spec x y) as [->|]; cbn [length]; [intuition lia|]. rewrite IH. intuition congruence.
  Qed.

  Lemma subst_unknown_not_mentioned v e0 e : ~ In v (vars e) -> subst_unknown v e0 e = e :> gexp.
  Proof.
    intros H. destruct e as [q l c]. cbn [subst_unknown].
    destruct (mentions v (GE q l c)) eqn:E; [apply mentions_In in E; tauto|reflexivity].
  Qed.
  Lemma subst_unknown_twice v e0 e : ~ In v (vars e0) ->
    subst_unknown v e0 (subst_unknown v e0 e) = subst_unknown v e0 e :> gexp.
  Proof.
    intros H. apply subst_unknown_not_mentioned. intros Hin. apply vars_subst_unknown in Hin. tauto.
  Qed.
  Lemma iter_idem {A} (f : A -> A) n x : (forall y, f (f y) = f y) -> (0 < n)%nat -> Nat.iter n f x = f x.
  Proof. intros Hf Hn. destruct n as [|n]; [lia|]. clear Hn. induction n as [|n IH]; cbn in *; auto. now rewrite IH. Qed.

  Lemma sorted_insert_nodup_aux x l y : iltb x y = true -> StronglySorted (fun a b => iltb a b = true) (y :: l) -> ~ In x (y :: l).
  Proof.
    intros Hx Hs Hin. assert (Hirr : forall z, iltb z z = false).
    { intros z. unfold iltb. rewrite !Nat.ltb_irrefl, andb_false_r. reflexivity. }
    destruct Hin as [->|Hin]; [rewrite Hirr in Hx; discriminate|].
    inversion_clear Hs. rewrite Forall_forall in H0. apply H0 in Hin. revert Hx Hin. unfold iltb. lia.
  Qed.

  (** Substitution everywhere, without an index. *)
  Definition cs_map (fe : gexp -> gexp) (fc : cmethod p -> cmethod p) (c : csys) : csys :=
    mkCS (map fe (algs c)) (map (bmap fe) (buses c)) (map (fun d => (fst d, fc (snd d))) (derived c)).

  Lemma nth_error_ext {A} (l1 l2 : list A) : (forall i, nth_error l1 i = nth_error l2 i) -> l1 = l2.
  Proof.
    revert l2. induction l1 as [|a l1 IH]; intros [|b l2] H; auto.
    - specialize (H 0%nat). discriminate.
    - specialize (H 0%nat). discriminate.
    - f_equal; [specialize (H 0%nat); cbn in H; congruence|]. apply IH. intros i. apply (H (S i)).
  Qed.
  Lemma bmap_ext_in {A B} (f g : A -> B) (b : busi A) : (forall x, In x (fields b) -> f x = g x) -> bmap f b = bmap g b.
  Proof.
    intros H. unfold bmap. f_equal; [apply H; cbn; auto|apply H; cbn; auto|]. apply map_ext_in. intros x Hx. apply H. cbn. auto.
  Qed.
  Lemma bmap_id {A} (b : busi A) : bmap (fun x => x) b = b.
  Proof. destruct b. unfold bmap. cbn. now rewrite map_id. Qed.
  Lemma bmap_bmap {A B C} (g : B -> C) (f : A -> B) b : bmap g (bmap f b) = bmap (fun x => g (f x)) b.
  Proof. unfold bmap. cbn. now rewrite map_map. Qed.

  Lemma subst_unknown_sys v e c : index_ok c -> ~ In v (vars e) ->
    isys (ics_subst_unknown v e c) = cs_map (subst_unknown v e) (cm_subst_unknown v e) (isys c).
  Proof.
    intros [H1 H2 H3] Hne. unfold ics_subst_unknown. cbn [isys].
    destruct (fold_subst_item (subst_unknown v e) (cm_subst_unknown v e) (occ_items v (iocc c)) (isys c)) as (A1 & A2 & A3).
    cbv zeta in *. set (c' := fold_left _ _ _) in *.
    assert (Hb : forall b : bus, bmap (subst_unknown v e) (bmap (subst_unknown v e) b) = bmap (subst_unknown v e) b).
    { intros b. rewrite bmap_bmap. apply bmap_ext_in. intros x _. now apply subst_unknown_twice. }
    assert (Hd : forall d : var * cmethod p, (fun d => (fst d, cm_subst_unknown v e (snd d))) ((fun d => (fst d, cm_subst_unknown v e (snd d))) d) = (fst d, cm_subst_unknown v e (snd d))).
    { intros [w [k|a b]]; cbn; auto. now rewrite !subst_unknown_twice. }
    transitivity (mkCS (algs c') (buses c') (derived c')); [now destruct c'|]. unfold cs_map. f_equal; apply nth_error_ext; intros i.
    - rewrite A1, nth_error_map. destruct (nth_error (algs (isys c)) i) as [x|] eqn:Ex; cbn [option_map]; auto. f_equal.
      destruct (icount (IAlg i) (occ_items v (iocc c))) eqn:Ec.
      + cbn. symmetry. apply subst_unknown_not_mentioned. intros Hin.
        assert (HI : In (IAlg i) (occ_items v (iocc c))) by (apply H1; cbn; eauto). apply icount_in in HI. lia.
      + unfold opt_iter. apply iter_idem; [intros; now apply subst_unknown_twice|lia].
    - rewrite A2, nth_error_map. destruct (nth_error (buses (isys c)) i) as [x|] eqn:Ex; cbn [option_map]; auto. f_equal.
      destruct (icount (IBus i) (occ_items v (iocc c))) eqn:Ec.
      + cbn. rewrite <- (bmap_id x) at 1. apply bmap_ext_in. intros y Hy. symmetry. apply subst_unknown_not_mentioned. intros Hin.
        assert (HI : In (IBus i) (occ_items v (iocc c))).
        { apply H1; cbn. exists x. split; auto. apply bus_vars_in. eauto. } apply icount_in in HI. lia.
      + unfold opt_iter. apply iter_idem; [exact Hb|lia].
    - rewrite A3, nth_error_map. destruct (nth_error (derived (isys c)) i) as [x|] eqn:Ex; cbn [option_map]; auto. f_equal.
      destruct (icount (IDer i) (occ_items v (iocc c))) eqn:Ec.
      + cbn. destruct x as [w [k|a b]]; cbn; auto. rewrite !subst_unknown_not_mentioned; auto; intros Hin;
        (assert (HI : In (IDer i) (occ_items v (iocc c))); [apply H1; cbn; eexists; split; [exact Ex|]; cbn; rewrite in_app_iff; auto|]); apply icount_in in HI; lia.
      + unfold opt_iter. apply (iter_idem (fun d => (fst d, cm_subst_unknown v e (snd d)))); [exact Hd|lia].
  Qed.

  Lemma vunique_in seen l v : In v l -> In v seen \/ In v (vunique seen l).
  Proof.
    revert seen. induction l as [|w l IH]; intros seen; cbn [vunique In]; [tauto|].
    intros [->|H].
    - destruct (existsb (veqb v) seen) eqn:E.
      + apply existsb_exists in E. destruct E as (x & Hx & E). apply veqb_eq in E. subst. auto.
      + right. now left.
    - destruct (existsb (veqb w) seen) eqn:E; auto.
      destruct (IH (w :: seen) H) as [[->|H']|H']; cbn [In]; auto.
  Qed.
  Lemma vunique_sub seen l v : In v (vunique seen l) -> In v l.
  Proof.
    revert seen. induction l as [|w l IH]; intros seen; cbn [vunique In]; auto.
    destruct (existsb (veqb w) seen); [eauto|]. cbn [In]. intuition eauto.
  Qed.

  Lemma bus_vars_bmap (f : gexp -> gexp) b w : In w (bus_vars (bmap f b)) -> exists x, In x (fields b) /\ In w (vars (f x)).
  Proof.
    unfold bus_vars, fields, bmap. cbn [bus_id mult payload flat_map]. rewrite !in_app_iff, in_flat_map.
    intros [H|[H|(y & Hy & H)]]; [exists (bus_id b)|exists (mult b)|]; cbn [In]; auto.
    apply in_map_iff in Hy. destruct Hy as (x & <- & Hx). eauto.
  Qed.

  Lemma fold_occ_extend_vars items (vs : list var) v y : forall m,
    In y (occ_items v (fold_left (fun m w => occ_extend w items m) vs m)) <-> (In v vs /\ In y items) \/ In y (occ_items v m).
  Proof.
    induction vs as [|w vs IH]; intros m; cbn [fold_left In]; [tauto|]. rewrite IH, occ_items_extend. intuition auto.
  Qed.

  Lemma subst_unknown_ok v e c : index_ok c -> ~ In v (vars e) -> index_ok (ics_subst_unknown v e c).
  Proof.
    intros Hok Hne. pose proof (subst_unknown_sys v e c Hok Hne) as Hsys. destruct Hok as [H1 H2 H3].
    constructor.
    - intros w x Hx. rewrite Hsys in Hx. unfold ics_subst_unknown. cbn [iocc]. rewrite fold_occ_extend_vars.
      assert (G : forall u, In u (vars e) -> In u (vunique [] (vars e))).
      { intros u Hu. destruct (vunique_in [] (vars e) u Hu) as [[]|]; auto. }
      destruct x as [i|i|i]; cbn [item_mentions cs_map algs buses derived] in Hx; rewrite nth_error_map in Hx; destruct Hx as (y & Hy & Hw).
      + destruct (nth_error (algs (isys c)) i) as [z|] eqn:Ez; [|discriminate]. injection Hy as <-.
        apply vars_subst_unknown in Hw. destruct Hw as [[Hw _]|[Hw1 Hw2]].
        * right. apply H1. cbn. eauto.
        * left. split; auto. apply H1. cbn. eauto.
      + destruct (nth_error (buses (isys c)) i) as [z|] eqn:Ez; [|discriminate]. injection Hy as <-.
        apply bus_vars_bmap in Hw. destruct Hw as (x & Hx & Hw).
        apply vars_subst_unknown in Hw. destruct Hw as [[Hw _]|[Hw1 Hw2]].
        * right. apply H1. cbn. exists z. split; auto. apply bus_vars_in. eauto.
        * left. split; auto. apply H1. cbn. exists z. split; auto. apply bus_vars_in. eauto.
      + destruct (nth_error (derived (isys c)) i) as [[u [k|a b]]|] eqn:Ez; [| |discriminate]; injection Hy as <-; cbn in Hw; [destruct Hw|].
        rewrite in_app_iff in Hw. destruct Hw as [Hw|Hw]; apply vars_subst_unknown in Hw; destruct Hw as [[Hw _]|[Hw1 Hw2]].
        * right. apply H1. cbn. eexists. split; [exact Ez|]. cbn. rewrite in_app_iff. auto.
        * left. split; auto. apply H1. cbn. eexists. split; [exact Ez|]. cbn. rewrite in_app_iff. auto.
        * right. apply H1. cbn. eexists. split; [exact Ez|]. cbn. rewrite in_app_iff. auto.
        * left. split; auto. apply H1. cbn. eexists. split; [exact Ez|]. cbn. rewrite in_app_iff. auto.
    - intros w x Hx. rewrite Hsys. unfold ics_subst_unknown in Hx. cbn [iocc] in Hx. rewrite fold_occ_extend_vars in Hx.
      assert (Hv : item_valid (isys c) x) by (destruct Hx as [[_ Hx]|Hx]; eauto).
      destruct x; cbn in *; rewrite map_length; auto.
    - cbn [ics_subst_unknown iocc]. generalize (vunique [] (vars e)). intros vs. revert H3.
      generalize (occ_items v (iocc c)) as items. generalize (iocc c) as m. clear. intros m items. revert m. induction vs as [|w vs IH]; intros m Hm; cbn [fold_left]; auto.
      apply IH. now apply occ_extend_nodup.
  Qed.

  (** Substitution of a known value: every constraint mentioning the variable is
      substituted; the others are untouched or (stale index entries) normalised. *)
  Lemma subst_known_twice_vars v k n e w : In w (vars (Nat.iter n (subst_known v k) e : gexp)) -> In w (vars e).
  Proof. induction n as [|n IH]; cbn; auto. intros H. apply vars_subst_known in H. tauto. Qed.
  Lemma subst_known_iter_not_mentions v k n e : (0 < n)%nat -> ~ In v (vars (Nat.iter n (subst_known v k) e : gexp)).
  Proof. destruct n as [|n]; [lia|]. intros _ H. cbn in H. apply vars_subst_known in H. tauto. Qed.
  Lemma upd_upd s v (k : F p) e : eval (upd (upd s v k) v k) e = eval (upd s v k) e.
  Proof. apply eval_ext. intros w _. unfold upd. destruct (veqb v w), (veqb w v); reflexivity. Qed.
  Lemma subst_known_iter_eval v k n e : forall s, (0 < n)%nat ->
    eval s (Nat.iter n (subst_known v k) e) = eval (upd s v k) e :> F p.
  Proof.
    induction n as [|n IH]; intros s Hn; [lia|]. cbn [Nat.iter nat_rect]. rewrite eval_subst_known.
    destruct n as [|n]; [reflexivity|]. etransitivity; [apply (IH (upd s v k)); lia|]. apply upd_upd.
  Qed.

  (** [e'] is [e] with [v] replaced by the constant [k]. *)
  Definition is_subst_known (v : var) (k : F p) (e e' : gexp) : Prop :=
    (forall s, eval s e' = eval (upd s v k) e) /\ ~ In v (vars e') /\ incl (vars e') (vars e).
  Lemma subst_known_iter_spec v k n e : (0 < n)%nat \/ ~ In v (vars e) -> is_subst_known v k e (Nat.iter n (subst_known v k) e).
  Proof.
    intros H. split; [|split].
    - intros s. destruct n as [|n]; [|apply subst_known_iter_eval; lia]. cbn. symmetry. apply eval_upd_notin.
      destruct H; [lia|auto].
    - destruct n as [|n]; [destruct H; [lia|auto]|apply subst_known_iter_not_mentions; lia].
    - intros w. apply subst_known_twice_vars.
  Qed.
  Definition bus_rel (R : gexp -> gexp -> Prop) (b b' : bus) : Prop :=
    R (bus_id b) (bus_id b') /\ R (mult b) (mult b') /\ Forall2 R (payload b) (payload b').
  Definition cm_rel (R : gexp -> gexp -> Prop) (m m' : cmethod p) : Prop :=
    match m, m' with
    | CConst k, CConst k' => k = k'
    | CQuot a b, CQuot a' b' => R a a' /\ R b b'
    | _, _ => False
    end.
  Definition sys_rel (R : gexp -> gexp -> Prop) (c c' : csys) : Prop :=
    Forall2 R (algs c) (algs c') /\ Forall2 (bus_rel R) (buses c) (buses c') /\
    Forall2 (fun d d' => fst d = fst d' /\ cm_rel R (snd d) (snd d')) (derived c) (derived c').

  Lemma Forall2_nth {A B} (R : A -> B -> Prop) (l : list A) : forall l' : list B,
    length l = length l' ->
    (forall i a b, nth_error l i = Some a -> nth_error l' i = Some b -> R a b) -> Forall2 R l l'.
  Proof.
    induction l as [|a l IH]; intros [|b l'] Hl H; cbn in Hl; try discriminate; constructor.
    - apply (H 0%nat); reflexivity.
    - apply IH; [lia|]. intros i x y Hx Hy. apply (H (S i)); auto.
  Qed.
  Lemma Forall2_nth_map {A B} (R : A -> B -> Prop) (l : list A) (l' : list B) (f : nat -> A -> B) :
    (forall i, nth_error l' i = option_map (f i) (nth_error l i)) ->
    (forall i a, nth_error l i = Some a -> R a (f i a)) -> Forall2 R l l'.
  Proof.
    intros H HR. apply Forall2_nth.
    - destruct (Nat.lt_trichotomy (length l) (length l')) as [Hl|[Hl|Hl]]; auto.
      + apply nth_error_Some in Hl. rewrite H in Hl. destruct (nth_error l (length l)) eqn:E; cbn in Hl; [|congruence].
        assert (length l < length l)%nat by (apply nth_error_Some; congruence). lia.
      + apply nth_error_Some in Hl. specialize (H (length l')). destruct (nth_error l (length l')) eqn:E; cbn in H; [|congruence].
        assert (length l' < length l')%nat by (apply nth_error_Some; congruence). lia.
    - intros i a b Ha Hb. rewrite H, Ha in Hb. injection Hb as <-. auto.
  Qed.
  Lemma iter_bmap (f : gexp -> gexp) n b : Nat.iter n (bmap f) b = bmap (Nat.iter n f) b.
  Proof.
    induction n as [|n IH]; [symmetry; apply bmap_id|].
    change (bmap f (Nat.iter n (bmap f) b) = bmap (Nat.iter (S n) f) b). rewrite IH, bmap_bmap. reflexivity.
  Qed.
  Lemma iter_pair v k n (w : var) (m : cmethod p) :
    Nat.iter n (fun d => (fst d, cm_subst_known v k (snd d))) (w, m) =
    (w, match m with CConst x => CConst x | CQuot a b => CQuot (Nat.iter n (subst_known v k) a) (Nat.iter n (subst_known v k) b) end).
  Proof.
    induction n as [|n IH]; [destruct m; reflexivity|]. set (g := fun d => _) in *.
    change (g (Nat.iter n g (w, m)) = (w, match m with CConst x => CConst x
      | CQuot a b => CQuot (subst_known v k (Nat.iter n (subst_known v k) a)) (subst_known v k (Nat.iter n (subst_known v k) b)) end)).
    rewrite IH. unfold g. destruct m; reflexivity.
  Qed.
  Lemma subst_known_sys v k c : index_ok c ->
    sys_rel (is_subst_known v k) (isys c) (isys (ics_subst_known v k c)).
  Proof.
    intros [H1 H2 H3]. unfold ics_subst_known. cbn [isys].
    destruct (fold_subst_item (subst_known v k) (cm_subst_known v k) (occ_items v (iocc c)) (isys c)) as (A1 & A2 & A3).
    cbv zeta in *. set (c' := fold_left _ _ _) in *. split; [|split].
    - eapply Forall2_nth_map; [exact A1|]. intros i a Ha. apply subst_known_iter_spec.
      destruct (icount (IAlg i) (occ_items v (iocc c))) eqn:Ec; [right|left; lia].
      intros Hin. assert (HI : In (IAlg i) (occ_items v (iocc c))) by (apply H1; cbn; eauto). apply icount_in in HI. lia.
    - eapply Forall2_nth_map; [exact A2|]. intros i b Hb. cbv beta. unfold opt_iter. rewrite iter_bmap.
      assert (HI : forall x, In x (fields b) -> is_subst_known v k x (Nat.iter (icount (IBus i) (occ_items v (iocc c))) (subst_known v k) x)).
      { intros x Hx. apply subst_known_iter_spec. destruct (icount (IBus i) (occ_items v (iocc c))) eqn:Ec; [right|left; lia].
        intros Hin. assert (HI : In (IBus i) (occ_items v (iocc c))).
        { apply H1; cbn. exists b. split; auto. apply bus_vars_in. eauto. } apply icount_in in HI. lia. }
      split; [|split]; cbn [bmap bus_id mult payload]; [apply HI; cbn; auto..|].
      assert (HP : forall x, In x (payload b) -> In x (fields b)) by (cbn; auto).
      induction (payload b) as [|x l IH]; cbn [map]; constructor; [apply HI, HP; cbn; auto|]. apply IH. intros y Hy. apply HP. cbn; auto.
    - eapply Forall2_nth_map; [exact A3|]. intros i [w m] Hd. cbv beta. unfold opt_iter. rewrite iter_pair. cbn [fst snd]. split; auto.
      destruct m as [x|a b]; cbn [cm_rel]; auto.
      assert (HI : forall x, In x [a; b] -> is_subst_known v k x (Nat.iter (icount (IDer i) (occ_items v (iocc c))) (subst_known v k) x)).
      { intros x Hx. apply subst_known_iter_spec. destruct (icount (IDer i) (occ_items v (iocc c))) eqn:Ec; [right|left; lia].
        intros Hin. assert (HI : In (IDer i) (occ_items v (iocc c))).
        { apply H1; cbn. eexists. split; eauto. cbn. rewrite in_app_iff. destruct Hx as [<-|[<-|[]]]; auto. }
        apply icount_in in HI. lia. }
      split; apply HI; cbn; auto.
  Qed.
  Lemma Forall2_nth_r {A B} (R : A -> B -> Prop) l l' i b : Forall2 R l l' -> nth_error l' i = Some b ->
    exists a, nth_error l i = Some a /\ R a b.
  Proof.
    intros H. revert i. induction H as [|x y l l' HR H IH]; intros [|i] Hb; cbn in *; try discriminate.
    - injection Hb as <-. eauto.
    - eauto.
  Qed.
  Lemma Forall2_len {A B} (R : A -> B -> Prop) l l' : Forall2 R l l' -> length l = length l'.
  Proof. induction 1; cbn; auto. Qed.
  Lemma sys_rel_mentions (R : gexp -> gexp -> Prop) c c' v x : (forall e e', R e e' -> incl (vars e') (vars e)) ->
    sys_rel R c c' -> item_mentions c' v x -> item_mentions c v x.
  Proof.
    intros HR (R1 & R2 & R3). destruct x as [i|i|i]; cbn; intros (y & Hy & Hv).
    - destruct (Forall2_nth_r _ _ _ _ _ R1 Hy) as (a & Ha & HRa). exists a. split; auto. eapply HR; eauto.
    - destruct (Forall2_nth_r _ _ _ _ _ R2 Hy) as (a & Ha & Hb1 & Hb2 & Hb3). exists a. split; auto.
      unfold bus_vars, fields in *. cbn [flat_map] in *. rewrite !in_app_iff in *. destruct Hv as [Hv|[Hv|Hv]].
      + left. eapply HR; eauto.
      + right. left. eapply HR; eauto.
      + right. right. apply in_flat_map in Hv. destruct Hv as (z & Hz & Hv). apply In_nth_error in Hz. destruct Hz as (j & Hz).
        destruct (Forall2_nth_r _ _ _ _ _ Hb3 Hz) as (z0 & Hz0 & HRz). apply in_flat_map. exists z0.
        split; [eapply nth_error_In; eauto|eapply HR; eauto].
    - destruct (Forall2_nth_r _ _ _ _ _ R3 Hy) as ([w m] & Ha & _ & Hb). exists (w, m). split; auto. cbn [fst snd] in *.
      destruct m as [k1|a1 b1], (snd y) as [k2|a2 b2]; cbn in *; try contradiction.
      destruct Hb. rewrite in_app_iff in *. destruct Hv; [left|right]; eapply HR; eauto.
  Qed.
  Lemma sys_rel_valid (R : gexp -> gexp -> Prop) c c' x : sys_rel R c c' -> item_valid c x <-> item_valid c' x.
  Proof.
    intros (R1 & R2 & R3). apply Forall2_len in R1, R2, R3. destruct x; cbn; lia.
  Qed.
  Lemma subst_known_ok v k c : index_ok c -> index_ok (ics_subst_known v k c).
  Proof.
    intros Hok. pose proof (subst_known_sys v k c Hok) as HR. destruct Hok as [H1 H2 H3]. constructor; auto.
    - intros w x Hx. apply H1. eapply sys_rel_mentions; eauto. intros e e' He. apply He.
    - intros w x Hx. apply (sys_rel_valid _ _ _ x HR). eapply H2. exact Hx.
  Qed.

  Lemma apply_substs_ok ss : forall c, index_ok c -> Forall (fun ve => ~ In (fst ve) (vars (snd ve))) ss ->
    index_ok (ics_apply_substs ss c).
  Proof.
    induction ss as [|[v e] ss IH]; intros c Hc Hs; cbn [ics_apply_substs fold_left]; auto. inversion_clear Hs.
    apply IH; auto. cbn. apply subst_unknown_ok; auto.
  Qed.

  (** ** Lookup *)
  Lemma iunique_in l : forall seen x, In x (iunique seen l) <-> In x l /\ ~ In x seen.
  Proof.
    induction l as [|y l IH]; intros seen x; cbn [iunique In]; [tauto|].
    destruct (existsb (ieqb y) seen) eqn:E.
    - rewrite IH. apply existsb_exists in E. destruct E as (z & Hz & E). apply ieqb_eq in E. subst z.
      split; [tauto|]. intros [[->|H] Hn]; tauto.
    - assert (Hy : ~ In y seen). { intros Hy. apply not_true_iff_false in E. apply E. apply existsb_exists. exists y.
        split; auto. now apply ieqb_eq. }
      cbn [In]. rewrite IH. cbn [In]. destruct (ieqb_spec y x) as [->|Hne]; [tauto|]. intuition congruence.
  Qed.
  Lemma iunique_nodup l : forall seen, NoDup (iunique seen l).
  Proof.
    induction l as [|y l IH]; intros seen; cbn [iunique]; [constructor|].
    destruct (existsb (ieqb y) seen); auto. constructor; auto. rewrite iunique_in. cbn. tauto.
  Qed.
  Lemma referencing_items_in c vs x : index_ok c ->
    (exists v, In v vs /\ item_mentions (isys c) v x) -> In x (referencing_items c vs).
  Proof.
    intros [H1 H2 H3] (v & Hv & Hx). unfold referencing_items. apply iunique_in. split; [|intros []].
    apply in_flat_map. exists v. auto.
  Qed.
  Lemma referencing_items_valid c vs x : index_ok c -> In x (referencing_items c vs) -> item_valid (isys c) x.
  Proof.
    intros [H1 H2 H3] Hx. apply iunique_in in Hx. destruct Hx as [Hx _]. apply in_flat_map in Hx.
    destruct Hx as (v & _ & Hx). eauto.
  Qed.
  Lemma to_ref_valid (c : csys) x : item_valid c x -> to_ref c x <> None.
  Proof.
    destruct x as [i|i|i]; cbn; intros H; try discriminate; apply nth_error_Some in H; destruct (nth_error _ i); congruence.
  Qed.
  Lemma referencing_alg c vs e : index_ok c ->
    In e (algs (isys c)) -> (exists v, In v vs /\ In v (vars e)) -> In (RAlg e) (referencing c vs).
  Proof.
    intros Hok He (v & Hv & Hve). unfold referencing. apply In_nth_error in He. destruct He as (i & Hi).
    apply in_flat_map. exists (IAlg i). split.
    - apply referencing_items_in; auto. exists v. cbn. eauto.
    - cbn. rewrite Hi. now left.
  Qed.
  Lemma referencing_bus c vs b : index_ok c ->
    In b (buses (isys c)) -> (exists v, In v vs /\ In v (bus_vars b)) -> In (RBus b) (referencing c vs).
  Proof.
    intros Hok He (v & Hv & Hve). unfold referencing. apply In_nth_error in He. destruct He as (i & Hi).
    apply in_flat_map. exists (IBus i). split.
    - apply referencing_items_in; auto. exists v. cbn. eauto.
    - cbn. rewrite Hi. now left.
  Qed.
  Lemma referencing_sound (c : ics) vs (r : cref p) : In r (referencing c vs) ->
    match r with RAlg e => In e (algs (isys c)) | RBus b => In b (buses (isys c)) end.
  Proof.
    unfold referencing. rewrite in_flat_map. intros (x & _ & H). destruct x as [i|i|i]; cbn in H.
    - destruct (nth_error (algs (isys c)) i) eqn:E; [|destruct H]. destruct H as [<-|[]]. eapply nth_error_In; eauto.
    - destruct (nth_error (buses (isys c)) i) eqn:E; [|destruct H]. destruct H as [<-|[]]. eapply nth_error_In; eauto.
    - destruct H.
  Qed.

  (** ** Queue *)
  Definition is_constraint (x : item) : Prop := flat_id x <> None.
  Lemma is_derived_false x : is_derived x = false <-> is_constraint x.
  Proof. destruct x; unfold is_constraint; cbn; split; congruence. Qed.
  Lemma flat_id_inj x y i : flat_id x = Some i -> flat_id y = Some i -> x = y.
  Proof. destruct x, y; cbn; try discriminate; intros [= <-] [= H]; f_equal; lia. Qed.

  Record queue_ok (q : wqueue) : Prop := {
    q_bits : forall x i, flat_id x = Some i -> (nth i (qbits q) false = true <-> In x (qitems q));
    q_nodup : NoDup (qitems q);
    q_cons : forall x, In x (qitems q) -> is_constraint x }.

  Lemma set_nth_nth {A} i j (b d : A) (l : list A) : nth j (set_nth i b l) d = if Nat.eqb i j && Nat.ltb i (length l) then b else nth j l d.
  Proof.
    revert i j. induction l as [|a l IH]; intros i j.
    - cbn [set_nth length]. destruct i; cbn; rewrite ?andb_false_r; reflexivity.
    - destruct i as [|i], j as [|j]; cbn [set_nth nth Nat.eqb andb]; try reflexivity.
      rewrite IH. cbn [length]. reflexivity.
  Qed.
  Lemma set_nth_length {A} i (b : A) (l : list A) : length (set_nth i b l) = length l.
  Proof. revert i. induction l as [|a l IH]; intros [|i]; cbn; auto. Qed.
  Lemma nth_repeat_false n i : nth i (repeat false n) false = false.
  Proof. revert i. induction n as [|n IH]; intros [|i]; cbn; auto. Qed.
  Lemma resize_nth n bits i : (length bits <= n)%nat -> nth i (resize n bits) false = nth i bits false.
  Proof.
    intros H. unfold resize. rewrite firstn_all2 by auto. destruct (Nat.lt_ge_cases i (length bits)).
    - now rewrite app_nth1.
    - rewrite app_nth2 by auto. rewrite nth_repeat_false. symmetry. now apply nth_overflow.
  Qed.
  Lemma resize_length n bits : (length bits <= n)%nat -> length (resize n bits) = n.
  Proof. intros H. unfold resize. rewrite firstn_all2, app_length, repeat_length by auto. lia. Qed.

  Lemma queue_push_items x q y : queue_ok q -> is_constraint x -> In y (qitems (queue_push x q)) <-> y = x \/ In y (qitems q).
  Proof.
    intros [H1 H2 H3] Hx. unfold queue_push. destruct (flat_id x) as [i|] eqn:Ei; [|contradiction].
    set (bits := if Nat.leb (length (qbits q)) i then _ else _).
    assert (Hb : nth i bits false = nth i (qbits q) false).
    { unfold bits. destruct (Nat.leb_spec (length (qbits q)) i); auto. apply resize_nth. lia. }
    rewrite Hb. destruct (nth i (qbits q) false) eqn:En; cbn [qitems].
    - apply (H1 x i Ei) in En. intuition (subst; auto).
    - rewrite in_app_iff. cbn [In]. intuition auto.
  Qed.
  Lemma queue_push_ok x q : queue_ok q -> is_constraint x -> queue_ok (queue_push x q).
  Proof.
    intros Hq Hx. pose proof (queue_push_items x q) as HI. destruct Hq as [H1 H2 H3]. unfold queue_push in *.
    destruct (flat_id x) as [i|] eqn:Ei; [|contradiction].
    set (bits := if Nat.leb (length (qbits q)) i then _ else _) in *.
    assert (Hb : forall j, nth j bits false = nth j (qbits q) false).
    { intros j. unfold bits. destruct (Nat.leb_spec (length (qbits q)) i); auto. apply resize_nth. lia. }
    assert (Hl : (i < length bits)%nat).
    { unfold bits. destruct (Nat.leb_spec (length (qbits q)) i); auto. rewrite resize_length; lia. }
    rewrite Hb in *. destruct (nth i (qbits q) false) eqn:En.
    - constructor; cbn [qbits qitems]; auto. intros y j Ej. rewrite Hb. auto.
    - constructor; cbn [qbits qitems].
      + intros y j Ej. rewrite set_nth_nth, in_app_iff. cbn [In]. destruct (Nat.eqb_spec i j) as [->|Hne].
        * replace (Nat.ltb j (length bits)) with true by (symmetry; now apply Nat.ltb_lt). cbn [andb].
          rewrite (flat_id_inj x y j) by auto. intuition auto.
        * cbn [andb]. rewrite Hb, (H1 y j Ej). split; auto. intros [H|[->|[]]]; auto. congruence.
      + apply NoDup_app_intro; [auto| |].
        * constructor; [intros []|constructor].
        * intros y Hy [->|[]]. apply (H1 _ i Ei) in Hy. congruence.
      + intros y. rewrite in_app_iff. cbn [In]. intros [H|[<-|[]]]; auto.
  Qed.
  Lemma queue_push_all_ok (xs : list item) : forall q, queue_ok q -> (forall x, In x xs -> is_constraint x) ->
    queue_ok (fold_left (fun q x => queue_push x q) xs q) /\
    forall y, In y (qitems (fold_left (fun q x => queue_push x q) xs q)) <-> In y xs \/ In y (qitems q).
  Proof.
    induction xs as [|x xs IH]; intros q Hq Hx; cbn [fold_left In]; [split; auto; tauto|].
    destruct (IH (queue_push x q)) as [I1 I2]; [apply queue_push_ok; auto; apply Hx; cbn; auto|intros; apply Hx; cbn; auto|].
    split; auto. intros y. rewrite I2, queue_push_items by (auto; apply Hx; cbn; auto). intuition auto.
  Qed.
  Lemma fold_left_skip_derived (xs : list item) : forall q,
    fold_left (fun q x => if is_derived x then q else queue_push x q) xs q =
    fold_left (fun q x => queue_push x q) (filter (fun x => negb (is_derived x)) xs) q.
  Proof. induction xs as [|x xs IH]; intros q; cbn [fold_left filter]; auto. destruct (is_derived x); cbn; apply IH. Qed.

  Lemma set_flat_nth x b (bits : list bool) i j : flat_id x = Some i -> (i < length bits)%nat ->
    nth j (set_flat x b bits) false = if Nat.eqb i j then b else nth j bits false.
  Proof.
    intros Hx Hi. unfold set_flat. rewrite Hx, set_nth_nth. replace (Nat.ltb i (length bits)) with true by (symmetry; now apply Nat.ltb_lt).
    now rewrite andb_true_r.
  Qed.
  Lemma set_flat_length x b bits : length (set_flat x b bits) = length bits.
  Proof. unfold set_flat. destruct (flat_id x); auto. apply set_nth_length. Qed.

  Lemma queue_new_items (c : csys) x : In x (qitems (queue_new c)) <-> is_constraint x /\ item_valid c x.
  Proof.
    unfold queue_new. cbn [qitems]. rewrite in_app_iff, !in_map_iff. unfold is_constraint. split.
    - intros [(i & <- & H)|(i & <- & H)]; apply in_seq in H; cbn; split; try discriminate; lia.
    - intros [H1 H2]. destruct x as [i|i|i]; cbn in *; [left|right|congruence]; exists i; rewrite in_seq; split; auto; lia.
  Qed.
  Lemma queue_new_ok (c : csys) : queue_ok (queue_new c).
  Proof.
    constructor.
    - intros x i Hx. rewrite queue_new_items.
      unfold queue_new. set (items := map IAlg _ ++ map IBus _). set (n := (2 * Nat.max _ _ + 2)%nat). cbn [qbits].
      assert (Hin : forall y, In y items <-> In y (qitems (queue_new c))) by (intros; reflexivity).
      assert (G : forall xs bits, (forall y j, In y xs -> flat_id y = Some j -> (j < length bits)%nat) ->
         (forall y, In y xs -> is_constraint y) ->
         nth i (fold_left (fun bits x => set_flat x true bits) xs bits) false = true <-> In x xs \/ nth i bits false = true).
      { induction xs as [|y xs IH]; intros bits HB HC; cbn [fold_left In]; [tauto|]. rewrite IH.
        - destruct (flat_id y) as [j|] eqn:Ej; [|exfalso; apply (HC y); cbn; auto].
          rewrite (set_flat_nth y true bits j) by (auto; eapply HB; cbn; eauto).
          destruct (Nat.eqb_spec j i) as [->|Hne].
          + rewrite (flat_id_inj x y i) by auto. intuition auto.
          + intuition auto. subst. congruence.
        - intros z j Hz Hj. rewrite set_flat_length. eapply HB; cbn; eauto.
        - intros z Hz. apply HC; cbn; auto. }
      rewrite G.
      + rewrite Hin, queue_new_items. rewrite nth_repeat_false. intuition congruence.
      + intros y j Hy Hj. rewrite repeat_length. apply Hin, queue_new_items in Hy. destruct Hy as [_ Hy].
        unfold n. destruct y; cbn in *; try discriminate; injection Hj as <-; lia.
      + intros y Hy. apply Hin, queue_new_items in Hy. tauto.
    - unfold queue_new. cbn [qitems]. apply NoDup_app_intro.
      + apply FinFun.Injective_map_NoDup; [intros a b H; congruence|apply seq_NoDup].
      + apply FinFun.Injective_map_NoDup; [intros a b H; congruence|apply seq_NoDup].
      + intros y H1 H2. rewrite in_map_iff in *. destruct H1 as (a & <- & _), H2 as (b & [=] & _).
    - intros x Hx. apply queue_new_items in Hx. tauto.
  Qed.
  Lemma queue_pop_ok q x q' : queue_ok q -> queue_pop q = (Some x, q') ->
    queue_ok q' /\ In x (qitems q) /\ forall y, In y (qitems q') <-> In y (qitems q) /\ y <> x.
  Proof.
    intros [H1 H2 H3]. unfold queue_pop. destruct (qitems q) as [|z xs] eqn:E; [discriminate|]. intros [= -> <-].
    assert (Hq : forall y, In y xs <-> In y (x :: xs) /\ y <> x).
    { intros y. inversion_clear H2. cbn [In]. split; [|intuition congruence]. intros Hy. split; auto. intros ->. auto. }
    split; [|split; [cbn; auto|exact Hq]].
    assert (Hx : is_constraint x) by (apply H3; cbn; auto). unfold is_constraint in Hx.
    destruct (flat_id x) as [i|] eqn:Ei; [|contradiction].
    constructor; cbn [qbits qitems].
    - intros y j Ej. assert (Hl : (i < length (qbits q))%nat).
      { destruct (Nat.lt_ge_cases i (length (qbits q))); auto. exfalso.
        assert (Ht : nth i (qbits q) false = true) by (apply (H1 x i Ei); cbn; auto). rewrite nth_overflow in Ht by auto. discriminate. }
      rewrite (set_flat_nth x false _ i) by auto. destruct (Nat.eqb_spec i j) as [->|Hne].
      + rewrite (flat_id_inj y x j) by auto. inversion_clear H2. intuition congruence.
      + rewrite (H1 y j Ej), Hq. split; [|tauto]. intros H. split; auto. intros ->. congruence.
    - inversion_clear H2. auto.
    - intros y Hy. apply H3. cbn; auto.
  Qed.

  Record qcs_ok (c : qcs p) : Prop := {
    k_index : index_ok (qsys c);
    k_queue : queue_ok (qq c);
    k_valid : forall x, In x (qitems (qq c)) -> item_valid (isys (qsys c)) x }.

  Lemma qcs_from_ok c : qcs_ok (qcs_from c).
  Proof.
    constructor; cbn; [apply ics_from_ok|apply queue_new_ok|]. intros x Hx. apply queue_new_items in Hx. tauto.
  Qed.
  Lemma variable_updated_items v c x : qcs_ok c ->
    In x (qitems (qq (variable_updated v c))) <-> (is_constraint x /\ In x (occ_items v (iocc (qsys c)))) \/ In x (qitems (qq c)).
  Proof.
    intros [H1 H2 H3]. unfold variable_updated. cbn [qq]. rewrite fold_left_skip_derived.
    destruct (queue_push_all_ok (filter (fun x => negb (is_derived x)) (occ_items v (iocc (qsys c)))) (qq c)) as [_ G]; auto.
    - intros y Hy. apply filter_In in Hy. apply is_derived_false. destruct (is_derived y); intuition discriminate.
    - rewrite G, filter_In, negb_true_iff, is_derived_false. tauto.
  Qed.
  Lemma variable_updated_ok v c : qcs_ok c -> qcs_ok (variable_updated v c).
  Proof.
    intros Hc. pose proof (variable_updated_items v c) as HI. destruct Hc as [H1 H2 H3]. constructor.
    - exact H1.
    - unfold variable_updated. cbn [qq]. rewrite fold_left_skip_derived. apply queue_push_all_ok; auto.
      intros y Hy. apply filter_In in Hy. apply is_derived_false. destruct (is_derived y); intuition discriminate.
    - intros x Hx. apply HI in Hx; [|constructor; auto]. cbn [variable_updated qsys]. destruct Hx as [[_ Hx]|Hx]; auto.
      eapply ok_valid; eauto.
  Qed.
  Lemma qcs_mid_ok v e c : qcs_ok c -> ~ In v (vars e) -> qcs_ok (mkQCS (ics_subst_unknown v e (qsys c)) (qq c)).
  Proof.
    intros [H1 H2 H3] Hne. constructor; cbn [qsys qq]; auto.
    - apply subst_unknown_ok; auto.
    - intros x Hx. apply H3 in Hx. rewrite subst_unknown_sys by auto. destruct x; cbn in *; rewrite map_length; auto.
  Qed.
  Lemma qcs_subst_unknown_ok v e c : qcs_ok c -> ~ In v (vars e) -> qcs_ok (qcs_subst_unknown v e c).
  Proof. intros H Hne. apply variable_updated_ok, qcs_mid_ok; auto. Qed.
  Lemma qcs_subst_unknown_items v e c x : qcs_ok c -> ~ In v (vars e) ->
    item_mentions (isys (qsys c)) v x /\ is_constraint x \/ In x (qitems (qq c)) ->
    In x (qitems (qq (qcs_subst_unknown v e c))).
  Proof.
    intros H Hne Hx. unfold qcs_subst_unknown. rewrite variable_updated_items by (apply qcs_mid_ok; auto). cbn [qsys qq].
    destruct Hx as [[Hx Hc]|Hx]; auto. left. split; auto. cbn [ics_subst_unknown iocc]. rewrite fold_occ_extend_vars. right.
    eapply ok_complete; eauto. apply H.
  Qed.
  Lemma qcs_pop_ok (c : qcs p) x c' : qcs_ok c -> qcs_pop c = (Some x, c') ->
    qcs_ok c' /\ qsys c' = qsys c /\ In x (qitems (qq c)) /\ item_valid (isys (qsys c)) x /\ is_constraint x /\
    forall y, In y (qitems (qq c')) <-> In y (qitems (qq c)) /\ y <> x.
  Proof.
    intros [H1 H2 H3]. unfold qcs_pop. destruct (queue_pop (qq c)) as [o q'] eqn:E. intros [= -> <-].
    destruct (queue_pop_ok _ _ _ H2 E) as (G1 & G2 & G3). cbn [qsys qq].
    assert (Hv : item_valid (isys (qsys c)) x) by auto.
    split; [constructor; cbn [qsys qq]; auto|].
    - intros y Hy. apply G3 in Hy. destruct Hy; auto.
    - repeat (split; auto). now apply (q_cons _ H2).
  Qed.
  Lemma qcs_pop_none (c c' : qcs p) : qcs_pop c = (None, c') -> qitems (qq c) = [] /\ c' = c.
  Proof.
    unfold qcs_pop, queue_pop. destruct c as [s q]. cbn [qq qsys]. destruct (qitems q) eqn:E; [intros [= <-]; auto|discriminate].
  Qed.
  Lemma push_seq_ok (mk : nat -> item) n m q : queue_ok q -> (forall i, is_constraint (mk i)) ->
    queue_ok (fold_left (fun q i => queue_push (mk (n + i)%nat) q) (seq 0 m) q) /\
    forall y, In y (qitems (fold_left (fun q i => queue_push (mk (n + i)%nat) q) (seq 0 m) q)) <->
      (exists i, (i < m)%nat /\ y = mk (n + i)%nat) \/ In y (qitems q).
  Proof.
    intros Hq Hc.
    assert (E : forall l q, fold_left (fun q i => queue_push (mk (n + i)%nat) q) l q =
      fold_left (fun q x => queue_push x q) (map (fun i => mk (n + i)%nat) l) q).
    { induction l as [|i l IH]; intros q0; cbn; auto. }
    rewrite E. destruct (queue_push_all_ok (map (fun i => mk (n + i)%nat) (seq 0 m)) q Hq) as [G1 G2].
    - intros x Hx. apply in_map_iff in Hx. destruct Hx as (i & <- & _). auto.
    - split; auto. intros y. rewrite G2, in_map_iff. split; (intros [(i & H1 & H2)|H]; [left; exists i|auto]).
      + apply in_seq in H2. split; auto. lia.
      + split; auto. apply in_seq. lia.
  Qed.
  Lemma qcs_add_algs_ok es c : qcs_ok c -> qcs_ok (qcs_add_algs es c).
  Proof.
    intros [H1 H2 H3]. destruct (push_seq_ok IAlg (length (algs (isys (qsys c)))) (length es) (qq c)) as [G1 G2]; auto.
    { intros i. unfold is_constraint. cbn. discriminate. }
    constructor; cbn [qcs_add_algs qsys qq]; auto; [apply extend_ok; auto|].
    intros x Hx. apply G2 in Hx. destruct Hx as [(i & Hi & ->)|Hx].
    - cbn. rewrite app_length. lia.
    - apply H3 in Hx. destruct x; cbn in *; rewrite ?app_length; lia.
  Qed.
  Lemma qcs_add_buses_ok bs c : qcs_ok c -> qcs_ok (qcs_add_buses bs c).
  Proof.
    intros [H1 H2 H3]. destruct (push_seq_ok IBus (length (buses (isys (qsys c)))) (length bs) (qq c)) as [G1 G2]; auto.
    { intros i. unfold is_constraint. cbn. discriminate. }
    constructor; cbn [qcs_add_buses qsys qq]; auto; [apply extend_ok; auto|].
    intros x Hx. apply G2 in Hx. destruct Hx as [(i & Hi & ->)|Hx].
    - cbn. rewrite app_length. lia.
    - apply H3 in Hx. destruct x; cbn in *; rewrite ?app_length; lia.
  Qed.
  Lemma qcs_add_algs_items es c x : qcs_ok c ->
    In x (qitems (qq (qcs_add_algs es c))) <->
    (exists i, (i < length es)%nat /\ x = IAlg (length (algs (isys (qsys c))) + i)) \/ In x (qitems (qq c)).
  Proof.
    intros [H1 H2 H3]. apply (push_seq_ok IAlg (length (algs (isys (qsys c)))) (length es) (qq c)); auto.
    intros i. unfold is_constraint. cbn. discriminate.
  Qed.
  Lemma qcs_add_buses_items bs c x : qcs_ok c ->
    In x (qitems (qq (qcs_add_buses bs c))) <->
    (exists i, (i < length bs)%nat /\ x = IBus (length (buses (isys (qsys c))) + i)) \/ In x (qitems (qq c)).
  Proof.
    intros [H1 H2 H3]. apply (push_seq_ok IBus (length (buses (isys (qsys c)))) (length bs) (qq c)); auto.
    intros i. unfold is_constraint. cbn. discriminate.
  Qed.
  Lemma requeue_ok s q : index_ok s -> queue_ok q -> qcs_ok (mkQCS s (requeue s q)).
  Proof.
    intros Hs Hq. constructor; cbn [qsys qq]; auto; unfold requeue.
    - destruct (qitems q); auto. apply queue_new_ok.
    - destruct (qitems q) eqn:E; [rewrite E; intros x []|]. intros x Hx. apply queue_new_items in Hx. tauto.
  Qed.
  Lemma qcs_retain_algs_ok f c : qcs_ok c -> qcs_ok (qcs_retain_algs f c).
  Proof. intros [H1 H2 H3]. apply requeue_ok; auto. now apply retain_algs_ok. Qed.
  Lemma qcs_retain_buses_ok f c : qcs_ok c -> qcs_ok (qcs_retain_buses f c).
  Proof. intros [H1 H2 H3]. apply requeue_ok; auto. now apply retain_buses_ok. Qed.
End IndexFacts.
