(** Facts about the identifiers of the rule based optimizer. *)
From Coq Require Import Arith NArith Bool List Sorted Permutation Lia.
From Verif Require Import Field ExprModel ExprFacts SystemModel IdModel IdSpec.
Import ListNotations.

(** ** Databases of items *)
Section Items.
  Context {A : Type}.
  Variable eqb : A -> A -> bool.
  Hypothesis eqb_ok : forall x y, eqb x y = true <-> x = y.
  Lemma eqb_same x : eqb x x = true.
  Proof. now apply eqb_ok. Qed.
  (** The map leads back to the items and contains all of them. *)
  Definition db_ok (d : item_db A) : Prop :=
    (forall x i, db_id eqb d x = Some i -> db_index d i = Some x) /\ (forall x, In x (db_items d) -> db_id eqb d x <> None).
  Lemma reverse_get_In x i m : reverse_get eqb x m = Some i -> In (x, i) m.
  Proof.
    induction m as [|[y j] m IH]; cbn; [discriminate|]. destruct (eqb x y) eqn:E; [|auto]. intros [= ->]. left. f_equal. symmetry. now apply eqb_ok.
  Qed.
  Lemma reverse_get_None x m : reverse_get eqb x m = None -> forall i, ~ In (x, i) m.
  Proof.
    induction m as [|[y j] m IH]; cbn; [auto|]. destruct (eqb x y) eqn:E; [discriminate|]. intros H i [[= -> ->]|Hi]; [rewrite eqb_same in E; discriminate|]. now apply (IH H i).
  Qed.
  Lemma combine_seq_nth (l : list A) n x i : In (x, i) (combine l (seq n (length l))) -> nth_error l (i - n) = Some x /\ n <= i.
  Proof.
    revert n. induction l as [|y l IH]; intros n; cbn; [tauto|]. intros [[= -> ->]|H]; [rewrite Nat.sub_diag; auto|].
    destruct (IH (S n) H) as [E L]. split; [|lia]. replace (i - n) with (S (i - S n)) by lia. exact E.
  Qed.
  Lemma combine_seq_In (l : list A) n x : In x l -> exists i, In (x, i) (combine l (seq n (length l))).
  Proof.
    revert n. induction l as [|y l IH]; intros n; cbn; [tauto|]. intros [->|H]; [exists n; auto|]. destruct (IH (S n) H) as [i Hi]. exists i. auto.
  Qed.
  Lemma from_iter_ok l : db_ok (db_from_iter l).
  Proof.
    split.
    - intros x i H. apply reverse_get_In in H. cbn in H. rewrite <- in_rev in H. destruct (combine_seq_nth _ _ _ _ H) as [E _]. now rewrite Nat.sub_0_r in E.
    - intros x H N. cbn in H. destruct (combine_seq_In l 0 x H) as [i Hi]. apply (reverse_get_None _ _ N i). cbn. now rewrite <- in_rev.
  Qed.
  Lemma id_None d x : db_ok d -> (db_id eqb d x = None <-> ~ In x (db_items d)).
  Proof.
    intros [O1 O2]. split.
    - intros N H. exact (O2 x H N).
    - intros N. destruct (db_id eqb d x) as [i|] eqn:E; [|reflexivity]. exfalso. apply N. exact (nth_error_In _ _ (O1 x i E)).
  Qed.
  Lemma insert_fresh d x : db_ok d -> ~ In x (db_items d) -> db_insert eqb d x = (next_free_id d, mkDb (db_items d ++ [x]) ((x, next_free_id d) :: db_reverse d)).
  Proof. intros O N. unfold db_insert. apply (id_None d x O) in N. unfold db_id in N. now rewrite N. Qed.
  Lemma insert_known d x i : db_id eqb d x = Some i -> db_insert eqb d x = (i, d).
  Proof. unfold db_insert, db_id. now intros ->. Qed.
  Lemma insert_ok d x : db_ok d -> let '(i, d') := db_insert eqb d x in
    db_ok d' /\ db_id eqb d' x = Some i /\ (forall y j, db_id eqb d y = Some j -> db_id eqb d' y = Some j) /\ (forall j y, db_index d j = Some y -> db_index d' j = Some y) /\
    (forall y, In y (db_items d') <-> In y (db_items d) \/ y = x).
  Proof.
    intros O. destruct (db_id eqb d x) as [i|] eqn:E.
    - rewrite (insert_known d x i E). split; [exact O|]. split; [exact E|]. split; [auto|]. split; [auto|]. intros y. split; [auto|]. intros [H | ->]; [exact H|]. exact (nth_error_In _ _ (proj1 O x i E)).
    - assert (N : ~ In x (db_items d)) by now apply (id_None d x O).
      rewrite (insert_fresh d x O N).
      assert (K : forall y j, db_id eqb d y = Some j -> db_id eqb (mkDb (db_items d ++ [x]) ((x, next_free_id d) :: db_reverse d)) y = Some j).
      { intros y j H. unfold db_id. cbn. destruct (eqb y x) eqn:Q; [|exact H]. apply eqb_ok in Q. congruence. }
      assert (X : db_id eqb (mkDb (db_items d ++ [x]) ((x, next_free_id d) :: db_reverse d)) x = Some (next_free_id d)) by (unfold db_id; cbn; now rewrite eqb_same).
      assert (P : forall j y, db_index d j = Some y -> db_index (mkDb (db_items d ++ [x]) ((x, next_free_id d) :: db_reverse d)) j = Some y).
      { intros j y H. unfold db_index in *. cbn. rewrite nth_error_app1; [exact H|]. apply nth_error_Some. congruence. }
      split; [split|].
      + intros y j. unfold db_id at 1. cbn. destruct (eqb y x) eqn:Q.
        * intros [= <-]. apply eqb_ok in Q. subst y. unfold db_index, next_free_id. cbn. rewrite nth_error_app2, Nat.sub_diag by lia. reflexivity.
        * intros H. apply P. now apply O.
      + intros y H. cbn in H. apply in_app_iff in H. destruct H as [H|[->|[]]].
        * destruct (db_id eqb d y) as [j|] eqn:Q; [rewrite (K y j Q); discriminate|]. exfalso. exact (proj2 O y H Q).
        * rewrite X. discriminate.
      + split; [exact X|]. split; [exact K|]. split; [exact P|]. intros y. cbn. rewrite in_app_iff. cbn. intuition.
  Qed.
  Lemma insert_all_ok l : forall d, db_ok d -> let '(is, d') := db_insert_all eqb d l in
    db_ok d' /\ length is = length l /\ (forall k x, nth_error l k = Some x -> exists i, nth_error is k = Some i /\ db_id eqb d' x = Some i) /\ (forall y j, db_id eqb d y = Some j -> db_id eqb d' y = Some j) /\
    (forall j y, db_index d j = Some y -> db_index d' j = Some y) /\ (forall y, In y (db_items d') <-> In y (db_items d) \/ In y l).
  Proof.
    induction l as [|x l IH]; intros d O; cbn [db_insert_all].
    - split; [exact O|]. split; [reflexivity|]. split; [intros [|k] x; discriminate|]. split; [auto|]. split; [auto|]. cbn. tauto.
    - pose proof (insert_ok d x O) as H. destruct (db_insert eqb d x) as [i d1]. destruct H as (O1 & X & K & P & M).
      specialize (IH d1 O1). destruct (db_insert_all eqb d1 l) as [is d2]. destruct IH as (O2 & L & W & K2 & P2 & M2).
      split; [exact O2|]. split; [cbn; now rewrite L|]. split.
      + intros [|k] y; cbn; [intros [= <-]; exists i; auto|apply W].
      + split; [auto|]. split; [auto|]. intros y. rewrite M2, M. cbn. intuition.
  Qed.
End Items.

(** ** Transforming expressions *)
Section Transform.
  Context {p : positive}.
  Local Notation gexp := (gexp p).
  (** The transformation with a function without state. *)
  Fixpoint gmap (h : var -> var) (e : gexp) : gexp :=
    match e with GE q l c => GE (map (fun ab => (gmap h (fst ab), gmap h (snd ab))) q) (lcollect (map (fun vc => (h (fst vc), snd vc)) l)) c end.
  Fixpoint run {St} (f : St -> var -> option (var * St)) (l : list var) (s : St) : option (list var * St) :=
    match l with
    | [] => Some ([], s)
    | v :: l' => match f s v with None => None | Some (w, s1) => match run f l' s1 with None => None | Some (ws, s2) => Some (w :: ws, s2) end end
    end.
  Context {St : Type}.
  Variable f : St -> var -> option (var * St).
  Lemma run_app l1 : forall l2 s, run f (l1 ++ l2) s = match run f l1 s with None => None | Some (w1, s1) => match run f l2 s1 with None => None | Some (w2, s2) => Some (w1 ++ w2, s2) end end.
  Proof.
    induction l1 as [|v l1 IH]; intros l2 s; cbn.
    - destruct (run f l2 s) as [[w s1]|]; reflexivity.
    - destruct (f s v) as [[w s1]|]; [|reflexivity]. rewrite IH. destruct (run f l1 s1) as [[w1 s2]|]; [|reflexivity]. destruct (run f l2 s2) as [[w2 s3]|]; reflexivity.
  Qed.
  Lemma run_length l : forall s ws s', run f l s = Some (ws, s') -> length ws = length l.
  Proof.
    induction l as [|v l IH]; intros s ws s'; cbn; [intros [= <- <-]; reflexivity|]. destruct (f s v) as [[w s1]|]; [|discriminate].
    destruct (run f l s1) as [[w1 s2]|] eqn:E; [|discriminate]. intros [= <- <-]. cbn. f_equal. exact (IH _ _ _ E).
  Qed.
  (** A run over two lists whose result is that of one function. *)
  Lemma run_split h l1 l2 s s' : run f (l1 ++ l2) s = Some (map h (l1 ++ l2), s') -> exists s1, run f l1 s = Some (map h l1, s1) /\ run f l2 s1 = Some (map h l2, s').
  Proof.
    rewrite run_app, map_app. destruct (run f l1 s) as [[w1 s1]|] eqn:E1; [|discriminate]. destruct (run f l2 s1) as [[w2 s2]|] eqn:E2; [|discriminate]. intros [= E <-].
    assert (L : length w1 = length (map h l1)) by (rewrite map_length; exact (run_length _ _ _ _ E1)).
    assert (w1 = map h l1 /\ w2 = map h l2) as [-> ->].
    { clear - E L. revert E L. generalize (map h l1) as a, (map h l2) as b. induction w1 as [|x w1 IH]; intros [|y a] b; cbn; try discriminate; [auto|]. intros [= -> E] [= L]. destruct (IH _ _ E L) as [-> ->]. auto. }
    exists s1. auto.
  Qed.
  Lemma transform_linear_run h l : forall s s', run f (map fst l) s = Some (map h (map fst l), s') -> transform_linear f l s = Some (map (fun vc : var * F p => (h (fst vc), snd vc)) l, s').
  Proof.
    induction l as [|[v c] l IH]; intros s s'; cbn; [intros [= <-]; reflexivity|]. destruct (f s v) as [[w s1]|]; [|discriminate].
    destruct (run f (map fst l) s1) as [[ws s2]|] eqn:E; [|discriminate]. intros [= -> -> <-]. now rewrite (IH _ _ E).
  Qed.
  Lemma transform_run h e : forall s s', run f (vars e) s = Some (map h (vars e), s') -> transform f e s = Some (gmap h e, s').
  Proof.
    induction e as [q l c IH] using gexp_ind'. intros s s' H. cbn [vars] in H. destruct (run_split _ _ _ _ _ H) as (s1 & H1 & H2). cbn [transform gmap].
    match goal with |- match ?P q s with _ => _ end = _ => assert (E : P q s = Some (map (fun ab => (gmap h (fst ab), gmap h (snd ab))) q, s1)) end.
    { clear H H2. revert s H1. induction IH as [|[a b] q [Ia Ib] _ IHq]; intros s H1; cbn in H1; [injection H1 as <-; reflexivity|].
      destruct (run_split _ _ _ _ _ H1) as (s2 & H2 & H3). destruct (run_split _ _ _ _ _ H2) as (s3 & H4 & H5). cbn [fst snd] in *.
      rewrite (Ia _ _ H4), (Ib _ _ H5), (IHq _ H3). reflexivity. }
    rewrite E, (transform_linear_run h l _ _ H2). reflexivity.
  Qed.
  Lemma transform_list_run h l : forall s s', run f (flat_map vars l) s = Some (map h (flat_map vars l), s') -> transform_list f l s = Some (map (gmap h) l, s').
  Proof.
    induction l as [|e l IH]; intros s s' H; cbn in H; [injection H as <-; reflexivity|]. destruct (run_split _ _ _ _ _ H) as (s1 & H1 & H2).
    cbn. now rewrite (transform_run h e _ _ H1), (IH _ _ H2).
  Qed.
  Lemma transform_fails (e : gexp) : forall s, run f (vars e) s = None -> transform f e s = None.
  Proof.
    assert (G : forall (e : gexp) s, match run f (vars e) s with None => transform f e s = None | Some (_, s') => exists e', transform f e s = Some (e', s') end).
    { clear e. induction e as [q l c IH] using gexp_ind'. intros s. cbn [vars transform]. rewrite run_app.
      match goal with |- context [match ?P q s with _ => _ end] => set (pairs := P) end.
      assert (Q : match run f (flat_map (fun ab => vars (fst ab) ++ vars (snd ab)) q) s with None => pairs q s = None | Some (_, s') => exists q', pairs q s = Some (q', s') end).
      { revert s. induction IH as [|[a b] q [Ia Ib] _ IHq]; intros s; cbn; [now exists []|]. cbn [fst snd] in *. rewrite !run_app.
        specialize (Ia s). destruct (run f (vars a) s) as [[w1 s1]|]; [|now rewrite Ia]. destruct Ia as (a' & ->).
        specialize (Ib s1). destruct (run f (vars b) s1) as [[w2 s2]|]; [|now rewrite Ib]. destruct Ib as (b' & ->).
        specialize (IHq s2). destruct (run f (flat_map (fun ab => vars (fst ab) ++ vars (snd ab)) q) s2) as [[w3 s3]|]; [|now rewrite IHq]. destruct IHq as (q' & ->). now exists ((a', b') :: q'). }
      destruct (run f (flat_map (fun ab => vars (fst ab) ++ vars (snd ab)) q) s) as [[w1 s1]|]; [|now rewrite Q]. destruct Q as (q' & ->).
      assert (L : match run f (map fst l) s1 with None => transform_linear f l s1 = None | Some (_, s') => exists l', transform_linear f l s1 = Some (l', s') end).
      { clear. revert s1. induction l as [|[v k] l IH]; intros s1; cbn; [now exists []|]. destruct (f s1 v) as [[w s2]|]; [|reflexivity]. specialize (IH s2).
        destruct (run f (map fst l) s2) as [[ws s3]|]; [|now rewrite IH]. destruct IH as (l' & ->). now exists ((w, k) :: l'). }
      destruct (run f (map fst l) s1) as [[w2 s2]|]; [|now rewrite L]. destruct L as (l' & ->). eauto. }
    intros s H. specialize (G e s). now rewrite H in G.
  Qed.
End Transform.

Section Renamed.
  Context {p : positive}.
  Add Ring Fring : (F_ring_theory (p:=p)).
  Local Notation gexp := (gexp p).
  Lemma linsert_perm v (c : F p) l : ~ In v (map fst l) -> Permutation (linsert v c l) ((v, c) :: l).
  Proof.
    induction l as [|[w k] l IH]; cbn; intros N; [reflexivity|]. destruct (veqb_spec v w) as [->|D]; [tauto|]. destruct (vltb v w); [reflexivity|].
    rewrite IH by tauto. apply perm_swap.
  Qed.
  Lemma linsert_order v (c : F p) l : in_order l -> ~ In v (map fst l) -> in_order (linsert v c l).
  Proof.
    induction 1 as [|[w k] l S IH H]; cbn; intros N; [constructor; constructor|]. destruct (veqb_spec v w) as [->|D]; [tauto|]. destruct (vltb v w) eqn:L.
    - constructor; [constructor; assumption|]. constructor; [exact L|]. apply (proj2 (Forall_forall _ _)). intros x Hx. pose proof (proj1 (Forall_forall _ _) H x Hx) as X. cbn in *. exact (vltb_trans _ _ _ L X).
    - constructor; [apply IH; tauto|]. apply (Permutation_Forall (Permutation_sym (linsert_perm v c l (fun X => N (or_intror X))))). constructor; [|exact H]. cbn. apply vltb_total; [|exact L]. apply veqb_neq. congruence.
  Qed.
  Lemma lcollect_ok (l : list (var * F p)) : NoDup (map fst l) -> Permutation (lcollect l) l /\ in_order (lcollect l).
  Proof.
    intros N. unfold lcollect. assert (G : forall m, in_order m -> NoDup (map fst (m ++ l)) -> Permutation (fold_left (fun m vc => linsert (fst vc) (snd vc) m) l m) (m ++ l) /\ in_order (fold_left (fun m vc => linsert (fst vc) (snd vc) m) l m)).
    { clear N. induction l as [|[v c] l IH]; intros m O N; cbn [fold_left fst snd]; [rewrite app_nil_r; auto|].
      rewrite map_app in N. cbn in N. pose proof (NoDup_remove_2 _ _ _ N) as NI. assert (NM : ~ In v (map fst m)) by (intros X; apply NI, in_or_app; auto).
      pose proof (linsert_perm v c m NM) as P. destruct (IH (linsert v c m) (linsert_order v c m O NM)) as [P2 O2].
      - apply (Permutation_NoDup (l := map fst m ++ v :: map fst l)); [|exact N]. rewrite map_app. rewrite (Permutation_map fst P). cbn. symmetry. apply Permutation_middle.
      - split; [|exact O2]. rewrite P2, P. cbn. apply Permutation_middle. }
    apply (G []); [constructor|exact N].
  Qed.
  Lemma in_order_nodup (l : list (var * F p)) : in_order l -> NoDup (map fst l).
  Proof.
    induction 1 as [|[v c] l S IH H]; cbn; constructor; [|exact IH]. intros X. apply in_map_iff in X. destruct X as ([w k] & E & I). cbn in E. subst w.
    pose proof (proj1 (Forall_forall _ _) H _ I) as L. cbn in L. rewrite vltb_irrefl in L. discriminate.
  Qed.
  Lemma NoDup_map_inj {A B} (h : A -> B) (l : list A) : (forall x y, In x l -> In y l -> h x = h y -> x = y) -> NoDup l -> NoDup (map h l).
  Proof.
    induction l as [|x l IH]; intros H N; cbn; constructor; inversion N as [|? ? N1 N2]; subst.
    - intros X. apply in_map_iff in X. destruct X as (y & E & I). apply N1. rewrite (H x y); cbn; auto.
    - apply IH; [|exact N2]. intros a b Ia Ib. apply H; cbn; auto.
  Qed.
  Lemma gmap_renamed h (e : gexp) : ordered e -> (forall v w, In v (vars e) -> In w (vars e) -> h v = h w -> v = w) -> renamed h e (gmap h e).
  Proof.
    induction e as [q l c IH] using gexp_ind'. intros O I. inversion O as [? ? ? Oq Ol]; subst. cbn [gmap].
    assert (N : NoDup (map fst (map (fun vc : var * F p => (h (fst vc), snd vc)) l))).
    { rewrite map_map. cbn. rewrite <- (map_map fst h). apply NoDup_map_inj; [|now apply in_order_nodup]. intros x y Hx Hy. apply I; cbn; apply in_or_app; right; assumption. }
    destruct (lcollect_ok _ N) as [P S]. constructor; [|exact P|exact S].
    assert (Iq : forall v w, In v (flat_map (fun ab => vars (fst ab) ++ vars (snd ab)) q) -> In w (flat_map (fun ab => vars (fst ab) ++ vars (snd ab)) q) -> h v = h w -> v = w).
    { intros v w Hv Hw. apply I; cbn; apply in_or_app; left; assumption. }
    clear I O Ol N P S l. induction IH as [|[a b] q [Ia Ib] _ IHq]; cbn; constructor; inversion Oq as [|? ? [Oa Ob] Oq']; subst; cbn in *.
    - split; [apply Ia; [exact Oa|]|apply Ib; [exact Ob|]]; intros v w Hv Hw; apply Iq; rewrite !in_app_iff; tauto.
    - apply IHq; [exact Oq'|]. intros v w Hv Hw. apply Iq; rewrite !in_app_iff; tauto.
  Qed.
  Lemma gmap_ext h g (e : gexp) : (forall v, In v (vars e) -> h v = g v) -> gmap h e = gmap g e.
  Proof.
    induction e as [q l c IH] using gexp_ind'. intros H. cbn [gmap]. f_equal.
    - assert (Hq : forall v, In v (flat_map (fun ab => vars (fst ab) ++ vars (snd ab)) q) -> h v = g v) by (intros v Hv; apply H; cbn; apply in_or_app; auto). clear H.
      induction IH as [|[a b] q [Ia Ib] _ IHq]; cbn [map]; [reflexivity|]. cbn in *. rewrite Ia, Ib, IHq; [reflexivity| | |]; intros v Hv; apply Hq; rewrite !in_app_iff; tauto.
    - f_equal. apply map_ext_in. intros [v k] Hv. cbn. f_equal. apply H. cbn. apply in_or_app. right. apply in_map_iff. now exists (v, k).
  Qed.
  (** Lists in order with the same elements are equal. *)
  Lemma in_order_unique (l1 : list (var * F p)) : forall l2, in_order l1 -> in_order l2 -> Permutation l1 l2 -> l1 = l2.
  Proof.
    induction l1 as [|a l1 IH]; intros l2 S1 S2 P; [symmetry; now apply Permutation_nil|]. destruct l2 as [|b l2]; [symmetry in P; apply Permutation_nil in P; discriminate|].
    inversion S1 as [|? ? S1' H1]; inversion S2 as [|? ? S2' H2]; subst.
    assert (a = b).
    { assert (Ia : In a (b :: l2)) by (apply (Permutation_in _ P); cbn; auto). assert (Ib : In b (a :: l1)) by (apply (Permutation_in _ (Permutation_sym P)); cbn; auto).
      destruct Ia as [->|Ia]; [reflexivity|]. destruct Ib as [->|Ib]; [reflexivity|]. pose proof (proj1 (Forall_forall _ _) H2 a Ia) as L1. pose proof (proj1 (Forall_forall _ _) H1 b Ib) as L2. cbn in L1, L2.
      pose proof (vltb_trans _ _ _ L1 L2) as X. rewrite vltb_irrefl in X. discriminate. }
    subst b. f_equal. apply IH; auto. exact (Permutation_cons_inv P).
  Qed.
  Lemma renamed_unique h (e : gexp) : forall e1 e2, renamed h e e1 -> renamed h e e2 -> e1 = e2.
  Proof.
    induction e as [q l c IH] using gexp_ind'. intros e1 e2 R1 R2. inversion R1 as [? ? ? q1 l1 F1 P1 S1]; inversion R2 as [? ? ? q2 l2 F2 P2 S2]; subst. f_equal.
    - clear R1 R2 P1 P2 S1 S2 l1 l2. revert q2 F2. induction F1 as [|[a b] [a1 b1] q q1 [Ra Rb] F1 IHq]; intros q2 F2; inversion F2 as [|? [a2 b2] ? q2' [Ra2 Rb2] F2']; subst; [reflexivity|].
      inversion IH as [|? ? [Ia Ib] IH']; subst. cbn in *. rewrite (Ia _ _ Ra Ra2), (Ib _ _ Rb Rb2), (IHq IH' _ F2'). reflexivity.
    - apply in_order_unique; auto. now rewrite P1, P2.
  Qed.
  Lemma renamed_back h g (e : gexp) : forall e1 e2, ordered e -> (forall v, In v (vars e) -> g (h v) = v) -> renamed h e e1 -> renamed g e1 e2 -> e2 = e.
  Proof.
    induction e as [q l c IH] using gexp_ind'. intros e1 e2 O B R1 R2. inversion O as [? ? ? Oq Ol]; subst. inversion R1 as [? ? ? q1 l1 F1 P1 S1]; subst. inversion R2 as [? ? ? q2 l2 F2 P2 S2]; subst. f_equal.
    - assert (Bq : forall v, In v (flat_map (fun ab => vars (fst ab) ++ vars (snd ab)) q) -> g (h v) = v) by (intros v Hv; apply B; cbn; apply in_or_app; auto).
      clear R1 R2 P1 P2 S1 S2 l1 l2 B O Ol. revert q2 F2. induction F1 as [|[a b] [a1 b1] q q1 [Ra Rb] F1 IHq]; intros q2 F2; inversion F2 as [|? [a2 b2] ? q2' [Ra2 Rb2] F2']; subst; [reflexivity|].
      inversion IH as [|? ? [Ia Ib] IH']; inversion Oq as [|? ? [Oa Ob] Oq']; subst. cbn in *. rewrite (Ia a1 a2), (Ib b1 b2), (IHq IH' Oq') with (q2 := q2'); auto.
      all: intros v Hv; apply Bq; rewrite !in_app_iff; tauto.
    - apply in_order_unique; auto. rewrite P2, P1, map_map. cbn. rewrite (map_ext_in _ (fun x => x)), map_id; [reflexivity|]. intros [v k] Hv. cbn. f_equal. apply B. cbn. apply in_or_app. right. apply in_map_iff. now exists (v, k).
  Qed.
  Lemma renamed_eval h (e : gexp) : forall e' s, renamed h e e' -> eval s e' = eval (fun v => s (h v)) e.
  Proof.
    induction e as [q l c IH] using gexp_ind'. intros e' s R. inversion R as [? ? ? q' l' FF P S]; subst. rewrite !eval_GE. f_equal. f_equal.
    - clear R P S l'. induction FF as [|[a b] [a1 b1] q q1 [Ra Rb] FF IHq]; [reflexivity|]. inversion IH as [|? ? [Ia Ib] IH']; subst. rewrite !eq_sum_cons, (IHq IH'). cbn [fst snd] in *. now rewrite (Ia _ s Ra), (Ib _ s Rb).
    - assert (E : forall l1 l2, Permutation l1 l2 -> el_sum (p := p) s l1 = el_sum s l2).
      { induction 1 as [|x l1 l2 _ E|x y l1|l1 l2 l3 _ E1 _ E2]; rewrite ?el_sum_cons; [reflexivity|now rewrite E| |congruence].
        ring. }
      rewrite (E _ _ P). clear. induction l as [|[v k] l IH]; [reflexivity|]. cbn [map]. rewrite !el_sum_cons, IH. reflexivity.
  Qed.
  Lemma renamed_ordered h (e : gexp) : forall e', renamed h e e' -> ordered e'.
  Proof.
    induction e as [q l c IH] using gexp_ind'. intros e' R. inversion R as [? ? ? q' l' FF P S]; subst. constructor; [|exact S]. clear R P S l'.
    induction FF as [|[a b] [a1 b1] q q1 [Ra Rb] FF IHq]; constructor; inversion IH as [|? ? [Ia Ib] IH']; subst; cbn in *; auto.
  Qed.
  Lemma renamed_vars h (e : gexp) : forall e' w, renamed h e e' -> (In w (vars e') <-> exists v, In v (vars e) /\ w = h v).
  Proof.
    induction e as [q l c IH] using gexp_ind'. intros e' w R. inversion R as [? ? ? q' l' FF P S]; subst. cbn [vars]. rewrite in_app_iff.
    assert (Q : In w (flat_map (fun ab => vars (fst ab) ++ vars (snd ab)) q') <-> exists v, In v (flat_map (fun ab => vars (fst ab) ++ vars (snd ab)) q) /\ w = h v).
    { clear R P S l'. induction FF as [|[a b] [a1 b1] q q1 [Ra Rb] FF IHq]; cbn; [split; [tauto|intros (v & [] & _)]|]. inversion IH as [|? ? [Ia Ib] IH']; subst. cbn in *.
      rewrite !in_app_iff, (Ia _ w Ra), (Ib _ w Rb), (IHq IH'). split.
      - intros [[(v & Hv & E)|(v & Hv & E)]|(v & Hv & E)]; exists v; rewrite !in_app_iff; tauto.
      - intros (v & Hv & E). rewrite !in_app_iff in Hv. destruct Hv as [[Hv|Hv]|Hv]; [left; left|left; right|right]; now exists v. }
    rewrite Q. split.
    - intros [(v & Hv & E)|H]; [exists v; rewrite in_app_iff; tauto|]. apply (Permutation_in (l' := map fst (map (fun vc => (h (fst vc), snd vc)) l)) w (Permutation_map fst P)) in H.
      rewrite map_map in H. apply in_map_iff in H. destruct H as ([v k] & E & I). exists v. rewrite in_app_iff. split; [right; apply in_map_iff; now exists (v, k)|symmetry; exact E].
    - intros (v & Hv & E). apply in_app_iff in Hv. destruct Hv as [Hv|Hv]; [left; now exists v|]. right. apply (Permutation_in (l := map fst (map (fun vc => (h (fst vc), snd vc)) l)) w (Permutation_sym (Permutation_map fst P))).
      rewrite map_map. apply in_map_iff in Hv. destruct Hv as ([u k] & <- & I). apply in_map_iff. now exists (u, k).
  Qed.
End Renamed.
