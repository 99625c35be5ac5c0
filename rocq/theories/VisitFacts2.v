(** Proofs about rewriting expressions and machines. *)
From Coq Require Import Arith NArith Bool List Lia Permutation Sorted.
From Verif Require Import Field ExprModel SystemModel SymModel SymSpec SymFacts NumModel NumFacts JsonModel JsonSpec VisitModel VisitSpec VisitFacts.
Import ListNotations.

Section Facts.
  Context {p : positive}.
  Local Notation E := (nexpr p).

  (** ** Callbacks without state *)
  Definition walk (n : nat) (g : E -> E) (w : order) (e : E) : option E := result (without_break (visit_mut n (continue (rewriting g)) w tt e)).
  Lemma no_break {St} (f : St -> E -> St * E) w n : forall s e s' x b, visit_mut n (continue f) w s e = Some (s', x, b) -> b = None.
  Proof.
    induction n as [|n IH]; intros s e s' x b; [discriminate|]. cbn [visit_mut].
    assert (T : forall l s s' l' b', try_each_mut (visit_mut n (continue f) w) s l = Some (s', l', b') -> b' = None).
    { intros l. clear -IH. induction l as [|a l IHl]; intros s s' l' b'; cbn; [congruence|]. destruct (visit_mut n _ w s a) as [[[s1 a1] b1]|] eqn:Ea; [|discriminate]. rewrite (IH _ _ _ _ _ Ea).
      destruct (try_each_mut _ s1 l) as [[[s2 l1] b2]|] eqn:El; [|discriminate]. intros [= <- <- <-]. eapply IHl; eauto. }
    destruct w; unfold continue at 1.
    - destruct (f s e) as [s1 e1]. destruct (try_each_mut _ s1 _) as [[[s2 l] b1]|] eqn:Et; [|discriminate]. rewrite (T _ _ _ _ _ Et). congruence.
    - destruct (try_each_mut _ s _) as [[[s2 l] b1]|] eqn:Et; [|discriminate]. rewrite (T _ _ _ _ _ Et). unfold continue. congruence.
  Qed.
  Lemma walk_some n g w e e' : walk n g w e = Some e' <-> visit_mut n (continue (rewriting g)) w tt e = Some (tt, e', None).
  Proof.
    unfold walk. destruct (visit_mut n _ w tt e) as [[[[] x] b]|] eqn:Ev; cbn; [|split; discriminate]. rewrite (no_break _ _ _ _ _ _ _ _ Ev). split; congruence.
  Qed.
  Lemma walk_mono n k g w e e' : walk n g w e = Some e' -> n <= k -> walk k g w e = Some e'.
  Proof. rewrite !walk_some. intros. eapply visit_mut_mono; eauto. Qed.
  Lemma walk_none n g w e : walk n g w e = None <-> visit_mut n (continue (rewriting g)) w tt e = None.
  Proof. unfold walk. destruct (visit_mut n _ w tt e) as [[[[] x] b]|]; cbn; split; congruence. Qed.
  (** One step of a walk. *)
  Definition parts (n : nat) (g : E -> E) (w : order) (e : E) : option E :=
    match e with
    | NBin l o r => match walk n g w l, walk n g w r with Some l', Some r' => Some (NBin l' o r') | _, _ => None end
    | NNeg x => match walk n g w x with Some x' => Some (NNeg x') | None => None end
    | e => Some e
    end.
  Lemma walk_step n g w e : walk (S n) g w e =
    match w with Pre => parts n g Pre (g e) | Post => match parts n g Post e with Some e' => Some (g e') | None => None end end.
  Proof.
    assert (P : forall x, match try_each_mut (visit_mut n (continue (rewriting g)) w) tt (children x) with
                     | Some (tt, l, None) => Some (put_children x l) | _ => None end = parts n g w x
                 /\ match try_each_mut (visit_mut n (continue (rewriting g)) w) tt (children x) with Some (_, _, Some _) => False | _ => True end).
    { intros [name id|k|l o r|x]; cbn [children try_each_mut parts]; auto.
      - destruct (walk n g w l) as [l'|] eqn:El.
        + apply walk_some in El. rewrite El. destruct (walk n g w r) as [r'|] eqn:Er; [apply walk_some in Er|apply walk_none in Er]; rewrite Er; auto.
        + apply walk_none in El. rewrite El. auto.
      - destruct (walk n g w x) as [l'|] eqn:El; [apply walk_some in El|apply walk_none in El]; rewrite El; auto. }
    unfold walk at 1. cbn [visit_mut]. destruct w.
    - unfold continue, rewriting at 1. cbn -[try_each_mut visit_mut]. destruct (P (g e)) as [P1 P2]. rewrite <- P1.
      destruct (try_each_mut _ tt (children (g e))) as [[[[] l] [b|]]|]; [contradiction| |]; reflexivity.
    - destruct (P e) as [P1 P2]. rewrite <- P1. destruct (try_each_mut _ tt (children e)) as [[[[] l] [b|]]|]; [contradiction| |]; reflexivity.
  Qed.
  Lemma walk_post n g : forall e : E, height e < n -> walk n g Post e = Some (bottom_up g e).
  Proof.
    induction n as [|n IH]; intros e H; [lia|]. rewrite walk_step. destruct e as [name id|k|l o r|x]; cbn [parts bottom_up height] in *; auto; rewrite !IH by lia; auto.
  Qed.
  Lemma walk_top n g : forall e e' : E, walk n g Pre e = Some e' -> top_down g e e'.
  Proof.
    induction n as [|n IH]; intros e e' H; [discriminate|]. rewrite walk_step in H. destruct (g e) as [name id|k|l o r|x] eqn:Eg; cbn [parts] in H.
    - injection H as <-. rewrite <- Eg. apply top_leaf. now rewrite Eg.
    - injection H as <-. rewrite <- Eg. apply top_leaf. now rewrite Eg.
    - destruct (walk n g Pre l) eqn:El; [|discriminate]. destruct (walk n g Pre r) eqn:Er; [|discriminate]. injection H as <-. eapply top_bin; eauto.
    - destruct (walk n g Pre x) eqn:El; [|discriminate]. injection H as <-. eapply top_neg; eauto.
  Qed.
  Lemma top_walk g (e e' : E) : top_down g e e' -> exists n, walk n g Pre e = Some e'.
  Proof.
    induction 1 as [e L|e l o r l' r' Hg Hl (n & IHl) Hr (k & IHr)|e x x' Hg Hx (n & IHx)].
    - exists 1. rewrite walk_step. destruct (g e); try contradiction; reflexivity.
    - exists (S (n + k)). rewrite walk_step, Hg. cbn [parts]. rewrite (walk_mono n (n + k) _ _ _ _ IHl), (walk_mono k (n + k) _ _ _ _ IHr) by lia. reflexivity.
    - exists (S n). rewrite walk_step, Hg. cbn [parts]. now rewrite IHx.
  Qed.
  Lemma walk_functional n k g w (e x y : E) : walk n g w e = Some x -> walk k g w e = Some y -> x = y.
  Proof. intros H1 H2. apply (walk_mono n (n + k)) in H1; [|lia]. apply (walk_mono k (n + k)) in H2; [|lia]. congruence. Qed.

  (** ** Zero *)
  Fixpoint zeroed (e : E) : E := match e with NRef _ _ => NNum 0%F | NNum k => NNum k | NBin l o r => NBin (zeroed l) o (zeroed r) | NNeg e => NNeg (zeroed e) end.
  Lemma walk_zero n : forall e : E, height e < n -> walk n zero_reference Pre e = Some (zeroed e).
  Proof. induction n as [|n IH]; intros e H; [lia|]. rewrite walk_step. destruct e as [name id|k|l o r|x]; cbn [parts zero_reference zeroed height] in *; auto; rewrite !IH by lia; auto. Qed.
  Lemma zeroed_nameless (e : E) : nameless (zeroed e) = make_refs_zero (nameless e).
  Proof. induction e; cbn; congruence. Qed.
  Lemma zeroed_value env (e : E) : nvalue env (zeroed e) = nvalue (fun _ => 0%F) e.
  Proof. induction e as [| |l IHl o r IHr|e IH]; cbn; auto; [destruct o|]; congruence. Qed.

  (** ** Substitution *)
  Lemma same_names (e e' : E) : same e e' = true <-> no_names e = no_names e'.
  Proof.
    revert e'. induction e as [name id|k|l IHl o r IHr|e IH]; intros [name' id'|k'|l' o' r'|e']; cbn; try (split; discriminate).
    - rewrite N.eqb_eq. split; congruence.
    - rewrite N.eqb_eq. split; [intros H; f_equal; now apply F_ext|congruence].
    - rewrite !andb_true_iff, IHl, IHr. split; [intros [[-> O] ->]; destruct o, o'; try discriminate; reflexivity|]. intros [= -> -> ->]. repeat split; auto. now destruct o'.
    - rewrite IH. split; congruence.
  Qed.
  Lemma sub_get_in sub (e v : E) : sub_get sub e = Some v -> exists k, In (k, v) sub /\ no_names k = no_names e.
  Proof.
    induction sub as [|[k v'] r IH]; cbn; [discriminate|]. destruct (same k e) eqn:Es; [|intros H; destruct (IH H) as (k0 & Hk & Hn); eauto].
    intros [= ->]. exists k. split; [now left|]. now apply same_names.
  Qed.
  Lemma sub_get_none sub (e : E) : sub_get sub e = None <-> no_key sub e.
  Proof.
    unfold no_key. induction sub as [|[k v'] r IH]; cbn; [split; [intros _ ? ? []|auto]|]. destruct (same k e) eqn:Es.
    - split; [discriminate|]. intros H. exfalso. apply (H k v'); [now left|]. now apply same_names.
    - rewrite IH. split.
      + intros H k0 v0 [[= -> ->]|Hi]; [|eauto]. intros X. apply same_names in X. congruence.
      + intros H k0 v0 Hi. eapply H; eauto.
  Qed.
  Lemma walk_sub n sub (e : E) : walk (S n) (substitute_once sub) Pre e = parts n (substitute_once sub) Pre (match sub_get sub e with Some v => v | None => e end).
  Proof. apply walk_step. Qed.
  Lemma part_of_bin (l r : E) o x : part_of x (NBin l o r) -> x = NBin l o r \/ part_of x l \/ part_of x r.
  Proof. intros H. inversion H; subst; auto. Qed.
  Lemma stable sub n : forall e : E, (forall x, part_of x e -> no_key sub x) -> height e < n -> walk n (substitute_once sub) Pre e = Some e.
  Proof.
    induction n as [|n IH]; intros e K H; [lia|]. rewrite walk_sub. rewrite (proj2 (sub_get_none sub e) (K e (part_self e))).
    destruct e as [name id|k|l o r|x]; cbn [parts height] in *; auto; rewrite !IH; auto; try lia; intros; apply K; now constructor.
  Qed.
  Lemma stable_parts sub (e : E) : (forall x, part_of x e -> no_key sub x) -> forall n, height e <= n -> parts n (substitute_once sub) Pre e = Some e.
  Proof.
    intros K n H. destruct e as [name id|k|l o r|x]; cbn [parts height] in *; auto; rewrite !stable; auto; try lia; intros; apply K; now constructor.
  Qed.
  Lemma substitute_replaced sub : (forall k v x, In (k, v) sub -> part_of x v -> no_key sub x) ->
    forall e : E, exists e' n, replaced sub e e' /\ walk n (substitute_once sub) Pre e = Some e'.
  Proof.
    intros K. assert (Key : forall e v, sub_get sub e = Some v -> exists e' n, replaced sub e e' /\ walk n (substitute_once sub) Pre e = Some e').
    { intros e v Hg. destruct (sub_get_in _ _ _ Hg) as (k & Hk & Hn). exists v, (S (height v)). split; [eapply replaced_key; eauto|].
      rewrite walk_sub. rewrite Hg. apply stable_parts; auto. intros x Hx. eapply K; eauto. }
    induction e as [name id|k|l IHl o r IHr|x IHx].
    - destruct (sub_get sub (NRef name id)) eqn:Hg; [eapply Key; eauto|]. exists (NRef name id), 1. split; [apply replaced_leaf; cbn; auto; now apply sub_get_none|].
      rewrite walk_sub. now rewrite Hg.
    - destruct (sub_get sub (NNum k)) eqn:Hg; [eapply Key; eauto|]. exists (NNum k), 1. split; [apply replaced_leaf; cbn; auto; now apply sub_get_none|].
      rewrite walk_sub. now rewrite Hg.
    - destruct (sub_get sub (NBin l o r)) eqn:Hg; [eapply Key; eauto|]. destruct IHl as (l' & n & Rl & Wl), IHr as (r' & k & Rr & Wr).
      exists (NBin l' o r'), (S (n + k)). split; [apply replaced_bin; auto; now apply sub_get_none|].
      rewrite walk_sub. rewrite Hg. cbn [parts]. rewrite (walk_mono n (n + k) _ _ _ _ Wl), (walk_mono k (n + k) _ _ _ _ Wr) by lia. reflexivity.
    - destruct (sub_get sub (NNeg x)) eqn:Hg; [eapply Key; eauto|]. destruct IHx as (x' & n & Rx & Wx).
      exists (NNeg x'), (S n). split; [apply replaced_neg; auto; now apply sub_get_none|]. rewrite walk_sub. rewrite Hg. cbn [parts]. now rewrite Wx.
  Qed.
  Lemma key_unique sub (k k' v v' : E) : different_keys sub -> In (k, v) sub -> In (k', v') sub -> no_names k = no_names k' -> v = v'.
  Proof.
    unfold different_keys. induction sub as [|[a b] r IH]; [intros _ []|]. intros D H1 H2 Hn. inversion D as [|x y D1 D2]; subst. cbn [fst] in D1.
    destruct H1 as [[= -> ->]|H1], H2 as [[= -> ->]|H2]; auto.
    - exfalso. apply D1. rewrite Hn. now apply (in_map (fun kv : E * E => no_names (fst kv)) _ _ H2).
    - exfalso. apply D1. rewrite <- Hn. now apply (in_map (fun kv : E * E => no_names (fst kv)) _ _ H1).
  Qed.
  Lemma replaced_unique sub (e x : E) : different_keys sub -> replaced sub e x -> forall y, replaced sub e y -> x = y.
  Proof.
    intros D. induction 1 as [e k v Hk Hn|e K L|l o r l' r' K Hl IHl Hr IHr|e e' K He IH]; intros y Hy.
    - inversion Hy as [e0 k0 v0 Hk0 Hn0|e0 K0 L0|l0 o0 r0 l1 r1 K0|e0 e1 K0]; subst; [eapply key_unique; eauto; congruence| | |]; exfalso; apply (K0 k v Hk Hn).
    - inversion Hy as [e0 k0 v0 Hk0 Hn0|e0 K0 L0|l0 o0 r0 l1 r1 K0|e0 e1 K0]; subst; auto; try contradiction. exfalso. apply (K k0 y Hk0 Hn0).
    - inversion Hy as [e0 k0 v0 Hk0 Hn0|e0 K0 L0|l0 o0 r0 l1 r1 K0|e0 e1 K0]; subst; try contradiction; [exfalso; apply (K k0 y Hk0 Hn0)|]. f_equal; auto.
    - inversion Hy as [e0 k0 v0 Hk0 Hn0|e0 K0 L0|l0 o0 r0 l1 r1 K0|e0 e1 K0]; subst; try contradiction; [exfalso; apply (K k0 y Hk0 Hn0)|]. f_equal; auto.
  Qed.
  Lemma no_names_value env (e e' : E) : no_names e = no_names e' -> nvalue env e = nvalue env e'.
  Proof.
    revert e'. induction e as [name id|k|l IHl o r IHr|e IH]; intros [name' id'|k'|l' o' r'|e']; cbn; try discriminate; intros H.
    - congruence.
    - congruence.
    - injection H as H1 <- H2. rewrite (IHl _ H1), (IHr _ H2). reflexivity.
    - injection H as H1. now rewrite (IH _ H1).
  Qed.
  Lemma substitute_value sub env : (forall k v, In (k, v) sub -> nvalue env k = nvalue env v) ->
    forall n (e e' : E), walk n (substitute_once sub) Pre e = Some e' -> nvalue env e' = nvalue env e.
  Proof.
    intros H. assert (Q : forall e, nvalue env (substitute_once sub e) = nvalue env e).
    { intros e. unfold substitute_once. destruct (sub_get sub e) eqn:Hg; auto. destruct (sub_get_in _ _ _ Hg) as (k & Hk & Hn). rewrite <- (H _ _ Hk). now apply no_names_value. }
    induction n as [|n IH]; intros e e' W; [discriminate|]. rewrite walk_step in W. rewrite <- (Q e).
    destruct (substitute_once sub e) as [name id|k|l o r|x]; cbn [parts] in W.
    - now injection W as <-.
    - now injection W as <-.
    - destruct (walk n _ Pre l) eqn:El; [|discriminate]. destruct (walk n _ Pre r) eqn:Er; [|discriminate]. injection W as <-.
      apply IH in El, Er. cbn. destruct o; congruence.
    - destruct (walk n _ Pre x) eqn:El; [|discriminate]. injection W as <-. apply IH in El. cbn. congruence.
  Qed.
  (** A value that contains its key. *)
  Lemma substitute_loops sub name id (v : E) : In (NRef name id, v) sub -> different_keys sub -> forall n,
    (exists l o, v = NBin (NRef name id) o l) -> walk n (substitute_once sub) Pre (NRef name id) = None.
  Proof.
    intros Hi D n (l & o & ->). assert (Hg : sub_get sub (NRef name id) = Some (NBin (NRef name id) o l)).
    { revert Hi D. unfold different_keys. clear. induction sub as [|[k v] r IH]; [intros []|]. intros [[= -> ->]|Hi] D; cbn; [now rewrite N.eqb_refl|].
      inversion D as [|a b D1 D2]; subst. destruct (same k (NRef name id)) eqn:Es; [|now apply IH]. exfalso. apply D1. cbn [fst]. apply same_names in Es. rewrite Es.
      change (no_names (NRef name id)) with ((fun kv : E * E => no_names (fst kv)) (NRef name id, NBin (NRef name id) o l)). now apply (in_map (fun kv : E * E => no_names (fst kv))). }
    induction n as [|n IH]; [reflexivity|]. rewrite walk_sub. rewrite Hg. cbn [parts]. now rewrite IH.
  Qed.

  (** ** References *)
  Lemma collect_snoc l kv : bt_collect (l ++ [kv]) = bt_insert (fst kv) (snd kv) (bt_collect l).
  Proof. unfold bt_collect. now rewrite fold_left_app. Qed.
  Definition ascending (l : list (N * text)) : Prop := StronglySorted N.lt (map fst l).
  Lemma insert_keys k v m x : In x (map fst (bt_insert k v m)) -> x = k \/ In x (map fst m).
  Proof.
    induction m as [|[k' v'] r IH]; cbn; [intros [<- | []]; auto|]. destruct (k <? k')%N; [cbn; intros [<- | [<- | H]]; auto|].
    destruct (k =? k')%N; cbn; [intros [<- | H]; auto|]. intros [<- | H]; auto. destruct (IH H); auto.
  Qed.
  Lemma insert_ascending k v m : ascending m -> ascending (bt_insert k v m).
  Proof.
    unfold ascending. induction m as [|[k' v'] r IH]; cbn; intros A; [repeat constructor|]. inversion A as [|a b A1 A2]; subst. rewrite Forall_forall in A2.
    destruct (N.ltb_spec k k') as [L|L].
    - cbn. constructor; auto. apply Forall_forall. intros x [<- | Hx]; auto. specialize (A2 x Hx). lia.
    - destruct (N.eqb_spec k k') as [->|D]; cbn; [now constructor; auto; apply Forall_forall|]. constructor; [auto|]. apply Forall_forall. intros x Hx.
      apply insert_keys in Hx. destruct Hx as [->|Hx]; [lia|auto].
  Qed.
  Lemma insert_in k v m x : ascending m -> In x (bt_insert k v m) <-> x = (k, v) \/ fst x <> k /\ In x m.
  Proof.
    unfold ascending. induction m as [|[k' v'] r IH]; cbn; intros A; [intuition|]. inversion A as [|a b A1 A2]; subst. rewrite Forall_forall in A2.
    assert (A3 : forall y, In y r -> (k' < fst y)%N) by (intros y Hy; apply A2; now apply in_map).
    destruct (N.ltb_spec k k') as [L|L].
    - cbn. split; [intros [<- | [<- | H]]; auto; right; cbn; [split; [lia|auto]|specialize (A3 _ H); split; [lia|auto]]|]. intros [->|[_ [<- | H]]]; auto.
    - destruct (N.eqb_spec k k') as [->|D]; cbn.
      + split; [intros [<- | H]; auto; right; specialize (A3 _ H); split; [lia|auto]|]. intros [->|[N0 [<- | H]]]; auto. now cbn in N0.
      + rewrite (IH A1). split; [intros [<- | [->|[N0 H]]]; auto; right; cbn; auto|]. intros [->|[N0 [<- | H]]]; auto.
  Qed.
  Lemma collect_ascending l : ascending (bt_collect l).
  Proof. induction l as [|kv l IH] using rev_ind; [constructor|]. rewrite collect_snoc. now apply insert_ascending. Qed.
  Lemma last_name_snoc l kv id name : last_name (l ++ [kv]) id name <-> (id, name) = kv \/ id <> fst kv /\ last_name l id name.
  Proof.
    unfold last_name. split.
    - intros (l1 & l2 & El & Hl). destruct l2 as [|y l2 _] using rev_ind.
      + apply app_inj_tail in El. destruct El as [_ ->]. auto.
      + rewrite app_comm_cons, app_assoc in El. apply app_inj_tail in El. destruct El as [-> ->]. right. rewrite map_app, in_app_iff in Hl. cbn in Hl. split; [intuition|]. exists l1, l2. split; [reflexivity|tauto].
    - intros [<- | [D (l1 & l2 & -> & Hl)]]; [exists l, []; auto|]. exists l1, (l2 ++ [kv]). split; [now rewrite <- app_assoc|]. rewrite map_app, in_app_iff. cbn. intuition.
  Qed.
  Lemma collect_last l id name : In (id, name) (bt_collect l) <-> last_name l id name.
  Proof.
    induction l as [|kv l IH] using rev_ind.
    - split; [intros []|]. intros ([|x l1] & l2 & El & _); discriminate.
    - rewrite collect_snoc, insert_in, last_name_snoc, IH by apply collect_ascending. destruct kv as [k v]. cbn. tauto.
  Qed.
  Lemma last_name_exists l id : In id (map fst l) <-> exists name, last_name l id name.
  Proof.
    induction l as [|kv l IH] using rev_ind.
    - split; [intros []|]. intros (name & [|x l1] & l2 & El & _); discriminate.
    - rewrite map_app, in_app_iff, IH. cbn. split.
      + destruct (N.eq_dec id (fst kv)) as [->|D]; intros H; [exists (snd kv); apply last_name_snoc; left; now destruct kv|].
        destruct H as [(name & H)|[H|[]]]; [|congruence]. exists name. apply last_name_snoc. auto.
      + intros (name & H). apply last_name_snoc in H. destruct H as [<- |[D H]]; eauto.
  Qed.
  Lemma columns_listed (e : E) : flat_map reference_of (all_children e) = columns e.
  Proof. induction e as [| |l IHl o r IHr|e IH]; cbn; auto. now rewrite flat_map_app, IHl, IHr. Qed.
  Lemma flat_map_flat_map {A B C} (f : A -> list B) (g : B -> list C) l : flat_map g (flat_map f l) = flat_map (fun a => flat_map g (f a)) l.
  Proof. induction l as [|a l IH]; cbn; auto. now rewrite flat_map_app, IH. Qed.
  Lemma columns_machine (m : nmach p) : flat_map reference_of (machine_all_children m) = machine_columns m.
  Proof.
    unfold machine_all_children, nm_children, machine_columns. rewrite flat_map_app, flat_map_app. rewrite !flat_map_flat_map. f_equal.
    - apply flat_map_ext. apply columns_listed.
    - apply flat_map_ext. intros b. unfold nb_children. cbn [flat_map]. rewrite columns_listed. f_equal. apply flat_map_ext. apply columns_listed.
  Qed.

  (** ** Columns of machines *)
  Lemma visit_columns {St} (f : St -> E -> St * E) (h : text -> N -> text * N) (s : St) n : forall e : E, height e < n ->
    (forall e, match e with NRef _ _ => False | _ => True end -> f s e = (s, e)) ->
    (forall name id, In (id, name) (columns e) -> f s (NRef name id) = (s, NRef (fst (h name id)) (snd (h name id)))) ->
    visit_mut n (continue f) Pre s e = Some (s, map_columns h e, None).
  Proof.
    induction n as [|n IH]; intros e H H1 H2; [lia|]. destruct e as [name id|k|l o r|x]; cbn [visit_mut]; unfold continue at 1; cbn [columns height] in *.
    - rewrite H2 by now left. reflexivity.
    - rewrite H1; cbn; auto.
    - rewrite H1 by exact I. cbn [children try_each_mut]. rewrite (IH l ltac:(lia) H1) by (intros; apply H2; apply in_app_iff; auto).
      rewrite (IH r ltac:(lia) H1) by (intros; apply H2; apply in_app_iff; auto). reflexivity.
    - rewrite H1 by exact I. cbn [children try_each_mut]. rewrite (IH x ltac:(lia) H1) by auto. reflexivity.
  Qed.
  Lemma max_height (l : list E) e n : In e l -> fold_right (fun e h => Nat.max (height e) h) 0 l < n -> height e < n.
  Proof. induction l as [|a l IH]; [intros []|]. cbn. intros [-> | H] L; [lia|]. apply IH; auto. lia. Qed.
  Lemma put_mapped (h : E -> E) (m : nmach p) : nm_put m (map h (nm_children m)) =
    mkNM (map h (nm_cons m)) (map (fun b => mkNB (nb_id b) (h (nb_mult b)) (map h (nb_args b))) (nm_buses m)) (nm_derived m).
  Proof.
    unfold nm_put, nm_children. rewrite map_app. f_equal.
    - replace (length (nm_cons m)) with (length (map h (nm_cons m)) + 0) by now rewrite map_length, Nat.add_0_r. rewrite firstn_app_2. cbn. now rewrite app_nil_r.
    - replace (length (nm_cons m)) with (length (map h (nm_cons m))) by apply map_length. rewrite skipn_app, skipn_all, Nat.sub_diag. cbn.
      induction (nm_buses m) as [|b l IH]; cbn; auto. rewrite map_app. f_equal.
      + f_equal. replace (length (nb_args b)) with (length (map h (nb_args b)) + 0) by now rewrite map_length, Nat.add_0_r. rewrite firstn_app_2. cbn. now rewrite app_nil_r.
      + replace (length (nb_args b)) with (length (map h (nb_args b))) by apply map_length. rewrite skipn_app, skipn_all, Nat.sub_diag. cbn. exact IH.
  Qed.
  Lemma visit_machine_columns {St} (f : St -> E -> St * E) (h : text -> N -> text * N) (s : St) n (m : nmach p) : machine_height m < n ->
    (forall e, match e with NRef _ _ => False | _ => True end -> f s e = (s, e)) ->
    (forall name id, In (id, name) (machine_columns m) -> f s (NRef name id) = (s, NRef (fst (h name id)) (snd (h name id)))) ->
    pre_visit_machine_mut n f s m = Some (s, map_machine h m).
  Proof.
    intros H H1 H2. unfold pre_visit_machine_mut, visit_machine_mut.
    assert (Q : try_each_mut (visit_mut n (continue f) Pre) s (nm_children m) = Some (s, map (map_columns h) (nm_children m), None)).
    { assert (K : forall e, In e (nm_children m) -> height e < n /\ forall name id, In (id, name) (columns e) -> In (id, name) (machine_columns m)).
      { intros e He. split; [eapply max_height; [exact He|exact H]|]. intros name id Hc. rewrite <- columns_machine. unfold machine_all_children. rewrite flat_map_flat_map.
        apply in_flat_map. exists e. split; auto. now rewrite columns_listed. }
      revert K. generalize (nm_children m). intros l. induction l as [|e l IH]; intros K; cbn; [reflexivity|]. destruct (K e (or_introl eq_refl)) as [K1 K2].
      rewrite (visit_columns f h s n e K1 H1) by auto. rewrite IH by (intros; apply K; now right). reflexivity. }
    rewrite Q. cbn. f_equal. f_equal. apply put_mapped.
  Qed.
  Lemma map_height h (e : E) : height (map_columns h e) = height e.
  Proof. induction e; cbn; congruence. Qed.
  Lemma map_machine_height h (m : nmach p) : machine_height (map_machine h m) = machine_height m.
  Proof.
    assert (X : forall l, fold_right (fun (e : E) n => Nat.max (height e) n) 0 (map (map_columns h) l) = fold_right (fun e n => Nat.max (height e) n) 0 l).
    { intros l. induction l as [|e l IH]; cbn; auto. now rewrite map_height, IH. }
    unfold machine_height, map_machine. cbn [nm_cons nm_buses].
    replace (flat_map (fun b : nbus p => nb_mult b :: nb_args b) (map _ (nm_buses m))) with (map (map_columns h) (flat_map (fun b : nbus p => nb_mult b :: nb_args b) (nm_buses m))).
    - now rewrite <- map_app, X.
    - induction (nm_buses m) as [|b l IH]; cbn; auto. now rewrite map_app, IH.
  Qed.
  Lemma map_columns_ext g h (e : E) : (forall name id, In (id, name) (columns e) -> g name id = h name id) -> map_columns g e = map_columns h e.
  Proof.
    induction e as [name id|k|l IHl o r IHr|e IH]; cbn; intros H; auto.
    - rewrite H; auto.
    - rewrite IHl, IHr; auto; intros; apply H; apply in_app_iff; auto.
    - rewrite IH; auto.
  Qed.
  Lemma map_machine_ext g h (m : nmach p) : (forall name id, In (id, name) (machine_columns m) -> g name id = h name id) -> map_machine g m = map_machine h m.
  Proof.
    unfold machine_columns. intros H. unfold map_machine. f_equal.
    - apply map_ext_in. intros e He. apply map_columns_ext. intros. apply H. apply in_app_iff. left. apply in_flat_map. eauto.
    - apply map_ext_in. intros b Hb. assert (K : forall name id, In (id, name) (columns (nb_mult b) ++ flat_map columns (nb_args b)) -> g name id = h name id).
      { intros. apply H. apply in_app_iff. right. apply in_flat_map. eauto. }
      f_equal; [apply map_columns_ext; intros; apply K; apply in_app_iff; auto|]. apply map_ext_in. intros e He. apply map_columns_ext. intros. apply K. apply in_app_iff. right. apply in_flat_map. eauto.
  Qed.
  Lemma map_columns_comp g h (e : E) : map_columns g (map_columns h e) = map_columns (fun name id => g (fst (h name id)) (snd (h name id))) e.
  Proof. induction e; cbn; congruence. Qed.
  Lemma map_machine_comp g h (m : nmach p) : map_machine g (map_machine h m) = map_machine (fun name id => g (fst (h name id)) (snd (h name id))) m.
  Proof.
    unfold map_machine. cbn. rewrite !map_map. f_equal.
    - apply map_ext. intros e. apply map_columns_comp.
    - apply map_ext. intros b. cbn. rewrite map_map, map_columns_comp. f_equal. apply map_ext. intros e. apply map_columns_comp.
  Qed.

  Lemma bt_get_in m k : ascending m -> forall v, bt_get m k = Some v <-> In (k, v) m.
  Proof.
    unfold ascending. induction m as [|[k' v'] r IH]; cbn; intros A v; [split; [discriminate|intros []]|]. inversion A as [|a b A1 A2]; subst. rewrite Forall_forall in A2.
    destruct (N.eqb_spec k' k) as [->|D].
    - split; [intros [= ->]; auto|]. intros [[= ->]|H]; auto. apply (in_map fst) in H. specialize (A2 _ H). cbn in A2. lia.
    - rewrite (IH A1). split; auto. intros [[= -> _]|H]; [contradiction|auto].
  Qed.
  Lemma contiguous (i : N) r : NoDup (i :: r) ->
    (fold_left N.max r i =? N.of_nat (length (i :: r)) - 1)%N = true <-> forall x, In x (i :: r) <-> (x < N.of_nat (length (i :: r)))%N.
  Proof.
    intros Nd. rewrite N.eqb_eq. destruct (fold_max_in r i) as (H1 & H2 & H3). split.
    - intros Hm. apply ids_full; auto. intros x [<- | Hx]; [|specialize (H3 x Hx)]; cbn [length] in *; lia.
    - intros U. assert (M1 : (fold_left N.max r i < N.of_nat (length (i :: r)))%N) by (apply U; destruct H1 as [-> | H1]; cbn; auto).
      assert (In (N.of_nat (length (i :: r)) - 1)%N (i :: r)) as [X|X] by (apply U; cbn [length]; lia); [lia|]. specialize (H3 _ X). lia.
  Qed.
  Lemma ascending_nodup l : ascending l -> NoDup (map fst l).
  Proof.
    unfold ascending. generalize (map fst l). clear. intros l. induction 1 as [|a l S IH F]; constructor; auto. intros H. rewrite Forall_forall in F. specialize (F _ H). lia.
  Qed.
  Lemma full_length (l : list N) (width : N) : NoDup l -> (forall x, In x l <-> (x < width)%N) -> N.of_nat (length l) = width.
  Proof.
    intros Nd U. assert (X : Permutation l (map N.of_nat (seq 0 (N.to_nat width)))).
    { apply NoDup_Permutation; auto.
      - apply FinFun.Injective_map_NoDup; [intros a b; apply Nnat.Nat2N.inj|apply seq_NoDup].
      - intros x. rewrite U, in_map_iff. split; [intros; exists (N.to_nat x); rewrite in_seq; lia|intros (k & <- & Hk); rewrite in_seq in Hk; lia]. }
    apply Permutation_length in X. rewrite map_length, seq_length in X. lia.
  Qed.
  Lemma unique_ids_in (m : nmach p) x : In x (map fst (unique_references m)) <-> In x (map fst (machine_columns m)).
  Proof.
    rewrite (last_name_exists (machine_columns m)), <- columns_machine. unfold unique_references, unique_of. split.
    - intros H. apply in_map_iff in H. destruct H as ([id name] & <- & H). exists name. now apply collect_last.
    - intros (name & H). apply collect_last in H. apply (in_map fst) in H. exact H.
  Qed.
  (** The name of a column in the result. *)
  Definition final_name (m : nmach p) (suffix id : N) : text :=
    match bt_get (unique_references m) id with Some name => globalized_name suffix name | None => [] end.
  Lemma final_name_last (m : nmach p) suffix id name : last_name (machine_columns m) id name -> final_name m suffix id = globalized_name suffix name.
  Proof.
    intros H. unfold final_name. rewrite <- columns_machine in H. apply collect_last in H. apply (bt_get_in _ _ (collect_ascending _)) in H.
    unfold unique_references, unique_of. now rewrite H.
  Qed.
  Lemma get_map m k (f : text -> text) : bt_get (map (fun r => (fst r, f (snd r))) m) k = option_map f (bt_get m k).
  Proof. induction m as [|[k' v] r IH]; cbn; auto. destruct (k' =? k)%N; auto. Qed.
  Lemma globalize_steps n (m : nmach p) next suffix : machine_height m < n ->
    globalize_names n suffix m = Some (map_machine (fun _ id => (final_name m suffix id, id)) m) /\
    offset_ids n next (map_machine (fun _ id => (final_name m suffix id, id)) m) = Some (map_machine (fun _ id => (final_name m suffix id, (id + next)%N)) m).
  Proof.
    intros H. split.
    - unfold globalize_names. rewrite visit_machine_columns with (h := fun _ id => (final_name m suffix id, id)); auto.
      + intros [| | |]; cbn; tauto.
      + intros name id Hc. apply (in_map fst) in Hc. cbn [fst] in Hc. apply last_name_exists in Hc. destruct Hc as (name' & Hl). cbn [rename fst snd].
        rewrite get_map. rewrite <- columns_machine in Hl. apply collect_last in Hl. apply (bt_get_in _ _ (collect_ascending _)) in Hl.
        unfold final_name, unique_references, unique_of. rewrite Hl. reflexivity.
    - unfold offset_ids. rewrite visit_machine_columns with (h := fun name id => (name, (id + next)%N)).
      + cbn. f_equal. apply map_machine_comp.
      + now rewrite map_machine_height.
      + intros [| | |]; cbn; tauto.
      + intros. reflexivity.
  Qed.
  Lemma globalize_some n (m : nmach p) next suffix : machine_height m < n -> forall next' subs m',
    globalize_references n m next suffix = Some (next', subs, m') <->
    exists width, 0 < width /\ (forall id, In id (map fst (machine_columns m)) <-> (id < N.of_nat width)%N) /\
      next' = (next + N.of_nat width)%N /\ subs = nseq next width /\ m' = map_machine (fun _ id => (final_name m suffix id, (id + next)%N)) m.
  Proof.
    intros H next' subs m'. destruct (globalize_steps n m next suffix H) as [G1 G2]. unfold globalize_references.
    pose proof (ascending_nodup _ (collect_ascending (flat_map reference_of (machine_all_children m)))) as Nd. fold (unique_of (machine_all_children m)) in Nd. fold (unique_references m) in Nd.
    pose proof (unique_ids_in m) as U. destruct (map fst (unique_references m)) as [|i r] eqn:El.
    - split; [discriminate|]. intros (w & Hw & Hid & _). specialize (Hid 0%N). rewrite <- U in Hid. destruct Hid as [_ Hid]. exfalso. apply Hid. lia.
    - pose proof (contiguous i r Nd) as C. destruct (_ =? _)%N; [|].
      + rewrite G1, G2. split.
        * intros [= <- <- <-]. exists (length (i :: r)). split; [cbn; lia|]. split; [|auto]. intros id. rewrite <- U. now apply C.
        * intros (w & Hw & Hid & -> & -> & ->). assert (L : N.of_nat (length (i :: r)) = N.of_nat w) by (apply full_length; auto; intros x; now rewrite U, Hid).
          apply Nnat.Nat2N.inj in L. now rewrite L.
      + split; [discriminate|]. intros (w & Hw & Hid & _). assert (L : N.of_nat (length (i :: r)) = N.of_nat w) by (apply full_length; auto; intros x; now rewrite U, Hid).
        exfalso. enough (false = true) by discriminate. apply C. intros x. now rewrite U, Hid, L.
  Qed.

  (** ** Without names *)
  Lemma nameless_off k h (e : E) : (forall name id, snd (h name id) = (id + k)%N) -> nameless (map_columns h e) = aoff k (nameless e).
  Proof. intros H. induction e; cbn; try congruence. Qed.
  Lemma nameless_machine_off k h (m : nmach p) : (forall name id, snd (h name id) = (id + k)%N) -> nameless_machine (map_machine h m) = sm_off k (nameless_machine m).
  Proof.
    intros H. unfold nameless_machine, map_machine, sm_off. cbn. rewrite !map_map. f_equal.
    - apply map_ext. intros e. now apply nameless_off.
    - apply map_ext. intros b. cbn. unfold sb_off. cbn. rewrite !map_map, (nameless_off k h) by auto. f_equal. apply map_ext. intros e. now apply nameless_off.
  Qed.
  Lemma nameless_refs (e : E) : map vid (arefs (nameless e)) = map fst (columns e).
  Proof. induction e; cbn; auto. now rewrite !map_app, IHe1, IHe2. Qed.
  Lemma nameless_machine_refs (m : nmach p) : map vid (sm_refs (nameless_machine m)) = map fst (machine_columns m).
  Proof.
    assert (X : forall l, map vid (flat_map arefs (map nameless l)) = map fst (flat_map (@columns p) l)).
    { intros l. induction l as [|e l IH]; cbn; auto. now rewrite !map_app, nameless_refs, IH. }
    unfold sm_refs, sm_children, machine_columns, nameless_machine. cbn. rewrite flat_map_app, !map_app, X. f_equal.
    induction (nm_buses m) as [|b l IH]; cbn; auto. now rewrite !flat_map_app, !map_app, nameless_refs, X, IH, app_assoc.
  Qed.
  Lemma globalize_nameless n (m : nmach p) next suffix : machine_height m < n ->
    option_map (fun r => (fst r, nameless_machine (snd r))) (globalize_references n m next suffix) = globalize (nameless_machine m) next.
  Proof.
    intros H.
    assert (V : forall width, 0 < width -> (forall id, In id (map fst (machine_columns m)) <-> (id < N.of_nat width)%N) ->
      globalize (nameless_machine m) next = Some ((next + N.of_nat width)%N, nseq next width, sm_off next (nameless_machine m))).
    { intros w Hw Hid. unfold globalize. pose proof (unique_in (nameless_machine m)) as U. rewrite nameless_machine_refs in U.
      assert (Nd : NoDup (unique_ids (nameless_machine m))) by apply NoDup_nodup.
      destruct (unique_ids (nameless_machine m)) as [|i r]; [exfalso; apply (proj2 (U 0%N)); apply Hid; lia|].
      assert (L : N.of_nat (length (i :: r)) = N.of_nat w) by (apply full_length; auto; intros x; now rewrite U, Hid).
      rewrite (proj2 (contiguous i r Nd)); [|intros x; now rewrite U, Hid, L]. apply Nnat.Nat2N.inj in L. now rewrite L. }
    destruct (globalize_references n m next suffix) as [[[next' subs] m']|] eqn:Eg; cbn.
    - apply globalize_some in Eg; auto. destruct Eg as (w & Hw & Hid & -> & -> & ->). rewrite (V w Hw Hid). f_equal. f_equal. now apply nameless_machine_off.
    - destruct (globalize (nameless_machine m) next) as [[[next' subs] m']|] eqn:Ev; auto. apply globalize_inv in Ev. destruct Ev as (w & Hw & -> & -> & -> & Hid).
      rewrite nameless_machine_refs in Hid. exfalso. enough (X : globalize_references n m next suffix = Some ((next + N.of_nat w)%N, nseq next w, map_machine (fun _ id => (final_name m suffix id, (id + next)%N)) m)) by congruence.
      apply globalize_some; auto. exists w. auto.
  Qed.

  (** ** Names *)
  Lemma digits_tail (a b a' b' : text) : Forall (fun c => 48 <= c <= 57)%N b -> Forall (fun c => 48 <= c <= 57)%N b' -> a ++ [95%N] ++ b = a' ++ [95%N] ++ b' -> a = a' /\ b = b'.
  Proof.
    intros Hb Hb'. revert a'. induction a as [|x a IH]; intros [|y a'] H; cbn in H.
    - injection H as ->. auto.
    - injection H as <- ->. exfalso. rewrite Forall_forall in Hb. specialize (Hb 95%N). rewrite in_app_iff in Hb. cbn in Hb. assert (48 <= 95 <= 57)%N by auto. lia.
    - injection H as -> Hx. exfalso. rewrite Forall_forall in Hb'. specialize (Hb' 95%N). rewrite <- Hx, in_app_iff in Hb'. cbn in Hb'. assert (48 <= 95 <= 57)%N by auto. lia.
    - injection H as <- H. destruct (IH _ H) as [-> ->]. auto.
  Qed.
  Lemma globalized_name_inj s s' name name' : globalized_name s name = globalized_name s' name' -> name = name' /\ s = s'.
  Proof.
    intros H. apply digits_tail in H; [|apply print10_chars; constructor|apply print10_chars; constructor]. destruct H as [-> H]. split; auto.
    assert (Some s = Some s') by (rewrite <- (read_print 10 s), <- (read_print 10 s') by lia; now rewrite H). congruence.
  Qed.
End Facts.
