(** C68: the identifiers of the rule based optimizer stand for variables and expressions without confusing them. *)
From Coq Require Import Arith NArith Bool List Sorted Permutation Lia.
From Verif Require Import Field ExprModel ExprFacts SystemModel IdModel IdSpec IdFacts IdRound.
Import ListNotations.

(** A database after any items have been put in: exactly the items that were put in have an identifier, the identifier leads
    back to the item, it is the one that was returned, and it stays the same when more items are put in. *)
Theorem C68_items : forall (A : Type) (eqb : A -> A -> bool), (forall x y, eqb x y = true <-> x = y) -> forall first xs ys is1 is2 d1 d2,
  db_insert_all eqb (db_from_iter first) xs = (is1, d1) -> db_insert_all eqb d1 ys = (is2, d2) ->
  (forall x, In x (first ++ xs) <-> exists i, db_id eqb d1 x = Some i) /\
  (forall x i, db_id eqb d1 x = Some i -> db_index d1 i = Some x) /\
  (forall k x, nth_error xs k = Some x -> exists i, nth_error is1 k = Some i /\ db_id eqb d1 x = Some i) /\
  (forall x i, db_id eqb d1 x = Some i -> db_id eqb d2 x = Some i /\ db_index d2 i = Some x).
Proof.
  intros A eqb EQ first xs ys is1 is2 d1 d2 E1 E2. pose proof (insert_all_ok eqb EQ xs _ (from_iter_ok eqb EQ first)) as H1. rewrite E1 in H1. destruct H1 as (O1 & _ & W1 & _ & _ & M1).
  pose proof (insert_all_ok eqb EQ ys _ O1) as H2. rewrite E2 in H2. destruct H2 as (O2 & _ & _ & K2 & _ & _).
  split; [|split; [exact (proj1 O1)|split; [exact W1|]]].
  - intros x. rewrite in_app_iff. rewrite <- (M1 x). split.
    + intros I. destruct (db_id eqb d1 x) as [i|] eqn:E; [now exists i|]. exfalso. exact (proj2 O1 x I E).
    + intros (i & E). exact (nth_error_In _ _ (proj1 O1 x i E)).
  - intros x i H. split; [now apply K2|]. apply (proj1 O2). now apply K2.
Qed.
Print Assumptions C68_items.
Example C68_items_example : db_insert_all veqb (db_from_iter [Orig 3; Orig 3; Orig 7]) [Orig 9; Orig 3; Orig 9] = ([3; 1; 3], mkDb [Orig 3; Orig 3; Orig 7; Orig 9] [(Orig 9, 3); (Orig 7, 2); (Orig 3, 1); (Orig 3, 0)]).
Proof. reflexivity. Qed.

(** The databases of variables that occur: the sorted variables of a system and then new ones. *)
Definition variables_of (first new : list var) : item_db var := snd (db_insert_all veqb (db_from_iter first) new).
Lemma variables_ok first new : db_ok veqb (variables_of first new) /\ forall x, In x (db_items (variables_of first new)) <-> In x (first ++ new).
Proof.
  unfold variables_of. pose proof (insert_all_ok veqb veqb_eq new _ (from_iter_ok veqb veqb_eq first)) as H. destruct (db_insert_all veqb (db_from_iter first) new) as [is d]. destruct H as (O & _ & _ & _ & _ & M).
  split; [exact O|]. intros x. rewrite in_app_iff. apply M.
Qed.

(** ** The order *)
Definition monotone (d : item_db var) : Prop := forall x y i j, db_id veqb d x = Some i -> db_id veqb d y = Some j -> vltb x y = true -> i < j.
Lemma sorted_nth {A} (R : A -> A -> Prop) l : StronglySorted R l -> forall i j x y, nth_error l i = Some x -> nth_error l j = Some y -> i < j -> R x y.
Proof.
  induction 1 as [|a l S IH H]; intros i j x y Hi Hj L; [destruct i; discriminate|]. destruct j as [|j]; [lia|]. cbn in Hj. destruct i as [|i]; cbn in Hi.
  - injection Hi as ->. exact (proj1 (Forall_forall _ _) H y (nth_error_In _ _ Hj)).
  - apply (IH i j); auto. lia.
Qed.
Lemma from_iter_monotone l : StronglySorted (fun x y => vltb y x = false) l -> monotone (db_from_iter l).
Proof.
  intros S x y i j Hx Hy L. apply (proj1 (from_iter_ok veqb veqb_eq l)) in Hx, Hy. destruct (Nat.lt_trichotomy i j) as [Q|[->|Q]]; [exact Q| |].
  - rewrite Hx in Hy. injection Hy as ->. rewrite vltb_irrefl in L. discriminate.
  - pose proof (sorted_nth _ _ S j i y x Hy Hx Q) as X. cbn in X. congruence.
Qed.
Lemma insert_monotone d x : db_ok veqb d -> monotone d -> (forall y, In y (db_items d) -> vltb y x = true) -> monotone (snd (db_insert veqb d x)).
Proof.
  intros O M G. assert (N : ~ In x (db_items d)) by (intros I; specialize (G x I); rewrite vltb_irrefl in G; discriminate).
  rewrite (insert_fresh veqb d x O N). cbn [snd]. intros a b i j. unfold db_id. cbn. destruct (veqb_spec a x) as [->|Na]; destruct (veqb_spec b x) as [->|Nb].
  - intros _ _ L. rewrite vltb_irrefl in L. discriminate.
  - intros [= <-] Hb L. exfalso. pose proof (G b (nth_error_In _ _ (proj1 O b j Hb))) as X. pose proof (vltb_trans _ _ _ L X) as Y. rewrite vltb_irrefl in Y. discriminate.
  - intros Ha [= <-] _. unfold next_free_id. apply nth_error_Some. pose proof (proj1 O a i Ha) as X. unfold db_index in X. congruence.
  - intros Ha Hb L. exact (M a b i j Ha Hb L).
Qed.
(** Each new variable is larger than those before. *)
Fixpoint growing (before new : list var) : Prop := match new with [] => True | x :: new' => (forall y, In y before -> vltb y x = true) /\ growing (before ++ [x]) new' end.
(** The order of variables is that of their identifiers if the first ones are sorted and new ones are larger. *)
Theorem C68_order : forall first new x y i j, StronglySorted (fun x y => vltb y x = false) first -> growing first new ->
  db_id veqb (variables_of first new) x = Some i -> db_id veqb (variables_of first new) y = Some j -> (vltb x y = true <-> vltb (id_var i) (id_var j) = true).
Proof.
  intros first new x y i j S G Hx Hy.
  assert (M : monotone (variables_of first new)).
  { unfold variables_of. assert (X : forall d, db_ok veqb d -> monotone d -> (forall y, In y (db_items d) <-> In y first) -> monotone (snd (db_insert_all veqb d new))).
    { clear - G. revert first G. induction new as [|z new IH]; intros first G d O M E; cbn; [exact M|]. destruct G as [G1 G2].
      pose proof (insert_ok veqb veqb_eq d z O) as I. pose proof (insert_monotone d z O M (fun y Hy => G1 y (proj1 (E y) Hy))) as M1. destruct (db_insert veqb d z) as [k d1]. destruct I as (O1 & _ & _ & _ & E1). cbn [snd] in M1.
      assert (E2 : forall y, In y (db_items d1) <-> In y (first ++ [z])) by (intros y; rewrite E1, E, in_app_iff; cbn; intuition).
      specialize (IH _ G2 d1 O1 M1 E2). destruct (db_insert_all veqb d1 new) as [is d2]. exact IH. }
    apply X; [apply (from_iter_ok veqb veqb_eq)|now apply from_iter_monotone|]. intros z. reflexivity. }
  rewrite id_var_lt. split; [exact (M x y i j Hx Hy)|]. intros L. destruct (vltb x y) eqn:Q; [reflexivity|]. exfalso. destruct (veqb_spec x y) as [->|Nq].
  - rewrite Hx in Hy. injection Hy as ->. lia.
  - apply veqb_neq in Nq. pose proof (M y x j i Hy Hx (vltb_total _ _ Nq Q)). lia.
Qed.
Print Assumptions C68_order.
Example C68_order_example : StronglySorted (fun x y => vltb y x = false) [Orig 3; Orig 3; Orig 7] /\ growing [Orig 3; Orig 3; Orig 7] [Orig 9; Orig 12].
Proof.
  split; [repeat constructor|]. cbn. split; [|split; [|exact I]]; intros y Hy; repeat (destruct Hy as [<-|Hy]; [reflexivity|]); destruct Hy.
Qed.

(** ** Expressions *)
Section Expressions.
  Context {p : positive}.
  Local Notation gexp := (gexp p).
  Definition id_name (d : item_db var) (v : var) : var := match db_id veqb d v with Some i => id_var i | None => v end.
  Definition name_id (d : item_db var) (v : var) : var := match db_index d (id_of v) with Some x => x | None => v end.
  Lemma transform_ids d (e : gexp) : (forall v, In v (vars e) -> db_id veqb d v <> None) -> transform_variables d e = Some (gmap (id_name d) e).
  Proof.
    intros H. unfold transform_variables. rewrite (transform_run (to_id d) (id_name d) e tt tt); [reflexivity|].
    revert H. generalize (vars e). intros l. induction l as [|v l IH]; intros H; cbn [run map]; [reflexivity|]. unfold to_id at 1, id_name at 1.
    pose proof (H v (or_introl eq_refl)) as N. destruct (db_id veqb d v) as [i|]; [|contradiction]. cbn [option_map]. rewrite IH by (intros w Hw; apply H; now right). reflexivity.
  Qed.
  Lemma undo_ids d (e : gexp) : (forall v, In v (vars e) -> db_index d (id_of v) <> None) -> undo_variable_transform d e = Some (gmap (name_id d) e).
  Proof.
    intros H. unfold undo_variable_transform. rewrite (transform_run (from_id d) (name_id d) e tt tt); [reflexivity|].
    revert H. generalize (vars e). intros l. induction l as [|v l IH]; intros H; cbn [run map]; [reflexivity|]. unfold from_id at 1, name_id at 1.
    pose proof (H v (or_introl eq_refl)) as N. destruct (db_index d (id_of v)) as [i|]; [|contradiction]. cbn [option_map]. rewrite IH by (intros w Hw; apply H; now right). reflexivity.
  Qed.
  Lemma transform_unknown d (e : gexp) v : In v (vars e) -> db_id veqb d v = None -> transform_variables d e = None.
  Proof.
    intros I N. unfold transform_variables. rewrite transform_fails; [reflexivity|]. revert I. generalize (vars e). intros l. induction l as [|w l IH]; intros I; [destruct I|]. cbn [run]. unfold to_id at 1.
    destruct I as [->|I]; [now rewrite N|]. destruct (db_id veqb d w) as [i|]; [|reflexivity]. cbn [option_map]. now rewrite (IH I).
  Qed.
  Lemma id_name_inj d v w : db_ok veqb d -> db_id veqb d v <> None -> db_id veqb d w <> None -> id_name d v = id_name d w -> v = w.
  Proof.
    intros [O _] Nv Nw. unfold id_name. destruct (db_id veqb d v) as [i|] eqn:Ev; [|contradiction]. destruct (db_id veqb d w) as [j|] eqn:Ew; [|contradiction]. intros E. apply id_var_inj in E. subst j.
    apply O in Ev, Ew. congruence.
  Qed.
  Lemma name_id_name d v : db_ok veqb d -> db_id veqb d v <> None -> name_id d (id_name d v) = v.
  Proof.
    intros [O _] N. unfold id_name. destruct (db_id veqb d v) as [i|] eqn:E; [|contradiction]. unfold name_id. rewrite id_of_var, (O v i E). reflexivity.
  Qed.

  (** An expression can be transformed exactly if all its variables are known.  The result has the identifiers in place of the variables, the same
      values, and the transformation back gives the expression, also after more variables have been added. *)
  Theorem C68_round_trip : forall first new more (e : gexp), ordered e -> let d := variables_of first new in
    ((forall v, In v (vars e) -> In v (first ++ new)) <-> transform_variables d e <> None) /\
    (forall e1, transform_variables d e = Some e1 ->
       (exists h, renamed h e e1 /\ forall v, In v (vars e) -> exists i, db_id veqb d v = Some i /\ h v = id_var i) /\
       undo_variable_transform d e1 = Some e /\ undo_variable_transform (variables_of first (new ++ more)) e1 = Some e /\
       (forall s s1, (forall v i, In v (vars e) -> db_id veqb d v = Some i -> s1 (id_var i) = s v) -> eval s1 e1 = eval s e)).
  Proof.
    intros first new more e Oe d. destruct (variables_ok first new) as [O M]. fold d in O, M.
    assert (K : forall v, In v (first ++ new) <-> db_id veqb d v <> None).
    { intros v. rewrite <- M. split; [exact (proj2 O v)|]. intros N. destruct (db_id veqb d v) as [i|] eqn:E; [|contradiction]. exact (nth_error_In _ _ (proj1 O v i E)). }
    split.
    - split.
      + intros H. rewrite transform_ids; [discriminate|]. intros v Hv. apply K, H, Hv.
      + intros N v Hv. apply K. intros E. apply N. exact (transform_unknown d e v Hv E).
    - intros e1 T. assert (H : forall v, In v (vars e) -> db_id veqb d v <> None) by (intros v Hv E; rewrite (transform_unknown d e v Hv E) in T; discriminate).
      rewrite (transform_ids d e H) in T. injection T as <-.
      assert (R : renamed (id_name d) e (gmap (id_name d) e)) by (apply gmap_renamed; [exact Oe|]; intros v w Hv Hw; apply id_name_inj; auto).
      assert (B : forall d', db_ok veqb d' -> (forall v i, db_id veqb d v = Some i -> db_id veqb d' v = Some i) -> undo_variable_transform d' (gmap (id_name d) e) = Some e).
      { intros d' O' Sub. assert (N : forall v, In v (vars e) -> name_id d' (id_name d v) = v).
        { intros v Hv. unfold id_name. pose proof (H v Hv) as Nv. destruct (db_id veqb d v) as [i|] eqn:E; [|contradiction]. unfold name_id. rewrite id_of_var, (proj1 O' v i (Sub v i E)). reflexivity. }
        assert (U : forall w, In w (vars (gmap (id_name d) e)) -> db_index d' (id_of w) <> None).
        { intros w Hw. apply (proj1 (renamed_vars _ _ _ w R)) in Hw. destruct Hw as (v & Hv & ->). unfold id_name. pose proof (H v Hv) as Nv. destruct (db_id veqb d v) as [i|] eqn:E; [|contradiction]. rewrite id_of_var, (proj1 O' v i (Sub v i E)). discriminate. }
        rewrite (undo_ids d' _ U). f_equal. apply (renamed_back (id_name d) (name_id d') e (gmap (id_name d) e)); [exact Oe|exact N|exact R|].
        apply gmap_renamed; [exact (renamed_ordered _ _ _ R)|]. intros a b Ha Hb. apply (proj1 (renamed_vars _ _ _ a R)) in Ha. apply (proj1 (renamed_vars _ _ _ b R)) in Hb.
        destruct Ha as (va & Ha & ->). destruct Hb as (vb & Hb & ->). rewrite (N va Ha), (N vb Hb). now intros ->. }
      split; [|split; [|split]].
      + exists (id_name d). split; [exact R|]. intros v Hv. unfold id_name. pose proof (H v Hv) as Nv. destruct (db_id veqb d v) as [i|]; [|contradiction]. now exists i.
      + apply B; auto.
      + apply B; [apply variables_ok|]. intros v i E. unfold variables_of.
        assert (X : forall l1 l2 d0, snd (db_insert_all veqb d0 (l1 ++ l2)) = snd (db_insert_all veqb (snd (db_insert_all veqb d0 l1)) l2)).
        { induction l1 as [|a l1 IH]; intros l2 d0; cbn; [reflexivity|]. destruct (db_insert veqb d0 a) as [k d1]. specialize (IH l2 d1). destruct (db_insert_all veqb d1 (l1 ++ l2)) as [i1 r1]. destruct (db_insert_all veqb d1 l1) as [i2 r2]. exact IH. }
        rewrite X. change (snd (db_insert_all veqb (db_from_iter first) new)) with d. pose proof (insert_all_ok veqb veqb_eq more d O) as Y. destruct (db_insert_all veqb d more) as [is d2]. now apply Y.
      + intros s s1 Hs. rewrite (renamed_eval _ _ _ s1 R). apply eval_ext. intros v Hv. unfold id_name. pose proof (H v Hv) as Nv. destruct (db_id veqb d v) as [i|] eqn:E; [|contradiction]. now apply (Hs v i Hv).
  Qed.

  (** The expressions of a system with their identifiers: an identifier leads to the expression, also after the rules have added
      expressions, and two expressions have the same identifier exactly if they are equal. *)
  Theorem C68_expressions : forall first new (before l more : list gexp), Forall ordered l -> (forall e v, In e l -> In v (vars e) -> In v (first ++ new)) ->
    let d := variables_of first new in exists ids db, transform_expressions d l (snd (db_insert_all gexp_eqb (db_from_iter []) before)) = Some (ids, db) /\ length ids = length l /\
    let db' := snd (db_insert_all gexp_eqb db more) in
    (forall k e, nth_error l k = Some e -> exists i e1, nth_error ids k = Some i /\ db_index db' i = Some e1 /\ undo_variable_transform d e1 = Some e) /\
    (forall k k' e e' i i', nth_error l k = Some e -> nth_error l k' = Some e' -> nth_error ids k = Some i -> nth_error ids k' = Some i' -> (i = i' <-> e = e')).
  Proof.
    intros first new before l more Ol Hl d.
    assert (G0 : db_ok gexp_eqb (snd (db_insert_all gexp_eqb (db_from_iter []) before))).
    { pose proof (insert_all_ok gexp_eqb gexp_eqb_eq before _ (from_iter_ok gexp_eqb gexp_eqb_eq [])) as X. destruct (db_insert_all gexp_eqb (db_from_iter []) before). apply X. }
    revert G0. generalize (snd (db_insert_all gexp_eqb (db_from_iter []) before)). intros db0 G0.
    assert (T : forall e, In e l -> exists e1, transform_variables d e = Some e1 /\ undo_variable_transform d e1 = Some e).
    { intros e I. pose proof (proj1 (Forall_forall _ _) Ol e I) as Oe. destruct (C68_round_trip first new [] e Oe) as [A B]. fold d in A, B. pose proof (proj1 A (fun v => Hl e v I)) as N.
      destruct (transform_variables d e) as [e1|] eqn:E; [|contradiction]. exists e1. split; [reflexivity|]. apply (B e1 eq_refl). }
    assert (S : exists ids db, transform_expressions d l db0 = Some (ids, db) /\ db_ok gexp_eqb db /\ (forall y j, db_id gexp_eqb db0 y = Some j -> db_id gexp_eqb db y = Some j) /\ length ids = length l /\
      forall k e, nth_error l k = Some e -> exists i e1, nth_error ids k = Some i /\ transform_variables d e = Some e1 /\ db_id gexp_eqb db e1 = Some i).
    { clear Ol Hl. revert db0 G0. induction l as [|e l IH]; intros db0 G0; cbn [transform_expressions].
      - exists [], db0. split; [reflexivity|]. split; [exact G0|]. split; [auto|]. split; [reflexivity|]. intros [|k] e; discriminate.
      - destruct (T e (or_introl eq_refl)) as (e1 & E1 & _). rewrite E1. pose proof (insert_ok gexp_eqb gexp_eqb_eq db0 e1 G0) as I. destruct (db_insert gexp_eqb db0 e1) as [i db1]. destruct I as (G1 & X & K & _ & _).
        destruct (IH (fun a Ha => T a (or_intror Ha)) db1 G1) as (ids & db & E & G & K2 & L & W). rewrite E. exists (i :: ids), db. split; [reflexivity|]. split; [exact G|]. split; [auto|]. split; [cbn; now rewrite L|].
        intros [|k] a; cbn; [intros [= <-]; exists i, e1; auto|apply W]. }
    destruct S as (ids & db & E & G & _ & L & W). exists ids, db. split; [exact E|]. split; [exact L|]. intros db'. split.
    - intros k e Hk. destruct (W k e Hk) as (i & e1 & Hi & E1 & X). exists i, e1. split; [exact Hi|]. split.
      + unfold db'. pose proof (insert_all_ok gexp_eqb gexp_eqb_eq more db G) as Y. destruct (db_insert_all gexp_eqb db more) as [is d2]. destruct Y as (_ & _ & _ & _ & P & _). apply P. now apply G.
      + destruct (T e (nth_error_In _ _ Hk)) as (e2 & E2 & U). rewrite E1 in E2. injection E2 as <-. exact U.
    - intros k k' e e' i i' Hk Hk' Hi Hi'. destruct (W k e Hk) as (j & e1 & Hj & E1 & X). destruct (W k' e' Hk') as (j' & e1' & Hj' & E1' & X'). rewrite Hi in Hj. injection Hj as <-. rewrite Hi' in Hj'. injection Hj' as <-.
      split; intros Q; subst.
      + apply G in X, X'. assert (e1' = e1) as -> by congruence. destruct (T e (nth_error_In _ _ Hk)) as (a & Ea & Ua). destruct (T e' (nth_error_In _ _ Hk')) as (b & Eb & Ub). congruence.
      + congruence.
  Qed.
End Expressions.
Print Assumptions C68_round_trip.
Print Assumptions C68_expressions.

(** ** New variables *)
Section NewVariables.
  Context {p : positive} {Prefix : Type}.
  Local Notation gexp := (gexp p).
  Lemma generate_all_ok (l : list (Prefix * cmethod p)) : forall g, let '(vs, g') := generate_all g l in
    vs = map id_var (seq (gn_counter g) (length l)) /\ gn_counter g' = gn_counter g + length l /\
    (forall t, (forall r, get_request t (gn_requests g) = Some r -> t < gn_counter g) -> get_request t (gn_requests g') =
       if Nat.ltb t (gn_counter g) then get_request t (gn_requests g) else option_map (fun xm => mkRequest None (fst xm) (snd xm)) (nth_error l (t - gn_counter g))).
  Proof.
    induction l as [|[x m] l IH]; intros g; cbn [generate_all generate length seq map].
    - split; [reflexivity|]. split; [lia|]. intros t H. destruct (Nat.ltb_spec t (gn_counter g)) as [L|L]; [reflexivity|]. destruct (get_request t (gn_requests g)) as [r|] eqn:E; [specialize (H r eq_refl); lia|]. destruct (t - gn_counter g); reflexivity.
    - specialize (IH (mkGen (S (gn_counter g)) ((gn_counter g, mkRequest None x m) :: gn_requests g))). destruct (generate_all (mkGen (S (gn_counter g)) ((gn_counter g, mkRequest None x m) :: gn_requests g)) l) as [vs g2]. cbn [gn_counter gn_requests] in IH. destruct IH as (E & C & R).
      split; [now rewrite E|]. split; [rewrite C; cbn; lia|]. intros t H. rewrite R.
      + cbn [get_request]. destruct (Nat.ltb_spec t (S (gn_counter g))) as [L|L]; destruct (Nat.ltb_spec t (gn_counter g)) as [L2|L2]; try lia.
        * destruct (Nat.eqb_spec t (gn_counter g)) as [->|_]; [lia|reflexivity].
        * assert (t = gn_counter g) as -> by lia. now rewrite Nat.eqb_refl, Nat.sub_diag.
        * replace (t - gn_counter g) with (S (t - S (gn_counter g))) by lia. reflexivity.
      + intros r. cbn [get_request]. destruct (Nat.eqb_spec t (gn_counter g)) as [->|_]; [lia|]. intros E2. specialize (H r E2). lia.
  Qed.

  Variable new_var : nat -> Prefix -> var.
  (** The rules have requested variables in terms of known ones, and the expressions contain identifiers of known variables and of
      requested ones.  The callback returns a new variable with each of its calls.  Then there is one way to read identifiers: those of known
      variables as these, those of requested ones as new variables, different ones for different requests, and all expressions are
      translated like this.  A new variable is created exactly for the requests that occur, in the order of their first occurrence, and
      each gets one derived variable with the requested method. *)
  Theorem C68_new_variables : forall first known (wanted : list (Prefix * cmethod p)) (es : list gexp) derived0 calls0,
    let d := variables_of first known in let n := next_free_id d in
    let used := fun v => exists x i, db_id veqb d x = Some i /\ v = id_var i in
    let '(vs, g) := generate_all (new_generator n) wanted in
    (forall k prefix m, nth_error wanted k = Some (prefix, m) -> method_ordered m /\ forall v, In v (cm_vars m) -> used v) ->
    (forall e, In e es -> ordered e /\ forall v, In v (vars e) -> used v \/ In v vs) ->
    (forall i x, calls0 <= i -> ~ In (new_var i x) (first ++ known)) ->
    (forall i j x y, calls0 <= i -> calls0 <= j -> new_var i x = new_var j y -> i = j) ->
    let created := firsts (fun t => (n <=? t) && (t <? n + length wanted)) [] (map id_of (flat_map vars es)) in
    exists es' s more h, recreate_all new_var es (mkRe d (gn_requests g) derived0 calls0) = Some (es', s) /\
      Forall2 (renamed h) es es' /\
      (forall x i, db_id veqb d x = Some i -> h (id_var i) = x) /\
      re_derived s = derived0 ++ more /\ length more = length created /\ re_calls s = calls0 + length created /\
      (forall k t, nth_error created k = Some t -> exists prefix m m', nth_error wanted (t - n) = Some (prefix, m) /\ h (id_var t) = new_var (calls0 + k) prefix /\
         method_renamed h m m' /\ nth_error more k = Some (h (id_var t), m')) /\
      (forall x, (exists i, db_id veqb (re_db s) x = Some i) <-> In x (first ++ known) \/ In x (map fst more)) /\
      (forall x i, db_id veqb d x = Some i -> db_id veqb (re_db s) x = Some i) /\
      (forall x i, db_id veqb (re_db s) x = Some i -> db_index (re_db s) i = Some x).
  Proof.
    intros first known wanted es derived0 calls0 d n used. destruct (variables_ok first known) as [O M]. fold d in O, M.
    pose proof (generate_all_ok wanted (new_generator n)) as G. destruct (generate_all (new_generator n) wanted) as [vs g]. cbn [new_generator gn_counter gn_requests] in G. destruct G as (Evs & _ & R).
    intros HW HE HF HI created.
    assert (R' : forall t, get_request t (gn_requests g) = if Nat.ltb t n then None else option_map (fun xm => mkRequest None (fst xm) (snd xm)) (nth_error wanted (t - n))).
    { intros t. rewrite R; [reflexivity|]. intros r. discriminate. }
    clear R. assert (UL : forall v, used v -> id_of v < n).
    { intros v (x & i & E & ->). rewrite id_of_var. unfold n, next_free_id. apply nth_error_Some. pose proof (proj1 O x i E) as X. unfold db_index in X. congruence. }
    assert (RQ : forall t r, get_request t (gn_requests g) = Some r -> next_free_id d <= t /\ rq_final r = None /\ forall v, In v (cm_vars (rq_method r)) -> id_of v < next_free_id d).
    { intros t r. rewrite R'. destruct (Nat.ltb_spec t n) as [L|L]; [discriminate|]. destruct (nth_error wanted (t - n)) as [[x m]|] eqn:E; [|discriminate]. cbn. intros [= <-]. split; [exact L|]. split; [reflexivity|]. cbn. intros v Hv. apply UL. now apply (HW _ _ _ E). }
    assert (RE : forall t, requested (gn_requests g) t = ((n <=? t) && (t <? n + length wanted))).
    { intros t. unfold requested. rewrite R'. destruct (Nat.ltb_spec t n) as [L|L]; [destruct (Nat.leb_spec n t); [lia|reflexivity]|]. destruct (Nat.leb_spec n t); [|lia]. cbn [andb].
      destruct (Nat.ltb_spec t (n + length wanted)) as [L2|L2]; destruct (nth_error wanted (t - n)) as [xm|] eqn:E; try reflexivity.
      - apply nth_error_None in E. lia.
      - assert (X : t - n < length wanted) by (apply nth_error_Some; congruence). lia. }
    assert (FE : forall l seen, firsts (requested (gn_requests g)) seen l = firsts (fun t => (n <=? t) && (t <? n + length wanted)) seen l).
    { induction l as [|t l IH]; intros seen; cbn [firsts]; [reflexivity|]. rewrite RE, !IH. reflexivity. }
    assert (NF : forall i x, calls0 <= i -> ~ In (new_var i x) (db_items d)) by (intros i x L I; apply M in I; revert I; now apply HF).
    assert (VR : forall v, In v vs -> v = id_var (id_of v) /\ n <= id_of v < n + length wanted).
    { intros v Hv. rewrite Evs in Hv. apply in_map_iff in Hv. destruct Hv as (t & <- & I). apply in_seq in I. rewrite id_of_var. auto. }
    assert (U : Forall (usable d (gn_requests g)) (flat_map vars es)).
    { apply (proj2 (Forall_forall _ _)). intros v Hv. apply in_flat_map in Hv. destruct Hv as (e & He & Hv). destruct (proj2 (HE e He) v Hv) as [Us|I]; [left; now apply UL|]. right. rewrite RE. destruct (VR v I) as [_ B]. destruct (Nat.leb_spec n (id_of v)); [|lia]. destruct (Nat.ltb_spec (id_of v) (n + length wanted)); [reflexivity|lia]. }
    destruct (recreate_all_ok new_var d (gn_requests g) derived0 calls0 O RQ NF HI es U) as (s & Es & A). rewrite FE in Es, A. fold created in Es, A.
    set (h := final new_var d (gn_requests g) calls0 created) in *.
    assert (ND : NoDup created) by apply firsts_nodup.
    assert (CR : forall t, In t created -> exists prefix m, get_request t (gn_requests g) = Some (mkRequest None prefix m) /\ nth_error wanted (t - n) = Some (prefix, m) /\ n <= t).
    { intros t I. apply firsts_In in I. destruct I as (_ & W & _). rewrite <- RE in W. unfold requested in W. rewrite R' in *. destruct (Nat.ltb_spec t n); [discriminate|]. destruct (nth_error wanted (t - n)) as [[x m]|]; [|discriminate]. now exists x, m. }
    assert (HK : forall x i, db_id veqb d x = Some i -> h (id_var i) = x).
    { intros x i E. pose proof (proj1 O x i E) as X. unfold h, final. rewrite id_of_var. assert (P : position i created = None). { apply position_None. intros I. destruct (CR i I) as (_ & _ & _ & _ & L). unfold db_index in X. assert (i < length (db_items d)) by (apply nth_error_Some; congruence). unfold n, next_free_id in L. lia. }
      rewrite P. unfold IdRound.known. rewrite id_of_var. unfold db_index in X. now rewrite X. }
    assert (HC : forall k t, nth_error created k = Some t -> exists prefix m, nth_error wanted (t - n) = Some (prefix, m) /\ h (id_var t) = new_var (calls0 + k) prefix /\ get_request t (gn_requests g) = Some (mkRequest None prefix m)).
    { intros k t E. destruct (CR t (nth_error_In _ _ E)) as (prefix & m & Q & W & _). exists prefix, m. split; [exact W|]. split; [|exact Q]. unfold h, final. rewrite id_of_var, (position_nodup _ _ _ ND E). unfold name_of. now rewrite Q. }
    assert (INJ : forall v w, (used v \/ In v vs /\ In (id_of v) created) -> (used w \/ In w vs /\ In (id_of w) created) -> h v = h w -> v = w).
    { assert (Mix : forall x i v, db_id veqb d x = Some i -> In v vs -> In (id_of v) created -> x <> h v).
      { intros x i v E Iv Ic -> . apply In_nth_error in Ic. destruct Ic as [k Ek]. destruct (HC k _ Ek) as (prefix & m & _ & Eh & _). destruct (VR v Iv) as [Ev _]. rewrite <- Ev in Eh. rewrite Eh in E. apply (NF (calls0 + k) prefix); [lia|]. exact (nth_error_In _ _ (proj1 O _ _ E)). }
      intros v w [(x & i & Ex & ->)|[Iv Cv]] [(y & j & Ey & ->)|[Iw Cw]].
      - rewrite (HK x i Ex), (HK y j Ey). intros ->. congruence.
      - rewrite (HK x i Ex). intros E. exfalso. exact (Mix x i w Ex Iw Cw E).
      - rewrite (HK y j Ey). intros E. exfalso. exact (Mix y j v Ey Iv Cv (eq_sym E)).
      - apply In_nth_error in Cv, Cw. destruct Cv as [k Ek]. destruct Cw as [k' Ek']. destruct (HC k _ Ek) as (pr & m & _ & Eh & _). destruct (HC k' _ Ek') as (pr' & m' & _ & Eh' & _). destruct (VR v Iv) as [Ev _]. destruct (VR w Iw) as [Ew _]. rewrite <- Ev in Eh. rewrite <- Ew in Eh'. rewrite Eh, Eh'.
        intros Q. apply HI in Q; [|lia|lia]. assert (k' = k) as -> by lia. rewrite Ek in Ek'. injection Ek' as Ei. now rewrite Ev, Ew, Ei. }
    assert (IC : forall e v, In e es -> In v (vars e) -> used v \/ In v vs /\ In (id_of v) created).
    { intros e v He Hv. destruct (proj2 (HE e He) v Hv) as [Us|I]; [now left|]. right. split; [exact I|]. unfold created. apply firsts_In. split; [apply in_map; apply in_flat_map; now exists e|]. split; [|intros []].
      destruct (VR v I) as [_ B]. destruct (Nat.leb_spec n (id_of v)); [|lia]. destruct (Nat.ltb_spec (id_of v) (n + length wanted)); [reflexivity|lia]. }
    exists (map (gmap h) es), s, (derived_from new_var d (gn_requests g) calls0 0 created), h. split; [exact Es|]. split.
    { assert (X : forall l, (forall e, In e l -> In e es) -> Forall2 (renamed h) l (map (gmap h) l)).
      { induction l as [|e l IH]; intros Sub; cbn; constructor; [|apply IH; intros a Ha; apply Sub; now right].
        pose proof (Sub e (or_introl eq_refl)) as He. apply gmap_renamed; [exact (proj1 (HE e He))|]. intros v w Hv Hw. apply INJ; [exact (IC e v He Hv)|exact (IC e w He Hw)]. }
      apply X. auto. }
    split; [exact HK|]. split; [exact (af_derived _ _ _ _ _ _ _ A)|]. split; [apply derived_length|]. split; [exact (af_calls _ _ _ _ _ _ _ A)|].
    assert (KH : forall v, used v -> IdRound.known d v = h v).
    { intros v (x & i & E & ->). rewrite (HK x i E). unfold IdRound.known. rewrite id_of_var. pose proof (proj1 O x i E) as X. unfold db_index in X. now rewrite X. }
    split; [|split; [|split; [exact (af_ids _ _ _ _ _ _ _ A)|exact (proj1 (af_ok _ _ _ _ _ _ _ A))]]].
    - intros k t E. destruct (HC k t E) as (prefix & m & W & Eh & Q). exists prefix, m, (method_map (IdRound.known d) m). split; [exact W|]. split; [exact Eh|]. split.
      + destruct (HW _ _ _ W) as [Om Um]. destruct m as [c|a b]; cbn [method_map]; [constructor|]. destruct Om as [Oa Ob]. cbn [cm_vars] in Um.
        assert (X : forall e : gexp, ordered e -> (forall v, In v (vars e) -> used v) -> renamed h e (gmap (IdRound.known d) e)).
        { intros e Oe Ue. rewrite (gmap_ext (IdRound.known d) h e) by (intros v Hv; apply KH; auto). apply gmap_renamed; [exact Oe|]. intros v w Hv Hw. apply INJ; left; auto. }
        constructor; apply X; auto; intros v Hv; apply Um; apply in_or_app; auto.
      + rewrite (derived_nth new_var d (gn_requests g) calls0 0 created k t E). cbn [Nat.add]. unfold derived_of, name_of. rewrite Q. cbn [rq_prefix rq_method]. now rewrite Eh.
    - intros x. assert (X : forall k l, map fst (derived_from new_var d (gn_requests g) calls0 k l) = names_from new_var (gn_requests g) calls0 k l).
      { intros k l. revert k. induction l as [|t l IH]; intros k; cbn; [reflexivity|]. now rewrite IH. }
      rewrite X, <- M, <- in_app_iff. rewrite <- (af_items _ _ _ _ _ _ _ A). split.
      + intros (i & E). exact (nth_error_In _ _ (proj1 (af_ok _ _ _ _ _ _ _ A) x i E)).
      + intros I. destruct (db_id veqb (re_db s) x) as [i|] eqn:E; [now exists i|]. exfalso. exact (proj2 (af_ok _ _ _ _ _ _ _ A) x I E).
  Qed.
End NewVariables.
Print Assumptions C68_new_variables.

(** ** Examples: the variables 3 (twice) and 7 are known, with the identifiers 1 and 2, so requested variables have the identifiers 3 and 4. *)
Definition ex_vars : item_db var := variables_of [Orig 3; Orig 3; Orig 7] [].
Definition ex_lin (l : list (nat * N)) (c : N) : gexp 7 := GE [] (map (fun nk => (id_var (fst nk), of_N (snd nk))) l) (of_N c).
Definition ex_new (k : nat) (x : N) : var := Orig (100 + 10 * N.of_nat k + x mod 10).
Definition ex_wanted : list (N * cmethod 7) := [(0%N, CQuot (ex_lin [(1, 1%N)] 0) (ex_lin [(2, 3%N)] 1)); (1%N, CConst (of_N 5))].
Definition ex_es : list (gexp 7) := [ex_lin [(1, 2%N); (4, 1%N)] 0; GE [(ex_lin [(3, 1%N); (4, 2%N)] 0, ex_lin [(2, 1%N)] 6)] [(id_var 4, of_N 3)] (of_N 1)].
Definition ex_run (wanted : list (N * cmethod 7)) (es : list (gexp 7)) := recreate_all ex_new es (mkRe ex_vars (gn_requests (snd (generate_all (new_generator (next_free_id ex_vars)) wanted))) [] 0).
Definition ex_lit (l : list (N * N)) (c : N) : gexp 7 := GE [] (map (fun nk => (Orig (fst nk), of_N (snd nk))) l) (of_N c).
(** The second request occurs first. *)
Example C68_example_run : option_map (fun r => (fst r, re_derived (snd r), re_calls (snd r), db_items (re_db (snd r)))) (ex_run ex_wanted ex_es) =
  Some ([ex_lit [(3, 2); (101, 1)]%N 0; GE [(ex_lit [(101, 2); (110, 1)]%N 0, ex_lit [(7, 1)]%N 6)] [(Orig 101, of_N 3)] (of_N 1)],
        [(Orig 101, CConst (of_N 5)); (Orig 110, CQuot (ex_lit [(3, 1)]%N 0) (ex_lit [(7, 3)]%N 1))], 2, [Orig 3; Orig 3; Orig 7; Orig 101; Orig 110]).
Proof. vm_compute. reflexivity. Qed.
(** It meets the hypotheses of the theorem. *)
Example C68_example_hypotheses : let used := fun v => exists x i, db_id veqb ex_vars x = Some i /\ v = id_var i in
  fst (generate_all (new_generator (next_free_id ex_vars)) ex_wanted) = [id_var 3; id_var 4] /\
  (forall k prefix m, nth_error ex_wanted k = Some (prefix, m) -> method_ordered m /\ forall v, In v (cm_vars m) -> used v) /\
  (forall e, In e ex_es -> ordered e /\ forall v, In v (vars e) -> used v \/ In v [id_var 3; id_var 4]) /\
  (forall i x, 0 <= i -> ~ In (ex_new i x) [Orig 3; Orig 3; Orig 7]) /\ (forall i j x y, 0 <= i -> 0 <= j -> ex_new i x = ex_new j y -> i = j).
Proof.
  intros used. assert (U1 : used (id_var 1)) by (exists (Orig 3), 1; split; reflexivity). assert (U2 : used (id_var 2)) by (exists (Orig 7), 2; split; reflexivity).
  split; [reflexivity|]. split; [|split; [|split]].
  - intros [|[|[|k]]] prefix m; cbn; intros H; try discriminate; injection H as <- <-; cbn.
    + split; [split; repeat constructor|]. intros v [<-|[<-|[]]]; assumption.
    + split; [exact I|intros v []].
  - intros e [<-|[<-|[]]]; cbn; (split; [repeat constructor|]); intros v Hv; repeat (destruct Hv as [<-|Hv]; [cbn; auto|]); destruct Hv.
  - intros i x _ H. unfold ex_new in H. destruct H as [H|[H|[H|[]]]]; apply (f_equal vid) in H; cbn [vid] in H; revert H; generalize (x mod 10)%N; intros m H; lia.
  - intros i j x y _ _ H. unfold ex_new in H. apply (f_equal vid) in H. cbn [vid] in H. pose proof (N.mod_lt x 10) as Lx. pose proof (N.mod_lt y 10) as Ly. revert H Lx Ly. generalize (x mod 10)%N, (y mod 10)%N. intros a b H Lx Ly. lia.
Qed.

(** A method that uses another requested variable is read as if the identifier was already one of a known variable: the new variable
    is then computed from itself, and the other one is never created. *)
Theorem C68_method_refuted : exists wanted es s, ex_run wanted es = Some ([ex_lit [(101, 1)]%N 0], s) /\
  nth_error wanted 1 = Some (1%N, CQuot (ex_lin [(3, 1%N)] 0) (ex_lin [] 1)) /\ es = [ex_lin [(4, 1%N)] 0] /\ re_derived s = [(Orig 101, CQuot (ex_lit [(101, 1)]%N 0) (ex_lit [] 1))].
Proof.
  exists [(0%N, CConst (of_N 5)); (1%N, CQuot (ex_lin [(3, 1%N)] 0) (ex_lin [] 1))], [ex_lin [(4, 1%N)] 0]. eexists. split; [vm_compute; reflexivity|]. split; [reflexivity|]. split; reflexivity.
Qed.
Print Assumptions C68_method_refuted.
(** The variables do depend on the order in which the rules requested them if an expression has two new ones: the same requests in the
    other order, for the same expression, give other variables. *)
Theorem C68_deterministic_refuted : exists a b, ex_run [(0%N, CConst (of_N 5)); (1%N, CConst (of_N 6))] [ex_lin [(3, 1%N); (4, 2%N)] 0] = Some a /\
  ex_run [(1%N, CConst (of_N 6)); (0%N, CConst (of_N 5))] [ex_lin [(3, 2%N); (4, 1%N)] 0] = Some b /\
  fst a = [ex_lit [(100, 1); (111, 2)]%N 0] /\ fst b = [ex_lit [(101, 2); (110, 1)]%N 0].
Proof. do 2 eexists. split; [vm_compute; reflexivity|]. split; [vm_compute; reflexivity|]. split; vm_compute; reflexivity. Qed.
Print Assumptions C68_deterministic_refuted.
(** An expression with its identifiers. *)
Example C68_example_transform : ordered (ex_lit [(3, 2); (7, 1)]%N 4) /\ transform_variables ex_vars (ex_lit [(3, 2); (7, 1)]%N 4) = Some (ex_lin [(1, 2%N); (2, 1%N)] 4) /\
  undo_variable_transform ex_vars (ex_lin [(1, 2%N); (2, 1%N)] 4) = Some (ex_lit [(3, 2); (7, 1)]%N 4) /\ transform_variables ex_vars (ex_lit [(5, 1)]%N 0) = None /\
  option_map fst (transform_expressions ex_vars [ex_lit [(3, 2)]%N 4; ex_lit [(7, 1)]%N 0; ex_lit [(3, 2)]%N 4] (db_from_iter [])) = Some [0; 1; 0].
Proof. split; [repeat constructor|]. repeat split; vm_compute; reflexivity. Qed.
