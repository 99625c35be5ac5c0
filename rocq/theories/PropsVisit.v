(** C61: walks through expressions and machines visit every part once in the given order and stop where the
    callback says so; rewriting during a walk, substitution and making columns global. *)
From Coq Require Import Arith NArith Bool List Lia Sorted.
From Verif Require Import Field ExprModel SystemModel SymModel NumModel JsonModel JsonSpec VisitModel VisitSpec VisitFacts VisitFacts2.
Import ListNotations.

(** A walk calls the callback on all parts in the order that is asked for, until it breaks. *)
Theorem C61_order : forall (p : positive) (w : order),
  (forall e : nexpr p, exists l, listed w e l /\ (forall l', listed w e l' -> l' = l) /\ (forall x, In x l <-> part_of x e) /\
     forall (St B : Type) (f : St -> nexpr p -> St * option B) s s' b, visit f w s e = (s', b) <-> calls f s l s' b) /\
  (forall (m : nmach p) ls, Forall2 (listed w) (nm_cons m ++ flat_map (fun b => nb_mult b :: nb_args b) (nm_buses m)) ls ->
     forall (St B : Type) (f : St -> nexpr p -> St * option B) s s' b, visit_machine f w s m = (s', b) <-> calls f s (concat ls) s' b).
Proof.
  intros p w. split.
  - intros e. destruct (listed_total w e) as (l & Hl). exists l. split; [exact Hl|]. split; [intros l2 H2; symmetry; exact (listed_unique w e l Hl l2 H2)|]. split; [exact (listed_parts w e l Hl)|].
    intros. rewrite (visit_listed f w e l Hl). symmetry. apply try_each_calls.
  - intros m ls H St B f s s' b. unfold visit_machine. fold (nb_children (p := p)) in H. rewrite (try_each_listed f w _ ls H). symmetry. apply try_each_calls.
Qed.
Print Assumptions C61_order.

Theorem C61_all_children : forall (p : positive),
  (forall e : nexpr p, listed Pre e (all_children e)) /\
  (forall (m : nmach p), exists ls, Forall2 (listed Pre) (nm_cons m ++ flat_map (fun b => nb_mult b :: nb_args b) (nm_buses m)) ls /\ machine_all_children m = concat ls).
Proof.
  intros p. split; [apply all_children_listed|]. intros m. exists (map all_children (nm_children m)). split; [|unfold machine_all_children; apply flat_map_concat_map].
  unfold nm_children, nb_children. generalize (nm_cons m ++ flat_map (fun b : nbus p => nb_mult b :: nb_args b) (nm_buses m)). intros l. induction l; cbn; constructor; auto. apply all_children_listed.
Qed.
Print Assumptions C61_all_children.

(** A callback that may change expressions and does not is called as if it could not; one that replaces columns and
    numbers by columns and numbers changes exactly these, from left to right, until it breaks. *)
Theorem C61_unchanged : forall (p : positive) (St B : Type) (f : St -> nexpr p -> St * option B) w n s e, height e < n ->
  visit_mut n (fun s e => (fst (f s e), e, snd (f s e))) w s e = Some (fst (visit f w s e), e, snd (visit f w s e)).
Proof. intros. now apply unchanged. Qed.
Print Assumptions C61_unchanged.

Theorem C61_leaves : forall (p : positive) (St B : Type) (f : St -> nexpr p -> St * nexpr p * option B),
  (forall s e, (leaf e -> leaf (snd (fst (f s e)))) /\ (~ leaf e -> f s e = (s, e, None))) ->
  forall w n s e, height e < n ->
  exists s' e' b, visit_mut n f w s e = Some (s', e', b) /\ same_shape e e' /\ changes f s (leaves e) s' (leaves e') b.
Proof. intros p St B f O w n s e H. now apply change_leaves. Qed.
Print Assumptions C61_leaves.

(** Rewriting the parts first always ends and gives the same as rewriting bottom up. *)
Theorem C61_post : forall (p : positive),
  (forall (St B : Type) (f : St -> nexpr p -> St * nexpr p * option B) n s e, height e < n -> exists r, visit_mut n f Post s e = Some r) /\
  (forall (g : nexpr p -> nexpr p) n e, height e < n -> post_visit_mut n (rewriting g) tt e = Some (tt, bottom_up g e)).
Proof.
  intros p. split; [intros; now apply post_total|]. intros g n e H. apply (walk_post n g) in H. apply walk_some in H. unfold post_visit_mut. now rewrite H.
Qed.
Print Assumptions C61_post.

(** Rewriting the whole first also rewrites the parts of what was put in. *)
Theorem C61_pre : forall (p : positive) (g : nexpr p -> nexpr p) e e',
  (exists n, pre_visit_mut n (rewriting g) tt e = Some (tt, e')) <-> top_down g e e'.
Proof.
  intros p g e e'. split.
  - intros (n & H). apply (walk_top n). unfold walk, result. unfold pre_visit_mut in H. now rewrite H.
  - intros H. apply top_walk in H. destruct H as (n & H). exists n. apply walk_some in H. unfold pre_visit_mut. now rewrite H.
Qed.
Print Assumptions C61_pre.

(** All columns set to zero. *)
Theorem C61_zero : forall (p : positive) n (e : nexpr p), height e < n ->
  exists e', refs_to_zero n e = Some e' /\ nameless e' = make_refs_zero (nameless e) /\ forall env, nvalue env e' = nvalue (fun _ => 0%F) e.
Proof.
  intros p n e H. exists (zeroed e). split; [exact (walk_zero n e H)|]. split; [apply zeroed_nameless|]. intros env. apply zeroed_value.
Qed.
Print Assumptions C61_zero.

(** Substitution replaces the outermost parts that are keys, if no value contains a key. *)
Theorem C61_substitute : forall (p : positive) (sub : list (nexpr p * nexpr p)), different_keys sub ->
  (forall k v x, In (k, v) sub -> part_of x v -> no_key sub x) ->
  forall e, exists e', replaced sub e e' /\ (forall e'', replaced sub e e'' -> e'' = e') /\ exists n, forall fuel, n <= fuel -> substitute_subexpressions fuel sub e = Some e'.
Proof.
  intros p sub D K e. destruct (substitute_replaced sub K e) as (e' & n & R & W). exists e'. split; [exact R|]. split; [intros e'' R'; eapply replaced_unique; eauto|].
  exists n. intros fuel L. exact (walk_mono n fuel _ _ _ _ W L).
Qed.
Print Assumptions C61_substitute.

(** If keys and values are equal, the result has the value of the expression, whatever the map. *)
Theorem C61_substitute_value : forall (p : positive) (sub : list (nexpr p * nexpr p)) (env : N -> F p),
  (forall k v, In (k, v) sub -> nvalue env k = nvalue env v) ->
  forall n e e', substitute_subexpressions n sub e = Some e' -> nvalue env e' = nvalue env e.
Proof. intros p sub env H n e e' W. eapply substitute_value; eauto. Qed.
Print Assumptions C61_substitute_value.

(** Without the condition it does not: replacing x by x + 1 never ends, and replacing x by y + y and y by 5 in x
    also replaces the new y. *)
Theorem C61_substitute_refuted :
  (exists (sub : list (nexpr 7 * nexpr 7)) e, different_keys sub /\ (exists e', replaced sub e e') /\ forall n, substitute_subexpressions n sub e = None) /\
  (exists (sub : list (nexpr 7 * nexpr 7)) e e', different_keys sub /\ substitute_subexpressions 9 sub e = Some e' /\ ~ replaced sub e e').
Proof.
  set (x := NRef [120%N] 0 : nexpr 7). set (y := NRef [121%N] 1 : nexpr 7). split.
  - exists [(x, NBin x OAdd (NNum 1%F))], x. assert (D : different_keys [(x, NBin x OAdd (NNum 1%F))]) by (repeat constructor; intros []).
    split; [exact D|]. split; [eexists; eapply replaced_key; [now left|reflexivity]|]. intros n.
    change (walk n (substitute_once [(x, NBin x OAdd (NNum 1%F))]) Pre x = None). eapply substitute_loops; [now left|exact D|]. eauto.
  - set (sub := [(x, NBin y OAdd y); (y, NNum (of_N 5))]). exists sub, x, (NBin (NNum (of_N 5)) OAdd (NNum (of_N 5))).
    assert (D : different_keys sub) by (repeat constructor; cbn; [intros [H|[]]; discriminate|intros []]).
    split; [exact D|]. split; [vm_compute; reflexivity|]. intros R.
    assert (R' : replaced sub x (NBin y OAdd y)) by (eapply replaced_key; [now left|reflexivity]). pose proof (replaced_unique sub x _ D R _ R'). discriminate.
Qed.
Print Assumptions C61_substitute_refuted.

(** The unique references: all columns in the order of their ids, each with the last name it has. *)
Theorem C61_references : forall (p : positive) (m : nmach p),
  StronglySorted N.lt (map fst (unique_references m)) /\
  (forall id, In id (map fst (unique_references m)) <-> In id (map fst (machine_columns m))) /\
  (forall id name, In (id, name) (unique_references m) <-> last_name (machine_columns m) id name).
Proof.
  intros p m. split; [apply collect_ascending|]. split; [apply unique_ids_in|]. intros id name. rewrite <- columns_machine. apply collect_last.
Qed.
Print Assumptions C61_references.

(** Making columns global succeeds exactly if the ids are 0, ..., n - 1 with n positive; then it moves all ids,
    appends the suffix to all names and changes nothing else. *)
Theorem C61_globalize : forall (p : positive) n (m : nmach p) next suffix, machine_height m < n -> forall next' subs m',
  globalize_references n m next suffix = Some (next', subs, m') <->
  exists width (name : N -> text), 0 < width /\
    (forall id, In id (map fst (machine_columns m)) <-> (id < N.of_nat width)%N) /\
    (forall id, (id < N.of_nat width)%N -> last_name (machine_columns m) id (name id)) /\
    next' = (next + N.of_nat width)%N /\ subs = map (fun i => (next + N.of_nat i)%N) (seq 0 width) /\
    m' = map_machine (fun _ id => (name id ++ [95%N] ++ print 10 suffix, (next + id)%N)) m.
Proof.
  intros p n m next suffix H next' subs m'. rewrite (globalize_some n m next suffix H).
  assert (X : forall width (name : N -> text), (forall id, In id (map fst (machine_columns m)) <-> (id < N.of_nat width)%N) ->
    (forall id, (id < N.of_nat width)%N -> last_name (machine_columns m) id (name id)) ->
    map_machine (fun _ id => (final_name m suffix id, (id + next)%N)) m = map_machine (fun _ id => (name id ++ [95%N] ++ print 10 suffix, (next + id)%N)) m).
  { intros width name Hid Hn. apply map_machine_ext. intros nm id Hc. apply (in_map fst) in Hc. cbn [fst] in Hc. apply Hid in Hc.
    rewrite (final_name_last m suffix id (name id)) by auto. f_equal. apply N.add_comm. }
  split.
  - intros (w & Hw & Hid & -> & -> & ->). exists w, (fun id => match bt_get (unique_references m) id with Some name => name | None => [] end).
    assert (Hn : forall id, (id < N.of_nat w)%N -> last_name (machine_columns m) id (match bt_get (unique_references m) id with Some name => name | None => [] end)).
    { intros id Hi. apply Hid in Hi. apply last_name_exists in Hi. destruct Hi as (name & Hl). pose proof Hl as Hl'. rewrite <- columns_machine in Hl'. apply collect_last in Hl'.
      apply (bt_get_in _ _ (collect_ascending _)) in Hl'. unfold unique_references, unique_of. now rewrite Hl'. }
    repeat (split; [first [assumption|reflexivity]|]). now apply (X w).
  - intros (w & name & Hw & Hid & Hn & -> & -> & ->). exists w. repeat (split; [first [assumption|reflexivity]|]). symmetry. now apply (X w).
Qed.
Print Assumptions C61_globalize.

(** It is the operation on columns without names that the other theorems (C32) speak about. *)
Theorem C61_globalize_refines : forall (p : positive) n (m : nmach p) next suffix, machine_height m < n ->
  option_map (fun r => (fst r, nameless_machine (snd r))) (globalize_references n m next suffix) = globalize (nameless_machine m) next.
Proof. intros. now apply globalize_nameless. Qed.
Print Assumptions C61_globalize_refines.

(** Different columns do not get the same name by the suffix, neither in one machine nor in two. *)
Theorem C61_names : forall s s' name name', globalized_name s name = globalized_name s' name' -> name = name' /\ s = s'.
Proof. intros. now apply globalized_name_inj. Qed.
Print Assumptions C61_names.

(** Derived columns are not visited: after making columns global, the column that is computed is not the one of
    the constraints any more. *)
Theorem C61_derived_refuted : exists (m m' : nmach 7) next next' subs,
  globalize_references 9 m next 0 = Some (next', subs, m') /\
  (exists d, In d (nm_derived m) /\ In (snd (fst d)) (map fst (machine_columns m))) /\
  (forall d, In d (nm_derived m') -> ~ In (snd (fst d)) (map fst (machine_columns m'))).
Proof.
  set (x := NRef [120%N] 0 : nexpr 7). exists (mkNM [NBin x OMul x] [] [([120%N], 0%N, NConst 1%F)]).
  eexists _, 5%N, _, _. split; [vm_compute; reflexivity|]. split.
  - eexists. split; [now left|]. now left.
  - intros d [<- | []] [H|[H|[]]]; discriminate.
Qed.
Print Assumptions C61_derived_refuted.

(** ** Examples *)
Definition va : nexpr 7 := NRef [97%N] 0. Definition vb : nexpr 7 := NRef [98%N] 1.
Definition formula : nexpr 7 := NBin (NNeg va) OMul (NBin vb OSub (NNum 1%F)).
Definition small_machine : nmach 7 := mkNM [formula] [mkNB 3 va [NNum 1%F; vb]] [].
(** The numbers of calls until the first number: six of seven parts in both orders. *)
Definition count_until_number (s : nat) (e : nexpr 7) : nat * option nat := match e with NNum _ => (S s, Some s) | _ => (S s, None) end.
Example C61_order_example : visit count_until_number Pre 0 formula = (6, Some 5) /\ visit count_until_number Post 0 formula = (4, Some 3).
Proof. vm_compute. auto. Qed.
(** Only the first column is changed. *)
Definition first_to_zero (s : nat) (e : nexpr 7) : nat * nexpr 7 * option unit := match e with NRef _ _ => (S s, NNum 0%F, Some tt) | _ => (s, e, None) end.
Example C61_leaves_example : (forall s e, (leaf e -> leaf (snd (fst (first_to_zero s e)))) /\ (~ leaf e -> first_to_zero s e = (s, e, None))) /\
  visit_mut 9 first_to_zero Post 0 formula = Some (1, NBin (NNeg (NNum 0%F)) OMul (NBin vb OSub (NNum 1%F)), Some tt).
Proof. split; [intros s [| | |]; cbn; tauto|vm_compute; reflexivity]. Qed.
Example C61_substitute_example : let sub := [(va, NNum (of_N 5)); (NBin vb OSub (NNum 1%F), NRef [99%N] 2)] in
  different_keys sub /\ (forall k v x, In (k, v) sub -> part_of x v -> no_key sub x) /\
  substitute_subexpressions 9 sub formula = Some (NBin (NNeg (NNum (of_N 5))) OMul (NRef [99%N] 2)).
Proof.
  cbn zeta. split; [repeat constructor; cbn; [intros [H|[]]; discriminate|intros []]|]. split; [|vm_compute; reflexivity].
  intros k v x [[= <- <-]|[[= <- <-]|[]]] P; inversion P; subst; intros k' v' [[= <- <-]|[[= <- <-]|[]]]; cbn; discriminate.
Qed.
Example C61_globalize_example : exists m', globalize_references 9 small_machine 10 4 = Some (12%N, [10%N; 11%N], m') /\
  unique_references m' = [(10%N, [97; 95; 52]%N); (11%N, [98; 95; 52]%N)] /\ machine_height small_machine < 9.
Proof. eexists. split; [vm_compute; reflexivity|]. split; [vm_compute; reflexivity|]. cbn. lia. Qed.
