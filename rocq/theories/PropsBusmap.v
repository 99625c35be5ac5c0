(** C74: the table of buses is the relation it was made from. *)
From Coq Require Import NArith Bool List Lia Sorted.
From Verif Require Import BusmapModel.
Import ListNotations.
Local Open Scope N_scope.

(** A comparison that decides equality. *)
Definition decides {C} (ceqb : C -> C -> bool) : Prop := forall x y, ceqb x y = true <-> x = y.
(** No number is used for two types. *)
Definition consistent {C} (ps : list (N * bus_type_of C)) : Prop := forall k t t', In (k, t) ps -> In (k, t') ps -> t = t'.
(** The numbers ascend. *)
Definition ascending {C} (m : list (N * bus_type_of C)) : Prop := StronglySorted (fun a b => fst a < fst b) m.

Section Facts.
  Context {C : Type} (ceqb : C -> C -> bool) (Hc : decides ceqb).
  Local Notation ty := (bus_type_of C).
  Lemma type_decides (a b : ty) : type_eqb ceqb a b = true <-> a = b.
  Proof. destruct a, b; cbn [type_eqb]; try (split; congruence). rewrite (Hc c c0). split; congruence. Qed.
  Lemma enter_in k v (m : list (N * ty)) : ascending m ->
    match enter ceqb k v m with
    | inl m' => ascending m' /\ (forall x, In x m' <-> x = (k, v) \/ In x m)
    | inr (a, b) => a = v /\ In (k, b) m /\ b <> v
    end.
  Proof.
    induction m as [|[k' v'] r IH]; intros A; cbn [enter].
    - split; [repeat constructor|]. cbn [In]. intuition.
    - inversion A as [|? ? A1 A2]; subst. destruct (N.ltb_spec k k') as [L|L].
      + split; [constructor; auto; constructor; auto; eapply Forall_impl; [|exact A2]; cbn [fst]; intros y Hy; lia|]. cbn [In]. intuition.
      + destruct (N.eqb_spec k k') as [->|Ne].
        * destruct (type_eqb ceqb v' v) eqn:E.
          -- apply type_decides in E. subst v'. split; auto. cbn [In]. intuition.
          -- split; auto. split; [now left|]. intros ->. assert (type_eqb ceqb v v = true) by now apply type_decides. congruence.
        * specialize (IH A1). destruct (enter ceqb k v r) as [m'|[a b]].
          -- destruct IH as [B D]. split.
             ++ constructor; auto. apply Forall_forall. intros x Hx. apply D in Hx. destruct Hx as [->|Hx]; [cbn [fst]; lia|]. apply (proj1 (Forall_forall _ _) A2 x Hx).
             ++ intros x. cbn [In]. rewrite D. intuition.
          -- destruct IH as (B & D & E). split; auto. split; auto. now right.
  Qed.
  Lemma enter_all_in ps : forall m, ascending m ->
    match enter_all ceqb ps m with
    | inl m' => ascending m' /\ (forall x, In x m' <-> In x ps \/ In x m)
    | inr (a, b) => exists k, In (k, a) ps /\ (In (k, b) ps \/ In (k, b) m) /\ a <> b
    end.
  Proof.
    induction ps as [|[k v] r IH]; intros m A; cbn [enter_all]; [split; auto; cbn [In]; intuition|].
    pose proof (enter_in k v m A) as K. destruct (enter ceqb k v m) as [m'|[a b]].
    - destruct K as [B D]. specialize (IH m' B). destruct (enter_all ceqb r m') as [m''|[a b]].
      + destruct IH as [I J]. split; auto. intros x. rewrite J, D. cbn [In]. intuition.
      + destruct IH as (q & I & J & Ne). exists q. split; [now right|]. split; auto. destruct J as [J|J]; [left; now right|]. apply D in J. destruct J as [J|J]; auto. injection J as -> ->. left. now left.
    - destruct K as (-> & D & E). exists k. split; [now left|]. split; auto.
  Qed.
  Lemma ascending_consistent (m : list (N * ty)) : ascending m -> consistent m.
  Proof.
    induction m as [|[k v] r IH]; intros A q t t' H H'; [destruct H|]. inversion A as [|? ? A1 A2]; subst. pose proof (proj1 (Forall_forall _ _) A2) as G. cbn [fst] in G.
    destruct H as [H|H], H' as [H'|H'].
    - congruence.
    - injection H as -> ->. specialize (G _ H'). cbn [fst] in G. lia.
    - injection H' as -> ->. specialize (G _ H). cbn [fst] in G. lia.
    - eapply IH; eauto.
  Qed.
  Lemma ascending_ext (m m' : list (N * ty)) : ascending m -> ascending m' -> (forall x, In x m <-> In x m') -> m = m'.
  Proof.
    revert m'. induction m as [|x r IH]; intros m' A A' E.
    - destruct m' as [|y r']; auto. destruct (proj2 (E y) (or_introl eq_refl)).
    - destruct m' as [|y r']; [destruct (proj1 (E x) (or_introl eq_refl))|]. inversion A as [|? ? A1 A2]; inversion A' as [|? ? B1 B2]; subst.
      pose proof (proj1 (Forall_forall _ _) A2) as G. pose proof (proj1 (Forall_forall _ _) B2) as G'. cbn beta in G, G'.
      assert (x = y).
      { destruct (proj1 (E x) (or_introl eq_refl)) as [H|H]; auto. destruct (proj2 (E y) (or_introl eq_refl)) as [H'|H']; auto. specialize (G _ H'). specialize (G' _ H). lia. }
      subst y. f_equal. apply IH; auto. intros z. split; intros Hz.
      + destruct (proj1 (E z) (or_intror Hz)) as [H|H]; auto. subst z. specialize (G _ Hz). lia.
      + destruct (proj2 (E z) (or_intror Hz)) as [H|H]; auto. subst z. specialize (G' _ Hz). lia.
  Qed.
End Facts.

(** The table is made exactly if no number is used for two types; it has exactly the pairs it was made from, in the order of the
    numbers, so that neither the order nor repetitions of the pairs matter. *)
Theorem C74_made : forall C (ceqb : C -> C -> bool) ps, decides ceqb ->
  ((exists m, from_id_type_pairs ceqb ps = inl m) <-> consistent ps) /\
  (forall m, from_id_type_pairs ceqb ps = inl m -> ascending (all_types_by_id m) /\ forall k t, In (k, t) (all_types_by_id m) <-> In (k, t) ps) /\
  (forall ps', (forall x, In x ps <-> In x ps') -> consistent ps -> from_id_type_pairs ceqb ps = from_id_type_pairs ceqb ps').
Proof.
  intros C ceqb ps Hc. unfold all_types_by_id.
  assert (K : forall qs m, from_id_type_pairs ceqb qs = inl m -> ascending m /\ forall x, In x m <-> In x qs).
  { intros qs m E. pose proof (enter_all_in ceqb Hc qs [] ltac:(constructor)) as P. unfold from_id_type_pairs in E. rewrite E in P. destruct P as [P Q]. split; auto. intros x. rewrite Q. cbn [In]. intuition. }
  assert (L : forall qs, (exists m, from_id_type_pairs ceqb qs = inl m) <-> consistent qs).
  { intros qs. split.
    - intros [m E]. destruct (K _ _ E) as [P Q]. intros k t t' H H'. apply Q in H. apply Q in H'. exact (ascending_consistent m P k t t' H H').
    - intros Cs. pose proof (enter_all_in ceqb Hc qs [] ltac:(constructor)) as P. unfold from_id_type_pairs. destruct (enter_all ceqb qs []) as [m|[a b]]; [now exists m|].
      destruct P as (k & P & [Q|[]] & Ne). destruct Ne. eapply Cs; eauto. }
  split; [apply L|]. split.
  - intros m E. destruct (K _ _ E) as [P Q]. split; auto.
  - intros ps' E Cs. destruct (proj2 (L ps) Cs) as [m Em]. assert (Cs' : consistent ps') by (intros k t t' H H'; apply E in H; apply E in H'; eapply Cs; eauto).
    destruct (proj2 (L ps') Cs') as [m' Em']. rewrite Em, Em'. f_equal. destruct (K _ _ Em) as [P Q], (K _ _ Em') as [P' Q']. apply ascending_ext; auto. intros x. now rewrite Q, Q', E.
Qed.
Print Assumptions C74_made.

(** If the table is not made, the two types that are named are used for one number. *)
Theorem C74_panics : forall C (ceqb : C -> C -> bool) ps a b, decides ceqb ->
  from_id_type_pairs ceqb ps = inr (a, b) -> a <> b /\ exists k, In (k, a) ps /\ In (k, b) ps.
Proof.
  intros C ceqb ps a b Hc E. pose proof (enter_all_in ceqb Hc ps [] ltac:(constructor)) as P. unfold from_id_type_pairs in E. rewrite E in P.
  destruct P as (k & P & [Q|[]] & Ne). eauto.
Qed.
Print Assumptions C74_panics.

(** Looking up a number gives its type; looking up a type gives the least of its numbers. *)
Theorem C74_lookup : forall C (ceqb : C -> C -> bool) ps m, decides ceqb -> from_id_type_pairs ceqb ps = inl m ->
  (forall k t, bus_type m k = Some t <-> In (k, t) ps) /\
  (forall k t, get_bus_id ceqb m t = Some k <-> In (k, t) ps /\ forall k', In (k', t) ps -> k <= k') /\
  (forall t, get_bus_id ceqb m t = None <-> forall k, ~ In (k, t) ps).
Proof.
  intros C ceqb ps m Hc E. destruct (C74_made C ceqb ps Hc) as (_ & M & _). destruct (M m E) as [A I]. unfold all_types_by_id in *. clear M E.
  assert (G1 : forall k t, bus_type m k = Some t <-> In (k, t) m).
  { intros k t. unfold bus_type. split.
    - destruct (find _ m) as [[k' t']|] eqn:F1; [|discriminate]. intros [= <-]. apply find_some in F1. cbn [fst] in F1. destruct F1 as [F1 F2]. apply N.eqb_eq in F2. now subst k'.
    - intros H. destruct (find _ m) as [[k' t']|] eqn:F1.
      + apply find_some in F1. cbn [fst] in F1. destruct F1 as [F1 F2]. apply N.eqb_eq in F2. subst k'. cbn [snd]. f_equal. eapply (ascending_consistent m A); eauto.
      + pose proof (find_none _ _ F1 _ H) as N1. cbn [fst] in N1. rewrite N.eqb_refl in N1. discriminate. }
  assert (G2 : forall k t, In (k, t) m -> exists k', get_bus_id ceqb m t = Some k').
  { intros k t H. unfold get_bus_id. destruct (find _ m) as [x|] eqn:F1; [eauto|]. pose proof (find_none _ _ F1 _ H) as N1. cbn [snd] in N1. assert (type_eqb ceqb t t = true) by now apply type_decides. congruence. }
  assert (G3 : forall k t, get_bus_id ceqb m t = Some k -> In (k, t) m /\ forall k', In (k', t) m -> k <= k').
  { intros k t. clear I G1 G2. induction m as [|[q u] r IH]; unfold get_bus_id; cbn [find]; [discriminate|]. inversion A as [|? ? A1 A2]; subst. pose proof (proj1 (Forall_forall _ _) A2) as L. cbn [fst] in L. cbn [snd].
    destruct (type_eqb ceqb u t) eqn:T1.
    - intros [= <-]. apply (type_decides ceqb Hc) in T1. subst u. split; [now left|]. intros k' [[= ->]|H]; [lia|]. specialize (L _ H). cbn [fst] in L. lia.
    - intros H. destruct (IH A1 H) as [P Q]. split; [now right|]. intros k' [[= -> ->]|H']; auto. assert (type_eqb ceqb t t = true) by now apply type_decides. congruence. }
  split; [intros k t; rewrite G1; apply I|]. split.
  - intros k t. split.
    + intros H. destruct (G3 _ _ H) as [P Q]. split; [now apply I|]. intros k' H'. apply Q. now apply I.
    + intros [P Q]. apply I in P. destruct (G2 _ _ P) as [k' E']. destruct (G3 _ _ E') as [P' Q']. specialize (Q' _ P). specialize (Q k' (proj1 (I _ _) P')). rewrite E'. f_equal. lia.
  - intros t. split.
    + intros H k Hk. apply I in Hk. destruct (G2 _ _ Hk) as [k' E']. congruence.
    + intros H. destruct (get_bus_id ceqb m t) as [k|] eqn:E'; auto. destruct (G3 _ _ E') as [P _]. destruct (H k). now apply I.
Qed.
Print Assumptions C74_lookup.

Lemma vm_decides : decides vm_eqb.
Proof. intros [|x y|] [|z w|]; cbn [vm_eqb]; try (split; congruence). rewrite andb_true_iff, !N.eqb_eq. split; [intros [-> ->]; reflexivity|intros [= -> ->]; auto]. Qed.
(** For OpenVM: the table is made exactly if all buses that exist have different numbers, and then each type has exactly its number. *)
Theorem C74_openvm : forall execution memory program range bitwise tuple,
  let ids := [execution; memory; program; range] ++ match bitwise with Some k => [k] | None => [] end ++ match tuple with Some (k, _) => [k] | None => [] end in
  ((exists m, from_id_type_pairs vm_eqb (vm_pairs execution memory program range bitwise tuple) = inl m) <-> NoDup ids) /\
  (forall m, from_id_type_pairs vm_eqb (vm_pairs execution memory program range bitwise tuple) = inl m ->
     get_bus_id vm_eqb m ExecutionBridge = Some execution /\ get_bus_id vm_eqb m Memory = Some memory /\ get_bus_id vm_eqb m PcLookup = Some program /\
     get_bus_id vm_eqb m (Other VariableRangeChecker) = Some range /\ get_bus_id vm_eqb m (Other BitwiseLookup) = bitwise /\
     (forall x y, get_bus_id vm_eqb m (Other (TupleRangeChecker x y)) = match tuple with Some (k, s) => if (x =? fst s) && (y =? snd s) then Some k else None | None => None end) /\
     forall k t, bus_type m k = Some t <-> get_bus_id vm_eqb m t = Some k).
Proof.
  intros ex me pr ra bi tu ids. set (ps := vm_pairs ex me pr ra bi tu).
  assert (Eids : ids = map fst ps) by (subst ids ps; unfold vm_pairs; destruct bi, tu as [[k [x y]]|]; reflexivity).
  assert (U : forall i j a b, nth_error ps i = Some a -> nth_error ps j = Some b -> snd a = snd b -> i = j).
  { subst ps. unfold vm_pairs. intros i j a b. destruct bi as [kb|], tu as [[k [x y]]|]; cbn [app];
      do 7 (destruct i as [|i]; [do 7 (destruct j as [|j]; [cbn; intros [= <-] [= <-] G; (reflexivity || discriminate G)|]); cbn; destruct j; discriminate|]); cbn; destruct i; discriminate. }
  assert (Un : forall k k' t, In (k, t) ps -> In (k', t) ps -> k = k').
  { intros k k' t H H'. apply In_nth_error in H, H'. destruct H as [i H], H' as [j H']. assert (i = j) by (eapply U; eauto). subst j. congruence. }
  assert (Cs : consistent ps <-> NoDup ids).
  { rewrite Eids. split.
    - intros Co. apply NoDup_nth_error. intros i j Hi E. rewrite map_length in Hi. destruct (nth_error ps i) as [[k t]|] eqn:Ni; [|apply nth_error_None in Ni; lia].
      rewrite (map_nth_error fst i ps Ni) in E. symmetry in E. destruct (nth_error ps j) as [[k' t']|] eqn:Nj.
      + rewrite (map_nth_error fst j ps Nj) in E. injection E as ->. cbn [fst] in *. apply (U i j _ _ Ni Nj). cbn [snd]. apply (Co k); eapply nth_error_In; eauto.
      + apply nth_error_None in Nj. assert (nth_error (map fst ps) j = None) by (apply nth_error_None; now rewrite map_length). congruence.
    - intros D k t t' H H'. apply In_nth_error in H, H'. destruct H as [i H], H' as [j H'].
      assert (i = j).
      { apply (proj1 (NoDup_nth_error (map fst ps)) D); [rewrite map_length; apply nth_error_Some; congruence|]. now rewrite (map_nth_error fst i ps H), (map_nth_error fst j ps H'). }
      subst j. congruence. }
  split; [rewrite <- Cs; apply (C74_made vm_type vm_eqb ps vm_decides)|].
  intros m E. destruct (C74_lookup vm_type vm_eqb ps m vm_decides E) as (L1 & L2 & L3).
  assert (W : forall k t, In (k, t) ps -> get_bus_id vm_eqb m t = Some k).
  { intros k t H. apply L2. split; auto. intros k' H'. rewrite (Un _ _ _ H H'). lia. }
  assert (Io : In (ex, ExecutionBridge) ps /\ In (me, Memory) ps /\ In (pr, PcLookup) ps /\ In (ra, Other VariableRangeChecker) ps) by (subst ps; unfold vm_pairs; cbn [app In]; repeat split; auto 8).
  destruct Io as (I1 & I2 & I3 & I4). split; [auto|]. split; [auto|]. split; [auto|]. split; [auto|]. split.
  { destruct bi as [kb|].
    - apply W. subst ps. unfold vm_pairs. apply in_or_app. right. now left.
    - apply L3. intros k H. subst ps. unfold vm_pairs in H. destruct tu as [[k' [x y]]|]; cbn [app In] in H; repeat destruct H as [H|H]; congruence || destruct H. }
  split.
  { intros x y. destruct tu as [[k [z w]]|]; cbn [fst snd].
    - destruct ((x =? z) && (y =? w)) eqn:B.
      + apply andb_true_iff in B. rewrite !N.eqb_eq in B. destruct B as [-> ->]. apply W. subst ps. unfold vm_pairs. apply in_or_app. right. apply in_or_app. right. now left.
      + apply L3. intros q H. subst ps. unfold vm_pairs in H. apply in_app_or in H. destruct H as [H|H]; [cbn [In] in H; repeat destruct H as [H|H]; congruence || destruct H|].
        apply in_app_or in H. destruct H as [H|H]; [destruct bi; cbn [In] in H; repeat destruct H as [H|H]; congruence || destruct H|].
        destruct H as [[= -> -> ->]|[]]. rewrite !N.eqb_refl in B. discriminate.
    - apply L3. intros q H. subst ps. unfold vm_pairs in H. destruct bi; cbn [app In] in H; repeat destruct H as [H|H]; congruence || destruct H. }
  intros k t. rewrite L1. split; auto. intros H. now apply L2 in H.
Qed.
Print Assumptions C74_openvm.

(** Cases: the default table; two types for one number; the message of the panic names the two types and no number, so that it is the
    same for conflicts about different numbers. *)
Example C74_example :
  from_id_type_pairs vm_eqb default_pairs = inl default_pairs /\ consistent default_pairs /\
  default_pairs = vm_pairs 0 1 2 3 (Some 6) (Some (7, (256, 2048))) /\
  from_id_type_pairs vm_eqb [(9, Memory); (4, PcLookup); (9, Memory); (5, Memory)] = inl [(4, PcLookup); (5, Memory); (9, Memory)] /\
  get_bus_id vm_eqb [(4, PcLookup); (5, Memory); (9, Memory)] Memory = Some 5.
Proof.
  split; [reflexivity|]. split; [apply (proj1 (C74_made _ vm_eqb default_pairs vm_decides)); now exists default_pairs|]. repeat split.
Qed.
Theorem C74_message_refuted : exists ps qs a b,
  from_id_type_pairs vm_eqb ps = inr (a, b) /\ from_id_type_pairs vm_eqb qs = inr (a, b) /\
  forall k, ~ (In (k, a) ps /\ In (k, a) qs).
Proof.
  exists [(1, Memory); (1, PcLookup)], [(2, Memory); (2, PcLookup)], PcLookup, Memory. repeat split.
  intros k [[H|[H|[]]] [G|[G|[]]]]; congruence.
Qed.
Print Assumptions C74_message_refuted.
