From Coq Require Import Arith Bool List Lia ZifyBool ZifyNat Permutation.
From Verif Require Import PartModel PartSpec.
Import ListNotations.

Lemma nodup_app_inv {A} (l m : list A) : NoDup (l ++ m) <-> NoDup l /\ NoDup m /\ forall x, In x l -> In x m -> False.
Proof.
  induction l as [|a l IH]; cbn [app].
  - split; [intros H; repeat split; auto; constructor|tauto].
  - rewrite !NoDup_cons_iff, IH, in_app_iff. split.
    + intros (H1 & H2 & H3 & H4). repeat split; auto. intros x [<-|Hx] Hm; eauto.
    + intros ((H1 & H2) & H3 & H4). repeat split; auto; [intros [X|X]; [auto|]|]; firstorder.
Qed.
Lemma perm_concat {A} (l m : list (list A)) : Permutation l m -> Permutation (concat l) (concat m).
Proof.
  induction 1; cbn [concat]; auto.
  - now apply Permutation_app_head.
  - rewrite !app_assoc. apply Permutation_app_tail. apply Permutation_app_comm.
  - etransitivity; eauto.
Qed.

Section PartFacts.
  Context {T : Type} (T_eqb : T -> T -> bool).
  Hypothesis T_eqb_eq : forall x y, T_eqb x y = true <-> x = y.
  Context (ord : list (T * nat) -> list (T * nat)) (gord : list (list T) -> list (list T)).
  Hypothesis ord_perm : forall l, Permutation (ord l) l.
  Hypothesis gord_perm : forall l, Permutation (gord l) l.

  Lemma p_get_none (m : list (T * nat)) x : p_get T_eqb m x = None <-> ~ In x (map fst m).
  Proof.
    induction m as [|[y i] m IH]; cbn; [tauto|]. destruct (T_eqb x y) eqn:E0.
    - apply T_eqb_eq in E0. subst. split; [discriminate|intros H; exfalso; auto].
    - rewrite IH. assert (x <> y) by (intros ->; rewrite (proj2 (T_eqb_eq y y) eq_refl) in E0; discriminate). intuition congruence.
  Qed.
  Lemma p_get_some (m : list (T * nat)) x i : NoDup (map fst m) -> (p_get T_eqb m x = Some i <-> In (x, i) m).
  Proof.
    induction m as [|[y j] m IH]; cbn [map fst p_get]; intros Hn.
    - split; [discriminate|intros []].
    - apply NoDup_cons_iff in Hn. destruct Hn as [Hy Hn]. specialize (IH Hn). destruct (T_eqb x y) eqn:E0.
      + apply T_eqb_eq in E0. subst. split; [intros [= ->]; now left|]. intros [X|X]; [congruence|]. exfalso. apply Hy. apply in_map_iff. now exists (y, i).
      + rewrite IH. split; [now right|]. intros [X|X]; auto. injection X as -> ->. rewrite (proj2 (T_eqb_eq x x) eq_refl) in E0. discriminate.
  Qed.
  Lemma insert_all_spec (l : list (T * nat)) : forall m, NoDup (map fst m) ->
    match p_insert_all T_eqb m l with
    | Some m' => m' = m ++ l /\ NoDup (map fst (m ++ l))
    | None => ~ NoDup (map fst (m ++ l))
    end.
  Proof.
    induction l as [|[x i] l IH]; intros m Hm; cbn [p_insert_all].
    - rewrite app_nil_r. auto.
    - unfold p_insert. destruct (p_get T_eqb m x) as [j|] eqn:E0.
      + intros X. rewrite map_app in X. cbn [map fst] in X. apply NoDup_remove_2 in X. apply X. apply in_or_app. left.
        destruct (in_dec (fun a b => match bool_dec (T_eqb a b) true with left e => left (proj1 (T_eqb_eq a b) e) | right e => right (fun h => e (proj2 (T_eqb_eq a b) h)) end) x (map fst m)) as [|N0]; auto.
        apply p_get_none in N0. congruence.
      + apply p_get_none in E0. specialize (IH (m ++ [(x, i)])). rewrite <- app_assoc in IH. cbn [app] in IH. apply IH.
        rewrite map_app. cbn. apply nodup_app_inv. repeat split; auto; [constructor; [intros []|constructor]|]. intros y Hy [<-|[]]. auto.
  Qed.
  (** Numbering of classes. *)
  Fixpoint numbered (n : nat) (cl : list (list T)) : list (T * nat) := match cl with [] => [] | c :: r => map (fun x => (x, n)) c ++ numbered (S n) r end.
  Lemma numbered_fst cl : forall n, map fst (numbered n cl) = concat cl.
  Proof. induction cl as [|c cl IH]; intros n; cbn; auto. rewrite map_app, map_map, IH. cbn. now rewrite map_id. Qed.
  Lemma numbered_in cl : forall n x i, In (x, i) (numbered n cl) <-> n <= i /\ exists c, nth_error cl (i - n) = Some c /\ In x c.
  Proof.
    induction cl as [|c cl IH]; intros n x i; cbn [numbered].
    - split; [intros []|]. intros (_ & c & H & _). destruct (i - n); discriminate.
    - rewrite in_app_iff, in_map_iff, IH. split.
      + intros [(y & [= <- <-] & Hy)|(H1 & c' & H2 & H3)]; [split; auto; rewrite Nat.sub_diag; cbn; eauto|].
        split; [lia|]. replace (i - n) with (S (i - S n)) by lia. cbn. eauto.
      + intros (H1 & c' & H2 & H3). destruct (Nat.eq_dec i n) as [->|N0].
        * rewrite Nat.sub_diag in H2. cbn in H2. injection H2 as ->. left. exists x. auto.
        * right. split; [lia|]. replace (i - n) with (S (i - S n)) in H2 by lia. cbn in H2. eauto.
  Qed.
  Definition big (cl : list (list T)) : list (list T) := filter (fun c => Nat.ltb 1 (length c)) cl.
  Lemma from_loop_spec cl : forall m n, NoDup (map fst m) ->
    match from_loop T_eqb cl m n with
    | Some p => class_of p = m ++ numbered n (big cl) /\ num_classes p = n + length (big cl) /\ NoDup (map fst m ++ concat (big cl))
    | None => ~ NoDup (map fst m ++ concat (big cl))
    end.
  Proof.
    induction cl as [|c cl IH]; intros m n Hm; cbn [from_loop big filter].
    - cbn. rewrite !app_nil_r. auto.
    - fold (big cl). destruct (Nat.ltb 1 (length c)); [|now apply IH]. pose proof (insert_all_spec (map (fun x => (x, n)) c) m Hm) as Hi.
      assert (Ec : map fst (map (fun x => (x, n)) c) = c) by (rewrite map_map; apply map_id).
      destruct (p_insert_all T_eqb m (map (fun x => (x, n)) c)) as [m'|].
      + destruct Hi as [-> Hn]. specialize (IH (m ++ map (fun x => (x, n)) c) (S n) Hn). replace (map fst (m ++ map (fun x => (x, n)) c) ++ concat (big cl)) with (map fst m ++ c ++ concat (big cl)) in IH by (now rewrite map_app, Ec, <- app_assoc). cbn [concat numbered length].
        destruct (from_loop T_eqb cl (m ++ map (fun x => (x, n)) c) (S n)) as [p|]; auto. destruct IH as (I1 & I2 & I3). split; [now rewrite I1, <- ?app_assoc|]. split; [lia|]. exact I3.
      + intros X. apply Hi. rewrite map_app, Ec. cbn [concat] in X. rewrite app_assoc in X. apply nodup_app_inv in X. tauto.
  Qed.
  Lemma nodup_two (c : list T) : 1 < length c -> NoDup c -> exists x y, x <> y /\ In x c /\ In y c.
  Proof. destruct c as [|x [|y c]]; cbn; try lia. intros _ H. exists x, y. inversion H as [|? ? H1 H2]; subst. repeat split; auto. intros ->. apply H1. now left. Qed.
  Lemma concat_nodup (cl : list (list T)) c : NoDup (concat cl) -> In c cl -> NoDup c.
  Proof. induction cl as [|d cl IH]; intros H; [intros []|]. cbn in H. apply nodup_app_inv in H. intros [->|Hc]; [tauto|]. apply IH; tauto. Qed.
  Lemma from_iter_spec cl :
    match from_iter T_eqb cl with
    | Some p => part_ok p /\ NoDup (concat (big cl)) /\ (forall x y, together p x y <-> in_same (big cl) x y)
    | None => ~ NoDup (concat (big cl))
    end.
  Proof.
    unfold from_iter. pose proof (from_loop_spec cl [] 0 (NoDup_nil _)) as H. cbn [map app Nat.add] in H. destruct (from_loop T_eqb cl [] 0) as [p|]; auto. destruct H as (H1 & H2 & H3).
    split; [|split; auto].
    - split.
      + now rewrite H1, numbered_fst.
      + intros x i Hx. rewrite H1 in Hx. apply numbered_in in Hx. destruct Hx as (_ & c & Hc & _). rewrite Nat.sub_0_r in Hc. rewrite H2. apply nth_error_Some. congruence.
      + intros i Hi. rewrite H2 in Hi. destruct (nth_error (big cl) i) as [c|] eqn:Ec; [|apply nth_error_None in Ec; lia]. pose proof (nth_error_In _ _ Ec) as Hc. pose proof (concat_nodup _ c H3 Hc) as Hn.
        apply filter_In in Hc. destruct Hc as [_ Hc]. apply Nat.ltb_lt in Hc. destruct (nodup_two c Hc Hn) as (x & y & A & B & C). exists x, y. split; auto. rewrite H1.
        split; apply numbered_in; (split; [lia|]); rewrite Nat.sub_0_r; eauto.
    - intros x y. unfold together. rewrite H1. split.
      + intros (i & Hx & Hy). apply numbered_in in Hx, Hy. destruct Hx as (_ & c & A & B), Hy as (_ & d & C & D). rewrite Nat.sub_0_r in *. assert (d = c) by congruence. subst. exists c. split; auto. now apply nth_error_In in A.
      + intros (c & A & B & C). apply In_nth_error in A. destruct A as [i A]. exists i. split; apply numbered_in; (split; [lia|]); rewrite Nat.sub_0_r; eauto.
  Qed.
  Lemma big_perm cl cl' : Permutation cl cl' -> Permutation (big cl) (big cl').
  Proof. unfold big. induction 1; cbn [filter]; auto; repeat (destruct (Nat.ltb _ _)); auto; try (now constructor). etransitivity; eauto. Qed.
  (** Groups. *)
  Lemma group_insert_in k (x : T) g k' y : (exists l, In (k', l) (group_insert k x g) /\ In y l) <-> (k', y) = (k, x) \/ (exists l, In (k', l) g /\ In y l).
  Proof.
    induction g as [|[k0 l0] g IH]; cbn [group_insert].
    - split.
      + intros (l & [[= <- <-]|[]] & [<-|[]]). now left.
      + intros [[= -> ->]|(l & [] & _)]. exists [x]. cbn. auto.
    - destruct (Nat.eqb (fst k) (fst k0) && Nat.eqb (snd k) (snd k0)) eqn:E0.
      + assert (k = k0) by (destruct k, k0; cbn in *; f_equal; lia). subst k0. split.
        * intros (l & [[= <- <-]|H] & Hy); [|right; exists l; split; auto; now right]. apply in_app_iff in Hy. destruct Hy as [Hy|[<-|[]]]; [right; exists l0; split; auto; now left|now left].
        * intros [[= -> ->]|(l & [[= <- <-]|H] & Hy)].
          -- exists (l0 ++ [x]). split; [now left|]. apply in_or_app. right. now left.
          -- exists (l0 ++ [x]). split; [now left|]. apply in_or_app. now left.
          -- exists l. split; auto. now right.
      + split.
        * intros (l & [[= <- <-]|H] & Hy); [right; exists l0; split; auto; now left|]. destruct (proj1 IH) as [X|(l' & X & Y)]; eauto. right. exists l'. split; auto. now right.
        * intros [X|(l & [[= <- <-]|H] & Hy)].
          -- destruct (proj2 IH (or_introl X)) as (l & A & B). exists l. split; auto. now right.
          -- exists l0. split; auto. now left.
          -- destruct (proj2 IH) as (l' & A & B); [right; eauto|]. exists l'. split; auto. now right.
  Qed.
  Lemma group_keys_in k (x : T) g k' : In k' (map fst (group_insert k x g)) -> k' = k \/ In k' (map fst g).
  Proof.
    induction g as [|[k0 l0] g IH]; cbn [group_insert map]; [intros [<-|[]]; now left|]. destruct (Nat.eqb (fst k) (fst k0) && Nat.eqb (snd k) (snd k0)); cbn [map fst In]; [tauto|]. intros [<-|H]; [tauto|]. destruct (IH H); tauto.
  Qed.
  Lemma group_insert_keys k (x : T) g : NoDup (map fst g) -> NoDup (map fst (group_insert k x g)).
  Proof.
    induction g as [|[k0 l0] g IH]; cbn [group_insert map fst]; intros Hn; [repeat constructor; intros []|].
    destruct (Nat.eqb (fst k) (fst k0) && Nat.eqb (snd k) (snd k0)) eqn:E0; auto. apply NoDup_cons_iff in Hn. destruct Hn as [H1 H2]. cbn [map fst]. constructor; auto.
    intros X. apply group_keys_in in X. destruct X as [->|]; auto. rewrite !Nat.eqb_refl in E0. discriminate.
  Qed.
  Lemma group_insert_perm k (x : T) g : Permutation (concat (map snd (group_insert k x g))) (x :: concat (map snd g)).
  Proof.
    induction g as [|[k0 l0] g IH]; cbn [group_insert map snd concat app]; auto. destruct (Nat.eqb (fst k) (fst k0) && Nat.eqb (snd k) (snd k0)); cbn [map snd concat].
    - rewrite <- app_assoc. cbn [app]. symmetry. apply Permutation_middle.
    - rewrite IH. symmetry. apply Permutation_middle.
  Qed.
  Lemma in_fst (m : list (T * nat)) x : In x (map fst m) <-> exists i, In (x, i) m.
  Proof. rewrite in_map_iff. split; [intros ([y i] & <- & H); eauto|]. intros [i H]. now exists (x, i). Qed.
  Lemma unique_id (p : part T) x i j : part_ok p -> In (x, i) (class_of p) -> In (x, j) (class_of p) -> i = j.
  Proof. intros Hp Hi Hj. pose proof (ok_once _ Hp) as Hn. apply (p_get_some _ _ _ Hn) in Hi, Hj. congruence. Qed.
  Lemma groups_spec (b : part T) (l : list (T * nat)) : part_ok b -> NoDup (map fst l) ->
    let g := fold_left (fun g xi => match p_get T_eqb (class_of b) (fst xi) with Some j => group_insert (snd xi, j) (fst xi) g | None => g end) l [] in
    (forall i j x, (exists c, In ((i, j), c) g /\ In x c) <-> In (x, i) l /\ In (x, j) (class_of b)) /\ NoDup (map fst g) /\ NoDup (concat (map snd g)).
  Proof.
    intros Hb. induction l as [|[x i] l IH] using rev_ind; intros Hn; cbn zeta.
    - cbn. split; [|split; constructor]. intros. split; [intros (c & [] & _)|tauto].
    - rewrite map_app in Hn. apply nodup_app_inv in Hn. destruct Hn as (Hn1 & _ & Hn2). destruct (IH Hn1) as (A & B & C). rewrite fold_left_app. cbn [fold_left fst snd] in *.
      set (g := fold_left _ l []) in *. assert (Hx : ~ In x (concat (map snd g))).
      { intros X. apply in_concat in X. destruct X as (c & X & Y). apply in_map_iff in X. destruct X as ([[i' j'] c'] & <- & X). destruct (proj1 (A i' j' x)) as [Z _]; [eauto|]. apply (Hn2 x); [apply in_fst; eauto|now left]. }
      destruct (p_get T_eqb (class_of b) x) as [j|] eqn:E0.
      + apply (p_get_some _ _ _ (ok_once _ Hb)) in E0. split; [|split].
        * intros i' j' y. rewrite group_insert_in, A, in_app_iff. cbn [In]. split.
          -- intros [[= -> -> ->]|[X Y]]; auto.
          -- intros [[X|[[= -> ->]|[]]] Y]; auto. left. f_equal. f_equal. eapply (unique_id b y); eauto.
        * now apply group_insert_keys.
        * eapply Permutation_NoDup; [symmetry; apply group_insert_perm|]. now constructor.
      + apply p_get_none in E0. split; [|auto]. intros i' j' y. rewrite A, in_app_iff. split; [tauto|]. intros [[X|[[= -> ->]|[]]] Y]; auto. exfalso. apply E0. apply in_fst. eauto.
  Qed.
  Lemma intersect_ok (a b : part T) : part_ok a -> part_ok b -> exists p, intersected_with T_eqb ord gord a b = Some p /\ part_ok p /\
    (forall x y, x <> y -> (together p x y <-> together a x y /\ together b x y)).
  Proof.
    intros Ha Hb. unfold intersected_with.
    assert (Hn : NoDup (map fst (ord (class_of a)))) by (eapply Permutation_NoDup; [symmetry; apply Permutation_map; apply ord_perm|apply Ha]).
    destruct (groups_spec b (ord (class_of a)) Hb Hn) as (A & B & C). set (g := fold_left _ (ord (class_of a)) []) in *. pose proof (from_iter_spec (gord (map snd g))) as F.
    assert (Hc : NoDup (concat (big (gord (map snd g))))).
    { eapply Permutation_NoDup; [apply perm_concat, big_perm; symmetry; apply gord_perm|]. clear - C. induction (map snd g) as [|c l IH]; auto. cbn in C. apply nodup_app_inv in C. destruct C as (C1 & C2 & C3). unfold big. cbn [filter]. fold (big l).
      destruct (Nat.ltb 1 (length c)); auto. cbn. apply nodup_app_inv. repeat split; auto. intros x Hx Hy. apply (C3 x Hx). unfold big in Hy. apply in_concat in Hy. destruct Hy as (d & Hd & Hy). apply filter_In in Hd. apply in_concat. exists d. tauto. }
    destruct (from_iter T_eqb (gord (map snd g))) as [p|]; [|now destruct F]. exists p. split; auto. destruct F as (F1 & F2 & F3). split; auto. intros x y Hxy. rewrite F3.
    assert (Ia : forall z i, In (z, i) (ord (class_of a)) <-> In (z, i) (class_of a)) by (intros; split; apply Permutation_in; [|symmetry]; apply ord_perm). split.
    - intros (c & H1 & H2 & H3). apply filter_In in H1. destruct H1 as [H1 _]. apply (Permutation_in _ (gord_perm _)) in H1. apply in_map_iff in H1. destruct H1 as ([[i j] c'] & <- & H1). cbn [snd] in *.
      destruct (proj1 (A i j x)) as [X1 X2]; [eauto|]. destruct (proj1 (A i j y)) as [Y1 Y2]; [eauto|]. apply Ia in X1, Y1. split; [exists i|exists j]; auto.
    - intros [(i & X1 & Y1) (j & X2 & Y2)]. apply Ia in X1, Y1. destruct (proj2 (A i j x) (conj X1 X2)) as (c & Hc1 & Hc2). destruct (proj2 (A i j y) (conj Y1 Y2)) as (d & Hd1 & Hd2).
      assert (d = c).
      { clear - B Hc1 Hd1. induction g as [|[k l] g IH]; [destruct Hc1|]. cbn in B. apply NoDup_cons_iff in B. destruct B as [B1 B2]. destruct Hc1 as [[= -> ->]|Hc1], Hd1 as [Hd1|Hd1]; [congruence| | |auto].
        - exfalso. apply B1. apply in_map_iff. now exists ((i, j), d).
        - injection Hd1 as -> ->. exfalso. apply B1. apply in_map_iff. now exists ((i, j), c). }
      subst d. exists c. split; auto. apply filter_In. split.
      + apply (Permutation_in _ (Permutation_sym (gord_perm _))). apply in_map_iff. now exists ((i, j), c).
      + apply Nat.ltb_lt. destruct c as [|u [|v c]]; cbn; try lia; [destruct Hc2|]. destruct Hc2 as [<-|[]], Hd2 as [<-|[]]. congruence.
  Qed.
  (** The relation of a list of partitions. *)
  Definition all_together (ps : list (part T)) (x y : T) : Prop := forall p, In p ps -> together p x y.
  Lemma fold_intersect r : forall a, part_ok a -> Forall part_ok r ->
    exists p, fold_left (fun acc q => match acc with Some a => intersected_with T_eqb ord gord a q | None => None end) r (Some a) = Some p /\ part_ok p /\
      (forall x y, x <> y -> (together p x y <-> all_together (a :: r) x y)).
  Proof.
    induction r as [|b r IH]; intros a Ha Hr; cbn [fold_left].
    - exists a. split; auto. split; auto. intros x y _. unfold all_together. split; [intros H p [<-|[]]; auto|intros H; apply H; now left].
    - inversion Hr as [|? ? Hb Hr']; subst. destruct (intersect_ok a b Ha Hb) as (p & -> & P1 & P2). destruct (IH p P1 Hr') as (q & -> & Q1 & Q2). exists q. split; auto. split; auto.
      intros x y Hxy. rewrite (Q2 x y Hxy). unfold all_together. split.
      + intros H q' [<-|[<-|Hq']]; [apply P2; auto; apply H; now left|apply P2; auto; apply H; now left|apply H; now right].
      + intros H q' [<-|Hq']; [apply P2; auto; split; apply H; cbn; auto|apply H; cbn; auto].
  Qed.
  Lemma intersect_many_ok ps : ps <> [] -> Forall part_ok ps -> exists p, intersect_many T_eqb ord gord ps = Some p /\ part_ok p /\
    (forall x y, x <> y -> (together p x y <-> all_together ps x y)).
  Proof. destruct ps as [|a r]; [congruence|]. intros _ H. inversion H; subst. now apply fold_intersect. Qed.
  Lemma chunks_spec {A} n : 0 < n -> forall fuel (l : list A), length l <= fuel -> concat (chunks fuel n l) = l /\ Forall (fun c => c <> []) (chunks fuel n l).
  Proof.
    intros Hn. induction fuel as [|fuel IH]; intros l Hl; [destruct l; [cbn; auto|cbn in Hl; lia]|]. destruct l as [|x l]; [cbn; auto|]. cbn [chunks concat].
    destruct (IH (skipn n (x :: l))) as [A1 A2]; [rewrite skipn_length; cbn [length] in *; lia|]. rewrite A1. split; [apply firstn_skipn|]. constructor; auto. destruct n; [lia|]. discriminate.
  Qed.
  Lemma chunks_len {A} n : 2 <= n -> forall fuel (l : list A), length (chunks fuel n l) <= length l /\ (2 <= length l -> length (chunks fuel n l) < length l).
  Proof.
    intros Hn. induction fuel as [|fuel IH]; intros l; [cbn; lia|]. destruct l as [|x l]; [cbn; lia|]. cbn [chunks length]. destruct (IH (skipn n (x :: l))) as [A1 A2]. rewrite skipn_length in *. cbn [length] in *. lia.
  Qed.
  Lemma all_some_ok {A B} (f : A -> option B) (P : A -> B -> Prop) l : (forall a, In a l -> exists b, f a = Some b /\ P a b) -> exists l', all_some (map f l) = Some l' /\ Forall2 P l l'.
  Proof.
    induction l as [|a l IH]; intros H; cbn; [exists []; auto|]. destruct (H a (or_introl eq_refl)) as (b & -> & Hb). destruct IH as (l' & -> & Hl); [intros; apply H; now right|]. exists (b :: l'). auto.
  Qed.
  Lemma parallel_ok chunk : 2 <= chunk -> forall fuel ps, ps <> [] -> length ps <= fuel -> Forall part_ok ps ->
    exists p, parallel_intersect T_eqb ord gord chunk fuel ps = Some p /\ part_ok p /\ (forall x y, x <> y -> (together p x y <-> all_together ps x y)).
  Proof.
    intros Hch. induction fuel as [|fuel IH]; intros ps Hne Hf Hps; [destruct ps; [congruence|cbn in Hf; lia]|]. cbn [parallel_intersect]. destruct (Nat.leb_spec (length ps) chunk) as [L|L]; [now apply intersect_many_ok|].
    destruct (chunks_spec chunk ltac:(lia) (length ps) ps (le_n _)) as [C1 C2]. pose proof (chunks_len chunk Hch (length ps) ps) as [_ C3]. specialize (C3 ltac:(lia)). set (cs := chunks (length ps) chunk ps) in *.
    assert (Hcs : forall c, In c cs -> Forall part_ok c). { intros c Hc. apply Forall_forall. intros p Hp. rewrite Forall_forall in Hps. apply Hps. rewrite <- C1. apply in_concat. eauto. }
    destruct (all_some_ok (intersect_many T_eqb ord gord) (fun c p => part_ok p /\ (forall x y, x <> y -> (together p x y <-> all_together c x y))) cs) as (l' & -> & H2).
    { intros c Hc. rewrite Forall_forall in C2. apply intersect_many_ok; auto. }
    assert (Hlen : length l' = length cs) by (clear - H2; induction H2; cbn; auto).
    destruct (IH l') as (p & -> & P1 & P2).
    - intros ->. destruct cs; [cbn in C1; congruence|discriminate].
    - lia.
    - clear - H2. induction H2 as [|c p cs l' [A _] _ IH]; auto.
    - exists p. split; auto. split; auto. intros x y Hxy. rewrite (P2 x y Hxy). rewrite <- C1. clear - H2 Hxy. unfold all_together. induction H2 as [|c p cs l' [A B] H IH]; cbn [concat In]; [tauto|]. split.
      + intros X q Hq. apply in_app_iff in Hq. destruct Hq as [Hq|Hq]; [apply (proj1 (B x y Hxy)); auto|apply (proj1 IH); auto].
      + intros X q [<-|Hq]; [apply B; auto; intros q Hq; apply X; apply in_or_app; auto|apply (proj2 IH); auto; intros q' Hq'; apply X; apply in_or_app; auto].
  Qed.
  (** The classes as lists. *)
  Definition class_list (l : list (T * nat)) (i : nat) : list T := map fst (filter (fun xi => Nat.eqb (snd xi) i) l).
  Lemma to_classes_loop n l : forall done, (forall x i, In (x, i) l -> i < n) ->
    fold_left (fun acc xi => match acc with Some cl => push_at cl (snd xi) (fst xi) | None => None end) l (Some (map (class_list done) (seq 0 n))) = Some (map (class_list (done ++ l)) (seq 0 n)).
  Proof.
    induction l as [|[x i] l IH]; intros done H; cbn [fold_left]; [now rewrite app_nil_r|]. cbn [fst snd]. assert (Hi : i < n) by (apply (H x); now left). unfold push_at.
    rewrite nth_error_map. rewrite (nth_error_nth' _ 0) by (rewrite seq_length; lia). rewrite seq_nth by lia. cbn [option_map Nat.add].
    replace (firstn i (map (class_list done) (seq 0 n)) ++ (class_list done i ++ [x]) :: skipn (S i) (map (class_list done) (seq 0 n))) with (map (class_list (done ++ [(x, i)])) (seq 0 n)).
    - rewrite IH; [now rewrite <- app_assoc|]. intros y j Hy. apply (H y). now right.
    - assert (Hsp : seq 0 n = seq 0 i ++ i :: seq (S i) (n - S i)). { replace n with (i + S (n - S i)) at 1 by lia. rewrite seq_app. reflexivity. }
      rewrite Hsp, !map_app. cbn [map]. rewrite firstn_app, map_length, seq_length, Nat.sub_diag. cbn [firstn]. rewrite firstn_all2 by (rewrite map_length, seq_length; lia). rewrite app_nil_r.
      rewrite skipn_app, map_length, seq_length. rewrite skipn_all2 by (rewrite map_length, seq_length; lia). replace (S i - i) with 1 by lia. cbn [skipn app].
      assert (Ho : forall j, j <> i -> class_list (done ++ [(x, i)]) j = class_list done j).
      { intros j Hj. unfold class_list. rewrite filter_app. cbn [filter snd]. destruct (Nat.eqb_spec i j); [lia|]. now rewrite app_nil_r. }
      f_equal; [apply map_ext_in; intros j Hj; apply in_seq in Hj; apply Ho; lia|]. f_equal; [|apply map_ext_in; intros j Hj; apply in_seq in Hj; apply Ho; lia].
      unfold class_list. rewrite filter_app, map_app. cbn [filter snd]. now rewrite Nat.eqb_refl.
  Qed.
  Lemma class_list_in l i x : In x (class_list l i) <-> In (x, i) l.
  Proof.
    unfold class_list. rewrite in_map_iff. split.
    - intros ([y j] & <- & H). apply filter_In in H. cbn in *. destruct H as [H E0]. apply Nat.eqb_eq in E0. now subst.
    - intros H. exists (x, i). split; auto. apply filter_In. cbn. now rewrite Nat.eqb_refl.
  Qed.
  Lemma class_list_nodup l i : NoDup (map fst l) -> NoDup (class_list l i).
  Proof.
    unfold class_list. induction l as [|[x j] l IH]; cbn [map filter fst snd]; intros H; [constructor|]. apply NoDup_cons_iff in H. destruct H as [H1 H2]. destruct (Nat.eqb j i); auto. cbn [map fst]. constructor; auto.
    intros X. apply H1. apply in_map_iff in X. destruct X as ([y k] & <- & X). apply filter_In in X. apply in_map_iff. exists (y, k). tauto.
  Qed.
  Lemma to_classes_ok (p : part T) : part_ok p -> exists cl, to_classes ord p = Some cl /\ length cl = num_classes p /\ NoDup (concat cl) /\ Forall (fun c => 2 <= length c) cl /\ (forall x y, in_same cl x y <-> together p x y).
  Proof.
    intros Hp. unfold to_classes. assert (Hid : forall x i, In (x, i) (ord (class_of p)) -> i < num_classes p) by (intros x i H; apply (ok_ids _ Hp x); apply (Permutation_in _ (ord_perm _)); auto).
    pose proof (to_classes_loop (num_classes p) (ord (class_of p)) [] Hid) as L.
    assert (E0 : map (class_list []) (seq 0 (num_classes p)) = repeat [] (num_classes p)). { clear. generalize 0. induction (num_classes p) as [|n IH]; intros s; cbn; [reflexivity|]. now rewrite IH. }
    rewrite E0 in L. cbn [app] in L. rewrite L. eexists. split; [reflexivity|]. split; [now rewrite map_length, seq_length|].
    assert (Hn : NoDup (map fst (ord (class_of p)))) by (eapply Permutation_NoDup; [symmetry; apply Permutation_map; apply ord_perm|apply Hp]).
    assert (Ia : forall z i, In (z, i) (ord (class_of p)) <-> In (z, i) (class_of p)) by (intros; split; apply Permutation_in; [|symmetry]; apply ord_perm).
    split; [|split].
    - generalize 0 at 1. generalize (num_classes p) as n. clear L E0. induction n as [|n IH]; intros s; cbn [seq map concat]; [constructor|]. apply nodup_app_inv. split; [now apply class_list_nodup|]. split; [apply IH|].
      intros x Hx Hy. apply in_concat in Hy. destruct Hy as (c & Hc & Hy). apply in_map_iff in Hc. destruct Hc as (j & <- & Hj). apply in_seq in Hj. apply class_list_in in Hx, Hy. apply Ia in Hx, Hy. pose proof (unique_id p x _ _ Hp Hx Hy). lia.
    - apply Forall_forall. intros c Hc. apply in_map_iff in Hc. destruct Hc as (i & <- & Hi). apply in_seq in Hi. destruct (ok_two _ Hp i ltac:(lia)) as (x & y & A & B & C). apply Ia, class_list_in in B, C.
      destruct (class_list (ord (class_of p)) i) as [|u [|v c]]; cbn; try lia; [destruct B|]. destruct B as [<-|[]], C as [<-|[]]. congruence.
    - intros x y. split.
      + intros (c & Hc & Hx & Hy). apply in_map_iff in Hc. destruct Hc as (i & <- & Hi). apply class_list_in in Hx, Hy. apply Ia in Hx, Hy. exists i. auto.
      + intros (i & Hx & Hy). exists (class_list (ord (class_of p)) i). split; [apply in_map; apply in_seq; pose proof (ok_ids _ Hp x i Hx); lia|]. split; apply class_list_in, Ia; auto.
  Qed.
  Lemma big_all cl : Forall (fun c : list T => 2 <= length c) cl -> big cl = cl.
  Proof. unfold big. induction 1 as [|c cl H Hr IH]; cbn [filter]; auto. destruct (Nat.ltb_spec 1 (length c)); [now rewrite IH|lia]. Qed.
  Lemma roundtrip (p : part T) : part_ok p -> exists cl q, to_classes ord p = Some cl /\ from_iter T_eqb cl = Some q /\ part_ok q /\ (forall x y, together q x y <-> together p x y).
  Proof.
    intros Hp. destruct (to_classes_ok p Hp) as (cl & H1 & H2 & H3 & H4 & H5). pose proof (from_iter_spec cl) as F. rewrite (big_all cl H4) in F. destruct (from_iter T_eqb cl) as [q|] eqn:Eq; [|now destruct F].
    exists cl, q. split; auto. split; auto. split; [apply F|]. intros x y. rewrite <- H5. apply F.
  Qed.
  (** [combine]. *)
  Lemma together_refl (p : part T) x : together p x x <-> In x (map fst (class_of p)).
  Proof. unfold together. rewrite in_fst. split; intros [i H]; exists i; tauto. Qed.
  Lemma combine_ok (a b : part T) : part_ok a -> part_ok b ->
    match combine_parts T_eqb ord a b with
    | Some p => part_ok p /\ (forall x y, together p x y <-> together a x y \/ together b x y) /\ (forall x, together a x x -> together b x x -> False)
    | None => exists x, together a x x /\ together b x x
    end.
  Proof.
    intros Ha Hb. unfold combine_parts. set (sh := map (fun xi => (fst xi, snd xi + num_classes a)) (ord (class_of b))).
    assert (Ib : forall z i, In (z, i) (ord (class_of b)) <-> In (z, i) (class_of b)) by (intros; split; apply Permutation_in; [|symmetry]; apply ord_perm).
    assert (Is : forall z i, In (z, i) sh <-> num_classes a <= i /\ In (z, i - num_classes a) (class_of b)).
    { intros z i. unfold sh. rewrite in_map_iff. split.
      - intros ([y j] & [= <- <-] & H). cbn [fst snd]. split; [lia|]. replace (j + num_classes a - num_classes a) with j by lia. now apply Ib.
      - intros [H1 H2]. exists (z, i - num_classes a). split; [cbn; f_equal; lia|now apply Ib]. }
    assert (Fs : map fst sh = map fst (ord (class_of b))) by (unfold sh; rewrite map_map; now apply map_ext).
    assert (Nb : NoDup (map fst sh)). { rewrite Fs. eapply Permutation_NoDup; [symmetry; apply Permutation_map; apply ord_perm|apply Hb]. }
    pose proof (insert_all_spec sh (class_of a) (ok_once _ Ha)) as Hi. destruct (p_insert_all T_eqb (class_of a) sh) as [m|].
    - destruct Hi as [-> Hn]. assert (Hd : forall x, together a x x -> together b x x -> False).
      { intros x X Y. rewrite map_app in Hn. apply nodup_app_inv in Hn. apply (proj2 (proj2 Hn) x); [now apply together_refl|]. apply together_refl in Y. rewrite Fs. eapply Permutation_in; [symmetry; apply Permutation_map; apply ord_perm|auto]. }
      split; [|split; auto].
      + split; cbn [class_of num_classes]; auto.
        * intros x i Hx. apply in_app_iff in Hx. destruct Hx as [Hx|Hx]; [pose proof (ok_ids _ Ha x i Hx); lia|]. apply Is in Hx. pose proof (ok_ids _ Hb x _ (proj2 Hx)). lia.
        * intros i Hi. destruct (Nat.lt_ge_cases i (num_classes a)) as [L|L].
          -- destruct (ok_two _ Ha i L) as (x & y & A & B & C). exists x, y. split; auto. split; apply in_or_app; auto.
          -- destruct (ok_two _ Hb (i - num_classes a) ltac:(lia)) as (x & y & A & B & C). exists x, y. split; auto. split; apply in_or_app; right; apply Is; auto.
      + intros x y. unfold together. cbn [class_of]. split.
        * intros (i & Hx & Hy). apply in_app_iff in Hx, Hy. destruct Hx as [Hx|Hx], Hy as [Hy|Hy].
          -- left. eauto.
          -- apply Is in Hy. pose proof (ok_ids _ Ha x i Hx). lia.
          -- apply Is in Hx. pose proof (ok_ids _ Ha y i Hy). lia.
          -- apply Is in Hx, Hy. right. exists (i - num_classes a). tauto.
        * intros [(i & Hx & Hy)|(i & Hx & Hy)]; [exists i; split; apply in_or_app; auto|]. exists (i + num_classes a). split; apply in_or_app; right; apply Is; (split; [lia|]); replace (i + num_classes a - num_classes a) with i by lia; auto.
    - rewrite map_app in Hi. assert (Hx : exists x, In x (map fst (class_of a)) /\ In x (map fst sh)).
      { pose proof (ok_once _ Ha) as Na. revert Hi Na Nb. generalize (map fst (class_of a)) as l. generalize (map fst sh) as k. clear - T_eqb_eq. intros k l. induction l as [|x l IH]; cbn [app]; intros H H1 H2; [contradiction|].
        apply NoDup_cons_iff in H1. destruct H1 as [H1 H1']. destruct (in_dec (fun a b => match bool_dec (T_eqb a b) true with left e => left (proj1 (T_eqb_eq a b) e) | right e => right (fun h => e (proj2 (T_eqb_eq a b) h)) end) x k) as [Hk|Hk]; [exists x; cbn; auto|].
        destruct IH as (y & Y1 & Y2); auto; [|exists y; cbn; auto]. intros X. apply H. constructor; auto. rewrite in_app_iff. tauto. }
      destruct Hx as (x & X1 & X2). exists x. split; apply together_refl; auto. rewrite Fs in X2. eapply Permutation_in; [apply Permutation_map; apply ord_perm|auto].
  Qed.
End PartFacts.
(** [map_elements]. *)
Lemma map_elements_ok {T T2} (T2_eqb : T2 -> T2 -> bool) (H2 : forall x y, T2_eqb x y = true <-> x = y) (ord : list (T * nat) -> list (T * nat)) (Ho : forall l, Permutation (ord l) l) (f : T -> T2) p :
  part_ok p -> (forall x y, together p x x -> together p y y -> f x = f y -> x = y) ->
  exists q, map_elements T2_eqb ord f p = Some q /\ part_ok q /\ (forall u v, together q u v <-> exists x y, u = f x /\ v = f y /\ together p x y).
Proof.
  intros Hp Hf. unfold map_elements. set (l := map (fun xi => (f (fst xi), snd xi)) (ord (class_of p))). pose proof (insert_all_spec T2_eqb H2 l [] (NoDup_nil _)) as Hi. cbn [app] in Hi.
  assert (Ia : forall z i, In (z, i) (ord (class_of p)) <-> In (z, i) (class_of p)) by (intros; split; apply Permutation_in; [|symmetry]; apply Ho).
  assert (Il : forall u i, In (u, i) l <-> exists x, u = f x /\ In (x, i) (class_of p)).
  { intros u i. unfold l. rewrite in_map_iff. split; [intros ([x j] & [= <- <-] & H); exists x; split; auto; now apply Ia|]. intros (x & -> & H). exists (x, i). split; auto. now apply Ia. }
  assert (Hn : NoDup (map fst l)).
  { unfold l. rewrite map_map. cbn [fst]. rewrite <- (map_map fst f). assert (Nn : NoDup (map fst (ord (class_of p)))) by (eapply Permutation_NoDup; [symmetry; apply Permutation_map; apply Ho|apply Hp]).
    assert (Hin : forall x, In x (map fst (ord (class_of p))) -> together p x x). { intros x Hx. apply in_fst in Hx. destruct Hx as [i Hx]. apply Ia in Hx. exists i. auto. }
    revert Nn Hin. generalize (map fst (ord (class_of p))) as k. clear - Hf. induction k as [|x k IH]; cbn [map]; intros Hn Hin; [constructor|]. apply NoDup_cons_iff in Hn. destruct Hn as [Hn1 Hn2]. constructor.
    - intros X. apply in_map_iff in X. destruct X as (y & E0 & Hy). apply Hf in E0; [subst; auto|apply Hin; now right|apply Hin; now left].
    - apply IH; auto. intros y Hy. apply Hin. now right. }
  destruct (p_insert_all T2_eqb [] l) as [m|]; [|contradiction]. destruct Hi as [-> _]. eexists. split; [reflexivity|]. split.
  - split; cbn [class_of num_classes]; auto.
    + intros u i Hu. apply Il in Hu. destruct Hu as (x & _ & Hx). apply (ok_ids _ Hp x i Hx).
    + intros i Hi. destruct (ok_two _ Hp i Hi) as (x & y & A & B & C). exists (f x), (f y). split; [intros E0; apply A; apply Hf; auto; exists i; auto|]. split; apply Il; eauto.
  - intros u v. unfold together. cbn [class_of]. split.
    + intros (i & Hu & Hv). apply Il in Hu, Hv. destruct Hu as (x & -> & Hx), Hv as (y & -> & Hy). exists x, y. repeat split; auto. exists i. auto.
    + intros (x & y & -> & -> & i & Hx & Hy). exists i. split; apply Il; eauto.
Qed.
